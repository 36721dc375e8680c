(** Specification of the shifts. *)
From Coq Require Import NArith List Bool.
From Verif Require Import SpecState SpecAlu.
Local Open Scope N_scope.

(** The register multiplied or divided by 2^k; bits leave at the end and zeros enter. *)
Definition shl_reg (s len k x : N) : N := put_reg x s len ((get_reg x s len * 2 ^ k) mod 2 ^ len).
Definition shr_reg (s len k x : N) : N := put_reg x s len (get_reg x s len / 2 ^ k).
