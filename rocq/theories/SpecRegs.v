(** Specification of the register forms of the logic gates: bitwise functions of words of [len] bits. *)
From Coq Require Import NArith List Bool.
From Verif Require Import SpecState SpecAlu.
Local Open Scope N_scope.

Definition w_and (len a b : N) : N := N.land a b.
Definition w_or (len a b : N) : N := N.lor a b.
Definition w_xor (len a b : N) : N := N.lxor a b.
Definition w_nand (len a b : N) : N := N.lnot (N.land a b) len.
Definition w_nor (len a b : N) : N := N.lnot (N.lor a b) len.
Definition w_xnor (len a b : N) : N := N.lnot (N.lxor a b) len.
(** A word is added modulo 2, bit by bit, to a register. *)
Definition xor_into (out len v x : N) : N := put_reg x out len (N.lxor (get_reg x out len) v).
(** The values of two registers exchanged. *)
Definition exchange (a b len x : N) : N := put_reg (put_reg x a len (get_reg x b len)) b len (get_reg x a len).
