(** Independent specifications for the gate-level operations of QInterface. *)
From Coq Require Import NArith ZArith List Bool.
From Verif Require Import Amp SpecState SpecAlu.
Import ListNotations.
Local Open Scope N_scope.

(** Register plus constant modulo 2^len; the carry qubit is toggled by the carry-out. *)
Definition add_toggle (s len carry a x : N) : N :=
  put_bit (add_reg s len a x) carry (xorb (N.testbit x carry) (2 ^ len <=? get_reg x s len + a mod 2 ^ len)).
(** The output qubit toggled by a Boolean function of the basis state. *)
Definition toggle (out : N) (F : N -> bool) (x : N) : N := put_bit x out (xorb (N.testbit x out) (F x)).
(** Two-input truth tables. *)
Definition f_and (a b : bool) := a && b.
Definition f_or (a b : bool) := a || b.
Definition f_xor (a b : bool) := xorb a b.
Definition f_nand (a b : bool) := negb (a && b).
Definition f_nor (a b : bool) := negb (a || b).
Definition f_xnor (a b : bool) := negb (xorb a b).
(** Sum of two registers and the carry qubit into a third register, with the carry-out in the carry qubit. *)
Definition add_regs (in1 in2 out len carry x : N) : N :=
  let t := get_reg x in1 len + get_reg x in2 len + N.b2n (N.testbit x carry) in
  put_bit (put_reg x out len (t mod 2 ^ len)) carry (2 ^ len <=? t).
(** The three registers and the carry qubit are pairwise disjoint. *)
Definition adc_regs_ok (n in1 in2 out len carry : N) : Prop :=
  in1 + len <= n /\ in2 + len <= n /\ out + len <= n /\ carry < n /\ disjoint_regs in1 len in2 len /\ disjoint_regs in1 len out len /\
  disjoint_regs in2 len out len /\ outside_reg carry in1 len /\ outside_reg carry in2 len /\ outside_reg carry out len.
(** Product of a register and a constant modulo [N0], added modulo [N0] to the output register. *)
Definition mul_mod_add (m N0 s len o olen x : N) : N := put_reg x o olen ((get_reg x o olen + get_reg x s len * m) mod N0).
(** The product modulo [N0] written to the output register. *)
Definition mul_mod_out (m N0 s len o olen x : N) : N := put_reg x o olen ((get_reg x s len * m) mod N0).
(** Distinct control qubits in range, different from all of [qs]. *)
Definition ctl_ok (n : N) (cs qs : list N) : Prop := NoDup cs /\ forall q, In q cs -> q < n /\ ~ In q qs.
(** The output qubit overwritten by a Boolean function of the basis state (in-place forms). *)
Definition assign (out : N) (F : N -> bool) (x : N) : N := put_bit x out (F x).
(** Square roots of the swap: the matrices between (1,0) and (0,1), with [h] = 1/sqrt 2. *)
Definition sqrt_swap_mat {K : StarRing} (h i : K) : mat2 K := mkMat (h * h * (1 + i))%amp (h * h * (1 - i))%amp (h * h * (1 - i))%amp (h * h * (1 + i))%amp.
Definition isqrt_swap_mat {K : StarRing} (h i : K) : mat2 K := mkMat (h * h * (1 - i))%amp (h * h * (1 + i))%amp (h * h * (1 + i))%amp (h * h * (1 - i))%amp.
Definition iswap_mat {K : StarRing} (i : K) : mat2 K := mkMat 0%amp i i 0%amp.
(** The low [len] bits of [y] in reverse order. *)
Fixpoint rev_bits (len : nat) (y : N) : N :=
  match len with O => 0 | S k => 2 * rev_bits k y + N.b2n (N.testbit y (N.of_nat k)) end.
(** Discrete Fourier transform of a register with root of unity [z] and scale [h] per qubit, output index bit-reversed. *)
Definition dft_rev {K : StarRing} (z h : K) (s len : N) (psi : N -> K) : N -> K := fun y =>
  (apow h (N.to_nat len) * asum (fun x => apow z (N.to_nat (rev_bits (N.to_nat len) (get_reg y s len) * x)%N) * psi (put_reg y s len x)) (basis len))%amp.
(** Input register, output register and controls of the modular multiplication are in range and disjoint. *)
Definition mulmod_ok (n : N) (cs : list N) (s len o olen : N) : Prop :=
  s + len <= n /\ o + olen <= n /\ disjoint_regs s len o olen /\ NoDup cs /\ forall q, In q cs -> q < n /\ outside_reg q s len /\ outside_reg q o olen.
