(** Independent specification of operations on quantum states: a state of [n] qubits is a function on the basis
    states 0 .. 2^n-1, whose bit [q] is the value of qubit [q]. *)
From Coq Require Import NArith List Bool.
From Verif Require Import Amp.
Import ListNotations.
Local Open Scope N_scope.

(** The numbers 0 .. n-1. *)
Fixpoint upto (n : nat) : list N :=
  match n with
  | O => []
  | S k => upto k ++ [N.of_nat k]
  end.
(** All basis states of [n] qubits. *)
Definition basis (n : N) : list N := upto (N.to_nat (2 ^ n)).

Section Spec.
  Context {K : StarRing}.
  Local Notation vec := (N -> K).

  (** Equality of states of [n] qubits. *)
  Definition eqv (n : N) (f g : vec) : Prop := forall x, x < 2 ^ n -> f x = g x.

  (** Total squared norm, and the part carried by basis states satisfying [P]. *)
  Definition weight_of (n : N) (P : N -> bool) (psi : vec) : K := asum (fun x => if P x then anorm (psi x) else 0%amp) (basis n).
  Definition norm2 (n : N) (psi : vec) : K := asum (fun x => anorm (psi x)) (basis n).

  (** The 2x2 matrix [m] on qubit [t], for basis states satisfying the control condition [P]. *)
  Definition gate1 (P : N -> bool) (t : N) (m : mat2 K) (psi : vec) : vec :=
    fun x => if P x then
               if N.testbit x t then (m10 m * psi (N.clearbit x t) + m11 m * psi x)%amp
               else (m00 m * psi x + m01 m * psi (N.setbit x t))%amp
             else psi x.

  (** Exchange the values of qubits [a] and [b] of a basis state. *)
  Definition swap_bits (a b x : N) : N :=
    let f i v y := if v : bool then N.setbit y i else N.clearbit y i in
    f a (N.testbit x b) (f b (N.testbit x a) x).
  (** The 2x2 matrix [m] between the basis states (a=1,b=0) (first) and (a=0,b=1) (second), for basis states
      satisfying [P]; the other two are untouched. *)
  Definition gate_swap (P : N -> bool) (a b : N) (m : mat2 K) (psi : vec) : vec :=
    fun x => if P x && xorb (N.testbit x a) (N.testbit x b) then
               let y := swap_bits a b x in
               if N.testbit x a then (m00 m * psi x + m01 m * psi y)%amp else (m10 m * psi y + m11 m * psi x)%amp
             else psi x.
End Spec.

(** Control conditions. *)
Definition always (x : N) : bool := true.
Definition all_set (cs : list N) (x : N) : bool := forallb (fun q => N.testbit x q) cs.
Definition all_clear (cs : list N) (x : N) : bool := forallb (fun q => negb (N.testbit x q)) cs.
(** The [i]-th control equals bit [i] of [p]. *)
Fixpoint match_perm (i : N) (cs : list N) (p x : N) : bool :=
  match cs with
  | [] => true
  | q :: t => Bool.eqb (N.testbit x q) (N.testbit p i) && match_perm (i + 1) t p x
  end.

(** The register of [len] qubits starting at [s]. *)
Definition get_reg (x s len : N) : N := (x / 2 ^ s) mod 2 ^ len.
(** Parity of the bits of [x] (below [k]). *)
Fixpoint odd_bits (k : nat) (x : N) : bool :=
  match k with
  | O => false
  | S j => xorb (N.testbit x (N.of_nat j)) (odd_bits j x)
  end.
(** Number of set bits of [x] (below [k]). *)
Fixpoint count_bits (k : nat) (x : N) : nat :=
  match k with
  | O => O
  | S j => ((if N.testbit x (N.of_nat j) then 1 else 0) + count_bits j x)%nat
  end.
(** The number whose bit [i] is the value of the [i]-th listed qubit. *)
Fixpoint ctrl_value (i : N) (cs : list N) (x : N) : N :=
  match cs with
  | [] => 0
  | q :: t => (if N.testbit x q then 2 ^ i else 0) + ctrl_value (i + 1) t x
  end.
(** Insert a zero bit at each listed position, in order. *)
Definition insert_zeros (ps : list N) (x : N) : N :=
  fold_left (fun y p => y mod 2 ^ p + y / 2 ^ p * 2 ^ (p + 1)) ps x.

Section Tensor.
  Context {K : StarRing}.
  Local Notation vec := (N -> K).

  (** Tensor product: [a] on the low [na] qubits, [b] above. *)
  Definition tensor (na : N) (a b : vec) : vec := fun x => (a (x mod 2 ^ na) * b (x / 2 ^ na))%amp.
  (** The same with the [nb] qubits of [b] inserted at position [s]. *)
  Definition outside (x s len : N) : N := x mod 2 ^ s + x / 2 ^ (s + len) * 2 ^ s.
  Definition tensor_at (s nb : N) (a b : vec) : vec := fun x => (a (outside x s nb) * b (get_reg x s nb))%amp.
  (** Several factors in order. *)
  Fixpoint tensor_many (na : N) (a : vec) (l : list (N * vec)) : vec :=
    match l with
    | [] => a
    | (k, b) :: t => tensor_many (na + k) (tensor na a b) t
    end.
  (** A basis state. *)
  Definition ket (k : N) : vec := fun x => if x =? k then 1%amp else 0%amp.
  (** Remove the register at [s]: the amplitudes of the basis states in which it holds [p]. *)
  Definition slice (s len p : N) (a : vec) : vec := fun x => a (x mod 2 ^ s + p * 2 ^ s + x / 2 ^ s * 2 ^ (s + len)).
End Tensor.

Section More.
  Context {K : StarRing}.
  Local Notation vec := (N -> K).

  (** The phase [ph] where the masked bits have odd parity, [phA] elsewhere. *)
  Definition parity_phase (mask : N) (ph phA : K) (psi : vec) : vec :=
    fun x => ((if odd_bits 64 (N.land x mask) then ph else phA) * psi x)%amp.
  (** The matrix acts symmetrically in the two qubits (all matrices of the swap family do). *)
  Definition sym2 (m : mat2 K) : Prop := m00 m = m11 m /\ m01 m = m10 m.
  (** Four entries per matrix, in order. *)
  Definition layout (mtrxs : N -> K) (M : N -> mat2 K) : Prop :=
    forall k, m00 (M k) = mtrxs (4 * k) /\ m01 (M k) = mtrxs (4 * k + 1) /\ m10 (M k) = mtrxs (4 * k + 2) /\ m11 (M k) = mtrxs (4 * k + 3).
  (** Total number of qubits of [na] and the listed operands. *)
  Definition sum_sizes (na : N) (srcs : list (N * vec)) : N := fold_left (fun a s => a + fst s) srcs na.
  (** Project onto [P] and scale by [g]. *)
  Definition project (P : N -> bool) (g : K) (psi : vec) : vec := fun x => if P x then (g * psi x)%amp else 0%amp.
  (** Replace the amplitudes of the range [offset, offset+len). *)
  Definition overwrite (offset len : N) (page psi : vec) : vec :=
    fun x => if (offset <=? x) && (x <? offset + len) then page (x - offset) else psi x.
End More.
