(** Expectation values and variances of QInterface, /repo/src/qinterface/qinterface.cpp (cited by line; hpp: is
    /repo/include/qinterface.hpp, functions: is /repo/include/common/qrack_functions.hpp), for a register that is a state
    vector, with the bodies of QInterface (QEngineCPU does not override them).

    - ProbAll and Prob are the exact probabilities of the state vector; gates act exactly.
    - A bitCapInt has 128 bits: sums wrap.  [val] is bi_to_double.
    - Arrays of probabilities are functions of the index. *)
From Coq Require Import NArith Arith List Bool.
From Verif Require Import Amp SpecState MTensor MApi.
Import ListNotations.
Local Open Scope N_scope.

(** ThrowIfQbIdArrayIsBad, functions:178-193. *)
Fixpoint ids_bad (n : N) (l : list N) : bool :=
  match l with [] => false | q :: t => (n <=? q) || existsb (N.eqb q) t || ids_bad n t end.
Definition w128 (x : N) : N := x mod 2 ^ 128.
(** The powers of the set bits, the lowest first: 423-429; a mask has at most 128 bits. *)
Fixpoint bit_powers (fuel : nat) (v : N) : list N :=
  match fuel with
  | O => []
  | S f => if v =? 0 then [] else let v' := N.land v (v - 1) in N.land (N.lxor v' v) v :: bit_powers f v'
  end.
(** retIndex: 434-439, 466-471. *)
Fixpoint ret_index (p : N) (powers : list N) (x : N) : N :=
  match powers with [] => 0 | b :: t => N.lor (if N.land x b =? 0 then 0 else 2 ^ p) (ret_index (p + 1) t x) end.
(** retIndex of 567-570 and 607-610: one of two entries of [perms] for every bit, on top of the offset. *)
Fixpoint add_perms (bits perms : list N) (acc x : N) : N :=
  match bits, perms with
  | q :: bs, a :: b :: ps => add_perms bs ps (w128 (acc + (if N.land x (2 ^ q) =? 0 then a else b))) x
  | _, _ => acc
  end.

Section Expect.
  Context {K : StarRing}.
  Variables (ci ch : K) (val : N -> K).
  Local Notation vec := (N -> K).
  Local Open Scope amp_scope.

  Definition prob_all (psi : vec) (x : N) : K := anorm (psi x).
  Definition prob_one (n : N) (psi : vec) (q : N) : K := fold_left (fun a x => if N.testbit x q then a + prob_all psi x else a) (upto (N.to_nat (2 ^ n))) 0.
  (** The loops over all permutations, e.g. 565-572. *)
  Definition sum_all (n : N) (f : N -> K) : K := fold_left (fun a x => a + f x) (upto (N.to_nat (2 ^ n))) 0.
  Definition collect (n : N) (idx : N -> N) (psi : vec) : N -> K :=
    fold_left (fun a x j => if (j =? idx x)%N then a j + prob_all psi x else a j) (upto (N.to_nat (2 ^ n))) (fun _ => 0).

  (** ProbMaskAll, 421-442. *)
  Definition prob_mask_all (n mask : N) (psi : vec) : N -> K := collect n (ret_index 0 (bit_powers 128 mask)) psi.
  (** ProbBitsAll, 444-474. *)
  Definition prob_bits_all (n : N) (bits : list N) (psi : vec) : N -> K :=
    if (N.of_nat (length bits) =? n)%N && forallb (fun e => (fst e =? snd e)%N) (combine bits (upto (length bits))) then prob_all psi
    else collect n (ret_index 0 (map (N.pow 2) bits)) psi.

  (** ExpectationBitsFactorized, 540-575. *)
  Definition exp_bits (n : N) (bits perms : list N) (offset : N) (psi : vec) : out K :=
    if (length perms <? length bits * 2)%nat then Throws
    else if ids_bad n bits then Throws
    else match bits, perms with
         | [], _ => Ret 1
         | [q], a :: b :: _ => let p := prob_one n psi q in Ret (val (w128 (a + offset)) * (1 - p) + val (w128 (b + offset)) * p)
         | _, _ => Ret (sum_all n (fun x => val (add_perms bits perms offset x) * prob_all psi x))
         end.
  (** VarianceBitsFactorized, 577-616. *)
  Definition var_bits (n : N) (bits perms : list N) (offset : N) (psi : vec) : out K :=
    if (length perms <? length bits * 2)%nat then Throws
    else if ids_bad n bits then Throws
    else match bits with
         | [] => Ret 1
         | _ =>
             do mean <- exp_bits n bits perms offset psi;
             match bits, perms with
             | [q], a :: b :: _ =>
                 let p := prob_one n psi q in
                 let d0 := val (w128 (a + offset)) - mean in let d1 := val (w128 (b + offset)) - mean in
                 Ret (d0 * d0 * (1 - p) + d1 * d1 * p)
             | _, _ => Ret (sum_all n (fun x => let d := val (add_perms bits perms offset x) - mean in d * d * prob_all psi x))
             end
         end.
  (** ExpVarBitsAll with ExpectationBitsAll and VarianceBitsAll, hpp:210-220, 2537-2540, 2653-2656. *)
  Definition bit_perms (bits : list N) : list N := flat_map (fun i => [0%N; (2 ^ i)%N]) (upto (length bits)).
  Definition exp_bits_all (n : N) (bits : list N) (offset : N) : vec -> out K := exp_bits n bits (bit_perms bits) offset.
  Definition var_bits_all (n : N) (bits : list N) (offset : N) : vec -> out K := var_bits n bits (bit_perms bits) offset.

  (** The weight of a permutation: a sum in ExpectationFloatsFactorized (795-798), a product in VarianceFloatsFactorized (647-650). *)
  Fixpoint weight_sum (bits : list N) (ws : list K) (acc : K) (x : N) : K :=
    match bits, ws with
    | q :: bs, a :: b :: t => weight_sum bs t (acc + (if (N.land x (2 ^ q) =? 0)%N then a else b)) x
    | _, _ => acc
    end.
  Fixpoint weight_prod (bits : list N) (ws : list K) (acc : K) (x : N) : K :=
    match bits, ws with
    | q :: bs, a :: b :: t => weight_prod bs t (acc * (if (N.land x (2 ^ q) =? 0)%N then a else b)) x
    | _, _ => acc
    end.
  (** ExpectationFloatsFactorized, 769-803. *)
  Definition exp_floats (n : N) (bits : list N) (ws : list K) (psi : vec) : out K :=
    if (length ws <? length bits * 2)%nat then Throws
    else if ids_bad n bits then Throws
    else match bits, ws with
         | [], _ => Ret 1
         | [q], a :: b :: _ => let p := prob_one n psi q in Ret (a * (1 - p) + b * p)
         | _, _ => Ret (sum_all n (fun x => weight_sum bits ws 0 x * prob_all psi x))
         end.
  (** VarianceFloatsFactorized, 618-655; the mean is not used for more than one bit. *)
  Definition var_floats (n : N) (bits : list N) (ws : list K) (psi : vec) : out K :=
    if (length ws <? length bits * 2)%nat then Throws
    else if ids_bad n bits then Throws
    else match bits with
         | [] => Ret 1
         | _ =>
             do mean <- exp_floats n bits ws psi;
             match bits, ws with
             | [q], a :: b :: _ =>
                 let p := prob_one n psi q in
                 let d0 := a - mean in let d1 := b - mean in
                 Ret (d0 * d0 * (1 - p) + d1 * d1 * p)
             | _, _ => Ret (sum_all n (fun x => weight_prod bits ws 1 x * prob_all psi x))
             end
         end.

  (** The removal of identities, 659-665 and 715-721: the list shrinks while the index is counted from its end. *)
  Definition remove_at {A} (j : nat) (l : list A) : list A := firstn j l ++ skipn (S j) l.
  Fixpoint drop_pi (fuel i : nat) (l : list (pauli * N)) : list (pauli * N) :=
    match fuel with
    | O => l
    | S f =>
        if (i <? length l)%nat
        then let j := (length l - (i + 1))%nat in
             if is_pi (fst (nth j l (PZ, 0%N))) then drop_pi f (S i) (remove_at j l) else drop_pi f (S i) l
        else l
    end.
  (** H, S, IS on a qubit; the loops of 673-690 (729-746) and of 694-708 (750-764). *)
  Definition app1 (m : mat2 K) (q : N) (psi : vec) : vec := gate1 always q m psi.
  Fixpoint turn_in (l : list (pauli * N)) (psi : vec) : vec :=
    match l with
    | [] => psi
    | (PX, q) :: t => turn_in t (app1 (mat_H ch) q psi)
    | (PY, q) :: t => turn_in t (app1 (mat_H ch) q (app1 (mat_IS ci) q psi))
    | _ :: t => turn_in t psi
    end.
  Fixpoint turn_out (l : list (pauli * N)) (psi : vec) : vec :=
    match l with
    | [] => psi
    | (PX, q) :: t => turn_out t (app1 (mat_H ch) q psi)
    | (PY, q) :: t => turn_out t (app1 (mat_S ci) q (app1 (mat_H ch) q psi))
    | _ :: t => turn_out t psi
    end.
  (** ExpectationPauliAll, 713-767; VariancePauliAll, 657-711: the result and the state left behind. *)
  Definition pauli_all (f : list N -> list K -> vec -> out K) (l : list (pauli * N)) (psi : vec) : out (K * vec) :=
    match drop_pi (length l) 0 l with
    | [] => Ret (1, psi)
    | l' =>
        let psi1 := turn_in l' psi in
        do r <- f (map snd l') (flat_map (fun _ => [1; - (1)]) l') psi1;
        Ret (r, turn_out l' psi1)
    end.
  Definition exp_pauli (n : N) : list (pauli * N) -> vec -> out (K * vec) := pauli_all (exp_floats n).
  Definition var_pauli (n : N) : list (pauli * N) -> vec -> out (K * vec) := pauli_all (var_floats n).
End Expect.
