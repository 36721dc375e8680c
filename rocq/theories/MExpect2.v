(** ExpVarUnitaryAll of QInterface (ExpectationUnitaryAll and VarianceUnitaryAll), /repo/src/qinterface/qinterface.cpp (cited
    by line; rot: is /repo/src/qinterface/rotational.cpp), in both forms, on a state vector as in MExpect.v.

    - [recip] is the division 1 / x of inv2x2; lists shorter than the code assumes are undefined behaviour.
    - Three angles are given by cos and sin of theta / 2, exp(i phi) and exp(i lambda); their negation is exact. *)
From Coq Require Import NArith Arith List Bool.
From Verif Require Import Amp SpecState MTensor MExpect.
Import ListNotations.
Local Open Scope N_scope.

Section Unitary.
  Context {K : StarRing}.
  Variable recip : K -> K.
  Local Notation vec := (N -> K).
  Local Open Scope amp_scope.

  (** inv2x2, /repo/src/common/functions.cpp:204-211. *)
  Definition inv2 (m : mat2 K) : mat2 K :=
    let d := recip (m00 m * m11 m - m01 m * m10 m) in
    mkMat (d * m11 m) (d * - m01 m) (d * - m10 m) (d * m00 m).
  (** The loops of 492-496 and 501-504. *)
  Fixpoint apply_ops (f : mat2 K -> mat2 K) (bits : list N) (ops : list (mat2 K)) (psi : vec) : vec :=
    match bits, ops with
    | q :: bs, m :: ms => apply_ops f bs ms (app1 (f m) q psi)
    | _, _ => psi
    end.
  (** Eigenvalues left out: 483-489, 516-522. *)
  Definition default_eigs (bits : list N) (eigs : list K) : list K :=
    match eigs with [] => flat_map (fun _ => [1; - (1)]) bits | _ => eigs end.
  Definition float_call (isExp : bool) : N -> list N -> list K -> vec -> out K := if isExp then exp_floats else var_floats.
  (** ExpVarUnitaryAll with matrices, 476-507: the result and the state left behind. *)
  Definition unitary_all (isExp : bool) (n : N) (bits : list N) (ops : list (mat2 K)) (eigs : list K) (psi : vec) : out (K * vec) :=
    match bits with
    | [] => Ret (1, psi)
    | _ =>
        if (length ops <? length bits)%nat then Undef
        else let psi1 := apply_ops inv2 bits ops psi in
             do r <- float_call isExp n bits (default_eigs bits eigs) psi1;
             Ret (r, apply_ops (fun m => m) bits ops psi1)
    end.

  (** The angles of U, its matrix (rot:18-26), and all three angles negated (526). *)
  Record u3 := mkU { u_c : K; u_s : K; u_ep : K; u_el : K }.
  Definition u_mat (u : u3) : mat2 K := mkMat (u_c u) (u_s u * - u_el u) (u_s u * u_ep u) (u_c u * (u_ep u * u_el u)).
  Definition u_neg (u : u3) : u3 := mkU (u_c u) (- u_s u) (sr_conj (u_ep u)) (sr_conj (u_el u)).
  Fixpoint apply_us (f : u3 -> u3) (bits : list N) (us : list u3) (psi : vec) : vec :=
    match bits, us with
    | q :: bs, u :: t => apply_us f bs t (app1 (u_mat (f u)) q psi)
    | _, _ => psi
    end.
  (** ExpVarUnitaryAll with angles, 509-538. *)
  Definition unitary_all3 (isExp : bool) (n : N) (bits : list N) (us : list u3) (eigs : list K) (psi : vec) : out (K * vec) :=
    match bits with
    | [] => Ret (1, psi)
    | _ =>
        if (length us <? length bits)%nat then Undef
        else let psi1 := apply_us u_neg bits us psi in
             do r <- float_call isExp n bits (default_eigs bits eigs) psi1;
             Ret (r, apply_us (fun u => u) bits us psi1)
    end.
End Unitary.
Arguments u3 : clear implicits.
