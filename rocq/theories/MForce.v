(** M and ForceM of a list of qubits, as QInterface has them (/repo/src/qinterface/qinterface.cpp:226-259 and
    /repo/include/qinterface.hpp:2361); QEngine has its own (C69).

    - The register is a state vector; ForceM of one qubit is a relation: an outcome that has amplitude, the projection
      scaled by a factor [nrm] that may depend on everything, and an exception for a forced outcome without amplitude.
    - MultiShotMeasureMask is that of MShots.v; the clone of the single shot shows a basis state that has amplitude. *)
From Coq Require Import NArith Arith List Bool.
From Verif Require Import Amp SpecState MTensor MShots.
Import ListNotations.
Local Open Scope N_scope.

Section Force.
  Context {K : StarRing}.
  Local Notation vec := (N -> K).
  Variable nrm : vec -> N -> bool -> K.

  (** ForceM(qubit, result, doForce, doApply), with [fo] = Some result when doForce. *)
  Definition has_outcome (n q : N) (b : bool) (psi : vec) : Prop := exists x, x < 2 ^ n /\ N.testbit x q = b /\ psi x <> 0%amp.
  Definition collapse (q : N) (b : bool) (psi : vec) : vec := fun x => if Bool.eqb (N.testbit x q) b then (nrm psi q b * psi x)%amp else 0%amp.
  Definition force_one (n q : N) (fo : option bool) (apply : bool) (psi : vec) (r : out (bool * vec)) : Prop :=
    (exists b, has_outcome n q b psi /\ (fo = None \/ fo = Some b) /\ r = Ret (b, if apply then collapse q b psi else psi)) \/
    (exists b, fo = Some b /\ ~ has_outcome n q b psi /\ r = Throws).
  (** The loops of 233-241 and 243-251. *)
  Fixpoint force_loop (n : N) (apply : bool) (l : list (N * option bool)) (psi : vec) (r : out (N * vec)) : Prop :=
    match l with
    | [] => r = Ret (0, psi)
    | (q, fo) :: t => exists r1, force_one n q fo apply psi r1 /\
        match r1 with
        | Ret (b, psi1) => exists r2, force_loop n apply t psi1 r2 /\ r = bind r2 (fun e => Ret (N.lor (if b then 2 ^ q else 0) (fst e), snd e))
        | _ => r = Throws
        end
    end.
  (** ForceM, 226-259; M(bits) is the call without values and with doApply. *)
  Definition force_bits (n : N) (bits : list N) (values : list bool) (apply : bool) (psi : vec) (r : out (N * vec)) : Prop :=
    if negb (length values =? 0)%nat && negb (length bits =? length values)%nat then r = Throws
    else if negb (length values =? 0)%nat then force_loop n apply (combine bits (map Some values)) psi r
    else if apply then force_loop n true (map (fun q => (q, None)) bits) psi r
    else exists raw, raw < 2 ^ n /\ psi raw <> 0%amp /\
      r = bind (multi_shot (map (N.pow 2) bits) 1 (fun _ => raw) [0]) (fun m => match m with (k, _) :: _ => Ret (k, psi) | [] => Undef end).
End Force.
