(** Vocabulary for statements about measurements on QUnit. *)
From Coq Require Import NArith List Bool.
From Verif Require Import Amp SpecState MShard MUnit SpecUnit SpecUnit2.
Import ListNotations.
Local Open Scope N_scope.

Section S.
  Context {K : StarRing} (cx : Cplx K).
  Local Open Scope amp_scope.

  (** The outcome of a measurement with the probability [p] of 1: certain, or the result of some comparison of a random number with [p]. *)
  Definition chosen (rnd : N -> K -> bool) (p : K) (r : bool) : Prop := (p = 1 /\ r = true) \/ (p = 0 /\ r = false) \/ (p <> 1 /\ p <> 0 /\ exists j, r = rnd j p).
  (** The sum of the squared magnitudes of the amplitudes with qubit [q] equal to [r], and the part of the state with that value. *)
  Definition chance (n q : N) (r : bool) (psi : N -> K) : K := asum (fun x => if eqb (N.testbit x q) r then anorm (psi x) else 0) (basis n).
  Definition collapse (q : N) (r : bool) (psi : N -> K) : N -> K := fun x => if eqb (N.testbit x q) r then psi x else 0.
  (** What is needed of the factor GetNonunitaryPhase() / sqrt(p). *)
  Definition normalizes (nrm : K -> K) : Prop := forall (l : list N) (f : N -> K), let p := asum (fun x => anorm (f x)) l in p <> 0 -> anorm (nrm p) * p = 1.
  (** The first state is the second, normalised. *)
  Definition normalized (n : N) (f g : N -> K) : Prop := asum (fun x => anorm (f x)) (basis n) = 1 /\ exists c, forall x, (x < 2 ^ n)%N -> f x = c * g x.

  (** Calls with measurements (include/qinterface.hpp: M; include/qunit.hpp: ForceM with doForce and doApply). *)
  Inductive mcall :=
  | MCall (c : @ucall K)
  | MMeasure (q : N)
  | MForce (q : N) (r : bool).
  Definition proper_mcall (n : N) (m : mcall) : Prop :=
    match m with
    | MCall c => proper_call n c
    | MMeasure q | MForce q _ => (q < n)%N
    end.
  (** The results of the measurements, and the simulator. *)
  Fixpoint mcalls (nrm : K -> K) (ms : list mcall) (U : qunit K) : list bool * qunit K :=
    match ms with
    | [] => ([], U)
    | MCall c :: ms => mcalls nrm ms (call cx c U)
    | MMeasure q :: ms => let '(r, V) := QM cx nrm (u_sw U q) U in let '(rs, W) := mcalls nrm ms V in (r :: rs, W)
    | MForce q b :: ms => let '(r, V) := ForceM cx nrm (u_sw U q) b true true U in let '(rs, W) := mcalls nrm ms V in (r :: rs, W)
    end.
  (** The state, not normalised, after the calls with the given results. *)
  Fixpoint ideal_mcalls (ms : list mcall) (rs : list bool) (psi : N -> K) : N -> K :=
    match ms with
    | [] => psi
    | MCall c :: ms => ideal_mcalls ms rs (ideal_call cx c psi)
    | (MMeasure q | MForce q _) :: ms => ideal_mcalls ms (tl rs) (collapse q (hd false rs) psi)
    end.
  (** The results are drawn with the probabilities of the state; forced results are as forced; no result is impossible. *)
  Fixpoint drawn (rnd : N -> K -> bool) (n : N) (ms : list mcall) (rs : list bool) (psi : N -> K) : Prop :=
    match ms, rs with
    | [], [] => True
    | MCall c :: ms, _ => drawn rnd n ms rs (ideal_call cx c psi)
    | MMeasure q :: ms, r :: rs => (exists p, p * asum (fun x => anorm (psi x)) (basis n) = chance n q true psi /\ chosen rnd p r) /\ chance n q r psi <> 0 /\ drawn rnd n ms rs (collapse q r psi)
    | MForce q b :: ms, r :: rs => r = b /\ chance n q r psi <> 0 /\ drawn rnd n ms rs (collapse q r psi)
    | _, _ => False
    end.
  (** Forced outcomes are possible. *)
  Fixpoint possible (n : N) (ms : list mcall) (rs : list bool) (psi : N -> K) : Prop :=
    match ms with
    | [] => True
    | MCall c :: ms => possible n ms rs (ideal_call cx c psi)
    | MMeasure q :: ms => possible n ms (tl rs) (collapse q (hd false rs) psi)
    | MForce q r :: ms => (exists x, (x < 2 ^ n)%N /\ N.testbit x q = r /\ psi x <> 0) /\ possible n ms (tl rs) (collapse q (hd false rs) psi)
    end.
  (** As [h_safe_calls].  A qubit is measured only if the controls of waiting gates stay undecided (so it is not itself such a control). *)
  Fixpoint safe_mcalls (n : N) (linked : N -> N -> Prop) (psi : N -> K) (ms : list mcall) (rs : list bool) : Prop :=
    match ms with
    | [] => True
    | MCall c :: ms => safe_call cx n linked psi c /\ safe_mcalls n (links_after cx linked c) (ideal_call cx c psi) ms rs
    | (MMeasure q | MForce q _) :: ms => let psi' := collapse q (hd false rs) psi in
        (forall c t, linked c t -> undecided n c psi') /\ safe_mcalls n linked psi' ms (tl rs)
    end.
  (** The static condition: Hadamard-like gates before controls, measurements only before controls; GetAmplitude and SetPermutation make a new start. *)
  Fixpoint first_mcalls (used : list N) (ms : list mcall) : Prop :=
    match ms with
    | [] => True
    | MCall c :: ms => first_call cx used c /\ first_mcalls (used_after used c) ms
    | (MMeasure _ | MForce _ _) :: ms => used = [] /\ first_mcalls used ms
    end.
End S.
