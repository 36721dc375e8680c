(** Vocabulary for statements about the engine model. *)
From Coq Require Import NArith.
From Verif Require Import MKernel Amp MEngine.
Local Open Scope N_scope.

(** The loop of 2^n items can run without index overflow. *)
Definition fits (c : cfg) (n : N) : Prop :=
  1 <= cf_cores c /\ 0 < cf_stride c /\ n < 64 /\ 2 ^ n + (cf_cores c + 2) * cf_stride c < 2 ^ 64.

(** An operation always has an outcome, and every outcome satisfies [Q] (whatever the thread schedule). *)
Definition every_run {T} (R Q : T -> Prop) : Prop := (exists r, R r) /\ forall r, R r -> Q r.

Section S.
  Context {K : StarRing}.
  Local Notation V := (mem K).
  (** A gate call succeeds and its effect is [spec], up to a global phase only when the engine's global phase is
      random, there are no controls and the matrix is that phase. *)
  Definition gate_result (n : N) (rgp : bool) (cs : list N) (m : mat2 K) (psi spec : V) (r : res (option V)) : Prop :=
    exists psi' ph, r = Ok (Some psi') /\ (forall x, x < 2 ^ n -> spec x = (ph * psi' x)%amp) /\
      (ph = 1%amp \/ rgp = true /\ cs = nil /\ m = mkMat ph 0%amp 0%amp ph).
End S.
