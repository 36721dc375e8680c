(** The depolarizing channels: DepolarizingChannelWeak1Qb and DepolarizingChannelStrong1Qb of QInterface
    (/repo/src/qinterface/gates.cpp:487-523) and DepolarizingChannelWeak1Qb of QTensorNetwork
    (/repo/include/qtensornetwork.hpp:527-547).

    - The register is a state vector; gates act exactly.  [h] is 1/sqrt 2 (SQRT1_2_R1), [i] is I_CMPLX.
    - The angle 2 asin(lambda^(1/4)) of the call of CRY enters by the cosine and the sine of its half ([ang] of MRot.v): the
      sine is lambda^(1/4).  The library functions are not modelled.
    - A run with random outcomes gives a list of end states with weights.  For a measurement the end states are not
      normalised, so that the probability of an outcome is the squared norm of its end state; for a comparison of Rand() with
      [p] the weights are [p] and [1 - p].
    - Dispose of the measured qubit keeps the amplitudes of the basis states with the measured value. *)
From Coq Require Import NArith List Bool.
From Verif Require Import Amp SpecState MRot.
Import ListNotations.
Local Open Scope N_scope.

Section Noise.
  Context {K : StarRing}.
  Local Notation vec := (N -> K).
  Local Open Scope amp_scope.
  Variables (i h : K).

  Definition m_had : mat2 K := mkMat h h h (- h).
  (** Allocate(1U): a qubit |0> at the end (/repo/src/qengine/utility.cpp:52-66). *)
  Definition alloc_one (n : N) (psi : vec) : vec := fun x => if (x <? 2 ^ n)%N then psi x else 0.
  (** H, Allocate and CRY: gates.cpp:493-499, 512-517. *)
  Definition spread (a : ang K) (n q : N) (psi : vec) : vec := gate1 (all_set [q]) n (m_RY a) (alloc_one n (gate1 always q m_had psi)).
  (** QInterface::DepolarizingChannelWeak1Qb, gates.cpp:487-507; [pos] is lambda > 0. *)
  Definition depol_weak (pos : bool) (a : ang K) (n q : N) (psi : vec) : list (K * vec) :=
    if pos then map (fun b => (1, gate1 always q m_had (fun x => spread a n q psi (x + b * 2 ^ n)%N))) [0%N; 1%N] else [(1, psi)].
  (** QInterface::DepolarizingChannelStrong1Qb, gates.cpp:509-523: the index of the new qubit and the state. *)
  Definition depol_strong (a : ang K) (n q : N) (psi : vec) : N * vec := (n, gate1 always q m_had (spread a n q psi)).

  (** QTensorNetwork::DepolarizingChannelWeak1Qb, qtensornetwork.hpp:527-547; [p] is lambda / 3. *)
  Definition maybe (p : K) (q : N) (m : mat2 K) (l : list (K * vec)) : list (K * vec) :=
    flat_map (fun e => [(fst e * p, gate1 always q m (snd e)); (fst e * (1 - p), snd e)]) l.
  Definition depol_tn (pos : bool) (p : K) (q : N) (psi : vec) : list (K * vec) :=
    if pos then maybe p q (mkMat 0 (- i) i 0) (maybe p q (mkMat 0 1 1 0) (maybe p q (mkMat 1 0 0 (- (1))) [(1, psi)])) else [(1, psi)].
End Noise.
