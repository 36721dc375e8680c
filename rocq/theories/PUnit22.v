(** Proofs for QUnit: calls that read. *)
From Coq Require Import Arith NArith List Bool Lia Ring Permutation.
From Verif Require Import Bits MFunctions SpecFunctions PFunctions MKernel PKernel Amp PAmp SpecState PApply PCompose PGates PGates2 PProb PQCirc2 PQCirc3 PEngine MShard SpecShard MUnit SpecUnit PShard1 PShard2 PShard3 PShard4 PShard5 PShard6 PShard7 PShard8 PShard9 PUnit1 PUnit2 PUnit3 PUnit4 PUnit5 PUnit6 PUnit7 PUnit8 PUnit9 PUnit10 PUnit11 PUnit12 PUnit13 PUnit14 PUnit15 PUnit16 PUnit17 PUnit18 SpecUnit2 PUnit19 PUnit20 PUnit21.
Import ListNotations.
Local Open Scope N_scope.
Local Notation up n := (upto (N.to_nat n)).

Section P.
  Context {K : StarRing} (cx : Cplx K) (D : definite (K := K)).
  Add Ring KrCK : (sr_ring K).
  Local Notation vec := (N -> K).
  Local Notation unit1 x := (anorm x = 1%amp).
  Local Notation M2 := (mat2 K).
  Local Notation qu := (qunit K).
  Local Notation framed := (framed cx).
  Local Notation meaning := (meaning cx).
  Local Notation good := (good cx).
  Local Notation keeps := (keeps cx).
  Local Notation logical := (logical cx).
  Implicit Types (U V : qu) (psi phi : vec) (s : shards K) (R : N -> N -> Prop).

  Lemma prob_keeps q U : good U -> q < u_n U -> keeps U (snd (Prob cx q U)).
  Proof.
    intros G Hq. unfold Prob. destruct (perm_prob_ok cx D q U G Hq) as (K1 & B1 & _). set (U1 := ToPermBasisProb cx (RevertBasis2Qb cx) q U) in *.
    destruct (probe cx D q U1) as (V & E & S & _); [apply K1|apply K1|rewrite (keeps_n cx _ _ K1); exact Hq|exact B1|]. rewrite E. cbn [snd].
    eapply keeps_trans; [exact K1|]. apply sound_keeps; [apply K1|exact S].
  Qed.
  Lemma amp_keeps x U : good U -> keeps U (snd (GetAmplitude cx x U)).
  Proof. intros G. apply (all_ok cx D U G). Qed.
  Lemma keeps_step R U V : keeps U V -> track R U -> track R V.
  Proof. intros [_ _ (_ & E1 & E2 & _) C] T c t H. rewrite E1, E2. apply T, C, H. Qed.
  Lemma keeps_upto n U V psi : keeps U V -> upto_phase n (logical U) psi -> upto_phase n (logical V) psi.
  Proof. intros Kp H. eapply upto_like; [apply (keeps_logical cx U V Kp)|exact H]. Qed.
  Lemma good_ph U : good U -> forall j, unit1 (u_ph U j). Proof. intros G. apply (wf_ph U (gd_wf cx U G)). Qed.
  Lemma perm_logical perm U : good U -> perm < 2 ^ u_n U -> let V := SetPermutation perm U in good V /\ u_n V = u_n U /\ (u_rgp V = u_rgp U /\ u_rnd V = u_rnd U) /\ (forall c t, ~ links V c t) /\ upto_phase (u_n U) (logical V) (ket perm).
  Proof.
    intros G Hp. cbn zeta. destruct (set_perm_ok cx perm U (good_ph U G) (gd_ub cx U G)) as (G' & Pz & C & HN & HS & HR & c & Hc & E). set (V := SetPermutation perm U) in *. clearbody V.
    split; [exact G'|]. split; [exact HN|]. split; [exact HR|]. split; [exact C|]. exists c. split; [exact Hc|]. intros x Hx. unfold PUnit20.logical, at_logical. rewrite (plain_meaning cx _ Pz), E, HS, HN.
    rewrite (phys_id (u_n U) x Hx), (ket_bits (u_n U) perm x Hp Hx). reflexivity.
  Qed.
  Lemma amp_unlinked x U : good U -> forall c t, ~ links (snd (GetAmplitude cx x U)) c t.
  Proof. intros G c t (a & b & E). cbn [GetAmplitude snd] in E. destruct (all_ok cx D U G) as [_ Pz]. rewrite (proj1 Pz) in E. discriminate. Qed.
  Lemma call_ok n R c U psi : good U -> u_n U = n -> proper_call n c -> track R U -> safe_call cx n R psi c -> upto_phase n (logical U) psi ->
    let V := call cx c U in good V /\ u_n V = n /\ track (links_after cx R c) V /\ upto_phase n (logical V) (ideal_call cx c psi) /\ u_rgp V = u_rgp U /\ u_rnd V = u_rnd U.
  Proof.
    intros G En Hc T H0 HL. cbn zeta. destruct c as [g|x|q|p]; cbn [call ideal_call proper_call safe_call links_after] in *.
    - assert (Z : step_ok cx R g U (invoke cx g U)) by (apply (one_step cx D n R g U psi); assumption). destruct Z as [Z1 Z2 Z3 Z4 [Z5 Z6]].
      split; [exact Z1|]. split; [congruence|]. split; [assumption|]. split; [|split; assumption]. eapply upto_like; [exact Z2|]. apply ideal_upto; assumption.
    - pose proof (amp_keeps x U G) as Kp. split; [apply (kp_good cx _ _ Kp)|]. split; [rewrite (keeps_n cx _ _ Kp); exact En|]. split; [intros c t H; destruct (amp_unlinked x U G c t H)|].
      split; [apply (keeps_upto n U _ psi Kp HL)|]. split; apply (kp_held cx _ _ Kp).
    - assert (Hq : u_sw U q < u_n U) by (apply (wf_sw U (gd_wf cx U G)); rewrite En; exact Hc). pose proof (prob_keeps (u_sw U q) U G Hq) as Kp.
      split; [apply (kp_good cx _ _ Kp)|]. split; [rewrite (keeps_n cx _ _ Kp); exact En|]. split; [apply (keeps_step R U _ Kp T)|].
      split; [apply (keeps_upto n U _ psi Kp HL)|]. split; apply (kp_held cx _ _ Kp).
    - rewrite <- En in Hc. destruct (perm_logical p U G Hc) as (P1 & P2 & P3 & P4 & P5). rewrite En in P5.
      split; [exact P1|]. split; [congruence|]. split; [intros c t H; destruct (P4 c t H)|]. split; [exact P5|exact P3].
  Qed.
  Lemma calls_ok n cs : forall R U psi, good U -> u_n U = n -> Forall (proper_call n) cs -> track R U -> h_safe_calls cx n R psi cs -> upto_phase n (logical U) psi ->
    good (calls cx cs U) /\ upto_phase n (logical (calls cx cs U)) (ideal_calls cx cs psi) /\ u_n (calls cx cs U) = n /\ u_rgp (calls cx cs U) = u_rgp U /\ u_rnd (calls cx cs U) = u_rnd U.
  Proof.
    induction cs as [|c cs IH]; intros R U psi G En HF T HH HL; [split; [exact G|]; split; [exact HL|split; [exact En|split; reflexivity]]|].
    inversion HF as [|c' cs' Hc HF' E]; subst c' cs'. change (calls cx (c :: cs) U) with (calls cx cs (call cx c U)). change (ideal_calls cx (c :: cs) psi) with (ideal_calls cx cs (ideal_call cx c psi)).
    destruct HH as [H0 HH]. destruct (call_ok n R c U psi G En Hc T H0 HL) as (A1 & A2 & A3 & A4 & A5 & A6).
    destruct (IH _ _ _ A1 A2 HF' A3 HH A4) as (I1 & I2 & I3 & I4 & I5). split; [exact I1|]. split; [exact I2|]. split; [exact I3|]. split; congruence.
  Qed.
End P.
