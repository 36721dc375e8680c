(** Proofs for QUnit: programs of calls from a new simulator. *)
From Coq Require Import Arith NArith List Bool Lia Ring Permutation.
From Verif Require Import Bits MFunctions SpecFunctions PFunctions MKernel PKernel Amp PAmp SpecState PApply PCompose PGates PGates2 PProb PQCirc2 PQCirc3 PEngine MShard SpecShard MUnit SpecUnit PShard1 PShard2 PShard3 PShard4 PShard5 PShard6 PShard7 PShard8 PShard9 PUnit1 PUnit2 PUnit3 PUnit4 PUnitW PUnit5 PUnit6 PUnit7 PUnit8 PUnit9 PUnit10 PUnit11 PUnit12 PUnit13 PUnit14 PUnit15 PUnit16 PUnit17 PUnit18 SpecUnit2 PUnit19 PUnit20 PUnit21 PUnit22 PUnit23.
Import ListNotations.
Local Open Scope N_scope.

Section P.
  Context {K : StarRing} (cx : Cplx K) (D : positive (K := K)).
  Add Ring KrCN : (sr_ring K).
  Local Notation vec := (N -> K).
  Local Notation unit1 x := (anorm x = 1%amp).
  Local Notation qu := (qunit K).
  Local Notation good := (good cx).
  Local Notation logical := (logical cx).
  Implicit Types (U V : qu) (psi phi : vec) (R : N -> N -> Prop).

  Lemma first_step n c used R psi : (forall d t, R d t -> In d used) -> first_call cx used c -> safe_call cx n R psi c /\ (forall d t, links_after cx R c d t -> In d (used_after used c)).
  Proof.
    intros HR H0. destruct c as [g|x|q|p]; cbn [first_call safe_call links_after used_after] in *; try (split; [exact I|]; try exact HR; intros d t []).
    split.
    - intros q p Hq Hl. exfalso. apply HR in Hl. destruct g; cbn [hadamards gate_first] in *; try contradiction; [subst; tauto| |]; destruct Hq as [Hm ->]; apply (H0 Hm Hl).
    - destruct g as [q|q|q|x y q|x y q|m q|l m t|a b]; cbn [gate_first controls_after] in *.
      1: intros c p [H|[[H H']|[]]]; [apply (HR c p H)|]; cbn [hadamards] in H; subst p; apply HR in H'; tauto.
      1-4: intros c p [H|[[[] _]|[]]]; apply (HR c p H).
      1: intros c p [H|[[[Hm ->] H']|[]]]; [apply (HR c p H)|apply HR in H'; destruct (H0 Hm H')].
      1: intros c p [H|[[[Hm ->] H']|[-> H]]]; apply in_or_app; [right; apply (HR c p H)|apply HR in H'; destruct (H0 Hm H')|left; exact H].
      intros c p H. cbn [relink] in H. apply HR, (in_map (swapped a b)) in H. rewrite swapped_twice in H. exact H.
  Qed.
  Lemma first_calls n cs : forall (used : list N) R psi, (forall c t, R c t -> In c used) -> h_first_calls cx used cs -> h_safe_calls cx n R psi cs.
  Proof.
    induction cs as [|c cs IH]; intros used R psi HR HH; [exact I|]. destruct HH as [H0 HH]. destruct (first_step n c used R psi HR H0) as [A1 A2]. split; [exact A1|]. apply (IH _ _ _ A2 HH).
  Qed.

  Lemma start_ok rgp n perm ph rnd cs : (forall j, unit1 (ph j)) -> perm < 2 ^ n -> Forall (proper_call n) cs -> h_safe_calls cx n (fun _ _ => False) (ket perm) cs ->
    let U := calls cx cs (new_unit rgp n perm ph rnd) in good U /\ u_n U = n /\ u_rnd U = rnd /\ upto_phase n (logical U) (ideal_calls cx cs (ket perm)).
  Proof.
    intros HP Hp HF HS. cbn zeta. destruct (new_logical cx rgp n perm ph rnd HP Hp) as (G & En & [_ Er] & C & HL).
    destruct (calls_ok cx D n cs (fun _ _ => False) _ (ket perm) G En HF) as (G' & L' & N' & _ & R'); auto; [intros c t H; destruct (C c t H)|]. split; [exact G'|]. split; [exact N'|]. split; [congruence|exact L'].
  Qed.
  Lemma amps_ok U n psi : good U -> u_n U = n -> upto_phase n (logical U) psi -> upto_phase n (fun x => fst (GetAmplitude cx x U)) psi.
  Proof. intros G En HL. eapply upto_like; [apply (amplitude_like cx D U G)|exact HL]. Qed.
  Lemma amps_norm U : good U -> norm2 (u_n U) (fun x => fst (GetAmplitude cx x U)) = 1%amp.
  Proof. intros G. rewrite <- (logical_norm cx U G). apply upto_norm. apply amps_ok; auto. exists 1%amp. split; [apply unit_one|]. intros x _. ring. Qed.
  Lemma amps_keep U V n : good U -> keeps cx U V -> upto_phase n (fun x => fst (GetAmplitude cx x V)) (fun x => fst (GetAmplitude cx x U)).
  Proof.
    intros G Kp. destruct (like_trans _ _ _ (amplitude_like cx D V (kp_good cx _ _ Kp)) (like_trans _ _ _ (keeps_logical cx U V Kp) (like_sym _ _ (amplitude_like cx D U G)))) as (c & Hc & E).
    exists c. split; [exact Hc|]. intros x _. apply E.
  Qed.
  Lemma good_placed U : good U -> well_placed U.
  Proof.
    intros G. pose proof (gd_wf cx U G) as W. destruct (wf_placed U W) as [P1 P2 P3]. destruct (wf_sw U W) as (B1 & B2 & _). unfold well_placed. auto 6.
  Qed.
  Lemma set_perm_amps perm U : (forall j, unit1 (u_ph U j)) -> u_ub U = false -> perm < 2 ^ u_n U -> upto_phase (u_n U) (fun x => fst (GetAmplitude cx x (SetPermutation perm U))) (ket perm).
  Proof.
    intros HP HU Hp. destruct (set_perm_ok cx perm U HP HU) as (G & Pz & C & HN & HS & HR & c & Hc & E). apply amps_ok; [exact G|exact HN|]. exists c. split; [exact Hc|]. intros x Hx. unfold PUnit20.logical, at_logical.
    rewrite (plain_meaning cx _ Pz), E, HS, HN. rewrite (phys_id (u_n U) x Hx), (ket_bits (u_n U) perm x Hp Hx). reflexivity.
  Qed.
End P.
