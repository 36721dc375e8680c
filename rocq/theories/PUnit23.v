(** Proofs for QUnit: norms and the value of Prob. *)
From Coq Require Import Arith NArith List Bool Lia Ring Permutation.
From Verif Require Import Bits MFunctions SpecFunctions PFunctions MKernel PKernel Amp PAmp SpecState PApply PCompose PGates PGates2 PProb PQCirc2 PQCirc3 PEngine MShard SpecShard MUnit SpecUnit PShard1 PShard2 PShard3 PShard4 PShard5 PShard6 PShard7 PShard8 PShard9 PUnit1 PUnit2 PUnit3 PUnit4 PUnitW PUnit5 PUnit6 PUnit7 PUnit8 PUnit9 PUnit10 PUnit11 PUnit12 PUnit13 PUnit14 PUnit15 PUnit16 PUnit17 PUnit18 SpecUnit2 PUnit19 PUnit20 PUnit21 PUnit22.
Import ListNotations.
Local Open Scope N_scope.
Local Notation up n := (upto (N.to_nat n)).

Section P.
  Context {K : StarRing} (cx : Cplx K) (D : definite (K := K)).
  Add Ring KrCM : (sr_ring K).
  Local Notation vec := (N -> K).
  Local Notation unit1 x := (anorm x = 1%amp).
  Local Notation M2 := (mat2 K).
  Local Notation qu := (qunit K).
  Local Notation framed := (framed cx).
  Local Notation meaning := (meaning cx).
  Local Notation good := (good cx).
  Local Notation keeps := (keeps cx).
  Local Notation logical := (logical cx).
  Implicit Types (U V : qu) (psi phi : vec) (s : shards K) (R : N -> N -> Prop).

  (** ** Weights and norms under buffers and changed bases *)
  Lemma wt_gate_at n s q b k psi : consistent s -> sh_size s = n -> not_inverted s q -> q < n -> wt n q b (gate_at s k psi) = wt n q b psi.
  Proof.
    intros C En HN Hq. destruct k as [[a d] t]. unfold gate_at. destruct (buffer_of s a d t) as [e|] eqn:E; [|reflexivity].
    destruct (key_range _ _ _ _ _ C E) as (Hd & Ht & Hdt). rewrite En in *. pose proof (unitary_of s a d t e C E) as Um.
    destruct (N.eq_dec q t) as [->|Hct].
    - apply wt_diag; [exact Hq|apply diag_of, (HN a d e E)|apply fires_indep; exact Hdt|exact Um].
    - apply wt_apart; [exact Ht|exact Hct|apply fires_indep; exact Hdt|exact Um].
  Qed.
  Lemma wt_pending n s q b psi : consistent s -> sh_size s = n -> not_inverted s q -> q < n -> wt n q b (pending s psi) = wt n q b psi.
  Proof.
    intros C En HN Hq. unfold pending. induction (all_pairs (sh_size s)) as [|k l IH]; cbn [fold_right]; [reflexivity|]. rewrite wt_gate_at by assumption. exact IH.
  Qed.
  Lemma norm_pending n s psi : consistent s -> sh_size s = n -> norm2 n (pending s psi) = norm2 n psi.
  Proof.
    intros C En. unfold pending. induction (all_pairs (sh_size s)) as [|k l IH]; cbn [fold_right]; [reflexivity|]. rewrite <- IH. set (v := fold_right _ psi l). destruct k as [[a d] t]. unfold gate_at. destruct (buffer_of s a d t) as [e|] eqn:E; [|reflexivity].
    destruct (key_range _ _ _ _ _ C E) as (Hd & Ht & Hdt). rewrite En in *. apply gate1_norm; [exact Ht|apply fires_indep; exact Hdt|apply (unitary_of s a d t e C E)].
  Qed.
  Lemma wt_fr n l bas q b psi : (forall p, In p l -> p < n) -> bas q = PauliZ -> wt n q b (fr cx l bas psi) = wt n q b psi.
  Proof.
    intros H Z. induction l as [|p l IH]; [reflexivity|]. unfold fr. cbn [fold_right]. fold (fr cx l bas psi). rewrite <- IH by (intros p' Hp; apply H; right; exact Hp). destruct (N.eq_dec q p) as [<-|Hn].
    - rewrite Z. cbn [bmat]. apply wt_eqv. intros y _. unfold midn. apply gate1_one.
    - apply wt_apart; [apply H; left; reflexivity|exact Hn|apply indep_always|apply bmat_unitary].
  Qed.
  Lemma norm_fr n l bas psi : (forall p, In p l -> p < n) -> norm2 n (fr cx l bas psi) = norm2 n psi.
  Proof.
    intros H. induction l as [|p l IH]; [reflexivity|]. unfold fr. cbn [fold_right]. fold (fr cx l bas psi). rewrite <- IH by (intros p' Hp; apply H; right; exact Hp).
    apply gate1_norm; [apply H; left; reflexivity|apply indep_always|apply bmat_unitary].
  Qed.
  Lemma meaning_norm U : good U -> norm2 (u_n U) (meaning U) = 1%amp.
  Proof.
    intros G. destruct (gd_tidy cx U G) as (C & En & _). pose proof (gd_wf cx U G) as W. unfold PUnit10.meaning. rewrite norm_pending by assumption. unfold PUnit5.framed. rewrite norm_fr by (intros p; apply up_in).
    apply base_norm; [apply (wf_placed U W)|apply (wf_norm U W)|]. intros p Hp E. apply (wf_none U W p Hp E).
  Qed.
  Lemma meaning_wt U q b : good U -> q < u_n U -> bas_of U q = PauliZ -> not_inverted (u_buf U) q -> wt (u_n U) q b (meaning U) = wt (u_n U) q b (base U).
  Proof.
    intros G Hq Z HN. destruct (gd_tidy cx U G) as (C & En & _). unfold PUnit10.meaning. rewrite wt_pending by assumption. unfold PUnit5.framed. apply wt_fr; [intros p; apply up_in|exact Z].
  Qed.

  (** ** Prob *)
  Lemma prob_meaning q U : roots cx -> good U -> q < u_n U -> fst (Prob cx q U) = wt (u_n U) q true (meaning U).
  Proof.
    intros R G Hq. unfold Prob. destruct (perm_prob_ok cx D q U G Hq) as (K1 & B1 & HN & _). set (U1 := ToPermBasisProb cx (RevertBasis2Qb cx) q U) in *.
    pose proof (kp_good cx _ _ K1) as G1. pose proof (keeps_n cx _ _ K1) as E1. rewrite <- E1 in *.
    destruct (probbase_ok cx D q U1 (gd_wf cx U1 G1) (gd_neat cx U1 G1) Hq) as (V & E & S & B & _ & Pd & _). rewrite E. cbn [fst].
    pose proof (sound_keeps cx U1 V G1 S) as K2. pose proof (kp_good cx _ _ K2) as G2. pose proof (keeps_n cx _ _ K2) as E2.
    assert (Hq2 : q < u_n V) by (rewrite E2; exact Hq). destruct (base_exact cx V q (gd_wf cx V G2) Hq2 Pd R) as [-> _].
    rewrite <- (meaning_wt V q true G2 Hq2); [|congruence|].
    - rewrite E2. apply like_wt. eapply like_trans; [apply (kp_like cx _ _ K2)|apply (kp_like cx _ _ K1)].
    - replace (u_buf V) with (u_buf U1) by (symmetry; apply S). exact HN.
  Qed.

  (** ** Logical positions *)
  Lemma msum_moved l (pos : N -> N) (F : vec) (g : N -> N) : (forall i x, In i l -> g (N.clearbit x i) = N.clearbit (g x) (pos i) /\ g (N.setbit x i) = N.setbit (g x) (pos i)) ->
    forall x, msum l (fun y => F (g y)) x = msum (map pos l) F (g x).
  Proof.
    induction l as [|i l IH]; intros H x; cbn [msum map]; [reflexivity|]. rewrite !IH by (intros j y Hj; apply H; right; exact Hj).
    destruct (H i x (or_introl eq_refl)) as [-> ->]. reflexivity.
  Qed.
  Lemma phys_put sw n i x : bij sw n -> i < n -> phys sw n (N.clearbit x i) = N.clearbit (phys sw n x) (sw i) /\ phys sw n (N.setbit x i) = N.setbit (phys sw n x) (sw i).
  Proof.
    intros B Hi. pose proof B as (B1 & B2 & B3). split; apply phys_is; auto.
    - intros j Hj. rewrite !tb_clearbit, tb_phys by assumption. f_equal. f_equal. destruct (N.eqb_spec (sw i) (sw j)) as [E|E], (N.eqb_spec i j) as [E'|E']; try reflexivity; [destruct E'; apply B2; assumption|congruence].
    - intros p Hp. rewrite tb_clearbit, tb_phys_out by assumption. reflexivity.
    - intros j Hj. rewrite !tb_setbit, tb_phys by assumption. f_equal. destruct (N.eqb_spec (sw i) (sw j)) as [E|E], (N.eqb_spec i j) as [E'|E']; try reflexivity; [destruct E'; apply B2; assumption|congruence].
    - intros p Hp. rewrite tb_setbit, tb_phys_out by assumption. rewrite orb_false_r. apply N.eqb_neq. specialize (B1 i Hi). lia.
  Qed.
  Lemma sw_perm sw n : bij sw n -> Permutation (map sw (up n)) (up n).
  Proof.
    intros (B1 & B2 & B3). apply NoDup_Permutation; [|apply upto_nodup|].
    - assert (Z : forall l, NoDup l -> (forall i, In i l -> i < n) -> NoDup (map sw l)).
      { induction 1 as [|i l Hi _ IH]; intros HB; cbn [map]; constructor; [|apply IH; intros j Hj; apply HB; right; exact Hj]. intros H. apply in_map_iff in H. destruct H as (j & Ej & Hj).
        apply B2 in Ej; [subst j; contradiction|apply HB; right; exact Hj|apply HB; left; reflexivity]. }
      apply Z; [apply upto_nodup|]. intros i Hi. apply up_in, Hi.
    - intros p. rewrite in_map_iff, up_in. split; [intros (i & <- & Hi); apply B1, up_in, Hi|]. intros Hp. destruct (B3 p Hp) as (i & Hi & E). exists i. split; [exact E|apply up_in, Hi].
  Qed.
  Lemma asum_phys sw n (f : vec) : bij sw n -> asum (fun x => f (phys sw n x)) (basis n) = asum f (basis n).
  Proof.
    intros B. rewrite <- !msum_all. rewrite (msum_moved (up n) sw f (phys sw n)) by (intros i x Hi; apply up_in in Hi; apply phys_put; assumption).
    rewrite (msum_perm _ _ _ (sw_perm sw n B)). f_equal. apply phys_is; [exact B| |]; intros; rewrite !N.bits_0; reflexivity.
  Qed.
  Lemma logical_norm U : good U -> norm2 (u_n U) (logical U) = 1%amp.
  Proof.
    intros G. rewrite <- (meaning_norm U G). unfold norm2, PUnit20.logical, at_logical. apply (asum_phys (u_sw U) (u_n U) (fun y => anorm (meaning U y))). apply (wf_sw U (gd_wf cx U G)).
  Qed.
  Lemma logical_wt U i b : good U -> i < u_n U -> wt (u_n U) i b (logical U) = wt (u_n U) (u_sw U i) b (meaning U).
  Proof.
    intros G Hi. pose proof (wf_sw U (gd_wf cx U G)) as B. unfold wt, norm2, PUnit20.logical, at_logical.
    rewrite <- (asum_phys (u_sw U) (u_n U) (fun y => anorm (mask (u_sw U i) b (meaning U) y)) B). apply asum_ext. intros x _. unfold mask. rewrite (tb_phys (u_sw U) (u_n U) x i B Hi). reflexivity.
  Qed.
  Lemma upto_wt n j b psi phi : upto_phase n psi phi -> wt n j b psi = wt n j b phi.
  Proof.
    intros (c & Hc & E). unfold wt, norm2. apply asum_ext. intros x Hx. apply up_in in Hx. unfold mask. destruct (eqb (N.testbit x j) b); [|reflexivity]. rewrite E, anorm_mul, Hc by exact Hx. ring.
  Qed.
  Lemma upto_norm n psi phi : upto_phase n psi phi -> norm2 n psi = norm2 n phi.
  Proof. intros (c & Hc & E). unfold norm2. apply asum_ext. intros x Hx. apply up_in in Hx. rewrite E, anorm_mul, Hc by exact Hx. ring. Qed.
  Lemma prob_logical i U psi : roots cx -> good U -> i < u_n U -> upto_phase (u_n U) (logical U) psi -> fst (Prob cx (u_sw U i) U) = weight_of (u_n U) (fun x => N.testbit x i) psi.
  Proof.
    intros R G Hi HL. rewrite prob_meaning; [|exact R|exact G|apply (wf_sw U (gd_wf cx U G)), Hi]. rewrite <- logical_wt, (upto_wt _ _ _ _ _ HL) by assumption. apply wt_true.
  Qed.
End P.
