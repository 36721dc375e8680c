(** Proofs about DecomposeDispose. *)
From Coq Require Import NArith ZArith QArith Qfield Lqa List Bool Lia Ring.
From Verif Require Import Bits MFunctions PFunctions MParFor SpecParFor PParFor MKernel PKernel Amp PAmp SpecState MEngine SpecEngine PLoop PApply PCompose MDecompose SpecDecompose.
Import ListNotations.
Local Open Scope N_scope.

Lemma dd_index_ok start len nLen r k : start <= nLen -> nLen + len < 64 -> r < 2 ^ nLen -> k < 2 ^ len ->
  dd_index start len r k = slice_ix start len k r.
Proof.
  intros Hs Hn Hr Hk. apply N.bits_inj. intros j. unfold dd_index. rewrite tb_slice_ix by auto. rewrite pow2MaskOcl_small by lia.
  rewrite land_ones. unfold w64. rewrite !N.lor_spec. autorewrite with tb.
  destruct (N.ltb_spec j start), (N.ltb_spec j (start + len)), (N.ltb_spec j 64), (N.leb_spec len j), (N.leb_spec start j); try lia; cbn [andb orb];
  rewrite ?orb_false_r, ?N.lxor_spec, ?tb_mod2; try (destruct (N.ltb_spec (j - len) start); try lia); cbn [andb]; rewrite ?xorb_nilpotent, ?xorb_false_r, ?andb_false_r; cbn [orb]; auto.
  - apply orb_false_r.
  - rewrite (tb_high k len) by (auto; lia). apply orb_false_r.
  - symmetry. apply (tb_high r nLen); auto. lia.
Qed.

(** ** The race *)
Section Race.
  Context {K : StarRing}.
  Add Ring Kr9 : (sr_ring K).
  Lemma cells_exec (term : N -> N -> K) lcv ks : NoDup ks -> forall m k,
    exec (angle_cells term lcv ks) m k = if in_dec N.eq_dec k ks then (m k + term lcv k)%amp else m k.
  Proof.
    induction 1 as [|k0 ks Hk HD IH]; intros m k; cbn [angle_cells exec]; auto. rewrite IH.
    destruct (in_dec N.eq_dec k ks) as [Hi|Hi], (in_dec N.eq_dec k (k0 :: ks)) as [Hj|Hj]; simpl in *.
    - rewrite mset_neq; auto. intros ->. auto.
    - tauto.
    - destruct Hj as [<-|]; [|tauto]. now rewrite mset_eq.
    - apply mset_neq. intros ->. tauto.
  Qed.
  (** Run one after another, the calls leave the sum of all terms. *)
  Lemma angle_sequential (term : N -> N -> K) part idx : forall m k, k < N.of_nat part ->
    fold_left (fun m p => exec p m) (map (angle_body term part) idx) m k = (m k + asum (fun lcv => term lcv k) idx)%amp.
  Proof.
    induction idx as [|i idx IH]; intros m k Hk; cbn [map fold_left asum]. ring.
    rewrite IH by auto. unfold angle_body. rewrite cells_exec by apply iota_NoDup.
    destruct (in_dec N.eq_dec k (iota 0 part)) as [|H]. ring. exfalso. apply H, iota_In. lia.
  Qed.
End Race.

(** Two threads, one item each: both read the cell before either writes. *)
Lemma angle_race_lost : exists (c : cfg) (term : N -> N -> GI) (m m' : mem GI),
  fits c 1 /\ loop_for c (2 ^ 1) (angle_body term 1) m m' /\ m' 0 <> (m 0%N + asum (fun lcv => term lcv 0%N) (basis 1))%amp.
Proof.
  exists (mkCfg 2 1), (fun lcv k => (1, 0)%Z), (fun _ => (0, 0)%Z), (mset (mset (fun _ => (0, 0)%Z) 0 (1, 0)%Z) 0 (1, 0)%Z).
  split; [vm_compute; repeat split; discriminate|]. split.
  - exists [(0, 0%nat); (1, 1%nat)]. split.
    + unfold par_for, par_for_inc. change (thread_count 2 (p_items _) (p_stride _)) with 2. cbn [N.leb].
      exists [0;1;0;1;0;1;0;1;0;1;0;1]%nat. vm_compute. split; [repeat constructor | reflexivity].
    + exists [0; 1; 0; 1]%nat. reflexivity.
  - vm_compute. discriminate.
Qed.

(** ** The computation *)
Local Open Scope Q_scope.
Lemma qsumf_ext {T} (f g : T -> Q) l : (forall x, In x l -> f x == g x) -> qsumf f l == qsumf g l.
Proof.
  unfold qsumf. induction l as [|x l IH]; intros H; cbn [fold_right]. reflexivity.
  rewrite H by (simpl; auto). rewrite IH. reflexivity. intros; apply H; simpl; auto.
Qed.
Lemma qsumf_scale {T} (f : T -> Q) a l : qsumf (fun x => f x * a) l == qsumf f l * a.
Proof. unfold qsumf. induction l as [|x l IH]; cbn [fold_right]. ring. rewrite IH. ring. Qed.
Lemma qsumf_add {T} (f g : T -> Q) l : qsumf (fun x => f x + g x) l == qsumf f l + qsumf g l.
Proof. unfold qsumf. induction l as [|x l IH]; cbn [fold_right]. ring. rewrite IH. ring. Qed.

Lemma powers_In n x : In x (powers n) <-> (x < 2 ^ n)%N.
Proof. unfold powers. rewrite iota_In. lia. Qed.

Lemma qle0 p : 0 <= p -> (Qle_bool p 0 = true <-> p == 0).
Proof. intros H. rewrite Qle_bool_iff. split; intros; lra. Qed.

Lemma same_angle_eq a b : same_angle a b -> -1 < a <= 1 -> -1 < b <= 1 -> a == b.
Proof.
  intros [z Hz] Ha Hb. assert (z = 0%Z).
  { assert (-2 < 2 * inject_Z z < 2) by lra. assert (H1 : -1 < inject_Z z) by lra. assert (H2 : inject_Z z < 1) by lra.
    change (-1) with (inject_Z (-1)) in H1. change 1 with (inject_Z 1) in H2. rewrite <- Zlt_Qlt in H1, H2. lia. }
  subst. rewrite Hz. change (inject_Z 0) with 0. lra.
Qed.

Section Sep.
  Variables (start len nLen : N) (prob angle pa alpha pb beta : N -> Q).
  Hypotheses (Hs : (start <= nLen)%N) (Hn : (nLen + len < 64)%N) (Hsep : separable start len prob angle pa alpha pb beta)
    (Ha : forall r, (r < 2 ^ nLen)%N -> 0 <= pa r) (Hb : forall k, (k < 2 ^ len)%N -> 0 <= pb k)
    (Sa : qsumf pa (powers nLen) == 1) (Sb : qsumf pb (powers len) == 1)
    (Hw : forall r k, (r < 2 ^ nLen)%N -> (k < 2 ^ len)%N -> 0 < pa r -> 0 < pb k -> -1 < alpha r + beta k <= 1).

  Lemma sep_at r k : (r < 2 ^ nLen)%N -> (k < 2 ^ len)%N ->
    prob (dd_index start len r k) == pa r * pb k /\
    (0 < pa r * pb k -> angle (dd_index start len r k) == alpha r + beta k).
  Proof.
    intros Hr Hk. rewrite (dd_index_ok start len nLen) by auto. pose proof (Hsep (slice_ix start len k r)) as H. cbv zeta in H.
    rewrite outside_slice, reg_slice in H by auto. destruct H as [H1 H2]. split; auto. intros Hp.
    rewrite <- H1 in Hp. destruct (H2 Hp) as [A B]. apply same_angle_eq; auto. rewrite H1 in Hp. pose proof (Ha r Hr) as Ha1. pose proof (Hb k Hk) as Hb1.
    apply Hw; auto; apply Qnot_le_lt; intros L; nra.
  Qed.
  Lemma term_at r k : (r < 2 ^ nLen)%N -> (k < 2 ^ len)%N ->
    dd_norm_arg (prob (dd_index start len r k)) (angle (dd_index start len r k)) == (pa r * alpha r) * pb k + (pb k * beta k) * pa r.
  Proof.
    intros Hr Hk. destruct (sep_at r k Hr Hk) as [P A]. unfold dd_norm_arg. pose proof (Ha r Hr) as Ha1. pose proof (Hb k Hk) as Hb1.
    destruct (Qle_bool _ 0) eqn:E.
    - apply Qle_bool_iff in E. rewrite P in E. assert (Z : pa r * pb k == 0) by nra.
      setoid_replace (pa r * alpha r * pb k + pb k * beta k * pa r) with ((pa r * pb k) * (alpha r + beta k)) by ring. rewrite Z. ring.
    - assert (L : 0 < pa r * pb k). { rewrite <- P. apply Qnot_le_lt. intros L. apply Qle_bool_iff in L. congruence. }
      rewrite (A L), P. ring.
  Qed.
  Lemma part_prob_ok k : (k < 2 ^ len)%N -> dd_part_prob prob start len nLen k == pb k.
  Proof.
    intros Hk. unfold dd_part_prob. rewrite (qsumf_ext _ (fun r => pa r * pb k)). rewrite qsumf_scale, Sa. ring.
    intros r Hr. apply powers_In in Hr. now apply sep_at.
  Qed.
  Lemma rem_prob_ok r : (r < 2 ^ nLen)%N -> dd_rem_prob prob start len r == pa r.
  Proof.
    intros Hr. unfold dd_rem_prob. rewrite (qsumf_ext _ (fun k => pb k * pa r)). rewrite qsumf_scale, Sb. ring.
    intros k Hk. apply powers_In in Hk. rewrite (proj1 (sep_at r k Hr Hk)). ring.
  Qed.
  Definition mean (p a : N -> Q) (l : list N) : Q := qsumf (fun x => p x * a x) l.
  Lemma part_angle_ok k : (k < 2 ^ len)%N -> 0 < pb k ->
    dd_part_angle prob angle start len nLen k == beta k + mean pa alpha (powers nLen).
  Proof.
    intros Hk Hp. unfold dd_part_angle, dd_div. destruct (Qle_bool _ 0) eqn:E.
    - apply Qle_bool_iff in E. rewrite part_prob_ok in E by auto. lra.
    - rewrite part_prob_ok by auto. rewrite (qsumf_ext _ (fun r => (pa r * alpha r) * pb k + pa r * (pb k * beta k))).
      + rewrite qsumf_add, !qsumf_scale, Sa. unfold mean. field. lra.
      + intros r Hr. apply powers_In in Hr. rewrite term_at by auto. ring.
  Qed.
  Lemma rem_angle_ok r : (r < 2 ^ nLen)%N -> 0 < pa r ->
    dd_rem_angle prob angle start len r == alpha r + mean pb beta (powers len).
  Proof.
    intros Hr Hp. unfold dd_rem_angle, dd_div. destruct (Qle_bool _ 0) eqn:E.
    - apply Qle_bool_iff in E. rewrite rem_prob_ok in E by auto. lra.
    - rewrite rem_prob_ok by auto. rewrite (qsumf_ext _ (fun k => (pb k * beta k) * pa r + pb k * (pa r * alpha r))).
      + rewrite qsumf_add, !qsumf_scale, Sb. unfold mean. field. lra.
      + intros k Hk. apply powers_In in Hk. rewrite term_at by auto. ring.
  Qed.
  (** The two factors recombine to the original state up to one global phase. *)
  Lemma decompose_ok : exists g, forall r k, (r < 2 ^ nLen)%N -> (k < 2 ^ len)%N ->
    dd_rem_prob prob start len r * dd_part_prob prob start len nLen k == prob (dd_index start len r k) /\
    (0 < prob (dd_index start len r k) ->
     same_angle (dd_rem_angle prob angle start len r + dd_part_angle prob angle start len nLen k) (angle (dd_index start len r k) + g)).
  Proof.
    exists (mean pa alpha (powers nLen) + mean pb beta (powers len)). intros r k Hr Hk. destruct (sep_at r k Hr Hk) as [P A].
    rewrite rem_prob_ok, part_prob_ok by auto. split. now rewrite P. intros Hp. rewrite P in Hp. pose proof (Ha r Hr) as Ha1. pose proof (Hb k Hk) as Hb1.
    assert (0 < pa r) by (apply Qnot_le_lt; intros L; nra). assert (0 < pb k) by (apply Qnot_le_lt; intros L; nra).
    exists 0%Z. rewrite rem_angle_ok, part_angle_ok, (A Hp) by auto. change (inject_Z 0) with 0. ring.
  Qed.
End Sep.

(** Two qubits, equal magnitudes, angles 0 and 3/4 turn-halves in each factor: the product angle 3/2 is reported as -1/2 and
    the weighted mean mixes up the phases. *)
Definition ex_half (x : N) : Q := if (x <? 2)%N then 1 # 2 else 0.
Definition ex_angle (x : N) : Q := if (x =? 1)%N then 3 # 4 else 0.
Definition ex_prob4 (x : N) : Q := if (x <? 4)%N then 1 # 4 else 0.
Definition ex_angle4 (x : N) : Q := if (x =? 1)%N then 3 # 4 else if (x =? 2)%N then 3 # 4 else if (x =? 3)%N then -1 # 2 else 0.

Lemma ex_separable : separable 0 1 ex_prob4 ex_angle4 ex_half ex_angle ex_half ex_angle.
Proof.
  intros x. cbv zeta. unfold outside, get_reg. rewrite N.pow_0_r, N.mod_1_r, N.div_1_r, N.mul_1_r, N.add_0_l. change (2 ^ (0 + 1))%N with 2%N. change (2 ^ 1)%N with 2%N.
  assert (Hm : (x mod 2 < 2)%N) by (apply N.mod_lt; lia). pose proof (N.div_mod x 2 ltac:(lia)) as D.
  assert (HQ : (x < 4)%N <-> (x / 2 < 2)%N) by (generalize dependent (x / 2)%N; generalize dependent (x mod 2)%N; intros; lia).
  unfold ex_prob4, ex_half at 2. destruct (N.ltb_spec (x mod 2) 2); [|lia]. destruct (N.ltb_spec x 4).
  - split.
    + unfold ex_half. destruct (N.ltb_spec (x / 2) 2). reflexivity. exfalso. tauto || lia.
    + intros _. assert (x = 0 \/ x = 1 \/ x = 2 \/ x = 3)%N as [-> | [-> | [-> | ->]]] by lia; (split; [|vm_compute; split; congruence || (intros; discriminate)]);
      [exists 0%Z | exists 0%Z | exists 0%Z | exists (-1)%Z]; reflexivity.
  - split. unfold ex_half. destruct (N.ltb_spec (x / 2) 2). exfalso. tauto || lia. reflexivity. intros H1. lra.
Qed.
Lemma decompose_wraps : ~ exists g, forall r k, (r < 2 ^ 1)%N -> (k < 2 ^ 1)%N ->
    0 < ex_prob4 (dd_index 0 1 r k) ->
     same_angle (dd_rem_angle ex_prob4 ex_angle4 0 1 r + dd_part_angle ex_prob4 ex_angle4 0 1 1 k) (ex_angle4 (dd_index 0 1 r k) + g).
Proof.
  intros [g H]. destruct (H 0 0)%N as [z0 E0]; try reflexivity. destruct (H 0 1)%N as [z1 E1]; try reflexivity.
  assert (A0 : dd_rem_angle ex_prob4 ex_angle4 0 1 0 + dd_part_angle ex_prob4 ex_angle4 0 1 1 0 == 3 # 4) by reflexivity.
  assert (A1 : dd_rem_angle ex_prob4 ex_angle4 0 1 0 + dd_part_angle ex_prob4 ex_angle4 0 1 1 1 == 1 # 2) by reflexivity.
  rewrite A0 in E0. rewrite A1 in E1. change (ex_angle4 (dd_index 0 1 0 0)) with 0 in E0. change (ex_angle4 (dd_index 0 1 0 1)) with (3 # 4) in E1.
  assert (E : 2 * inject_Z (z1 - z0) == -1). { unfold Z.sub. rewrite inject_Z_plus, inject_Z_opp. lra. }
  unfold Qeq, Qmult, inject_Z in E. cbn [Qnum Qden Pos.mul] in E. lia.
Qed.
Lemma ex_no_wrap : separable 0 1 ex_prob4 (fun x => ex_angle (x mod 2)) ex_half (fun _ => 0) ex_half ex_angle /\
  qsumf ex_half (powers 1) == 1 /\ (forall k, (k < 2 ^ 1)%N -> -1 < 0 + ex_angle k <= 1).
Proof.
  assert (HA : forall k, -1 < ex_angle k <= 1) by (intros k; unfold ex_angle; destruct (k =? 1)%N; split; reflexivity || discriminate).
  split; [|split; [reflexivity|intros k _; specialize (HA k); lra]].
  intros x. cbv zeta. destruct (ex_separable x) as [H1 _]. split; auto. intros _. split; [|apply HA]. exists 0%Z.
  unfold get_reg. rewrite N.pow_0_r, N.div_1_r. change (2 ^ 1)%N with 2%N. change (inject_Z 0) with 0. ring.
Qed.
