(** Loops over the pages that satisfy a condition, seen on the concatenated state. *)
From Coq Require Import NArith List Bool Lia Ring.
From Verif Require PAlu5.
From Verif Require Import Bits MQCircuit MFunctions SpecFunctions PFunctions MParFor SpecParFor PParFor MKernel PKernel Amp PAmp SpecState MEngine SpecEngine PLoop PApply PGates PGates2 PGates3 PCompose PProb PEngine MPager SpecPager PPager1 PPager2.
Import ListNotations.
Local Open Scope N_scope.

(** ** Page numbers *)
Definition m1 (p : N) : N := 2 ^ p - 1.
Lemma ninsert_m1 x l : ninsert (m1 x) (map m1 l) = map m1 (ninsert x l).
Proof.
  unfold m1. induction l as [|y l IH]; simpl; auto.
  pose proof (pow2_pos x). pose proof (pow2_pos y). destruct (N.leb_spec x y) as [L|L].
  - pose proof (pow2_le_mono x y L). destruct (N.leb_spec (2 ^ x - 1) (2 ^ y - 1)); auto; lia.
  - pose proof (pow2_lt_mono y x L). destruct (N.leb_spec (2 ^ x - 1) (2 ^ y - 1)); try lia. simpl. now rewrite IH.
Qed.
Lemma nsort_m1 l : nsort (map m1 l) = map m1 (nsort l).
Proof. induction l as [|x l IH]; simpl; auto. now rewrite IH, ninsert_m1. Qed.
Lemma spread_skip ps : forall j jHi, spread j jHi (map m1 ps) = skip_loop j jHi (map (fun p => 2 ^ p) ps).
Proof. induction ps as [|p t IH]; intros j jHi; cbn [spread skip_loop map]; auto. Qed.
Lemma spread_ins k ps i : increasing_below 0 k ps -> k <= 64 -> i < 2 ^ (k - N.of_nat (length ps)) -> spread 0 i (map m1 ps) = ins_all ps i.
Proof.
  intros Hi Hk H. rewrite spread_skip. rewrite (skip_loop_ok ps 0 k); rewrite ?N.add_0_l; auto; try lia. apply (ins_all_lt ps 0 k); auto. lia.
Qed.
Lemma pair_lo_spread T i : pair_lo (2 ^ T) i = spread 0 i (map m1 [T]).
Proof. unfold pair_lo. cbn [spread map]. now rewrite N.lor_0_l. Qed.
Lemma shift_count k l : l <= k -> N.shiftr (2 ^ k) l = 2 ^ (k - l).
Proof. intros H. rewrite N.shiftr_div_pow2. symmetry. apply N.div_unique_exact. apply pow2_nz. rewrite <- N.pow_add_r. f_equal. lia. Qed.
(** The loop index ranges over all pages with the given bits. *)
Definition idx (k : N) (ps : list N) : list N := iota 0 (N.to_nat (2 ^ (k - N.of_nat (length ps)))).
Lemma idx_In k ps i : In i (idx k ps) <-> i < 2 ^ (k - N.of_nat (length ps)).
Proof. unfold idx. rewrite iota_In. rewrite N2Nat.id. lia. Qed.
Lemma pages_In k ps o j : increasing_below 0 k ps -> only_bits ps o -> o < 2 ^ k ->
  In j (map (fun i => N.lor (ins_all ps i) o) (idx k ps)) <-> j < 2 ^ k /\ agree ps j o.
Proof.
  intros Hi Ho Hk. rewrite in_map_iff. split.
  - intros [i [<- H]]. apply idx_In in H. split. apply lor_lt_pow2; auto. apply (ins_all_lt ps 0 k); auto. lia.
    apply lor_agree; auto. now apply (ins_all_zero ps 0 k).
  - intros [Hj Ha]. destruct (ins_all_onto ps 0 k (N.ldiff j o)) as [a [La Ea]]; auto. lia.
    + intros p Hp. rewrite N.ldiff_spec, Ha by auto. destruct (N.testbit o p); auto.
    + apply lt_pow2_bits. intros m Hm. rewrite N.ldiff_spec, (tb_high j k) by auto. auto.
    + exists a. split. rewrite Ea. now apply (ldiff_lor ps). now apply idx_In.
Qed.
Lemma pages_NoDup k ps o : increasing_below 0 k ps -> only_bits ps o ->
  NoDup (map (fun i => N.lor (ins_all ps i) o) (idx k ps)).
Proof.
  intros Hi Ho. apply (FinFun.Injective_map_NoDup (f := fun i => N.lor (ins_all ps i) o)). 2: apply iota_NoDup.
  intros x y E. assert (E2 : ins_all ps x = ins_all ps y).
  { rewrite <- (lor_back ps o (ins_all ps x)), <- (lor_back ps o (ins_all ps y)); auto; try now apply (ins_all_zero ps 0 k). now rewrite E. }
  destruct (N.lt_trichotomy x y) as [L|[L|L]]; auto; apply (ins_all_mono ps) in L; lia.
Qed.

Section Flat.
  Context {K : StarRing}.
  Variable c : cfg.
  Add Ring KrAT : (sr_ring K).
  Local Notation V := (mem K).

  Lemma gate1_ext n P P' t (m m' : mat2 K) a : (forall x, x < 2 ^ n -> P x = P' x) -> m00 m = m00 m' -> m01 m = m01 m' -> m10 m = m10 m' -> m11 m = m11 m' ->
    eqv n (gate1 P t m a) (gate1 P' t m' a).
  Proof. intros H E0 E1 E2 E3 x Hx. unfold gate1. now rewrite (H x Hx), E0, E1, E2, E3. Qed.
  Lemma result_eqv n q p (s s' : V) r : paged_result n q p s r -> eqv n s s' -> paged_result n q p s' r.
  Proof. intros [p' [-> [A [B [C D]]]]] E. exists p'. repeat split; auto; try apply C. intros x Hx. now rewrite (D x Hx), (E x Hx). Qed.
  Lemma run_eqv n q p (s s' : V) R : every_run R (paged_result n q p s) -> eqv n s s' -> every_run R (paged_result n q p s').
  Proof. intros H E. eapply every_run_weaken. exact H. intros r Hr. eapply result_eqv; eauto. Qed.

  Lemma count_at q (p : pager K) x : paged q p -> x < 2 ^ pg_n p -> x / 2 ^ q < pg_count p.
  Proof. intros [H1 H2] Hx. rewrite H2. now apply page_lt. Qed.
  Lemma all_pages_In (p : pager K) j : In j (all_pages p) <-> j < pg_count p.
  Proof. unfold all_pages. rewrite iota_In, N2Nat.id. lia. Qed.

  (** One operation on every page that satisfies [Mb]. *)
  Lemma pages_flat q f (G : N -> V -> V) js (p : pager K) (Mb : N -> bool) : paged q p -> NoDup js ->
    (forall j, In j js <-> j < pg_count p /\ Mb j = true) -> (forall j, In j js -> op_ok q (f j) (G j)) ->
    every_run (each (fun j => page_op (f j) j) js p)
      (paged_result (pg_n p) q p (fun x => if Mb (x / 2 ^ q) then G (x / 2 ^ q) (vread (pg_page p (x / 2 ^ q))) (x mod 2 ^ q) else flat p x)).
  Proof.
    intros Hp ND HI HG. eapply every_run_weaken. apply (each_pages q f G js p ND); auto. intros j Hj. now apply HI.
    intros r [p' [-> [S E]]]. exists p'. split; auto. pose proof (shape_paged q p p' S Hp) as Hp'. destruct S as [A [B C]].
    repeat split; auto; try apply Hp'. intros x Hx. rewrite (flat_at q p') by auto.
    assert (Ho : x mod 2 ^ q < 2 ^ q) by (apply N.mod_lt, pow2_nz). pose proof (count_at q p x Hp Hx) as Hc.
    destruct (E (x / 2 ^ q)) as [Ea Eb]. destruct (Mb (x / 2 ^ q)) eqn:EM.
    - apply Ea; auto. now apply HI.
    - rewrite Eb. now rewrite (flat_at q p). intros H. apply HI in H. destruct H as [_ H]. congruence.
  Qed.
  Lemma gate_page q (p : pager K) P t (m : mat2 K) x : paged q p -> t < q ->
    gate1 P t m (vread (pg_page p (x / 2 ^ q))) (x mod 2 ^ q) = gate1 (fun x => P (x mod 2 ^ q)) t m (flat p) x.
  Proof.
    intros Hp Ht. unfold gate1. rewrite tb_off by auto. rewrite !(flat_at q p) by auto.
    destruct (set_lo q x t Ht) as [-> ->]. destruct (clear_lo q x t Ht) as [-> ->]. reflexivity.
  Qed.
  Lemma gate_pages q f js (p : pager K) (Mb : N -> bool) P t (m : mat2 K) : paged q p -> t < q -> NoDup js ->
    (forall j, In j js <-> j < pg_count p /\ Mb j = true) -> op_ok q f (gate1 P t m) ->
    every_run (each (page_op f) js p) (paged_result (pg_n p) q p (gate1 (fun x => P (x mod 2 ^ q) && Mb (x / 2 ^ q)) t m (flat p))).
  Proof.
    intros Hp Ht ND HI Hf. eapply run_eqv. apply (pages_flat q (fun _ => f) (fun _ => gate1 P t m) js p Mb); auto.
    intros x Hx. cbv beta. rewrite (gate_page q p) by auto. unfold gate1. destruct (Mb (x / 2 ^ q)); rewrite ?andb_true_r, ?andb_false_r; auto.
  Qed.
  Lemma gate_all_pages q f (p : pager K) P t (m : mat2 K) : paged q p -> t < q -> op_ok q f (gate1 P t m) ->
    every_run (each (page_op f) (all_pages p) p) (paged_result (pg_n p) q p (gate1 (fun x => P (x mod 2 ^ q)) t m (flat p))).
  Proof.
    intros Hp Ht Hf. eapply run_eqv. apply (gate_pages q f (all_pages p) p always P t m); auto. apply iota_NoDup.
    intros j. rewrite all_pages_In. unfold always. intuition.
    apply gate1_ext; auto. intros x _. apply andb_true_r.
  Qed.

  (** A gate between the two pages of each pair. *)
  Lemma op2_ext q f G G' : op2_ok (K := K) q f G -> (forall a b, eqv q (fst (G a b)) (fst (G' a b)) /\ eqv q (snd (G a b)) (snd (G' a b))) -> op2_ok q f G'.
  Proof.
    intros H E v w. eapply every_run_weaken. apply H. intros r [v' [w' [-> [A B]]]]. destruct (E (vread v) (vread w)) as [Ea Eb].
    exists v', w'. split; auto. split; intros x Hx. now rewrite (A x Hx), (Ea x Hx). now rewrite (B x Hx), (Eb x Hx).
  Qed.
  Lemma pairs_flat q f T (m : mat2 K) C (lo : N -> N) l (p : pager K) (Mb : N -> bool) : paged q p -> T < pg_n p - q ->
    op2_ok q f (pair_gate m C) -> NoDup (map lo l) ->
    (forall j, In j (map lo l) <-> j < pg_count p /\ Mb j = true /\ N.testbit j T = false) ->
    (forall j, Mb (N.setbit j T) = Mb j) -> (forall j, Mb (N.clearbit j T) = Mb j) ->
    every_run (each (fun i => pair_op f (lo i) (N.lor (lo i) (2 ^ T))) l p)
      (paged_result (pg_n p) q p (gate1 (fun x => C (x mod 2 ^ q) && Mb (x / 2 ^ q)) (T + q) m (flat p))).
  Proof.
    intros Hp HT Hf ND HI Ms Mc. set (hi := fun i => N.lor (lo i) (2 ^ T)).
    assert (Eset : forall j, N.lor j (2 ^ T) = N.setbit j T) by (intros j; symmetry; apply N.setbit_spec').
    assert (Hhi : forall i, hi i = N.setbit (lo i) T) by (intros i; apply Eset).
    assert (EC : pg_count p = 2 ^ (pg_n p - q)) by apply Hp.
    assert (SC : forall j, N.testbit j T = true -> N.setbit (N.clearbit j T) T = j).
    { intros j Hb. apply N.bits_inj. intros k. rewrite tb_setbit, tb_clearbit. destruct (N.eqb_spec T k) as [<-|]; cbn [negb orb]; rewrite ?andb_true_r; auto. }
    assert (HIh : forall j, In j (map hi l) <-> j < pg_count p /\ Mb j = true /\ N.testbit j T = true).
    { intros j. split.
      - intros H. apply in_map_iff in H. destruct H as [i [<- Hi]]. rewrite Hhi. assert (HL : In (lo i) (map lo l)) by now apply in_map.
        apply HI in HL. destruct HL as [A [B D]]. rewrite EC in *. split. now apply setbit_lt. rewrite Ms. split; auto. now rewrite tb_setbit, N.eqb_refl.
      - intros [A [B D]]. assert (HL : In (N.clearbit j T) (map lo l)).
        { apply HI. rewrite EC in *. split. now apply clearbit_lt. rewrite Mc. split; auto. rewrite tb_clearbit, N.eqb_refl. apply andb_false_r. }
        apply in_map_iff in HL. destruct HL as [i [E Hi]]. apply in_map_iff. exists i. split; auto. rewrite Hhi, E. now apply SC. }
    assert (ND2 : NoDup (map lo l ++ map hi l)).
    { apply PAlu5.NoDup_app_disjoint; auto.
      - assert (Ex : map hi l = map (fun j => N.setbit j T) (map lo l)) by (rewrite map_map; apply map_ext; auto). rewrite Ex.
        apply (NoDup_map_inv (fun j => N.clearbit j T)). rewrite map_map. erewrite map_ext_in. rewrite map_id. exact ND.
        intros j Hj. apply HI in Hj. destruct Hj as [_ [_ D]]. apply N.bits_inj. intros k. rewrite tb_clearbit, tb_setbit.
        destruct (N.eqb_spec T k) as [<-|]; cbn [negb orb]; rewrite ?andb_true_r, ?andb_false_r; auto.
      - intros j H1 H2. apply HI in H1. apply HIh in H2. destruct H1 as [_ [_ H1]], H2 as [_ [_ H2]]. congruence. }
    eapply every_run_weaken. apply (each_pairs q f (pair_gate m C) lo hi Hf l p ND2).
    { intros i Hi. split. apply (HI (lo i)). now apply in_map. apply (HIh (hi i)). now apply in_map. }
    intros r [p' [-> [S [E O]]]]. exists p'. split; auto. pose proof (shape_paged q p p' S Hp) as Hp'. destruct S as [A [B C']].
    repeat split; auto; try apply Hp'. intros x Hx. rewrite (flat_at q p') by auto.
    assert (Ho : x mod 2 ^ q < 2 ^ q) by (apply N.mod_lt, pow2_nz). pose proof (count_at q p x Hp Hx) as Hc.
    set (j := x / 2 ^ q) in *. set (o := x mod 2 ^ q) in *.
    assert (Hge : q <= T + q) by lia. destruct (set_hi q x (T + q) Hge) as [S1 S2]. destruct (clear_hi q x (T + q) Hge) as [C1 C2].
    replace (T + q - q) with T in * by lia.
    unfold gate1. rewrite !(flat_at q p) by auto. rewrite S1, S2, C1, C2. fold j o. rewrite <- (tb_page q x T). fold j.
    destruct (Mb j) eqn:EM.
    - destruct (N.testbit j T) eqn:ET.
      + assert (Hin : In j (map hi l)) by (apply HIh; auto). apply in_map_iff in Hin. destruct Hin as [i [Ei Hi]]. destruct (E i Hi) as [_ E2].
        rewrite Ei in E2. rewrite (E2 o Ho). cbn [pair_gate fst snd].
        assert (El : lo i = N.clearbit j T).
        { rewrite <- Ei, Hhi. assert (HL : In (lo i) (map lo l)) by now apply in_map. apply HI in HL. destruct HL as [_ [_ D]].
          apply N.bits_inj. intros k. rewrite tb_clearbit, tb_setbit. destruct (N.eqb_spec T k) as [<-|]; cbn [negb orb]; rewrite ?andb_true_r, ?andb_false_r; auto. }
        rewrite El. rewrite andb_true_r. reflexivity.
      + assert (Hin : In j (map lo l)) by (apply HI; auto). apply in_map_iff in Hin. destruct Hin as [i [Ei Hi]]. destruct (E i Hi) as [E1 _].
        rewrite Ei in E1. rewrite (E1 o Ho). cbn [pair_gate fst snd]. rewrite Hhi, Ei. rewrite andb_true_r. reflexivity.
    - rewrite andb_false_r. rewrite O; auto. intros H. apply in_app_or in H. destruct H as [H|H].
      apply HI in H. destruct H as [_ [H _]]. congruence. apply HIh in H. destruct H as [_ [H _]]. congruence.
  Qed.
End Flat.
