(** Proofs for QUnit: joining and separating engines, support. *)
From Coq Require Import NArith List Bool Lia Ring.
From Verif Require Import Bits MFunctions SpecFunctions PFunctions MKernel PKernel Amp PAmp SpecState PApply PCompose PGates PGates2 PQCirc2 PQCirc3 PEngine MShard SpecShard MUnit PShard1 PShard2 PShard5 PUnit1 PUnit2.
Import ListNotations.
Local Open Scope N_scope.
Local Notation up n := (upto (N.to_nat n)).

Section P.
  Context {K : StarRing}.
  Add Ring KrBQ : (sr_ring K).
  Local Notation vec := (N -> K).
  Local Notation unit1 x := (anorm x = 1%amp).
  Local Notation M2 := (mat2 K).
  Local Notation qu := (qunit K).
  Local Notation shs := (N -> qshard K).
  Implicit Types (psi phi : vec).

  Lemma placed_ext n next (sh : shs) (eng : N -> N * vec) (sh' : shs) (eng' : N -> N * vec) : placed n next sh eng -> (forall p, p < n -> s_unit (sh' p) = s_unit (sh p)) -> (forall p u, p < n -> s_unit (sh p) = Some u -> s_map (sh' p) = s_map (sh p)) ->
    (forall u, u < next -> fst (eng' u) = fst (eng u)) -> placed n next sh' eng'.
  Proof.
    intros L HU HM HE. split.
    - intros p u Hp E. rewrite (HU p Hp) in E. destruct (pl_in _ _ _ _ L p u Hp E) as [H1 H2]. rewrite (HM p u Hp E), (HE u H1). auto.
    - intros p q u Hp Hq Ep Eq. rewrite (HU p Hp) in Ep. rewrite (HU q Hq) in Eq. rewrite (HM p u Hp Ep), (HM q u Hq Eq). apply (pl_inj _ _ _ _ L p q u); assumption.
    - intros u j Hu Hj. rewrite (HE u Hu) in Hj. destruct (pl_cov _ _ _ _ L u j Hu Hj) as (p & Hp & E & M). exists p. rewrite (HU p Hp), (HM p u Hp E). auto.
  Qed.

  (** ** Joining *)
  Section Join.
    Context (n next : N) (sh : shs) (eng : N -> N * vec) (L : placed n next sh eng) (r c : N) (Hr : r < next) (Hc : c < next) (Hrc : r <> c)
            (sh' : shs) (eng' : N -> N * vec).
    Context (HS : forall p, p < n -> s_unit (sh p) <> Some c -> sh' p = sh p)
            (HC : forall p, p < n -> s_unit (sh p) = Some c -> s_unit (sh' p) = Some r /\ s_map (sh' p) = s_map (sh p) + fst (eng r))
            (HE : forall w, w < next -> w <> r -> w <> c -> eng' w = eng w)
            (Hnr : fst (eng' r) = fst (eng r) + fst (eng c)) (Hnc : fst (eng' c) = 0).
    Lemma join_unit p u : p < n -> s_unit (sh' p) = Some u -> (s_unit (sh p) = Some c /\ u = r /\ s_map (sh' p) = s_map (sh p) + fst (eng r)) \/ (s_unit (sh p) = Some u /\ u <> c /\ sh' p = sh p).
    Proof.
      intros Hp E. destruct (s_unit (sh p)) as [w|] eqn:Ep.
      - destruct (N.eq_dec w c) as [->|Hw].
        + destruct (HC p Hp Ep) as [E1 E2]. left. repeat split; try assumption. congruence.
        + assert (F : sh' p = sh p) by (apply HS; [exact Hp|congruence]). right. rewrite F, Ep in E. injection E as ->. auto.
      - rewrite (HS p Hp) in E by congruence. congruence.
    Qed.
    Lemma join_placed : placed n next sh' eng'.
    Proof.
      split.
      - intros p u Hp E. destruct (join_unit p u Hp E) as [(Ep & -> & M)|(Ep & Hu & F)].
        + destruct (pl_in _ _ _ _ L p c Hp Ep) as [_ Hm]. rewrite Hnr, M. split; [exact Hr|lia].
        + destruct (pl_in _ _ _ _ L p u Hp Ep) as [H1 H2]. split; [exact H1|]. rewrite F. destruct (N.eq_dec u r) as [->|Hur]; [rewrite Hnr; lia|]. rewrite HE by assumption. exact H2.
      - intros p q u Hp Hq E E' M. destruct (join_unit p u Hp E) as [(Ep & -> & Mp)|(Ep & Hu & F)], (join_unit q _ Hq E') as [(Eq & Hr' & Mq)|(Eq & Hu' & F')].
        + apply (pl_inj _ _ _ _ L p q c); try assumption. lia.
        + rewrite F' in M. destruct (pl_in _ _ _ _ L q r Hq Eq) as [_ H2]. lia.
        + subst u. rewrite F in M. destruct (pl_in _ _ _ _ L p r Hp Ep) as [_ H2]. lia.
        + rewrite F, F' in M. apply (pl_inj _ _ _ _ L p q u); assumption.
      - intros u j Hu Hj. destruct (N.eq_dec u c) as [->|Huc]; [lia|]. destruct (N.eq_dec u r) as [->|Hur].
        + rewrite Hnr in Hj. destruct (N.lt_ge_cases j (fst (eng r))) as [Hj'|Hj'].
          * destruct (pl_cov _ _ _ _ L r j Hr Hj') as (p & Hp & E & M). exists p. rewrite (HS p Hp) by congruence. auto.
          * destruct (pl_cov _ _ _ _ L c (j - fst (eng r)) Hc) as (p & Hp & E & M); [lia|]. exists p. destruct (HC p Hp E) as [H1 H2]. repeat split; try assumption. lia.
        + rewrite HE in Hj by assumption. destruct (pl_cov _ _ _ _ L u j Hu Hj) as (p & Hp & E & M). exists p. rewrite (HS p Hp) by congruence. auto.
    Qed.
    Lemma base_join : (forall y, y < 2 ^ fst (eng' r) -> snd (eng' r) y = tensor (fst (eng r)) (snd (eng r)) (snd (eng c)) y) -> snd (eng' c) 0 = 1%amp ->
      same_state (base_of n next sh' eng') (base_of n next sh eng).
    Proof.
      intros HT HO x. pose proof join_placed as L'.
      set (gr := gather n sh r x). set (gc := gather n sh c x). set (nr := fst (eng r)) in *.
      assert (Br : gr < 2 ^ nr) by apply (gather_lt n next sh eng L).
      assert (Bc : gc < 2 ^ fst (eng c)) by apply (gather_lt n next sh eng L).
      assert (Gc : gather n sh' c x = 0).
      { apply N.lt_1_r. change 1 with (2 ^ 0). rewrite <- Hnc. apply (gather_lt n next sh' eng' L'). }
      assert (Gr : gather n sh' r x = gr + gc * 2 ^ nr).
      { apply (gather_eq n next sh' eng' L' r); [exact Hr| |].
        - rewrite Hnr. fold nr. rewrite N.pow_add_r. revert Br Bc. generalize (2 ^ nr) (2 ^ fst (eng c)). clear. intros A B. nia.
        - intros p Hp E. rewrite tb_cat by exact Br. destruct (join_unit p r Hp E) as [(Ep & _ & M)|(Ep & _ & F)].
          + rewrite M. fold nr. destruct (N.ltb_spec (s_map (sh p) + nr) nr); [lia|]. replace (s_map (sh p) + nr - nr) with (s_map (sh p)) by lia.
            apply (gather_bit n next sh eng L); assumption.
          + rewrite F. destruct (pl_in _ _ _ _ L p r Hp Ep) as [_ H2]. fold nr in H2. destruct (N.ltb_spec (s_map (sh p)) nr); [|lia]. apply (gather_bit n next sh eng L); assumption. }
      assert (Go : forall w, w <> r -> w <> c -> gather n sh' w x = gather n sh w x).
      { intros w Hwr Hwc. apply gather_ext.
        - intros p Hp. destruct (s_unit (sh p)) as [v|] eqn:Ep.
          + destruct (N.eq_dec v c) as [->|Hvc].
            * destruct (HC p Hp Ep) as [E1 _]. unfold in_unit. rewrite E1, Ep. destruct (N.eqb_spec r w), (N.eqb_spec c w); congruence.
            * rewrite HS by (assumption || congruence). reflexivity.
          + rewrite HS by (assumption || congruence). reflexivity.
        - intros p Hp Ep. rewrite HS by (assumption || congruence). auto. }
      unfold base_of. f_equal.
      2:{ apply aprod_ext. intros p Hp. apply up_in in Hp. destruct (s_unit (sh p)) as [v|] eqn:Ep.
          - destruct (N.eq_dec v c) as [->|Hvc].
            + destruct (HC p Hp Ep) as [E1 _]. unfold loc. rewrite E1, Ep. reflexivity.
            + rewrite HS by (assumption || congruence). reflexivity.
          - rewrite HS by (assumption || congruence). reflexivity. }
      assert (I1 : In r (up next)) by (apply up_in, Hr). assert (I2 : In c (but r (up next))) by (apply but_in; split; [apply up_in, Hc|congruence]).
      assert (N1 := upto_nodup (N.to_nat next)). assert (N2 : NoDup (but r (up next))) by (apply NoDup_filter, N1).
      rewrite !(aprod_at _ r (up next)), !(aprod_at _ c (but r (up next))) by assumption.
      rewrite Gc, Gr, HO. rewrite HT.
      2:{ rewrite Hnr. fold nr. rewrite N.pow_add_r. revert Br Bc. generalize (2 ^ nr) (2 ^ fst (eng c)). clear. intros A B. nia. }
      rewrite (aprod_ext (fun u => snd (eng' u) (gather n sh' u x)) (fun u => snd (eng u) (gather n sh u x)) (but c (but r (up next)))).
      2:{ intros w Hw. apply but_in in Hw. destruct Hw as [Hw Hwc]. apply but_in in Hw. destruct Hw as [Hw Hwr]. apply up_in in Hw. rewrite (HE w Hw Hwr Hwc), (Go w Hwr Hwc). reflexivity. }
      unfold tensor. fold nr gr gc. pose proof (N.pow_nonzero 2 nr) as Z. rewrite N.mod_add, N.mod_small, N.div_add, N.div_small, N.add_0_l by (try exact Br; lia). ring.
    Qed.
  End Join.

  (** ** Separating *)
  Definition esup (m : N) (j : N) (b : bool) (v : vec) : Prop := forall y, y < 2 ^ m -> N.testbit y j <> b -> v y = 0%amp.
  Section Separate.
    Context (n next : N) (sh : shs) (eng : N -> N * vec) (L : placed n next sh eng) (q u : N) (Hq : q < n) (Eq : s_unit (sh q) = Some u)
            (sh' : shs) (eng' : N -> N * vec).
    Let m := s_map (sh q).
    Context (HQ : s_unit (sh' q) = None)
            (HS : forall p, p < n -> s_unit (sh p) <> Some u -> sh' p = sh p)
            (HC : forall p, p < n -> p <> q -> s_unit (sh p) = Some u -> s_unit (sh' p) = Some u /\ s_map (sh' p) = (if m <? s_map (sh p) then s_map (sh p) - 1 else s_map (sh p)))
            (HE : forall w, w < next -> w <> u -> eng' w = eng w) (Hnu : fst (eng' u) = fst (eng u) - 1).
    Lemma sep_bounds : u < next /\ m < fst (eng u).
    Proof. apply (pl_in _ _ _ _ L q u Hq Eq). Qed.
    Lemma sep_diff p : p < n -> p <> q -> s_unit (sh p) = Some u -> s_map (sh p) <> m.
    Proof. intros Hp Hpq E M. apply Hpq. apply (pl_inj _ _ _ _ L p q u Hp Hq E Eq M). Qed.
    Lemma sep_unit p w : p < n -> s_unit (sh' p) = Some w -> p <> q /\ s_unit (sh p) = Some w.
    Proof.
      intros Hp E. destruct (N.eq_dec p q) as [->|Hpq]; [congruence|]. split; [exact Hpq|]. destruct (s_unit (sh p)) as [v|] eqn:Ep.
      - destruct (N.eq_dec v u) as [->|Hvu].
        + destruct (HC p Hp Hpq Ep) as [E1 _]. congruence.
        + rewrite HS in E by (assumption || congruence). congruence.
      - rewrite HS in E by (assumption || congruence). congruence.
    Qed.
    Lemma sep_placed : placed n next sh' eng'.
    Proof.
      destruct sep_bounds as [Hu Hm]. split.
      - intros p w Hp E. destruct (sep_unit p w Hp E) as [Hpq Ep]. destruct (pl_in _ _ _ _ L p w Hp Ep) as [H1 H2]. split; [exact H1|].
        destruct (N.eq_dec w u) as [->|Hwu].
        + destruct (HC p Hp Hpq Ep) as [_ ->]. rewrite Hnu. pose proof (sep_diff p Hp Hpq Ep). destruct (N.ltb_spec m (s_map (sh p))); lia.
        + rewrite HE by assumption. rewrite HS by (assumption || congruence). exact H2.
      - intros p p' w Hp Hp' E E' M. destruct (sep_unit p w Hp E) as [Hpq Ep], (sep_unit p' w Hp' E') as [Hpq' Ep'].
        apply (pl_inj _ _ _ _ L p p' w Hp Hp' Ep Ep'). destruct (N.eq_dec w u) as [->|Hwu].
        + destruct (HC p Hp Hpq Ep) as [_ M1], (HC p' Hp' Hpq' Ep') as [_ M2]. rewrite M1, M2 in M. pose proof (sep_diff p Hp Hpq Ep). pose proof (sep_diff p' Hp' Hpq' Ep').
          destruct (N.ltb_spec m (s_map (sh p))), (N.ltb_spec m (s_map (sh p'))); lia.
        + rewrite !HS in M by (assumption || congruence). exact M.
      - intros w j Hw Hj. destruct (N.eq_dec w u) as [->|Hwu].
        + rewrite Hnu in Hj. destruct (pl_cov _ _ _ _ L u (if j <? m then j else j + 1) Hu) as (p & Hp & E & M); [destruct (N.ltb_spec j m); lia|].
          assert (Hpq : p <> q) by (intros ->; fold m in M; destruct (N.ltb_spec j m); lia). exists p. destruct (HC p Hp Hpq E) as [E1 M1]. repeat split; try assumption.
          rewrite M1, M. destruct (N.ltb_spec j m); [destruct (N.ltb_spec m j); lia|destruct (N.ltb_spec m (j + 1)); lia].
        + rewrite HE in Hj by assumption. destruct (pl_cov _ _ _ _ L w j Hw Hj) as (p & Hp & E & M). exists p. rewrite HS by (assumption || congruence). auto.
    Qed.
    Lemma base_separate (b : bool) (c : K) : (forall y, y < 2 ^ fst (eng' u) -> snd (eng' u) y = slice m 1 (if b then 1 else 0) (snd (eng u)) y) -> esup (fst (eng u)) m b (snd (eng u)) ->
      s_a0 (sh' q) = (if b then 0 else c)%amp -> s_a1 (sh' q) = (if b then c else 0)%amp ->
      same_state (base_of n next sh' eng') (fun x => c * base_of n next sh eng x)%amp.
    Proof.
      intros HV HZ A0 A1 x. destruct sep_bounds as [Hu Hm]. pose proof sep_placed as L'.
      rewrite (base_at n next sh eng u x Hu). unfold base_of. rewrite (aprod_at _ u (up next)) by (apply upto_nodup || apply up_in, Hu).
      rewrite (aprod_ext (fun w => snd (eng' w) (gather n sh' w x)) (fun w => snd (eng w) (gather n sh w x)) (but u (up next))).
      2:{ intros w Hw. apply but_in in Hw. destruct Hw as [Hw Hwu]. apply up_in in Hw. rewrite (HE w Hw Hwu). f_equal. apply gather_ext.
          - intros p Hp. destruct (s_unit (sh p)) as [v|] eqn:Ep; [destruct (N.eq_dec v u) as [->|Hvu]|].
            + unfold in_unit. rewrite Ep. destruct (N.eqb_spec u w); [congruence|]. destruct (N.eq_dec p q) as [->|Hpq]; [rewrite HQ; reflexivity|].
              destruct (HC p Hp Hpq Ep) as [-> _]. destruct (N.eqb_spec u w); congruence.
            + rewrite HS by (assumption || congruence). reflexivity.
            + rewrite HS by (assumption || congruence). reflexivity.
          - intros p Hp Ep. rewrite HS by (assumption || congruence). auto. }
      rewrite !(aprod_at (fun p => loc (_ p) (N.testbit x p)) q (up n)) by (apply upto_nodup || apply up_in, Hq).
      rewrite (aprod_ext (fun p => loc (sh' p) (N.testbit x p)) (fun p => loc (sh p) (N.testbit x p)) (but q (up n))).
      2:{ intros p Hp. apply but_in in Hp. destruct Hp as [Hp Hpq]. apply up_in in Hp. destruct (s_unit (sh p)) as [v|] eqn:Ep; [destruct (N.eq_dec v u) as [->|Hvu]|].
          - unfold loc. destruct (HC p Hp Hpq Ep) as [-> _]. rewrite Ep. reflexivity.
          - rewrite HS by (assumption || congruence). reflexivity.
          - rewrite HS by (assumption || congruence). reflexivity. }
      assert (El : loc (sh q) (N.testbit x q) = 1%amp) by (unfold loc; rewrite Eq; reflexivity). rewrite El.
      assert (El' : loc (sh' q) (N.testbit x q) = if eqb (N.testbit x q) b then c else 0%amp) by (unfold loc; rewrite HQ, A0, A1; destruct (N.testbit x q), b; reflexivity). rewrite El'.
      set (g := gather n sh u x). assert (Bg : g < 2 ^ fst (eng u)) by apply (gather_lt n next sh eng L).
      assert (Tg : N.testbit g m = N.testbit x q) by apply (gather_bit n next sh eng L u x q Hq Eq).
      destruct (eqb (N.testbit x q) b) eqn:Eb.
      - apply eqb_prop in Eb. rewrite HV by (apply (gather_lt n next sh' eng' L')).
        assert (G : slice_ix m 1 (if b then 1 else 0) (gather n sh' u x) = g).
        { apply N.bits_inj. intros j. rewrite tb_slice_ix by (destruct b; reflexivity). destruct (N.ltb_spec j m) as [Hj|Hj].
          - destruct (pl_cov _ _ _ _ L u j Hu) as (p & Hp & E & M); [lia|]. assert (Hpq : p <> q) by (intros ->; fold m in M; lia).
            destruct (HC p Hp Hpq E) as [E1 M1]. rewrite M in M1. destruct (N.ltb_spec m j); [lia|]. rewrite <- M1 at 1. rewrite (gather_bit n next sh' eng' L') by assumption.
            unfold g. rewrite <- M. symmetry. apply (gather_bit n next sh eng L); assumption.
          - destruct (N.ltb_spec j (m + 1)) as [Hj1|Hj1].
            + assert (j = m) by lia. subst j. rewrite N.sub_diag, Tg, Eb. destruct b; reflexivity.
            + destruct (N.lt_ge_cases j (fst (eng u))) as [Hj2|Hj2].
              * destruct (pl_cov _ _ _ _ L u j Hu Hj2) as (p & Hp & E & M). assert (Hpq : p <> q) by (intros ->; fold m in M; lia).
                destruct (HC p Hp Hpq E) as [E1 M1]. rewrite M in M1. destruct (N.ltb_spec m j); [|lia]. rewrite <- M1. rewrite (gather_bit n next sh' eng' L') by assumption.
                unfold g. rewrite <- M. symmetry. apply (gather_bit n next sh eng L); assumption.
              * rewrite (tb_high g (fst (eng u))) by assumption. apply (tb_high _ (fst (eng' u))); [apply (gather_lt n next sh' eng' L')|lia]. }
        change (slice m 1 (if b then 1 else 0) (snd (eng u)) (gather n sh' u x)) with (snd (eng u) (slice_ix m 1 (if b then 1 else 0) (gather n sh' u x))). rewrite G. ring.
      - rewrite (HZ g Bg); [ring|]. rewrite Tg. intros F. rewrite F in Eb. rewrite eqb_reflx in Eb. discriminate.
    Qed.
  End Separate.
  (** An engine of one qubit is given up. *)
  Section Single.
    Context (n next : N) (sh : shs) (eng : N -> N * vec) (L : placed n next sh eng) (q u : N) (Hq : q < n) (Eq : s_unit (sh q) = Some u) (H1 : fst (eng u) = 1)
            (sh' : shs) (eng' : N -> N * vec) (HS : forall p, p < n -> p <> q -> sh' p = sh p) (HQ : s_unit (sh' q) = None)
            (HE : forall w, w < next -> w <> u -> eng' w = eng w) (Hnu : fst (eng' u) = 0).
    Lemma single_only p : p < n -> s_unit (sh p) = Some u -> p = q.
    Proof.
      intros Hp E. apply (pl_inj _ _ _ _ L p q u Hp Hq E Eq). destruct (pl_in _ _ _ _ L p u Hp E) as [_ B1], (pl_in _ _ _ _ L q u Hq Eq) as [_ B2]. lia.
    Qed.
    Lemma single_placed : placed n next sh' eng'.
    Proof.
      split.
      - intros p w Hp E. destruct (N.eq_dec p q) as [->|Hpq]; [congruence|]. rewrite HS in * by assumption. destruct (pl_in _ _ _ _ L p w Hp E) as [B1 B2].
        destruct (N.eq_dec w u) as [->|Hwu]; [destruct Hpq; apply single_only; assumption|]. rewrite HE by assumption. auto.
      - intros p p' w Hp Hp' E E' M. destruct (N.eq_dec p q) as [->|Hpq]; [congruence|]. destruct (N.eq_dec p' q) as [->|Hpq']; [congruence|].
        rewrite HS in * by assumption. rewrite (HS p') in * by assumption. apply (pl_inj _ _ _ _ L p p' w); assumption.
      - intros w j Hw Hj. destruct (N.eq_dec w u) as [->|Hwu]; [lia|]. rewrite HE in Hj by assumption. destruct (pl_cov _ _ _ _ L w j Hw Hj) as (p & Hp & E & M).
        assert (Hpq : p <> q) by (intros ->; congruence). exists p. rewrite HS by assumption. auto.
    Qed.
    Lemma base_single : snd (eng' u) 0 = 1%amp -> s_a0 (sh' q) = snd (eng u) 0 -> s_a1 (sh' q) = snd (eng u) 1 -> same_state (base_of n next sh' eng') (base_of n next sh eng).
    Proof.
      intros HO A0 A1 x. destruct (pl_in _ _ _ _ L q u Hq Eq) as [Hu Hm]. pose proof single_placed as L'.
      rewrite (base_at n next sh eng u x Hu). unfold base_of. rewrite (aprod_at _ u (up next)) by (apply upto_nodup || apply up_in, Hu).
      assert (G' : gather n sh' u x = 0). { apply N.lt_1_r. change 1 with (2 ^ 0). rewrite <- Hnu. apply (gather_lt n next sh' eng' L'). }
      assert (Mq : s_map (sh q) = 0) by lia.
      assert (G : gather n sh u x = if N.testbit x q then 1 else 0).
      { apply (gather_eq n next sh eng L u x _ Hu); [rewrite H1; destruct (N.testbit x q); reflexivity|]. intros p Hp E. rewrite (single_only p Hp E), Mq. destruct (N.testbit x q); reflexivity. }
      rewrite G', G, HO.
      rewrite (aprod_ext (fun w => snd (eng' w) (gather n sh' w x)) (fun w => snd (eng w) (gather n sh w x)) (but u (up next))).
      2:{ intros w Hw. apply but_in in Hw. destruct Hw as [Hw Hwu]. apply up_in in Hw. rewrite (HE w Hw Hwu). f_equal. apply gather_ext.
          - intros p Hp. destruct (N.eq_dec p q) as [->|Hpq]; [|rewrite HS by assumption; reflexivity]. unfold in_unit. rewrite HQ, Eq. destruct (N.eqb_spec u w); congruence.
          - intros p Hp Ep. split; [|reflexivity]. rewrite HS; [reflexivity|exact Hp|congruence]. }
      rewrite !(aprod_at (fun p => loc (_ p) (N.testbit x p)) q (up n)) by (apply upto_nodup || apply up_in, Hq).
      rewrite (aprod_ext (fun p => loc (sh' p) (N.testbit x p)) (fun p => loc (sh p) (N.testbit x p)) (but q (up n))).
      2:{ intros p Hp. apply but_in in Hp. destruct Hp as [Hp Hpq]. apply up_in in Hp. rewrite HS by assumption. reflexivity. }
      unfold loc at 1 3. rewrite HQ, Eq, A0, A1. destruct (N.testbit x q); ring.
    Qed.
  End Single.

  (** ** Support *)
  (** No zero divisors; a sum of squared magnitudes is zero only if all are. *)
  Definition definite : Prop := (1%amp : K) <> 0%amp /\ (forall x y : K, (x * y = 0)%amp -> x = 0%amp \/ y = 0%amp) /\
    (forall (l : list N) (f : N -> K), asum (fun x => anorm (f x)) l = 0%amp -> forall x, In x l -> f x = 0%amp).
  Lemma aprod_nonzero {A} (f : A -> K) l : definite -> (forall p, In p l -> f p <> 0%amp) -> aprod f l <> 0%amp.
  Proof.
    intros (D1 & D2 & _) H. induction l as [|p l IH]; [exact D1|]. cbn [aprod fold_right]. intros E. apply D2 in E. destruct E as [E|E].
    - apply (H p (or_introl eq_refl)), E.
    - apply IH; [|exact E]. intros q Hq. apply H. right. exact Hq.
  Qed.
  Lemma zero_dec (x : K) : x = 0%amp \/ x <> 0%amp.
  Proof. destruct (eqb_spec K x 0%amp); auto. Qed.
  Lemma find_nonzero (f : N -> K) l : (exists x, In x l /\ f x <> 0%amp) \/ (forall x, In x l -> f x = 0%amp).
  Proof.
    induction l as [|x l IH]; [right; intros x []|]. destruct (zero_dec (f x)) as [E|E]; [|left; exists x; split; [left; reflexivity|exact E]].
    destruct IH as [(y & Hy & Fy)|IH]; [left; exists y; split; [right; exact Hy|exact Fy]|]. right. intros y [<-|Hy]; [exact E|apply IH, Hy].
  Qed.
  Lemma norm_nonzero m (v : vec) : definite -> norm2 m v = 1%amp -> exists y, y < 2 ^ m /\ v y <> 0%amp.
  Proof.
    intros (D1 & _ & _) H. destruct (find_nonzero v (basis m)) as [(y & Hy & F)|Z].
    - exists y. split; [apply up_in, Hy|exact F].
    - destruct D1. rewrite <- H. unfold norm2. transitivity (asum (fun _ : N => 0 : K)%amp (basis m)); [|apply asum_zero; reflexivity].
      apply asum_ext. intros x Hx. rewrite (Z x Hx). apply anorm_0.
  Qed.
  Lemma bits_exist (f : N -> bool) (n : N) : exists x, forall p, p < n -> N.testbit x p = f p.
  Proof.
    induction n as [|n [x Hx]] using N.peano_ind; [exists 0; intros p Hp; lia|].
    exists (if f n then N.setbit x n else N.clearbit x n). intros p Hp. destruct (N.eq_dec p n) as [->|Hpn].
    - destruct (f n); [rewrite tb_setbit, N.eqb_refl; reflexivity|rewrite tb_clearbit, N.eqb_refl; apply andb_false_r].
    - rewrite <- (Hx p) by lia. destruct (f n); [rewrite tb_setbit|rewrite tb_clearbit]; destruct (N.eqb_spec n p); try congruence; [reflexivity|apply andb_true_r].
  Qed.
  Lemma choose (P : N -> N -> Prop) (n : N) : (forall u, u < n -> exists y, P u y) -> exists f, forall u, u < n -> P u (f u).
  Proof.
    induction n as [|n IH] using N.peano_ind; intros H; [exists (fun _ => 0); intros u Hu; lia|].
    destruct IH as [f Hf]; [intros u Hu; apply H; lia|]. destruct (H n) as [y Hy]; [lia|]. exists (fun u => if u =? n then y else f u). intros u Hu.
    destruct (N.eqb_spec u n) as [->|Hun]; [exact Hy|apply Hf; lia].
  Qed.
  (** Amplitudes that are not zero, one of each factor, meet in an amplitude of the whole that is not zero. *)
  Lemma base_nonzero n next (sh : shs) (eng : N -> N * vec) (Y : N -> N) (B : N -> bool) : definite -> placed n next sh eng ->
    (forall u, u < next -> Y u < 2 ^ fst (eng u) /\ snd (eng u) (Y u) <> 0%amp) -> (forall p, p < n -> s_unit (sh p) = None -> loc (sh p) (B p) <> 0%amp) ->
    exists x, base_of n next sh eng x <> 0%amp /\ (forall p u, p < n -> s_unit (sh p) = Some u -> N.testbit x p = N.testbit (Y u) (s_map (sh p))) /\
      (forall p, p < n -> s_unit (sh p) = None -> N.testbit x p = B p).
  Proof.
    intros D L HY HB. destruct (bits_exist (fun p => match s_unit (sh p) with Some u => N.testbit (Y u) (s_map (sh p)) | None => B p end) n) as [x Hx].
    assert (X1 : forall p u, p < n -> s_unit (sh p) = Some u -> N.testbit x p = N.testbit (Y u) (s_map (sh p))) by (intros p u Hp E; rewrite (Hx p Hp), E; reflexivity).
    assert (X2 : forall p, p < n -> s_unit (sh p) = None -> N.testbit x p = B p) by (intros p Hp E; rewrite (Hx p Hp), E; reflexivity).
    exists x. split; [|split; assumption]. unfold base_of. intros E. apply (proj1 (proj2 D)) in E. destruct E as [E|E]; revert E; apply aprod_nonzero; try exact D; intros p Hp; apply up_in in Hp.
    - destruct (HY p Hp) as [Y1 Y2]. rewrite (gather_eq n next sh eng L p x (Y p) Hp Y1); [exact Y2|]. intros q Hq Eq. symmetry. apply X1; assumption.
    - destruct (s_unit (sh p)) eqn:E.
      + unfold loc. rewrite E. apply D.
      + rewrite (X2 p Hp E). apply HB; assumption.
  Qed.
  Section Support.
    Context (n next : N) (sh : shs) (eng : N -> N * vec) (D : definite) (L : placed n next sh eng) (NE : forall u, u < next -> norm2 (fst (eng u)) (snd (eng u)) = 1%amp)
            (NL : forall p, p < n -> s_unit (sh p) = None -> (anorm (s_a0 (sh p)) + anorm (s_a1 (sh p)) = 1)%amp).
    Lemma amps_nonzero p : p < n -> s_unit (sh p) = None -> exists b, loc (sh p) b <> 0%amp.
    Proof.
      intros Hp E. unfold loc. rewrite E. destruct (zero_dec (s_a0 (sh p))) as [Z0|Z0]; [|exists false; exact Z0].
      destruct (zero_dec (s_a1 (sh p))) as [Z1|Z1]; [|exists true; exact Z1]. specialize (NL p Hp E). rewrite Z0, Z1, anorm_0 in NL.
      destruct D as [D1 _]. destruct D1. rewrite <- NL. ring.
    Qed.
    Lemma choices : exists (Y : N -> N) (B : N -> bool), (forall u, u < next -> Y u < 2 ^ fst (eng u) /\ snd (eng u) (Y u) <> 0%amp) /\ (forall p, p < n -> s_unit (sh p) = None -> loc (sh p) (B p) <> 0%amp).
    Proof.
      destruct (choose (fun u y => y < 2 ^ fst (eng u) /\ snd (eng u) y <> 0%amp) next) as [Y HY]; [intros u Hu; apply norm_nonzero; [exact D|apply NE, Hu]|].
      destruct (choose (fun p b => s_unit (sh p) = None -> loc (sh p) (b =? 1) <> 0%amp) n) as [B HB].
      - intros p Hp. destruct (s_unit (sh p)) eqn:E; [exists 0; discriminate|]. destruct (amps_nonzero p Hp E) as [b Hb]. exists (if b then 1 else 0). intros _. destruct b; exact Hb.
      - exists Y, (fun p => B p =? 1). split; assumption.
    Qed.
    Lemma support_unit p u b : p < n -> s_unit (sh p) = Some u -> supported p b (base_of n next sh eng) <-> esup (fst (eng u)) (s_map (sh p)) b (snd (eng u)).
    Proof.
      intros Hp E. destruct (pl_in _ _ _ _ L p u Hp E) as [Hu Hm]. split.
      - intros H y Hy Hb. destruct (zero_dec (snd (eng u) y)) as [Z|Z]; [exact Z|exfalso]. destruct choices as (Y & B & HY & HB).
        destruct (base_nonzero n next sh eng (fun w => if w =? u then y else Y w) B D L) as (x & Hx & X1 & _); [|exact HB|].
        + intros w Hw. destruct (N.eqb_spec w u) as [->|]; [auto|apply HY, Hw].
        + apply Hx, H. rewrite (X1 p u Hp E), N.eqb_refl. exact Hb.
      - intros H x Hx. rewrite (base_at n next sh eng u x Hu), (H (gather n sh u x)); [ring|apply (gather_lt n next sh eng L)|]. rewrite (gather_bit n next sh eng L) by assumption. exact Hx.
    Qed.
    Lemma support_none p b : p < n -> s_unit (sh p) = None -> supported p b (base_of n next sh eng) <-> loc (sh p) (negb b) = 0%amp.
    Proof.
      intros Hp E. split.
      - intros H. destruct (zero_dec (loc (sh p) (negb b))) as [Z|Z]; [exact Z|exfalso]. destruct choices as (Y & B & HY & HB).
        destruct (base_nonzero n next sh eng Y (fun q => if q =? p then negb b else B q) D L HY) as (x & Hx & _ & X2).
        + intros q Hq Eq. destruct (N.eqb_spec q p) as [->|]; [exact Z|apply HB; assumption].
        + apply Hx, H. rewrite (X2 p Hp E), N.eqb_refl. destruct b; discriminate.
      - intros H x Hx. rewrite (loc_at n next sh eng p x Hp). replace (N.testbit x p) with (negb b) by (destruct (N.testbit x p), b; cbn in *; congruence). rewrite H. ring.
    Qed.
    Lemma not_both_unit p u : p < n -> s_unit (sh p) = Some u -> ~ (esup (fst (eng u)) (s_map (sh p)) false (snd (eng u)) /\ esup (fst (eng u)) (s_map (sh p)) true (snd (eng u))).
    Proof.
      intros Hp E [H1 H2]. destruct (pl_in _ _ _ _ L p u Hp E) as [Hu Hm]. destruct (norm_nonzero _ _ D (NE u Hu)) as (y & Hy & Z). destruct (N.testbit y (s_map (sh p))) eqn:T.
      - apply Z, H1; [exact Hy|congruence].
      - apply Z, H2; [exact Hy|congruence].
    Qed.
  End Support.
End P.
