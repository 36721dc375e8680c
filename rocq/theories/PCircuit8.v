(** Proofs about the generic circuits (part 8: control values by X conjugation). *)
From Coq Require Import NArith List Bool Lia Ring.
From Verif Require Import Bits MFunctions PFunctions MParFor PParFor MKernel Amp PAmp MEngine SpecState SpecEngine
  PGates PGates2 PGates3 PEngine PCompose MAlu SpecAlu PAlu PAlu2 PAlu5 PAlu6 PAlu9 MCircuit SpecCircuit PCircuit PCircuit2 PCircuit3 PCircuit4 PCircuit5 PCircuit6.
Import ListNotations.
Local Open Scope N_scope.

Section P.
  Context {K : StarRing}.
  Add Ring KrR : (sr_ring K).
  Local Notation V := (mem K).
  Local Notation circ := (circ K).

  (** The mask of the listed qubits selected by [g]. *)
  Fixpoint sp (i : N) (cs : list N) (g : N -> bool) : N :=
    match cs with
    | [] => 0
    | q :: t => N.lxor (if g i then 2 ^ q else 0) (sp (i + 1) t g)
    end.
  Lemma sp_xor cs : forall i g1 g2, N.lxor (sp i cs g1) (sp i cs g2) = sp i cs (fun k => xorb (g1 k) (g2 k)).
  Proof.
    induction cs as [|q t IH]; intros i g1 g2; cbn [sp]; auto. rewrite <- IH.
    transitivity (N.lxor (N.lxor (if g1 i then 2 ^ q else 0) (if g2 i then 2 ^ q else 0)) (N.lxor (sp (i + 1) t g1) (sp (i + 1) t g2))).
    - apply N.bits_inj. intros k. rewrite !N.lxor_spec. now destruct (N.testbit (if g1 i then 2 ^ q else 0) k), (N.testbit (if g2 i then 2 ^ q else 0) k), (N.testbit (sp (i + 1) t g1) k), (N.testbit (sp (i + 1) t g2) k).
    - f_equal. destruct (g1 i), (g2 i); cbn [xorb]; rewrite ?N.lxor_nilpotent, ?N.lxor_0_r, ?N.lxor_0_l; auto.
  Qed.
  Lemma sp_ext cs : forall i g1 g2, (forall k, g1 k = g2 k) -> sp i cs g1 = sp i cs g2.
  Proof. induction cs as [|q t IH]; intros i g1 g2 H; cbn [sp]; auto. rewrite H. f_equal. auto. Qed.
  Lemma sp_other cs : forall i g q, ~ In q cs -> N.testbit (sp i cs g) q = false.
  Proof.
    induction cs as [|a t IH]; intros i g q H; cbn [sp]. apply N.bits_0. rewrite N.lxor_spec, IH by (intros HI; apply H; now right).
    destruct (g i). rewrite N.pow2_bits_eqb, (neqb_f a q). auto. intros ->. apply H. now left. now rewrite N.bits_0.
  Qed.
  Lemma sp_lt n cs : forall i g, (forall q, In q cs -> q < n) -> sp i cs g < 2 ^ n.
  Proof.
    induction cs as [|a t IH]; intros i g H; cbn [sp]. apply N.neq_0_lt_0. now apply N.pow_nonzero. apply lxor_lt_pow2.
    destruct (g i). apply N.pow_lt_mono_r; [lia|]. apply H. now left. apply N.neq_0_lt_0. now apply N.pow_nonzero.
    apply IH. intros. apply H. now right.
  Qed.
  Lemma where_act cs : forall i perm v x, cact (x_where i cs perm v : circ) x = N.lxor x (sp i cs (fun k => Bool.eqb (N.testbit perm k) v)).
  Proof.
    induction cs as [|q t IH]; intros i perm v x; cbn [x_where sp]. cbn [cact fold_left]. now rewrite N.lxor_0_r. rewrite cact_app, IH.
    destruct (Bool.eqb (N.testbit perm i) v).
    - rewrite act_X. unfold flip. now rewrite N.lxor_assoc.
    - cbn [cact fold_left]. now rewrite N.lxor_0_l.
  Qed.
  Lemma wf_where n cs : forall i perm v, (forall q, In q cs -> q < n) -> Forall (wfx n) (x_where i cs perm v : circ).
  Proof.
    induction cs as [|q t IH]; intros i perm v H; cbn [x_where]. constructor. apply Forall_app. split.
    destruct (Bool.eqb _ _); [|constructor]. apply wf_X. apply H. now left. apply IH. intros. apply H. now right.
  Qed.
  Lemma lxor_rev n (l : circ) m : Forall (wfx n) l -> (forall x, cact l x = N.lxor x m) -> forall x, cact (rev l) x = N.lxor x m.
  Proof. intros W H x. rewrite <- (lxor_twice x m) at 1. rewrite <- (H (N.lxor x m)). now apply (cact_rev n). Qed.
  Lemma sem_lxor n (l : circ) m : Forall (wfx n) l -> (forall x, cact l x = N.lxor x m) -> forall psi x, csem l psi x = psi (N.lxor x m).
  Proof. intros W H psi x. rewrite (csem_cact n) by auto. now rewrite (lxor_rev n l m W H). Qed.

  (** A gate conjugated by a mask that does not touch its target. *)
  Lemma gate1_mask P t (m : mat2 K) mask psi x : N.testbit mask t = false ->
    gate1 P t m (fun y => psi (N.lxor y mask)) (N.lxor x mask) = gate1 (fun y => P (N.lxor y mask)) t m psi x.
  Proof.
    intros H. unfold gate1. rewrite N.lxor_spec, H, xorb_false_r, lxor_twice.
    assert (E1 : N.lxor (N.clearbit (N.lxor x mask) t) mask = N.clearbit x t).
    { apply N.bits_inj. intros q. rewrite N.lxor_spec, !N.clearbit_eqb, N.lxor_spec. destruct (N.eqb_spec t q) as [<-|]; rewrite ?H, ?andb_true_r, ?andb_false_r; cbn; auto.
      now destruct (N.testbit x q), (N.testbit mask q). }
    assert (E2 : N.lxor (N.setbit (N.lxor x mask) t) mask = N.setbit x t).
    { apply N.bits_inj. intros q. rewrite N.lxor_spec, !N.setbit_eqb, N.lxor_spec. destruct (N.eqb_spec t q) as [<-|]; rewrite ?H; cbn; auto.
      now destruct (N.testbit x q), (N.testbit mask q). }
    now rewrite E1, E2.
  Qed.
  Lemma gate1_pred P P' t (m : mat2 K) psi x : P x = P' x -> gate1 P t m psi x = gate1 P' t m psi x.
  Proof. unfold gate1. now intros ->. Qed.
  Lemma set_where cs : forall i perm x, NoDup cs -> all_set cs (N.lxor x (sp i cs (fun k => Bool.eqb (N.testbit perm k) false))) = match_perm i cs perm x.
  Proof.
    induction cs as [|q t IH]; intros i perm x ND; cbn [sp match_perm]; auto. inversion ND as [|q' t' Hq ND' [E1 E2]]. unfold all_set. cbn [forallb].
    f_equal.
    - rewrite !N.lxor_spec, sp_other, xorb_false_r by auto. destruct (N.testbit perm i); cbn [Bool.eqb]; rewrite ?N.bits_0, ?N.pow2_bits_true; now destruct (N.testbit x q).
    - rewrite <- (IH (i + 1) perm x) by auto. apply forallb_ext_in. intros p Hp. rewrite !N.lxor_spec. f_equal.
      destruct (Bool.eqb (N.testbit perm i) false). rewrite N.pow2_bits_eqb, (neqb_f q p) by (intros ->; contradiction). apply xorb_false_l. now rewrite N.bits_0, xorb_false_l.
  Qed.
  Lemma clear_where cs : forall i perm x, NoDup cs -> all_clear cs (N.lxor x (sp i cs (fun k => Bool.eqb (N.testbit perm k) true))) = match_perm i cs perm x.
  Proof.
    induction cs as [|q t IH]; intros i perm x ND; cbn [sp match_perm]; auto. inversion ND as [|q' t' Hq ND' [E1 E2]]. unfold all_clear. cbn [forallb].
    f_equal.
    - rewrite !N.lxor_spec, sp_other, xorb_false_r by auto. destruct (N.testbit perm i); cbn [Bool.eqb]; rewrite ?N.bits_0, ?N.pow2_bits_true; now destruct (N.testbit x q).
    - rewrite <- (IH (i + 1) perm x) by auto. apply forallb_ext_in. intros p Hp. rewrite !N.lxor_spec. f_equal. f_equal.
      destruct (Bool.eqb (N.testbit perm i) true). rewrite N.pow2_bits_eqb, (neqb_f q p) by (intros ->; contradiction). apply xorb_false_l. now rewrite N.bits_0, xorb_false_l.
  Qed.
  Lemma MACMtrx_form cs (m : mat2 K) t :
    (qi_MACMtrx cs m t : circ) = [] /\ m = midn \/ (qi_MACMtrx cs m t : circ) = qi_MACWrapper cs [GM cs m t].
  Proof.
    unfold qi_MACMtrx. destruct m as [a b c d]. cbn [m00 m01 m10 m11]. destruct (sr_eqb b 0%amp && sr_eqb c 0%amp) eqn:E.
    - apply andb_true_iff in E. destruct E as [E1 E2]. apply sr_eqb_ok in E1. apply sr_eqb_ok in E2. rewrite E1, E2. unfold qi_MACPhase, qi_MCPhase.
      destruct (sr_eqb (1 - a)%amp 0%amp && sr_eqb (1 - d)%amp 0%amp) eqn:F; auto. left. split; auto. apply andb_true_iff in F. destruct F as [F1 F2].
      apply sr_eqb_ok in F1. apply sr_eqb_ok in F2. apply sub0 in F1. apply sub0 in F2. now rewrite F1, F2.
    - right. destruct (sr_eqb a 0%amp && sr_eqb d 0%amp) eqn:F; auto. apply andb_true_iff in F. destruct F as [F1 F2]. apply sr_eqb_ok in F1. apply sr_eqb_ok in F2. now rewrite F1, F2.
  Qed.
  Lemma sem_MACMtrx n cs (m : mat2 K) t psi x : wfc n cs t -> csem (qi_MACMtrx cs m t : circ) psi x = gate1 (all_clear cs) t m psi x.
  Proof.
    intros W. destruct (MACMtrx_form cs m t) as [[E ->]|E]; rewrite E.
    - cbn [csem fold_left]. symmetry. apply gate1_one.
    - unfold qi_MACWrapper. rewrite !csem_app. cbn [csem fold_left gsem].
      rewrite gate1_mask. 2:{ destruct (N.testbit (pow_mask cs) t) eqn:F; auto. rewrite tb_pow_mask in F. apply existsb_exists in F. destruct F as [q [Hq F]].
        apply N.eqb_eq in F. subst. apply wfc_not in W. contradiction. }
      apply gate1_pred. now rewrite all_set_mask.
  Qed.
  Lemma wf_MACMtrx n cs (m : mat2 K) t : wfc n cs t -> cs <> [] \/ phase_free m -> Forall (wfg n) (qi_MACMtrx cs m t : circ).
  Proof.
    intros W HP. destruct (MACMtrx_form cs m t) as [[E ->]|E]; rewrite E. constructor.
    assert (Hm : pow_mask cs < 2 ^ n). { apply pow_mask_lt. intros q Hq. apply W. apply in_or_app. now left. }
    unfold qi_MACWrapper. cbn [app]. constructor; [exact Hm|]. constructor; [split; auto|]. constructor; [exact Hm|constructor].
  Qed.

  Lemma sem_UCMtrx n cs (m : mat2 K) t perm psi x : wfc n cs t -> csem (qi_UCMtrx cs m t perm : circ) psi x = gate1 (match_perm 0 cs perm) t m psi x.
  Proof.
    intros W. assert (ND : NoDup cs). { destruct W as [ND _]. apply NoDup_remove_1 in ND. now rewrite app_nil_r in ND. }
    assert (Hq : forall q, In q cs -> q < n) by (intros q H; apply W; apply in_or_app; now left). pose proof (wfc_not _ _ _ W) as Ht.
    unfold qi_UCMtrx. destruct (_ <? _); rewrite !csem_app.
    - rewrite (sem_lxor n _ _ (wf_where n cs 0 perm false Hq) (where_act cs 0 perm false)). cbn [csem fold_left gsem].
      rewrite (gate1_ext _ _ _ _ _ _ (sem_lxor n _ _ (wf_where n cs 0 perm false Hq) (where_act cs 0 perm false) psi)).
      rewrite gate1_mask by now apply sp_other. apply gate1_pred. now apply set_where.
    - rewrite (sem_lxor n _ _ (wf_where n cs 0 perm true Hq) (where_act cs 0 perm true)). rewrite (sem_MACMtrx n) by auto.
      rewrite (gate1_ext _ _ _ _ _ _ (sem_lxor n _ _ (wf_where n cs 0 perm true Hq) (where_act cs 0 perm true) psi)).
      rewrite gate1_mask by now apply sp_other. apply gate1_pred. now apply clear_where.
  Qed.
  Lemma wf_UCMtrx n cs (m : mat2 K) t perm : wfc n cs t -> cs <> [] \/ phase_free m -> Forall (wfg n) (qi_UCMtrx cs m t perm : circ).
  Proof.
    intros W HP. assert (Hq : forall q, In q cs -> q < n) by (intros q H; apply W; apply in_or_app; now left).
    unfold qi_UCMtrx. destruct (_ <? _); repeat (apply Forall_app; split); try (apply wfx_all; now apply wf_where).
    constructor; [|constructor]. split; auto. now apply wf_MACMtrx.
  Qed.

  (** ** UniformlyControlledSingleBit *)
  Lemma match_value cs : forall i p x, match_perm i cs p x = true <-> (forall k, (k < length cs)%nat -> N.testbit x (nth k cs 0) = N.testbit p (i + N.of_nat k)).
  Proof.
    induction cs as [|q t IH]; intros i p x; cbn [match_perm length]. split; auto. intros _ k Hk. lia.
    rewrite andb_true_iff, IH, Bool.eqb_true_iff. split.
    - intros [H1 H2] [|k] Hk; cbn [nth]. now rewrite N.add_0_r. rewrite H2 by lia. f_equal. lia.
    - intros H. split. specialize (H O ltac:(lia)). cbn [nth N.of_nat] in H. now rewrite N.add_0_r in H. intros k Hk. specialize (H (S k) ltac:(lia)). cbn [nth] in H. rewrite H. f_equal. lia.
  Qed.
  Lemma value_bits cs : forall i x k, N.testbit (ctrl_value i cs x) k = (i <=? k) && (k <? i + N.of_nat (length cs)) && N.testbit x (nth (N.to_nat (k - i)) cs 0).
  Proof.
    induction cs as [|q t IH]; intros i x k; cbn [ctrl_value length].
    - rewrite N.bits_0. destruct (N.leb_spec i k), (N.ltb_spec k (i + N.of_nat 0)); auto; lia.
    - assert (E : (if N.testbit x q then 2 ^ i else 0) + ctrl_value (i + 1) t x = N.lor (if N.testbit x q then 2 ^ i else 0) (ctrl_value (i + 1) t x)).
      { rewrite add_lor; auto. apply N.bits_inj. intros j. rewrite N.land_spec, IH, N.bits_0. destruct (N.testbit x q); [|now rewrite N.bits_0].
        rewrite N.pow2_bits_eqb. destruct (N.eqb_spec i j); auto. subst. destruct (N.leb_spec (j + 1) j); [lia|]. auto. }
      rewrite E, N.lor_spec, IH. destruct (N.eqb_spec i k) as [->|Hn].
      + destruct (N.leb_spec (k + 1) k); [lia|]. cbn [andb]. rewrite orb_false_r, N.leb_refl. destruct (N.ltb_spec k (k + N.of_nat (S (length t)))); [|lia].
        rewrite N.sub_diag. cbn [nth N.to_nat andb]. destruct (N.testbit x q); rewrite ?N.bits_0, ?N.pow2_bits_true; auto.
      + replace (N.testbit (if N.testbit x q then 2 ^ i else 0) k) with false. 2:{ destruct (N.testbit x q). now rewrite N.pow2_bits_false by auto. now rewrite N.bits_0. }
        cbn [orb]. destruct (N.leb_spec (i + 1) k), (N.leb_spec i k); try lia; auto. cbn [andb].
        replace (N.to_nat (k - i)) with (S (N.to_nat (k - (i + 1)))) by lia. cbn [nth].
        destruct (N.ltb_spec k (i + 1 + N.of_nat (length t))), (N.ltb_spec k (i + N.of_nat (S (length t)))); try lia; auto.
  Qed.
  Lemma value_lt cs x : ctrl_value 0 cs x < 2 ^ N.of_nat (length cs).
  Proof.
    apply lt_pow2_bits. intros k Hk. rewrite value_bits. destruct (N.ltb_spec k (0 + N.of_nat (length cs))); [lia|]. now rewrite andb_false_r.
  Qed.
  Lemma match_is cs p x : p < 2 ^ N.of_nat (length cs) -> match_perm 0 cs p x = (ctrl_value 0 cs x =? p).
  Proof.
    intros Hp. apply eq_true_iff_eq. rewrite match_value, N.eqb_eq. split.
    - intros H. apply N.bits_inj. intros k. rewrite value_bits. destruct (N.leb_spec 0 k); [|lia]. destruct (N.ltb_spec k (0 + N.of_nat (length cs))).
      + cbn [andb]. rewrite H by lia. f_equal. lia.
      + cbn [andb]. symmetry. eapply tb_high; [exact Hp|lia].
    - intros <- k Hk. rewrite value_bits. destruct (N.leb_spec 0 (0 + N.of_nat k)); [|lia]. destruct (N.ltb_spec (0 + N.of_nat k) (0 + N.of_nat (length cs))); [|lia].
      cbn [andb]. f_equal. f_equal. lia.
  Qed.
  Definition wm (cs : list N) (p : N) : N := sp 0 cs (fun k => Bool.eqb (N.testbit p k) false).
  Definition ucs (cs : list N) (t : N) (M : N -> mat2 K) (k : N) (psi : V) : V :=
    fun x => if ctrl_value 0 cs x <? k then gate1 always t (M (ctrl_value 0 cs x)) psi x else psi x.
  Lemma value_other cs t (b : bool) x : ~ In t cs -> ctrl_value 0 cs (if b then N.setbit x t else N.clearbit x t) = ctrl_value 0 cs x.
  Proof.
    intros H. generalize 0 as i. induction cs as [|q r IH]; intros i; cbn [ctrl_value]; auto. rewrite IH by (intros HI; apply H; now right).
    assert (q <> t) by (intros ->; apply H; now left). f_equal. destruct b. rewrite N.setbit_neq; auto. rewrite N.clearbit_neq; auto.
  Qed.
  Lemma ucs_step cs t M k psi x : ~ In t cs -> k < 2 ^ N.of_nat (length cs) ->
    gate1 (match_perm 0 cs k) t (M k) (ucs cs t M k psi) x = ucs cs t M (k + 1) psi x.
  Proof.
    intros Ht Hk. unfold gate1 at 1. rewrite match_is by auto. unfold ucs. rewrite (value_other cs t false), (value_other cs t true) by auto.
    destruct (N.eqb_spec (ctrl_value 0 cs x) k) as [->|Hn].
    - rewrite N.ltb_irrefl. destruct (N.ltb_spec k (k + 1)); [|lia]. reflexivity.
    - destruct (N.ltb_spec (ctrl_value 0 cs x) k), (N.ltb_spec (ctrl_value 0 cs x) (k + 1)); try lia; auto.
  Qed.
  Lemma sem_ucs_prefix n cs t M psi : wfc n cs t -> forall k, (N.of_nat k <= 2 ^ N.of_nat (length cs)) -> forall x,
    csem (flat_map qi_X cs ++ flat_map (fun lcv => GM cs (M lcv) t :: x_where 0 cs (N.lxor lcv (lcv + 1)) true) (iota 0 k)) psi x =
    ucs cs t M (N.of_nat k) psi (N.lxor x (wm cs (N.of_nat k))).
  Proof.
    intros W. assert (ND : NoDup cs). { destruct W as [ND _]. apply NoDup_remove_1 in ND. now rewrite app_nil_r in ND. }
    assert (Hq : forall q, In q cs -> q < n) by (intros q H; apply W; apply in_or_app; now left). pose proof (wfc_not _ _ _ W) as Ht.
    induction k as [|k IH]; intros Hk x.
    - cbn [iota flat_map]. rewrite app_nil_r.
      assert (E : flat_map qi_X cs = (x_where 0 cs 0 false : circ)). { generalize 0 at 1 as i. clear. induction cs as [|q t IH]; intros i; cbn [flat_map x_where]; auto. rewrite N.bits_0. cbn [Bool.eqb]. now rewrite (IH (i + 1)). }
      rewrite E. rewrite (sem_lxor n _ _ (wf_where n cs 0 0 false Hq) (where_act cs 0 0 false)). unfold ucs. destruct (N.ltb_spec (ctrl_value 0 cs (N.lxor x (wm cs (N.of_nat 0)))) (N.of_nat 0)); [lia|]. reflexivity.
    - rewrite iota_snoc, flat_map_app, app_assoc, csem_app. cbn [flat_map]. rewrite app_nil_r, csem_cons. cbn [gsem].
      rewrite (sem_lxor n _ _ (wf_where n cs 0 _ true Hq) (where_act cs 0 _ true)). rewrite N.add_0_l.
      set (d := sp 0 cs (fun k0 => Bool.eqb (N.testbit (N.lxor (N.of_nat k) (N.of_nat k + 1)) k0) true)).
      rewrite (gate1_ext _ _ _ _ _ _ (IH ltac:(lia))).
      assert (E : N.lxor x d = N.lxor (N.lxor x (wm cs (N.of_nat (S k)))) (wm cs (N.of_nat k))).
      { rewrite N.lxor_assoc. f_equal. unfold wm. rewrite sp_xor. apply sp_ext. intros j. rewrite N.lxor_spec. replace (N.of_nat k + 1) with (N.of_nat (S k)) by lia.
        now destruct (N.testbit (N.of_nat k) j), (N.testbit (N.of_nat (S k)) j). }
      rewrite E, gate1_mask by (apply sp_other; auto). replace (N.of_nat (S k)) with (N.of_nat k + 1) by lia. rewrite <- ucs_step by (auto; lia).
      apply gate1_pred. now apply set_where.
  Qed.
  Lemma sem_UCSB n cs t M psi x : wfc n cs t ->
    csem (qi_UCSB cs t M : circ) psi x = gate1 always t (M (ctrl_value 0 cs x)) psi x.
  Proof.
    intros W. assert (ND : NoDup cs). { destruct W as [ND _]. apply NoDup_remove_1 in ND. now rewrite app_nil_r in ND. }
    pose proof (wfc_not _ _ _ W) as Ht. pose proof (value_lt cs x) as Hv.
    assert (Hp : 0 < 2 ^ N.of_nat (length cs)) by (apply N.neq_0_lt_0; now apply N.pow_nonzero).
    unfold qi_UCSB. cbn zeta. set (L := 2 ^ N.of_nat (length cs)) in *. rewrite app_assoc, csem_app. cbn [csem fold_left gsem]. fold (@csem K).
    assert (EZ : wm cs (L - 1) = 0).
    { unfold wm. assert (Hb : forall k, (k < length cs)%nat -> N.testbit (L - 1) (0 + N.of_nat k) = true).
      { intros k Hk. unfold L. replace (2 ^ N.of_nat (length cs) - 1) with (N.ones (N.of_nat (length cs))) by (rewrite N.ones_equiv; lia). apply N.ones_spec_low. lia. }
      revert Hb. generalize (L - 1) as p. generalize 0 at 1 2 as i. clear. induction cs as [|q t IH]; intros i p Hb; cbn [sp]; auto. rewrite (IH (i + 1)).
      - specialize (Hb O). cbn [length N.of_nat] in Hb. rewrite N.add_0_r in Hb. rewrite Hb by lia. reflexivity.
      - intros k Hk. specialize (Hb (S k)). cbn [length] in Hb. rewrite <- Hb by lia. f_equal. lia. }
    rewrite (gate1_ext _ _ _ _ (ucs cs t M (L - 1) psi)).
    2:{ intros y. change (csem (flat_map qi_X cs ++ flat_map (fun lcv => GM cs (M lcv) t :: x_where 0 cs (N.lxor lcv (lcv + 1)) true) (iota 0 (N.to_nat (L - 1)))) psi y = ucs cs t M (L - 1) psi y).
        rewrite (sem_ucs_prefix n) by (auto; rewrite N2Nat.id; lia). rewrite N2Nat.id, EZ, N.lxor_0_r. reflexivity. }
    rewrite (gate1_pred _ (match_perm 0 cs (L - 1))).
    2:{ rewrite <- set_where by auto. change (sp 0 cs (fun k => Bool.eqb (N.testbit (L - 1) k) false)) with (wm cs (L - 1)). now rewrite EZ, N.lxor_0_r. }
    rewrite ucs_step by (auto; fold L; lia). unfold ucs. destruct (N.ltb_spec (ctrl_value 0 cs x) (L - 1 + 1)); [auto|lia].
  Qed.
  Lemma wf_UCSB n cs t (M : N -> mat2 K) : wfc n cs t -> (cs <> [] \/ phase_free (M 0)) -> Forall (wfg n) (qi_UCSB cs t M : circ).
  Proof.
    intros W HP. assert (Hq : forall q, In q cs -> q < n) by (intros q H; apply W; apply in_or_app; now left).
    unfold qi_UCSB. cbn zeta. repeat (apply Forall_app; split).
    - apply wfx_all. apply wf_flat. intros a Ha. apply wf_X. auto.
    - apply Forall_forall. intros g Hg. apply in_flat_map in Hg. destruct Hg as [k [Hk [<-|Hg]]].
      + split; auto. destruct cs; [|left; discriminate]. cbn in Hk. contradiction.
      + eapply Forall_forall in Hg; [exact Hg|]. apply wfx_all. now apply wf_where.
    - constructor; [|constructor]. split; auto. destruct cs; [|left; discriminate]. destruct HP as [HP|HP]; [congruence|]. right. exact HP.
  Qed.
End P.
