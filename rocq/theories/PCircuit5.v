(** Proofs about the generic circuits (part 5: modular multiplication and logic gates). *)
From Coq Require Import NArith List Bool Lia Ring.
From Verif Require Import Bits MFunctions PFunctions MParFor PParFor MKernel Amp PAmp MEngine SpecState SpecEngine
  PGates PGates2 PGates3 PEngine PCompose MAlu SpecAlu PAlu PAlu2 PAlu5 PAlu6 PAlu9 MCircuit SpecCircuit PCircuit PCircuit2 PCircuit3 PCircuit4.
Import ListNotations.
Local Open Scope N_scope.

Lemma add_reg_add s len a b x : add_reg s len b (add_reg s len a x) = add_reg s len (a + b) x.
Proof.
  eapply (padds_det (fun k => s + k) len (a + b) (a + b)); [reflexivity| |apply padds_reg]. eapply padds_trans; apply padds_reg.
Qed.
Lemma get_add_other s len a x s2 l2 : disjoint_regs s len s2 l2 -> get_reg (add_reg s len a x) s2 l2 = get_reg x s2 l2.
Proof. intros H. unfold add_reg. apply get_put_other; auto. apply mod_lt_pow2. Qed.
Lemma get_sub_other s len a x s2 l2 : disjoint_regs s len s2 l2 -> get_reg (sub_reg s len a x) s2 l2 = get_reg x s2 l2.
Proof. rewrite sub_reg_add. apply get_add_other. Qed.
Lemma tb_add_other s len a x q : outside_reg q s len -> N.testbit (add_reg s len a x) q = N.testbit x q.
Proof. intros H. unfold add_reg. rewrite tb_put_reg by apply mod_lt_pow2. unfold outside_reg in H. bcases; auto; lia. Qed.
Lemma tb_sub_other s len a x q : outside_reg q s len -> N.testbit (sub_reg s len a x) q = N.testbit x q.
Proof. rewrite sub_reg_add. apply tb_add_other. Qed.
Lemma all_set_ext cs x y : (forall q, In q cs -> N.testbit x q = N.testbit y q) -> all_set cs x = all_set cs y.
Proof. intros H. unfold all_set. now apply forallb_ext_in. Qed.
Lemma all_set_add cs s len a x : (forall q, In q cs -> outside_reg q s len) -> all_set cs (add_reg s len a x) = all_set cs x.
Proof. intros H. apply all_set_ext. intros q Hq. apply tb_add_other. auto. Qed.

(** The constant added for a register value. *)
Fixpoint mulsum (m N0 : N) (k : nat) (v : N) : N :=
  match k with
  | O => 0
  | S j => mulsum m N0 j v + (if N.testbit v (N.of_nat j) then part_mul m N0 (N.of_nat j) else 0)
  end.
Lemma mulsum_pow2 m k olen v : olen <= 128 -> N.of_nat k <= 127 -> v < 2 ^ N.of_nat k -> mulsum m (2 ^ olen) k v mod 2 ^ olen = (v * m) mod 2 ^ olen.
Proof.
  intros Ho Hk Hv. assert (G : forall j, (j <= k)%nat -> mulsum m (2 ^ olen) j v mod 2 ^ olen = ((v mod 2 ^ N.of_nat j) * m) mod 2 ^ olen).
  { induction j as [|j IH]; intros Hj. cbn [mulsum]. change (2 ^ N.of_nat 0) with 1. rewrite N.mod_1_r. reflexivity.
    cbn [mulsum]. replace (N.of_nat (S j)) with (N.of_nat j + 1) by lia. rewrite mod_pow2_succ. specialize (IH ltac:(lia)).
    pose proof (pow2_nz olen) as HZ. rewrite N.add_mod, IH by auto. rewrite N.mul_add_distr_r, (N.add_mod (_ * m) (_ * m)) by auto. f_equal. f_equal.
    destruct (N.testbit v (N.of_nat j)); auto. unfold part_mul. rewrite N.mod_mod by auto. unfold pow2_128, w128. rewrite N.shiftl_1_l.
    rewrite (N.mod_small (2 ^ N.of_nat j)) by (apply pow2_lt_mono; lia).
    replace (2 ^ 128) with (2 ^ olen * 2 ^ (128 - olen)) by (rewrite <- N.pow_add_r; f_equal; lia).
    rewrite N.mod_mul_r by (auto; apply pow2_nz). rewrite (N.mul_comm (2 ^ olen)), N.mod_add, N.mod_mod by auto. f_equal. apply N.mul_comm. }
  rewrite (G k) by lia. now rewrite (N.mod_small v) by auto.
Qed.
Lemma mulsum_small m N0 k v : m * 2 ^ N.of_nat k < 2 ^ 128 -> N.of_nat k <= 127 -> m * (2 ^ N.of_nat k - 1) < N0 -> v < 2 ^ N.of_nat k -> mulsum m N0 k v = v * m.
Proof.
  intros H128 Hk HN Hv. assert (G : forall j, (j <= k)%nat -> mulsum m N0 j v = (v mod 2 ^ N.of_nat j) * m).
  { induction j as [|j IH]; intros Hj. cbn [mulsum]. change (2 ^ N.of_nat 0) with 1. rewrite N.mod_1_r. reflexivity.
    cbn [mulsum]. replace (N.of_nat (S j)) with (N.of_nat j + 1) by lia. rewrite mod_pow2_succ, IH by lia. rewrite N.mul_add_distr_r. f_equal.
    destruct (N.testbit v (N.of_nat j)); auto. unfold part_mul, pow2_128, w128. rewrite N.shiftl_1_l.
    assert (HP : 2 ^ N.of_nat j * 2 <= 2 ^ N.of_nat k). { change 2 with (2 ^ 1) at 2. rewrite <- N.pow_add_r. apply pow2_le_mono. lia. }
    pose proof (pow2_pos (N.of_nat j)) as HJ. set (P := 2 ^ N.of_nat j) in *. set (Q := 2 ^ N.of_nat k) in *.
    rewrite (N.mod_small P) by (apply pow2_lt_mono; lia). clearbody P Q.
    assert (m * P <= m * (Q - 1)) by (apply N.mul_le_mono_l; lia). assert (m * P < 2 ^ 128).
    { apply N.le_lt_trans with (m * Q); auto. apply N.mul_le_mono_l. lia. }
    rewrite (N.mod_small (m * P) (2 ^ 128)) by auto. rewrite N.mod_small by lia. apply N.mul_comm. }
  rewrite (G k) by lia. now rewrite (N.mod_small v) by auto.
Qed.

Section P.
  Context {K : StarRing}.
  Add Ring KrO : (sr_ring K).
  Variable c : cfg.
  Local Notation V := (mem K).
  Local Notation circ := (circ K).

  (** ** Circuits and their inverses *)
  Definition inv_pair (n : N) (l l' : circ) : Prop := Forall (wfx n) l /\ Forall (wfx n) l' /\ forall x, x < 2 ^ n -> cact l' (cact l x) = x.
  Lemma inv_nil n : inv_pair n [] [].
  Proof. split; [constructor|]. split; [constructor|]. reflexivity. Qed.
  Lemma inv_app n a a' b b' : inv_pair n a a' -> inv_pair n b b' -> inv_pair n (a ++ b) (b' ++ a').
  Proof.
    intros [A1 [A2 A3]] [B1 [B2 B3]]. split; [apply Forall_app; auto|]. split; [apply Forall_app; auto|]. intros x Hx. rewrite !cact_app, B3. auto.
    now apply cact_lt.
  Qed.
  Lemma times_snoc d (l : circ) : times (S d) l = times d l ++ l.
  Proof. induction d as [|d IH]; cbn [times]. now rewrite app_nil_r. cbn [times] in IH. rewrite IH at 1. apply app_assoc. Qed.
  Lemma inv_times n d l l' : inv_pair n l l' -> inv_pair n (times d l) (times d l').
  Proof.
    intros H. induction d as [|d IH]. apply inv_nil. rewrite (times_snoc d l'). change (times (S d) l) with (l ++ times d l).
    assert (E : times d l' ++ l' = times d l' ++ l') by reflexivity. apply inv_app; auto.
  Qed.
  Lemma inv_run rgp n l l' (psi : V) : fits c n -> inv_pair n l l' ->
    every_run (crun c rgp n l (Some psi)) (fun r => exists psi1, r = Ok (Some psi1) /\
      every_run (crun c rgp n l' (Some psi1)) (fun r2 => exists psi2, r2 = Ok (Some psi2) /\ eqv n psi2 psi)).
  Proof. intros Hf [W1 [W2 H]]. apply undo_run; auto; try now apply wfx_all. now apply (perm_undo n). Qed.
  Lemma wf_times n d (l : circ) : Forall (wfx n) l -> Forall (wfx n) (times d l).
  Proof. intros H. induction d; cbn [times]. constructor. apply Forall_app. auto. Qed.

  Lemma inv_rev n (l : circ) : Forall (wfx n) l -> inv_pair n l (rev l).
  Proof. intros H. split; auto. split. now apply wfx_rev. intros. now apply (cact_rev n). Qed.
  Lemma inv_X n q : q < n -> inv_pair n (qi_X q) (qi_X q).
  Proof. intros H. split; [now apply wf_X|]. split; [now apply wf_X|]. intros x Hx. rewrite !act_X. apply flip_flip. Qed.
  Lemma ctl_sub_add cs s len a x : (forall q, In q cs -> outside_reg q s len) -> controlled cs (sub_reg s len a) (controlled cs (add_reg s len a) x) = x.
  Proof.
    intros H. unfold controlled. destruct (all_set cs x) eqn:E. rewrite all_set_add, E by auto. apply sub_add. now rewrite E.
  Qed.
  Lemma ctl_add_sub cs s len a x : (forall q, In q cs -> outside_reg q s len) -> controlled cs (add_reg s len a) (controlled cs (sub_reg s len a) x) = x.
  Proof.
    intros H. unfold controlled. destruct (all_set cs x) eqn:E. rewrite sub_reg_add, all_set_add, E by auto. rewrite <- sub_reg_add. apply add_sub. now rewrite E.
  Qed.
  Lemma inv_CINC n a s len cs : s + len <= n -> len <= 127 -> NoDup cs -> (forall q, In q cs -> q < n /\ outside_reg q s len) -> inv_pair n (qi_CINC a s len cs) (qi_CDEC a s len cs).
  Proof.
    intros Hs Hl ND Hc. assert (Ho : forall q, In q cs -> outside_reg q s len) by (intros; now apply Hc). split; [now apply wf_CINC|]. split; [now apply wf_CINC|]. intros x Hx.
    rewrite cdec_act, cinc_act by auto. now apply ctl_sub_add.
  Qed.
  Lemma inv_CDEC n a s len cs : s + len <= n -> len <= 127 -> NoDup cs -> (forall q, In q cs -> q < n /\ outside_reg q s len) -> inv_pair n (qi_CDEC a s len cs) (qi_CINC a s len cs).
  Proof.
    intros Hs Hl ND Hc. assert (Ho : forall q, In q cs -> outside_reg q s len) by (intros; now apply Hc). split; [now apply wf_CINC|]. split; [now apply wf_CINC|]. intros x Hx.
    rewrite cdec_act, cinc_act by auto. now apply ctl_add_sub.
  Qed.

  (** ** The multiplication loop *)
  Definition mloop (op : N -> N -> N -> list N -> circ) (m N0 s o olen len : N) (cs : list N) : circ :=
    flat_map (fun i => let p := part_mul m N0 i in if p =? 0 then [] else op p o olen (cs ++ [s + i])) (iota 0 (N.to_nat len)).
  Lemma mctl_cs n cs s len o olen i : mulmod_ok n cs s len o olen -> i < len -> NoDup (cs ++ [s + i]) /\ forall q, In q (cs ++ [s + i]) -> q < n /\ outside_reg q o olen.
  Proof.
    intros [H1 [H2 [H3 [ND Hc]]]] Hi. split.
    - apply NoDup_app_disjoint; auto. repeat constructor. intros []. intros q Hq [<-|[]]. apply Hc in Hq. unfold outside_reg in Hq. lia.
    - intros q HI. apply in_app_or in HI. destruct HI as [HI|[<-|[]]]. split; now apply Hc. unfold disjoint_regs, outside_reg in *. lia.
  Qed.
  Lemma tb_reg_bit x s len i : i < len -> N.testbit (get_reg x s len) i = N.testbit x (s + i).
  Proof. intros H. rewrite tb_get_reg. destruct (N.ltb_spec i len); [|lia]. cbn [andb]. f_equal. lia. Qed.
  Lemma all_set_ctl1 cs q x : all_set (cs ++ [q]) x = all_set cs x && N.testbit x q.
  Proof. rewrite all_set_app. unfold all_set at 2. cbn [forallb]. now rewrite andb_true_r. Qed.
  Lemma mloop_add n m N0 s o olen len cs x : mulmod_ok n cs s len o olen ->
    cact (mloop qi_CINC m N0 s o olen len cs) x = controlled cs (fun x => add_reg o olen (mulsum m N0 (N.to_nat len) (get_reg x s len)) x) x.
  Proof.
    intros H. unfold mloop. rewrite cact_flat.
    assert (G : forall k, (k <= N.to_nat len)%nat -> fold_left (fun y i => cact (let p := part_mul m N0 i in if p =? 0 then [] else qi_CINC p o olen (cs ++ [s + i]) : circ) y) (iota 0 k) x =
      controlled cs (fun x => add_reg o olen (mulsum m N0 k (get_reg x s len)) x) x).
    { induction k as [|k IH]; intros Hk.
      - cbn [iota fold_left mulsum]. unfold controlled. rewrite add_reg_0. now destruct (all_set cs x). apply N.mod_0_l, pow2_nz.
      - rewrite iota_snoc, fold_left_app, IH by lia. cbn [fold_left]. rewrite N.add_0_l. cbv zeta. destruct (mctl_cs _ _ _ _ _ _ (N.of_nat k) H) as [ND Hq]; [lia|].
        assert (Ho : forall q, In q cs -> outside_reg q o olen) by (intros q Hq'; apply Hq; apply in_or_app; now left).
        cbn [mulsum]. unfold controlled. destruct (N.eqb_spec (part_mul m N0 (N.of_nat k)) 0) as [E|E].
        + cbn [cact fold_left]. rewrite E. destruct (N.testbit (get_reg x s len) (N.of_nat k)); now rewrite N.add_0_r.
        + rewrite cinc_act by (auto; intros q Hq'; now apply Hq). unfold controlled. rewrite all_set_ctl1. destruct (all_set cs x) eqn:EC; [|now rewrite EC].
          rewrite all_set_add, EC by auto. cbn [andb]. rewrite tb_add_other by (apply Hq; apply in_or_app; right; now left).
          rewrite tb_reg_bit by lia. destruct (N.testbit x (s + N.of_nat k)). now rewrite add_reg_add. now rewrite N.add_0_r. }
    apply G. lia.
  Qed.
  Lemma add_reg_subs o olen a b x : sub_reg o olen b (sub_reg o olen a x) = sub_reg o olen (a + b) x.
  Proof.
    rewrite <- (sub_add o olen b (sub_reg o olen (a + b) x)). f_equal. rewrite <- (sub_add o olen a (add_reg o olen b (sub_reg o olen (a + b) x))).
    f_equal. rewrite add_reg_add, (N.add_comm b a), add_sub. reflexivity.
  Qed.
  Lemma all_set_sub cs s len a x : (forall q, In q cs -> outside_reg q s len) -> all_set cs (sub_reg s len a x) = all_set cs x.
  Proof. rewrite sub_reg_add. apply all_set_add. Qed.
  Lemma sub_reg_0 o olen x : sub_reg o olen 0 x = x.
  Proof. rewrite <- (add_sub o olen 0 x) at 2. symmetry. apply add_reg_0. apply N.mod_0_l, pow2_nz. Qed.
  Lemma mloop_sub n m N0 s o olen len cs x : mulmod_ok n cs s len o olen -> olen <= 127 ->
    cact (mloop qi_CDEC m N0 s o olen len cs) x = controlled cs (fun x => sub_reg o olen (mulsum m N0 (N.to_nat len) (get_reg x s len)) x) x.
  Proof.
    intros H Hl. unfold mloop. rewrite cact_flat.
    assert (G : forall k, (k <= N.to_nat len)%nat -> fold_left (fun y i => cact (let p := part_mul m N0 i in if p =? 0 then [] else qi_CDEC p o olen (cs ++ [s + i]) : circ) y) (iota 0 k) x =
      controlled cs (fun x => sub_reg o olen (mulsum m N0 k (get_reg x s len)) x) x).
    { induction k as [|k IH]; intros Hk.
      - cbn [iota fold_left mulsum]. unfold controlled. rewrite sub_reg_0. now destruct (all_set cs x).
      - rewrite iota_snoc, fold_left_app, IH by lia. cbn [fold_left]. rewrite N.add_0_l. cbv zeta. destruct (mctl_cs _ _ _ _ _ _ (N.of_nat k) H) as [ND Hq]; [lia|].
        assert (Ho : forall q, In q cs -> outside_reg q o olen) by (intros q Hq'; apply Hq; apply in_or_app; now left).
        cbn [mulsum]. unfold controlled. destruct (N.eqb_spec (part_mul m N0 (N.of_nat k)) 0) as [E|E].
        + cbn [cact fold_left]. rewrite E. destruct (N.testbit (get_reg x s len) (N.of_nat k)); now rewrite N.add_0_r.
        + rewrite cdec_act by (auto; intros q Hq'; now apply Hq). unfold controlled. rewrite all_set_ctl1. destruct (all_set cs x) eqn:EC; [|now rewrite EC].
          rewrite all_set_sub, EC by auto. cbn [andb]. rewrite tb_sub_other by (apply Hq; apply in_or_app; right; now left).
          rewrite tb_reg_bit by lia. destruct (N.testbit x (s + N.of_nat k)). now rewrite add_reg_subs. now rewrite N.add_0_r. }
    apply G. lia.
  Qed.
  Lemma wf_mloop n op m N0 s o olen len cs : (forall p cs', NoDup cs' -> (forall q, In q cs' -> q < n /\ outside_reg q o olen) -> Forall (wfx n) (op p o olen cs')) ->
    mulmod_ok n cs s len o olen -> Forall (wfx n) (mloop op m N0 s o olen len cs).
  Proof.
    intros Hop H. apply wf_flat. intros i Hi. apply iota_In in Hi. cbv zeta. destruct (_ =? 0). constructor.
    destruct (mctl_cs _ _ _ _ _ _ i H) as [ND Hq]; [lia|]. now apply Hop.
  Qed.
  Lemma inv_mloop n m N0 s o olen len cs : mulmod_ok n cs s len o olen -> olen <= 127 -> inv_pair n (mloop qi_CINC m N0 s o olen len cs) (mloop qi_CDEC m N0 s o olen len cs).
  Proof.
    intros H Hl. assert (Hb : o + olen <= n) by apply H. split; [|split].
    - apply wf_mloop; auto. intros. now apply wf_CINC.
    - apply wf_mloop; auto. intros. now apply wf_CINC.
    - intros x Hx. rewrite (mloop_sub n), (mloop_add n) by auto. unfold controlled.
      assert (Ho : forall q, In q cs -> outside_reg q o olen) by (intros q Hq; now apply H).
      destruct (all_set cs x) eqn:E; [|now rewrite E]. rewrite all_set_add, E by auto. rewrite get_add_other. apply sub_add.
      destruct H as [_ [_ [H _]]]. unfold disjoint_regs in *. lia.
  Qed.

  (** ** MULModNOut and its inverse *)
  Lemma mul_cmul m N0 s o len : (qi_MULModNOut m N0 s o len : circ) = qi_CMULModNOut m N0 s o len [].
  Proof. reflexivity. Qed.
  Lemma imul_cimul m N0 s o len : (qi_IMULModNOut m N0 s o len : circ) = qi_CIMULModNOut m N0 s o len [].
  Proof. reflexivity. Qed.
  Lemma log2_div_lt len N0 : N0 <> 0 -> isPowerOfTwoOcl N0 = false -> len <= 127 -> pow2_128 len / N0 <> 0 -> N.log2 (pow2_128 len / N0) < len.
  Proof.
    intros H0 HP Hl HD. unfold pow2_128, w128 in *. rewrite N.shiftl_1_l in *. rewrite (N.mod_small (2 ^ len)) in * by (apply pow2_lt_mono; lia).
    assert (N0 <> 1). { intros ->. discriminate HP. }
    apply N.log2_lt_pow2. now apply N.neq_0_lt_0. apply N.div_lt_upper_bound; auto. pose proof (pow2_pos len). assert (1 * 2 ^ len < N0 * 2 ^ len) by (apply N.mul_lt_mono_pos_r; lia). lia.
  Qed.
  Lemma inv_MUL n m N0 s o len cs : mulmod_ok n cs s len o (mod_olen N0) -> n <= 127 -> N0 <> 0 -> inv_pair n (qi_CMULModNOut m N0 s o len cs) (qi_CIMULModNOut m N0 s o len cs).
  Proof.
    intros H Hn H0. assert (Hol : mod_olen N0 <= 127) by (destruct H; lia). unfold qi_CMULModNOut, qi_CIMULModNOut. cbv zeta.
    fold (mloop qi_CINC m N0 s o (mod_olen N0) len cs). fold (mloop qi_CDEC m N0 s o (mod_olen N0) len cs). apply inv_app. now apply inv_mloop.
    destruct (isPowerOfTwoOcl N0) eqn:EP. apply inv_nil.
    destruct (N.eq_dec (pow2_128 len / N0) 0) as [E|E]. { rewrite E. apply inv_nil. }
    assert (HL : N.log2 (pow2_128 len / N0) < len) by (apply log2_div_lt; auto; destruct H; lia).
    set (ctl := s + len - (N.log2 (pow2_128 len / N0) + 1)). set (d := N.to_nat (pow2_128 len / N0)).
    destruct (mctl_cs n cs s len o (mod_olen N0) (len - (N.log2 (pow2_128 len / N0) + 1)) H) as [ND Hq]; [lia|].
    replace (s + (len - (N.log2 (pow2_128 len / N0) + 1))) with ctl in * by (unfold ctl; lia). assert (Hctl : ctl < n) by (apply Hq; apply in_or_app; right; now left).
    destruct H as [H1 [H2 [H3 [H4 H5]]]]. apply inv_app.
    - apply inv_times.
      assert (R : inv_pair n (qi_CDEC N0 s len cs ++ (qi_X ctl ++ (qi_CDEC N0 o (mod_olen N0) (cs ++ [ctl]) ++ qi_X ctl)))
                             (((qi_X ctl ++ qi_CINC N0 o (mod_olen N0) (cs ++ [ctl])) ++ qi_X ctl) ++ qi_CINC N0 s len cs)).
      { apply inv_app. apply inv_CDEC; auto; try lia. intros q Hq'. split; now apply H5. apply inv_app. now apply inv_X. apply inv_app; [|now apply inv_X]. apply inv_CDEC; auto. }
      rewrite <- !app_assoc in R. exact R.
    - apply inv_times. apply inv_CINC; auto; try lia. intros q Hq'. split; now apply H5.
  Qed.
  (** Power-of-two modulus. *)
  Lemma mul_act_pow2 n m N0 s o len cs x : mulmod_ok n cs s len o (mod_olen N0) -> n <= 127 -> isPowerOfTwoOcl N0 = true ->
    cact (qi_CMULModNOut m N0 s o len cs : circ) x = controlled cs (mul_mod_add m N0 s len o (mod_olen N0)) x.
  Proof.
    intros H Hn HP. unfold qi_CMULModNOut. cbv zeta. fold (mloop qi_CINC m N0 s o (mod_olen N0) len cs). rewrite HP, app_nil_r, (mloop_add n) by auto.
    unfold controlled. destruct (all_set cs x); auto. assert (EN : N0 = 2 ^ mod_olen N0).
    { unfold mod_olen. rewrite HP. apply isPowerOfTwo_ok in HP. destruct HP as [k ->]. now rewrite N.log2_pow2 by lia. }
    unfold add_reg, mul_mod_add. f_equal. set (ol := mod_olen N0) in *. clearbody ol. subst N0. destruct H as [H1 [H2 _]].
    rewrite <- (N.add_mod_idemp_r (get_reg x o ol) (mulsum _ _ _ _)) by apply pow2_nz.
    rewrite mulsum_pow2; try lia. now rewrite N.add_mod_idemp_r by apply pow2_nz. rewrite N2Nat.id. apply get_reg_lt.
  Qed.
  Lemma wf_MUL n m N0 s o len cs : mulmod_ok n cs s len o (mod_olen N0) -> n <= 127 -> N0 <> 0 -> Forall (wfx n) (qi_CMULModNOut m N0 s o len cs : circ).
  Proof. intros H Hn H0. now apply (inv_MUL n m N0 s o len cs). Qed.
  (** Products below the modulus. *)
  Lemma mul_act_small n m N0 s o len cs x : mulmod_ok n cs s len o (mod_olen N0) -> n <= 63 -> 1 <= m -> m * (2 ^ len - 1) < N0 -> get_reg x o (mod_olen N0) = 0 ->
    cact (qi_CMULModNOut m N0 s o len cs : circ) x = controlled cs (mul_mod_out m N0 s len o (mod_olen N0)) x.
  Proof.
    intros H Hn Hm HN HZ. destruct (isPowerOfTwoOcl N0) eqn:EP.
    - rewrite (mul_act_pow2 n) by (auto; lia). unfold controlled, mul_mod_add, mul_mod_out. now rewrite HZ, N.add_0_l.
    - unfold qi_CMULModNOut. cbv zeta. fold (mloop qi_CINC m N0 s o (mod_olen N0) len cs). rewrite EP.
      assert (HL : N0 < 2 ^ mod_olen N0). { unfold mod_olen. rewrite EP, N.add_1_r. apply N.log2_spec. eapply N.le_lt_trans; [apply N.le_0_l|exact HN]. }
      assert (HL2 : 2 ^ mod_olen N0 <= 2 ^ 63) by (apply pow2_le_mono; destruct H; lia).
      assert (Hlen : len <= 63) by (destruct H; lia).
      assert (HD : pow2_128 len / N0 = 0).
      { unfold pow2_128, w128. rewrite N.shiftl_1_l, (N.mod_small (2 ^ len)) by (apply pow2_lt_mono; lia). apply N.div_small.
        assert (N0 <> 2 ^ len). { intros E. assert (isPowerOfTwoOcl N0 = true) by (apply isPowerOfTwo_ok; eauto). congruence. }
        pose proof (pow2_pos len). assert (1 * (2 ^ len - 1) <= m * (2 ^ len - 1)) by (apply N.mul_le_mono_r; lia). lia. }
      rewrite HD. cbn [N.to_nat times]. rewrite !app_nil_r, (mloop_add n) by auto. unfold controlled. destruct (all_set cs x); auto. unfold add_reg, mul_mod_out. f_equal.
      pose proof (get_reg_lt x s len) as Hg. assert (Hp : get_reg x s len * m <= m * (2 ^ len - 1)) by (rewrite N.mul_comm; apply N.mul_le_mono_l; lia).
      assert (EM : mulsum m N0 (N.to_nat len) (get_reg x s len) = get_reg x s len * m).
      { destruct (N.eq_dec len 0) as [->|Hl0]. { change (2 ^ 0) with 1 in Hg. replace (get_reg x s 0) with 0 by lia. reflexivity. }
        apply mulsum_small; rewrite ?N2Nat.id; auto; try lia.
        replace (m * 2 ^ len) with (m * (2 ^ len - 1) + m) by (pose proof (pow2_pos len); rewrite N.mul_sub_distr_l; assert (m * 1 <= m * 2 ^ len) by (apply N.mul_le_mono_l; lia); lia).
        assert (1 <= 2 ^ len - 1). { assert (2 ^ 1 <= 2 ^ len) by (apply pow2_le_mono; lia). change (2 ^ 1) with 2 in *. lia. }
        assert (m * 1 <= m * (2 ^ len - 1)) by (apply N.mul_le_mono_l; lia). assert (2 ^ 63 < 2 ^ 127) by reflexivity. assert (2 ^ 127 * 2 = 2 ^ 128) by reflexivity. lia. }
      rewrite EM, HZ, N.add_0_l, !N.mod_small by lia. reflexivity.
  Qed.
End P.
