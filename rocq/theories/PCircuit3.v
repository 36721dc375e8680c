(** Proofs about the generic circuits (part 3: INC, DEC, CINC, CDEC, INCDECC). *)
From Coq Require Import NArith List Bool Lia Ring.
From Verif Require Import Bits MFunctions MParFor PParFor MKernel Amp PAmp MEngine SpecState SpecEngine
  PGates PGates2 PGates3 PEngine PCompose MAlu SpecAlu PAlu PAlu2 PAlu5 PAlu6 PAlu9 MCircuit PCircuit PCircuit2 SpecCircuit.
Import ListNotations.
Local Open Scope N_scope.

Lemma tb_xmask x cs q : N.testbit (N.lxor x (pow_mask cs)) q = xorb (N.testbit x q) (existsb (N.eqb q) cs).
Proof. now rewrite N.lxor_spec, tb_pow_mask. Qed.
Lemma all_clear_mask cs x : all_clear cs (N.lxor x (pow_mask cs)) = all_set cs x.
Proof. rewrite <- all_set_mask. now rewrite lxor_twice. Qed.
Lemma padds_xmask p L a cs x y : (forall k, k < L -> ~ In (p k) cs) -> padds p L a (N.lxor x (pow_mask cs)) y -> padds p L a x (N.lxor y (pow_mask cs)).
Proof.
  intros Hc [H1 H2]. assert (E : forall k, k < L -> existsb (N.eqb (p k)) cs = false).
  { intros k Hk. apply not_true_is_false. intros T. apply existsb_exists in T. destruct T as [q [Hq T]]. apply N.eqb_eq in T. subst q. now apply (Hc k). }
  assert (EV : pv p L (N.lxor x (pow_mask cs)) = pv p L x).
  { apply N.bits_inj. intros k. rewrite !tb_pv. destruct (N.ltb_spec k L); auto. cbn [andb]. now rewrite tb_xmask, E, xorb_false_r. }
  rewrite EV in H1. split.
  - intros k Hk. rewrite tb_xmask, E, xorb_false_r by auto. now apply H1.
  - intros q Hq. rewrite tb_xmask, H2, tb_xmask by auto. destruct (N.testbit x q), (existsb (N.eqb q) cs); auto.
Qed.
Lemma fold_flip_mask cs x : NoDup cs -> fold_left (fun y q => flip true q y) cs x = N.lxor x (pow_mask cs).
Proof.
  intros ND. apply N.bits_inj. intros q. rewrite tb_xmask. revert x. induction ND as [|a r Ha ND IH]; intros x; cbn [fold_left existsb].
  - now rewrite xorb_false_r.
  - rewrite IH, tb_flip. cbn [andb]. rewrite (N.eqb_sym a q). destruct (N.eqb_spec q a) as [->|]; cbn [orb].
    + assert (E : existsb (N.eqb a) r = false). { apply not_true_is_false. intros T. apply existsb_exists in T. destruct T as [b [Hb T]]. apply N.eqb_eq in T. now subst b. }
      rewrite E. now rewrite xorb_false_r.
    + now rewrite xorb_false_r.
Qed.

Section P.
  Context {K : StarRing}.
  Add Ring KrM : (sr_ring K).
  Local Notation V := (mem K).
  Local Notation circ := (circ K).

  Lemma fold_ext {A B} (f g : A -> B -> A) l : (forall b, In b l -> forall a, f a b = g a b) -> forall a, fold_left f l a = fold_left g l a.
  Proof. induction l as [|b r IH]; intros H a; auto. cbn [fold_left]. rewrite H by now left. apply IH. intros. apply H. now right. Qed.
  Lemma act_Xs cs x : NoDup cs -> cact (flat_map qi_X cs : circ) x = N.lxor x (pow_mask cs).
  Proof. intros ND. rewrite cact_flat. rewrite <- fold_flip_mask by auto. reflexivity. Qed.
  Lemma wf_Xs n cs : (forall q, In q cs -> q < n) -> Forall (wfx n) (flat_map qi_X cs : circ).
  Proof. intros H. apply wf_flat. intros q Hq. apply wf_X. auto. Qed.

  (** ** INC *)
  Lemma act_INC a s len x : cact (qi_INC a s len : circ) x = ploop [] (fun k => s + k) len a len x.
  Proof.
    unfold qi_INC. destruct (N.eqb_spec len 0) as [->|H0]. reflexivity. destruct (N.eqb_spec len 1) as [->|H1].
    - unfold ploop. change (N.to_nat 1) with 1%nat. cbn [iota fold_left]. destruct (N.testbit a 0); auto. unfold pact.
      change (N.to_nat (1 - 1 - 0)) with O. cbn [iota fold_left]. rewrite N.add_0_r. reflexivity.
    - rewrite cact_flat. unfold ploop. apply fold_ext. intros i Hi y. apply iota_In in Hi. destruct (N.testbit a i); auto.
      rewrite cact_app, act_X. apply (act_ripple [] s len i y (fun j => s + (i + j + 1) mod len)); auto. lia.
      intros j Hj. rewrite N.mod_small by lia. reflexivity.
  Qed.
  Lemma wf_INC n a s len : s + len <= n -> Forall (wfx n) (qi_INC a s len : circ).
  Proof.
    intros Hs. unfold qi_INC. destruct (N.eqb_spec len 0). constructor. destruct (N.eqb_spec len 1).
    - destruct (N.testbit a 0); [|constructor]. apply wf_X. lia.
    - apply wf_flat. intros i Hi. apply iota_In in Hi. destruct (N.testbit a i); [|constructor]. apply Forall_app. split. apply wf_X. lia.
      apply (wf_ripple n [] s len i (fun j => s + (i + j + 1) mod len) (fun k => s + k)); auto; try lia.
      intros j Hj. rewrite N.mod_small by lia. reflexivity. intros k Hk. split. lia. intros []. constructor. intros q [].
  Qed.
  Lemma inc_act a s len x : cact (qi_INC a s len : circ) x = add_reg s len a x.
  Proof.
    rewrite act_INC. eapply (padds_det _ len (a mod 2 ^ len) a). now rewrite N.mod_mod by apply pow2_nz.
    apply (ploop_ok [] (fun k => s + k)); auto; try lia. apply padds_reg.
  Qed.
  Lemma dec_act a s len x : len <= 127 -> cact (qi_DEC a s len : circ) x = sub_reg s len a x.
  Proof. intros Hl. unfold qi_DEC. rewrite inc_act. now apply dec_const_ok. Qed.

  (** ** CINC *)
  Lemma cinc_act a s len cs x : NoDup cs -> (forall q, In q cs -> outside_reg q s len) ->
    cact (qi_CINC a s len cs : circ) x = controlled cs (add_reg s len a) x.
  Proof.
    intros ND Hc. unfold qi_CINC. destruct cs as [|q0 r] eqn:Ecs. apply inc_act. rewrite <- Ecs in *. clear Ecs q0 r.
    assert (Hp : forall k, k < len -> ~ In (s + k) cs). { intros k Hk HI. apply Hc in HI. unfold outside_reg in HI. lia. }
    destruct (N.eqb_spec len 0) as [->|H0].
    { unfold controlled. rewrite add_reg_0. now destruct (all_set cs x). now rewrite N.mod_1_r. }
    assert (G : cact ((if len =? 1 then if N.testbit a 0 then qi_MCInvert cs 1%amp 1%amp s else []
      else flat_map qi_X cs ++ flat_map (fun i => if N.testbit a i then
            qi_MACInvert cs 1%amp 1%amp (s + i) ++
            flat_map (fun j => qi_MACInvert (cs ++ map (fun b => s + b) (iota i (N.to_nat (j + 1)))) 1%amp 1%amp (s + (i + j + 1) mod len))
              (iota 0 (N.to_nat ((len - 1) - i))) else []) (iota 0 (N.to_nat len)) ++ flat_map qi_X cs) : circ) x
      = N.lxor (ploop cs (fun k => s + k) len a len (N.lxor x (pow_mask cs))) (pow_mask cs)).
    { destruct (N.eqb_spec len 1) as [->|H1].
      - unfold ploop. change (N.to_nat 1) with 1%nat. cbn [iota fold_left]. destruct (N.testbit a 0).
        + rewrite act_MC. unfold pact. change (N.to_nat (1 - 1 - 0)) with O. cbn [iota fold_left]. rewrite all_clear_mask, flip_lxor, lxor_twice, N.add_0_r. reflexivity.
        + now rewrite lxor_twice.
      - rewrite !cact_app, !act_Xs, cact_flat by auto. f_equal. unfold ploop. apply fold_ext. intros i Hi y. apply iota_In in Hi. destruct (N.testbit a i); auto.
        rewrite cact_app, act_MAC. apply (act_ripple cs s len i y (fun j => s + (i + j + 1) mod len) (fun k => s + k)); auto. lia.
        intros j Hj. rewrite N.mod_small by lia. reflexivity. }
    rewrite G. unfold controlled. destruct (all_set cs x) eqn:E.
    - eapply (padds_det (fun k => s + k) len (a mod 2 ^ len) a); [now rewrite N.mod_mod by apply pow2_nz| |apply padds_reg].
      apply padds_xmask; auto. apply ploop_ok; auto; try lia. now rewrite all_clear_mask.
    - rewrite ploop_idle by now rewrite all_clear_mask. apply lxor_twice.
  Qed.
  Lemma cdec_act a s len cs x : len <= 127 -> NoDup cs -> (forall q, In q cs -> outside_reg q s len) ->
    cact (qi_CDEC a s len cs : circ) x = controlled cs (sub_reg s len a) x.
  Proof. intros Hl ND Hc. unfold qi_CDEC. rewrite cinc_act by auto. unfold controlled. now rewrite dec_const_ok. Qed.
  Lemma wf_CINC n a s len cs : s + len <= n -> NoDup cs -> (forall q, In q cs -> q < n /\ outside_reg q s len) -> Forall (wfx n) (qi_CINC a s len cs : circ).
  Proof.
    intros Hs ND Hc. unfold qi_CINC. destruct cs as [|q0 r] eqn:Ecs. now apply wf_INC. rewrite <- Ecs in *. clear Ecs q0 r.
    assert (Hp : forall k, k < len -> ~ In (s + k) cs). { intros k Hk HI. apply Hc in HI. unfold outside_reg in HI. lia. }
    assert (Hq : forall q, In q cs -> q < n) by (intros q Hq; now apply Hc).
    destruct (N.eqb_spec len 0). constructor. destruct (N.eqb_spec len 1).
    - destruct (N.testbit a 0); [|constructor]. apply wf_MC. apply wfc_intro; auto; try lia. rewrite <- (N.add_0_r s). apply Hp. lia.
    - apply Forall_app. split. now apply wf_Xs. apply Forall_app. split; [|now apply wf_Xs]. apply wf_flat. intros i Hi. apply iota_In in Hi.
      destruct (N.testbit a i); [|constructor]. apply Forall_app. split.
      + apply wf_MAC. apply wfc_intro; auto; try lia. apply Hp. lia.
      + apply (wf_ripple n cs s len i (fun j => s + (i + j + 1) mod len) (fun k => s + k)); auto; try lia.
        intros j Hj. rewrite N.mod_small by lia. reflexivity. intros k Hk. split. lia. now apply Hp.
  Qed.

  (** ** INCDECC: the carry goes to qubit (start + carryIndex) mod 256. *)
  Definition cpos (s len t k : N) : N := if k <? len then s + k else t.
  Lemma cpos_inj s len t k l : outside_reg t s len -> k < len + 1 -> l < len + 1 -> cpos s len t k = cpos s len t l -> k = l.
  Proof. unfold cpos, outside_reg. intros H Hk Hl. bcases; lia. Qed.
  Lemma target_ok s len ci i j : s + len <= 256 -> i < len -> i + j + 1 <= len ->
    (s + (if i + j + 1 =? len then ci else (i + j + 1) mod len)) mod 256 = cpos s len ((s + ci) mod 256) (i + j + 1).
  Proof.
    intros H Hi Hj. unfold cpos. destruct (N.eqb_spec (i + j + 1) len) as [->|].
    - now rewrite N.ltb_irrefl.
    - destruct (N.ltb_spec (i + j + 1) len); [|lia]. rewrite (N.mod_small (i + j + 1)) by lia. apply N.mod_small. lia.
  Qed.
  Lemma incdecc_act0 a s len ci x : s + len <= 256 -> outside_reg ((s + ci) mod 256) s len ->
    cact (qi_INCDECC a s len ci : circ) x = ploop [] (cpos s len ((s + ci) mod 256)) (len + 1) a len x.
  Proof.
    intros Hs Ho. unfold qi_INCDECC. rewrite cact_flat. unfold ploop. apply fold_ext. intros i Hi y. apply iota_In in Hi. destruct (N.testbit a i); auto.
    rewrite cact_app, act_X. replace (s + i) with (cpos s len ((s + ci) mod 256) i) by (unfold cpos; bcases; lia).
    replace (len - i) with (len + 1 - 1 - i) by lia.
    apply (act_ripple [] s (len + 1) i y (fun j => (s + (if i + j + 1 =? len then ci else (i + j + 1) mod len)) mod 256) (cpos s len ((s + ci) mod 256))). lia.
    intros k Hk. unfold cpos. bcases; lia. intros j Hj. apply target_ok; lia.
  Qed.
  Lemma wf_INCDECC n a s len ci : s + len <= n -> s + len <= 256 -> (s + ci) mod 256 < n -> outside_reg ((s + ci) mod 256) s len -> Forall (wfx n) (qi_INCDECC a s len ci : circ).
  Proof.
    intros Hs H8 Hn Ho. unfold qi_INCDECC. apply wf_flat. intros i Hi. apply iota_In in Hi. destruct (N.testbit a i); [|constructor]. apply Forall_app. split.
    apply wf_X. lia. replace (len - i) with (len + 1 - 1 - i) by lia.
    apply (wf_ripple n [] s (len + 1) i (fun j => (s + (if i + j + 1 =? len then ci else (i + j + 1) mod len)) mod 256) (cpos s len ((s + ci) mod 256))); try lia.
    intros k Hk. unfold cpos. bcases; lia. intros j Hj. apply target_ok; lia. intros k l. now apply cpos_inj.
    intros k Hk. split; [|intros []]. unfold cpos. bcases; lia. constructor. intros q [].
  Qed.
  Lemma pv_carry s len t x : pv (cpos s len t) (len + 1) x = get_reg x s len + N.b2n (N.testbit x t) * 2 ^ len.
  Proof.
    apply N.bits_inj. intros k. rewrite tb_pv, tb_cat, tb_get_reg by apply get_reg_lt. unfold cpos. bcases; try lia; auto; cbn [andb].
    - f_equal. lia.
    - replace (k - len) with 0 by lia. now destruct (N.testbit x t).
    - symmetry. destruct (N.testbit x t); cbn [N.b2n]; [|apply N.bits_0]. apply (tb_high 1 1). reflexivity. lia.
  Qed.
  Lemma padds_carry s len t a x : outside_reg t s len -> padds (cpos s len t) (len + 1) (a mod 2 ^ len) x (add_toggle s len t a x).
  Proof.
    intros Ho. pose proof (get_reg_lt x s len) as Hg. pose proof (mod_lt_pow2 a len) as Ha. pose proof (pow2_pos len) as HP.
    assert (ER : add_reg s len a x = put_reg x s len ((get_reg x s len + a mod 2 ^ len) mod 2 ^ len)) by (rewrite <- add_reg_mod; reflexivity).
    assert (EV : get_reg x s len + N.b2n (N.testbit x t) * 2 ^ len + a mod 2 ^ len =
      (get_reg x s len + a mod 2 ^ len) mod 2 ^ len + ((if 2 ^ len <=? get_reg x s len + a mod 2 ^ len then 1 else 0) + N.b2n (N.testbit x t)) * 2 ^ len).
    { set (u := get_reg x s len) in *. set (w := a mod 2 ^ len) in *. set (P := 2 ^ len) in *. clearbody u w P. destruct (N.leb_spec P (u + w)).
      - replace ((u + w) mod P) with (u + w - P). lia. apply (N.mod_unique _ _ 1); lia.
      - rewrite (N.mod_small (u + w)) by lia. lia. }
    split.
    - intros k Hk. rewrite pv_carry, EV, tb_cat by apply mod_lt_pow2. unfold add_toggle, cpos. rewrite ER, tb_put_bit, tb_put_reg by apply mod_lt_pow2.
      unfold outside_reg in Ho. destruct (N.ltb_spec k len) as [Hk'|Hk'].
      + destruct (N.eqb_spec t (s + k)); [lia|]. replace (s + k - s) with k by lia. bcases; auto; lia.
      + rewrite N.eqb_refl. replace (k - len) with 0 by lia. destruct (2 ^ len <=? get_reg x s len + a mod 2 ^ len), (N.testbit x t); reflexivity.
    - intros q Hq. unfold add_toggle. rewrite ER, tb_put_bit, tb_put_reg by apply mod_lt_pow2. destruct (N.eqb_spec t q) as [E|E].
      + exfalso. apply (Hq len). lia. unfold cpos. now rewrite N.ltb_irrefl.
      + destruct (N.ltb_spec q s); auto. destruct (N.ltb_spec q (s + len)); auto. exfalso. apply (Hq (q - s)). lia. unfold cpos. bcases; lia.
  Qed.
  Lemma incdecc_act a s len ci x : s + len <= 256 -> outside_reg ((s + ci) mod 256) s len ->
    cact (qi_INCDECC a s len ci : circ) x = add_toggle s len ((s + ci) mod 256) a x.
  Proof.
    intros Hs Ho. rewrite incdecc_act0 by auto. eapply (padds_det _ (len + 1) (a mod 2 ^ len) (a mod 2 ^ len)); auto.
    - apply ploop_ok; auto; try lia. intros k l. now apply cpos_inj.
    - now apply padds_carry.
  Qed.
End P.
