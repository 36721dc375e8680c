(** Proofs for QUnitClifford: measurements, ProbMask of one qubit, Compose. *)
From Coq Require Import Arith NArith List Bool Lia Ring Permutation.
From Verif Require Import Bits MFunctions SpecFunctions PFunctions MKernel PKernel Amp PAmp SpecState PApply PCompose PGates PGates2 PQCirc2 PQCirc3 PEngine MShard SpecShard MUnit PShard1 PShard2 PShard5 PUnit1 PUnit2 PUnit3 PUnit4 PQCirc6 PUnitW PUnit6 PUnit9 MTensor MUCliff SpecUCliff PUCliff1 PUCliff2 PUCliff3 PUCliff4.
Import ListNotations.
Local Open Scope N_scope.
Local Notation up n := (upto (N.to_nat n)).

Section P.
  Context {K : StarRing} (ci ch : K) (c : kcfg K) (D : definite (K := K)) (Sep : sep_ok c).
  Add Ring KrEF : (sr_ring K).
  Local Notation vec := (N -> K).
  Local Notation uk := (ucliff K).
  Local Notation M2 := (mat2 K).
  Local Notation good := PUCliff2.good.
  Implicit Types (U V : uk) (v psi : vec).

  (** ** Measurement *)
  Definition kept (q : N) (r : bool) (g : K) psi : vec := fun x => if eqb (N.testbit x q) r then (g * psi x)%amp else 0%amp.
  Lemma kept_norm n q r g v : norm2 n (kept q r g v) = (anorm g * wt n q r v)%amp.
  Proof. unfold wt, norm2. rewrite <- asum_scale. apply asum_ext. intros x _. unfold kept, mask. destruct (eqb _ _); [apply anorm_mul|rewrite anorm_0; ring]. Qed.
  Lemma kept_sup q r psi : supported q r psi -> same_state psi (kept q r 1%amp psi).
  Proof. intros H x. unfold kept. destruct (eqb (N.testbit x q) r) eqn:E; [ring|]. apply H. intros F. rewrite F, eqb_reflx in E. discriminate. Qed.
  Lemma set_draw_good d U : good U -> good (mkUK (k_n U) (k_sh U) (k_eng U) (k_next U) (k_ph U) d).
  Proof. intros [W P]. split; [|exact P]. split; [apply W|apply W|apply W]. Qed.
  (** The unit after the measurement. *)
  Lemma put_kept U q r g : good U -> q < k_n U -> (anorm g * wt (k_n U) q r (joint U) = 1)%amp ->
    becomes U (put_unit (k_unit U q) (k_size U (k_unit U q)) (fun x => if eqb (N.testbit x (k_map U q)) r then (g * k_vec U (k_unit U q) x)%amp else 0%amp) U) (kept q r g (joint U)).
  Proof.
    intros G Hq HN. rewrite (joint_wt U q r G Hq) in HN. destruct G as [W P]. destruct (kw_in U q W Hq) as [Hu Hm]. set (u := k_unit U q) in *.
    match goal with |- becomes _ ?X _ => set (V := X) end.
    assert (NE : norm2 (k_size U u) (kept (k_map U q) r g (k_vec U u)) = 1%amp) by (rewrite kept_norm; exact HN).
    split; [split; [apply put_wf; [exact W|exact Hu|exact NE|lia]|exact P]|]. split; [reflexivity|]. split; [reflexivity|].
    intros x. unfold joint, kept. change (k_ph V) with (k_ph U).
    pose (m := (if r then mkMat 0 0 0 g else mkMat g 0 0 0)%amp : M2).
    assert (B : same_state (parts V) (gate1 (fun y => always (gather (k_n U) (csh U) u y)) q m (parts U))).
    { apply (base_eng (k_n U) (k_next U) (csh U) (k_eng U) (kw_placed U W) (k_eng V) q u always m Hq eq_refl).
      - intros w _ Hwu. unfold V. rewrite put_eng_eq. destruct (N.eqb_spec w u); [contradiction|reflexivity].
      - intros y Hy. unfold V. rewrite put_eng_eq, N.eqb_refl. cbn [snd]. rewrite ktab_ok by exact Hy. rewrite csh_map. change (snd (k_eng U u)) with (k_vec U u). unfold m. rewrite gate1_at. unfold dia, off, always.
        destruct r, (N.testbit y (k_map U q)); cbn [m00 m01 m10 m11 eqb]; ring. }
    rewrite (B x), gate1_at. unfold m, dia, off, always. destruct r, (N.testbit x q); cbn [m00 m01 m10 m11 eqb]; ring.
  Qed.
  Lemma reg1 y m (b : bool) : N.testbit y m = b -> get_reg y m 1 = if b then 1 else 0.
  Proof.
    intros E. apply N.bits_inj. intros j. rewrite tb_get_reg. destruct (N.ltb_spec j 1) as [H|H].
    - replace j with 0 by lia. rewrite N.add_0_l, E. destruct b; reflexivity.
    - cbn [andb]. destruct b; symmetry; apply (tb_high _ 1); try lia; reflexivity.
  Qed.
  Lemma separate_bit_ok U q r : good U -> q < k_n U -> supported q r (joint U) -> exists V e, separate_bit c r q U = Ret V /\ anorm e = 1%amp /\ becomes U V (fun x => (e * joint U x)%amp).
  Proof.
    intros G Hq HS. assert (HE : esup (k_size U (k_unit U q)) (k_map U q) r (k_vec U (k_unit U q))).
    { apply (joint_sup D U q r G Hq) in HS. rewrite (joint_wt U q _ G Hq), (wt_zero D), negb_involutive in HS. exact HS. }
    assert (SELF : exists e, anorm e = 1%amp /\ becomes U U (fun x => (e * joint U x)%amp)).
    { exists 1%amp. split; [unfold anorm; rewrite conj_1; ring|]. apply (becomes_same _ _ _ _ (becomes_refl U G)). intros x. ring. }
    unfold separate_bit. destruct (kw_in U q (gd_wf U G) Hq) as [Hu Hm]. destruct (N.leb_spec (k_size U (k_unit U q)) 1) as [H1|H1].
    - assert (M0 : k_map U q = 0) by lia. unfold u_force_m, u_prob. destruct (N.leb_spec (k_size U (k_unit U q)) 0); [lia|]. cbn [andb]. destruct (N.ltb_spec 0 (k_size U (k_unit U q))); [|lia]. cbn [bind].
      rewrite <- wt_true. rewrite M0 in HE.
      assert (E : forall b, definitely b (wt (k_size U (k_unit U q)) 0 true (k_vec U (k_unit U q))) = eqb b r).
      { assert (WT : wt (k_size U (k_unit U q)) 0 true (k_vec U (k_unit U q)) = if r then 1%amp else 0%amp).
        { destruct r; [rewrite (wt_esup _ _ _ _ HE); apply (kw_norm U (gd_wf U G)), Hu|apply wt_zero; [exact D|exact HE]]. }
        rewrite WT. intros b. unfold definitely. destruct b, r; cbn [eqb]; try (apply PAmp.eqb_refl); destruct (PAmp.eqb_spec K (if false then 1 else 0)%amp (if true then 1 else 0)%amp) as [F|F];
          destruct (PAmp.eqb_spec K (if true then 1 else 0)%amp (if false then 1 else 0)%amp) as [F'|F']; try reflexivity; exfalso; first [apply (proj1 D); exact F'|apply (proj1 D); symmetry; exact F]. }
      rewrite !E. replace (eqb true r || eqb false r) with true by (destruct r; reflexivity). cbn [bind]. replace (eqb (eqb true r) r) with true by (destruct r; reflexivity).
      destruct SELF as (e & He & B). exists U, e. auto.
    - destruct (kc_sep c (k_size U (k_unit U q)) (k_map U q) (k_vec U (k_unit U q))) as [[rest one]|] eqn:ES; [|destruct SELF as (e & He & B); exists U, e; auto].
      destruct G as [W P]. destruct (Sep _ _ _ _ _ H1 Hm (kw_norm U W _ Hu) ES) as (N1 & N2 & E). set (u := k_unit U q) in *. set (m := k_map U q) in *.
      pose (bi := (fun b : bool => if b then 1 else 0) : bool -> N).
      assert (Z : one (bi (negb r)) = 0%amp).
      { destruct (norm_nonzero _ rest D N1) as (y & Hy & Ny). pose (x := slice_ix m 1 (bi (negb r)) y).
        assert (Hb : bi (negb r) < 2 ^ 1) by (destruct r; cbn; lia). assert (Hx : x < 2 ^ k_size U u) by (replace (k_size U u) with (k_size U u - 1 + 1) by lia; apply slice_ix_lt; [lia|exact Hb|exact Hy]).
        assert (Tx : N.testbit x m = negb r). { unfold x. rewrite tb_slice_ix by exact Hb. destruct (N.ltb_spec m m); [lia|]. destruct (N.ltb_spec m (m + 1)); [|lia]. rewrite N.sub_diag. destruct r; reflexivity. }
        assert (F := E x Hx). rewrite (HE x Hx) in F by (rewrite Tx; destruct r; discriminate). unfold tensor_at in F. rewrite (reg1 x m (negb r) Tx) in F. unfold x in F. rewrite (outside_slice m 1 _ y Hb) in F.
        symmetry in F. apply (proj1 (proj2 D)) in F. destruct F as [F|F]; [contradiction|exact F]. }
      assert (O1 : anorm (one (bi r)) = 1%amp). { rewrite norm_one in N2. destruct r; cbn [bi negb] in *; rewrite Z, anorm_0 in N2; rewrite <- N2; ring. }
      match goal with |- exists V e, Ret ?X = _ /\ _ => set (V := X) end. exists V, (sr_conj (one (bi r))). split; [reflexivity|].
      split; [unfold anorm in *; rewrite sr_conj_invol; rewrite <- O1; ring|].
      assert (Vs : forall p, k_sh V p = if p =? q then (k_next U, 0) else if (k_unit U p =? u) && (m <? k_map U p) then (k_unit U p, k_map U p - 1) else k_sh U p).
      { intros p. unfold V. cbn [k_sh set_shards]. destruct (N.eqb_spec p q) as [->|]; [|reflexivity]. cbn [fst snd]. fold u. destruct (N.eqb_spec (k_next U) u); [lia|reflexivity]. }
      assert (Ve : forall w, k_eng V w = if w =? k_next U then (1, ktab 1 (ket (if r then 1 else 0))) else if w =? u then (k_size U u - 1, ktab (k_size U u - 1) rest) else k_eng U w) by reflexivity.
      assert (NK : norm2 1 (ket (if r then 1 else 0) : vec) = 1%amp) by (rewrite norm_one; unfold ket; destruct r; cbn [N.eqb Pos.eqb]; rewrite anorm_0; unfold anorm; rewrite conj_1; ring).
      split; [split; [apply (split_wf U V W q Hq rest _ eq_refl eq_refl Vs Ve H1 N1 NK)|exact P]|]. split; [reflexivity|]. split; [reflexivity|].
      intros x. unfold joint. change (k_ph V) with (k_ph U).
      rewrite (split_base U V W q Hq rest _ eq_refl eq_refl Vs Ve H1 (sr_conj (one (bi r)))); [ring|]. fold u m. intros y Hy. rewrite (E y Hy). unfold tensor_at.
      destruct (bool_dec (N.testbit y m) r) as [F|F].
      + rewrite (reg1 y m r F). change (if r then 1 else 0) with (bi r). unfold ket. rewrite N.eqb_refl. unfold anorm in O1. transitivity (rest (outside y m 1) * (one (bi r) * sr_conj (one (bi r))))%amp; [rewrite O1; ring|ring].
      + assert (F' : N.testbit y m = negb r) by (destruct (N.testbit y m), r; cbn; congruence). rewrite (reg1 y m _ F'). change (if negb r then 1 else 0) with (bi (negb r)). rewrite Z. unfold ket, bi. destruct r; cbn [negb N.eqb Pos.eqb]; ring.
  Qed.
  (** What a measurement of qubit [q] of [psi] with the result [r] leaves. *)
  Definition collapsed (n q : N) (r : bool) psi phi : Prop := exists g, (anorm g * weight_of n (fun x => eqb (N.testbit x q) r) psi = 1)%amp /\ eqv n phi (kept q r g psi).
  Definition nrm_at (p : K) : Prop := p <> 0%amp -> (anorm (kc_nrm c p) * p = 1)%amp.
  Lemma measure_core U q r : good U -> q < k_n U -> supported q r (joint U) -> exists V e, separate_bit c r q U = Ret V /\ anorm e = 1%amp /\ good V /\ k_n V = k_n U /\ k_draw V = k_draw U /\ same_state (joint V) (fun x => (e * joint U x)%amp).
  Proof. intros G Hq HS. destruct (separate_bit_ok U q r G Hq HS) as (V & e & E & He & (G1 & N1 & D1 & J1)). exists V, e. repeat (split; [assumption|]). exact J1. Qed.
  Lemma wt_sup U q r : good U -> q < k_n U -> supported q r (joint U) -> wt (k_n U) q r (joint U) = 1%amp.
  Proof.
    intros G Hq HS. apply (joint_sup D U q r G Hq) in HS. pose proof (wt_split (k_n U) q (joint U)) as E. rewrite (joint_norm U G) in E. destruct r; cbn [negb] in HS; rewrite HS in E; rewrite <- E; ring.
  Qed.
  (** The result of a measurement that changes the state. *)
  Definition result U q : bool := let p := weight_of (k_n U) (fun x => N.testbit x q) (joint U) in if sr_eqb p 1%amp then true else if sr_eqb p 0%amp then false else kc_rnd c (k_draw U).
  Lemma wt_collapsed U V q r g e : (anorm g * wt (k_n U) q r (joint U) = 1)%amp -> anorm e = 1%amp -> same_state (joint V) (fun x => (e * kept q r g (joint U) x)%amp) -> collapsed (k_n U) q r (joint U) (joint V).
  Proof.
    intros Hg He E. exists (e * g)%amp. split; [rewrite anorm_mul, <- wt_weight, He; transitivity (anorm g * wt (k_n U) q r (joint U))%amp; [ring|exact Hg]|]. intros x _. rewrite E. unfold kept. destruct (eqb _ _); ring.
  Qed.
  Lemma force_ok U q res (force : bool) : good U -> q < k_n U -> (forall r, nrm_at (wt (k_n U) q r (joint U))) -> (force = true -> wt (k_n U) q res (joint U) <> 0%amp) ->
    exists r V, k_force_m c q res force true U = Ret (r, V) /\ good V /\ k_n V = k_n U /\ r = (if force then res else result U q) /\ wt (k_n U) q r (joint U) <> 0%amp /\ collapsed (k_n U) q r (joint U) (joint V).
  Proof.
    intros G Hq HN HF. unfold k_force_m. destruct (N.leb_spec (k_n U) q); [lia|]. destruct (kw_in U q (gd_wf U G) Hq) as [Hu Hm]. unfold u_force_m at 1. destruct (N.leb_spec (k_size U (k_unit U q)) (k_map U q)); [lia|]. rewrite andb_false_r.
    unfold u_prob at 1. destruct (N.ltb_spec (k_map U q) (k_size U (k_unit U q))); [|lia]. cbn [bind]. rewrite <- wt_true, <- (joint_wt U q true G Hq).
    pose proof (wt_split (k_n U) q (joint U)) as WS. rewrite (joint_norm U G) in WS. set (p := wt (k_n U) q true (joint U)) in *.
    assert (ER : result U q = if definitely true p then true else if definitely false p then false else kc_rnd c (k_draw U)) by (unfold result; rewrite <- wt_true; reflexivity).
    assert (SURE : forall r, supported q r (joint U) -> (force = true -> res = r) -> result U q = r -> exists r0 V, (do (r1, U0) <- Ret (r, U); (if negb true then Ret (r1, U0) else do U1 <- separate_bit c r1 q U0; Ret (r1, U1))) = Ret (r0, V) /\
      good V /\ k_n V = k_n U /\ r0 = (if force then res else result U q) /\ wt (k_n U) q r0 (joint U) <> 0%amp /\ collapsed (k_n U) q r0 (joint U) (joint V)).
    { intros r HS HR HRes. cbn [bind negb]. destruct (measure_core U q r G Hq HS) as (V & e & E & He & G1 & N1 & _ & J). rewrite E. cbn [bind]. exists r, V. split; [reflexivity|]. split; [exact G1|]. split; [exact N1|].
      split; [destruct force; [symmetry; apply HR; reflexivity|symmetry; exact HRes]|]. assert (W1 := wt_sup U q r G Hq HS). split; [rewrite W1; apply D|].
      apply (wt_collapsed U V q r 1%amp e); [rewrite W1; unfold anorm; rewrite conj_1; ring|exact He|]. intros x. rewrite J. rewrite <- (kept_sup q r (joint U) HS x). reflexivity. }
    assert (OTHER : forall r, supported q r (joint U) -> force = true -> res = r).
    { intros r HS Hf. destruct (bool_dec res r) as [E|E]; [exact E|exfalso]. apply (HF Hf). replace res with (negb r) by (destruct res, r; cbn; congruence). apply (joint_sup D U q r G Hq), HS. }
    destruct (definitely true p) eqn:ET; [|destruct (definitely false p) eqn:EF]; cbn [orb].
    - apply (definitely_ok D U q true G Hq) in ET. replace (force && negb (eqb res true)) with false; [apply SURE; [exact ET|apply OTHER, ET|exact ER]|].
      destruct force eqn:Ef; [|reflexivity]. rewrite (OTHER true ET eq_refl). reflexivity.
    - apply (definitely_ok D U q false G Hq) in EF. replace (force && negb (eqb res false)) with false; [apply SURE; [exact EF|apply OTHER, EF|exact ER]|].
      destruct force eqn:Ef; [|reflexivity]. rewrite (OTHER false EF eq_refl). reflexivity.
    - pose (r := if force then res else kc_rnd c (k_draw U)). pose (d := if force then k_draw U else k_draw U + 1).
      replace (if force then (res, k_draw U) else (kc_rnd c (k_draw U), k_draw U + 1)) with (r, d) by (unfold r, d; destruct force; reflexivity). cbn [negb].
      set (U1 := mkUK (k_n U) (k_sh U) (k_eng U) (k_next U) (k_ph U) d). assert (G1 : good U1) by (apply set_draw_good, G).
      assert (WR : wt (k_n U) q r (joint U) <> 0%amp).
      { intros F. destruct r.
        - unfold definitely in EF. fold p in F. rewrite F, PAmp.eqb_refl in EF. discriminate.
        - unfold definitely in ET. rewrite F in WS. assert (E1 : p = 1%amp) by (rewrite <- WS; ring). rewrite E1 in ET. rewrite PAmp.eqb_refl in ET. discriminate. }
      assert (PN : (if r then p else 1 - p)%amp = wt (k_n U) q r (joint U)) by (destruct r; [reflexivity|rewrite <- WS; ring]). rewrite PN. pose (g := kc_nrm c (wt (k_n U) q r (joint U))). assert (Hg := HN r WR). fold g in Hg. fold g.
      destruct (put_kept U1 q r g G1 Hq Hg) as (G2 & N2 & _ & J2). change (k_unit U q) with (k_unit U1 q). change (k_map U q) with (k_map U1 q).
      match goal with |- context [Ret (r, ?X)] => set (U2 := X) in * end. cbn [bind].
      assert (HS : supported q r (joint U2)). { intros x Hx. rewrite J2. unfold kept. destruct (eqb (N.testbit x q) r) eqn:E; [apply eqb_prop in E; contradiction|reflexivity]. }
      destruct (measure_core U2 q r G2 Hq HS) as (V & e & E & He & G3 & N3 & _ & J3). rewrite E. cbn [bind]. exists r, V. split; [reflexivity|]. split; [exact G3|]. split; [rewrite N3; exact N2|].
      split; [unfold r; rewrite ER; reflexivity|]. split; [exact WR|]. apply (wt_collapsed U V q r g e); [exact Hg|exact He|]. intros x. rewrite J3, J2. reflexivity.
  Qed.
  (** Forcing a result that cannot be; ForceM that leaves the state. *)
  Lemma force_impossible U q res : good U -> q < k_n U -> wt (k_n U) q res (joint U) = 0%amp -> k_force_m c q res true true U = Throws.
  Proof.
    intros G Hq HZ. unfold k_force_m. destruct (N.leb_spec (k_n U) q); [lia|]. destruct (kw_in U q (gd_wf U G) Hq) as [Hu Hm]. unfold u_force_m at 1. destruct (N.leb_spec (k_size U (k_unit U q)) (k_map U q)); [lia|]. cbn [andb negb].
    unfold u_prob at 1. destruct (N.ltb_spec (k_map U q) (k_size U (k_unit U q))); [|lia]. cbn [bind]. rewrite <- wt_true, <- (joint_wt U q true G Hq).
    assert (HS : supported q (negb res) (joint U)) by (apply (joint_sup D U q (negb res) G Hq); rewrite negb_involutive; exact HZ).
    pose proof (definitely_ok D U q true G Hq) as DT. pose proof (definitely_ok D U q false G Hq) as DF. set (p := wt (k_n U) q true (joint U)) in *.
    destruct res; cbn [negb] in HS.
    - apply DF in HS. rewrite HS, orb_true_r. replace (definitely true p) with false; [reflexivity|]. symmetry. apply not_true_iff_false. intros F. apply sr_eqb_ok in F. unfold p in F. rewrite HZ in F. apply (proj1 D). symmetry. exact F.
    - apply DT in HS. rewrite HS. reflexivity.
  Qed.
  Lemma peek_ok U q res (force : bool) : good U -> q < k_n U -> exists r V, k_force_m c q res force false U = Ret (r, V) /\ good V /\ k_n V = k_n U /\ same_state (joint V) (joint U) /\ (force = true -> r = res) /\ (force = false -> wt (k_n U) q r (joint U) <> 0%amp).
  Proof.
    intros G Hq. unfold k_force_m. destruct (N.leb_spec (k_n U) q); [lia|]. destruct (kw_in U q (gd_wf U G) Hq) as [Hu Hm]. unfold u_force_m at 1. destruct (N.leb_spec (k_size U (k_unit U q)) (k_map U q)); [lia|].
    destruct force; cbn [andb negb bind]; [exists res, U; split; [reflexivity|]; split; [exact G|]; split; [reflexivity|]; split; [intros x; reflexivity|]; split; [reflexivity|discriminate]|]. unfold u_prob at 1. destruct (N.ltb_spec (k_map U q) (k_size U (k_unit U q))); [|lia]. cbn [bind]. rewrite <- wt_true, <- (joint_wt U q true G Hq).
    pose proof (definitely_ok D U q true G Hq) as DT. pose proof (definitely_ok D U q false G Hq) as DF. pose proof (wt_split (k_n U) q (joint U)) as WS. rewrite (joint_norm U G) in WS. set (p := wt (k_n U) q true (joint U)) in *.
    destruct (definitely true p) eqn:ET; [|destruct (definitely false p) eqn:EF]; cbn [orb bind negb].
    - exists true, U. split; [reflexivity|]. split; [exact G|]. split; [reflexivity|]. split; [intros x; reflexivity|]. split; [discriminate|]. intros _. rewrite (wt_sup U q true G Hq); [apply D|apply DT; reflexivity].
    - exists false, U. split; [reflexivity|]. split; [exact G|]. split; [reflexivity|]. split; [intros x; reflexivity|]. split; [discriminate|]. intros _. rewrite (wt_sup U q false G Hq); [apply D|apply DF; reflexivity].
    - eexists _, _. split; [reflexivity|]. split; [apply set_draw_good, G|]. split; [reflexivity|]. split; [intros x; reflexivity|]. split; [discriminate|]. intros _ F. destruct (kc_rnd c (k_draw U)).
      + unfold definitely in EF. fold p in F. rewrite F, PAmp.eqb_refl in EF. discriminate.
      + unfold definitely in ET. rewrite F in WS. assert (E1 : p = 1%amp) by (rewrite <- WS; ring). rewrite E1 in ET. rewrite PAmp.eqb_refl in ET. discriminate.
  Qed.

  (** ** ProbMask of one qubit *)
  Lemma mask_one U q perm : good U -> q < k_n U -> k_prob_mask (2 ^ q) perm U = Ret (weight_of (k_n U) (fun x => eqb (N.testbit x q) (N.testbit perm q)) (joint U)).
  Proof.
    intros G Hq. unfold k_prob_mask. assert (EB : filter (N.testbit (2 ^ q)) (up (N.size (2 ^ q))) = [q]).
    { assert (SZ : N.size (2 ^ q) = q + 1) by (rewrite N.size_log2 by (apply N.pow_nonzero; lia); rewrite N.log2_pow2 by lia; lia). rewrite SZ. replace (N.to_nat (q + 1)) with (S (N.to_nat q)) by lia. cbn [upto]. rewrite N2Nat.id, filter_app. cbn [filter]. rewrite N.pow2_bits_true.
      replace (filter (N.testbit (2 ^ q)) (up q)) with (@nil N); [reflexivity|]. symmetry. assert (H : forall p, In p (up q) -> p <> q) by (intros p Hp; apply up_in in Hp; lia). induction (up q) as [|p l IH]; [reflexivity|]. cbn [filter].
      rewrite N.pow2_bits_false by (intros F; apply (H p (or_introl eq_refl)); symmetry; exact F). apply IH. intros p' Hp'. apply H. right. exact Hp'. }
    rewrite EB. cbn [existsb orb k_units]. destruct (N.leb_spec (k_n U) q); [lia|]. cbn [orb asum fold_right filter]. rewrite N.eqb_refl. f_equal.
    rewrite <- wt_weight, (joint_wt U q _ G Hq), wt_weight. assert (E : forall a b : K, a = b -> (a + 0)%amp = b) by (intros a b ->; ring). apply E. unfold weight_of. apply asum_ext. intros y _. cbn [forallb]. rewrite andb_true_r. reflexivity.
  Qed.
End P.
