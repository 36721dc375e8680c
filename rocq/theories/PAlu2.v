(** Proofs about the arithmetic kernels (part 2: composition, measurement, SetReg, ROL, carry and signed addition). *)
From Coq Require Import NArith ZArith List Bool Lia Ring.
From Verif Require Import Bits MFunctions SpecFunctions PFunctions MParFor PParFor MKernel PKernel Amp PAmp MEngine SpecState SpecEngine
  PLoop PApply PGates PGates2 PGates3 PCompose PProb PEngine MAlu SpecAlu PAlu.
Import ListNotations.
Local Open Scope N_scope.

Section S.
  Context {K : StarRing}.
  Add Ring KrB : (sr_ring K).
  Variable c : cfg.
  Local Notation V := (mem K).

  (** ** Finite search *)
  Lemma find_basis n (P : N -> bool) : (exists x, x < 2 ^ n /\ P x = true) \/ (forall x, x < 2 ^ n -> P x = false).
  Proof.
    destruct (existsb P (basis n)) eqn:E.
    - left. apply existsb_exists in E. destruct E as [x [Hx Px]]. exists x. split; auto. now apply basis_In.
    - right. intros x Hx. destruct (P x) eqn:Px; auto. assert (existsb P (basis n) = true); [|congruence].
      apply existsb_exists. exists x. split; auto. now apply basis_In.
  Qed.
  Lemma amp_dec (a b : K) : {a = b} + {a <> b}.
  Proof. destruct (sr_eqb a b) eqn:E. left. now apply sr_eqb_ok. right. intros H. apply sr_eqb_ok in H. congruence. Qed.
  Lemma find_amp n (P : N -> bool) (psi : V) : (exists x, x < 2 ^ n /\ P x = true /\ psi x <> 0%amp) \/ (forall x, x < 2 ^ n -> P x = true -> psi x = 0%amp).
  Proof.
    destruct (find_basis n (fun x => P x && negb (sr_eqb (psi x) 0%amp))) as [[x [Hx E]]|H].
    - left. exists x. apply andb_true_iff in E. destruct E as [Px E]. split; auto. split; auto. intros Z. rewrite Z in E.
      assert (sr_eqb (0 : K)%amp 0%amp = true) as F by now apply sr_eqb_ok. rewrite F in E. discriminate.
    - right. intros x Hx Px. specialize (H x Hx). rewrite Px in H. cbn [andb] in H. apply negb_false_iff in H. now apply sr_eqb_ok.
  Qed.

  (** ** Composition *)
  Lemma basis_map_comp n D f ph D2 f2 ph2 (psi psi1 psi2 : V) :
    basis_map n D f ph psi psi1 -> basis_map n D2 f2 ph2 psi1 psi2 -> (forall x, x < 2 ^ n -> D x = true -> D2 (f x) = true) ->
    basis_map n D (fun x => f2 (f x)) (fun x => (ph2 (f x) * ph x)%amp) psi psi2.
  Proof.
    intros [A [B C]] [A2 [B2 C2]] HD. split; [|split].
    - intros x y Hx Hy Dx Dy E. apply A; auto. apply A2; auto; now apply B.
    - intros x Hx Dx. destruct (B x Hx Dx) as [F1 E1]. destruct (B2 (f x) F1 (HD x Hx Dx)) as [F2 E2]. split; auto. rewrite E2, E1. ring.
    - intros y Hy Hn. destruct (find_basis n (fun z => D2 z && (f2 z =? y))) as [[z [Hz E]]|H].
      + apply andb_true_iff in E. destruct E as [Dz E]. apply N.eqb_eq in E. subst y. destruct (B2 z Hz Dz) as [_ ->].
        rewrite C; auto. ring. intros x Hx Dx F. apply (Hn x Hx Dx). now rewrite F.
      + apply C2; auto. intros z Hz Dz E. specialize (H z Hz). rewrite Dz, E, N.eqb_refl in H. discriminate.
  Qed.
  Lemma basis_map_eqv n D f ph (psi psi' psi'' : V) : basis_map n D f ph psi psi' -> eqv n psi'' psi' -> basis_map n D f ph psi psi''.
  Proof.
    intros [A [B C]] H. split; auto. split.
    - intros x Hx Dx. destruct (B x Hx Dx) as [F E]. split; auto. now rewrite H.
    - intros y Hy Hn. rewrite H by auto. now apply C.
  Qed.
  Lemma basis_map_project n D (g : K) (psi psi' : V) : eqv n psi' (project D g psi) -> basis_map n D (fun x => x) (fun _ => g) psi psi'.
  Proof.
    intros H. split; auto. split.
    - intros x Hx Dx. split; auto. rewrite H by auto. unfold project. now rewrite Dx.
    - intros y Hy Hn. rewrite H by auto. unfold project. destruct (D y) eqn:E; auto. exfalso. now apply (Hn y).
  Qed.
  Lemma basis_map_supported n D f ph D2 (psi psi' : V) : basis_map n D f ph psi psi' -> (forall x, x < 2 ^ n -> D x = true -> D2 (f x) = true) -> supported n D2 psi'.
  Proof. intros [A [B C]] H y Hy E. apply C; auto. intros x Hx Dx F. subst y. rewrite H in E; auto. discriminate. Qed.
  Lemma basis_map_here n D (psi : V) : supported n D psi -> basis_map n D (fun x => x) (fun _ => 1%amp) psi psi.
  Proof.
    intros H. apply basis_map_project. intros x Hx. unfold project. destruct (D x) eqn:E. ring. now apply H.
  Qed.

  (** ** X *)
  Lemma lxor_twice x m : N.lxor (N.lxor x m) m = x.
  Proof. now rewrite N.lxor_assoc, N.lxor_nilpotent, N.lxor_0_r. Qed.
  Lemma x_ok rgp n q (psi : V) r : fits c n -> q < n -> Mtrx c rgp n matX q (Some psi) r ->
    exists psi', r = Ok (Some psi') /\ basis_map n always (fun x => N.lxor x (2 ^ q)) (fun _ => 1%amp) psi psi'.
  Proof.
    intros Hf Hq HM. apply mtrx_ok in HM; auto. destruct HM as [psi' [ph [-> [HE Hph]]]]. exists psi'. split; auto.
    assert (G : forall x, gate1 always q matX psi x = psi (N.lxor x (2 ^ q))).
    { intros x. unfold gate1, always, matX. cbn [m00 m01 m10 m11]. destruct (N.testbit x q) eqn:E.
      rewrite lxor_clear by auto. ring. rewrite lxor_set by auto. ring. }
    assert (HL : forall x, x < 2 ^ n -> N.lxor x (2 ^ q) < 2 ^ n) by (intros; apply lxor_lt_pow2; auto; now apply pow2_lt_mono).
    apply basis_map_perm.
    - intros x y _ _ E. rewrite <- (lxor_twice x (2 ^ q)), <- (lxor_twice y (2 ^ q)). now rewrite E.
    - intros x Hx. split; auto. destruct Hph as [->|[_ [_ Hph]]].
      + transitivity (1 * psi' (N.lxor x (2 ^ q)))%amp; [ring|]. rewrite <- HE, G, lxor_twice by auto. ring.
      + apply trivial_ring. unfold matX in Hph. injection Hph. intros; congruence.
  Qed.

  (** ** Measurement *)
  Lemma bit_mask x q b : (N.land x (2 ^ q) =? (if b : bool then 2 ^ q else 0)) = bit_is q b x.
  Proof.
    unfold bit_is. rewrite land_pow2_testbit. pose proof (pow2_nz q). destruct (N.testbit x q), b; cbn [Bool.eqb]; bcases; auto; try congruence; lia.
  Qed.
  Lemma mbit_ok (nrm : K) n q (psi : V) b psi1 : fits c n -> q < n -> MBit c nrm n q psi b psi1 ->
    exists g, measured n (bit_is q b) nrm g psi /\ basis_map n (bit_is q b) (fun x => x) (fun _ => g) psi psi1.
  Proof.
    intros Hf Hq [[x [Hx [Eb Hne]]] HM]. assert (n < 64) by apply Hf.
    assert (Hex : exists x, x < 2 ^ n /\ bit_is q b x = true /\ psi x <> 0%amp).
    { exists x. split; auto. split; auto. unfold bit_is. rewrite Eb. apply eqb_reflx. }
    assert (HS : forall z, bit_is q b z = false -> N.testbit z q <> b).
    { intros z E F. unfold bit_is in E. rewrite F, eqb_reflx in E. discriminate. }
    destruct HM as [[Hs ->]|[_ HA]].
    - exists 1%amp. assert (supported n (bit_is q b) psi) by (intros z Hz E; apply Hs; auto). split. split; auto. now apply basis_map_here.
    - exists nrm. split. split; auto. rewrite pow2Ocl_small in HA by lia.
      apply applym_ok in HA; auto; [|now apply pow2_lt_mono|destruct b; [now apply pow2_lt_mono|apply pow2_pos]].
      destruct HA as [psi' [E HE]]. injection E as <-. apply basis_map_project. intros z Hz. rewrite HE by auto. unfold project.
      now rewrite bit_mask.
  Qed.
  Lemma applym_any n mask result (nrm : K) (psi : V) : fits c n -> exists psi1, ApplyM c n mask result nrm (Some psi) (Some psi1).
  Proof.
    intros Hf. destruct (for_any c n (applym_body (w64 mask) (w64 result) nrm) psi Hf) as [r [m' [Hm _]]].
    exists m'. exists m'. split; auto.
  Qed.
  Lemma mbit_any (nrm : K) n q (psi : V) : fits c n -> q < n -> nonzero n psi -> exists b psi1, MBit c nrm n q psi b psi1.
  Proof.
    intros Hf Hq [x [Hx Hne]]. set (b := N.testbit x q). exists b.
    assert (HA : exists psi1, ApplyM c n (pow2Ocl q) (if b then pow2Ocl q else 0) nrm (Some psi) (Some psi1)).
    { now apply applym_any. }
    destruct (find_amp n (fun z => negb (Bool.eqb (N.testbit z q) b)) psi) as [[z [Hz [E Hz2]]]|H].
    - destruct HA as [psi1 HA]. exists psi1. split. now exists x. right. split; auto. exists z. split; auto. split; auto.
      intros F. rewrite F, eqb_reflx in E. discriminate.
    - exists psi. split. now exists x. left. split; auto. intros z Hz E. apply H; auto. destruct (N.testbit z q), b; auto; congruence.
  Qed.
  Lemma reg_mask x s len v : s + len < 64 -> v < 2 ^ len -> (N.land x (rmask s len) =? shl64 v s) = reg_is s len v x.
  Proof.
    intros H Hv. unfold reg_is. apply Bool.eq_iff_eq_true. rewrite !N.eqb_eq. split; intros E.
    - rewrite <- (field_ok x s len) by auto. rewrite E. apply N.bits_inj. intros j. rewrite tb_shiftr, (tb_shl64 v s len) by auto.
      bcases; try lia. f_equal. lia.
    - apply N.bits_inj. intros j. rewrite N.land_spec, tb_rmask, (tb_shl64 v s len), <- E, tb_get_reg by auto.
      bcases; try lia; rewrite ?andb_false_r, ?andb_true_r; auto. f_equal. lia.
  Qed.
  Lemma shl64_lt v s len n : s + len <= n -> n < 64 -> v < 2 ^ len -> shl64 v s < 2 ^ n.
  Proof.
    intros H Hn Hv. apply lt_pow2_bits. intros j Hj. rewrite (tb_shl64 v s len) by (auto; lia). rewrite (tb_high v len) by (auto; lia). apply andb_false_r.
  Qed.
  Lemma rmask_lt s len n : s + len <= n -> n < 64 -> rmask s len < 2 ^ n.
  Proof. intros H Hn. apply lt_pow2_bits. intros j Hj. rewrite tb_rmask by lia. bcases; auto; lia. Qed.
  Lemma get_reg_1 x s : get_reg x s 1 = N.b2n (N.testbit x s).
  Proof. unfold get_reg. change (2 ^ 1) with 2. rewrite <- N.bit0_mod, <- N.shiftr_div_pow2, N.shiftr_spec'. now rewrite N.add_0_l. Qed.
  Lemma bit_reg_1 s b x : bit_is s b x = reg_is s 1 (if b then 1 else 0) x.
  Proof. unfold bit_is, reg_is. rewrite get_reg_1. now destruct (N.testbit x s), b. Qed.
  Lemma mreg_ok (nrm : K) n s len (psi : V) v psi1 : fits c n -> s + len <= n -> MReg c nrm n s len psi v psi1 ->
    v < 2 ^ len /\ exists g, measured n (reg_is s len v) nrm g psi /\ basis_map n (reg_is s len v) (fun x => x) (fun _ => g) psi psi1.
  Proof.
    intros Hf Hs HM. assert (n < 64) by apply Hf. unfold MReg in HM. destruct (N.eqb_spec len 1) as [->|Hl].
    - destruct HM as [b [HM ->]]. split. destruct b; reflexivity. apply mbit_ok in HM; auto; [|lia].
      destruct HM as [g [[HE Hg] HB]]. exists g. split.
      + destruct HE as [x [Hx [Ex Nx]]]. split. exists x. rewrite <- bit_reg_1. auto.
        destruct Hg as [[-> Hs2]| ->]; auto. left. split; auto. intros z Hz E. rewrite <- bit_reg_1 in E. auto.
      + eapply basis_map_ext; [| |exact HB]; auto. intros x Hx. now rewrite <- bit_reg_1.
    - destruct HM as [Hv [[x [Hx [Ex Nx]]] HA]]. split; auto. fold (rmask s len) in Ex. change (shl64 (pow2Ocl len - 1) s) with (rmask s len) in HA.
      exists nrm. split.
      + split; auto. exists x. split; auto. split; auto. rewrite <- (reg_mask x s len v) by (auto; lia). now apply N.eqb_eq.
      + apply applym_ok in HA; auto; [|apply rmask_lt; lia|apply (shl64_lt v s len n); auto].
        destruct HA as [psi' [E HE]]. injection E as <-. apply basis_map_project. intros z Hz. rewrite HE by auto. unfold project. now rewrite reg_mask by (auto; lia).
  Qed.
  Lemma mreg_any (nrm : K) n s len (psi : V) : fits c n -> s + len <= n -> nonzero n psi -> exists v psi1, MReg c nrm n s len psi v psi1.
  Proof.
    intros Hf Hs Hnz. assert (n < 64) by apply Hf. unfold MReg. destruct (N.eqb_spec len 1) as [->|Hl].
    - destruct (mbit_any nrm n s psi) as [b [psi1 HM]]; auto; [lia|]. exists (if b then 1 else 0), psi1, b. auto.
    - destruct Hnz as [x [Hx Nx]]. pose proof (get_reg_lt x s len) as Hv. exists (get_reg x s len).
      destruct (applym_any n (shl64 (pow2Ocl len - 1) s) (shl64 (get_reg x s len) s) nrm psi Hf) as [psi1 HA].
      exists psi1. split; auto. split; auto. exists x. split; auto. split; auto. fold (rmask s len). apply N.eqb_eq.
      rewrite reg_mask by (auto; lia). apply N.eqb_refl.
  Qed.

  (** ** SetReg *)
  Lemma xor_perm n m : m < 2 ^ n -> forall psi psi' : V, (forall x, x < 2 ^ n -> psi' x = psi (N.lxor x m)) ->
    basis_map n always (fun x => N.lxor x m) (fun _ => 1%amp) psi psi'.
  Proof.
    intros Hm psi psi' H. assert (HL : forall x, x < 2 ^ n -> N.lxor x m < 2 ^ n) by (intros; now apply lxor_lt_pow2).
    apply basis_map_perm.
    - intros x y _ _ E. rewrite <- (lxor_twice x m), <- (lxor_twice y m). now rewrite E.
    - intros x Hx. split; auto. rewrite H, lxor_twice by auto. ring.
  Qed.
  Lemma xor_back n m (psi psi' : V) : m < 2 ^ n -> basis_map n always (fun x => N.lxor x m) (fun _ => 1%amp) psi psi' ->
    forall x, x < 2 ^ n -> psi' x = psi (N.lxor x m).
  Proof.
    intros Hm [_ [B _]] x Hx. destruct (B (N.lxor x m)) as [_ E]; auto. now apply lxor_lt_pow2. rewrite lxor_twice in E. rewrite E. ring.
  Qed.
  Fixpoint flips (start : N) (bits : list N) (v value : N) : N :=
    match bits with
    | [] => 0
    | i :: t => let m := flips start t v value in if Bool.eqb (N.testbit v i) (N.testbit value i) then m else N.lxor m (2 ^ (start + i))
    end.
  Lemma flips_lt n start bits v value : (forall i, In i bits -> start + i < n) -> flips start bits v value < 2 ^ n.
  Proof.
    induction bits as [|i t IH]; intros H; cbn [flips]. apply pow2_pos.
    assert (flips start t v value < 2 ^ n) by (apply IH; intros; apply H; now right).
    destruct (Bool.eqb _ _); auto. apply lxor_lt_pow2; auto. apply pow2_lt_mono. apply H. now left.
  Qed.
  Lemma tb_flips start bits v value j : NoDup bits -> N.testbit (flips start bits v value) j =
    (start <=? j) && existsb (N.eqb (j - start)) bits && xorb (N.testbit v (j - start)) (N.testbit value (j - start)).
  Proof.
    induction bits as [|i t IH]; intros ND; cbn [flips existsb]. now rewrite N.bits_0, andb_false_r.
    inversion ND; subst. specialize (IH H2). destruct (N.eqb_spec (j - start) i) as [E|E].
    - assert (F : existsb (N.eqb (j - start)) t = false).
      { destruct (existsb _ _) eqn:X; auto. apply existsb_exists in X. destruct X as [y [Hy Y]]. apply N.eqb_eq in Y. subst. contradiction. }
      rewrite F, andb_false_r in IH. cbn [orb]. rewrite andb_true_r. rewrite E.
      destruct (Bool.eqb (N.testbit v i) (N.testbit value i)) eqn:B.
      + rewrite IH. apply eqb_prop in B. rewrite B, xorb_nilpotent. now rewrite andb_false_r.
      + rewrite N.lxor_spec, IH, N.pow2_bits_eqb. cbn [andb xorb].
        assert (xorb (N.testbit v i) (N.testbit value i) = true) by (destruct (N.testbit v i), (N.testbit value i); auto; discriminate).
        rewrite H, andb_true_r. bcases; auto; lia.
    - cbn [orb]. destruct (Bool.eqb (N.testbit v i) (N.testbit value i)) eqn:B; auto.
      rewrite N.lxor_spec, IH, N.pow2_bits_eqb. destruct (N.eqb_spec (start + i) j); [lia|]. now rewrite xorb_false_r.
  Qed.
  Lemma flip_bits_ok rgp n start bits v value : fits c n -> (forall i, In i bits -> start + i < n) -> forall (psi : V) r,
    flip_bits c rgp n start bits v value psi r ->
    exists psi', r = Ok (Some psi') /\ forall x, x < 2 ^ n -> psi' x = psi (N.lxor x (flips start bits v value)).
  Proof.
    intros Hf. induction bits as [|i t IH]; intros Hb psi r HR; cbn [flip_bits flips] in *.
    - exists psi. split; auto. intros x _. now rewrite N.lxor_0_r.
    - assert (Ht : forall j, In j t -> start + j < n) by (intros; apply Hb; now right).
      destruct (Bool.eqb _ _). now apply IH.
      assert (Hi : start + i < n) by (apply Hb; now left).
      destruct HR as [r1 [HX HR]]. apply x_ok in HX; auto. destruct HX as [psi1 [-> HX]].
      apply IH in HR; auto. destruct HR as [psi' [-> HR]]. exists psi'. split; auto. intros x Hx.
      rewrite HR by auto. rewrite (xor_back n _ psi psi1 (pow2_lt_mono _ _ Hi) HX).
      + f_equal. now rewrite N.lxor_assoc.
      + apply lxor_lt_pow2; auto. now apply flips_lt.
  Qed.
  Lemma flip_bits_any rgp n start bits v value : fits c n -> (forall i, In i bits -> start + i < n) -> forall (psi : V), exists r, flip_bits c rgp n start bits v value psi r.
  Proof.
    intros Hf. induction bits as [|i t IH]; intros Hb psi; cbn [flip_bits]. eauto.
    assert (Ht : forall j, In j t -> start + j < n) by (intros; apply Hb; now right).
    destruct (Bool.eqb _ _). now apply IH. destruct (mtrx_any c rgp n (matX : mat2 K) (start + i) (Some psi) Hf) as [r1 H1].
    pose proof H1 as H2. apply x_ok in H2; auto; [|apply Hb; now left]. destruct H2 as [psi1 [-> _]].
    destruct (IH Ht psi1) as [r Hr]. exists r, (Ok (Some psi1)). auto.
  Qed.
  Lemma iota_In i k len : In i (iota k len) <-> k <= i < k + N.of_nat len.
  Proof. revert k. induction len as [|len IH]; intros k; cbn [iota In]. lia. rewrite IH. lia. Qed.
  Lemma iota_NoDup k len : NoDup (iota k len).
  Proof. revert k. induction len as [|len IH]; intros k; cbn [iota]; constructor; auto. rewrite iota_In. lia. Qed.
  Lemma tb_flips_reg start len v value j : v < 2 ^ len -> value < 2 ^ len ->
    N.testbit (flips start (iota 0 (N.to_nat len)) v value) j = (start <=? j) && (j <? start + len) && xorb (N.testbit v (j - start)) (N.testbit value (j - start)).
  Proof.
    intros Hv Hw. rewrite tb_flips by apply iota_NoDup. destruct (N.leb_spec start j); cbn [andb]; auto.
    destruct (existsb (N.eqb (j - start)) (iota 0 (N.to_nat len))) eqn:E.
    - apply existsb_exists in E. destruct E as [y [Hy E]]. apply N.eqb_eq in E. apply iota_In in Hy. bcases; auto; lia.
    - destruct (N.ltb_spec j (start + len)); auto. assert (existsb (N.eqb (j - start)) (iota 0 (N.to_nat len)) = true); [|congruence].
      apply existsb_exists. exists (j - start). rewrite iota_In, N.eqb_refl. split; auto. lia.
  Qed.
  (** SetReg measures the register, then puts the new value there. *)
  Lemma setreg_ok rgp (nrm : K) n s len value (psi : V) r : fits c n -> s + len <= n -> value < 2 ^ len -> SetReg c rgp nrm n s len value psi r ->
    exists psi' v g, r = Ok (Some psi') /\ v < 2 ^ len /\ measured n (reg_is s len v) nrm g psi /\
      basis_map n (reg_is s len v) (fun x => put_reg x s len value) (fun _ => g) psi psi'.
  Proof.
    intros Hf Hs Hval [v [psi1 [HM HF]]]. apply mreg_ok in HM; auto. destruct HM as [Hv [g [Hg HB]]].
    assert (Hb : forall i, In i (iota 0 (N.to_nat len)) -> s + i < n) by (intros i Hi; apply iota_In in Hi; lia).
    apply flip_bits_ok in HF; auto. destruct HF as [psi' [-> HF]]. exists psi', v, g. split; auto. split; auto. split; auto.
    apply xor_perm in HF; [|now apply flips_lt].
    pose proof (basis_map_comp n _ _ _ _ _ _ _ _ _ HB HF (fun _ _ _ => eq_refl)) as HC. cbn beta in HC.
    eapply basis_map_ext; [| |exact HC]; auto. intros x Hx Dx. cbn beta. split; [|ring].
    apply N.bits_inj. intros j. rewrite N.lxor_spec, tb_flips_reg, tb_put_reg by auto.
    unfold reg_is in Dx. apply N.eqb_eq in Dx.
    bcases; try lia; rewrite ?xorb_false_r; auto.
    assert (E : N.testbit v (j - s) = N.testbit x j).
    { rewrite <- Dx, tb_get_reg. bcases; try lia. f_equal. lia. }
    rewrite E. destruct (N.testbit x j), (N.testbit value (j - s)); auto.
  Qed.
  Lemma setreg_any rgp (nrm : K) n s len value (psi : V) : fits c n -> s + len <= n -> nonzero n psi -> exists r, SetReg c rgp nrm n s len value psi r.
  Proof.
    intros Hf Hs Hn. destruct (mreg_any nrm n s len psi Hf Hs Hn) as [v [psi1 HM]].
    destruct (flip_bits_any rgp n s (iota 0 (N.to_nat len)) v value Hf) with (psi := psi1) as [r Hr].
    intros i Hi; apply iota_In in Hi; lia. exists r, v, psi1. auto.
  Qed.

  (** ** ROL *)
  Definition rol_val (len k u : N) : N := N.lor (N.shiftr u (len - k)) (N.land (shl64 u k) (pow2MaskOcl len)).
  Lemma tb_rol_val len k u j : k < len -> len < 64 -> u < 2 ^ len -> j < len -> N.testbit (rol_val len k u) ((j + k) mod len) = N.testbit u j.
  Proof.
    intros Hk Hl Hu Hj. unfold rol_val. set (t := (j + k) mod len).
    assert (Ht : t < len) by (apply N.mod_lt; lia).
    assert (HE : (j + k < len /\ t = j + k) \/ (len <= j + k /\ t + len = j + k)).
    { unfold t. destruct (N.lt_ge_cases (j + k) len). left. now rewrite N.mod_small. right. split; auto.
      replace (j + k) with ((j + k - len) + 1 * len) at 1 by lia. rewrite N.mod_add, N.mod_small by lia. lia. }
    rewrite N.lor_spec, tb_shiftr, N.land_spec, lenMask, tb_ones by lia. destruct (N.ltb_spec t len); [|lia]. rewrite andb_true_r.
    unfold shl64, w64. rewrite tb_mod2, tb_shiftl. destruct (N.ltb_spec t 64); [|lia]. cbn [andb]. destruct HE as [[H1 H2]|[H1 H2]].
    - rewrite (tb_high u len) by (auto; lia). cbn [orb]. destruct (N.leb_spec k t); [|lia]. cbn [andb]. f_equal. lia.
    - destruct (N.leb_spec k t); [lia|]. cbn [andb]. rewrite orb_false_r. f_equal. lia.
  Qed.
  Lemma rol_val_lt len k u : k < len -> len < 64 -> u < 2 ^ len -> rol_val len k u < 2 ^ len.
  Proof.
    intros Hk Hl Hu. apply lt_pow2_bits. intros j Hj. unfold rol_val. rewrite N.lor_spec, tb_shiftr, N.land_spec, lenMask, tb_ones by lia.
    destruct (N.ltb_spec j len); [lia|]. rewrite andb_false_r, orb_false_r. apply (tb_high u len); auto. lia.
  Qed.
  Lemma rotated_inj s len k x y z : 0 < len -> rotated s len k x z -> rotated s len k y z -> x = y.
  Proof.
    intros Hl [A B] [A2 B2]. apply N.bits_inj. intros j. destruct (N.lt_ge_cases j s). rewrite <- B, <- B2; auto; left; auto.
    destruct (N.lt_ge_cases j (s + len)); [|rewrite <- B, <- B2; auto; right; auto].
    replace j with (s + (j - s)) by lia. rewrite <- A, <- A2 by lia. auto.
  Qed.
  Lemma rotated_0 s len k x : k mod len = 0 -> rotated s len k x x.
  Proof.
    intros E. split; auto. intros j Hj. rewrite N.add_mod, E, N.add_0_r, N.mod_mod, N.mod_small by lia. auto.
  Qed.
  Lemma rol_ok n shift s len (psi : V) r : fits c n -> s + len <= n -> ROL c n shift s len (Some psi) r ->
    exists psi' f, r = Ok (Some psi') /\ basis_map n always f (fun _ => 1%amp) psi psi' /\ forall x, x < 2 ^ n -> rotated s len shift x (f x).
  Proof.
    intros Hf Hr HR. assert (Hn : n < 64) by apply Hf. unfold ROL in HR. rewrite range_ok in HR by auto.
    destruct (N.eqb_spec len 0) as [->|Hl].
    - exists psi, (fun x => x). split; auto. split. apply basis_map_id. intros x _. split; auto. intros j Hj. lia.
    - cbv zeta in HR. destruct (N.eqb_spec (shift mod len) 0) as [E|E].
      + exists psi, (fun x => x). split; auto. split. apply basis_map_id. intros x _. now apply rotated_0.
      + set (k := shift mod len) in *. assert (Hk : k < len) by (apply N.mod_lt; lia).
        destruct HR as [fr [m' [HL ->]]]. set (f := fun x => put_reg x s len (rol_val len k (get_reg x s len))).
        assert (Hrot : forall x, rotated s len shift x (f x)).
        { intros x. pose proof (get_reg_lt x s len) as Hg. pose proof (rol_val_lt len k _ Hk ltac:(lia) Hg) as Hv. split.
          - intros j Hj. rewrite N.add_mod, (N.mod_small j) by lia. fold k. unfold f. pose proof (N.mod_lt (j + k) len ltac:(lia)).
            rewrite tb_put_reg by auto.
            replace (s + (j + k) mod len - s) with ((j + k) mod len) by (generalize ((j + k) mod len); intros; lia).
            rewrite tb_rol_val by (auto; lia). generalize dependent ((j + k) mod len). intros t Ht. bcases; try lia. rewrite tb_get_reg. bcases; try lia. f_equal. lia.
          - intros q Hq. unfold f, outside_reg in *. rewrite tb_put_reg by auto. bcases; auto; lia. }
        exists m', f. split; auto. split; auto. refine (scatter_perm c n f _ _ psi fr m' Hf _ _ HL).
        * intros x Hx. pose proof (get_reg_lt x s len) as Hg. pose proof (rol_val_lt len k _ Hk ltac:(lia) Hg) as Hv. split. now apply put_reg_lt.
          change (pow2Ocl len - 1) with (pow2MaskOcl len). fold (rmask s len). rewrite field_ok by lia.
          fold (rol_val len k (get_reg x s len)). rewrite (put_ok x n s len) by (auto; lia). f_equal. ring.
        * intros x y _ _ EQ. apply (rotated_inj s len shift x y (f x)); auto; [lia|]. rewrite EQ. auto.
  Qed.
  Lemma rol_any n shift s len (v : option V) : fits c n -> exists r, ROL c n shift s len v r.
  Proof.
    intros Hf. unfold ROL. destruct (isBadBitRange s len n); [eauto|]. destruct v as [psi|]; [|eauto].
    destruct (len =? 0); [eauto|]. cbv zeta. destruct (_ =? 0); [eauto|]. now apply for_new.
  Qed.

  (** ** Addition with carry *)
  Lemma put_carry_ok x n s len v q : n < 64 -> s + len <= n -> x < 2 ^ n -> v < 2 ^ len -> q < n -> outside_reg q s len -> N.testbit x q = false ->
    N.lor (shl64 v s) (N.land x (N.lxor (2 ^ n - 1) (N.lor (rmask s len) (2 ^ q)))) = put_bit (put_reg x s len v) q false.
  Proof.
    intros Hn Hs Hx Hv Hq Ho Hc. apply N.bits_inj. intros j.
    rewrite N.lor_spec, tb_other, N.lor_spec, tb_rmask, (tb_shl64 v s len), tb_put_bit, tb_put_reg, N.pow2_bits_eqb by (auto; lia).
    unfold outside_reg in Ho. bcases; subst; try lia; rewrite ?andb_true_r, ?andb_false_r, ?orb_false_r; auto.
    all: try (rewrite (tb_high v len) by (auto; lia); auto).
  Qed.
  Lemma lor_carry y q : N.lor (put_bit y q false) (2 ^ q) = put_bit y q true.
  Proof. apply N.bits_inj. intros j. rewrite N.lor_spec, !tb_put_bit, N.pow2_bits_eqb. bcases; auto using orb_true_r, orb_false_r. Qed.
  Lemma add_carry_lt n s len q a x : s + len <= n -> q < n -> x < 2 ^ n -> add_carry s len q a x < 2 ^ n.
  Proof. intros. apply put_bit_lt; auto. apply put_reg_lt; auto. apply mod_lt_pow2. Qed.
  Lemma put_bit_agree x y q b b2 : put_bit x q b = put_bit y q b2 -> N.testbit x q = N.testbit y q -> x = y.
  Proof.
    intros E F. apply N.bits_inj. intros j. pose proof (f_equal (fun z => N.testbit z j) E) as G. cbn beta in G. rewrite !tb_put_bit in G.
    revert G. bcases; auto. now subst.
  Qed.
  Lemma add_carry_inj s len q a x y : outside_reg q s len -> N.testbit x q = N.testbit y q -> add_carry s len q a x = add_carry s len q a y -> x = y.
  Proof.
    intros Ho Hq E. unfold add_carry in E. rewrite Hq in E. apply put_bit_agree in E.
    - revert E. set (b := N.b2n (N.testbit y q)). intros E.
      apply (upd_inj (fun v => (v + (a + b)) mod 2 ^ len) s len).
      + intros; apply mod_lt_pow2.
      + intros v w Hv Hw. apply mod_add_cancel; auto. apply pow2_pos.
      + cbn beta. now rewrite !N.add_assoc.
    - rewrite !tb_put_reg by apply mod_lt_pow2. unfold outside_reg in Ho. bcases; auto; lia.
  Qed.
  Definition flip_on (md : phase_mode) (y : N) : bool := match md with NoFlip => false | FlipAlways => true | FlipIf q => N.testbit y q end.
  Definition mode_ok (md : phase_mode) (n len : N) : Prop :=
    match md with NoFlip => True | FlipAlways => 1 <= len <= 62 | FlipIf q => q < n /\ 1 <= len <= 62 end.
  Definition carry_ph (md : phase_mode) (len a : N) (u y : N) : K := if overflows len u a && flip_on md y then (- (1))%amp else 1%amp.
  Lemma overflow_bool L x y : 1 <= L <= 62 -> x < 2 ^ L -> y < 2 ^ L -> isOverflowAdd x y (2 ^ (L - 1)) (2 ^ L) = overflows L x y.
  Proof.
    intros HL Hx Hy. apply Bool.eq_iff_eq_true. rewrite isOverflowAdd_ok by auto. unfold signed_range, overflows.
    rewrite negb_true_iff, andb_false_iff, Z.leb_gt, Z.ltb_ge. lia.
  Qed.
  Lemma no_overflow_0 L x : 1 <= L <= 62 -> x < 2 ^ L -> overflows L x 0 = false.
  Proof.
    intros HL Hx. unfold overflows, signed_value. destruct (pow_Z_N L ltac:(lia)) as [-> ->].
    pose proof (pow2_pos (L - 1)) as HP. assert (E : 2 ^ L = 2 * 2 ^ (L - 1)) by (rewrite <- N.pow_succ_r'; f_equal; lia).
    rewrite E in *. set (h := 2 ^ (L - 1)) in *. clearbody h. apply negb_false_iff, andb_true_iff. rewrite Z.leb_le, Z.ltb_lt.
    destruct (N.ltb_spec x h), (N.ltb_spec 0 h); lia.
  Qed.
  Lemma flip_val_ok md len n a u y (z : K) : mode_ok md n len -> n < 64 -> u < 2 ^ len -> a < 2 ^ len ->
    flip_val md (isOverflowAdd u a (2 ^ (len - 1)) (2 ^ len)) y z = (carry_ph md len a u y * z)%amp.
  Proof.
    intros Hm Hn Hu Ha. unfold flip_val, carry_ph, flip_on. destruct md as [| |q]; cbn [mode_ok] in Hm.
    - rewrite andb_false_r. ring.
    - rewrite overflow_bool by auto. rewrite andb_true_r. destruct (overflows _ _ _); ring.
    - rewrite overflow_bool by tauto. rewrite pow2Ocl_small by lia.
      assert (E : (N.land y (2 ^ q) =? 2 ^ q) = N.testbit y q) by (rewrite (bit_mask y q true); unfold bit_is; now destruct (N.testbit y q)).
      rewrite E. destruct (overflows _ _ _ && _); ring.
  Qed.
  Lemma put_bit_clear x q : N.testbit x q = false -> put_bit x q false = x.
  Proof. intros H. rewrite <- H. apply put_bit_same. Qed.
  Theorem incdecc_ok md n toMod s len q (psi : V) r : fits c n -> s + len <= n -> q < n -> outside_reg q s len -> mode_ok md n len ->
    supported n (bit_is q false) psi -> IncDecC c md n toMod s len q (Some psi) r ->
    exists psi', r = Ok (Some psi') /\
      basis_map n (bit_is q false) (add_carry s len q (toMod mod 2 ^ len))
        (fun x => carry_ph md len (toMod mod 2 ^ len) (get_reg x s len) (add_carry s len q (toMod mod 2 ^ len) x)) psi psi'.
  Proof.
    intros Hf Hr Hq Ho Hm Hs HR. assert (Hn : n < 64) by apply Hf. unfold IncDecC in HR. rewrite range_ok in HR by auto.
    destruct (N.leb_spec n q); [lia|]. replace (mode_bad md n) with false in HR.
    2:{ destruct md; auto. cbn [mode_bad mode_ok] in *. symmetry. apply N.leb_gt. tauto. }
    cbn [orb] in HR.
    assert (Hid : toMod mod 2 ^ len = 0 -> exists psi', Ok (Some psi) = Ok (Some psi') /\
      basis_map n (bit_is q false) (add_carry s len q (toMod mod 2 ^ len))
        (fun x => carry_ph md len (toMod mod 2 ^ len) (get_reg x s len) (add_carry s len q (toMod mod 2 ^ len) x)) psi psi').
    { intros E. exists psi. split; auto. eapply basis_map_ext; [| |apply basis_map_here; exact Hs]; auto. intros x Hx Dx. cbn beta.
      assert (Hc : N.testbit x q = false) by (unfold bit_is in Dx; destruct (N.testbit x q); auto; discriminate).
      rewrite E. unfold add_carry, carry_ph. rewrite Hc. cbn [N.b2n]. rewrite !N.add_0_r. pose proof (get_reg_lt x s len) as Hg.
      rewrite N.mod_small, put_get by auto. split.
      - destruct (N.leb_spec (2 ^ len) (get_reg x s len)); [lia|]. now rewrite put_bit_clear.
      - destruct md; cbn [flip_on mode_ok] in *; [now rewrite andb_false_r| |]; rewrite no_overflow_0; tauto. }
    destruct (N.eqb_spec len 0) as [->|Hl].
    - subst r. apply Hid. apply N.mod_1_r.
    - cbv zeta in HR. change (pow2Ocl len - 1) with (pow2MaskOcl len) in HR. rewrite addend_ok in HR by lia.
      set (a := toMod mod 2 ^ len) in *. assert (Ha : a < 2 ^ len) by apply mod_lt_pow2.
      destruct (N.eqb_spec a 0) as [E|E]. subst r; now apply Hid.
      destruct HR as [m0 [m' [H0 [HL ->]]]]. exists m'. split; auto. rewrite !pow2Ocl_small in HL by lia.
      apply loop_skip_runs in HL; auto; [|lia]. fold (rmask s len) in HL.
      refine (scatter_map c n _ _ _ _ _ psi m0 m' Hf (new_zero_ok c n m0 Hf H0) _ _ _ HL).
      + intros x. unfold bit_is. split; intros [Hx Hb]; split; auto.
        * rewrite Hb by lia. reflexivity.
        * intros j Hj. replace j with q by lia. destruct (N.testbit x q); auto; discriminate.
      + intros x Hx Dx. assert (Hc : N.testbit x q = false) by (unfold bit_is in Dx; destruct (N.testbit x q); auto; discriminate).
        split. now apply add_carry_lt. rewrite field_ok by lia. pose proof (get_reg_lt x s len) as Hg.
        assert (Hw : w64 (get_reg x s len + a) = get_reg x s len + a).
        { unfold w64. apply N.mod_small. assert (2 * 2 ^ len <= 2 ^ 64); [|lia].
          rewrite <- N.pow_succ_r'. apply N.pow_le_mono_r; lia. }
        rewrite Hw.
        assert (HO : (if get_reg x s len + a <? 2 ^ len then N.lor (shl64 (get_reg x s len + a) s) (N.land x (N.lxor (2 ^ n - 1) (N.lor (rmask s len) (2 ^ q))))
                      else N.lor (N.lor (shl64 (get_reg x s len + a - 2 ^ len) s) (N.land x (N.lxor (2 ^ n - 1) (N.lor (rmask s len) (2 ^ q))))) (2 ^ q))
                     = add_carry s len q a x).
        { unfold add_carry. rewrite Hc. cbn [N.b2n]. rewrite N.add_0_r. pose proof (pow2_pos len).
          destruct (N.ltb_spec (get_reg x s len + a) (2 ^ len)), (N.leb_spec (2 ^ len) (get_reg x s len + a)); try lia.
          - rewrite (put_carry_ok x n s len) by auto. now rewrite N.mod_small.
          - replace ((get_reg x s len + a) mod 2 ^ len) with (get_reg x s len + a - 2 ^ len).
            + rewrite (put_carry_ok x n s len) by (auto; lia). apply lor_carry.
            + replace (get_reg x s len + a) with ((get_reg x s len + a - 2 ^ len) + 1 * 2 ^ len) at 2 by lia. rewrite N.mod_add, N.mod_small by lia. auto. }
        rewrite HO. f_equal. now apply (flip_val_ok md len n).
      + intros x y Hx Hy Dx Dy. apply add_carry_inj; auto. unfold bit_is in Dx, Dy. destruct (N.testbit x q), (N.testbit y q); auto; discriminate.
  Qed.
  Lemma incdecc_any md n toMod s len q (v : option V) : fits c n -> exists r, IncDecC c md n toMod s len q v r.
  Proof.
    intros Hf. unfold IncDecC. destruct (_ || _) eqn:E; [eauto|]. destruct v as [psi|]; [|eauto]. destruct (len =? 0); [eauto|]. cbv zeta.
    destruct (_ =? 0); [eauto|]. apply skip_zero; auto. apply orb_false_iff in E. destruct E as [E _]. apply orb_false_iff in E. destruct E as [_ E].
    apply N.leb_gt in E. lia.
  Qed.
End S.
