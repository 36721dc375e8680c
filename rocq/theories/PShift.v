(** Proofs about the shifts. *)
From Coq Require Import NArith ZArith Arith List Bool Lia Ring.
From Verif Require Import Bits MFunctions PFunctions MKernel Amp PAmp MEngine SpecState SpecEngine
  PGates PGates2 PEngine PCompose MAlu SpecAlu PAlu PAlu2 MCircuit SpecCircuit PCircuit PCircuit2 PCircuit3 PCircuit4 PCircuit12 MShift SpecShift.
Import ListNotations.
Local Open Scope N_scope.

(** ** Bits *)
Lemma shl_lt v k len : (v * 2 ^ k) mod 2 ^ len < 2 ^ len.
Proof. apply N.mod_lt. apply N.pow_nonzero. lia. Qed.
Lemma shr_lt x s len k : get_reg x s len / 2 ^ k < 2 ^ len.
Proof. apply N.le_lt_trans with (get_reg x s len). apply N.div_le_upper_bound. apply N.pow_nonzero; lia. assert (2 ^ k <> 0) by (apply N.pow_nonzero; lia). nia. apply N.mod_lt. apply N.pow_nonzero. lia. Qed.
Lemma tb_shl s len k x q : N.testbit (shl_reg s len k x) q = if (q <? s) || (s + len <=? q) then N.testbit x q else if q <? s + k then false else N.testbit x (q - k).
Proof.
  unfold shl_reg. rewrite tb_put_reg by apply shl_lt. destruct (N.ltb_spec q s); cbn [orb]; auto. destruct (N.ltb_spec q (s + len)); destruct (N.leb_spec (s + len) q); try lia; auto.
  rewrite N.mod_pow2_bits_low by lia. destruct (N.ltb_spec q (s + k)). apply N.mul_pow2_bits_low. lia. rewrite N.mul_pow2_bits_high by lia. rewrite tb_get_reg. destruct (N.ltb_spec (q - s - k) len); [|lia]. cbn [andb]. f_equal. lia.
Qed.
Lemma tb_shr s len k x q : N.testbit (shr_reg s len k x) q = if (q <? s) || (s + len <=? q) then N.testbit x q else if s + len <=? q + k then false else N.testbit x (q + k).
Proof.
  unfold shr_reg. rewrite tb_put_reg by apply shr_lt. destruct (N.ltb_spec q s); cbn [orb]; auto. destruct (N.ltb_spec q (s + len)); destruct (N.leb_spec (s + len) q); try lia; auto.
  rewrite N.div_pow2_bits, tb_get_reg. destruct (N.ltb_spec (q - s + k) len); destruct (N.leb_spec (s + len) (q + k)); try lia; cbn [andb]; auto. f_equal. lia.
Qed.
(** The bit that a rotation puts at a place. *)
Lemma rot_low s len k x y j : rotated s len k x y -> k < len -> j < k -> N.testbit y (s + j) = N.testbit x (s + len - k + j).
Proof. intros [A _] Hk Hj. specialize (A (j + len - k)). replace (j + len - k + k) with (j + 1 * len) in A by lia. rewrite N.mod_add, N.mod_small in A by lia. rewrite A by lia. f_equal. lia. Qed.
Lemma rot_high s len k x y j : rotated s len k x y -> k < len -> k <= j -> j < len -> N.testbit y (s + j) = N.testbit x (s + j - k).
Proof. intros [A _] Hk Hj Hl. specialize (A (j - k)). replace (j - k + k) with j in A by lia. rewrite N.mod_small in A by lia. rewrite A by lia. f_equal. lia. Qed.
Lemma rol_shl s len k x y : rotated s len k x y -> 0 < k -> k < len -> put_reg y s k 0 = shl_reg s len k x.
Proof.
  intros R K0 Hk. apply N.bits_inj. intros q. rewrite tb_put_reg, tb_shl by (assert (2 ^ k <> 0) by (apply N.pow_nonzero; lia); lia). rewrite N.bits_0.
  destruct (N.ltb_spec q s); cbn [orb]. { destruct R as [_ B]. apply B. left. lia. }
  destruct (N.leb_spec (s + len) q). { destruct (N.ltb_spec q (s + k)); [lia|]. destruct R as [_ B]. apply B. right. lia. }
  destruct (N.ltb_spec q (s + k)); auto. replace q with (s + (q - s)) at 1 by lia. rewrite (rot_high s len k x y) by (auto; lia). f_equal. lia.
Qed.
Lemma rol_reg s len k x y v : rotated s len k x y -> k < len -> reg_is s k v y = reg_is (s + len - k) k v x.
Proof.
  intros R Hk. unfold reg_is. replace (get_reg y s k) with (get_reg x (s + len - k) k); auto. apply N.bits_inj. intros j. rewrite !tb_get_reg. destruct (N.ltb_spec j k); auto. cbn [andb]. rewrite (N.add_comm j s), (rot_low s len k x y) by auto. f_equal. lia.
Qed.
Lemma ror_shr s len k x y : rotated s len k y (put_reg x s k 0) -> 0 < k -> k < len -> y = shr_reg s len k x.
Proof.
  intros R K0 Hk. assert (P0 : 0 < 2 ^ k) by (assert (2 ^ k <> 0) by (apply N.pow_nonzero; lia); lia). apply N.bits_inj. intros q. rewrite tb_shr.
  destruct (N.ltb_spec q s); cbn [orb]. { destruct R as [_ B]. rewrite <- B by (left; lia). rewrite tb_put_reg by auto. destruct (N.ltb_spec q s); [auto|lia]. }
  destruct (N.leb_spec (s + len) q). { destruct R as [_ B]. rewrite <- B by (right; lia). rewrite tb_put_reg by auto. destruct (N.ltb_spec q s); [auto|]. destruct (N.ltb_spec q (s + k)); [lia|auto]. }
  destruct R as [A _]. specialize (A (q - s)). destruct (N.leb_spec (s + len) (q + k)).
  - replace (q - s + k) with (q - s + k - len + 1 * len) in A by lia. rewrite N.mod_add, N.mod_small in A by lia. rewrite tb_put_reg in A by auto. destruct (N.ltb_spec (s + (q - s + k - len)) s); [lia|]. destruct (N.ltb_spec (s + (q - s + k - len)) (s + k)); [|lia]. rewrite N.bits_0 in A.
    replace (s + (q - s)) with q in A by lia. symmetry. apply A. lia.
  - rewrite N.mod_small in A by lia. rewrite tb_put_reg in A by auto. destruct (N.ltb_spec (s + (q - s + k)) s); [lia|]. destruct (N.ltb_spec (s + (q - s + k)) (s + k)); [lia|]. replace (s + (q - s)) with q in A by lia. rewrite <- A by lia. f_equal. lia.
Qed.
Lemma put_reg_0 s len k x : len <= k -> put_reg x s len 0 = shl_reg s len k x /\ put_reg x s len 0 = shr_reg s len k x.
Proof.
  intros H. unfold shl_reg, shr_reg. split; f_equal.
  - replace k with (len + (k - len)) by lia. rewrite N.pow_add_r. replace (get_reg x s len * (2 ^ len * 2 ^ (k - len))) with (get_reg x s len * 2 ^ (k - len) * 2 ^ len) by lia. now rewrite N.mod_mul by (apply N.pow_nonzero; lia).
  - symmetry. apply N.div_small. apply N.lt_le_trans with (2 ^ len). apply N.mod_lt. apply N.pow_nonzero. lia. apply N.pow_le_mono_r; lia.
Qed.

Section P.
  Context {K : StarRing}.
  Add Ring KrEY : (sr_ring K).
  Variable c : cfg.
  Local Notation V := (mem K).
  Local Notation circ := (circ K).

  (** A permutation before, and after, a basis map. *)
  Lemma map_after n (l : circ) D g ph (psi psi1 psi2 : V) : Forall (wfx n) l -> basis_map n always (cact l) (fun _ => 1%amp) psi psi1 -> basis_map n D g ph psi1 psi2 ->
    basis_map n (fun x => D (cact l x)) (fun x => g (cact l x)) (fun x => ph (cact l x)) psi psi2.
  Proof.
    intros W [A [B C]] [A2 [B2 C2]]. split; [|split].
    - intros x y Hx Hy Dx Dy E. apply (cact_inj n l x y W). apply A2; auto; now apply cact_lt.
    - intros x Hx Dx. destruct (B x Hx eq_refl) as [L E]. destruct (B2 (cact l x) L Dx) as [L2 E2]. split; auto. rewrite E2, E. ring.
    - intros y Hy Hn. apply C2; auto. intros z Hz Dz E. pose proof (cact_rev n (rev l) (wfx_rev n l W) z) as R. rewrite rev_involutive in R. apply (Hn (cact (rev l) z)).
      apply cact_lt; auto. now apply wfx_rev. now rewrite R. now rewrite R.
  Qed.
  Lemma nonzero_map n (f : N -> N) (psi psi1 : V) : basis_map n always f (fun _ => 1%amp) psi psi1 -> nonzero n psi -> nonzero n psi1.
  Proof. intros [_ [B _]] [x [Hx Px]]. destruct (B x Hx eq_refl) as [L E]. exists (f x). split; auto. rewrite E. intros Z. apply Px. rewrite <- Z. ring. Qed.
  Lemma measured_map n (f : N -> N) D (nrm g : K) (psi psi1 : V) : basis_map n always f (fun _ => 1%amp) psi psi1 -> measured n D nrm g psi1 -> (forall y, y < 2 ^ n -> exists x, x < 2 ^ n /\ f x = y) -> measured n (fun x => D (f x)) nrm g psi.
  Proof.
    intros [_ [B _]] [[y [Hy [Dy Py]]] M] S0. split.
    - destruct (S0 y Hy) as [x [Hx <-]]. exists x. split; auto. split; auto. destruct (B x Hx eq_refl) as [_ E]. intros Z. apply Py. rewrite E, Z. ring.
    - destruct M as [[-> SP]|M]; auto. left. split; auto. intros x Hx Dx. destruct (B x Hx eq_refl) as [L E]. pose proof (SP _ L Dx) as Z. rewrite E in Z. rewrite <- Z. ring.
  Qed.
  Lemma cact_onto n (l : circ) y : Forall (wfx n) l -> y < 2 ^ n -> exists x, x < 2 ^ n /\ cact l x = y.
  Proof. intros W Hy. exists (cact (rev l) y). split. apply cact_lt; auto. now apply wfx_rev. pose proof (cact_rev n (rev l) (wfx_rev n l W) y) as R. now rewrite rev_involutive in R. Qed.

  (** Permutation, SetReg. *)
  Lemma perm_set rgp (nrm : K) n (l : circ) s len (psi : V) : fits c n -> Forall (wfx n) l -> s + len <= n -> nonzero n psi ->
    every_run (and_then (crun c rgp n l (Some psi)) (on_vec (SetReg c rgp nrm n s len 0))) (fun r => exists psi' v g, r = Ok (Some psi') /\ v < 2 ^ len /\
      measured n (fun x => reg_is s len v (cact l x)) nrm g psi /\ basis_map n (fun x => reg_is s len v (cact l x)) (fun x => put_reg (cact l x) s len 0) (fun _ => g) psi psi').
  Proof.
    intros Hf W Hs NZ. destruct (perm_run c rgp n l (cact l) psi Hf W (fun _ _ => eq_refl)) as [[r1 H1] Ha]. assert (P0 : 0 < 2 ^ len) by (assert (2 ^ len <> 0) by (apply N.pow_nonzero; lia); lia). split.
    - destruct (Ha r1 H1) as [psi1 [-> HB]]. destruct (setreg_any c rgp nrm n s len 0 psi1 Hf Hs (nonzero_map n _ psi psi1 HB NZ)) as [r Hr]. exists r, (Ok (Some psi1)). split; auto.
    - intros r [r1' [H1' HR]]. destruct (Ha r1' H1') as [psi1 [-> HB]]. cbn [on_vec] in HR. destruct (setreg_ok c rgp nrm n s len 0 psi1 r Hf Hs P0 HR) as (psi' & v & g & -> & Hv & HM & HB2).
      exists psi', v, g. split; auto. split; auto. split. apply (measured_map n (cact l) (reg_is s len v) nrm g psi psi1); auto. intros y Hy. now apply cact_onto. apply (map_after n l (reg_is s len v) (fun x => put_reg x s len 0) (fun _ => g) psi psi1 psi'); auto.
  Qed.
  Lemma set_run rgp (nrm : K) n s len (psi : V) : fits c n -> s + len <= n -> nonzero n psi ->
    every_run (SetReg c rgp nrm n s len 0 psi) (fun r => exists psi' v g, r = Ok (Some psi') /\ v < 2 ^ len /\ measured n (reg_is s len v) nrm g psi /\
      basis_map n (reg_is s len v) (fun x => put_reg x s len 0) (fun _ => g) psi psi').
  Proof. intros Hf Hs NZ. assert (P0 : 0 < 2 ^ len) by (assert (2 ^ len <> 0) by (apply N.pow_nonzero; lia); lia). split. now apply setreg_any. intros r HR. now apply (setreg_ok c) in HR. Qed.
  (** A permutation afterwards. *)
  Lemma then_perm rgp n (R : res (option V) -> Prop) (l : circ) (Q : V -> N -> K -> Prop) D f (psi : V) : fits c n -> Forall (wfx n) l ->
    every_run R (fun r => exists psi1 v g, r = Ok (Some psi1) /\ Q psi1 v g /\ basis_map n (D v) f (fun _ => g) psi psi1) ->
    every_run (and_then R (crun c rgp n l)) (fun r => exists psi' psi1 v g, r = Ok (Some psi') /\ Q psi1 v g /\ basis_map n (D v) (fun x => cact l (f x)) (fun _ => g) psi psi').
  Proof.
    intros Hf W [[r1 H1] Ha]. split.
    - destruct (Ha r1 H1) as (psi1 & v & g & -> & _). destruct (perm_run c rgp n l (cact l) psi1 Hf W (fun _ _ => eq_refl)) as [[r Hr] _]. exists r, (Ok (Some psi1)). split; auto.
    - intros r [r1' [H1' HR]]. destruct (Ha r1' H1') as (psi1 & v & g & -> & HQ & HB). destruct (perm_run c rgp n l (cact l) psi1 Hf W (fun _ _ => eq_refl)) as [_ Hb]. destruct (Hb r HR) as [psi' [-> HB2]].
      exists psi', psi1, v, g. split; auto. split; auto. pose proof (basis_map_comp n _ _ _ _ _ _ _ _ _ HB HB2 (fun _ _ _ => eq_refl)) as HC. cbn beta in HC. eapply basis_map_ext; [| |exact HC]; auto. intros x _ _. cbn beta. split; auto. ring.
  Qed.

  Lemma lsl_ok rgp (nrm : K) n k s len (psi : V) : fits c n -> s + len <= n -> 0 < len -> 0 < k -> nonzero n psi ->
    every_run (LSL c rgp nrm n k s len psi) (fun r => exists psi' v g, r = Ok (Some psi') /\ v < 2 ^ N.min k len /\ measured n (reg_is (s + len - N.min k len) (N.min k len) v) nrm g psi /\
      basis_map n (reg_is (s + len - N.min k len) (N.min k len) v) (shl_reg s len k) (fun _ => g) psi psi').
  Proof.
    intros Hf Hs Hl Hk NZ. unfold LSL. destruct (N.eqb_spec len 0); [lia|]. destruct (N.eqb_spec k 0); [lia|]. cbn [orb]. destruct (N.leb_spec len k).
    - rewrite N.min_r by lia. replace (s + len - len) with s by lia. destruct (set_run rgp nrm n s len psi Hf Hs NZ) as [He Ha]. split; auto. intros r HR. destruct (Ha r HR) as (psi' & v & g & E & Hv & HM & HB). exists psi', v, g. split; auto. split; auto. split; auto.
      eapply basis_map_ext; [| |exact HB]; auto. intros x _ _. split; auto. now apply put_reg_0.
    - rewrite N.min_l by lia. destruct (perm_set rgp nrm n (qi_ROL k s len) s k psi Hf (wf_ROL n k s len Hs) ltac:(lia) NZ) as [He Ha]. split; auto. intros r HR. destruct (Ha r HR) as (psi' & v & g & E & Hv & [[y [Hy [Dy Py]]] HM] & HB). exists psi', v, g. split; auto. split; auto.
      assert (DE : forall x, reg_is s k v (cact (qi_ROL k s len : circ) x) = reg_is (s + len - k) k v x) by (intros x; apply (rol_reg s len k); [apply rol_act|lia]).
      split. { split. exists y. rewrite <- DE. auto. destruct HM as [[G SP]|HM]; auto. left. split; auto. intros x Hx Dx. apply SP; auto. now rewrite DE. }
      eapply basis_map_ext; [| |exact HB]. intros x _. apply DE. intros x _ _. split; auto. apply (rol_shl s len k); [apply rol_act|lia|lia].
  Qed.
  Lemma lsr_ok rgp (nrm : K) n k s len (psi : V) : fits c n -> s + len <= n -> 0 < len -> 0 < k -> nonzero n psi ->
    every_run (LSR c rgp nrm n k s len psi) (fun r => exists psi' v g, r = Ok (Some psi') /\ v < 2 ^ N.min k len /\ measured n (reg_is s (N.min k len) v) nrm g psi /\
      basis_map n (reg_is s (N.min k len) v) (shr_reg s len k) (fun _ => g) psi psi').
  Proof.
    intros Hf Hs Hl Hk NZ. unfold LSR. destruct (N.eqb_spec len 0); [lia|]. destruct (N.eqb_spec k 0); [lia|]. cbn [orb]. destruct (N.leb_spec len k).
    - rewrite N.min_r by lia. destruct (set_run rgp nrm n s len psi Hf Hs NZ) as [He Ha]. split; auto. intros r HR. destruct (Ha r HR) as (psi' & v & g & E & Hv & HM & HB). exists psi', v, g. split; auto. split; auto. split; auto.
      eapply basis_map_ext; [| |exact HB]; auto. intros x _ _. split; auto. now apply put_reg_0.
    - rewrite N.min_l by lia. pose proof (set_run rgp nrm n s k psi Hf ltac:(lia) NZ) as HS.
      destruct (then_perm rgp n (SetReg c rgp nrm n s k 0 psi) (qi_ROR k s len) (fun _ v g => v < 2 ^ k /\ measured n (reg_is s k v) nrm g psi) (fun v => reg_is s k v) (fun x => put_reg x s k 0) psi Hf (wf_ROR n k s len Hs)) as [He Ha].
      { destruct HS as [He Ha]. split; auto. intros r HR. destruct (Ha r HR) as (psi' & v & g & E & Hv & HM & HB). exists psi', v, g. auto. }
      split; auto. intros r HR. destruct (Ha r HR) as (psi' & psi1 & v & g & -> & [Hv HM] & HB). exists psi', v, g. split; auto. split; auto. split; auto. eapply basis_map_ext; [| |exact HB]; auto. intros x _ _. split; auto. apply (ror_shr s len k); [apply ror_act|lia|lia].
  Qed.
  (** ASL and ASR *)
  Lemma asl_ok rgp (nrm : K) n k s len (psi : V) : fits c n -> s + len <= n -> k < len -> 0 < k -> nonzero n psi -> let sw := swap_bits (s + len - 1) (s + len - 2) in
    every_run (ASL c rgp nrm n k s len psi) (fun r => exists psi' v g, r = Ok (Some psi') /\ measured n (fun x => reg_is (s + len - k) k v (sw x)) nrm g psi /\
      basis_map n (fun x => reg_is (s + len - k) k v (sw x)) (fun x => sw (shl_reg s len k (sw x))) (fun _ => g) psi psi').
  Proof.
    intros Hf Hs Hl Hk NZ sw. unfold ASL. destruct (N.eqb_spec len 0); [lia|]. destruct (N.eqb_spec k 0); [lia|]. cbn [orb]. destruct (N.leb_spec len k); [lia|]. cbv zeta. set (L := (qi_Swap (s + len - 1) (s + len - 2) ++ qi_ROL k s len) : circ).
    assert (WS : Forall (wfx n) (qi_Swap (s + len - 1) (s + len - 2) : circ)) by (apply wf_Swap; lia).
    assert (W : Forall (wfx n) L). { apply Forall_app. split; auto. now apply wf_ROL. }
    assert (AC : forall x, rotated s len k (sw x) (cact L x)). { intros x. unfold L. rewrite cact_app, swap_act. apply rol_act. }
    pose proof (perm_set rgp nrm n L s k psi Hf W ltac:(lia) NZ) as HS.
    destruct (then_perm rgp n (and_then (crun c rgp n L (Some psi)) (on_vec (SetReg c rgp nrm n s k 0))) (qi_Swap (s + len - 1) (s + len - 2)) (fun _ v g => measured n (fun x => reg_is s k v (cact L x)) nrm g psi) (fun v x => reg_is s k v (cact L x)) (fun x => put_reg (cact L x) s k 0) psi Hf WS) as [He Ha].
    { destruct HS as [He Ha]. split; [exact He|]. intros r HR. destruct (Ha r HR) as (psi' & v & g & E & Hv & HM & HB). exists psi', v, g. auto. }
    split; [exact He|]. intros r HR. destruct (Ha r HR) as (psi' & psi1 & v & g & -> & HM & HB). exists psi', v, g. split; auto.
    assert (DE : forall x, reg_is s k v (cact L x) = reg_is (s + len - k) k v (sw x)) by (intros x; apply (rol_reg s len k); auto).
    split. { destruct HM as [[y [Hy [Dy Py]]] HM]. split. exists y. rewrite <- DE. auto. destruct HM as [[G SP]|HM]; auto. left. split; auto. intros x Hx Dx. apply SP; auto. now rewrite DE. }
    eapply basis_map_ext; [| |exact HB]. intros x _. apply DE. intros x _ _. split; auto. rewrite swap_act. fold sw. f_equal. apply (rol_shl s len k); auto.
  Qed.
  Lemma asr_ok rgp (nrm : K) n k s len (psi : V) : fits c n -> s + len <= n -> k < len -> 0 < k -> nonzero n psi -> let sw := swap_bits (s + len - 1) (s + len - 2) in let f := fun x => cact (qi_ROR k s len : circ) (sw x) in
    every_run (ASR c rgp nrm n k s len psi) (fun r => exists psi' v g, r = Ok (Some psi') /\ measured n (fun x => reg_is (s + len - k - 1) k v (f x)) nrm g psi /\
      basis_map n (fun x => reg_is (s + len - k - 1) k v (f x)) (fun x => sw (put_reg (f x) (s + len - k - 1) k 0)) (fun _ => g) psi psi').
  Proof.
    intros Hf Hs Hl Hk NZ sw f. unfold ASR. destruct (N.eqb_spec len 0); [lia|]. destruct (N.eqb_spec k 0); [lia|]. cbn [orb]. destruct (N.leb_spec len k); [lia|]. cbv zeta. set (L := (qi_Swap (s + len - 1) (s + len - 2) ++ qi_ROR k s len) : circ).
    assert (WS : Forall (wfx n) (qi_Swap (s + len - 1) (s + len - 2) : circ)) by (apply wf_Swap; lia).
    assert (W : Forall (wfx n) L). { apply Forall_app. split; auto. now apply wf_ROR. }
    assert (AC : forall x, cact L x = f x). { intros x. unfold L. rewrite cact_app, swap_act. reflexivity. }
    pose proof (perm_set rgp nrm n L (s + len - k - 1) k psi Hf W ltac:(lia) NZ) as HS.
    destruct (then_perm rgp n (and_then (crun c rgp n L (Some psi)) (on_vec (SetReg c rgp nrm n (s + len - k - 1) k 0))) (qi_Swap (s + len - 1) (s + len - 2)) (fun _ v g => measured n (fun x => reg_is (s + len - k - 1) k v (cact L x)) nrm g psi) (fun v x => reg_is (s + len - k - 1) k v (cact L x)) (fun x => put_reg (cact L x) (s + len - k - 1) k 0) psi Hf WS) as [He Ha].
    { destruct HS as [He Ha]. split; [exact He|]. intros r HR. destruct (Ha r HR) as (psi' & v & g & E & Hv & HM & HB). exists psi', v, g. auto. }
    split; [exact He|]. intros r HR. destruct (Ha r HR) as (psi' & psi1 & v & g & -> & HM & HB). exists psi', v, g. split; auto.
    split. { destruct HM as [[y [Hy [Dy Py]]] HM]. split. exists y. rewrite <- AC. auto. destruct HM as [[G SP]|HM]; auto. left. split; auto. intros x Hx Dx. apply SP; auto. now rewrite AC. }
    eapply basis_map_ext; [| |exact HB]. intros x _. cbn beta. now rewrite AC. intros x _ _. cbn beta. split; auto. now rewrite swap_act, AC.
  Qed.
  (** On a basis state. *)
  Lemma ket_result n D (f : N -> N) g x (psi' : V) nrm : x < 2 ^ n -> measured n D nrm g (ket x) -> basis_map n D f (fun _ => g) (ket x) psi' ->
    psi' (f x) = g /\ (g = 1%amp \/ g = nrm) /\ forall y, y < 2 ^ n -> y <> f x -> psi' y = 0%amp.
  Proof.
    intros Hx [[z [Hz [Dz Pz]]] M] [A [B C]]. unfold ket in Pz. destruct (N.eqb_spec z x) as [->|]; [|contradiction]. destruct (B x Hx Dz) as [L E]. split; [|split].
    - rewrite E. unfold ket. rewrite N.eqb_refl. ring.
    - destruct M as [[G _]|G]; auto.
    - intros y Hy NE. assert (H : (exists z, z < 2 ^ n /\ D z = true /\ f z = y) \/ forall z, z < 2 ^ n -> D z = true -> f z <> y).
      { assert (F : forall m : nat, (exists z, z < N.of_nat m /\ D z = true /\ f z = y) \/ forall z, z < N.of_nat m -> D z = true -> f z <> y).
        { induction m as [|m IH]. right. intros z Hz0. lia. destruct IH as [[z [Z1 Z2]]|IH]. left. exists z. split; auto. lia.
          destruct (D (N.of_nat m)) eqn:ED. destruct (N.eq_dec (f (N.of_nat m)) y). left. exists (N.of_nat m). split; [lia|auto].
          right. intros z Z1 Z2. destruct (N.eq_dec z (N.of_nat m)) as [->|]; auto. apply IH; auto. lia.
          right. intros z Z1 Z2. destruct (N.eq_dec z (N.of_nat m)) as [->|]; [congruence|]. apply IH; auto. lia. }
        specialize (F (N.to_nat (2 ^ n))). now rewrite N2Nat.id in F. }
      destruct H as [[z [Z1 [Z2 <-]]]|H]; [|now apply C]. destruct (B z Z1 Z2) as [_ Ez]. rewrite Ez. unfold ket. destruct (N.eqb_spec z x) as [->|]; [contradiction|ring].
  Qed.
End P.
