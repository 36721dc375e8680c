(** Shifts; proofs of PropShift.v. *)
From Coq Require Import NArith Arith List Bool Lia Ring.
From Verif Require Import Bits Amp MKernel MEngine SpecState SpecEngine SpecAlu PCompose PAlu PAlu2 PAlu8 MCircuit PCircuit PCircuit4 MShift SpecShift PShift.
Import ListNotations.
Local Open Scope N_scope.

Section N0.
  Context {K : StarRing}.
  Add Ring KrEZ : (sr_ring K).
  Lemma none_ok n s s' len k (f : N -> N) (nrm : K) (psi : mem K) r : N.min k len = 0 -> nonzero n psi -> (forall x, f x = x) -> r = Ok (Some psi) ->
    exists psi' v g, r = Ok (Some psi') /\ v < 2 ^ N.min k len /\ measured n (reg_is (s + s') (N.min k len) v) nrm g psi /\ basis_map n (reg_is (s + s') (N.min k len) v) f (fun _ => g) psi psi'.
  Proof.
    intros -> [x [Hx Px]] Hf E. exists psi, 0, 1%amp. split; auto. split. reflexivity. assert (T : forall y, reg_is (s + s') 0 0 y = true). { intros y. unfold reg_is. apply N.eqb_eq. apply N.bits_inj. intros j. rewrite tb_get_reg, N.bits_0. destruct (N.ltb_spec j 0); [lia|auto]. }
    split. { split. exists x. auto. left. split; auto. intros y _ D. now rewrite T in D. }
    split; [|split].
    - intros y z _ _ _ _. now rewrite !Hf.
    - intros y Hy _. rewrite Hf. split; auto. ring.
    - intros y Hy H. exfalso. apply (H y Hy (T y)). apply Hf.
  Qed.
End N0.
Lemma shl_none s len k x : N.min k len = 0 -> shl_reg s len k x = x /\ shr_reg s len k x = x.
Proof.
  intros H. split; apply N.bits_inj; intros q; rewrite ?tb_shl, ?tb_shr; destruct (N.ltb_spec q s); auto; destruct (N.leb_spec (s + len) q); cbn [orb]; auto.
  destruct (N.ltb_spec q (s + k)); [lia|]. f_equal. lia. destruct (N.leb_spec (s + len) (q + k)); [lia|]. f_equal. lia.
Qed.

Lemma l_c181_left : forall (K : StarRing) (c : cfg) rgp (nrm : K) n k s len (psi : mem K), fits c n -> s + len <= n -> (k < len \/ len < n) -> nonzero n psi ->
  let m := N.min k len in
  every_run (LSL c rgp nrm n k s len psi) (fun r => exists psi' v g, r = Ok (Some psi') /\ v < 2 ^ m /\
    measured n (reg_is (s + len - m) m v) nrm g psi /\ basis_map n (reg_is (s + len - m) m v) (shl_reg s len k) (fun _ => g) psi psi').
Proof. intros K c rgp nrm n k s len psi Hf Hs _ NZ m. unfold m. destruct (N.eq_dec (N.min k len) 0) as [Z|Z].
  - assert (E : forall r, LSL c rgp nrm n k s len psi r = (r = Ok (Some psi))). { intros r. unfold LSL. destruct (N.eqb_spec len 0); auto. destruct (N.eqb_spec k 0); auto. lia. }
    split. { exists (Ok (Some psi)). now rewrite E. } intros r HR. rewrite E in HR. replace (s + len - N.min k len) with (s + len) by lia. apply none_ok; auto. intros x. now apply shl_none.
  - apply lsl_ok; auto; lia. Qed.

Lemma l_c181_right : forall (K : StarRing) (c : cfg) rgp (nrm : K) n k s len (psi : mem K), fits c n -> s + len <= n -> (k < len \/ len < n) -> nonzero n psi ->
  let m := N.min k len in
  every_run (LSR c rgp nrm n k s len psi) (fun r => exists psi' v g, r = Ok (Some psi') /\ v < 2 ^ m /\
    measured n (reg_is s m v) nrm g psi /\ basis_map n (reg_is s m v) (shr_reg s len k) (fun _ => g) psi psi').
Proof. intros K c rgp nrm n k s len psi Hf Hs _ NZ m. unfold m. destruct (N.eq_dec (N.min k len) 0) as [Z|Z].
  - assert (E : forall r, LSR c rgp nrm n k s len psi r = (r = Ok (Some psi))). { intros r. unfold LSR. destruct (N.eqb_spec len 0); auto. destruct (N.eqb_spec k 0); auto. lia. }
    split. { exists (Ok (Some psi)). now rewrite E. } intros r HR. rewrite E in HR. pose proof (none_ok n s 0 len k (shr_reg s len k) nrm psi r Z NZ) as H0. rewrite N.add_0_r in H0. apply H0; auto. intros x. now apply shl_none.
  - apply lsr_ok; auto; lia. Qed.

Lemma l_c182_left_partial : forall (K : StarRing) (c : cfg) rgp (nrm : K) n k s len (psi : mem K), fits c n -> s + len <= n -> k < len -> 0 < k -> nonzero n psi ->
  let sw := swap_bits (s + len - 1) (s + len - 2) in
  every_run (ASL c rgp nrm n k s len psi) (fun r => exists psi' v g, r = Ok (Some psi') /\ measured n (fun x => reg_is (s + len - k) k v (sw x)) nrm g psi /\
    basis_map n (fun x => reg_is (s + len - k) k v (sw x)) (fun x => sw (shl_reg s len k (sw x))) (fun _ => g) psi psi').
Proof. intros. now apply asl_ok. Qed.

Lemma l_c182_right_partial : forall (K : StarRing) (c : cfg) rgp (nrm : K) n k s len (psi : mem K), fits c n -> s + len <= n -> k < len -> 0 < k -> nonzero n psi ->
  let sw := swap_bits (s + len - 1) (s + len - 2) in
  exists f, (forall x, rotated s len k (f x) (sw x)) /\
  every_run (ASR c rgp nrm n k s len psi) (fun r => exists psi' v g, r = Ok (Some psi') /\ measured n (fun x => reg_is (s + len - k - 1) k v (f x)) nrm g psi /\
    basis_map n (fun x => reg_is (s + len - k - 1) k v (f x)) (fun x => sw (put_reg (f x) (s + len - k - 1) k 0)) (fun _ => g) psi psi').
Proof. intros K c rgp nrm n k s len psi Hf Hs Hl Hk NZ sw. exists (fun x => cact (qi_ROR k s len : circ K) (sw x)). split. intros x. apply ror_act. now apply asr_ok. Qed.

Lemma l_c182_left_refuted : forall (K : StarRing) (c : cfg) rgp (nrm : K), (1 : K)%amp <> 0%amp -> fits c 5 ->
  every_run (ASL c rgp nrm 5 1 0 4 (ket 8)) (fun r => exists psi', r = Ok (Some psi') /\ (psi' 4 = 1%amp \/ psi' 4 = nrm) /\ forall y, y < 2 ^ 5 -> y <> 4 -> psi' y = 0%amp).
Proof. intros K c rgp nrm H1 Hf. assert (NZ : nonzero 5 (ket 8 : mem K)) by (apply ket_nonzero; [exact H1|reflexivity]). destruct (asl_ok c rgp nrm 5 1 0 4 (ket 8) Hf ltac:(lia) ltac:(lia) ltac:(lia) NZ) as [He Ha]. split; auto. intros r HR. destruct (Ha r HR) as (psi' & v & g & E & HM & HB). exists psi'. split; auto.
  destruct (ket_result 5 _ _ g 8 psi' nrm ltac:(reflexivity) HM HB) as (A & B & C).
  match type of A with psi' ?z = _ => assert (Ez : z = 4) by (vm_compute; reflexivity) end. cbv beta zeta in A, C, Ez. rewrite Ez in A, C. split; auto. rewrite A. auto. Qed.

Lemma l_c182_right_refuted : forall (K : StarRing) (c : cfg) rgp (nrm : K), (1 : K)%amp <> 0%amp -> fits c 5 ->
  every_run (ASR c rgp nrm 5 1 0 4 (ket 12)) (fun r => exists psi', r = Ok (Some psi') /\ (psi' 2 = 1%amp \/ psi' 2 = nrm) /\ forall y, y < 2 ^ 5 -> y <> 2 -> psi' y = 0%amp).
Proof. intros K c rgp nrm H1 Hf. assert (NZ : nonzero 5 (ket 12 : mem K)) by (apply ket_nonzero; [exact H1|reflexivity]). destruct (asr_ok c rgp nrm 5 1 0 4 (ket 12) Hf ltac:(lia) ltac:(lia) ltac:(lia) NZ) as [He Ha]. split; auto. intros r HR. destruct (Ha r HR) as (psi' & v & g & E & HM & HB). exists psi'. split; auto.
  destruct (ket_result 5 _ _ g 12 psi' nrm ltac:(reflexivity) HM HB) as (A & B & C).
  match type of A with psi' ?z = _ => assert (Ez : z = 2) by (vm_compute; reflexivity) end. cbv beta zeta in A, C, Ez. rewrite Ez in A, C. split; auto. rewrite A. auto. Qed.
