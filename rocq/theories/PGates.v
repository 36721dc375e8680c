(** Engine gates act as specified; norm and inverse. *)
From Coq Require Import NArith List Bool Lia Permutation Ring.
From Verif Require Import Bits MFunctions SpecFunctions PFunctions MParFor SpecParFor PParFor MKernel PKernel Amp PAmp SpecState MEngine SpecEngine PLoop PApply.
Import ListNotations.
Local Open Scope N_scope.

(** ** Bits *)
Lemma lxor_set x t : N.testbit x t = false -> N.lxor x (2 ^ t) = N.setbit x t.
Proof.
  intros H. apply N.bits_inj. intros m. rewrite N.lxor_spec, tb_pow2, N.setbit_eqb. destruct (N.eqb_spec t m).
  - subst. now rewrite H.
  - now rewrite xorb_false_r.
Qed.
Lemma lxor_clear x t : N.testbit x t = true -> N.lxor x (2 ^ t) = N.clearbit x t.
Proof.
  intros H. apply N.bits_inj. intros m. rewrite N.lxor_spec, tb_pow2, N.clearbit_eqb. destruct (N.eqb_spec t m).
  - subst. rewrite H. reflexivity.
  - now rewrite xorb_false_r, andb_true_r.
Qed.
Lemma setbit_lt x t n : x < 2 ^ n -> t < n -> N.setbit x t < 2 ^ n.
Proof.
  intros Hx Ht. apply lt_pow2_bits. intros m Hm. rewrite N.setbit_eqb, (tb_high x n) by auto.
  destruct (N.eqb_spec t m); auto. lia.
Qed.
Lemma clearbit_lt x t n : x < 2 ^ n -> N.clearbit x t < 2 ^ n.
Proof.
  intros Hx. apply lt_pow2_bits. intros m Hm. rewrite N.clearbit_eqb, (tb_high x n) by auto. auto.
Qed.
Lemma tb_setbit x t m : N.testbit (N.setbit x t) m = (t =? m) || N.testbit x m.
Proof. apply N.setbit_eqb. Qed.
Lemma tb_clearbit x t m : N.testbit (N.clearbit x t) m = N.testbit x m && negb (t =? m).
Proof. apply N.clearbit_eqb. Qed.

Lemma or_pows_bit l : (forall x, In x l -> x < 64) -> forall i, N.testbit (or_pows l) i = true <-> In i l.
Proof.
  intros Hl i. unfold or_pows.
  assert (G : forall l a, (forall x, In x l -> x < 64) ->
    (N.testbit (fold_left (fun a q => N.lor a (pow2Ocl q)) l a) i = true <-> N.testbit a i = true \/ In i l)).
  { clear. induction l as [|q l IH]; intros a H; simpl. tauto.
    rewrite IH by (intros; apply H; simpl; auto). rewrite pow2Ocl_small by (apply H; simpl; auto).
    rewrite N.lor_spec, orb_true_iff, tb_pow2, N.eqb_eq. intuition. }
  rewrite G by auto. rewrite N.bits_0. intuition discriminate.
Qed.
Lemma or_pows_lt n l : (forall x, In x l -> x < n) -> n <= 64 -> or_pows l < 2 ^ n.
Proof.
  intros Hl Hn. apply lt_pow2_bits. intros m Hm. destruct (N.testbit (or_pows l) m) eqn:E; auto.
  apply or_pows_bit in E. specialize (Hl m E). lia. intros x Hx. specialize (Hl x Hx). lia.
Qed.

Lemma perm_mask_bit cs p : forall i, (forall x, In x cs -> x < 64) -> NoDup cs ->
  forall j, N.testbit (perm_mask i cs p) j = true <-> exists k, nth_error cs k = Some j /\ N.testbit p (i + N.of_nat k) = true.
Proof.
  induction cs as [|q cs IH]; intros i Hl ND j; cbn [perm_mask].
  - rewrite N.bits_0. split. discriminate. intros [[|k] [H _]]; discriminate.
  - apply NoDup_cons_iff in ND. destruct ND as [Hq ND].
    rewrite N.lor_spec, orb_true_iff, IH; auto; [|intros; apply Hl; simpl; auto]. split.
    + intros [H|[k [H1 H2]]].
      * destruct (N.testbit p i) eqn:E; [|now rewrite N.bits_0 in H].
        rewrite pow2Ocl_small, tb_pow2 in H by (apply Hl; simpl; auto). apply N.eqb_eq in H. subst. exists 0%nat. split; auto.
        now rewrite N.add_0_r.
      * exists (S k). split; auto. rewrite <- H2. f_equal. lia.
    + intros [[|k] [H1 H2]].
      * left. injection H1 as ->. rewrite N.add_0_r in H2. rewrite H2, pow2Ocl_small, tb_pow2 by (apply Hl; simpl; auto). apply N.eqb_refl.
      * right. exists k. split; auto. rewrite <- H2. f_equal. lia.
Qed.

Lemma all_set_agree cs x : (forall q, In q cs -> q < 64) -> all_set cs x = true <-> agree cs x (or_pows cs).
Proof.
  intros Hl. unfold all_set, agree. rewrite forallb_forall. split; intros H q Hq.
  - rewrite H by auto. symmetry. now apply or_pows_bit.
  - rewrite H by auto. now apply or_pows_bit.
Qed.
Lemma all_clear_agree cs x : all_clear cs x = true <-> agree cs x 0.
Proof.
  unfold all_clear, agree. rewrite forallb_forall. split; intros H q Hq.
  - specialize (H q Hq). rewrite N.bits_0. now apply negb_true_iff.
  - rewrite H, N.bits_0 by auto. reflexivity.
Qed.
Lemma match_perm_nth cs p x : forall i, match_perm i cs p x = true <->
  (forall k q, nth_error cs k = Some q -> N.testbit x q = N.testbit p (i + N.of_nat k)).
Proof.
  induction cs as [|q cs IH]; intros i; cbn [match_perm].
  - split; auto. intros _ [|k] q H; discriminate.
  - rewrite andb_true_iff, IH, Bool.eqb_true_iff. split.
    + intros [H1 H2] [|k] r Hr.
      * injection Hr as <-. now rewrite N.add_0_r.
      * rewrite (H2 k) by auto. f_equal. lia.
    + intros H. split. rewrite (H 0%nat q eq_refl). now rewrite N.add_0_r.
      intros k r Hr. rewrite (H (S k) r Hr). f_equal. lia.
Qed.
Lemma match_perm_agree cs p x : (forall q, In q cs -> q < 64) -> NoDup cs ->
  match_perm 0 cs p x = true <-> agree cs x (perm_mask 0 cs p).
Proof.
  intros Hl ND. rewrite match_perm_nth. unfold agree.
  assert (G : forall k q, nth_error cs k = Some q -> N.testbit (perm_mask 0 cs p) q = N.testbit p (0 + N.of_nat k)).
  { intros k q Hk. destruct (N.testbit p (0 + N.of_nat k)) eqn:E.
    - apply perm_mask_bit; auto. eauto.
    - destruct (N.testbit (perm_mask 0 cs p) q) eqn:E2; auto. apply perm_mask_bit in E2; auto.
      destruct E2 as [k' [H1 H2]]. rewrite <- E, <- H2. do 3 f_equal.
      apply (proj1 (NoDup_nth_error cs) ND); [|congruence]. apply nth_error_Some. congruence. }
  split.
  - intros H q Hq. apply In_nth_error in Hq. destruct Hq as [k Hk]. now rewrite (H k q Hk), (G k q Hk).
  - intros H k q Hk. rewrite <- (G k q Hk). apply H. eapply nth_error_In; eauto.
Qed.

Lemma agree_app a b x o : agree (a ++ b) x o <-> agree a x o /\ agree b x o.
Proof.
  unfold agree. split.
  - intros H. split; intros p Hp; apply H, in_or_app; auto.
  - intros [H1 H2] p Hp. apply in_app_or in Hp. destruct Hp; auto.
Qed.
Lemma agree_sort l x o : agree (nsort l) x o <-> agree l x o.
Proof. unfold agree. split; intros H p Hp; apply H; now apply nsort_In. Qed.
Lemma only_bits_sort l o : only_bits (nsort l) o <-> only_bits l o.
Proof. unfold only_bits. split; intros H i Hi; specialize (H i Hi); now apply nsort_In. Qed.

(** ** Engine gates *)
Section Gates.
  Context {K : StarRing}.
  Variable c : cfg.
  Add Ring Kr2 : (sr_ring K).
  Local Notation V := (mem K).

  Lemma a2_throws_false n ps o1 o2 : n < 64 -> increasing_below 0 n ps -> o1 < 2 ^ n -> o2 < 2 ^ n ->
    a2_throws n o1 o2 (map (fun q => 2 ^ q) ps) = false.
  Proof.
    intros Hn Hi H1 H2. unfold a2_throws.
    destruct (N.leb_spec (2 ^ n) o1), (N.leb_spec (2 ^ n) o2); try lia. cbn [orb].
    apply orb_false_iff. split; [|eapply adjacent_none; eauto].
    destruct (existsb _ _) eqn:E; auto. apply existsb_exists in E. destruct E as [y [Hy1 Hy2]].
    apply in_map_iff in Hy1. destruct Hy1 as [q [<- Hq]]. apply N.leb_le in Hy2.
    assert (q < n).
    { clear - Hi Hq. revert Hi. generalize 0 as lo. induction ps as [|p ps IH]; intros lo Hi. destruct Hq.
      destruct Hi as [Hp Hi]. destruct Hq as [->|Hq]. lia. eapply IH; eauto. }
    pose proof (pow2_lt_mono q n H3). lia.
  Qed.

  Lemma apply2x2_ok n ps o1 o2 (m : mat2 K) psi r : fits c n -> increasing_below 0 n ps ->
    only_bits ps o1 -> only_bits ps o2 -> o1 < 2 ^ n -> o2 < 2 ^ n -> o1 <> o2 ->
    Apply2x2 c n o1 o2 m (map (fun q => 2 ^ q) ps) (Some psi) r ->
    exists psi', r = Ok (Some psi') /\ forall x, x < 2 ^ n ->
      (agree ps x o1 -> psi' x = (m00 m * psi x + m01 m * psi (N.lxor x (N.lxor o1 o2)))%amp) /\
      (agree ps x o2 -> psi' x = (m10 m * psi (N.lxor x (N.lxor o1 o2)) + m11 m * psi x)%amp) /\
      (~ agree ps x o1 -> ~ agree ps x o2 -> psi' x = psi x).
  Proof.
    intros Hf Hi B1 B2 L1 L2 Hne. unfold Apply2x2. rewrite a2_throws_false; auto; [|apply Hf].
    intros [psi' [HR ->]]. exists psi'. split; auto. intros x Hx.
    pose proof (pair_effect c n ps o1 o2 _ psi psi' Hf Hi B1 B2 L1 L2 Hne HR x Hx) as [A [B C]].
    unfold a2_fn in A, B. rewrite a2_vals_ok in A, B. auto.
  Qed.
  Lemma apply2x2_exists n ps o1 o2 (m : mat2 K) v : fits c n -> exists r, Apply2x2 c n o1 o2 m (map (fun q => 2 ^ q) ps) v r.
  Proof.
    intros Hf. unfold Apply2x2. destruct v as [psi|]; eauto. destruct (a2_throws _ _ _ _); eauto.
    destruct (loop_mask_exists c n (map (fun q => 2 ^ q) ps) (a2_body o1 o2 (a2_fn NPlain m)) psi Hf) as [psi' H]. eauto.
  Qed.

  (** Controls [cs] with the values [cm], target [t]. *)
  Lemma apply_ctrl n cs t cm (m : mat2 K) psi r (P : N -> bool) : fits c n -> NoDup (cs ++ [t]) ->
    (forall q, In q (cs ++ [t]) -> q < n) -> only_bits cs cm -> (forall x, P x = true <-> agree cs x cm) ->
    Apply2x2 c n cm (N.lor cm (pow2Ocl t)) m (nsort (map pow2Ocl cs ++ [pow2Ocl t])) (Some psi) r ->
    exists psi', r = Ok (Some psi') /\ eqv n psi' (gate1 P t m psi).
  Proof.
    intros Hf ND Hin Hb HP. assert (Hn : n < 64) by apply Hf.
    assert (Ht : t < n) by (apply Hin, in_or_app; simpl; auto).
    assert (Htc : ~ In t cs).
    { intros H. apply NoDup_remove_2 in ND. rewrite app_nil_r in ND. auto. }
    replace (map pow2Ocl cs ++ [pow2Ocl t]) with (map pow2Ocl (cs ++ [t])) by (rewrite map_app; reflexivity).
    rewrite (map_pow2Ocl n) by (auto; lia). rewrite nsort_pow, pow2Ocl_small by lia.
    assert (Hcm : cm < 2 ^ n).
    { apply lt_pow2_bits. intros i Hi. destruct (N.testbit cm i) eqn:E; auto.
      specialize (Hin i ltac:(apply in_or_app; auto)). lia. }
    assert (Hcmt : N.testbit cm t = false) by (destruct (N.testbit cm t) eqn:E; auto; exfalso; auto).
    assert (Hx2 : N.lxor cm (N.lor cm (2 ^ t)) = 2 ^ t).
    { apply N.bits_inj. intros i. rewrite N.lxor_spec, N.lor_spec, tb_pow2. destruct (N.eqb_spec t i).
      - subst. now rewrite Hcmt.
      - rewrite orb_false_r. apply xorb_nilpotent. }
    intros HA. apply apply2x2_ok in HA; auto.
    - destruct HA as [psi' [-> HA]]. exists psi'. split; auto. intros x Hx. specialize (HA x Hx). rewrite Hx2 in HA.
      destruct HA as [A [B C]]. rewrite agree_sort, agree_app in A, B, C. rewrite agree_sort, agree_app in C.
      assert (H1 : agree [t] x cm <-> N.testbit x t = false).
      { unfold agree. split. intros H. rewrite (H t); simpl; auto. intros H p [<-|[]]. now rewrite H. }
      assert (H2 : agree [t] x (N.lor cm (2 ^ t)) <-> N.testbit x t = true).
      { unfold agree. split.
        - intros H. rewrite (H t); simpl; auto. rewrite N.lor_spec, tb_pow2, N.eqb_refl. apply orb_true_r.
        - intros H p [<-|[]]. rewrite H, N.lor_spec, tb_pow2, N.eqb_refl. now rewrite orb_true_r. }
      assert (H3 : agree cs x (N.lor cm (2 ^ t)) <-> agree cs x cm).
      { unfold agree. split; intros H p Hp; specialize (H p Hp); rewrite H; rewrite N.lor_spec, tb_pow2;
        destruct (N.eqb_spec t p); try congruence; now rewrite orb_false_r. }
      rewrite H1 in A, C. rewrite H2, H3 in B, C. rewrite <- HP in A, B, C.
      unfold gate1. destruct (P x) eqn:EP.
      + destruct (N.testbit x t) eqn:ET.
        * rewrite B by auto. now rewrite lxor_clear.
        * rewrite A by auto. now rewrite lxor_set.
      + apply C; intros [? ?]; discriminate.
    - apply nsort_increasing; auto.
    - apply only_bits_sort. intros i Hi. apply in_or_app. auto.
    - apply only_bits_sort. intros i Hi. apply in_or_app. rewrite N.lor_spec, tb_pow2 in Hi. apply orb_true_iff in Hi.
      destruct Hi as [Hi|Hi]; auto. right. apply N.eqb_eq in Hi. simpl; auto.
    - apply lor_lt_pow2; auto. now apply pow2_lt_mono.
    - intros E. rewrite <- E, N.lxor_nilpotent in Hx2. symmetry in Hx2. now apply pow2_nz in Hx2.
  Qed.

  Lemma is_identity_true rgp ic (m : mat2 K) : is_identity rgp ic m = true ->
    exists ph, m = mkMat ph 0%amp 0%amp ph /\ (ph = 1%amp \/ rgp = true /\ ic = false).
  Proof.
    unfold is_identity. destruct m as [a b d e]. cbn [m00 m01 m10 m11].
    destruct (eqb_spec K (a - e)%amp 0%amp) as [E1|E1]; cbn [negb orb]; [|discriminate].
    destruct (eqb_spec K b 0%amp) as [E2|E2]; cbn [negb orb andb]; [|discriminate].
    destruct (eqb_spec K d 0%amp) as [E3|E3]; cbn [negb orb andb]; [|discriminate].
    assert (Ee : e = a) by (transitivity (a - (a - e))%amp; [ring|rewrite E1; ring]). subst.
    destruct (eqb_spec K (1 - a)%amp 0%amp) as [E4|E4]; cbn [negb orb andb].
    - intros _. exists a. split; auto. left. transitivity (1 - (1 - a))%amp; [ring|rewrite E4; ring].
    - rewrite andb_true_r. destruct ic, rgp; cbn [orb negb]; try discriminate. intros _. exists a. auto.
  Qed.
  Lemma gate1_scalar P t ph (psi : V) x : P x = true -> gate1 P t (mkMat ph 0%amp 0%amp ph) psi x = (ph * psi x)%amp.
  Proof. intros HP. unfold gate1. rewrite HP. cbn [m00 m01 m10 m11]. destruct (N.testbit x t); ring. Qed.
  Lemma gate1_one P t (psi : V) x : gate1 P t (mkMat 1%amp 0%amp 0%amp 1%amp) psi x = psi x.
  Proof. unfold gate1. destruct (P x); auto. cbn [m00 m01 m10 m11]. destruct (N.testbit x t); ring. Qed.

  Theorem mtrx_ok rgp n (m : mat2 K) t (psi : V) r : fits c n -> t < n -> Mtrx c rgp n m t (Some psi) r ->
    gate_result n rgp [] m psi (gate1 always t m psi) r.
  Proof.
    intros Hf Ht. unfold Mtrx. destruct (is_identity rgp false m) eqn:E.
    - intros ->. apply is_identity_true in E. destruct E as [ph [-> Hph]]. exists psi, ph. split; auto. split.
      + intros x _. now rewrite gate1_scalar.
      + destruct Hph as [->|[-> _]]; auto.
    - intros H. destruct (apply_ctrl n [] t 0 m psi r always Hf) as [psi' [-> Hp]].
      + constructor; [intros [] | constructor].
      + intros q [<-|[]]; auto.
      + intros i Hi. now rewrite N.bits_0 in Hi.
      + intros x. split; auto. intros _ p [].
      + cbn [map app nsort ninsert]. rewrite N.lor_0_l. exact H.
      + exists psi', 1%amp. split; auto. split; auto. intros x Hx. rewrite <- Hp by auto. ring.
  Qed.
  Theorem either_ok rgp anti n cs (m : mat2 K) t (psi : V) r : fits c n -> NoDup (cs ++ [t]) -> (forall q, In q (cs ++ [t]) -> q < n) ->
    EitherMtrx c rgp anti n cs m t (Some psi) r ->
    gate_result n rgp cs m psi (gate1 (if anti then all_clear cs else all_set cs) t m psi) r.
  Proof.
    intros Hf ND Hin. assert (Hn : n < 64) by apply Hf. assert (Ht : t < n) by (apply Hin, in_or_app; simpl; auto).
    destruct cs as [|q cs'] eqn:Ecs.
    - cbn [EitherMtrx]. intros H. apply mtrx_ok in H; auto. destruct anti; exact H.
    - rewrite <- Ecs in *. unfold EitherMtrx. rewrite Ecs at 1. cbv iota. 
      destruct (is_identity rgp true m) eqn:E.
      + intros ->. apply is_identity_true in E. destruct E as [ph [-> [->|[_ ?]]]]; [|discriminate].
        exists psi, 1%amp. split; auto. split; auto. intros x _. destruct anti; rewrite gate1_one; ring.
      + intros H.
        assert (Hq : forall x, In x cs -> x < 64).
        { intros x Hx. specialize (Hin x ltac:(apply in_or_app; auto)). lia. }
        destruct (apply_ctrl n cs t (if anti then 0 else or_pows cs) m psi r (if anti then all_clear cs else all_set cs) Hf) as [psi' [-> Hp]]; auto.
        * destruct anti. intros i Hi. now rewrite N.bits_0 in Hi. intros i Hi. apply or_pows_bit in Hi; auto.
        * intros x. destruct anti. apply all_clear_agree. apply all_set_agree; auto.
        * destruct anti; cbn [andb]; [rewrite N.lor_0_l|]; exact H.
        * exists psi', 1%amp. split; auto. split; auto. intros x Hx. rewrite <- Hp by auto. ring.
  Qed.
  Theorem uc_ok rgp n cs (m : mat2 K) t p (psi : V) r : fits c n -> NoDup (cs ++ [t]) -> (forall q, In q (cs ++ [t]) -> q < n) ->
    UCMtrx c rgp n cs m t p (Some psi) r ->
    gate_result n rgp cs m psi (gate1 (match_perm 0 cs p) t m psi) r.
  Proof.
    intros Hf ND Hin. assert (Hn : n < 64) by apply Hf. assert (Ht : t < n) by (apply Hin, in_or_app; simpl; auto).
    destruct cs as [|q cs'] eqn:Ecs.
    - cbn [UCMtrx]. intros H. apply mtrx_ok in H; auto. 
    - rewrite <- Ecs in *. unfold UCMtrx. rewrite Ecs at 1. cbv iota.
      destruct (is_identity rgp true m) eqn:E.
      + intros ->. apply is_identity_true in E. destruct E as [ph [-> [->|[_ ?]]]]; [|discriminate].
        exists psi, 1%amp. split; auto. split; auto. intros x _. rewrite gate1_one; ring.
      + intros H.
        assert (Hq : forall x, In x cs -> x < 64).
        { intros x Hx. specialize (Hin x ltac:(apply in_or_app; auto)). lia. }
        assert (ND' : NoDup cs) by (apply NoDup_remove_1 in ND; now rewrite app_nil_r in ND).
        destruct (apply_ctrl n cs t (perm_mask 0 cs p) m psi r (match_perm 0 cs p) Hf) as [psi' [-> Hp]]; auto.
        * intros i Hi. apply perm_mask_bit in Hi; auto. destruct Hi as [k [Hk _]]. eapply nth_error_In; eauto.
        * intros x. now apply match_perm_agree.
        * exists psi', 1%amp. split; auto. split; auto. intros x Hx. rewrite <- Hp by auto. ring.
  Qed.

  (** Errors: a control or target beyond the last qubit, or a repeated qubit, is rejected. *)
  Theorem either_throws rgp anti n cs (m : mat2 K) t (psi : V) : n < 64 -> (forall q, In q (cs ++ [t]) -> q < 64) ->
    is_identity rgp (match cs with [] => false | _ => true end) m = false ->
    ~ (NoDup (cs ++ [t]) /\ (forall q, In q (cs ++ [t]) -> q < n)) ->
    EitherMtrx c rgp anti n cs m t (Some psi) Throw /\
    forall r, EitherMtrx c rgp anti n cs m t (Some psi) r -> r = Throw.
  Proof.
    intros Hn Hin Hid Hbad.
    assert (G : forall o1 o2, a2_throws n o1 o2 (nsort (map pow2Ocl cs ++ [pow2Ocl t])) = true).
    { intros o1 o2. unfold a2_throws. destruct (2 ^ n <=? o1); auto. destruct (2 ^ n <=? o2); auto. cbn [orb].
      replace (map pow2Ocl cs ++ [pow2Ocl t]) with (map pow2Ocl (cs ++ [t])) by (rewrite map_app; reflexivity).
      rewrite (map_pow2Ocl 64) by (auto; lia).
      destruct (existsb _ _) eqn:E; auto. cbn [orb].
      rewrite adjacent_some; auto. intros ND. apply Hbad. split.
      - apply NoDup_map_inv in ND. exact ND.
      - intros q Hq. apply N.lt_nge. intros Hge.
        assert (existsb (fun p => 2 ^ n <=? p) (nsort (map (fun q => 2 ^ q) (cs ++ [t]))) = true); [|congruence].
        apply existsb_exists. exists (2 ^ q). split. apply nsort_In. apply in_map_iff. eauto. apply N.leb_le. now apply pow2_le_mono. }
    destruct cs as [|q cs'] eqn:Ecs.
    - cbn [EitherMtrx]. unfold Mtrx. rewrite Hid. unfold Apply2x2. cbn [map app nsort ninsert] in G. rewrite G. auto.
    - unfold EitherMtrx. rewrite Hid. unfold Apply2x2. rewrite !G. destruct anti; auto.
  Qed.
End Gates.
