(** Proofs about the C interface, part 5: arithmetic on named registers. *)
From Coq Require Import NArith List Bool Lia Permutation Ring Sorted.
From Verif Require Import Bits MFunctions SpecFunctions PFunctions MParFor PParFor MKernel PKernel Amp PAmp SpecState MEngine SpecEngine PLoop PApply PGates PGates2 PGates3 PCompose PProb PEngine PEngine2
  MAlu SpecAlu PAlu PShard2 PQCirc1 PQCirc4 PQCirc6 SpecUnit3 MQCircuit MTensor SpecApi MApi SpecApi2 PApi1 PApi2 PApi3 PApi4.
Import ListNotations.
Local Open Scope N_scope.

(** ** Exchanging two names *)
Definition xch (a b v : N) : N := if v =? a then b else if v =? b then a else v.
Lemma xch_invol a b v : xch a b (xch a b v) = v.
Proof. unfold xch. destruct (N.eqb_spec v a), (N.eqb_spec v b); repeat match goal with |- context [?x =? ?y] => destruct (N.eqb_spec x y) end; congruence. Qed.
Lemma assoc_ext (l : list (N * N)) : forall l', map fst l = map fst l' -> NoDup (map fst l) -> (forall k, mfind k l = mfind k l') -> l = l'.
Proof.
  induction l as [|[k v] t IH]; intros [|[k' v'] t'] H1 H2 H3; cbn [map fst] in *; try discriminate; auto. injection H1 as -> H1. inversion H2 as [|? ? N1 N2]; subst.
  pose proof (H3 k') as E. cbn [mfind] in E. rewrite N.eqb_refl in E. injection E as ->. f_equal. apply IH; auto. intros k. specialize (H3 k). cbn [mfind] in H3. destruct (N.eqb_spec k k'); auto. subst.
  assert (A : mfind k' t = None) by now apply mfind_none. assert (B : mfind k' t' = None) by (apply mfind_none; rewrite <- H1; auto). congruence.
Qed.
Lemma mset_old (l : list (N * N)) k v : srt (map fst l) -> In k (map fst l) -> map fst (mset k v l) = map fst l.
Proof.
  intros H1 H2. apply srt_ext; auto. now apply mset_srt. intros x. rewrite keys_mset. intuition. now subst.
Qed.
Lemma key_of_in v (m : list (N * N)) : In v (map snd m) -> In (key_of v m, v) m.
Proof.
  induction m as [|[k w] t IH]; cbn [map snd key_of]; intros H; [destruct H|]. destruct (N.eqb_spec w v). { subst. now left. } destruct H as [H|H]; [congruence|]. right. auto.
Qed.
Lemma has_value_ok v (m : list (N * N)) : In v (map snd m) -> has_value v m = true.
Proof. intros H. apply in_map_iff in H. destruct H as (e & <- & H). apply existsb_exists. exists e. split; auto. apply N.eqb_refl. Qed.
Lemma mfind_map_snd (g : N -> N) (m : list (N * N)) k : mfind k (map (fun e => (fst e, g (snd e))) m) = option_map g (mfind k m).
Proof. induction m as [|[a w] t IH]; cbn [map mfind fst snd]; auto. destruct (k =? a); auto. Qed.
Lemma swap_values_ok n m a b : names n m -> a < n -> b < n -> swap_values a b m = Ret (map (fun e => (fst e, xch a b (snd e))) m).
Proof.
  intros H1 Ha Hb. pose proof (names_keys _ _ H1) as NK. pose proof (names_vals _ _ H1) as NV. unfold swap_values.
  apply (names_in _ _ H1) in Ha, Hb. rewrite !has_value_ok by auto. cbn [andb]. f_equal. apply key_of_in in Ha, Hb. set (ka := key_of a m) in *. set (kb := key_of b m) in *.
  assert (Ia : In ka (map fst m)) by (apply in_map_iff; now exists (ka, a)). assert (Ib : In kb (map fst m)) by (apply in_map_iff; now exists (kb, b)).
  assert (S1 : srt (map fst m)) by apply H1. assert (E1 : map fst (mset ka b m) = map fst m) by now apply mset_old.
  assert (E2 : map fst (mset kb a (mset ka b m)) = map fst m) by (rewrite mset_old; rewrite ?E1; auto).
  apply assoc_ext.
  - rewrite E2, map_map. reflexivity.
  - now rewrite E2.
  - intros k. rewrite !mfind_mset, mfind_map_snd. destruct (N.eqb_spec k kb).
    + subst k. rewrite (In_mfind kb b m NK Hb). cbn [option_map]. unfold xch. destruct (N.eqb_spec b a); subst; rewrite ?N.eqb_refl; auto.
    + destruct (N.eqb_spec k ka). { subst k. rewrite (In_mfind ka a m NK Ha). cbn [option_map]. unfold xch. now rewrite N.eqb_refl. }
      destruct (mfind k m) as [v|] eqn:F; auto. cbn [option_map]. f_equal. apply mfind_In in F. unfold xch.
      destruct (N.eqb_spec v a). { subst. exfalso. apply n1. eapply value_key; eauto. } destruct (N.eqb_spec v b); auto. subst. exfalso. apply n0. eapply value_key; eauto.
Qed.
Lemma xch_names n m a b : names n m -> a < n -> b < n -> names n (map (fun e => (fst e, xch a b (snd e))) m).
Proof.
  intros (H1 & H2 & H3) Ha Hb. split; [rewrite map_map; cbn [fst]; exact H1|]. split; [|auto]. rewrite map_map. cbn [snd]. rewrite <- (map_map snd (xch a b)). rewrite (Permutation_map (xch a b) H2).
  apply NoDup_Permutation; [|apply upto_nodup|].
  - apply FinFun.Injective_map_NoDup; [|apply upto_nodup]. intros x y E. rewrite <- (xch_invol a b x), <- (xch_invol a b y). now rewrite E.
  - assert (L : forall v, v < n -> xch a b v < n) by (intros v Hv; unfold xch; destruct (v =? a), (v =? b); auto).
    intros x. rewrite in_map_iff, upto_in, Nnat.N2Nat.id. split.
    + intros (y & <- & Y). apply upto_in in Y. apply L. lia.
    + intros X. exists (xch a b x). split; [apply xch_invol|]. apply upto_in. rewrite Nnat.N2Nat.id. auto.
Qed.
Lemma xch_index n m a b f : names n m -> a < n -> b < n -> index_of (map (fun e => (fst e, xch a b (snd e))) m) f = swap_bits a b (index_of m f).
Proof.
  intros H1 Ha Hb. symmetry. pose proof (xch_names n m a b H1 Ha Hb) as H2. apply index_unique; [apply (names_vals _ _ H2)| |].
  - intros v Hv. rewrite (names_in _ _ H2) in Hv. apply (tb_high _ n); [|lia]. apply PGates2.swap_bits_lt; auto. now apply index_lt.
  - intros k v Hk. apply in_map_iff in Hk. destruct Hk as ([k' w] & E & I). cbn [fst snd] in E. injection E as -> <-. rewrite tb_swap. unfold xch. rewrite <- (index_bit m f k w (names_vals _ _ H1) I).
    destruct (N.eqb_spec w a) as [->|]. { destruct (N.eqb_spec a b); subst; rewrite ?N.eqb_refl; auto. }
    destruct (N.eqb_spec w b) as [->|]. { now rewrite N.eqb_refl. } destruct (N.eqb_spec a w); [congruence|]. destruct (N.eqb_spec b w); [congruence|]. auto.
Qed.

(** ** Registers *)
Definition register (m : list (N * N)) (start : N) (q : list N) : Prop := forall j x, nth_error q j = Some x -> mfind x m = Some (start + N.of_nat j).
Lemma value_lt q f : value_of q f < 2 ^ N.of_nat (length q).
Proof. induction q as [|a t IH]; cbn [value_of length]. { cbn. lia. } rewrite Nnat.Nat2N.inj_succ, N.pow_succ_r'. destruct (f a); lia. Qed.
Lemma write_bits q k f j x : NoDup q -> nth_error q j = Some x -> write_value q k f x = N.testbit k (N.of_nat j).
Proof.
  revert k j. induction q as [|a t IH]; intros k j ND H; cbn [write_value]; [destruct j; discriminate|]. inversion ND as [|? ? N1 N2]; subst. destruct j as [|j]; cbn [nth_error] in H.
  - injection H as ->. rewrite upd_same. symmetry. apply N.bit0_odd.
  - rewrite upd_other. 2:{ intros ->. apply N1. eapply nth_error_In; eauto. } rewrite (IH (k / 2) j N2 H). change (k / 2) with (k / 2 ^ 1). rewrite tb_div2. f_equal. lia.
Qed.
Lemma write_other q k f x : ~ In x q -> write_value q k f x = f x.
Proof.
  revert k. induction q as [|a t IH]; intros k H; cbn [write_value]; auto. rewrite upd_other by (intros ->; apply H; now left). apply IH. intros X. apply H. now right.
Qed.
Lemma value_nth q f j x : nth_error q j = Some x -> N.testbit (value_of q f) (N.of_nat j) = f x.
Proof. intros H. rewrite value_bits. apply nth_error_nth. rewrite nth_error_map, H. reflexivity. Qed.
Lemma reg_value n m start q f : names n m -> register m start q -> get_reg (index_of m f) start (N.of_nat (length q)) = value_of q f.
Proof.
  intros H1 H2. apply N.bits_inj. intros j. rewrite tb_get_reg. destruct (N.ltb_spec j (N.of_nat (length q))) as [L|L]; cbn [andb].
  - destruct (nth_error q (N.to_nat j)) as [x|] eqn:E. 2:{ apply nth_error_None in E. lia. } rewrite <- (Nnat.N2Nat.id j) at 2. rewrite (value_nth q f _ x E). specialize (H2 _ _ E). rewrite Nnat.N2Nat.id in H2.
    rewrite (N.add_comm j). apply index_bit; [apply (names_vals _ _ H1)|]. now apply mfind_In.
  - symmetry. apply (tb_high _ (N.of_nat (length q))); auto. apply value_lt.
Qed.
Lemma reg_write n m start q k f : names n m -> register m start q -> NoDup q -> k < 2 ^ N.of_nat (length q) -> start + N.of_nat (length q) <= n -> put_reg (index_of m f) start (N.of_nat (length q)) k = index_of m (write_value q k f).
Proof.
  intros H1 H2 ND Hk HL. apply index_unique; [apply (names_vals _ _ H1)| |].
  - intros v Hv. rewrite (names_in _ _ H1) in Hv. rewrite tb_put_reg by auto. bcases; try lia. apply (tb_high _ n); [now apply index_lt|lia].
  - intros x v Hx. rewrite tb_put_reg by auto. pose proof (index_bit m f x v (names_vals _ _ H1) Hx) as B.
    assert (FX : mfind x m = Some v) by (apply In_mfind; auto; apply (names_keys _ _ H1)).
    assert (OUT : ~ In x q -> write_value q k f x = f x) by apply write_other.
    assert (INQ : In x q -> exists j, nth_error q j = Some x /\ v = start + N.of_nat j). { intros I. apply In_nth_error in I. destruct I as (j & I). exists j. split; auto. specialize (H2 j x I). congruence. }
    destruct (in_dec N.eq_dec x q) as [I|I].
    + destruct (INQ I) as (j & J & ->). assert (j < length q)%nat by (apply nth_error_Some; congruence). destruct (N.ltb_spec (start + N.of_nat j) start); [lia|]. destruct (N.ltb_spec (start + N.of_nat j) (start + N.of_nat (length q))); [|lia].
      rewrite (write_bits q k f j x ND J). f_equal. lia.
    + rewrite OUT by auto. destruct (N.ltb_spec v start); auto. destruct (N.ltb_spec v (start + N.of_nat (length q))); auto. exfalso.
      destruct (nth_error q (N.to_nat (v - start))) as [y|] eqn:E. 2:{ apply nth_error_None in E. lia. } pose proof (H2 _ _ E) as Y. apply mfind_In in Y. replace (start + N.of_nat (N.to_nat (v - start))) with v in Y by lia.
      assert (x = y) by (eapply value_key; [apply (names_vals _ _ H1)| |]; eauto). subst. apply I. eapply nth_error_In; eauto.
Qed.

Section Gather.
  Context {K : StarRing} (c : @acfg K).
  Local Notation nstate := ((N -> bool) -> K).
  Local Open Scope amp_scope.
  Add Ring KrDN : (sr_ring K).
  Implicit Type Psi : nstate.

  Lemma gather_ok bits : forall q start i s m Psi n, s_n s = n -> names n m -> reads_named s m Psi -> length q = length bits ->
    (forall j x b, nth_error q j = Some x -> nth_error bits j = Some b -> mfind x m = Some b) -> StronglySorted N.lt bits -> (forall b, In b bits -> (start + i <= b)%N /\ (b < n)%N) ->
    exists s' m', gather bits start i s m = Ret (s', m') /\ s_n s' = n /\ names n m' /\ reads_named s' m' Psi /\ map fst m' = map fst m /\
      (forall j x, nth_error q j = Some x -> mfind x m' = Some (start + i + N.of_nat j)%N) /\
      (forall x v, mfind x m = Some v -> (v < start + i)%N \/ (forall b, In b bits -> (b < v)%N) -> mfind x m' = Some v).
  Proof.
    induction bits as [|b t IH]; intros q start i s m Psi n HS HN HR HL HP SO HB; cbn [gather].
    - exists s, m. repeat split; auto; try apply HN. destruct q; [|discriminate]. intros [|j] x H; discriminate.
    - destruct q as [|x0 tq]; [discriminate|]. injection HL as HL. destruct (HB b (or_introl eq_refl)) as [B1 B2]. inversion SO as [|? ? SO1 SO2]; subst. rewrite Forall_forall in SO2. set (n := s_n s) in *.
      unfold sim_swap. fold n. destruct (N.ltb_spec (start + i) n); [|lia]. destruct (N.ltb_spec b n); [|lia]. cbn [andb bind]. rewrite (swap_values_ok n m) by auto. cbn [bind].
      set (m1 := map (fun e => (fst e, xch (start + i) b (snd e))) m). set (s1 := mkSim n (fun x => s_v s (swap_bits (start + i) b x))).
      assert (HN1 : names n m1) by now apply xch_names.
      assert (HR1 : reads_named s1 m1 Psi). { destruct HR as (ph & P1 & P2). exists ph. split; auto. intros f. cbn [s_v s1]. unfold m1. rewrite (xch_index n) by auto. rewrite swap_bits_invol. apply P2. }
      destruct (IH tq start (i + 1)%N s1 m1 Psi n eq_refl HN1 HR1 HL) as (s' & m' & E & X1 & X2 & X3 & X4 & X5 & X6); auto.
      + intros j x b' J1 J2. unfold m1. rewrite mfind_map_snd, (HP (S j) x b' J1 J2). cbn [option_map]. f_equal. assert (b < b')%N by (apply SO2; eapply nth_error_In; eauto). unfold xch. destruct (N.eqb_spec b' (start + i)); [lia|]. destruct (N.eqb_spec b' b); [lia|]. auto.
      + intros b' Hb'. specialize (SO2 b' Hb'). destruct (HB b' (or_intror Hb')). lia.
      + exists s', m'. rewrite E. split; auto. split; auto. split; auto. split; auto. split. { rewrite X4. unfold m1. now rewrite map_map. } split.
        * intros [|j] x J; cbn [nth_error] in J.
          -- injection J as <-. rewrite N.add_0_r. apply X6; [|left; lia]. unfold m1. rewrite mfind_map_snd, (HP O x0 b eq_refl eq_refl). cbn [option_map]. f_equal. unfold xch. destruct (N.eqb_spec b (start + i)); subst; auto. now rewrite N.eqb_refl.
          -- rewrite (X5 j x J). f_equal. lia.
        * intros x v F C. apply X6.
          -- unfold m1. rewrite mfind_map_snd, F. cbn [option_map]. f_equal. unfold xch. destruct (N.eqb_spec v (start + i)) as [->|]. { destruct C as [C|C]; [lia|]. specialize (C b (or_introl eq_refl)). lia. }
             destruct (N.eqb_spec v b) as [->|]; auto. destruct C as [C|C]; [lia|]. specialize (C b (or_introl eq_refl)). lia.
          -- destruct C as [C|C]; [left; lia|right]. intros b' Hb'. apply C. now right.
  Qed.
  Lemma lowest_sorted b t : (b < 256)%N -> StronglySorted N.lt (b :: t) -> lowest (b :: t) = b.
  Proof.
    intros HB H. inversion H as [|? ? H1 H2]; subst. rewrite Forall_forall in H2. unfold lowest. cbn [fold_right]. assert (X : (b <= fold_right N.min 255 t)%N).
    { clear - HB H2. induction t as [|a t IH]; cbn [fold_right]; [lia|]. assert (b < a)%N by (apply H2; now left). specialize (IH (fun x Hx => H2 x (or_intror Hx))). lia. }
    lia.
  Qed.
  (** A permutation of the basis states keeps the norm. *)
  Lemma norm_bij n (g : N -> N) (v : N -> K) : (forall x, (x < 2 ^ n)%N -> (g x < 2 ^ n)%N) -> (forall x y, (x < 2 ^ n)%N -> (y < 2 ^ n)%N -> g x = g y -> x = y) -> norm2 n (fun x => v (g x)) = norm2 n v.
  Proof.
    intros H1 H2. unfold norm2. rewrite <- (asum_map K (fun x => anorm (v x)) g). apply asum_perm. apply NoDup_Permutation_bis.
    - assert (X : forall l, NoDup l -> (forall x, In x l -> (x < 2 ^ n)%N) -> NoDup (map g l)).
      { clear - H2. induction l as [|a t IH]; intros ND HL; cbn [map]; constructor; inversion ND as [|? ? N1 N2]; subst.
        - intros X. apply in_map_iff in X. destruct X as (y & E & Y). apply N1. replace a with y; auto. apply H2; auto; apply HL; cbn [In]; auto.
        - apply IH; auto. intros x Hx. apply HL. now right. }
      apply X. apply basis_NoDup. intros x Hx. now apply basis_In.
    - now rewrite map_length.
    - intros x Hx. apply in_map_iff in Hx. destruct Hx as (y & <- & Y). apply basis_In. apply H1. now apply basis_In.
  Qed.
End Gather.
