(** Proofs about MultiShotMeasureMask of QInterface. *)
From Coq Require Import NArith Arith List Bool Lia Permutation.
From Verif Require Import Bits MTensor SpecState PExpect1 MExpect MShots SpecShots.
Import ListNotations.
Local Open Scope N_scope.

Lemma sample_ret powers : forall i raw s, sample_bits i powers raw s = N.lor s (ret_index i powers raw).
Proof.
  induction powers as [|p t IH]; intros i raw s; cbn [sample_bits ret_index]. now rewrite N.lor_0_r. rewrite IH. destruct (N.land raw p =? 0). now rewrite N.lor_0_l. now rewrite N.lor_assoc.
Qed.
Lemma sample_value qs raw : sample_clone_base (map (N.pow 2) qs) raw = ctrl_value 0 qs raw.
Proof. unfold sample_clone_base. rewrite sample_ret, N.lor_0_l. apply ret_ctrl. Qed.

Lemma entry_absent k m : (forall e, In e m -> k < fst e) -> entry k m = 0.
Proof. induction m as [|[a c] t IH]; cbn [entry]; auto. intros H. destruct (N.eqb_spec k a). subst. specialize (H (a, c) (or_introl eq_refl)). cbn in H. lia. apply IH. intros e He. apply H. now right. Qed.
Lemma incr_ok k : forall m, increasing m -> entry k m < 2 ^ 31 - 1 -> exists m', map_incr k m = Ret m' /\ increasing m' /\
  (forall j, entry j m' = entry j m + (if j =? k then 1 else 0)) /\ total m' = total m + 1 /\ (forall e, In e m' -> fst e = k /\ 0 < snd e \/ In e m).
Proof.
  induction m as [|[a c] t IH]; intros I L; cbn [map_incr].
  - exists [(k, 1)]. split; auto. split; [cbn; tauto|]. split; [|split; [reflexivity|]]. intros j. cbn [entry]. destruct (j =? k); lia. intros e [<-|[]]. left. split; reflexivity.
  - cbn [increasing entry] in I, L. destruct I as [I1 I2]. destruct (N.eqb_spec k a) as [->|NE].
    + destruct (N.eqb_spec c (2 ^ 31 - 1)); [lia|]. exists ((a, c + 1) :: t). split; auto. split; [cbn; auto|]. split; [|split].
      * intros j. cbn [entry]. destruct (j =? a); lia.
      * unfold total. cbn [fold_right snd]. lia.
      * intros e [<-|He]. left. cbn. split; auto. lia. right. now right.
    + destruct (N.ltb_spec k a) as [LT|GE].
      * exists ((k, 1) :: (a, c) :: t). split; auto. split; [|split; [|split]].
        -- cbn [increasing]. split; [|auto]. intros e [<-|He]; auto. specialize (I1 e He). lia.
        -- intros j. cbn [entry]. destruct (N.eqb_spec j k) as [->|]; [|lia]. destruct (N.eqb_spec k a); [contradiction|]. rewrite entry_absent; auto. intros e He. specialize (I1 e He). lia.
        -- unfold total. cbn [fold_right snd]. lia.
        -- intros e [<-|He]; [left|now right]. cbn. split; reflexivity.
      * destruct (IH I2 L) as (m' & -> & J1 & J2 & J3 & J4). cbn [bind]. exists ((a, c) :: m'). split; auto. split; [|split; [|split]].
        -- cbn [increasing]. split; auto. intros e He. destruct (J4 e He) as [[E _]|E]; [rewrite E; lia|]. now apply I1.
        -- intros j. cbn [entry]. destruct (N.eqb_spec j a) as [->|]; [|apply J2]. destruct (N.eqb_spec a k); [lia|lia].
        -- unfold total in *. cbn [fold_right snd]. rewrite J3. lia.
        -- intros e [<-|He]; [right; now left|]. destruct (J4 e He); auto. right. now right.
Qed.
Definition seen (f : N -> N) (k : N) (l : list N) : N := N.of_nat (length (filter (fun s => f s =? k) l)).
Lemma seen_cons f k s l : seen f k (s :: l) = (if k =? f s then 1 else 0) + seen f k l.
Proof. unfold seen. cbn [filter]. rewrite (N.eqb_sym k). destruct (f s =? k); cbn [length]; lia. Qed.
Lemma seen_len f k l : seen f k l <= N.of_nat (length l).
Proof. induction l as [|s l IH]; [now cbn|]. rewrite seen_cons. cbn [length]. destruct (k =? f s); lia. Qed.
Lemma seen_perm f k l l' : Permutation l l' -> seen f k l = seen f k l'.
Proof. induction 1; auto; rewrite ?seen_cons; try lia. Qed.

Lemma count_ok powers raw order : forall m, increasing m -> total m + N.of_nat (length order) < 2 ^ 31 -> (forall k, entry k m <= total m) -> (forall e, In e m -> 0 < snd e) -> exists m', count_samples powers raw order m = Ret m' /\ increasing m' /\
  (forall k, entry k m' = entry k m + seen (fun s => sample_clone_base powers (raw s)) k order) /\ total m' = total m + N.of_nat (length order) /\ (forall e, In e m' -> 0 < snd e).
Proof.
  induction order as [|s t IH]; intros m I L E P; cbn [count_samples].
  - exists m. split; auto. split; auto. split; [|split; auto]. intros k. cbn. lia. cbn. lia.
  - cbn [length] in L. set (k := sample_clone_base powers (raw s)) in *. destruct (incr_ok k m I) as (m1 & -> & J1 & J2 & J3 & J4). { specialize (E k). lia. }
    cbn [bind]. destruct (IH m1 J1) as (m' & -> & G1 & G2 & G3 & G4).
    + rewrite J3. lia.
    + intros j. rewrite J2, J3. specialize (E j). destruct (j =? k); lia.
    + intros e He. destruct (J4 e He) as [[_ H]|H]; auto.
    + exists m'. split; auto. split; auto. split; [|split; auto].
      * intros j. rewrite G2, J2, seen_cons. fold k. lia.
      * rewrite G3, J3. cbn [length]. lia.
Qed.
Lemma entry_in m : increasing m -> forall e, In e m -> entry (fst e) m = snd e.
Proof.
  induction m as [|[a c] t IH]; [intros _ e []|]. cbn [increasing entry]. intros [I1 I2] e [<-|He]. cbn. now rewrite N.eqb_refl. destruct (N.eqb_spec (fst e) a). specialize (I1 e He). lia. now apply IH.
Qed.
Lemma in_entry m k : entry k m <> 0 -> In (k, entry k m) m.
Proof. induction m as [|[a c] t IH]; cbn [entry]; [tauto|]. destruct (N.eqb_spec k a). subst. intros _. now left. intros H. right. auto. Qed.
Lemma seen_pos f k l : 0 < seen f k l -> exists s, In s l /\ f s = k.
Proof. induction l as [|s l IH]; [cbn; lia|]. rewrite seen_cons. destruct (N.eqb_spec k (f s)). exists s. split; auto. now left. intros H. destruct IH as (s' & ? & ?). lia. exists s'. split; auto. now right. Qed.
Lemma seen_ext f g k l : (forall s, f s = g s) -> seen f k l = seen g k l.
Proof. intros E. unfold seen. f_equal. f_equal. apply filter_ext. intros s. now rewrite E. Qed.
Lemma upto_len m : length (upto m) = m.
Proof. induction m; auto. cbn [upto]. rewrite app_length, IHm. cbn. lia. Qed.
Lemma upto_mem m s : In s (upto m) <-> s < N.of_nat m.
Proof. induction m as [|m IH]; cbn [upto]. split; [intros []|lia]. rewrite in_app_iff, IH. cbn [In]. lia. Qed.

Lemma multi_ok qs shots raw order : shots < 2 ^ 31 -> Permutation order (upto (N.to_nat shots)) -> exists m, multi_shot (map (N.pow 2) qs) shots raw order = Ret m /\ increasing m /\
  (forall k, entry k m = times_seen (fun s => ctrl_value 0 qs (raw s)) shots k) /\ total m = shots /\ (forall k c, In (k, c) m -> 0 < c /\ exists s, s < shots /\ k = ctrl_value 0 qs (raw s)).
Proof.
  intros Hs HP. unfold multi_shot. destruct (N.eqb_spec shots 0) as [->|NZ]. { exists []. repeat split; auto. destruct H. destruct H. }
  assert (LE : N.of_nat (length order) = shots). { rewrite (Permutation_length HP), upto_len. lia. }
  destruct (count_ok (map (N.pow 2) qs) raw order []) as (m & -> & I0 & E & T & P); [exact I|cbn [total fold_right]; lia|intros k; cbn; lia|intros e []|].
  assert (E' : forall k, entry k m = times_seen (fun s => ctrl_value 0 qs (raw s)) shots k). { intros k. rewrite E. cbn [entry]. rewrite (seen_perm _ _ _ _ HP), N.add_0_l. apply seen_ext. intros s. apply sample_value. }
  exists m. split; auto. split; auto. split; auto. split. { rewrite T. cbn. lia. }
  intros k c H. pose proof (P _ H) as Pc. cbn in Pc. split; auto. pose proof (entry_in m I0 _ H) as Q. cbn in Q. rewrite E' in Q. destruct (seen_pos (fun s => ctrl_value 0 qs (raw s)) k (upto (N.to_nat shots))) as (s & Hin & <-). change (0 < times_seen (fun s => ctrl_value 0 qs (raw s)) shots k). lia.
  exists s. split; auto. apply upto_mem in Hin. lia.
Qed.
Lemma inc_unique m : forall m', increasing m -> increasing m' -> (forall e, In e m -> 0 < snd e) -> (forall e, In e m' -> 0 < snd e) -> (forall k, entry k m = entry k m') -> m = m'.
Proof.
  induction m as [|[a c] t IH]; intros [|[a' c'] t'] I I' P P' E; auto.
  - specialize (E a'). cbn [entry] in E. rewrite N.eqb_refl in E. specialize (P' _ (or_introl eq_refl)). cbn in P'. lia.
  - specialize (E a). cbn [entry] in E. rewrite N.eqb_refl in E. specialize (P _ (or_introl eq_refl)). cbn in P. lia.
  - cbn [increasing] in I, I'. destruct I as [I1 I2], I' as [I1' I2']. pose proof (P _ (or_introl eq_refl)) as Pa. pose proof (P' _ (or_introl eq_refl)) as Pa'. cbn in Pa, Pa'.
    assert (a = a') as <-.
    { pose proof (E a) as Ea. pose proof (E a') as Ea'. cbn [entry] in Ea, Ea'. rewrite N.eqb_refl in Ea, Ea'. destruct (N.eqb_spec a a'); auto. destruct (N.eqb_spec a' a); [congruence|].
      assert (Z1 : entry a t' <> 0) by lia. assert (Z2 : entry a' t <> 0) by lia. apply in_entry in Z1, Z2. apply I1' in Z1. apply I1 in Z2. cbn in Z1, Z2. lia. }
    pose proof (E a) as Ea. cbn [entry] in Ea. rewrite N.eqb_refl in Ea. subst c'. f_equal. apply IH; auto. intros e He. apply P. now right. intros e He. apply P'. now right.
    intros k. pose proof (E k) as Ek. cbn [entry] in Ek. destruct (N.eqb_spec k a) as [Q|]; [|exact Ek]. rewrite Q. rewrite (entry_absent a t I1), (entry_absent a t' I1'). reflexivity.
Qed.
Lemma multi_order qs shots raw o1 o2 : shots < 2 ^ 31 -> Permutation o1 (upto (N.to_nat shots)) -> Permutation o2 (upto (N.to_nat shots)) -> multi_shot (map (N.pow 2) qs) shots raw o1 = multi_shot (map (N.pow 2) qs) shots raw o2.
Proof.
  intros Hs H1 H2. destruct (multi_ok qs shots raw o1 Hs H1) as (m1 & -> & I1 & E1 & _ & P1). destruct (multi_ok qs shots raw o2 Hs H2) as (m2 & -> & I2 & E2 & _ & P2). f_equal. apply inc_unique; auto.
  intros [k c] H. now apply P1 in H. intros [k c] H. now apply P2 in H. intros k. now rewrite E1, E2.
Qed.
Lemma overflow powers raw k : forall order c, (forall s, In s order -> sample_clone_base powers (raw s) = k) -> c <= 2 ^ 31 - 1 -> 2 ^ 31 - 1 < c + N.of_nat (length order) -> count_samples powers raw order [(k, c)] = Undef.
Proof.
  induction order as [|s t IH]; intros c H L G. cbn in G. lia. cbn [count_samples map_incr]. rewrite (H s (or_introl eq_refl)), N.eqb_refl. destruct (N.eqb_spec c (2 ^ 31 - 1)); [reflexivity|]. cbn [bind]. apply IH. intros s' Hs. apply H. now right. lia. cbn [length] in G. lia.
Qed.
Lemma multi_overflow powers shots raw order k : 2 ^ 31 <= shots -> Permutation order (upto (N.to_nat shots)) -> (forall s, s < shots -> sample_clone_base powers (raw s) = k) -> multi_shot powers shots raw order = Undef.
Proof.
  intros Hs HP H. unfold multi_shot. destruct (N.eqb_spec shots 0); [lia|]. assert (LE : N.of_nat (length order) = shots). { rewrite (Permutation_length HP), upto_len. lia. }
  assert (H' : forall s, In s order -> sample_clone_base powers (raw s) = k). { intros s Hi. apply H. apply (Permutation_in _ HP) in Hi. apply upto_mem in Hi. lia. }
  destruct order as [|s t]. cbn in LE. lia. cbn [count_samples map_incr bind]. rewrite (H' s (or_introl eq_refl)). apply overflow. intros s' Hi. apply H'. now right. lia. cbn [length] in LE. lia.
Qed.

(** ** The array *)
Lemma arr_ok (v : N -> N) : forall order (a : N -> N) j, fold_left (fun a s j => if j =? s then v s else a j) order a j = if existsb (N.eqb j) order then v j else a j.
Proof.
  induction order as [|s t IH]; intros a j; cbn [fold_left existsb]; auto. rewrite IH. destruct (existsb (N.eqb j) t); [now rewrite orb_true_r|]. rewrite orb_false_r. destruct (N.eqb_spec j s); subst; auto.
Qed.
Lemma ctrl_lt qs x : forall i, ctrl_value i qs x < 2 ^ (i + N.of_nat (length qs)).
Proof.
  induction qs as [|q t IH]; intros i; cbn [ctrl_value length].
  - assert (2 ^ (i + 0) <> 0) by (apply N.pow_nonzero; lia). replace (N.of_nat 0) with 0 by reflexivity. lia.
  - specialize (IH (i + 1)). replace (i + N.of_nat (S (length t))) with (i + 1 + N.of_nat (length t)) by lia.
    (* the other bits are multiples of 2^(i+1) *)
    assert (D : exists m, ctrl_value (i + 1) t x = m * 2 ^ (i + 1)).
    { clear. generalize (i + 1) as j. induction t as [|a t IH]; intros j; cbn [ctrl_value]. exists 0. reflexivity. destruct (IH (j + 1)) as [m ->]. exists ((if N.testbit x a then 1 else 0) + 2 * m). rewrite N.pow_add_r. destruct (N.testbit x a); lia. }
    destruct D as [m D]. rewrite D in *. assert (E1 : 2 ^ (i + 1) = 2 * 2 ^ i) by (rewrite N.pow_add_r; change (2 ^ 1) with 2; lia). assert (E2 : 2 ^ (i + 1 + N.of_nat (length t)) = 2 * 2 ^ i * 2 ^ N.of_nat (length t)) by (rewrite N.pow_add_r, E1; reflexivity).
    rewrite E1, E2 in *. assert (2 ^ i <> 0) by (apply N.pow_nonzero; lia). clear E1 E2 D. generalize dependent (2 ^ i). intros z IH Z. generalize dependent (2 ^ N.of_nat (length t)). intros w IH. assert (m < w) by nia. destruct (N.testbit x q); nia.
Qed.
Lemma array_ok qs shots raw order arr : (length qs <= 32)%nat -> Permutation order (upto (N.to_nat shots)) -> forall j, multi_shot_array (map (N.pow 2) qs) shots raw order arr j = if j <? shots then ctrl_value 0 qs (raw j) else arr j.
Proof.
  intros HL HP j. unfold multi_shot_array. destruct (N.eqb_spec shots 0) as [->|NZ]. { now destruct (N.ltb_spec j 0); [lia|]. }
  rewrite (arr_ok (fun s => (sample_clone_base (map (N.pow 2) qs) (raw s) mod 2 ^ 64) mod 2 ^ 32)). replace (existsb (N.eqb j) order) with (j <? shots).
  - destruct (j <? shots); auto. rewrite sample_value. pose proof (ctrl_lt qs (raw j) 0) as L. assert (2 ^ (0 + N.of_nat (length qs)) <= 2 ^ 32) by (apply N.pow_le_mono_r; lia). rewrite (N.mod_small _ (2 ^ 64)) by lia. apply N.mod_small. lia.
  - symmetry. destruct (N.ltb_spec j shots).
    + apply existsb_exists. exists j. split; [|apply N.eqb_refl]. apply (Permutation_in _ (Permutation_sym HP)). apply upto_mem. lia.
    + apply not_true_is_false. rewrite existsb_exists. intros (s & Hi & E). apply N.eqb_eq in E. subst s. apply (Permutation_in _ HP) in Hi. apply upto_mem in Hi. lia.
Qed.
