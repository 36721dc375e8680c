(** Proofs about the swap containers. *)
From Coq Require Import NArith Arith List Bool Lia Permutation.
From Verif Require Import Bits MFunctions MParFor MQCircuit SpecState PLoop PGates2 MMaps SpecMaps.
Import ListNotations.
Local Open Scope N_scope.

(** ** Vectors *)
Lemma vset_len {A} (l : list A) a : forall i, length (vset l i a) = length l.
Proof. induction l as [|x t IH]; intros [|i]; cbn [vset length]; auto. Qed.
Lemma vset_nth {A} (l : list A) a : forall i k, nth_error (vset l i a) k = if Nat.eqb k i then (if Nat.ltb i (length l) then Some a else None) else nth_error l k.
Proof.
  induction l as [|x t IH]; intros [|i] [|k]; cbn [vset nth_error Nat.eqb length]; auto.
  - destruct (Nat.eqb k i); auto.
  - rewrite IH. destruct (Nat.eqb k i); auto.
Qed.
Lemma nth_ext_err {A} (l l' : list A) : (forall k, nth_error l k = nth_error l' k) -> l = l'.
Proof.
  revert l'. induction l as [|x t IH]; intros [|y t'] H; auto; try (specialize (H O); discriminate).
  assert (H0 := H O). injection H0 as ->. f_equal. apply IH. intros k. exact (H (S k)).
Qed.
Lemma vswap_ok {A} (l : list A) (i j : nat) : (i < length l)%nat -> (j < length l)%nat ->
  exists l', vswap l (N.of_nat i) (N.of_nat j) = Some l' /\ length l' = length l /\ forall k, nth_error l' k = nth_error l (exchange i j k).
Proof.
  intros Hi Hj. unfold vswap, vget. rewrite !Nat2N.id.
  destruct (nth_error l i) as [a|] eqn:Ea; [|apply nth_error_None in Ea; lia]. destruct (nth_error l j) as [b|] eqn:Eb; [|apply nth_error_None in Eb; lia].
  eexists. split; [reflexivity|]. split; [now rewrite !vset_len|]. intros k. rewrite !vset_nth, vset_len. unfold exchange.
  replace (j <? length l)%nat with true by (symmetry; now apply Nat.ltb_lt). replace (i <? length l)%nat with true by (symmetry; now apply Nat.ltb_lt).
  destruct (Nat.eqb_spec k j), (Nat.eqb_spec k i); subst; auto; congruence.
Qed.
Lemma exchange_inj i j a b : exchange i j a = exchange i j b -> a = b.
Proof. unfold exchange. destruct (Nat.eqb_spec a i), (Nat.eqb_spec a j), (Nat.eqb_spec b i), (Nat.eqb_spec b j); lia. Qed.
Lemma exchange_lt i j k n : (i < n)%nat -> (j < n)%nat -> (k < n)%nat -> (exchange i j k < n)%nat.
Proof. unfold exchange. destruct (Nat.eqb_spec k i), (Nat.eqb_spec k j); lia. Qed.
Lemma nodup_swap {A} (l l' : list A) i j : (i < length l)%nat -> (j < length l)%nat -> NoDup l -> length l' = length l -> (forall k, nth_error l' k = nth_error l (exchange i j k)) -> NoDup l'.
Proof.
  intros Hi Hj ND HL HK. apply NoDup_nth_error. intros a b Ha E. rewrite !HK in E. rewrite NoDup_nth_error in ND. apply ND in E; [now apply exchange_inj in E|].
  apply exchange_lt; auto. lia.
Qed.

(** ** The shard map as a list *)
Section M.
  Context {A : Type}.
  Implicit Types (m : smap A) (l : list A).
  Definition R m l : Prop := NoDup (sm_swap m) /\ length (sm_shards m) = length (sm_swap m) /\ (length l <= 255)%nat /\ map (vget (sm_shards m)) (sm_swap m) = map Some l.

  Lemma R_len m l : R m l -> length (sm_swap m) = length l /\ length (sm_shards m) = length l.
  Proof. intros (_ & B & _ & D). apply (f_equal (@length _)) in D. rewrite !map_length in D. lia. Qed.
  Lemma vget_lt (s : list A) p a : vget s p = Some a -> p < N.of_nat (length s).
  Proof. unfold vget. intros H. assert (nth_error s (N.to_nat p) <> None) by congruence. apply nth_error_Some in H0. lia. Qed.
  Lemma view_lt s (w : list N) l : map (vget s) w = map Some l -> forall p, In p w -> p < N.of_nat (length s).
  Proof.
    intros H p Hp. apply (in_map (vget s)) in Hp. rewrite H in Hp. apply in_map_iff in Hp. destruct Hp as (a & E & _). symmetry in E. now apply vget_lt in E.
  Qed.
  Lemma R_get m l : R m l -> sm_size m = N.of_nat (length l) /\ forall i, sm_get m i = vget l i.
  Proof.
    intros H. destruct (R_len m l H) as [L1 L2]. destruct H as (_ & _ & C & D). split.
    - unfold sm_size, w8. rewrite L2. apply N.mod_small. lia.
    - intros i. unfold sm_get. assert (E := f_equal (fun z => nth_error z (N.to_nat i)) D). cbn beta in E. rewrite !nth_error_map in E.
      change (nth_error (sm_swap m) (N.to_nat i)) with (vget (sm_swap m) i) in E. change (nth_error l (N.to_nat i)) with (vget l i) in E.
      destruct (vget (sm_swap m) i), (vget l i); cbn [option_map] in E; congruence.
  Qed.

  Lemma R_new d n l : n < 256 -> N.of_nat (length l) = n -> (forall a, In a l -> a = d) -> R (sm_new d n) l.
  Proof.
    intros Hn HL HA. unfold sm_new, R. cbn [sm_shards sm_swap].
    assert (LI : forall k a, length (iota a k) = k). { induction k; intros a; cbn [iota length]; auto. }
    split. { clear. generalize 0. induction (N.to_nat n) as [|k IH]; intros a; cbn [iota]; constructor; auto.
      intros H. assert (G : forall k b q, In q (iota b k) -> b <= q). { clear. induction k; intros b q; cbn [iota In]; [tauto|]. intros [<-|H]; [lia|]. apply IHk in H. lia. } apply G in H. lia. }
    split; [now rewrite repeat_length, LI|]. split; [lia|].
    assert (El : l = repeat d (N.to_nat n)). { subst n. rewrite Nat2N.id. clear - HA. induction l as [|a t IH]; cbn [length repeat]; auto. f_equal; [apply HA; now left|]. apply IH. intros b Hb. apply HA. now right. }
    rewrite El. clear. generalize (N.to_nat n) as k. intros k.
    assert (G : forall j i, (i + j = k)%nat -> map (vget (repeat d k)) (iota (N.of_nat i) j) = map Some (repeat d j)).
    { induction j as [|j IH]; intros i Hi; cbn [iota map repeat]; auto. f_equal.
      - unfold vget. rewrite Nat2N.id. apply nth_error_repeat. lia.
      - replace (N.of_nat i + 1) with (N.of_nat (S i)) by lia. apply IH. lia. }
    apply (G k 0%nat). lia.
  Qed.
  Lemma vget_app1 (s t : list A) p : p < N.of_nat (length s) -> vget (s ++ t) p = vget s p.
  Proof. intros H. unfold vget. apply nth_error_app1. lia. Qed.
  Lemma vget_app2 (s t : list A) p : vget (s ++ t) (p + N.of_nat (length s)) = vget t p.
  Proof. unfold vget. rewrite nth_error_app2 by lia. f_equal. lia. Qed.
  Lemma R_push m l a : R m l -> (length l < 255)%nat -> R (sm_push m a) (l ++ [a]).
  Proof.
    intros H HL. destruct (R_len m l H) as [L1 L2]. destruct H as (ND & _ & _ & V). assert (LT := view_lt _ _ _ V).
    assert (E : w8 (N.of_nat (length (sm_swap m))) = N.of_nat (length (sm_shards m))) by (unfold w8; rewrite N.mod_small; lia).
    unfold sm_push, R. cbn [sm_shards sm_swap]. rewrite E. split.
    { apply Permutation_NoDup with (l := N.of_nat (length (sm_shards m)) :: sm_swap m); [apply Permutation_cons_append|]. constructor; auto. intros F. apply LT in F. lia. }
    rewrite !app_length. cbn [length]. split; [lia|]. split; [lia|]. rewrite !map_app. f_equal.
    - rewrite <- V. apply map_ext_in. intros p Hp. apply vget_app1. auto.
    - cbn [map]. f_equal. apply (vget_app2 _ [a] 0).
  Qed.
  Lemma vget_vset (s : list A) p q a : p < N.of_nat (length s) -> vget (vset s (N.to_nat p) a) q = if q =? p then Some a else vget s q.
  Proof.
    intros H. unfold vget. rewrite vset_nth. replace (N.to_nat p <? length s)%nat with true by (symmetry; apply Nat.ltb_lt; lia).
    destruct (N.eqb_spec q p) as [->|F]; [now rewrite Nat.eqb_refl|]. destruct (Nat.eqb_spec (N.to_nat q) (N.to_nat p)); auto. lia.
  Qed.
  Lemma map_split {B C} (f : B -> C) w : forall l1 l2 : list C, map f w = l1 ++ l2 -> exists w1 w2, w = w1 ++ w2 /\ map f w1 = l1 /\ map f w2 = l2.
  Proof.
    induction w as [|y t IH]; intros l1 l2 H.
    - exists [], []. symmetry in H. apply app_eq_nil in H. destruct H as [-> ->]. auto.
    - destruct l1 as [|z l1]; cbn [map app] in H.
      + exists [], (y :: t). auto.
      + injection H as E1 E2. destruct (IH l1 l2 E2) as (w1 & w2 & -> & B1 & B2). exists (y :: w1), w2. cbn [map app]. rewrite B1, E1. auto.
  Qed.
  Lemma map_cons_inv {B C} (f : B -> C) w x (l : list C) : map f w = x :: l -> exists y t, w = y :: t /\ f y = x /\ map f t = l.
  Proof. destruct w as [|y t]; [discriminate|]. cbn [map]. intros H. injection H as E1 E2. eauto. Qed.
  Lemma vget_mid {B} (w1 w2 : list B) y : vget (w1 ++ y :: w2) (N.of_nat (length w1)) = Some y.
  Proof. unfold vget. rewrite Nat2N.id, nth_error_app2, Nat.sub_diag by lia. reflexivity. Qed.
  Lemma nodup_mid {B} (w1 w2 : list B) y : NoDup (w1 ++ y :: w2) -> forall z, In z w1 \/ In z w2 -> z <> y.
  Proof. intros H z Hz ->. apply NoDup_remove_2 in H. apply H. apply in_app_iff. exact Hz. Qed.
  Lemma R_set m l1 x l2 a : R m (l1 ++ x :: l2) -> exists m', sm_set m (N.of_nat (length l1)) a = Some m' /\ R m' (l1 ++ a :: l2).
  Proof.
    intros (ND & L & C & V). rewrite map_app in V. destruct (map_split _ _ _ _ V) as (w1 & w2' & E & V1 & V2'). cbn [map] in V2'. destruct (map_cons_inv _ _ _ _ V2') as (p & w2 & -> & Vp & V2).
    assert (Hl : length l1 = length w1). { apply (f_equal (@length _)) in V1. rewrite !map_length in V1. auto. }
    assert (Hp := vget_lt _ _ _ Vp). unfold sm_set. rewrite E, Hl, vget_mid, Vp. eexists. split; [reflexivity|].
    unfold R. cbn [sm_shards sm_swap]. rewrite vset_len, <- E. split; auto. split; auto. rewrite app_length in *. cbn [length] in *. split; auto.
    rewrite E, !map_app. cbn [map]. rewrite vget_vset, N.eqb_refl by auto. rewrite E in ND. assert (NM := nodup_mid _ _ _ ND). f_equal; [|f_equal].
    - rewrite <- V1. apply map_ext_in. intros q Hq. rewrite vget_vset by auto. destruct (N.eqb_spec q p); auto. now apply NM in e; [|left].
    - rewrite <- V2. apply map_ext_in. intros q Hq. rewrite vget_vset by auto. destruct (N.eqb_spec q p); auto. now apply NM in e; [|right].
  Qed.
  Lemma shift_range_ok o : forall a b c, shift_range (a ++ b ++ c) (length a) (length b) o = a ++ map (fun x => w8 (x + o)) b ++ c.
  Proof.
    induction a as [|x a IH]; intros b c.
    - cbn [app length]. induction b as [|y b IH]; cbn [app length map]. { now destruct c. } cbn [shift_range]. now rewrite IH.
    - cbn [app length shift_range]. now rewrite IH.
  Qed.
  Lemma R_insert m l1 l2 m' l' : R m (l1 ++ l2) -> R m' l' -> (length l1 + length l' + length l2 <= 255)%nat ->
    exists m2, sm_insert m (N.of_nat (length l1)) m' = Some m2 /\ R m2 (l1 ++ l' ++ l2).
  Proof.
    intros H H' HL. destruct (R_len _ _ H) as [L1 L2]. destruct (R_len _ _ H') as [L1' L2']. rewrite app_length in L1, L2.
    destruct H as (ND & _ & _ & V). destruct H' as (ND' & _ & _ & V'). assert (LT := view_lt _ _ _ V). assert (LT' := view_lt _ _ _ V').
    unfold sm_insert. rewrite L1. destruct (N.ltb_spec (N.of_nat (length l1 + length l2)) (N.of_nat (length l1))); [lia|]. eexists. split; [reflexivity|].
    rewrite map_app in V. destruct (map_split _ _ _ _ V) as (w1 & w2 & E & V1 & V2).
    assert (Hl : length l1 = length w1). { apply (f_equal (@length _)) in V1. rewrite !map_length in V1. auto. }
    rewrite Nat2N.id, E, Hl, firstn_app, skipn_app, Nat.sub_diag, firstn_all, skipn_all. cbn [firstn skipn app]. rewrite app_nil_r.
    assert (S1 : sm_size m = N.of_nat (length (sm_shards m))) by (unfold sm_size, w8; rewrite N.mod_small; lia).
    assert (S2 : N.to_nat (sm_size m') = length (sm_swap m')) by (unfold sm_size, w8; rewrite N.mod_small; lia).
    rewrite S2, shift_range_ok, S1.
    assert (EM : map (fun x => w8 (x + N.of_nat (length (sm_shards m)))) (sm_swap m') = map (fun x => x + N.of_nat (length (sm_shards m))) (sm_swap m')).
    { apply map_ext_in. intros x Hx. apply LT' in Hx. unfold w8. apply N.mod_small. lia. }
    rewrite EM. unfold R. cbn [sm_shards sm_swap]. rewrite E in *. split.
    - apply Permutation_NoDup with (l := (w1 ++ w2) ++ map (fun x => x + N.of_nat (length (sm_shards m))) (sm_swap m')).
      { rewrite <- app_assoc. apply Permutation_app_head. apply Permutation_app_comm. }
      assert (G : forall (a b : list N), NoDup a -> NoDup b -> (forall x, In x a -> ~ In x b) -> NoDup (a ++ b)).
      { clear. induction a as [|x a IH]; intros b Ha Hb Hd; auto. inversion Ha; subst. cbn [app]. constructor. { rewrite in_app_iff. intros [F|F]; auto. apply (Hd x); [now left|auto]. }
        apply IH; auto. intros y Hy. apply Hd. now right. }
      apply G; auto.
      + apply FinFun.Injective_map_NoDup; auto. intros x y. lia.
      + intros x Hx Hx'. apply LT in Hx. apply in_map_iff in Hx'. destruct Hx' as (y & <- & _). lia.
    - rewrite !app_length, map_length in *. split; [lia|]. split; [lia|]. rewrite !map_app. f_equal; [|f_equal].
      + rewrite <- V1. apply map_ext_in. intros p Hp. apply vget_app1. apply LT. apply in_app_iff. now left.
      + rewrite <- V', map_map. apply map_ext. intros p. apply vget_app2.
      + rewrite <- V2. apply map_ext_in. intros p Hp. apply vget_app1. apply LT. apply in_app_iff. now right.
  Qed.
  Lemma R_swap m l i j l' : R m l -> (i < length l)%nat -> (j < length l)%nat -> length l' = length l -> (forall k, nth_error l' k = nth_error l (exchange i j k)) ->
    exists m', sm_swapq m (N.of_nat i) (N.of_nat j) = Some m' /\ R m' l'.
  Proof.
    intros H Hi Hj HL HK. destruct (R_len _ _ H) as [L1 L2]. destruct H as (ND & L & C & V). unfold sm_swapq.
    destruct (vswap_ok (sm_swap m) i j) as (w & -> & Lw & Kw); try lia. eexists. split; [reflexivity|]. unfold R. cbn [sm_shards sm_swap].
    split. { apply (nodup_swap (sm_swap m) w i j); auto; lia. } split; [lia|]. split; [lia|]. apply nth_ext_err. intros k. rewrite !nth_error_map, Kw, HK, <- !nth_error_map. now rewrite V.
  Qed.

  (** Removing entry [off] of a vector. *)
  Definition cut (off : N) (s : list A) : list A := firstn (N.to_nat off) s ++ skipn (S (N.to_nat off)) s.
  Definition dn (off x : N) : N := if off <=? x then dec8 x else x.
  Lemma dn_val off x : x < 256 -> x <> off -> dn off x = if x <? off then x else x - 1.
  Proof.
    intros H1 H2. unfold dn, dec8, w8. destruct (N.leb_spec off x), (N.ltb_spec x off); try lia. replace (x + 255) with ((x - 1) + 1 * 256) by lia. rewrite N.mod_add by lia. apply N.mod_small. lia.
  Qed.
  Lemma cut_len off s : off < N.of_nat (length s) -> S (length (cut off s)) = length s.
  Proof. intros H. unfold cut. rewrite app_length, firstn_length, skipn_length. lia. Qed.
  Lemma cut_get off s x : off < N.of_nat (length s) -> x < 256 -> x <> off -> vget (cut off s) (dn off x) = vget s x.
  Proof.
    intros H1 H2 H3. rewrite dn_val by auto. unfold cut, vget.
    assert (FL : length (firstn (N.to_nat off) s) = N.to_nat off) by (rewrite firstn_length; lia).
    rewrite <- (firstn_skipn (N.to_nat off) s) at 3. destruct (N.ltb_spec x off).
    - rewrite !nth_error_app1 by (rewrite FL; lia). reflexivity.
    - rewrite !nth_error_app2 by (rewrite FL; lia). rewrite FL.
      replace (N.to_nat x - N.to_nat off)%nat with (S (N.to_nat (x - 1) - N.to_nat off)) by lia.
      destruct (skipn (N.to_nat off) s) as [|y t] eqn:E.
      + apply (f_equal (@length _)) in E. rewrite skipn_length in E. cbn [length] in E. lia.
      + assert (E2 : skipn (S (N.to_nat off)) s = t). { clear - E. revert s E. induction (N.to_nat off) as [|k IHk]; intros [|z s] E; cbn [skipn] in *; try discriminate E; [now injection E|]. destruct k; cbn [skipn] in *; auto. } rewrite E2. reflexivity.
  Qed.
  (** Live positions of the index list while erasing: [w1] before, [w2] still to erase, [w3] after; [dead] is left over. *)
  Lemma erase_loop_ok : forall (l2 : list A) w1 dead w2 w3 s l1 l3, length w2 = length l2 -> length w1 = length l1 ->
    NoDup (w1 ++ w2 ++ w3) -> length s = length (w1 ++ w2 ++ w3) -> (length s <= 255)%nat -> map (vget s) (w1 ++ w2 ++ w3) = map Some (l1 ++ l2 ++ l3) ->
    exists w1' dead' w3' s', erase_loop (length l2) (N.of_nat (length w1 + length dead)) (mkSM s (w1 ++ dead ++ w2 ++ w3)) = Some (mkSM s' (w1' ++ dead' ++ w3')) /\
      length w1' = length w1 /\ length dead' = (length dead + length l2)%nat /\ NoDup (w1' ++ w3') /\ length s' = length (w1' ++ w3') /\ map (vget s') (w1' ++ w3') = map Some (l1 ++ l3).
  Proof.
    induction l2 as [|x l2 IH]; intros w1 dead w2 w3 s l1 l3 L2 L1 ND LS HS V.
    - destruct w2; [|discriminate]. cbn [app length] in *. exists w1, dead, w3, s. cbn [erase_loop]. rewrite Nat.add_0_r. auto 8.
    - destruct w2 as [|off w2]; [discriminate|]. cbn [length] in L2. injection L2 as L2. cbn [length erase_loop].
      assert (VG : vget (w1 ++ dead ++ (off :: w2) ++ w3) (N.of_nat (length w1 + length dead)) = Some off).
      { replace (w1 ++ dead ++ (off :: w2) ++ w3) with ((w1 ++ dead) ++ off :: (w2 ++ w3)) by now rewrite <- !app_assoc. replace (N.of_nat (length w1 + length dead)) with (N.of_nat (length (w1 ++ dead))) by now rewrite app_length. apply vget_mid. }
      cbn [sm_swap]. rewrite VG. cbn [sm_shards].
      assert (Hoff : off < N.of_nat (length s)). { apply (view_lt _ _ _ V). apply in_app_iff. right. now left. }
      destruct (vget s off) as [xo|] eqn:Eo. 2:{ unfold vget in Eo. apply nth_error_None in Eo. lia. }
      fold (cut off s). fold (dn off). change (fun x0 : N => if off <=? x0 then dec8 x0 else x0) with (dn off).
      assert (MA : map (dn off) (w1 ++ dead ++ (off :: w2) ++ w3) = map (dn off) w1 ++ (map (dn off) dead ++ [dn off off]) ++ map (dn off) w2 ++ map (dn off) w3).
      { rewrite !map_app. cbn [map]. rewrite <- !app_assoc. reflexivity. }
      rewrite MA. replace (N.of_nat (length w1 + length dead) + 1) with (N.of_nat (length (map (dn off) w1) + length (map (dn off) dead ++ [dn off off]))) by (rewrite app_length, !map_length; cbn [length]; lia).
      assert (NM := nodup_mid w1 (w2 ++ w3) off ND).
      assert (LT := view_lt _ _ _ V).
      assert (LT256 : forall z, In z (w1 ++ w2 ++ w3) -> z < 256 /\ z <> off).
      { intros z Hz. split. - assert (z < N.of_nat (length s)); [|lia]. apply LT. rewrite !in_app_iff in *. cbn [In] in *. tauto. - apply NM. rewrite !in_app_iff in *. tauto. }
      assert (ND' := NoDup_remove_1 _ _ _ ND).
      edestruct (IH (map (dn off) w1) (map (dn off) dead ++ [dn off off]) (map (dn off) w2) (map (dn off) w3) (cut off s) l1 l3) as (w1' & dead' & w3' & s' & E & B1 & B2 & B3 & B4 & B5).
      + now rewrite map_length.
      + now rewrite map_length.
      + rewrite <- !map_app. clear - ND' LT256 . assert (G : forall ws, (forall z, In z ws -> z < 256 /\ z <> off) -> NoDup ws -> NoDup (map (dn off) ws)).
        { induction ws as [|z ws IH]; intros H N; cbn [map]; [constructor|]. inversion N; subst. constructor.
          - intros F. apply in_map_iff in F. destruct F as (y & E & Hy). destruct (H y (or_intror Hy)) as [Y1 Y2]. destruct (H z (or_introl eq_refl)) as [Z1 Z2].
            rewrite !dn_val in E by auto. assert (y = z); [|now subst]. destruct (N.ltb_spec y off), (N.ltb_spec z off); lia.
          - apply IH; auto. intros y Hy. apply H. now right. }
        apply G; auto.
      + rewrite <- !map_app, map_length. assert (C := cut_len off s Hoff). rewrite LS in C. rewrite ?app_length in *. cbn [length app] in *. rewrite ?app_length in *. lia.
      + assert (C := cut_len off s Hoff). lia.
      + rewrite <- !map_app, map_map. rewrite (map_ext_in _ (vget s)).
        * rewrite map_app in V. rewrite map_app in V. cbn [app] in V. rewrite !map_app in *. cbn [map app] in V. rewrite !map_app in V.
          assert (V1 : map (vget s) w1 = map Some l1 /\ vget s off :: map (vget s) w2 ++ map (vget s) w3 = Some x :: map Some l2 ++ map Some l3).
          { assert (Hlen : length (map (vget s) w1) = length (map Some l1)) by now rewrite !map_length.
            clear - V Hlen. revert V Hlen. generalize (map (vget s) w1) as a, (map Some l1) as b. induction a as [|y a IH]; intros [|z b] V H; try discriminate H; auto.
            cbn [app] in V. injection V as -> V. injection H as H. destruct (IH b V H) as [-> ->]. auto. }
          destruct V1 as [V1 V2]. injection V2 as _ V2. now rewrite V1, V2.
        * intros z Hz. destruct (LT256 z Hz). now apply cut_get.
      + exists w1', dead', w3', s'. rewrite E. rewrite app_length, !map_length in B2. rewrite map_length in B1. cbn [length] in *. split; auto. split; [lia|]. split; [lia|]. auto.
  Qed.
  Lemma R_erase m l1 l2 l3 : R m (l1 ++ l2 ++ l3) -> exists m', sm_erase m (N.of_nat (length l1)) (N.of_nat (length l1 + length l2)) = Some m' /\ R m' (l1 ++ l3).
  Proof.
    intros H. destruct (R_len _ _ H) as [L1 L2]. destruct H as (ND & L & C & V). assert (V0 := V). rewrite map_app in V. destruct (map_split _ _ _ _ V) as (w1 & w' & E & V1 & V'). rewrite map_app in V'. destruct (map_split _ _ _ _ V') as (w2 & w3 & -> & V2 & V3).
    assert (Lw1 := f_equal (@length _) V1). assert (Lw2 := f_equal (@length _) V2). rewrite !map_length in Lw1, Lw2. rewrite E in *.
    unfold sm_erase. replace (N.to_nat (N.of_nat (length l1 + length l2) - N.of_nat (length l1))) with (length l2) by lia.
    destruct (erase_loop_ok l2 w1 [] w2 w3 (sm_shards m) l1 l3) as (w1' & dead' & w3' & s' & X & B1 & B2 & B3 & B4 & B5); auto; [lia|].
    cbn [length app] in X. rewrite Nat.add_0_r, <- E, Lw1 in X. replace (mkSM (sm_shards m) (sm_swap m)) with m in X by now destruct m. rewrite X.
    eexists. split; [reflexivity|]. cbn [sm_swap sm_shards]. rewrite !Nat2N.id.
    assert (F1 : firstn (length l1) (w1' ++ dead' ++ w3') = w1'). { replace (length l1) with (length w1' + 0)%nat by lia. rewrite firstn_app_2. cbn [firstn]. apply app_nil_r. }
    assert (F2 : skipn (length l1 + length l2) (w1' ++ dead' ++ w3') = w3').
    { rewrite app_assoc. replace (length l1 + length l2)%nat with (length (w1' ++ dead')) by (rewrite app_length; cbn [length] in B2; lia). rewrite skipn_app, skipn_all, Nat.sub_diag. reflexivity. }
    rewrite F1, F2. unfold R. cbn [sm_swap sm_shards]. split; auto. split; auto. split; [|auto]. rewrite !app_length in *. lia.
  Qed.
  Lemma history_ok d h l : on_list d h l -> exists m, on_map d h = Some m /\ R m l.
  Proof.
    induction 1; cbn [on_map].
    - eexists. split; [reflexivity|]. now apply R_new.
    - destruct IHon_list as (m & -> & B). eexists. split; [reflexivity|]. now apply R_push.
    - destruct IHon_list as (m & -> & B). eapply R_set; eauto.
    - destruct IHon_list1 as (m & -> & B). destruct IHon_list2 as (m' & -> & B'). eapply R_insert; eauto.
    - destruct IHon_list as (m & -> & B). eapply R_erase; eauto.
    - destruct IHon_list as (m & -> & B). eapply R_swap; eauto.
  Qed.
End M.

(** ** The swap map *)
Lemma bit128 t k : t < 128 -> N.testbit (w128 (N.shiftl 1 t)) k = (k =? t).
Proof.
  intros H. unfold w128. rewrite N.shiftl_1_l. rewrite N.mod_small by (apply N.pow_lt_mono_r; lia). rewrite N.pow2_bits_eqb. apply N.eqb_sym.
Qed.
Lemma qsm_map_from_bits x k : forall m i acc, (forall t, In t m -> t < 128) ->
  (N.testbit (qsm_map_from m i x acc) k = true <-> N.testbit acc k = true \/ exists j, nth_error m j = Some k /\ N.testbit x (i + N.of_nat j) = true).
Proof.
  induction m as [|t r IH]; intros i acc H; cbn [qsm_map_from].
  - split; [auto|]. intros [A|([|j] & A & _)]; auto; discriminate A.
  - rewrite IH by (intros t' Ht'; apply H; now right). assert (Ht : t < 128) by (apply H; now left). split.
    + intros [A|(j & A & B)].
      * destruct (N.testbit x i) eqn:E; [|auto]. rewrite N.lor_spec, bit128, orb_true_iff, N.eqb_eq in A by auto. destruct A as [A|A]; [auto|]. subst k. right. exists O. split; [reflexivity|]. now replace (i + N.of_nat 0) with i by lia.
      * right. exists (S j). split; auto. now replace (i + N.of_nat (S j)) with (i + 1 + N.of_nat j) by lia.
    + intros [A|([|j] & A & B)].
      * left. destruct (N.testbit x i); auto. rewrite N.lor_spec, A. reflexivity.
      * left. cbn [nth_error] in A. injection A as A. subst t. replace (i + N.of_nat 0) with i in B by lia. rewrite B, N.lor_spec, bit128, N.eqb_refl by auto. apply orb_true_r.
      * right. exists j. split; auto. now replace (i + 1 + N.of_nat j) with (i + N.of_nat (S j)) by lia.
Qed.
Lemma qsm_imap_from_bits x k : forall m i acc, i + N.of_nat (length m) <= 128 ->
  (N.testbit (qsm_imap_from m i x acc) k = true <-> N.testbit acc k = true \/ exists j t, k = i + N.of_nat j /\ nth_error m j = Some t /\ N.testbit x t = true).
Proof.
  induction m as [|t r IH]; intros i acc H; cbn [qsm_imap_from].
  - split; [auto|]. intros [A|([|j] & t & _ & A & _)]; auto; discriminate A.
  - cbn [length] in H. rewrite IH by lia. split.
    + intros [A|(j & t' & A & B & C)].
      * destruct (N.testbit x t) eqn:E; [|auto]. rewrite N.lor_spec, bit128, orb_true_iff, N.eqb_eq in A by lia. destruct A as [A|A]; [auto|]. right. exists O, t. split; [lia|]. auto.
      * right. exists (S j), t'. split; [lia|]. auto.
    + intros [A|([|j] & t' & A & B & C)].
      * left. destruct (N.testbit x t); auto. rewrite N.lor_spec, A. reflexivity.
      * left. cbn [nth_error] in B. injection B as B. subst t'. rewrite C, N.lor_spec, bit128 by lia. replace (k =? i) with true by (symmetry; apply N.eqb_eq; lia). apply orb_true_r.
      * right. exists j, t'. split; [lia|]. auto.
Qed.
Definition wfm (n : N) (m : list N) : Prop := N.of_nat (length m) = n /\ n <= 128 /\ NoDup m /\ forall t, In t m -> t < n.
Lemma map_bits n m x k : wfm n m -> (N.testbit (qsm_map m x) k = true <-> exists j, nth_error m j = Some k /\ N.testbit x (N.of_nat j) = true).
Proof.
  intros (_ & H & _ & L). unfold qsm_map. rewrite qsm_map_from_bits by (intros t Ht; apply L in Ht; lia). rewrite N.bits_0. split; [intros [A|A]; [discriminate A|exact A]|auto].
Qed.
Lemma imap_bits n m x k : wfm n m -> (N.testbit (qsm_inverseMap m x) k = true <-> exists t, nth_error m (N.to_nat k) = Some t /\ N.testbit x t = true).
Proof.
  intros (E & H & _ & L). unfold qsm_inverseMap. rewrite qsm_imap_from_bits by lia. rewrite N.bits_0. split.
  - intros [A|(j & t & A & B & C)]; [discriminate A|]. exists t. replace (N.to_nat k) with j by lia. auto.
  - intros (t & A & B). right. exists (N.to_nat k), t. split; [lia|]. auto.
Qed.
Lemma bits_iff a b : (forall k, N.testbit a k = true <-> N.testbit b k = true) -> a = b.
Proof. intros H. apply N.bits_inj. intros k. specialize (H k). destruct (N.testbit a k), (N.testbit b k); auto; [symmetry|]; now apply H. Qed.
Lemma tb_lt n x k : x < 2 ^ n -> N.testbit x k = true -> k < n.
Proof. intros H1 H2. destruct (N.lt_ge_cases k n); auto. rewrite (tb_high x n k) in H2 by auto. discriminate H2. Qed.
Lemma wfm_onto n m k : wfm n m -> k < n -> exists j, nth_error m j = Some k.
Proof.
  intros (E & _ & ND & L) Hk. assert (In k m); [|now apply In_nth_error].
  assert (LI : forall q a, length (iota a q) = q). { induction q; intros a; cbn [iota length]; auto. }
  assert (MI : forall q a z, In z (iota a q) <-> a <= z < a + N.of_nat q). { induction q as [|q IH]; intros a z; cbn [iota In]; [lia|]. rewrite IH. lia. }
  apply (NoDup_length_incl ND (l' := iota 0 (length m))); [now rewrite LI| |].
  - intros t Ht. apply MI. apply L in Ht. lia.
  - apply MI. lia.
Qed.
Lemma imap_map n m x : wfm n m -> x < 2 ^ n -> qsm_inverseMap m (qsm_map m x) = x.
Proof.
  intros W Hx. apply bits_iff. intros k. rewrite (imap_bits n) by auto. split.
  - intros (t & A & B). apply (map_bits n) in B; auto. destruct B as (j & C & D). destruct W as (_ & _ & ND & _). rewrite NoDup_nth_error in ND.
    assert (N.to_nat k = j). { apply ND; [|congruence]. apply nth_error_Some. congruence. } now replace k with (N.of_nat j) by lia.
  - intros A. assert (Hk := tb_lt n x k Hx A). destruct W as (E & Hn & ND & L). destruct (nth_error m (N.to_nat k)) as [t|] eqn:Et. 2:{ apply nth_error_None in Et. lia. }
    exists t. split; auto. apply (map_bits n); [repeat split; auto|]. exists (N.to_nat k). split; auto. now rewrite N2Nat.id.
Qed.
Lemma map_imap n m x : wfm n m -> x < 2 ^ n -> qsm_map m (qsm_inverseMap m x) = x.
Proof.
  intros W Hx. apply bits_iff. intros k. rewrite (map_bits n) by auto. split.
  - intros (j & A & B). apply (imap_bits n) in B; auto. destruct B as (t & C & D). rewrite Nat2N.id in C. congruence.
  - intros A. assert (Hk := tb_lt n x k Hx A). destruct (wfm_onto n m k W Hk) as (j & E). exists j. split; auto. apply (imap_bits n); auto. exists k. rewrite Nat2N.id. auto.
Qed.
Lemma map_lt n m x : wfm n m -> qsm_map m x < 2 ^ n.
Proof.
  intros W. apply lt_pow2_bits. intros k Hk. destruct (N.testbit (qsm_map m x) k) eqn:E; auto. apply (map_bits n) in E; auto. destruct E as (j & A & _). destruct W as (_ & _ & _ & L). apply nth_error_In in A. apply L in A. lia.
Qed.
Lemma imap_lt n m x : wfm n m -> qsm_inverseMap m x < 2 ^ n.
Proof.
  intros W. apply lt_pow2_bits. intros k Hk. destruct (N.testbit (qsm_inverseMap m x) k) eqn:E; auto. apply (imap_bits n) in E; auto. destruct E as (t & A & _). destruct W as (E & _). assert (X : nth_error m (N.to_nat k) <> None) by congruence. apply nth_error_Some in X. lia.
Qed.
Lemma wfm_new n : n <= 128 -> wfm n (qsm_new n) /\ forall x, x < 2 ^ n -> qsm_map (qsm_new n) x = x.
Proof.
  intros H. unfold qsm_new.
  assert (LI : forall q a, length (iota a q) = q). { induction q; intros a; cbn [iota length]; auto. }
  assert (MI : forall q a z, In z (iota a q) <-> a <= z < a + N.of_nat q). { induction q as [|q IH]; intros a z; cbn [iota In]; [lia|]. rewrite IH. lia. }
  assert (NI : forall q a j, (j < q)%nat -> nth_error (iota a q) j = Some (a + N.of_nat j)). { induction q as [|q IH]; intros a [|j] Hj; cbn [iota nth_error]; try lia; [f_equal; lia|]. rewrite IH by lia. f_equal. lia. }
  assert (W : wfm n (iota 0 (N.to_nat n))).
  { split; [rewrite LI; lia|]. split; auto. split. { apply NoDup_nth_error. intros i j Hi E. rewrite LI in Hi. rewrite NI in E by auto. destruct (Nat.lt_ge_cases j (N.to_nat n)). - rewrite NI in E by auto. injection E as E. lia. - symmetry in E. assert (X : nth_error (iota 0 (N.to_nat n)) j <> None) by congruence. apply nth_error_Some in X. rewrite LI in X. lia. }
    intros t Ht. apply MI in Ht. lia. }
  split; auto. intros x Hx. apply bits_iff. intros k. rewrite (map_bits n) by auto. split.
  - intros (j & A & B). assert (X : nth_error (iota 0 (N.to_nat n)) j <> None) by congruence. apply nth_error_Some in X. rewrite LI in X. rewrite NI in A by auto. injection A as A. now replace k with (N.of_nat j) by lia.
  - intros A. assert (Hk := tb_lt n x k Hx A). exists (N.to_nat k). rewrite NI by lia. rewrite N2Nat.id. auto.
Qed.
Lemma swap_step n m a b : wfm n m -> a < n -> b < n -> exists m', qsm_swap m a b = Some m' /\ wfm n m' /\ forall x, qsm_map m' x = qsm_map m (swap_bits a b x).
Proof.
  intros W Ha Hb. assert (W0 := W). destruct W as (E & Hn & ND & L). unfold qsm_swap. rewrite <- (N2Nat.id a), <- (N2Nat.id b).
  destruct (vswap_ok m (N.to_nat a) (N.to_nat b)) as (m' & -> & Lm & Km); try lia. rewrite !N2Nat.id. exists m'. split; auto.
  assert (W' : wfm n m').
  { split; [lia|]. split; auto. split. { apply (nodup_swap m m' (N.to_nat a) (N.to_nat b)); auto; lia. } intros t Ht. apply In_nth_error in Ht. destruct Ht as (j & Ht). rewrite Km in Ht. apply nth_error_In in Ht. auto. }
  split; auto. intros x. apply bits_iff. intros k. rewrite !(map_bits n) by auto.
  assert (XX : forall j, exchange (N.to_nat a) (N.to_nat b) (exchange (N.to_nat a) (N.to_nat b) j) = j).
  { intros j. unfold exchange. destruct (Nat.eqb_spec j (N.to_nat a)), (Nat.eqb_spec j (N.to_nat b));
      repeat match goal with |- context[Nat.eqb ?u ?v] => destruct (Nat.eqb_spec u v) end; lia. }
  assert (TB : forall j, N.testbit (swap_bits a b x) (N.of_nat (exchange (N.to_nat a) (N.to_nat b) j)) = N.testbit x (N.of_nat j)).
  { intros j. rewrite tb_swap. unfold exchange. destruct (Nat.eqb_spec j (N.to_nat a)), (Nat.eqb_spec j (N.to_nat b)); repeat match goal with |- context[N.eqb ?u ?v] => destruct (N.eqb_spec u v) | |- context[Nat.eqb ?u ?v] => destruct (Nat.eqb_spec u v) end; try f_equal; try lia. }
  split; intros (j & A & B).
  - rewrite Km in A. eexists. split; [exact A|]. now rewrite TB.
  - exists (exchange (N.to_nat a) (N.to_nat b) j). rewrite Km, XX. split; auto. rewrite <- TB, XX. exact B.
Qed.
Definition do_swaps (ps : list (N * N)) (m : list N) : option (list N) :=
  fold_left (fun o p => match o with Some m => qsm_swap m (fst p) (snd p) | None => None end) ps (Some m).
Lemma do_swaps_ok n ps : forall m, wfm n m -> pairs_below n ps -> exists m', do_swaps ps m = Some m' /\ wfm n m' /\ forall x, qsm_map m' x = qsm_map m (swaps_last_first ps x).
Proof.
  unfold do_swaps. induction ps as [|[a b] t IH]; intros m W H; cbn [fold_left swaps_last_first].
  - exists m. auto.
  - destruct (H (a, b) (or_introl eq_refl)) as [Ha Hb]. cbn [fst snd] in *. destruct (swap_step n m a b W Ha Hb) as (m1 & -> & W1 & M1).
    destruct (IH m1 W1) as (m2 & B1 & B2 & B3). { intros p Hp. apply H. now right. } exists m2. split; auto. split; auto. intros x. rewrite B3, M1. reflexivity.
Qed.
Lemma slf_lt n ps x : pairs_below n ps -> x < 2 ^ n -> swaps_last_first ps x < 2 ^ n.
Proof.
  induction ps as [|[a b] t IH]; intros H Hx; cbn [swaps_last_first]; auto. destruct (H (a, b) (or_introl eq_refl)) as [Ha Hb]. cbn [fst snd] in *.
  apply lt_pow2_bits. intros k Hk. rewrite tb_swap. destruct (N.eqb_spec a k), (N.eqb_spec b k); try lia.
  apply (tb_high _ n); auto. apply IH; auto. intros p Hp. apply H. now right.
Qed.
Lemma slf_rev ps x : swaps_last_first (rev ps) (swaps_last_first ps x) = x.
Proof.
  assert (AP : forall a b y, swaps_last_first (a ++ b) y = swaps_last_first a (swaps_last_first b y)). { induction a as [|[u v] a IH]; intros b y; cbn [app swaps_last_first]; auto. now rewrite IH. }
  induction ps as [|[a b] t IH]; cbn [rev swaps_last_first]; auto. rewrite AP. cbn [swaps_last_first].
  assert (SS : forall y, swap_bits a b (swap_bits a b y) = y). { intros y. apply N.bits_inj. intros q. rewrite !tb_swap, !N.eqb_refl. destruct (N.eqb_spec a q) as [E1|E1], (N.eqb_spec b q) as [E2|E2], (N.eqb_spec a b) as [E3|E3]; congruence. }
  now rewrite SS.
Qed.

(** ** Reindexing *)
Section R.
  Context {B : Type}.
  Implicit Types l : list (@shard B).
  Definition rank (u : N) l : N := N.of_nat (length (filter (fun s => match fst (fst s) with Some v => v =? u | None => false end) l)).
  Lemma renumber_len l : forall f, length (renumber l f) = length l.
  Proof. induction l as [|[[[u|] q] b] t IH]; intros f; cbn [renumber length]; auto. Qed.
  Lemma renumber_nth l : forall f i u q b, (length l <= 255)%nat -> (forall v, f v + N.of_nat (length l) <= 255) -> nth_error l i = Some (u, q, b) ->
    nth_error (renumber l f) i = Some (u, match u with Some v => f v + rank v (firstn i l) | None => 0 end, b).
  Proof.
    induction l as [|[[u0 q0] b0] t IH]; intros f [|i] u q b HL HF H; try discriminate H.
    - cbn [nth_error] in H. injection H as -> -> ->. destruct u as [v|]; cbn [renumber nth_error firstn rank filter length]; auto. unfold rank. cbn. now rewrite N.add_0_r.
    - cbn [length] in *. cbn [nth_error] in H. destruct u0 as [w|]; cbn [renumber nth_error firstn].
      + rewrite (IH _ _ u q b); auto; [|lia|].
        * f_equal. f_equal. f_equal. destruct u as [v|]; auto. unfold rank. cbn [filter fst]. rewrite (N.eqb_sym w v).
          destruct (N.eqb_spec v w) as [->|F]; auto. cbn [length]. unfold w8. rewrite N.mod_small by (specialize (HF w); lia). lia.
        * intros v. specialize (HF v). destruct (N.eqb_spec v w) as [->|F]; [|lia]. unfold w8. rewrite N.mod_small by lia. lia.
      + rewrite (IH _ _ u q b); auto; [lia|]. intros v. specialize (HF v). lia.
  Qed.
End R.
