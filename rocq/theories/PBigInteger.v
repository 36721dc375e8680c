(** Proofs about the wide-integer model. *)
From Coq Require Import ZArith List Bool Lia.
From Verif Require Import MBigInteger SpecBigInteger.
Import ListNotations.
Local Open Scope Z_scope.

Notation val p l := (big_value (B p) l).
Notation wf p n l := (big_wf (B p) n l).

Lemma wbits_pos p : 0 <= p -> 1 <= wbits p.
Proof. intros. unfold wbits. pose proof (Z.pow_pos_nonneg 2 p ltac:(lia) H). lia. Qed.

Lemma B_ge2 p : 0 <= p -> 2 <= B p.
Proof.
  intros. unfold B. pose proof (wbits_pos p H).
  change 2 with (2^1) at 1. apply Z.pow_le_mono_r; lia.
Qed.

Lemma Bpow_pos p k : 0 <= p -> 0 <= k -> 0 < B p ^ k.
Proof. intros. apply Z.pow_pos_nonneg; pose proof (B_ge2 p); lia. Qed.

Lemma length_upd l i v : length (upd l i v) = length l.
Proof. revert i; induction l; intros [|i]; simpl; auto. Qed.

Lemma get_upd_eq l i v : (i < length l)%nat -> get (upd l i v) i = v.
Proof. revert i; induction l; intros [|i]; simpl; intros; try lia; auto. apply IHl. lia. Qed.

Lemma get_upd_ne l i j v : i <> j -> get (upd l i v) j = get l j.
Proof.
  revert i j; induction l; intros [|i] [|j]; simpl; intros; auto; try lia.
  apply (IHl i j). lia.
Qed.

Lemma Forall_upd (P : Z -> Prop) l i v : Forall P l -> P v -> Forall P (upd l i v).
Proof.
  revert i; induction l; intros [|i] HF Hv; simpl; auto; inversion HF; subst; constructor; auto.
Qed.

Lemma wf_upd p n l i v : wf p n l -> 0 <= v < B p -> wf p n (upd l i v).
Proof. intros [H1 H2] Hv. split. now rewrite length_upd. now apply Forall_upd. Qed.

Lemma get_bound p n l i : 0 <= p -> wf p n l -> 0 <= get l i < B p.
Proof.
  intros Hp [H1 H2]. unfold get. destruct (Nat.lt_ge_cases i (length l)).
  - rewrite Forall_forall in H2. apply H2. now apply nth_In.
  - rewrite nth_overflow by lia. pose proof (B_ge2 p Hp). lia.
Qed.

Lemma val_upd p l i v : 0 <= p -> (i < length l)%nat ->
  val p (upd l i v) = val p l + (v - get l i) * B p ^ Z.of_nat i.
Proof.
  intros Hp. revert i; induction l; intros [|i]; simpl length; intros; try lia.
  - simpl. unfold get; simpl. rewrite Z.mul_1_r. lia.
  - cbn [upd big_value]. rewrite IHl by lia.
    replace (get (a :: l) (S i)) with (get l i) by reflexivity.
    rewrite Nat2Z.inj_succ, Z.pow_succ_r by lia. ring.
Qed.

Lemma val_bound p n l : 0 <= p -> wf p n l -> 0 <= val p l < B p ^ Z.of_nat n.
Proof.
  intros Hp [H1 H2]. subst n. induction H2; simpl length.
  - simpl. lia.
  - cbn [big_value]. rewrite Nat2Z.inj_succ, Z.pow_succ_r by lia. nia.
Qed.

Lemma val_mod_unique p n l x k : 0 <= p -> wf p n l ->
  val p l = x + k * B p ^ Z.of_nat n -> val p l = x mod B p ^ Z.of_nat n.
Proof.
  intros Hp Hw E. pose proof (val_bound p n l Hp Hw).
  rewrite <- (Z.mod_small (val p l) (B p ^ Z.of_nat n)) by lia. rewrite E.
  apply Z_mod_plus_full.
Qed.

Lemma wf_mod p n l i v : 0 <= p -> wf p n l -> wf p n (upd l i (v mod B p)).
Proof. intros Hp Hw. apply wf_upd; auto. pose proof (B_ge2 p Hp). apply Z.mod_pos_bound. lia. Qed.

(** ** Ripple loops *)
Lemma ripple_up_spec p n fuel m : forall j temp l, 0 <= p -> wf p n l -> n = S m -> (j <= m)%nat ->
  (m - j <= fuel)%nat ->
  wf p n (ripple_up p fuel m j temp l) /\
  exists k, val p (ripple_up p fuel m j temp l) =
   val p l + (if get l j <? temp then B p ^ (Z.of_nat j + 1) else 0) + k * B p ^ Z.of_nat n.
Proof.
  induction fuel; intros j temp l Hp Hw Hn Hj Hf.
  - assert (j = m) by lia. subst. simpl. split; auto.
    destruct (get l m <? temp).
    + exists (-1). replace (Z.of_nat (S m)) with (Z.of_nat m + 1) by lia. lia.
    + exists 0. lia.
  - simpl. destruct (get l j <? temp) eqn:E.
    2:{ rewrite andb_false_r. split; auto. exists 0. lia. }
    rewrite andb_true_r. destruct (Nat.ltb_spec j m).
    2:{ assert (j = m) by lia. subst. split; auto. exists (-1).
        replace (Z.of_nat (S m)) with (Z.of_nat m + 1) by lia. lia. }
    set (t := get l (S j)). set (l' := upd l (S j) ((t + 1) mod B p)).
    assert (Hw' : wf p n l') by (apply wf_mod; auto).
    destruct (IHfuel (S j) t l' Hp Hw' Hn ltac:(lia) ltac:(lia)) as [W [k K]].
    split; auto. destruct Hw as [HL HF].
    rewrite K. unfold l' at 1. rewrite val_upd by (auto; lia).
    fold t. pose proof (B_ge2 p Hp) as HB.
    assert (Ht : 0 <= t < B p) by (apply (get_bound p n); auto; split; auto).
    unfold l'. rewrite get_upd_eq by lia.
    destruct (Z.eq_dec (t + 1) (B p)) as [Et|Et].
    + rewrite Et, Z_mod_same_full. destruct (Z.ltb_spec 0 t); [|lia].
      exists k. rewrite !Nat2Z.inj_succ, <- !Z.add_1_r.
      rewrite !(Z.pow_add_r (B p)) by lia. rewrite !Z.pow_1_r. replace t with (B p - 1) by lia. ring.
    + rewrite Z.mod_small by lia. destruct (Z.ltb_spec (t + 1) t); [lia|].
      exists k. rewrite !Nat2Z.inj_succ, <- !Z.add_1_r. ring.
Qed.

Lemma ripple_down_spec p n fuel m : forall j temp l, 0 <= p -> wf p n l -> n = S m -> (j <= m)%nat ->
  (m - j <= fuel)%nat ->
  wf p n (ripple_down p fuel m j temp l) /\
  exists k, val p (ripple_down p fuel m j temp l) =
   val p l - (if temp <? get l j then B p ^ (Z.of_nat j + 1) else 0) + k * B p ^ Z.of_nat n.
Proof.
  induction fuel; intros j temp l Hp Hw Hn Hj Hf.
  - assert (j = m) by lia. subst. simpl. split; auto.
    destruct (temp <? get l m).
    + exists 1. replace (Z.of_nat (S m)) with (Z.of_nat m + 1) by lia. lia.
    + exists 0. lia.
  - simpl. destruct (temp <? get l j) eqn:E.
    2:{ rewrite andb_false_r. split; auto. exists 0. lia. }
    rewrite andb_true_r. destruct (Nat.ltb_spec j m).
    2:{ assert (j = m) by lia. subst. split; auto. exists 1.
        replace (Z.of_nat (S m)) with (Z.of_nat m + 1) by lia. lia. }
    set (t := get l (S j)). set (l' := upd l (S j) ((t - 1) mod B p)).
    assert (Hw' : wf p n l') by (apply wf_mod; auto).
    destruct (IHfuel (S j) t l' Hp Hw' Hn ltac:(lia) ltac:(lia)) as [W [k K]].
    split; auto. destruct Hw as [HL HF].
    rewrite K. unfold l' at 1. rewrite val_upd by (auto; lia).
    fold t. pose proof (B_ge2 p Hp) as HB.
    assert (Ht : 0 <= t < B p) by (apply (get_bound p n); auto; split; auto).
    unfold l'. rewrite get_upd_eq by lia.
    destruct (Z.eq_dec t 0) as [Et|Et].
    + rewrite Et. replace ((0 - 1) mod B p) with (B p - 1)
        by (replace (0 - 1) with (B p - 1 + (-1) * B p) by ring;
            rewrite Z_mod_plus_full, Z.mod_small; lia).
      destruct (Z.ltb_spec 0 (B p - 1)); [|lia].
      exists k. rewrite !Nat2Z.inj_succ, <- !Z.add_1_r.
      rewrite !(Z.pow_add_r (B p)) by lia. rewrite !Z.pow_1_r. ring.
    + rewrite Z.mod_small by lia. destruct (Z.ltb_spec t (t - 1)); [lia|].
      exists k. rewrite !Nat2Z.inj_succ, <- !Z.add_1_r. ring.
Qed.

(** Value of the first [i] words. *)
Definition pre p (l : list Z) (i : nat) : Z := val p (firstn i l).

Lemma pre_S p l i : 0 <= p -> (i < length l)%nat ->
  pre p l (S i) = pre p l i + get l i * B p ^ Z.of_nat i.
Proof.
  intros Hp. unfold pre. revert i; induction l; intros [|i]; simpl length; intros; try lia.
  - simpl. unfold get; simpl. lia.
  - rewrite !firstn_cons. cbn [big_value]. rewrite IHl by lia.
    replace (get (a :: l) (S i)) with (get l i) by reflexivity.
    rewrite Nat2Z.inj_succ, Z.pow_succ_r by lia. ring.
Qed.

Lemma pre_full p l i : (length l <= i)%nat -> pre p l i = val p l.
Proof. intros. unfold pre. now rewrite firstn_all2. Qed.

Lemma loop_inv {A} (P : nat -> A -> Prop) f : forall k i s,
  P i s -> (forall j s, (i <= j < i + k)%nat -> P j s -> P (S j) (f j s)) -> P (i + k)%nat (loop k i f s).
Proof.
  induction k; intros i s H0 HS; simpl.
  - now rewrite Nat.add_0_r.
  - replace (i + S k)%nat with (S i + k)%nat by lia. apply IHk.
    + apply HS; auto. lia.
    + intros j s' Hj. apply HS. lia.
Qed.

(* adding word [i] of [r], with carry *)
Lemma add_word_spec p n m s r i : 0 <= p -> wf p n s -> wf p n r -> n = S m -> (i <= m)%nat ->
  let s' := ripple_up p n m i (get s i) (upd s i ((get s i + get r i) mod B p)) in
  wf p n s' /\ exists k, val p s' = val p s + get r i * B p ^ Z.of_nat i + k * B p ^ Z.of_nat n.
Proof.
  intros Hp Hs Hr Hn Hi s'. pose proof (B_ge2 p Hp) as HB.
  pose proof (get_bound p n s i Hp Hs) as Gs. pose proof (get_bound p n r i Hp Hr) as Gr.
  destruct (ripple_up_spec p n n m i (get s i) (upd s i ((get s i + get r i) mod B p)) Hp) as [W [k K]];
    auto; try lia. { apply wf_mod; auto. }
  fold s' in W, K. split; auto. destruct Hs as [HL HF].
  rewrite get_upd_eq, val_upd in K by (auto; lia).
  destruct (Z_lt_ge_dec (get s i + get r i) (B p)) as [C|C].
  - rewrite Z.mod_small in K by lia. destruct (Z.ltb_spec (get s i + get r i) (get s i)); [lia|].
    exists k. rewrite K. ring.
  - replace ((get s i + get r i) mod B p) with (get s i + get r i - B p) in K
      by (replace (get s i + get r i) with ((get s i + get r i - B p) + 1 * B p) at 2 by ring;
          rewrite Z_mod_plus_full, Z.mod_small; lia).
    destruct (Z.ltb_spec (get s i + get r i - B p) (get s i)); [|lia].
    exists k. rewrite K. rewrite Z.pow_add_r, Z.pow_1_r by lia. ring.
Qed.

Lemma sub_word_spec p n m s r i : 0 <= p -> wf p n s -> wf p n r -> n = S m -> (i <= m)%nat ->
  let s' := ripple_down p n m i (get s i) (upd s i ((get s i - get r i) mod B p)) in
  wf p n s' /\ exists k, val p s' = val p s - get r i * B p ^ Z.of_nat i + k * B p ^ Z.of_nat n.
Proof.
  intros Hp Hs Hr Hn Hi s'. pose proof (B_ge2 p Hp) as HB.
  pose proof (get_bound p n s i Hp Hs) as Gs. pose proof (get_bound p n r i Hp Hr) as Gr.
  destruct (ripple_down_spec p n n m i (get s i) (upd s i ((get s i - get r i) mod B p)) Hp) as [W [k K]];
    auto; try lia. { apply wf_mod; auto. }
  fold s' in W, K. split; auto. destruct Hs as [HL HF].
  rewrite get_upd_eq, val_upd in K by (auto; lia).
  destruct (Z_lt_ge_dec (get s i) (get r i)) as [C|C].
  - replace ((get s i - get r i) mod B p) with (get s i - get r i + B p) in K
      by (replace (get s i - get r i) with ((get s i - get r i + B p) + (-1) * B p) at 2 by ring;
          rewrite Z_mod_plus_full, Z.mod_small; lia).
    destruct (Z.ltb_spec (get s i) (get s i - get r i + B p)); [|lia].
    exists k. rewrite K. rewrite Z.pow_add_r, Z.pow_1_r by lia. ring.
  - rewrite Z.mod_small in K by lia. destruct (Z.ltb_spec (get s i) (get s i - get r i)); [lia|].
    exists k. rewrite K. ring.
Qed.

Lemma ripple_up_top p f m t l : ripple_up p f m m t l = l.
Proof. destruct f; simpl; auto. rewrite Nat.ltb_irrefl. reflexivity. Qed.
Lemma ripple_down_top p f m t l : ripple_down p f m m t l = l.
Proof. destruct f; simpl; auto. rewrite Nat.ltb_irrefl. reflexivity. Qed.

Lemma bi_add_ip_ok p n l r : 0 <= p -> (0 < n)%nat -> wf p n l -> wf p n r ->
  wf p n (bi_add_ip p l r) /\ val p (bi_add_ip p l r) = (val p l + val p r) mod B p ^ Z.of_nat n.
Proof.
  intros Hp Hn Hl Hr. destruct n as [|m]; [lia|].
  assert (HLl : length l = S m) by apply Hl. assert (HLr : length r = S m) by apply Hr.
  unfold bi_add_ip, max_ix. rewrite HLl. cbn [pred].
  set (f := fun i s => _).
  pose (P := fun i s => wf p (S m) s /\ exists k, val p s = val p l + pre p r i + k * B p ^ Z.of_nat (S m)).
  assert (HP : P (0 + m)%nat (loop m 0 f l)).
  { apply loop_inv.
    - split; auto. exists 0. unfold pre; simpl. lia.
    - intros j s Hj [W [k K]]. unfold f. cbv beta zeta.
      destruct (add_word_spec p (S m) m s r j) as [W' [k' K']]; auto; try lia.
      split; auto. exists (k + k'). rewrite K', K, pre_S by (auto; lia). ring. }
  destruct HP as [W [k K]]. set (l1 := loop m 0 f l) in *. rewrite Nat.add_0_l in K.
  destruct (add_word_spec p (S m) m l1 r m) as [W' [k' K']]; auto; try lia.
  rewrite ripple_up_top in W', K'. split; auto.
  apply (val_mod_unique p (S m) _ _ (k + k')); auto.
  rewrite K', K. rewrite <- (pre_full p r (S m)) by lia. rewrite pre_S by (auto; lia). ring.
Qed.

Lemma bi_sub_ip_ok p n l r : 0 <= p -> (0 < n)%nat -> wf p n l -> wf p n r ->
  wf p n (bi_sub_ip p l r) /\ val p (bi_sub_ip p l r) = (val p l - val p r) mod B p ^ Z.of_nat n.
Proof.
  intros Hp Hn Hl Hr. destruct n as [|m]; [lia|].
  assert (HLl : length l = S m) by apply Hl. assert (HLr : length r = S m) by apply Hr.
  unfold bi_sub_ip, max_ix. rewrite HLl. cbn [pred].
  set (f := fun i s => _).
  pose (P := fun i s => wf p (S m) s /\ exists k, val p s = val p l - pre p r i + k * B p ^ Z.of_nat (S m)).
  assert (HP : P (0 + m)%nat (loop m 0 f l)).
  { apply loop_inv.
    - split; auto. exists 0. unfold pre; simpl. lia.
    - intros j s Hj [W [k K]]. unfold f. cbv beta zeta.
      destruct (sub_word_spec p (S m) m s r j) as [W' [k' K']]; auto; try lia.
      split; auto. exists (k + k'). rewrite K', K, pre_S by (auto; lia). ring. }
  destruct HP as [W [k K]]. set (l1 := loop m 0 f l) in *. rewrite Nat.add_0_l in K.
  destruct (sub_word_spec p (S m) m l1 r m) as [W' [k' K']]; auto; try lia.
  rewrite ripple_down_top in W', K'. split; auto.
  apply (val_mod_unique p (S m) _ _ (k + k')); auto.
  rewrite K', K. rewrite <- (pre_full p r (S m)) by lia. rewrite pre_S by (auto; lia). ring.
Qed.

Lemma inc_from_spec p n fuel : forall i l, 0 <= p -> wf p n l -> (i + fuel = n)%nat ->
  wf p n (inc_from p fuel i l) /\
  exists k, val p (inc_from p fuel i l) = val p l + B p ^ Z.of_nat i + k * B p ^ Z.of_nat n.
Proof.
  induction fuel; intros i l Hp Hw Hi; simpl.
  - split; auto. exists (-1). replace n with i by lia. lia.
  - pose proof (B_ge2 p Hp) as HB. pose proof (get_bound p n l i Hp Hw) as G.
    assert (Hil : (i < length l)%nat) by (destruct Hw; lia).
    rewrite get_upd_eq by auto.
    set (l' := upd l i ((get l i + 1) mod B p)).
    assert (Hw' : wf p n l') by (apply wf_mod; auto).
    assert (V : val p l' = val p l + ((get l i + 1) mod B p - get l i) * B p ^ Z.of_nat i)
      by (unfold l'; now rewrite val_upd).
    destruct (Z.eq_dec (get l i + 1) (B p)) as [E|E].
    + rewrite E, Z_mod_same_full in *. destruct (Z.leb_spec (get l i) 0); [lia|].
      destruct (IHfuel (S i) l' Hp Hw' ltac:(lia)) as [W [k K]]. split; auto.
      exists k. rewrite K, V. rewrite Nat2Z.inj_succ, Z.pow_succ_r by lia.
      replace (get l i) with (B p - 1) by lia. ring.
    + rewrite Z.mod_small in * by lia. destruct (Z.leb_spec (get l i) (get l i + 1)); [|lia].
      split; auto. exists 0. rewrite V. ring.
Qed.

Lemma bi_increment_ok p n l v : 0 <= p -> (0 < n)%nat -> wf p n l -> 0 <= v < B p ->
  wf p n (bi_increment p l v) /\ val p (bi_increment p l v) = (val p l + v) mod B p ^ Z.of_nat n.
Proof.
  intros Hp Hn Hl Hv. pose proof (B_ge2 p Hp) as HB. pose proof (get_bound p n l 0 Hp Hl) as G.
  assert (Hil : (0 < length l)%nat) by (destruct Hl; lia).
  unfold bi_increment. rewrite get_upd_eq by auto.
  set (l' := upd l 0 ((get l 0 + v) mod B p)).
  assert (Hw' : wf p n l') by (apply wf_mod; auto).
  assert (V : val p l' = val p l + ((get l 0 + v) mod B p - get l 0))
    by (unfold l'; rewrite val_upd by auto; rewrite Z.pow_0_r; ring).
  destruct (Z_lt_ge_dec (get l 0 + v) (B p)) as [C|C].
  - rewrite Z.mod_small in * by lia. destruct (Z.leb_spec (get l 0) (get l 0 + v)); [|lia].
    split; auto. apply (val_mod_unique p n _ _ 0); auto. rewrite V. ring.
  - replace ((get l 0 + v) mod B p) with (get l 0 + v - B p) in *
      by (replace (get l 0 + v) with ((get l 0 + v - B p) + 1 * B p) at 2 by ring;
          rewrite Z_mod_plus_full, Z.mod_small; lia).
    destruct (Z.leb_spec (get l 0) (get l 0 + v - B p)); [lia|].
    destruct (inc_from_spec p n (length l - 1) 1 l' Hp Hw') as [W [k K]]; [destruct Hl; lia|].
    split; auto. apply (val_mod_unique p n _ _ k); auto. rewrite K, V. change (Z.of_nat 1) with 1. rewrite Z.pow_1_r. ring.
Qed.

(** bi_decrement: exact without borrow, off by B-1 with borrow. *)
Lemma bi_decrement_noborrow p n l v : 0 <= p -> (0 < n)%nat -> wf p n l -> 0 <= v <= get l 0 ->
  wf p n (bi_decrement p l v) /\ val p (bi_decrement p l v) = val p l - v.
Proof.
  intros Hp Hn Hl Hv. pose proof (B_ge2 p Hp) as HB. pose proof (get_bound p n l 0 Hp Hl) as G.
  assert (Hil : (0 < length l)%nat) by (destruct Hl; lia).
  unfold bi_decrement. rewrite get_upd_eq by auto. rewrite Z.mod_small by lia.
  destruct (Z.leb_spec (get l 0 - v) (get l 0)); [|lia].
  split; [apply wf_upd; auto; lia|]. rewrite val_upd by auto. rewrite Z.pow_0_r. ring.
Qed.

Lemma bi_decrement_borrow p n l v : 0 <= p -> (0 < n)%nat -> wf p n l -> get l 0 < v < B p ->
  wf p n (bi_decrement p l v) /\ val p (bi_decrement p l v) = val p l - v + (B p - 1).
Proof.
  intros Hp Hn Hl Hv. pose proof (B_ge2 p Hp) as HB. pose proof (get_bound p n l 0 Hp Hl) as G.
  assert (Hil : (0 < length l)%nat) by (destruct Hl; lia).
  unfold bi_decrement. rewrite get_upd_eq by auto.
  replace ((get l 0 - v) mod B p) with (get l 0 - v + B p)
      by (replace (get l 0 - v) with ((get l 0 - v + B p) + (-1) * B p) at 2 by ring;
          rewrite Z_mod_plus_full, Z.mod_small; lia).
  destruct (Z.leb_spec (get l 0 - v + B p) (get l 0)); [lia|].
  destruct l as [|x t]; [simpl in Hil; lia|]. cbn [length dec_from].
  rewrite (get_upd_eq (x::t)) by auto. rewrite Z.mod_small by lia.
  rewrite get_upd_eq by (rewrite length_upd; auto).
  destruct (Z.leb_spec (get (x :: t) 0 - v + B p - 1) (get (x :: t) 0 - v + B p)); [|lia].
  split; [apply wf_upd; [apply wf_upd|]; auto; lia|].
  rewrite !val_upd by (rewrite ?length_upd; auto). rewrite get_upd_eq by auto.
  change (Z.of_nat 0) with 0. rewrite Z.pow_0_r. ring.
Qed.

(** ** Comparison *)
Lemma Forall_firstn {A} (P : A -> Prop) k (l : list A) : Forall P l -> Forall P (firstn k l).
Proof.
  intros H. rewrite <- (firstn_skipn k l) in H. apply Forall_app in H. tauto.
Qed.
Lemma pre_bound p n l i : 0 <= p -> wf p n l -> (i <= n)%nat -> 0 <= pre p l i < B p ^ Z.of_nat i.
Proof.
  intros Hp [HL HF] Hi. apply val_bound; auto. split.
  - apply firstn_length_le. lia.
  - now apply Forall_firstn.
Qed.

Lemma compare_from_ok p n l r : 0 <= p -> wf p n l -> wf p n r -> forall k, (k <= n)%nat ->
  compare_from k l r = Z.sgn (pre p l k - pre p r k).
Proof.
  intros Hp Hl Hr. induction k; intros Hk; simpl.
  - reflexivity.
  - rewrite !pre_S by (destruct Hl, Hr; auto; lia).
    pose proof (pre_bound p n l k Hp Hl ltac:(lia)). pose proof (pre_bound p n r k Hp Hr ltac:(lia)).
    pose proof (Bpow_pos p (Z.of_nat k) Hp ltac:(lia)).
    destruct (Z.ltb_spec (get r k) (get l k)).
    + symmetry. apply Z.sgn_pos. nia.
    + destruct (Z.ltb_spec (get l k) (get r k)).
      * symmetry. apply Z.sgn_neg. nia.
      * rewrite IHk by lia. f_equal. replace (get l k) with (get r k) by lia. ring.
Qed.

Lemma bi_compare_ok p n l r : 0 <= p -> wf p n l -> wf p n r ->
  bi_compare l r = Z.sgn (val p l - val p r).
Proof.
  intros Hp Hl Hr. unfold bi_compare. destruct Hl as [HL HF] eqn:E. rewrite HL.
  rewrite (compare_from_ok p n) by auto. rewrite !pre_full by (destruct Hr; lia). reflexivity.
Qed.

Lemma existsb_nz p l : 0 <= p -> Forall (fun x => 0 <= x < B p) l ->
  existsb (fun x => negb (x =? 0)) l = negb (val p l =? 0).
Proof.
  intros Hp HF. pose proof (B_ge2 p Hp). induction HF; simpl; auto. rewrite IHHF.
  pose proof (val_bound p (length l) l Hp (conj eq_refl HF)).
  destruct (Z.eqb_spec x 0), (Z.eqb_spec (val p l) 0), (Z.eqb_spec (x + B p * val p l) 0); simpl; auto; nia.
Qed.

Lemma bi_compare_0_ok p n l : 0 <= p -> wf p n l -> bi_compare_0 l = Z.sgn (val p l).
Proof.
  intros Hp Hl. unfold bi_compare_0. rewrite (existsb_nz p) by (auto; apply Hl).
  pose proof (val_bound p n l Hp Hl). destruct (Z.eqb_spec (val p l) 0); simpl.
  - rewrite e. reflexivity.
  - symmetry. apply Z.sgn_pos. lia.
Qed.

Lemma bi_compare_1_ok p n l : 0 <= p -> (0 < n)%nat -> wf p n l -> bi_compare_1 l = Z.sgn (val p l - 1).
Proof.
  intros Hp Hn [HL HF]. unfold bi_compare_1. destruct l as [|x t]; [simpl in HL; lia|].
  apply Forall_cons_iff in HF; destruct HF as [Hx Ht]. cbn [tl]. rewrite (existsb_nz p) by auto.
  pose proof (val_bound p (length t) t Hp (conj eq_refl Ht)). pose proof (B_ge2 p Hp).
  cbn [big_value]. change (get (x :: t) 0) with x.
  destruct (Z.eqb_spec (val p t) 0) as [e|e]; simpl negb; cbv iota.
  - rewrite e. replace (x + B p * 0 - 1) with (x - 1) by ring.
    destruct (Z.ltb_spec 1 x). symmetry; apply Z.sgn_pos; lia.
    destruct (Z.ltb_spec x 1). symmetry; apply Z.sgn_neg; lia.
    replace x with 1 by lia. reflexivity.
  - symmetry. apply Z.sgn_pos. nia.
Qed.

(** ** Bitwise operations *)
Lemma testbit_cat w x a i : 0 <= w -> 0 <= x < 2 ^ w -> 0 <= i ->
  Z.testbit (x + 2 ^ w * a) i = if i <? w then Z.testbit x i else Z.testbit a (i - w).
Proof.
  intros Hw Hx Hi. destruct (Z.ltb_spec i w).
  - rewrite <- (Z.mod_pow2_bits_low _ w) by lia.
    rewrite Z.mul_comm, Z_mod_plus_full. rewrite Z.mod_small by lia. reflexivity.
  - replace i with ((i - w) + w) at 1 by lia. rewrite <- Z.div_pow2_bits by lia.
    rewrite Z.mul_comm, Z_div_plus_full by lia. rewrite Z.div_small by lia. reflexivity.
Qed.

Lemma land_range w x y : 0 <= w -> 0 <= x < 2 ^ w -> 0 <= y -> 0 <= Z.land x y < 2 ^ w.
Proof.
  intros Hw Hx Hy. assert (0 <= Z.land x y) by (apply Z.land_nonneg; lia). split; auto.
  destruct (Z.eq_dec (Z.land x y) 0) as [->|]; [lia|].
  apply Z.log2_lt_pow2; [lia|]. eapply Z.le_lt_trans; [apply Z.log2_land; lia|].
  assert (x <> 0) by (intros ->; now rewrite Z.land_0_l in n).
  apply Z.le_lt_trans with (Z.log2 x); [lia|]. apply Z.log2_lt_pow2; lia.
Qed.

Lemma lor_range w x y : 0 <= w -> 0 <= x < 2 ^ w -> 0 <= y < 2 ^ w -> 0 <= Z.lor x y < 2 ^ w.
Proof.
  intros Hw Hx Hy. assert (0 <= Z.lor x y) by (apply Z.lor_nonneg; lia). split; auto.
  destruct (Z.eq_dec (Z.lor x y) 0) as [->|]; [lia|].
  apply Z.log2_lt_pow2; [lia|]. rewrite Z.log2_lor by lia.
  destruct (Z.eq_dec w 0) as [->|].
  - assert (x = 0) by (simpl in Hx; lia). assert (y = 0) by (simpl in Hy; lia). subst. now simpl in n.
  - apply Z.max_lub_lt; (destruct (Z.eq_dec x 0), (Z.eq_dec y 0); subst; simpl; try lia; apply Z.log2_lt_pow2; lia).
Qed.

Lemma lxor_range w x y : 0 <= w -> 0 <= x < 2 ^ w -> 0 <= y < 2 ^ w -> 0 <= Z.lxor x y < 2 ^ w.
Proof.
  intros Hw Hx Hy. assert (0 <= Z.lxor x y) by (apply Z.lxor_nonneg; lia). split; auto.
  assert (E : Z.lxor x y = Z.lxor x y mod 2 ^ w).
  { apply Z.bits_inj'. intros i Hi. destruct (Z_lt_ge_dec i w).
    - now rewrite Z.mod_pow2_bits_low by lia.
    - rewrite Z.mod_pow2_bits_high by lia. rewrite Z.lxor_spec.
      rewrite <- (Z.mod_small x (2^w)), <- (Z.mod_small y (2^w)) by lia.
      rewrite !Z.mod_pow2_bits_high by lia. reflexivity. }
  rewrite E. apply Z.mod_pos_bound. lia.
Qed.

Lemma bitop_val p (op : Z -> Z -> Z) (bop : bool -> bool -> bool) :
  0 <= p ->
  (forall a b i, Z.testbit (op a b) i = bop (Z.testbit a i) (Z.testbit b i)) ->
  (forall x y, 0 <= x < B p -> 0 <= y < B p -> 0 <= op x y < B p) ->
  op 0 0 = 0 ->
  forall n l r, wf p n l -> wf p n r ->
  let res := map (fun xy => op (fst xy) (snd xy)) (combine l r) in
  wf p n res /\ val p res = op (val p l) (val p r).
Proof.
  intros Hp Hop Hrange H0 n l r [HL HF] [HLr HFr]. revert r n HL HLr HFr.
  pose proof (wbits_pos p Hp) as Hw.
  induction HF; intros r n HL HLr HFr; destruct r as [|y r]; simpl in *; try lia.
  - split; [split; simpl; auto|]. now rewrite H0.
  - apply Forall_cons_iff in HFr; destruct HFr as [Hy Ht]. subst n. injection HLr as HLr'.
    destruct (IHHF r (length l) eq_refl HLr' Ht) as [[W1 W2] V].
    split.
    + split. simpl. f_equal. auto. constructor; auto.
    + rewrite V. apply Z.bits_inj'. intros i Hi. rewrite Hop.
      unfold B in *. rewrite !testbit_cat by (auto; lia). destruct (i <? wbits p); now rewrite Hop.
Qed.

Lemma bi_not_ok p n l : 0 <= p -> wf p n l ->
  wf p n (bi_not p l) /\ val p (bi_not p l) = B p ^ Z.of_nat n - 1 - val p l.
Proof.
  intros Hp [HL HF]. subst n. unfold bi_not. pose proof (B_ge2 p Hp).
  induction HF as [|x l Hx HF [[W1 W2] V]].
  - simpl. split; auto. split; auto.
  - assert (E : Z.lnot x mod B p = B p - 1 - x).
    { unfold Z.lnot. replace (Z.pred (- x)) with ((B p - 1 - x) + (-1) * B p) by lia.
      rewrite Z_mod_plus_full. apply Z.mod_small. lia. }
    cbn [map length big_value]. rewrite E. split.
    + split. simpl; f_equal; auto. constructor; auto. lia.
    + rewrite V. rewrite Nat2Z.inj_succ, Z.pow_succ_r by lia. ring.
Qed.

(** ** Word shifts *)
Lemma val_app p l r : 0 <= p -> val p (l ++ r) = val p l + B p ^ Z.of_nat (length l) * val p r.
Proof.
  intros Hp. induction l; cbn [app big_value length].
  - rewrite Z.pow_0_r. lia.
  - rewrite IHl. rewrite Nat2Z.inj_succ, Z.pow_succ_r by lia. ring.
Qed.

Lemma val_repeat0 p k : val p (repeat 0 k) = 0.
Proof. induction k; simpl; auto. rewrite IHk. lia. Qed.

Lemma wf_Forall_app p l r : Forall (fun x => 0 <= x < B p) l -> Forall (fun x => 0 <= x < B p) r ->
  Forall (fun x => 0 <= x < B p) (l ++ r).
Proof. intros. apply Forall_app; auto. Qed.

Lemma Forall_repeat0 p k : 0 <= p -> Forall (fun x => 0 <= x < B p) (repeat 0 k).
Proof. intros. pose proof (B_ge2 p H). induction k; simpl; constructor; auto. lia. Qed.

Lemma Forall_skipn {A} (P : A -> Prop) k (l : list A) : Forall P l -> Forall P (skipn k l).
Proof.
  intros H. rewrite <- (firstn_skipn k l) in H. apply Forall_app in H. tauto.
Qed.

Lemma val_split p n l k : 0 <= p -> wf p n l -> (k <= n)%nat ->
  val p l = val p (firstn k l) + B p ^ Z.of_nat k * val p (skipn k l) /\
  0 <= val p (firstn k l) < B p ^ Z.of_nat k.
Proof.
  intros Hp [HL HF] Hk. split.
  - rewrite <- (firstn_skipn k l) at 1. rewrite val_app by auto. rewrite firstn_length_le by lia. reflexivity.
  - apply val_bound; auto. split. apply firstn_length_le; lia. now apply Forall_firstn.
Qed.

Lemma list_get_ext l r : length l = length r -> (forall i, (i < length l)%nat -> get l i = get r i) -> l = r.
Proof. intros. apply (nth_ext l r 0 0); auto. Qed.

Lemma get_repeat0 k i : get (repeat 0 k) i = 0.
Proof. unfold get. destruct (Nat.lt_ge_cases i k). now rewrite nth_repeat. apply nth_overflow. now rewrite repeat_length. Qed.

Lemma get_app l r i : get (l ++ r) i = if Nat.ltb i (length l) then get l i else get r (i - length l).
Proof. unfold get. destruct (Nat.ltb_spec i (length l)). now apply app_nth1. now apply app_nth2. Qed.

Lemma get_firstn l k i : (i < k)%nat -> get (firstn k l) i = get l i.
Proof.
  unfold get. revert k i. induction l; intros [|k] [|i] H; simpl; auto; try lia. apply IHl. lia.
Qed.

Lemma get_skipn l k i : get (skipn k l) i = get l (k + i).
Proof. unfold get. revert k. induction l; intros [|k]; simpl; auto. destruct i; auto. Qed.

Lemma map_zero (l : list Z) : map (fun _ => 0) l = repeat 0 (length l).
Proof. induction l; simpl; congruence. Qed.

Lemma bi_lshift_word_list l k : bi_lshift_word l k = firstn (length l) (repeat 0 k ++ l).
Proof.
  destruct k as [|k'].
  - simpl. now rewrite firstn_all.
  - unfold bi_lshift_word. set (k := S k').
    rewrite map_zero. set (n := length l).
    pose (P := fun i s => length s = n /\ forall j, (j < n)%nat ->
      get s j = if Nat.ltb j k then 0 else if Nat.ltb j i then get l (j - k) else 0).
    assert (HP : P (k + (n - k))%nat (loop (n - k) k (fun i s => upd s i (get l (i - k))) (repeat 0 n))).
    { apply loop_inv.
      - split. apply repeat_length. intros j Hj. rewrite get_repeat0.
        destruct (Nat.ltb_spec j k); auto.
      - intros j s Hj [HL HG]. split. now rewrite length_upd.
        intros i Hi. destruct (Nat.eq_dec i j) as [->|Hne].
        + rewrite get_upd_eq by lia. destruct (Nat.ltb_spec j k); [lia|].
          destruct (Nat.ltb_spec j (S j)); [|lia]. reflexivity.
        + rewrite get_upd_ne by lia. rewrite HG by lia.
          destruct (Nat.ltb_spec i k); auto.
          destruct (Nat.ltb_spec i j), (Nat.ltb_spec i (S j)); auto; lia. }
    destruct HP as [HL HG]. apply list_get_ext.
    + rewrite HL. rewrite firstn_length_le; auto. rewrite app_length. lia.
    + rewrite HL. intros i Hi. rewrite HG by lia. rewrite get_firstn by lia. rewrite get_app, repeat_length.
      destruct (Nat.ltb_spec i k). now rewrite get_repeat0.
      destruct (Nat.ltb_spec i (k + (n - k))); [reflexivity|lia].
Qed.

Lemma bi_lshift_word_ok p n l k : 0 <= p -> wf p n l ->
  wf p n (bi_lshift_word l k) /\
  val p (bi_lshift_word l k) = (val p l * B p ^ Z.of_nat k) mod B p ^ Z.of_nat n.
Proof.
  intros Hp [HL HF]. rewrite bi_lshift_word_list.
  assert (W : wf p (k + n) (repeat 0 k ++ l)).
  { split. rewrite app_length, repeat_length. lia. apply wf_Forall_app; auto. now apply Forall_repeat0. }
  destruct (val_split p (k + n) _ n Hp W ltac:(lia)) as [V1 V2].
  rewrite HL. split.
  - destruct W as [W1 W2]. split. rewrite firstn_length_le; auto. lia. now apply Forall_firstn.
  - rewrite val_app in V1 by auto. rewrite val_repeat0, repeat_length in V1.
    replace (val p l * B p ^ Z.of_nat k)
     with (val p (firstn n (repeat 0 k ++ l)) + (val p (skipn n (repeat 0 k ++ l))) * B p ^ Z.of_nat n) by lia.
    rewrite Z_mod_plus_full. symmetry. apply Z.mod_small. auto.
Qed.

Lemma bi_rshift_word_list l k : bi_rshift_word l k = skipn k l ++ repeat 0 (Nat.min k (length l)).
Proof.
  destruct k as [|k'].
  - simpl. now rewrite app_nil_r.
  - unfold bi_rshift_word. set (k := S k').
    rewrite map_zero. set (n := length l).
    pose (P := fun i s => length s = n /\ forall j, (j < n)%nat ->
      get s j = if Nat.ltb (j + k) i then get l (j + k) else 0).
    assert (HP : P (k + (n - k))%nat (loop (n - k) k (fun i s => upd s (i - k) (get l i)) (repeat 0 n))).
    { apply loop_inv.
      - split. apply repeat_length. intros j Hj. rewrite get_repeat0.
        destruct (Nat.ltb_spec (j + k) k); auto; lia.
      - intros j s Hj [HL HG]. split. now rewrite length_upd.
        intros i Hi. destruct (Nat.eq_dec i (j - k)) as [->|Hne].
        + rewrite get_upd_eq by lia. 
          destruct (Nat.ltb_spec (j - k + k) (S j)); [|lia]. f_equal. lia.
        + rewrite get_upd_ne by lia. rewrite HG by lia.
          destruct (Nat.ltb_spec (i + k) j), (Nat.ltb_spec (i + k) (S j)); auto; lia. }
    destruct HP as [HL HG]. apply list_get_ext.
    + rewrite HL, app_length, skipn_length, repeat_length. fold n. lia.
    + rewrite HL. intros i Hi. rewrite HG by lia. rewrite get_app, skipn_length, get_skipn, get_repeat0.
      fold n. destruct (Nat.ltb_spec i (n - k)), (Nat.ltb_spec (i + k) (k + (n - k))); try lia.
      f_equal. lia.
Qed.

Lemma bi_rshift_word_ok p n l k : 0 <= p -> wf p n l ->
  wf p n (bi_rshift_word l k) /\
  val p (bi_rshift_word l k) = val p l / B p ^ Z.of_nat k.
Proof.
  intros Hp Hw. rewrite bi_rshift_word_list. pose proof Hw as [HL HF]. rewrite HL.
  split.
  - split. rewrite app_length, skipn_length, repeat_length. lia.
    apply wf_Forall_app. now apply Forall_skipn. now apply Forall_repeat0.
  - rewrite val_app, val_repeat0 by auto. rewrite Z.mul_0_r, Z.add_0_r.
    destruct (Nat.le_gt_cases k n).
    + destruct (val_split p n l k Hp Hw H) as [V1 V2]. rewrite V1.
      rewrite Z.mul_comm, Z_div_plus_full by lia. rewrite Z.div_small by auto. lia.
    + rewrite skipn_all2 by lia. simpl. symmetry. apply Z.div_small.
      pose proof (val_bound p n l Hp Hw). split; [lia|].
      eapply Z.lt_le_trans; [apply H0|]. apply Z.pow_le_mono_r. pose proof (B_ge2 p Hp); lia. lia.
Qed.

(** In-place word shifts. *)
Lemma bi_rshift_word_ip_ok l k : (k <= length l)%nat -> bi_rshift_word_ip l k = Some (bi_rshift_word l k).
Proof.
  intros Hk. rewrite bi_rshift_word_list. destruct k as [|k'].
  - simpl. now rewrite app_nil_r.
  - unfold bi_rshift_word_ip. set (k := S k') in *. set (n := length l).
    destruct (Nat.ltb_spec n k); [fold n in Hk; lia|]. f_equal.
    pose (P := fun i s => length s = n /\ forall j, (j < n)%nat ->
      get s j = if Nat.ltb (j + k) i then get l (j + k) else get l j).
    assert (HP : P (k + (n - k))%nat (loop (n - k) k (fun i s => upd s (i - k) (get s i)) l)).
    { apply loop_inv.
      - split; auto. intros j Hj. destruct (Nat.ltb_spec (j + k) k); auto; lia.
      - intros j s Hj [HL HG]. split. now rewrite length_upd.
        intros i Hi. destruct (Nat.eq_dec i (j - k)) as [->|Hne].
        + rewrite get_upd_eq by lia. rewrite HG by lia.
          destruct (Nat.ltb_spec (j - k + k) (S j)), (Nat.ltb_spec (j + k) j); try lia. f_equal. lia.
        + rewrite get_upd_ne by lia. rewrite HG by lia.
          destruct (Nat.ltb_spec (i + k) j), (Nat.ltb_spec (i + k) (S j)); auto; lia. }
    set (l1 := loop (n - k) k (fun i s => upd s (i - k) (get s i)) l) in *.
    destruct HP as [HL HG].
    pose (Q := fun i s => length s = n /\ forall j, (j < n)%nat ->
      get s j = if Nat.leb n (j + i) then 0 else get l1 j).
    assert (HQ : Q (0 + k)%nat (loop k 0 (fun i s => upd s (max_ix l - i) 0) l1)).
    { apply loop_inv.
      - split; auto. intros j Hj. destruct (Nat.leb_spec n (j + 0)); auto; lia.
      - intros j s Hj [HL' HG']. split. now rewrite length_upd. unfold max_ix. fold n.
        intros i Hi. destruct (Nat.eq_dec i (pred n - j)) as [->|Hne].
        + rewrite get_upd_eq by lia. destruct (Nat.leb_spec n (pred n - j + S j)); auto; lia.
        + rewrite get_upd_ne by lia. rewrite HG' by lia.
          destruct (Nat.leb_spec n (i + j)), (Nat.leb_spec n (i + S j)); auto; try lia. }
    destruct HQ as [HL' HG']. apply list_get_ext.
    + rewrite HL', app_length, skipn_length, repeat_length. fold n. lia.
    + rewrite HL'. intros i Hi. rewrite HG' by lia. rewrite HG by lia. rewrite get_app, skipn_length, get_skipn, get_repeat0. fold n.
      destruct (Nat.leb_spec n (i + (0 + k))), (Nat.ltb_spec i (n - k)), (Nat.ltb_spec (i + k) (k + (n - k))); try lia; auto.
      * f_equal; lia.
Qed.

Lemma bi_lshift_word_ip_ok l k : (k < 64)%nat -> (k <= length l)%nat -> (k = 0 \/ length l <= 2 * k)%nat ->
  bi_lshift_word_ip l k = Some (bi_lshift_word l k).
Proof.
  intros H64 Hk Hc. rewrite bi_lshift_word_list. unfold bi_lshift_word_ip.
  rewrite Nat.mod_small by lia. destruct k as [|k'].
  - simpl. now rewrite firstn_all.
  - set (k := S k') in *. set (n := length l) in *.
    destruct (Nat.ltb_spec n k); [lia|]. f_equal.
    pose (P := fun i s => length s = n /\ forall j, (j < n)%nat ->
      get s j = if Nat.ltb j k then get l j else if Nat.ltb j i then get l (j - k) else get l j).
    assert (HP : P (k + (n - k))%nat (loop (n - k) k (fun i s => upd s i (get s (i - k))) l)).
    { apply loop_inv.
      - split; auto. intros j Hj. destruct (Nat.ltb_spec j k); auto.
      - intros j s Hj [HL HG]. split. now rewrite length_upd.
        intros i Hi. destruct (Nat.eq_dec i j) as [->|Hne].
        + rewrite get_upd_eq by lia. rewrite HG by lia.
          destruct (Nat.ltb_spec (j - k) k), (Nat.ltb_spec j k), (Nat.ltb_spec j (S j)); try lia; try reflexivity.
        + rewrite get_upd_ne by lia. rewrite HG by lia.
          destruct (Nat.ltb_spec i k); auto.
          destruct (Nat.ltb_spec i j), (Nat.ltb_spec i (S j)); auto; lia. }
    set (l1 := loop (n - k) k (fun i s => upd s i (get s (i - k))) l) in *.
    destruct HP as [HL HG].
    pose (Q := fun i s => length s = n /\ forall j, (j < n)%nat ->
      get s j = if Nat.ltb j i then 0 else get l1 j).
    assert (HQ : Q (0 + k)%nat (loop k 0 (fun i s => upd s i 0) l1)).
    { apply loop_inv.
      - split; auto.
      - intros j s Hj [HL' HG']. split. now rewrite length_upd. 
        intros i Hi. destruct (Nat.eq_dec i j) as [->|Hne].
        + rewrite get_upd_eq by lia. destruct (Nat.ltb_spec j (S j)); auto; lia.
        + rewrite get_upd_ne by lia. rewrite HG' by lia.
          destruct (Nat.ltb_spec i j), (Nat.ltb_spec i (S j)); auto; try lia. }
    destruct HQ as [HL' HG']. apply list_get_ext.
    + rewrite HL'. rewrite firstn_length_le; auto. rewrite app_length. lia.
    + rewrite HL'. intros i Hi. rewrite HG' by lia. rewrite HG by lia. rewrite get_firstn by lia.
      rewrite get_app, repeat_length. rewrite Nat.add_0_l.
      destruct (Nat.ltb_spec i k). now rewrite get_repeat0.
      destruct (Nat.ltb_spec i (k + (n - k))); [reflexivity|lia].
Qed.

(** ** Bit shifts *)
Lemma lor_disjoint m c y : 0 <= m -> 0 <= c < 2 ^ m -> 0 <= y -> Z.lor c (2 ^ m * y) = c + 2 ^ m * y.
Proof.
  intros Hm Hc Hy. apply Z.bits_inj'. intros i Hi. rewrite Z.lor_spec, testbit_cat by auto.
  replace (2 ^ m * y) with (Z.shiftl y m) by (rewrite Z.shiftl_mul_pow2; lia).
  rewrite Z.shiftl_spec by lia. destruct (Z.ltb_spec i m).
  - rewrite (Z.testbit_neg_r y) by lia. now rewrite orb_false_r.
  - rewrite <- (Z.mod_small c (2 ^ m)) by lia. rewrite Z.mod_pow2_bits_high by lia. reflexivity.
Qed.

Lemma lshift_bits_ok p m : 0 <= p -> 0 < m < wbits p -> forall l n c, wf p n l -> 0 <= c < 2 ^ m ->
  wf p n (lshift_bits p m c l) /\
  exists k, val p (lshift_bits p m c l) = c + 2 ^ m * val p l + k * B p ^ Z.of_nat n.
Proof.
  intros Hp Hm. induction l as [|x t IH]; intros n c [HL HF] Hc; simpl in HL; subst n.
  - simpl. split. split; auto. exists (-c). lia.
  - apply Forall_cons_iff in HF; destruct HF as [Hx0 Ht]. cbn [lshift_bits].
    assert (EB : B p = 2 ^ m * 2 ^ (wbits p - m)) by (unfold B; rewrite <- Z.pow_add_r by lia; f_equal; lia).
    pose proof (Z.pow_pos_nonneg 2 m ltac:(lia) ltac:(lia)) as P1.
    pose proof (Z.pow_pos_nonneg 2 (wbits p - m) ltac:(lia) ltac:(lia)) as P2.
    set (lo := x mod 2 ^ (wbits p - m)). set (hi := x / 2 ^ (wbits p - m)).
    assert (Ex : x = 2 ^ (wbits p - m) * hi + lo) by (apply Z.div_mod; lia).
    assert (Hlo : 0 <= lo < 2 ^ (wbits p - m)) by (apply Z.mod_pos_bound; lia).
    assert (Hhi : 0 <= hi < 2 ^ m).
    { split. apply Z.div_pos; lia. apply Z.div_lt_upper_bound; lia. }
    assert (E1 : (Z.shiftl x m) mod B p = 2 ^ m * lo).
    { rewrite Z.shiftl_mul_pow2 by lia. rewrite Ex.
      replace ((2 ^ (wbits p - m) * hi + lo) * 2 ^ m) with (2 ^ m * lo + hi * B p) by (rewrite EB; ring).
      rewrite Z_mod_plus_full. apply Z.mod_small. rewrite EB. nia. }
    rewrite E1. rewrite Z.shiftr_div_pow2 by lia. fold hi.
    rewrite lor_disjoint by lia.
    destruct (IH (length t) hi (conj eq_refl Ht) Hhi) as [[W1 W2] [k K]].
    split.
    + split. simpl. f_equal. auto. constructor; auto. rewrite EB. nia.
    + cbn [big_value length]. rewrite K. exists k. rewrite Nat2Z.inj_succ, Z.pow_succ_r by lia.
      rewrite Ex. rewrite EB. ring.
Qed.

Lemma rshift_bits_ok p m : 0 <= p -> 0 < m < wbits p -> forall l n, wf p n l ->
  wf p n (fst (rshift_bits p m l)) /\ val p (fst (rshift_bits p m l)) = val p l / 2 ^ m /\
  snd (rshift_bits p m l) = 2 ^ (wbits p - m) * (val p l mod 2 ^ m).
Proof.
  intros Hp Hm. 
  assert (EB : B p = 2 ^ m * 2 ^ (wbits p - m)) by (unfold B; rewrite <- Z.pow_add_r by lia; f_equal; lia).
  pose proof (Z.pow_pos_nonneg 2 m ltac:(lia) ltac:(lia)) as P1.
  pose proof (Z.pow_pos_nonneg 2 (wbits p - m) ltac:(lia) ltac:(lia)) as P2.
  induction l as [|x t IH]; intros n [HL HF]; simpl in HL; subst n.
  - simpl. repeat split; auto.  rewrite Z.mod_0_l; lia.
  - apply Forall_cons_iff in HF; destruct HF as [Hx0 Ht]. cbn [rshift_bits].
    destruct (IH (length t) (conj eq_refl Ht)) as [[W1 W2] [V C]].
    destruct (rshift_bits p m t) as [t' c]. cbn [fst snd] in *.
    pose proof (val_bound p _ t Hp (conj eq_refl Ht)) as Hv.
    set (v := val p t) in *. 
    assert (Hvm : 0 <= v mod 2 ^ m < 2 ^ m) by (apply Z.mod_pos_bound; lia).
    assert (Hvd : v = 2 ^ m * (v / 2 ^ m) + v mod 2 ^ m) by (apply Z.div_mod; lia).
    assert (Hx : 0 <= x / 2 ^ m < 2 ^ (wbits p - m)).
    { split. apply Z.div_pos; lia. apply Z.div_lt_upper_bound; lia. }
    rewrite Z.shiftr_div_pow2 by lia.
    assert (EL : Z.lor c (x / 2 ^ m) = x / 2 ^ m + 2 ^ (wbits p - m) * (v mod 2 ^ m)).
    { rewrite Z.lor_comm, C. apply lor_disjoint; lia. }
    rewrite EL. split; [|split].
    + split. simpl. f_equal; auto. constructor; auto. rewrite EB. nia.
    + cbn [big_value]. fold v. rewrite V.
      replace (x + B p * v) with (x + (2 ^ (wbits p - m) * v) * 2 ^ m) by (rewrite EB; ring).
      rewrite Z_div_plus_full by lia. rewrite EB. rewrite Hvd at 3. ring.
    + cbn [big_value]. fold v.
      replace (x + B p * v) with (x + (2 ^ (wbits p - m) * v) * 2 ^ m) by (rewrite EB; ring).
      rewrite Z_mod_plus_full. rewrite Z.shiftl_mul_pow2 by lia.
      rewrite EB. rewrite (Z.mul_comm x). rewrite (Z.mul_comm (2 ^ m)).
      rewrite Zmult_mod_distr_l. reflexivity.
Qed.

Lemma shift_split p s : 0 <= p -> 0 <= s ->
  let k := Z.shiftr s p in let m := s - Z.shiftl k p in
  0 <= k /\ 0 <= m < wbits p /\ s = k * wbits p + m.
Proof.
  intros Hp Hs k m. unfold wbits. pose proof (Z.pow_pos_nonneg 2 p ltac:(lia) Hp).
  unfold m, k. rewrite Z.shiftl_mul_pow2, Z.shiftr_div_pow2 by lia.
  pose proof (Z.div_mod s (2^p) ltac:(lia)). pose proof (Z.mod_pos_bound s (2^p) ltac:(lia)).
  pose proof (Z.div_pos s (2^p) ltac:(lia) ltac:(lia)). lia.
Qed.

Lemma Bpow_eq p k : 0 <= p -> 0 <= k -> B p ^ k = 2 ^ (k * wbits p).
Proof. intros. unfold B. rewrite <- Z.pow_mul_r. f_equal; lia. pose proof (wbits_pos p H); lia. lia. Qed.

Lemma bi_shl_ok p n l s : 0 <= p -> wf p n l -> 0 <= s ->
  wf p n (bi_shl p l s) /\ val p (bi_shl p l s) = (val p l * 2 ^ s) mod B p ^ Z.of_nat n.
Proof.
  intros Hp Hl Hs. unfold bi_shl. destruct (shift_split p s Hp Hs) as [Hk [Hm Es]].
  set (k := Z.shiftr s p) in *. set (m := s - Z.shiftl k p) in *.
  destruct (bi_lshift_word_ok p n l (Z.to_nat k) Hp Hl) as [W V].
  rewrite Z2Nat.id in V by lia.
  assert (E2 : 2 ^ s = B p ^ k * 2 ^ m).
  { rewrite Bpow_eq by lia. rewrite <- Z.pow_add_r by nia. f_equal. lia. }
  rewrite E2. destruct (Z.eqb_spec m 0) as [e|e].
  - rewrite e, Z.pow_0_r, Z.mul_1_r. auto.
  - destruct (lshift_bits_ok p m Hp ltac:(lia) _ n 0 W) as [W' [k' K']].
    { pose proof (Z.pow_pos_nonneg 2 m ltac:(lia) ltac:(lia)). lia. }
    split; auto. 
    rewrite (val_mod_unique p n _ _ k' Hp W' K'). rewrite V.
    pose proof (Bpow_pos p (Z.of_nat n) Hp ltac:(lia)).
    rewrite Z.add_0_l. rewrite Zmult_mod_idemp_r. f_equal. ring.
Qed.

Lemma bi_shr_ok p n l s : 0 <= p -> wf p n l -> 0 <= s ->
  wf p n (bi_shr p l s) /\ val p (bi_shr p l s) = val p l / 2 ^ s.
Proof.
  intros Hp Hl Hs. unfold bi_shr. destruct (shift_split p s Hp Hs) as [Hk [Hm Es]].
  set (k := Z.shiftr s p) in *. set (m := s - Z.shiftl k p) in *.
  destruct (bi_rshift_word_ok p n l (Z.to_nat k) Hp Hl) as [W V].
  rewrite Z2Nat.id in V by lia.
  assert (E2 : 2 ^ s = B p ^ k * 2 ^ m).
  { rewrite Bpow_eq by lia. rewrite <- Z.pow_add_r by nia. f_equal. lia. }
  rewrite E2. destruct (Z.eqb_spec m 0) as [e|e].
  - rewrite e, Z.pow_0_r, Z.mul_1_r. auto.
  - destruct (rshift_bits_ok p m Hp ltac:(lia) _ n W) as [W' [V' _]].
    split; auto. rewrite V', V. pose proof (Bpow_pos p k Hp Hk).
    pose proof (Z.pow_pos_nonneg 2 m ltac:(lia) ltac:(lia)).
    rewrite Z.div_div by lia. reflexivity.
Qed.

Lemma bi_rshift_ip_eq p n l s : 0 <= p -> wf p n l -> 0 <= s < wbits p * (Z.of_nat n + 1) ->
  bi_rshift_ip p l s = Some (bi_shr p l s).
Proof.
  intros Hp [HL HF] Hs. unfold bi_rshift_ip, bi_shr. destruct (shift_split p s Hp ltac:(lia)) as [Hk [Hm Es]].
  set (k := Z.shiftr s p) in *. rewrite bi_rshift_word_ip_ok; auto.
  assert (k < Z.of_nat n + 1) by nia. lia.
Qed.

Lemma bi_lshift_ip_eq p n l s : 0 <= p -> wf p n l -> 0 <= s -> s / wbits p < 64 ->
  s / wbits p <= Z.of_nat n -> (s / wbits p = 0 \/ Z.of_nat n <= 2 * (s / wbits p)) ->
  bi_lshift_ip p l s = Some (bi_shl p l s).
Proof.
  intros Hp [HL HF] Hs H1 H2 H3. unfold bi_lshift_ip, bi_shl.
  replace (s / wbits p) with (Z.shiftr s p) in * by (unfold wbits; now rewrite Z.shiftr_div_pow2).
  destruct (shift_split p s Hp ltac:(lia)) as [Hk [Hm Es]].
  set (k := Z.shiftr s p) in *. rewrite bi_lshift_word_ip_ok; auto; try lia.
Qed.

(** ** log2 *)
Lemma log2_loop_ok p n : 1 <= p -> (0 < n)%nat -> forall fuel q pw, wf p n q -> val p q < 2 ^ Z.of_nat fuel ->
  log2_loop p fuel q pw = Some (pw + (if val p q =? 0 then 0 else Z.log2 (val p q) + 1)).
Proof.
  intros Hp Hn. induction fuel; intros q pw Hq Hv; simpl log2_loop;
    rewrite (bi_compare_0_ok p n) by (auto; lia); pose proof (val_bound p n q ltac:(lia) Hq) as Hb.
  - simpl in Hv. replace (val p q) with 0 by lia. simpl. f_equal. lia.
  - destruct (Z.eqb_spec (val p q) 0) as [e|e].
    + rewrite e. simpl. f_equal; lia.
    + rewrite Z.sgn_pos by lia. simpl (1 =? 0). cbv iota.
      assert (Hw2 : 2 <= wbits p) by (unfold wbits; change 2 with (2^1) at 1; apply Z.pow_le_mono_r; lia).
      rewrite (bi_rshift_ip_eq p n) by (auto; lia).
      destruct (bi_shr_ok p n q 1 ltac:(lia) Hq ltac:(lia)) as [W V]. rewrite Z.pow_1_r in V.
      rewrite IHfuel; auto.
      * f_equal. rewrite V. pose proof (Z.div_mod (val p q) 2 ltac:(lia)) as D.
        pose proof (Z.mod_pos_bound (val p q) 2 ltac:(lia)) as M.
        destruct (Z.eqb_spec (val p q / 2) 0) as [e'|e'].
        -- assert (val p q = 1) by lia. rewrite H. change (Z.log2 1) with 0. lia.
        -- assert (0 < val p q / 2) by (pose proof (Z.div_pos (val p q) 2 ltac:(lia) ltac:(lia)); lia).
           replace (Z.log2 (val p q)) with (Z.log2 (val p q / 2) + 1). lia.
           rewrite D at 2. destruct (Z.eq_dec (val p q mod 2) 0) as [m0|m0].
           ++ rewrite m0, Z.add_0_r, Z.log2_double; lia.
           ++ replace (val p q mod 2) with 1 by lia. rewrite Z.log2_succ_double; lia.
      * rewrite V. rewrite Nat2Z.inj_succ, Z.pow_succ_r in Hv by lia.
        apply Z.div_lt_upper_bound; lia.
Qed.

Lemma bi_log2_ok p n fuel l : 1 <= p -> (0 < n)%nat -> wf p n l -> val p l < 2 ^ Z.of_nat fuel ->
  bi_log2 p fuel l = Some (Z.log2 (val p l)).
Proof.
  intros Hp Hn Hl Hv. unfold bi_log2. pose proof (val_bound p n l ltac:(lia) Hl) as Hb.
  destruct (bi_shr_ok p n l 1 ltac:(lia) Hl ltac:(lia)) as [W V]. rewrite Z.pow_1_r in V.
  rewrite (log2_loop_ok p n); auto.
  - f_equal. rewrite V. pose proof (Z.div_mod (val p l) 2 ltac:(lia)) as D.
    pose proof (Z.mod_pos_bound (val p l) 2 ltac:(lia)) as M.
    destruct (Z.eqb_spec (val p l / 2) 0) as [e'|e'].
    + assert (val p l = 1 \/ val p l = 0) by lia. destruct H as [-> | ->]; reflexivity.
    + assert (0 < val p l / 2) by (pose proof (Z.div_pos (val p l) 2 ltac:(lia) ltac:(lia)); lia).
      rewrite D at 2. destruct (Z.eq_dec (val p l mod 2) 0) as [m0|m0].
      * rewrite m0, Z.add_0_r, Z.log2_double; lia.
      * replace (val p l mod 2) with 1 by lia. rewrite Z.log2_succ_double; lia.
  - rewrite V. pose proof (Z.pow_pos_nonneg 2 (Z.of_nat fuel) ltac:(lia) ltac:(lia)).
    apply Z.div_lt_upper_bound; lia.
Qed.

Lemma bits_bound p n l : 0 <= p -> wf p n l -> val p l < 2 ^ Z.of_nat (Z.to_nat (wbits p * Z.of_nat n)).
Proof.
  intros Hp Hl. pose proof (val_bound p n l Hp Hl). pose proof (wbits_pos p Hp).
  rewrite Z2Nat.id by nia. rewrite Bpow_eq in H by lia. rewrite Z.mul_comm. lia.
Qed.
