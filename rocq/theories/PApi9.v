(** Proofs about the C interface, part 9: Pauli operators on state vectors. *)
From Coq Require Import NArith List Bool Lia Permutation Ring.
From Verif Require Import Bits Amp PAmp SpecState PLoop PGates PGates2 PGates3 PUnit9 SpecApi MQCircuit MTensor MApi SpecApi3.
Import ListNotations.
Local Open Scope N_scope.

Section Pauli.
  Context {K : StarRing} (ci ch : K).
  Local Notation vec := (N -> K).
  Local Notation plist := (list (pauli * N)).
  Local Open Scope amp_scope.
  Add Ring KrDY : (sr_ring K).
  Hypothesis CI : ci * ci = - (1).
  Hypothesis CC : sr_conj ci = - ci.
  Hypothesis HH : ch * ch + ch * ch = 1.
  Hypothesis HC : sr_conj ch = ch.
  Definition g1 (m : mat2 K) (t : N) (v : vec) : vec := gate1 (all_set []) t m v.
  (** The change of basis, its inverse, and what the operator becomes. *)
  Definition um (b : pauli) : mat2 K := match b with PX => mat_H ch | PY => mmul (mat_H ch) (mat_IS ci) | _ => midn end.
  Definition zm (b : pauli) : mat2 K := match b with PX => mat_H ch | PY => mmul (mat_S ci) (mat_H ch) | _ => midn end.
  Definition sm (b : pauli) : mat2 K := match b with PI => midn | _ => mkMat 1 0 0 (- (1)) end.
  Definition thru (mf : pauli -> mat2 K) (l : plist) (v : vec) : vec := fold_left (fun v e => g1 (mf (fst e)) (snd e) v) l v.
  Definition prod (mf : pauli -> mat2 K) (l : plist) (v : vec) : vec := fold_right (fun e w => g1 (mf (fst e)) (snd e) w) v l.
  Definition par (l : plist) (x : N) : bool := fold_right (fun e b => xorb (negb (is_pi (fst e)) && N.testbit x (snd e)) b) false l.

  Lemma thru_cons mf b t l v : thru mf ((b, t) :: l) v = thru mf l (g1 (mf b) t v). Proof. reflexivity. Qed.
  Lemma prod_cons mf b t l v : prod mf ((b, t) :: l) v = g1 (mf b) t (prod mf l v). Proof. reflexivity. Qed.
  Lemma indep_nil t : indep (all_set []) t. Proof. intros x. split; reflexivity. Qed.
  Lemma g1_ext m t a b x : (forall y, a y = b y) -> g1 m t a x = g1 m t b x.
  Proof. intros E. unfold g1, gate1. now rewrite !E. Qed.
  Lemma g1_mul a b t v x : g1 a t (g1 b t v) x = g1 (mmul a b) t v x.
  Proof. apply gate1_compose, indep_nil. Qed.
  Lemma g1_one t v x : g1 midn t v x = v x.
  Proof. apply gate1_one. Qed.
  Lemma g1_comm m t m' t' v x : t <> t' -> g1 m t (g1 m' t' v) x = g1 m' t' (g1 m t v) x.
  Proof. intros H. apply (gates_commute (all_set []) t m (all_set []) t' m' v H (indep_nil t)). left. apply indep_nil. Qed.
  Lemma thru_ext mf l : forall a b x, (forall y, a y = b y) -> thru mf l a x = thru mf l b x.
  Proof. induction l as [|e l IH]; intros a b x E; cbn [thru fold_left]; [apply E|]. apply IH. intros y. now apply g1_ext. Qed.
  Lemma prod_ext mf l a b : (forall y, a y = b y) -> forall x, prod mf l a x = prod mf l b x.
  Proof. intros E. induction l as [|e l IH]; intros x; cbn [prod fold_right]; [apply E|]. now apply g1_ext. Qed.
  Lemma thru_past mf l m t : ~ In t (map snd l) -> forall v x, thru mf l (g1 m t v) x = g1 m t (thru mf l v) x.
  Proof.
    induction l as [|[b q] l IH]; intros NI v x; [reflexivity|]. cbn [map snd In] in NI. rewrite !thru_cons.
    rewrite <- IH by tauto. apply thru_ext. intros y. cbn [fst snd]. apply g1_comm. intros ->. apply NI. now left.
  Qed.
  Lemma prod_past mf l m t v : ~ In t (map snd l) -> forall x, g1 m t (prod mf l v) x = prod mf l (g1 m t v) x.
  Proof.
    induction l as [|[b q] l IH]; intros NI x; [reflexivity|]. cbn [map snd In] in NI. rewrite !prod_cons.
    rewrite g1_comm by (intros ->; apply NI; now left). apply g1_ext. intros y. apply IH. tauto.
  Qed.

  Lemma CI2 : ci * ci = - (1). Proof. exact CI. Qed.
  Lemma HH2 : ch * ch = 1 - ch * ch. Proof. transitivity (ch * ch + ch * ch - ch * ch); [ring|now rewrite HH]. Qed.
  Lemma mat_eq (p q r s p' q' r' s' : K) : p = p' -> q = q' -> r = r' -> s = s' -> mkMat p q r s = mkMat p' q' r' s'.
  Proof. congruence. Qed.
  Ltac mats := unfold um, zm, sm, pauli_mat; unfold mmul, midn, mdag, mat_H, mat_S, mat_IS; cbn [m00 m01 m10 m11]; apply mat_eq.
  Ltac via e := match goal with |- ?a = ?b => transitivity e; [ring|rewrite ?CI, ?HH; ring] end.
  Ltac sub4 := first [via (ch * ch + ch * ch) | via (- (ci * ci)) | via (ci * ci) | via (- (ci * ci) * ch) | via ((ci * ci) * ch) | via ((ch * ch + ch * ch) * - (ci * ci)) | via ((ch * ch + ch * ch) * (ci * ci))
    | via ((ch * ch) * (1 + (ci * ci))) | via ((ch * ch) * (- (1) - (ci * ci)))
    | transitivity (ch * ch - (ci * ci) * (ch * ch)); [ring|rewrite CI; transitivity (ch * ch + ch * ch); [ring|exact HH]]].
  Ltac fin := repeat rewrite ?sr_conj_mul, ?sr_conj_add, ?conj_opp, ?conj_1, ?conj_0, ?CC, ?HC; try ring; sub4.
  Lemma um_pauli b : mmul (um b) (pauli_mat ci b) = mmul (sm b) (um b).
  Proof. destruct b; mats; fin. Qed.
  Lemma zm_um b : mmul (zm b) (um b) = midn.
  Proof. destruct b; mats; fin. Qed.
  Lemma um_unitary b : unitary2 (um b).
  Proof. unfold unitary2. destruct b; mats; rewrite ?sr_conj_mul, ?sr_conj_add, ?sr_conj_mul, ?conj_opp, ?conj_1, ?conj_0, ?CC, ?HC; fin. Qed.
  Lemma zm_unitary b : unitary2 (zm b).
  Proof. unfold unitary2. destruct b; mats; rewrite ?sr_conj_mul, ?sr_conj_add, ?sr_conj_mul, ?conj_opp, ?conj_1, ?conj_0, ?CC, ?HC; fin. Qed.

  Lemma turn l : NoDup (map snd l) -> forall v x, thru um l (prod (pauli_mat ci) l v) x = prod sm l (thru um l v) x.
  Proof.
    induction l as [|[b t] l IH]; intros ND v x; [reflexivity|]. cbn [map snd] in ND. inversion ND as [|? ? N1 N2]; subst. rewrite !thru_cons, !prod_cons.
    rewrite (thru_ext um l _ (g1 (sm b) t (prod (pauli_mat ci) l (g1 (um b) t v)))).
    - rewrite thru_past by exact N1. apply g1_ext. intros y. now apply IH.
    - intros y. rewrite g1_mul, um_pauli, <- g1_mul. apply g1_ext. intros z. now apply prod_past.
  Qed.
  Lemma back l : NoDup (map snd l) -> forall v x, thru zm l (thru um l v) x = v x.
  Proof.
    induction l as [|[b t] l IH]; intros ND v x; [reflexivity|]. cbn [map snd] in ND. inversion ND as [|? ? N1 N2]; subst. rewrite !thru_cons. rewrite (thru_ext zm l _ (thru um l v)); [now apply IH|].
    intros y. rewrite <- thru_past by exact N1. apply thru_ext. intros z. rewrite g1_mul, zm_um. apply g1_one.
  Qed.
  Lemma sign_prod l v x : prod sm l v x = if par l x then - v x else v x.
  Proof.
    revert x. induction l as [|[b t] l IH]; intros x; [reflexivity|]. rewrite prod_cons. cbn [par fold_right fst snd]. fold (par l x).
    unfold g1, gate1, all_set. cbn [forallb]. destruct b; cbn [sm]; cbn [m00 m01 m10 m11 is_pi negb andb midn]; destruct (N.testbit x t) eqn:E; rewrite ?IH; destruct (par l x); cbn [xorb]; ring.
  Qed.
  (** Inner products. *)
  Definition vip (n : N) (a b : vec) : K := asum (fun x => sr_conj (a x) * b x) (basis n).
  Lemma vip_ext n a b a' b' : (forall x, a x = a' x) -> (forall x, b x = b' x) -> vip n a b = vip n a' b'.
  Proof. intros A B. apply asum_ext. intros x _. now rewrite A, B. Qed.
  Lemma vip_g1 n m t a b : (t < n)%N -> unitary2 m -> vip n (g1 m t a) (g1 m t b) = vip n a b.
  Proof.
    intros Ht U. unfold vip. set (g := fun x => if N.testbit x t then N.clearbit x t else N.setbit x t).
    assert (Hg : forall x, (x < 2 ^ n)%N -> (fun _ : N => true) x = true -> (g x < 2 ^ n)%N /\ (fun _ : N => true) (g x) = true /\ g (g x) = x /\ negb (N.testbit (g x) t) = negb (negb (N.testbit x t))).
    { intros x Hx _. unfold g. destruct (N.testbit x t) eqn:E.
      - rewrite tb_clearbit, N.eqb_refl, andb_false_r. repeat split; auto. now apply clearbit_lt.
        apply N.bits_inj. intros i. rewrite tb_setbit, tb_clearbit. destruct (N.eqb_spec t i); subst; cbn [orb negb]; auto. apply andb_true_r.
      - rewrite tb_setbit, N.eqb_refl. cbn [orb]. repeat split; auto. now apply setbit_lt.
        apply N.bits_inj. intros i. rewrite tb_clearbit, tb_setbit. destruct (N.eqb_spec t i); subst; cbn [orb negb]; rewrite ?andb_true_r; auto. }
    pose proof (asum_pairs n (fun _ => true) (fun x => negb (N.testbit x t)) g (fun x => sr_conj (g1 m t a x) * g1 m t b x) Hg) as E1.
    pose proof (asum_pairs n (fun _ => true) (fun x => negb (N.testbit x t)) g (fun x => sr_conj (a x) * b x) Hg) as E2.
    cbv beta iota in E1, E2. rewrite E1, E2. apply asum_ext. intros x _. cbn [andb]. destruct (N.testbit x t) eqn:E; cbn [negb]; [reflexivity|].
    unfold g. rewrite E. unfold g1, gate1, all_set. cbn [forallb]. rewrite E, tb_setbit, N.eqb_refl. cbn [orb].
    replace (N.clearbit (N.setbit x t) t) with x by (apply N.bits_inj; intros i; rewrite tb_clearbit, tb_setbit; destruct (N.eqb_spec t i); subst; cbn [orb negb]; rewrite ?andb_true_r, ?andb_false_r; auto).
    unfold unitary2, mmul, mdag, midn in U. destruct m as [p q r s]. cbn [m00 m01 m10 m11] in *. injection U as U1 U2 U3 U4. rewrite !sr_conj_add, !sr_conj_mul.
    set (a0 := a x); set (a1 := a (N.setbit x t)); set (b0 := b x); set (b1 := b (N.setbit x t)).
    transitivity ((sr_conj p * p + sr_conj r * r) * (b0 * sr_conj a0) + (sr_conj p * q + sr_conj r * s) * (b1 * sr_conj a0) + (sr_conj q * p + sr_conj s * r) * (b0 * sr_conj a1) + (sr_conj q * q + sr_conj s * s) * (b1 * sr_conj a1)).
    ring. rewrite U1, U2, U3, U4. ring.
  Qed.
  Lemma vip_thru n mf l : (forall b, unitary2 (mf b)) -> (forall t, In t (map snd l) -> (t < n)%N) -> forall a b, vip n (thru mf l a) (thru mf l b) = vip n a b.
  Proof.
    intros U. induction l as [|[b t] l IH]; intros HL x y; [reflexivity|]. rewrite !thru_cons. rewrite IH by (intros z Hz; apply HL; now right). apply vip_g1; auto. apply HL. now left.
  Qed.
  Lemma vip_norm n a : vip n a a = norm2 n a.
  Proof. unfold vip, norm2. apply asum_ext. intros x _. unfold anorm. ring. Qed.
  Lemma par_split n l w : weight_of n (par l) w + weight_of n (par l) w + vip n w (prod sm l w) = norm2 n w.
  Proof.
    unfold weight_of, vip, norm2. rewrite <- !asum_add. apply asum_ext. intros x _. rewrite sign_prod. unfold anorm. destruct (par l x); ring.
  Qed.
  (** The probability of odd parity after the change of basis. *)
  Lemma odd_weight n l v : NoDup (map snd l) -> (forall t, In t (map snd l) -> (t < n)%N) ->
    weight_of n (par l) (thru um l v) + weight_of n (par l) (thru um l v) + vip n v (prod (pauli_mat ci) l v) = norm2 n v.
  Proof.
    intros ND HL. rewrite <- (vip_thru n um l um_unitary HL v (prod (pauli_mat ci) l v)). rewrite (vip_ext n _ _ (thru um l v) (prod sm l (thru um l v)) (fun _ => eq_refl) (turn l ND v)).
    rewrite par_split. rewrite <- !vip_norm. apply vip_thru; auto. apply um_unitary.
  Qed.
  (** The state after the projection. *)
  Lemma g1_lin m t u v (s x : K) y : g1 m t (fun z => s * u z + x * v z) y = s * g1 m t u y + x * g1 m t v y.
  Proof. unfold g1, gate1. destruct (all_set [] y), (N.testbit y t); ring. Qed.
  Lemma thru_lin mf l : forall u v (s x : K) y, thru mf l (fun z => s * u z + x * v z) y = s * thru mf l u y + x * thru mf l v y.
  Proof.
    induction l as [|[b t] l IH]; intros u v s x y; [reflexivity|]. rewrite !thru_cons. rewrite <- IH. apply (thru_ext mf l). intros z. apply g1_lin.
  Qed.
  Lemma projected l v (r : bool) (k : K) x : NoDup (map snd l) -> let w := thru zm l (fun y => if eqb (par l y) r then k * thru um l v y else 0) in w x + w x = k * (v x + (if r then - prod (pauli_mat ci) l v x else prod (pauli_mat ci) l v x)).
  Proof.
    intros ND w. assert (E1 : prod (pauli_mat ci) l v x = thru zm l (prod sm l (thru um l v)) x). { rewrite <- (back l ND). apply thru_ext. intros y. now apply turn. }
    rewrite E1. rewrite <- (back l ND v x) at 1. set (W := thru um l v). transitivity (thru zm l (fun y => k * W y + (if r then - k else k) * prod sm l W y) x).
    - unfold w. fold W. transitivity (thru zm l (fun y => 1 * (if eqb (par l y) r then k * W y else 0) + 1 * (if eqb (par l y) r then k * W y else 0)) x); [rewrite thru_lin; ring|].
      apply thru_ext. intros y. rewrite sign_prod. destruct (par l y), r; cbn [eqb]; ring.
    - rewrite thru_lin. destruct r; ring.
  Qed.
  (** ** The mask *)
  Lemma odd_pow2 x t : (t < 64)%N -> odd_bits 64 (N.land x (2 ^ t)) = N.testbit x t.
  Proof.
    intros Ht. assert (E : forall k, odd_bits k (N.land x (2 ^ t)) = if (t <? N.of_nat k)%N then N.testbit x t else false).
    { induction k as [|k IH]; [destruct (N.ltb_spec t (N.of_nat 0)); [lia|reflexivity]|]. cbn [odd_bits]. rewrite IH, N.land_spec, tb_pow2. destruct (N.eqb_spec t (N.of_nat k)) as [->|NE].
      - rewrite N.ltb_irrefl. destruct (N.ltb_spec (N.of_nat k) (N.of_nat (S k))); [|lia]. now rewrite andb_true_r, xorb_false_r.
      - rewrite andb_false_r, xorb_false_l. destruct (N.ltb_spec t (N.of_nat k)), (N.ltb_spec t (N.of_nat (S k))); auto; lia. }
    rewrite E. change (N.of_nat 64) with 64%N. destruct (N.ltb_spec t 64); [reflexivity|lia].
  Qed.
  Lemma mask_acc qs : forall k x, NoDup qs -> (forall q, In q qs -> (q < 64)%N /\ N.testbit k q = false) ->
    odd_bits 64 (N.land x (fold_left (fun k q => N.lor k (2 ^ q)) qs k)) = xorb (odd_bits 64 (N.land x k)) (fold_right (fun q b => xorb (N.testbit x q) b) false qs).
  Proof.
    induction qs as [|q t IH]; intros k x ND H; cbn [fold_left fold_right]; [now rewrite xorb_false_r|]. inversion ND as [|? ? N1 N2]; subst. destruct (H q (or_introl eq_refl)) as [Q1 Q2].
    rewrite IH; auto.
    - replace (N.land x (N.lor k (2 ^ q))) with (N.lxor (N.land x k) (N.land x (2 ^ q))). { rewrite odd_bits_lxor, (odd_pow2 x q Q1). now rewrite xorb_assoc. }
      apply N.bits_inj. intros j. rewrite N.lxor_spec, !N.land_spec, N.lor_spec, tb_pow2. destruct (N.eqb_spec q j) as [<-|]; [rewrite Q2|]; destruct (N.testbit x _), (N.testbit k _); reflexivity.
    - intros z Hz. destruct (H z (or_intror Hz)) as [Z1 Z2]. split; auto. rewrite N.lor_spec, Z2, tb_pow2. destruct (N.eqb_spec q z); [subst; contradiction|reflexivity].
  Qed.
  Lemma mask_par (l : plist) x : NoDup (map snd l) -> (forall t, In t (map snd l) -> (t < 64)%N) -> odd_bits 64 (N.land x (mask_of (map snd (no_identities l)))) = par l x.
  Proof.
    intros ND HL. unfold mask_of. rewrite mask_acc.
    - rewrite N.land_0_r, odd_bits_0, xorb_false_l. clear ND HL. unfold no_identities. induction l as [|[b t] l IH]; [reflexivity|]. cbn [filter fst]. unfold par. cbn [fold_right fst snd]. fold (par l x). rewrite <- IH. destruct b; cbn [is_pi negb andb map fold_right snd]; rewrite ?xorb_false_l; reflexivity.
    - clear HL. unfold no_identities. induction l as [|[b t] l IH]; [constructor|]. cbn [map snd] in ND. inversion ND as [|? ? N1 N2]; subst. cbn [filter fst]. destruct b; cbn [is_pi negb map snd]; auto; constructor; auto; intros X; apply N1; apply in_map_iff in X; destruct X as (e & <- & E); apply filter_In in E; apply in_map; tauto.
    - intros q Hq. rewrite N.bits_0. split; auto. apply HL. apply in_map_iff in Hq. destruct Hq as (e & <- & E). apply filter_In in E. apply in_map. tauto.
  Qed.
  Lemma mask_bit qs : forall k j, N.testbit (fold_left (fun k q => N.lor k (2 ^ q)) qs k) j = N.testbit k j || existsb (N.eqb j) qs.
  Proof.
    induction qs as [|q t IH]; intros k j; cbn [fold_left existsb]; [now rewrite orb_false_r|]. rewrite IH, N.lor_spec, tb_pow2, <- orb_assoc. f_equal. now rewrite N.eqb_sym.
  Qed.
  Lemma mask_lt n qs : (forall q, In q qs -> (q < n)%N) -> (mask_of qs < 2 ^ n)%N.
  Proof.
    intros H. apply lt_pow2_bits. intros j Hj. unfold mask_of. rewrite mask_bit, N.bits_0. cbn [orb]. apply not_true_iff_false. intros X. apply existsb_exists in X. destruct X as (q & Q1 & Q2). apply N.eqb_eq in Q2. subst. apply H in Q1. lia.
  Qed.
End Pauli.
