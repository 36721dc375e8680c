(** Swap-like gates; norm preservation and inverses. *)
From Coq Require Import NArith List Bool Lia Permutation Ring.
From Verif Require Import Bits MFunctions SpecFunctions PFunctions MParFor SpecParFor PParFor MKernel PKernel Amp PAmp SpecState MEngine SpecEngine PLoop PApply PGates.
Import ListNotations.
Local Open Scope N_scope.

Lemma tb_setto x i (v : bool) m : N.testbit (if v then N.setbit x i else N.clearbit x i) m = if i =? m then v else N.testbit x m.
Proof.
  destruct v; rewrite ?tb_setbit, ?tb_clearbit; destruct (N.eqb_spec i m); cbn [orb negb]; auto.
  apply andb_false_r. apply andb_true_r.
Qed.
Lemma tb_swap a b x m : N.testbit (swap_bits a b x) m =
  if a =? m then N.testbit x b else if b =? m then N.testbit x a else N.testbit x m.
Proof. unfold swap_bits. now rewrite !tb_setto. Qed.
Lemma swap_bits_lxor a b x : a <> b -> xorb (N.testbit x a) (N.testbit x b) = true ->
  N.lxor x (N.lxor (2 ^ a) (2 ^ b)) = swap_bits a b x.
Proof.
  intros Hab Hx. apply N.bits_inj. intros m. rewrite tb_swap, !N.lxor_spec, !tb_pow2.
  destruct (N.eqb_spec a m), (N.eqb_spec b m); subst; try congruence.
  - destruct (N.testbit x m), (N.testbit x b); simpl in *; congruence.
  - destruct (N.testbit x m), (N.testbit x a); simpl in *; congruence.
  - now rewrite !xorb_false_r.
Qed.
Lemma swap_bits_invol a b x : swap_bits a b (swap_bits a b x) = x.
Proof.
  apply N.bits_inj. intros m. rewrite !tb_swap. rewrite ?N.eqb_refl.
  destruct (N.eqb_spec a b), (N.eqb_spec a m), (N.eqb_spec b m); subst; congruence.
Qed.
Lemma swap_bits_lt a b x n : a < n -> b < n -> x < 2 ^ n -> swap_bits a b x < 2 ^ n.
Proof.
  intros Ha Hb Hx. apply lt_pow2_bits. intros m Hm. rewrite tb_swap.
  destruct (N.eqb_spec a m), (N.eqb_spec b m); try lia. now apply (tb_high x n).
Qed.

Section Swap.
  Context {K : StarRing}.
  Variable c : cfg.
  Add Ring Kr3 : (sr_ring K).
  Local Notation V := (mem K).

  Lemma apply_swap n cs a b s (m : mat2 K) psi r (P : N -> bool) : fits c n -> NoDup (cs ++ [a; b]) ->
    (forall q, In q (cs ++ [a; b]) -> q < n) -> only_bits cs s -> (forall x, P x = true <-> agree cs x s) ->
    Apply2x2 c n (N.lor s (pow2Ocl a)) (N.lor s (pow2Ocl b)) m (nsort (map pow2Ocl cs ++ [pow2Ocl a; pow2Ocl b])) (Some psi) r ->
    exists psi', r = Ok (Some psi') /\ eqv n psi' (gate_swap P a b m psi).
  Proof.
    intros Hf ND Hin Hb HP. assert (Hn : n < 64) by apply Hf.
    assert (Ha' : a < n) by (apply Hin, in_or_app; simpl; auto).
    assert (Hb' : b < n) by (apply Hin, in_or_app; simpl; auto).
    assert (Hac : ~ In a cs /\ ~ In b cs /\ a <> b).
    { pose proof (NoDup_remove_2 cs [b] a ND) as H1.
      replace (cs ++ [a; b]) with ((cs ++ [a]) ++ [b]) in ND by (rewrite <- app_assoc; reflexivity).
      pose proof (NoDup_remove_2 (cs ++ [a]) [] b ND) as H2. rewrite app_nil_r in H2.
      repeat split; intros H; [apply H1; apply in_or_app; auto | apply H2; apply in_or_app; auto | subst; apply H1; apply in_or_app; simpl; auto]. }
    destruct Hac as [Hac [Hbc Hab]].
    replace (map pow2Ocl cs ++ [pow2Ocl a; pow2Ocl b]) with (map pow2Ocl (cs ++ [a; b])) by (rewrite map_app; reflexivity).
    rewrite (map_pow2Ocl n) by (auto; lia). rewrite nsort_pow, !pow2Ocl_small by lia.
    assert (Hs : s < 2 ^ n).
    { apply lt_pow2_bits. intros i Hi. destruct (N.testbit s i) eqn:E; auto.
      specialize (Hin i ltac:(apply in_or_app; auto)). lia. }
    assert (Hsa : N.testbit s a = false) by (destruct (N.testbit s a) eqn:E; auto; exfalso; auto).
    assert (Hsb : N.testbit s b = false) by (destruct (N.testbit s b) eqn:E; auto; exfalso; auto).
    assert (Hx2 : N.lxor (N.lor s (2 ^ a)) (N.lor s (2 ^ b)) = N.lxor (2 ^ a) (2 ^ b)).
    { apply N.bits_inj. intros i. rewrite !N.lxor_spec, !N.lor_spec, !tb_pow2.
      destruct (N.eqb_spec a i), (N.eqb_spec b i); subst; rewrite ?Hsa, ?Hsb, ?orb_false_r; auto.
      destruct (N.testbit s i); auto. }
    assert (T : forall o i, agree [a; b] i o <-> N.testbit i a = N.testbit o a /\ N.testbit i b = N.testbit o b).
    { intros o i. unfold agree. split. intros H. split; apply H; simpl; auto. intros [H1 H2] p [<-|[<-|[]]]; auto. }
    intros HA. apply apply2x2_ok in HA; auto.
    - destruct HA as [psi' [-> HA]]. exists psi'. split; auto. intros x Hx. specialize (HA x Hx). rewrite Hx2 in HA.
      destruct HA as [A [B C]]. rewrite agree_sort, agree_app, T in A, B, C. rewrite agree_sort, agree_app, T in C.
      assert (Eab : (a =? b) = false) by now apply N.eqb_neq. assert (Eba : (b =? a) = false) by (apply N.eqb_neq; auto).
      assert (T1 : N.testbit (N.lor s (2 ^ a)) a = true) by (rewrite N.lor_spec, tb_pow2, N.eqb_refl; apply orb_true_r).
      assert (T2 : N.testbit (N.lor s (2 ^ a)) b = false) by (rewrite N.lor_spec, tb_pow2, Hsb, Eab; auto).
      assert (T3 : N.testbit (N.lor s (2 ^ b)) b = true) by (rewrite N.lor_spec, tb_pow2, N.eqb_refl; apply orb_true_r).
      assert (T4 : N.testbit (N.lor s (2 ^ b)) a = false) by (rewrite N.lor_spec, tb_pow2, Hsa, Eba; auto).
      rewrite T1, T2 in A. rewrite T3, T4 in B. rewrite T1, T2, T3, T4 in C.
      assert (H3 : forall d, ~ In d cs -> agree cs x (N.lor s (2 ^ d)) <-> P x = true).
      { intros d Hd. rewrite HP. unfold agree. split; intros H p Hp; specialize (H p Hp); rewrite H; rewrite N.lor_spec, tb_pow2;
        destruct (N.eqb_spec d p); try congruence; now rewrite orb_false_r. }
      rewrite (H3 a) in A, C by auto. rewrite (H3 b) in B, C by auto.
      unfold gate_swap. destruct (P x) eqn:EP; cbn [andb].
      + destruct (N.testbit x a) eqn:Ea, (N.testbit x b) eqn:Eb; cbn [xorb].
        * apply C; intros [_ [? ?]]; discriminate.
        * rewrite A by auto. rewrite swap_bits_lxor; auto. now rewrite Ea, Eb.
        * rewrite B by auto. rewrite swap_bits_lxor; auto. now rewrite Ea, Eb.
        * apply C; intros [_ [? ?]]; discriminate.
      + apply C; intros [? ?]; discriminate.
    - apply nsort_increasing; auto.
    - apply only_bits_sort. intros i Hi. apply in_or_app. rewrite N.lor_spec, tb_pow2 in Hi. apply orb_true_iff in Hi.
      destruct Hi as [Hi|Hi]; auto. right. apply N.eqb_eq in Hi. simpl; auto.
    - apply only_bits_sort. intros i Hi. apply in_or_app. rewrite N.lor_spec, tb_pow2 in Hi. apply orb_true_iff in Hi.
      destruct Hi as [Hi|Hi]; auto. right. apply N.eqb_eq in Hi. simpl; auto.
    - apply lor_lt_pow2; auto. now apply pow2_lt_mono.
    - apply lor_lt_pow2; auto. now apply pow2_lt_mono.
    - intros E. rewrite <- E, N.lxor_nilpotent in Hx2. symmetry in Hx2. apply N.lxor_eq in Hx2. apply N.pow_inj_r in Hx2; auto. lia.
  Qed.

  Lemma gate_swap_sym P a b (m : mat2 K) (psi : V) x : sym2 m -> gate_swap P a b m psi x = gate_swap P b a m psi x.
  Proof.
    intros [E1 E2]. unfold gate_swap. rewrite (xorb_comm (N.testbit x b)).
    assert (E : swap_bits b a x = swap_bits a b x).
    { apply N.bits_inj. intros m'. rewrite !tb_swap. destruct (N.eqb_spec a m'), (N.eqb_spec b m'); subst; auto. }
    rewrite E. destruct (P x && xorb (N.testbit x a) (N.testbit x b)) eqn:Ex; auto.
    apply andb_true_iff in Ex. destruct Ex as [_ Ex].
    destruct (N.testbit x a), (N.testbit x b); try discriminate; rewrite E1, E2; ring.
  Qed.

  Theorem swap_like_ok anti n cs (m : mat2 K) a b (psi : V) r : fits c n -> sym2 m -> NoDup (cs ++ [a; b]) ->
    (forall q, In q (cs ++ [a; b]) -> q < n) -> CSwapLike c anti n cs m a b (Some psi) r ->
    exists psi', r = Ok (Some psi') /\ eqv n psi' (gate_swap (if anti then all_clear cs else all_set cs) a b m psi).
  Proof.
    intros Hf Hsym ND Hin H.
    assert (Hn : n < 64) by apply Hf.
    assert (Hab : a <> b).
    { intros ->. replace (cs ++ [b; b]) with ((cs ++ [b]) ++ [b]) in ND by (rewrite <- app_assoc; reflexivity).
      pose proof (NoDup_remove_2 (cs ++ [b]) [] b ND) as H2. rewrite app_nil_r in H2. apply H2, in_or_app. simpl; auto. }
    assert (Hq : forall x, In x cs -> x < 64).
    { intros x Hx. specialize (Hin x ltac:(apply in_or_app; auto)). lia. }
    set (P := if anti then all_clear cs else all_set cs).
    assert (G : forall a b, NoDup (cs ++ [a; b]) -> (forall q, In q (cs ++ [a; b]) -> q < n) ->
      Apply2x2 c n (N.lor (if anti then 0 else or_pows cs) (pow2Ocl a)) (N.lor (if anti then 0 else or_pows cs) (pow2Ocl b)) m
        (nsort (map pow2Ocl cs ++ [pow2Ocl a; pow2Ocl b])) (Some psi) r ->
      exists psi', r = Ok (Some psi') /\ eqv n psi' (gate_swap P a b m psi)).
    { intros a' b' ND' Hin' H'. eapply apply_swap; eauto.
      - destruct anti. intros i Hi. now rewrite N.bits_0 in Hi. intros i Hi. apply or_pows_bit in Hi; auto.
      - intros x. unfold P. destruct anti. apply all_clear_agree. apply all_set_agree; auto. }
    assert (ND2 : NoDup (cs ++ [b; a])).
    { eapply Permutation_NoDup; [|exact ND]. apply Permutation_app_head, perm_swap. }
    assert (Hin2 : forall q, In q (cs ++ [b; a]) -> q < n).
    { intros q Hq'. apply Hin. apply in_app_or in Hq'. apply in_or_app. simpl in *. tauto. }
    assert (H0 : (if a =? b then r = Ok (Some psi) else
      Apply2x2 c n (N.lor (if anti then 0 else or_pows cs) (pow2Ocl (N.min a b))) (N.lor (if anti then 0 else or_pows cs) (pow2Ocl (N.max a b))) m
        (nsort (map pow2Ocl cs ++ [pow2Ocl (N.min a b); pow2Ocl (N.max a b)])) (Some psi) r)).
    { unfold CSwapLike in H. destruct cs as [|q cs'] eqn:Ecs; auto. unfold SwapLike in H.
      destruct (N.eqb_spec a b); auto. unfold or_pows. cbn [fold_left map app].
      replace (if anti then 0 else 0) with 0 by (destruct anti; auto). rewrite !N.lor_0_l.
      assert (Hm : N.min a b < N.max a b) by lia. assert (Hmx : N.max a b < n) by (pose proof (Hin a); pose proof (Hin b); simpl in *; lia).
      rewrite !pow2Ocl_small in * by lia. pose proof (pow2_lt_mono _ _ Hm).
      cbn [nsort ninsert]. destruct (N.leb_spec (2 ^ N.min a b) (2 ^ N.max a b)); try lia. exact H. }
    clear H. destruct (N.eqb_spec a b); [contradiction|].
    destruct (N.lt_ge_cases a b) as [L|L].
    - rewrite N.min_l, N.max_r in H0 by lia. eapply G; eauto.
    - rewrite N.min_r, N.max_l in H0 by lia. apply G in H0; auto. destruct H0 as [psi' [-> H0]]. exists psi'. split; auto.
      intros x Hx. rewrite H0 by auto. now apply gate_swap_sym.
  Qed.

  (** Swap exchanges the two qubits. *)
  Lemma gate_swap_X P a b (psi : V) x : gate_swap P a b matX psi x = if P x then psi (swap_bits a b x) else psi x.
  Proof.
    unfold gate_swap, matX. cbn [m00 m01 m10 m11]. destruct (P x); cbn [andb]; auto.
    destruct (N.testbit x a) eqn:Ea, (N.testbit x b) eqn:Eb; cbn [xorb].
    - f_equal. apply N.bits_inj. intros m. rewrite tb_swap. destruct (N.eqb_spec a m), (N.eqb_spec b m); subst; congruence.
    - ring.
    - ring.
    - f_equal. apply N.bits_inj. intros m. rewrite tb_swap. destruct (N.eqb_spec a m), (N.eqb_spec b m); subst; congruence.
  Qed.
End Swap.

(** ** Norm and inverse, at the level of the specification *)
Section Norm.
  Context {K : StarRing}.
  Add Ring Kr4 : (sr_ring K).
  Local Notation V := (N -> K).

  (** Sum over all basis states, in pairs exchanged by an involution [g] without fixed points among [P]. *)
  Lemma asum_pairs n (P : N -> bool) (lead : N -> bool) (g : N -> N) (f : N -> K) :
    (forall x, x < 2 ^ n -> P x = true -> g x < 2 ^ n /\ P (g x) = true /\ g (g x) = x /\ lead (g x) = negb (lead x)) ->
    asum (fun x => if P x then f x else 0%amp) (basis n) =
    asum (fun x => if P x && lead x then (f x + f (g x))%amp else 0%amp) (basis n).
  Proof.
    intros Hg.
    assert (E1 : asum (fun x => if P x then f x else 0%amp) (basis n) =
      (asum (fun x => if P x && lead x then f x else 0%amp) (basis n) + asum (fun x => if P x && negb (lead x) then f x else 0%amp) (basis n))%amp).
    { rewrite <- asum_add. apply asum_ext. intros x _. destruct (P x), (lead x); cbn [andb negb]; ring. }
    assert (E2 : asum (fun x => if P x && negb (lead x) then f x else 0%amp) (basis n) =
                 asum (fun x => if P x && lead x then f (g x) else 0%amp) (basis n)).
    { rewrite <- (asum_enum n (fun x => P x && negb (lead x)) f (map g (filter (fun x => P x && lead x) (basis n)))).
      - rewrite asum_map. now rewrite asum_filter.
      - eapply enum_map; [apply enum_filter| |].
        + intros x y [Hx Px] [Hy Py] E. apply andb_true_iff in Px, Py. destruct Px as [Px _], Py as [Py _].
          rewrite <- (proj1 (proj2 (proj2 (Hg x Hx Px)))), <- (proj1 (proj2 (proj2 (Hg y Hy Py)))). now rewrite E.
        + intros y. split.
          * intros [Hy Py]. apply andb_true_iff in Py. destruct Py as [Py Ly]. destruct (Hg y Hy Py) as [A [B [C D]]].
            exists (g y). split; auto. split; auto. rewrite B, D. now rewrite Ly.
          * intros [x [[Hx Px] <-]]. apply andb_true_iff in Px. destruct Px as [Px Lx]. destruct (Hg x Hx Px) as [A [B [C D]]].
            split; auto. rewrite B, D, Lx. reflexivity. }
    rewrite E1, E2, <- asum_add. apply asum_ext. intros x _. destruct (P x && lead x); ring.
  Qed.

  Definition indep (P : N -> bool) (t : N) : Prop := forall x, P (N.setbit x t) = P x /\ P (N.clearbit x t) = P x.

  Lemma unitary_pair (m : mat2 K) a b : unitary2 m ->
    (anorm (m00 m * a + m01 m * b) + anorm (m10 m * a + m11 m * b) = anorm a + anorm b)%amp.
  Proof.
    intros U. unfold unitary2, mmul, mdag, midn in U. destruct m as [p q r s]. cbn [m00 m01 m10 m11] in *.
    injection U as U1 U2 U3 U4. unfold anorm. rewrite !sr_conj_add, !sr_conj_mul.
    transitivity ((sr_conj p * p + sr_conj r * r) * (a * sr_conj a) + (sr_conj p * q + sr_conj r * s) * (b * sr_conj a)
      + (sr_conj q * p + sr_conj s * r) * (a * sr_conj b) + (sr_conj q * q + sr_conj s * s) * (b * sr_conj b))%amp.
    ring. rewrite U1, U2, U3, U4. ring.
  Qed.

  Lemma weight_split n (P : N -> bool) (psi : V) :
    (norm2 n psi = weight_of n P psi + weight_of n (fun x => negb (P x)) psi)%amp.
  Proof.
    unfold norm2, weight_of. rewrite <- asum_add. apply asum_ext. intros x _. destruct (P x); cbn [negb]; ring.
  Qed.

  Theorem gate1_norm n P t (m : mat2 K) psi : t < n -> indep P t -> unitary2 m -> norm2 n (gate1 P t m psi) = norm2 n psi.
  Proof.
    intros Ht HP U. rewrite (weight_split n P), (weight_split n P psi). f_equal.
    - unfold weight_of.
      assert (Hg : forall x, x < 2 ^ n -> P x = true -> (fun x => if N.testbit x t then N.clearbit x t else N.setbit x t) x < 2 ^ n /\
        P ((fun x => if N.testbit x t then N.clearbit x t else N.setbit x t) x) = true /\
        (fun x => if N.testbit x t then N.clearbit x t else N.setbit x t) ((fun x => if N.testbit x t then N.clearbit x t else N.setbit x t) x) = x /\
        negb (N.testbit ((fun x => if N.testbit x t then N.clearbit x t else N.setbit x t) x) t) = negb (negb (N.testbit x t))).
      { intros x Hx HPx. cbn beta. destruct (N.testbit x t) eqn:E.
        - rewrite tb_clearbit, N.eqb_refl, andb_false_r. destruct (HP x) as [_ ->]. repeat split; auto. now apply clearbit_lt.
          apply N.bits_inj. intros i. rewrite tb_setbit, tb_clearbit. destruct (N.eqb_spec t i); subst; cbn [orb negb]; auto. apply andb_true_r.
        - rewrite tb_setbit, N.eqb_refl. cbn [orb]. destruct (HP x) as [-> _]. repeat split; auto. now apply setbit_lt.
          apply N.bits_inj. intros i. rewrite tb_clearbit, tb_setbit. destruct (N.eqb_spec t i); subst; cbn [orb negb]; rewrite ?andb_true_r; auto. }
      rewrite (asum_pairs n P (fun x => negb (N.testbit x t)) _ (fun x => anorm (gate1 P t m psi x)) Hg).
      rewrite (asum_pairs n P (fun x => negb (N.testbit x t)) _ (fun x => anorm (psi x)) Hg).
      apply asum_ext. intros x Hx. destruct (P x) eqn:EP; auto. destruct (N.testbit x t) eqn:E; cbn [negb andb]; auto.
      cbn beta. rewrite ?E. rewrite <- (unitary_pair m (psi x) (psi (N.setbit x t))) by auto. unfold gate1.
      destruct (HP x) as [-> _]. rewrite EP, E, tb_setbit, N.eqb_refl. cbn [orb].
      replace (N.clearbit (N.setbit x t) t) with x. reflexivity.
      apply N.bits_inj. intros i. rewrite tb_clearbit, tb_setbit. destruct (N.eqb_spec t i); subst; cbn [orb negb]; rewrite ?andb_true_r, ?andb_false_r; auto.
    - unfold weight_of. apply asum_ext. intros x _. unfold gate1. destruct (P x); auto.
  Qed.

  Lemma gate1_compose P t (a b : mat2 K) psi : indep P t -> forall x, gate1 P t a (gate1 P t b psi) x = gate1 P t (mmul a b) psi x.
  Proof.
    intros HP x. unfold gate1. destruct (HP x) as [HS HC]. rewrite HS, HC.
    assert (T1 : N.testbit (N.setbit x t) t = true) by (rewrite tb_setbit, N.eqb_refl; auto).
    assert (T2 : N.testbit (N.clearbit x t) t = false) by (rewrite tb_clearbit, N.eqb_refl; apply andb_false_r).
    destruct (P x); auto. rewrite T1, T2. unfold mmul. cbn [m00 m01 m10 m11]. destruct (N.testbit x t) eqn:E.
    - replace (N.setbit (N.clearbit x t) t) with x.
      + ring.
      + apply N.bits_inj. intros i. rewrite tb_setbit, tb_clearbit. destruct (N.eqb_spec t i); subst; cbn [orb negb]; rewrite ?andb_true_r; auto.
    - replace (N.clearbit (N.setbit x t) t) with x.
      + ring.
      + apply N.bits_inj. intros i. rewrite tb_clearbit, tb_setbit. destruct (N.eqb_spec t i); subst; cbn [orb negb]; rewrite ?andb_true_r, ?andb_false_r; auto.
  Qed.
  Lemma gate1_inverse P t (m : mat2 K) psi : indep P t -> unitary2 m -> forall x, gate1 P t (mdag m) (gate1 P t m psi) x = psi x.
  Proof. intros HP U x. rewrite gate1_compose by auto. rewrite U. apply gate1_one. Qed.

  (** A left inverse of a 2x2 matrix over a commutative ring is a right inverse. *)
  Lemma unitary_dag (m : mat2 K) : unitary2 m -> unitary2 (mdag m).
  Proof.
    intros U. unfold unitary2, mmul, mdag, midn in *. destruct m as [p q r s]. cbn [m00 m01 m10 m11] in *.
    injection U as U1 U2 U3 U4. rewrite !sr_conj_invol.
    set (p' := sr_conj p) in *. set (q' := sr_conj q) in *. set (r' := sr_conj r) in *. set (s' := sr_conj s) in *.
    (* determinants: (p s - q r) (p' s' - q' r') = 1 *)
    assert (D : ((p * s - q * r) * (p' * s' - q' * r') = 1)%amp).
    { transitivity ((p' * p + r' * r) * (q' * q + s' * s) - (p' * q + r' * s) * (q' * p + s' * r))%amp. ring.
      rewrite U1, U2, U3, U4. ring. }
    set (d := (p * s - q * r)%amp) in *. set (d' := (p' * s' - q' * r')%amp) in *.
    (* inverse by adjugate *)
    assert (A1 : p' = (d' * s)%amp).
    { transitivity ((p' * p + r' * r) * (d' * s) - (p' * q + r' * s) * (d' * r))%amp.
      - transitivity (p' * (d * d'))%amp. rewrite D. ring. unfold d. ring.
      - rewrite U1, U2. ring. }
    assert (A2 : r' = (- (d' * q))%amp).
    { transitivity ((p' * q + r' * s) * (d' * p) - (p' * p + r' * r) * (d' * q))%amp.
      - transitivity (r' * (d * d'))%amp. rewrite D. ring. unfold d. ring.
      - rewrite U1, U2. ring. }
    assert (A3 : q' = (- (d' * r))%amp).
    { transitivity ((q' * p + s' * r) * (d' * s) - (q' * q + s' * s) * (d' * r))%amp.
      - transitivity (q' * (d * d'))%amp. rewrite D. ring. unfold d. ring.
      - rewrite U3, U4. ring. }
    assert (A4 : s' = (d' * p)%amp).
    { transitivity ((q' * q + s' * s) * (d' * p) - (q' * p + s' * r) * (d' * q))%amp.
      - transitivity (s' * (d * d'))%amp. rewrite D. ring. unfold d. ring.
      - rewrite U3, U4. ring. }
    clearbody d'. rewrite A1, A2, A3, A4. f_equal; [rewrite <- D; unfold d; ring | ring | ring | rewrite <- D; unfold d; ring].
  Qed.

  Lemma gate_swap_norm n P a b (m : mat2 K) psi : a < n -> b < n -> a <> b -> (forall x, P (swap_bits a b x) = P x) -> unitary2 m ->
    norm2 n (gate_swap P a b m psi) = norm2 n psi.
  Proof.
    intros Ha Hb Hab HP U. set (Q := fun x => P x && xorb (N.testbit x a) (N.testbit x b)).
    assert (Nab : (a =? b) = false) by now apply N.eqb_neq.
    assert (HQ : forall x, Q (swap_bits a b x) = Q x).
    { intros x. unfold Q. rewrite HP, !tb_swap, !N.eqb_refl, Nab, xorb_comm. reflexivity. }
    rewrite (weight_split n Q), (weight_split n Q psi). f_equal.
    - unfold weight_of.
      assert (Hg : forall x, x < 2 ^ n -> Q x = true -> swap_bits a b x < 2 ^ n /\ Q (swap_bits a b x) = true /\
        swap_bits a b (swap_bits a b x) = x /\ N.testbit (swap_bits a b x) a = negb (N.testbit x a)).
      { intros x Hx HQx. rewrite HQ, swap_bits_invol. repeat split; auto. now apply swap_bits_lt.
        rewrite tb_swap, N.eqb_refl. unfold Q in HQx. apply andb_true_iff in HQx. destruct HQx as [_ HQx].
        destruct (N.testbit x a), (N.testbit x b); auto; discriminate. }
      rewrite (asum_pairs n Q (fun x => N.testbit x a) _ (fun x => anorm (gate_swap P a b m psi x)) Hg).
      rewrite (asum_pairs n Q (fun x => N.testbit x a) _ (fun x => anorm (psi x)) Hg).
      apply asum_ext. intros x Hx. destruct (Q x) eqn:EQ; auto. destruct (N.testbit x a) eqn:E; cbn [andb]; auto.
      rewrite <- (unitary_pair m (psi x) (psi (swap_bits a b x))) by auto. unfold gate_swap.
      fold (Q x). fold (Q (swap_bits a b x)). rewrite HQ, EQ, E. rewrite tb_swap, N.eqb_refl, swap_bits_invol.
      unfold Q in EQ. apply andb_true_iff in EQ. destruct EQ as [_ EQ]. rewrite E in EQ. destruct (N.testbit x b); try discriminate. reflexivity.
    - unfold weight_of. apply asum_ext. intros x _. unfold gate_swap. fold (Q x). destruct (Q x); auto.
  Qed.
End Norm.

Lemma indep_always t : indep always t.
Proof. split; reflexivity. Qed.
Lemma indep_all_set cs t : ~ In t cs -> indep (all_set cs) t.
Proof.
  intros H x. unfold all_set. split; (induction cs as [|q cs IH]; simpl; auto;
  rewrite IH by (intros ?; apply H; simpl; auto); f_equal; assert (t <> q) by (intros ->; apply H; simpl; auto);
  rewrite ?tb_setbit, ?tb_clearbit; destruct (N.eqb_spec t q); try contradiction; cbn [negb orb]; rewrite ?andb_true_r; auto).
Qed.
Lemma indep_all_clear cs t : ~ In t cs -> indep (all_clear cs) t.
Proof.
  intros H x. unfold all_clear. split; (induction cs as [|q cs IH]; simpl; auto;
  rewrite IH by (intros ?; apply H; simpl; auto); f_equal; assert (t <> q) by (intros ->; apply H; simpl; auto);
  rewrite ?tb_setbit, ?tb_clearbit; destruct (N.eqb_spec t q); try contradiction; cbn [negb orb]; rewrite ?andb_true_r; auto).
Qed.
Lemma indep_match_perm cs p t : ~ In t cs -> forall i, indep (match_perm i cs p) t.
Proof.
  intros H i x. split; revert i; (induction cs as [|q cs IH]; intros i; simpl; auto;
  rewrite IH by (intros ?; apply H; simpl; auto); f_equal; assert (t <> q) by (intros ->; apply H; simpl; auto);
  rewrite ?tb_setbit, ?tb_clearbit; destruct (N.eqb_spec t q); try contradiction; cbn [negb orb]; rewrite ?andb_true_r; auto).
Qed.
