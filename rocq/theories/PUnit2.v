(** Proofs for QUnit: the state held by engines and cached amplitudes. *)
From Coq Require Import NArith List Bool Lia Ring.
From Verif Require Import Bits MFunctions SpecFunctions PFunctions MKernel PKernel Amp PAmp SpecState PApply PCompose PGates PGates2 PQCirc2 PQCirc3 PEngine MShard SpecShard MUnit PShard1 PShard2 PShard5 PUnit1.
Import ListNotations.
Local Open Scope N_scope.

Local Notation up n := (upto (N.to_nat n)).
Lemma up_in n x : In x (up n) <-> x < n.
Proof. rewrite upto_in, N2Nat.id. reflexivity. Qed.

Section Prod.
  Context {K : StarRing}.
  Add Ring KrBO : (sr_ring K).
  Local Open Scope amp_scope.
  Definition aprod {A} (f : A -> K) (l : list A) : K := fold_right (fun p a => f p * a) 1 l.
  Lemma aprod_ext {A} (f g : A -> K) l : (forall p, In p l -> f p = g p) -> aprod f l = aprod g l.
  Proof.
    intros H. induction l as [|p l IH]; [reflexivity|]. cbn [aprod fold_right]. fold (aprod f l). fold (aprod g l).
    rewrite (H p (or_introl eq_refl)), IH; [reflexivity|]. intros q Hq. apply H. right. exact Hq.
  Qed.
  Lemma aprod_app {A} (f : A -> K) l l' : aprod f (l ++ l') = aprod f l * aprod f l'.
  Proof. unfold aprod. induction l as [|p l IH]; cbn [fold_right app]; [ring|]. rewrite IH. ring. Qed.
  Lemma aprod_one {A} (f : A -> K) l : (forall p, In p l -> f p = 1) -> aprod f l = 1.
  Proof.
    intros H. induction l as [|p l IH]; [reflexivity|]. cbn [aprod fold_right]. fold (aprod f l). rewrite (H p (or_introl eq_refl)), IH; [ring|]. intros q Hq. apply H. right. exact Hq.
  Qed.
  Definition but (u : N) (l : list N) : list N := filter (fun w => negb (w =? u)%N) l.
  Lemma but_in u l w : In w (but u l) <-> In w l /\ w <> u.
  Proof. unfold but. rewrite filter_In. destruct (N.eqb_spec w u); cbn [negb]; intuition congruence. Qed.
  Lemma but_notin u l : ~ In u l -> but u l = l.
  Proof.
    intros H. induction l as [|w l IH]; [reflexivity|]. cbn [but filter]. fold (but u l). destruct (N.eqb_spec w u) as [->|]; [destruct H; left; reflexivity|].
    cbn [negb]. rewrite IH; [reflexivity|]. intros E. apply H. right. exact E.
  Qed.
  Lemma aprod_at (f : N -> K) u l : NoDup l -> In u l -> aprod f l = f u * aprod f (but u l).
  Proof.
    intros ND Hu. induction l as [|w l IH]; [destruct Hu|]. apply NoDup_cons_iff in ND. destruct ND as [Hn ND]. cbn [aprod fold_right but filter].
    fold (aprod f l). fold (but u l). destruct (N.eqb_spec w u) as [->|Hwu]; cbn [negb].
    - rewrite (but_notin u l Hn). reflexivity.
    - destruct Hu as [->|Hu]; [congruence|]. rewrite (IH ND Hu). cbn [aprod fold_right]. fold (aprod f (but u l)). ring.
  Qed.
End Prod.

Section P.
  Context {K : StarRing} (cx : Cplx K).
  Add Ring KrBP : (sr_ring K).
  Local Notation vec := (N -> K).
  Local Notation unit1 x := (anorm x = 1%amp).
  Local Notation M2 := (mat2 K).
  Local Notation qu := (qunit K).
  Local Notation shs := (N -> qshard K).
  Implicit Types (psi phi : vec).

  (** The index of an engine within an index of all positions. *)
  Definition in_unit (s : qshard K) (u : N) : bool := match s_unit s with Some w => w =? u | None => false end.
  Lemma in_unit_iff s u : in_unit s u = true <-> s_unit s = Some u.
  Proof. unfold in_unit. destruct (s_unit s) as [w|]; [|split; discriminate]. rewrite N.eqb_eq. split; [intros ->; reflexivity|congruence]. Qed.
  Definition gather (n : N) (sh : shs) (u x : N) : N :=
    fold_right (fun p a => if in_unit (sh p) u && N.testbit x p then N.setbit a (s_map (sh p)) else a) 0 (up n).
  Lemma tb_gather n sh u x j :
    N.testbit (gather n sh u x) j = existsb (fun p => in_unit (sh p) u && N.testbit x p && (s_map (sh p) =? j)) (up n).
  Proof.
    unfold gather. induction (up n) as [|p l IH]; cbn [fold_right existsb]; [apply N.bits_0|].
    destruct (in_unit (sh p) u && N.testbit x p) eqn:E; cbn [andb orb]; [|exact IH]. rewrite tb_setbit, IH. reflexivity.
  Qed.
  Lemma gather_ext n sh sh' u x x' : (forall p, p < n -> in_unit (sh' p) u = in_unit (sh p) u) ->
    (forall p, p < n -> s_unit (sh p) = Some u -> s_map (sh' p) = s_map (sh p) /\ N.testbit x' p = N.testbit x p) -> gather n sh' u x' = gather n sh u x.
  Proof.
    intros HU HM. unfold gather. assert (H : forall p, In p (up n) -> p < n) by (intros p; apply up_in).
    induction (up n) as [|p l IH]; [reflexivity|]. cbn [fold_right]. rewrite IH by (intros q Hq; apply H; right; exact Hq).
    assert (Hp := H p (or_introl eq_refl)). rewrite (HU p Hp). destruct (in_unit (sh p) u) eqn:E; cbn [andb]; [|reflexivity].
    apply in_unit_iff in E. destruct (HM p Hp E) as [-> ->]. reflexivity.
  Qed.
  Definition loc (s : qshard K) (b : bool) : K := match s_unit s with Some _ => 1%amp | None => if b then s_a1 s else s_a0 s end.
  (** All engines and cached amplitudes together, each position in its own basis. *)
  Definition base_of (n next : N) (sh : shs) (eng : N -> N * vec) : vec := fun x =>
    (aprod (fun u => snd (eng u) (gather n sh u x)) (up next) * aprod (fun p => loc (sh p) (N.testbit x p)) (up n))%amp.
  Definition base (U : qu) : vec := base_of (u_n U) (u_next U) (u_sh U) (u_eng U).
  Lemma base_ext n next sh eng sh' eng' : (forall p, p < n -> s_unit (sh' p) = s_unit (sh p)) -> (forall p u, p < n -> s_unit (sh p) = Some u -> s_map (sh' p) = s_map (sh p)) ->
    (forall p, p < n -> s_unit (sh p) = None -> s_a0 (sh' p) = s_a0 (sh p) /\ s_a1 (sh' p) = s_a1 (sh p)) ->
    (forall u, u < next -> eng' u = eng u) -> same_state (base_of n next sh' eng') (base_of n next sh eng).
  Proof.
    intros HU HM HA HE x. unfold base_of. f_equal; apply aprod_ext; intros p Hp; apply up_in in Hp.
    - rewrite (HE p Hp). f_equal. apply gather_ext; [intros q Hq; unfold in_unit; rewrite (HU q Hq); reflexivity|].
      intros q Hq E. split; [apply (HM q p Hq E)|reflexivity].
    - unfold loc. rewrite (HU p Hp). destruct (s_unit (sh p)) eqn:E; [reflexivity|]. destruct (HA p Hp E) as [-> ->]. reflexivity.
  Qed.

  (** ** Layout *)
  Record placed (n next : N) (sh : shs) (eng : N -> N * vec) : Prop := mkPlaced {
    pl_in : forall p u, p < n -> s_unit (sh p) = Some u -> u < next /\ s_map (sh p) < fst (eng u);
    pl_inj : forall p q u, p < n -> q < n -> s_unit (sh p) = Some u -> s_unit (sh q) = Some u -> s_map (sh p) = s_map (sh q) -> p = q;
    pl_cov : forall u j, u < next -> j < fst (eng u) -> exists p, p < n /\ s_unit (sh p) = Some u /\ s_map (sh p) = j
  }.
  Section Placed.
    Context (n next : N) (sh : shs) (eng : N -> N * vec) (L : placed n next sh eng).
    Lemma gather_bit u x p : p < n -> s_unit (sh p) = Some u -> N.testbit (gather n sh u x) (s_map (sh p)) = N.testbit x p.
    Proof.
      intros Hp E. rewrite tb_gather. apply eq_iff_eq_true. rewrite existsb_exists. split.
      - intros (q & Hq & H). apply up_in in Hq. apply andb_prop in H. destruct H as [H H1]. apply andb_prop in H. destruct H as [H2 H3].
        apply N.eqb_eq in H1. apply in_unit_iff in H2. rewrite <- (pl_inj _ _ _ _ L q p u Hq Hp H2 E H1). exact H3.
      - intros H. exists p. split; [apply up_in, Hp|]. rewrite H, N.eqb_refl, (proj2 (in_unit_iff _ _) E). reflexivity.
    Qed.
    Lemma gather_out u x j : fst (eng u) <= j -> N.testbit (gather n sh u x) j = false.
    Proof.
      intros Hj. rewrite tb_gather. apply not_true_is_false. rewrite existsb_exists. intros (q & Hq & H). apply up_in in Hq.
      apply andb_prop in H. destruct H as [H H1]. apply andb_prop in H. destruct H as [H2 _]. apply N.eqb_eq in H1. apply in_unit_iff in H2.
      destruct (pl_in _ _ _ _ L q u Hq H2) as [_ H3]. lia.
    Qed.
    Lemma gather_lt u x : gather n sh u x < 2 ^ fst (eng u).
    Proof. apply lt_pow2_bits. intros j Hj. apply gather_out, Hj. Qed.
    Lemma gather_eq u x y : u < next -> y < 2 ^ fst (eng u) -> (forall p, p < n -> s_unit (sh p) = Some u -> N.testbit y (s_map (sh p)) = N.testbit x p) -> gather n sh u x = y.
    Proof.
      intros Hu Hy H. apply N.bits_inj. intros j. destruct (N.lt_ge_cases j (fst (eng u))) as [Hj|Hj].
      - destruct (pl_cov _ _ _ _ L u j Hu Hj) as (p & Hp & E & <-). rewrite gather_bit by assumption. symmetry. apply H; assumption.
      - rewrite gather_out by exact Hj. symmetry. apply (tb_high _ (fst (eng u))); assumption.
    Qed.
    Lemma gather_set u x p : p < n -> s_unit (sh p) = Some u -> gather n sh u (N.setbit x p) = N.setbit (gather n sh u x) (s_map (sh p)).
    Proof.
      intros Hp E. destruct (pl_in _ _ _ _ L p u Hp E) as [Hu Hm]. apply gather_eq; [exact Hu|apply setbit_lt; [apply gather_lt|exact Hm]|].
      intros q Hq Eq. rewrite !tb_setbit, gather_bit by assumption. f_equal. apply eq_iff_eq_true. rewrite !N.eqb_eq. split; [|congruence].
      intros H. apply (pl_inj _ _ _ _ L p q u Hp Hq E Eq H).
    Qed.
    Lemma gather_clear u x p : p < n -> s_unit (sh p) = Some u -> gather n sh u (N.clearbit x p) = N.clearbit (gather n sh u x) (s_map (sh p)).
    Proof.
      intros Hp E. destruct (pl_in _ _ _ _ L p u Hp E) as [Hu Hm]. apply gather_eq; [exact Hu|apply clearbit_lt, gather_lt|].
      intros q Hq Eq. rewrite !tb_clearbit, gather_bit by assumption. f_equal. f_equal. apply eq_iff_eq_true. rewrite !N.eqb_eq. split; [|congruence].
      intros H. apply (pl_inj _ _ _ _ L p q u Hp Hq E Eq H).
    Qed.
    Lemma gather_other u x x' p : (forall q, q <> p -> N.testbit x' q = N.testbit x q) -> s_unit (sh p) <> Some u -> gather n sh u x' = gather n sh u x.
    Proof. intros H E. apply gather_ext; [reflexivity|]. intros q Hq Eq. split; [reflexivity|]. apply H. congruence. Qed.

    Lemma base_at u x : u < next -> base_of n next sh eng x =
      (snd (eng u) (gather n sh u x) * (aprod (fun w => snd (eng w) (gather n sh w x)) (but u (up next)) * aprod (fun p => loc (sh p) (N.testbit x p)) (up n)))%amp.
    Proof. intros Hu. unfold base_of. rewrite (aprod_at _ u) by (apply upto_nodup || apply up_in, Hu). ring. Qed.
    Lemma loc_at p x : p < n -> base_of n next sh eng x =
      (loc (sh p) (N.testbit x p) * (aprod (fun w => snd (eng w) (gather n sh w x)) (up next) * aprod (fun p => loc (sh p) (N.testbit x p)) (but p (up n))))%amp.
    Proof. intros Hp. unfold base_of. rewrite (aprod_at (fun p => loc (sh p) (N.testbit x p)) p) by (apply upto_nodup || apply up_in, Hp). ring. Qed.
    (** A gate of an engine. *)
    Lemma base_eng eng' p u P m : p < n -> s_unit (sh p) = Some u -> (forall w, w < next -> w <> u -> eng' w = eng w) ->
      (forall y, y < 2 ^ fst (eng u) -> snd (eng' u) y = gate1 P (s_map (sh p)) m (snd (eng u)) y) ->
      same_state (base_of n next sh eng') (gate1 (fun x => P (gather n sh u x)) p m (base_of n next sh eng)).
    Proof.
      intros Hp E HW HU x. destruct (pl_in _ _ _ _ L p u Hp E) as [Hu Hm].
      set (rest := fun x => (aprod (fun w => snd (eng w) (gather n sh w x)) (but u (up next)) * aprod (fun p => loc (sh p) (N.testbit x p)) (up n))%amp).
      assert (R : forall x', (forall q, q <> p -> N.testbit x' q = N.testbit x q) -> rest x' = rest x).
      { intros x' H. unfold rest. f_equal; apply aprod_ext; intros w Hw.
        - apply but_in in Hw. rewrite (gather_other w x x' p H); [reflexivity|]. rewrite E. intros F. injection F as ->. destruct Hw. congruence.
        - destruct (N.eq_dec w p) as [->|Hwp]; [unfold loc; rewrite E; reflexivity|]. rewrite (H w Hwp). reflexivity. }
      assert (B : forall x', base_of n next sh eng x' = (snd (eng u) (gather n sh u x') * rest x')%amp) by (intros x'; apply base_at, Hu).
      transitivity (snd (eng' u) (gather n sh u x) * rest x)%amp.
      - unfold base_of. rewrite (aprod_at _ u) by (apply upto_nodup || apply up_in, Hu). unfold rest.
        rewrite (aprod_ext _ (fun w => snd (eng w) (gather n sh w x)) (but u (up next))); [ring|].
        intros w Hw. apply but_in in Hw. destruct Hw as [Hw Hwu]. apply up_in in Hw. rewrite (HW w Hw Hwu). reflexivity.
      - rewrite HU by (apply gather_lt). unfold gate1. rewrite !B.
        rewrite (gather_bit u x p Hp E), (gather_set u x p Hp E), (gather_clear u x p Hp E).
        rewrite (R (N.setbit x p)) by (intros q Hq; rewrite tb_setbit; destruct (N.eqb_spec p q); [congruence|reflexivity]).
        rewrite (R (N.clearbit x p)) by (intros q Hq; rewrite tb_clearbit; destruct (N.eqb_spec p q); [congruence|apply andb_true_r]).
        destruct (P _), (N.testbit x p); ring.
    Qed.
    (** A gate on cached amplitudes. *)
    Lemma base_loc sh' p m : p < n -> s_unit (sh p) = None -> (forall q, q < n -> q <> p -> sh' q = sh q) -> s_unit (sh' p) = None ->
      s_a0 (sh' p) = (m00 m * s_a0 (sh p) + m01 m * s_a1 (sh p))%amp -> s_a1 (sh' p) = (m10 m * s_a0 (sh p) + m11 m * s_a1 (sh p))%amp ->
      same_state (base_of n next sh' eng) (gate1 always p m (base_of n next sh eng)).
    Proof.
      intros Hp E HQ E' H0 H1 x.
      set (rest := fun x => (aprod (fun w => snd (eng w) (gather n sh w x)) (up next) * aprod (fun p => loc (sh p) (N.testbit x p)) (but p (up n)))%amp).
      assert (R : forall x', (forall q, q <> p -> N.testbit x' q = N.testbit x q) -> rest x' = rest x).
      { intros x' H. unfold rest. f_equal; apply aprod_ext; intros w Hw.
        - rewrite (gather_other w x x' p H); [reflexivity|]. rewrite E. discriminate.
        - apply but_in in Hw. destruct Hw as [_ Hw]. rewrite (H w Hw). reflexivity. }
      assert (B : forall x', base_of n next sh eng x' = (loc (sh p) (N.testbit x' p) * rest x')%amp) by (intros x'; apply loc_at, Hp).
      transitivity (loc (sh' p) (N.testbit x p) * rest x)%amp.
      - unfold base_of. rewrite (aprod_at (fun p => loc (sh' p) (N.testbit x p)) p) by (apply upto_nodup || apply up_in, Hp). unfold rest.
        rewrite (aprod_ext (fun u => snd (eng u) (gather n sh' u x)) (fun w => snd (eng w) (gather n sh w x)) (up next)).
        + rewrite (aprod_ext (fun p => loc (sh' p) (N.testbit x p)) (fun p => loc (sh p) (N.testbit x p)) (but p (up n))); [ring|].
          intros w Hw. apply but_in in Hw. destruct Hw as [Hw Hwp]. apply up_in in Hw. rewrite (HQ w Hw Hwp). reflexivity.
        + intros w _. f_equal. apply gather_ext.
          * intros q Hq. destruct (N.eq_dec q p) as [->|Hqp]; [unfold in_unit; rewrite E, E'; reflexivity|rewrite (HQ q Hq Hqp); reflexivity].
          * intros q Hq Eq. split; [|reflexivity]. rewrite (HQ q Hq); [reflexivity|congruence].
      - unfold gate1, always. rewrite !B.
        rewrite (R (N.setbit x p)) by (intros q Hq; rewrite tb_setbit; destruct (N.eqb_spec p q); [congruence|reflexivity]).
        rewrite (R (N.clearbit x p)) by (intros q Hq; rewrite tb_clearbit; destruct (N.eqb_spec p q); [congruence|apply andb_true_r]).
        unfold loc. rewrite E, E', H0, H1, tb_setbit, tb_clearbit, N.eqb_refl. cbn [negb orb]. rewrite andb_false_r. destruct (N.testbit x p); ring.
    Qed.
  End Placed.

  (** A qubit gets an engine of its own. *)
  Lemma base_emulate n next sh eng sh' eng' q c : q < n -> placed n next sh eng -> s_unit (sh q) = None -> (forall p, p < n -> p <> q -> sh' p = sh p) ->
    s_unit (sh' q) = Some next -> s_map (sh' q) = 0 -> (forall w, w < next -> eng' w = eng w) ->
    snd (eng' next) 0 = (c * s_a0 (sh q))%amp -> snd (eng' next) 1 = (c * s_a1 (sh q))%amp ->
    same_state (base_of n (next + 1) sh' eng') (fun x => c * base_of n next sh eng x)%amp.
  Proof.
    intros Hq L E HP E' HM HW H0 H1 x. rewrite (loc_at n next sh eng q x Hq). unfold base_of.
    replace (N.to_nat (next + 1)) with (S (N.to_nat next)) by lia. cbn [upto]. rewrite N2Nat.id, aprod_app. cbn [aprod fold_right].
    rewrite (aprod_at (fun p => loc (sh' p) (N.testbit x p)) q) by (apply upto_nodup || apply up_in, Hq).
    rewrite (aprod_ext (fun p => loc (sh' p) (N.testbit x p)) (fun p => loc (sh p) (N.testbit x p)) (but q (up n))).
    2:{ intros w Hw. apply but_in in Hw. destruct Hw as [Hw Hwq]. apply up_in in Hw. rewrite (HP w Hw Hwq). reflexivity. }
    rewrite (aprod_ext (fun u => snd (eng' u) (gather n sh' u x)) (fun u => snd (eng u) (gather n sh u x)) (up next)).
    2:{ intros w Hw. apply up_in in Hw. rewrite (HW w Hw). f_equal. apply gather_ext.
        - intros p Hp. destruct (N.eq_dec p q) as [->|Hpq]; [|rewrite (HP p Hp Hpq); reflexivity]. unfold in_unit. rewrite E, E'. apply N.eqb_neq. lia.
        - intros p Hp Ep. split; [|reflexivity]. rewrite (HP p Hp); [reflexivity|congruence]. }
    assert (G : gather n sh' next x = if N.testbit x q then 1 else 0).
    { apply N.bits_inj. intros j. rewrite tb_gather. transitivity (N.testbit x q && (j =? 0)).
      - apply eq_iff_eq_true. rewrite existsb_exists, andb_true_iff, N.eqb_eq. split.
        + intros (p & Hp & H). apply up_in in Hp. apply andb_prop in H. destruct H as [H Hj]. apply andb_prop in H. destruct H as [Hn Hb]. apply in_unit_iff in Hn. apply N.eqb_eq in Hj.
          destruct (N.eq_dec p q) as [->|Hpq]; [split; [exact Hb|congruence]|]. rewrite (HP p Hp Hpq) in Hn. destruct (pl_in _ _ _ _ L p next Hp Hn). lia.
        + intros [Hb ->]. exists q. split; [apply up_in, Hq|]. rewrite Hb, HM. rewrite (proj2 (in_unit_iff _ _) E'). reflexivity.
      - destruct (N.testbit x q); cbn [andb]; [|symmetry; apply N.bits_0]. destruct (N.eqb_spec j 0) as [->|Hj]; [reflexivity|]. symmetry. change 1 with (2 ^ 0). apply N.pow2_bits_false. lia. }
    rewrite G. unfold loc at 1 3. rewrite E, E'. destruct (N.testbit x q); [rewrite H1|rewrite H0]; ring.
  Qed.
End P.
