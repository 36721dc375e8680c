(** Proofs for QUnit: sums over all engines and cached amplitudes are products of sums. *)
From Coq Require Import Arith NArith List Bool Lia Ring Permutation.
From Verif Require Import Bits MFunctions SpecFunctions PFunctions MKernel PKernel Amp PAmp SpecState PApply PCompose PGates PGates2 PQCirc2 PQCirc3 PEngine MShard SpecShard MUnit PShard1 PShard2 PShard5 PUnit1 PUnit2 PUnit3 PUnit4.
Import ListNotations.
Local Open Scope N_scope.
Local Notation up n := (upto (N.to_nat n)).

Section P.
  Context {K : StarRing}.
  Add Ring KrCL : (sr_ring K).
  Local Notation vec := (N -> K).
  Local Notation shs := (N -> qshard K).

  (** The sum over all values of the listed bits. *)
  Fixpoint msum (l : list N) (f : vec) (x : N) : K :=
    match l with
    | [] => f x
    | p :: l => (msum l f (N.clearbit x p) + msum l f (N.setbit x p))%amp
    end.
  Lemma msum_ext l (f g : vec) : (forall x, f x = g x) -> forall x, msum l f x = msum l g x.
  Proof. intros H. induction l as [|p l IH]; intros x; cbn [msum]; [apply H|rewrite !IH; reflexivity]. Qed.
  Lemma msum_app l l' (f : vec) : forall x, msum (l ++ l') f x = msum l (msum l' f) x.
  Proof. induction l as [|p l IH]; intros x; cbn [msum app]; [reflexivity|rewrite !IH; reflexivity]. Qed.
  Lemma bits_eq x y : (forall j, N.testbit x j = N.testbit y j) -> x = y. Proof. apply N.bits_inj. Qed.
  Lemma msum_perm l l' (f : vec) : Permutation l l' -> forall x, msum l f x = msum l' f x.
  Proof.
    induction 1 as [|p l l' _ IH|p q l|l l' l'' _ IH1 _ IH2]; intros x; cbn [msum]; [reflexivity|rewrite !IH; reflexivity| |rewrite IH1; apply IH2].
    destruct (N.eq_dec p q) as [->|Hpq]; [reflexivity|].
    replace (N.clearbit (N.clearbit x q) p) with (N.clearbit (N.clearbit x p) q) by (apply bits_eq; intros j; rewrite !tb_clearbit; destruct (N.testbit x j), (N.eqb p j), (N.eqb q j); reflexivity).
    replace (N.setbit (N.setbit x q) p) with (N.setbit (N.setbit x p) q) by (apply bits_eq; intros j; rewrite !tb_setbit; destruct (N.testbit x j), (N.eqb p j), (N.eqb q j); reflexivity).
    replace (N.setbit (N.clearbit x q) p) with (N.clearbit (N.setbit x p) q) by (apply bits_eq; intros j; rewrite !tb_setbit, !tb_clearbit, !tb_setbit; destruct (N.testbit x j), (N.eqb_spec p j), (N.eqb_spec q j); try reflexivity; congruence).
    replace (N.clearbit (N.setbit x q) p) with (N.setbit (N.clearbit x p) q) by (apply bits_eq; intros j; rewrite !tb_clearbit, !tb_setbit, !tb_clearbit; destruct (N.testbit x j), (N.eqb_spec p j), (N.eqb_spec q j); try reflexivity; congruence).
    ring.
  Qed.
  Definition free (l : list N) (g : vec) : Prop := forall p x, In p l -> g (N.clearbit x p) = g x /\ g (N.setbit x p) = g x.
  Lemma msum_out l (f g : vec) : free l g -> forall x, msum l (fun y => g y * f y)%amp x = (g x * msum l f x)%amp.
  Proof.
    induction l as [|p l IH]; intros H x; cbn [msum]; [reflexivity|]. rewrite !IH by (intros q y Hq; apply H; right; exact Hq).
    destruct (H p x (or_introl eq_refl)) as [-> ->]. ring.
  Qed.
  Lemma msum_start l (f : vec) : forall x y, (forall j, ~ In j l -> N.testbit x j = N.testbit y j) -> msum l f x = msum l f y.
  Proof.
    induction l as [|p l IH]; intros x y H; cbn [msum]; [f_equal; apply bits_eq; intros j; apply H; intros []|].
    f_equal; apply IH; intros j Hj; rewrite ?tb_clearbit, ?tb_setbit; destruct (N.eqb_spec p j); cbn [negb orb]; rewrite ?andb_false_r, ?andb_true_r; try reflexivity; apply H; intros [F|F]; auto.
  Qed.
  Lemma msum_map l (pos : N -> N) (F : vec) (g : N -> N) : (forall i x, In i l -> g (N.clearbit x (pos i)) = N.clearbit (g x) i /\ g (N.setbit x (pos i)) = N.setbit (g x) i) ->
    forall x, msum (map pos l) (fun y => F (g y)) x = msum l F (g x).
  Proof.
    induction l as [|i l IH]; intros H x; cbn [msum map]; [reflexivity|]. rewrite !IH by (intros j y Hj; apply H; right; exact Hj).
    destruct (H i x (or_introl eq_refl)) as [-> ->]. reflexivity.
  Qed.
  Lemma msum_basis (f : vec) : forall n : nat, asum f (basis (N.of_nat n)) = msum (upto n) f 0.
  Proof.
    intros n. revert f. induction n as [|n IH]; intros f.
    - unfold basis. change (N.to_nat (2 ^ N.of_nat 0)) with 1%nat. cbn [upto app msum N.of_nat asum fold_right]. unfold asum. cbn [fold_right]. ring.
    - cbn [upto]. rewrite msum_app, <- IH. unfold basis. replace (N.to_nat (2 ^ N.of_nat (S n))) with (2 * N.to_nat (2 ^ N.of_nat n))%nat.
      2:{ rewrite Nat2N.inj_succ, N.pow_succ_r', N2Nat.inj_mul. reflexivity. }
      rewrite asum_grid. cbn [upto app]. unfold asum at 1. cbn [fold_right]. rewrite (Radd_comm (sr_ring K) _ 0%amp), (Radd_0_l (sr_ring K)), <- asum_add.
      apply asum_ext. intros j Hj. apply up_in in Hj. cbn [msum]. change (N.of_nat 0) with 0. change (N.of_nat 1) with 1. rewrite N.mul_0_l, N.add_0_r, N.mul_1_l. f_equal; f_equal.
      + symmetry. apply bits_eq. intros i. rewrite tb_clearbit. destruct (N.eqb_spec (N.of_nat n) i) as [<-|]; cbn [negb]; [|apply andb_true_r]. rewrite andb_false_r. symmetry. apply (tb_high j (N.of_nat n)); [exact Hj|lia].
      + apply bits_eq. intros i. replace (j + 2 ^ N.of_nat n) with (j + 1 * 2 ^ N.of_nat n) by lia. rewrite tb_cat by exact Hj. rewrite tb_setbit. destruct (N.ltb_spec i (N.of_nat n)).
        * destruct (N.eqb_spec (N.of_nat n) i); [lia|reflexivity].
        * rewrite (tb_high j (N.of_nat n) i Hj) by assumption. rewrite orb_false_r. destruct (N.eqb_spec (N.of_nat n) i) as [<-|Hi]; [rewrite N.sub_diag; reflexivity|]. apply (tb_high 1 1); [reflexivity|lia].
  Qed.
  Lemma msum_all (f : vec) n : msum (up n) f 0 = asum f (basis n).
  Proof. rewrite <- msum_basis, N2Nat.id. reflexivity. Qed.
  Lemma msum_local (G : N -> bool -> K) l : NoDup l -> forall x, msum l (fun y => aprod (fun p => G p (N.testbit y p)) l) x = aprod (fun p => G p false + G p true)%amp l.
  Proof.
    induction 1 as [|p l Hp _ IH]; intros x; [reflexivity|]. cbn [msum]. change (aprod (fun q => G q false + G q true)%amp (p :: l)) with ((G p false + G p true) * aprod (fun q => G q false + G q true) l)%amp.
    change (fun y => aprod (fun q => G q (N.testbit y q)) (p :: l)) with (fun y => G p (N.testbit y p) * aprod (fun q => G q (N.testbit y q)) l)%amp.
    rewrite !msum_out, !IH. rewrite tb_clearbit, tb_setbit, N.eqb_refl, andb_false_r. cbn [orb negb]. ring.
    all: intros q y Hq; rewrite tb_clearbit, tb_setbit; destruct (N.eqb_spec q p) as [->|]; [contradiction|]; cbn [orb negb]; rewrite andb_true_r; auto.
  Qed.
  Lemma filter_split {A} (P Q : A -> bool) l : (forall x, P x = true -> Q x = false) -> Permutation (filter (fun x => P x || Q x) l) (filter P l ++ filter Q l).
  Proof.
    intros H. induction l as [|x l IH]; [constructor|]. cbn [filter]. destruct (P x) eqn:EP; [rewrite (H x EP); cbn [orb app]; constructor; exact IH|].
    cbn [orb]. destruct (Q x); [|exact IH]. apply Permutation_cons_app, IH.
  Qed.

  Section B.
    Context (n next : N) (sh : shs) (eng : N -> N * vec) (L : placed n next sh eng) (F : N -> vec) (G : N -> bool -> K).
    Definition below (k : nat) (p : N) : bool := match s_unit (sh p) with Some w => w <? N.of_nat k | None => false end.
    Definition is_loc (p : N) : bool := match s_unit (sh p) with Some _ => false | None => true end.
    Lemma engine_sum u x : u < next -> msum (filter (fun p => in_unit (sh p) u) (up n)) (fun y => F u (gather n sh u y)) x = asum (F u) (basis (fst (eng u))).
    Proof.
      intros Hu. destruct (choose (fun j p => p < n /\ s_unit (sh p) = Some u /\ s_map (sh p) = j) (fst (eng u))) as [pos HP].
      { intros j Hj. destruct (pl_cov _ _ _ _ L u j Hu Hj) as (p & Hp & E & M). exists p. auto. }
      assert (PM : Permutation (filter (fun p => in_unit (sh p) u) (up n)) (map pos (up (fst (eng u))))).
      { apply NoDup_Permutation.
        - apply NoDup_filter, upto_nodup.
        - assert (Z : forall l, NoDup l -> (forall i, In i l -> i < fst (eng u)) -> NoDup (map pos l)).
          { induction 1 as [|i l Hi _ IH]; intros HB; cbn [map]; constructor; [|apply IH; intros j Hj; apply HB; right; exact Hj]. intros H. apply in_map_iff in H. destruct H as (j & Ej & Hj).
            destruct (HP i) as (_ & _ & Mi); [apply HB; left; reflexivity|]. destruct (HP j) as (_ & _ & Mj); [apply HB; right; exact Hj|]. rewrite Ej in Mj. congruence. }
          apply Z; [apply upto_nodup|]. intros i Hi. apply up_in, Hi.
        - intros p. rewrite filter_In, in_map_iff, up_in. split.
          + intros [Hp E]. apply in_unit_iff in E. destruct (pl_in _ _ _ _ L p u Hp E) as [_ Hm]. destruct (HP _ Hm) as (H1 & H2 & H3). exists (s_map (sh p)). split; [|apply up_in, Hm].
            apply (pl_inj _ _ _ _ L _ _ u); assumption.
          + intros (j & <- & Hj). apply up_in in Hj. destruct (HP j Hj) as (H1 & H2 & H3). split; [exact H1|apply in_unit_iff, H2]. }
      rewrite (msum_perm _ _ _ PM). rewrite (msum_map (up (fst (eng u))) pos (F u) (gather n sh u)).
      - rewrite <- msum_all. apply msum_start. intros j Hj. rewrite N.bits_0. apply (tb_high _ (fst (eng u))); [apply (gather_lt n next sh eng L)|]. destruct (N.lt_ge_cases j (fst (eng u))) as [H|H]; [|exact H]. destruct Hj. apply up_in, H.
      - intros i y Hi. apply up_in in Hi. destruct (HP i Hi) as (H1 & H2 & H3). split; [rewrite (gather_clear n next sh eng L) by assumption|rewrite (gather_set n next sh eng L) by assumption]; rewrite H3; reflexivity.
    Qed.
    Lemma engines_sum (k : nat) : N.of_nat k <= next -> forall x, msum (filter (below k) (up n)) (fun y => aprod (fun u => F u (gather n sh u y)) (upto k)) x = aprod (fun u => asum (F u) (basis (fst (eng u)))) (upto k).
    Proof.
      induction k as [|k IH]; intros Hk x.
      - replace (filter (below 0) (up n)) with (@nil N); [reflexivity|]. symmetry. induction (up n) as [|p l IHl]; [reflexivity|]. cbn [filter]. unfold below at 1. destruct (s_unit (sh p)) as [w|]; [|exact IHl]. destruct (N.ltb_spec w (N.of_nat 0)); [lia|exact IHl].
      - assert (EP : Permutation (filter (below (S k)) (up n)) (filter (below k) (up n) ++ filter (fun p => in_unit (sh p) (N.of_nat k)) (up n))).
        { eapply perm_trans; [|apply filter_split].
          - erewrite filter_ext; [apply Permutation_refl|]. intros p. cbn beta. unfold below, in_unit. destruct (s_unit (sh p)) as [w|]; [|reflexivity]. destruct (N.ltb_spec w (N.of_nat (S k))), (N.ltb_spec w (N.of_nat k)), (N.eqb_spec w (N.of_nat k)); cbn [orb]; try reflexivity; lia.
          - intros p. unfold below, in_unit. destruct (s_unit (sh p)) as [w|]; [|discriminate]. intros H. apply N.ltb_lt in H. apply N.eqb_neq. lia. }
        rewrite (msum_perm _ _ _ EP), msum_app. cbn [upto]. rewrite aprod_app.
        rewrite (msum_ext _ _ (fun y => asum (F (N.of_nat k)) (basis (fst (eng (N.of_nat k)))) * aprod (fun u => F u (gather n sh u y)) (upto k))%amp).
        + rewrite (msum_out _ _ (fun _ => asum (F (N.of_nat k)) (basis (fst (eng (N.of_nat k)))))) by (intros p y _; auto). rewrite IH by lia. cbn [aprod fold_right]. ring.
        + intros y. rewrite <- (engine_sum (N.of_nat k) y) by lia.
          rewrite (msum_ext _ _ (fun z => aprod (fun u => F u (gather n sh u z)) (upto k) * F (N.of_nat k) (gather n sh (N.of_nat k) z))%amp) by (intros z; rewrite aprod_app; cbn [aprod fold_right]; ring).
          rewrite msum_out; [ring|]. intros p z Hp. apply filter_In in Hp. destruct Hp as [_ Hp]. apply in_unit_iff in Hp.
          split; apply aprod_ext; intros u Hu; replace (upto k) with (up (N.of_nat k)) in Hu by (rewrite Nat2N.id; reflexivity); apply up_in in Hu; f_equal; apply (gather_other n sh u z _ p);
            try (rewrite Hp; intros E; injection E as E; lia); intros q Hq; rewrite ?tb_clearbit, ?tb_setbit; destruct (N.eqb_spec p q); try congruence; cbn [negb orb]; rewrite ?andb_true_r; reflexivity.
    Qed.
    Lemma base_sum : asum (fun x => aprod (fun u => F u (gather n sh u x)) (up next) * aprod (fun p => if is_loc p then G p (N.testbit x p) else 1) (up n))%amp (basis n) =
      (aprod (fun u => asum (F u) (basis (fst (eng u)))) (up next) * aprod (fun p => if is_loc p then G p false + G p true else 1) (up n))%amp.
    Proof.
      assert (AF : forall (f : N -> K) l, aprod (fun p => if is_loc p then f p else 1%amp) l = aprod f (filter is_loc l)).
      { intros f l. induction l as [|p l IH]; [reflexivity|]. cbn [filter]. change (aprod (fun q => if is_loc q then f q else 1%amp) (p :: l)) with ((if is_loc p then f p else 1) * aprod (fun q => if is_loc q then f q else 1) l)%amp.
        rewrite IH. destruct (is_loc p); cbn [aprod fold_right]; [reflexivity|]. ring. }
      rewrite <- msum_all. assert (EP : Permutation (up n) (filter (below (N.to_nat next)) (up n) ++ filter is_loc (up n))).
      { eapply perm_trans; [|apply filter_split].
        - assert (Z : forall l, (forall p, In p l -> p < n) -> filter (fun p => below (N.to_nat next) p || is_loc p) l = l).
          { induction l as [|p l IH]; intros H; [reflexivity|]. cbn [filter]. replace (below (N.to_nat next) p || is_loc p) with true; [rewrite IH; [reflexivity|intros q Hq; apply H; right; exact Hq]|].
            unfold below, is_loc. destruct (s_unit (sh p)) as [w|] eqn:E; [|reflexivity]. rewrite N2Nat.id. destruct (pl_in _ _ _ _ L p w (H p (or_introl eq_refl)) E) as [Hw _]. symmetry. apply orb_true_iff. left. apply N.ltb_lt, Hw. }
          rewrite Z; [apply Permutation_refl|]. intros p. apply up_in.
        - intros p. unfold below, is_loc. destruct (s_unit (sh p)); [reflexivity|discriminate]. }
      rewrite (msum_perm _ _ _ EP), msum_app.
      assert (E1 : forall x, msum (filter is_loc (up n)) (fun y => aprod (fun u => F u (gather n sh u y)) (up next) * aprod (fun p => if is_loc p then G p (N.testbit y p) else 1) (up n))%amp x =
        (aprod (fun p => if is_loc p then G p false + G p true else 1) (up n) * aprod (fun u => F u (gather n sh u x)) (up next))%amp).
      { intros x. rewrite msum_out.
        - rewrite (msum_ext _ _ (fun y => aprod (fun p => G p (N.testbit y p)) (filter is_loc (up n)))) by (intros y; apply AF). rewrite msum_local by (apply NoDup_filter, upto_nodup). rewrite AF. ring.
        - intros p y Hp. apply filter_In in Hp. destruct Hp as [_ Hp]. unfold is_loc in Hp. destruct (s_unit (sh p)) eqn:E; [discriminate|].
          split; apply aprod_ext; intros u _; f_equal; apply (gather_other n sh u y _ p); try congruence; intros q Hq; rewrite ?tb_clearbit, ?tb_setbit; destruct (N.eqb_spec p q); try congruence; cbn [negb orb]; rewrite ?andb_true_r; reflexivity. }
      rewrite (msum_ext _ _ _ E1). rewrite (msum_out _ _ (fun _ => aprod (fun p => if is_loc p then G p false + G p true else 1) (up n))%amp) by (intros p y _; auto).
      rewrite (engines_sum (N.to_nat next)) by lia. ring.
    Qed.
  End B.
  Lemma anorm_aprod {A} (f : A -> K) l : anorm (aprod f l) = aprod (fun p => anorm (f p)) l.
  Proof. induction l as [|p l IH]; [apply unit_one|]. cbn [aprod fold_right]. rewrite anorm_mul. unfold aprod in IH. rewrite IH. reflexivity. Qed.
  Section W.
    Context (n next : N) (sh : shs) (eng : N -> N * vec) (L : placed n next sh eng) (NE : forall u, u < next -> norm2 (fst (eng u)) (snd (eng u)) = 1%amp)
            (NL : forall p, p < n -> s_unit (sh p) = None -> (anorm (s_a0 (sh p)) + anorm (s_a1 (sh p)) = 1)%amp).
    Lemma loc_norm p b : anorm (loc (sh p) b) = if is_loc sh p then anorm (if b then s_a1 (sh p) else s_a0 (sh p)) else 1%amp.
    Proof. unfold loc, is_loc. destruct (s_unit (sh p)); [apply unit_one|reflexivity]. Qed.
    Lemma base_norm : norm2 n (base_of n next sh eng) = 1%amp.
    Proof.
      unfold norm2. transitivity (asum (fun x => aprod (fun u => anorm (snd (eng u) (gather n sh u x))) (up next) * aprod (fun p => if is_loc sh p then anorm (if N.testbit x p then s_a1 (sh p) else s_a0 (sh p)) else 1) (up n))%amp (basis n)).
      { apply asum_ext. intros x _. unfold base_of. rewrite anorm_mul, !anorm_aprod. f_equal. apply aprod_ext. intros p _. apply loc_norm. }
      rewrite (base_sum n next sh eng L (fun u y => anorm (snd (eng u) y)) (fun p b => anorm (if b then s_a1 (sh p) else s_a0 (sh p)))).
      rewrite !aprod_one; [ring| |]; intros p Hp; apply up_in in Hp.
      - unfold is_loc. destruct (s_unit (sh p)) eqn:E; [reflexivity|]. apply NL; assumption.
      - apply (NE p Hp).
    Qed.
    Lemma unit_wt q u b : q < n -> s_unit (sh q) = Some u -> wt n q b (base_of n next sh eng) = wt (fst (eng u)) (s_map (sh q)) b (snd (eng u)).
    Proof.
      intros Hq E. destruct (pl_in _ _ _ _ L q u Hq E) as [Hu _].
      set (F := fun w : N => if w =? u then mask (s_map (sh q)) b (snd (eng u)) else snd (eng w)).
      transitivity (asum (fun x => aprod (fun w => anorm (F w (gather n sh w x))) (up next) * aprod (fun p => if is_loc sh p then anorm (if N.testbit x p then s_a1 (sh p) else s_a0 (sh p)) else 1) (up n))%amp (basis n)).
      { unfold wt, norm2. apply asum_ext. intros x _. rewrite (aprod_at (fun w => anorm (F w (gather n sh w x))) u (up next)) by (apply upto_nodup || apply up_in, Hu).
        unfold F at 1. rewrite N.eqb_refl. unfold mask. rewrite (gather_bit n next sh eng L) by assumption. destruct (eqb (N.testbit x q) b); [|rewrite anorm_0; ring].
        rewrite (base_at n next sh eng u x Hu), !anorm_mul, !anorm_aprod. transitivity (anorm (snd (eng u) (gather n sh u x)) * (aprod (fun w => anorm (snd (eng w) (gather n sh w x))) (but u (up next)) * aprod (fun p => if is_loc sh p then anorm (if N.testbit x p then s_a1 (sh p) else s_a0 (sh p)) else 1) (up n)))%amp.
        - do 2 f_equal. apply aprod_ext. intros p _. apply loc_norm.
        - rewrite <- (aprod_ext (fun w => anorm (F w (gather n sh w x))) (fun w => anorm (snd (eng w) (gather n sh w x))) (but u (up next))); [ring|]. intros w Hw. apply but_in in Hw. unfold F. destruct (N.eqb_spec w u); [destruct Hw; congruence|reflexivity]. }
      rewrite (base_sum n next sh eng L (fun w y => anorm (F w y)) (fun p b => anorm (if b then s_a1 (sh p) else s_a0 (sh p)))).
      rewrite (aprod_at _ u (up next)) by (apply upto_nodup || apply up_in, Hu). rewrite !aprod_one.
      - unfold F. rewrite N.eqb_refl. unfold wt, norm2. ring.
      - intros p Hp. apply up_in in Hp. unfold is_loc. destruct (s_unit (sh p)) eqn:Ep; [reflexivity|]. apply NL; assumption.
      - intros w Hw. apply but_in in Hw. destruct Hw as [Hw Hwu]. apply up_in in Hw. unfold F. destruct (N.eqb_spec w u); [congruence|]. apply (NE w Hw).
    Qed.
    Lemma local_wt q b : q < n -> s_unit (sh q) = None -> wt n q b (base_of n next sh eng) = anorm (if b then s_a1 (sh q) else s_a0 (sh q)).
    Proof.
      intros Hq E. set (G := fun (p : N) (c : bool) => if (p =? q) && negb (eqb c b) then 0%amp else anorm (if c then s_a1 (sh p) else s_a0 (sh p))).
      transitivity (asum (fun x => aprod (fun w => anorm (snd (eng w) (gather n sh w x))) (up next) * aprod (fun p => if is_loc sh p then G p (N.testbit x p) else 1) (up n))%amp (basis n)).
      { unfold wt, norm2. apply asum_ext. intros x _. rewrite (aprod_at (fun p => if is_loc sh p then G p (N.testbit x p) else 1%amp) q (up n)) by (apply upto_nodup || apply up_in, Hq).
        unfold is_loc at 1. rewrite E. unfold G at 1. rewrite N.eqb_refl. unfold mask. destruct (eqb (N.testbit x q) b) eqn:Eb; cbn [negb andb]; [|rewrite anorm_0; ring].
        rewrite (loc_at n next sh eng q x Hq), !anorm_mul, !anorm_aprod. unfold loc at 1. rewrite E.
        rewrite (aprod_ext (fun p => anorm (loc (sh p) (N.testbit x p))) (fun p => if is_loc sh p then G p (N.testbit x p) else 1%amp) (but q (up n))); [ring|].
        intros p Hp. apply but_in in Hp. rewrite loc_norm. unfold G. destruct (N.eqb_spec p q); [destruct Hp; congruence|reflexivity]. }
      rewrite (base_sum n next sh eng L (fun w y => anorm (snd (eng w) y)) G).
      rewrite (aprod_at _ q (up n)) by (apply upto_nodup || apply up_in, Hq). rewrite !aprod_one.
      - unfold is_loc. rewrite E. unfold G. rewrite N.eqb_refl. destruct b; cbn [eqb negb andb]; ring.
      - intros p Hp. apply but_in in Hp. destruct Hp as [Hp Hpq]. apply up_in in Hp. unfold is_loc. destruct (s_unit (sh p)) eqn:Ep; [reflexivity|]. unfold G. destruct (N.eqb_spec p q); [congruence|]. apply NL; assumption.
      - intros w Hw. apply up_in in Hw. apply (NE w Hw).
    Qed.
  End W.
End P.
