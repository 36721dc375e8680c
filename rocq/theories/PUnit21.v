(** Proofs for QUnit: new simulators, amplitudes, results of programs. *)
From Coq Require Import Arith NArith List Bool Lia Ring Permutation.
From Verif Require Import Bits MFunctions SpecFunctions PFunctions MKernel PKernel Amp PAmp SpecState PApply PCompose PGates PGates2 PProb PQCirc2 PQCirc3 PEngine MShard SpecShard MUnit SpecUnit PShard1 PShard2 PShard3 PShard4 PShard5 PShard6 PShard7 PShard8 PShard9 PUnit1 PUnit2 PUnit3 PUnit4 PUnit5 PUnit6 PUnit7 PUnit8 PUnit9 PUnit10 PUnit11 PUnit12 PUnit13 PUnit14 PUnit15 PUnit16 PUnit17 PUnit18 SpecUnit2 PUnit19 PUnit20.
Import ListNotations.
Local Open Scope N_scope.
Local Notation up n := (upto (N.to_nat n)).

Section P.
  Context {K : StarRing} (cx : Cplx K) (D : definite (K := K)).
  Add Ring KrCJ : (sr_ring K).
  Local Notation wf := (wf cx).
  Local Notation vec := (N -> K).
  Local Notation unit1 x := (anorm x = 1%amp).
  Local Notation M2 := (mat2 K).
  Local Notation qu := (qunit K).
  Local Notation framed := (framed cx).
  Local Notation meaning := (meaning cx).
  Local Notation good := (good cx).
  Local Notation keeps := (keeps cx).
  Local Notation logical := (logical cx).
  Implicit Types (U V : qu) (psi phi : vec) (s : shards K).

  (** ** No buffers, no changed bases *)
  Definition bare s : Prop := forall a c t, buffer_of s a c t = None.
  Lemma pending_bare s psi : bare s -> pending s psi = psi.
  Proof.
    intros H. unfold pending. induction (all_pairs (sh_size s)) as [|[[a c] t] l IH]; [reflexivity|]. cbn [fold_right]. rewrite IH. unfold gate_at. rewrite H. reflexivity.
  Qed.
  Lemma fr_z l bas psi : (forall p, In p l -> bas p = PauliZ) -> same_state (fr cx l bas psi) psi.
  Proof.
    intros H. induction l as [|p l IH]; [apply ss_refl|]. unfold fr. cbn [fold_right]. fold (fr cx l bas psi). rewrite (H p (or_introl eq_refl)). cbn [bmat].
    intros x. unfold midn. rewrite gate1_one. apply IH. intros q Hq. apply H. right. exact Hq.
  Qed.
  Definition plain_z U : Prop := bare (u_buf U) /\ forall p, p < u_n U -> bas_of U p = PauliZ.
  Lemma plain_meaning U : plain_z U -> same_state (meaning U) (base U).
  Proof. intros [B Z]. unfold PUnit10.meaning. rewrite (pending_bare (u_buf U) (framed U) B). unfold PUnit5.framed. apply fr_z. intros p Hp. apply Z, up_in, Hp. Qed.

  (** ** All qubits to the Z basis *)
  Lemma revert_fold l : forall U, good U -> (forall p, In p l -> p < u_n U) ->
    let V := fold_left (fun V i => RevertBasis1Qb cx (SeparateBit cx) i V) l U in keeps U V /\ (forall p, In p l -> bas_of V p = PauliZ) /\ mono U V.
  Proof.
    induction l as [|i l IH]; intros U G HR; cbn zeta; cbn [fold_left]; [split; [apply keeps_refl, G|split; [intros p []|apply mono_refl]]|].
    destruct (revert_keeps cx i U G (HR i (or_introl eq_refl))) as (K1 & B1 & _ & M1).
    destruct (IH (RevertBasis1Qb cx (SeparateBit cx) i U) (kp_good cx _ _ K1)) as (K2 & B2 & M2').
    { intros p Hp. rewrite (keeps_n cx _ _ K1). apply HR. right. exact Hp. }
    split; [eapply keeps_trans; eassumption|]. split; [|eapply mono_trans; eassumption].
    intros p [<-|Hp]; [|apply B2, Hp]. destruct (M2' i) as [E|E]; [rewrite E; exact B1|exact E].
  Qed.
  Lemma flush_fold l : forall U, good U -> let V := fold_left (fun V i => RevertBasis2Qb cx i INVERT_AND_PHASE CONTROLS_AND_TARGETS CTRL_AND_ANTI [] [] false V) l U in
    flushed cx U V /\ forall p a c, In p l -> buffer_of (u_buf V) a c p = None.
  Proof.
    induction l as [|i l IH]; intros U G; cbn zeta; cbn [fold_left]; [split; [apply flushed_refl, G|intros p a c []]|].
    destruct (revert2_clear cx D i U G) as (F1 & C1). destruct (IH _ (flushed_good cx _ _ F1)) as (F2 & C2). split; [eapply flushed_trans; eassumption|].
    intros p a c [<-|Hp]; [|apply C2, Hp]. apply (below_none _ _ a c i (fl_below cx _ _ F2)). apply C1.
  Qed.
  Lemma tidy_target n s a c t b : tidy n s -> buffer_of s a c t = Some b -> c < n /\ t < n.
  Proof. intros (C & <- & _) E. destruct (buffer_bounds s a c t b C E) as (A1 & A2 & _). auto. Qed.
  Lemma all_ok U : good U -> let V := ToPermBasisAll cx U in keeps U V /\ plain_z V.
  Proof.
    intros G. cbn zeta. unfold ToPermBasisAll. cbn zeta. destruct (revert_fold (order U) U G) as (K1 & B1 & _); [intros p; apply (order_in (cx := cx)), (gd_wf cx U G)|].
    set (U1 := fold_left _ (order U) U) in *. pose proof (kp_good cx _ _ K1) as G1. destruct (flush_fold (order U1) U1 G1) as (F & C).
    set (V := fold_left _ (order U1) U1) in *. split; [eapply keeps_trans; [exact K1|apply F]|]. split.
    - intros a c t. destruct (buffer_of (u_buf V) a c t) as [b|] eqn:E; [|reflexivity]. pose proof (tidy_target (u_n V) (u_buf V) a c t b (gd_tidy cx V (flushed_good cx _ _ F)) E) as [_ Ht].
      rewrite (flushed_n cx _ _ F) in Ht. rewrite (C t a c) in E by (apply (order_in (cx := cx)); [apply (gd_wf cx U1 G1)|exact Ht]). discriminate.
    - intros p Hp. rewrite (flushed_n cx _ _ F), (keeps_n cx _ _ K1) in Hp. destruct (fl_mono cx _ _ F p) as [E|E]; [rewrite E; apply B1, (order_in (cx := cx)); [apply (gd_wf cx U G)|exact Hp]|exact E].
  Qed.
  Lemma keeps_logical U V : keeps U V -> like (logical V) (logical U).
  Proof. intros [_ A (_ & E1 & E2 & _) _]. apply like_at; assumption. Qed.

  (** ** Amplitudes *)
  Lemma fold_aprod {A} (f : A -> K) l : forall a, fold_left (fun a u => (a * f u)%amp) l a = (a * aprod f l)%amp.
  Proof. unfold aprod. induction l as [|u l IH]; intros a; cbn [fold_left fold_right]; [ring|]. rewrite IH. ring. Qed.
  Lemma aprod_perm {A} (f : A -> K) l l' : Permutation l l' -> aprod f l = aprod f l'.
  Proof. unfold aprod. induction 1; cbn [fold_right]; [reflexivity|congruence|ring|congruence]. Qed.
  Lemma aprod_filter {A} (f : A -> K) (P : A -> bool) l : aprod f l = (aprod f (filter P l) * aprod f (filter (fun x => negb (P x)) l))%amp.
  Proof. unfold aprod. induction l as [|u l IH]; cbn [fold_right filter]; [ring|]. rewrite IH. destruct (P u); cbn [negb fold_right]; ring. Qed.
  Lemma aprod_unit {A} (f : A -> K) l : (forall u, In u l -> unit1 (f u)) -> unit1 (aprod f l).
  Proof.
    unfold aprod. induction l as [|u l IH]; intros H; cbn [fold_right]; [apply unit_one|]. rewrite anorm_mul, (H u (or_introl eq_refl)), IH by (intros w Hw; apply H; right; exact Hw). ring.
  Qed.
  Lemma fold_loc U x l : forall a, fold_left (fun a i => let d := u_sh U (u_sw U i) in match s_unit d with None => (a * (if N.testbit x i then s_a1 d else s_a0 d))%amp | Some _ => a end) l a =
    (a * aprod (fun i => loc (u_sh U (u_sw U i)) (N.testbit x i)) l)%amp.
  Proof.
    induction l as [|i l IH]; intros a; cbn [fold_left aprod fold_right]; [unfold aprod; cbn [fold_right]; ring|]. rewrite IH. unfold aprod. cbn [fold_right]. unfold loc at 2. cbn zeta. destruct (s_unit (u_sh U (u_sw U i))); ring.
  Qed.
  Lemma aprod_map {A B} (f : B -> K) (g : A -> B) l : aprod f (map g l) = aprod (fun x => f (g x)) l.
  Proof. unfold aprod. induction l as [|u l IH]; cbn [map fold_right]; [reflexivity|]. rewrite IH. reflexivity. Qed.
  Lemma order_perm U : wf U -> Permutation (order U) (up (u_n U)).
  Proof.
    intros W. apply NoDup_Permutation; [|apply upto_nodup|].
    - unfold order. destruct (wf_sw U W) as (_ & B2 & _). assert (H : forall i, In i (up (u_n U)) -> i < u_n U) by (intros i; apply up_in). pose proof (upto_nodup (N.to_nat (u_n U))) as ND.
      induction (up (u_n U)) as [|i l IH]; cbn [map]; [constructor|]. apply NoDup_cons_iff in ND. destruct ND as [Hn ND]. constructor; [|apply IH; [intros j Hj; apply H; right; exact Hj|exact ND]].
      intros C. apply in_map_iff in C. destruct C as (j & E & Hj). apply Hn. rewrite <- (B2 j i); [exact Hj|apply H; right; exact Hj|apply H; left; reflexivity|exact E].
    - intros p. rewrite (order_in U p W), up_in. reflexivity.
  Qed.
  Lemma unit_perm_eq U u x : wf U -> unit_perm u x U = gather (u_n U) (u_sh U) u (phys (u_sw U) (u_n U) x).
  Proof.
    intros W. pose proof (wf_sw U W) as B. apply N.bits_inj. intros j. rewrite tb_gather.
    assert (Z : forall l a, N.testbit (fold_left (fun a i => let d := u_sh U (u_sw U i) in match s_unit d with Some w => if (w =? u) && N.testbit x i then N.lor a (2 ^ s_map d) else a | None => a end) l a) j =
      N.testbit a j || existsb (fun i => in_unit (u_sh U (u_sw U i)) u && N.testbit x i && (s_map (u_sh U (u_sw U i)) =? j)) l).
    { induction l as [|i l IH]; intros a; cbn [fold_left existsb]; [rewrite orb_false_r; reflexivity|]. rewrite IH. cbn zeta. unfold in_unit at 2. destruct (s_unit (u_sh U (u_sw U i))) as [w|]; [|reflexivity].
      destruct ((w =? u) && N.testbit x i); cbn [andb orb]; [|reflexivity]. rewrite N.lor_spec, N.pow2_bits_eqb, orb_assoc. reflexivity. }
    unfold unit_perm. rewrite Z, N.bits_0. cbn [orb]. apply eq_iff_eq_true. rewrite !existsb_exists. split.
    - intros (i & Hi & H). apply up_in in Hi. exists (u_sw U i). split; [apply up_in, B, Hi|]. rewrite (tb_phys (u_sw U) (u_n U) x i B Hi). exact H.
    - intros (p & Hp & H). apply up_in in Hp. destruct B as (B1 & B2 & B3). destruct (B3 p Hp) as (i & Hi & <-). exists i. split; [apply up_in, Hi|]. rewrite (tb_phys (u_sw U) (u_n U) x i (conj B1 (conj B2 B3)) Hi) in H. exact H.
  Qed.
  Definition spare U : list N := filter (fun u => negb (existsb (N.eqb u) (units_of (order U) U []))) (up (u_next U)).
  Lemma spare_zero U u : wf U -> In u (spare U) -> (forall x, gather (u_n U) (u_sh U) u x = 0) /\ unit1 (snd (u_eng U u) 0).
  Proof.
    intros W H. apply filter_In in H. destruct H as [Hu H]. apply up_in in Hu. apply negb_true_iff in H.
    assert (Hn : forall p, p < u_n U -> s_unit (u_sh U p) <> Some u).
    { intros p Hp E. apply not_true_iff_false in H. apply H. apply existsb_exists. exists u. split; [|apply N.eqb_refl]. apply (proj2 (units_ok (order U) U [])). split; [intros []|]. exists p. split; [apply (order_in (cx := cx)); assumption|exact E]. }
    split.
    - intros x. apply N.bits_inj. intros j. rewrite tb_gather, N.bits_0. apply not_true_iff_false. intros C. apply existsb_exists in C. destruct C as (p & Hp & C). apply up_in in Hp. apply andb_prop in C. destruct C as [C _]. apply andb_prop in C. destruct C as [C _]. apply in_unit_iff in C. apply (Hn p Hp C).
    - destruct (N.eq_dec (fst (u_eng U u)) 0) as [E|E].
      + pose proof (wf_norm U W u Hu) as Q. rewrite E in Q. unfold norm2 in Q. change (basis 0) with [0] in Q. cbn [asum fold_right] in Q. rewrite <- Q. unfold asum. cbn [fold_right]. ring.
      + exfalso. destruct (pl_cov _ _ _ _ (wf_placed U W) u 0 Hu) as (p & Hp & Hs & _); [lia|]. apply (Hn p Hp Hs).
  Qed.
  Lemma amplitude_ok x U : good U -> forall V, V = ToPermBasisAll cx U -> (base V (phys (u_sw V) (u_n V) x) = fst (GetAmplitude cx x U) * aprod (fun u => snd (u_eng V u) 0%N) (spare V))%amp.
  Proof.
    intros G V HV. unfold GetAmplitude. cbn zeta. rewrite <- HV. cbn [fst]. destruct (all_ok U G) as (Kp & _). rewrite <- HV in Kp. pose proof (gd_wf cx V (kp_good cx _ _ Kp)) as W.
    rewrite fold_aprod, fold_loc. unfold base, base_of. set (y := phys (u_sw V) (u_n V) x).
    rewrite (aprod_filter (fun u => snd (u_eng V u) (gather (u_n V) (u_sh V) u y)) (fun u => existsb (N.eqb u) (units_of (order V) V [])) (up (u_next V))). fold (spare V).
    rewrite (aprod_ext (fun u => snd (u_eng V u) (gather (u_n V) (u_sh V) u y)) (fun u => snd (u_eng V u) 0) (spare V)) by (intros u Hu; rewrite (proj1 (spare_zero V u W Hu)); reflexivity).
    rewrite (aprod_ext (fun u => snd (u_eng V u) (unit_perm u x V)) (fun u => snd (u_eng V u) (gather (u_n V) (u_sh V) u y))) by (intros u _; rewrite (unit_perm_eq V u x W); reflexivity).
    rewrite (aprod_perm _ (units_of (order V) V []) (filter (fun u => existsb (N.eqb u) (units_of (order V) V [])) (up (u_next V)))).
    - rewrite <- (aprod_perm (fun p => loc (u_sh V p) (N.testbit y p)) _ _ (order_perm V W)). unfold order at 2. rewrite aprod_map.
      rewrite (aprod_ext (fun i => loc (u_sh V (u_sw V i)) (N.testbit y (u_sw V i))) (fun i => loc (u_sh V (u_sw V i)) (N.testbit x i))); [ring|].
      intros i Hi. apply up_in in Hi. unfold y. rewrite (tb_phys (u_sw V) (u_n V) x i (wf_sw V W) Hi). reflexivity.
    - apply NoDup_Permutation; [apply units_ok|apply NoDup_filter, upto_nodup|]. intros u. rewrite filter_In, existsb_exists. split.
      + intros H. split; [|exists u; split; [exact H|apply N.eqb_refl]]. apply (proj2 (units_ok (order V) V [])) in H. destruct H as [_ (p & Hp & E)]. apply (order_in (cx := cx)) in Hp; [|exact W]. apply up_in, (pl_in _ _ _ _ (wf_placed V W) p u Hp E).
      + intros [_ (w & Hw & E)]. apply N.eqb_eq in E. subst w. exact Hw.
  Qed.
  Lemma amplitude_like U : good U -> like (fun x => fst (GetAmplitude cx x U)) (logical U).
  Proof.
    intros G. destruct (all_ok U G) as (Kp & Pz). set (V := ToPermBasisAll cx U) in *. pose proof (gd_wf cx V (kp_good cx _ _ Kp)) as W.
    eapply like_trans; [|exact (keeps_logical U V Kp)]. apply like_sym. exists (aprod (fun u => snd (u_eng V u) 0) (spare V)). split; [apply aprod_unit; intros u Hu; apply (spare_zero V u W Hu)|].
    intros x. unfold PUnit20.logical, at_logical. rewrite (plain_meaning V Pz), (amplitude_ok x U G V eq_refl). ring.
  Qed.

  (** ** New simulators *)
  Definition fresh_sh (perm : N) (ph : K) (p : N) : qshard K := mkQS None 0 false false (if N.testbit perm p then 0 else ph)%amp (if N.testbit perm p then ph else 0)%amp PauliZ.
  Lemma fresh_ok perm k : forall U, (forall j, unit1 (u_ph U j)) -> let V := fresh k perm U in
    (forall p, p < N.of_nat k -> exists ph, unit1 ph /\ u_sh V p = fresh_sh perm ph p) /\ held U V /\ u_buf V = u_buf U /\ u_next V = u_next U /\ u_eng V = u_eng U.
  Proof.
    induction k as [|k IH]; intros U HP; cbn zeta; cbn [fresh].
    - split; [intros p Hp; lia|]. repeat split.
    - destruct (IH U HP) as (A1 & A2 & A3 & A4 & A5). set (U1 := fresh k perm U) in *.
      assert (Z : exists ph d, draw U1 = (ph, set_draw d U1) /\ unit1 ph).
      { unfold draw. destruct (u_rgp U1); [exists (u_ph U1 (u_draw U1)), (u_draw U1 + 1); split; [reflexivity|]; destruct A2 as (_ & _ & _ & -> & _); apply HP|exists 1%amp, (u_draw U1); split; [destruct U1; reflexivity|apply unit_one]]. }
      destruct Z as (ph & d & -> & Hph). cbn zeta. split; [|split; [exact A2|split; [exact A3|split; [exact A4|exact A5]]]].
      intros p Hp. change (u_sh (put_sh (N.of_nat k) ?s (set_draw d U1)) p) with (if p =? N.of_nat k then s else u_sh U1 p). destruct (N.eqb_spec p (N.of_nat k)) as [->|Hn]; [exists ph; split; [exact Hph|reflexivity]|apply A1; lia].
  Qed.
  Lemma new_buffer n a c t : buffer_of (newShards (K := K) n) a c t = None.
  Proof. reflexivity. Qed.
  Lemma id_bij n : bij (fun q => q) n.
  Proof. split; [auto|]. split; [auto|]. intros p Hp. exists p. auto. Qed.
  Lemma set_perm_ok perm U : (forall j, unit1 (u_ph U j)) -> u_ub U = false -> let V := SetPermutation perm U in good V /\ plain_z V /\ (forall c t, ~ links V c t) /\ u_n V = u_n U /\ u_sw V = (fun q => q) /\ (u_rgp V = u_rgp U /\ u_rnd V = u_rnd U) /\
    exists c, unit1 c /\ forall x, base V x = (c * if forallb (fun p => eqb (N.testbit x p) (N.testbit perm p)) (up (u_n U)) then 1 else 0)%amp.
  Proof.
    intros HP HU. cbn zeta. unfold SetPermutation. set (U1 := mkQU _ _ _ _ _ _ _ _ _ _ _). destruct (fresh_ok perm (N.to_nat (u_n U)) U1 HP) as (A1 & (H1 & H2 & H3 & H4 & H5 & H6) & A3 & A4 & A5).
    set (V := fresh (N.to_nat (u_n U)) perm U1) in *. clearbody V. rewrite N2Nat.id in A1.
    change (u_buf U1) with (newShards (K := K) (u_n U)) in A3. change (u_next U1) with 0 in A4. change (u_n U1) with (u_n U) in H2. change (u_sw U1) with (fun q : N => q) in H3. change (u_ub U1) with (u_ub U) in H6.
    assert (HB : bare (u_buf V)) by (intros a c t; rewrite A3; apply new_buffer).
    assert (HZ : forall p, p < u_n V -> bas_of V p = PauliZ) by (intros p Hp; rewrite H2 in Hp; destruct (A1 p Hp) as (ph & _ & E); unfold bas_of; rewrite E; reflexivity).
    assert (HN : forall p, p < u_n V -> s_unit (u_sh V p) = None) by (intros p Hp; rewrite H2 in Hp; destruct (A1 p Hp) as (ph & _ & E); rewrite E; reflexivity).
    split; [|split; [split; assumption|split; [intros c t (a & b & E); rewrite HB in E; discriminate|split; [exact H2|split; [exact H3|split; [split; [exact H1|exact H5]|]]]]]].
    - split.
      + split.
        * split; [intros p u Hp E; rewrite HN in E by exact Hp; discriminate|intros p q u Hp _ E; rewrite HN in E by exact Hp; discriminate|intros u j Hu; rewrite A4 in Hu; lia].
        * intros u Hu. rewrite A4 in Hu. lia.
        * intros p Hp _. rewrite H2 in Hp. destruct (A1 p Hp) as (ph & Hph & E). rewrite E. unfold local_ok, fresh_sh. cbn [s_map s_pd s_fd s_a0 s_a1]. split; [reflexivity|]. split; [reflexivity|]. split; [reflexivity|]. destruct (N.testbit perm p); rewrite Hph, anorm_0; ring.
        * intros p u Hp E. rewrite HN in E by exact Hp. discriminate.
        * intros j. rewrite H4. apply HP.
        * rewrite H3. apply id_bij.
      + split; [intros p u Hp E; rewrite HN in E by exact Hp; discriminate|intros u Hu; rewrite A4 in Hu; lia].
      + rewrite A3. split; [apply new_consistent|]. split; [symmetry; exact H2|]. intros a c t b E. rewrite new_buffer in E. discriminate.
      + intros a c t b E. rewrite HB in E. discriminate.
      + rewrite H6. exact HU.
    - assert (Z : forall l : list N, (forall p, In p l -> p < u_n U) -> exists c, unit1 c /\ forall x, aprod (fun p => loc (u_sh V p) (N.testbit x p)) l = (c * if forallb (fun p => eqb (N.testbit x p) (N.testbit perm p)) l then 1 else 0)%amp).
      { induction l as [|p l IH]; intros HR; [exists 1%amp; split; [apply unit_one|intros x; cbn [aprod fold_right forallb]; unfold aprod; cbn [fold_right]; ring]|].
        destruct IH as (c & Hc & IH); [intros q Hq; apply HR; right; exact Hq|]. destruct (A1 p (HR p (or_introl eq_refl))) as (ph & Hph & E). exists (ph * c)%amp. split; [rewrite anorm_mul, Hph, Hc; ring|].
        intros x. unfold aprod. cbn [fold_right forallb]. fold (aprod (fun p => loc (u_sh V p) (N.testbit x p)) l). rewrite IH, E. unfold loc, fresh_sh. cbn [s_unit s_a0 s_a1].
        destruct (N.testbit x p), (N.testbit perm p); cbn [eqb andb]; destruct (forallb _ l); ring. }
      destruct (Z (up (u_n U))) as (c & Hc & E); [intros p; apply up_in|]. exists c. split; [exact Hc|]. intros x. unfold base, base_of. rewrite A4, H2, E. cbn [N.to_nat upto aprod fold_right]. unfold aprod. cbn [fold_right]. ring.
  Qed.
  Lemma ket_bits n perm x : perm < 2 ^ n -> x < 2 ^ n -> forallb (fun p => eqb (N.testbit x p) (N.testbit perm p)) (up n) = (x =? perm).
  Proof.
    intros Hp Hx. apply eq_iff_eq_true. rewrite forallb_forall, N.eqb_eq. split.
    - intros H. apply N.bits_inj. intros p. destruct (N.lt_ge_cases p n) as [L|L]; [apply eqb_prop, H, up_in, L|]. rewrite (tb_high x n p Hx L), (tb_high perm n p Hp L). reflexivity.
    - intros -> p _. apply eqb_reflx.
  Qed.
  Lemma new_logical rgp n perm ph rnd : (forall j, unit1 (ph j)) -> perm < 2 ^ n -> let U := new_unit rgp n perm ph rnd in
    good U /\ u_n U = n /\ (u_rgp U = rgp /\ u_rnd U = rnd) /\ (forall c t, ~ links U c t) /\ upto_phase n (logical U) (ket perm).
  Proof.
    intros HP Hperm. cbn zeta. unfold new_unit. set (U0 := mkQU rgp n _ _ _ _ _ _ _ _ _). destruct (set_perm_ok perm U0 HP eq_refl) as (G & Pz & C & HN & HS & HR & c & Hc & E).
    split; [exact G|]. split; [exact HN|]. split; [exact HR|]. split; [exact C|]. exists c. split; [exact Hc|]. intros x Hx. unfold PUnit20.logical, at_logical. rewrite (plain_meaning _ Pz), E, HS, HN.
    change (u_n U0) with n. rewrite (phys_id n x Hx), (ket_bits n perm x Hperm Hx). reflexivity.
  Qed.

  (** ** Programs from a new simulator *)
  Lemma ideal_run_upto n gs : forall (psi phi : vec), Forall (proper_gate n) gs -> upto_phase n psi phi -> upto_phase n (ideal_run cx gs psi) (ideal_run cx gs phi).
  Proof.
    induction gs as [|g gs IH]; intros psi phi HF H; [exact H|]. inversion HF as [|g' gs' Hg HF' E]; subst g' gs'. unfold ideal_run. cbn [fold_left]. apply IH; [exact HF'|]. apply ideal_upto; assumption.
  Qed.
  Definition unlinked : N -> N -> Prop := fun _ _ => False.
  Theorem program_ok rgp n perm ph rnd gs : (forall j, unit1 (ph j)) -> perm < 2 ^ n -> Forall (proper_gate n) gs -> h_open cx n unlinked (ket perm) gs ->
    let U := run cx gs (new_unit rgp n perm ph rnd) in good U /\ u_n U = n /\ u_rgp U = rgp /\ upto_phase n (logical U) (ideal_run cx gs (ket perm)).
  Proof.
    intros HP Hp HF HH. cbn zeta. destruct (new_logical rgp n perm ph rnd HP Hp) as (G & HN & [HR _] & C & HL).
    destruct (run_ok cx D n gs unlinked (new_unit rgp n perm ph rnd) (ket perm) G HN HF) as (A1 & A2 & A3 & A4 & _); [intros c t Hc; destruct (C c t Hc)|exact HH|exact HL|].
    split; [exact A1|]. split; [exact A3|]. split; [congruence|]. exact A2.
  Qed.
  Theorem program_amplitudes rgp n perm ph rnd gs : (forall j, unit1 (ph j)) -> perm < 2 ^ n -> Forall (proper_gate n) gs -> h_open cx n unlinked (ket perm) gs ->
    upto_phase n (fun x => fst (GetAmplitude cx x (run cx gs (new_unit rgp n perm ph rnd)))) (ideal_run cx gs (ket perm)).
  Proof.
    intros HP Hp HF HH. destruct (program_ok rgp n perm ph rnd gs HP Hp HF HH) as (G & _ & _ & HL). eapply upto_like; [|exact HL]. apply amplitude_like, G.
  Qed.
End P.
Arguments order_perm {K cx}.
Arguments unit_perm_eq {K cx}.
Arguments spare_zero {K cx}.
