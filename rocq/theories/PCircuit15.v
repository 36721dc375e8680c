(** Proofs about the generic circuits (part 15: masked gates, parities, ZeroPhaseFlip). *)
From Coq Require Import NArith Arith List Bool Lia Ring.
From Verif Require Import Bits MFunctions PFunctions MParFor PParFor MKernel Amp PAmp MEngine SpecState SpecEngine
  PGates PGates2 PGates3 PEngine PCompose MAlu SpecAlu PAlu PAlu2 PAlu5 PAlu6 PAlu9 MCircuit SpecCircuit PCircuit PCircuit2 PCircuit3 PCircuit4 PCircuit5 PCircuit6 PCircuit7 PCircuit8 PCircuit12
  MCircuit2 SpecCircuit2 PCircuit14.
Import ListNotations.
Local Open Scope N_scope.

Definition par (l : list N) (x : N) : bool := fold_right (fun q b => xorb (N.testbit x q) b) false l.
Lemma par_app l q x : par (l ++ [q]) x = xorb (N.testbit x q) (par l x).
Proof. induction l as [|a l IH]; cbn [app par fold_right]; auto. fold (par (l ++ [q]) x). rewrite IH. fold (par l x). now destruct (N.testbit x a), (N.testbit x q), (par l x). Qed.
Lemma par_filter m x k : odd_bits k (N.land x m) = par (filter (N.testbit m) (upto k)) x.
Proof.
  induction k as [|k IH]; auto. cbn [odd_bits upto]. rewrite filter_app. cbn [filter]. rewrite N.land_spec, IH.
  destruct (N.testbit m (N.of_nat k)). rewrite par_app, andb_true_r; auto. now rewrite app_nil_r, andb_false_r, xorb_false_l.
Qed.
Lemma par_mask m x : odd_bits 64 (N.land x m) = par (bits_of m) x.
Proof. apply par_filter. Qed.
Lemma par_flip l b t x : ~ In t l -> par l (flip b t x) = par l x.
Proof. induction l as [|a l IH]; cbn [par fold_right In]; auto. intros H. fold (par l (flip b t x)). rewrite IH by tauto. rewrite tb_flip. destruct (N.eqb_spec t a). subst. tauto. now rewrite andb_false_r, xorb_false_r. Qed.
(** All qubits of the list flipped. *)
Definition flips (l : list N) (x : N) : N := fold_right (fun q y => N.lxor y (2 ^ q)) x l.
Lemma tb_flips l x q : NoDup l -> N.testbit (flips l x) q = xorb (N.testbit x q) (existsb (N.eqb q) l).
Proof.
  induction 1 as [|a l NI ND IH]; cbn [flips fold_right existsb]. now rewrite xorb_false_r. fold (flips l x). rewrite N.lxor_spec, IH, tb_pow2.
  rewrite (N.eqb_sym q a). destruct (N.eqb_spec a q); cbn [orb]; [|now rewrite xorb_false_r]. subst.
  replace (existsb (N.eqb q) l) with false. now rewrite xorb_false_r. symmetry. apply not_true_is_false. rewrite existsb_exists. intros [z [Hz E]]. apply N.eqb_eq in E. now subst.
Qed.
Lemma tb_flips_not l x q : NoDup l -> ~ In q l -> N.testbit (flips l x) q = N.testbit x q.
Proof. intros ND NI. rewrite tb_flips by auto. replace (existsb (N.eqb q) l) with false. apply xorb_false_r. symmetry. apply not_true_is_false. rewrite existsb_exists. intros [z [Hz E]]. apply N.eqb_eq in E. now subst. Qed.
Lemma tb_flips_in l x q : NoDup l -> In q l -> N.testbit (flips l x) q = negb (N.testbit x q).
Proof. intros ND NI. rewrite tb_flips by auto. replace (existsb (N.eqb q) l) with true. apply xorb_true_r. symmetry. apply existsb_exists. exists q. split; auto. apply N.eqb_refl. Qed.
Lemma clear_lxor y q : N.testbit y q = true -> N.clearbit y q = N.lxor y (2 ^ q).
Proof. intros H. apply N.bits_inj. intros j. rewrite N.clearbit_eqb, N.lxor_spec, tb_pow2. destruct (N.eqb_spec q j) as [<-|]; cbn [negb]. now rewrite H. now rewrite andb_true_r, xorb_false_r. Qed.
Lemma set_lxor y q : N.testbit y q = false -> N.setbit y q = N.lxor y (2 ^ q).
Proof. intros H. apply N.bits_inj. intros j. rewrite N.setbit_eqb, N.lxor_spec, tb_pow2. destruct (N.eqb_spec q j) as [<-|]; cbn [orb]. now rewrite H. now rewrite xorb_false_r. Qed.

Section P.
  Context {K : StarRing}.
  Add Ring KrEK : (sr_ring K).
  Variable c : cfg.
  Local Notation V := (mem K).
  Local Notation circ := (circ K).

  Lemma on_all_ext (m : mat2 K) qs : forall (a b : V) x, (forall y, a y = b y) -> on_all m qs a x = on_all m qs b x.
  Proof. induction qs as [|q t IH]; intros a b x H; cbn [on_all fold_left]; auto. apply IH. intros y. now apply gate1_ext. Qed.
  Lemma sem_all (f : N -> circ) (m : mat2 K) qs : (forall q psi x, csem (f q) psi x = gate1 always q m psi x) -> forall psi x, csem (flat_map f qs) psi x = on_all m qs psi x.
  Proof.
    intros H. induction qs as [|q t IH]; intros psi x; cbn [flat_map]; auto. rewrite csem_app, IH. cbn [on_all fold_left]. apply on_all_ext. intros y. apply H.
  Qed.
  Lemma wf_all n (f : N -> circ) qs : (forall q, In q qs -> Forall (wf0 n) (f q)) -> Forall (wf0 n) (flat_map f qs).
  Proof. induction qs as [|q t IH]; intros H; cbn [flat_map]. constructor. apply Forall_app. split. apply H. now left. apply IH. intros a Ha. apply H. now right. Qed.
  Lemma sem_X q (psi : V) x : csem (qi_X q) psi x = gate1 always q mat_x psi x.
  Proof. reflexivity. Qed.
  Lemma sem_Phase1 rgp z q (psi : V) x : csem (qi_Phase rgp 1%amp z q) psi x = gate1 always q (mat_ph z) psi x.
  Proof.
    unfold qi_Phase. destruct (_ && _) eqn:E; [|reflexivity]. apply andb_true_iff in E. destruct E as [_ E]. apply sr_eqb_ok in E.
    assert (z = 1%amp) as ->. { transitivity (1 - (1 - z))%amp; [ring|]. rewrite E. ring. } cbn [csem fold_left]. symmetry. apply gate1_one.
  Qed.
  Lemma wf_X0 n q : q < n -> Forall (wf0 n) (qi_X q : circ).
  Proof. intros H. constructor; [|constructor]. now apply wfc_nil. Qed.
  Lemma wf_P0 n rgp (a b : K) q : q < n -> Forall (wf0 n) (qi_Phase rgp a b q : circ).
  Proof. intros H. unfold qi_Phase. destruct (_ && _); constructor; [|constructor]. now apply wfc_nil. Qed.
  Lemma wfg_X n q : q < n -> Forall (wfg n) (qi_X q : circ).
  Proof. intros. apply wfx_all. now apply wf_X. Qed.
  Lemma wfg_all n (f : N -> circ) qs : (forall q, In q qs -> Forall (wfg n) (f q)) -> Forall (wfg n) (flat_map f qs).
  Proof. induction qs as [|q t IH]; intros H; cbn [flat_map]. constructor. apply Forall_app. split. apply H. now left. apply IH. intros a Ha. apply H. now right. Qed.

  Lemma csem_nil (p : V) x : csem [] p x = p x.
  Proof. reflexivity. Qed.
  (** ** X, Z and the phase roots on a mask *)
  Lemma xmask_generic rgp n mask (psi : V) : fits c n -> mask < 2 ^ n ->
    every_run (crun c rgp n (qi_XMask mask) (Some psi)) (fun r => exists psi', r = Ok (Some psi') /\ eqv n psi' (on_all mat_x (bits_of mask) psi)).
  Proof.
    intros Hf Hm. assert (Hn : n < 64) by apply Hf. unfold qi_XMask. rewrite mask_bits_of by now apply (pow64 n). apply sem_run; auto.
    - apply wfg_all. intros q Hq. apply wfg_X. now apply (bits_of_lt n mask).
    - intros x _. apply sem_all. intros. apply sem_X.
  Qed.
  Lemma zmask_generic rgp n mask (psi : V) : fits c n -> mask < 2 ^ n ->
    every_run (crun c rgp n (qi_ZMask rgp mask) (Some psi)) (fun r => exists psi', r = Ok (Some psi') /\ eqv n psi' (on_all (mat_ph (- (1))%amp) (bits_of mask) psi)).
  Proof.
    intros Hf Hm. assert (Hn : n < 64) by apply Hf. unfold qi_ZMask. rewrite mask_bits_of by now apply (pow64 n). apply sem_run; auto.
    - apply wfg_all. intros q Hq. apply wf_Phase1. now apply (bits_of_lt n mask).
    - intros x _. apply sem_all. intros. apply sem_Phase1.
  Qed.
  Lemma rootmask_generic rgp n root k mask (psi : V) : fits c n -> mask < 2 ^ n -> k <> 0 ->
    every_run (crun c rgp n (qi_PhaseRootNMask rgp root k mask) (Some psi)) (fun r => exists psi', r = Ok (Some psi') /\ eqv n psi' (on_all (mat_ph (root k)) (bits_of mask) psi)).
  Proof.
    intros Hf Hm Hk. assert (Hn : n < 64) by apply Hf. unfold qi_PhaseRootNMask. rewrite mask_bits_of by now apply (pow64 n).
    assert (E : forall q, qi_PhaseRootN rgp root k q = qi_Phase rgp 1%amp (root k) q) by (intros q; unfold qi_PhaseRootN; destruct (N.eqb_spec k 0); [contradiction|reflexivity]).
    apply sem_run; auto.
    - apply wfg_all. intros q Hq. rewrite E. apply wf_Phase1. now apply (bits_of_lt n mask).
    - intros x _. apply sem_all. intros. rewrite E. apply sem_Phase1.
  Qed.

  (** ** Y on a mask *)
  Definition ysign (i : K) (l : list N) (x : N) : K := fold_right (fun q a => (if N.testbit x q then i else - i) * a)%amp 1%amp l.
  Definition zsign (l : list N) (x : N) : K := fold_right (fun q a => (if N.testbit x q then - (1) else 1) * a)%amp 1%amp l.
  Lemma sem_x l : NoDup l -> forall (psi : V) x, on_all mat_x l psi x = psi (flips l x).
  Proof.
    induction 1 as [|q t NI ND IH]; intros psi x; cbn [on_all fold_left flips fold_right]; auto. fold (flips t x). fold (on_all mat_x t (gate1 always q mat_x psi)). rewrite IH. unfold gate1, mat_x. cbn [always m00 m01 m10 m11].
    destruct (N.testbit (flips t x) q) eqn:E. rewrite <- clear_lxor by auto. ring. rewrite <- set_lxor by auto. ring.
  Qed.
  Lemma sem_z l : NoDup l -> forall (psi : V) x, on_all (mat_ph (- (1))%amp) l psi x = (zsign l x * psi x)%amp.
  Proof.
    induction 1 as [|q t NI ND IH]; intros psi x; cbn [on_all fold_left zsign fold_right]; [ring|]. fold (on_all (mat_ph (- (1))%amp) t (gate1 always q (mat_ph (- (1))%amp) psi)). rewrite IH. unfold gate1, mat_ph. cbn [always m00 m01 m10 m11]. unfold zsign.
    destruct (N.testbit x q); ring.
  Qed.
  Lemma sem_y i l : NoDup l -> forall (psi : V) x, on_all (mat_y i) l psi x = (ysign i l x * psi (flips l x))%amp.
  Proof.
    induction 1 as [|q t NI ND IH]; intros psi x; cbn [on_all fold_left ysign flips fold_right]; [ring|]. fold (flips t x). fold (on_all (mat_y i) t (gate1 always q (mat_y i) psi)). rewrite IH. unfold gate1, mat_y. cbn [always m00 m01 m10 m11]. unfold ysign.
    rewrite (tb_flips_not t x q) by auto. destruct (N.testbit x q) eqn:E; [rewrite <- clear_lxor|rewrite <- set_lxor]; try (now rewrite (tb_flips_not t x q) by auto); ring.
  Qed.
  Lemma sign_yz i l x : NoDup l -> forall l', incl l' l -> ysign i l' x = (apow i (length l') * zsign l' (flips l x))%amp.
  Proof.
    intros ND. induction l' as [|q t IH]; intros HI; cbn [ysign zsign fold_right length apow]; [ring|]. fold (ysign i t x). fold (zsign t (flips l x)). rewrite IH by (intros z Hz; apply HI; now right).
    rewrite (tb_flips_in l x q) by (auto; apply HI; now left). destruct (N.testbit x q); cbn [negb]; ring.
  Qed.
  Lemma zx_y i l (psi : V) x : NoDup l -> on_all (mat_y i) l psi x = (apow i (length l) * on_all mat_x l (on_all (mat_ph (- (1))%amp) l psi) x)%amp.
  Proof. intros ND. rewrite sem_y, sem_x, sem_z by auto. rewrite (sign_yz i l x ND l) by (intros z; auto). ring. Qed.
  Lemma apow4 (i : K) k : (i * i = - (1))%amp -> apow i (4 + k) = apow i k.
  Proof. intros H. cbn [Nat.add apow]. ring [H]. Qed.
  Lemma i_pow (i : K) k : (i * i = - (1))%amp -> apow i k = match N.land (N.of_nat k) 3 with 1 => i | 2 => - (1) | 3 => - i | _ => 1 end%amp.
  Proof.
    intros H. change 3 with (N.ones 2) at 1. rewrite N.land_ones. change (2 ^ 2) with 4. induction k as [k IH] using lt_wf_ind. destruct k as [|[|[|[|k]]]]; try (cbn; ring [H]).
    change (S (S (S (S k)))) with (4 + k)%nat. rewrite apow4 by auto. rewrite (IH k) by lia. replace (N.of_nat (4 + k)) with (N.of_nat k + 1 * 4) by lia. now rewrite N.mod_add by lia.
  Qed.
  Lemma bits_of_pow2 b : b < 64 -> bits_of (2 ^ b) = [b].
  Proof.
    intros H. apply sorted_same. apply bits_of_sorted. repeat constructor. intros q. rewrite bits_of_in by (apply N.pow_lt_mono_r; lia). rewrite tb_pow2. cbn [In]. rewrite N.eqb_eq. tauto.
  Qed.
  Lemma sem_Phase2 z q (psi : V) x : csem (qi_Phase false z z q) psi x = (z * psi x)%amp.
  Proof.
    unfold qi_Phase. destruct (_ && _) eqn:E.
    - apply andb_true_iff in E. destruct E as [E _]. cbn [orb] in E. apply sr_eqb_ok in E. assert (z = 1%amp) as ->. { transitivity (1 - (1 - z))%amp; [ring|]. rewrite E. ring. } cbn [csem fold_left]. ring.
    - cbn [csem fold_left gsem]. unfold gate1, all_set. cbn [forallb m00 m01 m10 m11]. destruct (N.testbit x q); ring.
  Qed.
  Lemma ymask_generic rgp n (i : K) mask (psi : V) : fits c n -> (i * i = - (1))%amp -> 0 < mask < 2 ^ n ->
    every_run (crun c rgp n (qi_YMask rgp i mask) (Some psi)) (fun r => exists psi' g, r = Ok (Some psi') /\ (forall x, x < 2 ^ n -> on_all (mat_y i) (bits_of mask) psi x = (g * psi' x)%amp) /\
      (rgp = false -> g = 1%amp) /\ (sr_conj i = - i -> anorm g = 1)%amp).
  Proof.
    intros Hf Hi Hm. assert (Hn : n < 64) by apply Hf. assert (H64 : mask < 2 ^ 64) by now apply (pow64 n). pose proof (bits_of_nodup mask) as ND.
    assert (Hb : forall q, In q (bits_of mask) -> q < n) by (intros q Hq; now apply (bits_of_lt n mask)).
    assert (N1 : anorm (1 : K)%amp = 1%amp) by (unfold anorm; rewrite conj_1; ring).
    assert (M1 : forall z : K, z = (1 * z)%amp) by (intros; ring).
    unfold qi_YMask. cbv zeta. destruct (N.eqb_spec (2 ^ N.log2 mask) mask) as [E|NE].
    - assert (Hl : N.log2 mask < n). { apply N.log2_lt_pow2; lia. } destruct (crun_phase c rgp n (qi_Y i (N.log2 mask)) Hf ltac:(constructor; [|constructor]; now apply wfc_nil) psi) as [He Ha]. split; auto. intros r HR.
      destruct (Ha r HR) as [psi' [g [-> [HE [HP HN]]]]]. exists psi', g. split; auto. split; [|split; auto].
      + intros x Hx. rewrite <- HE by auto. rewrite <- E at 1. rewrite bits_of_pow2 by lia. reflexivity.
      + intros _. apply HN. intros m t ph [HI|[]] Em. injection HI as <- <-. injection Em as E1 E2 E3 E4. rewrite <- E1. assert (T : (1 : K)%amp = 0%amp). { rewrite E3 in Hi. transitivity (- - (1) : K)%amp; [ring|]. rewrite <- Hi. ring. } transitivity (1 * anorm (0 : K))%amp; [ring|]. rewrite T. ring.
    - assert (W : Forall (wf0 n) (qi_ZMask rgp mask ++ qi_XMask mask : circ)).
      { unfold qi_ZMask, qi_XMask. rewrite mask_bits_of by auto. apply Forall_app. split; apply wf_all; intros q Hq; [apply wf_P0|apply wf_X0]; auto. }
      assert (SZX : forall x, csem (qi_ZMask rgp mask ++ qi_XMask mask) psi x = on_all mat_x (bits_of mask) (on_all (mat_ph (- (1))%amp) (bits_of mask) psi) x).
      { intros x. rewrite csem_app. unfold qi_ZMask, qi_XMask. rewrite mask_bits_of by auto. rewrite (sem_all _ mat_x) by (intros; apply sem_X). apply on_all_ext. intros y. apply sem_all. intros. apply sem_Phase1. }
      assert (Wg : Forall (wfg n) (qi_ZMask rgp mask ++ qi_XMask mask : circ)).
      { unfold qi_ZMask, qi_XMask. rewrite mask_bits_of by auto. apply Forall_app. split; apply wfg_all; intros q Hq; [apply wf_Phase1|apply wfg_X]; auto. }
      destruct rgp.
      + rewrite app_nil_r. destruct (crun_run c true n _ Hf Wg psi) as [He Ha]. split; auto. intros r HR. destruct (Ha r HR) as [psi' [-> HB]]. exists psi', (apow i (length (bits_of mask))). split; auto. split; [|split; [discriminate|]].
        * intros x Hx. rewrite zx_y by auto. rewrite (HB x Hx). now rewrite SZX.
        * intros Hc. rewrite i_pow by auto. set (k := N.land _ _). assert (NI : anorm i = 1%amp) by (unfold anorm; rewrite Hc; ring [Hi]).
          assert (NN : forall z : K, anorm (- z)%amp = anorm z) by (intros z; unfold anorm; rewrite conj_opp; ring).
          destruct k as [|[[|[]|]|[[]|[]|]|]]; rewrite ?NN; auto.
      + assert (W2 : Forall (wf0 n) (qi_ZMask false mask ++ qi_XMask mask ++ match N.land (N.of_nat (length (mask_bits 128 mask))) 3 with 1 => qi_Phase false i i 0 | 2 => qi_PhaseFlip false | 3 => qi_Phase false (- i)%amp (- i)%amp 0 | _ => [] end : circ)).
        { rewrite app_assoc. apply Forall_app. split; auto. assert (0 < n). { destruct n; [|lia]. cbn in Hm. lia. } set (k := N.land _ _). destruct k as [|[[|[]|]|[[]|[]|]|]]; try constructor; now apply wf_P0. }
        destruct (sem_run0 c n _ (on_all (mat_y i) (bits_of mask) psi) psi Hf W2) as [He Ha].
        { intros x Hx. rewrite app_assoc, csem_app. rewrite mask_bits_of by auto. rewrite zx_y, i_pow by auto. set (k := N.land _ _).
          assert (Q : forall z, csem (qi_Phase false z z 0) (csem (qi_ZMask false mask ++ qi_XMask mask) psi) x = (z * on_all mat_x (bits_of mask) (on_all (mat_ph (- (1))%amp) (bits_of mask) psi) x)%amp) by (intros z; rewrite sem_Phase2; now rewrite SZX).
          assert (Q1 : csem [] (csem (qi_ZMask false mask ++ qi_XMask mask) psi) x = (1 * on_all mat_x (bits_of mask) (on_all (mat_ph (- (1))%amp) (bits_of mask) psi) x)%amp) by (rewrite csem_nil, SZX; apply M1).
          unfold qi_PhaseFlip. destruct k as [|[[|[]|]|[[]|[]|]|]]; try apply Q1; apply Q. }
        split; auto. intros r HR. destruct (Ha r HR) as [psi' [-> HB]]. exists psi', 1%amp. split; auto. split; [|split; auto]. intros x Hx. rewrite (HB x Hx). apply M1.
  Qed.

  (** ** Parity *)
  Lemma chain_back qs : (cnot_chain_back qs : circ) = rev (cnot_chain qs).
  Proof. induction qs as [|a [|b t] IH]; auto. change (cnot_chain_back (a :: b :: t)) with ((cnot_chain_back (b :: t) ++ qi_CNOT a b) : circ). rewrite IH. reflexivity. Qed.
  Lemma chain_wf n qs : NoDup qs -> (forall q, In q qs -> q < n) -> Forall (wfx n) (cnot_chain qs : circ).
  Proof.
    induction qs as [|a [|b t] IH]; intros ND Hq; try constructor. 2:{ apply IH. now inversion ND. intros q H. apply Hq. now right. }
    inversion ND as [|? ? NI N2]; subst. split; [|auto]. apply wfc_intro. repeat constructor; auto. intros [<-|[]]. apply NI. now left. apply Hq. right. now left. intros q [<-|[]]. apply Hq. now left.
  Qed.
  Lemma chain_last qs : forall a x, NoDup (a :: qs) -> N.testbit (cact (cnot_chain (a :: qs) : circ) x) (last (a :: qs) 0) = par (a :: qs) x.
  Proof.
    induction qs as [|b t IH]; intros a x ND. cbn. now rewrite xorb_false_r. change (last (a :: b :: t) 0) with (last (b :: t) 0).
    change (cact (cnot_chain (a :: b :: t)) x) with (cact (cnot_chain (b :: t) : circ) (cact (qi_CNOT a b : circ) x)). inversion ND as [|? ? NI N2]; subst. rewrite IH by auto.
    unfold qi_CNOT. rewrite act_MC. inversion N2 as [|? ? NI2 N3]; subst. cbn [par fold_right]. fold (par t (flip (all_set [a] x) b x)). fold (par t x). rewrite par_flip by auto. rewrite tb_flip, N.eqb_refl. unfold all_set. cbn [forallb]. rewrite !andb_true_r.
    now destruct (N.testbit x a), (N.testbit x b), (par t x).
  Qed.
  Lemma phaseparity_generic rgp n (em ep : K) mask (psi : V) : fits c n -> mask < 2 ^ n -> mask <> 0 ->
    every_run (crun c rgp n (qi_PhaseParity rgp em ep mask) (Some psi)) (fun r => exists psi' g, r = Ok (Some psi') /\ (forall x, x < 2 ^ n -> parity_phase mask ep em psi x = (g * psi' x)%amp) /\
      (g = 1%amp \/ rgp = true /\ g = em /\ g = ep)).
  Proof.
    intros Hf Hm Hz. assert (Hn : n < 64) by apply Hf. assert (H64 : mask < 2 ^ 64) by now apply (pow64 n). unfold qi_PhaseParity. destruct (N.eqb_spec mask 0); [contradiction|]. rewrite mask_bits_of by auto.
    pose proof (bits_of_nodup mask) as ND. assert (Hb : forall q, In q (bits_of mask) -> q < n) by (intros q Hq; now apply (bits_of_lt n mask)).
    assert (NE : bits_of mask <> []). { intros E. apply Hz. apply N.bits_inj. intros q. rewrite N.bits_0. apply not_true_is_false. rewrite <- bits_of_in by auto. rewrite E. auto. }
    assert (PP : forall x, parity_phase mask ep em psi x = ((if par (bits_of mask) x then ep else em) * psi x)%amp) by (intros x; unfold parity_phase; now rewrite par_mask).
    destruct (bits_of mask) as [|a qs] eqn:EQ; [contradiction|]. clear NE. set (l := a :: qs) in *. pose proof (chain_wf n l ND Hb) as W. rewrite chain_back.
    assert (Wl : last l 0 < n). { apply Hb. unfold l. clear. revert a. induction qs as [|b t IH]; intros a. now left. right. change (last (a :: b :: t) 0) with (last (b :: t) 0). apply IH. }
    assert (SM : forall G x, csem (cnot_chain l ++ G ++ rev (cnot_chain l)) psi x = csem G (csem (cnot_chain l) psi) (cact (cnot_chain l : circ) x)).
    { intros G x. rewrite !csem_app. rewrite (csem_cact n) by now apply wfx_rev. now rewrite rev_involutive. }
    assert (SC : forall x, csem (cnot_chain l) psi (cact (cnot_chain l : circ) x) = psi x).
    { intros x. rewrite (csem_cact n) by auto. now rewrite (cact_rev n). }
    unfold qi_Phase. destruct ((rgp || sr_eqb (1 - em)%amp 0%amp) && sr_eqb (em - ep)%amp 0%amp) eqn:E.
    - apply andb_true_iff in E. destruct E as [E1 E2]. apply sr_eqb_ok in E2. assert (EE : ep = em) by (transitivity (em - (em - ep))%amp; [ring|rewrite E2; ring]).
      destruct (@crun_run K c rgp n (cnot_chain l ++ [] ++ rev (cnot_chain l)) Hf) with (psi := psi) as [He Ha].
      { cbn [app]. apply Forall_app. split; apply wfx_all; auto. now apply wfx_rev. }
      split; auto. intros r HR. destruct (Ha r HR) as [psi' [-> HB]]. exists psi', em. split; auto. split.
      + intros x Hx. rewrite PP, EE. replace (if par l x then em else em) with em by now destruct (par l x). rewrite (HB x Hx). rewrite SM, csem_nil. now rewrite SC.
      + apply orb_true_iff in E1. destruct E1 as [E1|E1]. right. auto. left. apply sr_eqb_ok in E1. transitivity (1 - (1 - em))%amp; [ring|]. rewrite E1. ring.
    - set (G := [GM [] (mkMat em 0%amp 0%amp ep) (last l 0)]).
      assert (SG : forall x, csem (cnot_chain l ++ G ++ rev (cnot_chain l)) psi x = parity_phase mask ep em psi x).
      { intros x. rewrite SM, PP. unfold G. cbn [csem fold_left gsem]. unfold gate1, all_set. cbn [forallb m00 m01 m10 m11]. assert (CL : N.testbit (cact (cnot_chain l : circ) x) (last l 0) = par l x) by (apply chain_last; auto).
        rewrite CL. fold (csem (cnot_chain l) psi). rewrite SC. destruct (par l x); ring. }
      destruct (@crun_phase K c rgp n (cnot_chain l ++ G ++ rev (cnot_chain l)) Hf) with (psi := psi) as [He Ha].
      { apply Forall_app. split. now apply wfg_wf0, wfx_all. apply Forall_app. split. constructor; [|constructor]. now apply wfc_nil. apply wfg_wf0, wfx_all. now apply wfx_rev. }
      split; auto. intros r HR. destruct (Ha r HR) as [psi' [g [-> [HB [HP _]]]]]. destruct rgp.
      + destruct (@crun_run K c true n (cnot_chain l ++ G ++ rev (cnot_chain l)) Hf) with (psi := psi) as [_ Hg].
        { apply Forall_app. split. now apply wfx_all. apply Forall_app. split. 2:{ apply wfx_all. now apply wfx_rev. } constructor; [|constructor]. split. now apply wfc_nil. right. intros ph Hph. injection Hph as E1 E2. subst. cbn [orb andb] in E.
          exfalso. assert (T : sr_eqb (ph - ph)%amp 0%amp = true) by (apply sr_eqb_ok; ring). congruence. }
        destruct (Hg _ HR) as [psi2 [E2 HB2]]. injection E2 as <-. exists psi', 1%amp. split; auto. split; auto. intros x Hx. rewrite <- SG. rewrite (HB2 x Hx). ring.
      + exists psi', 1%amp. split; auto. split; auto. intros x Hx. rewrite <- SG, (HB x Hx), HP by auto. ring.
  Qed.

  (** ** ZeroPhaseFlip *)
  Lemma reg_zero x s k : (get_reg x s (k + 1) =? 0) = all_clear (iota s (N.to_nat k)) x && negb (N.testbit x (s + k)).
  Proof.
    apply eq_true_iff_eq. rewrite andb_true_iff, negb_true_iff, N.eqb_eq. unfold all_clear. rewrite forallb_forall. split.
    - intros H. split; [intros q Hq; apply iota_In in Hq; rewrite negb_true_iff|].
      + assert (T := f_equal (fun y => N.testbit y (q - s)) H). cbn beta in T. rewrite tb_get_reg, N.bits_0 in T. replace (q - s + s) with q in T by lia. destruct (N.ltb_spec (q - s) (k + 1)); [exact T|lia].
      + assert (T := f_equal (fun y => N.testbit y k) H). cbn beta in T. rewrite tb_get_reg, N.bits_0 in T. replace (k + s) with (s + k) in T by lia. destruct (N.ltb_spec k (k + 1)); [exact T|lia].
    - intros [H1 H2]. apply N.bits_inj. intros q. rewrite tb_get_reg, N.bits_0. destruct (N.ltb_spec q (k + 1)); auto. cbn [andb]. destruct (N.eq_dec q k) as [->|].
      + now rewrite N.add_comm. + specialize (H1 (q + s)). rewrite negb_true_iff in H1. apply H1. apply iota_In. lia.
  Qed.
  Lemma zeroflip_generic rgp n s len (psi : V) : fits c n -> 0 < len -> s + len <= n ->
    every_run (crun c rgp n (qi_ZeroPhaseFlip rgp s len) (Some psi)) (fun r => exists psi', r = Ok (Some psi') /\ eqv n psi' (flip_zero s len psi)).
  Proof.
    intros Hf Hl Hs. unfold qi_ZeroPhaseFlip. destruct (N.eqb_spec len 0); [lia|].
    assert (SZ : forall x, gate1 (all_clear (iota s (N.to_nat (len - 1)))) (s + (len - 1)) (mkMat (- (1))%amp 0%amp 0%amp 1%amp) psi x = flip_zero s len psi x).
    { intros x. unfold flip_zero. replace len with ((len - 1) + 1) at 3 by lia. rewrite reg_zero. unfold gate1. cbn [m00 m01 m10 m11]. destruct (all_clear _ x); cbn [andb]; auto. destruct (N.testbit x (s + (len - 1))); cbn [negb]; ring. }
    destruct (N.eqb_spec len 1) as [->|N1].
    - assert (SP : forall x, csem (qi_Phase rgp (- (1))%amp 1%amp s) psi x = flip_zero s 1 psi x).
      { intros x. rewrite <- SZ. change (1 - 1) with 0. rewrite N.add_0_r. cbn [N.to_nat iota]. unfold qi_Phase. destruct (_ && _) eqn:E; [|reflexivity].
        apply andb_true_iff in E. destruct E as [_ E]. apply sr_eqb_ok in E. cbn [csem fold_left]. assert (M1 : (- (1) : K)%amp = 1%amp). { transitivity ((- (1) - 1) + 1 : K)%amp; [ring|]. rewrite E. ring. } rewrite M1. symmetry. apply gate1_one. }
      apply sem_run; auto. unfold qi_Phase. destruct (_ && _) eqn:E; constructor; [|constructor]. split. apply wfc_nil; lia. right. intros ph Hp. injection Hp as E1 E2. now rewrite E2.
    - assert (W : wfc n (iota s (N.to_nat (len - 1))) (s + (len - 1))).
      { apply wfc_intro. apply iota_NoDup. rewrite iota_In. lia. lia. intros q Hq. apply iota_In in Hq. lia. }
      assert (EM : (qi_MACPhase (iota s (N.to_nat (len - 1))) (- (1))%amp 1%amp (s + (len - 1)) : circ) = qi_MACMtrx (iota s (N.to_nat (len - 1))) (mkMat (- (1))%amp 0%amp 0%amp 1%amp) (s + (len - 1))).
      { unfold qi_MACMtrx. cbn [m00 m01 m10 m11]. assert (T : sr_eqb (0 : K)%amp 0%amp = true) by now apply sr_eqb_ok. now rewrite T. }
      rewrite EM. apply sem_run; auto. apply wf_MACMtrx; auto. left. destruct (N.to_nat (len - 1)) eqn:E; [lia|discriminate]. intros x _. rewrite (sem_MACMtrx n) by auto. apply SZ.
  Qed.
End P.
