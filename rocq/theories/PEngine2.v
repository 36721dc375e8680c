(** FSim, phase masks, and recorded deviations of the engine. *)
From Coq Require Import NArith ZArith List Bool Lia Permutation Ring.
From Verif Require Import Bits MFunctions SpecFunctions PFunctions MParFor SpecParFor PParFor MKernel PKernel Amp PAmp SpecState MEngine SpecEngine PLoop PApply PGates PGates2 PGates3 PCompose PProb PEngine.
Import ListNotations.
Local Open Scope N_scope.

(** ** Counting bits *)
Lemma count_bits_S k v : count_bits (S k) v = ((if N.testbit v 0 then 1 else 0) + count_bits k (N.div2 v))%nat.
Proof.
  induction k as [|k IH]. reflexivity.
  change (count_bits (S (S k)) v) with ((if N.testbit v (N.of_nat (S k)) then 1 else 0) + count_bits (S k) v)%nat.
  rewrite IH. change (count_bits (S k) (N.div2 v)) with ((if N.testbit (N.div2 v) (N.of_nat k) then 1 else 0) + count_bits k (N.div2 v))%nat.
  replace (N.testbit (N.div2 v) (N.of_nat k)) with (N.testbit v (N.of_nat (S k))).
  - destruct (N.testbit v 0), (N.testbit v (N.of_nat (S k))); lia.
  - rewrite N.div2_spec, N.shiftr_spec'. f_equal. lia.
Qed.
Lemma count_bits_0 k : count_bits k 0 = O.
Proof. induction k as [|k IH]; [reflexivity|]. change (count_bits (S k) 0) with ((if N.testbit 0 (N.of_nat k) then 1 else 0) + count_bits k 0)%nat. now rewrite N.bits_0, IH. Qed.
Lemma pop_count p : forall k, Npos p < 2 ^ N.of_nat k -> pop_pos p = N.of_nat (count_bits k (Npos p)).
Proof.
  induction p as [p IH|p IH|]; intros k Hk; (destruct k as [|k]; [simpl in Hk; lia|]); rewrite count_bits_S; cbn [pop_pos N.div2].
  - rewrite (IH k). change (N.testbit (N.pos p~1) 0) with true. cbn iota. rewrite Nat2N.inj_add. reflexivity. rewrite Nat2N.inj_succ, N.pow_succ_r' in Hk. lia.
  - rewrite (IH k). change (N.testbit (N.pos p~0) 0) with false. reflexivity. rewrite Nat2N.inj_succ, N.pow_succ_r' in Hk. lia.
  - rewrite count_bits_0. reflexivity.
Qed.
Lemma count_bits_high a k x : x < 2 ^ N.of_nat k -> count_bits (a + k) x = count_bits k x.
Proof.
  intros H. induction a as [|a IH]; auto. cbn [Nat.add count_bits]. rewrite IH. rewrite (tb_high x (N.of_nat k)) by (auto; lia). reflexivity.
Qed.
Lemma popCountOcl_count pb x : pb <= 64 -> x < 2 ^ pb -> popCountOcl pb x = N.of_nat (count_bits 64 x).
Proof.
  intros Hp Hx. unfold popCountOcl. rewrite N.mod_small by auto. destruct x as [|p]. now rewrite count_bits_0.
  apply pop_count. apply N.lt_le_trans with (2 ^ pb); auto. change (N.of_nat 64) with 64. now apply pow2_le_mono.
Qed.
Lemma count_bits_pow2 q : q < 64 -> count_bits 64 (2 ^ q) = 1%nat.
Proof.
  intros Hq. assert (E : forall k, count_bits k (2 ^ q) = if q <? N.of_nat k then 1%nat else 0%nat).
  { induction k as [|k IH]. simpl. destruct (N.ltb_spec q 0); lia. cbn [count_bits]. rewrite IH, tb_pow2.
    destruct (N.eqb_spec q (N.of_nat k)), (N.ltb_spec q (N.of_nat k)), (N.ltb_spec q (N.of_nat (S k))); lia. }
  rewrite E. destruct (N.ltb_spec q (N.of_nat 64)); auto. change (N.of_nat 64) with 64 in *. lia.
Qed.

Section E2.
  Context {K : StarRing}.
  Variable c : cfg.
  Add Ring Kr10 : (sr_ring K).
  Local Notation V := (mem K).

  Lemma apow_add (x : K) a b : apow x (a + b) = (apow x a * apow x b)%amp.
  Proof. induction a as [|a IH]; cbn [Nat.add apow]. ring. rewrite IH. ring. Qed.
  Lemma apow_mul1 (x : K) p q : apow x p = 1%amp -> apow x (q * p) = 1%amp.
  Proof. intros H. induction q as [|q IH]; cbn [Nat.mul apow]; auto. rewrite apow_add, H, IH. ring. Qed.
  Lemma apow_mod (x : K) k p : p <> 0 -> apow x (N.to_nat p) = 1%amp -> apow x (N.to_nat (k mod p)) = apow x (N.to_nat k).
  Proof.
    intros Hp H. rewrite (N.div_mod k p) at 2 by auto. rewrite N2Nat.inj_add, N2Nat.inj_mul, Nat.mul_comm, apow_add, apow_mul1 by auto. ring.
  Qed.

  (** A diagonal gate whose first entry is 1 leaves no room for a global phase. *)
  Lemma phase1_ok rgp n (w : K) q (psi : V) r : fits c n -> q < n -> Phase c rgp n 1%amp w q (Some psi) r ->
    exists psi', r = Ok (Some psi') /\ eqv n psi' (fun x => if N.testbit x q then w * psi x else psi x)%amp.
  Proof.
    intros Hf Hq. unfold Phase. destruct (_ && _) eqn:E.
    - intros ->. apply andb_true_iff in E. destruct E as [_ E]. destruct (eqb_spec K (1 - w)%amp 0%amp) as [E1|]; [|discriminate].
      assert (w = 1)%amp as -> by (transitivity (1 - (1 - w))%amp; [ring | rewrite E1; ring]).
      exists psi. split; auto. intros x _. destruct (N.testbit x q); ring.
    - intros H. change (EitherMtrx c rgp false n [] (mkMat 1%amp 0%amp 0%amp w) q (Some psi) r) in H.
      apply either_ok in H; auto.
      2:{ constructor; [intros [] | constructor]. }
      2:{ intros q0 [<-|[]]; auto. }
      destruct H as [psi' [ph [-> [Hx Hp]]]]. exists psi'. split; auto. intros x Hlt. specialize (Hx x Hlt).
      assert (ph = 1)%amp as -> by (destruct Hp as [|[_ [_ Hm]]]; auto; congruence).
      transitivity (1 * psi' x)%amp; [ring|]. rewrite <- Hx. unfold gate1, all_set. cbn [forallb m00 m01 m10 m11]. destruct (N.testbit x q); ring.
  Qed.
  Lemma phase1_run rgp n (w : K) q (psi : V) : fits c n -> q < n ->
    every_run (Phase c rgp n 1%amp w q (Some psi)) (fun r => exists psi', r = Ok (Some psi') /\ eqv n psi' (fun x => if N.testbit x q then w * psi x else psi x)%amp).
  Proof. intros. split. now apply phase_any. intros. eapply phase1_ok; eauto. Qed.

  Lemma prn_ok rgp pb n nr (i w : K) mask (psi : V) r : fits c n -> pb <= 64 -> 2 <= nr < 64 -> 0 < mask -> mask < 2 ^ n -> mask < 2 ^ pb ->
    apow (sr_conj w) (N.to_nat (2 ^ nr)) = 1%amp -> PhaseRootNMask c rgp pb n nr i w mask (Some psi) r ->
    exists psi', r = Ok (Some psi') /\ eqv n psi' (fun x => apow (sr_conj w) (count_bits 64 (N.land x mask)) * psi x)%amp.
  Proof.
    intros Hf Hpb Hnr Hm0 Hm Hmp Hw. assert (Hn : n < 64) by apply Hf. unfold PhaseRootNMask. destruct (N.leb_spec (2 ^ n) mask); [lia|].
    destruct (N.eqb_spec nr 0); [lia|]. destruct (N.eqb_spec mask 0); [lia|]. destruct (N.eqb_spec nr 1); [lia|]. cbn [orb].
    destruct (isPowerOfTwoOcl mask) eqn:EP.
    - apply (power_of_mask _ n) in EP; auto. destruct EP as [Hq Eq]. set (q := bi_log2_native mask) in *. clearbody q. intros H1.
      apply phase1_ok in H1; auto. destruct H1 as [psi' [-> Hx]]. exists psi'. split; auto. intros x Hlt. rewrite Hx by auto. rewrite Eq, land_pow2_testbit.
      destruct (N.testbit x q); [rewrite count_bits_pow2 by lia | rewrite count_bits_0]; cbn [apow]; ring.
    - intros [psi' [HR ->]]. exists psi'. split; auto.
      refine (pointwise_ok c n (2 ^ n) _ (fun x y => apow (sr_conj w) (count_bits 64 (N.land x mask)) * y)%amp psi psi' Hf (N.le_refl _) _ HR).
      intros x Hx. unfold prn_body. rewrite popCountOcl_count by (auto using land_mask_lt). rewrite pow2Ocl_small by lia.
      assert (E : apow (sr_conj w) (N.to_nat (N.of_nat (count_bits 64 (N.land x mask)) mod 2 ^ nr)) = apow (sr_conj w) (count_bits 64 (N.land x mask))).
      { rewrite apow_mod; auto. now rewrite Nat2N.id. apply N.pow_nonzero. lia. }
      set (k := N.of_nat (count_bits 64 (N.land x mask)) mod 2 ^ nr) in *. destruct (N.eqb_spec k 0) as [Ek|Ek].
      + left. split; auto. intros y. rewrite Ek in E. cbn [N.to_nat apow] in E. rewrite <- E. ring.
      + right. now rewrite E.
  Qed.
  Lemma prn_run rgp pb n nr (i w : K) mask (psi : V) : fits c n -> pb <= 64 -> 2 <= nr < 64 -> 0 < mask -> mask < 2 ^ n -> mask < 2 ^ pb ->
    apow (sr_conj w) (N.to_nat (2 ^ nr)) = 1%amp ->
    every_run (PhaseRootNMask c rgp pb n nr i w mask (Some psi)) (fun r =>
      exists psi', r = Ok (Some psi') /\ eqv n psi' (fun x => apow (sr_conj w) (count_bits 64 (N.land x mask)) * psi x)%amp).
  Proof.
    intros Hf H1 H2 H3 H4 H5 H6. split; [|intros; eapply prn_ok; eauto].
    unfold PhaseRootNMask. destruct (_ <=? _); eauto. destruct (_ || _); eauto. destruct (N.eqb_spec nr 1); [lia|].
    destruct (isPowerOfTwoOcl mask). now apply phase_any. now apply for_any.
  Qed.

  (** ZMask: the phase flip, times a constant factor -i. *)
  Lemma zmask_run rgp n (i : K) mask (psi : V) : fits c n -> 0 < mask < 2 ^ n -> (1 + 1 <> 0 :> K)%amp -> (i * i = - (1))%amp ->
    every_run (ZMask c rgp n i mask (Some psi)) (fun r => exists psi', r = Ok (Some psi') /\
      eqv n psi' (fun x => - i * (if odd_bits 64 (N.land x mask) then - psi x else psi x))%amp).
  Proof.
    intros Hf Hm H2 Hi. destruct (c21_phaseparity c rgp n i (- i)%amp mask psi Hf Hm) as [He Hr]. split; auto. intros r HR.
    destruct (Hr r HR) as [psi' [g [-> [Hx Hg]]]]. exists psi'. split; auto. intros x Hlt. specialize (Hx x Hlt).
    assert (g = 1)%amp as ->.
    { destruct Hg as [|[_ [E1 E2]]]; auto. exfalso. apply H2. assert (E : i = (- i)%amp) by congruence.
      transitivity (- ((i + i) * i))%amp. { replace ((i + i) * i)%amp with ((i * i) + (i * i))%amp by ring. rewrite Hi. ring. }
      rewrite E at 2. ring. }
    transitivity (1 * psi' x)%amp; [ring|]. rewrite <- Hx. unfold parity_phase. destruct (odd_bits _ _); ring.
  Qed.

  (** ** FSim *)
  Lemma gate_swap_eqv n P a b (m : mat2 K) (u v : V) : a < n -> b < n -> eqv n u v -> eqv n (gate_swap P a b m u) (gate_swap P a b m v).
  Proof.
    intros Ha Hb H x Hx. unfold gate_swap.
    assert (Hs : swap_bits a b x < 2 ^ n).
    { unfold swap_bits. destruct (N.testbit x a), (N.testbit x b); auto using setbit_lt, clearbit_lt. }
    rewrite (H x Hx), (H _ Hs). reflexivity.
  Qed.
  Lemma gate_swap_id P a b (u : V) x : gate_swap P a b midn u x = u x.
  Proof. unfold gate_swap, midn. cbn [m00 m01 m10 m11]. destruct (_ && _); auto. cbv zeta. destruct (N.testbit x a); ring. Qed.

  Lemma fsim_ok rgp n (i co si ph : K) q1 q2 (psi : V) r : fits c n -> q1 < n -> q2 < n -> q1 <> q2 ->
    ((si * si = 0)%amp -> si = 0%amp /\ co = 1%amp) ->
    FSim c rgp n i co si ph q1 q2 (Some psi) r ->
    exists psi', r = Ok (Some psi') /\
      eqv n psi' (gate1 (all_set [N.min q1 q2]) (N.max q1 q2) (mkMat 1%amp 0%amp 0%amp ph)
        (gate_swap always q1 q2 (mkMat co (- (i * si)) (- (i * si)) co)%amp psi)).
  Proof.
    intros Hf Hq1 Hq2 Hne Hsi [r1 [H1 H2]]. set (m := mkMat co (- (i * si)) (- (i * si)) co : mat2 K) in *.
    assert (Hmid : exists psi1, r1 = Ok (Some psi1) /\ eqv n psi1 (gate_swap always q1 q2 m psi)).
    { destruct (eqb_spec K (si * si)%amp 0%amp) as [E|E].
      - destruct (Hsi E) as [-> ->]. exists psi. split; auto. intros x _. rewrite <- (gate_swap_id always q1 q2 psi x). unfold m, midn.
        replace (- (i * 0))%amp with (0 : K)%amp by ring. reflexivity.
      - assert (H3 : CSwapLike c false n [] m q1 q2 (Some psi) r1).
        { unfold CSwapLike, SwapLike. destruct (N.eqb_spec q1 q2); [contradiction|]. exact H1. }
        apply swap_like_ok in H3; auto.
        + split; reflexivity.
        + constructor; [intros [|[]]; auto | constructor; [intros [] | constructor]].
        + intros q [<-|[<-|[]]]; auto. }
    destruct Hmid as [psi1 [-> Hp1]].
    assert (Hab : N.min q1 q2 <> N.max q1 q2 /\ N.min q1 q2 < n /\ N.max q1 q2 < n) by (destruct (N.min_spec q1 q2), (N.max_spec q1 q2); lia).
    set (a := N.min q1 q2) in *. set (b := N.max q1 q2) in *. clearbody a b. destruct Hab as [Hab [Ha Hb]].
    assert (G : eqv n (gate1 (all_set [a]) b (mkMat 1%amp 0%amp 0%amp ph) psi1)
                      (gate1 (all_set [a]) b (mkMat 1%amp 0%amp 0%amp ph) (gate_swap always q1 q2 m psi))) by (apply gate1_eqv; auto).
    destruct (eqb_spec K (1 - ph)%amp 0%amp) as [E|E].
    - assert (ph = 1)%amp as -> by (transitivity (1 - (1 - ph))%amp; [ring | rewrite E; ring]). subst r. exists psi1. split; auto. intros x Hx.
      rewrite <- G by auto. unfold gate1. cbn [m00 m01 m10 m11]. destruct (all_set [a] x); auto. destruct (N.testbit x b); ring.
    - apply either_ok in H2; auto.
      2:{ constructor; [intros [|[]]; auto | constructor; [intros [] | constructor]]. }
      2:{ intros q [<-|[<-|[]]]; auto. }
      destruct H2 as [psi' [g [-> [Hx Hg]]]]. exists psi'. split; auto. intros x Hlt. rewrite <- G by auto. rewrite Hx by auto.
      assert (g = 1)%amp as -> by (destruct Hg as [|[_ [_ Hm]]]; auto; congruence). ring.
  Qed.
  Lemma fsim_run rgp n (i co si ph : K) q1 q2 (psi : V) : fits c n -> q1 < n -> q2 < n -> q1 <> q2 ->
    ((si * si = 0)%amp -> si = 0%amp /\ co = 1%amp) ->
    every_run (FSim c rgp n i co si ph q1 q2 (Some psi)) (fun r => exists psi', r = Ok (Some psi') /\
      eqv n psi' (gate1 (all_set [N.min q1 q2]) (N.max q1 q2) (mkMat 1%amp 0%amp 0%amp ph)
        (gate_swap always q1 q2 (mkMat co (- (i * si)) (- (i * si)) co)%amp psi))).
  Proof.
    intros. split; [|intros; eapply fsim_ok; eauto]. unfold FSim.
    assert (He : exists r1, if sr_eqb (si * si)%amp 0%amp then r1 = Ok (Some psi) else
      Apply2x2 c n (pow2Ocl (N.min q1 q2)) (pow2Ocl (N.max q1 q2)) (mkMat co (- (i * si))%amp (- (i * si))%amp co) [pow2Ocl (N.min q1 q2); pow2Ocl (N.max q1 q2)] (Some psi) r1).
    { destruct (sr_eqb _ _); eauto. now apply apply2x2_any. }
    destruct He as [r1 He]. destruct r1 as [|v1]. exists Throw. exists Throw. auto.
    destruct (sr_eqb (1 - ph)%amp 0%amp) eqn:E.
    - exists (Ok v1), (Ok v1). split; auto. 
    - destruct (either_any c rgp false n [N.min q1 q2] (mkMat 1%amp 0%amp 0%amp ph) (N.max q1 q2) v1) as [r Hr]; auto.
      exists r, (Ok v1). split; auto.
  Qed.

  (** With sin(theta) = 0 the swap part is skipped whatever cos(theta) is. *)
  Lemma fsim_pi rgp n (i co : K) q1 q2 (psi : V) : FSim c rgp n i co 0%amp 1%amp q1 q2 (Some psi) (Ok (Some psi)).
  Proof.
    unfold FSim. exists (Ok (Some psi)). replace (0 * 0)%amp with (0 : K)%amp by ring. rewrite eqb_refl. split; auto.
    replace (1 - 1)%amp with (0 : K)%amp by ring. now rewrite eqb_refl.
  Qed.

  (** ** popCountOcl on 32 bits *)
  Lemma pop32_high x : popCountOcl 32 (N.land x (2 ^ 32)) = 0.
  Proof. unfold popCountOcl. rewrite land_pow2_testbit. destruct (N.testbit x 32); reflexivity. Qed.
  Lemma uprz_32 (ph phA : K) (psi : V) : fits c 33 ->
    every_run (UniformParityRZ c 32 33 (2 ^ 32) ph phA (Some psi)) (fun r => exists psi', r = Ok (Some psi') /\ eqv 33 psi' (fun x => psi x * phA)%amp).
  Proof.
    intros Hf. unfold UniformParityRZ. change (2 ^ 33 <=? 2 ^ 32) with false. cbn iota. split. now apply for_any.
    intros r [psi' [HR ->]]. exists psi'. split; auto.
    refine (pointwise_ok c 33 (2 ^ 33) _ (fun x y => y * phA)%amp psi psi' Hf (N.le_refl _) _ HR).
    intros x _. right. unfold uprz_body. now rewrite pop32_high.
  Qed.
  Lemma probparity_32 (psi : V) : fits c 33 -> every_run (ProbParity c 32 33 (2 ^ 32) (Some psi)) (fun r => r = Ok 0%amp).
  Proof.
    intros Hf. unfold ProbParity. change (2 ^ 33 <=? 2 ^ 32) with false. change (2 ^ 32 =? 0) with false. cbn iota. split.
    - apply (sum_any c 33 (2 ^ 33) _ (fun p => Ok p)); auto. lia.
    - intros r [p [HS ->]]. apply (sum_for_ok c 33) in HS; auto; [|lia]. destruct HS as [xs [_ ->]]. f_equal. apply asum_zero. intros x _. now rewrite pop32_high.
  Qed.
  Lemma asum_ket (f : N -> K) k l : NoDup l -> In k l -> asum (fun x => f x * anorm (ket k x : K))%amp l = f k.
  Proof.
    induction 1 as [|x l Hx HD IH]; intros Hi; cbn [asum]. destruct Hi. destruct Hi as [->|Hi].
    - unfold ket at 1. rewrite N.eqb_refl. rewrite asum_zero. unfold anorm. rewrite conj_1. ring.
      intros y Hy. unfold ket. destruct (N.eqb_spec y k) as [->|]; [contradiction|]. rewrite anorm_0. ring.
    - rewrite IH by auto. unfold ket. destruct (N.eqb_spec x k) as [->|]; [contradiction|]. rewrite anorm_0. ring.
  Qed.
  Lemma weight_ket n P k : k < 2 ^ n -> weight_of n P (ket k : V) = if P k then 1%amp else 0%amp.
  Proof.
    intros Hk. unfold weight_of. rewrite (asum_ext K _ (fun x => (if P x then 1 else 0) * anorm (ket k x : K))%amp).
    - apply asum_ket. apply basis_NoDup. now apply basis_In.
    - intros x _. destruct (P x); ring.
  Qed.

  (** Disposing every qubit leaves a one-qubit engine. *)
  Lemma dispose_all n perm (psi : V) : fits c n -> 0 < n -> n < 2 ^ 8 -> perm < 2 ^ n ->
    every_run (Dispose c (mkEng n (Some psi)) 0 n perm) (fun r => exists v, r = Ok (mkEng 1 (Some v))).
  Proof.
    intros Hf H0 H8 Hp. destruct (c24_dispose c n 0 n perm (Some psi)) as [He Hr]; auto; try lia. split; auto. intros r HR.
    destruct (Hr r HR) as [v' [-> [Hv _]]]. rewrite N.sub_diag. cbn [N.eqb andb]. destruct v' as [v|]; eauto. destruct Hv as [Hv _]. discriminate (Hv eq_refl).
  Qed.
End E2.

(** The portable accumulate kernel keeps only the last pair of each thread. *)
Lemma norm_assign_wrong : exists (c : cfg) n t (m : mat2 GI) (psi psi' : mem GI) rn, fits c n /\ t < n /\ unitary2 m /\
  Apply2x2_norm c true n 0 (2 ^ t) m [2 ^ t] (NCalc 1%amp) psi psi' rn /\ rn <> norm2 n psi'.
Proof.
  exists (mkCfg 1 4096), 2, 0, midn, (fun _ => (1, 0)%Z).
  eexists. eexists. split; [vm_compute; repeat split; discriminate|]. split; [reflexivity|]. split; [reflexivity|]. split.
  - exists [(0, 0%nat); (2, 0%nat)]. split; [reflexivity|]. split.
    + exists [0; 0; 0; 0; 1; 1; 1; 1]%nat. reflexivity.
    + reflexivity.
  - vm_compute. discriminate.
Qed.

Lemma fits_33 : fits (mkCfg 4 4096) 33.
Proof. vm_compute. repeat split; discriminate. Qed.
Lemma uprz_32_gi : ~ every_run (UniformParityRZ (mkCfg 4 4096) 32 33 (2 ^ 32) ((0, 1)%Z : GI) (0, -1)%Z (Some (ket (2 ^ 32))))
  (fun r => exists psi', r = Ok (Some psi') /\ eqv 33 psi' (parity_phase (2 ^ 32) ((0, 1)%Z : GI) (0, -1)%Z (ket (2 ^ 32)))).
Proof.
  intros [_ H]. destruct (uprz_32 (mkCfg 4 4096) ((0, 1)%Z : GI) (0, -1)%Z (ket (2 ^ 32)) fits_33) as [[r HR] Hr].
  destruct (Hr r HR) as [p1 [E1 H1]]. destruct (H r HR) as [p2 [E2 H2]]. rewrite E1 in E2. injection E2 as <-.
  specialize (H1 (2 ^ 32) ltac:(reflexivity)). specialize (H2 (2 ^ 32) ltac:(reflexivity)). rewrite H1 in H2. vm_compute in H2. discriminate.
Qed.
Lemma probparity_32_gi : ~ every_run (ProbParity (mkCfg 4 4096) 32 33 (2 ^ 32) (Some (ket (2 ^ 32) : mem GI)))
  (fun r => r = Ok (weight_of 33 (fun x => odd_bits 64 (N.land x (2 ^ 32))) (ket (2 ^ 32) : mem GI))).
Proof.
  intros [_ H]. destruct (probparity_32 (mkCfg 4 4096) (ket (2 ^ 32) : mem GI) fits_33) as [[r HR] Hr].
  specialize (Hr r HR). specialize (H r HR). rewrite weight_ket in H by reflexivity. rewrite Hr in H. vm_compute in H. discriminate.
Qed.
Lemma prn_differs : exists (c : cfg) n (w : GI) q (psi : mem GI), fits c n /\ q < n /\ (w * w = - (1))%amp /\
  every_run (PhaseRootN c false n 2 w q (Some psi)) (fun r1 => exists psi1, r1 = Ok (Some psi1) /\
    every_run (PhaseRootNMask c false 64 n 2 w w (2 ^ q) (Some psi)) (fun r2 => exists psi2, r2 = Ok (Some psi2) /\
      psi1 (2 ^ q) <> psi2 (2 ^ q))).
Proof.
  assert (Hf : fits (mkCfg 4 4096) 3) by (vm_compute; repeat split; discriminate).
  exists (mkCfg 4 4096), 3, (0, 1)%Z, 1, (fun _ => (1, 0)%Z). split; auto. split; [reflexivity|]. split; [reflexivity|].
  destruct (phase1_run (mkCfg 4 4096) false 3 ((0, 1)%Z : GI) 1 (fun _ => (1, 0)%Z) Hf ltac:(reflexivity)) as [He Hr]. split; auto. intros r1 H1.
  destruct (Hr r1 H1) as [psi1 [E1 Hp1]]. exists psi1. split; auto.
  destruct (prn_run (mkCfg 4 4096) false 64 3 2 ((0, 1)%Z : GI) ((0, 1)%Z : GI) (2 ^ 1) (fun _ => (1, 0)%Z) Hf) as [He2 Hr2]; try reflexivity; try (split; [discriminate | reflexivity]); try discriminate.
  split; auto. intros r2 H2. destruct (Hr2 r2 H2) as [psi2 [E2 Hp2]]. exists psi2. split; auto.
  rewrite Hp1, Hp2 by reflexivity. vm_compute. discriminate.
Qed.
Lemma zmask_phase : exists (c : cfg) n (i : GI) mask (psi : mem GI), fits c n /\ 0 < mask < 2 ^ n /\
  ~ every_run (ZMask c false n i mask (Some psi)) (fun r => exists psi', r = Ok (Some psi') /\
    eqv n psi' (fun x => if odd_bits 64 (N.land x mask) then - psi x else psi x)%amp).
Proof.
  assert (Hf : fits (mkCfg 4 4096) 3) by (vm_compute; repeat split; discriminate).
  exists (mkCfg 4 4096), 3, (0, 1)%Z, 3, (fun _ => (1, 0)%Z). split; auto. split; [split; reflexivity|]. intros [_ H].
  destruct (zmask_run (mkCfg 4 4096) false 3 ((0, 1)%Z : GI) 3 (fun _ => (1, 0)%Z) Hf) as [[r HR] Hr]; try (split; reflexivity); try reflexivity; try discriminate.
  destruct (Hr r HR) as [p1 [E1 H1]]. destruct (H r HR) as [p2 [E2 H2]]. rewrite E1 in E2. injection E2 as <-.
  specialize (H1 0 ltac:(reflexivity)). specialize (H2 0 ltac:(reflexivity)). rewrite H1 in H2. vm_compute in H2. discriminate.
Qed.
