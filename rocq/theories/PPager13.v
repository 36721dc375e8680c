(** Proofs of the property theorems of PropPager.v. *)
From Coq Require Import NArith ZArith List Bool Lia Ring.
From Verif Require Import Amp MParFor MKernel MEngine MCircuit MPager MPager2 SpecState SpecAlu SpecEngine SpecPager SpecPager2 MFunctions Bits PFunctions PAmp PParFor PGates PCompose PCircuit PPager1 PPager2 PPager5 PPager6 PPager7 PPager8 PPager9 PPager10 PPager11 PPager12.
Import ListNotations.
Local Open Scope N_scope.

Lemma l_c62_combine : forall (K : StarRing) (c : cfg) q bit (p : pager K), paged q p -> fits c (pg_n p) ->
  every_run (CombineEngines c bit p) (paged_result (pg_n p) (N.max q (N.min bit (pg_n p))) p (flat p)).
Proof. exact @combine_ok. Qed.

Lemma l_c62_separate : forall (K : StarRing) (c : cfg) q bits noBaseFloor (p : pager K), paged q p -> fits c (pg_n p) ->
  every_run (SeparateEngines c bits noBaseFloor p) (paged_result (pg_n p) (N.min q (if noBaseFloor : bool then bits else N.max bits (pg_base p))) p (flat p)).
Proof. exact @separate_ok. Qed.

Lemma l_c62_round_trip : forall (K : StarRing) (c : cfg) q bit bits noBaseFloor (p : pager K), paged q p -> fits c (pg_n p) ->
  every_run (andthen (CombineEngines c bit) (SeparateEngines c bits noBaseFloor) p) (fun r => exists p' q', r = Ok p' /\ pg_n p' = pg_n p /\ paged q' p' /\ eqv (pg_n p) (flat p') (flat p)).
Proof. intros K c q bit bits nf p Hp Hf. apply (andthen_run _ _ p (fun p1 => pg_n p1 = pg_n p /\ paged (N.max q (N.min bit (pg_n p))) p1 /\ eqv (pg_n p) (flat p1) (flat p))).
  - eapply every_run_weaken. now apply (combine_ok c q bit p). intros r [p1 [-> [A [B [C D]]]]]. exists p1. auto.
  - intros p1 [A [C D]]. eapply every_run_weaken. apply (separate_ok c _ bits nf p1 C). now rewrite A. intros r [p2 [-> [A2 [B2 [C2 D2]]]]]. rewrite A in A2, D2. exists p2. eexists. repeat split; eauto.
    apply C2. apply C2. intros x Hx. now rewrite (D2 x Hx), (D x Hx). Qed.

Lemma l_c63_single : forall (K : StarRing) (c : cfg) q (m : mat2 K) t (p : pager K), paged q p -> fits c (pg_n p) -> 0 < q -> t < pg_n p ->
  every_run (PMtrx c m t p) (paged_result (pg_n p) q p (gate1 always t m (flat p))).
Proof. intros. now apply mtrx_pager. Qed.

Lemma l_c63_controlled_partial : forall (K : StarRing) (c : cfg) q anti controls (m : mat2 K) target (p : pager K), paged q p -> fits c (pg_n p) -> 0 < q -> NoDup (controls ++ [target]) ->
  (forall y, In y (controls ++ [target]) -> y < pg_n p) -> (target < q -> forall y, In y controls -> y < q + 8) ->
  every_run (PEitherMtrx c anti controls m target p)
    (paged_result (pg_n p) q p (gate1 (if anti : bool then all_clear controls else all_set controls) target m (flat p))).
Proof. intros. now apply either_pager. Qed.

Lemma l_c63_circuit_partial : forall (K : StarRing) (c : cfg) q (l : circ K) (p : pager K), paged q p -> fits c (pg_n p) -> 0 < q -> Forall (gate_allowed (pg_n p) q) l ->
  every_run (pcrun c l p) (paged_result (pg_n p) q p (circuit_action l (flat p))).
Proof. intros K c q l p. exact (circuit_pager c q l p). Qed.

Lemma l_c63_far_control : forall (K : StarRing) (c : cfg) q t (m : mat2 K) (p : pager K), paged q p -> fits c (pg_n p) -> 0 < q -> pg_n p = q + 9 -> t < q ->
  every_run (PEitherMtrx c false [q + 8] m t p) (paged_result (pg_n p) q p (gate1 (all_clear [q + 8]) t m (flat p))).
Proof. intros. now apply semi_anti. Qed.

Lemma l_c63_controlled_refuted : exists (c : cfg) q t (m : mat2 GI) (p : pager GI), paged q p /\ fits c (pg_n p) /\ 0 < q /\ NoDup ([q + 8] ++ [t]) /\ (forall y, In y ([q + 8] ++ [t]) -> y < pg_n p) /\
  ~ every_run (PEitherMtrx c false [q + 8] m t p) (paged_result (pg_n p) q p (gate1 (all_set [q + 8]) t m (flat p))).
Proof. set (p := mkPager 10 1 512 (fun i => if i =? 256 then Some (ket 0) else None) : pager GI).
  assert (Hp : paged 1 p) by (split; vm_compute; congruence). assert (Hf : fits (mkCfg 4 2) 10) by (vm_compute; repeat split; discriminate).
  exists (mkCfg 4 2), 1, 0, (mkMat 0 1 1 0)%amp, p. split; auto. split; auto. split. reflexivity. split. repeat constructor; cbn; intuition discriminate. split. cbn; intuition subst; lia.
  intros [[r R] A]. destruct (semi_anti (mkCfg 4 2) 1 0 (mkMat 0 1 1 0)%amp p Hp Hf eq_refl eq_refl eq_refl) as [_ B].
  destruct (A r R) as [p1 [E1 [_ [_ [_ F1]]]]]. destruct (B r R) as [p2 [E2 [_ [_ [_ F2]]]]]. rewrite E1 in E2. injection E2 as <-.
  assert (L : 512 < 2 ^ pg_n p) by reflexivity. specialize (F1 512 L). specialize (F2 512 L). rewrite F1 in F2. vm_compute in F2. discriminate. Qed.

Lemma l_c64_setpermutation : forall (K : StarRing) (c : cfg) q perm (ph : K) (p : pager K), paged q p -> fits c (pg_n p) ->
  every_run (PSetPermutation c perm ph p) (paged_result (pg_n p) q p (fun x => if x =? perm mod 2 ^ pg_n p then ph else 0%amp)).
Proof. intros. now apply setperm_pager. Qed.

Lemma l_c64_constructor_zero : forall (K : StarRing) (c : cfg) n thr init, fits c n -> every_run (Constructor (K := K) c n thr init) (fun r => exists p, r = Ok p /\ pg_n p = n /\ forall x, flat p x = 0%amp).
Proof. intros. now apply ctor_flat. Qed.

Lemma l_c64_constructor_refuted : forall (K : StarRing) (c : cfg) n thr init, fits c n -> init < 2 ^ n -> (1 <> 0 :> K)%amp -> ~ every_run (Constructor (K := K) c n thr init) (fun r => exists p, r = Ok p /\ eqv n (flat p) (ket init)).
Proof. intros K c n thr init Hf Hi H1 [[r R] A]. destruct (ctor_flat (K := K) c n thr init Hf) as [_ B]. destruct (A r R) as [p [-> E]]. destruct (B _ R) as [p' [E' [_ Z]]]. injection E' as <-.
  specialize (E init Hi). rewrite Z in E. unfold ket in E. rewrite N.eqb_refl in E. now apply H1. Qed.

Lemma l_c65_get_partial : forall (K : StarRing) (c : cfg) q offset len (p : pager K) (out : mem K), paged q p -> fits c (pg_n p) -> offset <= len -> offset + len <= 2 ^ q -> 0 < len ->
  every_run (PGetAmplitudePage c offset len p out) (fun r => exists out', r = Ok out' /\ forall i, i < len -> out' i = flat p (offset + i)).
Proof. intros. now apply (getpage_first c q). Qed.

Lemma l_c65_set_partial : forall (K : StarRing) (c : cfg) q offset len (page : mem K) (p : pager K), paged q p -> fits c (pg_n p) -> offset <= len -> offset + len <= 2 ^ q -> 0 < len ->
  every_run (PSetAmplitudePage c offset len page p) (paged_result (pg_n p) q p (overwrite offset len page (flat p))).
Proof. intros. now apply (setpage_first c q). Qed.

Lemma l_c65_get_nothing : forall (K : StarRing) (c : cfg) offset len (p : pager K) (out : mem K) r, len < offset -> PGetAmplitudePage c offset len p out r <-> r = Ok out.
Proof. intros. now apply getpage_nothing. Qed.

Lemma l_c65_set_nothing : forall (K : StarRing) (c : cfg) offset len (page : mem K) (p : pager K) r, len < offset -> PSetAmplitudePage c offset len page p r <-> r = Ok p.
Proof. intros. now apply setpage_nothing. Qed.

Lemma l_c65_get_refuted : exists (c : cfg) q offset len (p : pager GI) out, paged q p /\ fits c (pg_n p) /\ 0 < len /\ offset + len <= 2 ^ pg_n p /\
  ~ every_run (PGetAmplitudePage c offset len p out) (fun r => exists out', r = Ok out' /\ forall i, i < len -> out' i = flat p (offset + i)).
Proof. exists (mkCfg 4 2), 2, 4, 2, (mkPager 3 2 2 (fun _ => Some (fun _ => 1%amp))), (fun _ => 0%amp). split. split; vm_compute; congruence. split. vm_compute; repeat split; discriminate. split. reflexivity. split. discriminate.
  intros [[r R] A]. destruct (A r R) as [o [-> E]]. apply getpage_nothing in R; [|reflexivity]. injection R as ->. specialize (E 0 eq_refl). vm_compute in E. discriminate. Qed.

Lemma l_c65_set_refuted : exists (c : cfg) q offset len (page : mem GI) (p : pager GI), paged q p /\ fits c (pg_n p) /\ 0 < len /\ offset + len <= 2 ^ pg_n p /\
  ~ every_run (PSetAmplitudePage c offset len page p) (paged_result (pg_n p) q p (overwrite offset len page (flat p))).
Proof. exists (mkCfg 4 2), 2, 4, 2, (fun _ => 0%amp), (mkPager 3 2 2 (fun _ => Some (fun _ => 1%amp))). split. split; vm_compute; congruence. split. vm_compute; repeat split; discriminate. split. reflexivity. split. discriminate.
  intros [[r R] A]. destruct (A r R) as [o [-> [_ [_ [_ E]]]]]. apply setpage_nothing in R; [|reflexivity]. injection R as ->. specialize (E 4 eq_refl). vm_compute in E. discriminate. Qed.

Lemma l_c90_amplitudes : forall (K : StarRing) q (p : pager K) x, paged q p -> pg_n p < 64 -> PGetAmplitude p x = flat p x /\ PProbAll p x = anorm (flat p x).
Proof. intros. now apply (getamp_pager q). Qed.

Lemma l_c90_get_state : forall (K : StarRing) q (p : pager K) (out : mem K), paged q p -> pg_n p < 64 ->
  every_run (PGetQuantumState p out) (fun out' => forall x, out' x = if x <? 2 ^ pg_n p then flat p x else out x).
Proof. intros K q p out Hp Hn. split. now apply (getstate_any q). intros out' H. now apply (getstate_pager q p out). Qed.

Lemma l_c90_set_state : forall (K : StarRing) (c : cfg) q (inp : mem K) (p : pager K), paged q p -> fits c (pg_n p) -> every_run (PSetQuantumState inp p) (paged_result (pg_n p) q p inp).
Proof. intros. now apply (setstate_pager c). Qed.

Lemma l_c91_set_amplitude_partial : forall (K : StarRing) (c : cfg) q tracked perm (amp : K) (p : pager K), paged q p -> fits c (pg_n p) -> perm < 2 ^ pg_n p ->
  (pg_page p (perm / 2 ^ q) = None -> tracked = false /\ (anorm amp = 0%amp -> amp = 0%amp)) ->
  every_run (PSetAmplitude c tracked perm amp p) (paged_result (pg_n p) q p (fun x => if x =? perm then amp else flat p x)).
Proof. intros. now apply setamp_pager. Qed.

Lemma l_c91_set_amplitude_refuted : forall (K : StarRing) (c : cfg) q (ph amp : K) (p : pager K), paged q p -> fits c (pg_n p) -> q < pg_n p -> anorm amp <> 0%amp ->
  every_run (andthen (PSetPermutation c 0 ph) (PSetAmplitude c true (2 ^ q) amp) p) (fun r => r = Throw).
Proof. intros K c q ph amp p Hp Hf Hq Ha. assert (Hn : pg_n p < 64) by apply Hf. assert (EC : pg_count p = 2 ^ (pg_n p - q)) by apply Hp.
  assert (Hc : 2 <= pg_count p). { rewrite EC. change 2 with (2 ^ 1) at 1. apply pow2_le_mono. lia. }
  apply (andthen_run _ _ p (fun p1 => paged q p1 /\ pg_n p1 = pg_n p /\ pg_page p1 1 = None)).
  - destruct (setperm_pager c q 0 ph p Hp Hf) as [[r0 R0] A]. split. eauto. intros r R. destruct (A r R) as [p1 [-> [B [C [D E]]]]]. exists p1. split; auto. split; auto. split; auto.
    unfold PSetPermutation in R. rewrite (paged_power q p) in R by auto. cbv zeta in R.
    set (f := fun (i : N) (v : option (mem K)) r => if (i * 2 ^ q <=? N.land (w64 0) (2 ^ pg_n p - 1)) && (N.land (w64 0) (2 ^ pg_n p - 1) <? (i + 1) * 2 ^ q) then eng_SetPermutation c (qubitsPerPage p) (N.land (w64 0) (2 ^ pg_n p - 1) - i * 2 ^ q) ph v r else r = Ok None).
    change (each (fun i => page_op (f i) i) (all_pages p) p (Ok p1)) in R.
    assert (G : forall l p1 p2, ~ In 1 l -> each (fun i => page_op (f i) i) l p1 (Ok p2) -> pg_page p2 1 = pg_page p1 1).
    { induction l as [|i t IH]; intros a b Hi H; cbn [each] in H. injection H as ->. reflexivity. destruct H as [[|a1] [H1 H2]]; [discriminate|]. rewrite (IH a1 b); auto. 2:{ intros X. apply Hi. now right. }
      unfold page_op in H1. destruct (_ <=? i); [discriminate|]. destruct H1 as [[|v] [H1 H3]]; [discriminate|]. injection H3 as ->. cbn [set_page pg_page]. destruct (N.eqb_spec 1 i) as [X|X]; auto. exfalso. apply Hi. now left. }
    unfold all_pages in R. destruct (N.to_nat (pg_count p)) as [|[|k]] eqn:EK; [lia|lia|]. cbn [iota each] in R. destruct R as [[|a1] [R1 R2]]; [discriminate|]. destruct R2 as [[|a2] [R2 R3]]; [discriminate|].
    rewrite (G (iota (0 + 1 + 1) k) a2 p1); [| |exact R3]. 2:{ intros X. apply iota_In in X. lia. }
    unfold page_op in R2. destruct (_ <=? 0 + 1); [discriminate|]. destruct R2 as [[|v] [H1 H3]]; [discriminate|]. injection H3 as ->. cbn [set_page pg_page]. change (0 + 1) with 1 in *. rewrite N.eqb_refl.
    unfold f in H1. change (w64 0) with 0 in H1. rewrite N.land_0_l, N.mul_1_l in H1. destruct (N.leb_spec (2 ^ q) 0) as [L|L]. assert (X := pow2_pos q). lia. cbn [andb] in H1. now injection H1.
  - intros p1 [Hp1 [E1 E2]]. assert (X := pow2_pos q). unfold PSetAmplitude. rewrite (paged_power q p1), (paged_qpp q p1) by (auto; lia). rewrite N.mod_same, N.div_same by (apply pow2_nz). unfold page_op. rewrite E2.
    assert (EC1 : pg_count p1 = pg_count p) by (destruct Hp1 as [_ ->]; now rewrite E1, EC). rewrite EC1. destruct (N.leb_spec (pg_count p) 1); [lia|].
    assert (EX : forall r, SetAmplitude c q 0 true amp None r <-> r = Throw). { intros r. unfold SetAmplitude. destruct (2 ^ q <=? 0). tauto. destruct (eqb_spec K (anorm amp) 0%amp). contradiction. tauto. }
    split. eexists. exists Throw. split. now apply EX. reflexivity. intros r [r1 [H1 ->]]. apply EX in H1. now subst. Qed.

Lemma l_c92_xmask : forall (K : StarRing) (c : cfg) q mask (p : pager K), paged q p -> fits c (pg_n p) -> 0 < q -> mask < 2 ^ pg_n p ->
  every_run (PXMask c mask p) (paged_result (pg_n p) q p (fun x => flat p (N.lxor x mask))).
Proof. intros. now apply xmask_pager. Qed.

Lemma l_c92_phase_parity : forall (K : StarRing) (c : cfg) q (ph phA : K) mask (p : pager K), paged q p -> fits c (pg_n p) -> 0 < q -> mask < 2 ^ pg_n p ->
  every_run (PPhaseParity c ph phA mask p) (paged_result (pg_n p) q p (parity_phase mask ph phA (flat p))).
Proof. intros. now apply parity_pager. Qed.

Lemma l_c93_swap_partial : forall (K : StarRing) (c : cfg) a b (p : pager K), regular p -> fits c (pg_n p) -> 0 < pg_thr p -> a < pg_n p -> b < pg_n p -> (b < pg_base p -> a < pg_base p + 8) -> (a < pg_base p -> b < pg_base p + 8) ->
  every_run (PSwap c a b p) (paged_any (pg_n p) p (fun x => flat p (swap_bits a b x))).
Proof. intros K c a b p [q [Hp Hb]] Hf H0 Ha Hb' H1 H2. eapply every_run_weaken. now apply (swap_pager c q a b p). intros r [p1 [-> [A [B [C D]]]]]. exists p1. split; auto. split; auto. split; auto. split; auto.
  exists (swap_size (pg_base p) q a b). split; auto. unfold swap_size. assert (E : pg_base p1 = pg_base p) by (unfold pg_base; now rewrite A, B). rewrite E. destruct (a =? b); auto. destruct (_ || _); auto. lia. Qed.

Lemma l_c93_iswap_partial : forall (K : StarRing) (c : cfg) (f : K) a b (p : pager K), regular p -> fits c (pg_n p) -> 0 < pg_thr p -> a < pg_n p -> b < pg_n p -> (b < pg_base p -> a < pg_base p + 8) -> (a < pg_base p -> b < pg_base p + 8) ->
  every_run (PISwap c f a b p) (paged_any (pg_n p) p (gate_swap always a b (mkMat 0%amp f f 0%amp) (flat p))).
Proof. intros K c f a b p [q [Hp Hb]] Hf H0 Ha Hb' H1 H2. eapply every_run_weaken. now apply (iswap_pager c q f a b p). intros r [p1 [-> [A [B [C D]]]]]. exists p1. split; auto. split; auto. split; auto. split; auto.
  exists (swap_size (pg_base p) q a b). split; auto. unfold swap_size. assert (E : pg_base p1 = pg_base p) by (unfold pg_base; now rewrite A, B). rewrite E. destruct (a =? b); auto. destruct (_ || _); auto. lia. Qed.

Lemma l_c93_rol_partial : forall (K : StarRing) (c : cfg) shift s len (p : pager K), regular p -> fits c (pg_n p) -> 0 < pg_thr p -> pg_n p <= pg_base p + 8 -> s + len <= pg_n p ->
  every_run (PROL c shift s len p) (fun r => exists p' f, r = Ok p' /\ pg_n p' = pg_n p /\ pg_thr p' = pg_thr p /\ regular p' /\
    basis_map (pg_n p) always f (fun _ => 1%amp) (flat p) (flat p') /\ forall x, x < 2 ^ pg_n p -> rotated s len shift x (f x)).
Proof. intros. now apply rol_pager. Qed.

Lemma l_c93_ror_partial : forall (K : StarRing) (c : cfg) shift s len (p : pager K), regular p -> fits c (pg_n p) -> 0 < pg_thr p -> pg_n p <= pg_base p + 8 -> s + len <= pg_n p ->
  every_run (PROR c shift s len p) (fun r => exists p' f, r = Ok p' /\ pg_n p' = pg_n p /\ pg_thr p' = pg_thr p /\ regular p' /\
    basis_map (pg_n p) always f (fun _ => 1%amp) (flat p) (flat p') /\ forall x, x < 2 ^ pg_n p -> rotated s len shift (f x) x).
Proof. intros. now apply ror_pager. Qed.

Lemma l_c93_swap_refuted : exists (c : cfg) a b (p : pager GI), regular p /\ fits c (pg_n p) /\ 0 < pg_thr p /\ a < pg_n p /\ b < pg_n p /\
  ~ every_run (PSwap c a b p) (paged_any (pg_n p) p (fun x => flat p (swap_bits a b x))).
Proof. set (p := mkPager 10 1 512 (fun i => if i =? 0 then Some (ket 0) else None) : pager GI). set (c := mkCfg 4 2).
  assert (Hp : paged 1 p) by (split; vm_compute; congruence). assert (Hf : fits c 10) by (vm_compute; repeat split; discriminate).
  assert (R10 : forall a b : GI, (1 * a + 0 * b)%amp = a) by (intros a b; change ((1 * a + 0 * b)%amp = a); destruct a as [a1 a2], b as [b1 b2]; cbv -[Z.add Z.mul Z.sub Z.opp]; f_equal; ring).
  assert (R01 : forall a b : GI, (0 * b + 1 * a)%amp = a) by (intros a b; destruct a as [a1 a2], b as [b1 b2]; cbv -[Z.add Z.mul Z.sub Z.opp]; f_equal; ring).
  exists c, 0, 9, p. split. exists 1. split; auto. vm_compute. discriminate. split; auto. split. reflexivity. split. reflexivity. split. reflexivity.
  intros [_ A].
  assert (B : every_run (PSwap c 0 9 p) (paged_result 10 1 p (fun x => flat p (cn 0 9 (N.lxor (if N.testbit (cn 0 9 x) 9 then 0 else 1) (cn 0 9 x)))))).
  { unfold PSwap. change (0 =? 9) with false. cbv zeta. change (pg_base p <=? 0) with false. change (pg_base p <=? 9) with true. cbn [andb orb].
    apply (andthen_run _ _ p (fun p1 => pg_n p1 = 10 /\ pg_thr p1 = 1 /\ paged 1 p1 /\ eqv 10 (flat p1) (flat p))).
    { eapply every_run_weaken. unfold SeparateBase. apply (separate_ok c 1); auto. intros r [p1 [-> [X1 [X2 [X3 X4]]]]]. exists p1. auto. }
    intros p1 [N1 [T1 [P1 F1]]]. unfold GenericSwap. change (0 =? 9) with false.
    apply (andthen_run _ _ p1 (fun p2 => pg_n p2 = 10 /\ pg_thr p2 = 1 /\ paged 1 p2 /\ eqv 10 (flat p2) (fun x => flat p (cn 0 9 x)))).
    { eapply every_run_weaken. apply (cnot_pager c 1 0 9 p1); rewrite ?N1; auto; try reflexivity; try discriminate. rewrite N1. intros r [p2 [-> [X1 [X2 [X3 X4]]]]]. exists p2. rewrite T1 in X2. repeat split; auto; try apply X3. intros x Hx. rewrite (X4 x Hx). apply F1. now apply cn_lt. }
    intros p2 [N2 [T2 [P2 F2]]].
    apply (andthen_run _ _ p2 (fun p3 => pg_n p3 = 10 /\ pg_thr p3 = 1 /\ paged 1 p3 /\ eqv 10 (flat p3) (fun x => flat p (cn 0 9 (N.lxor (if N.testbit x 9 then 0 else 1) x))))).
    { eapply every_run_weaken. unfold PCNOT. apply (semi_anti c 1 0 _ p2); rewrite ?N2; auto; reflexivity. rewrite N2. intros r [p3 [-> [X1 [X2 [X3 X4]]]]]. exists p3. rewrite T2 in X2. repeat split; auto; try apply X3.
      intros x Hx. rewrite (X4 x Hx). unfold gate1, all_clear. cbn [forallb m00 m01 m10 m11]. change (1 + 8) with 9. rewrite andb_true_r. destruct (N.testbit x 9) eqn:E9; cbn [negb].
      - rewrite N.lxor_0_l. now apply F2.
      - assert (SS : N.setbit x 0 < 2 ^ 10) by (apply lt_pow2_bits; intros m Hm; rewrite tb_setbit; destruct (N.eqb_spec 0 m); [lia|]; now apply (tb_high x 10)). assert (CC : N.clearbit x 0 < 2 ^ 10) by (apply lt_pow2_bits; intros m Hm; rewrite tb_clearbit, (tb_high x 10) by auto; reflexivity).
        rewrite (F2 _ SS), (F2 _ CC). assert (EX : N.lxor 1 x = if N.testbit x 0 then N.clearbit x 0 else N.setbit x 0). { apply N.bits_inj. intros m. rewrite N.lxor_spec. change 1 with (2 ^ 0) at 1. rewrite N.pow2_bits_eqb. destruct (N.testbit x 0) eqn:E0; rewrite ?tb_clearbit, ?tb_setbit; destruct (N.eqb_spec 0 m) as [<-|]; rewrite ?E0; cbn; try rewrite andb_true_r; auto; try now destruct (N.testbit x m). }
        rewrite EX. destruct (N.testbit x 0); [apply R10|apply R01]. }
    intros p3 [N3 [T3 [P3 F3]]]. eapply every_run_weaken. apply (cnot_pager c 1 0 9 p3); rewrite ?N3; auto; try reflexivity; try discriminate. rewrite N3. intros r [p4 [-> [X1 [X2 [X3 X4]]]]]. exists p4. rewrite T3 in X2. repeat split; auto; try apply X3. intros x Hx. rewrite (X4 x Hx). apply F3. now apply cn_lt. }
  destruct B as [[r R] B]. destruct (A r R) as [p1 [E1 [_ [_ [_ F1]]]]]. destruct (B r R) as [p2 [E2 [_ [_ [_ F2]]]]]. rewrite E1 in E2. injection E2 as <-.
  assert (L : 0 < 2 ^ 10) by reflexivity. specialize (F1 0 L). specialize (F2 0 L). rewrite F1 in F2. vm_compute in F2. discriminate. Qed.

Lemma l_c94_prob : forall (K : StarRing) (c : cfg) q simd t (p : pager K), paged q p -> fits c (pg_n p) -> t < pg_n p ->
  every_run (PProb c simd t p) (fun r => r = weight_of (pg_n p) (fun x => N.testbit x t) (flat p)).
Proof. intros. now apply (prob_pager c q). Qed.

Lemma l_c94_measure : forall (K : StarRing) (c : cfg) q t result (nrm : K) (p : pager K), paged q p -> fits c (pg_n p) -> 0 < q -> t < pg_n p ->
  every_run (PApplyResult c t result nrm p) (paged_result (pg_n p) q p (project (fun x => Bool.eqb (N.testbit x t) result) nrm (flat p))).
Proof. intros. now apply applyresult_pager. Qed.

Lemma l_c95_compose_partial : forall (K : StarRing) (c : cfg) willDestroy maxPaging maxQB (p p2 : pager K), regular p -> regular p2 -> fits c (pg_n p + pg_n p2) -> 0 < pg_thr p -> pg_thr p2 = pg_thr p -> 0 < pg_n p -> 0 < pg_n p2 ->
  pg_n p + pg_n p2 <= maxPaging -> N.min (pg_thr p) (pg_n p + pg_n p2) <= maxQB -> (pg_n p < pg_n p2 -> pg_n p + pg_n p2 <= pg_thr p + 8) ->
  every_run (ComposeEither c willDestroy maxPaging maxQB p2 p) (paged_any (pg_n p + pg_n p2) p (tensor (pg_n p) (flat p) (flat p2))).
Proof. intros. now apply compose_either. Qed.

Lemma l_c95_compose_at_partial : forall (K : StarRing) (c : cfg) maxPaging maxQB start (p p2 : pager K), regular p -> regular p2 -> fits c (pg_n p + pg_n p2) -> 0 < pg_thr p -> 0 < pg_n p -> 0 < pg_n p2 ->
  pg_n p + pg_n p2 <= maxPaging -> N.min (pg_thr p) (pg_n p + pg_n p2) <= maxQB -> start <= pg_n p -> pg_n p + pg_n p2 <= pg_thr p + 8 ->
  every_run (ComposeFitAt c maxPaging maxQB p2 start p) (paged_any (pg_n p + pg_n p2) p (tensor_at start (pg_n p2) (flat p) (flat p2))).
Proof. intros. now apply compose_fit_at. Qed.

Lemma l_c96_dispose_partial : forall (K : StarRing) (c : cfg) s len perm (p : pager K), regular p -> fits c (pg_n p) -> 0 < pg_thr p -> s + len <= pg_n p -> 0 < len < pg_n p -> perm < 2 ^ len -> pg_n p <= pg_base p + 8 ->
  every_run (PDispose c s len perm p) (paged_any (pg_n p - len) p (slice s len perm (flat p))).
Proof. intros K c s len perm p Hp Hf H0 Hs HL Hm H8. apply dispose_pager; auto. rewrite base_min in H8. lia. Qed.

Lemma l_c96_compose_then_dispose_partial : forall (K : StarRing) (c : cfg) maxPaging maxQB start perm (p p2 : pager K), regular p -> regular p2 -> fits c (pg_n p + pg_n p2) -> 0 < pg_thr p -> 0 < pg_n p -> 0 < pg_n p2 ->
  pg_n p + pg_n p2 <= maxPaging -> N.min (pg_thr p) (pg_n p + pg_n p2) <= maxQB -> start <= pg_n p -> pg_n p + pg_n p2 <= pg_thr p + 8 ->
  perm < 2 ^ pg_n p2 -> eqv (pg_n p2) (flat p2) (ket perm) ->
  every_run (andthen (ComposeFitAt c maxPaging maxQB p2 start) (PDispose c start (pg_n p2) perm) p) (paged_any (pg_n p) p (flat p)).
Proof. intros K c maxPaging maxQB start perm p p2 Hp Hp2 Hf H0 H1 H2 Hm Hm2 Hs H8 Hpe Hk.
  apply (andthen_run _ _ p (fun p1 => pg_n p1 = pg_n p + pg_n p2 /\ pg_thr p1 = pg_thr p /\ regular p1 /\ eqv (pg_n p + pg_n p2) (flat p1) (tensor_at start (pg_n p2) (flat p) (flat p2)))).
  - eapply every_run_weaken. now apply compose_fit_at. intros r [p1 [-> [A [B [C D]]]]]. exists p1. auto.
  - intros p1 [A [B [C D]]]. assert (E := base_min p1). rewrite A, B in E. eapply every_run_weaken. apply (dispose_pager c start (pg_n p2) perm p1); rewrite ?A, ?B; auto; lia.
    rewrite A. replace (pg_n p + pg_n p2 - pg_n p2) with (pg_n p) by lia. intros r [p3 [-> [A3 [B3 [C3 D3]]]]]. exists p3. rewrite B in B3. repeat split; auto. intros x Hx. rewrite (D3 x Hx).
    unfold slice. fold (slice_ix start (pg_n p2) perm x). rewrite D by (apply slice_ix_lt; auto). unfold tensor_at. rewrite outside_slice, reg_slice by auto. rewrite Hk by auto. unfold ket. rewrite N.eqb_refl. rewrite (Rmul_comm (sr_ring K)). apply (Rmul_1_l (sr_ring K)). Qed.

Lemma l_c97_one_page_partial : forall (K : StarRing) (c : cfg) (p p2 : pager K) a b, pg_count p = 1 -> fits c (pg_n p) -> pg_page p 0 = Some a -> pg_page p2 0 = Some b ->
  every_run (PSumSqrDiff c p p2) (fun r => r = (1 - anorm (asum (fun x => sr_conj (a x) * b x) (basis (pg_n p))))%amp).
Proof. intros K c p p2 a b HC Hf Ha Hb. assert (Hp : paged (pg_n p) p) by (split; [lia|now rewrite N.sub_diag]). eapply every_run_weaken. apply (ssd_run c (pg_n p) p p2 Hp Hf).
  intros r ->. rewrite HC. change (iota 0 (N.to_nat 1)) with [0]. cbn [asum]. rewrite Ha, Hb. rewrite (Radd_comm (sr_ring K)). apply (Radd_0_l (sr_ring K)). Qed.

Lemma l_c97_pages_refuted : exists (c : cfg) q (p : pager GI), paged q p /\ fits c (pg_n p) /\ norm2 (pg_n p) (flat p) = 1%amp /\ every_run (PSumSqrDiff c p p) (fun r => r = 1%amp /\ r <> 0%amp).
Proof. exists (mkCfg 4 2), 1, (mkPager 2 1 2 (fun i => Some (if i =? 0 then ket 0 else (fun _ => 0%amp)))). assert (Hp : paged (K := GI) 1 (mkPager 2 1 2 (fun i => Some (if i =? 0 then ket 0 else (fun _ => 0%amp))))) by (split; vm_compute; congruence).
  split; auto. split. vm_compute; repeat split; discriminate. split. vm_compute. reflexivity. eapply every_run_weaken. apply (ssd_run (mkCfg 4 2) 1 _ _ Hp). vm_compute; repeat split; discriminate. intros r ->. split; vm_compute; congruence. Qed.

Lemma l_c98_from_engine : forall (K : StarRing) (c : cfg) n thr (v : option (mem K)), fits c n ->
  every_run (FromEngine c n thr v) (fun r => exists p, r = Ok p /\ pg_n p = n /\ pg_thr p = thr /\ paged (N.min n thr) p /\ eqv n (flat p) (vread v)).
Proof. intros. now apply from_engine. Qed.

Lemma l_c98_release : forall (K : StarRing) (c : cfg) q (p : pager K), paged q p -> fits c (pg_n p) -> every_run (ReleaseEngine c p) (fun r => exists v, r = Ok v /\ eqv (pg_n p) (vread v) (flat p)).
Proof. intros. now apply (release_engine c q). Qed.

Lemma l_c98_through_pages_partial : forall (K : StarRing) (c : cfg) n thr (l : circ K) (v : option (mem K)), fits c n -> 0 < N.min n thr -> Forall (gate_allowed n (N.min n thr)) l ->
  every_run (fun r => exists r1, FromEngine c n thr v r1 /\ match r1 with Throw => r = Throw | Ok p => exists r2, pcrun c l p r2 /\ match r2 with Throw => r = Throw | Ok p' => ReleaseEngine c p' r end end)
    (fun r => exists v', r = Ok v' /\ eqv n (vread v') (circuit_action l (vread v))).
Proof. intros K c n thr l v Hf H0 HL. destruct (from_engine c n thr v Hf) as [[r1 R1] A1].
  assert (WL : forall a b, eqv n a b -> eqv n (csem l a) (csem l b)). { clear - HL. change (Forall (wfp n (N.min n thr)) l) in HL. induction HL as [|h l' Wh Wl IH]; intros a b E; cbn [csem fold_left]. exact E. apply IH. now apply (gsem_eqv_p _ (N.min n thr)). }
  assert (S : forall p, pg_n p = n /\ paged (N.min n thr) p /\ eqv n (flat p) (vread v) -> every_run (fun r => exists r2, pcrun c l p r2 /\ match r2 with Throw => r = Throw | Ok p' => ReleaseEngine c p' r end) (fun r => exists v', r = Ok v' /\ eqv n (vread v') (circuit_action l (vread v)))).
  { intros p [N1 [P1 E1]]. assert (Hfp : fits c (pg_n p)) by now rewrite N1. destruct (circuit_pager c (N.min n thr) l p P1 Hfp H0) as [[r2 R2] A2]. now rewrite N1.
    assert (S2 : forall p', paged_result (pg_n p) (N.min n thr) p (csem l (flat p)) (Ok p') -> every_run (ReleaseEngine c p') (fun r => exists v', r = Ok v' /\ eqv n (vread v') (circuit_action l (vread v)))).
    { intros p' [p1 [E [X1 [X2 [X3 X4]]]]]. injection E as <-. rewrite N1 in *. eapply every_run_weaken. apply (release_engine c (N.min n thr) p' X3). now rewrite X1. intros r [v' [-> E2]]. exists v'. split; auto. rewrite X1 in E2.
      intros x Hx. rewrite (E2 x Hx), (X4 x Hx). change (csem l (flat p) x = csem l (vread v) x). now apply WL. }
    split.
    - destruct r2 as [|p']. { destruct (A2 _ R2) as [? [X _]]; discriminate. } destruct (S2 p' (A2 _ R2)) as [[r R] _]. exists r, (Ok p'). auto.
    - intros r [[|p'] [X Y]]. { destruct (A2 _ X) as [? [Z _]]; discriminate. } destruct (S2 p' (A2 _ X)) as [_ Z]. now apply Z. }
  assert (B1 : forall r, FromEngine c n thr v r -> exists p, r = Ok p /\ pg_n p = n /\ paged (N.min n thr) p /\ eqv n (flat p) (vread v)). { intros r R. destruct (A1 r R) as [p [-> [X1 [X2 [X3 X4]]]]]. exists p. auto. }
  split.
  - destruct (B1 r1 R1) as [p [-> E1]]. destruct (S p E1) as [[r R] _]. exists r, (Ok p). auto.
  - intros r [r2 [X Y]]. destruct (B1 r2 X) as [p [-> E1]]. destruct (S p E1) as [_ Z]. now apply Z. Qed.

Lemma l_c98_far_refuted : forall (K : StarRing) (c : cfg) q t, fits c (q + 9) -> 0 < q -> t < q -> (1 <> 0 :> K)%amp -> let l := [GM [q + 8] (mkMat 0 1 1 0)%amp t] in let v := Some (ket (2 ^ (q + 8))) : option (mem K) in
  ~ every_run (fun r => exists r1, FromEngine c (q + 9) q v r1 /\ match r1 with Throw => r = Throw | Ok p => exists r2, pcrun c l p r2 /\ match r2 with Throw => r = Throw | Ok p' => ReleaseEngine c p' r end end)
    (fun r => exists v', r = Ok v' /\ eqv (q + 9) (vread v') (circuit_action l (vread v))).
Proof. intros K c q t Hf H0 Ht NT l v [[r [r1 [F R]]] A]. assert (RR := ex_intro (fun r1 => FromEngine c (q + 9) q v r1 /\ match r1 with Throw => r = Throw | Ok p => exists r2, pcrun c l p r2 /\ match r2 with Throw => r = Throw | Ok p' => ReleaseEngine c p' r end end) r1 (conj F R)). cbv beta in RR.
  destruct (A r RR) as [v' [-> E]]. clear A RR. destruct (from_engine c (q + 9) q v Hf) as [_ A1]. destruct (A1 r1 F) as [p [-> [N1 [T1 [P1 E1]]]]]. replace (N.min (q + 9) q) with q in P1 by lia.
  destruct R as [r2 [R2 R3]]. cbn [pcrun] in R2. unfold l in R2. cbn [pcrun pgate] in R2. unfold andthen in R2.
  assert (Hfp : fits c (pg_n p)) by now rewrite N1. destruct (semi_anti c q t (mkMat 0 1 1 0)%amp p P1 Hfp H0 N1 Ht) as [_ B]. destruct R2 as [x [X1 X2]]. destruct (B x X1) as [p1 [-> [M1 [M2 [M3 M4]]]]]. unfold pg_skip in X2. subst r2.
  destruct (release_engine c q p1 M3 ltac:(rewrite M1; exact Hfp)) as [_ C]. destruct (C _ R3) as [v2 [EV E2]]. injection EV as <-. rewrite M1, N1 in E2. rewrite N1 in M4.
  assert (L : 2 ^ (q + 8) < 2 ^ (q + 9)) by (apply N.pow_lt_mono_r; lia). pose proof (E _ L) as Q1. rewrite (E2 _ L), (M4 _ L) in Q1. unfold l, circuit_action in Q1. cbn [fold_left gate_action] in Q1. unfold gate1, all_set, all_clear in Q1. cbn [forallb] in Q1. rewrite N.pow2_bits_true, (N.pow2_bits_false _ t) in Q1 by lia. cbn [negb andb m00 m01 m10 m11] in Q1.
  rewrite (E1 _ L) in Q1. unfold v, vread, ket in Q1. rewrite N.eqb_refl in Q1. replace (N.setbit (2 ^ (q + 8)) t =? 2 ^ (q + 8)) with false in Q1. 2: { symmetry. apply N.eqb_neq. intros Z. apply (f_equal (fun z => N.testbit z t)) in Z. rewrite N.setbit_eq, N.pow2_bits_false in Z by lia. discriminate. }
  destruct (sr_ring K) as [RA _ _ M1L _ _ _ _ _]. apply NT. rewrite Q1. destruct (sr_ring K). rewrite Rmul_1_l. rewrite (Rmul_comm 0%amp 1%amp), Rmul_1_l. apply Radd_0_l. Qed.
