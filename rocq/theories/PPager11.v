(** Rotations, composition and disposal on a pager. *)
From Coq Require Import NArith List Bool Lia Ring.
From Verif Require Import Bits MQCircuit MFunctions SpecFunctions PFunctions MParFor SpecParFor PParFor MKernel PKernel Amp PAmp SpecState SpecAlu MEngine SpecEngine PLoop PApply PGates PGates2 PGates3 PCompose PProb PEngine MCircuit PCircuit PCircuit4 PCircuit11 PCircuit12 PMaskBits MPager SpecPager PPager1 PPager2 PPager3 PPager4 PPager5 PPager6 PPager7 PPager8 PPager9 PPager10 MPager2 SpecPager2.
Import ListNotations.
Local Open Scope N_scope.

(** Where a sequence of swaps sends a basis state. *)
Definition swaps_map (l : list (N * N)) (x : N) : N := fold_left (fun y ab => swap_bits (fst ab) (snd ab) y) l x.
Definition swaps_inv (l : list (N * N)) (x : N) : N := fold_right (fun ab y => swap_bits (fst ab) (snd ab) y) x l.
Lemma swaps_inv_map l : forall x, swaps_inv l (swaps_map l x) = x.
Proof.
  induction l as [|[a b] t IH]; intros x. reflexivity. change (swap_bits a b (swaps_inv t (swaps_map t (swap_bits a b x))) = x). rewrite IH. apply swap_swap.
Qed.
Lemma swaps_map_app l1 l2 x : swaps_map (l1 ++ l2) x = swaps_map l2 (swaps_map l1 x).
Proof. unfold swaps_map. apply fold_left_app. Qed.
Lemma swaps_map_inv l : forall x, swaps_map l (swaps_inv l x) = x.
Proof.
  induction l as [|[a b] t IH]; intros x. reflexivity. change (swaps_map t (swap_bits a b (swap_bits a b (swaps_inv t x))) = x). rewrite swap_swap. apply IH.
Qed.
Lemma reverse_pairs_act (K : StarRing) fuel : forall a b x, swaps_map (reverse_pairs fuel a b) x = cact (reverse_loop fuel a b : circ K) x.
Proof.
  induction fuel as [|f IH]; intros a b x. reflexivity. cbn [reverse_pairs reverse_loop]. destruct (_ && _); [|reflexivity].
  rewrite cact_app, swap_act, <- IH. reflexivity.
Qed.
Lemma rol_pairs_act (K : StarRing) shift s len x : swaps_map (rol_pairs shift s len) x = cact (qi_ROL shift s len : circ K) x.
Proof.
  unfold rol_pairs, qi_ROL. destruct (len <? 2). reflexivity. cbv zeta. destruct (_ =? 0). reflexivity.
  rewrite !swaps_map_app, !cact_app. unfold Reverse_pairs, qi_Reverse. now rewrite !(reverse_pairs_act K).
Qed.
Lemma ror_pairs_act (K : StarRing) shift s len x : swaps_map (ror_pairs shift s len) x = cact (qi_ROR shift s len : circ K) x.
Proof.
  unfold ror_pairs, qi_ROR. destruct (len <? 2). reflexivity. cbv zeta. destruct (_ =? 0). reflexivity.
  rewrite !swaps_map_app, !cact_app. unfold Reverse_pairs, qi_Reverse. now rewrite !(reverse_pairs_act K).
Qed.
Definition pairs_lt (n : N) (l : list (N * N)) : Prop := Forall (fun ab => fst ab < n /\ snd ab < n) l.
Lemma reverse_pairs_lt n fuel : forall a b, b <= n -> pairs_lt n (reverse_pairs fuel a b).
Proof.
  induction fuel as [|f IH]; intros a b H. constructor. cbn [reverse_pairs]. destruct (N.ltb_spec 0 b), (N.ltb_spec a (b - 1)); cbn [andb]; try constructor.
  cbn [fst snd]. lia. apply IH. lia.
Qed.
Lemma rol_pairs_lt n shift s len : s + len <= n -> pairs_lt n (rol_pairs shift s len).
Proof.
  intros H. unfold rol_pairs. destruct (N.ltb_spec len 2). constructor. cbv zeta. destruct (_ =? 0). constructor.
  assert (shift mod len < len) by (apply N.mod_lt; lia). unfold pairs_lt. rewrite !Forall_app. repeat split; apply reverse_pairs_lt; lia.
Qed.
Lemma ror_pairs_lt n shift s len : s + len <= n -> pairs_lt n (ror_pairs shift s len).
Proof.
  intros H. unfold ror_pairs. destruct (N.ltb_spec len 2). constructor. cbv zeta. destruct (_ =? 0). constructor.
  assert (shift mod len < len) by (apply N.mod_lt; lia). unfold pairs_lt. rewrite !Forall_app. repeat split; apply reverse_pairs_lt; lia.
Qed.
Lemma swap_bits_lt n a b x : a < n -> b < n -> x < 2 ^ n -> swap_bits a b x < 2 ^ n.
Proof.
  intros Ha Hb Hx. apply lt_pow2_bits. intros m Hm. rewrite tb_swap. destruct (N.eqb_spec a m); [lia|]. destruct (N.eqb_spec b m); [lia|]. now apply (tb_high x n).
Qed.
Lemma swaps_inv_lt n l x : pairs_lt n l -> x < 2 ^ n -> swaps_inv l x < 2 ^ n.
Proof. induction 1 as [|[a b] t [Ha Hb] Ht IH]; intros Hx; cbn [swaps_inv fold_right]; auto. apply swap_bits_lt; auto. Qed.
Lemma swaps_map_lt n l : pairs_lt n l -> forall x, x < 2 ^ n -> swaps_map l x < 2 ^ n.
Proof. induction 1 as [|[a b] t [Ha Hb] Ht IH]; intros x Hx; cbn [swaps_map fold_left]; auto. apply IH. now apply swap_bits_lt. Qed.

Section Rot.
  Context {K : StarRing}.
  Variable c : cfg.
  Add Ring KrBA : (sr_ring K).
  Local Notation V := (mem K).

  Lemma swaps_run l : forall (p : pager K), regular p -> fits c (pg_n p) -> 0 < pg_thr p -> pg_n p <= pg_base p + 8 -> pairs_lt (pg_n p) l ->
    every_run (PSwaps c l p) (paged_any (pg_n p) p (fun x => flat p (swaps_inv l x))).
  Proof.
    induction l as [|[a b] t IH]; intros p [q [Hp Hb]] Hf H0 H8 HL; cbn [PSwaps].
    - split. exists (Ok p). reflexivity. intros r ->. exists p. repeat split; auto. exists q. auto.
    - inversion HL as [|? ? [La Lb] HL']; subst. cbn [fst snd] in La, Lb.
      apply (andthen_run _ _ p (fun p1 => pg_n p1 = pg_n p /\ pg_thr p1 = pg_thr p /\ regular p1 /\ eqv (pg_n p) (flat p1) (fun x => flat p (swap_bits a b x)))).
      + eapply every_run_weaken. apply (swap_pager c q a b p); auto; lia. intros r [p1 [-> [A [B [C D]]]]]. exists p1. split; auto. split; auto. split; auto. split; auto.
        exists (swap_size (pg_base p) q a b). split; auto. unfold swap_size. assert (E : pg_base p1 = pg_base p) by (unfold pg_base; now rewrite A, B). rewrite E. destruct (a =? b); auto. destruct (_ || _); auto. lia.
      + intros p1 [A [B [C D]]]. assert (E : pg_base p1 = pg_base p) by (unfold pg_base; now rewrite A, B).
        eapply every_run_weaken. apply IH; auto; rewrite ?A, ?B, ?E; auto. intros r [p2 [-> [A2 [B2 [C2 D2]]]]]. exists p2. split; auto. split. congruence. split. congruence. split; auto.
        intros x Hx. rewrite A in D2. rewrite (D2 x Hx). rewrite D by (now apply swaps_inv_lt). reflexivity.
  Qed.
  Lemma swaps_basis_map l n (psi psi' : V) : pairs_lt n l -> eqv n psi' (fun x => psi (swaps_inv l x)) -> basis_map n always (swaps_map l) (fun _ => 1%amp) psi psi'.
  Proof.
    intros HL HE. split; [|split].
    - intros x y Hx Hy _ _ E. apply (f_equal (swaps_inv l)) in E. now rewrite !swaps_inv_map in E.
    - intros x Hx _. assert (H : swaps_map l x < 2 ^ n) by (now apply swaps_map_lt). split; auto. rewrite (HE _ H), swaps_inv_map. ring.
    - intros y Hy H. exfalso. apply (H (swaps_inv l y)). now apply swaps_inv_lt. reflexivity. apply swaps_map_inv.
  Qed.
  Theorem rol_pager shift s len (p : pager K) : regular p -> fits c (pg_n p) -> 0 < pg_thr p -> pg_n p <= pg_base p + 8 -> s + len <= pg_n p ->
    every_run (PROL c shift s len p) (fun r => exists p' f, r = Ok p' /\ pg_n p' = pg_n p /\ pg_thr p' = pg_thr p /\ regular p' /\
      basis_map (pg_n p) always f (fun _ => 1%amp) (flat p) (flat p') /\ forall x, x < 2 ^ pg_n p -> rotated s len shift x (f x)).
  Proof.
    intros Hp Hf H0 H8 Hs. eapply every_run_weaken. apply swaps_run; auto. now apply rol_pairs_lt. intros r [p' [-> [A [B [C D]]]]]. exists p', (swaps_map (rol_pairs shift s len)).
    repeat split; auto. 
    - apply (swaps_basis_map _ _ _ _ (rol_pairs_lt _ _ _ _ Hs) D).
    - apply (swaps_basis_map _ _ _ _ (rol_pairs_lt _ _ _ _ Hs) D); auto.
    - apply (swaps_basis_map _ _ _ _ (rol_pairs_lt _ _ _ _ Hs) D); auto.
    - apply (swaps_basis_map _ _ _ _ (rol_pairs_lt _ _ _ _ Hs) D).
    - rewrite (rol_pairs_act K). apply rol_act.
    - rewrite (rol_pairs_act K). apply rol_act.
  Qed.
  Theorem ror_pager shift s len (p : pager K) : regular p -> fits c (pg_n p) -> 0 < pg_thr p -> pg_n p <= pg_base p + 8 -> s + len <= pg_n p ->
    every_run (PROR c shift s len p) (fun r => exists p' f, r = Ok p' /\ pg_n p' = pg_n p /\ pg_thr p' = pg_thr p /\ regular p' /\
      basis_map (pg_n p) always f (fun _ => 1%amp) (flat p) (flat p') /\ forall x, x < 2 ^ pg_n p -> rotated s len shift (f x) x).
  Proof.
    intros Hp Hf H0 H8 Hs. eapply every_run_weaken. apply swaps_run; auto. now apply ror_pairs_lt. intros r [p' [-> [A [B [C D]]]]]. exists p', (swaps_map (ror_pairs shift s len)).
    repeat split; auto. 
    - apply (swaps_basis_map _ _ _ _ (ror_pairs_lt _ _ _ _ Hs) D).
    - apply (swaps_basis_map _ _ _ _ (ror_pairs_lt _ _ _ _ Hs) D); auto.
    - apply (swaps_basis_map _ _ _ _ (ror_pairs_lt _ _ _ _ Hs) D); auto.
    - apply (swaps_basis_map _ _ _ _ (ror_pairs_lt _ _ _ _ Hs) D).
    - rewrite (ror_pairs_act K). apply ror_act.
    - rewrite (ror_pairs_act K). apply ror_act.
  Qed.

  (** ** Composition *)
  Lemma tensor_eqv na nb (a b a' b' : V) : eqv na a a' -> eqv nb b b' -> eqv (na + nb) (tensor na a b) (tensor na a' b').
  Proof.
    intros Ha Hb x Hx. unfold tensor. rewrite Ha, Hb. reflexivity. apply N.div_lt_upper_bound. apply pow2_nz. now rewrite <- N.pow_add_r. apply N.mod_lt, pow2_nz.
  Qed.
  Lemma combine_all q (p : pager K) : paged q p -> fits c (pg_n p) ->
    every_run (CombineAll c p) (fun r => exists p', r = Ok p' /\ eqv (pg_n p) (vread (pg_page p' 0)) (flat p)).
  Proof.
    intros Hp Hf. eapply every_run_weaken. unfold CombineAll. apply (combine_ok c q (pg_n p) p Hp Hf). intros r [p1 [-> [B [C [D E]]]]]. exists p1. split; auto. intros x Hx. rewrite <- (E x Hx).
    assert (Hq : q <= pg_n p) by apply Hp. replace (N.max q (N.min (pg_n p) (pg_n p))) with (pg_n p) in D by lia. rewrite (flat_at (pg_n p) p1) by auto. now rewrite N.div_small, N.mod_small.
  Qed.
  Lemma compose_small maxQB q q2 (p p2 : pager K) : paged q p -> paged q2 p2 -> fits c (pg_n p + pg_n p2) -> 0 < pg_n p -> 0 < pg_n p2 -> pg_n p + pg_n p2 <= maxQB ->
    every_run (ComposeSmall c maxQB p2 p) (fun r => exists p', r = Ok p' /\ pg_n p' = pg_n p + pg_n p2 /\ pg_thr p' = pg_thr p /\ paged (pg_n p + pg_n p2) p' /\
      eqv (pg_n p + pg_n p2) (flat p') (tensor (pg_n p) (flat p) (flat p2))).
  Proof.
    intros Hp Hp2 Hf H1 H2 Hm. assert (Hf1 : fits c (pg_n p)) by (apply (fits_le c (pg_n p + pg_n p2)); auto; lia). assert (Hf2 : fits c (pg_n p2)) by (apply (fits_le c (pg_n p + pg_n p2)); auto; lia).
    destruct (combine_all q p Hp Hf1) as [[r1 R1] A1]. destruct (combine_all q2 p2 Hp2 Hf2) as [[r2 R2] A2]. unfold ComposeSmall.
    assert (S : forall p' p2', eqv (pg_n p) (vread (pg_page p' 0)) (flat p) -> eqv (pg_n p2) (vread (pg_page p2' 0)) (flat p2) ->
      every_run (fun r => exists r3, Compose c maxQB (mkEng (pg_n p) (pg_page p' 0)) (mkEng (pg_n p2) (pg_page p2' 0)) r3 /\
          r = match r3 with Throw => Throw | Ok (e, _) => Ok (mkPager (pg_n p + pg_n p2) (pg_thr p) 1 (fun _ => e_vec e)) end)
        (fun r => exists p', r = Ok p' /\ pg_n p' = pg_n p + pg_n p2 /\ pg_thr p' = pg_thr p /\ paged (pg_n p + pg_n p2) p' /\ eqv (pg_n p + pg_n p2) (flat p') (tensor (pg_n p) (flat p) (flat p2)))).
    { intros p' p2' E1 E2. destruct (c23_compose c maxQB (pg_n p) (pg_n p2) (pg_page p' 0) (pg_page p2' 0) Hf H1 H2 Hm) as [[r3 R3] A3]. split. eexists. exists r3. split; [exact R3|reflexivity].
      intros r [r4 [R4 ->]]. destruct (A3 r4 R4) as [v [-> Hv]]. eexists. split; [reflexivity|]. split; auto. split; auto.
      assert (HP : paged (K := K) (pg_n p + pg_n p2) (mkPager (pg_n p + pg_n p2) (pg_thr p) 1 (fun _ => e_vec (mkEng (pg_n p + pg_n p2) v)))). { split; cbn [pg_n pg_count]. lia. now rewrite N.sub_diag. }
      split; auto. intros x Hx. rewrite (flat_at _ _ x HP). cbn [pg_page e_vec]. rewrite N.mod_small by auto. rewrite (Hv x Hx). now apply (tensor_eqv _ (pg_n p2)). }
    split.
    - destruct (A1 r1 R1) as [p' [-> E1]]. destruct (A2 r2 R2) as [p2' [-> E2]]. destruct (S p' p2' E1 E2) as [[r R] _]. exists r, (Ok p'), (Ok p2'). auto.
    - intros r [r3 [r4 [R3 [R4 R5]]]]. destruct (A1 r3 R3) as [p' [-> E1]]. destruct (A2 r4 R4) as [p2' [-> E2]]. destruct (S p' p2' E1 E2) as [_ H]. now apply H.
  Qed.
  Lemma base_min (p : pager K) : pg_base p = N.min (pg_n p) (pg_thr p).
  Proof. unfold pg_base. destruct (N.ltb_spec (pg_n p) (pg_thr p)); lia. Qed.
  Theorem compose_fit maxPaging maxQB (p p2 : pager K) : regular p -> regular p2 -> fits c (pg_n p + pg_n p2) -> 0 < pg_thr p -> 0 < pg_n p -> 0 < pg_n p2 ->
    pg_n p + pg_n p2 <= maxPaging -> N.min (pg_thr p) (pg_n p + pg_n p2) <= maxQB ->
    every_run (ComposeFit c maxPaging maxQB p2 p) (paged_any (pg_n p + pg_n p2) p (tensor (pg_n p) (flat p) (flat p2))).
  Proof.
    intros [q [Hp Hb]] [q2 [Hp2 Hb2]] Hf H0 H1 H2 Hm Hm2. unfold ComposeFit. destruct (N.eqb_spec (pg_n p2) 0) as [E|E].
    - lia.
    - destruct (N.ltb_spec maxPaging (pg_n p + pg_n p2)); [lia|]. destruct (N.leb_spec (pg_n p + pg_n p2) (pg_thr p)) as [L|L].
      + eapply every_run_weaken. apply (compose_small maxQB q q2 p p2); auto; lia. intros r [p' [-> [A [B [C D]]]]]. exists p'. repeat split; auto. exists (pg_n p + pg_n p2). split; auto. rewrite base_min, A. lia.
      + eapply every_run_weaken. apply (compose_pager c q q2 p p2); auto. rewrite base_min in Hb. lia.
        intros r [p' [-> [A [B [C D]]]]]. exists p'. repeat split; auto. eexists. split. exact C. assert (EB := base_min p'). rewrite A, B in EB. lia.
  Qed.

  (** Insertion at [start] by rotating, appending and rotating back. *)
  Lemma insert_index na nb start y : start <= na -> y < 2 ^ (na + nb) ->
    let z := swaps_inv (ror_pairs (na - start) 0 (na + nb)) y in
    swaps_inv (rol_pairs (na - start) 0 na) (z mod 2 ^ na) = outside y start nb /\ z / 2 ^ na = get_reg y start nb.
  Proof.
    intros Hs Hy z. assert (Hx : z < 2 ^ (na + nb)) by (apply swaps_inv_lt; auto; apply ror_pairs_lt; lia).
    assert (Ey : cact (qi_ROR (na - start) 0 (na + nb) : circ K) z = y) by (rewrite <- (ror_pairs_act K); apply swaps_map_inv). clearbody z.
    destruct (ror_bits (K:=K) (na - start) (na + nb) z ltac:(lia)) as [R1 [R2 _]]. rewrite Ey in R1, R2.
    destruct (rol_bits (K:=K) (na - start) na (outside y start nb) ltac:(lia)) as [L1 [L2 L3]]. split.
    - rewrite <- (swaps_inv_map (rol_pairs (na - start) 0 na) (outside y start nb)). f_equal. rewrite (rol_pairs_act K). symmetry. apply N.bits_inj. intros q. rewrite tb_mod2. destruct (N.ltb_spec q na).
      + destruct (N.lt_ge_cases q (na - start)).
        * replace q with (q + start + (na - start) - na) at 1 by lia. rewrite L2 by lia. rewrite tb_outside. destruct (N.ltb_spec (q + start) start); [lia|].
          rewrite R2 by lia. cbn [andb]. f_equal. lia.
        * replace q with (q - (na - start) + (na - start)) at 1 by lia. rewrite L1 by lia. rewrite tb_outside. destruct (N.ltb_spec (q - (na - start)) start); [|lia].
          rewrite R1 by lia. cbn [andb]. f_equal. lia.
      + rewrite L3 by lia. rewrite tb_outside. destruct (N.ltb_spec q start); [lia|]. apply (tb_high y (na + nb)); auto. lia.
    - symmetry. apply N.bits_inj. intros j. rewrite tb_get_reg, N.div_pow2_bits. destruct (N.ltb_spec j nb); cbn [andb].
      + rewrite R1 by lia. f_equal. lia.
      + symmetry. apply (tb_high z (na + nb)); auto. lia.
  Qed.
  Theorem compose_fit_at maxPaging maxQB start (p p2 : pager K) : regular p -> regular p2 -> fits c (pg_n p + pg_n p2) -> 0 < pg_thr p -> 0 < pg_n p -> 0 < pg_n p2 ->
    pg_n p + pg_n p2 <= maxPaging -> N.min (pg_thr p) (pg_n p + pg_n p2) <= maxQB -> start <= pg_n p -> pg_n p + pg_n p2 <= pg_thr p + 8 ->
    every_run (ComposeFitAt c maxPaging maxQB p2 start p) (paged_any (pg_n p + pg_n p2) p (tensor_at start (pg_n p2) (flat p) (flat p2))).
  Proof.
    intros Hp Hp2 Hf H0 H1 H2 Hm Hm2 Hs H8. unfold ComposeFitAt. set (na := pg_n p) in *. set (nb := pg_n p2) in *. assert (Hfa : fits c na) by (apply (fits_le c (na + nb)); auto; lia).
    destruct (N.eqb_spec start na) as [->|E].
    - eapply every_run_weaken. apply compose_fit; auto. intros r [p' [-> [A [B [C D]]]]]. exists p'. fold na nb in A, D. repeat split; auto.
      intros x Hlt. rewrite (D x Hlt). unfold tensor, tensor_at. f_equal; f_equal; apply N.bits_inj; intros j.
      + rewrite tb_outside, tb_mod2. destruct (N.ltb_spec j na); auto. symmetry. apply (tb_high x (na + nb)); auto. lia.
      + rewrite tb_get_reg, N.div_pow2_bits. destruct (N.ltb_spec j nb); auto. apply (tb_high x (na + nb)); auto. lia.
    - assert (EB := base_min p). fold na in EB.
      apply (andthen_run _ _ p (fun p1 => pg_n p1 = na /\ pg_thr p1 = pg_thr p /\ regular p1 /\ eqv na (flat p1) (fun x => flat p (swaps_inv (rol_pairs (na - start) 0 na) x)))).
      { eapply every_run_weaken. unfold PROL. apply swaps_run; auto; fold na. lia. apply rol_pairs_lt. lia. intros r [p1 [-> [A [B [C D]]]]]. exists p1. fold na in A, D. auto. }
      intros p1 [A1 [B1 [C1 D1]]].
      apply (andthen_run _ _ p1 (fun p3 => pg_n p3 = na + nb /\ pg_thr p3 = pg_thr p /\ regular p3 /\ eqv (na + nb) (flat p3) (tensor na (flat p1) (flat p2)))).
      { eapply every_run_weaken. apply compose_fit; auto; rewrite ?A1, ?B1; fold nb; auto. intros r [p3 [-> [A [B [C D]]]]]. exists p3. rewrite A1 in A, D. fold nb in A, D. split; auto. split; auto. split; auto. congruence. }
      intros p3 [A3 [B3 [C3 D3]]]. rewrite A3. assert (EB3 := base_min p3). rewrite A3, B3 in EB3.
      eapply every_run_weaken. unfold PROR. apply swaps_run; auto; rewrite ?A3, ?B3; auto. lia. apply ror_pairs_lt. lia.
      intros r [p4 [-> [A4 [B4 [C4 D4]]]]]. rewrite A3 in A4, D4. rewrite B3 in B4. exists p4. repeat split; auto. intros y Hy. rewrite (D4 y Hy).
      rewrite D3 by (apply swaps_inv_lt; auto; apply ror_pairs_lt; lia). destruct (insert_index na nb start y) as [I1 I2]; auto. cbv zeta in I1, I2. unfold tensor, tensor_at. rewrite I2.
      rewrite D1 by (apply N.mod_lt, pow2_nz). now rewrite I1.
  Qed.
  Theorem compose_either wd maxPaging maxQB (p p2 : pager K) : regular p -> regular p2 -> fits c (pg_n p + pg_n p2) -> 0 < pg_thr p -> pg_thr p2 = pg_thr p -> 0 < pg_n p -> 0 < pg_n p2 ->
    pg_n p + pg_n p2 <= maxPaging -> N.min (pg_thr p) (pg_n p + pg_n p2) <= maxQB -> (pg_n p < pg_n p2 -> pg_n p + pg_n p2 <= pg_thr p + 8) ->
    every_run (ComposeEither c wd maxPaging maxQB p2 p) (paged_any (pg_n p + pg_n p2) p (tensor (pg_n p) (flat p) (flat p2))).
  Proof.
    intros Hp Hp2 Hf H0 HT H1 H2 Hm Hm2 H8. unfold ComposeEither. destruct (_ || _) eqn:EO. now apply compose_fit.
    rewrite !orb_false_iff, N.eqb_neq, N.ltb_ge, !N.leb_gt in EO. destruct EO as [[[_ _] L1] L2]. specialize (H8 L2). set (na := pg_n p) in *. set (nb := pg_n p2) in *.
    assert (S : every_run (andthen (if wd then pg_skip else SeparateBase c) (ComposeFitAt c maxPaging maxQB p 0) p2) (paged_any (nb + na) p2 (tensor_at 0 na (flat p2) (flat p)))).
    { apply (andthen_run _ _ p2 (fun p1 => pg_n p1 = nb /\ pg_thr p1 = pg_thr p /\ regular p1 /\ eqv nb (flat p1) (flat p2))).
      - destruct wd. split. eexists; reflexivity. intros r ->. exists p2. repeat split; auto. destruct Hp2 as [q2 [Hp2 Hb2]].
        eapply every_run_weaken. unfold SeparateBase. apply (separate_ok c q2); auto. apply (fits_le c (na + nb)); auto. fold nb. lia.
        intros r [p1 [-> [A [B [C D]]]]]. exists p1. fold nb in A, D. repeat split; auto. congruence. assert (E1 := base_min p1). assert (E2 := base_min p2). rewrite A, B in E1. fold nb in E2. eexists. split. exact C. cbn [negb]. lia.
      - intros p1 [A [B [C D]]]. eapply every_run_weaken. apply (compose_fit_at maxPaging maxQB 0 p1 p); auto; fold na; rewrite ?A, ?B, ?(N.add_comm nb na); auto; lia.
        intros r [p3 [-> [A3 [B3 [C3 D3]]]]]. fold na in A3, D3. rewrite A in A3, D3. exists p3. repeat split; auto. congruence. intros x Hx. rewrite (D3 x Hx). unfold tensor_at. rewrite D. reflexivity.
        apply outside_lt; auto. lia. }
    destruct S as [[r1 R1] AS]. split. eexists. exists r1. split; [exact R1|reflexivity].
    intros r [r2 [R2 ->]]. destruct (AS r2 R2) as [p3 [-> [A3 [B3 [[q3 [C3 C4]] D3]]]]]. set (p4 := mkPager (na + nb) (pg_thr p) (pg_count p3) (pg_page p3)).
    assert (HP4 : paged q3 p4). { destruct C3 as [U1 U2]. unfold p4. split; cbn [pg_n pg_count]. lia. rewrite U2, A3. f_equal. lia. }
    exists p4. split; auto. split; auto. split; auto. split. exists q3. split; auto. assert (E3 := base_min p3). assert (E4 := base_min p4). unfold p4 in E4 at 2 3. cbn [pg_n pg_thr] in E4. rewrite A3, B3 in E3. lia.
    intros x Hx. rewrite N.add_comm in Hx. rewrite (flat_at q3 p4) by auto. unfold p4. cbn [pg_page]. rewrite <- (flat_at q3 p3) by auto. rewrite (D3 x Hx). unfold tensor, tensor_at.
    replace (outside x 0 na) with (x / 2 ^ na). replace (get_reg x 0 na) with (x mod 2 ^ na). ring.
    - apply N.bits_inj. intros j. rewrite tb_mod2, tb_get_reg. rewrite ?N.add_0_l, ?N.add_0_r. destruct (j <? na); auto.
    - unfold outside. rewrite N.pow_0_r, N.mod_1_r, N.mul_1_r, !N.add_0_l. reflexivity.
  Qed.
End Rot.
