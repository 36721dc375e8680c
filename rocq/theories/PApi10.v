(** Proofs about the C interface, part 10: products of Pauli operators, PermutationProb, unknown IDs and Dispose. *)
From Coq Require Import NArith List Bool Lia Permutation Ring.
From Verif Require Import Bits Amp PAmp SpecState SpecUnit3 MFunctions PFunctions MParFor PLoop PGates PGates2 PGates3 PCompose MQCircuit MTensor PQCirc1 SpecApi MApi SpecApi2 MApi2 SpecApi3 PApi1 PApi2 PApi3 PApi4 PApi9 PUnit20 PParFor.
Import ListNotations.
Local Open Scope N_scope.

Section Joint.
  Context {K : StarRing} (ci ch : K) (c : @acfg K).
  Local Notation nstate := ((N -> bool) -> K).
  Local Open Scope amp_scope.
  Add Ring KrDZ : (sr_ring K).
  Hypothesis CI : ci * ci = - (1).
  Hypothesis CC : sr_conj ci = - ci.
  Hypothesis HH : ch * ch + ch * ch = 1.
  Hypothesis HC : sr_conj ch = ch.
  Definition pos (m : list (N * N)) (l : list (pauli * N)) : list (pauli * N) := map (fun e => (fst e, shard_id m (snd e))) l.

  Lemma gate_ret n m t (Q : @sim K) : s_n Q = n -> (t < n)%N -> sim_gate true [] m t Q = Ret (mkSim n (g1 m t (s_v Q))).
  Proof. intros <- H. unfold sim_gate. rewrite valid_ok. reflexivity. intros x [<-|[]]. exact H. constructor; [intros []|constructor]. Qed.
  Lemma toz_ok n m l : (forall e, In e l -> (shard_id m (snd e) < n)%N) -> forall Q, s_n Q = n -> exists w, to_z ci ch l m Q = Ret (mkSim n w) /\ forall x, w x = thru (um ci ch) (pos m l) (s_v Q) x.
  Proof.
    induction l as [|[b q] l IH]; intros HL Q HQ. { exists (s_v Q). split; [destruct Q; cbn in *; now subst|reflexivity]. }
    assert (L0 := HL _ (or_introl eq_refl)). cbn [snd] in L0. assert (L1 : forall e, In e l -> (shard_id m (snd e) < n)%N) by (intros e He; apply HL; now right). specialize (IH L1).
    cbn [to_z pos map fst snd]. fold (pos m l). destruct b.
    - destruct (IH Q HQ) as (w & W1 & W2). exists w. split; auto. intros x. rewrite W2, thru_cons. cbn [um]. apply thru_ext. intros y. symmetry. apply g1_one.
    - rewrite (gate_ret n _ _ Q HQ L0). cbn [bind]. destruct (IH (mkSim n (g1 (mat_H ch) (shard_id m q) (s_v Q))) eq_refl) as (w & W1 & W2). exists w. split; auto.
    - rewrite (gate_ret n _ _ Q HQ L0). cbn [bind]. rewrite (gate_ret n) by auto. cbn [bind s_v]. destruct (IH (mkSim n (g1 (mat_H ch) (shard_id m q) (g1 (mat_IS ci) (shard_id m q) (s_v Q)))) eq_refl) as (w & W1 & W2). exists w. split; auto.
      intros x. rewrite W2, thru_cons. apply thru_ext. intros y. apply g1_mul.
    - destruct (IH Q HQ) as (w & W1 & W2). exists w. split; auto. intros x. rewrite W2, thru_cons. cbn [um]. apply thru_ext. intros y. symmetry. apply g1_one.
  Qed.
  Lemma fromz_ok n m l : (forall e, In e l -> (shard_id m (snd e) < n)%N) -> forall Q, s_n Q = n -> exists w, from_z ci ch l m Q = Ret (mkSim n w) /\ forall x, w x = thru (zm ci ch) (pos m l) (s_v Q) x.
  Proof.
    induction l as [|[b q] l IH]; intros HL Q HQ. { exists (s_v Q). split; [destruct Q; cbn in *; now subst|reflexivity]. }
    assert (L0 := HL _ (or_introl eq_refl)). cbn [snd] in L0. assert (L1 : forall e, In e l -> (shard_id m (snd e) < n)%N) by (intros e He; apply HL; now right). specialize (IH L1).
    cbn [from_z pos map fst snd]. fold (pos m l). destruct b.
    - destruct (IH Q HQ) as (w & W1 & W2). exists w. split; auto. intros x. rewrite W2, thru_cons. cbn [zm]. apply thru_ext. intros y. symmetry. apply g1_one.
    - rewrite (gate_ret n _ _ Q HQ L0). cbn [bind]. destruct (IH (mkSim n (g1 (mat_H ch) (shard_id m q) (s_v Q))) eq_refl) as (w & W1 & W2). exists w. split; auto.
    - rewrite (gate_ret n _ _ Q HQ L0). cbn [bind]. rewrite (gate_ret n) by auto. cbn [bind s_v]. destruct (IH (mkSim n (g1 (mat_S ci) (shard_id m q) (g1 (mat_H ch) (shard_id m q) (s_v Q)))) eq_refl) as (w & W1 & W2). exists w. split; auto.
      intros x. rewrite W2, thru_cons. apply thru_ext. intros y. apply g1_mul.
    - destruct (IH Q HQ) as (w & W1 & W2). exists w. split; auto. intros x. rewrite W2, thru_cons. cbn [zm]. apply thru_ext. intros y. symmetry. apply g1_one.
  Qed.
  Lemma pos_nodup n m l : names n m -> incl (map snd l) (map fst m) -> (forall q, In q (map snd l) -> (q < 256)%N) -> NoDup (map snd l) -> NoDup (map snd (pos m l)).
  Proof.
    intros NM IN LT ND. unfold pos. rewrite map_map. cbn [snd]. induction l as [|[b q] l IH]; cbn [map snd] in *; [constructor|]. inversion ND as [|? ? N1 N2]; subst. constructor.
    - intros X. apply in_map_iff in X. destruct X as ((b' & q') & E & X). cbn [snd] in E. apply N1. replace q with q'; [exact (in_map snd _ _ X)|].
      apply (in_map snd) in X. cbn [snd] in X. apply (shard_inj n m q' q NM); auto; try (apply IN; cbn [In]; auto); apply LT; cbn [In]; auto.
    - apply IH; auto. intros y Hy; apply IN; now right. intros y Hy; apply LT; now right.
  Qed.
  Lemma pos_lt n m (l : list (pauli * N)) : names n m -> incl (map snd l) (map fst m) -> (forall q, In q (map snd l) -> (q < 256)%N) -> forall e, In e l -> (shard_id m (snd e) < n)%N.
  Proof. intros NM IN LT e He. apply (in_map snd) in He. destruct (shard_ok n m (snd e) NM) as (v & _ & _ & V & ->); auto. Qed.
  Lemma paulis_named n m l v (Psi : nstate) ph : names n m -> incl (map snd l) (map fst m) -> (forall q, In q (map snd l) -> (q < 256)%N) -> (forall f, v (index_of m f) = ph * Psi f) ->
    forall f, prod (pauli_mat ci) (pos m l) v (index_of m f) = ph * npaulis ci l Psi f.
  Proof.
    intros NM. induction l as [|[b q] l IH]; intros IN LT HV f; [apply HV|]. cbn [pos map fst snd]. fold (pos m l). rewrite prod_cons. cbn [npaulis fold_right fst snd]. fold (npaulis ci l Psi).
    cbn [map snd] in IN, LT. apply (gate_named n m true [] (pauli_mat ci b) q (prod (pauli_mat ci) (pos m l) v) (npaulis ci l Psi) ph NM).
    - intros x [<-|[]]. apply IN. now left.
    - intros x [<-|[]]. apply LT. now left.
    - apply IH; auto. intros y Hy; apply IN; now right. intros y Hy; apply LT; now right.
  Qed.
  Lemma expect_named n m ids l v (Psi : nstate) ph : names n m -> Permutation (map fst m) ids -> incl (map snd l) (map fst m) -> (forall q, In q (map snd l) -> (q < 256)%N) -> anorm ph = 1 -> (forall f, v (index_of m f) = ph * Psi f) ->
    vip n v (prod (pauli_mat ci) (pos m l) v) = nexpect ci ids l Psi.
  Proof.
    intros NM PM IN LT PH HV. unfold vip, nexpect. rewrite (asum_perm K _ _ _ (assign_basis n m ids NM PM)), asum_map. apply asum_ext. intros f _.
    rewrite (paulis_named n m l v Psi ph) by auto. rewrite HV, sr_conj_mul. transitivity (anorm ph * (sr_conj (Psi f) * npaulis ci l Psi f)); [unfold anorm; ring|rewrite PH; ring].
  Qed.
  Lemma pos_id m l : no_identities (pos m l) = pos m (no_identities l).
  Proof. unfold no_identities, pos. induction l as [|[b q] l IH]; [reflexivity|]. cbn [map filter fst snd]. destruct b; cbn [is_pi negb map fst snd]; now rewrite IH. Qed.
  Lemma par_pos m l x : NoDup (map snd (pos m l)) -> (forall e, In e l -> (shard_id m (snd e) < 64)%N) -> odd_bits 64 (N.land x (mask_of (map (fun e => shard_id m (snd e)) (no_identities l)))) = par (pos m l) x.
  Proof.
    intros ND HL. rewrite <- mask_par; auto.
    - rewrite pos_id. unfold pos. now rewrite map_map.
    - intros t Ht. unfold pos in Ht. rewrite map_map in Ht. apply in_map_iff in Ht. destruct Ht as (e & <- & E). cbn [snd]. auto.
  Qed.
  Lemma par_none m l x : no_identities l = [] -> par (pos m l) x = false.
  Proof.
    induction l as [|[b q] l IH]; [reflexivity|]. unfold no_identities. cbn [filter fst]. destruct b; cbn [is_pi negb]; intros E; try discriminate. cbn [pos map fst snd]. unfold par. cbn [fold_right fst snd is_pi negb andb]. rewrite xorb_false_l. apply IH, E.
  Qed.

  (** JointEnsembleProbability. *)
  Lemma joint_ok a sid ids (Psi : nstate) l : holds a sid ids Psi -> (forall q, In q ids -> (q < 256)%N) -> ids <> [] -> (length ids <= 64)%nat -> NoDup (map snd l) -> incl (map snd l) ids ->
    exists p a', api_joint ci ch sid l a = Ret (Some p, a') /\ p + p + nexpect ci ids l Psi = 1 /\ holds a' sid ids Psi /\ only_at sid a a'.
  Proof.
    intros (s & S1 & S2 & S3 & S4 & S5) HI NE LE ND IN. unfold api_joint. rewrite (lookup_in _ _ s) by auto. destruct ids as [|q0 ids0]; [congruence|]. set (ids := q0 :: ids0) in *.
    rewrite (some_sim s ids q0 _ eq_refl S3) by now left. destruct (sim_of s) as [Q m] eqn:ES. cbn [fst snd] in *.
    assert (IN' : incl (map snd l) (map fst m)). { intros x Hx. eapply Permutation_in; [apply Permutation_sym; apply S3|]. auto. }
    assert (LT : forall x, In x (map snd l) -> (x < 256)%N) by (intros x Hx; apply HI; auto).
    assert (PL := pos_lt _ m l S2 IN' LT). assert (PN := pos_nodup _ m l S2 IN' LT ND).
    assert (NN : (s_n Q <= 64)%N). { rewrite <- (names_length _ _ S2). apply Permutation_length in S3. rewrite map_length in S3. lia. }
    assert (PL' : forall t, In t (map snd (pos m l)) -> (t < s_n Q)%N). { intros t Ht. unfold pos in Ht. rewrite map_map in Ht. apply in_map_iff in Ht. destruct Ht as (e & <- & E). cbn [snd]. auto. }
    destruct S5 as (ph & P1 & P2).
    destruct (toz_ok (s_n Q) m l PL Q eq_refl) as (w & W1 & W2). rewrite W1. cbn [bind].
    assert (X : exists p, (match no_identities l with [] => Ret 0 | l' => sim_prob_parity (mask_of (map (fun e => shard_id m (snd e)) l')) (mkSim (s_n Q) w) end) = Ret p /\ p = weight_of (s_n Q) (par (pos m l)) (thru (um ci ch) (pos m l) (s_v Q))).
    { eexists. split; [|reflexivity]. destruct (no_identities l) as [|e t] eqn:EI.
      - f_equal. symmetry. unfold weight_of. apply asum_zero. intros x _. now rewrite par_none.
      - unfold sim_prob_parity. cbn [s_n s_v]. rewrite <- EI.
        assert (ML : (mask_of (map (fun e => shard_id m (snd e)) (no_identities l)) < 2 ^ s_n Q)%N). { apply mask_lt. intros q Hq. apply in_map_iff in Hq. destruct Hq as (y & <- & Y). apply filter_In in Y. apply PL. tauto. }
        apply N.leb_gt in ML. rewrite ML. f_equal. unfold weight_of. apply asum_ext. intros x _. rewrite par_pos, W2; auto. intros y Hy. specialize (PL y Hy). lia. }
    destruct X as (p & X1 & X2). rewrite X1. cbn [bind].
    destruct (fromz_ok (s_n Q) m l PL (mkSim (s_n Q) w) eq_refl) as (w' & V1 & V2). rewrite V1. cbn [bind]. exists p. eexists. split; [reflexivity|]. split; [|split].
    - rewrite X2. rewrite <- (expect_named (s_n Q) m ids l (s_v Q) Psi ph) by auto. rewrite (odd_weight ci ch CI CC HH HC (s_n Q) (pos m l) (s_v Q) PN PL').
      rewrite (norm_named (s_n Q) m ids (s_v Q) Psi S2 S3); auto. intros f. rewrite P2, anorm_mul, P1. ring.
    - rewrite put_eta. eapply holds_put; eauto. exists ph. split; auto. intros f. cbn [s_v]. rewrite V2, <- P2. cbn [s_v]. rewrite (thru_ext _ _ _ (thru (um ci ch) (pos m l) (s_v Q)) _ W2). now apply back.
    - rewrite put_eta. eapply put_only; eauto.
  Qed.
  (** Measure. *)
  Lemma measure_ok a sid ids (Psi : nstate) l : (1 : K) <> 0 -> normalizes (ac_nrm c) -> holds a sid ids Psi -> (forall q, In q ids -> (q < 256)%N) -> ids <> [] -> (length ids <= 64)%nat -> NoDup (map snd l) -> incl (map snd l) ids ->
    exists r p g Psi' a', api_measure ci ch c sid l a = Ret (Some r, a') /\ p <> 0 /\ p + p = 1 + (if r then - nexpect ci ids l Psi else nexpect ci ids l Psi) /\ anorm g * p = 1 /\
      (forall f, Psi' f + Psi' f = g * (Psi f + (if r then - npaulis ci l Psi f else npaulis ci l Psi f))) /\ holds a' sid ids Psi' /\ only_at sid a a'.
  Proof.
    intros N10 NZ (s & S1 & S2 & S3 & S4 & S5) HI NE LE ND IN. unfold api_measure. rewrite (lookup_in _ _ s) by auto. destruct ids as [|q0 ids0]; [congruence|]. set (ids := q0 :: ids0) in *.
    rewrite (some_sim s ids q0 _ eq_refl S3) by now left. destruct (sim_of s) as [Q m] eqn:ES. cbn [fst snd] in *.
    assert (IN' : incl (map snd l) (map fst m)). { intros x Hx. eapply Permutation_in; [apply Permutation_sym; apply S3|]. auto. }
    assert (LT : forall x, In x (map snd l) -> (x < 256)%N) by (intros x Hx; apply HI; auto).
    assert (PL := pos_lt _ m l S2 IN' LT). assert (PN := pos_nodup _ m l S2 IN' LT ND).
    assert (NN : (s_n Q <= 64)%N). { rewrite <- (names_length _ _ S2). apply Permutation_length in S3. rewrite map_length in S3. lia. }
    assert (PL' : forall t, In t (map snd (pos m l)) -> (t < s_n Q)%N). { intros t Ht. unfold pos in Ht. rewrite map_map in Ht. apply in_map_iff in Ht. destruct Ht as (e & <- & E). cbn [snd]. auto. }
    destruct S5 as (ph & P1 & P2).
    destruct (toz_ok (s_n Q) m l PL Q eq_refl) as (w & W1 & W2). rewrite W1. cbn [bind].
    set (W := thru (um ci ch) (pos m l) (s_v Q)) in *. set (p1 := weight_of (s_n Q) (par (pos m l)) W).
    assert (PE : p1 + p1 + nexpect ci ids l Psi = 1).
    { unfold p1, W. rewrite <- (expect_named (s_n Q) m ids l (s_v Q) Psi ph) by auto. rewrite (odd_weight ci ch CI CC HH HC (s_n Q) (pos m l) (s_v Q) PN PL').
      rewrite (norm_named (s_n Q) m ids (s_v Q) Psi S2 S3); auto. intros f. rewrite P2, anorm_mul, P1. ring. }
    assert (NW : norm2 (s_n Q) W = 1).
    { rewrite <- vip_norm. unfold W. rewrite vip_thru by (auto; now apply um_unitary). rewrite vip_norm. rewrite (norm_named (s_n Q) m ids (s_v Q) Psi S2 S3); auto. intros f. rewrite P2, anorm_mul, P1. ring. }
    assert (EW : forall r : bool, weight_of (s_n Q) (fun x => eqb (par (pos m l) x) r) W = if r then p1 else 1 - p1).
    { intros []. - unfold p1. apply asum_ext. intros x _. now destruct (par (pos m l) x).
      - rewrite <- NW. unfold p1, norm2, weight_of. transitivity (asum (fun x => anorm (W x) + - (if par (pos m l) x then anorm (W x) else 0)) (basis (s_n Q))).
        + apply asum_ext. intros x _. destruct (par (pos m l) x); cbn [eqb]; ring.
        + rewrite asum_add. transitivity (asum (fun x => anorm (W x)) (basis (s_n Q)) + asum (fun x => (- (1)) * (if par (pos m l) x then anorm (W x) else 0)) (basis (s_n Q))).
          * f_equal. apply asum_ext. intros x _. ring.
          * rewrite asum_scale. ring. }
    assert (X : exists r k d S2, (match no_identities l with [] => Ret (false, mkSim (s_n Q) w, a_draw a) | l' => sim_mparity c (mask_of (map (fun e => shard_id m (snd e)) l')) (a_draw a) (mkSim (s_n Q) w) end) = Ret (r, mkSim (s_n Q) S2, d) /\
       (if r : bool then p1 else 1 - p1) <> 0 /\ anorm k * (if r then p1 else 1 - p1) = 1 /\ forall x, S2 x = if eqb (par (pos m l) x) r then k * W x else 0).
    { destruct (no_identities l) as [|e t] eqn:EI.
      - exists false, 1, (a_draw a), w. split; [reflexivity|]. assert (E0 : p1 = 0). { unfold p1. apply asum_zero. intros x _. now rewrite par_none. }
        rewrite E0. split. { intros F. apply N10. rewrite <- F. ring. } split. { unfold anorm. rewrite conj_1. ring. } intros x. rewrite par_none by auto. cbn [eqb]. rewrite W2. ring.
      - rewrite <- EI. assert (ML : (mask_of (map (fun e => shard_id m (snd e)) (no_identities l)) < 2 ^ s_n Q)%N). { apply mask_lt. intros q Hq. apply in_map_iff in Hq. destruct Hq as (y & <- & Y). apply filter_In in Y. apply PL. tauto. }
        unfold sim_mparity, sim_prob_parity. cbn [s_n s_v]. apply N.leb_gt in ML. rewrite ML. cbn [bind].
        assert (PP : forall x, odd_bits 64 (N.land x (mask_of (map (fun e => shard_id m (snd e)) (no_identities l)))) = par (pos m l) x). { intros x. apply par_pos; auto. intros y Hy. specialize (PL y Hy). lia. }
        assert (WP : weight_of (s_n Q) (fun x => odd_bits 64 (N.land x (mask_of (map (fun e => shard_id m (snd e)) (no_identities l))))) w = p1). { unfold p1, weight_of. apply asum_ext. intros x _. now rewrite PP, W2. }
        rewrite WP.
        assert (Y : exists r d, (if sr_eqb p1 1 then (true, a_draw a) else if sr_eqb p1 0 then (false, a_draw a) else (ac_rnd c (a_draw a) p1, (a_draw a + 1)%N)) = (r, d) /\ (if r : bool then p1 else 1 - p1) <> 0).
        { destruct (sr_eqb p1 1) eqn:E1. { apply sr_eqb_ok in E1. exists true, (a_draw a). split; auto. now rewrite E1. }
          destruct (sr_eqb p1 0) eqn:E0. { apply sr_eqb_ok in E0. exists false, (a_draw a). split; auto. rewrite E0. intros F. apply N10. rewrite <- F. ring. }
          exists (ac_rnd c (a_draw a) p1), (a_draw a + 1)%N. split; auto. destruct (ac_rnd c (a_draw a) p1).
          - intros F. apply sr_eqb_ok in F. congruence.
          - intros F. assert (F' : p1 = 1) by (transitivity (1 - (1 - p1)); [ring|rewrite F; ring]). apply sr_eqb_ok in F'. congruence. }
        destruct Y as (r & d & -> & NZr). exists r, (ac_nrm c (if r then p1 else 1 - p1)), d. eexists. split; [reflexivity|]. split; [exact NZr|]. split.
        + rewrite <- EW. specialize (NZ (basis (s_n Q)) (fun x => if eqb (par (pos m l) x) r then W x else 0)). cbv beta zeta in NZ.
          assert (E2 : asum (fun x => anorm (if eqb (par (pos m l) x) r then W x else 0)) (basis (s_n Q)) = weight_of (s_n Q) (fun x => eqb (par (pos m l) x) r) W). { apply asum_ext. intros x _. destruct (eqb _ _); auto. apply anorm_0. }
          rewrite E2 in NZ. apply NZ. now rewrite EW.
        + intros x. cbv beta. rewrite PP. destruct (eqb _ _); auto. now rewrite W2. }
    destruct X as (r & k & d & w2 & -> & X1 & X2 & X3). cbn [bind].
    destruct (fromz_ok (s_n Q) m l PL (mkSim (s_n Q) w2) eq_refl) as (w3 & V1 & V2). rewrite V1. cbn [bind]. cbn [s_v] in V2.
    assert (V3 : forall x, w3 x = thru (zm ci ch) (pos m l) (fun y => if eqb (par (pos m l) y) r then k * W y else 0) x). { intros x. rewrite V2. now apply thru_ext. }
    assert (PP : forall x y, ph * (sr_conj ph * x) = y -> x = y). { intros x y E. rewrite <- E. transitivity (anorm ph * x); [rewrite P1|unfold anorm]; ring. }
    exists r, (if r then p1 else 1 - p1), k, (fun f => sr_conj ph * w3 (index_of m f)). eexists. split; [reflexivity|]. split; [exact X1|]. split.
    { destruct r. - rewrite <- PE. ring. - transitivity (1 + 1 - (p1 + p1)); [ring|]. rewrite <- PE at 2. ring. }
    split; [exact X2|]. split.
    { intros f. transitivity (sr_conj ph * (w3 (index_of m f) + w3 (index_of m f))); [ring|]. rewrite !V3. unfold W. rewrite (projected ci ch CI HH (pos m l) (s_v Q) r k (index_of m f) PN). rewrite (paulis_named (s_n Q) m l (s_v Q) Psi ph) by auto. rewrite P2.
      transitivity (anorm ph * (k * (Psi f + (if r then - npaulis ci l Psi f else npaulis ci l Psi f)))). { unfold anorm. destruct r; ring. } rewrite P1. ring. }
    assert (RN : forall f, w3 (index_of m f) = ph * (sr_conj ph * w3 (index_of m f))). { intros f. transitivity (anorm ph * w3 (index_of m f)); [rewrite P1|unfold anorm]; ring. }
    assert (AN : anorm (sr_conj ph) = 1). { rewrite <- P1. unfold anorm. rewrite sr_conj_invol. ring. }
    split.
    - unmeta. eapply holds_put; eauto. 2:{ exists ph. split; auto. }
      rewrite <- (norm_named (s_n Q) m ids w3 (fun f => sr_conj ph * w3 (index_of m f)) S2 S3). 2:{ intros f. rewrite anorm_mul, AN. ring. }
      rewrite <- vip_norm, (vip_ext _ _ _ _ _ V3 V3), vip_thru by (auto; now apply zm_unitary). rewrite vip_norm. rewrite <- X2, <- EW. unfold norm2, weight_of. rewrite <- asum_scale. apply asum_ext. intros x _. destruct (eqb _ _); [apply anorm_mul|rewrite anorm_0; ring].
    - unmeta. eapply put_only; eauto.
  Qed.
End Joint.

Section More.
  Context {K : StarRing} (ci ch : K) (c : @acfg K).
  Local Notation nstate := ((N -> bool) -> K).
  Local Open Scope amp_scope.
  Add Ring KrEA : (sr_ring K).
  (** PermutationProb. *)
  Lemma mask_reads n m (l : list (N * bool)) f : names n m -> incl (map fst l) (map fst m) -> (forall q, In q (map fst l) -> (q < 256)%N) -> NoDup (map fst l) ->
    (N.land (index_of m f) (mask_of (map (fun e => shard_id m (fst e)) l)) =? mask_of (map (fun e => shard_id m (fst e)) (filter snd l)))%N = forallb (fun e => eqb (f (fst e)) (snd e)) l.
  Proof.
    intros NM IN LT ND.
    assert (SH : forall e, In e l -> exists v, In (fst e, v) m /\ shard_id m (fst e) = v). { intros e He. apply (in_map fst) in He. destruct (shard_ok n m (fst e) NM) as (v & V1 & _ & _ & V4); eauto. }
    assert (INJ : forall e e', In e l -> In e' l -> shard_id m (fst e) = shard_id m (fst e') -> e = e').
    { intros e e' H H' E. assert (F : fst e = fst e'). { apply (in_map fst) in H. apply (in_map fst) in H'. apply (shard_inj n m _ _ NM); auto. }
      clear - ND H H' F. induction l as [|x t IH]; [destruct H|]. cbn [map] in ND. inversion ND as [|? ? N1 N2]; subst. destruct H as [->|H], H' as [->|H']; auto.
      - exfalso. apply N1. rewrite F. now apply in_map. - exfalso. apply N1. rewrite <- F. now apply in_map. }
    assert (B1 : forall L j, N.testbit (mask_of (map (fun e => shard_id m (fst e)) L)) j = existsb (fun e : N * bool => j =? shard_id m (fst e))%N L).
    { intros L j. unfold mask_of. rewrite mask_bit, N.bits_0. cbn [orb]. induction L as [|x t IH]; cbn [map existsb]; auto. now rewrite IH. }
    apply eq_true_iff_eq. rewrite N.eqb_eq, forallb_forall. split.
    - intros E e He. destruct (SH e He) as (v & V1 & V2). apply (f_equal (fun y => N.testbit y v)) in E. rewrite N.land_spec, !B1, (index_bit m f (fst e) v) in E; auto using (names_vals _ _ NM).
      replace (existsb (fun e => (v =? shard_id m (fst e))%N) l) with true in E. 2:{ symmetry. apply existsb_exists. exists e. split; auto. apply N.eqb_eq. auto. }
      rewrite andb_true_r in E. rewrite E. apply Bool.eqb_true_iff. destruct (snd e) eqn:SE.
      + apply existsb_exists. exists e. split. now apply filter_In. now apply N.eqb_eq.
      + apply not_true_iff_false. intros X. apply existsb_exists in X. destruct X as (e' & X1 & X2). apply filter_In in X1. destruct X1 as [X1 X3]. apply N.eqb_eq in X2. assert (e = e') by (apply INJ; auto; congruence). congruence.
    - intros H. apply N.bits_inj. intros j. rewrite N.land_spec, !B1. destruct (existsb (fun e => (j =? shard_id m (fst e))%N) l) eqn:EX.
      + apply existsb_exists in EX. destruct EX as (e & E1 & E2). apply N.eqb_eq in E2. destruct (SH e E1) as (v & V1 & V2). assert (J : j = v) by congruence. subst j. rewrite andb_true_r, J, (index_bit m f (fst e) v); auto using (names_vals _ _ NM).
        specialize (H e E1). apply Bool.eqb_prop in H. rewrite H. symmetry. destruct (snd e) eqn:SE.
        * apply existsb_exists. exists e. split. now apply filter_In. apply N.eqb_eq. auto.
        * apply not_true_iff_false. intros X. apply existsb_exists in X. destruct X as (e' & X1 & X2). apply filter_In in X1. destruct X1 as [X1 X3]. apply N.eqb_eq in X2. assert (e = e') by (apply INJ; auto; congruence). congruence.
      + rewrite andb_false_r. symmetry. apply not_true_iff_false. intros X. apply existsb_exists in X. destruct X as (e & E1 & E2). apply filter_In in E1. assert (T : existsb (fun e => (j =? shard_id m (fst e))%N) l = true) by (apply existsb_exists; exists e; tauto). congruence.
  Qed.
  Lemma perm_ok a sid ids (Psi : nstate) l : holds a sid ids Psi -> (forall q, In q ids -> (q < 256)%N) -> ids <> [] -> (N.of_nat (length ids) <= 2 ^ ac_cap c)%N -> NoDup (map fst l) -> incl (map fst l) ids ->
    api_perm_prob c sid l a = Ret (Some (nweight ids (fun f => forallb (fun e => eqb (f (fst e)) (snd e)) l) Psi), a).
  Proof.
    intros (s & S1 & S2 & S3 & S4 & S5) HI NE LE ND IN. unfold api_perm_prob. rewrite (lookup_in _ _ s) by auto. destruct ids as [|q0 ids0]; [congruence|]. set (ids := q0 :: ids0) in *.
    rewrite (some_sim s ids q0 _ eq_refl S3) by now left. destruct (sim_of s) as [Q m] eqn:ES. cbn [fst snd] in *.
    assert (IN' : incl (map fst l) (map fst m)). { intros x Hx. eapply Permutation_in; [apply Permutation_sym; apply S3|]. auto. }
    assert (LT : forall x, In x (map fst l) -> (x < 256)%N) by (intros x Hx; apply HI; auto).
    assert (PL : forall e, In e l -> (shard_id m (fst e) < s_n Q)%N). { intros e He. apply (in_map fst) in He. destruct (shard_ok _ m (fst e) S2) as (v & _ & _ & V & ->); auto. }
    assert (NN : (s_n Q <= 2 ^ ac_cap c)%N). { rewrite <- (names_length _ _ S2). apply Permutation_length in S3. rewrite map_length in S3. lia. }
    replace (existsb (fun e => (2 ^ ac_cap c <=? shard_id m (fst e))%N) l) with false.
    2:{ symmetry. apply not_true_iff_false. intros X. apply existsb_exists in X. destruct X as (e & E1 & E2). apply N.leb_le in E2. specialize (PL e E1). lia. }
    unfold sim_prob_mask. assert (ML : (mask_of (map (fun e => shard_id m (fst e)) l) < 2 ^ s_n Q)%N). { apply mask_lt. intros q Hq. apply in_map_iff in Hq. destruct Hq as (y & <- & Y). auto. }
    apply N.leb_gt in ML. rewrite ML. f_equal. f_equal. f_equal. apply (weight_named (s_n Q) m ids _ _ _ _ S2 S3). intros f. now apply (mask_reads (s_n Q)). intros f. now apply reads_anorm.
  Qed.
  (** IDs that are not known. *)
  Lemma shard_none a sid ids (Psi : nstate) q : holds a sid ids Psi -> ids <> [] -> (q < 256)%N -> ~ In q ids ->
    exists s Q m, nth_error (a_slots a) (N.to_nat sid) = Some s /\ sl_sim s = Some (Q, m) /\ shard_id m q = 255%N /\ (s_n Q < 256)%N /\ (forall v, In v (map fst m) <-> In v ids) /\ names (s_n Q) m.
  Proof.
    intros (s & S1 & S2 & S3 & S4 & S5) NE LT NI. exists s, (fst (sim_of s)), (snd (sim_of s)). split; auto. destruct ids as [|q0 ids0]; [congruence|]. split. { rewrite (some_sim s (q0 :: ids0) q0 _ eq_refl S3) by now left. f_equal. apply surjective_pairing. }
    split. { unfold shard_id, w8. rewrite N.mod_small by auto. destruct (mfind q (snd (sim_of s))) as [v|] eqn:E; auto. exfalso. apply NI. eapply Permutation_in; [apply S3|]. apply mfind_In in E. apply (in_map fst) in E. exact E. }
    split. { apply S2. } split; auto. intros v. split; apply Permutation_in; auto using Permutation_sym.
  Qed.
  Lemma put_err a sid s ids (Psi : nstate) : nth_error (a_slots a) (N.to_nat sid) = Some s -> holds a sid ids Psi -> holds (put sid (set_err s) a) sid ids Psi /\ only_error sid a (put sid (set_err s) a).
  Proof.
    intros S1 (s' & S1' & S2). split.
    - exists (set_err s). rewrite (put_at _ _ _ _ S1). split; auto. replace s' with s in S2 by congruence. exact S2.
    - unfold only_error. cbn [put a_meta a_draw a_slots]. rewrite set_nth_len. repeat split; auto. intros i Hi. now apply set_nth_other. exists s. split; auto. now rewrite (set_nth_same _ _ _ _ S1).
  Qed.
  Lemma gate_unknown a sid ids (Psi : nstate) want cs m q : holds a sid ids Psi -> ids <> [] -> (forall x, In x (q :: cs) -> (x < 256)%N) -> (exists x, In x (q :: cs) /\ ~ In x ids) ->
    exists a', api_gate sid want cs m q a = Ret a' /\ holds a' sid ids Psi /\ only_error sid a a'.
  Proof.
    intros H NE LT (x & X1 & X2). destruct (shard_none a sid ids Psi x H NE (LT x X1) X2) as (s & Q & mp & E1 & E2 & E3 & E4 & _). unfold api_gate, on_sim. rewrite (lookup_in _ _ s) by auto. rewrite E2. unfold sim_gate.
    assert (V : valid_qubits (s_n Q) (shard_id mp q :: map (shard_id mp) cs) = false).
    { unfold valid_qubits. apply andb_false_intro1. apply not_true_iff_false. intros F. rewrite forallb_forall in F. change (shard_id mp q :: map (shard_id mp) cs) with (map (shard_id mp) (q :: cs)) in F. specialize (F _ (in_map (shard_id mp) _ _ X1)). rewrite E3 in F. apply N.ltb_lt in F. lia. }
    rewrite V. cbn [keep bind]. eexists. split; [reflexivity|]. now apply put_err.
  Qed.
  Lemma swap_unknown a sid ids (Psi : nstate) q1 q2 : holds a sid ids Psi -> ids <> [] -> (q1 < 256)%N -> (q2 < 256)%N -> ~ In q1 ids \/ ~ In q2 ids ->
    exists a', api_swap sid q1 q2 a = Ret a' /\ holds a' sid ids Psi /\ only_error sid a a'.
  Proof.
    intros H NE L1 L2 X.
    assert (Y : exists s Q m, nth_error (a_slots a) (N.to_nat sid) = Some s /\ sl_sim s = Some (Q, m) /\ (shard_id m q1 <? s_n Q)%N && (shard_id m q2 <? s_n Q)%N = false).
    { destruct X as [X|X]; [destruct (shard_none a sid ids Psi q1 H NE L1 X) as (s & Q & m & E1 & E2 & E3 & E4 & _)|destruct (shard_none a sid ids Psi q2 H NE L2 X) as (s & Q & m & E1 & E2 & E3 & E4 & _)];
      exists s, Q, m; split; auto; split; auto; rewrite E3; assert (F : (255 <? s_n Q)%N = false) by (apply N.ltb_ge; lia); rewrite F; cbn [andb]; auto using andb_false_r. }
    destruct Y as (s & Q & m & E1 & E2 & E3). unfold api_swap, on_sim. rewrite (lookup_in _ _ s) by auto. rewrite E2. unfold sim_swap. rewrite E3. cbn [keep bind]. eexists. split; [reflexivity|]. now apply put_err.
  Qed.
  Lemma prob_unknown a sid ids (Psi : nstate) q : holds a sid ids Psi -> ids <> [] -> (q < 256)%N -> ~ In q ids ->
    exists a', api_prob sid q a = Ret (None, a') /\ api_m c sid q a = Ret (None, a') /\ holds a' sid ids Psi /\ only_error sid a a'.
  Proof.
    intros H NE LT X. destruct (shard_none a sid ids Psi q H NE LT X) as (s & Q & m & E1 & E2 & E3 & E4 & _). unfold api_prob, api_m. rewrite !(lookup_in _ _ s) by auto. rewrite E2. unfold sim_m, sim_prob. rewrite E3.
    assert (F : (255 <? s_n Q)%N = false) by (apply N.ltb_ge; lia). rewrite F. cbn [bind]. eexists. split; [reflexivity|]. split; [reflexivity|]. now apply put_err.
  Qed.
  Lemma release_unknown a sid ids (Psi : nstate) q : holds a sid ids Psi -> ids <> [] -> (q < 256)%N -> ~ In q ids -> release c sid q a = Throws.
  Proof.
    intros H NE LT X. destruct (shard_none a sid ids Psi q H NE LT X) as (s & Q & m & E1 & E2 & E3 & E4 & _). unfold release. rewrite !(lookup_in _ _ s) by auto. rewrite E2. unfold sim_prob. rewrite E3.
    assert (F : (255 <? s_n Q)%N = false) by (apply N.ltb_ge; lia). now rewrite F.
  Qed.
  Lemma perm_unknown a sid ids (Psi : nstate) q l : (ac_cap c < 8)%N -> holds a sid ids Psi -> ids <> [] -> (q < 256)%N -> ~ In q ids -> In q (map fst l) -> api_perm_prob c sid l a = Undef.
  Proof.
    intros HC H NE LT X IN. destruct (shard_none a sid ids Psi q H NE LT X) as (s & Q & m & E1 & E2 & E3 & E4 & _). unfold api_perm_prob. rewrite !(lookup_in _ _ s) by auto. rewrite E2.
    replace (existsb (fun e => (2 ^ ac_cap c <=? shard_id m (fst e))%N) l) with true; auto. symmetry. apply in_map_iff in IN. destruct IN as (e & <- & He). apply existsb_exists. exists e. split; auto. rewrite E3. apply N.leb_le.
    transitivity (2 ^ 7)%N; [apply N.pow_le_mono_r; lia|discriminate].
  Qed.
  (** Exp and MCExp of one Pauli operator. *)
  Lemma exp_one a sid ids (Psi : nstate) b q l (cph sph hph : K) cs : ci * ci = - (1) -> sr_conj ci = - ci -> sr_conj cph = cph -> sr_conj sph = sph -> cph * cph + sph * sph = 1 ->
    no_identities l = [(b, q)] -> holds a sid ids Psi -> (forall x, In x ids -> (x < 256)%N) -> NoDup (q :: cs) -> incl (q :: cs) ids ->
    exists a', api_exp ci ch sid l cph sph hph cs a = Ret a' /\ holds a' sid ids (ngate true cs (exp_mat ci b cph sph) q Psi) /\ only_at sid a a'.
  Proof.
    intros CI CJ C1 C2 C3 NI H HI ND IN.
    assert (MB : r_mat ci b cph sph hph = exp_mat ci b cph sph).
    { assert (BI : b <> PI). { intros ->. assert (X : In (PI, q) (no_identities l)) by (rewrite NI; now left). unfold no_identities in X. apply filter_In in X. destruct X as [_ X]. discriminate. }
      destruct b; try congruence; unfold r_mat, exp_mat, pauli_mat; cbn [m00 m01 m10 m11]; apply mat_eq; try ring.
      - transitivity (- (ci * ci) * sph); [rewrite CI|]; ring. - transitivity ((ci * ci) * sph); [rewrite CI|]; ring. }
    assert (U : unitary2 (exp_mat ci b cph sph)).
    { rewrite <- MB. assert (BI : b <> PI). { intros ->. assert (X : In (PI, q) (no_identities l)) by (rewrite NI; now left). unfold no_identities in X. apply filter_In in X. destruct X as [_ X]. discriminate. }
      assert (SB : forall x y : K, x - y = x + - y) by (intros; ring). unfold unitary2, mmul, mdag, midn. destruct b; try congruence; unfold r_mat; cbn [m00 m01 m10 m11]; apply mat_eq; rewrite ?SB; rewrite ?sr_conj_add, ?conj_opp, ?sr_conj_mul, ?conj_0, ?CJ, ?C1, ?C2; try ring;
      try (transitivity (cph * cph - (ci * ci) * (sph * sph)); [ring|rewrite CI; transitivity (cph * cph + sph * sph); [ring|exact C3]]).
      all: transitivity (cph * cph + sph * sph); [ring|exact C3]. }
    destruct (step_gate a sid ids Psi true cs (exp_mat ci b cph sph) q H HI U ND IN) as (a' & A1 & A2 & A3). exists a'. split; auto. rewrite <- A1. unfold api_exp, api_gate. rewrite <- MB.
    destruct l as [|[b0 q0] l0]; [discriminate|]. rewrite NI. assert (E : w8 q = q) by (apply N.mod_small, HI, IN; now left). now rewrite E.
  Qed.
  (** Dispose of the newest qubit. *)
  Lemma dispose_newest a sid q rest (Psi : nstate) b : proper c -> holds a sid (q :: rest) Psi -> (forall x, In x (q :: rest) -> (x < 256)%N) -> ordered a sid (q :: rest) -> certainly q b Psi ->
    exists a', api_dispose c sid [q] a = Ret a' /\ holds a' sid rest (nrelease q b Psi) /\ only_at sid a a'.
  Proof.
    set (ids := q :: rest). intros (NZ & SM0 & SM1 & MX & SPL) (s & S1 & S2 & S3 & S4 & S5) HI (mo & O1 & O2) CE. unfold api_dispose, on_sim. rewrite (lookup_in _ _ s) by auto.
    assert (IN : In q ids) by now left. pose proof (some_sim s ids q _ eq_refl S3 IN) as SS. unfold map_of in O1. rewrite S1 in O1. rewrite SS. destruct (sim_of s) as [Q m] eqn:ES. cbn [fst snd] in *.
    assert (EM : mo = m) by (cbn [option_map] in O1; rewrite ES in O1; now injection O1). subst mo.
    assert (I1 := Permutation_in _ (Permutation_sym S3) IN). destruct (shard_ok _ m q S2) as (o & A1 & A2 & A3 & A4); auto.
    pose proof (O2 [] q rest eq_refl) as OP. assert (NL : s_n Q = (N.of_nat (length rest) + 1)%N). { rewrite <- (names_length _ _ S2). apply Permutation_length in S3. rewrite map_length in S3. unfold ids in S3. cbn [length] in S3. lia. }
    assert (EO : o = (s_n Q - 1)%N) by (rewrite OP in A2; injection A2 as A2; lia). destruct S2 as (S2a & S2b & S2c) eqn:ES2. clear ES2. pose proof (conj S2a (conj S2b S2c) : names (s_n Q) m) as S2'.
    assert (EB : w8 (s_n Q + (256 - w8 (N.of_nat (length [q])))) = o). { cbn [length]. change (w8 (N.of_nat 1)) with 1%N. unfold w8. change (2 ^ 8)%N with 256%N. rewrite EO. replace (s_n Q + (256 - 1))%N with (s_n Q - 1 + 1 * 256)%N by lia. rewrite N.mod_add by lia. apply N.mod_small. lia. }
    rewrite EB. cbn [swaps_to_end]. rewrite N.add_0_l, A4. unfold sim_swap. pose proof A3 as A3'. apply N.ltb_lt in A3. rewrite A3. cbn [andb bind]. unfold sim_dispose, sim_decompose. cbn [s_n s_v length].
    assert (BR : isBadBitRange o 1 (s_n Q) = false) by (rewrite isBadBitRange_ok by (change (2 ^ 8)%N with 256%N; lia); apply N.ltb_ge; lia). change (N.of_nat 1) with 1%N. rewrite BR. cbn [bind fold_left]. eexists. split; [reflexivity|].
    assert (PI : Permutation ids (q :: rest)) by reflexivity.
    assert (NW : nweight rest (fun _ => true) (nrelease q b Psi) = 1). { rewrite <- certain_sum by auto. exact S4. }
    assert (PF : Permutation (filter (fun k => negb (k =? q)%N) (map fst m)) rest). { apply perm_filter. apply (names_keys _ _ S2'). auto. }
    assert (RN : forall f, s_v Q (slice_ix o 1 (if b then 1 else 0)%N (index_of (drop_id q m) f)) = s_v Q (index_of m (upd f q b))) by (intros f; now rewrite (index_drop (s_n Q) m q o f b)).
    destruct S5 as (ph & P1 & P2). split.
    - rewrite put_eta. eapply holds_put; eauto.
      + cbn [s_n]. now apply (names_drop _ _ q o).
      + now rewrite (drop_keys m q o).
      + assert (EV : eqv (s_n Q) (fun x => s_v Q (swap_bits o o x)) (tensor_at o 1 (slice o 1 (if b then 1 else 0)%N (s_v Q)) (ket (if b then 1 else 0)%N))).
        { intros x Hx. rewrite PUnit20.swap_same. rewrite tensor_slice; auto. destruct b; cbn; lia. intros NE. destruct (index_onto _ _ S2' x Hx) as (f & F). rewrite <- F, P2. rewrite CE. ring.
          rewrite <- (index_bit m f q o (names_vals _ _ S2') A1), F. destruct (N.testbit x o) eqn:T, b; auto; exfalso; apply NE; apply N.bits_inj; intros j; rewrite tb_get_reg;
          destruct (N.ltb_spec j 1); cbn [andb]; try (replace j with 0%N by lia; rewrite N.add_0_l, T; reflexivity); destruct j as [|[p|p|]]; auto; lia. }
        destruct (SPL (s_n Q) o (if b then 1 else 0)%N _ _ A3' EV) as (ph2 & Q1 & Q2). { destruct b; lia. }
        exists (ph2 * ph). split. { rewrite anorm_mul, Q1, P1. ring. }
        intros f. cbn [s_v]. rewrite Q2. 2:{ apply index_lt. now apply (names_drop _ _ q o). }
        change (slice o 1 (if b then 1 else 0)%N (s_v Q) (index_of (drop_id q m) f)) with (s_v Q (slice_ix o 1 (if b then 1 else 0)%N (index_of (drop_id q m) f))).
        rewrite RN, P2. unfold nrelease. ring.
    - rewrite put_eta. eapply put_only; eauto.
  Qed.
End More.
