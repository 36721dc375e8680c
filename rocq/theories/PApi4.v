(** Proofs about the C interface, part 4: programs, new simulators, order of allocation, MAll, Compose. *)
From Coq Require Import NArith List Bool Lia Permutation Ring.
From Verif Require Import Bits MFunctions SpecFunctions PFunctions MParFor PParFor MKernel PKernel Amp PAmp SpecState MEngine SpecEngine PLoop PApply PGates PGates2 PCompose PProb PEngine PEngine2
  PShard2 PQCirc1 PQCirc4 PQCirc6 SpecUnit3 MQCircuit MTensor SpecApi MApi SpecApi2 PApi1 PApi2 PApi3.
Import ListNotations.
Local Open Scope N_scope.

Section Programs.
  Context {K : StarRing} (c : @acfg K).
  Local Notation nstate := ((N -> bool) -> K).
  Local Open Scope amp_scope.
  Add Ring KrDM : (sr_ring K).
  Implicit Type Psi : nstate.

  (** ** The map of a simulator *)
  Definition map_of (a : @api K) (sid : N) : option (list (N * N)) := option_map (fun s => snd (sim_of s)) (nth_error (a_slots a) (N.to_nat sid)).
  Lemma map_put a sid s s' : nth_error (a_slots a) (N.to_nat sid) = Some s -> map_of (put sid s' a) sid = Some (snd (sim_of s')).
  Proof. intros H. unfold map_of. now rewrite (put_at _ _ _ _ H). Qed.
  Lemma map_put' a sid s s' x y : nth_error (a_slots a) (N.to_nat sid) = Some s -> map_of (mkApi (set_nth (N.to_nat sid) s' (a_slots a)) x y) sid = Some (snd (sim_of s')).
  Proof. intros H. unfold map_of. cbn [a_slots]. now rewrite (set_nth_same _ _ _ _ H). Qed.
  Lemma lookup_cases {T} a sid (s : slot) (bad : out T) f : nth_error (a_slots a) (N.to_nat sid) = Some s -> lookup (K := K) sid a bad f = f s.
  Proof. apply lookup_in. Qed.
  Lemma map_on_sim a sid s f a' : nth_error (a_slots a) (N.to_nat sid) = Some s -> (forall Q m r, f Q m = Ret r -> snd r = m) -> on_sim sid f a = Ret a' -> map_of a' sid = map_of a sid.
  Proof.
    intros H1 H2 H3. unfold on_sim in H3. rewrite (lookup_in _ _ s) in H3 by auto. assert (E : map_of a sid = Some (snd (sim_of s))) by (unfold map_of; now rewrite H1).
    unfold sim_of in *. destruct (sl_sim s) as [[Q m]|] eqn:ES; [|now injection H3 as <-]. destruct (f Q m) as [r| |] eqn:EF; [| |discriminate]; injection H3 as <-; rewrite (map_put a sid s) by auto; rewrite E.
    - unfold sim_of. cbn [sl_sim]. f_equal. cbn [snd]. eauto.
    - unfold sim_of, set_err. cbn [sl_sim]. now rewrite ES.
  Qed.
  Lemma keep_map (m : list (N * N)) o r : keep (K := K) m o = Ret r -> snd r = m.
  Proof. unfold keep. destruct o; cbn [bind]; intros H; try discriminate. now injection H as <-. Qed.
  Lemma map_call a sid s k r a' : nth_error (a_slots a) (N.to_nat sid) = Some s -> api_call c sid k a = Ret (r, a') ->
    match k with
    | NAlloc q => map_of a' sid = Some (match sl_sim s with None => [(q, 0%N)] | Some (Q, m) => mset q (if (ac_max c <? s_n Q + 1)%N then 254 else w8 (w8 (s_n Q + 1) - 1))%N m end)
    | NRelease q => forall Q m, sl_sim s = Some (Q, m) -> map_of a' sid = Some (if (s_n Q =? 1)%N then [] else drop_id q m)
    | _ => map_of a' sid = map_of a sid
    end.
  Proof.
    intros H1 H2. destruct k as [q|q|want cs m q|x y|q|q]; cbn [api_call] in H2.
    - unfold unit_res, allocate in H2. rewrite (lookup_in _ _ s) in H2 by auto. destruct (sl_sim s) as [[Q m]|] eqn:ES; cbn [bind] in H2.
      + unfold sim_compose in H2. cbn [new_sim s_n] in H2. destruct (ac_max c <? s_n Q + 1)%N; cbn [bind] in H2; injection H2 as <- <-; now rewrite (map_put a sid s) by auto.
      + injection H2 as <- <-. now rewrite (map_put a sid s) by auto.
    - intros Q m ES. unfold release in H2. rewrite (lookup_in _ _ s) in H2 by auto. rewrite ES in H2. destruct (sim_prob (shard_id m q) Q); cbn [bind] in H2; try discriminate.
      destruct (s_n Q =? 1)%N; cbn [bind] in H2. { injection H2 as <- <-. now rewrite (map_put a sid s) by auto. }
      destruct (sim_dispose c match mfind q m with Some o => o | None => 0%N end 1 Q); cbn [bind] in H2; try discriminate. injection H2 as <- <-. now rewrite (map_put a sid s) by auto.
    - unfold unit_res in H2. destruct (api_gate sid want cs m q a) eqn:E; cbn [bind] in H2; try discriminate. injection H2 as <- <-. eapply map_on_sim; [apply H1| |apply E]. intros Q' m' r' X. apply (keep_map _ _ _ X).
    - unfold unit_res in H2. destruct (api_swap sid x y a) eqn:E; cbn [bind] in H2; try discriminate. injection H2 as <- <-. eapply map_on_sim; [apply H1| |apply E]. intros Q' m' r' X. apply (keep_map _ _ _ X).
    - destruct (api_m c sid q a) as [[b a1]| |] eqn:E; cbn [bind] in H2; try discriminate. injection H2 as <- <-. unfold api_m in E. rewrite (lookup_in _ _ s) in E by auto. assert (EM : map_of a sid = Some (snd (sim_of s))) by (unfold map_of; now rewrite H1).
      unfold sim_of in EM. destruct (sl_sim s) as [[Q m]|] eqn:ES; [|now injection E as <- <-]. destruct (sim_m c (shard_id m q) (a_draw a) Q) as [[[r Q'] d]| |]; try discriminate; injection E as <- <-.
      + rewrite (map_put' a sid s) by auto. rewrite EM. reflexivity.
      + rewrite (map_put a sid s) by auto. rewrite EM. unfold sim_of, set_err. cbn [sl_sim]. now rewrite ES.
    - destruct (api_prob sid q a) as [[b a1]| |] eqn:E; cbn [bind] in H2; try discriminate. injection H2 as <- <-. unfold api_prob in E. rewrite (lookup_in _ _ s) in E by auto. assert (EM : map_of a sid = Some (snd (sim_of s))) by (unfold map_of; now rewrite H1).
      unfold sim_of in EM. destruct (sl_sim s) as [[Q m]|] eqn:ES; [|now injection E as <- <-]. destruct (sim_prob (shard_id m q) Q); try discriminate; injection E as <- <-; auto.
      rewrite (map_put a sid s) by auto. rewrite EM. unfold sim_of, set_err. cbn [sl_sim]. now rewrite ES.
  Qed.

  (** ** Programs *)
  Lemma one_call a sid ids Psi k : proper c -> holds a sid ids Psi -> (forall q, In q ids -> (q < 256)%N) -> allowed 256 (ac_max c) ids Psi k ->
    exists r a' ids' Psi', api_call c sid k a = Ret (r, a') /\ nstep ids Psi k r ids' Psi' /\ holds a' sid ids' Psi' /\ only_at sid a a' /\ (forall q, In q ids' -> (q < 256)%N).
  Proof.
    intros PR H HI AL. pose proof PR as (NZ & SM0 & SM1 & MX & SPL). assert (N10 : (1 : K) <> 0) by (intros E; rewrite E in SM1; congruence).
    destruct k as [q|q|want cs m q|x y|q|q]; cbn [allowed] in AL; cbn [api_call].
    - destruct AL as (A1 & A2 & A3). destruct (step_alloc c a sid ids Psi q) as (a' & E & X1 & X2); auto. unfold unit_res. rewrite E. cbn [bind].
      exists RNone, a', (q :: ids), (nalloc q Psi). split; auto. split; [constructor|]. split; auto. split; auto. intros z [<-|Hz]; auto.
    - destruct AL as (A1 & b & A2). destruct (step_release c a sid ids Psi q b) as (a' & l1 & l2 & E & -> & X1 & X2); auto. rewrite E. cbn [bind].
      exists (RBit (negb b)), a', (l1 ++ l2), (nrelease q b Psi). split; auto. split; [now constructor|]. split; auto. split; auto. intros z Hz. apply HI. apply in_app_iff. apply in_app_iff in Hz. cbn [In]. tauto.
    - destruct AL as (A1 & A2 & A3). destruct (step_gate a sid ids Psi want cs m q) as (a' & E & X1 & X2); auto. unfold unit_res. rewrite E. cbn [bind].
      exists RNone, a', ids, (ngate want cs m q Psi). split; auto. split; [constructor|]. auto.
    - destruct AL as (A1 & A2). destruct (step_swap a sid ids Psi x y) as (a' & E & X1 & X2); auto. unfold unit_res. rewrite E. cbn [bind].
      exists RNone, a', ids, (nswap x y Psi). split; auto. split; [constructor|]. auto.
    - destruct (step_m c a sid ids Psi q) as (r & g & a' & E & X1 & X2 & X3 & X4); auto. rewrite E. cbn [bind].
      exists (RBit r), a', ids, (nproject q r g Psi). split; auto. split; [now constructor|]. auto.
    - rewrite (step_prob a sid ids Psi q) by auto. cbn [bind]. exists (RVal (nchance ids q true Psi)), a, ids, Psi. split; auto. split; [constructor|]. split; auto. split; auto. apply only_refl.
  Qed.
  Lemma holds_slot a sid ids Psi : holds (K := K) a sid ids Psi -> exists s, nth_error (a_slots a) (N.to_nat sid) = Some s.
  Proof. intros (s & H & _). eauto. Qed.
  Lemma calls_ok l : forall a sid ids Psi, proper c -> holds a sid ids Psi -> (forall q, In q ids -> (q < 256)%N) -> allowed_all 256 (ac_max c) l ids Psi ->
    exists rs a' ids' Psi', api_calls c sid l a = Ret (rs, a') /\ nsteps ids Psi l rs ids' Psi' /\ holds a' sid ids' Psi' /\ only_at sid a a' /\ (forall q, In q ids' -> (q < 256)%N).
  Proof.
    induction l as [|k t IH]; intros a sid ids Psi PR H HI AL.
    - exists [], a, ids, Psi. split; auto. split; [constructor|]. split; auto. split; auto. apply only_refl.
    - destruct AL as [A1 A2]. destruct (one_call a sid ids Psi k PR H HI A1) as (r & a1 & ids1 & Psi1 & E1 & S1 & H1 & O1 & I1).
      destruct (IH a1 sid ids1 Psi1 PR H1 I1 (A2 _ _ _ S1)) as (rs & a2 & ids2 & Psi2 & E2 & S2 & H2 & O2 & I2).
      exists (r :: rs), a2, ids2, Psi2. cbn [api_calls]. rewrite E1. cbn [bind]. rewrite E2. cbn [bind]. split; auto. split; [econstructor; eauto|]. split; auto. split; auto.
      eapply only_trans; eauto. eapply holds_slot; eauto.
  Qed.

  (** ** New simulators *)
  Lemma fill_fst n : map fst (fill n) = iota 0 (N.to_nat n).
  Proof. unfold fill. rewrite map_map. apply map_id. Qed.
  Lemma fill_snd n : map snd (fill n) = iota 0 (N.to_nat n).
  Proof. unfold fill. rewrite map_map. apply map_id. Qed.
  Lemma fill_names n : (n < 256)%N -> names n (fill n).
  Proof. intros H. split; [rewrite fill_fst; apply srt_iota|]. split; [|auto]. rewrite fill_snd, upto_iota. apply Permutation_refl. Qed.
  Lemma index_eq n m ids f g : names n m -> Permutation (map fst m) ids -> (index_of m f =? index_of m g)%N = forallb (fun q => eqb (f q) (g q)) ids.
  Proof.
    intros H1 H2. apply eq_true_iff_eq. rewrite N.eqb_eq, forallb_forall. split.
    - intros E q Hq. eapply Permutation_in in Hq; [|apply Permutation_sym; apply H2]. destruct (names_pos _ _ H1 q Hq) as (v & V & _). apply eqb_true_iff.
      rewrite <- (index_bit m f q v), <- (index_bit m g q v), E; auto; apply (names_vals _ _ H1).
    - intros H. apply index_ext. intros k Hk. apply eqb_prop. apply H. eapply Permutation_in; eauto.
  Qed.
  Lemma ket_named n m ids g f : names n m -> Permutation (map fst m) ids -> ket (index_of m g) (index_of m f) = nket ids g f :> K.
  Proof. intros H1 H2. unfold ket, nket. now rewrite (index_eq n m ids f g). Qed.
  Lemma ket_weight n m ids g : names n m -> Permutation (map fst m) ids -> nweight ids (fun _ => true) (nket ids g : nstate) = 1.
  Proof.
    intros H1 H2. rewrite <- (norm_named n m ids (ket (index_of m g)) (nket ids g)); auto.
    - change (norm2 n (ket (index_of m g) : N -> K)) with (weight_of n (fun _ => true) (ket (index_of m g) : N -> K)). rewrite weight_ket; auto. now apply index_lt.
    - intros f. f_equal. now apply (ket_named n).
  Qed.
  Lemma zero_ket ids f : nzero ids f = nket ids (fun _ => false) f :> K.
  Proof. unfold nzero, nket. induction ids as [|q t IH]; cbn [forallb]; auto. Qed.
  Lemma index_none m : index_of m (fun _ => false) = 0%N.
  Proof. induction m as [|[k v] t IH]; auto. Qed.
  Lemma ket_reads n m ids g : names n m -> Permutation (map fst m) ids -> reads_named (mkSim n (ket (index_of m g))) m (nket ids g : nstate).
  Proof. intros H1 H2. exists 1. split. { unfold anorm. rewrite conj_1. ring. } intros f. cbn [s_v]. rewrite (ket_named n m ids g f) by auto. ring. Qed.
  Lemma nket_zero_ext ids P : nweight ids P (nzero ids : nstate) = nweight ids P (nket ids (fun _ => false)).
  Proof. apply nweight_ext. intros f. now rewrite zero_ket. Qed.
  Lemma free_bound (l : list (@slot K)) i : (free_slot l i <= i + N.of_nat (length l))%N.
  Proof. revert i. induction l as [|s t IH]; intros i; cbn [free_slot length]; [lia|]. destruct (sl_res s); [specialize (IH (i + 1)%N)|]; lia. Qed.
  Lemma free_above (l : list (@slot K)) i : (i <= free_slot l i)%N.
  Proof. revert i. induction l as [|s t IH]; intros i; cbn [free_slot length]; [lia|]. destruct (sl_res s); [specialize (IH (i + 1)%N)|]; lia. Qed.
  Lemma free_is_free (l : list (@slot K)) i : forall s, nth_error l (N.to_nat (free_slot l i - i)) = Some s -> sl_res s = false.
  Proof.
    revert i. induction l as [|s t IH]; intros i r; cbn [free_slot]; [intros H; destruct (N.to_nat (i - i)); discriminate|]. destruct (sl_res s) eqn:E.
    - specialize (IH (i + 1)%N r). pose proof (free_above t (i + 1)). replace (N.to_nat (free_slot t (i + 1) - i)) with (S (N.to_nat (free_slot t (i + 1) - (i + 1)))) by lia. auto.
    - rewrite N.sub_diag. cbn. intros H. injection H as <-. auto.
  Qed.
  (** The new simulator gets an ID that is not in use; the others stay. *)
  Lemma install_at x a : let (sid, a') := install (K := K) x a in
    nth_error (a_slots a') (N.to_nat sid) = Some (mkSlot true x 0) /\ a_meta a' = a_meta a /\ (forall i, i <> N.to_nat sid -> nth_error (a_slots a') i = nth_error (a_slots a) i) /\
    (forall s, nth_error (a_slots a) (N.to_nat sid) = Some s -> sl_res s = false).
  Proof.
    unfold install. pose proof (free_bound (a_slots a) 0) as B. pose proof (free_is_free (a_slots a) 0) as F. rewrite N.sub_0_r in F. set (sid := free_slot (a_slots a) 0) in *. unfold count.
    destruct (N.eqb_spec sid (N.of_nat (length (a_slots a)))) as [E|E]; cbn [a_slots a_meta].
    - rewrite E, Nnat.Nat2N.id. split; [rewrite nth_error_app2, PeanoNat.Nat.sub_diag by auto; reflexivity|]. split; auto. split.
      + intros i Hi. destruct (PeanoNat.Nat.lt_ge_cases i (length (a_slots a))); [now apply nth_error_app1|].
        rewrite nth_error_app2 by auto. assert (N1 : nth_error (a_slots a) i = None) by (apply nth_error_None; auto). rewrite N1. apply nth_error_None. cbn [length]. lia.
      + intros s Hs. exfalso. assert (nth_error (a_slots a) (length (a_slots a)) = None) by (apply nth_error_None; auto). congruence.
    - assert (X : exists s, nth_error (a_slots a) (N.to_nat sid) = Some s). { destruct (nth_error (a_slots a) (N.to_nat sid)) eqn:Z; [eauto|]. apply nth_error_None in Z. lia. }
      destruct X as (s & X). split; [eapply put_at; eauto|]. split; auto. split; [|auto]. intros i Hi. cbn [put a_slots]. now apply set_nth_other.
  Qed.
  Lemma first_perm n : Permutation (map fst (fill n)) (first_ids n).
  Proof. rewrite fill_fst. unfold first_ids. rewrite upto_iota. apply Permutation_rev. Qed.
  Lemma init_holds n a : (n < 256)%N -> let (sid, a') := init_count n a in holds a' sid (first_ids n) (nzero (first_ids n) : nstate).
  Proof.
    intros Hn. unfold init_count. pose proof (install_at (if (n =? 0)%N then None else Some (new_sim n, fill n)) a) as I. destruct (install _ a) as [sid a']. destruct I as (I & _).
    assert (W : nweight (first_ids n) (fun _ => true) (nzero (first_ids n) : nstate) = 1).
    { rewrite nket_zero_ext. apply (ket_weight n (fill n)); [now apply fill_names|]. apply first_perm. }
    assert (R : reads_named (mkSim n (ket 0)) (fill n) (nzero (first_ids n) : nstate)).
    { destruct (ket_reads n (fill n) (first_ids n) (fun _ => false)) as (ph & P1 & P2); [now apply fill_names| |]. apply first_perm.
      rewrite index_none in P2. exists ph. split; [exact P1|]. exact P2. }
    eexists. split; [apply I|]. unfold sim_of. cbn [sl_sim]. destruct (N.eqb_spec n 0) as [->|NE].
    - cbn [fst snd s_n]. split; [apply (fill_names 0); reflexivity|]. split; [constructor|]. auto.
    - cbn [fst snd s_n new_sim]. split; [now apply fill_names|]. split; [apply first_perm|]. auto.
  Qed.

  (** ** Order of allocation *)
  (** The qubit at position [length l2] of the simulator is the one allocated after [l2]. *)
  Definition in_order (m : list (N * N)) (ids : list N) : Prop := forall l1 q l2, ids = l1 ++ q :: l2 -> mfind q m = Some (N.of_nat (length l2)).
  Lemma order_new m ids q : ~ In q ids -> in_order m ids -> in_order (mset q (N.of_nat (length ids)) m) (q :: ids).
  Proof.
    intros H1 H2 [|a l1] x l2 E; cbn [app] in E; injection E as E1 E2.
    - subst. now rewrite mfind_mset, N.eqb_refl.
    - subst. rewrite mfind_mset. destruct (N.eqb_spec x a); [|now apply (H2 l1)]. subst. exfalso. apply H1. apply in_app_iff. right. now left.
  Qed.
  Lemma order_drop m l1 q l2 : NoDup (l1 ++ q :: l2) -> in_order m (l1 ++ q :: l2) -> in_order (drop_id q m) (l1 ++ l2).
  Proof.
    intros ND H k1 x k2 E. assert (Q := H l1 q l2 eq_refl). unfold drop_id. rewrite Q. rewrite mfind_mdel.
    assert (X : In x (l1 ++ l2)) by (rewrite E; apply in_app_iff; right; now left).
    assert (x <> q). { intros ->. apply NoDup_remove_2 in ND. auto. } destruct (N.eqb_spec x q); [congruence|].
    assert (G : forall o (m : list (N * N)), mfind x (close_gap o m) = option_map (fun w => if (o <? w)%N then (w - 1)%N else w) (mfind x m)).
    { intros o m0. unfold close_gap. induction m0 as [|[a w] t IH]; cbn [map mfind fst snd]; auto. destruct (x =? a)%N; auto. }
    rewrite G. clear G. revert k1 k2 E. assert (AX : forall (l1 k1 : list N) l2 k2, l1 ++ l2 = k1 ++ x :: k2 -> (exists z, l1 = k1 ++ x :: z /\ k2 = z ++ l2) \/ (exists z, k1 = l1 ++ z /\ l2 = z ++ x :: k2)).
    { clear. induction l1 as [|a t IH]; intros k1 l2 k2 E; cbn [app] in E.
      - right. exists k1. auto.
      - destruct k1 as [|b k1]; cbn [app] in E; injection E as -> E. { left. exists t. auto. }
        destruct (IH _ _ _ E) as [(z & -> & ->)|(z & -> & ->)]; [left; exists z|right; exists z]; auto. }
    intros k1 k2 E. apply AX in E. destruct E as [(z & -> & ->)|(z & -> & ->)].
    - rewrite (H k1 x (z ++ q :: l2)) by (now rewrite <- app_assoc). cbn [option_map]. f_equal. rewrite !app_length. cbn [length]. destruct (N.ltb_spec (N.of_nat (length l2)) (N.of_nat (length z + S (length l2)))); lia.
    - rewrite (H (l1 ++ q :: z) x k2) by (now rewrite <- app_assoc). cbn [option_map]. f_equal. rewrite !app_length. cbn [length]. destruct (N.ltb_spec (N.of_nat (length z + S (length k2))) (N.of_nat (length k2))); lia.
  Qed.
  Definition ordered (a : @api K) (sid : N) (ids : list N) : Prop := exists m, map_of a sid = Some m /\ in_order m ids.
  Lemma fill_order n : in_order (fill n) (first_ids n).
  Proof.
    intros l1 q l2 E. unfold first_ids in E. rewrite upto_iota in E. apply (f_equal (@rev N)) in E. rewrite rev_involutive, rev_app_distr in E. cbn [rev] in E. rewrite <- app_assoc in E. cbn [app] in E.
    assert (X : nth_error (iota 0 (N.to_nat n)) (length l2) = Some q). { rewrite E, nth_error_app2; rewrite rev_length; auto. now rewrite PeanoNat.Nat.sub_diag. }
    assert (NI : forall k a j x, nth_error (iota a k) j = Some x -> x = (a + N.of_nat j)%N). { clear. induction k as [|k IH]; intros a [|j] x H; cbn [iota nth_error] in H; try discriminate. injection H as <-; lia. apply IH in H. lia. }
    pose proof (NI _ _ _ _ X) as Q. rewrite N.add_0_l in Q. rewrite <- Q. apply In_mfind. { rewrite fill_fst. apply srt_nodup, srt_iota. }
    unfold fill. apply in_map_iff. exists q. split; auto. eapply nth_error_In; eauto.
  Qed.
  Lemma init_order n a : let (sid, a') := init_count n a in ordered a' sid (first_ids n).
  Proof.
    unfold init_count. pose proof (install_at (if (n =? 0)%N then None else Some (new_sim n, fill n)) a) as I. destruct (install _ a) as [sid a']. destruct I as (I & _).
    exists (fill n). split; [|apply fill_order]. unfold map_of. rewrite I. unfold sim_of. cbn [option_map sl_sim]. now destruct (N.eqb_spec n 0) as [->|_].
  Qed.
  Lemma order_call a sid ids Psi k r a' ids' Psi' : proper c -> holds a sid ids Psi -> allowed 256 (ac_max c) ids Psi k -> ordered a sid ids -> api_call c sid k a = Ret (r, a') -> nstep ids Psi k r ids' Psi' -> ordered a' sid ids'.
  Proof.
    intros PR (s & S1 & S2 & S3 & S4 & S5) AL (m & M1 & M2) EC ST. pose proof (map_call a sid s k r a' S1 EC) as MC.
    assert (EM : m = snd (sim_of s)) by (unfold map_of in M1; rewrite S1 in M1; cbn [option_map] in M1; congruence). pose proof PR as (_ & _ & _ & MX & _).
    assert (LEN : s_n (fst (sim_of s)) = N.of_nat (length ids)). { rewrite <- (names_length _ _ S2). apply Permutation_length in S3. rewrite map_length in S3. now rewrite S3. }
    inversion ST; subst; try (exists (snd (sim_of s)); split; [now rewrite MC|auto]; fail).
    - destruct AL as (A1 & A2 & A3). unfold sim_of in *. destruct (sl_sim s) as [[Q m]|]; cbn [fst snd] in *.
      + eexists. split; [apply MC|]. destruct (N.ltb_spec (ac_max c) (s_n Q + 1)); [lia|].
        assert (EW : w8 (w8 (s_n Q + 1) - 1) = s_n Q). { unfold w8. rewrite !N.mod_small; try lia. rewrite N.mod_small; lia. } rewrite EW, LEN. now apply order_new.
      + eexists. split; [apply MC|]. cbn [s_n] in LEN. destruct ids; [|discriminate]. intros [|? l1] x l2 E; cbn [app] in E; injection E as E1 E2; [|destruct l1; discriminate]. subst. cbn. now rewrite N.eqb_refl.
    - pose proof (some_sim s _ q _ eq_refl S3) as SS. specialize (SS ltac:(apply in_app_iff; right; now left)). destruct (sim_of s) as [Q m] eqn:ESS. cbn [fst snd] in *. specialize (MC Q m SS). eexists. split; [apply MC|].
      destruct (N.eqb_spec (s_n Q) 1) as [E1|E1].
      + intros k1 x k2 E. exfalso. rewrite E1 in LEN. rewrite app_length in LEN. cbn [length] in LEN. assert (LZ : (length (l1 ++ l2) = 0)%nat) by (rewrite app_length; lia). rewrite E, app_length in LZ. cbn [length] in LZ. lia.
      + apply order_drop; auto. eapply Permutation_NoDup; [apply S3|]. apply (names_keys _ _ S2).
  Qed.
  Lemma calls_order l : forall a sid ids Psi rs a', proper c -> holds a sid ids Psi -> (forall q, In q ids -> (q < 256)%N) -> allowed_all 256 (ac_max c) l ids Psi -> ordered a sid ids -> api_calls c sid l a = Ret (rs, a') ->
    exists ids' Psi', nsteps ids Psi l rs ids' Psi' /\ holds a' sid ids' Psi' /\ ordered a' sid ids'.
  Proof.
    induction l as [|k t IH]; intros a sid ids Psi rs a' PR H HI AL OR EC; cbn [api_calls] in EC.
    - injection EC as <- <-. exists ids, Psi. split; [constructor|]. auto.
    - destruct AL as [A1 A2]. destruct (one_call a sid ids Psi k PR H HI A1) as (r & a1 & ids1 & Psi1 & E1 & S1 & H1 & O1 & I1). rewrite E1 in EC. cbn [bind] in EC.
      destruct (api_calls c sid t a1) as [[rs1 a2]| |] eqn:E2; cbn [bind] in EC; try discriminate. injection EC as <- <-.
      pose proof (order_call a sid ids Psi k r a1 ids1 Psi1 PR H A1 OR E1 S1) as OR1.
      destruct (IH a1 sid ids1 Psi1 rs1 a2 PR H1 I1 (A2 _ _ _ S1) OR1 E2) as (ids2 & Psi2 & X1 & X2 & X3). exists ids2, Psi2. split; [econstructor; eauto|]. auto.
  Qed.

  (** ** MAll *)
  Lemma value_bits ids f j : N.testbit (value_of ids f) (N.of_nat j) = nth j (map f ids) false.
  Proof.
    revert j. induction ids as [|q t IH]; intros j; cbn [value_of map]. { destruct j; now rewrite N.bits_0. }
    replace ((if f q then 1 else 0) + 2 * value_of t f)%N with (2 * value_of t f + N.b2n (f q))%N by (destruct (f q); cbn [N.b2n]; lia).
    destruct j as [|j]. { cbn [nth]. now rewrite N.testbit_0_r. }
    rewrite Nnat.Nat2N.inj_succ, N.testbit_succ_r. apply IH.
  Qed.
  Lemma order_value n m ids f : names n m -> Permutation (map fst m) ids -> in_order m ids -> index_of m f = value_of (rev ids) f.
  Proof.
    intros H1 H2 H3. symmetry. assert (LEN : n = N.of_nat (length ids)). { rewrite <- (names_length _ _ H1). apply Permutation_length in H2. rewrite map_length in H2. now rewrite H2. }
    apply index_unique; [apply (names_vals _ _ H1)| |].
    - intros v Hv. rewrite (names_in _ _ H1) in Hv. rewrite <- (Nnat.N2Nat.id v), value_bits. apply nth_overflow. rewrite map_length, rev_length. lia.
    - intros k v Hk. assert (IK : In k ids). { eapply Permutation_in; [apply H2|]. apply in_map_iff. now exists (k, v). }
      apply in_split in IK. destruct IK as (l1 & l2 & E). pose proof (H3 l1 k l2 E) as F. rewrite (In_mfind k v m (names_keys _ _ H1) Hk) in F. injection F as ->.
      rewrite value_bits, E, rev_app_distr. cbn [rev]. rewrite <- app_assoc, map_app. rewrite app_nth2; rewrite map_length, rev_length; [|lia]. rewrite PeanoNat.Nat.sub_diag. reflexivity.
  Qed.
  Lemma mall_ok a sid ids Psi : picks_ok c -> holds a sid ids Psi -> ids <> [] -> (N.of_nat (length ids) <= 64)%N -> ordered a sid ids ->
    exists f a', api_mall c sid a = Ret (Some (value_of (rev ids) f), a') /\ Psi f <> 0 /\ holds a' sid ids (nket ids f) /\ only_at sid a a'.
  Proof.
    intros PK (s & S1 & S2 & S3 & S4 & S5) NE L64 (m0 & M1 & M2). unfold api_mall. rewrite (lookup_in _ _ s) by auto.
    assert (EM : m0 = snd (sim_of s)) by (unfold map_of in M1; rewrite S1 in M1; cbn [option_map] in M1; congruence). subst m0.
    destruct ids as [|q0 t0] eqn:EI; [congruence|]. rewrite <- EI in *. rewrite (some_sim s ids q0 _ eq_refl S3) by (rewrite EI; now left). destruct (sim_of s) as [Q m] eqn:ES. cbn [fst snd] in *.
    assert (LEN : s_n Q = N.of_nat (length ids)). { rewrite <- (names_length _ _ S2). apply Permutation_length in S3. rewrite map_length in S3. now rewrite S3. }
    assert (NM : norm2 (s_n Q) (s_v Q) = 1). { rewrite (norm_named (s_n Q) m ids (s_v Q) Psi); auto. now apply reads_anorm. }
    destruct (PK (a_draw a) (s_n Q) (s_v Q)) as [P1 P2]; [apply S2|auto|]. set (x := ac_pick c (a_draw a) (s_n Q) (s_v Q)) in *.
    destruct (index_onto _ _ S2 x P1) as (f & F). exists f. rewrite <- (order_value (s_n Q) m ids f) by auto. rewrite F.
    rewrite N.mod_small. 2:{ eapply N.lt_le_trans; [apply P1|]. apply N.pow_le_mono_r; lia. }
    eexists. split; [reflexivity|]. split; [|split].
    - intros Z. apply P2. destruct S5 as (ph & _ & R). rewrite <- F, R, Z. ring.
    - unmeta. eapply holds_put; eauto.
      + now apply (ket_weight (s_n Q) m).
      + rewrite <- F. now apply ket_reads.
    - unmeta. eapply put_only; eauto.
  Qed.
End Programs.
