(** The C interface; proofs of PropApi.v. *)
From Coq Require Import NArith ZArith List Bool Lia Ring Reals Permutation Sorted.
From Verif Require Import Bits PParFor Amp PAmp AmpC AmpC2 AmpQ8 SpecState SpecUnit3 MParFor MKernel PLoop PGates2 PCompose MQCircuit SpecQCircuit PQCirc1 MTensor PUnitMeas PParFor SpecApi MApi SpecApi2 PApi1 PApi2 PApi3 PApi4 PApi5 PApi6 PApi7 PApi8.
Import ListNotations.
Local Open Scope N_scope.

(** ** Observations *)
Definition answer {T U} (o : out (T * U)) : out T := do (r, _) <- o; Ret r.
Definition no_sims {K : StarRing} : @api K := mkApi [] 0 0.
(** The basis state of MAll: the first one with an amplitude that is not 0. *)
Definition first_state {K : StarRing} (d n : N) (v : N -> K) : N := match find (fun x => negb (sr_eqb (v x) 0%amp)) (basis n) with Some x => x | None => 0 end.
Definition cfg (K : StarRing) (cap : N) (rnd : N -> K -> bool) (small : K -> bool) (nrm : K -> K) : @acfg K := mkAC 64 cap cut rnd first_state small nrm.
Definition x_mat {K : StarRing} : mat2 K := mkMat 0%amp 1%amp 1%amp 0%amp.
Definition h_mat8 : mat2 Q8 := mkMat z_h z_h z_h (- z_h)%amp.
(** Qubits with the given IDs, allocated in this order. *)
Fixpoint alloc_all {K : StarRing} (c : @acfg K) (sid : N) (ids : list N) (a : @api K) : out (@api K) := match ids with [] => Ret a | q :: t => do a <- allocate c sid q a; alloc_all c sid t a end.
Definition val_eqb {K : StarRing} (x : K) (o : out (option K)) : bool := match o with Ret (Some y) => sr_eqb y x | _ => false end.
Lemma val_eq {K : StarRing} (x : K) o : val_eqb x o = true -> o = Ret (Some x).
Proof. destruct o as [[y|]| |]; cbn; intros H; try discriminate. apply sr_eqb_ok in H. now subst. Qed.
Fixpoint res_eqb {K : StarRing} (l : list (@nres K)) (l' : list (@nres K)) : bool :=
  match l, l' with
  | [], [] => true
  | RNone :: t, RNone :: t' => res_eqb t t'
  | RBit a :: t, RBit b :: t' => eqb a b && res_eqb t t'
  | RVal a :: t, RVal b :: t' => sr_eqb a b && res_eqb t t'
  | _, _ => false
  end.
Lemma res_eq {K : StarRing} (l : list (@nres K)) : forall l', res_eqb l l' = true -> l = l'.
Proof.
  induction l as [|r t IH]; intros [|r' t'] H; try (cbn in H; destruct r; discriminate); try discriminate; auto. cbn in H. destruct r, r'; try discriminate.
  - f_equal; auto.
  - apply andb_true_iff in H. destruct H as [H1 H2]. apply eqb_prop in H1. subst. f_equal; auto.
  - apply andb_true_iff in H. destruct H as [H1 H2]. apply sr_eqb_ok in H1. subst. f_equal; auto.
Qed.
Lemma ans_res {K : StarRing} (o : out (list (@nres K) * @api K)) l : match answer o with Ret r => res_eqb r l | _ => false end = true -> answer o = Ret l.
Proof. destruct (answer o) as [r| |]; intros H; try discriminate. now rewrite (res_eq _ _ H). Qed.
Ltac val := apply val_eq; vm_compute; reflexivity.

(** ** The configuration of the examples *)
Definition smallC (p : CC) : bool := sr_eqb p 0%amp.
Definition cfgC (cap : N) : @acfg CC := cfg CC cap (fun _ _ => true) smallC nrmC.
Lemma cc10 : (1%amp : CC) <> 0%amp.
Proof. intros E. injection E as E. exact (R1_neq_R0 E). Qed.
Lemma cfgC_proper cap : proper (cfgC cap).
Proof.
  split; [exact nrmC_ok|]. split; [now apply sr_eqb_ok|]. split. { cbn [cfgC cfg ac_small]. unfold smallC. destruct (sr_eqb (1%amp : CC) 0%amp) eqn:E; auto. apply sr_eqb_ok in E. now destruct cc10. }
  split; [reflexivity|]. intros n o b v w Ho HV Hb. exact (cut_ok n o b v w Ho HV Hb).
Qed.
Lemma cfgC_picks cap : picks_ok (cfgC cap).
Proof.
  intros d n v Hn HV. cbn [cfgC cfg ac_pick]. unfold first_state. destruct (find (fun x => negb (sr_eqb (v x) 0%amp)) (basis n)) as [x|] eqn:F.
  - apply find_some in F. destruct F as [F1 F2]. apply basis_In in F1. split; auto. intros E. rewrite E in F2. assert (Y : sr_eqb (0%amp : CC) 0%amp = true) by now apply sr_eqb_ok. rewrite Y in F2. discriminate.
  - exfalso. apply cc10. rewrite <- HV. unfold norm2. transitivity (asum (fun _ : N => 0%amp : CC) (basis n)); [|now apply asum_zero]. apply asum_ext. intros x Hx. pose proof (find_none _ _ F x Hx) as Z. cbv beta in Z. destruct (sr_eqb (v x) 0%amp) eqn:E; [|discriminate]. apply sr_eqb_ok in E. rewrite E. apply anorm_0.
Qed.
(** An entangled pair, a measurement, a new qubit that is used and released. *)
Definition ccX : mat2 CC := x_mat.
Definition ccH : mat2 CC := mkMat cc_h cc_h cc_h (- cc_h)%amp.
Definition progC : list (@ncall CC) := [NGate true [] ccH 0; NGate true [0] ccX 1; NAlloc 9; NGate false [9] ccX 2; NSwap 1 2; NM 1; NProb 0; NRelease 9].
Definition gatesC : list (@ncall CC) := [NGate true [] ccH 0; NGate true [0] ccX 1; NSwap 1 2; NM 1; NProb 0].
Lemma ccX_ok : unitary2 ccX.
Proof. unfold unitary2. apply mat2_eq; cbn; unfold c_add, c_mul, c_conj; cbn; f_equal; ring. Qed.
Lemma ccH_ok : unitary2 ccH.
Proof.
  assert (S := cc_h_ok). assert (S' : ((1 + 1) * (/ sqrt 2 * / sqrt 2) = 1)%R). { cbn in S. unfold c_mul, c_add, cc_h in S. cbn [fst snd] in S. injection S as S _. rewrite <- S at 3. ring. }
  unfold unitary2. apply mat2_eq; cbn; unfold c_add, c_mul, c_conj, c_opp; cbn; f_equal; try ring; rewrite <- S'; ring.
Qed.
Lemma allowed_cons {K : StarRing} lim mx a l ids (Psi : (N -> bool) -> K) : allowed lim mx ids Psi a -> (forall r ids' Psi', nstep ids Psi a r ids' Psi' -> allowed_all lim mx l ids' Psi') -> allowed_all lim mx (a :: l) ids Psi.
Proof. intros H1 H2. split; auto. Qed.
Ltac steps := repeat match goal with
  | |- allowed_all _ _ [] _ _ => exact I
  | |- allowed_all _ _ (_ :: _) _ _ => apply allowed_cons; [cbn [allowed]|let r := fresh "r" in let i := fresh "i" in let p := fresh "p" in let H := fresh "H" in intros r i p H; inversion H; clear H; subst]
  end.
Ltac small_in := match goal with |- In _ _ => vm_compute; tauto | |- incl _ _ => let z := fresh in let H := fresh in intros z H; vm_compute in H |- *; intuition (subst; auto; fail) | |- NoDup _ => repeat constructor; cbn; intuition discriminate end.
Lemma gatesC_ok : allowed_all 256 64 gatesC (first_ids 3) (nzero (first_ids 3)).
Proof. unfold gatesC. change (first_ids 3) with [2; 1; 0]. steps; try small_in; try (split; [first [exact ccH_ok|exact ccX_ok]|split; small_in]); try (split; small_in). Qed.
Lemma progC_ok : allowed_all 256 64 progC (first_ids 3) (nzero (first_ids 3)).
Proof.
  unfold progC. change (first_ids 3) with [2; 1; 0]. steps; try small_in; try (split; [first [exact ccH_ok|exact ccX_ok]|split; small_in]); try (split; small_in).
  - split; [reflexivity|]. split; [vm_compute; intuition discriminate|reflexivity].
  - split; [small_in|]. exists false. intros f Hf. cbn [negb] in Hf. unfold nproject, nswap. match goal with |- (if ?b then _ else _) = _ => destruct b; [|reflexivity] end. unfold ngate, nalloc, upd. cbn [forallb N.eqb Pos.eqb]. rewrite Hf. cbn. unfold c_mul. cbn. f_equal; ring.
Qed.

Lemma l_c136_programs_partial : forall (K : StarRing) (c : @acfg K), proper c -> forall n a0 l, n < 256 -> allowed_all 256 (ac_max c) l (first_ids n) (nzero (first_ids n)) -> let (sid, a1) := init_count n a0 in exists rs a ids Psi, api_calls c sid l a1 = Ret (rs, a) /\ nsteps (first_ids n) (nzero (first_ids n)) l rs ids Psi /\ holds a sid ids Psi /\ only_at sid a1 a.
Proof. intros K c PR n a0 l Hn AL. pose proof (program_ok c n a0 l PR Hn AL) as H. destruct (init_count n a0) as [sid a1]. destruct H as (rs & a & ids & Psi & H1 & H2 & H3 & H4 & H5 & H6 & H7). exists rs, a, ids, Psi. split; [exact H1|]. split; [exact H2|]. split; [exact H3|]. exact H4. Qed.

Lemma l_c136_large_refuted : forall rnd small nrm, let c := cfg GI 7 rnd small nrm in let l := [NAlloc 0; NAlloc 256; NGate true [] x_mat 256; NProb 0] in allowed_all 300 64 l [] (nzero []) /\ (forall rs ids Psi, nsteps [] (nzero []) l rs ids Psi -> rs = [RNone; RNone; RNone; RVal 0%amp]) /\ answer (api_calls c 0 l (snd (init_count 0 no_sims))) = Ret [RNone; RNone; RNone; RVal 1%amp].
Proof. intros rnd small nrm c l. subst c l. split; [|split].
  - steps; try small_in; try (split; [reflexivity|]; split; [vm_compute; intuition discriminate|reflexivity]). split; [unfold unitary2; apply mat2_eq; vm_compute; reflexivity|]. split; [repeat constructor; intros []|]. intros z [<-|[]]. now left.
  - intros rs ids Psi H. repeat match goal with X : nsteps _ _ _ _ _ _ |- _ => inversion X; clear X; subst | X : nstep _ _ _ _ _ _ |- _ => inversion X; clear X; subst end. reflexivity.
  - apply ans_res. vm_compute. reflexivity. Qed.

Lemma l_c137_new_partial : forall (K : StarRing) n (a0 : @api K), n < 256 -> let (sid, a) := init_count n a0 in holds a sid (first_ids n) (nzero (first_ids n)) /\ a_meta a = a_meta a0 /\ (forall i, i <> N.to_nat sid -> nth_error (a_slots a) i = nth_error (a_slots a0) i) /\ (forall s, nth_error (a_slots a0) (N.to_nat sid) = Some s -> sl_res s = false).
Proof. intros K n a0 Hn. pose proof (init_holds (K := K) n a0 Hn) as H. unfold init_count in *. pose proof (install_at (K := K) (if n =? 0 then None else Some (new_sim n, fill n)) a0) as J. destruct (install _ a0) as [sid a]. destruct J as (J1 & J2 & J3 & J4). auto. Qed.

Lemma l_c137_bound_refuted : forall (K : StarRing) (c : @acfg K) (a : @api K) want cs m q1 q2, (forall sid, count a < sid -> api_gate sid want cs m q1 a = Ret (meta_error a) /\ api_prob sid q1 a = Ret (None, meta_error a) /\ api_m c sid q1 a = Ret (None, meta_error a)) /\ api_gate (count a) want cs m q1 a = Undef /\ api_swap (count a) q1 q2 a = Undef /\ api_prob (count a) q1 a = Undef /\ api_m c (count a) q1 a = Undef.
Proof. intros K c a want cs m q1 q2. split.
  - intros sid H. unfold api_gate, on_sim, api_prob, api_m, lookup. apply N.ltb_lt in H. rewrite H. auto.
  - unfold api_gate, api_swap, on_sim, api_prob, api_m, lookup. rewrite N.ltb_irrefl. unfold count. rewrite Nnat.Nat2N.id. assert (E : nth_error (a_slots a) (length (a_slots a)) = None) by now apply nth_error_None. rewrite E. auto. Qed.

Lemma l_c137_reuse_refuted : forall (K : StarRing) (a : @api K) sid s n, nth_error (a_slots a) (N.to_nat sid) = Some s -> (forall i s, (i < N.to_nat sid)%nat -> nth_error (a_slots a) i = Some s -> sl_res s = true) -> exists a', destroy sid a = Ret a' /\ fst (init_count n a') = sid.
Proof. intros K a sid s n H HL. unfold destroy. rewrite H. eexists. split; [reflexivity|]. unfold init_count, install. cbn [fst put a_slots].
  assert (G : forall (l : list (@slot K)) k b x, nth_error l k = Some x -> (forall i s, (i < k)%nat -> nth_error l i = Some s -> sl_res s = true) -> free_slot (set_nth k (mkSlot false None 0) l) b = b + N.of_nat k).
  { induction l as [|y t IH]; intros [|k] b x E HR; cbn [nth_error] in E; try discriminate; unfold set_nth; cbn [firstn skipn app free_slot sl_res]; [lia|]. fold (set_nth k (mkSlot (K := K) false None 0) t). rewrite (HR 0%nat y) by (try lia; reflexivity). rewrite (IH k (b + 1) x E); [lia|]. intros i z Hi Hz. apply (HR (S i)); [lia|exact Hz]. }
  rewrite (G _ _ _ _ H HL). lia. Qed.

Lemma l_c138_clone_partial : forall (K : StarRing) (c : @acfg K), proper c -> forall n a0 l, n < 256 -> allowed_all 256 (ac_max c) l (first_ids n) (nzero (first_ids n)) -> let (sid, a1) := init_count n a0 in exists rs a ids Psi, api_calls c sid l a1 = Ret (rs, a) /\ nsteps (first_ids n) (nzero (first_ids n)) l rs ids Psi /\ holds a sid ids Psi /\ (forallb (keeps_ids (K := K)) l = true -> n <> 0 -> exists sid' a', init_clone sid a = Ret (sid', a') /\ holds a' sid' ids Psi /\ holds a' sid ids Psi /\ a_meta a' = a_meta a /\ (forall i, i <> N.to_nat sid' -> nth_error (a_slots a') i = nth_error (a_slots a) i)).
Proof. intros K c PR n a0 l Hn AL. pose proof (program_ok c n a0 l PR Hn AL) as H. pose proof (init_holds (K := K) n a0 Hn) as IH0. assert (M1 : forall sid a1, init_count n a0 = (sid, a1) -> n <> 0 -> map_of a1 sid = Some (fill n) /\ exists s, nth_error (a_slots a1) (N.to_nat sid) = Some s /\ sl_res s = true).
  { intros sid a1 E NZ. unfold init_count in E. pose proof (install_at (K := K) (if n =? 0 then None else Some (new_sim n, fill n)) a0) as J. rewrite E in J. destruct J as (J1 & _). destruct (N.eqb_spec n 0); [contradiction|]. unfold map_of. rewrite J1. split; [reflexivity|eauto]. }
  destruct (init_count n a0) as [sid a1]. destruct H as (rs & a & ids & Psi & H1 & H2 & H3 & H4 & H5 & H6 & H7). exists rs, a, ids, Psi. split; [exact H1|]. split; [exact H2|]. split; [exact H3|]. intros KI NZ. destruct (M1 sid a1 eq_refl NZ) as (M2 & s1 & M3 & M4). specialize (H7 KI). rewrite M2 in H7.
  assert (NE : ids <> []). { intros ->. destruct H3 as (s & S1 & S2 & S3 & _). unfold map_of in H7. rewrite S1 in H7. cbn [option_map] in H7. injection H7 as H7. rewrite H7 in S3. apply Permutation_length in S3. unfold fill in S3. rewrite !map_length, iota_length in S3. cbn [length] in S3. lia. }
  destruct (clone_ok a sid ids Psi n H3 NE H7) as (sid' & a' & C1 & C2 & C3 & C4 & C5). exists sid', a'. split; [exact C1|]. split; [exact C2|]. split; [|auto].
  assert (D : N.to_nat sid <> N.to_nat sid'). { intros D. destruct H3 as (s & S1 & _). destruct H4 as (_ & _ & _ & O). destruct (O s1 s M3 S1) as (_ & R). rewrite D in S1. specialize (C5 s S1). congruence. }
  destruct H3 as (s & S1 & S2). exists s. rewrite C4 by exact D. auto. Qed.

Lemma l_c138_clone_refuted : forall rnd small nrm, let c := cfg GI 7 rnd small nrm in let run f := answer (let (s, a) := init_count 0 no_sims in do a <- alloc_all c s [1; 0] a; do a <- api_gate s true [] x_mat 0 a; do (s2, a) <- init_clone s a; f s s2 a) in run (fun s _ => api_prob s 0) = Ret (Some 1%amp) /\ run (fun s _ => api_prob s 1) = Ret (Some 0%amp) /\ run (fun _ s => api_prob s 0) = Ret (Some 0%amp) /\ run (fun _ s => api_prob s 1) = Ret (Some 1%amp).
Proof. intros rnd small nrm. cbv zeta. repeat split; val. Qed.

Lemma l_c139_dispose_refuted : forall rnd small nrm, let c := cfg GI 7 rnd small nrm in let run f := answer (let (s, a) := init_count 3 no_sims in do a <- api_gate s true [] x_mat 1 a; do a <- f s a; do (p1, a) <- api_prob s 1 a; do (p2, a) <- api_prob s 2 a; Ret ((p1, p2), a)) in run (fun s a => Ret a) = Ret (Some 1%amp, Some 0%amp) /\ run (fun s => api_dispose c s [0]) = Ret (Some 0%amp, Some 1%amp).
Proof. intros rnd small nrm. cbv zeta. split; vm_compute; reflexivity. Qed.

Lemma l_c140_decompose_refuted : forall rnd small nrm, let c := cfg GI 7 rnd small nrm in let run f := answer (let (s, a) := init_count 3 no_sims in do a <- api_gate s true [] x_mat 1 a; do a <- f s a; do (p1, a) <- api_prob s 1 a; do (p2, a) <- api_prob s 2 a; Ret ((p1, p2), a)) in run (fun s a => Ret a) = Ret (Some 1%amp, Some 0%amp) /\ run (fun s a => do (s2, a) <- api_decompose c s [0] a; Ret a) = Ret (Some 0%amp, Some 1%amp).
Proof. intros rnd small nrm. cbv zeta. split; vm_compute; reflexivity. Qed.

Lemma l_c141_separate_refuted : forall rnd small nrm, let c := cfg GI 7 rnd small nrm in let run f := answer (let (s, a) := init_count 2 no_sims in do a <- api_gate s true [] x_mat 0 a; do a <- f s a; do (p0, a) <- api_prob s 0 a; do (p1, a) <- api_prob s 1 a; Ret ((p0, p1), a)) in run (fun s a => Ret a) = Ret (Some 1%amp, Some 0%amp) /\ run (fun s => api_separate c s [1]) = Ret (Some 0%amp, Some 1%amp).
Proof. intros rnd small nrm. cbv zeta. split; vm_compute; reflexivity. Qed.

Lemma l_c142_add_partial : forall (K : StarRing) (c : @acfg K), proper c -> ac_cap c = 6 -> forall n a0 l, n < 256 -> allowed_all 256 (ac_max c) l (first_ids n) (nzero (first_ids n)) -> let (sid, a1) := init_count n a0 in exists rs a ids Psi, api_calls c sid l a1 = Ret (rs, a) /\ nsteps (first_ids n) (nzero (first_ids n)) l rs ids Psi /\ holds a sid ids Psi /\ forall q k, q <> [] -> incl q ids -> StronglySorted (earlier ids) q -> exists a' Psi', api_add c sid [k] q a = Ret a' /\ holds a' sid ids Psi' /\ only_at sid a a' /\ forall f, Psi' (write_value q ((value_of q f + k) mod 2 ^ N.of_nat (length q)) f) = Psi f.
Proof. intros K c PR CAP n a0 l Hn AL. pose proof (program_ok c n a0 l PR Hn AL) as H. destruct (init_count n a0) as [sid a1]. destruct H as (rs & a & ids & Psi & H1 & H2 & H3 & H4 & H5 & H6 & H7). exists rs, a, ids, Psi. split; [exact H1|]. split; [exact H2|]. split; [exact H3|]. intros q k NE IN SO. destruct H6 as (m & M1 & M2). apply (add_ok c a sid ids Psi H3 H5 q k); auto. exists m. split; auto. eapply order_ascends; eauto. Qed.

Lemma l_c142_hash_partial : forall (K : StarRing) (c : @acfg K), proper c -> forall n a0 l, n < 256 -> allowed_all 256 (ac_max c) l (first_ids n) (nzero (first_ids n)) -> let (sid, a1) := init_count n a0 in exists rs a ids Psi, api_calls c sid l a1 = Ret (rs, a) /\ nsteps (first_ids n) (nzero (first_ids n)) l rs ids Psi /\ holds a sid ids Psi /\ forall q t, q <> [] -> incl q ids -> StronglySorted (earlier ids) q -> (forall v, v < 2 ^ N.of_nat (length q) -> t v < 2 ^ N.of_nat (length q)) -> (forall v w, v < 2 ^ N.of_nat (length q) -> w < 2 ^ N.of_nat (length q) -> t v = t w -> v = w) -> exists a' Psi', api_hash sid q t a = Ret a' /\ holds a' sid ids Psi' /\ only_at sid a a' /\ forall f, Psi' (write_value q (t (value_of q f)) f) = Psi f.
Proof. intros K c PR n a0 l Hn AL. pose proof (program_ok c n a0 l PR Hn AL) as H. destruct (init_count n a0) as [sid a1]. destruct H as (rs & a & ids & Psi & H1 & H2 & H3 & H4 & H5 & H6 & H7). exists rs, a, ids, Psi. split; [exact H1|]. split; [exact H2|]. split; [exact H3|]. intros q t NE IN SO T1 T2. destruct H6 as (m & M1 & M2). apply (hash_ok a sid ids Psi H3 H5 q t); auto. exists m. split; auto. eapply order_ascends; eauto. Qed.

Lemma l_c142_order_refuted : forall rnd small nrm, let c := cfg GI 6 rnd small nrm in let run f := answer (let (s, a) := init_count 2 no_sims in do a <- f s a; do (p0, a) <- api_prob s 0 a; do (p1, a) <- api_prob s 1 a; Ret ((p0, p1), a)) in run (fun s => api_add c s [1] [0; 1]) = Ret (Some 1%amp, Some 0%amp) /\ run (fun s => api_add c s [1] [1; 0]) = Ret (Some 1%amp, Some 0%amp) /\ run (fun s => api_hash s [1; 0] (N.lxor 1)) = Ret (Some 1%amp, Some 0%amp).
Proof. intros rnd small nrm. cbv zeta. repeat split; vm_compute; reflexivity. Qed.

Lemma l_c142_wide_refuted : forall (K : StarRing) (c : @acfg K) a sid ids Psi k q, ac_cap c = 7 -> holds a sid ids Psi -> ids <> [] -> api_add c sid [k] q a = Undef.
Proof. intros K c a sid ids Psi k q CAP H NE. destruct ids as [|x t] eqn:E; [congruence|]. rewrite <- E in *. destruct (open_call a sid ids Psi H x) as (s & Q & m & S1 & S2 & _). { rewrite E. now left. } unfold api_add, on_sim. rewrite (lookup_in _ _ s) by exact S1. rewrite S2. unfold combine_a. rewrite CAP. reflexivity. Qed.

Lemma l_c143_mul_refuted : forall rnd small nrm, let c := cfg GI 6 rnd small nrm in let run f := answer (let (s, a) := init_count 4 no_sims in do a <- api_gate s true [] x_mat 0 a; do a <- f s a; do (p0, a) <- api_prob s 0 a; do (p1, a) <- api_prob s 1 a; do (p2, a) <- api_prob s 2 a; do (p3, a) <- api_prob s 3 a; Ret ((p0, p1, p2, p3), a)) in run (fun s => api_mul c s [3] [0; 1] [2; 3]) = Ret (Some 1%amp, Some 1%amp, Some 0%amp, Some 0%amp) /\ run (fun s => api_mul c s [3] [0; 2] [1; 3]) = Ret (Some 1%amp, Some 1%amp, Some 0%amp, Some 0%amp).
Proof. intros rnd small nrm. cbv zeta. split; vm_compute; reflexivity. Qed.

Lemma l_c144_lda_partial : forall (K : StarRing) (c : @acfg K), proper c -> forall n a0 l, n < 256 -> allowed_all 256 (ac_max c) l (first_ids n) (nzero (first_ids n)) -> let (sid, a1) := init_count n a0 in exists rs a ids Psi, api_calls c sid l a1 = Ret (rs, a) /\ nsteps (first_ids n) (nzero (first_ids n)) l rs ids Psi /\ holds a sid ids Psi /\ forall qi qv t, qi <> [] -> qv <> [] -> incl (qi ++ qv) ids -> StronglySorted (earlier ids) (qi ++ qv) -> (forall v, v < 2 ^ N.of_nat (length qi) -> t v < 2 ^ N.of_nat (length qv)) -> (forall f, value_of qv f <> 0 -> Psi f = 0%amp) -> exists a', api_lda sid qi qv t a = Ret a' /\ holds a' sid ids (fun f => if value_of qv f =? t (value_of qi f) then Psi (write_value qv 0 f) else 0%amp) /\ only_at sid a a'.
Proof. intros K c PR n a0 l Hn AL. pose proof (program_ok c n a0 l PR Hn AL) as H. destruct (init_count n a0) as [sid a1]. destruct H as (rs & a & ids & Psi & H1 & H2 & H3 & H4 & H5 & H6 & H7). exists rs, a, ids, Psi. split; [exact H1|]. split; [exact H2|]. split; [exact H3|]. intros qi qv t NE1 NE2 IN SO TB CL. destruct H6 as (m & M1 & M2). apply (lda_ok a sid ids Psi H3 H5 qi qv t); auto. exists m. split; auto. eapply order_ascends; eauto. Qed.

Lemma l_c144_lda_refuted : let run f := answer (let (s, a) := init_count (K := GI) 4 no_sims in do a <- api_gate s true [] x_mat 0 a; do a <- f s a; do (p0, a) <- api_prob s 0 a; do (p1, a) <- api_prob s 1 a; do (p2, a) <- api_prob s 2 a; do (p3, a) <- api_prob s 3 a; Ret ((p0, p1, p2, p3), a)) in run (fun s => api_lda s [0; 1] [2; 3] (fun v => v)) = Ret (Some 1%amp, Some 0%amp, Some 1%amp, Some 0%amp) /\ run (fun s => api_lda s [0; 2] [1; 3] (fun v => v)) = Ret (Some 1%amp, Some 0%amp, Some 1%amp, Some 0%amp).
Proof. cbv zeta. split; vm_compute; reflexivity. Qed.

Lemma l_c145_mask_refuted : forall rnd small nrm, let c := cfg Q8 7 rnd small nrm in let run ids := answer (let (s, a) := init_count 0 no_sims in do a <- alloc_all c s ids a; do a <- api_exp z_i z_h s [(PX, 2); (PX, 0)] 0%amp 1%amp (z_h - z_i * z_h)%amp [] a; api_prob s 0 a) in run [0; 1; 2] = Ret (Some 1%amp) /\ run [2; 0; 1] = Ret (Some 0%amp).
Proof. intros rnd small nrm. cbv zeta. split; val. Qed.

Lemma l_c145_identity_refuted : forall rnd small nrm, let c := cfg Q8 7 rnd small nrm in let run f := answer (let (s, a) := init_count 2 no_sims in do a <- api_gate s true [] h_mat8 0 a; do a <- f s a; do a <- f s a; do a <- api_gate s true [] h_mat8 0 a; api_prob s 0 a) in run (fun s => api_gate s true [0] (mkMat z_i 0 0 z_i)%amp 1) = Ret (Some 1%amp) /\ run (fun s => api_exp z_i z_h s [(PI, 1)] 0%amp 1%amp (z_h - z_i * z_h)%amp [0]) = Ret (Some (z_h * z_h)%amp).
Proof. intros rnd small nrm. cbv zeta. split; val. Qed.

Lemma l_c146_sorted_partial : forall (K : StarRing) (m : mat2 K) cs q p psi x, StronglySorted N.lt cs -> (forall z, In z (q :: cs) -> z < 256) -> p < 2 ^ N.of_nat (length cs) -> effect (mc_gate m cs q p) psi x = gate1 (fun y => ctrl_value 0 cs y =? p) q m psi x.
Proof. intros K m cs q p psi x H1 H2 H3. now apply mc_sorted. Qed.

Lemma l_c146_two_partial : forall (K : StarRing) (m : mat2 K) a b q p psi x, a <> b -> (forall z, In z [q; a; b] -> z < 256) -> p < 4 -> effect (mc_gate m [a; b] q p) psi x = gate1 (fun y => ctrl_value 0 [a; b] y =? p) q m psi x.
Proof. intros K m a b q p psi x H1 H2 H3. now apply mc_two. Qed.

Lemma l_c146_three_refuted : let psi := effect (mc_gate (K := GI) x_mat [2; 0; 1] 3 1) (ket 4) in let phi := gate1 (K := GI) (fun y => ctrl_value 0 [2; 0; 1] y =? 1) 3 x_mat (ket 4) in psi 12 = 0%amp /\ phi 12 = 1%amp /\ psi 4 = 1%amp /\ phi 4 = 0%amp.
Proof. cbv zeta. repeat split; vm_compute; reflexivity. Qed.

Lemma l_c147_mall_partial : forall (K : StarRing) (c : @acfg K), proper c -> picks_ok c -> forall n a0 l, n < 256 -> allowed_all 256 (ac_max c) l (first_ids n) (nzero (first_ids n)) -> let (sid, a1) := init_count n a0 in exists rs a ids Psi, api_calls c sid l a1 = Ret (rs, a) /\ nsteps (first_ids n) (nzero (first_ids n)) l rs ids Psi /\ holds a sid ids Psi /\ (ids <> [] -> N.of_nat (length ids) <= 64 -> exists f a', api_mall c sid a = Ret (Some (value_of (rev ids) f), a') /\ Psi f <> 0%amp /\ holds a' sid ids (nket ids f) /\ only_at sid a a').
Proof. intros K c PR PK n a0 l Hn AL. pose proof (program_ok c n a0 l PR Hn AL) as H. destruct (init_count n a0) as [sid a1]. destruct H as (rs & a & ids & Psi & H1 & H2 & H3 & H4 & H5 & H6 & H7). exists rs, a, ids, Psi. split; [exact H1|]. split; [exact H2|]. split; [exact H3|]. intros NE L64. exact (mall_ok c a sid ids Psi PK H3 NE L64 H6). Qed.

Lemma l_c147_mall_refuted : forall rnd small nrm, let c := cfg GI 7 rnd small nrm in let run f := answer (let (s, a) := init_count 3 no_sims in do a <- f s a; do a <- api_gate s true [] x_mat 1 a; api_mall c s a) in run (fun s a => Ret a) = Ret (Some 2) /\ run (fun s => api_hash s [0; 2] (fun v => v)) = Ret (Some 4).
Proof. intros rnd small nrm. cbv zeta. split; vm_compute; reflexivity. Qed.

Lemma l_c148_compose : forall (K : StarRing) (c : @acfg K), proper c -> forall sid1 ids1 Psi1 a0 s1, holds a0 sid1 ids1 Psi1 -> ids1 <> [] -> nth_error (a_slots a0) (N.to_nat sid1) = Some s1 -> sl_res s1 = true -> forall n l, n < 256 -> allowed_all 256 (ac_max c) l (first_ids n) (nzero (first_ids n)) -> let (sid2, a1) := init_count n a0 in exists rs a ids2 Psi2, api_calls c sid2 l a1 = Ret (rs, a) /\ nsteps (first_ids n) (nzero (first_ids n)) l rs ids2 Psi2 /\ forall q, ids2 <> [] -> length q = length ids2 -> NoDup q -> (forall x, In x q -> ~ In x ids1) -> N.of_nat (length ids1) + N.of_nat (length ids2) <= ac_max c -> exists a', api_compose c sid1 sid2 q a = Ret a' /\ holds a' sid1 (rev q ++ ids1) (nboth Psi1 (fun f => Psi2 (rename (rev ids2) q f))) /\ holds a' sid2 ids2 Psi2 /\ only_at sid1 a a'.
Proof. intros K c PR sid1 ids1 Psi1 a0 s1 HH NE1 SL RS n l Hn AL. pose proof (program_ok c n a0 l PR Hn AL) as H. unfold init_count in *. pose proof (install_at (K := K) (if n =? 0 then None else Some (new_sim n, fill n)) a0) as J. destruct (install _ a0) as [sid a1]. destruct J as (J1 & J2 & J3 & J4).
  assert (D : N.to_nat sid1 <> N.to_nat sid). { intros D. rewrite D in SL. specialize (J4 s1 SL). congruence. }
  destruct H as (rs & a & ids & Psi & H1 & H2 & H3 & H4 & H5 & H6 & _). exists rs, a, ids, Psi. split; [exact H1|]. split; [exact H2|]. intros q NE2 LQ ND HF HM.
  assert (H1' : holds a sid1 ids1 Psi1). { destruct HH as (s & S1 & S2). exists s. destruct H4 as (_ & _ & O & _). rewrite O by exact D. rewrite J3 by exact D. auto. }
  destruct (compose_ok c a sid1 sid ids1 ids Psi1 Psi q H1' H3 NE1 NE2) as (a' & C1 & C2 & C3); auto. { intros ->. now apply D. } { apply PR. }
  exists a'. split; [exact C1|]. split; [exact C2|]. split; [|exact C3]. destruct C3 as (_ & _ & O & _). destruct H3 as (s & S1 & S2). exists s. rewrite O by (intros E; apply D; now rewrite E). auto. Qed.
