(** Property theorems C155 to C158, and more about C139, C144 and C145: the C interface. *)
From Coq Require Import NArith ZArith List Bool Sorted.
From Verif Require Import Amp AmpC AmpC2 AmpQ8 SpecState SpecUnit3 MTensor PUnitMeas SpecApi MApi SpecApi2 MApi2 SpecApi3 PApi8 PApiProp PApiProp2.
Import ListNotations.
Local Open Scope N_scope.

(** * Dispose of the newest qubit *)

(** C139: after a program from a new simulator, Dispose of the qubit that was allocated last, in a certain value, takes it away and leaves the other qubits as they are.  Missing: other qubits, see c139_dispose_refuted, and several qubits at once. *)
Theorem c139_newest_partial : forall (K : StarRing) (c : @acfg K), proper c -> forall n a0 l, n < 256 -> allowed_all 256 (ac_max c) l (first_ids n) (nzero (first_ids n)) -> let (sid, a1) := init_count n a0 in exists rs a ids Psi, api_calls c sid l a1 = Ret (rs, a) /\ nsteps (first_ids n) (nzero (first_ids n)) l rs ids Psi /\ holds a sid ids Psi /\ forall q rest b, ids = q :: rest -> certainly q b Psi -> exists a', api_dispose c sid [q] a = Ret a' /\ holds a' sid rest (nrelease q b Psi) /\ only_at sid a a'.
Proof. exact @PApiProp2.l_c139_newest_partial. Qed.
Print Assumptions c139_newest_partial.

Example c139_example : proper (cfgC 7) /\ allowed_all 256 (ac_max (cfgC 7)) progC (first_ids 3) (nzero (first_ids 3)) /\ certainly 2 false (nzero (K := CC) (first_ids 3)).
Proof. split; [exact (cfgC_proper 7)|]. split; [exact progC_ok|]. intros f H. unfold nzero. change (first_ids 3) with [2; 1; 0]. cbn [forallb]. now rewrite H. Qed.

(** * Exp and MCExp of one operator *)

(** C145: Exp and MCExp of a list with one Pauli operator X, Y or Z, besides identities, apply exp(i phi P) to its qubit where the controls are set; cph and sph are cos phi and sin phi.  Missing: several operators and the identity, see c145_mask_refuted and c145_identity_refuted. *)
Theorem c145_single_partial : forall (K : StarRing) (ci ch cph sph hph : K), (ci * ci = - (1))%amp -> sr_conj ci = (- ci)%amp -> sr_conj cph = cph -> sr_conj sph = sph -> (cph * cph + sph * sph = 1)%amp -> forall a sid ids Psi l b q cs, holds a sid ids Psi -> (forall x, In x ids -> x < 256) -> filter (fun e => match fst e with MApi.PI => false | _ => true end) l = [(b, q)] -> NoDup (q :: cs) -> incl (q :: cs) ids -> exists a', api_exp ci ch sid l cph sph hph cs a = Ret a' /\ holds a' sid ids (ngate true cs (exp_mat ci b cph sph) q Psi) /\ only_at sid a a'.
Proof. exact @PApiProp2.l_c145_single_partial. Qed.
Print Assumptions c145_single_partial.

Example c145_example : (cc_i * cc_i = - (1))%amp /\ sr_conj cc_i = (- cc_i)%amp /\ sr_conj cc_h = cc_h /\ (cc_h * cc_h + cc_h * cc_h = 1)%amp /\ NoDup [1; 2] /\ incl [1; 2] [2; 1; 0] /\ let (sid, a) := init_count (K := CC) 3 no_sims in holds a sid [2; 1; 0] (nzero [2; 1; 0]).
Proof. split; [exact cc_i_ok|]. split; [exact cc_i_conj|]. split; [exact cc_h_conj|]. split; [exact cc_h_sq|]. split; [repeat constructor; cbn; intuition discriminate|]. split; [intros x; cbn; tauto|exact hold3]. Qed.

(** * IDs that are not in use *)

(** C155: gates with an ID that is not in use as target or control, SWAP, Prob and M of such an ID set the error of the simulator and change nothing else.  Missing: release and PermutationProb, see below; IDs of 256 and more. *)
Theorem c155_unknown_partial : forall (K : StarRing) (c : @acfg K) a sid ids Psi, holds a sid ids Psi -> ids <> [] -> (forall want cs m q, (forall x, In x (q :: cs) -> x < 256) -> (exists x, In x (q :: cs) /\ ~ In x ids) -> exists a', api_gate sid want cs m q a = Ret a' /\ holds a' sid ids Psi /\ only_error sid a a') /\ (forall q1 q2, q1 < 256 -> q2 < 256 -> ~ In q1 ids \/ ~ In q2 ids -> exists a', api_swap sid q1 q2 a = Ret a' /\ holds a' sid ids Psi /\ only_error sid a a') /\ (forall q, q < 256 -> ~ In q ids -> exists a', api_prob sid q a = Ret (None, a') /\ api_m c sid q a = Ret (None, a') /\ holds a' sid ids Psi /\ only_error sid a a').
Proof. exact @PApiProp2.l_c155_unknown_partial. Qed.
Print Assumptions c155_unknown_partial.

Example c155_example : let (sid, a) := init_count (K := CC) 3 no_sims in holds a sid [2; 1; 0] (nzero [2; 1; 0]) /\ ~ In 7 [2; 1; 0].
Proof. split; [exact hold3|]. cbn. intuition discriminate. Qed.

(** C155 fails for release: the exception of Prob is not caught. *)
Theorem c155_release_refuted : forall (K : StarRing) (c : @acfg K) a sid ids Psi q, holds a sid ids Psi -> ids <> [] -> q < 256 -> ~ In q ids -> release c sid q a = Throws.
Proof. exact @PApiProp2.l_c155_release_refuted. Qed.
Print Assumptions c155_release_refuted.

(** C155 fails for PermutationProb: the result of the search that says that nothing was found, 255, is used as a power of 2, which is undefined for integers of up to 128 bits. *)
Theorem c155_permutation_refuted : forall (K : StarRing) (c : @acfg K) a sid ids Psi q l, ac_cap c < 8 -> holds a sid ids Psi -> ids <> [] -> q < 256 -> ~ In q ids -> In q (map fst l) -> api_perm_prob c sid l a = Undef.
Proof. exact @PApiProp2.l_c155_permutation_refuted. Qed.
Print Assumptions c155_permutation_refuted.

(** * JointEnsembleProbability *)

(** C156: JointEnsembleProbability of Pauli operators on different qubits returns p with 2 p + <P> = 1, where <P> is the expectation value of their product, and leaves the state as it is. *)
Theorem c156_joint : forall (K : StarRing) (ci ch : K), (ci * ci = - (1))%amp -> sr_conj ci = (- ci)%amp -> (ch * ch + ch * ch = 1)%amp -> sr_conj ch = ch -> forall a sid ids Psi l, holds a sid ids Psi -> (forall q, In q ids -> q < 256) -> ids <> [] -> (length ids <= 64)%nat -> NoDup (map snd l) -> incl (map snd l) ids -> exists p a', api_joint ci ch sid l a = Ret (Some p, a') /\ (p + p + nexpect ci ids l Psi = 1)%amp /\ holds a' sid ids Psi /\ only_at sid a a'.
Proof. exact @PApiProp2.l_c156_joint. Qed.
Print Assumptions c156_joint.

Example c156_example : (cc_i * cc_i = - (1))%amp /\ sr_conj cc_i = (- cc_i)%amp /\ (cc_h * cc_h + cc_h * cc_h = 1)%amp /\ sr_conj cc_h = cc_h /\ NoDup (map snd [(PX, 1); (PY, 0); (MApi.PI, 2)]) /\ incl (map snd [(PX, 1); (PY, 0); (MApi.PI, 2)]) [2; 1; 0] /\ (forall q, In q [2; 1; 0] -> q < 256) /\ let (sid, a) := init_count (K := CC) 3 no_sims in holds a sid [2; 1; 0] (nzero [2; 1; 0]).
Proof. split; [exact cc_i_ok|]. split; [exact cc_i_conj|]. split; [exact cc_h_sq|]. split; [exact cc_h_conj|]. split; [repeat constructor; cbn; intuition discriminate|]. split; [intros x; cbn; tauto|]. split; [exact small3|exact hold3]. Qed.
Example c156_bell : bell (api_joint z_i z_h 0 [(PY, 0); (PY, 1)]) = Ret (Some 1%amp) /\ bell (api_joint z_i z_h 0 [(PX, 1); (PX, 0)]) = Ret (Some 0%amp).
Proof. split; (apply val_eq; vm_compute; reflexivity). Qed.

(** * Measure *)

(** C157: Measure of Pauli operators on different qubits returns a result whose probability p is not 0, 2 p = 1 + <P> for the result 0 and 2 p = 1 - <P> for the result 1, and leaves the normalised projection of the state: twice the new state is g (Psi + P Psi) or g (Psi - P Psi) with |g|^2 p = 1. *)
Theorem c157_measure : forall (K : StarRing) (ci ch : K), (ci * ci = - (1))%amp -> sr_conj ci = (- ci)%amp -> (ch * ch + ch * ch = 1)%amp -> sr_conj ch = ch -> forall c, (1 <> 0 :> K)%amp -> normalizes (ac_nrm c) -> forall a sid ids Psi l, holds a sid ids Psi -> (forall q, In q ids -> q < 256) -> ids <> [] -> (length ids <= 64)%nat -> NoDup (map snd l) -> incl (map snd l) ids -> exists r p g Psi' a', api_measure ci ch c sid l a = Ret (Some r, a') /\ (p <> 0)%amp /\ (p + p = 1 + (if r then - nexpect ci ids l Psi else nexpect ci ids l Psi))%amp /\ (anorm g * p = 1)%amp /\ (forall f, Psi' f + Psi' f = g * (Psi f + (if r then - npaulis ci l Psi f else npaulis ci l Psi f)))%amp /\ holds a' sid ids Psi' /\ only_at sid a a'.
Proof. exact @PApiProp2.l_c157_measure. Qed.
Print Assumptions c157_measure.

Example c157_example : (1 <> 0 :> CC)%amp /\ normalizes (ac_nrm (cfgC 7)) /\ NoDup (map snd [(PX, 1); (PZ, 2)]) /\ incl (map snd [(PX, 1); (PZ, 2)]) [2; 1; 0] /\ let (sid, a) := init_count (K := CC) 3 no_sims in holds a sid [2; 1; 0] (nzero [2; 1; 0]).
Proof. split; [exact cc10|]. split; [exact nrmC_ok|]. split; [repeat constructor; cbn; intuition discriminate|]. split; [intros x; cbn; tauto|exact hold3]. Qed.

(** * PermutationProb *)

(** C158: PermutationProb of different qubits returns the probability that every one has the given value, and changes nothing. *)
Theorem c158_permutation : forall (K : StarRing) (c : @acfg K) a sid ids Psi l, holds a sid ids Psi -> (forall q, In q ids -> q < 256) -> ids <> [] -> N.of_nat (length ids) <= 2 ^ ac_cap c -> NoDup (map fst l) -> incl (map fst l) ids -> api_perm_prob c sid l a = Ret (Some (nweight ids (fun f => forallb (fun e => eqb (f (fst e)) (snd e)) l) Psi), a).
Proof. exact @PApiProp2.l_c158_permutation. Qed.
Print Assumptions c158_permutation.

Example c158_example : NoDup (map fst [(2, true); (0, false)]) /\ incl (map fst [(2, true); (0, false)]) [2; 1; 0] /\ N.of_nat (length [2; 1; 0]) <= 2 ^ ac_cap (cfgC 7) /\ let (sid, a) := init_count (K := CC) 3 no_sims in holds a sid [2; 1; 0] (nzero [2; 1; 0]).
Proof. split; [repeat constructor; cbn; intuition discriminate|]. split; [intros x; cbn; tauto|]. split; [discriminate|exact hold3]. Qed.
Example c158_bell : forall rnd small nrm, bell (api_perm_prob (cfg Q8 7 rnd small nrm) 0 [(0, true); (1, false)]) = Ret (Some 0%amp).
Proof. intros rnd small nrm. apply val_eq. vm_compute. reflexivity. Qed.

(** * LDA with the value register below the index register *)

(** C144, the other order of the registers: the qubits of the value register, in the order of allocation, come before those of the index register.  Missing: registers that are interleaved or not in order, see PropApi.v. *)
Theorem c144_lda_low_partial : forall (K : StarRing) (c : @acfg K), proper c -> forall n a0 l, n < 256 -> allowed_all 256 (ac_max c) l (first_ids n) (nzero (first_ids n)) -> let (sid, a1) := init_count n a0 in exists rs a ids Psi, api_calls c sid l a1 = Ret (rs, a) /\ nsteps (first_ids n) (nzero (first_ids n)) l rs ids Psi /\ holds a sid ids Psi /\ forall qi qv t, qi <> [] -> qv <> [] -> incl (qi ++ qv) ids -> StronglySorted (earlier ids) (qv ++ qi) -> (forall v, v < 2 ^ N.of_nat (length qi) -> t v < 2 ^ N.of_nat (length qv)) -> (forall f, value_of qv f <> 0 -> Psi f = 0%amp) -> exists a', api_lda sid qi qv t a = Ret a' /\ holds a' sid ids (fun f => if value_of qv f =? t (value_of qi f) then Psi (write_value qv 0 f) else 0%amp) /\ only_at sid a a'.
Proof. exact @PApiProp2.l_c144_lda_low_partial. Qed.
Print Assumptions c144_lda_low_partial.

Example c144_low_example : StronglySorted (earlier [2; 1; 0]) ([0] ++ [1; 2]) /\ (forall v, v < 4 -> N.b2n (N.odd v) < 2) /\ (forall f, value_of [0] f <> 0 -> nzero (K := CC) (first_ids 3) f = 0%amp).
Proof. split; [|split].
  - repeat match goal with |- StronglySorted _ _ => constructor | |- Forall _ _ => constructor | |- earlier _ _ _ => first [exists [2], [], []; reflexivity|exists [], [1], []; reflexivity|exists [], [], [0]; reflexivity] end.
  - intros v _. destruct (N.odd v); reflexivity.
  - intros f H. change (first_ids 3) with [2; 1; 0]. unfold nzero. cbn [forallb value_of] in *. destruct (f 0); [|now destruct H]. destruct (f 2), (f 1); reflexivity. Qed.
