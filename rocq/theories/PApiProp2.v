(** The C interface, continued; proofs of PropApi2.v. *)
From Coq Require Import NArith ZArith List Bool Lia Ring Reals Permutation Sorted.
From Verif Require Import Amp PAmp AmpC AmpC2 AmpQ8 SpecState SpecUnit3 MTensor PUnitMeas SpecApi MApi SpecApi2 MApi2 SpecApi3 PApi1 PApi2 PApi3 PApi4 PApi6 PApi8 PApi10 PApi11 PApiProp.
Import ListNotations.
Local Open Scope N_scope.

(** ** Examples *)
Lemma hold3 : let (sid, a) := init_count (K := CC) 3 no_sims in holds a sid [2; 1; 0] (nzero [2; 1; 0]).
Proof. exact (proj1 (PApiProp.l_c137_new_partial CC 3 no_sims eq_refl)). Qed.
Lemma small3 : forall q, In q [2; 1; 0] -> q < 256.
Proof. cbn. intros q H. intuition (subst; reflexivity). Qed.
(** The Bell state of two qubits. *)
Definition bell (f : @api Q8 -> out (option Q8 * @api Q8)) : out (option Q8) :=
  answer (let (s, a) := init_count 2 no_sims in do a <- api_gate s true [] h_mat8 0 a; do a <- api_gate s true [0] x_mat 1 a; f a).

Lemma l_c139_newest_partial : forall (K : StarRing) (c : @acfg K), proper c -> forall n a0 l, n < 256 -> allowed_all 256 (ac_max c) l (first_ids n) (nzero (first_ids n)) -> let (sid, a1) := init_count n a0 in exists rs a ids Psi, api_calls c sid l a1 = Ret (rs, a) /\ nsteps (first_ids n) (nzero (first_ids n)) l rs ids Psi /\ holds a sid ids Psi /\ forall q rest b, ids = q :: rest -> certainly q b Psi -> exists a', api_dispose c sid [q] a = Ret a' /\ holds a' sid rest (nrelease q b Psi) /\ only_at sid a a'.
Proof. intros K c PR n a0 l Hn AL. pose proof (program_ok c n a0 l PR Hn AL) as H. destruct (init_count n a0) as [sid a1]. destruct H as (rs & a & ids & Psi & H1 & H2 & H3 & H4 & H5 & H6 & H7). exists rs, a, ids, Psi. split; [exact H1|]. split; [exact H2|]. split; [exact H3|]. intros q rest b -> CE. exact (dispose_newest c a sid q rest Psi b PR H3 H5 H6 CE). Qed.

Lemma l_c145_single_partial : forall (K : StarRing) (ci ch cph sph hph : K), (ci * ci = - (1))%amp -> sr_conj ci = (- ci)%amp -> sr_conj cph = cph -> sr_conj sph = sph -> (cph * cph + sph * sph = 1)%amp -> forall a sid ids Psi l b q cs, holds a sid ids Psi -> (forall x, In x ids -> x < 256) -> filter (fun e => match fst e with MApi.PI => false | _ => true end) l = [(b, q)] -> NoDup (q :: cs) -> incl (q :: cs) ids -> exists a', api_exp ci ch sid l cph sph hph cs a = Ret a' /\ holds a' sid ids (ngate true cs (exp_mat ci b cph sph) q Psi) /\ only_at sid a a'.
Proof. intros K ci ch cph sph hph CI CJ C1 C2 C3 a sid ids Psi l b q cs H HI NI ND IN. apply (exp_one ci ch a sid ids Psi b q l cph sph hph cs CI CJ C1 C2 C3); auto. rewrite <- NI. unfold no_identities. apply filter_ext. intros [[] z]; reflexivity. Qed.

Lemma l_c155_unknown_partial : forall (K : StarRing) (c : @acfg K) a sid ids Psi, holds a sid ids Psi -> ids <> [] -> (forall want cs m q, (forall x, In x (q :: cs) -> x < 256) -> (exists x, In x (q :: cs) /\ ~ In x ids) -> exists a', api_gate sid want cs m q a = Ret a' /\ holds a' sid ids Psi /\ only_error sid a a') /\ (forall q1 q2, q1 < 256 -> q2 < 256 -> ~ In q1 ids \/ ~ In q2 ids -> exists a', api_swap sid q1 q2 a = Ret a' /\ holds a' sid ids Psi /\ only_error sid a a') /\ (forall q, q < 256 -> ~ In q ids -> exists a', api_prob sid q a = Ret (None, a') /\ api_m c sid q a = Ret (None, a') /\ holds a' sid ids Psi /\ only_error sid a a').
Proof. intros K c a sid ids Psi H NE. split; [|split]. - intros want cs m q. now apply gate_unknown. - intros q1 q2. now apply swap_unknown. - intros q. now apply prob_unknown. Qed.

Lemma l_c155_release_refuted : forall (K : StarRing) (c : @acfg K) a sid ids Psi q, holds a sid ids Psi -> ids <> [] -> q < 256 -> ~ In q ids -> release c sid q a = Throws.
Proof. intros K c a sid ids Psi q. apply release_unknown. Qed.

Lemma l_c155_permutation_refuted : forall (K : StarRing) (c : @acfg K) a sid ids Psi q l, ac_cap c < 8 -> holds a sid ids Psi -> ids <> [] -> q < 256 -> ~ In q ids -> In q (map fst l) -> api_perm_prob c sid l a = Undef.
Proof. intros K c a sid ids Psi q l. apply perm_unknown. Qed.

Lemma l_c156_joint : forall (K : StarRing) (ci ch : K), (ci * ci = - (1))%amp -> sr_conj ci = (- ci)%amp -> (ch * ch + ch * ch = 1)%amp -> sr_conj ch = ch -> forall a sid ids Psi l, holds a sid ids Psi -> (forall q, In q ids -> q < 256) -> ids <> [] -> (length ids <= 64)%nat -> NoDup (map snd l) -> incl (map snd l) ids -> exists p a', api_joint ci ch sid l a = Ret (Some p, a') /\ (p + p + nexpect ci ids l Psi = 1)%amp /\ holds a' sid ids Psi /\ only_at sid a a'.
Proof. intros K ci ch CI CJ HH HC a sid ids Psi l. now apply joint_ok. Qed.

Lemma l_c157_measure : forall (K : StarRing) (ci ch : K), (ci * ci = - (1))%amp -> sr_conj ci = (- ci)%amp -> (ch * ch + ch * ch = 1)%amp -> sr_conj ch = ch -> forall c, (1 <> 0 :> K)%amp -> normalizes (ac_nrm c) -> forall a sid ids Psi l, holds a sid ids Psi -> (forall q, In q ids -> q < 256) -> ids <> [] -> (length ids <= 64)%nat -> NoDup (map snd l) -> incl (map snd l) ids -> exists r p g Psi' a', api_measure ci ch c sid l a = Ret (Some r, a') /\ (p <> 0)%amp /\ (p + p = 1 + (if r then - nexpect ci ids l Psi else nexpect ci ids l Psi))%amp /\ (anorm g * p = 1)%amp /\ (forall f, Psi' f + Psi' f = g * (Psi f + (if r then - npaulis ci l Psi f else npaulis ci l Psi f)))%amp /\ holds a' sid ids Psi' /\ only_at sid a a'.
Proof. intros K ci ch CI CJ HH HC c N10 NZ a sid ids Psi l. now apply measure_ok. Qed.

Lemma l_c158_permutation : forall (K : StarRing) (c : @acfg K) a sid ids Psi l, holds a sid ids Psi -> (forall q, In q ids -> q < 256) -> ids <> [] -> N.of_nat (length ids) <= 2 ^ ac_cap c -> NoDup (map fst l) -> incl (map fst l) ids -> api_perm_prob c sid l a = Ret (Some (nweight ids (fun f => forallb (fun e => eqb (f (fst e)) (snd e)) l) Psi), a).
Proof. intros K c a sid ids Psi l. apply perm_ok. Qed.

Lemma l_c144_lda_low_partial : forall (K : StarRing) (c : @acfg K), proper c -> forall n a0 l, n < 256 -> allowed_all 256 (ac_max c) l (first_ids n) (nzero (first_ids n)) -> let (sid, a1) := init_count n a0 in exists rs a ids Psi, api_calls c sid l a1 = Ret (rs, a) /\ nsteps (first_ids n) (nzero (first_ids n)) l rs ids Psi /\ holds a sid ids Psi /\ forall qi qv t, qi <> [] -> qv <> [] -> incl (qi ++ qv) ids -> StronglySorted (earlier ids) (qv ++ qi) -> (forall v, v < 2 ^ N.of_nat (length qi) -> t v < 2 ^ N.of_nat (length qv)) -> (forall f, value_of qv f <> 0 -> Psi f = 0%amp) -> exists a', api_lda sid qi qv t a = Ret a' /\ holds a' sid ids (fun f => if value_of qv f =? t (value_of qi f) then Psi (write_value qv 0 f) else 0%amp) /\ only_at sid a a'.
Proof. intros K c PR n a0 l Hn AL. pose proof (program_ok c n a0 l PR Hn AL) as H. destruct (init_count n a0) as [sid a1]. destruct H as (rs & a & ids & Psi & H1 & H2 & H3 & H4 & H5 & H6 & H7). exists rs, a, ids, Psi. split; [exact H1|]. split; [exact H2|]. split; [exact H3|]. intros qi qv t NE1 NE2 IN SO TB CL. destruct H6 as (m & M1 & M2). apply (lda_low_ok a sid ids Psi H3 H5 qi qv t); auto. exists m. split; auto. eapply order_ascends; eauto. Qed.
