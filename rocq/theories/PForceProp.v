(** Measurements of lists of qubits; proofs of PropForce.v. *)
From Coq Require Import NArith Arith List Bool Lia Ring.
From Verif Require Import Bits Amp PAmp SpecState SpecEngine SpecAlu MTensor MShots SpecShots PShots MForce SpecForce PForce.
Import ListNotations.
Local Open Scope N_scope.

Lemma l_c186_measure : forall (K : StarRing) (nrm : (N -> K) -> N -> bool -> K), (forall psi q b (a : K), a <> 0%amp -> (nrm psi q b * a)%amp <> 0%amp) -> forall n bits psi, nonzero n psi ->
  every_run (force_bits nrm n bits [] true psi) (fun r => exists m psi' x, r = Ret (m, psi') /\ x < 2 ^ n /\ psi x <> 0%amp /\ mask_of bits x m /\ measured_as n bits x psi psi').
Proof. intros K nrm NR n bits psi NZ. unfold force_bits. cbn [length Nat.eqb negb andb]. split. now apply loop_runs. intros r H. assert (M : mode (map (fun q => (q, @None bool)) bits)). { left. intros e He. apply in_map_iff in He. destruct He as [q [<- _]]. reflexivity. }
  destruct (loop_good nrm NR n _ psi r M NZ H) as [(m & psi' & x & E & Hx & Px & HM & _ & HG)|(_ & [q [v I]] & _)]. rewrite map_fst_none in HM, HG. exists m, psi', x. auto. apply in_map_iff in I. destruct I as [q0 [E _]]. discriminate. Qed.

Lemma l_c186_force : forall (K : StarRing) (nrm : (N -> K) -> N -> bool -> K), (forall psi q b (a : K), a <> 0%amp -> (nrm psi q b * a)%amp <> 0%amp) -> forall n bits values psi, nonzero n psi -> length bits = length values -> bits <> [] ->
  every_run (force_bits nrm n bits values true psi) (fun r =>
    (exists m psi' x, r = Ret (m, psi') /\ x < 2 ^ n /\ psi x <> 0%amp /\ has_values bits values x /\ mask_of bits x m /\ measured_as n bits x psi psi') \/
    (r = Throws /\ forall x, x < 2 ^ n -> psi x <> 0%amp -> ~ has_values bits values x)).
Proof. intros K nrm NR n bits values psi NZ HL HN. unfold force_bits. rewrite <- HL, Nat.eqb_refl. cbn [negb]. rewrite andb_false_r. destruct (Nat.eqb_spec (length bits) 0) as [Z|_]. { destruct bits; [contradiction|discriminate]. } cbn [negb]. split. now apply loop_runs. intros r H.
  assert (M : mode (combine bits (map Some values))). { right. intros e He. apply (snd_some bits values e He). }
  destruct (loop_good nrm NR n _ psi r M NZ H) as [(m & psi' & x & E & Hx & Px & HM & HO & HG)|(E & _ & HT)].
  - left. rewrite map_fst_some in HM, HG by auto. exists m, psi', x. split; auto. split; auto. split; auto. split; auto. intros q v I. apply HO. now apply in_some.
  - right. split; auto. intros x Hx Px HV. apply (HT x Hx Px). intros q v I. apply HV. now apply in_some. Qed.

Lemma l_c186_lengths : forall (K : StarRing) (nrm : (N -> K) -> N -> bool -> K) n bits values apply psi r, values <> [] -> length bits <> length values -> force_bits nrm n bits values apply psi r -> r = Throws.
Proof. intros K nrm n bits values apply psi r HV HL H. unfold force_bits in H. destruct values; [contradiction|]. destruct (Nat.eqb_spec (length bits) (length (b :: values))); [contradiction|]. exact H. Qed.

Lemma l_c187_state_partial : forall (K : StarRing) (nrm : (N -> K) -> N -> bool -> K) n bits values psi r, force_bits nrm n bits values false psi r ->
  r = Throws \/ exists m, r = Ret (m, psi) /\ (values <> [] -> forall q, N.testbit m q = existsb (fun e => (fst e =? q) && snd e) (combine bits values)).
Proof. intros K nrm n bits values psi r H. unfold force_bits in H. destruct (Nat.eqb_spec (length values) 0) as [Z|Z]; cbn [negb andb] in H.
  - destruct values; [|discriminate]. destruct H as [raw [Hr [Pr E]]]. right. cbn [multi_shot N.eqb count_samples map_incr] in E. unfold multi_shot in E. cbn in E. eexists. split. exact E. intros HN. contradiction.
  - destruct (Nat.eqb_spec (length bits) (length values)); cbn [negb] in H; auto. apply peek_loop in H. destruct H as [->|(m & -> & HM)]; auto. right. exists m. auto. Qed.

Lemma l_c187_mask_refuted : forall (K : StarRing) (nrm : (N -> K) -> N -> bool -> K), (1 : K)%amp <> 0%amp ->
  every_run (force_bits nrm 2 [1] [] true (ket 2)) (fun r => exists psi', r = Ret (2, psi')) /\ every_run (force_bits nrm 2 [1] [] false (ket 2)) (fun r => r = Ret (1, ket 2)).
Proof. intros K nrm H1. unfold force_bits. cbn [length Nat.eqb negb andb map force_loop]. assert (P2 : (ket 2 : N -> K) 2 <> 0%amp) by exact H1.
  assert (PX : forall x, (ket 2 : N -> K) x <> 0%amp -> x = 2). { intros x. unfold ket. destruct (N.eqb_spec x 2); auto. intros Z. now elim Z. } split; split.
  - eexists. exists (Ret (true, collapse nrm 1 true (ket 2))). split. { left. exists true. split; auto. exists 2. split; [reflexivity|auto]. } eexists. split; reflexivity.
  - intros r [r1 [[(b & [x [Hx [Hb Px]]] & _ & E)|(b & E & _)] H]]; [|discriminate]. subst r1. apply PX in Px. subst x. change (N.testbit 2 1) with true in Hb. subst b. destruct H as [r2 [-> ->]]. eexists. reflexivity.
  - exists (Ret (1, ket 2)), 2. split; [reflexivity|]. split; auto.
  - intros r [raw [Hr [Pr ->]]]. apply PX in Pr. subst raw. reflexivity. Qed.

Lemma l_c187_impossible_refuted : forall (K : StarRing) (nrm : (N -> K) -> N -> bool -> K), (1 : K)%amp <> 0%amp -> let bell : N -> K := fun x => if (x =? 0) || (x =? 3) then 1%amp else 0%amp in
  (forall x, x < 2 ^ 2 -> bell x <> 0%amp -> ~ has_values [0; 1] [false; true] x) /\ force_bits nrm 2 [0; 1] [false; true] false bell (Ret (2, bell)).
Proof. intros K nrm H1 bell. split.
  - intros x Hx Px HV. pose proof (HV 0 false (or_introl eq_refl)) as A. pose proof (HV 1 true (or_intror (or_introl eq_refl))) as B. unfold bell in Px. destruct (N.eqb_spec x 0) as [->|]. discriminate B. destruct (N.eqb_spec x 3) as [->|]. discriminate A. now elim Px.
  - unfold force_bits. cbn [length Nat.eqb negb andb map combine force_loop]. exists (Ret (false, bell)). split. { left. exists false. split; auto. exists 0. split; [reflexivity|]. split; [reflexivity|exact H1]. }
    exists (Ret (2, bell)). split; [|reflexivity]. exists (Ret (true, bell)). split. { left. exists true. split; auto. exists 3. split; [reflexivity|]. split; [reflexivity|exact H1]. } exists (Ret (0, bell)). split; reflexivity. Qed.
