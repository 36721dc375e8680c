(** Proofs about expectation values (MExpect.v), part 3: Pauli operators. *)
From Coq Require Import NArith Arith List Bool Lia Ring.
From Verif Require Import Bits MFunctions PFunctions Amp PAmp SpecState PLoop PGates PGates2 PGates3 PUnit9 MCircuit PCircuit SpecApi MTensor MApi SpecApi3 PApi9 MExpect SpecExpect PExpect1 PExpect2.
Import ListNotations.
Local Open Scope N_scope.

(** The list without identities is not changed; other lists shrink. *)
Lemma drop_none f : forall i (l : list (pauli * N)), forallb (fun e => negb (is_pi (fst e))) l = true -> drop_pi f i l = l.
Proof.
  induction f as [|f IH]; intros i l H; cbn [drop_pi]; auto. destruct (Nat.ltb_spec i (length l)) as [L|]; auto. cbv zeta.
  rewrite forallb_forall in H. assert (T := H _ (nth_In l (PZ, 0) (n := length l - (i + 1)) ltac:(lia))). apply negb_true_iff in T. rewrite T. apply IH. now apply forallb_forall.
Qed.
Lemma remove_nodup j (l : list (pauli * N)) : NoDup (map snd l) -> NoDup (map snd (remove_at j l)).
Proof.
  unfold remove_at. destruct (Nat.lt_ge_cases j (length l)) as [L|L].
  - intros H. rewrite <- (firstn_skipn j l) in H. assert (E : skipn j l = nth j l (PZ, 0) :: skipn (S j) l).
    { clear H. revert j L. induction l as [|a l IH]; intros j L; [cbn in L; lia|]. destruct j; [reflexivity|]. cbn [skipn nth]. apply IH. cbn in L. lia. }
    rewrite E, map_app in H. cbn [map] in H. apply NoDup_remove_1 in H. now rewrite map_app.
  - intros H. rewrite firstn_all2, skipn_all2 by lia. now rewrite app_nil_r.
Qed.
Lemma drop_nodup f : forall i (l : list (pauli * N)), NoDup (map snd l) -> NoDup (map snd (drop_pi f i l)).
Proof.
  induction f as [|f IH]; intros i l H; cbn [drop_pi]; auto. destruct (i <? length l)%nat; auto. cbv zeta. destruct (is_pi _); apply IH; auto. now apply remove_nodup.
Qed.

Section P.
  Variable K : StarRing.
  Add Ring KrEQ : (sr_ring K).
  Variables (ci ch : K).
  Local Notation vec := (N -> K).
  Local Open Scope amp_scope.
  Hypothesis CI : ci * ci = - (1).
  Hypothesis CC : sr_conj ci = - ci.
  Hypothesis HH : ch * ch + ch * ch = 1.
  Hypothesis HC : sr_conj ch = ch.
  Local Notation um := (PApi9.um ci ch).
  Local Notation zm := (PApi9.zm ci ch).

  Lemma turn_in_ok l : forall (psi : vec) x, turn_in ci ch l psi x = thru um l psi x.
  Proof.
    induction l as [|[b q] l IH]; intros psi x; [reflexivity|]. rewrite thru_cons. destruct b; cbn [turn_in]; rewrite IH; apply thru_ext; intros y; cbn [PApi9.um].
    - symmetry. apply g1_one.
    - reflexivity.
    - rewrite <- g1_mul. reflexivity.
    - symmetry. apply g1_one.
  Qed.
  Lemma turn_out_ok l : forall (psi : vec) x, turn_out ci ch l psi x = thru zm l psi x.
  Proof.
    induction l as [|[b q] l IH]; intros psi x; [reflexivity|]. rewrite thru_cons. destruct b; cbn [turn_out]; rewrite IH; apply thru_ext; intros y; cbn [PApi9.zm].
    - symmetry. apply g1_one.
    - reflexivity.
    - rewrite <- g1_mul. reflexivity.
    - symmetry. apply g1_one.
  Qed.
  Lemma in_out l (psi : vec) x : NoDup (map snd l) -> turn_out ci ch l (turn_in ci ch l psi) x = psi x.
  Proof. intros H. rewrite turn_out_ok. rewrite (thru_ext zm l _ (thru um l psi)). now apply back. intros y. apply turn_in_ok. Qed.
  Lemma pauli_restores f l (psi : vec) r w : NoDup (map snd l) -> pauli_all ci ch f l psi = Ret (r, w) -> forall x, w x = psi x.
  Proof.
    intros ND. unfold pauli_all. apply (drop_nodup (length l) 0) in ND. destruct (drop_pi (length l) 0 l) as [|e l'].
    - intros E x. injection E as _ <-. reflexivity.
    - cbv zeta. set (L := e :: l') in *. clearbody L. destruct (f _ _ _) as [k| |]; cbn [bind]; intros E x; try discriminate. injection E as _ <-. now apply in_out.
  Qed.
  Lemma turn_one l b q : NoDup (map snd l) -> In (b, q) l -> forall (v : vec) x, thru um l (g1 (pauli_mat ci b) q v) x = g1 (sm b) q (thru um l v) x.
  Proof.
    induction l as [|[b' q'] l IH]; intros ND HI v x; [destruct HI|]. cbn [map snd] in ND. apply NoDup_cons_iff in ND. destruct ND as [NI ND]. rewrite !thru_cons. destruct HI as [E|HI].
    - injection E as -> ->. rewrite (thru_ext um l _ (g1 (sm b) q (g1 (um b) q v))). now apply thru_past. intros y. rewrite !g1_mul. now rewrite um_pauli.
    - rewrite <- IH by auto. apply thru_ext. intros y. apply g1_comm. intros ->. apply NI. change q with (snd (b, q)). now apply in_map.
  Qed.
  Lemma in_norm n l (psi : vec) : (forall q, In q (map snd l) -> (q < n)%N) -> norm2 n (turn_in ci ch l psi) = norm2 n psi.
  Proof. intros H. rewrite <- !vip_norm. rewrite (vip_ext n _ _ (thru um l psi) (thru um l psi)) by (intros; apply turn_in_ok). apply vip_thru; auto. intros b. now apply um_unitary. Qed.
  (** One factor. *)
  Definition sg (q x : N) : K := if N.testbit x q then - (1) else 1.
  Lemma mean_sg n l b q (psi : vec) : NoDup (map snd l) -> In (b, q) l -> is_pi b = false -> (forall t, In t (map snd l) -> (t < n)%N) ->
    mean n (turn_in ci ch l psi) (sg q) = pauli_exp n ci [(b, q)] psi.
  Proof.
    intros ND HI HP HL. transitivity (vip n (thru um l psi) (g1 (sm b) q (thru um l psi))).
    - unfold mean, vip. apply asum_ext. intros x _. rewrite turn_in_ok. unfold g1, gate1, anorm, sg. cbn [all_set forallb]. destruct b; [discriminate HP| | |]; cbn [sm m00 m01 m10 m11]; destruct (N.testbit x q); ring.
    - rewrite (vip_ext n _ _ (thru um l psi) (thru um l (g1 (pauli_mat ci b) q psi))) by (auto; intros x; symmetry; now apply turn_one).
      rewrite vip_thru; auto. intros b'. now apply um_unitary.
  Qed.
  Lemma total_sg (l : list (pauli * N)) x : total (map snd l) (flat_map (fun _ => [1; - (1)]) l) x = asum (fun e => sg (snd e) x) l.
  Proof. induction l as [|[b q] l IH]; [reflexivity|]. cbn [map flat_map app total asum snd]. rewrite IH. reflexivity. Qed.
  Lemma product_sg (l : list (pauli * N)) x : forallb (fun e => negb (is_pi (fst e))) l = true -> product (map snd l) (flat_map (fun _ => [1; - (1)]) l) x = if par l x then - (1) else 1 : K.
  Proof.
    induction l as [|[b q] l IH]; intros H; [reflexivity|]. cbn [forallb fst] in H. apply andb_true_iff in H. destruct H as [H1 H2]. cbn [map flat_map app product snd]. rewrite IH by auto. cbn [par fold_right fst snd]. rewrite H1. cbn [andb]. fold (par l x).
    destruct (N.testbit x q), (par l x); cbn [xorb]; ring.
  Qed.
  Lemma ws_len (l : list (pauli * N)) : length (flat_map (fun _ => [1 : K; - (1)]) l) = (length l * 2)%nat.
  Proof. induction l as [|e l IH]; [reflexivity|]. cbn [flat_map app length]. rewrite IH. lia. Qed.
  Lemma mean_asum {T} n (psi : vec) (g : T -> N -> K) l : mean n psi (fun x => asum (fun e => g e x) l) = asum (fun e => mean n psi (g e)) l.
  Proof.
    induction l as [|e l IH]; cbn [asum]. unfold mean. apply asum_zero. intros. ring. rewrite <- IH. unfold mean. rewrite <- asum_add. apply asum_ext. intros. ring.
  Qed.
  Lemma proper_snd n (l : list (pauli * N)) : NoDup (map snd l) -> (forall t, In t (map snd l) -> (t < n)%N) -> proper_bits n (map snd l). Proof. split; auto. Qed.

  Lemma pauli_all_is f l (psi : vec) : l <> [] -> forallb (fun e => negb (is_pi (fst e))) l = true ->
    pauli_all ci ch f l psi = (do r <- f (map snd l) (flat_map (fun _ => [1; - (1)]) l) (turn_in ci ch l psi); Ret (r, turn_out ci ch l (turn_in ci ch l psi))).
  Proof. intros HN HP. unfold pauli_all. rewrite (drop_none _ _ l HP). destruct l; [congruence|reflexivity]. Qed.
  Lemma exp_pauli_is n l (psi : vec) : l <> [] -> forallb (fun e => negb (is_pi (fst e))) l = true -> proper_bits n (map snd l) -> norm2 n psi = 1 ->
    exists w, exp_pauli ci ch n l psi = Ret (asum (fun e => pauli_exp n ci [e] psi) l, w) /\ forall x, w x = psi x.
  Proof.
    intros HN HP [ND HL] H1. exists (turn_out ci ch l (turn_in ci ch l psi)). split; [|intros x; now apply in_out].
    unfold exp_pauli. rewrite (pauli_all_is _ l psi HN HP). rewrite exp_floats_ok; try (now split).
    - cbn [bind]. f_equal. f_equal. rewrite (mean_ext K n _ _ (fun x => asum (fun e => sg (snd e) x) l)) by (intros x _; apply total_sg).
      rewrite (mean_asum n _ (fun e => sg (snd e)) l). apply asum_ext. intros [b q] HI. cbn [snd]. apply mean_sg; auto. rewrite forallb_forall in HP. apply HP in HI. now apply negb_true_iff in HI.
    - destruct l; [congruence|discriminate].
    - rewrite ws_len, map_length. lia.
    - now rewrite in_norm.
  Qed.
  Lemma mean_par n l (psi : vec) : NoDup (map snd l) -> (forall t, In t (map snd l) -> (t < n)%N) ->
    mean n (turn_in ci ch l psi) (fun x => if par l x then - (1) else 1) = pauli_exp n ci l psi.
  Proof.
    intros ND HL. transitivity (vip n (thru um l psi) (PApi9.prod sm l (thru um l psi))).
    - unfold mean, vip. apply asum_ext. intros x _. rewrite turn_in_ok, sign_prod. unfold anorm. destruct (par l x); ring.
    - rewrite (vip_ext n _ _ (thru um l psi) (thru um l (PApi9.prod (pauli_mat ci) l psi))) by (auto; intros x; symmetry; now apply turn).
      rewrite vip_thru; auto. intros b'. now apply um_unitary.
  Qed.
  Lemma var_pauli_many n l (psi : vec) : (2 <= length l)%nat -> forallb (fun e => negb (is_pi (fst e))) l = true -> proper_bits n (map snd l) -> norm2 n psi = 1 ->
    exists w, var_pauli ci ch n l psi = Ret (pauli_exp n ci l psi, w) /\ forall x, w x = psi x.
  Proof.
    intros HN HP [ND HL] H1. exists (turn_out ci ch l (turn_in ci ch l psi)). split; [|intros x; now apply in_out].
    unfold var_pauli. rewrite (pauli_all_is _ l psi) by (auto; intros ->; cbn in HN; lia). rewrite var_many_is; try (now split).
    - cbn [bind]. f_equal. f_equal. rewrite (mean_ext K n _ _ (fun x => if par l x then - (1) else 1)) by (intros x _; now apply product_sg). now apply mean_par.
    - now rewrite map_length.
    - rewrite ws_len, map_length. lia.
    - now rewrite in_norm.
  Qed.
  Lemma variance_is n (psi : vec) f : norm2 n psi = 1 -> variance n psi f = mean n psi (fun x => f x * f x) - mean n psi f * mean n psi f.
  Proof.
    intros H. unfold variance. cbv zeta. set (m := mean n psi f).
    transitivity (mean n psi (fun x => f x * f x) + (- (m + m)) * mean n psi f + m * m * norm2 n psi).
    - unfold mean, norm2. rewrite <- !asum_scale, <- !asum_add. apply asum_ext. intros. ring.
    - rewrite H. fold m. ring.
  Qed.
  Lemma pauli_sq b q (v : vec) x : g1 (pauli_mat ci b) q (g1 (pauli_mat ci b) q v) x = v x.
  Proof.
    rewrite g1_mul. replace (mmul (pauli_mat ci b) (pauli_mat ci b)) with (midn : mat2 K). apply g1_one.
    destruct b; unfold pauli_mat, mmul, midn; cbn [m00 m01 m10 m11]; apply mat_eq; try ring; transitivity (- (ci * ci)); try ring; rewrite CI; ring.
  Qed.
  Lemma var_pauli_one n b q (psi : vec) : is_pi b = false -> (q < n)%N -> norm2 n psi = 1 ->
    exists w, var_pauli ci ch n [(b, q)] psi = Ret (pauli_var n ci [(b, q)] psi, w) /\ forall x, w x = psi x.
  Proof.
    intros HP Hq H1. assert (ND : NoDup (map snd [(b, q)])) by (repeat constructor; intros []). assert (HL : forall t, In t (map snd [(b, q)]) -> (t < n)%N) by (intros t [<-|[]]; auto).
    exists (turn_out ci ch [(b, q)] (turn_in ci ch [(b, q)] psi)). split; [|intros x; now apply in_out].
    unfold var_pauli. rewrite (pauli_all_is _ [(b, q)]) by (try discriminate; cbn; now rewrite HP). cbn [map snd flat_map app].
    assert (N1 : norm2 n (turn_in ci ch [(b, q)] psi) = 1) by (now rewrite in_norm). set (w := turn_in ci ch [(b, q)] psi) in *.
    rewrite var_one_ok by (auto; cbn; lia). cbn [bind]. f_equal. f_equal. rewrite variance_is by auto.
    rewrite !(mean_ext K n w (total [q] [1; - (1)]) (sg q)) by (intros x _; cbn [total]; unfold sg; ring). unfold w at 2 3. rewrite (mean_sg n [(b, q)] b q psi) by (auto; now left).
    unfold pauli_var. f_equal. transitivity (1 : K).
    - transitivity (norm2 n w); [|exact N1]. unfold mean, norm2. apply asum_ext. intros x _. cbn [total]. destruct (N.testbit x q); ring.
    - rewrite <- H1, <- vip_norm. apply vip_ext; auto. intros x. symmetry. apply (pauli_sq b q psi x).
  Qed.
End P.
