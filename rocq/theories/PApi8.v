(** Proofs about the C interface, part 8: programs from a new simulator; qcircuit_append_mc. *)
From Coq Require Import NArith List Bool Lia Permutation Ring Sorted.
From Verif Require Import Bits MFunctions SpecFunctions PFunctions MParFor PParFor MKernel PKernel Amp PAmp SpecState MEngine SpecEngine PLoop PApply PGates PGates2 PGates3 PCompose PProb PEngine PEngine2
  MAlu SpecAlu PAlu PShard2 PQCirc1 PQCirc4 PQCirc6 SpecUnit3 MQCircuit SpecQCircuit MTensor PTensor2 SpecApi MApi SpecApi2 PApi1 PApi2 PApi3 PApi4 PApi5 PApi6 PApi7.
Import ListNotations.
Local Open Scope N_scope.

(** ** qcircuit_append_mc *)
Lemma insert_last cs i l : (forall j, In j l -> nth (N.to_nat j) cs 0 < nth (N.to_nat i) cs 0) -> insert_index cs i l = l ++ [i].
Proof.
  induction l as [|j t IH]; intros H; cbn [insert_index app]; auto. assert (X := H j (or_introl eq_refl)). destruct (N.ltb_spec (nth (N.to_nat i) cs 0) (nth (N.to_nat j) cs 0)); [lia|]. f_equal. apply IH. intros k Hk. apply H. now right.
Qed.
Lemma srt_nth cs i j : srt cs -> (i < j < length cs)%nat -> nth i cs 0 < nth j cs 0.
Proof.
  intros H. revert i j. induction H as [|a t H1 IH H2]; intros i j L; cbn [length] in L; [lia|]. rewrite Forall_forall in H2. destruct j as [|j]; [lia|]. destruct i as [|i]; cbn [nth]; [apply H2; apply nth_In; lia|apply IH; lia].
Qed.
Lemma upto_snoc k : iota 0 (S k) = iota 0 k ++ [N.of_nat k].
Proof. rewrite <- !upto_iota. reflexivity. Qed.
Lemma sort_sorted cs : srt cs -> sort_indices cs = iota 0 (length cs).
Proof.
  intros H. unfold sort_indices. assert (G : forall k, (k <= length cs)%nat -> fold_left (fun l i => insert_index cs i l) (iota 0 k) [] = iota 0 k); [|now apply G].
  induction k as [|k IH]; intros L; auto. rewrite upto_snoc, fold_left_app, IH by lia. cbn [fold_left]. apply insert_last. intros j Hj. apply PParFor.iota_In in Hj. rewrite Nnat.Nat2N.id. apply srt_nth; auto. lia.
Qed.
Lemma place_same p : forall k i acc j, N.testbit (place_bits (iota i k) p i acc) j = N.testbit acc j || ((i <=? j) && (j <? i + N.of_nat k) && N.testbit p j).
Proof.
  induction k as [|k IH]; intros i acc j; cbn [iota place_bits].
  - destruct (N.leb_spec i j); destruct (N.ltb_spec j (i + N.of_nat 0)); cbn [andb]; rewrite ?orb_false_r; auto; lia.
  - rewrite IH, N.lor_spec. destruct (N.eq_dec i j) as [<-|NE].
    + replace (N.testbit (if N.testbit p i then 2 ^ i else 0) i) with (N.testbit p i) by (destruct (N.testbit p i); [now rewrite N.pow2_bits_true|now rewrite N.bits_0]). bcases; try lia; rewrite ?andb_false_r, ?orb_false_r; auto.
    + replace (N.testbit (if N.testbit p i then 2 ^ i else 0) j) with false by (destruct (N.testbit p i); [now rewrite N.pow2_bits_false|now rewrite N.bits_0]). rewrite orb_false_r. f_equal. bcases; auto; lia.
Qed.
Lemma set_of_sorted l : srt l -> set_of l = l.
Proof. intros H. apply srt_ext; auto. apply set_of_srt. intros x. apply set_of_In. Qed.
Lemma w8_same l : (forall x, In x l -> x < 256) -> map w8 l = l.
Proof. intros H. rewrite <- (map_id l) at 2. apply map_ext_in. intros x Hx. unfold w8. apply N.mod_small. now apply H. Qed.

Section Circuit.
  Context {K : StarRing}.
  Add Ring KrDQ : (sr_ring K).
  Lemma one_effect t (m : mat2 K) cs k psi x : effect (gate_c t m cs k) psi x = gate1 (fun y => ctrl_value 0 cs y =? k) t m psi x.
  Proof.
    unfold effect, gate_c, matrix_for. cbn [qg_pl qg_ctl qg_t find fst snd].
    set (M := fun y => match (if k =? y then Some (k, m) else None) with Some e => snd e | None => midn end).
    transitivity (gate1 always t (M (ctrl_value 0 cs x)) psi x); [destruct cs; reflexivity|]. unfold M, gate1, always. rewrite (N.eqb_sym k). destruct (ctrl_value 0 cs x =? k); [reflexivity|]. unfold midn. cbn [m00 m01 m10 m11]. destruct (N.testbit x t); ring.
  Qed.
  Lemma mc_sorted (m : mat2 K) cs q p psi x : srt cs -> (forall z, In z (q :: cs) -> z < 256) -> p < 2 ^ N.of_nat (length cs) -> effect (mc_gate m cs q p) psi x = gate1 (fun y => ctrl_value 0 cs y =? p) q m psi x.
  Proof.
    intros H1 H2 H3. unfold mc_gate. rewrite w8_same by (intros z Hz; apply H2; now right). rewrite set_of_sorted, sort_sorted by auto. assert (E : w8 q = q) by (unfold w8; apply N.mod_small; apply H2; now left). rewrite E.
    assert (E2 : place_bits (iota 0 (length cs)) p 0 0 = p). { apply N.bits_inj. intros j. rewrite place_same, N.bits_0, N.add_0_l. cbn [orb]. bcases; try lia; auto. symmetry. apply (tb_high p (N.of_nat (length cs))); auto. }
    rewrite E2. apply one_effect.
  Qed.
  Lemma mc_two (m : mat2 K) a b q p psi x : a <> b -> (forall z, In z [q; a; b] -> z < 256) -> p < 4 -> effect (mc_gate m [a; b] q p) psi x = gate1 (fun y => ctrl_value 0 [a; b] y =? p) q m psi x.
  Proof.
    intros H1 H2 H3. destruct (N.lt_ge_cases a b) as [L|L]. { apply mc_sorted; auto. repeat constructor; auto. }
    assert (BA : b < a) by lia. unfold mc_gate. rewrite w8_same by (intros z Hz; apply H2; now right). assert (E : w8 q = q) by (unfold w8; apply N.mod_small; apply H2; now left). rewrite E.
    replace (set_of [a; b]) with [b; a]. 2:{ unfold set_of. cbn [fold_left sins]. destruct (N.ltb_spec b a); [reflexivity|lia]. }
    replace (sort_indices [a; b]) with [1; 0]. 2:{ unfold sort_indices. cbn [length iota fold_left insert_index]. change (N.to_nat (0 + 1)) with 1%nat. change (N.to_nat 0) with 0%nat. cbn [nth]. destruct (N.ltb_spec b a); [reflexivity|lia]. }
    rewrite one_effect. assert (C : p = 0 \/ p = 1 \/ p = 2 \/ p = 3) by lia. unfold gate1. replace (ctrl_value 0 [b; a] x =? place_bits [1; 0] p 0 0) with (ctrl_value 0 [a; b] x =? p); [reflexivity|].
    cbn [ctrl_value]. destruct C as [->|[->|[->| ->]]]; destruct (N.testbit x a); destruct (N.testbit x b); reflexivity.
  Qed.
End Circuit.

(** ** From a new simulator *)
Section FromNew.
  Context {K : StarRing} (c : @acfg K).
  Local Notation nstate := ((N -> bool) -> K).
  Local Open Scope amp_scope.
  Add Ring KrDR : (sr_ring K).
  Lemma first_small n q : (n < 256)%N -> In q (first_ids n) -> (q < 256)%N.
  Proof. intros H I. unfold first_ids in I. apply in_rev in I. apply upto_in in I. lia. Qed.
  Lemma program_ok n a0 l : proper c -> (n < 256)%N -> allowed_all 256 (ac_max c) l (first_ids n) (nzero (first_ids n)) -> let (sid, a1) := init_count n a0 in
    exists rs a' ids Psi, api_calls c sid l a1 = Ret (rs, a') /\ nsteps (first_ids n) (nzero (first_ids n)) l rs ids Psi /\ holds a' sid ids Psi /\ only_at sid a1 a' /\ (forall q, In q ids -> (q < 256)%N) /\ ordered a' sid ids /\
      (forallb (keeps_ids (K := K)) l = true -> map_of a' sid = map_of a1 sid).
  Proof.
    intros PR Hn AL. pose proof (init_holds (K := K) n a0 Hn) as H. pose proof (init_order (K := K) n a0) as O. destruct (init_count n a0) as [sid a1].
    destruct (calls_ok c l a1 sid (first_ids n) (nzero (first_ids n)) PR H (fun q => first_small n q Hn) AL) as (rs & a' & ids & Psi & E & S1 & H1 & O1 & I1). destruct (calls_order c l a1 sid (first_ids n) (nzero (first_ids n)) rs a' PR H (fun q => first_small n q Hn) AL O E) as (ids2 & Psi2 & S2 & H2 & O2). exists rs, a', ids2, Psi2.
    do 4 (split; auto). split; [|split; [exact O2|]].
    - intros q Hq. apply I1. destruct H1 as (s & N1 & _ & P1 & _). destruct H2 as (s2 & N2 & _ & P2 & _). assert (s2 = s) by congruence. subst s2. eapply Permutation_in; [apply P1|]. eapply Permutation_in; [apply Permutation_sym; apply P2|exact Hq].
    - intros KI. exact (calls_map c l a1 sid _ _ rs a' PR H (fun q => first_small n q Hn) AL KI E).
  Qed.

  (** The part of a state next to the first value of the register with an amplitude that is not 0; good for product states. *)
  Definition cut (n s len : N) (v : N -> K) : (N -> K) * (N -> K) :=
    match find (fun x => negb (sr_eqb (v x) 0)) (basis n) with
    | Some x => (fun y => v (slice_ix s len (get_reg x s len) y), fun k => v (slice_ix s len k (outside x s len)))
    | None => (fun _ => 0, fun _ => 0)
    end.
  Lemma cut_ok n o b v w : (o < n)%N -> eqv n v (tensor_at o 1 w (ket b)) -> (b < 2)%N -> exists ph : K, anorm ph = 1 /\ eqv (n - 1) (fst (cut n o 1 v)) (fun x => ph * w x).
  Proof.
    intros Ho HV Hb. assert (VW : forall y, (y < 2 ^ (n - 1))%N -> v (slice_ix o 1 b y) = w y).
    { intros y Hy. assert (L : (slice_ix o 1 b y < 2 ^ n)%N) by (replace n with (n - 1 + 1)%N by lia; apply slice_ix_lt; auto; lia). rewrite HV by exact L. unfold tensor_at. rewrite outside_slice, reg_slice by auto. unfold ket. rewrite N.eqb_refl. ring. }
    exists 1. split; [unfold anorm; rewrite conj_1; ring|]. intros y Hy. unfold cut. destruct (find (fun x => negb (sr_eqb (v x) 0)) (basis n)) as [x|] eqn:F; cbn [fst].
    - apply find_some in F. destruct F as [F1 F2]. apply basis_In in F1. assert (get_reg x o 1 = b).
      { destruct (N.eq_dec (get_reg x o 1) b) as [E|E]; auto. exfalso. rewrite HV in F2 by exact F1. unfold tensor_at, ket in F2. destruct (N.eqb_spec (get_reg x o 1) b); [contradiction|]. assert (Z : w (outside x o 1) * 0 = 0) by ring. rewrite Z in F2. assert (Y : sr_eqb (0 : K) 0 = true) by now apply sr_eqb_ok. rewrite Y in F2. discriminate. }
      rewrite H, VW by exact Hy. ring.
    - pose proof (find_none _ _ F (slice_ix o 1 b y)) as Z. cbv beta in Z. rewrite VW in Z by exact Hy. assert (X : sr_eqb (w y) 0 = true).
      { destruct (sr_eqb (w y) 0); auto. symmetry. apply Z. apply basis_In. replace n with (n - 1 + 1)%N by lia. apply slice_ix_lt; auto; lia. }
      apply sr_eqb_ok in X. rewrite X. ring.
  Qed.
End FromNew.
