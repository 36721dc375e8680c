(** QBdt: controlled gates, swaps and gates with negative controls. *)
From Coq Require Import NArith Arith List Bool Lia Ring Permutation.
From Verif Require Import Amp PAmp SpecState PGates2 MCircuit PCircuit PPager7 PPager8 MBdt SpecBdt PBdt1 PBdt2 PBdt3 PBdt4.
Import ListNotations.
Local Open Scope N_scope.

(** ** Sorting *)
Lemma insert_perm x l : Permutation (insert x l) (x :: l).
Proof. induction l as [|y l IH]; [reflexivity|]. cbn [insert]. destruct (x <=? y); [reflexivity|]. rewrite IH. apply perm_swap. Qed.
Lemma sort_perm l : Permutation (sort l) l.
Proof. unfold sort. induction l as [|x l IH]; [reflexivity|]. cbn [fold_right]. rewrite insert_perm, IH. reflexivity. Qed.
Inductive asc : list N -> Prop := asc_nil : asc [] | asc_cons x l : (forall y, In y l -> x <= y) -> asc l -> asc (x :: l).
Lemma insert_asc x l : asc l -> asc (insert x l).
Proof.
  intros H. induction H as [|y l Hy H IH]; cbn [insert]; [constructor; [intros ? []|constructor]|]. destruct (N.leb_spec x y).
  - constructor; [|constructor; assumption]. intros z [<-|Hz]; [assumption|]. specialize (Hy z Hz). lia.
  - constructor; [|exact IH]. intros z Hz. apply (Permutation_in _ (insert_perm x l)) in Hz. destruct Hz as [<-|Hz]; [lia|apply Hy, Hz].
Qed.
Lemma sort_asc l : asc (sort l).
Proof. unfold sort. induction l as [|x l IH]; [constructor|]. apply insert_asc, IH. Qed.
Lemma asc_last l d : asc l -> forall x, In x l -> x <= last l d.
Proof.
  intros H. induction H as [|y l Hy H IH]; intros x; [intros []|]. destruct l as [|z l]; [intros [<-|[]]; cbn; lia|]. cbn [last]. change (x = y \/ In x (z :: l) \/ False -> x <= last (z :: l) d) || idtac.
  intros [<-|Hx]; [|apply IH, Hx]. etransitivity; [apply (Hy z); left; reflexivity|]. apply IH. left. reflexivity.
Qed.
Lemma sort_nil l : l <> [] -> sort l <> [].
Proof. intros H E. apply H. apply Permutation_nil. rewrite <- E. apply sort_perm. Qed.
(** The sorted list is what comes before the highest entry and the highest entry. *)
Lemma sort_split l : l <> [] -> NoDup l -> let cs := sort l in cs = removelast cs ++ [last cs 0] /\ (forall x, In x (removelast cs) -> x < last cs 0) /\ (forall x, In x l <-> In x (removelast cs) \/ x = last cs 0) /\ NoDup (removelast cs).
Proof.
  intros H ND cs. assert (E : cs = removelast cs ++ [last cs 0]) by (apply app_removelast_last, sort_nil, H). assert (ND' : NoDup cs) by (apply (Permutation_NoDup (Permutation_sym (sort_perm l))), ND).
  assert (IN : forall x, In x l <-> In x (removelast cs) \/ x = last cs 0).
  { intros x. assert (P : In x l <-> In x cs) by (split; apply Permutation_in; [symmetry|]; apply sort_perm). rewrite P. rewrite E at 1. rewrite in_app_iff. cbn. intuition congruence. }
  split; [exact E|]. rewrite E in ND'. apply NoDup_remove in ND'. destruct ND' as [N1 N2]. rewrite app_nil_r in N1, N2. split; [|split; [exact IN|exact N1]].
  intros x Hx. assert (L : x <= last cs 0) by (apply asc_last; [apply sort_asc|]; rewrite E; apply in_or_app; left; exact Hx). assert (x <> last cs 0) by (intros ->; contradiction). lia.
Qed.
Lemma all_set_perm l l' x : Permutation l l' -> all_set l x = all_set l' x.
Proof. unfold all_set. intros P. induction P; cbn; [reflexivity|rewrite IHP; reflexivity| |congruence]. destruct (N.testbit x y), (N.testbit x x0); reflexivity. Qed.
Lemma all_clear_perm l l' x : Permutation l l' -> all_clear l x = all_clear l' x.
Proof. unfold all_clear. intros P. induction P; cbn; [reflexivity|rewrite IHP; reflexivity| |congruence]. destruct (N.testbit x y), (N.testbit x x0); reflexivity. Qed.
Lemma all_set_in l l' x : (forall q, In q l <-> In q l') -> all_set l x = all_set l' x.
Proof. intros H. apply eq_true_iff_eq. unfold all_set. rewrite !forallb_forall. split; intros G q Hq; apply G, H, Hq. Qed.
Lemma all_clear_in l l' x : (forall q, In q l <-> In q l') -> all_clear l x = all_clear l' x.
Proof. intros H. apply eq_true_iff_eq. unfold all_clear. rewrite !forallb_forall. split; intros G q Hq; apply G, H, Hq. Qed.
Lemma swap_set a b x : swap_bits a b (N.setbit (swap_bits a b x) a) = N.setbit x b.
Proof. apply N.bits_inj. intros m. rewrite tb_swap, !N.setbit_eqb, !tb_swap. destruct (N.eqb_spec a m), (N.eqb_spec b m); subst; rewrite ?N.eqb_refl; cbn; try reflexivity; repeat match goal with |- context [N.eqb ?u ?v] => destruct (N.eqb_spec u v); subst end; try reflexivity; try congruence. Qed.
Lemma swap_clear a b x : swap_bits a b (N.clearbit (swap_bits a b x) a) = N.clearbit x b.
Proof. apply N.bits_inj. intros m. rewrite tb_swap, !N.clearbit_eqb, !tb_swap. destruct (N.eqb_spec a m), (N.eqb_spec b m); subst; rewrite ?N.eqb_refl; cbn; try reflexivity; repeat match goal with |- context [N.eqb ?u ?v] => destruct (N.eqb_spec u v); subst end; try reflexivity; try congruence. Qed.

Section B.
  Context {K : StarRing} (A : Arith K).
  Hypothesis EA : exact_arith A.
  Hypothesis PS : positive_sums (K := K).
  Add Ring KrCV : (sr_ring K).
  Local Open Scope amp_scope.
  Local Notation bdt := (@bdt K).
  Local Notation qbdt := (@qbdt K).

  Lemma holds_trans (B B1 B2 : qbdt) psi phi : holds B B1 psi -> holds B1 B2 phi -> holds B B2 phi.
  Proof. intros (_ & H2 & H3 & H4 & _) (G1 & G2 & G3 & G4 & G5). split; [exact G1|]. split; [congruence|]. split; [congruence|]. split; [congruence|exact G5]. Qed.
  Lemma two_n0 : (1 + 1 : K) <> 0.
  Proof. intros E. apply (proj1 PS). apply (proj2 PS 1 1). rewrite (anorm_one (K := K)). exact E. Qed.
  Lemma minus_one : sr_eqb (1 : K) (- (1)) = false.
  Proof. destruct (eqb_spec K (1 : K) (- (1))) as [E|]; [|reflexivity]. exfalso. apply two_n0. rewrite E at 2. ring. Qed.
  Lemma h_n0 : ar_h A <> 0.
  Proof. intros E. destruct EA as (_ & _ & _ & H & _). apply (proj1 PS). rewrite <- H, E. ring. Qed.
  Lemma h_unitary : unitary2 (h_mat A).
  Proof. destruct EA as (_ & _ & _ & H & C). unfold unitary2, mmul, mdag, midn, h_mat. cbn. rewrite conj_opp, C. f_equal; rewrite <- ?H; ring. Qed.
  Lemma x_unitary : unitary2 (mkMat (0 : K) 1 1 0).
  Proof. unfold unitary2, mmul, mdag, midn. cbn. rewrite conj_0, conj_1. f_equal; ring. Qed.

  Lemma hgate_run (B : qbdt) q : fit B -> (q < bt_n B)%N -> holds B (hgate A q B) (gate1 always q (h_mat A) (amp B)).
  Proof. intros H Hq. apply (mtrx_run A EA PS); [exact H|exact Hq|apply h_unitary|]. unfold skipped. cbn. rewrite (is0_n _ h_n0). reflexivity. Qed.
  Lemma xgate_run (B : qbdt) q : fit B -> (q < bt_n B)%N -> holds B (xgate A q B) (fun x => amp B (N.lxor x (2 ^ q))).
  Proof.
    intros H Hq. eapply holds_ext; [intros x; apply (flip_gate q (amp B) x)|]. apply (mtrx_run A EA PS); [exact H|exact Hq|apply x_unitary|]. unfold skipped. cbn. rewrite (is0_n _ (proj1 PS)). reflexivity.
  Qed.

  (** A phase on the states with all the qubits set. *)
  Lemma phase_gate cs t (m : mat2 K) psi x : m01 m = 0 -> m10 m = 0 -> m00 m = 1 -> gate1 (all_set cs) t m psi x = if all_set (t :: cs) x then m11 m * psi x else psi x.
  Proof.
    intros E1 E2 E3. unfold gate1. cbn [all_set forallb]. fold (all_set cs x). rewrite E1, E2, E3. destruct (all_set cs x); [|rewrite andb_false_r; reflexivity]. rewrite andb_true_r. destruct (N.testbit x t) eqn:E.
    - replace (N.setbit x t) with x; [ring|]. apply N.bits_inj. intros i. rewrite N.setbit_eqb. destruct (N.eqb_spec t i) as [<-|]; [rewrite E; reflexivity|reflexivity].
    - replace (N.clearbit x t) with x; [ring|]. apply N.bits_inj. intros i. rewrite N.clearbit_eqb. destruct (N.eqb_spec t i) as [<-|]; [rewrite E; reflexivity|rewrite andb_true_r; reflexivity].
  Qed.
  Definition wfc (n : N) (cs : list N) (t : N) : Prop := cs <> [] /\ NoDup cs /\ ~ In t cs /\ (forall c, In c cs -> (c < n)%N) /\ (t < n)%N.
  Lemma one_mat (m : mat2 K) : m00 m = 1 -> m01 m = 0 -> m10 m = 0 -> m11 m = 1 -> m = midn.
  Proof. destruct m. cbn. intros -> -> -> ->. reflexivity. Qed.

  Definition swap_ok (sw : N -> N -> qbdt -> qbdt) : Prop := forall (B : qbdt) a b, fit B -> a <> b -> (a < bt_n B)%N -> (b < bt_n B)%N -> holds B (sw a b B) (fun x => amp B (swap_bits a b x)).
  (** ApplyControlledSingle with positive controls. *)
  Lemma controlled_run sw (B : qbdt) m cs t : fit B -> wfc (bt_n B) cs t -> unitary2 m -> swap_ok sw \/ (forall c, In c cs -> (c < t)%N) \/ (m01 m = 0 /\ m10 m = 0 /\ m00 m = 1) ->
    holds B (controlled A sw m cs t false B) (gate1 (all_set cs) t m (amp B)).
  Proof.
    intros H (C0 & C1 & C2 & C3 & C4) U SW. unfold controlled. destruct (sort_split cs C0 C1) as (S1 & S2 & S3 & S4). set (ss := sort cs) in *. set (bk := last ss 0%N) in *. set (rs := removelast ss) in *.
    assert (BK : (bk < bt_n B)%N) by (apply C3, S3; right; reflexivity). assert (BT : bk <> t) by (intros E; apply C2, S3; right; symmetry; exact E).
    set (ph := is0 (m01 m) && is0 (m10 m) && sr_eqb 1 (m00 m)).
    assert (PH : reflect (m01 m = 0 /\ m10 m = 0 /\ m00 m = 1) ph).
    { unfold ph. destruct (is0_spec (m01 m)); [|constructor; tauto]. destruct (is0_spec (m10 m)); [|constructor; tauto]. cbn. destruct (eqb_spec K 1 (m00 m)); constructor; intuition congruence. }
    destruct (ph && sr_eqb 1 (m00 m) && sr_eqb 1 (m11 m)) eqn:EI.
    - apply andb_prop in EI. destruct EI as [EI E11]. apply andb_prop in EI. destruct EI as [EI _]. destruct PH as [(P1 & P2 & P3)|]; [|discriminate]. destruct (eqb_spec K 1 (m11 m)) as [E|]; [|discriminate].
      rewrite (one_mat m) by (assumption || symmetry; assumption). apply holds_refl; [exact H|]. intros x. symmetry. apply gate1_ident.
    - destruct (N.ltb_spec t bk) as [L|G].
      + destruct PH as [(P1 & P2 & P3)|NP].
        * eapply holds_ext; [|apply (ctrl_pos A EA PS B m (rs ++ [t]) bk H BK U)].
          -- intros x. rewrite !phase_gate by assumption. replace (all_set (bk :: rs ++ [t]) x) with (all_set (t :: cs) x); [reflexivity|]. apply all_set_in. intros q. cbn. rewrite in_app_iff, S3. cbn. intuition congruence.
          -- intros c Hc. apply in_app_or in Hc. destruct Hc as [Hc|[<-|[]]]; [apply S2, Hc|exact L].
        * destruct SW as [SW|[SW|SW]]; [|exfalso; specialize (SW bk (proj2 (S3 bk) (or_intror eq_refl))); lia|contradiction].
          pose proof (SW B bk t H BT BK C4) as W1. pose proof W1 as (F1 & N1 & _ & _ & V1). set (B1 := sw bk t B) in *.
          assert (W2 : holds B1 (ctrl_loop A m (sort (rs ++ [t])) bk false B1) (gate1 (all_set (sort (rs ++ [t]))) bk m (amp B1))).
          { apply (ctrl_pos A EA PS); [exact F1|rewrite N1; exact BK|exact U|]. intros c Hc. apply (Permutation_in _ (sort_perm _)) in Hc. apply in_app_or in Hc. destruct Hc as [Hc|[<-|[]]]; [apply S2, Hc|exact L]. }
          pose proof W2 as (F2 & N2 & _ & _ & V2). set (B2 := ctrl_loop A m _ bk false B1) in *.
          eapply holds_trans; [exact W1|]. eapply holds_trans; [exact W2|]. eapply holds_ext; [|apply (SW B2 bk t F2 BT)]; [|rewrite N2, N1; exact BK|rewrite N2, N1; exact C4].
          intros x. cbv beta. rewrite V2. unfold gate1. rewrite !V1. rewrite swap_set, swap_clear, swap_bits_invol. replace (all_set (sort (rs ++ [t])) (swap_bits bk t x)) with (all_set cs x).
          -- replace (N.testbit (swap_bits bk t x) bk) with (N.testbit x t); [reflexivity|]. rewrite tb_swap, N.eqb_refl. destruct (N.eqb_spec t bk); [lia|]. reflexivity.
          -- rewrite (all_set_perm _ _ _ (sort_perm (rs ++ [t]))). rewrite (all_set_in cs (rs ++ [bk])) by (intros q; rewrite in_app_iff, S3; cbn; intuition congruence). unfold all_set. rewrite !forallb_app. cbn. f_equal.
             ++ apply eq_true_iff_eq. rewrite !forallb_forall. assert (E : forall q, In q rs -> N.testbit (swap_bits bk t x) q = N.testbit x q).
                { intros q Hq. rewrite tb_swap. specialize (S2 q Hq). assert (q <> t) by (intros ->; apply C2, S3; left; exact Hq). destruct (N.eqb_spec bk q); [lia|]. destruct (N.eqb_spec t q); [congruence|reflexivity]. }
                split; intros HH q Hq; [rewrite E by exact Hq|rewrite <- E by exact Hq]; apply HH, Hq.
             ++ rewrite tb_swap. destruct (N.eqb_spec bk t); [congruence|]. rewrite N.eqb_refl. reflexivity.
      + eapply holds_ext; [|apply (ctrl_pos A EA PS B m ss t H C4 U)].
        * intros x. apply gate1_cond. apply all_set_perm, sort_perm.
        * intros c Hc. apply (Permutation_in _ (sort_perm _)) in Hc. assert (c <> t) by (intros ->; contradiction). apply S3 in Hc. destruct Hc as [Hc|Hc]; [specialize (S2 c Hc)|]; lia.
  Qed.

  (** MCPhase with 1 as the first phase. *)
  Lemma wfc_sorted n cs t : wfc n cs t -> wfc n (removelast (sort (cs ++ [t]))) (last (sort (cs ++ [t])) 0%N) /\ (forall c, In c (removelast (sort (cs ++ [t]))) -> (c < last (sort (cs ++ [t])) 0)%N) /\
    (forall q, In q (t :: cs) <-> In q (last (sort (cs ++ [t])) 0%N :: removelast (sort (cs ++ [t])))).
  Proof.
    intros (C0 & C1 & C2 & C3 & C4). assert (ND : NoDup (cs ++ [t])). { apply (Permutation_NoDup (Permutation_cons_append cs t)). constructor; assumption. }
    assert (NE : cs ++ [t] <> []) by (destruct cs; discriminate). destruct (sort_split (cs ++ [t]) NE ND) as (S1 & S2 & S3 & S4). set (ss := sort (cs ++ [t])) in *.
    assert (LT : forall q, In q (cs ++ [t]) -> (q < n)%N) by (intros q Hq; apply in_app_or in Hq; destruct Hq as [Hq|[<-|[]]]; [apply C3, Hq|exact C4]).
    split; [|split; [exact S2|]].
    - split; [|split; [exact S4|split; [|split]]].
      + intros E. assert (L : length ss = length (cs ++ [t])) by (apply Permutation_length, sort_perm). rewrite S1, E in L. cbn in L. rewrite app_length in L. destruct cs; [congruence|cbn in L; lia].
      + intros Hi. specialize (S2 _ Hi). lia.
      + intros c Hc. apply LT, S3. left. exact Hc.
      + apply LT, S3. right. reflexivity.
    - intros q. specialize (S3 q). rewrite in_app_iff in S3. clearbody ss. cbn [In] in *. clear -S3. split; intros [E|E]; subst; intuition congruence.
  Qed.
  Lemma phase_unitary (p : K) q : anorm p = 1 -> anorm q = 1 -> unitary2 (mkMat p 0 0 q).
  Proof. intros H1 H2. unfold unitary2, mmul, mdag, midn. cbn. rewrite conj_0. unfold anorm in *. f_equal; [rewrite <- H1|ring|ring|rewrite <- H2]; ring. Qed.
  Lemma mcphase_run sw (B : qbdt) cs p q t : fit B -> wfc (bt_n B) cs t -> anorm p = 1 -> anorm q = 1 -> swap_ok sw \/ p = 1 ->
    holds B (mcphase_with A (controlled A sw) cs p q t B) (gate1 (all_set cs) t (mkMat p 0 0 q) (amp B)).
  Proof.
    intros H W P Q SW. pose proof (phase_unitary p q P Q) as U. unfold mcphase_with. destruct cs as [|c cs]; [destruct W; congruence|]. set (l := c :: cs) in *. destruct (eqb_spec K 1 p) as [E|E]; cbn [negb].
    - subst p. destruct (eqb_spec K 1 q) as [E|E].
      + subst q. apply holds_refl; [exact H|]. intros x. symmetry. apply (gate1_ident (all_set l) t (amp B) x).
      + destruct (wfc_sorted _ _ _ W) as (W' & L & S). eapply holds_ext; [|apply controlled_run; [exact H|exact W'|exact U|right; right; auto]].
        intros x. rewrite !phase_gate by reflexivity. rewrite (all_set_in (t :: l) _ x S). reflexivity.
    - apply controlled_run; [exact H|exact W|exact U|]. destruct SW as [SW|SW]; [left; exact SW|congruence].
  Qed.
  Lemma gate1_same P t m (psi : N -> K) x : P x = true -> gate1 P t m psi x = gate1 always t m psi x.
  Proof. unfold gate1. intros ->. reflexivity. Qed.
  Lemma hzh P t (psi : N -> K) x : indep P t -> gate1 always t (h_mat A) (gate1 P t (mkMat 1 0 0 (- (1))) (gate1 always t (h_mat A) psi)) x = gate1 P t (mkMat 0 1 1 0) psi x.
  Proof.
    intros HP. destruct EA as (_ & _ & _ & Hh & _). set (phi := gate1 always t (h_mat A) psi). destruct (HP x) as [S C]. destruct (P x) eqn:E.
    - rewrite (gate1_same P t (mkMat 0 1 1 0)) by exact E. replace (gate1 always t (h_mat A) (gate1 P t (mkMat 1 0 0 (- (1))) phi) x) with (gate1 always t (h_mat A) (gate1 always t (mkMat 1 0 0 (- (1))) phi) x).
      2:{ unfold gate1 at 1 3. cbn [always]. rewrite !(gate1_same P) by congruence. reflexivity. }
      unfold phi. rewrite gate1_compose by apply indep_always. rewrite gate1_compose by apply indep_always. f_equal. unfold mmul, h_mat. cbn. f_equal; first [ring|transitivity (ar_h A * ar_h A + ar_h A * ar_h A); [ring|exact Hh]].
    - replace (gate1 P t (mkMat 0 1 1 0) psi x) with (psi x) by (unfold gate1; rewrite E; reflexivity).
      replace (gate1 always t (h_mat A) (gate1 P t (mkMat 1 0 0 (- (1))) phi) x) with (gate1 always t (h_mat A) phi x).
      2:{ unfold gate1. cbn [always]. rewrite S, C, E. reflexivity. }
      unfold phi. rewrite gate1_compose by apply indep_always. replace (mmul (h_mat A) (h_mat A)) with (@midn K); [apply gate1_ident|]. unfold mmul, h_mat, midn. cbn. f_equal; first [ring|symmetry; transitivity (ar_h A * ar_h A + ar_h A * ar_h A); [ring|exact Hh]].
  Qed.
  Lemma anti_unitary (p q : K) : anorm p = 1 -> anorm q = 1 -> unitary2 (mkMat 0 p q 0).
  Proof. intros H1 H2. unfold unitary2, mmul, mdag, midn. cbn. rewrite conj_0. unfold anorm in *. f_equal; [rewrite <- H2|ring|ring|rewrite <- H1]; ring. Qed.
  Lemma mcinvert_run sw (B : qbdt) cs p q t : fit B -> wfc (bt_n B) cs t -> anorm p = 1 -> anorm q = 1 -> swap_ok sw \/ (p = 1 /\ q = 1) ->
    holds B (mcinvert_with A (controlled A sw) cs p q t B) (gate1 (all_set cs) t (mkMat 0 p q 0) (amp B)).
  Proof.
    intros H W P Q SW. pose proof (anti_unitary p q P Q) as U. unfold mcinvert_with. destruct cs as [|c cs]; [destruct W; congruence|]. set (l := c :: cs) in *. destruct (negb (sr_eqb 1 p) || negb (sr_eqb 1 q)) eqn:E.
    - apply controlled_run; [exact H|exact W|exact U|]. destruct SW as [SW|[-> ->]]; [left; exact SW|]. rewrite !eqb_refl in E. discriminate.
    - apply orb_false_iff in E. destruct E as [E1 E2]. apply negb_false_iff in E1, E2. destruct (eqb_spec K 1 p); [|discriminate]. destruct (eqb_spec K 1 q); [|discriminate]. subst p q.
      pose proof W as (C0 & C1 & C2 & C3 & C4). destruct (sort_split l C0 C1) as (S1 & S2 & S3 & S4).
      assert (W' : wfc (bt_n B) (sort l) t).
      { split; [apply sort_nil, C0|]. split; [apply (Permutation_NoDup (Permutation_sym (sort_perm l))), C1|]. split; [intros Hi; apply C2, (Permutation_in _ (sort_perm l)), Hi|]. split; [|exact C4]. intros c0 Hc. apply C3, (Permutation_in _ (sort_perm l)), Hc. }
      destruct (N.ltb_spec (last (sort l) 0%N) t) as [L|G].
      + eapply holds_ext; [|apply controlled_run; [exact H|exact W'|exact U|right; left]].
        * intros x. apply gate1_cond. apply all_set_perm, sort_perm.
        * intros c0 Hc. apply (Permutation_in _ (sort_perm l)) in Hc. apply S3 in Hc. destruct Hc as [Hc|Hc]; [specialize (S2 c0 Hc)|]; lia.
      + pose proof (hgate_run B t H C4) as H1. pose proof H1 as (F1 & N1 & _ & _ & V1). set (B1 := hgate A t B) in *.
        assert (H2 : holds B1 (mcphase_with A (controlled A sw) (sort l) 1 (- (1)) t B1) (gate1 (all_set (sort l)) t (mkMat 1 0 0 (- (1))) (amp B1))).
        { apply mcphase_run; [exact F1|rewrite N1; exact W'|exact P| |right; reflexivity]. unfold anorm. rewrite conj_opp, conj_1. ring. }
        pose proof H2 as (F2 & N2 & _ & _ & V2). set (B2 := mcphase_with A _ _ _ _ _ B1) in *.
        eapply holds_trans; [exact H1|]. eapply holds_trans; [exact H2|]. eapply holds_ext; [|apply (hgate_run B2 t F2); rewrite N2, N1; exact C4].
        intros x. rewrite <- hzh by (apply indep_all_set, C2). apply gate1_amp. intros y. rewrite V2. rewrite (gate1_amp _ _ _ _ _ y V1). apply gate1_cond. apply all_set_perm, sort_perm.
  Qed.
  Lemma wfc1 n c t : c <> t -> (c < n)%N -> (t < n)%N -> wfc n [c] t.
  Proof. intros H1 H2 H3. split; [discriminate|]. split; [constructor; [intros []|constructor]|]. split; [intros [E|[]]; congruence|]. split; [intros x [<-|[]]; exact H2|exact H3]. Qed.
  Lemma cnot_run (B : qbdt) c t : fit B -> c <> t -> (c < bt_n B)%N -> (t < bt_n B)%N -> holds B (cnot A c t B) (fun x => amp B (cn c t x)).
  Proof.
    intros H N C T. eapply holds_ext; [intros x; apply (cnot_at c t (amp B) x)|]. apply mcinvert_run; [exact H|apply wfc1; assumption|apply (anorm_one (K := K))|apply (anorm_one (K := K))|right; auto].
  Qed.
  Lemma swap_run : swap_ok (swap A).
  Proof.
    intros B a b H N Ha Hb. assert (G : forall a b, a <> b -> (a < bt_n B)%N -> (b < bt_n B)%N -> holds B (cnot A a b (cnot A b a (cnot A a b B))) (fun x => amp B (swap_bits a b x))).
    { clear a b N Ha Hb. intros a b N Ha Hb. pose proof (cnot_run B a b H N Ha Hb) as H1. pose proof H1 as (F1 & N1 & _ & _ & V1). set (B1 := cnot A a b B) in *.
      assert (H2 : holds B1 (cnot A b a B1) (fun x => amp B1 (cn b a x))) by (apply cnot_run; [exact F1|congruence|rewrite N1; exact Hb|rewrite N1; exact Ha]). pose proof H2 as (F2 & N2 & _ & _ & V2). set (B2 := cnot A b a B1) in *.
      assert (H3 : holds B2 (cnot A a b B2) (fun x => amp B2 (cn a b x))) by (apply cnot_run; [exact F2|exact N|rewrite N2, N1; exact Ha|rewrite N2, N1; exact Hb]).
      eapply holds_trans; [exact H1|]. eapply holds_trans; [exact H2|]. eapply holds_ext; [|exact H3]. intros x. cbv beta. rewrite V2, V1. f_equal. apply cn_swap, N. }
    unfold swap. destruct (N.ltb_spec b a).
    - destruct (N.eqb_spec b a); [congruence|]. eapply holds_ext; [|apply G; auto]. intros x. cbv beta. f_equal. apply swap_sym.
    - destruct (N.eqb_spec a b); [congruence|]. apply G; assumption.
  Qed.
  Lemma mcmtrx_run (B : qbdt) cs m t : fit B -> wfc (bt_n B) cs t -> unitary2 m -> holds B (mcmtrx A cs m t B) (gate1 (all_set cs) t m (amp B)).
  Proof.
    intros H W U. unfold mcmtrx. destruct cs as [|c cs]; [destruct W; congruence|]. set (l := c :: cs) in *.
    destruct (is0_spec (m01 m)) as [Z1|Z1]; [destruct (is0_spec (m10 m)) as [Z2|Z2]|]; cbn [andb].
    - destruct (diag_unit m U Z1 Z2). replace m with (mkMat (m00 m) 0 0 (m11 m)) at 3 by (destruct m; cbn in *; congruence). apply mcphase_run; auto. left. apply swap_run.
    - destruct (is0_spec (m00 m)) as [Z3|Z3]; [destruct (is0_spec (m11 m)) as [Z4|Z4]|]; cbn [andb].
      + destruct (anti_unit m U Z3 Z4). replace m with (mkMat 0 (m01 m) (m10 m) 0) at 3 by (destruct m; cbn in *; congruence). apply mcinvert_run; auto. left. apply swap_run.
      + apply controlled_run; auto. left. apply swap_run. + apply controlled_run; auto. left. apply swap_run.
    - destruct (is0_spec (m00 m)) as [Z3|Z3]; [destruct (is0_spec (m11 m)) as [Z4|Z4]|]; cbn [andb].
      + destruct (anti_unit m U Z3 Z4). replace m with (mkMat 0 (m01 m) (m10 m) 0) at 3 by (destruct m; cbn in *; congruence). apply mcinvert_run; auto. left. apply swap_run.
      + apply controlled_run; auto. left. apply swap_run. + apply controlled_run; auto. left. apply swap_run.
  Qed.

  (** ** Negative controls *)
  Lemma xfold_run l : forall (B : qbdt), fit B -> (forall q, In q l -> (q < bt_n B)%N) -> exists M, (forall i, N.testbit M i = fold_right (fun q b => xorb (N.eqb q i) b) false l) /\
    holds B (fold_left (fun B q => xgate A q B) l B) (fun x => amp B (N.lxor x M)).
  Proof.
    induction l as [|q l IH]; intros B H L; cbn [fold_left fold_right].
    - exists 0%N. split; [intros i; apply N.bits_0|]. apply holds_refl; [exact H|]. intros x. rewrite N.lxor_0_r. reflexivity.
    - pose proof (xgate_run B q H (L q (or_introl eq_refl))) as H1. pose proof H1 as (F1 & N1 & _ & _ & V1). destruct (IH (xgate A q B) F1) as (M & EM & H2). { intros q' Hq. rewrite N1. apply L. right. exact Hq. }
      exists (N.lxor M (2 ^ q)). split; [intros i; rewrite N.lxor_spec, EM, N.pow2_bits_eqb; apply xorb_comm|]. eapply holds_trans; [exact H1|]. eapply holds_ext; [|exact H2]. intros x. cbv beta. rewrite V1, N.lxor_assoc. reflexivity.
  Qed.
  Lemma xmask_run (B : qbdt) cs : fit B -> NoDup cs -> (forall q, In q cs -> (q < bt_n B)%N) -> holds B (xmask A cs B) (fun x => amp B (N.lxor x (pow_mask cs))).
  Proof.
    intros H ND L. unfold xmask. destruct (xfold_run (sort cs) B H) as (M & EM & H1). { intros q Hq. apply L, (Permutation_in _ (sort_perm cs)), Hq. }
    replace (pow_mask cs) with M; [exact H1|]. apply N.bits_inj. intros i. rewrite EM, tb_pow_mask. assert (ND' : NoDup (sort cs)) by (apply (Permutation_NoDup (Permutation_sym (sort_perm cs))), ND).
    transitivity (existsb (N.eqb i) (sort cs)).
    - clear -ND'. induction ND' as [|q l NI ND IH]; [reflexivity|]. cbn. rewrite IH, (N.eqb_sym q i). destruct (N.eqb_spec i q) as [->|]; [|destruct (existsb _ l); reflexivity]. assert (E : existsb (N.eqb q) l = false); [|rewrite E; reflexivity].
      apply not_true_is_false. intros E. apply existsb_exists in E. destruct E as (y & Hy & E). apply N.eqb_eq in E. subst. contradiction.
    - apply eq_true_iff_eq. rewrite !existsb_exists. split; intros (y & Hy & E); exists y; (split; [|exact E]); [apply (Permutation_in _ (sort_perm cs))|apply (Permutation_in _ (Permutation_sym (sort_perm cs)))]; exact Hy.
  Qed.
  Lemma xor_gate cs t m (psi : N -> K) x : ~ In t cs -> gate1 (all_set cs) t m (fun y => psi (N.lxor y (pow_mask cs))) (N.lxor x (pow_mask cs)) = gate1 (all_clear cs) t m psi x.
  Proof.
    intros NI. assert (TB : N.testbit (pow_mask cs) t = false) by (rewrite tb_pow_mask; apply not_true_is_false; intros E; apply existsb_exists in E; destruct E as (y & Hy & E); apply N.eqb_eq in E; subst; contradiction).
    unfold gate1. rewrite all_set_mask, N.lxor_spec, TB, xorb_false_r.
    replace (N.lxor (N.setbit (N.lxor x (pow_mask cs)) t) (pow_mask cs)) with (N.setbit x t). 2:{ apply N.bits_inj. intros i. rewrite N.lxor_spec, !N.setbit_eqb, N.lxor_spec. destruct (N.eqb_spec t i) as [<-|]; cbn; [rewrite TB; reflexivity|]. destruct (N.testbit x i), (N.testbit (pow_mask cs) i); reflexivity. }
    replace (N.lxor (N.clearbit (N.lxor x (pow_mask cs)) t) (pow_mask cs)) with (N.clearbit x t). 2:{ apply N.bits_inj. intros i. rewrite N.lxor_spec, !N.clearbit_eqb, N.lxor_spec. destruct (N.eqb_spec t i) as [<-|]; cbn; [rewrite TB, !andb_false_r; reflexivity|]. destruct (N.testbit x i), (N.testbit (pow_mask cs) i); reflexivity. }
    replace (N.lxor (N.lxor x (pow_mask cs)) (pow_mask cs)) with x by (rewrite N.lxor_assoc, N.lxor_nilpotent, N.lxor_0_r; reflexivity). reflexivity.
  Qed.
  Lemma wrapped_run (B : qbdt) cs t m (g : qbdt -> qbdt) : fit B -> wfc (bt_n B) cs t -> (forall B1 : qbdt, fit B1 -> bt_n B1 = bt_n B -> holds B1 (g B1) (gate1 (all_set cs) t m (amp B1))) ->
    holds B (xmask A cs (g (xmask A cs B))) (gate1 (all_clear cs) t m (amp B)).
  Proof.
    intros H W G. pose proof W as (C0 & C1 & C2 & C3 & C4). pose proof (xmask_run B cs H C1 C3) as H1. pose proof H1 as (F1 & N1 & _ & _ & V1). set (B1 := xmask A cs B) in *.
    pose proof (G B1 F1 N1) as H2. pose proof H2 as (F2 & N2 & _ & _ & V2). set (B2 := g B1) in *. eapply holds_trans; [exact H1|]. eapply holds_trans; [exact H2|]. eapply holds_ext; [|apply (xmask_run B2 cs F2 C1)]; [|rewrite N2, N1; exact C3].
    intros x. cbv beta. rewrite V2. rewrite (gate1_amp _ _ _ _ _ _ V1). apply xor_gate, C2.
  Qed.
  Lemma macphase_run (B : qbdt) cs p q t : fit B -> wfc (bt_n B) cs t -> anorm p = 1 -> anorm q = 1 -> holds B (macphase A cs p q t B) (gate1 (all_clear cs) t (mkMat p 0 0 q) (amp B)).
  Proof.
    intros H W P Q. unfold macphase. destruct (eqb_spec K 1 p) as [<-|]; [destruct (eqb_spec K 1 q) as [<-|]|]; cbn [andb]; [apply holds_refl; [exact H|]; intros x; symmetry; apply (gate1_ident (all_clear cs) t (amp B) x)| |].
    all: apply wrapped_run; [exact H|exact W|]; intros B1 F1 N1; apply mcphase_run; [exact F1|rewrite N1; exact W|exact P|exact Q|left; exact swap_run].
  Qed.
  Lemma macinvert_run (B : qbdt) cs p q t : fit B -> wfc (bt_n B) cs t -> anorm p = 1 -> anorm q = 1 -> holds B (macinvert A cs p q t B) (gate1 (all_clear cs) t (mkMat 0 p q 0) (amp B)).
  Proof. intros H W P Q. apply wrapped_run; [exact H|exact W|]. intros B1 F1 N1. apply mcinvert_run; [exact F1|rewrite N1; exact W|exact P|exact Q|left; exact swap_run]. Qed.
  Lemma adjacent_one c : adjacent [c].
  Proof. exists c, 1%N. split; [lia|]. intros x. cbn. split; [intros [<-|[]]; lia|]. intros [H1 H2]. left. lia. Qed.
  Lemma controlled_neg_low sw (B : qbdt) m cs t : fit B -> wfc (bt_n B) cs t -> unitary2 m -> adjacent cs -> (forall c, In c cs -> (c < t)%N) -> holds B (controlled A sw m cs t true B) (gate1 (all_clear cs) t m (amp B)).
  Proof.
    intros H (C0 & C1 & C2 & C3 & C4) U AD L. unfold controlled. destruct (sort_split cs C0 C1) as (S1 & S2 & S3 & S4).
    destruct (is0 (m01 m) && is0 (m10 m) && sr_eqb 1 (m11 m) && sr_eqb 1 (m00 m) && sr_eqb 1 (m11 m)) eqn:EI.
    - repeat (apply andb_prop in EI; destruct EI as [EI ?]). destruct (is0_spec (m01 m)); [|discriminate]. destruct (is0_spec (m10 m)); [|discriminate]. destruct (eqb_spec K 1 (m11 m)); [|discriminate]. destruct (eqb_spec K 1 (m00 m)); [|discriminate].
      rewrite (one_mat m) by (assumption || symmetry; assumption). apply holds_refl; [exact H|]. intros x. symmetry. apply gate1_ident.
    - destruct (N.ltb_spec t (last (sort cs) 0%N)) as [X|G]; [specialize (L (last (sort cs) 0%N) (proj2 (S3 _) (or_intror eq_refl))); lia|].
      eapply holds_ext; [|apply (ctrl_neg A EA PS B m (sort cs) t H C4 U)].
      + intros x. apply gate1_cond. apply all_clear_perm, sort_perm.
      + intros c Hc. apply L, (Permutation_in _ (sort_perm cs)), Hc.
      + destruct AD as (lo & w & W0 & E). exists lo, w. split; [exact W0|]. intros c. rewrite <- E. split; apply Permutation_in; [|symmetry]; apply sort_perm.
  Qed.
  Lemma controlled_neg_one sw (B : qbdt) m c t : fit B -> c <> t -> (c < bt_n B)%N -> (t < bt_n B)%N -> unitary2 m -> ~ (m01 m = 0 /\ m10 m = 0) -> swap_ok sw -> holds B (controlled A sw m [c] t true B) (gate1 (all_clear [c]) t m (amp B)).
  Proof.
    intros H N C T U NP SW. unfold controlled. cbn [sort fold_right insert last removelast app].
    assert (PH : is0 (m01 m) && is0 (m10 m) = false) by (destruct (is0_spec (m01 m)); [destruct (is0_spec (m10 m)); [tauto|]|]; reflexivity). rewrite PH. cbn [andb].
    destruct (N.ltb_spec t c) as [L|G].
    - pose proof (SW B c t H N C T) as W1. pose proof W1 as (F1 & N1 & _ & _ & V1). set (B1 := sw c t B) in *.
      assert (W2 : holds B1 (ctrl_loop A m [t] c true B1) (gate1 (all_clear [t]) c m (amp B1))) by (apply (ctrl_neg A EA PS); [exact F1|rewrite N1; exact C|exact U|intros x [<-|[]]; exact L|apply adjacent_one]).
      pose proof W2 as (F2 & N2 & _ & _ & V2). set (B2 := ctrl_loop A m [t] c true B1) in *.
      eapply holds_trans; [exact W1|]. eapply holds_trans; [exact W2|]. eapply holds_ext; [|apply (SW B2 c t F2 N)]; [|rewrite N2, N1; exact C|rewrite N2, N1; exact T].
      intros x. cbv beta. rewrite V2. unfold gate1. rewrite !V1. rewrite swap_set, swap_clear, swap_bits_invol. cbn [all_clear forallb]. rewrite !tb_swap, !N.eqb_refl. destruct (N.eqb_spec c t); [congruence|]. reflexivity.
    - apply (ctrl_neg A EA PS); [exact H|exact T|exact U|intros x [<-|[]]; lia|apply adjacent_one].
  Qed.
  Lemma macmtrx_run (B : qbdt) cs m t : fit B -> wfc (bt_n B) cs t -> unitary2 m -> (m01 m = 0 /\ m10 m = 0) \/ (m00 m = 0 /\ m11 m = 0) \/ (exists c, cs = [c]) \/ (adjacent cs /\ forall c, In c cs -> (c < t)%N) ->
    holds B (macmtrx A cs m t B) (gate1 (all_clear cs) t m (amp B)).
  Proof.
    intros H W U C. unfold macmtrx. destruct cs as [|c cs]; [destruct W; congruence|]. set (l := c :: cs) in *.
    destruct (is0 (m01 m) && is0 (m10 m)) eqn:E1.
    - apply andb_prop in E1. destruct E1 as [E1 E2]. destruct (is0_spec (m01 m)) as [Z1|]; [|discriminate]. destruct (is0_spec (m10 m)) as [Z2|]; [|discriminate]. destruct (diag_unit m U Z1 Z2). replace m with (mkMat (m00 m) 0 0 (m11 m)) at 3 by (destruct m; cbn in *; congruence). apply macphase_run; auto.
    - assert (NP : ~ (m01 m = 0 /\ m10 m = 0)) by (intros [Z1 Z2]; rewrite Z1, Z2, is0_0 in E1; discriminate).
      destruct (is0 (m00 m) && is0 (m11 m)) eqn:E3.
      + apply andb_prop in E3. destruct E3 as [E3 E4]. destruct (is0_spec (m00 m)) as [Z1|]; [|discriminate]. destruct (is0_spec (m11 m)) as [Z2|]; [|discriminate]. destruct (anti_unit m U Z1 Z2). replace m with (mkMat 0 (m01 m) (m10 m) 0) at 3 by (destruct m; cbn in *; congruence). apply macinvert_run; auto.
      + destruct C as [C|[[Z1 Z2]|[[c' C]|[AD L]]]]; [contradiction|rewrite Z1, Z2, is0_0 in E3; discriminate| |].
        * rewrite C in *. destruct W as (_ & _ & NI & LT & T). apply controlled_neg_one; auto; [intros ->; apply NI; left; reflexivity|apply LT; left; reflexivity|apply swap_run].
        * apply controlled_neg_low; auto.
  Qed.

  (** ** Mtrx up to a global factor *)
  Definition holds_up (B B' : qbdt) (psi : N -> K) : Prop := exists c : K, anorm c = 1 /\ (bt_rgp B = false -> c = 1) /\ holds B B' (fun x => c * psi x).
  Lemma holds_up_of (B B' : qbdt) psi : holds B B' psi -> holds_up B B' psi.
  Proof. intros H. exists 1. split; [apply (anorm_one (K := K))|]. split; [reflexivity|]. eapply holds_ext; [|exact H]. intros x. ring. Qed.
  Lemma scalar_gate t (m : mat2 K) psi x : m01 m = 0 -> m10 m = 0 -> m00 m = m11 m -> gate1 always t m psi x = m00 m * psi x.
  Proof.
    intros E1 E2 E3. unfold gate1, always. rewrite E1, E2, <- E3. destruct (N.testbit x t) eqn:E.
    - replace (N.setbit x t) with x; [ring|]. apply N.bits_inj. intros i. rewrite N.setbit_eqb. destruct (N.eqb_spec t i) as [<-|]; [rewrite E; reflexivity|reflexivity].
    - replace (N.clearbit x t) with x; [ring|]. apply N.bits_inj. intros i. rewrite N.clearbit_eqb. destruct (N.eqb_spec t i) as [<-|]; [rewrite E; reflexivity|rewrite andb_true_r; reflexivity].
  Qed.
  Lemma skip_up (B : qbdt) m t : fit B -> unitary2 m -> m01 m = 0 -> m10 m = 0 -> m00 m = m11 m -> bt_rgp B = true \/ m00 m = 1 -> holds_up B B (gate1 always t m (amp B)).
  Proof.
    intros H U Z1 Z2 Z3 R. destruct (diag_unit m U Z1 Z2) as [N0 _]. exists (sr_conj (m00 m)). split; [unfold anorm in *; rewrite sr_conj_invol, <- N0; ring|]. split.
    - intros E. destruct R as [R|R]; [congruence|]. rewrite R. apply conj_1.
    - apply holds_refl; [exact H|]. intros x. rewrite scalar_gate by assumption. transitivity (anorm (m00 m) * amp B x); [rewrite N0; ring|]. unfold anorm. ring.
  Qed.
  Lemma mtrx_up (B : qbdt) m q : fit B -> (q < bt_n B)%N -> unitary2 m -> holds_up B (mtrx A m q B) (gate1 always q m (amp B)).
  Proof.
    intros H Hq U. destruct (skipped m B) eqn:E; [|apply holds_up_of, (mtrx_run A EA PS); assumption]. unfold mtrx. unfold skipped in E. rewrite E.
    apply andb_prop in E. destruct E as [E E4]. apply andb_prop in E. destruct E as [E E3]. apply andb_prop in E. destruct E as [E1 E2]. destruct (is0_spec (m01 m)); [|discriminate]. destruct (is0_spec (m10 m)); [|discriminate]. destruct (eqb_spec K (m00 m) (m11 m)); [|discriminate].
    apply skip_up; auto. apply orb_prop in E4. destruct E4 as [E4|E4]; [left; exact E4|right]. destruct (eqb_spec K 1 (m00 m)); [symmetry; assumption|discriminate].
  Qed.
End B.
