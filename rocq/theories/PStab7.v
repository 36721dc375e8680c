(** Gates and measurement of the stabilizer simulator in both phase modes. *)
From Coq Require Import NArith ZArith List Bool Lia Ring FinFun Permutation.
From Verif Require Import Amp PAmp Bits MFunctions MParFor MQCircuit MEngine MStab SpecState SpecStab SpecStab2 PGates2 PStab1 PStab2 PStab3 PStab4 PStab5 PStab6 PLoop.
Import ListNotations.
Local Open Scope N_scope.

Section C.
  Context {K : StarRing}.
  Add Ring KrAJ : (sr_ring K).
  Variables im h : K.
  Hypothesis Him : (im * im = - (1))%amp.
  Hypothesis Hh : (h * h + h * h = 1)%amp.
  Local Notation vec := (N -> K).
  Local Notation act := (gate_act im h).

  Lemma neg_cancel (a : K) : (a + - (1) * a = 0)%amp. Proof. ring. Qed.
  (** Closed forms. *)
  Lemma flip2 y t : N.lxor (N.lxor y (2 ^ t)) (2 ^ t) = y. Proof. now rewrite N.lxor_assoc, N.lxor_nilpotent, N.lxor_0_r. Qed.
  Lemma cf_x P t (psi : vec) y : gate1 P t matX psi y = if P y then psi (N.lxor y (2 ^ t)) else psi y.
  Proof. unfold gate1, matX. destruct (P y); auto. destruct (N.testbit y t) eqn:E; cbn [m00 m01 m10 m11]; rewrite ?(clear_flip _ _ E), ?(set_flip _ _ E); ring. Qed.
  Lemma cf_y P t (psi : vec) y : gate1 P t (matY im) psi y = if P y then ((if N.testbit y t then im else - im) * psi (N.lxor y (2 ^ t)))%amp else psi y.
  Proof. unfold gate1, matY. destruct (P y); auto. destruct (N.testbit y t) eqn:E; cbn [m00 m01 m10 m11]; rewrite ?(clear_flip _ _ E), ?(set_flip _ _ E); ring. Qed.
  Lemma cf_z P t (psi : vec) y : gate1 P t matZ psi y = if P y && N.testbit y t then (- psi y)%amp else psi y.
  Proof. unfold gate1, matZ. destruct (P y); auto. destruct (N.testbit y t) eqn:E; cbn [m00 m01 m10 m11 andb]; ring. Qed.
  Lemma cf_s t (psi : vec) y : gate1 always t (matS im) psi y = if N.testbit y t then (im * psi y)%amp else psi y.
  Proof. unfold gate1, matS, always. destruct (N.testbit y t) eqn:E; cbn [m00 m01 m10 m11]; ring. Qed.
  Lemma cf_is t (psi : vec) y : gate1 always t (matIS im) psi y = if N.testbit y t then (- im * psi y)%amp else psi y.
  Proof. unfold gate1, matIS, always. destruct (N.testbit y t) eqn:E; cbn [m00 m01 m10 m11]; ring. Qed.
  Lemma cf_h t (psi : vec) y : gate1 always t (matH h) psi y = (h * ((if N.testbit y t then - psi y else psi y) + psi (N.lxor y (2 ^ t))))%amp.
  Proof. unfold gate1, matH, always. destruct (N.testbit y t) eqn:E; cbn [m00 m01 m10 m11]; rewrite ?(clear_flip _ _ E), ?(set_flip _ _ E); ring. Qed.
  Lemma cf_swap a b (q : K) (psi : vec) y : a <> b -> gate_swap always a b (mkMat 0%amp q q 0%amp) psi y =
    if xorb (N.testbit y a) (N.testbit y b) then (q * psi (N.lxor (N.lxor y (2 ^ a)) (2 ^ b)))%amp else psi y.
  Proof.
    intros Hne. unfold gate_swap, always. cbn [andb]. destruct (xorb (N.testbit y a) (N.testbit y b)) eqn:E; auto. cbv zeta.
    rewrite (swap_flip a b y Hne), E. unfold dm2, dm1. cbn [fst snd]. rewrite <- N.lxor_assoc. cbn [m00 m01 m10 m11]. destruct (N.testbit y a); ring.
  Qed.
  Lemma all_set1 c y : all_set [c] y = N.testbit y c. Proof. cbn. destruct (N.testbit y c); reflexivity. Qed.
  Lemma all_clear1 c y : all_clear [c] y = negb (N.testbit y c). Proof. cbn. destruct (N.testbit y c); reflexivity. Qed.
  Lemma tb_flip y t m : N.testbit (N.lxor y (2 ^ t)) m = xorb (N.testbit y m) (t =? m). Proof. now rewrite tb_lxor, tb_pow2. Qed.

  Ltac cf := cbn [gate_act]; repeat first [rewrite cf_x|rewrite cf_y|rewrite cf_z|rewrite cf_s|rewrite cf_is|rewrite cf_h|rewrite all_set1|rewrite all_clear1|rewrite tb_flip|rewrite N.eqb_refl|rewrite flip2].
  Ltac bits y := repeat match goal with |- context [N.testbit y ?t] => let b := fresh "b" in generalize (N.testbit y t); intros b; destruct b end; cbn [xorb negb andb].
  Ltac nrm2 := transitivity ((h * h + h * h) * 1)%amp.

  Lemma id_x t psi y : act (GH t) (act (GZ t) (act (GH t) psi)) y = act (GX t) psi y.
  Proof.
    cf. unfold always. transitivity ((h * h + h * h) * psi (N.lxor y (2 ^ t)))%amp; [|rewrite Hh; ring]. destruct (N.testbit y t); cbn [xorb negb andb]; ring.
  Qed.
  Lemma id_cnot c t psi y : c <> t -> act (GH t) (act (GCZ c t) (act (GH t) psi)) y = act (GCNOT c t) psi y.
  Proof.
    intros Hne. cf. rewrite !(proj2 (N.eqb_neq t c)) by auto. rewrite !xorb_false_r. transitivity ((h * h + h * h) * (if N.testbit y c then psi (N.lxor y (2 ^ t)) else psi y))%amp; [|rewrite Hh; ring].
    destruct (N.testbit y c), (N.testbit y t); cbn [xorb negb andb]; ring.
  Qed.
  Lemma id_acnot c t psi y : c <> t -> act (GH t) (act (GACZ c t) (act (GH t) psi)) y = act (GACNOT c t) psi y.
  Proof.
    intros Hne. cf. rewrite !(proj2 (N.eqb_neq t c)) by auto. rewrite !xorb_false_r. transitivity ((h * h + h * h) * (if negb (N.testbit y c) then psi (N.lxor y (2 ^ t)) else psi y))%amp; [|rewrite Hh; ring].
    destruct (N.testbit y c), (N.testbit y t); cbn [xorb negb andb]; ring.
  Qed.
  Lemma imim : (im * - im = 1)%amp. Proof. transitivity (- (im * im))%amp; [ring|]. rewrite Him. ring. Qed.
  Lemma id_y t psi y : act (GS t) (act (GX t) (act (GIS t) psi)) y = act (GY t) psi y.
  Proof. cf. unfold always. destruct (N.testbit y t); cbn [xorb negb andb]; ring. Qed.
  Lemma id_cy c t psi y : c <> t -> act (GS t) (act (GCNOT c t) (act (GIS t) psi)) y = act (GCY c t) psi y.
  Proof.
    intros Hne. cf. destruct (N.testbit y c), (N.testbit y t); cbn [xorb negb andb]; try ring. transitivity ((im * - im) * psi y)%amp; [ring|]. rewrite imim. ring.
  Qed.
  Lemma id_acy c t psi y : c <> t -> act (GS t) (act (GACNOT c t) (act (GIS t) psi)) y = act (GACY c t) psi y.
  Proof.
    intros Hne. cf. destruct (N.testbit y c), (N.testbit y t); cbn [xorb negb andb]; try ring. transitivity ((im * - im) * psi y)%amp; [ring|]. rewrite imim. ring.
  Qed.
  Lemma flip_swap y a b : N.lxor (N.lxor y a) b = N.lxor (N.lxor y b) a. Proof. rewrite !N.lxor_assoc. f_equal. apply N.lxor_comm. Qed.
  Lemma id_swap c t psi y : c <> t -> act (GCNOT c t) (act (GCNOT t c) (act (GCNOT c t) psi)) y = act (GSWAP c t) psi y.
  Proof.
    intros Hne. cbn [gate_act]. rewrite cf_swap by auto. cf. assert (E1 : (t =? c) = false) by (apply N.eqb_neq; auto). assert (E2 : (c =? t) = false) by (apply N.eqb_neq; auto). rewrite ?E1, ?E2.
    destruct (N.testbit y c), (N.testbit y t); cbn [xorb negb andb]; rewrite ?(flip_swap y (2 ^ c) (2 ^ t)), ?flip2; try ring.
  Qed.
  Lemma id_iswap c t psi y : c <> t -> act (GS t) (act (GS c) (act (GCZ c t) (act (GSWAP c t) psi))) y = act (GISWAP c t) psi y.
  Proof.
    intros Hne. cf. cbn [gate_act]. rewrite !cf_swap by auto. destruct (N.testbit y c), (N.testbit y t); cbn [xorb negb andb]; try ring.
    transitivity (- (im * im) * psi y)%amp; [ring|]. rewrite Him. ring.
  Qed.
  Lemma id_iiswap c t psi y : c <> t -> act (GSWAP c t) (act (GCZ c t) (act (GIS c) (act (GIS t) psi))) y = act (GIISWAP c t) psi y.
  Proof.
    intros Hne. cbn [gate_act]. rewrite !cf_swap by auto. cf. assert (E1 : (t =? c) = false) by (apply N.eqb_neq; auto). assert (E2 : (c =? t) = false) by (apply N.eqb_neq; auto). rewrite ?E1, ?E2.
    destruct (N.testbit y c), (N.testbit y t); cbn [xorb negb andb]; try ring. transitivity (- (im * im) * psi y)%amp; [ring|]. rewrite Him. ring.
  Qed.
End C.

(** ** Reading the control first: a determined measurement *)
Lemma m_find T t : valid T -> t < t_n T -> is_separable_z T t = Ok true -> determined T t.
Proof.
  intros V Ht H p Hp. unfold is_separable_z in H. replace (t_n T <=? t) with false in H by (symmetry; apply N.leb_gt; auto). injection H as H. apply negb_true_iff in H.
  destruct (N.testbit (rx (t_row T (t_n T + p))) t) eqn:E; auto. exfalso. apply not_true_iff_false in H. apply H. apply existsb_exists. exists p. split; [apply in_iota; lia|]. now rewrite N.add_comm.
Qed.
Lemma m_find2 T t : t < t_n T -> determined T t -> is_separable_z T t = Ok true.
Proof.
  intros Ht D. unfold is_separable_z. replace (t_n T <=? t) with false by (symmetry; apply N.leb_gt; auto). f_equal. apply negb_true_iff. apply not_true_iff_false. intros E. apply existsb_exists in E. destruct E as (p & Hp & E). apply in_iota in Hp. rewrite N.add_comm, D in E by lia. discriminate.
Qed.
Lemma sep_false T t : t < t_n T -> is_separable_z T t = Ok false -> exists p, p < t_n T /\ N.testbit (rx (t_row T (p + t_n T))) t = true.
Proof.
  intros Ht H. unfold is_separable_z in H. replace (t_n T <=? t) with false in H by (symmetry; apply N.leb_gt; auto). injection H as H. apply negb_false_iff in H. apply existsb_exists in H. destruct H as (p & Hp & E). apply in_iota in Hp. exists p. split; auto. lia.
Qed.
Lemma sep_total T t : t < t_n T -> exists b, is_separable_z T t = Ok b.
Proof. intros Ht. unfold is_separable_z. replace (t_n T <=? t) with false by (symmetry; apply N.leb_gt; auto). eauto. Qed.
Lemma force_det rgp rnd T t result doForce doApply : valid T -> t < t_n T -> determined T t -> doForce && negb doApply = false ->
  exists b, (force_m rgp rnd T t result doForce doApply = if doForce && negb (Bool.eqb result b) then Throw else Ok (b, T)) /\
    forall (K : StarRing) (im : K) psi, (im * im = - (1))%amp -> (forall a : K, (a + a = 0)%amp -> a = 0%amp) -> good im T psi -> has_value (t_n T) t b psi.
Proof.
  intros V Ht D HF. unfold force_m. replace (t_n T <=? t) with false by (symmetry; apply N.leb_gt; auto). rewrite HF.
  destruct (find (fun p => N.testbit (rx (t_row T (p + t_n T))) t) (iota 0 (N.to_nat (t_n T)))) as [p|] eqn:F1.
  { exfalso. apply find_split in F1. destruct F1 as (A & B & _). rewrite N.add_comm, D in B by lia. discriminate. }
  destruct (find (fun m => N.testbit (rx (t_row T m)) t) (iota 0 (N.to_nat (t_n T)))) as [m|] eqn:F2.
  - destruct (det_row T t m V Ht D F2) as (A & B & C & S). fold (det_fold T t (iota (m + 1) (N.to_nat (t_n T - (m + 1)))) (t_row T (m + t_n T))). set (w := det_fold T t _ _) in *. exists (negb (rr w =? 0)). split; [reflexivity|].
    intros K im psi Him tors G y Hy Hb. assert (E := S K im psi Him G y Hy). change (rop im (t_n T) w psi y = psi y) in E.
    assert (F : fitrow (t_n T) w) by (split; [rewrite A; apply pow2_pos|rewrite B; apply N.pow_lt_mono_r; lia]).
    rewrite (rop_closed im Him) in E by auto. rewrite A, B, phi_z, N.lxor_0_r in E by auto. apply tors. transitivity (psi y + ph im (rr w + 2 * b2n (N.testbit y t)) * psi y)%amp; [now rewrite E|].
    rewrite (ph_eq im Him _ 2), (ph_2 im Him).
    + apply neg_cancel.
    + destruct C as [C|C]; rewrite C in Hb |- *; cbn in Hb; destruct (N.testbit y t); cbn; congruence.
  - exfalso. destruct (det_exists T t V Ht D) as (m & Hm & E). rewrite (find_iota_none _ _ _ F2 m) in E by lia. discriminate.
Qed.

Section D.
  Context {K : StarRing}.
  Add Ring KrAK : (sr_ring K).
  Variables im h : K.
  Hypothesis Him : (im * im = - (1))%amp.
  Hypothesis Hh : (h * h + h * h = 1)%amp.
  Hypothesis tors : forall a : K, (a + a = 0)%amp -> a = 0%amp.
  Local Notation vec := (N -> K).
  Local Notation act := (gate_act im h). Local Notation good := (good im).

  Lemma good_eqv T psi psi' : valid T -> eqv (t_n T) psi psi' -> good T psi -> good T psi'.
  Proof.
    intros V E G p Hp y Hy. rewrite <- (E y Hy). rewrite <- (G p Hp y Hy). apply (rop_ext im Him (t_n T) (t_row T (t_n T + p))); auto; [apply S_fit; auto|]. intros u Hu. symmetry. now apply E.
  Qed.
  Lemma good_scale T psi a : valid T -> good T psi -> good T (fun y => (a * psi y)%amp).
  Proof.
    intros V G p Hp y Hy. assert (E := G p Hp y Hy). change (rop im (t_n T) (t_row T (t_n T + p)) psi y = psi y) in E. change (rop im (t_n T) (t_row T (t_n T + p)) (fun u => (a * psi u)%amp) y = (a * psi y)%amp).
    rewrite (rop_closed im Him) in * by (apply S_fit; auto). rewrite <- E. ring.
  Qed.

  Definition step (T : tab) (r : res tab) (U : vec -> vec) : Prop :=
    valid T -> exists T', r = Ok T' /\ t_n T' = t_n T /\ valid T' /\ forall psi, good T psi -> good T' (U psi).
  Lemma step_bind T r f U W : step T r U -> (forall T', t_n T' = t_n T -> step T' (f T') W) -> step T (rbind r f) (fun psi => W (U psi)).
  Proof.
    intros A B V. destruct (A V) as (T1 & E & N1 & V1 & G1). rewrite E. cbn [rbind]. destruct (B T1 N1 V1) as (T2 & E2 & N2 & V2 & G2). exists T2. split; auto. split; [congruence|]. split; auto.
  Qed.
  Lemma step_ext T r U U' : step T r U -> (forall psi y, U psi y = U' psi y) -> step T r U'.
  Proof. intros A B V. destruct (A V) as (T1 & E & N1 & V1 & G1). exists T1. split; auto. split; auto. split; auto. intros psi G. apply (good_eqv T1 (U psi)); auto. intros y _. apply B. Qed.
  Lemma step_red T : step T (Ok (reduced T)) (fun psi => psi).
  Proof.
    intros V. destruct (equi_reduced T V) as [E F]. destruct (F V) as [V' G]. exists (reduced T). split; auto. split; auto. split; auto. intros psi. apply G. exact Him.
  Qed.
  Lemma step_pre T r U : (t_n (reduced T) = t_n T -> step (reduced T) r U) -> step T r U.
  Proof.
    intros A V. destruct (equi_reduced T V) as [E F]. destruct (F V) as [V' G]. destruct (A E V') as (T1 & E1 & N1 & V1 & G1). exists T1. split; auto. split; [congruence|]. split; auto. intros psi H. apply G1, G; auto.
  Qed.
  Lemma reduced_n T : valid T -> t_n (reduced T) = t_n T. Proof. intros V. apply equi_reduced, V. Qed.
  Lemma qubits_ok T qs : (forall q, In q qs -> q < t_n T) -> existsb (fun q => t_n T <=? q) qs = false.
  Proof. intros H. apply not_true_iff_false. intros E. apply existsb_exists in E. destruct E as (q & Hq & E). apply N.leb_le in E. apply H in Hq. lia. Qed.
  Lemma step_par T g qs : gate_fits (t_n T) g -> (forall q, In q qs -> q < t_n T) -> step T (par_rows T qs (gate_row g)) (act g).
  Proof.
    intros Hg Hq V. unfold par_rows. rewrite qubits_ok by auto. exists (map_rows T (gate_row g)). split; [reflexivity|]. split; [reflexivity|]. split; [apply gate_valid; auto|]. intros psi G. apply gate_good; auto.
  Qed.
  Lemma step_par1 T t f g : gate_row g = upd1 t f -> t < t_n T -> (forall n, t < n -> gate_fits n g) -> step T (par_rows T [t] (upd1 t f)) (act g).
  Proof. intros <- Ht Hg. apply step_par; auto. intros q [<-|[]]; auto. Qed.
  Lemma step_par2 T c t f g : gate_row g = upd2 c t f -> c < t_n T -> t < t_n T -> (forall n, c < n -> t < n -> gate_fits n g) -> step T (par_rows T [c; t] (upd2 c t f)) (act g).
  Proof. intros <- Hc Ht Hg. apply step_par; auto. intros q [<-|[<-|[]]]; auto. Qed.

  (** A determined qubit is measured without changing the tableau. *)
  Lemma m_det_spec rgp T t : valid T -> t < t_n T -> is_separable_z T t = Ok true -> exists b, m_det rgp T t = Ok (b, T) /\ forall psi, good T psi -> has_value (t_n T) t b psi.
  Proof.
    intros V Ht H. apply m_find in H; auto. destruct (force_det rgp false T t false false true V Ht H eq_refl) as (b & E & P). exists b. split; auto. intros psi G. now apply (P K im psi Him tors).
  Qed.
  Lemma has_value_scale n t b (psi : vec) (u : bool -> K) : has_value n t b psi -> eqv n (fun y => (u b * psi y)%amp) (fun y => (u (N.testbit y t) * psi y)%amp).
  Proof. intros H y Hy. destruct (Bool.bool_dec (N.testbit y t) b) as [->|E]; auto. rewrite (H y Hy E). ring. Qed.
  (** Diagonal gate on a determined qubit. *)
  Lemma step_diag rgp T t (u : bool -> K) U : t < t_n T -> (forall psi y, U psi y = (u (N.testbit y t) * psi y)%amp) -> is_separable_z T t = Ok true ->
    step T (rbind (m_det rgp T t) (fun r => Ok (snd r))) U.
  Proof.
    intros Ht HU H V. destruct (m_det_spec rgp T t V Ht H) as (b & E & P). rewrite E. cbn [rbind snd]. exists T. split; auto. split; auto. split; auto. intros psi G.
    apply (good_eqv T (fun y => (u b * psi y)%amp)); auto; [|now apply good_scale]. intros y Hy. rewrite HU. apply (has_value_scale (t_n T) t b psi u (P psi G) y Hy).
  Qed.
  Lemma step_sep T t (A B : res tab) U : t < t_n T -> (is_separable_z T t = Ok true -> step T A U) -> step T B U -> step T (rbind (is_separable_z T t) (fun b => if b then A else B)) U.
  Proof. intros Ht HA HB. destruct (sep_total T t Ht) as (b & E). rewrite E. cbn [rbind]. destruct b; auto. Qed.

  Lemma step_z rgp T t : t < t_n T -> step T (sg_z rgp T t) (act (GZ t)).
  Proof.
    intros Ht. unfold sg_z. destruct rgp.
    - apply (step_ext _ _ (fun psi => act (GZ t) psi)); [|reflexivity]. apply (step_bind T _ _ (act (GZ t)) (fun psi => psi)); [apply step_par1; auto|]. intros T' _. apply step_red.
    - apply step_sep; auto.
      + intros H. apply (step_diag false T t (fun b => if b then - (1) else 1)%amp); auto. intros psi y. cbn [gate_act]. rewrite cf_z. unfold always. cbn [andb]. destruct (N.testbit y t); ring.
      + apply step_pre. intros E. apply step_par1; auto; rewrite E; auto.
  Qed.
  Lemma step_s rgp T t : t < t_n T -> step T (sg_s rgp T t) (act (GS t)).
  Proof.
    intros Ht. unfold sg_s. destruct rgp; [apply step_par1; auto|]. apply step_sep; auto.
    - intros H. apply (step_diag false T t (fun b => if b then im else 1)%amp); auto. intros psi y. cbn [gate_act]. rewrite cf_s. destruct (N.testbit y t); ring.
    - apply step_pre. intros E. apply step_par1; auto; rewrite E; auto.
  Qed.
  Lemma step_is rgp T t : t < t_n T -> step T (sg_is rgp T t) (act (GIS t)).
  Proof.
    intros Ht. unfold sg_is. destruct rgp; [apply step_par1; auto|]. apply step_sep; auto.
    - intros H. apply (step_diag false T t (fun b => if b then - im else 1)%amp); auto. intros psi y. cbn [gate_act]. rewrite cf_is. destruct (N.testbit y t); ring.
    - apply step_pre. intros E. apply step_par1; auto; rewrite E; auto.
  Qed.
  Lemma step_h rgp T t : t < t_n T -> step T (sg_h rgp T t) (act (GH t)).
  Proof.
    intros Ht. unfold sg_h. apply (step_bind T _ _ (act (GH t)) (fun psi => psi)); [apply step_par1; auto|]. intros T' _. destruct rgp; [|apply step_red].
    intros V. exists T'. auto.
  Qed.
  Lemma step_x rgp T t : t < t_n T -> step T (sg_x rgp T t) (act (GX t)).
  Proof.
    intros Ht. unfold sg_x. destruct rgp; [apply step_par1; auto|].
    apply (step_ext _ _ (fun psi => act (GH t) (act (GZ t) (act (GH t) psi)))); [|now apply id_x].
    apply (step_bind T _ _ (act (GH t)) (fun psi => act (GH t) (act (GZ t) psi))); [now apply step_h|]. intros T1 N1.
    apply (step_bind T1 _ _ (act (GZ t)) (act (GH t))); [apply step_z; congruence|]. intros T2 N2. apply step_h. congruence.
  Qed.
  Lemma step_y rgp T t : t < t_n T -> step T (sg_y rgp T t) (act (GY t)).
  Proof.
    intros Ht. unfold sg_y. destruct rgp; [apply step_par1; auto|]. apply step_sep; auto; [|apply step_par1; auto]. intros _.
    apply (step_ext _ _ (fun psi => act (GS t) (act (GX t) (act (GIS t) psi)))); [|now apply id_y].
    apply (step_bind T _ _ (act (GIS t)) (fun psi => act (GS t) (act (GX t) psi))); [now apply step_is|]. intros T1 N1.
    apply (step_bind T1 _ _ (act (GX t)) (act (GS t))); [apply step_x; congruence|]. intros T2 N2. apply step_s. congruence.
  Qed.
  (** Control determined: the gate acts or not. *)
  Lemma step_ctl rgp T c U A B : c < t_n T -> is_separable_z T c = Ok true ->
    (forall b psi, has_value (t_n T) c b psi -> eqv (t_n T) (U psi) (if b then A psi else B psi)) ->
    forall fa fb, step T (fa T) A -> step T (fb T) B -> step T (rbind (m_det rgp T c) (fun r => if fst r then fa (snd r) else fb (snd r))) U.
  Proof.
    intros Hc H HU fa fb SA SB V. destruct (m_det_spec rgp T c V Hc H) as (b & E & P). rewrite E. cbn [rbind fst snd].
    destruct b; [destruct (SA V) as (T1 & E1 & N1 & V1 & G1)|destruct (SB V) as (T1 & E1 & N1 & V1 & G1)]; exists T1; (split; [auto|]; split; [auto|]; split; [auto|]);
      intros psi G; (eapply good_eqv; [auto| |apply G1, G]); rewrite N1; intros y Hy; symmetry; [apply (HU true psi (P psi G) y Hy)|apply (HU false psi (P psi G) y Hy)].
  Qed.
  Lemma step_id T : step T (Ok T) (fun psi => psi). Proof. intros V. exists T. auto. Qed.
  Lemma step_cz rgp T c t : c < t_n T -> t < t_n T -> c <> t -> step T (sg_cz rgp T c t) (act (GCZ c t)).
  Proof.
    intros Hc Ht Hne. unfold sg_cz. destruct rgp; [apply step_par2; cbn; auto|]. apply step_sep; auto.
    - intros H. apply (step_ctl false T c (act (GCZ c t)) (act (GZ t)) (fun psi => psi) Hc H) with (fa := fun T => sg_z false T t) (fb := fun T => Ok T); [|now apply step_z|apply step_id].
      intros b psi Hv y Hy. cbn [gate_act]. rewrite cf_z, all_set1. destruct (Bool.bool_dec (N.testbit y c) b) as [E|E].
      + rewrite E. destruct b; [rewrite cf_z; reflexivity|reflexivity].
      + destruct b; rewrite ?cf_z; rewrite (Hv y Hy E); destruct (always y), (N.testbit y c), (N.testbit y t); cbn [andb]; ring.
    - apply step_pre. intros E. apply (step_bind (reduced T) _ _ (act (GCZ c t)) (fun psi => psi)); [apply step_par2; rewrite ?E; cbn; auto|]. intros T' _. apply step_red.
  Qed.
  Lemma step_anticz rgp T c t : c < t_n T -> t < t_n T -> c <> t -> step T (sg_anticz rgp T c t) (act (GACZ c t)).
  Proof.
    intros Hc Ht Hne. unfold sg_anticz. destruct rgp; [apply step_par2; cbn; auto|]. apply step_sep; auto.
    - intros H. apply (step_ctl false T c (act (GACZ c t)) (fun psi => psi) (act (GZ t)) Hc H) with (fb := fun T => sg_z false T t) (fa := fun T => Ok T); [|apply step_id|now apply step_z].
      intros b psi Hv y Hy. cbn [gate_act]. rewrite cf_z, all_clear1. destruct (Bool.bool_dec (N.testbit y c) b) as [E|E].
      + rewrite E. destruct b; [reflexivity|rewrite cf_z; reflexivity].
      + destruct b; rewrite ?cf_z; rewrite (Hv y Hy E); destruct (always y), (N.testbit y c), (N.testbit y t); cbn [andb negb]; ring.
    - apply step_pre. intros E. apply (step_bind (reduced T) _ _ (act (GACZ c t)) (fun psi => psi)); [apply step_par2; rewrite ?E; cbn; auto|]. intros T' _. apply step_red.
  Qed.
  Lemma step_cnot rgp T c t : c < t_n T -> t < t_n T -> c <> t -> step T (sg_cnot rgp T c t) (act (GCNOT c t)).
  Proof.
    intros Hc Ht Hne. unfold sg_cnot. destruct rgp; [apply step_par2; cbn; auto|].
    apply (step_ext _ _ (fun psi => act (GH t) (act (GCZ c t) (act (GH t) psi)))); [|intros; now apply id_cnot].
    apply (step_bind T _ _ (act (GH t)) (fun psi => act (GH t) (act (GCZ c t) psi))); [now apply step_h|]. intros T1 N1.
    apply (step_bind T1 _ _ (act (GCZ c t)) (act (GH t))); [apply step_cz; congruence|]. intros T2 N2. apply step_h. congruence.
  Qed.
  Lemma step_anticnot rgp T c t : c < t_n T -> t < t_n T -> c <> t -> step T (sg_anticnot rgp T c t) (act (GACNOT c t)).
  Proof.
    intros Hc Ht Hne. unfold sg_anticnot. destruct rgp; [apply step_par2; cbn; auto|].
    apply (step_ext _ _ (fun psi => act (GH t) (act (GACZ c t) (act (GH t) psi)))); [|intros; now apply id_acnot].
    apply (step_bind T _ _ (act (GH t)) (fun psi => act (GH t) (act (GACZ c t) psi))); [now apply step_h|]. intros T1 N1.
    apply (step_bind T1 _ _ (act (GACZ c t)) (act (GH t))); [apply step_anticz; congruence|]. intros T2 N2. apply step_h. congruence.
  Qed.
  Lemma step_cy rgp T c t : c < t_n T -> t < t_n T -> c <> t -> step T (sg_cy rgp T c t) (act (GCY c t)).
  Proof.
    intros Hc Ht Hne. unfold sg_cy. destruct rgp; [apply step_par2; cbn; auto|].
    apply (step_ext _ _ (fun psi => act (GS t) (act (GCNOT c t) (act (GIS t) psi)))); [|intros; now apply id_cy].
    apply (step_bind T _ _ (act (GIS t)) (fun psi => act (GS t) (act (GCNOT c t) psi))); [now apply step_is|]. intros T1 N1.
    apply (step_bind T1 _ _ (act (GCNOT c t)) (act (GS t))); [apply step_cnot; congruence|]. intros T2 N2. apply step_s. congruence.
  Qed.
  Lemma step_anticy rgp T c t : c < t_n T -> t < t_n T -> c <> t -> step T (sg_anticy rgp T c t) (act (GACY c t)).
  Proof.
    intros Hc Ht Hne. unfold sg_anticy. destruct rgp; [apply step_par2; cbn; auto|].
    apply (step_ext _ _ (fun psi => act (GS t) (act (GACNOT c t) (act (GIS t) psi)))); [|intros; now apply id_acy].
    apply (step_bind T _ _ (act (GIS t)) (fun psi => act (GS t) (act (GACNOT c t) psi))); [now apply step_is|]. intros T1 N1.
    apply (step_bind T1 _ _ (act (GACNOT c t)) (act (GS t))); [apply step_anticnot; congruence|]. intros T2 N2. apply step_s. congruence.
  Qed.
  Lemma step_swap rgp T c t : c < t_n T -> t < t_n T -> c <> t -> step T (sg_swap rgp T c t) (act (GSWAP c t)).
  Proof.
    intros Hc Ht Hne. unfold sg_swap. rewrite (proj2 (N.eqb_neq c t) Hne). destruct rgp; [apply step_par2; cbn; auto|].
    apply (step_ext _ _ (fun psi => act (GCNOT c t) (act (GCNOT t c) (act (GCNOT c t) psi)))); [|intros; now apply id_swap].
    apply (step_bind T _ _ (act (GCNOT c t)) (fun psi => act (GCNOT c t) (act (GCNOT t c) psi))); [now apply step_cnot|]. intros T1 N1.
    apply (step_bind T1 _ _ (act (GCNOT t c)) (act (GCNOT c t))); [apply step_cnot; congruence|]. intros T2 N2. apply step_cnot; congruence.
  Qed.
  Lemma step_iswap rgp T c t : c < t_n T -> t < t_n T -> c <> t -> step T (sg_iswap rgp T c t) (act (GISWAP c t)).
  Proof.
    intros Hc Ht Hne. unfold sg_iswap. rewrite (proj2 (N.eqb_neq c t) Hne). destruct rgp; [apply step_par2; cbn; auto|].
    apply (step_ext _ _ (fun psi => act (GS t) (act (GS c) (act (GCZ c t) (act (GSWAP c t) psi))))); [|intros; now apply id_iswap].
    apply (step_bind T _ _ (act (GSWAP c t)) (fun psi => act (GS t) (act (GS c) (act (GCZ c t) psi)))); [now apply step_swap|]. intros T1 N1.
    apply (step_bind T1 _ _ (act (GCZ c t)) (fun psi => act (GS t) (act (GS c) psi))); [apply step_cz; congruence|]. intros T2 N2.
    apply (step_bind T2 _ _ (act (GS c)) (act (GS t))); [apply step_s; congruence|]. intros T3 N3. apply step_s. congruence.
  Qed.
  Lemma step_iiswap rgp T c t : c < t_n T -> t < t_n T -> c <> t -> step T (sg_iiswap rgp T c t) (act (GIISWAP c t)).
  Proof.
    intros Hc Ht Hne. unfold sg_iiswap. rewrite (proj2 (N.eqb_neq c t) Hne). destruct rgp; [apply step_par2; cbn; auto|].
    apply (step_ext _ _ (fun psi => act (GSWAP c t) (act (GCZ c t) (act (GIS c) (act (GIS t) psi))))); [|intros; now apply id_iiswap].
    apply (step_bind T _ _ (act (GIS t)) (fun psi => act (GSWAP c t) (act (GCZ c t) (act (GIS c) psi)))); [now apply step_is|]. intros T1 N1.
    apply (step_bind T1 _ _ (act (GIS c)) (fun psi => act (GSWAP c t) (act (GCZ c t) psi))); [apply step_is; congruence|]. intros T2 N2.
    apply (step_bind T2 _ _ (act (GCZ c t)) (act (GSWAP c t))); [apply step_cz; congruence|]. intros T3 N3. apply step_swap; congruence.
  Qed.
  Theorem step_gate rgp T g : gate_fits (t_n T) g -> step T (sg_run rgp T g) (act g).
  Proof.
    intros Hg. destruct g; cbn [gate_fits sg_run] in *; try destruct Hg as (Hc & Ht & Hne).
    - now apply step_x. - now apply step_y. - now apply step_z. - now apply step_s. - now apply step_is. - now apply step_h.
    - now apply step_cnot. - now apply step_anticnot. - now apply step_cy. - now apply step_anticy. - now apply step_cz. - now apply step_anticz.
    - now apply step_swap. - now apply step_iswap. - now apply step_iiswap.
  Qed.
  (** Circuits. *)
  Lemma fold_throw rgp l : fold_left (fun r g => rbind r (fun T => sg_run rgp T g)) l Throw = Throw.
  Proof. induction l as [|g l IH]; cbn [fold_left rbind]; auto. Qed.
  Theorem step_circuit rgp l : forall T, Forall (gate_fits (t_n T)) l -> step T (sg_circuit rgp T l) (circuit_act im h l).
  Proof.
    induction l as [|g l IH]; intros T HF V.
    - exists T. auto.
    - inversion HF as [|? ? Hg HF']; subst. destruct (step_gate rgp T g Hg V) as (T1 & E1 & N1 & V1 & G1). unfold sg_circuit. cbn [fold_left rbind]. rewrite E1. fold (sg_circuit rgp T1 l).
      destruct (IH T1 ltac:(now rewrite N1) V1) as (T2 & E2 & N2 & V2 & G2). exists T2. split; auto. split; [congruence|]. split; auto. intros psi G. apply G2, G1, G.
  Qed.
End D.
