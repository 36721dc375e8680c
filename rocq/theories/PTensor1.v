(** QTensorNetwork: the layer stack. *)
From Coq Require Import NArith List Bool Lia Ring.
From Verif Require Import Bits MFunctions MParFor MKernel Amp PAmp MEngine MAlu SpecFunctions SpecState SpecUnit3 PLoop MQCircuit SpecQCircuit PQCirc1 PQCirc2 PQCirc3 PQCirc4 PQCirc5 PQCirc6 PQCirc8 MBdt SpecBdt PBdt1 MTensor SpecTensor.
Import ListNotations.
Local Open Scope N_scope.

Section T.
  Context {K : StarRing} (A : Arith K) (ci : K) (c : @tcfg K).
  Hypothesis EA : exact_arith A.
  Hypothesis PS : positive_sums (K := K).
  Hypothesis UP : tc_rgp c = true -> forall d, anorm (tc_ph c d) = 1%amp.
  Add Ring KrDC : (sr_ring K).
  Local Notation vec := (N -> K).
  Local Notation qgate := (@qgate K).
  Local Notation qcirc := (@qcirc K).
  Implicit Types (psi phi v w : N -> K) (q n : N).
  Local Open Scope amp_scope.

  (** ** Gates *)
  Lemma matrix_payload (g : qgate) k : matrix_for g k = payload_at g k.
  Proof.
    unfold matrix_for, payload_at. induction (qg_pl g) as [|[a m] t IH]; [reflexivity|]. cbn [find mfind fst snd]. rewrite (N.eqb_sym a k).
    destruct (k =? a)%N; [reflexivity|exact IH].
  Qed.
  Lemma ls_gate_ok n (g : qgate) v : gd n g -> exists v', ls_gate g v = Ret v' /\ forall x, v' x = effect g v x.
  Proof.
    intros [G|G].
    - destruct G as (G1 & G2 & G3 & G4 & G5 & G6). unfold ls_gate, effect. destruct (qg_ctl g) as [|c0 cs] eqn:EC.
      + destruct (qg_pl g) as [|[k m] t] eqn:EP; [congruence|]. cbn [length N.of_nat map fst increasing_below] in G5.
        assert (k = 0%N) by (destruct G5 as [G5 _]; change (2 ^ 0)%N with 1%N in G5; lia). subst k. cbn [mfind N.eqb]. eexists. split; [reflexivity|].
        intros x. cbn [ctrl_value]. unfold matrix_for. rewrite EP. cbn [find fst snd N.eqb]. reflexivity.
      + destruct (qg_pl g) as [|e t] eqn:EP; [congruence|]. eexists. split; [reflexivity|]. intros x. cbv beta. rewrite matrix_payload. reflexivity.
    - destruct G as (G1 & a & G2 & _). unfold ls_gate, effect. rewrite G1, G2. eexists. split; [reflexivity|]. reflexivity.
  Qed.
  Lemma ls_gates_ok n (gs : list qgate) : Forall (gd n) gs -> forall v, exists v', ls_gates gs v = Ret v' /\ forall x, v' x = effects gs v x.
  Proof.
    induction 1 as [|g t Hg Ht IH]; intros v; cbn [ls_gates].
    - exists v. split; reflexivity.
    - destruct (ls_gate_ok n g v Hg) as (v1 & E1 & F1). rewrite E1. cbn [bind]. destruct (IH v1) as (v2 & E2 & F2). exists v2. split; [exact E2|].
      intros x. rewrite F2, effects_cons. apply (effects_ext n); assumption.
  Qed.
  Lemma ls_run_ok n (qc : qcirc) v : Forall (gd n) (qc_gates qc) -> (qc_count qc <= n)%N -> exists v', ls_run qc (mkLS n v) = Ret (mkLS n v') /\ forall x, v' x = effects (qc_gates qc) v x.
  Proof.
    intros G C. unfold ls_run. cbn [ls_n]. destruct (N.ltb_spec n (qc_count qc)) as [H|_]; [lia|]. cbn zeta. cbn [ls_v ls_n].
    destruct (fuse_ok n (length (qc_gates qc)) (qc_gates qc) (le_n _) G) as [F1 F2]. destruct (ls_gates_ok n _ F1 v) as (v' & E1 & E2). rewrite E1. cbn [bind].
    exists v'. split; [reflexivity|]. intros x. rewrite E2. apply F2.
  Qed.

  (** ** Norms and weights *)
  Definition same n v w : Prop := exists ph, anorm ph = 1 /\ forall x, (x < 2 ^ n)%N -> v x = ph * w x.
  Lemma anorm_conj_u (x : K) : anorm x = 1 -> anorm (sr_conj x) = 1.
  Proof. unfold anorm. rewrite sr_conj_invol. intros H. rewrite <- H. ring. Qed.
  Lemma same_refl n v : same n v v.
  Proof. exists 1. split; [apply (anorm_1 (K := K))|]. intros. ring. Qed.
  Lemma same_sym n v w : same n v w -> same n w v.
  Proof.
    intros (p & P & H). exists (sr_conj p). split; [now apply anorm_conj_u|]. intros x Hx. rewrite H by exact Hx. transitivity (p * sr_conj p * w x); [|ring]. fold (anorm p). rewrite P. ring.
  Qed.
  Lemma same_trans n u v w : same n u v -> same n v w -> same n u w.
  Proof.
    intros (p & P & H) (r & R & G). exists (p * r). split; [rewrite (anorm_mul K), P, R; ring|]. intros x Hx. rewrite H, G by exact Hx. ring.
  Qed.
  Lemma same_eq n v w : (forall x, (x < 2 ^ n)%N -> v x = w x) -> same n v w.
  Proof. intros H. exists 1. split; [apply (anorm_1 (K := K))|]. intros x Hx. rewrite H by exact Hx. ring. Qed.
  Lemma same_weight n P v w : same n v w -> weight_of n P v = weight_of n P w.
  Proof. intros (p & H & E). now apply (weight_phase n P v w p). Qed.
  Lemma norm_weight n v : norm2 n v = weight_of n (fun _ => true) v.
  Proof. reflexivity. Qed.
  Lemma same_norm n v w : same n v w -> norm2 n v = norm2 n w.
  Proof. intros H. rewrite !norm_weight. now apply same_weight. Qed.
  Lemma chance_weight n q b v : chance n q b v = weight_of n (fun x => eqb (N.testbit x q) b) v.
  Proof. reflexivity. Qed.
  Lemma same_chance n q b v w : same n v w -> chance n q b v = chance n q b w.
  Proof. intros H. rewrite !chance_weight. now apply same_weight. Qed.
  Lemma weight_sum n P v : exists w : K, weight_of n P v = anorm w.
  Proof.
    unfold weight_of. induction (basis n) as [|x t (w & IH)]; [exists 0; cbn [asum]; symmetry; apply (anorm_0 K)|].
    exists (ar_sqrt A (anorm (if P x then v x else 0) + anorm w)). rewrite (anorm_root A EA). cbn [asum]. rewrite IH. destruct (P x); [reflexivity|]. rewrite (anorm_0 K). reflexivity.
  Qed.
  Lemma weight_add n P v : weight_of n P v + weight_of n (fun x => negb (P x)) v = norm2 n v.
  Proof.
    unfold weight_of, norm2. rewrite <- (asum_add K). apply asum_ext. intros x _. destruct (P x); cbn [negb]; ring.
  Qed.
  Lemma chance_add n q b v : chance n q b v + chance n q (negb b) v = norm2 n v.
  Proof.
    rewrite !chance_weight, <- (weight_add n (fun x => eqb (N.testbit x q) b)). f_equal. unfold weight_of. apply asum_ext. intros x _. destruct (N.testbit x q), b; reflexivity.
  Qed.
  Lemma weight_0 n P v : weight_of n P v = 0 -> forall x, (x < 2 ^ n)%N -> P x = true -> v x = 0.
  Proof.
    unfold weight_of. intros H x Hx HP. apply basis_In in Hx. induction (basis n) as [|y t IH]; [destruct Hx|]. cbn [asum] in H.
    assert (W : exists w : K, asum (fun x => if P x then anorm (v x) else 0) t = anorm w).
    { clear - EA. induction t as [|x t (w & IH)]; [exists 0; cbn [asum]; symmetry; apply (anorm_0 K)|].
      exists (ar_sqrt A (anorm (if P x then v x else 0) + anorm w)). rewrite (anorm_root A EA). cbn [asum]. rewrite IH. destruct (P x); [reflexivity|]. rewrite (anorm_0 K). reflexivity. }
    destruct W as (w & W). rewrite W in H.
    assert (H' : anorm (if P y then v y else 0) + anorm w = 0) by (destruct (P y); [exact H|]; rewrite (anorm_0 K); exact H).
    apply (proj2 PS) in H'. destruct H' as [H1 H2]. destruct Hx as [->|Hx]; [rewrite HP in H1; exact H1|]. apply IH; [|exact Hx]. rewrite W, H2. apply (anorm_0 K).
  Qed.
  Lemma weight_zero n P v : (forall x, (x < 2 ^ n)%N -> P x = true -> v x = 0) -> weight_of n P v = 0.
  Proof. intros H. unfold weight_of. apply asum_zero. intros x Hx. apply basis_In in Hx. destruct (P x) eqn:E; [|reflexivity]. rewrite H by assumption. apply (anorm_0 K). Qed.
  (** The amplitudes where [P] holds. *)
  Definition cut (P : N -> bool) v : vec := fun x => if P x then v x else 0.
  Lemma cut_norm n P v : norm2 n (cut P v) = weight_of n P v.
  Proof. unfold norm2, weight_of, cut. apply asum_ext. intros x _. destruct (P x); [reflexivity|apply (anorm_0 K)]. Qed.
  Lemma scale_weight n P (k : K) v w : (forall x, (x < 2 ^ n)%N -> v x = k * w x) -> weight_of n P v = anorm k * weight_of n P w.
  Proof.
    intros H. unfold weight_of. rewrite <- (asum_scale K). apply asum_ext. intros x Hx. apply basis_In in Hx. destruct (P x); [|ring]. rewrite H by exact Hx. apply (anorm_mul K).
  Qed.
  Lemma scale_norm n (k : K) v w : (forall x, (x < 2 ^ n)%N -> v x = k * w x) -> norm2 n v = anorm k * norm2 n w.
  Proof. intros H. rewrite !norm_weight. apply scale_weight. exact H. Qed.
  (** Two normalised multiples of a vector differ by a phase. *)
  Lemma unique_multiple n (a b w : vec) (k l : K) : norm2 n a = 1 -> norm2 n b = 1 -> (forall x, (x < 2 ^ n)%N -> a x = k * w x) -> (forall x, (x < 2 ^ n)%N -> b x = l * w x) -> same n a b.
  Proof.
    intros Na Nb Ha Hb. rewrite (scale_norm n k a w Ha) in Na. rewrite (scale_norm n l b w Hb) in Nb. exists (k * sr_conj l * norm2 n w). split.
    - rewrite !(anorm_mul K). assert (E : anorm (norm2 n w) = norm2 n w * norm2 n w).
      { unfold anorm. f_equal. rewrite norm_weight. destruct (weight_sum n (fun _ => true) w) as (s & ->). unfold anorm. rewrite sr_conj_mul, sr_conj_invol. ring. }
      rewrite E. transitivity ((anorm k * norm2 n w) * (anorm l * norm2 n w)); [|rewrite Na, Nb; ring]. assert (E2 : anorm (sr_conj l) = anorm l) by (unfold anorm; rewrite sr_conj_invol; ring). rewrite E2. ring.
    - intros x Hx. rewrite Ha, Hb by exact Hx. transitivity (k * (anorm l * norm2 n w) * w x); [rewrite Nb; ring|]. unfold anorm. ring.
  Qed.

  (** ** Measurements *)
  Lemma ph_unit d : anorm (fst (ls_phase c d)) = 1.
  Proof. unfold ls_phase. destruct (tc_rgp c) eqn:E; cbn [fst]; [now apply UP|apply (anorm_1 (K := K))]. Qed.
  Lemma factor_norm n P v (p : K) : anorm p = 1 -> weight_of n P v <> 0 -> anorm (ar_div A p (ar_sqrt A (weight_of n P v))) * weight_of n P v = 1.
  Proof.
    intros Hp H. destruct (weight_sum n P v) as (w & W). rewrite W in *. assert (E : anorm w = anorm w + anorm 0) by (rewrite (anorm_0 K); ring).
    assert (R : anorm (ar_sqrt A (anorm w)) = anorm w) by (rewrite E; rewrite (anorm_root A EA); reflexivity).
    rewrite <- R at 2. rewrite (anorm_div A EA); [exact Hp|]. intros Z. apply H. rewrite <- R, Z. apply (anorm_0 K).
  Qed.
  Lemma normal_cut n P v (p : K) : anorm p = 1 -> weight_of n P v <> 0 -> norm2 n (fun x => if P x then ar_div A p (ar_sqrt A (weight_of n P v)) * v x else 0) = 1.
  Proof.
    intros Hp H. rewrite <- (factor_norm n P v p Hp H) at 1. rewrite (scale_norm n (ar_div A p (ar_sqrt A (weight_of n P v))) _ (cut P v)); [rewrite cut_norm; reflexivity|].
    intros x _. unfold cut. destruct (P x); ring.
  Qed.
  Lemma eqb_1 (x y : K) : sr_eqb x y = true <-> x = y.
  Proof. apply sr_eqb_ok. Qed.
  Definition forced_ok n q (r f ap : bool) v (o : out (bool * @lstack K * N)) : Prop :=
    match o with
    | Ret (b, L, _) => (if f then b = r else chosen (tc_rnd c) (chance n q true v) b) /\ chance n q b v <> 0 /\ ls_n L = n /\
        (if ap then normalized n (ls_v L) (collapse q b v) else ls_v L = v)
    | Throws => f = true /\ chance n q r v = 0
    | Undef => False
    end.
  Lemma ls_force_ok n q r f ap v d : (q < n)%N -> norm2 n v = 1 -> forced_ok n q r f ap v (ls_force A c q r f ap (mkLS n v) d).
  Proof.
    intros Hq Hn. unfold ls_force, ls_prob. cbn [ls_n ls_v]. destruct (N.ltb_spec q n) as [_|]; [|lia]. cbn [bind].
    assert (EP : weight_of n (fun x => N.testbit x q) v = chance n q true v) by (rewrite chance_weight; unfold weight_of; apply asum_ext; intros x _; destruct (N.testbit x q); reflexivity).
    rewrite EP. set (p := chance n q true v) in *.
    assert (NZ : forall b : bool, (if b then p else 1 - p) = chance n q b v).
    { intros [|]; [reflexivity|]. rewrite <- Hn, <- (chance_add n q true v). cbn [negb]. fold p. ring. }
    set (st := if f then (r, d) else if sr_eqb p 1 then (true, d) else if sr_eqb p 0 then (false, d) else (tc_rnd c d p, (d + 1)%N)).
    assert (CH : (if f then fst st = r else chosen (tc_rnd c) p (fst st) /\ chance n q (fst st) v <> 0)).
    { unfold st. destruct f; [reflexivity|]. destruct (sr_eqb p 1) eqn:E1.
      - apply eqb_1 in E1. cbn [fst]. split; [left; auto|]. fold p. rewrite E1. exact (proj1 PS).
      - assert (N1 : p <> 1) by (intros Z; apply eqb_1 in Z; congruence). destruct (sr_eqb p 0) eqn:E0.
        + apply eqb_1 in E0. cbn [fst]. split; [right; left; auto|]. rewrite <- NZ, E0. intros Z. apply (proj1 PS). rewrite <- Z. ring.
        + assert (N0 : p <> 0) by (intros Z; apply eqb_1 in Z; congruence). cbn [fst]. split; [right; right; split; [exact N1|]; split; [exact N0|]; exists d; reflexivity|].
          rewrite <- NZ. destruct (tc_rnd c d p); [exact N0|]. intros Z. apply N1. transitivity (p + (1 - p)); [rewrite Z; ring|ring]. }
    destruct st as [b d']. cbn [fst] in CH. cbv beta iota zeta. rewrite NZ. destruct (sr_eqb (chance n q b v) 0) eqn:E0.
    - apply eqb_1 in E0. destruct f; [subst b; split; [reflexivity|exact E0]|]. destruct CH as [_ CH]. contradiction.
    - assert (N0 : chance n q b v <> 0) by (intros Z; apply eqb_1 in Z; congruence).
      assert (CH' : if f then b = r else chosen (tc_rnd c) p b) by (destruct f; [exact CH|apply CH]).
      destruct ap; cbn [andb]; [|cbn [forced_ok ls_n ls_v]; fold p; auto]. destruct (sr_eqb (chance n q b v) 1) eqn:E1; cbn [negb].
      + apply eqb_1 in E1. cbn [forced_ok ls_n ls_v]. fold p. split; [exact CH'|]. split; [exact N0|]. split; [reflexivity|]. split; [exact Hn|]. exists 1. intros x Hx. unfold collapse.
        assert (Z : chance n q (negb b) v = 0) by (transitivity (norm2 n v - chance n q b v); [rewrite <- (chance_add n q b v); ring|rewrite Hn, E1; ring]).
        destruct (eqb (N.testbit x q) b) eqn:EB; [ring|]. rewrite (weight_0 n _ v Z x Hx); [ring|]. destruct (N.testbit x q), b; cbn in *; congruence.
      + pose proof (ph_unit d') as PU. destruct (ls_phase c d') as [ph d'']. cbn [fst] in PU. cbn [forced_ok ls_n ls_v]. fold p. split; [exact CH'|]. split; [exact N0|]. split; [reflexivity|]. split.
        * apply normal_cut; assumption.
        * exists (ar_div A ph (ar_sqrt A (chance n q b v))). intros x _. unfold collapse. destruct (eqb (N.testbit x q) b); [reflexivity|ring].
  Qed.

  (** Forcing a list of results that is possible. *)
  Definition forced_list n (m : list (N * bool)) v (o : out (@lstack K * N)) : Prop :=
    exists v' d', o = Ret (mkLS n v', d') /\ norm2 n v' = 1 /\ exists k, forall x, (x < 2 ^ n)%N -> v' x = k * cut (reads m) v x.
  Lemma force_each_ok n m : forall v d, (forall e, In e m -> (fst e < n)%N) -> norm2 n v = 1 -> (exists x, (x < 2 ^ n)%N /\ reads m x = true /\ v x <> 0) -> forced_list n m v (ls_force_each A c m (mkLS n v) d).
  Proof.
    induction m as [|[q r] t IH]; intros v d Hm Hn (x & Hx & Rx & Vx); cbn [ls_force_each].
    - exists v, d. split; [reflexivity|]. split; [exact Hn|]. exists 1. intros y _. unfold cut. cbn. ring.
    - cbn [reads forallb fst snd] in Rx. apply andb_prop in Rx. destruct Rx as [R1 R2].
      assert (Hq : (q < n)%N) by (apply (Hm (q, r)); left; reflexivity).
      pose proof (ls_force_ok n q r true true v d Hq Hn) as F. destruct (ls_force A c q r true true (mkLS n v) d) as [[[b L] d1]| |]; cbn [forced_ok] in F.
      + destruct F as (-> & NZ & LN & N1 & k & Hk). cbn [bind]. destruct L as [n' v1]. cbn [ls_n ls_v] in *. subst n'.
        assert (K0 : anorm k * chance n q r v = 1). { rewrite <- N1. symmetry. change (asum (fun x0 => anorm (v1 x0)) (basis n)) with (norm2 n v1). rewrite (scale_norm n k v1 (collapse q r v) Hk). f_equal. rewrite chance_weight. apply (cut_norm n (fun x => eqb (N.testbit x q) r) v). }
        assert (KN : k <> 0). { intros Z. rewrite Z, (anorm_0 K) in K0. apply (proj1 PS). rewrite <- K0. ring. }
        destruct (IH v1 d1) as (v2 & d2 & E2 & N2 & k2 & Hk2).
        * intros e He. apply Hm. right. exact He.
        * exact N1.
        * exists x. split; [exact Hx|]. split; [exact R2|]. rewrite Hk by exact Hx. unfold collapse. rewrite R1. apply (mul_n0 A EA); assumption.
        * exists v2, d2. split; [exact E2|]. split; [exact N2|]. exists (k2 * k). intros y Hy. rewrite Hk2 by exact Hy. unfold cut. cbn [reads forallb fst snd]. fold (reads t y).
          destruct (reads t y); [|rewrite andb_false_r; ring]. rewrite Hk by exact Hy. unfold collapse. destruct (eqb (N.testbit y q) r); cbn [andb]; ring.
      + exfalso. destruct F as [_ F]. apply Vx. rewrite chance_weight in F. exact (weight_0 n _ v F x Hx R1).
      + destruct F.
  Qed.
  Lemma force_list_ok n m v d : (tc_engine c = true -> length m <> 1%nat) -> (forall e, In e m -> (fst e < n)%N) -> norm2 n v = 1 -> (exists x, (x < 2 ^ n)%N /\ reads m x = true /\ v x <> 0) -> forced_list n m v (ls_force_list A c m (mkLS n v) d).
  Proof.
    intros HE Hm Hn HX. unfold ls_force_list. destruct (tc_engine c); [|apply force_each_ok; assumption]. specialize (HE eq_refl).
    assert (G : forall m', m' = m -> forced_list n m v
      (if negb (forallb (fun e => fst e <? ls_n (mkLS n v))%N m') then Throws else
        let '(ph, d) := ls_phase c d in let p := weight_of (ls_n (mkLS n v)) (reads m') (ls_v (mkLS n v)) in
        if sr_eqb p 0 then Undef else if sr_eqb p 1 then Ret (mkLS n v, d)
        else Ret (mkLS (ls_n (mkLS n v)) (fun x => if reads m' x then ar_div A ph (ar_sqrt A p) * ls_v (mkLS n v) x else 0), d))).
    { intros m' ->. cbn [ls_n ls_v]. assert (B : forallb (fun e => fst e <? n)%N m = true) by (apply forallb_forall; intros e He; apply N.ltb_lt, Hm, He). rewrite B. cbn [negb].
      pose proof (ph_unit d) as PU. destruct (ls_phase c d) as [ph d1]. cbn [fst] in PU. cbv zeta. destruct HX as (x & Hx & Rx & Vx).
      assert (W : weight_of n (reads m) v <> 0) by (intros Z; apply Vx; exact (weight_0 n _ v Z x Hx Rx)).
      destruct (sr_eqb (weight_of n (reads m) v) 0) eqn:E0; [apply eqb_1 in E0; contradiction|]. destruct (sr_eqb (weight_of n (reads m) v) 1) eqn:E1.
      - apply eqb_1 in E1. exists v, d1. split; [reflexivity|]. split; [exact Hn|]. exists 1. intros y Hy. unfold cut. destruct (reads m y) eqn:Ry; [ring|].
        assert (Z : weight_of n (fun y => negb (reads m y)) v = 0) by (transitivity (norm2 n v - weight_of n (reads m) v); [rewrite <- (weight_add n (reads m) v); ring|rewrite Hn, E1; ring]).
        rewrite (weight_0 n _ v Z y Hy); [ring|]. cbv beta. rewrite Ry. reflexivity.
      - exists (fun x => if reads m x then ar_div A ph (ar_sqrt A (weight_of n (reads m) v)) * v x else 0), d1. split; [reflexivity|]. split; [apply normal_cut; assumption|].
        exists (ar_div A ph (ar_sqrt A (weight_of n (reads m) v))). intros y _. unfold cut. destruct (reads m y); [reflexivity|ring]. }
    specialize (G m eq_refl). destruct m as [|e [|e' t]]; [exact G|exfalso; apply HE; reflexivity|]. destruct e. exact G.
  Qed.
End T.
