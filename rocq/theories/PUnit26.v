(** Proofs for QUnit: programs with measurements. *)
From Coq Require Import Arith NArith List Bool Lia Ring Permutation.
From Verif Require Import Bits MFunctions SpecFunctions PFunctions MKernel PKernel Amp PAmp SpecState PApply PCompose PGates PGates2 PProb PQCirc2 PQCirc3 PEngine MShard SpecShard MUnit SpecUnit PShard1 PShard2 PShard3 PShard4 PShard5 PShard6 PShard7 PShard8 PShard9 PUnit1 PUnit2 PUnit3 PUnit4 PUnit5 PUnit6 PUnit7 PUnit8 PUnit9 PUnit10 PUnit11 PUnit12 PUnit13 PUnit14 PUnit15 PUnit16 PUnit17 PUnit18 SpecUnit2 PUnit19 PUnit20 PUnit21 PUnit22 PUnit23 PUnit24 SpecUnit3 PUnit25.
Import ListNotations.
Local Open Scope N_scope.
Local Notation up n := (upto (N.to_nat n)).

Section P.
  Context {K : StarRing} (cx : Cplx K) (D : definite (K := K)) (nrm : K -> K).
  Add Ring KrCP : (sr_ring K).
  Local Notation vec := (N -> K).
  Local Notation unit1 x := (anorm x = 1%amp).
  Local Notation qu := (qunit K).
  Local Notation meaning := (meaning cx).
  Local Notation good := (good cx).
  Local Notation logical := (logical cx).
  Implicit Types (U V : qu) (psi phi : vec) (R : N -> N -> Prop).

  Lemma chance_wt n q b psi : chance n q b psi = wt n q b psi.
  Proof. unfold chance, wt, norm2. apply asum_ext. intros x _. unfold mask. destruct (eqb (N.testbit x q) b); [reflexivity|symmetry; apply anorm_0]. Qed.
  Lemma normalizes_ok n q psi : normalizes nrm -> nrm_ok nrm n q psi.
  Proof. intros H b Hb. exact (H (basis n) (mask q b psi) Hb). Qed.
  Definition ray n (z : K) psi phi : Prop := forall x, x < 2 ^ n -> psi x = (z * phi x)%amp.
  Lemma ray_wt n z q b psi phi : ray n z psi phi -> wt n q b psi = (anorm z * wt n q b phi)%amp.
  Proof.
    intros H. unfold wt, norm2. rewrite <- asum_scale. apply asum_ext. intros x Hx. apply up_in in Hx. unfold mask. destruct (eqb (N.testbit x q) b); [rewrite (H x Hx); apply anorm_mul|rewrite anorm_0; ring].
  Qed.
  Lemma ray_norm n z psi phi : ray n z psi phi -> norm2 n psi = (anorm z * norm2 n phi)%amp.
  Proof. intros H. unfold norm2. rewrite <- asum_scale. apply asum_ext. intros x Hx. apply up_in in Hx. rewrite (H x Hx). apply anorm_mul. Qed.
  Lemma ray_nonzero n z U psi : good U -> u_n U = n -> ray n z (logical U) psi -> z <> 0%amp.
  Proof.
    intros G En H E. subst n. pose proof (logical_norm cx U G) as L. rewrite (ray_norm _ _ _ _ H), E, anorm_0 in L. destruct D as (D1 & _). apply D1. rewrite <- L. ring.
  Qed.
  Lemma ideal_scale g z psi x : ideal cx g (fun y => z * psi y)%amp x = (z * ideal cx g psi x)%amp.
  Proof.
    assert (Z : forall P t m, gate1 P t m (fun y => z * psi y)%amp x = (z * gate1 P t m psi x)%amp) by (intros P t m; rewrite !gate1_at; destruct (P x), (N.testbit x t); ring). destruct g; cbn [ideal]; try apply Z. reflexivity.
  Qed.
  Lemma undecided_scale n q z psi : z <> 0%amp -> undecided n q psi -> undecided n q (fun y => z * psi y)%amp.
  Proof.
    intros Hz H v. destruct (H v) as (x & Hx & Hb & Hne). exists x. split; [exact Hx|]. split; [exact Hb|]. destruct D as (_ & D2 & _). intros E. destruct (D2 _ _ E); contradiction.
  Qed.
  (** A call that is no measurement. *)
  Lemma ray_call n R c U z psi : good U -> u_n U = n -> proper_call n c -> track R U -> safe_call cx n R psi c -> ray n z (logical U) psi ->
    let V := call cx c U in good V /\ u_n V = n /\ track (links_after cx R c) V /\ u_rnd V = u_rnd U /\ exists z', ray n z' (logical V) (ideal_call cx c psi).
  Proof.
    intros G En Hc T HS HL. pose proof (ray_nonzero n z U psi G En HL) as Hz.
    destruct (call_ok cx D n R c U (fun y => z * psi y)%amp G En Hc T) as (A1 & A2 & A3 & A4 & A5 & A6).
    - destruct c; cbn [safe_call] in *; auto. intros q p Hq Hp. apply undecided_scale; [exact Hz|]. apply (HS q p); assumption.
    - exists 1%amp. split; [apply unit_one|]. intros x Hx. rewrite (HL x Hx). ring.
    - cbn zeta. split; [exact A1|]. split; [exact A2|]. split; [exact A3|]. split; [exact A6|]. destruct A4 as (e & He & H4).
      destruct c as [g|y|q|y]; cbn [ideal_call] in *; [exists (e * z)%amp; intros x Hx; rewrite (H4 x Hx), ideal_scale; ring|exists (e * z)%amp; intros x Hx; rewrite (H4 x Hx); ring|exists (e * z)%amp; intros x Hx; rewrite (H4 x Hx); ring|exists e; exact H4].
  Qed.
  Lemma undecided_two_sided n z U q (r : bool) i psi : good U -> u_n U = n -> ray n z (logical U) psi -> i < n -> q < n -> undecided n i (collapse q r psi) -> two_sided (u_sw U i) (mask (u_sw U q) r (meaning U)).
  Proof.
    intros G En HL Hi Hq HU. pose proof (wf_sw U (gd_wf cx U G)) as B. pose proof (ray_nonzero n z U psi G En HL) as Hz. destruct D as (_ & D2 & _).
    assert (Z : forall v, ~ supported (u_sw U i) (negb v) (mask (u_sw U q) r (meaning U))).
    { intros v S. destruct (HU v) as (x & Hx & Hb & Hne). unfold collapse in Hne. destruct (eqb (N.testbit x q) r) eqn:Er; [|apply Hne; reflexivity]. subst n.
      assert (E : logical U x = 0%amp).
      { pose proof (S (phys (u_sw U) (u_n U) x)) as S'. unfold mask in S'. rewrite (tb_phys (u_sw U) (u_n U) x i B Hi), (tb_phys (u_sw U) (u_n U) x q B Hq), Er, Hb in S'. apply S'. destruct v; discriminate. }
      rewrite (HL x Hx) in E. destruct (D2 _ _ E); contradiction. }
    split; [apply (Z true)|apply (Z false)].
  Qed.
  Lemma collapse_at U q (r : bool) g x : good U -> q < u_n U -> cut (u_sw U q) r g (meaning U) (phys (u_sw U) (u_n U) x) = (g * collapse q r (logical U) x)%amp.
  Proof.
    intros G Hq. unfold cut, collapse. rewrite (tb_phys (u_sw U) (u_n U) x q (wf_sw U (gd_wf cx U G)) Hq). destruct (eqb (N.testbit x q) r); [reflexivity|ring].
  Qed.
  Lemma wt_nonzero n q (b : bool) psi x : x < 2 ^ n -> N.testbit x q = b -> psi x <> 0%amp -> wt n q b psi <> 0%amp.
  Proof.
    intros Hx Hb Hne E. destruct D as (_ & _ & D3). apply Hne. pose proof (D3 (basis n) (mask q b psi) E x (proj2 (up_in _ _) Hx)) as Z. unfold mask in Z. rewrite Hb, eqb_reflx in Z. exact Z.
  Qed.
  (** A measurement. *)
  Lemma ray_force n R q res f U z psi : normalizes nrm -> good U -> u_n U = n -> q < n -> track R U -> ray n z (logical U) psi ->
    (f = true -> exists x, x < 2 ^ n /\ N.testbit x q = res /\ psi x <> 0%amp) ->
    exists r V, ForceM cx nrm (u_sw U q) res f true U = (r, V) /\ (f = true -> r = res) /\
      (f = false -> exists p, (p * asum (fun x => anorm (psi x)) (basis n))%amp = chance n q true psi /\ chosen (u_rnd U) p r) /\
      chance n q r psi <> 0%amp /\
      ((forall c t, R c t -> undecided n c (collapse q r psi)) -> good V /\ u_n V = n /\ track R V /\ u_rnd V = u_rnd U /\ exists z', ray n z' (logical V) (collapse q r psi)).
  Proof.
    intros HN G En Hq T HL HP. pose proof (wf_sw U (gd_wf cx U G)) as B. pose proof (ray_nonzero n z U psi G En HL) as Hz.
    assert (Hq' : u_sw U q < u_n U) by (apply B; rewrite En; exact Hq).
    assert (EW : forall b, wt (u_n U) (u_sw U q) b (meaning U) = (anorm z * wt n q b psi)%amp).
    { intros b. rewrite <- (logical_wt cx U q b G) by (rewrite En; exact Hq). rewrite En. apply ray_wt, HL. }
    assert (HP' : f = true -> wt (u_n U) (u_sw U q) res (meaning U) <> 0%amp).
    { intros Hf. destruct (HP Hf) as (x & Hx & Hb & Hne). rewrite <- (logical_wt cx U q res G) by (rewrite En; exact Hq). rewrite En. apply (wt_nonzero n q res (logical U) x Hx Hb). rewrite (HL x Hx). destruct D as (_ & D2 & _). intros E. destruct (D2 _ _ E); contradiction. }
    destruct (force_ok cx D nrm (u_sw U q) res f U G Hq' (normalizes_ok (u_n U) (u_sw U q) (meaning U) HN) HP') as (r & V & E & Hr & F1 & F2 & M).
    exists r, V. split; [exact E|]. split; [exact F1|]. split; [|split].
    - intros Hf. exists (wt (u_n U) (u_sw U q) true (meaning U)). split; [|exact (F2 Hf)]. rewrite EW, chance_wt.
      transitivity (wt n q true psi * (anorm z * norm2 n psi))%amp; [unfold norm2; ring|]. rewrite <- (ray_norm _ _ _ _ HL), <- En, (logical_norm cx U G). ring.
    - rewrite chance_wt. intros E0. apply Hr. rewrite EW, E0. ring.
    - intros HR. destruct M as [M1 M2 M3 (g & Hg & M4)].
      { intros c t Hl. destruct (T c t Hl) as (i & j & Hij & Hi & Hj & Ei & Ej). rewrite <- Ei. apply (undecided_two_sided n z U q r i psi); [exact G|exact En|exact HL|rewrite <- En; exact Hi|exact Hq|]. apply (HR i j Hij). }
      destruct M2 as (H1 & H2 & H3 & _ & H5 & _). split; [exact M1|]. split; [congruence|]. split.
      { intros c t Hl. rewrite H2, H3. apply T, M3, Hl. }
      split; [exact H5|]. destruct M4 as (e & He & M4). exists (e * g * z)%amp. intros x Hx. unfold PUnit20.logical, at_logical. rewrite H2, H3, M4, (collapse_at U q r g x G) by (rewrite En; exact Hq).
      unfold collapse. destruct (eqb (N.testbit x q) r); [rewrite (HL x Hx)|]; ring.
  Qed.

  (** ** Programs *)
  Lemma mcalls_ok n ms : normalizes nrm -> forall R U z psi, good U -> u_n U = n -> Forall (proper_mcall n) ms -> track R U -> ray n z (logical U) psi ->
    forall rs V, mcalls cx nrm ms U = (rs, V) -> possible cx n ms rs psi -> safe_mcalls cx n R psi ms rs ->
    good V /\ u_n V = n /\ u_rnd V = u_rnd U /\ drawn cx (u_rnd U) n ms rs psi /\ exists z', ray n z' (logical V) (ideal_mcalls cx ms rs psi).
  Proof.
    intros HN. induction ms as [|m ms IH]; intros R U z psi G En HF T HL rs V E HP HS.
    - cbn [mcalls] in E. assert (Er : rs = []) by congruence. assert (EV : V = U) by congruence. subst rs V. split; [exact G|]. split; [exact En|]. split; [reflexivity|]. split; [exact I|]. exists z. exact HL.
    - inversion HF as [|m' ms' Hm HF' Em]; subst m' ms'.
      assert (Z : forall q res f, q < n -> (f = true -> exists x, x < 2 ^ n /\ N.testbit x q = res /\ psi x <> 0%amp) ->
        (let '(r, V) := ForceM cx nrm (u_sw U q) res f true U in let '(rs, W) := mcalls cx nrm ms V in (r :: rs, W)) = (rs, V) ->
        possible cx n ms (tl rs) (collapse q (hd false rs) psi) -> (forall c t, R c t -> undecided n c (collapse q (hd false rs) psi)) -> safe_mcalls cx n R (collapse q (hd false rs) psi) ms (tl rs) ->
        exists r rs', rs = r :: rs' /\ (f = true -> r = res) /\ (f = false -> exists p, (p * asum (fun x => anorm (psi x)) (basis n))%amp = chance n q true psi /\ chosen (u_rnd U) p r) /\ chance n q r psi <> 0%amp /\
        good V /\ u_n V = n /\ u_rnd V = u_rnd U /\ drawn cx (u_rnd U) n ms rs' (collapse q r psi) /\ exists z', ray n z' (logical V) (ideal_mcalls cx ms rs' (collapse q r psi))).
      { intros q res f Hq HE E' HP' HU HS'. destruct (ray_force n R q res f U z psi HN G En Hq T HL HE) as (r & X & EX & F1 & F2 & F4 & F3). rewrite EX in E'. destruct (mcalls cx nrm ms X) as [rs1 W] eqn:E1.
        assert (Er : rs = r :: rs1) by congruence. assert (EV : V = W) by congruence. subst rs V. cbn [tl hd] in HP', HU, HS'. destruct (F3 HU) as (B1 & B2 & B3 & B4 & z' & B5).
        exists r, rs1. split; [reflexivity|]. split; [exact F1|]. split; [exact F2|]. split; [exact F4|]. rewrite <- B4. apply (IH R X z' (collapse q r psi) B1 B2 HF' B3 B5 rs1 W E1 HP' HS'). }
      destruct m as [c|q|q b].
      + cbn [mcalls possible safe_mcalls proper_mcall] in *. destruct HS as [HS1 HS2]. destruct (ray_call n R c U z psi G En Hm T HS1 HL) as (A1 & A2 & A3 & A4 & z' & A5). cbn [drawn ideal_mcalls]. rewrite <- A4. apply (IH _ _ z' _ A1 A2 HF' A3 A5 rs V E HP HS2).
      + cbn [mcalls possible safe_mcalls proper_mcall] in *. destruct HS as [HS1 HS2]. unfold QM in E. destruct (Z q true false Hm) as (r & rs' & -> & F1 & F2 & F4 & A1 & A2 & A3 & A4 & A5); auto; [discriminate|].
        cbn [drawn ideal_mcalls tl hd]. split; [exact A1|]. split; [exact A2|]. split; [exact A3|]. split; [split; [exact (F2 eq_refl)|split; [exact F4|exact A4]]|exact A5].
      + cbn [mcalls possible safe_mcalls proper_mcall] in *. destruct HS as [HS1 HS2]. destruct HP as [HP1 HP2]. destruct (Z q b true Hm) as (r & rs' & -> & F1 & F2 & F4 & A1 & A2 & A3 & A4 & A5); auto.
        cbn [drawn ideal_mcalls tl hd]. split; [exact A1|]. split; [exact A2|]. split; [exact A3|]. split; [split; [exact (F1 eq_refl)|split; [exact F4|exact A4]]|exact A5].
  Qed.
  Lemma first_mcalls_ok n ms : forall used R psi rs, (forall c t, R c t -> In c used) -> first_mcalls cx used ms -> safe_mcalls cx n R psi ms rs.
  Proof.
    induction ms as [|m ms IH]; intros used R psi rs HR HF; [exact I|]. destruct m as [c|q|q b]; cbn [first_mcalls safe_mcalls] in *; destruct HF as [H1 H2].
    - destruct (first_step cx n c used R psi HR H1) as [A B]. split; [exact A|]. apply (IH (used_after used c)); assumption.
    - split; [intros c t H; subst used; destruct (HR c t H)|]. apply (IH used); assumption.
    - split; [intros c t H; subst used; destruct (HR c t H)|]. apply (IH used); assumption.
  Qed.
  Lemma start_mcalls rgp n perm (ph : N -> K) rnd ms rs V : normalizes nrm -> (forall j, unit1 (ph j)) -> perm < 2 ^ n -> Forall (proper_mcall n) ms ->
    mcalls cx nrm ms (new_unit rgp n perm ph rnd) = (rs, V) -> possible cx n ms rs (ket perm) -> safe_mcalls cx n (fun _ _ => False) (ket perm) ms rs ->
    good V /\ u_n V = n /\ u_rnd V = rnd /\ drawn cx rnd n ms rs (ket perm) /\ exists z', ray n z' (logical V) (ideal_mcalls cx ms rs (ket perm)).
  Proof.
    intros HN HP Hp HF E H1 H2. destruct (PUnit21.new_logical cx rgp n perm ph rnd HP Hp) as (G & En & _ & C & (c & _ & HL)).
    destruct (start_ok cx D rgp n perm ph rnd [] HP Hp (Forall_nil _) I) as (_ & _ & ER & _). change (calls cx [] ?X) with X in ER. rewrite <- ER at 1 2.
    apply (mcalls_ok n ms HN (fun _ _ => False) (new_unit rgp n perm ph rnd) c (ket perm) G En HF); auto. intros a t H. destruct (C a t H).
  Qed.
  Lemma amps_normalized n V psi z : good V -> u_n V = n -> ray n z (logical V) psi -> normalized n (fun x => fst (GetAmplitude cx x V)) psi.
  Proof.
    intros G En H. split; [subst n; apply (amps_norm cx D), G|]. destruct (amps_ok cx D V n (logical V) G En) as (c & Hc & HA); [exists 1%amp; split; [apply unit_one|intros x _; ring]|].
    exists (c * z)%amp. intros x Hx. rewrite (HA x Hx), (H x Hx). ring.
  Qed.
  (** ** Measuring again *)
  Lemma collapse_total n q r psi : asum (fun x => anorm (collapse q r psi x)) (basis n) = chance n q r psi.
  Proof. unfold chance. apply asum_ext. intros x _. unfold collapse. destruct (eqb (N.testbit x q) r); [reflexivity|apply anorm_0]. Qed.
  Lemma collapse_chance n q (r b : bool) psi : chance n q b (collapse q r psi) = if eqb b r then chance n q r psi else 0%amp.
  Proof.
    unfold chance. destruct (eqb b r) eqn:E.
    - apply eqb_prop in E. subst b. apply asum_ext. intros x _. unfold collapse. destruct (eqb (N.testbit x q) r); reflexivity.
    - apply asum_zero. intros x _. unfold collapse. destruct (N.testbit x q), b, r; try discriminate E; cbn; try reflexivity; apply anorm_0.
  Qed.
  Lemma drawn_again rnd n q r r' psi : drawn cx rnd n [MMeasure q; MMeasure q] [r; r'] psi -> r' = r.
  Proof.
    cbn [drawn]. intros (_ & H0 & (p & Hp & HC) & _). rewrite collapse_total, collapse_chance in Hp. destruct D as (D1 & D2 & _).
    destruct r; cbn [eqb] in Hp.
    - assert (E : p = 1%amp). { destruct (D2 (p - 1)%amp (chance n q true psi)) as [E|E]; [transitivity (p * chance n q true psi - chance n q true psi)%amp; [ring|rewrite Hp; ring]| |contradiction]. transitivity (p - 1 + 1)%amp; [ring|rewrite E; ring]. }
      subst p. destruct HC as [[_ H]|[[H _]|[H _]]]; [exact H|contradiction|destruct (H eq_refl)].
    - assert (E : p = 0%amp). { destruct (D2 p _ Hp) as [E|E]; [exact E|contradiction]. }
      subst p. destruct HC as [[H _]|[[_ H]|[_ [H _]]]]; [symmetry in H; contradiction|exact H|destruct (H eq_refl)].
  Qed.
  Lemma drawn_app rnd n ms : forall ms' rs psi, drawn cx rnd n (ms ++ ms') rs psi -> exists rs1 rs2 phi, rs = rs1 ++ rs2 /\ drawn cx rnd n ms' rs2 phi.
  Proof.
    induction ms as [|m ms IH]; intros ms' rs psi H; [exists [], rs, psi; split; [reflexivity|exact H]|]. cbn [app] in H. destruct m as [c|q|q b]; cbn [drawn] in H; [destruct (IH _ _ _ H) as (r1 & r2 & phi & -> & Z); exists r1, r2, phi; auto| |];
      (destruct rs as [|r rs]; [destruct H|]; destruct H as (_ & _ & H); destruct (IH _ _ _ H) as (r1 & r2 & phi & -> & Z); exists (r :: r1), r2, phi; auto).
  Qed.
End P.
