(** Proofs for QUnit: single-qubit gates on the shards and engines. *)
From Coq Require Import Arith NArith List Bool Lia Ring.
From Verif Require Import Bits MFunctions SpecFunctions PFunctions MKernel PKernel Amp PAmp SpecState PApply PCompose PGates PGates2 PProb PQCirc2 PQCirc3 PEngine MShard SpecShard MUnit PShard1 PShard2 PShard5 PUnit1 PUnit2 PUnit3 PUnit4 PUnit5 PUnit6 PUnit7.
Import ListNotations.
Local Open Scope N_scope.
Local Notation up n := (upto (N.to_nat n)).

Section P.
  Context {K : StarRing} (cx : Cplx K) (D : definite (K := K)).
  Add Ring KrBW : (sr_ring K).
  Local Notation wf := (wf cx).
  Local Notation vec := (N -> K).
  Local Notation unit1 x := (anorm x = 1%amp).
  Local Notation M2 := (mat2 K).
  Local Notation qu := (qunit K).
  Local Notation framed := (framed cx).
  Local Notation ii := (cx_i cx).
  Local Notation hh := (cx_h cx).
  Implicit Types (U V : qu) (psi phi : vec).

  (** [V] is [U] after the gate [M] on shard [q]. *)
  Record acts (q : N) (M : M2) U V : Prop := mkActs {
    ac_wf : wf V;
    ac_neat : neat V;
    ac_like : like (framed V) (gate1 always q M (framed U));
    ac_kept : kept U V;
    ac_next : u_next V = u_next U
  }.
  Lemma acts_sound q M U V X : acts q M U V -> sound cx V X -> acts q M U X.
  Proof. intros [A1 A2 A3 A4 A5] [B1 B2 B3 B4 B5]. split; auto; [eapply like_trans; eassumption|eapply kept_trans; eassumption|congruence]. Qed.

  Lemma core_ok U V q f (m M : M2) : wf U -> neat U -> q < u_n U -> unitary2 m -> kept U V -> u_next V = u_next U -> (forall p, u_sh V p = if p =? q then f (u_sh U q) else u_sh U p) ->
    (forall w, u_eng V w = u_eng (unit_gate q m U) w) -> let s := u_sh U q in s_unit (f s) = s_unit s -> s_map (f s) = s_map s -> s_fd (f s) = s_fd s ->
    (s_unit s = None -> s_pd (f s) = false /\ s_a0 (f s) = (m00 m * s_a0 s + m01 m * s_a1 s)%amp /\ s_a1 (f s) = (m10 m * s_a0 s + m11 m * s_a1 s)%amp) ->
    (s_pd (f s) = false -> s_unit s <> None -> s_pd s = false /\
      ((diag m /\ scaled (s_a0 (f s)) (s_a0 s) /\ scaled (s_a1 (f s)) (s_a1 s)) \/
       (anti m /\ scaled (s_a0 (f s)) (s_a1 s) /\ scaled (s_a1 (f s)) (s_a0 s)))) ->
    mmul (bmat cx (s_bas (f s))) m = mmul M (bmat cx (s_bas s)) ->
    acts q M U V /\ (forall p, p <> q -> bas_of V p = bas_of U p).
  Proof.
    intros W N0 Hq Um HK HX HV HG s HU HM HFd HN HF EB.
    destruct (op1 U V q f m W Hq Um HK HX HV HG HU HM) as (V1 & V2 & V3); [|exact HF|].
    { intros E. destruct (HN E) as (H1 & H2 & H3). destruct (wf_none U W q Hq E) as (_ & _ & L3 & _). split; [exact H1|]. split; [transitivity (s_fd s); [exact HFd|exact L3]|]. auto. }
    assert (VQ : u_sh V q = f s) by (rewrite HV, N.eqb_refl; reflexivity).
    assert (VP : forall p, p <> q -> u_sh V p = u_sh U p) by (intros p Hpq; rewrite HV; destruct (N.eqb_spec p q); [congruence|reflexivity]).
    split; [|intros p Hp; unfold bas_of; rewrite VP by exact Hp; reflexivity]. split; auto.
    - apply (neat_same U V N0); auto; [apply HK|]. intros p Hp. destruct (N.eq_dec p q) as [->|Hpq]; [rewrite VQ; auto|rewrite VP by exact Hpq; auto].
    - apply like_ss. apply (step1_framed cx U V q m M Hq); auto; [apply HK|]. unfold bas_of. rewrite VQ. exact EB.
  Qed.
  (** The matrices of the gates, and the change of basis of X. *)
  Lemma mat_unfold (m M : M2) b b' : m00 (mmul (bmat cx b') m) = m00 (mmul M (bmat cx b)) -> m01 (mmul (bmat cx b') m) = m01 (mmul M (bmat cx b)) ->
    m10 (mmul (bmat cx b') m) = m10 (mmul M (bmat cx b)) -> m11 (mmul (bmat cx b') m) = m11 (mmul M (bmat cx b)) -> mmul (bmat cx b') m = mmul M (bmat cx b).
  Proof. apply mat2_eq. Qed.
  Definition phaseM (x y : K) : M2 := mkMat x 0%amp 0%amp y.
  Definition invertM (x y : K) : M2 := mkMat 0%amp x y 0%amp.
  Lemma one_unit : unit1 (1 : K)%amp. Proof. apply unit_one. Qed.
  Lemma i_u : unit1 ii. Proof. apply (i_unit cx). Qed.
  Lemma ni_u : unit1 (- ii)%amp. Proof. apply unit_opp, i_u. Qed.

  (** XBase, YBase, ZBase *)
  Lemma xbase_ok q M U : wf U -> neat U -> q < u_n U -> mmul (bmat cx (bas_of U q)) (mX) = mmul M (bmat cx (bas_of U q)) ->
    let V := XBase q U in acts q M U V /\ (forall p, bas_of V p = bas_of U p).
  Proof.
    intros W N0 Hq E. unfold XBase. set (f := fun s : qshard K => w_amps (s_a1 s) (s_a0 s) s). cbn zeta. set (V := on_sh q f _).
    assert (SV : forall p, u_sh V p = if p =? q then f (u_sh U q) else u_sh U p) by (intros p; unfold V; rewrite sh_on, sh_gate; reflexivity).
    destruct (core_ok U V q f mX M W N0 Hq) as [A B]; try reflexivity; auto.
    - apply anti_unitary; apply one_unit.
    - unfold V. eapply kept_trans; [apply (kept_gate q mX)|]. repeat split; reflexivity.
    - unfold V. cbn. apply next_gate.
    - intros Eu. unfold f, mX. cbn [w_amps s_pd s_a0 s_a1 m00 m01 m10 m11]. destruct (wf_none U W q Hq Eu) as (_ & -> & _). split; [reflexivity|]. split; ring.
    - intros Pd _. split; [exact Pd|]. right. split; [split; reflexivity|]. split; apply scaled_refl.
    - split; [exact A|]. intros p. destruct (N.eq_dec p q) as [->|Hpq]; [|apply B, Hpq]. unfold bas_of. rewrite SV, N.eqb_refl. reflexivity.
  Qed.
  Lemma zero_opp (x : K) : (- x = 0)%amp <-> x = 0%amp.
  Proof. split; intros E; [|rewrite E; ring]. transitivity (- - x)%amp; [ring|]. rewrite E. ring. Qed.
  Lemma zbase_ok q M U : wf U -> neat U -> q < u_n U -> mmul (bmat cx (bas_of U q)) mZ = mmul M (bmat cx (bas_of U q)) ->
    let V := ZBase q U in acts q M U V /\ (forall p, bas_of V p = bas_of U p).
  Proof.
    intros W N0 Hq E. unfold ZBase. set (f := fun s : qshard K => w_amps (s_a0 s) (- s_a1 s)%amp s). cbn zeta. set (V := on_sh q f _).
    assert (SV : forall p, u_sh V p = if p =? q then f (u_sh U q) else u_sh U p) by (intros p; unfold V; rewrite sh_on, sh_gate; reflexivity).
    destruct (core_ok U V q f mZ M W N0 Hq) as [A B]; try reflexivity; auto.
    - apply diag_unitary; [apply one_unit|apply unit_opp, one_unit].
    - unfold V. eapply kept_trans; [apply (kept_gate q mZ)|]. repeat split; reflexivity.
    - unfold V. cbn. apply next_gate.
    - intros Eu. unfold f, mZ. cbn [w_amps s_pd s_a0 s_a1 m00 m01 m10 m11]. destruct (wf_none U W q Hq Eu) as (_ & -> & _). split; [reflexivity|]. split; ring.
    - intros Pd _. split; [exact Pd|]. left. split; [split; reflexivity|]. split; [apply scaled_refl|apply scaled_opp].
    - split; [exact A|]. intros p. destruct (N.eq_dec p q) as [->|Hpq]; [|apply B, Hpq]. unfold bas_of. rewrite SV, N.eqb_refl. reflexivity.
  Qed.
  (** Phases in the Z basis; [g] is how the source writes the new amplitudes. *)
  Lemma zphase_ok (x y : K) (g : qshard K -> qshard K) q U : wf U -> neat U -> q < u_n U -> bas_of U q = PauliZ -> unit1 x -> unit1 y ->
    g (u_sh U q) = w_amps (x * s_a0 (u_sh U q))%amp (y * s_a1 (u_sh U q))%amp (u_sh U q) ->
    let V := on_sh q g (unit_gate q (phaseM x y) U) in acts q (phaseM x y) U V /\ (forall p, bas_of V p = bas_of U p).
  Proof.
    intros W N0 Hq Eb Hx Hy Hg. cbn zeta. set (V := on_sh q g _).
    assert (SV : forall p, u_sh V p = if p =? q then g (u_sh U q) else u_sh U p) by (intros p; unfold V; rewrite sh_on, sh_gate; reflexivity).
    destruct (core_ok U V q g (phaseM x y) (phaseM x y) W N0 Hq) as [A B]; rewrite ?Hg; try reflexivity; auto.
    - apply diag_unitary; assumption.
    - unfold V. eapply kept_trans; [apply (kept_gate q (phaseM x y))|]. repeat split; reflexivity.
    - unfold V. cbn. apply next_gate.
    - intros p. rewrite <- Hg. apply SV.
    - intros Eu. unfold phaseM. cbn [w_amps s_pd s_a0 s_a1 m00 m01 m10 m11]. destruct (wf_none U W q Hq Eu) as (_ & -> & _). split; [reflexivity|]. split; ring.
    - intros Pd _. split; [exact Pd|]. left. split; [split; reflexivity|]. cbn [w_amps s_a0 s_a1]. split; apply scaled_mul; assumption.
    - cbn [w_amps s_bas]. unfold bas_of in Eb. rewrite Eb. unfold bmat. rewrite mmul_1_l, mmul_1_r. reflexivity.
    - split; [exact A|]. intros p. destruct (N.eq_dec p q) as [->|Hpq]; [|apply B, Hpq]. unfold bas_of. rewrite SV, N.eqb_refl, Hg. reflexivity.
  Qed.
  Lemma zinvert_ok (x y : K) q U : wf U -> neat U -> q < u_n U -> bas_of U q = PauliZ -> unit1 x -> unit1 y ->
    let V := on_sh q (fun s => w_amps (x * s_a1 s)%amp (y * s_a0 s)%amp s) (unit_gate q (invertM x y) U) in acts q (invertM x y) U V /\ (forall p, bas_of V p = bas_of U p).
  Proof.
    intros W N0 Hq Eb Hx Hy. cbn zeta. set (f := fun s : qshard K => w_amps (x * s_a1 s)%amp (y * s_a0 s)%amp s). set (V := on_sh q f _).
    assert (SV : forall p, u_sh V p = if p =? q then f (u_sh U q) else u_sh U p) by (intros p; unfold V; rewrite sh_on, sh_gate; reflexivity).
    destruct (core_ok U V q f (invertM x y) (invertM x y) W N0 Hq) as [A B]; try reflexivity; auto.
    - apply anti_unitary; assumption.
    - unfold V. eapply kept_trans; [apply (kept_gate q (invertM x y))|]. repeat split; reflexivity.
    - unfold V. cbn. apply next_gate.
    - intros Eu. unfold f, invertM. cbn [w_amps s_pd s_a0 s_a1 m00 m01 m10 m11]. destruct (wf_none U W q Hq Eu) as (_ & -> & _). split; [reflexivity|]. split; ring.
    - intros Pd _. split; [exact Pd|]. right. split; [split; reflexivity|]. unfold f. cbn [w_amps s_a0 s_a1]. split; apply scaled_mul; assumption.
    - unfold f. cbn [w_amps s_bas]. unfold bas_of in Eb. rewrite Eb. unfold bmat. rewrite mmul_1_l, mmul_1_r. reflexivity.
    - split; [exact A|]. intros p. destruct (N.eq_dec p q) as [->|Hpq]; [|apply B, Hpq]. unfold bas_of. rewrite SV, N.eqb_refl. reflexivity.
  Qed.
  (** A renaming of the basis. *)
  Lemma rebase_ok b q M U : wf U -> neat U -> q < u_n U -> bmat cx b = mmul M (bmat cx (bas_of U q)) ->
    let V := on_sh q (w_bas b) U in acts q M U V /\ bas_of V q = b /\ (forall p, p <> q -> bas_of V p = bas_of U p).
  Proof.
    intros W N0 Hq E. cbn zeta. set (V := on_sh q (w_bas b) U). assert (SV : forall p, u_sh V p = if p =? q then w_bas b (u_sh U q) else u_sh U p) by reflexivity.
    assert (KV : kept U V) by (repeat split; reflexivity).
    destruct (step1 U V q midn W Hq unitary_1 KV) as [WV BV]; try reflexivity; rewrite ?SV, ?N.eqb_refl; try reflexivity.
    - intros p _ Hp. rewrite SV. destruct (N.eqb_spec p q); [congruence|reflexivity].
    - intros Eu. destruct (wf_none U W q Hq Eu) as (_ & L2 & L3 & _). cbn [w_bas s_pd s_fd s_a0 s_a1 midn m00 m01 m10 m11]. repeat split; auto; ring.
    - intros u Eu. split; [reflexivity|]. split; [reflexivity|]. split; [intros y Hy; symmetry; apply gate_midn|].
      intros Pd. destruct (wf_faith U W q u Hq Eu Pd) as [[F1 F2] F3]. cbn [w_bas s_a0 s_a1 s_map]. split; [rewrite F1, F2; split; symmetry; apply esup_eqv; intros y Hy; apply gate_midn|].
      eapply (exact_eqv cx); [intros y Hy; apply gate_midn|exact F3].
    - assert (BQ : bas_of V q = b) by (unfold bas_of; rewrite SV, N.eqb_refl; reflexivity).
      assert (VP : forall p, p <> q -> u_sh V p = u_sh U p) by (intros p Hp; rewrite SV; destruct (N.eqb_spec p q); [congruence|reflexivity]).
      split; [|split; [exact BQ|intros p Hp; unfold bas_of; rewrite VP by exact Hp; reflexivity]]. split; auto.
      + apply (neat_same U V N0); auto. intros p _. rewrite SV. destruct (N.eqb_spec p q) as [->|]; auto.
      + apply like_ss, (step1_framed cx U V q midn M Hq); auto. rewrite BQ, mmul_1_r. exact E.
  Qed.
  Lemma poi_iff (m : M2) : IS_PHASE_OR_INVERT m = true <-> diag m \/ anti m.
  Proof.
    unfold IS_PHASE_OR_INVERT, diag, anti. rewrite orb_true_iff, !andb_true_iff, !is0_iff. reflexivity.
  Qed.
  Lemma general_ok (m M : M2) q U : wf U -> neat U -> q < u_n U -> unitary2 m -> in_basis cx (bas_of U q) M m ->
    let V := general cx q m U in acts q M U V /\ bas_of V q = bas_of U q.
  Proof.
    intros W N0 Hq Um E. unfold general. set (U2 := on_sh q _ (unit_gate q m U)). set (X := amps_gate q m U2). cbn zeta.
    set (f := fun s : qshard K => let s' := if DIRTY s then w_pd (s_pd s || negb (IS_PHASE_OR_INVERT m)) s else s in w_amps (m00 m * s_a0 s' + m01 m * s_a1 s')%amp (m10 m * s_a0 s' + m11 m * s_a1 s')%amp s').
    assert (S2 : forall p, u_sh U2 p = if p =? q then (if DIRTY (u_sh U q) then w_pd (s_pd (u_sh U q) || negb (IS_PHASE_OR_INVERT m)) (u_sh U q) else u_sh U q) else u_sh U p) by (intros p; unfold U2; rewrite sh_on, sh_gate; reflexivity).
    assert (SX : forall p, u_sh X p = if p =? q then f (u_sh U q) else u_sh U p) by (intros p; unfold X, amps_gate; rewrite sh_on, !S2, N.eqb_refl; destruct (N.eqb_spec p q); reflexivity).
    assert (f_unit : s_unit (f (u_sh U q)) = s_unit (u_sh U q)) by (unfold f; destruct (DIRTY (u_sh U q)); reflexivity).
    assert (f_map : s_map (f (u_sh U q)) = s_map (u_sh U q)) by (unfold f; destruct (DIRTY (u_sh U q)); reflexivity).
    assert (f_fd : s_fd (f (u_sh U q)) = s_fd (u_sh U q)) by (unfold f; destruct (DIRTY (u_sh U q)); reflexivity).
    assert (f_bas : s_bas (f (u_sh U q)) = s_bas (u_sh U q)) by (unfold f; destruct (DIRTY (u_sh U q)); reflexivity).
    assert (f0 : s_a0 (f (u_sh U q)) = (m00 m * s_a0 (u_sh U q) + m01 m * s_a1 (u_sh U q))%amp) by (unfold f; destruct (DIRTY (u_sh U q)); reflexivity).
    assert (f1 : s_a1 (f (u_sh U q)) = (m10 m * s_a0 (u_sh U q) + m11 m * s_a1 (u_sh U q))%amp) by (unfold f; destruct (DIRTY (u_sh U q)); reflexivity).
    destruct (core_ok U X q f m M W N0 Hq Um) as [A B]; auto.
    - unfold X, U2. eapply kept_trans; [apply (kept_gate q m)|]. repeat split; reflexivity.
    - unfold X, U2. cbn. apply next_gate.
    - intros Eu. split; [|auto]. destruct (wf_none U W q Hq Eu) as (_ & L2 & L3 & _). unfold f, DIRTY. rewrite L2, L3. cbn [orb]. exact L2.
    - intros Pd Eu. assert (Df : DIRTY (u_sh U q) = true). { unfold DIRTY. destruct (s_unit (u_sh U q)) as [u|] eqn:F; [|congruence]. rewrite (nt_fd U N0 q u Hq F). reflexivity. }
      unfold f in Pd. rewrite Df in Pd. cbn [w_amps w_pd s_pd] in Pd. apply orb_false_iff in Pd. destruct Pd as [Pd Ph]. split; [exact Pd|].
      apply negb_false_iff, poi_iff in Ph. rewrite f0, f1. destruct Ph as [Dm|Am]; [left|right].
      + split; [exact Dm|]. destruct (unitary_diag m Um Dm) as [V1 V2]. destruct Dm as [-> ->]. split.
        * replace (m00 m * s_a0 (u_sh U q) + 0 * s_a1 (u_sh U q))%amp with (m00 m * s_a0 (u_sh U q))%amp by ring. apply scaled_mul, V1.
        * replace (0 * s_a0 (u_sh U q) + m11 m * s_a1 (u_sh U q))%amp with (m11 m * s_a1 (u_sh U q))%amp by ring. apply scaled_mul, V2.
      + split; [exact Am|]. destruct (unitary_anti m Um Am) as [V1 V2]. destruct Am as [-> ->]. split.
        * replace (0 * s_a0 (u_sh U q) + m01 m * s_a1 (u_sh U q))%amp with (m01 m * s_a1 (u_sh U q))%amp by ring. apply scaled_mul, V1.
        * replace (m10 m * s_a0 (u_sh U q) + 0 * s_a1 (u_sh U q))%amp with (m10 m * s_a0 (u_sh U q))%amp by ring. apply scaled_mul, V2.
    - rewrite f_bas. exact E.
    - destruct A as [A1 A2 A3 A4 A5]. assert (NX : u_n X = u_n U) by apply A4. assert (HqX : q < u_n X) by (rewrite NX; exact Hq).
      destruct (clamp_ok cx D q X A1 A2 HqX) as (T1 & T2 & _). split; [eapply acts_sound; [|exact T1]; split; assumption|].
      rewrite T2. unfold bas_of. rewrite SX, N.eqb_refl. exact f_bas.
  Qed.
End P.
