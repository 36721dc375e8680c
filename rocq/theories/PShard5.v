(** Proofs: single-qubit gates carried through the buffers, and buffers that may be dropped. *)
From Coq Require Import NArith List Bool Lia Arith Permutation.
From Verif Require Import Amp PAmp SpecState PGates PGates2 PQCirc2 PQCirc3 MShard SpecShard PShard1 PShard2 PShard3 PShard4.
Import ListNotations.
Local Open Scope N_scope.

Section P.
  Context {K : StarRing} (po : Polar K).
  Add Ring KrBG : (sr_ring K).
  Local Notation sh := (shards K).
  Local Notation vec := (N -> K).
  Local Notation unit1 x := (anorm x = 1%amp).
  Implicit Types (psi : vec) (s : sh).

  (** ** Carrying a single-qubit gate through *)
  Lemma conj_target P t (A B W : mat2 K) psi : indep P t -> mmul B W = mmul W A ->
    same_state (gate1 P t B (gate1 always t W psi)) (gate1 always t W (gate1 P t A psi)).
  Proof.
    intros HP E x. assert (E1 : forall y, gate1 P t B (gate1 P t W psi) y = gate1 P t W (gate1 P t A psi) y).
    { intros y. rewrite !gate1_compose by exact HP. rewrite E. reflexivity. }
    destruct (P x) eqn:Ex.
    - transitivity (gate1 P t B (gate1 P t W psi) x); [|rewrite E1]; unfold gate1, always; destruct (HP x) as [HS HC]; rewrite ?HS, ?HC, ?Ex; reflexivity.
    - unfold gate1, always. destruct (HP x) as [HS HC]. rewrite ?HS, ?HC, ?Ex. reflexivity.
  Qed.
  Lemma conj_apart P t q (M W : mat2 K) psi : indep P q -> t <> q ->
    same_state (gate1 P t M (gate1 always q W psi)) (gate1 always q W (gate1 P t M psi)).
  Proof.
    intros HP Htq x. unfold gate1, always. destruct (HP x) as [HS HC]. rewrite !HS, !HC.
    rewrite !tb_setbit, !tb_clearbit. destruct (N.eqb_spec t q) as [|_]; [contradiction|]. destruct (N.eqb_spec q t) as [|_]; [congruence|]. cbn [orb negb]. rewrite !andb_true_r.
    assert (E1 : N.setbit (N.setbit x t) q = N.setbit (N.setbit x q) t) by (apply N.bits_inj; intros i; rewrite !tb_setbit; destruct (t =? i), (q =? i); reflexivity).
    assert (E2 : N.clearbit (N.clearbit x t) q = N.clearbit (N.clearbit x q) t) by (apply N.bits_inj; intros i; rewrite !tb_clearbit; destruct (t =? i), (q =? i), (N.testbit x i); reflexivity).
    assert (E3 : N.setbit (N.clearbit x t) q = N.clearbit (N.setbit x q) t).
    { apply N.bits_inj. intros i. rewrite !tb_setbit, !tb_clearbit, tb_setbit. destruct (N.eqb_spec t i), (N.eqb_spec q i), (N.testbit x i); cbn; congruence. }
    assert (E4 : N.clearbit (N.setbit x t) q = N.setbit (N.clearbit x q) t).
    { apply N.bits_inj. intros i. rewrite !tb_setbit, !tb_clearbit, tb_setbit. destruct (N.eqb_spec t i), (N.eqb_spec q i), (N.testbit x i); cbn; congruence. }
    rewrite E1, E2, E3, E4. destruct (P x); [|reflexivity]. destruct (N.testbit x t), (N.testbit x q); ring.
  Qed.

  (** Buffers on [q] as a target change to those of the conjugated matrix, the others stay; no buffer has [q] as control. *)
  Lemma conj_pending q (W : mat2 K) s s' : sh_size s' = sh_size s ->
    (forall a c t psi, same_state (gate_at s' (a, c, t) (gate1 always q W psi)) (gate1 always q W (gate_at s (a, c, t) psi))) ->
    forall psi, same_state (pending s' (gate1 always q W psi)) (gate1 always q W (pending s psi)).
  Proof.
    intros E H psi. unfold pending. rewrite E. apply (fold_conj (gate_at s) (gate_at s')); auto using gate_at_proper, gate1_proper. intros [[a c] t] p _. apply H.
  Qed.
  Lemma conj_commuting q (W W' : mat2 K) s s' : mmul W W' = midn ->
    (forall a c t psi, same_state (gate_at s' (a, c, t) (gate1 always q W psi)) (gate1 always q W (gate_at s (a, c, t) psi))) -> commuting s -> commuting s'.
  Proof.
    intros Hinv H HC [[a c] t] [[a' c'] t'] psi. set (w := gate1 always q W) in *. set (w' := gate1 always q W').
    assert (Hw : same_state (w (w' psi)) psi). { intros x. unfold w, w'. rewrite gate1_compose by apply indep_always. rewrite Hinv. apply gate1_one. }
    assert (Pw : proper w) by apply gate1_proper.
    assert (E : forall i j, same_state (gate_at s' i (gate_at s' j psi)) (w (gate_at s i (gate_at s j (w' psi))))).
    { intros [[a1 c1] t1] [[a2 c2] t2]. eapply ss_trans; [apply gate_at_proper, gate_at_proper, ss_sym, Hw|]. eapply ss_trans; [apply gate_at_proper, H|]. apply H. }
    eapply ss_trans; [apply E|]. eapply ss_trans; [apply Pw, HC|]. apply ss_sym, E.
  Qed.

  (** ** CommuteH *)
  Definition hmat (h : K) : mat2 K := mkMat h h h (- h)%amp.
  Definition h_neg (a : bool) (d m : K) (i : bool) : PhaseShard K := if a then mkPS (- d)%amp m i else mkPS d (- m)%amp i.
  Definition h_buf (a : bool) (b : PhaseShard K) : PhaseShard K :=
    if po_lt1 po (cmplxDiff b - cmplxSame b)%amp then if isInvert b then h_neg a (cmplxDiff b) (cmplxSame b) false else b
    else if isInvert b then mkPS (cmplxSame b) (cmplxDiff b) true else h_neg a (cmplxDiff b) (cmplxSame b) true.
  Lemma h_buf_units a b : unit1 (cmplxDiff b) -> unit1 (cmplxSame b) -> unit1 (cmplxDiff (h_buf a b)) /\ unit1 (cmplxSame (h_buf a b)).
  Proof.
    intros H1 H2. unfold h_buf, h_neg. destruct po_lt1, (isInvert b), a; cbn [cmplxDiff cmplxSame]; auto using unit_opp.
  Qed.
  Lemma h_buf_conj a (h : K) b : unit1 (cmplxDiff b) -> cmplxDiff b = cmplxSame b \/ cmplxDiff b = (- cmplxSame b)%amp ->
    mmul (matrix_of a (h_buf a b)) (hmat h) = mmul (hmat h) (matrix_of a b).
  Proof.
    intros U H. destruct b as [d m i]. cbn [cmplxDiff cmplxSame] in *. unfold h_buf, h_neg. cbn [cmplxDiff cmplxSame isInvert].
    destruct (po_lt1 po (d - m)%amp) eqn:El.
    - assert (Hm : m = d). { destruct H as [H|H]; [auto|]. exfalso. assert (Ed : (d - m = d + d)%amp) by (rewrite H; ring). rewrite Ed, (po_lt1_2 K po d U) in El. discriminate. }
      subst m. destruct i, a; rewrite !matrix_mk; unfold mmul, hmat; cbn [m00 m01 m10 m11]; f_equal; ring.
    - assert (Hm : m = (- d)%amp). { destruct H as [H|H]; [|rewrite H; ring]. exfalso. assert (Ed : (d - m = 0)%amp) by (rewrite H; ring). rewrite Ed, (po_lt1_0 K po) in El. discriminate. }
      subst m. destruct i, a; rewrite !matrix_mk; unfold mmul, hmat; cbn [m00 m01 m10 m11]; f_equal; ring.
  Qed.
  Definition h_loop a this s : sh := fold_left (fun s e => commute_h po (h_neg a) (snd e) s) (entries s (tsel a) this) s.
  Lemma changed_self a c t i s : consistent s -> sh_map s (tsel a) t c = Some i -> changed a c t (Some (sh_heap s i)) s s.
  Proof.
    intros C E. split; [exact C|]. split; [reflexivity|]. split; [reflexivity|]. intros a' c' t'. destruct (keq a c t a' c' t') eqn:Ek; [|reflexivity].
    apply keq_spec in Ek. injection Ek as -> -> ->. unfold buffer_of. change (if a then antiTargetOfShards else targetOfShards) with (tsel a). rewrite E. reflexivity.
  Qed.
  Lemma h_loop_ok a this s : consistent s -> rewrites true a this (fun b => Some (h_buf a b)) s (h_loop a this s).
  Proof.
    intros C. unfold h_loop. change (tsel a) with (msel true a). apply map_loop; [|exact C]. clear s C. intros s e C E. cbn [kc kt] in *.
    destruct (cons_ok s C _ _ _ _ E) as (_ & _ & _ & _ & U1 & U2). pose proof (h_buf_units a _ U1 U2) as [V1 V2].
    unfold commute_h, h_buf, swap_phases in *. set (b := sh_heap s (snd e)) in *.
    destruct (po_lt1 po (cmplxDiff b - cmplxSame b)%amp), (isInvert b) eqn:Ei.
    - apply set_buf_ok; assumption.
    - apply changed_self; assumption.
    - apply set_buf_ok; assumption.
    - apply set_buf_ok; assumption.
  Qed.
  Definition h_drop (b : PhaseShard K) : option (PhaseShard K) :=
    if negb (isInvert b) && IS_ARG_0 (cmplxDiff b) && IS_ARG_0 (cmplxSame b) then None else Some b.
  Lemma h_remove_ok a this s : consistent s -> rewrites true a this h_drop s (RemoveIdentityBuffers (tsel a) (csel a) this s).
  Proof. intros C. unfold RemoveIdentityBuffers. apply (remove_all true a this h_drop); [reflexivity|exact C]. Qed.
  Lemma h_drop_gate a c t b psi : same_state (gate_buf a c t (h_drop b) psi) (gate_buf a c t (Some b) psi).
  Proof. apply (gate_keep a c t b psi). Qed.

  Definition half (a : bool) this s : sh := RemoveIdentityBuffers (tsel a) (csel a) this (h_loop a this s).
  Lemma commute_h_eq this s : CommuteH po this s = half true this (half false this s).
  Proof. reflexivity. Qed.
  Lemma half_view a this s : consistent s -> consistent (half a this s) /\ sh_size (half a this s) = sh_size s /\
    forall a' c' t', buffer_of (half a this s) a' c' t' = if touch true a this a' c' t' then obind (fun b => h_drop (h_buf a b)) (buffer_of s a' c' t') else buffer_of s a' c' t'.
  Proof.
    intros C. destruct (h_loop_ok a this s C) as (C1 & E1 & V1). destruct (h_remove_ok a this (h_loop a this s) C1) as (C2 & E2 & V2).
    split; [exact C2|]. split; [unfold half; congruence|]. intros a' c' t'. unfold half. rewrite V2, V1. destruct touch; [|reflexivity]. destruct (buffer_of s a' c' t'); reflexivity.
  Qed.
  Lemma commute_h_view this s : consistent s -> consistent (CommuteH po this s) /\ sh_size (CommuteH po this s) = sh_size s /\
    forall a' c' t', buffer_of (CommuteH po this s) a' c' t' = if t' =? this then obind (fun b => h_drop (h_buf a' b)) (buffer_of s a' c' t') else buffer_of s a' c' t'.
  Proof.
    intros C. rewrite commute_h_eq. destruct (half_view false this s C) as (C1 & E1 & V1). destruct (half_view true this _ C1) as (C2 & E2 & V2).
    split; [exact C2|]. split; [congruence|]. intros a' c' t'. rewrite V2, V1. unfold touch. destruct a'; cbn [Bool.eqb andb]; destruct (t' =? this); reflexivity.
  Qed.
  Lemma commute_h_gate this (h : K) s : consistent s -> h_ready s this -> forall a c t psi,
    same_state (gate_at (CommuteH po this s) (a, c, t) (gate1 always this (hmat h) psi)) (gate1 always this (hmat h) (gate_at s (a, c, t) psi)).
  Proof.
    intros C [R1 R2] a c t psi. destruct (commute_h_view this s C) as (_ & _ & V). rewrite !gate_at_eq, V.
    destruct (N.eqb_spec t this) as [->|Ht].
    - destruct (buffer_of s a c this) as [b|] eqn:Eb; [|apply ss_refl]. cbn [obind]. destruct (buffer_bounds s a c this b C Eb) as (_ & _ & Hct).
      destruct (buffer_units s a c this b C Eb) as [U _].
      eapply ss_trans; [apply h_drop_gate|]. cbn [gate_buf]. apply conj_target; [apply fires_indep, Hct|]. apply h_buf_conj; [exact U|]. apply (R2 a c b Eb).
    - destruct (buffer_of s a c t) as [b|] eqn:Eb; [|apply ss_refl]. cbn [gate_buf]. apply conj_apart; [|exact Ht]. apply fires_indep. intros ->. rewrite R1 in Eb. discriminate.
  Qed.
  Lemma hmat_inv (h : K) : (h * h + h * h = 1)%amp -> mmul (hmat h) (hmat h) = midn.
  Proof. intros H. unfold mmul, hmat, midn. cbn [m00 m01 m10 m11]. rewrite <- H. f_equal; ring. Qed.

  (** ** CommutePhase *)
  Definition p_buf (fd fs : K) (b : PhaseShard K) : PhaseShard K := mkPS (cmplxDiff b * fd)%amp (cmplxSame b * fs)%amp true.
  Lemma commute_all fd fs : forall es s, (forall e, In e es -> isInvert (sh_heap s (snd e)) = true) ->
    commute_loop fd fs es s = (false, fold_left (fun s e => set_buf (snd e) (p_buf fd fs (sh_heap s (snd e))) s) es s).
  Proof.
    induction es as [|e es IH]; intros s H; [reflexivity|]. cbn [commute_loop fold_left]. rewrite (H e (or_introl eq_refl)). cbn [negb]. apply IH.
    intros e' He'. cbn [sh_heap set_buf]. destruct (snd e' =? snd e); [reflexivity|]. apply H. right. exact He'.
  Qed.
  Lemma phase_loop_ok a this fd fs s : consistent s -> unit1 fd -> unit1 fs -> (forall c b, buffer_of s a c this = Some b -> isInvert b = true) ->
    exists s', commute_loop fd fs (entries s (tsel a) this) s = (false, s') /\ rewrites true a this (fun b => Some (p_buf fd fs b)) s s'.
  Proof.
    intros C Ud Us H. rewrite commute_all.
    - eexists. split; [reflexivity|]. change (tsel a) with (msel true a). apply map_loop; [|exact C]. clear s C H. intros s e C E. cbn [kc kt] in *.
      destruct (cons_ok s C _ _ _ _ E) as (_ & _ & _ & _ & U1 & U2). apply set_buf_ok; auto; cbn [p_buf cmplxDiff cmplxSame]; apply unit_mul; assumption.
    - intros e He. apply entries_in in He. destruct He as [_ He]. apply (H (fst e)). unfold buffer_of. change (if a then antiTargetOfShards else targetOfShards) with (tsel a). rewrite He. reflexivity.
  Qed.
  Lemma p_buf_conj a (tl br : K) b : unit1 tl -> unit1 br -> isInvert b = true ->
    mmul (matrix_of a (if a then p_buf (br * sr_conj tl)%amp (tl * sr_conj br)%amp b else p_buf (tl * sr_conj br)%amp (br * sr_conj tl)%amp b)) (mkMat tl 0%amp 0%amp br)
    = mmul (mkMat tl 0%amp 0%amp br) (matrix_of a b).
  Proof.
    intros U1 U2 Hi. destruct b as [d m i]. cbn [isInvert] in Hi. subst i. unfold anorm in U1, U2.
    destruct a; unfold p_buf; cbn [cmplxDiff cmplxSame]; rewrite !matrix_mk; unfold mmul; cbn [m00 m01 m10 m11]; f_equal; try ring.
    - transitivity (m * tl * (br * sr_conj br))%amp; [ring|]. rewrite U2. ring.
    - transitivity (d * br * (tl * sr_conj tl))%amp; [ring|]. rewrite U1. ring.
    - transitivity (d * tl * (br * sr_conj br))%amp; [ring|]. rewrite U2. ring.
    - transitivity (m * br * (tl * sr_conj tl))%amp; [ring|]. rewrite U1. ring.
  Qed.
  Lemma commute_phase_view this tl br s : consistent s -> unit1 tl -> unit1 br -> all_inverting s this ->
    consistent (CommutePhase po this tl br s) /\ sh_size (CommutePhase po this tl br s) = sh_size s /\
    forall a' c' t', buffer_of (CommutePhase po this tl br s) a' c' t' =
      if t' =? this then obind (fun b => Some (if a' then p_buf (br * sr_conj tl)%amp (tl * sr_conj br)%amp b else p_buf (tl * sr_conj br)%amp (br * sr_conj tl)%amp b)) (buffer_of s a' c' t')
      else buffer_of s a' c' t'.
  Proof.
    intros C U1 U2 H. unfold CommutePhase. rewrite !(po_div_ok K po) by assumption.
    assert (V1 : unit1 (tl * sr_conj br)%amp) by (apply unit_mul; [|apply unit_conj]; assumption).
    assert (V2 : unit1 (br * sr_conj tl)%amp) by (apply unit_mul; [|apply unit_conj]; assumption).
    destruct (phase_loop_ok false this _ _ s C V1 V2 (H false)) as (s1 & E1 & C1 & S1 & W1). change targetOfShards with (tsel false). rewrite E1.
    destruct (phase_loop_ok true this (br * sr_conj tl)%amp (tl * sr_conj br)%amp s1 C1 V2 V1) as (s2 & E2 & C2 & S2 & W2).
    { intros c b Eb. rewrite W1 in Eb. unfold touch in Eb. cbn [Bool.eqb andb] in Eb. apply (H true c b Eb). }
    change antiTargetOfShards with (tsel true). rewrite E2. cbn [snd]. split; [exact C2|]. split; [congruence|]. intros a' c' t'. rewrite W2, W1. unfold touch.
    destruct a'; cbn [Bool.eqb andb]; destruct (t' =? this); reflexivity.
  Qed.
  Lemma diag_fires a c q t (M : mat2 K) tl br psi : t <> q ->
    same_state (gate1 (fires a c) t M (gate1 always q (mkMat tl 0%amp 0%amp br) psi)) (gate1 always q (mkMat tl 0%amp 0%amp br) (gate1 (fires a c) t M psi)).
  Proof.
    intros Htq x. unfold gate1, always. cbn [m00 m01 m10 m11]. rewrite !tb_setbit, !tb_clearbit.
    destruct (N.eqb_spec t q) as [|_]; [contradiction|]. cbn [orb negb]. rewrite !andb_true_r.
    destruct (fires a c x); destruct (N.testbit x t), (N.testbit x q); ring.
  Qed.
End P.
