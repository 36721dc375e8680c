(** AppendGate preserves the meaning of a circuit up to a global phase. *)
From Coq Require Import NArith List Bool Lia Ring Sorted.
From Verif Require Import Bits MFunctions MParFor MKernel Amp PAmp MEngine MAlu SpecFunctions SpecState PLoop MQCircuit SpecQCircuit PQCirc1 PQCirc2 PQCirc3.
Import ListNotations.
Local Open Scope N_scope.

Section P.
  Context {K : StarRing}.
  Add Ring KrY : (sr_ring K).
  Local Notation V := (N -> K).
  Local Notation M2 := (mat2 K).
  Implicit Types (g h o ng : @qgate K) (psi : V) (gs rl : list (@qgate K)).

  Definition okg (n : N) g : Prop := wq n g /\ ne g.
  Definition scal (ph : K) : M2 := mkMat ph 0%amp 0%amp ph.

  Lemma mat_is_ok ph (m : M2) : mat_is ph m = true -> m = scal ph.
  Proof.
    unfold mat_is. rewrite negb_true_iff, !orb_false_iff, !negb_false_iff, !z0_iff. intros [[[A B] C] D].
    apply z0_iff in C, D. apply z0_sub in C, D. unfold scal. apply mat2_eq; cbn [m00 m01 m10 m11]; auto.
  Qed.
  Lemma unitary_scal ph : unitary2 (scal ph) -> anorm ph = 1%amp.
  Proof.
    intros U. unfold unitary2, mmul, mdag, midn, scal in U. cbn [m00 m01 m10 m11] in U. injection U as U1 _ _ _. rewrite (conj_0 K) in U1.
    unfold anorm. rewrite <- U1. ring.
  Qed.
  Lemma basis_length n : length (basis n) = N.to_nat (2 ^ n).
  Proof. unfold basis. rewrite upto_iota. generalize 0. induction (N.to_nat (2 ^ n)) as [|k IH]; intros a; cbn [iota length]; auto. Qed.
  Lemma identity_ok n g : n <= 126 -> okg n g -> IsIdentityG g = true ->
    exists ph, anorm ph = 1%amp /\ forall x, gm g x = scal ph.
  Proof.
    intros Hn [W NE] H. assert (L := wq_len n g W).
    assert (X : exists ph, forall x, gm g x = scal ph).
    { unfold IsIdentityG in H. rewrite pow2_128_ok in H by lia.
      destruct (N.eqb_spec (N.of_nat (length (qg_pl g))) (2 ^ N.of_nat (length (qg_ctl g)))) as [E|E].
      - destruct (qg_pl g) as [|[k r] t] eqn:P; [now elim NE|]. rewrite <- P in *. apply andb_true_iff in H. destruct H as [_ H].
        rewrite forallb_forall in H. exists (m00 r). intros x. unfold gm, payload_at.
        destruct (mfind (ctrl_value 0 (qg_ctl g) x) (qg_pl g)) as [m|] eqn:F.
        + apply mfind_In in F. now apply mat_is_ok, (H _ F).
        + exfalso. apply mfind_none in F. apply F.
          assert (I : incl (basis (N.of_nat (length (qg_ctl g)))) (map fst (qg_pl g))).
          { apply NoDup_length_incl.
            - apply srt_nodup, W.
            - rewrite basis_length, map_length. lia.
            - intros y Hy. apply basis_In. now apply W. }
          apply I, basis_In, ctrl_lt.
      - rewrite forallb_forall in H. exists 1%amp. intros x. unfold gm, payload_at.
        destruct (mfind _ (qg_pl g)) as [m|] eqn:F; [|reflexivity]. apply mfind_In in F. now apply mat_is_ok, (H _ F). }
    destruct X as [ph X]. exists ph. split; [|exact X]. apply unitary_scal. rewrite <- (X 0). now apply (wq_unitary n).
  Qed.
  Lemma eff_scal g ph psi x : gm g x = scal ph -> eff g psi x = (ph * psi x)%amp.
  Proof. intros H. rewrite eff_fx. unfold dg, og, dia, off. rewrite H. unfold scal. cbn [m00 m01 m10 m11]. destruct (N.testbit x (qg_t g)); ring. Qed.
  Lemma eff_mmul n g o h psi x : wq n g -> wq n o -> wq n h -> qg_t o = qg_t g -> qg_t h = qg_t g ->
    (forall y, gm h y = mmul (gm o y) (gm g y)) -> eff h psi x = eff o (eff g psi) x.
  Proof.
    intros Wg Wo Wh E1 E2 H. rewrite !eff_fx. rewrite E1, E2, fx_fx. unfold dg, og. rewrite !H, E1, E2.
    rewrite (gm_fx g (qg_t g)) by apply Wg. rewrite tb_fx_eq. unfold mmul, dia, off. destruct (N.testbit x (qg_t g)); cbn [negb m00 m01 m10 m11]; ring.
  Qed.

  (** ** Sequences *)
  Definition effs gs psi : V := fold_left (fun s g => eff g s) gs psi.
  Lemma effs_app a b psi : effs (a ++ b) psi = effs b (effs a psi).
  Proof. unfold effs. apply fold_left_app. Qed.
  Lemma effs_cons g t psi : effs (g :: t) psi = effs t (eff g psi).
  Proof. reflexivity. Qed.
  Lemma effs_ext gs : forall psi psi', (forall x, psi x = psi' x) -> forall x, effs gs psi x = effs gs psi' x.
  Proof. induction gs as [|g t IH]; intros psi psi' H x; [apply H|]. rewrite !effs_cons. apply IH. now apply eff_ext. Qed.
  Lemma effs_scale gs c : forall psi x, effs gs (fun y => c * psi y)%amp x = (c * effs gs psi x)%amp.
  Proof.
    induction gs as [|g t IH]; intros psi x; [reflexivity|]. rewrite !effs_cons. rewrite <- IH. apply effs_ext. intros y. apply eff_scale.
  Qed.
  (** [b] does what [a] does up to a phase (the phase does not depend on the state). *)
  Definition pe a b : Prop := exists ph, anorm ph = 1%amp /\ forall psi x, effs a psi x = (ph * effs b psi x)%amp.
  Lemma anorm_1 : anorm (1 : K) = 1%amp.
  Proof. unfold anorm. rewrite (conj_1 K). ring. Qed.
  Lemma pe_eq a b : (forall psi x, effs a psi x = effs b psi x) -> pe a b.
  Proof. intros H. exists 1%amp. split; [apply anorm_1|]. intros psi x. rewrite H. ring. Qed.
  Lemma pe_refl a : pe a a.
  Proof. now apply pe_eq. Qed.
  Lemma pe_trans a b c : pe a b -> pe b c -> pe a c.
  Proof.
    intros (p & P1 & P2) (q & Q1 & Q2). exists (p * q)%amp. split. { rewrite (anorm_mul K), P1, Q1. ring. }
    intros psi x. rewrite P2, Q2. ring.
  Qed.
  Lemma pe_app_r a b c : pe a b -> pe (a ++ c) (b ++ c).
  Proof.
    intros (p & P1 & P2). exists p. split; auto. intros psi x. rewrite !effs_app. rewrite <- effs_scale. apply effs_ext. auto.
  Qed.
  Lemma pe_app_l a b c : pe a b -> pe (c ++ a) (c ++ b).
  Proof. intros (p & P1 & P2). exists p. split; auto. intros psi x. rewrite !effs_app. apply P2. Qed.
  Lemma pe_drop n g : n <= 126 -> okg n g -> IsIdentityG g = true -> pe [g] [].
  Proof.
    intros Hn O H. destruct (identity_ok n g Hn O H) as (ph & H1 & H2). exists ph. split; auto. intros psi x. apply (eff_scal g ph psi x (H2 x)).
  Qed.

  (** ** The scan *)
  Lemma forall_rev_iff (P : @qgate K -> Prop) l : Forall P (rev l) <-> Forall P l.
  Proof. split; [|apply Forall_rev]. intros H. rewrite <- (rev_involutive l). now apply Forall_rev. Qed.
  Lemma scan_ok n i cl rl : n <= 126 -> forall after ng did, Forall (okg n) rl -> Forall (okg n) after -> okg n ng ->
    match scan i cl rl after ng did with
    | Done gs _ => Forall (okg n) gs /\ pe (rev rl ++ ng :: after) gs /\ (length gs <= length rl + length after + 1)%nat
    | Cancel before aft _ => Forall (okg n) before /\ Forall (okg n) aft /\ pe (rev rl ++ ng :: after) (before ++ aft) /\
        (length before + length aft + 1 = length rl + length after)%nat
    end.
  Proof.
    intros Hn. induction rl as [|g rest IH]; intros after ng did Hr Ha Hg; cbn [scan].
    - split; [now constructor|]. split; [apply pe_refl|]. cbn [length]. lia.
    - inversion Hr as [|? ? Og Or]; subst. cbn [rev]. rewrite <- app_assoc. cbn [app]. destruct (CanCombine i cl g ng) eqn:CC.
      + destruct (can_combine_ok n i cl g ng (proj1 Og) (proj1 Hg) (proj2 Og) (proj2 Hg) CC) as [Et Nst].
        destruct (combine_ok n g ng Hn (proj1 Og) (proj1 Hg) (proj2 Og) Et Nst) as (C1 & C2 & C3 & C4).
        assert (P1 : pe (rev rest ++ g :: ng :: after) (rev rest ++ CombineG g ng :: after)).
        { apply pe_app_l. change (pe ([g; ng] ++ after) ([CombineG g ng] ++ after)). apply pe_app_r, pe_eq. intros psi x. unfold effs. cbn [fold_left].
          symmetry. apply (eff_mmul n); auto; [apply Og|apply Hg]. }
        destruct (IsIdentityG (CombineG g ng)) eqn:ID.
        * split; [now apply Forall_rev|]. split; [exact Ha|]. split.
          -- eapply pe_trans; [exact P1|]. apply pe_app_l. change (pe ([CombineG g ng] ++ after) ([] ++ after)). apply pe_app_r.
             apply (pe_drop n); auto. split; auto.
          -- rewrite rev_length. cbn [length]. lia.
        * split. { apply Forall_app. split; [now apply Forall_rev|]. constructor; [split; auto|exact Ha]. }
          split; [exact P1|]. rewrite app_length, rev_length. cbn [length]. lia.
      + destruct (CanPass g ng) as [ng'|] eqn:CP.
        * destruct (pass_ok n g ng ng' Hn (proj1 Og) (proj1 Hg) (proj2 Hg) CP) as (P1 & P2 & P3 & P4 & P5).
          specialize (IH (g :: after) ng' (did || shares (qubits ng) (qubits g)) Or (Forall_cons _ Og Ha) (conj P1 P2)).
          assert (Q : pe (rev rest ++ g :: ng :: after) (rev rest ++ ng' :: g :: after)).
          { apply pe_app_l. change (pe ([g; ng] ++ after) ([ng'; g] ++ after)). apply pe_app_r, pe_eq. intros psi x. unfold effs. cbn [fold_left]. apply P5. }
          destruct (scan i cl rest (g :: after) ng' _) as [gs b|before aft gq].
          -- destruct IH as (I1 & I2 & I3). split; [exact I1|]. split; [eapply pe_trans; eauto|]. cbn [length] in *. lia.
          -- destruct IH as (I1 & I2 & I3 & I4). split; [exact I1|]. split; [exact I2|]. split; [eapply pe_trans; eauto|]. cbn [length] in *. lia.
        * split. { apply Forall_app. split; [now apply Forall_rev|]. constructor; [auto|]. constructor; auto. }
          split; [apply pe_refl|]. rewrite app_length, rev_length. cbn [length]. lia.
  Qed.

  (** Qubit counts. *)
  Lemma last_In (l : list N) d : l <> [] -> In (last l d) l.
  Proof.
    induction l as [|a t IH]; [congruence|]. intros _. destruct t as [|b u]; [now left|]. right. apply IH. discriminate.
  Qed.
  Lemma last_max (l : list N) d q : srt l -> In q l -> q <= last l d.
  Proof.
    induction 1 as [|a t S1 IH Ha]; intros H; [destruct H|]. rewrite Forall_forall in Ha. destruct t as [|b u].
    - destruct H as [<-|[]]. cbn [last]. lia.
    - change (last (a :: b :: u) d) with (last (b :: u) d). destruct H as [<-|H]; [|now apply IH].
      specialize (Ha _ (last_In (b :: u) d ltac:(discriminate))). lia.
  Qed.
  Lemma grow_ok n count g : n <= 126 -> wq n g -> count <= n ->
    count <= grow count g <= n /\ qg_t g < grow count g /\ forall q, In q (qg_ctl g) -> q < grow count g.
  Proof.
    intros Hn (A & B & C & _) Hc. unfold grow.
    set (c1 := if count <? qg_t g + 1 then w8 (qg_t g + 1) else count).
    assert (X : count <= c1 <= n /\ qg_t g < c1).
    { subst c1. destruct (N.ltb_spec count (qg_t g + 1)); [|lia]. unfold w8. rewrite N.mod_small by lia. lia. }
    clearbody c1. destruct (qg_ctl g) as [|a t] eqn:E; [split; [lia|split; [lia|intros q []]]|]. rewrite <- E in *.
    assert (Y : forall q, In q (qg_ctl g) -> q <= last (qg_ctl g) 0) by (intros q Hq; now apply last_max).
    assert (Z : last (qg_ctl g) 0 < n) by (apply C, last_In; congruence).
    destruct (N.ltb_spec c1 (last (qg_ctl g) 0 + 1)).
    - unfold w8. rewrite N.mod_small by lia. split; [lia|]. split; [lia|]. intros q Hq. specialize (Y q Hq). lia.
    - split; [lia|]. split; [lia|]. intros q Hq. specialize (Y q Hq). lia.
  Qed.

  (** ** AppendGate *)
  Definition st_ok (n : N) (st : N * list (@qgate K)) : Prop := Forall (okg n) (snd st) /\ fst st <= n.
  Definition app_ok (n : N) (app : N * list (@qgate K) -> @qgate K -> (N * list (@qgate K)) * bool) : Prop :=
    forall st ng, st_ok n st -> okg n ng ->
      let st' := fst (app st ng) in st_ok n st' /\ fst st <= fst st' /\ pe (snd st ++ [ng]) (snd st').
  Lemma reapp_ok n app : app_ok n app -> forall head gq st, Forall (okg n) head -> st_ok n st ->
    let st' := reapp app head gq st in st_ok n st' /\ fst st <= fst st' /\ pe (snd st ++ head) (snd st').
  Proof.
    intros HA. induction head as [|h t IH]; intros gq st Hh Hs; cbn [reapp].
    - split; [exact Hs|]. split; [lia|]. rewrite app_nil_r. apply pe_refl.
    - inversion Hh as [|? ? Oh Ot]; subst. destruct (is_nil gq).
      { cbn [fst snd]. split; [|split; [lia|apply pe_refl]]. destruct Hs as [S1 S2]. split; [|exact S2]. cbn [snd]. apply Forall_app. auto. }
      destruct (negb (shares (qubits h) gq)).
      + destruct (IH gq (fst st, snd st ++ [h]) Ot) as (A & B & C).
        { destruct Hs as [S1 S2]. split; [|exact S2]. cbn [snd]. apply Forall_app. auto. }
        cbn [fst snd] in *. split; [exact A|]. split; [exact B|]. rewrite <- app_assoc in C. exact C.
      + destruct (HA st h Hs Oh) as (A & B & C). destruct (app st h) as [st1 b]. cbn [fst] in *.
        set (gq' := if b then _ else _). destruct (IH gq' st1 Ot A) as (A' & B' & C'). split; [exact A'|]. split; [lia|].
        eapply pe_trans; [|exact C']. change (h :: t) with ([h] ++ t). rewrite app_assoc. now apply pe_app_r.
  Qed.
  Lemma append_ok n i cl fuel : n <= 126 -> app_ok n (append i cl fuel).
  Proof.
    intros Hn. induction fuel as [|f IH]; intros st ng Hs Hg; cbn [append].
    - cbn [fst snd]. split; [|split; [lia|apply pe_refl]]. destruct Hs as [S1 S2]. split; [|exact S2]. cbn [snd]. apply Forall_app. auto.
    - destruct (IsIdentityG ng) eqn:ID.
      { cbn [fst]. split; [exact Hs|]. split; [lia|]. rewrite <- (app_nil_r (snd st)) at 2. apply pe_app_l. now apply (pe_drop n). }
      destruct Hs as [S1 S2]. destruct (grow_ok n (fst st) ng Hn (proj1 Hg) S2) as (G1 & _).
      assert (SC := scan_ok n i cl (rev (snd st)) Hn [] ng false (Forall_rev S1) (Forall_nil _) Hg). rewrite rev_involutive in SC.
      destruct (scan i cl (rev (snd st)) [] ng false) as [gs b|before aft gq].
      + cbn [fst snd]. destruct SC as (A & B & _). split; [split; [exact A|cbn [fst]; lia]|]. split; [lia|exact B].
      + destruct SC as (A & B & C & _). cbn [fst].
        destruct (reapp_ok n (append i cl f) IH aft gq (grow (fst st) ng, before) B) as (A' & B' & C'). { split; [exact A|cbn [fst]; lia]. }
        cbn [fst snd] in *. split; [exact A'|]. split; [lia|]. eapply pe_trans; eauto.
  Qed.

  (** ** Enough fuel *)
  Lemma reapp_len app head : (forall st h, (length (snd (fst (app st h))) <= length (snd st) + 1)%nat) -> forall gq st,
    (length (snd (reapp app head gq st)) <= length (snd st) + length head)%nat.
  Proof.
    intros HA. induction head as [|h t IH]; intros gq st; cbn [reapp]; [cbn [length]; lia|]. destruct (is_nil gq).
    { cbn [snd]. rewrite app_length. lia. }
    destruct (negb _).
    - eapply PeanoNat.Nat.le_trans; [apply IH|]. cbn [snd]. rewrite app_length. cbn [length]. lia.
    - specialize (HA st h). destruct (app st h) as [st1 b]. cbn [fst] in HA. eapply PeanoNat.Nat.le_trans; [apply IH|]. cbn [length]. lia.
  Qed.
  Lemma scan_len i cl rl : forall after ng did,
    match scan i cl rl after ng did with
    | Done gs _ => (length gs <= length rl + length after + 1)%nat
    | Cancel before aft _ => (length before + length aft + 1 = length rl + length after)%nat
    end.
  Proof.
    induction rl as [|g rest IH]; intros after ng did; cbn [scan]; [cbn [length]; lia|].
    destruct (CanCombine i cl g ng).
    - destruct (IsIdentityG (CombineG g ng)); rewrite ?app_length, rev_length; cbn [length]; lia.
    - destruct (CanPass g ng) as [ng'|].
      + specialize (IH (g :: after) ng' (did || shares (qubits ng) (qubits g))). destruct (scan _ _ rest _ _ _); cbn [length] in *; lia.
      + rewrite ?app_length, rev_length; cbn [length]; lia.
  Qed.
  Lemma append_len i cl fuel : forall st ng, (length (snd (fst (append i cl fuel st ng))) <= length (snd st) + 1)%nat.
  Proof.
    induction fuel as [|f IH]; intros st ng; cbn [append]. { cbn [fst snd]. rewrite app_length. cbn [length]. lia. }
    destruct (IsIdentityG ng); [cbn [fst]; lia|]. assert (S := scan_len i cl (rev (snd st)) [] ng false). rewrite rev_length in S.
    destruct (scan i cl (rev (snd st)) [] ng false) as [gs b|before aft gq]; cbn [fst snd length] in *; [lia|].
    assert (R := reapp_len (append i cl f) aft IH gq (grow (fst st) ng, before)). cbn [snd] in R. lia.
  Qed.
  Lemma reapp_fuel a1 a2 m head : (forall st h, (length (snd st) < m)%nat -> a1 st h = a2 st h) ->
    (forall st h, (length (snd (fst (a1 st h))) <= length (snd st) + 1)%nat) ->
    forall gq st, (length (snd st) + length head <= m)%nat -> reapp a1 head gq st = reapp a2 head gq st.
  Proof.
    intros HE HL. induction head as [|h t IH]; intros gq st Hm; cbn [reapp]; auto. cbn [length] in Hm. destruct (is_nil gq); auto.
    destruct (negb _). { apply IH. cbn [snd]. rewrite app_length. cbn [length]. lia. }
    rewrite <- HE by lia. specialize (HL st h). destruct (a1 st h) as [st1 b]. cbn [fst] in HL. apply IH. lia.
  Qed.
  Lemma append_fuel i cl f1 : forall f2 st ng, (length (snd st) < f1)%nat -> (length (snd st) < f2)%nat ->
    append i cl f1 st ng = append i cl f2 st ng.
  Proof.
    induction f1 as [|f1 IH]; intros f2 st ng H1 H2; [lia|]. destruct f2 as [|f2]; [lia|]. cbn [append].
    destruct (IsIdentityG ng); auto. assert (S := scan_len i cl (rev (snd st)) [] ng false). rewrite rev_length in S.
    destruct (scan i cl (rev (snd st)) [] ng false) as [gs b|before aft gq]; auto. f_equal.
    cbn [length] in S. apply (reapp_fuel _ _ (length (snd st))).
    - intros st' h Hl. apply IH; lia.
    - apply append_len.
    - cbn [snd]. lia.
  Qed.

  (** ** Circuits *)
  Definition qc_ok (n : N) (c : @qcirc K) : Prop := Forall (okg n) (qc_gates c) /\ qc_count c <= n.
  Lemma AppendGate_ok n i c ng : n <= 126 -> qc_ok n c -> okg n ng ->
    qc_ok n (AppendGate i c ng) /\ qc_count c <= qc_count (AppendGate i c ng) /\ pe (qc_gates c ++ [ng]) (qc_gates (AppendGate i c ng)) /\
    qc_collapsed (AppendGate i c ng) = qc_collapsed c.
  Proof.
    intros Hn [C1 C2] Hg. unfold AppendGate. destruct (qc_collapsed c) eqn:E; cbn [negb].
    - destruct (append_ok n i (qc_clifford c) (S (length (qc_gates c))) Hn (qc_count c, qc_gates c) ng (conj C1 C2) Hg) as (A & B & C).
      unfold qc_ok. cbn [qc_gates qc_count qc_collapsed]. cbn [fst snd] in *. auto.
    - unfold qc_ok. cbn [qc_gates qc_count qc_collapsed]. split. { split; [apply Forall_app; auto|exact C2]. } split; [lia|]. split; [apply pe_refl|reflexivity].
  Qed.
  Lemma AppendGates_ok n i gs : n <= 126 -> forall c, qc_ok n c -> Forall (okg n) gs ->
    qc_ok n (AppendGates i c gs) /\ qc_count c <= qc_count (AppendGates i c gs) /\ pe (qc_gates c ++ gs) (qc_gates (AppendGates i c gs)).
  Proof.
    intros Hn. unfold AppendGates. induction gs as [|g t IH]; intros c Hc Hg; cbn [fold_left].
    - rewrite app_nil_r. split; [exact Hc|]. split; [lia|apply pe_refl].
    - inversion Hg as [|? ? Og Ot]; subst. destruct (AppendGate_ok n i c g Hn Hc Og) as (A & B & C & _).
      destruct (IH _ A Ot) as (A' & B' & C'). split; [exact A'|]. split; [lia|]. eapply pe_trans; [|exact C'].
      change (g :: t) with ([g] ++ t). rewrite app_assoc. now apply pe_app_r.
  Qed.
End P.
