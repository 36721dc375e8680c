(** Qubit counts, inverse, swap, addition, past light cone. *)
From Coq Require Import NArith List Bool Lia Ring Sorted Permutation.
From Verif Require Import Bits MFunctions MParFor MKernel Amp PAmp MEngine MAlu SpecFunctions SpecState SpecEngine SpecAlu PLoop PGates PGates2 PProb PEngine
  MCircuit PCircuit PCircuit3 PCircuit8 PCircuit12 MQCircuit SpecQCircuit PQCirc1 PQCirc2 PQCirc3 PQCirc4 PQCirc5.
Import ListNotations.
Local Open Scope N_scope.

Section P.
  Context {K : StarRing}.
  Add Ring KrAA : (sr_ring K).
  Local Notation V := (N -> K).
  Local Notation M2 := (mat2 K).
  Implicit Types (g h o ng : @qgate K) (psi : V) (gs rl : list (@qgate K)) (c : @qcirc K).

  (** ** Counts *)
  Lemma okg_mono n n' g : n <= n' -> okg n g -> okg n' g.
  Proof.
    intros H [(A & B & C & D) NE]. split; auto. split; [lia|]. split; auto. split; auto. intros q Hq. specialize (C q Hq). lia.
  Qed.
  Lemma okg_grow n count g : n <= 126 -> okg n g -> count <= n -> okg (grow count g) g.
  Proof.
    intros Hn [W NE] Hc. destruct (grow_ok n count g Hn W Hc) as (A & B & C). split; auto. destruct W as (_ & W2 & _ & W4). split; auto.
  Qed.
  Definition fit c : Prop := qc_collapsed c = true /\ qc_count c <= 126 /\ Forall (okg (qc_count c)) (qc_gates c).
  Lemma append_fit i cl fuel (st : N * list qgate) ng : Forall (okg (fst st)) (snd st) -> fst st <= 126 -> okg 126 ng ->
    let st' := fst (append i cl (S fuel) st ng) in Forall (okg (fst st')) (snd st') /\ fst st <= fst st' <= 126.
  Proof.
    intros H1 H2 Hg. cbv zeta. destruct (IsIdentityG ng) eqn:ID. { cbn [append]. rewrite ID. cbn [fst]. split; auto. lia. }
    destruct (grow_ok 126 (fst st) ng ltac:(lia) (proj1 Hg) H2) as (G1 & G2 & G3).
    set (n' := grow (fst st) ng) in *. assert (Og : okg n' ng) by (apply (okg_grow 126); auto; lia).
    assert (S1 : st_ok n' st). { split; [|lia]. eapply Forall_impl; [|exact H1]. intros g. apply okg_mono. lia. }
    destruct (append_ok n' i cl (S fuel) ltac:(lia) st ng S1 Og) as ((A1 & A2) & A3 & _).
    assert (GE : n' <= fst (fst (append i cl (S fuel) st ng))).
    { cbn [append]. rewrite ID. assert (SC := scan_ok n' i cl (rev (snd st)) ltac:(lia) [] ng false (Forall_rev (proj1 S1)) (Forall_nil _) Og).
      destruct (scan i cl (rev (snd st)) [] ng false) as [gs b|before aft gq]. { cbn [fst]. fold n'. lia. }
      destruct SC as (B1 & B2 & _). cbn [fst]. fold n'.
      destruct (reapp_ok n' (append i cl fuel) (append_ok n' i cl fuel ltac:(lia)) aft gq (n', before) B2) as (_ & X & _); [split; [exact B1|cbn [fst]; lia]|exact X]. }
    split; [|lia]. replace (fst (fst (append i cl (S fuel) st ng))) with n' by lia. exact A1.
  Qed.
  Lemma AppendGate_fit i c ng : fit c -> okg 126 ng -> fit (AppendGate i c ng) /\ qc_count c <= qc_count (AppendGate i c ng).
  Proof.
    intros (C1 & C2 & C3) Hg. unfold AppendGate. rewrite C1. cbn [negb].
    destruct (append_fit i (qc_clifford c) (length (qc_gates c)) (qc_count c, qc_gates c) ng C3 C2 Hg) as [A B]. unfold fit. cbn [qc_collapsed qc_count qc_gates].
    cbn [fst snd] in *. split; [split; auto; split; [lia|auto]|lia].
  Qed.
  Lemma AppendGates_fit i gs : forall c, fit c -> Forall (okg 126) gs -> fit (AppendGates i c gs) /\ qc_count c <= qc_count (AppendGates i c gs).
  Proof.
    unfold AppendGates. induction gs as [|g t IH]; intros c Hc Hg; cbn [fold_left]; [split; auto; lia|]. inversion Hg as [|? ? Og Ot]; subst.
    destruct (AppendGate_fit i c g Hc Og) as [A B]. destruct (IH _ A Ot). split; auto. lia.
  Qed.

  (** ** Inverse *)
  Lemma inv_gd n g : gd n g -> gd n (inv_gate g).
  Proof.
    intros [G|G].
    - left. destruct G as (A & B & C & D & E & F). unfold good_gate, inv_gate. cbn [qg_t qg_ctl qg_pl]. split; auto. split; auto. split; auto.
      split. { destruct (qg_pl g); [congruence|discriminate]. } split. { rewrite map_map. cbn [fst]. exact E. }
      intros e He. apply in_map_iff in He. destruct He as (e0 & <- & He). cbn [snd]. apply unitary_dag. auto.
    - right. destruct G as (E & G). unfold good_swap, inv_gate. cbn [qg_t qg_ctl qg_pl]. rewrite E. auto.
  Qed.
  Lemma mfind_map (f : M2 -> M2) (l : list (N * M2)) k : mfind k (map (fun e => (fst e, f (snd e))) l) = match mfind k l with Some m => Some (f m) | None => None end.
  Proof. induction l as [|[a m] t IH]; cbn [map mfind fst snd]; auto. now destruct (k =? a). Qed.
  Lemma gm_inv g x : gm (inv_gate g) x = mdag (gm g x).
  Proof.
    unfold gm, payload_at, inv_gate. cbn [qg_ctl qg_pl]. rewrite mfind_map. destruct (mfind _ (qg_pl g)); auto. now rewrite mdag_1.
  Qed.
  Lemma inv_effect n g psi x : gd n g -> effect (inv_gate g) (effect g psi) x = psi x.
  Proof.
    intros G. pose proof (inv_gd n g G) as G'. destruct G as [G|G].
    - destruct G' as [G'|(G' & _)]. 2:{ exfalso. destruct G as (_ & _ & _ & G & _). apply G. unfold inv_gate in G'. cbn [qg_pl] in G'. destruct (qg_pl g); [auto|discriminate]. }
      apply good_wq in G, G'. destruct G as [W NE], G' as [W' NE']. rewrite eff_effect by auto.
      rewrite (eff_ext (inv_gate g) (effect g psi) (eff g psi)) by (intros; now apply eff_effect).
      rewrite !eff_fx. change (qg_t (inv_gate g)) with (qg_t g). rewrite fx_fx. unfold dg, og. change (qg_t (inv_gate g)) with (qg_t g). rewrite !gm_inv.
      rewrite (gm_fx g (qg_t g)) by apply W. rewrite tb_fx_eq. assert (U := wq_unitary n g (ctrl_value 0 (qg_ctl g) x) W). fold (gm g x) in U.
      set (m := gm g x) in *. assert (U1 : mmul (mdag m) m = midn) by exact U. assert (Q := f_equal (@m00 K) U1). assert (Q1 := f_equal (@m01 K) U1).
      assert (Q2 := f_equal (@m10 K) U1). assert (Q3 := f_equal (@m11 K) U1). unfold mmul, midn in Q, Q1, Q2, Q3. cbn [m00 m01 m10 m11] in Q, Q1, Q2, Q3.
      unfold dia, off. destruct (N.testbit x (qg_t g)); cbn [negb].
      + transitivity ((m10 (mdag m) * m00 m + m11 (mdag m) * m10 m) * psi (fx (qg_t g) x) + (m10 (mdag m) * m01 m + m11 (mdag m) * m11 m) * psi x)%amp; [ring|]. rewrite Q2, Q3. ring.
      + transitivity ((m00 (mdag m) * m00 m + m01 (mdag m) * m10 m) * psi x + (m00 (mdag m) * m01 m + m01 (mdag m) * m11 m) * psi (fx (qg_t g) x))%amp; [ring|]. rewrite Q, Q1. ring.
    - destruct G' as [G'|G']. { exfalso. destruct G' as (_ & _ & _ & F & _). apply F. unfold inv_gate. cbn [qg_pl]. destruct G as (-> & _). reflexivity. }
      rewrite (effect_swap n (inv_gate g)) by auto. rewrite (effect_swap n g) by auto. unfold inv_gate. cbn [qg_ctl qg_t]. now rewrite swap_bits_invol.
  Qed.
  Lemma inv_effects n gs psi x : Forall (gd n) gs -> effects (rev (map inv_gate gs)) (effects gs psi) x = psi x.
  Proof.
    intros H. revert psi x. induction H as [|g t Hg Ht IH]; intros psi x; [reflexivity|]. cbn [map rev]. rewrite effects_app, effects_cons.
    unfold effects at 1. cbn [fold_left]. rewrite (effect_ext n (inv_gate g) (inv_gd n g Hg) _ (effect g psi)). { now apply (inv_effect n). } intros y. apply IH.
  Qed.
  Lemma inv_all n gs : Forall (gd n) gs -> Forall (gd n) (rev (map inv_gate gs)).
  Proof. intros H. apply Forall_rev. induction H; constructor; auto. now apply inv_gd. Qed.

  (** ** Swap *)
  Lemma cnot_ok n a b key : a < n -> b < n -> a <> b -> unitary2 (mat_X : M2) /\ okg n (gate_c a mat_X [b] (N.b2n key) : @qgate K).
  Proof.
    intros Ha Hb Hab. assert (U : unitary2 (mat_X : M2)).
    { unfold unitary2, mmul, mdag, mat_X, midn. cbn [m00 m01 m10 m11]. rewrite !(conj_0 K), !(conj_1 K). f_equal; ring. }
    split; auto. split; [|unfold ne; discriminate]. unfold wq, gate_c. cbn [qg_t qg_ctl qg_pl map fst length].
    split; auto. split. { repeat constructor. } split. { intros q [<-|[]]; auto. } split. { intros [F|[]]; auto. }
    split. { repeat constructor. } split. { intros k [<-|[]]. now destruct key. } intros e [<-|[]]. exact U.
  Qed.
  Lemma swap_gates_ok n (a b : N) : a < n -> b < n -> a <> b -> let l := [gate_c a mat_X [b] 1; gate_c b mat_X [a] 1; gate_c a mat_X [b] 1] : list (@qgate K) in
    Forall (okg n) l /\ forall psi x, effects l psi x = psi (swap_bits a b x).
  Proof.
    intros Ha Hb Hab. cbv zeta. split. { constructor; [apply (cnot_ok n a b true); auto|]. constructor; [apply (cnot_ok n b a true); auto|]. constructor; [apply (cnot_ok n a b true); auto|constructor]. }
    intros psi x. unfold effects. cbn [fold_left].
    assert (Z1 : @z0 K (1 - 1)%amp = true) by now apply z0_sub. assert (Z0 : @z0 K 0%amp = true) by now apply z0_iff.
    assert (CN : forall s t, IsCnotAt (N.b2n true) (gate_c s mat_X [t] 1 : @qgate K) = true).
    { intros s t. unfold IsCnotAt, gate_c. cbn [qg_ctl qg_pl mfind N.b2n]. unfold is_x, mat_X. cbn [N.eqb Pos.eqb m00 m01 m10 m11]. now rewrite Z1, Z0. }
    rewrite !(cnot_eff true) by apply CN. unfold gate_c. cbn [qg_ctl qg_t hd]. rewrite swap3_bits by auto.
    f_equal. apply N.bits_inj. intros q. rewrite !tb_swap. destruct (N.eqb_spec a q), (N.eqb_spec b q), (N.eqb_spec q a), (N.eqb_spec q b); subst; auto; congruence.
  Qed.

  (** ** INC *)
  Definition tracks gs (l : @circ K) : Prop := forall psi y, effects gs psi (cact l y) = psi y.
  Lemma tracks_app gs rl l1 l2 : tracks gs l1 -> tracks rl l2 -> tracks (gs ++ rl) (l1 ++ l2).
  Proof. intros H1 H2 psi y. rewrite effects_app, cact_app. rewrite H2. apply H1. Qed.
  Lemma tracks_flat {A} (f : A -> list (@qgate K)) (f' : A -> @circ K) l : (forall a, In a l -> tracks (f a) (f' a)) -> tracks (flat_map f l) (flat_map f' l).
  Proof.
    induction l as [|a t IH]; intros H; cbn [flat_map]. { intros psi y. reflexivity. }
    apply tracks_app; [apply H; now left|]. apply IH. intros; apply H; now right.
  Qed.
  Lemma flip_true t x : flip true t x = fx t x.
  Proof. apply N.bits_inj. intros q. now rewrite tb_flip, tb_fx. Qed.
  Lemma flip_false t x : flip false t x = x.
  Proof. apply N.bits_inj. intros q. rewrite tb_flip. cbn [andb]. apply xorb_false_r. Qed.
  Lemma tracks_x t : tracks [gate_1 t mat_X] (qi_X t).
  Proof.
    intros psi y. rewrite act_X, flip_true. unfold effects. cbn [fold_left]. rewrite eff_effect by discriminate. rewrite eff_fx.
    unfold gate_1. cbn [qg_t]. rewrite fx_fx. unfold dg, og, gm, payload_at. cbn [qg_ctl qg_pl qg_t ctrl_value mfind N.eqb]. unfold dia, off, mat_X. cbn [m00 m01 m10 m11].
    destruct (N.testbit (fx t y) t); ring.
  Qed.
  Lemma clear_value cs x : (ctrl_value 0 cs x =? 0) = all_clear cs x.
  Proof.
    assert (G : forall i, (ctrl_value i cs x =? 0) = all_clear cs x).
    { induction cs as [|q t IH]; intros i; cbn [ctrl_value all_clear forallb]; auto. specialize (IH (i + 1)). unfold all_clear in IH. rewrite <- IH.
      assert (P := pow2_nz i). destruct (N.testbit x q); cbn [negb andb]; auto. apply N.eqb_neq. lia. }
    apply G.
  Qed.
  Lemma tracks_mac cs t : ~ In t cs -> tracks [gate_c t mat_X cs 0] (qi_MACInvert cs 1%amp 1%amp t).
  Proof.
    intros H psi y. rewrite act_MAC. unfold effects. cbn [fold_left]. rewrite eff_effect by discriminate. rewrite eff_fx.
    unfold gate_c. cbn [qg_t]. unfold dg, og. set (g := mkGate t [(0, mat_X)] cs).
    assert (E : forall x, gm g x = if all_clear cs x then mat_X else midn).
    { intros x. unfold gm, payload_at. subst g. cbn [qg_ctl qg_pl mfind]. rewrite clear_value. now destruct (all_clear cs x). }
    rewrite !E. destruct (all_clear cs y) eqn:C.
    - assert (C' : all_clear cs (flip true t y) = true) by now rewrite all_clear_flip. rewrite C', flip_true, fx_fx.
      unfold dia, off, mat_X. cbn [m00 m01 m10 m11]. destruct (N.testbit (fx t y) (qg_t g)); ring.
    - rewrite flip_false, C. unfold dia, off, midn. cbn [m00 m01 m10 m11]. destruct (N.testbit y (qg_t g)); ring.
  Qed.
  Lemma inc_tracks a s len : tracks (inc_gates a s len) (qi_INC a s len).
  Proof.
    unfold inc_gates, qi_INC. destruct (N.eqb_spec len 0). { intros psi y. reflexivity. } destruct (N.eqb_spec len 1).
    - destruct (N.testbit a 0). { apply tracks_x. } intros psi y. reflexivity.
    - apply tracks_flat. intros i Hi. apply iota_mem in Hi. destruct (N.testbit a i); [|intros psi y; reflexivity].
      change (gate_1 (s + i) mat_X :: ?l) with ([gate_1 (s + i) mat_X] ++ l). apply tracks_app; [apply tracks_x|].
      assert (FM : forall (A : Type) (f : N -> A) l, map f l = flat_map (fun j => [f j]) l) by (intros A f l; induction l; cbn [map flat_map app]; congruence).
      rewrite FM. apply tracks_flat. intros j Hj. apply iota_mem in Hj. apply tracks_mac. intros HI. apply in_map_iff in HI. destruct HI as (b & E & Hb). apply iota_mem in Hb.
      rewrite N.mod_small in E by lia. lia.
  Qed.
  Lemma srt_iota k : forall a, srt (iota a k).
  Proof.
    induction k as [|k IH]; intros a; cbn [iota]; constructor; auto. apply Forall_forall. intros q Hq. apply iota_mem in Hq. lia.
  Qed.
  Lemma srt_shift s (l : list N) : srt l -> srt (map (fun b => s + b) l).
  Proof.
    induction 1 as [|a t S1 IH Ha]; cbn [map]; constructor; auto. rewrite Forall_forall in *. intros q Hq. apply in_map_iff in Hq. destruct Hq as (b & <- & Hb). specialize (Ha b Hb). lia.
  Qed.
  Lemma x_unitary : unitary2 (mat_X : M2).
  Proof. unfold unitary2, mmul, mdag, mat_X, midn. cbn [m00 m01 m10 m11]. rewrite !(conj_0 K), !(conj_1 K). f_equal; ring. Qed.
  Lemma one_gate_ok n t (m : M2) : t < n -> unitary2 m -> okg n (gate_1 t m).
  Proof.
    intros Ht U. split; [|unfold ne; discriminate]. unfold wq, gate_1. cbn [qg_t qg_ctl qg_pl map fst length].
    split; auto. split. { constructor. } split. { intros q []. } split. { intros []. } split. { repeat constructor. } split. { intros k [<-|[]]. reflexivity. } intros e [<-|[]]. exact U.
  Qed.
  Lemma inc_ok n a s len : s + len <= n -> Forall (okg n) (inc_gates a s len : list (@qgate K)).
  Proof.
    intros Hs. unfold inc_gates. destruct (N.eqb_spec len 0); [constructor|]. destruct (N.eqb_spec len 1).
    - destruct (N.testbit a 0); [|constructor]. constructor; [|constructor]. apply one_gate_ok; [lia|apply x_unitary].
    - apply Forall_flat_map, Forall_forall. intros i Hi. apply iota_mem in Hi. destruct (N.testbit a i); [|constructor]. constructor. { apply one_gate_ok; [lia|apply x_unitary]. }
      apply Forall_forall. intros g Hg. apply in_map_iff in Hg. destruct Hg as (j & <- & Hj). apply iota_mem in Hj. split; [|unfold ne; discriminate].
      unfold wq, gate_c. cbn [qg_t qg_ctl qg_pl map fst length]. rewrite N.mod_small by lia. split; [lia|]. split. { apply srt_shift, srt_iota. }
      assert (B : forall q, In q (map (fun b => s + b) (iota i (N.to_nat (j + 1)))) -> s + i <= q < s + (i + j + 1)).
      { intros q Hq. apply in_map_iff in Hq. destruct Hq as (b & <- & Hb). apply iota_mem in Hb. lia. }
      split. { intros q Hq. apply B in Hq. lia. } split. { intros Hq. apply B in Hq. lia. } split. { repeat constructor. } split. { intros k [<-|[]]. assert (P := pow2_nz (N.of_nat (length (map (fun b => s + b) (iota i (N.to_nat (j + 1))))))). lia. }
      intros e [<-|[]]. apply x_unitary.
  Qed.
  Lemma inc_effects n a s len psi : s + len <= n -> basis_map n always (add_reg s len a) (fun _ => 1%amp) psi (effects (inc_gates a s len) psi).
  Proof.
    intros Hs. assert (B := csem_map n (qi_INC a s len : @circ K) psi (wf_INC n a s len Hs)). unfold basis_map in *. destruct B as (B1 & B2 & B3).
    assert (EQ : forall x, x < 2 ^ n -> effects (inc_gates a s len) psi x = csem (qi_INC a s len : @circ K) psi x).
    { intros x Hx. rewrite (csem_cact n) by now apply wf_INC. rewrite <- (inc_tracks a s len psi (cact (rev (qi_INC a s len : @circ K)) x)). f_equal.
      symmetry. rewrite <- (rev_involutive (qi_INC a s len : @circ K)) at 1. apply (cact_rev n). apply wfx_rev. now apply wf_INC. }
    split; [|split].
    - intros x y Hx Hy Dx Dy E. apply B1; auto. now rewrite !(inc_act (K := K)).
    - intros x Hx Dx. rewrite <- (inc_act (K := K)). destruct (B2 x Hx Dx) as [B21 B22]. split; auto. rewrite EQ by auto. exact B22.
    - intros y Hy H. rewrite EQ by auto. apply B3; auto. intros x Hx Dx. rewrite (inc_act (K := K)). now apply H.
  Qed.

  (** ** Past light cone *)
  Definition qset g : list N := qg_t g :: qg_ctl g.
  Definition far g h : Prop := forall q, In q (qset g) -> ~ In q (qset h).
  Lemma far_sym g h : far g h -> far h g.
  Proof. intros H q H1 H2. exact (H q H2 H1). Qed.
  Lemma swap_fx a b t x : t <> a -> t <> b -> swap_bits a b (fx t x) = fx t (swap_bits a b x).
  Proof.
    intros Ha Hb. apply N.bits_inj. intros q. rewrite tb_swap, !tb_fx, tb_swap. destruct (N.eqb_spec a q), (N.eqb_spec b q), (N.eqb_spec t q), (N.eqb_spec t a), (N.eqb_spec t b); subst; try congruence; rewrite ?xorb_false_r, ?xorb_true_r; auto.
  Qed.
  Lemma comm_eff_swap n m g h psi x : okg n g -> good_swap m h -> far g h -> effect h (effect g psi) x = effect g (effect h psi) x.
  Proof.
    intros [W NE] Hh F. rewrite (effect_swap m h) by auto. rewrite !(eff_effect g) by auto.
    rewrite (eff_ext g (effect h psi) (fun y => psi (swap_bits (hd 0 (qg_ctl h)) (qg_t h) y))) by (intros; now apply (effect_swap m)).
    destruct Hh as (_ & c0 & Ec & _). rewrite Ec. cbn [hd]. set (t := qg_t h) in *.
    assert (F1 : forall q, In q (qset g) -> q <> t /\ q <> c0).
    { intros q Hq. specialize (F q Hq). unfold qset in F. rewrite Ec in F. cbn [In] in F. fold t in F. split; intros ->; apply F; auto. }
    assert (TB : forall q, In q (qset g) -> N.testbit (swap_bits c0 t x) q = N.testbit x q).
    { intros q Hq. destruct (F1 q Hq). rewrite tb_swap. destruct (N.eqb_spec c0 q); [congruence|]. destruct (N.eqb_spec t q); congruence. }
    rewrite !eff_fx. unfold dg, og. rewrite TB by (left; auto). rewrite (gm_ext g (swap_bits c0 t x) x) by (intros q Hq; apply TB; now right).
    destruct (F1 (qg_t g)) as [X1 X2]; [now left|]. rewrite swap_fx by auto. reflexivity.
  Qed.
  Lemma comm_far_gd n g h psi x : gd n g -> gd n h -> far g h -> effect h (effect g psi) x = effect g (effect h psi) x.
  Proof.
    intros [G|G] [H|H] F.
    - apply good_wq in G, H. rewrite (eff_effect h), (eff_effect g) by (apply G || apply H). rewrite (eff_ext h (effect g psi) (eff g psi)) by (intros; apply eff_effect, G).
      rewrite (eff_ext g (effect h psi) (eff h psi)) by (intros; apply eff_effect, H). apply comm_far.
      + intros E. apply (F (qg_t g)); [now left|rewrite E; now left].
      + intros E. apply (F (qg_t g)); [now left|now right].
      + intros E. apply (F (qg_t h)); [now right|now left].
    - apply good_wq in G. apply (comm_eff_swap n n); auto.
    - apply good_wq in H. symmetry. apply (comm_eff_swap n n); auto. now apply far_sym.
    - rewrite (effect_swap n h) by auto. rewrite (effect_swap n g) by auto. rewrite (effect_swap n g (effect h psi)) by auto. rewrite (effect_swap n h) by auto. f_equal.
      destruct G as (_ & c0 & E0 & _), H as (_ & c1 & E1 & _). rewrite E0, E1. cbn [hd]. unfold far, qset in F. rewrite E0, E1 in F. cbn [In] in F.
      assert (D1 : qg_t g <> qg_t h /\ qg_t g <> c1) by (split; intros E; apply (F (qg_t g)); auto).
      assert (D2 : c0 <> qg_t h /\ c0 <> c1) by (split; intros E; apply (F c0); auto).
      apply N.bits_inj. intros q. rewrite !tb_swap. destruct (N.eqb_spec c0 q), (N.eqb_spec (qg_t g) q), (N.eqb_spec c1 q), (N.eqb_spec (qg_t h) q); subst;
      repeat match goal with |- context [?a =? ?b] => destruct (N.eqb_spec a b); try (exfalso; intuition congruence) end; auto; exfalso; intuition congruence.
  Qed.
  Lemma comm_effects n g gs : gd n g -> Forall (gd n) gs -> (forall h, In h gs -> far g h) -> forall psi x, effects gs (effect g psi) x = effect g (effects gs psi) x.
  Proof.
    intros Hg H. induction H as [|h t Hh Ht IH]; intros F psi x; [reflexivity|]. rewrite !effects_cons.
    rewrite (effects_ext n t Ht (effect h (effect g psi)) (effect g (effect h psi))) by (intros y; apply (comm_far_gd n); auto; apply F; now left).
    apply IH. intros h' Hh'. apply F. now right.
  Qed.
  Lemma weight_eff n (P : N -> bool) g psi : wq n g -> (forall x, P (fx (qg_t g) x) = P x) -> weight_of n P (eff g psi) = weight_of n P psi.
  Proof.
    intros W HP. set (t := qg_t g) in *. assert (Ht : t < n) by now destruct W.
    assert (Hg : forall x, x < 2 ^ n -> P x = true -> fx t x < 2 ^ n /\ P (fx t x) = true /\ fx t (fx t x) = x /\ negb (N.testbit (fx t x) t) = negb (negb (N.testbit x t))).
    { intros x Hx Px. rewrite HP, fx_fx, tb_fx_eq. split; [now apply fx_lt|]. auto. }
    unfold weight_of. rewrite (asum_pairs n P (fun x => negb (N.testbit x t)) _ (fun x => anorm (eff g psi x)) Hg).
    rewrite (asum_pairs n P (fun x => negb (N.testbit x t)) _ (fun x => anorm (psi x)) Hg).
    apply asum_ext. intros x Hx. destruct (P x) eqn:EP; auto. destruct (N.testbit x t) eqn:E; cbn [negb andb]; auto.
    rewrite <- (unitary_pair (gm g x) (psi x) (psi (fx t x))) by (apply (wq_unitary n); auto). rewrite !eff_fx. fold t. rewrite fx_fx. unfold dg, og. fold t.
    rewrite (gm_fx g t) by apply W. rewrite tb_fx_eq, E. unfold dia, off. cbn [negb]. f_equal; f_equal; ring.
  Qed.
  Lemma asum_map_l {A B} (f : B -> K) (s : A -> B) (l : list A) : asum (fun x => f (s x)) l = asum f (map s l).
  Proof. unfold asum. induction l as [|a t IH]; cbn [map fold_right]; auto; try now rewrite IH. Qed.
  Lemma weight_swap n (P : N -> bool) a b psi : a < n -> b < n -> (forall x, P (swap_bits a b x) = P x) -> weight_of n P (fun x => psi (swap_bits a b x)) = weight_of n P psi.
  Proof.
    intros Ha Hb HP. unfold weight_of.
    rewrite (asum_ext K _ (fun x => (fun y => if P y then anorm (psi y) else 0%amp) (swap_bits a b x))) by (intros; cbn beta; now rewrite HP).
    rewrite (asum_map_l (fun y => if P y then anorm (psi y) else 0%amp) (swap_bits a b)). apply asum_perm. apply NoDup_Permutation.
    - apply FinFun.Injective_map_NoDup; [|apply basis_NoDup]. intros x y E. rewrite <- (swap_bits_invol a b x), E. apply swap_bits_invol.
    - apply basis_NoDup.
    - intros x. rewrite in_map_iff. split.
      + intros (y & <- & Hy). apply basis_In in Hy. apply basis_In. now apply swap_bits_lt.
      + intros Hx. exists (swap_bits a b x). split; [apply swap_bits_invol|]. apply basis_In in Hx. apply basis_In. now apply swap_bits_lt.
  Qed.
  Lemma weight_eqv n (P : N -> bool) (a b : V) : eqv n a b -> weight_of n P a = weight_of n P b.
  Proof. intros H. apply weight_ext. intros x Hx. split; auto. Qed.
  Lemma weight_effect n (P : N -> bool) qs g psi : gd n g -> depends_on qs P -> (forall q, In q (qset g) -> ~ In q qs) -> weight_of n P (effect g psi) = weight_of n P psi.
  Proof.
    intros [G|G] D F.
    - apply good_wq in G. rewrite (weight_eqv n P (effect g psi) (eff g psi)) by (intros x Hx; apply eff_effect, G). apply weight_eff; [apply G|].
      intros x. apply D. intros q Hq. apply tb_fx_neq. intros <-. apply (F (qg_t g)); auto. now left.
    - rewrite (weight_eqv n P (effect g psi) (fun x => psi (swap_bits (hd 0 (qg_ctl g)) (qg_t g) x))) by (intros x Hx; now apply (effect_swap n)).
      destruct G as (_ & c0 & Ec & G1 & G2 & _). rewrite Ec. cbn [hd]. apply weight_swap; auto. intros x. apply D. intros q Hq. rewrite tb_swap.
      unfold qset in F. rewrite Ec in F. destruct (N.eqb_spec c0 q); [subst; exfalso; apply (F q); cbn [In]; auto|].
      destruct (N.eqb_spec (qg_t g) q); [subst; exfalso; apply (F (qg_t g)); cbn [In]; auto|]. reflexivity.
  Qed.
  Lemma depends_mono qs qs' (P : N -> bool) : (forall q, In q qs -> In q qs') -> depends_on qs P -> depends_on qs' P.
  Proof. intros H D x y E. apply D. auto. Qed.
  Lemma fold_sins_In (l : list N) : forall s q, In q (fold_left (fun s (a : N) => sins a s) l s) <-> In q l \/ In q s.
  Proof.
    induction l as [|a t IH]; intros s q; cbn [fold_left In]; [tauto|]. rewrite IH, sins_In. intuition.
  Qed.
  Lemma cone_ok n (P : N -> bool) rl : Forall (gd n) rl -> forall kept qs, Forall (gd n) kept -> (forall h q, In h kept -> In q (qset h) -> In q qs) -> depends_on qs P ->
    Forall (gd n) (fst (cone_loop rl kept qs)) /\ (forall h, In h (fst (cone_loop rl kept qs)) -> In h rl \/ In h kept) /\
    (forall q, In q qs -> In q (snd (cone_loop rl kept qs))) /\
    (forall h q, In h (fst (cone_loop rl kept qs)) -> In q (qset h) -> In q (snd (cone_loop rl kept qs))) /\
    forall psi, weight_of n P (effects (rev rl ++ kept) psi) = weight_of n P (effects (fst (cone_loop rl kept qs)) psi).
  Proof.
    induction 1 as [|g rest Hg Hr IH]; intros kept qs Hk Hq HD; cbn [cone_loop].
    { cbn [fst snd rev app]. auto. }
    destruct (negb (smem (qg_t g) qs) && negb (existsb (fun a : N => smem a qs) (qg_ctl g))) eqn:E.
    - apply andb_true_iff in E. destruct E as [E1 E2]. rewrite negb_true_iff in E1, E2. apply smem_not in E1.
      assert (F : forall q, In q (qset g) -> ~ In q qs).
      { intros q [<-|Hq']; auto. intros Hin. apply smem_In in Hin. assert (X : existsb (fun a : N => smem a qs) (qg_ctl g) = true) by (apply existsb_exists; eauto). congruence. }
      destruct (IH kept qs Hk Hq HD) as (A & B & C & D & W). split; auto. split. { intros h Hh. destruct (B h Hh); [left; now right|now right]. } split; auto. split; auto.
      intros psi. cbn [rev]. rewrite <- W. rewrite <- app_assoc. cbn [app]. rewrite !effects_app, effects_cons. set (phi := effects (rev rest) psi).
      rewrite (weight_eqv n P _ (effect g (effects kept phi))). { now apply (weight_effect n P qs). }
      intros x _. apply (comm_effects n); auto. intros h Hh q H1 H2. apply (F q H1). eapply Hq; eauto.
    - destruct (IH (g :: kept) (fold_left (fun s (a : N) => sins a s) (qg_ctl g) (sins (qg_t g) qs))) as (A & B & C & D & W).
      + now constructor.
      + intros h q Hh Hq'. apply fold_sins_In. rewrite sins_In. destruct Hh as [<-|Hh]; [|right; right; eapply Hq; eauto]. destruct Hq' as [<-|Hq']; auto.
      + eapply depends_mono; [|exact HD]. intros q Hq'. apply fold_sins_In. rewrite sins_In. auto.
      + split; auto. split. { intros h Hh. destruct (B h Hh) as [X|[<-|X]]; [left; now right|left; now left|now right]. }
        split. { intros q Hq'. apply C. apply fold_sins_In. rewrite sins_In. auto. } split; auto.
        intros psi. rewrite <- W. cbn [rev]. rewrite <- app_assoc. reflexivity.
  Qed.
End P.
