(** Proofs for QUnitClifford: layout, joint state, gates of the units, joining and separating units. *)
From Coq Require Import NArith List Bool Lia Ring.
From Verif Require Import Bits MFunctions SpecFunctions PFunctions MKernel PKernel Amp PAmp SpecState PApply PCompose PGates PGates2 PQCirc2 PQCirc3 PEngine MShard SpecShard MUnit PShard1 PShard2 PShard5 PUnit1 PUnit2 PUnit3 PUnit4 MTensor MUCliff.
Import ListNotations.
Local Open Scope N_scope.
Local Notation up n := (upto (N.to_nat n)).

Section P.
  Context {K : StarRing}.
  Add Ring KrEB : (sr_ring K).
  Local Notation vec := (N -> K).
  Local Notation uk := (ucliff K).
  Local Notation shs := (N -> qshard K).
  Implicit Types (U V : uk) (v : vec).

  (** The shards in the form of PUnit2.v. *)
  Definition as_shard (s : N * N) : qshard K := mkQS (Some (fst s)) (snd s) true true 0%amp 0%amp PauliZ.
  Definition csh U : shs := fun p => as_shard (k_sh U p).
  Definition parts U : vec := base_of (k_n U) (k_next U) (csh U) (k_eng U).
  (** The state of all qubits. *)
  Definition joint U : vec := fun x => (k_ph U * parts U x)%amp.
  Record kwf U : Prop := mkKwf {
    kw_placed : placed (k_n U) (k_next U) (csh U) (k_eng U);
    kw_norm : forall u, u < k_next U -> norm2 (k_size U u) (k_vec U u) = 1%amp;
    kw_idle : forall u, u < k_next U -> k_size U u = 0 -> k_vec U u 0 = 1%amp
  }.
  Lemma csh_unit U p : s_unit (csh U p) = Some (k_unit U p). Proof. reflexivity. Qed.
  Lemma csh_map U p : s_map (csh U p) = k_map U p. Proof. reflexivity. Qed.
  Lemma kw_in U q : kwf U -> q < k_n U -> k_unit U q < k_next U /\ k_map U q < k_size U (k_unit U q).
  Proof. intros W Hq. exact (pl_in _ _ _ _ (kw_placed U W) q (k_unit U q) Hq eq_refl). Qed.
  Lemma ktab_ok n (f : vec) y : y < 2 ^ n -> ktab n f y = f y. Proof. exact (tab_ok n f y). Qed.
  Lemma norm_ktab n (f : vec) : norm2 n (ktab n f) = norm2 n f. Proof. exact (norm_tab n f). Qed.

  (** ** A call of one unit *)
  Definition grow U V : Prop := k_n V = k_n U /\ k_ph V = k_ph U.
  Lemma put_eng_eq u n v U w : k_eng (put_unit u n v U) w = if w =? u then (n, ktab n v) else k_eng U w. Proof. reflexivity. Qed.
  Lemma put_wf u v U : kwf U -> u < k_next U -> norm2 (k_size U u) v = 1%amp -> (k_size U u = 0 -> v 0 = 1%amp) -> kwf (put_unit u (k_size U u) v U).
  Proof.
    intros W Hu HN HI. split.
    - apply (placed_ext _ _ _ _ _ _ (kw_placed U W)); auto. intros w _. cbn [k_eng put_unit]. destruct (N.eqb_spec w u) as [->|]; reflexivity.
    - intros w Hw. unfold k_size, k_vec. rewrite put_eng_eq. destruct (N.eqb_spec w u) as [->|]; cbn [fst snd]; [rewrite norm_ktab; exact HN|apply (kw_norm U W w Hw)].
    - intros w Hw. unfold k_size, k_vec. rewrite put_eng_eq. destruct (N.eqb_spec w u) as [->|]; cbn [fst snd]; [intros E; rewrite ktab_ok by (rewrite E; cbn; lia); apply HI, E|apply (kw_idle U W w Hw)].
  Qed.
  Lemma size_pos U q : kwf U -> q < k_n U -> k_size U (k_unit U q) <> 0.
  Proof. intros W Hq. pose proof (kw_in U q W Hq). lia. Qed.
  (** A gate within the unit of [q]; the condition is about the unit's qubits. *)
  Lemma put_gate U q P m : kwf U -> q < k_n U -> unitary2 m -> indep P (k_map U q) -> let u := k_unit U q in
    let V := put_unit u (k_size U u) (gate1 P (k_map U q) m (k_vec U u)) U in
    kwf V /\ same_state (joint V) (gate1 (fun x => P (k_gather u x U)) q m (joint U)).
  Proof.
    intros W Hq HM HP u V. destruct (kw_in U q W Hq) as [Hu Hm]. fold u in Hu, Hm. split.
    - apply put_wf; auto; [|lia]. rewrite (gate1_norm (k_size U u) P (k_map U q) m (k_vec U u)); auto. apply (kw_norm U W u Hu).
    - intros x. unfold joint.
      assert (B : same_state (parts V) (gate1 (fun y => P (gather (k_n U) (csh U) u y)) q m (parts U))).
      { apply (base_eng (k_n U) (k_next U) (csh U) (k_eng U) (kw_placed U W) (k_eng V) q u P m Hq eq_refl).
        - intros w _ Hwu. unfold V. rewrite put_eng_eq. destruct (N.eqb_spec w u); [contradiction|reflexivity].
        - intros y Hy. unfold V. rewrite put_eng_eq, N.eqb_refl. cbn [snd]. apply ktab_ok, Hy. }
      change (k_ph V) with (k_ph U). rewrite (B x). unfold gate1.
      replace (gather (k_n U) (csh U) u x) with (k_gather u x U) by reflexivity. destruct (P (k_gather u x U)), (N.testbit x q); ring.
  Qed.
  Lemma gather_own U q x : kwf U -> q < k_n U -> N.testbit (k_gather (k_unit U q) x U) (k_map U q) = N.testbit x q.
  Proof. intros W Hq. apply (gather_bit _ _ _ _ (kw_placed U W) (k_unit U q) x q Hq). reflexivity. Qed.

  (** ** Joining *)
  Lemma join_ok r q U : kwf U -> r < k_next U -> q < k_next U -> r <> q -> let V := k_join r q U in
    kwf V /\ same_state (joint V) (joint U) /\ grow U V /\ k_next V = k_next U /\ k_draw V = k_draw U /\ (forall p, k_unit V p = if k_unit U p =? q then r else k_unit U p) /\
    (forall w, w <> r -> w <> q -> k_eng V w = k_eng U w).
  Proof.
    intros W Hr Hq Hrq V. set (nr := k_size U r). set (nc := k_size U q).
    assert (EV : forall w, k_eng V w = if w =? q then (0, ktab 0 (fun _ => 1%amp)) else if w =? r then (nr + nc, ktab (nr + nc) (tensor nr (k_vec U r) (k_vec U q))) else k_eng U w) by reflexivity.
    assert (SV : forall p, k_sh V p = if k_unit U p =? q then (r, k_map U p + nr) else k_sh U p) by reflexivity.
    assert (ER : k_eng V r = (nr + nc, ktab (nr + nc) (tensor nr (k_vec U r) (k_vec U q)))) by (rewrite EV, N.eqb_refl; destruct (N.eqb_spec r q); [contradiction|reflexivity]).
    assert (EC : k_eng V q = (0, ktab 0 (fun _ => 1%amp))) by (rewrite EV, N.eqb_refl; reflexivity).
    assert (EO : forall w, w <> r -> w <> q -> k_eng V w = k_eng U w) by (intros w H1 H2; rewrite EV; destruct (N.eqb_spec w q); [contradiction|]; destruct (N.eqb_spec w r); [contradiction|reflexivity]).
    assert (HS : forall p, p < k_n U -> s_unit (csh U p) <> Some q -> csh V p = csh U p).
    { intros p _ Hp. unfold csh. rewrite SV. destruct (N.eqb_spec (k_unit U p) q) as [E|E]; [destruct Hp; rewrite csh_unit, E; reflexivity|reflexivity]. }
    assert (HC : forall p, p < k_n U -> s_unit (csh U p) = Some q -> s_unit (csh V p) = Some r /\ s_map (csh V p) = s_map (csh U p) + fst (k_eng U r)).
    { intros p _ Hp. rewrite csh_unit in Hp. injection Hp as Hp. unfold csh at 1 2. rewrite SV, Hp, N.eqb_refl. split; reflexivity. }
    assert (Hnr : fst (k_eng V r) = fst (k_eng U r) + fst (k_eng U q)) by (rewrite ER; reflexivity).
    assert (Hnc : fst (k_eng V q) = 0) by (rewrite EC; reflexivity).
    assert (PV := join_placed (k_n U) (k_next U) (csh U) (k_eng U) (kw_placed U W) r q Hr Hq Hrq (csh V) (k_eng V) HS HC (fun w _ => EO w) Hnr Hnc).
    split; [|split; [|split; [split; reflexivity|split; [reflexivity|split; [reflexivity|split; [|exact EO]]]]]].
    - split; [exact PV| |].
      + intros w Hw. unfold k_size, k_vec. destruct (N.eq_dec w q) as [->|Hwc]; [|destruct (N.eq_dec w r) as [->|Hwr]].
        * rewrite EC. cbn [fst snd]. rewrite norm_ktab, norm_zero. unfold anorm. rewrite conj_1. ring.
        * rewrite ER. cbn [fst snd]. rewrite norm_ktab, norm_tensor. unfold nr, nc. rewrite (kw_norm U W r Hr), (kw_norm U W q Hq). ring.
        * rewrite (EO w Hwr Hwc). apply (kw_norm U W w Hw).
      + intros w Hw. unfold k_size, k_vec. destruct (N.eq_dec w q) as [->|Hwc]; [|destruct (N.eq_dec w r) as [->|Hwr]].
        * rewrite EC. cbn [fst snd]. intros _. rewrite ktab_ok by (cbn; lia). reflexivity.
        * rewrite ER. cbn [fst snd]. intros E. rewrite ktab_ok by (rewrite E; cbn; lia). unfold tensor. assert (E1 : nr = 0) by lia. assert (E2 : nc = 0) by lia.
          rewrite N.mod_0_l, N.div_0_l by (apply N.pow_nonzero; lia). rewrite (kw_idle U W r Hr E1), (kw_idle U W q Hq E2). ring.
        * rewrite (EO w Hwr Hwc). apply (kw_idle U W w Hw).
    - intros x. unfold joint. change (k_ph V) with (k_ph U). f_equal.
      apply (base_join (k_n U) (k_next U) (csh U) (k_eng U) (kw_placed U W) r q Hr Hq Hrq (csh V) (k_eng V) HS HC (fun w _ => EO w)); auto.
      + rewrite ER. cbn [fst snd]. intros y Hy. apply ktab_ok, Hy.
      + rewrite EC. cbn [snd]. apply (ktab_ok 0 (fun _ => 1%amp) 0). cbn. lia.
    - intros p. unfold k_unit at 1. rewrite SV. destruct (k_unit U p =? q); reflexivity.
  Qed.
  (** EntangleInCurrentBasis of two qubits. *)
  Lemma entangle2_ok a b U : kwf U -> a < k_n U -> b < k_n U -> let V := entangle [a; b] U in
    kwf V /\ same_state (joint V) (joint U) /\ grow U V /\ k_draw V = k_draw U /\ k_unit V a = k_unit V b.
  Proof.
    intros W Ha Hb. cbn zeta. unfold entangle. cbn [k_units existsb]. destruct (N.eqb_spec (k_unit U b) (k_unit U a)) as [E|E]; cbn [orb].
    - cbn [length k_join_all]. split; [exact W|]. split; [intros x; reflexivity|]. split; [split; reflexivity|]. split; [reflexivity|symmetry; exact E].
    - cbn [length k_join_all Nat.odd Nat.even negb k_pairs].
      destruct (kw_in U a W Ha) as [Ua _]. destruct (kw_in U b W Hb) as [Ub _].
      destruct (join_ok (k_unit U a) (k_unit U b) U W Ua Ub (fun F => E (eq_sym F))) as (W1 & J & G & X1 & DR & HU & _).
      split; [exact W1|]. split; [exact J|]. split; [exact G|]. split; [exact DR|]. rewrite !HU, N.eqb_refl. destruct (N.eqb_spec (k_unit U a) (k_unit U b)); [congruence|reflexivity].
  Qed.

  (** ** Separating one qubit *)
  Section Split.
    Context (U V : uk) (W : kwf U) (q : N) (Hq : q < k_n U) (rest one : vec).
    Let u := k_unit U q.
    Let m := k_map U q.
    Context (Vn : k_n V = k_n U) (Vx : k_next V = k_next U + 1)
            (Vs : forall p, k_sh V p = if p =? q then (k_next U, 0) else if (k_unit U p =? u) && (m <? k_map U p) then (k_unit U p, k_map U p - 1) else k_sh U p)
            (Ve : forall w, k_eng V w = if w =? k_next U then (1, ktab 1 one) else if w =? u then (k_size U u - 1, ktab (k_size U u - 1) rest) else k_eng U w)
            (Hsz : 1 < k_size U u).
    Lemma split_bounds : u < k_next U /\ m < k_size U u. Proof. exact (kw_in U q W Hq). Qed.
    Lemma split_new : k_eng V (k_next U) = (1, ktab 1 one). Proof. rewrite Ve, N.eqb_refl. reflexivity. Qed.
    Lemma split_old : k_eng V u = (k_size U u - 1, ktab (k_size U u - 1) rest).
    Proof. rewrite Ve, N.eqb_refl. destruct split_bounds. destruct (N.eqb_spec u (k_next U)); [lia|reflexivity]. Qed.
    Lemma split_other w : w < k_next U -> w <> u -> k_eng V w = k_eng U w.
    Proof. intros Hw Hwu. rewrite Ve. destruct (N.eqb_spec w (k_next U)); [lia|]. destruct (N.eqb_spec w u); [contradiction|reflexivity]. Qed.
    Lemma split_inj p p' : p < k_n U -> p' < k_n U -> k_unit U p = k_unit U p' -> k_map U p = k_map U p' -> p = p'.
    Proof. intros Hp Hp' E M. apply (pl_inj _ _ _ _ (kw_placed U W) p p' (k_unit U p') Hp Hp'); [rewrite csh_unit, E; reflexivity|reflexivity|exact M]. Qed.
    Lemma split_unit p : p <> q -> k_unit V p = k_unit U p.
    Proof. intros H. unfold k_unit at 1. rewrite Vs. destruct (N.eqb_spec p q); [contradiction|]. destruct (_ && _); reflexivity. Qed.
    Lemma split_map p : p <> q -> k_map V p = if (k_unit U p =? u) && (m <? k_map U p) then k_map U p - 1 else k_map U p.
    Proof. intros H. unfold k_map at 1. rewrite Vs. destruct (N.eqb_spec p q); [contradiction|]. destruct (_ && _); reflexivity. Qed.
    Lemma split_q : k_unit V q = k_next U /\ k_map V q = 0.
    Proof. unfold k_unit, k_map. rewrite Vs, N.eqb_refl. split; reflexivity. Qed.
    Lemma split_placed : placed (k_n V) (k_next V) (csh V) (k_eng V).
    Proof.
      destruct split_bounds as [Bu Bm]. destruct split_q as [Q1 Q2]. split.
      - intros p w Hp E. rewrite csh_unit in E. injection E as E. rewrite csh_map. rewrite Vn in Hp. rewrite Vx. destruct (N.eq_dec p q) as [->|Hpq].
        + rewrite Q1 in E. subst w. rewrite split_new, Q2. cbn [fst]. lia.
        + rewrite split_unit in E by exact Hpq. subst w. destruct (kw_in U p W Hp) as [H1 H2]. split; [lia|]. rewrite split_map by exact Hpq.
          destruct (N.eqb_spec (k_unit U p) u) as [Eu|Eu]; cbn [andb].
          * rewrite Eu, split_old. cbn [fst]. rewrite Eu in H2. assert (k_map U p <> m) by (intros M; apply Hpq, split_inj; auto). destruct (N.ltb_spec m (k_map U p)); lia.
          * rewrite split_other by (assumption || lia). exact H2.
      - intros p p' w Hp Hp' E E' M. rewrite csh_unit in E, E'. injection E as E. injection E' as E'. rewrite !csh_map in M. rewrite Vn in Hp, Hp'.
        destruct (N.eq_dec p q) as [->|Hpq], (N.eq_dec p' q) as [->|Hpq']; auto.
        + exfalso. rewrite Q1 in E. rewrite split_unit in E' by exact Hpq'. destruct (kw_in U p' W Hp'). lia.
        + exfalso. rewrite Q1 in E'. rewrite split_unit in E by exact Hpq. destruct (kw_in U p W Hp). lia.
        + rewrite split_unit in E, E' by assumption. rewrite !split_map in M by assumption. apply split_inj; auto; [congruence|]. rewrite E, E' in M. destruct (N.eqb_spec w u) as [->|]; cbn [andb] in M; [|exact M].
          assert (k_map U p <> m) by (intros F; apply Hpq, split_inj; auto). assert (k_map U p' <> m) by (intros F; apply Hpq', split_inj; auto).
          destruct (N.ltb_spec m (k_map U p)), (N.ltb_spec m (k_map U p')); lia.
      - intros w j Hw Hj. rewrite Vx in Hw. rewrite Vn. destruct (N.eq_dec w (k_next U)) as [->|Hwn]; [|destruct (N.eq_dec w u) as [->|Hwu]].
        + rewrite split_new in Hj. cbn [fst] in Hj. exists q. rewrite csh_unit, csh_map, Q1, Q2. repeat split; auto. lia.
        + rewrite split_old in Hj. cbn [fst] in Hj. destruct (pl_cov _ _ _ _ (kw_placed U W) u (if j <? m then j else j + 1) Bu) as (p & Hp & E & M); [unfold k_size in *; destruct (N.ltb_spec j m); lia|].
          rewrite csh_unit in E. injection E as E. rewrite csh_map in M. assert (Hpq : p <> q) by (intros ->; fold m in M; destruct (N.ltb_spec j m); lia).
          exists p. rewrite csh_unit, csh_map, split_unit, split_map, E, N.eqb_refl by exact Hpq. cbn [andb]. repeat split; auto. rewrite M. destruct (N.ltb_spec j m); [destruct (N.ltb_spec m j); lia|destruct (N.ltb_spec m (j + 1)); lia].
        + assert (Hw' : w < k_next U) by lia. rewrite split_other in Hj by assumption. destruct (pl_cov _ _ _ _ (kw_placed U W) w j Hw' Hj) as (p & Hp & E & M). rewrite csh_unit in E. injection E as E. rewrite csh_map in M.
          assert (Hpq : p <> q) by (intros ->; apply Hwu; symmetry; exact E). exists p. rewrite csh_unit, csh_map, split_unit, split_map, E by exact Hpq. destruct (N.eqb_spec w u); [contradiction|]. auto.
    Qed.
    Lemma split_wf : norm2 (k_size U u - 1) rest = 1%amp -> norm2 1 one = 1%amp -> kwf V.
    Proof.
      intros N1 N2. split; [exact split_placed| |].
      - intros w Hw. rewrite Vx in Hw. unfold k_size, k_vec. destruct (N.eq_dec w (k_next U)) as [->|Hwn]; [|destruct (N.eq_dec w u) as [->|Hwu]].
        + rewrite split_new. cbn [fst snd]. rewrite norm_ktab. exact N2.
        + rewrite split_old. cbn [fst snd]. rewrite norm_ktab. exact N1.
        + rewrite split_other by (assumption || lia). apply (kw_norm U W). lia.
      - intros w Hw. rewrite Vx in Hw. unfold k_size, k_vec. destruct (N.eq_dec w (k_next U)) as [->|Hwn]; [|destruct (N.eq_dec w u) as [->|Hwu]].
        + rewrite split_new. cbn [fst]. discriminate.
        + rewrite split_old. cbn [fst]. lia.
        + rewrite split_other by (assumption || lia). apply (kw_idle U W). lia.
    Qed.
    Lemma split_base c : (forall y, y < 2 ^ k_size U u -> tensor_at m 1 rest one y = c * k_vec U u y)%amp -> same_state (parts V) (fun x => c * parts U x)%amp.
    Proof.
      intros HT x. destruct split_bounds as [Bu Bm]. destruct split_q as [Q1 Q2]. assert (L' := split_placed). assert (L := kw_placed U W).
      unfold parts. rewrite (base_at (k_n U) (k_next U) (csh U) (k_eng U) u x Bu). unfold base_of. rewrite Vn, Vx. rewrite Vn, Vx in L'.
      replace (N.to_nat (k_next U + 1)) with (S (N.to_nat (k_next U))) by lia. cbn [upto]. rewrite N2Nat.id, aprod_app. cbn [aprod fold_right].
      rewrite (aprod_at _ u (up (k_next U))) by (apply upto_nodup || apply up_in, Bu).
      rewrite (aprod_ext (fun w => snd (k_eng V w) (gather (k_n U) (csh V) w x)) (fun w => snd (k_eng U w) (gather (k_n U) (csh U) w x)) (but u (up (k_next U)))).
      2:{ intros w Hw. apply but_in in Hw. destruct Hw as [Hw Hwu]. apply up_in in Hw. rewrite split_other by assumption. f_equal. apply gather_ext.
          - intros p Hp. unfold in_unit. rewrite !csh_unit. destruct (N.eq_dec p q) as [->|Hpq]; [|rewrite split_unit by exact Hpq; reflexivity].
            rewrite Q1. fold u. destruct (N.eqb_spec (k_next U) w), (N.eqb_spec u w); try reflexivity; lia.
          - intros p Hp E. rewrite csh_unit in E. injection E as E. rewrite !csh_map. split; [|reflexivity]. assert (Hpq : p <> q) by (intros ->; apply Hwu; symmetry; exact E).
            rewrite split_map by exact Hpq. rewrite E. destruct (N.eqb_spec w u); [contradiction|reflexivity]. }
      rewrite !(aprod_one (fun p => loc (csh _ p) (N.testbit x p))) by reflexivity.
      rewrite split_new, split_old. cbn [snd]. set (g := gather (k_n U) (csh U) u x). assert (Bg : g < 2 ^ k_size U u) by apply (gather_lt _ _ _ _ L).
      assert (G1 : gather (k_n U) (csh V) u x = outside g m 1).
      { apply (gather_eq _ _ _ _ L' u); [lia|rewrite split_old; cbn [fst]; apply outside_lt; [lia|]; replace (k_size U u - 1 + 1) with (k_size U u) by lia; exact Bg|].
        intros p Hp E. rewrite csh_unit in E. injection E as E. rewrite csh_map. assert (Hpq : p <> q) by (intros ->; rewrite Q1 in E; lia). rewrite split_unit in E by exact Hpq. rewrite split_map, E, N.eqb_refl by exact Hpq. cbn [andb].
        assert (GB : N.testbit g (k_map U p) = N.testbit x p) by (apply (gather_bit _ _ _ _ L u x p Hp); rewrite csh_unit, E; reflexivity).
        assert (k_map U p <> m) by (intros F; apply Hpq, split_inj; auto). rewrite tb_outside. rewrite <- GB. destruct (N.ltb_spec m (k_map U p)).
        - destruct (N.ltb_spec (k_map U p - 1) m); [lia|]. f_equal. lia.
        - destruct (N.ltb_spec (k_map U p) m); [reflexivity|lia]. }
      assert (G2 : gather (k_n U) (csh V) (k_next U) x = get_reg g m 1).
      { apply (gather_eq _ _ _ _ L' (k_next U)); [lia|rewrite split_new; cbn [fst]; apply get_reg_lt|].
        intros p Hp E. rewrite csh_unit in E. injection E as E. assert (p = q) as ->. { destruct (N.eq_dec p q) as [F|F]; [exact F|]. rewrite split_unit in E by exact F. destruct (kw_in U p W Hp). lia. }
        rewrite csh_map, Q2, tb_get_reg. cbn [N.ltb N.compare andb]. rewrite N.add_0_l. unfold m. apply (gather_bit _ _ _ _ L u x q Hq). reflexivity. }
      rewrite G1, G2. rewrite !ktab_ok.
      2:{ apply get_reg_lt. }
      2:{ apply outside_lt; [lia|]. replace (k_size U u - 1 + 1) with (k_size U u) by lia. exact Bg. }
      transitivity (tensor_at m 1 rest one g * aprod (fun w => snd (k_eng U w) (gather (k_n U) (csh U) w x)) (but u (up (k_next U))))%amp; [unfold tensor_at; ring|]. rewrite (HT g Bg). change (snd (k_eng U u)) with (k_vec U u). ring.
    Qed.
  End Split.
End P.
