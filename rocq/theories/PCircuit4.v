(** Proofs about the generic circuits (part 4: adders, logic, swaps, rotations). *)
From Coq Require Import NArith List Bool Lia Ring.
From Verif Require Import Bits MFunctions MParFor PParFor MKernel Amp PAmp MEngine SpecState SpecEngine
  PGates PGates2 PGates3 PEngine PCompose MAlu SpecAlu PAlu PAlu2 PAlu5 PAlu6 PAlu9 MCircuit SpecCircuit PCircuit PCircuit2 PCircuit3.
Import ListNotations.
Local Open Scope N_scope.

Lemma all_set_app a b x : all_set (a ++ b) x = all_set a x && all_set b x.
Proof. apply forallb_app. Qed.
Lemma flip_put t x b : flip b t x = put_bit x t (xorb (N.testbit x t) b).
Proof.
  apply N.bits_inj. intros q. rewrite tb_flip, tb_put_bit. destruct (N.eqb_spec t q) as [->|]. now rewrite andb_true_r. now rewrite andb_false_r, xorb_false_r.
Qed.
Lemma neqb_f a b : a <> b -> (a =? b) = false.
Proof. apply N.eqb_neq. Qed.
Lemma rev_flat_map {A B} (f : A -> list B) l : rev (flat_map f l) = flat_map (fun a => rev (f a)) (rev l).
Proof.
  induction l as [|a r IH]; auto. cbn [flat_map rev]. rewrite rev_app_distr, IH. rewrite flat_map_app. cbn [flat_map]. now rewrite app_nil_r.
Qed.
Lemma flat_map_ext_in {A B} (f g : A -> list B) l : (forall a, In a l -> f a = g a) -> flat_map f l = flat_map g l.
Proof. induction l as [|a r IH]; auto. intros H. cbn [flat_map]. rewrite H by now left. f_equal. apply IH. intros. apply H. now right. Qed.

(** Decide all equalities between qubit indices, then all bits of [x]. *)
Ltac beq_all x :=
  repeat match goal with
  | |- context [N.eqb ?a ?a] => rewrite N.eqb_refl
  | |- context [N.eqb ?a ?b] => destruct (N.eqb_spec a b); [try (exfalso; congruence); try subst|]
  end;
  repeat match goal with |- context [N.testbit x ?q] => destruct (N.testbit x q) end; try reflexivity; try (exfalso; congruence).

Section P.
  Context {K : StarRing}.
  Add Ring KrN : (sr_ring K).
  Variable c : cfg.
  Local Notation V := (mem K).
  Local Notation circ := (circ K).

  (** ** Basis states *)
  Lemma csem_ket n (l : circ) x : Forall (wfx n) l -> eqv n (csem l (ket x)) (ket (cact l x)).
  Proof.
    intros W y Hy. rewrite (csem_cact n) by auto. unfold ket. destruct (N.eqb_spec (cact (rev l) y) x) as [E|E].
    - subst x. rewrite <- (rev_involutive l) at 1. rewrite (cact_rev n) by now apply wfx_rev. now rewrite N.eqb_refl.
    - destruct (N.eqb_spec y (cact l x)) as [->|]; auto. exfalso. apply E. now apply (cact_rev n).
  Qed.

  (** ** Adders *)
  Lemma cfull_act cs in1 in2 sum carry x : in1 <> in2 -> in1 <> sum -> in1 <> carry -> in2 <> sum -> in2 <> carry -> sum <> carry ->
    (forall q, In q cs -> ~ In q [in1; in2; sum; carry]) -> cact (qi_CFullAdd cs in1 in2 sum carry : circ) x = controlled cs (full_add in1 in2 sum carry) x.
  Proof.
    intros H1 H2 H3 H4 H5 H6 Hc. assert (N2 : ~ In in2 cs) by (intros HI; apply Hc in HI; cbn in HI; tauto).
    assert (N3 : ~ In sum cs) by (intros HI; apply Hc in HI; cbn in HI; tauto). assert (N4 : ~ In carry cs) by (intros HI; apply Hc in HI; cbn in HI; tauto).
    unfold qi_CFullAdd. rewrite !cact_app, !act_MC. rewrite !all_set_app, !all_set_flip by auto. unfold controlled. destruct (all_set cs x); [|reflexivity].
    unfold all_set. cbn [forallb andb]. apply N.bits_inj. intros q.
    unfold full_add. rewrite ?tb_put_bit, ?tb_flip. rewrite ?N.eqb_refl, ?(N.eqb_sym carry), ?(N.eqb_sym sum in1), ?(N.eqb_sym sum in2), ?(N.eqb_sym in2 in1).
    rewrite ?(neqb_f in1 in2), ?(neqb_f in1 sum), ?(neqb_f in1 carry), ?(neqb_f in2 sum), ?(neqb_f in2 carry), ?(neqb_f sum carry) by auto.
    rewrite ?andb_true_r, ?andb_false_r, ?xorb_false_r.
    beq_all x.
  Qed.
  Lemma wf_CFullAdd n cs in1 in2 sum carry : in1 <> in2 -> adder_ok n in1 in2 sum carry -> ctl_ok n cs [in1; in2; sum; carry] ->
    Forall (wfx n) (qi_CFullAdd cs in1 in2 sum carry : circ).
  Proof.
    intros H1 Ha [ND Hc]. unfold adder_ok in Ha. destruct Ha as [A1 [A2 [A3 [A4 [A5 [A6 [A7 [A8 A9]]]]]]]].
    assert (C1 : ~ In in1 cs) by (intros HI; apply Hc in HI; cbn in HI; tauto). assert (C2 : ~ In in2 cs) by (intros HI; apply Hc in HI; cbn in HI; tauto).
    assert (C3 : ~ In sum cs) by (intros HI; apply Hc in HI; cbn in HI; tauto). assert (C4 : ~ In carry cs) by (intros HI; apply Hc in HI; cbn in HI; tauto).
    assert (G1 : forall a t, a <> t -> a < n -> t < n -> ~ In a cs -> ~ In t cs -> wfc n (cs ++ [a]) t).
    { intros a t E La Lt Ca Ct. apply wfc_intro; auto.
      - apply NoDup_app_disjoint; auto. repeat constructor. intros []. intros q Hq [<-|[]]. auto.
      - intros HI. apply in_app_or in HI. destruct HI as [|[|[]]]; auto.
      - intros q HI. apply in_app_or in HI. destruct HI as [HI|[<-|[]]]; auto. now apply Hc. }
    assert (G2 : forall a b t, a <> b -> a <> t -> b <> t -> a < n -> b < n -> t < n -> ~ In a cs -> ~ In b cs -> ~ In t cs -> wfc n (cs ++ [a; b]) t).
    { intros a b t E1 E2 E3 La Lb Lt Ca Cb Ct. apply wfc_intro; auto.
      - apply NoDup_app_disjoint; auto. repeat constructor; auto. intros [|[]]; auto. intros q Hq [<-|[<-|[]]]; auto.
      - intros HI. apply in_app_or in HI. destruct HI as [|[|[|[]]]]; auto.
      - intros q HI. apply in_app_or in HI. destruct HI as [HI|[<-|[<-|[]]]]; auto. now apply Hc. }
    unfold qi_CFullAdd. repeat (apply Forall_app; split); apply wf_MC; auto.
  Qed.
  Lemma cifull_rev cs in1 in2 sum carry : (qi_CIFullAdd cs in1 in2 sum carry : circ) = rev (qi_CFullAdd cs in1 in2 sum carry).
  Proof. reflexivity. Qed.
  Lemma ifull_rev in1 in2 sum carry : (qi_IFullAdd in1 in2 sum carry : circ) = rev (qi_FullAdd in1 in2 sum carry).
  Proof. reflexivity. Qed.
  Lemma full_cfull in1 in2 sum carry : (qi_FullAdd in1 in2 sum carry : circ) = qi_CFullAdd [] in1 in2 sum carry.
  Proof. reflexivity. Qed.
  Lemma ctl_nil n qs : ctl_ok n [] qs.
  Proof. split. constructor. intros q []. Qed.

  (** ** Swap *)
  Lemma swap_act q1 q2 x : cact (qi_Swap q1 q2 : circ) x = swap_bits q1 q2 x.
  Proof.
    unfold qi_Swap. destruct (N.eqb_spec q1 q2) as [->|H].
    - apply N.bits_inj. intros q. rewrite tb_swap. cbn [cact fold_left]. destruct (N.eqb_spec q2 q) as [->|]; auto.
    - unfold qi_CNOT. rewrite !cact_app, !act_MC. unfold all_set. cbn [forallb]. apply N.bits_inj. intros q. rewrite tb_swap, ?tb_flip. beq_all x.
  Qed.
  Lemma wf_CNOT n a b : a <> b -> a < n -> b < n -> Forall (wfx n) (qi_CNOT a b : circ).
  Proof. intros. apply wf_MC. apply wfc_intro; auto. repeat constructor. intros []. intros [|[]]; auto. intros q [<-|[]]; auto. Qed.
  Lemma wf_Swap n q1 q2 : q1 < n -> q2 < n -> Forall (wfx n) (qi_Swap q1 q2 : circ).
  Proof. intros. unfold qi_Swap. destruct (N.eqb_spec q1 q2). constructor. repeat (apply Forall_app; split); apply wf_CNOT; auto. Qed.
  Lemma swap_rev q1 q2 : (qi_Swap q1 q2 : circ) = rev (qi_Swap q1 q2).
  Proof. unfold qi_Swap. destruct (q1 =? q2); reflexivity. Qed.
  Lemma cswap_act cs q1 q2 x : ~ In q1 cs -> ~ In q2 cs -> cact (qi_CSwap cs q1 q2 : circ) x = controlled cs (swap_bits q1 q2) x.
  Proof.
    intros C1 C2. unfold qi_CSwap. destruct cs as [|q0 r] eqn:Ecs. apply swap_act. rewrite <- Ecs in *. clear Ecs q0 r. unfold controlled.
    destruct (N.eqb_spec q1 q2) as [->|H].
    - destruct (all_set cs x); auto. apply N.bits_inj. intros q. rewrite tb_swap. cbn [cact fold_left]. destruct (N.eqb_spec q2 q) as [->|]; auto.
    - rewrite !cact_app, !act_MC, !all_set_app, !all_set_flip by auto. destruct (all_set cs x); [|reflexivity]. rewrite <- swap_act.
      unfold qi_Swap. rewrite (neqb_f q1 q2) by auto. reflexivity.
  Qed.
  Lemma wf_CSwap n cs q1 q2 : ctl_ok n cs [q1; q2] -> q1 < n -> q2 < n -> Forall (wfx n) (qi_CSwap cs q1 q2 : circ).
  Proof.
    intros [ND Hc] H1 H2. unfold qi_CSwap. destruct cs as [|q0 r] eqn:Ecs. now apply wf_Swap. rewrite <- Ecs in *. clear Ecs q0 r.
    assert (C1 : ~ In q1 cs) by (intros HI; apply Hc in HI; cbn in HI; tauto). assert (C2 : ~ In q2 cs) by (intros HI; apply Hc in HI; cbn in HI; tauto).
    destruct (N.eqb_spec q1 q2). constructor.
    assert (G1 : forall a t, a <> t -> a < n -> t < n -> ~ In a cs -> ~ In t cs -> wfc n (cs ++ [a]) t).
    { intros a t E La Lt Ca Ct. apply wfc_intro; auto.
      - apply NoDup_app_disjoint; auto. repeat constructor. intros []. intros q Hq [<-|[]]. auto.
      - intros HI. apply in_app_or in HI. destruct HI as [|[|[]]]; auto.
      - intros q HI. apply in_app_or in HI. destruct HI as [HI|[<-|[]]]; auto. now apply Hc. }
    repeat (apply Forall_app; split); apply wf_MC; auto.
  Qed.
  Lemma cswap_rev cs q1 q2 : (qi_CSwap cs q1 q2 : circ) = rev (qi_CSwap cs q1 q2).
  Proof. unfold qi_CSwap. destruct cs. apply swap_rev. destruct (q1 =? q2); reflexivity. Qed.
  Lemma anticswap_act cs q1 q2 x : ~ In q1 cs -> ~ In q2 cs -> cact (qi_AntiCSwap cs q1 q2 : circ) x = if all_clear cs x then swap_bits q1 q2 x else x.
  Proof.
    intros C1 C2. unfold qi_AntiCSwap. rewrite !cact_app, cswap_act by auto. cbn [cact fold_left gact]. unfold controlled. rewrite all_set_mask.
    destruct (all_clear cs x); [|apply lxor_twice]. apply N.bits_inj. intros q.
    rewrite tb_xmask, !tb_swap, !tb_xmask.
    assert (E : forall p, ~ In p cs -> existsb (N.eqb p) cs = false).
    { intros p Hp. apply not_true_is_false. intros T. apply existsb_exists in T. destruct T as [b [Hb T]]. apply N.eqb_eq in T. now subst b. }
    destruct (N.eqb_spec q1 q) as [<-|]. rewrite !E by auto. now rewrite !xorb_false_r. destruct (N.eqb_spec q2 q) as [<-|]. rewrite !E by auto. now rewrite !xorb_false_r.
    destruct (N.testbit x q), (existsb (N.eqb q) cs); auto.
  Qed.
  Lemma wf_AntiCSwap n cs q1 q2 : ctl_ok n cs [q1; q2] -> q1 < n -> q2 < n -> Forall (wfx n) (qi_AntiCSwap cs q1 q2 : circ).
  Proof.
    intros Hc H1 H2. assert (Hm : pow_mask cs < 2 ^ n). { apply pow_mask_lt. intros q Hq. now apply Hc. }
    unfold qi_AntiCSwap. apply Forall_app. split. constructor; [exact Hm|constructor]. apply Forall_app. split. now apply wf_CSwap. constructor; [exact Hm|constructor].
  Qed.

  (** ** ADC *)
  Definition adc_disj in1 in2 out len carry := disjoint_regs in1 len in2 len /\ disjoint_regs in1 len out len /\
    disjoint_regs in2 len out len /\ outside_reg carry in1 len /\ outside_reg carry in2 len /\ outside_reg carry out len.
  Lemma iadc_rev cs in1 in2 out len carry : (qi_CIADC cs in1 in2 out len carry : circ) = rev (qi_CADC cs in1 in2 out len carry).
  Proof.
    unfold qi_CIADC, qi_CADC. destruct (len =? 0); auto. destruct (len =? 1).
    - rewrite rev_app_distr. now rewrite <- cswap_rev.
    - cbv zeta. rewrite !rev_app_distr, rev_flat_map, <- !app_assoc. reflexivity.
  Qed.
  Lemma adc_cadc in1 in2 out len carry : (qi_ADC in1 in2 out len carry : circ) = qi_CADC [] in1 in2 out len carry.
  Proof. reflexivity. Qed.
  Lemma iadc_ciadc in1 in2 out len carry : (qi_IADC in1 in2 out len carry : circ) = qi_CIADC [] in1 in2 out len carry.
  Proof. reflexivity. Qed.
  Lemma wf_CADC n cs in1 in2 out len carry : adc_regs_ok n in1 in2 out len carry ->
    NoDup cs -> (forall q, In q cs -> q < n /\ q <> carry /\ outside_reg q in1 len /\ outside_reg q in2 len /\ outside_reg q out len) ->
    Forall (wfx n) (qi_CADC cs in1 in2 out len carry : circ).
  Proof.
    intros Ha ND Hc. destruct Ha as [B1 [B2 [B3 [B4 [D1 [D2 [D3 [O1 [O2 O3]]]]]]]]]. unfold qi_CADC. destruct (N.eqb_spec len 0) as [|Hl]. constructor.
    assert (E1 : forall i, i < len -> in1 + i <> in2 + i) by (intros i Hi; clear - D1 Hi; unfold disjoint_regs in D1; lia).
    assert (E2 : forall i j, i < len -> j < len -> in1 + i <> out + j) by (intros i j Hi Hj; clear - D2 Hi Hj; unfold disjoint_regs in D2; lia).
    assert (E3 : forall i j, i < len -> j < len -> in2 + i <> out + j) by (intros i j Hi Hj; clear - D3 Hi Hj; unfold disjoint_regs in D3; lia).
    assert (E4 : forall i, i < len -> in1 + i <> carry) by (intros i Hi; clear - O1 Hi; unfold outside_reg in O1; lia).
    assert (E5 : forall i, i < len -> in2 + i <> carry) by (intros i Hi; clear - O2 Hi; unfold outside_reg in O2; lia).
    assert (E6 : forall i, i < len -> out + i <> carry) by (intros i Hi; clear - O3 Hi; unfold outside_reg in O3; lia).
    assert (EC : forall q, In q cs -> q < n /\ q <> carry /\ (forall i, i < len -> q <> in1 + i) /\ (forall i, i < len -> q <> in2 + i) /\ (forall i, i < len -> q <> out + i)).
    { intros q Hq. destruct (Hc q Hq) as [F1 [F2 [F3 [F4 F5]]]]. clear - F1 F2 F3 F4 F5. unfold outside_reg in *. repeat split; auto; intros i Hi; lia. }
    clear D1 D2 D3 O1 O2 O3 Hc.
    assert (HF : forall i s k, i < len -> s < n -> k < n -> s <> k -> in1 + i <> s -> in1 + i <> k -> in2 + i <> s -> in2 + i <> k ->
       (forall q, In q cs -> q <> s /\ q <> k) -> Forall (wfx n) (qi_CFullAdd cs (in1 + i) (in2 + i) s k : circ)).
    { intros i s k Hi Hs Hk E F1 F2 F3 F4 Hq. apply wf_CFullAdd. now apply E1. unfold adder_ok. repeat split; auto; lia. split; auto. intros q HI.
      destruct (EC q HI) as [G1 [G2 [G3 [G4 G5]]]]. destruct (Hq q HI) as [G6 G7]. split; auto. cbn [In]. intros [T|[T|[T|[T|[]]]]]; subst q; auto. now apply (G3 i). now apply (G4 i). }
    assert (HC : forall i, i < len -> forall q, In q cs -> q <> out + i) by (intros i Hi q Hq; now apply EC).
    assert (HK : forall q, In q cs -> q <> carry) by (intros q Hq; now apply EC).
    apply Forall_app. split.
    { assert (L0 : 0 < len) by lia. specialize (HF 0 carry (out + 0) L0). pose proof (E2 0 0 L0 L0) as F2. pose proof (E3 0 0 L0 L0) as F3.
      pose proof (E4 0 L0) as F4. pose proof (E5 0 L0) as F5. pose proof (E6 0 L0) as F6. pose proof (HC 0 L0) as FC. rewrite !N.add_0_r in *. apply HF; auto. lia. }
    destruct (N.eqb_spec len 1).
    - apply wf_CSwap; try lia. split; auto. intros q Hq. split. now apply EC. cbn [In]. intros [T|[T|[]]]; subst q. now apply (HK carry Hq).
      specialize (HC 0). rewrite N.add_0_r in HC. apply (HC ltac:(lia) out Hq). auto.
    - apply Forall_app. split.
      + apply wf_flat. intros i Hi. apply iota_In in Hi. rewrite <- N.add_assoc. apply HF; auto; try (clear HF E1 E2 E3 E4 E5 E6 EC HC HK; lia).
        apply E2; lia. apply E2; lia. apply E3; lia. apply E3; lia. intros q Hq. split; apply HC; auto; lia.
      + apply HF; auto; try (clear HF E1 E2 E3 E4 E5 E6 EC HC HK; lia). apply E6; lia. apply E2; lia. apply E4; lia. apply E3; lia. apply E5; lia.
        intros q Hq. split; auto. apply HC; auto; lia.
  Qed.
  (** A one-bit register. *)
  Lemma adc1_act cs in1 in2 out carry x : in1 <> in2 -> in1 <> out -> in1 <> carry -> in2 <> out -> in2 <> carry -> out <> carry ->
    (forall q, In q cs -> ~ In q [in1; in2; out; carry]) -> N.testbit x out = false ->
    cact (qi_CADC cs in1 in2 out 1 carry : circ) x = controlled cs (add_regs in1 in2 out 1 carry) x.
  Proof.
    intros H1 H2 H3 H4 H5 H6 Hc Hx. unfold qi_CADC. cbn [N.eqb Pos.eqb]. 
    assert (C4 : ~ In carry cs) by (intros HI; apply Hc in HI; cbn in HI; tauto). assert (C3 : ~ In out cs) by (intros HI; apply Hc in HI; cbn in HI; tauto).
    rewrite cact_app, cswap_act, cfull_act by (auto; intros q Hq HI; apply (Hc q Hq); cbn in *; tauto). unfold controlled. destruct (all_set cs x) eqn:E; [|now rewrite E].
    assert (E2 : all_set cs (full_add in1 in2 carry out x) = true).
    { rewrite <- E. unfold all_set. apply forallb_ext_in. intros q Hq. unfold full_add. rewrite !tb_put_bit. specialize (Hc q Hq). cbn [In] in Hc. bcases; auto; subst; tauto. }
    rewrite E2. apply N.bits_inj. intros q. unfold add_regs. rewrite !get_reg_1. rewrite tb_swap, tb_put_bit, tb_put_reg by (apply mod_lt_pow2).
    unfold full_add. rewrite !tb_put_bit, ?N.eqb_refl. rewrite Hx.
    rewrite ?(N.eqb_sym carry out), ?(neqb_f out carry) by auto.
    destruct (N.eqb_spec carry q) as [->|Eq]. 
    - rewrite ?(neqb_f out q) by auto. destruct (N.testbit x in1), (N.testbit x in2), (N.testbit x q); reflexivity.
    - destruct (N.eqb_spec out q) as [->|Eo].
      + destruct (N.ltb_spec q q); [lia|]. destruct (N.ltb_spec q (q + 1)); [|lia]. rewrite N.sub_diag.
        destruct (N.testbit x in1), (N.testbit x in2), (N.testbit x carry); reflexivity.
      + destruct (N.ltb_spec q out); auto. destruct (N.ltb_spec q (out + 1)); auto. lia.
  Qed.

  (** ** Reverse, ROL, ROR *)
  Definition rix (a b q : N) : N := if (a <=? q) && (q <? b) then a + b - 1 - q else q.
  Lemma rix_cases a b q : (a <= q < b /\ rix a b q = a + b - 1 - q) \/ ((q < a \/ b <= q) /\ rix a b q = q).
  Proof. unfold rix. destruct (N.leb_spec a q), (N.ltb_spec q b); cbn [andb]; [left|right|right|right]; lia. Qed.
  Ltac rixs := repeat match goal with |- context [rix ?a ?b ?q] =>
    lazymatch q with context [rix] => fail | _ => let H := fresh in let E := fresh in destruct (rix_cases a b q) as [[H E]|[H E]]; rewrite ?E; clear E end end; try lia.
  Lemma reverse_act fuel : forall a b x q, (N.to_nat (b - a) <= 2 * fuel + 1)%nat ->
    N.testbit (cact (reverse_loop fuel a b : circ) x) q = N.testbit x (rix a b q).
  Proof.
    induction fuel as [|f IH]; intros a b x q Hf.
    - cbn [reverse_loop cact fold_left]. unfold rix. destruct (N.leb_spec a q), (N.ltb_spec q b); cbn [andb]; auto. f_equal. lia.
    - cbn [reverse_loop]. destruct (N.ltb_spec 0 b), (N.ltb_spec a (b - 1)); cbn [andb].
      + rewrite cact_app, IH by lia. rewrite swap_act, tb_swap. 
        assert (G : rix a b q = if a =? (rix (a + 1) (b - 1) q) then b - 1 else if b - 1 =? (rix (a + 1) (b - 1) q) then a else rix (a + 1) (b - 1) q) by (rixs; bcases; lia).
        rewrite G. bcases; auto.
      + cbn [cact fold_left]. unfold rix. bcases; auto. f_equal. lia.
      + lia.
      + cbn [cact fold_left]. unfold rix. bcases; auto. lia.
  Qed.
  Lemma Reverse_act a b x q : N.testbit (cact (qi_Reverse a b : circ) x) q = N.testbit x (rix a b q).
  Proof. apply reverse_act. lia. Qed.
  Lemma wf_reverse n fuel : forall a b, b <= n -> Forall (wfx n) (reverse_loop fuel a b : circ).
  Proof.
    induction fuel as [|f IH]; intros a b Hb; cbn [reverse_loop]. constructor. destruct (N.ltb_spec 0 b), (N.ltb_spec a (b - 1)); cbn [andb]; try constructor.
    apply Forall_app. split. apply wf_Swap; lia. apply IH. lia.
  Qed.
  Lemma rol_act shift s len x : rotated s len shift x (cact (qi_ROL shift s len : circ) x).
  Proof.
    unfold qi_ROL. destruct (N.ltb_spec len 2). { destruct (N.eq_dec len 0) as [->|]. split; auto; intros; lia. apply rotated_0. replace len with 1 by lia. apply N.mod_1_r. }
    assert (Hk : shift mod len < len) by (apply N.mod_lt; lia). cbv zeta.
    assert (EJ : forall j, (j + shift) mod len = (j + shift mod len) mod len) by (intros j; now rewrite N.add_mod_idemp_r by lia).
    destruct (N.eqb_spec (shift mod len) 0) as [E|E]. now apply rotated_0.
    set (k := shift mod len) in *. clearbody k. split.
    - intros j Hj. rewrite EJ, !cact_app, !Reverse_act. f_equal.
      destruct (N.lt_ge_cases (j + k) len).
      + rewrite N.mod_small by lia. rixs.
      + replace ((j + k) mod len) with (j + k - len). rixs. apply (N.mod_unique _ _ 1); lia.
    - intros q Hq. rewrite !cact_app, !Reverse_act. f_equal. unfold outside_reg in Hq. rixs.
  Qed.
  Lemma ror_act shift s len x : rotated s len shift (cact (qi_ROR shift s len : circ) x) x.
  Proof.
    unfold qi_ROR. destruct (N.ltb_spec len 2). { destruct (N.eq_dec len 0) as [->|]. split; auto; intros; lia. apply rotated_0. replace len with 1 by lia. apply N.mod_1_r. }
    assert (Hk : shift mod len < len) by (apply N.mod_lt; lia). cbv zeta.
    assert (EJ : forall j, (j + shift) mod len = (j + shift mod len) mod len) by (intros j; now rewrite N.add_mod_idemp_r by lia).
    destruct (N.eqb_spec (shift mod len) 0) as [E|E]. now apply rotated_0.
    set (k := shift mod len) in *. clearbody k. split.
    - intros j Hj. rewrite EJ, !cact_app, !Reverse_act. f_equal.
      destruct (N.lt_ge_cases (j + k) len).
      + rewrite N.mod_small by lia. rixs.
      + replace ((j + k) mod len) with (j + k - len). rixs. apply (N.mod_unique _ _ 1); lia.
    - intros q Hq. rewrite !cact_app, !Reverse_act. f_equal. unfold outside_reg in Hq. rixs.
  Qed.
  Lemma wf_ROL n shift s len : s + len <= n -> Forall (wfx n) (qi_ROL shift s len : circ).
  Proof.
    intros Hs. unfold qi_ROL. destruct (N.ltb_spec len 2). constructor. assert (Hk : shift mod len < len) by (apply N.mod_lt; lia). cbv zeta.
    destruct (shift mod len =? 0). constructor. repeat (apply Forall_app; split); apply wf_reverse; lia.
  Qed.
  Lemma wf_ROR n shift s len : s + len <= n -> Forall (wfx n) (qi_ROR shift s len : circ).
  Proof.
    intros Hs. unfold qi_ROR. destruct (N.ltb_spec len 2). constructor. assert (Hk : shift mod len < len) by (apply N.mod_lt; lia). cbv zeta.
    destruct (shift mod len =? 0). constructor. repeat (apply Forall_app; split); apply wf_reverse; lia.
  Qed.
End P.
