(** Register forms of the logic gates; proofs of PropRegs.v. *)
From Coq Require Import NArith Arith List Bool Lia.
From Verif Require Import Bits MFunctions MParFor Amp MKernel MEngine SpecState SpecEngine PAmp MAlu SpecAlu PGates2 PCompose PAlu PAlu2 PAlu5 PAlu6 MCircuit SpecCircuit PCircuit PCircuit4 PCircuit6 PCircuit12 PCircuit13 MRegs SpecRegs PRegs.
Import ListNotations.
Local Open Scope N_scope.

Lemma in_bit x y a len out j : disjoint_regs a len out len -> j < len -> (forall q, q < out \/ out + len <= q -> N.testbit x q = N.testbit y q) -> N.testbit x (a + j) = N.testbit y (a + j).
Proof. intros D Hj H. apply H. unfold disjoint_regs in D. lia. Qed.
Lemma get_bit x a len j : j < len -> N.testbit (get_reg x a len) j = N.testbit x (a + j).
Proof. intros Hj. rewrite tb_get_reg. destruct (N.ltb_spec j len); [|lia]. cbn [andb]. f_equal; lia. Qed.
Lemma ne_bit a out len j : disjoint_regs a len out len -> j < len -> a + j <> out + j.
Proof. unfold disjoint_regs. lia. Qed.
Lemma lnot_fits v len : v < 2 ^ len -> N.lnot v len < 2 ^ len.
Proof. intros H. apply lt_of_bits. intros j Hj. rewrite N.lnot_spec_high by auto. now apply high_bits with len. Qed.
Ltac tog := intros; apply flip_toggle; reflexivity.

Lemma l_c188_cnot : forall (K : StarRing) (c : cfg) rgp n a t len (psi : mem K), fits c n -> a + len <= n -> t + len <= n -> disjoint_regs a len t len ->
  every_run (crun c rgp n (reg_c1 qi_CNOT a t len) (Some psi)) (fun r => exists psi', r = Ok (Some psi') /\ basis_map n always (fun x => xor_into t len (get_reg x a len) x) (fun _ => 1%amp) psi psi').
Proof. intros K c rgp n a t len psi Hf Ha Ht D. unfold reg_c1. apply (loop_run c rgp n (fun j => qi_CNOT (a + j) (t + j)) (fun j x => N.testbit x (a + j)) t len (fun x => get_reg x a len)); auto.
  - intros j Hj. apply wf_CNOT; try lia. now apply ne_bit with len.
  - intros j x Hj. rewrite act_CNOT. tog.
  - intros j x y Hj H. now rewrite (in_bit x y a len t).
  - intros x. apply get_lt.
  - intros x j Hj. rewrite ?N.lnot_spec_low by auto. now rewrite get_bit. Qed.

Lemma l_c188_anticnot : forall (K : StarRing) (c : cfg) rgp n a t len (psi : mem K), fits c n -> a + len <= n -> t + len <= n -> disjoint_regs a len t len ->
  every_run (crun c rgp n (reg_c1 qi_AntiCNOT a t len) (Some psi)) (fun r => exists psi', r = Ok (Some psi') /\ basis_map n always (fun x => xor_into t len (N.lnot (get_reg x a len) len) x) (fun _ => 1%amp) psi psi').
Proof. intros K c rgp n a t len psi Hf Ha Ht D. unfold reg_c1. apply (loop_run c rgp n (fun j => qi_AntiCNOT (a + j) (t + j)) (fun j x => negb (N.testbit x (a + j))) t len (fun x => N.lnot (get_reg x a len) len)); auto.
  - intros j Hj. apply wf_AntiCNOT; try lia. now apply ne_bit with len.
  - intros j x Hj. rewrite act_AntiCNOT. tog.
  - intros j x y Hj H. now rewrite (in_bit x y a len t).
  - intros x. apply lnot_fits, get_lt.
  - intros x j Hj. rewrite ?N.lnot_spec_low by auto. now rewrite get_bit. Qed.

Lemma l_c188_ccnot : forall (K : StarRing) (c : cfg) rgp n a b t len (psi : mem K), fits c n -> a + len <= n -> b + len <= n -> t + len <= n -> a <> b ->
  disjoint_regs a len t len -> disjoint_regs b len t len ->
  every_run (crun c rgp n (reg_c2 qi_CCNOT a b t len) (Some psi)) (fun r => exists psi', r = Ok (Some psi') /\ basis_map n always (fun x => xor_into t len (N.land (get_reg x a len) (get_reg x b len)) x) (fun _ => 1%amp) psi psi').
Proof. intros K c rgp n a b t len psi Hf Ha Hb Ht AB D E. unfold reg_c2. apply (loop_run c rgp n (fun j => qi_CCNOT (a + j) (b + j) (t + j)) (fun j x => N.testbit x (a + j) && N.testbit x (b + j)) t len (fun x => N.land (get_reg x a len) (get_reg x b len))); auto.
  - intros j Hj. apply wf_CCNOT; try lia; now apply ne_bit with len.
  - intros j x Hj. rewrite act_CCNOT. tog.
  - intros j x y Hj H. now rewrite (in_bit x y a len t), (in_bit x y b len t).
  - intros x. apply lt_of_bits. intros j Hj. rewrite N.land_spec, (high_bits _ len j); auto; try apply lnot_fits; apply get_lt.
  - intros x j Hj. rewrite N.land_spec, ?N.lnot_spec_low by auto. now rewrite !get_bit. Qed.

Lemma l_c188_anticcnot : forall (K : StarRing) (c : cfg) rgp n a b t len (psi : mem K), fits c n -> a + len <= n -> b + len <= n -> t + len <= n -> a <> b ->
  disjoint_regs a len t len -> disjoint_regs b len t len ->
  every_run (crun c rgp n (reg_c2 qi_AntiCCNOT a b t len) (Some psi)) (fun r => exists psi', r = Ok (Some psi') /\ basis_map n always (fun x => xor_into t len (N.land (N.lnot (get_reg x a len) len) (N.lnot (get_reg x b len) len)) x) (fun _ => 1%amp) psi psi').
Proof. intros K c rgp n a b t len psi Hf Ha Hb Ht AB D E. unfold reg_c2. apply (loop_run c rgp n (fun j => qi_AntiCCNOT (a + j) (b + j) (t + j)) (fun j x => negb (N.testbit x (a + j)) && negb (N.testbit x (b + j))) t len (fun x => N.land (N.lnot (get_reg x a len) len) (N.lnot (get_reg x b len) len))); auto.
  - intros j Hj. apply wf_AntiCCNOT; try lia; now apply ne_bit with len.
  - intros j x Hj. rewrite act_AntiCCNOT. tog.
  - intros j x y Hj H. now rewrite (in_bit x y a len t), (in_bit x y b len t).
  - intros x. apply lt_of_bits. intros j Hj. rewrite N.land_spec, (high_bits _ len j); auto; try apply lnot_fits; apply get_lt.
  - intros x j Hj. rewrite N.land_spec, ?N.lnot_spec_low by auto. now rewrite !get_bit. Qed.

Lemma l_c189_two : forall (K : StarRing) (c : cfg) rgp (nrm : K) n op W a b o len (psi : mem K), fits c n -> In (op, W) [(qi_AND, w_and); (qi_OR, w_or); (qi_XOR, w_xor); (qi_NAND, w_nand); (qi_NOR, w_nor); (qi_XNOR, w_xnor)] ->
  a + len <= n -> b + len <= n -> o + len <= n -> disjoint_regs a len o len -> disjoint_regs b len o len ->
  every_run (reg_3 c rgp nrm n op a b o len psi) (fun r => exists psi', r = Ok (Some psi') /\ basis_map n always (fun x => xor_into o len (W len (get_reg x a len) (get_reg x b len)) x) (fun _ => 1%amp) psi psi').
Proof. intros K c rgp nrm n op W a b o len psi Hf HI Ha Hb Ho D E.
  assert (HF : exists F, In (op, F) (@logic2 K) /\ word_of W F /\ word_fits W).
  { cbn [In] in HI. destruct HI as [HI|[HI|[HI|[HI|[HI|[HI|[]]]]]]]; injection HI as <- <-; [exists f_and|exists f_or|exists f_xor|exists f_nand|exists f_nor|exists f_xnor];
    (split; [cbn; tauto|]; split; [first [exact w_and_ok|exact w_or_ok|exact w_xor_ok|exact w_nand_ok|exact w_nor_ok|exact w_xnor_ok]|apply w_fits; cbn; tauto]). }
  destruct HF as [F [HL [WF WL]]]. set (g := fun j => match op (a + j) (b + j) (o + j) with LGates l => l | _ => [] end).
  assert (HG : forall j, j < len -> op (a + j) (b + j) (o + j) = LGates (g j) /\ Forall (wfx n) (g j) /\ forall x, cact (g j) x = toggle (o + j) (fun x => F (N.testbit x (a + j)) (N.testbit x (b + j))) x).
  { intros j Hj. destruct (logic2_gates n op F (a + j) (b + j) (o + j)) as [l [El [Wl Al]]]; auto; try lia; try now apply ne_bit with len. unfold g. rewrite El. auto. }
  assert (HR : every_run (crun c rgp n (flat_map g (iota 0 (N.to_nat len))) (Some psi)) (fun r => exists psi', r = Ok (Some psi') /\ basis_map n always (fun x => xor_into o len (W len (get_reg x a len) (get_reg x b len)) x) (fun _ => 1%amp) psi psi')).
  { apply (loop_run c rgp n g (fun j x => F (N.testbit x (a + j)) (N.testbit x (b + j))) o len (fun x => W len (get_reg x a len) (get_reg x b len))); auto.
    - intros j Hj. now apply HG.
    - intros j x Hj. now apply HG.
    - intros j x y Hj H. now rewrite (in_bit x y a len o), (in_bit x y b len o).
    - intros x. apply WL; apply get_lt.
    - intros x j Hj. rewrite WF, !get_bit; auto. }
  assert (HE : forall r, reg_3 c rgp nrm n op a b o len psi r <-> crun c rgp n (flat_map g (iota 0 (N.to_nat len))) (Some psi) r).
  { intros r. apply loop_gates; auto. intros j Hj. apply iota_In in Hj. destruct (HG j) as [A [B _]]. lia. auto. }
  destruct HR as [[r0 R0] HA]. split. exists r0. now apply HE. intros r HR. apply HA. now apply HE. Qed.

Lemma l_c189_classical : forall (K : StarRing) (c : cfg) rgp n op W a v o len (psi : mem K), fits c n -> In (op, W) [(qi_CLAND, w_and); (qi_CLOR, w_or); (qi_CLXOR, w_xor); (qi_CLNAND, w_nand); (qi_CLNOR, w_nor); (qi_CLXNOR, w_xnor)] ->
  a + len <= n -> o + len <= n -> disjoint_regs a len o len ->
  every_run (crun c rgp n (reg_3b op a v o len) (Some psi)) (fun r => exists psi', r = Ok (Some psi') /\ basis_map n always (fun x => xor_into o len (W len (get_reg x a len) (v mod 2 ^ len)) x) (fun _ => 1%amp) psi psi').
Proof. intros K c rgp n op W a v o len psi Hf HI Ha Ho D.
  assert (HF : exists F, In (op, F) (@logic1 K) /\ word_of W F /\ word_fits W).
  { cbn [In] in HI. destruct HI as [HI|[HI|[HI|[HI|[HI|[HI|[]]]]]]]; injection HI as <- <-; [exists f_and|exists f_or|exists f_xor|exists f_nand|exists f_nor|exists f_xnor];
    (split; [cbn; tauto|]; split; [first [exact w_and_ok|exact w_or_ok|exact w_xor_ok|exact w_nand_ok|exact w_nor_ok|exact w_xnor_ok]|apply w_fits; cbn; tauto]). }
  destruct HF as [F [HL [WF WL]]].
  assert (HG : forall j, j < len -> Forall (wfx n) (op (a + j) (slice_bool j v) (o + j)) /\ forall x, cact (op (a + j) (slice_bool j v) (o + j)) x = toggle (o + j) (fun x => F (N.testbit x (a + j)) (slice_bool j v)) x).
  { intros j Hj. apply logic1_gates; auto; try lia. now apply ne_bit with len. }
  unfold reg_3b. apply (loop_run c rgp n (fun j => op (a + j) (slice_bool j v) (o + j)) (fun j x => F (N.testbit x (a + j)) (slice_bool j v)) o len (fun x => W len (get_reg x a len) (v mod 2 ^ len))); auto.
  - intros j Hj. now apply HG.
  - intros j x Hj. now apply HG.
  - intros j x y Hj H. now rewrite (in_bit x y a len o).
  - intros x. apply WL. apply get_lt. apply N.mod_lt, N.pow_nonzero. lia.
  - intros x j Hj. destruct Hf as [_ [_ [Hn _]]]. rewrite WF, get_bit, N.mod_pow2_bits_low, slice_ok; auto. lia. Qed.

Lemma l_c189_inplace_xor : forall (K : StarRing) (c : cfg) rgp (nrm : K) n op W a b o len (psi : mem K), fits c n -> In (op, W) [(qi_XOR, w_xor); (qi_XNOR, w_xnor)] ->
  a + len <= n -> b + len <= n -> disjoint_regs a len b len -> o = a \/ o = b ->
  every_run (reg_3 c rgp nrm n op a b o len psi) (fun r => exists psi', r = Ok (Some psi') /\
    basis_map n always (fun x => put_reg x o len (W len (get_reg x a len) (get_reg x b len))) (fun _ => 1%amp) psi psi').
Proof. intros K c rgp nrm n op W a b o len psi Hf HI Ha Hb D HO.
  set (i := if o =? a then b else a). set (s := negb (N.testbit (W 1 0 0) 0)).
  assert (DI : disjoint_regs i len o len /\ o + len <= n). { unfold i, disjoint_regs in *. destruct (N.eqb_spec o a); lia. }
  assert (HX : forall j, j < len -> exists l, op (a + j) (b + j) (o + j) = LGates l /\ Forall (wfx n) l /\ forall x, cact l x = toggle (o + j) (fun x => xorb (negb s) (N.testbit x (i + j))) x).
  { intros j Hj. assert (NE : a + j <> b + j) by now apply ne_bit with len. assert (OE : o + j = a + j \/ o + j = b + j) by lia.
    assert (TA : forall G x, G x = xorb (N.testbit x (o + j)) (xorb (negb s) (N.testbit x (i + j))) -> assign (o + j) G x = toggle (o + j) (fun x => xorb (negb s) (N.testbit x (i + j))) x) by (intros G x HG; unfold assign, toggle; now rewrite HG).
    cbn [In] in HI. destruct HI as [HI|[HI|[]]]; injection HI as <- <-.
    - destruct (xor_inplace (K := K) n (a + j) (b + j) (o + j)) as [l [El [Wl Al]]]; auto; try lia. exists l. split; auto. split; auto. intros x. rewrite Al. apply TA. unfold s, i. change (N.testbit (w_xor 1 0 0) 0) with false. cbn [negb xorb].
      destruct (N.eqb_spec o a) as [->|NO]; [|destruct HO as [HO|HO]; [congruence|subst o]]; destruct (N.testbit x (a + j)), (N.testbit x (b + j)); reflexivity.
    - destruct (xnor_inplace (K := K) n (a + j) (b + j) (o + j)) as [l [El [Wl Al]]]; auto; try lia. exists l. split; auto. split; auto. intros x. rewrite Al. apply TA. unfold s, i. change (N.testbit (w_xnor 1 0 0) 0) with true. cbn [negb xorb].
      destruct (N.eqb_spec o a) as [->|NO]; [|destruct HO as [HO|HO]; [congruence|subst o]]; destruct (N.testbit x (a + j)), (N.testbit x (b + j)); reflexivity. }
  set (g := fun j => match op (a + j) (b + j) (o + j) with LGates l => l | _ => [] end).
  assert (HG : forall j, j < len -> op (a + j) (b + j) (o + j) = LGates (g j) /\ Forall (wfx n) (g j) /\ forall x, cact (g j) x = toggle (o + j) (fun x => xorb (negb s) (N.testbit x (i + j))) x).
  { intros j Hj. destruct (HX j Hj) as [l [El [Wl Al]]]. unfold g. rewrite El. auto. }
  set (U := fun x => if s then get_reg x i len else N.lnot (get_reg x i len) len).
  assert (UL : forall x, U x < 2 ^ len) by (intros x; unfold U; destruct s; [apply get_lt|apply lnot_fits, get_lt]).
  assert (UB : forall x j, j < len -> N.testbit (U x) j = xorb (negb s) (N.testbit x (i + j))).
  { intros x j Hj. unfold U. destruct s; cbn [negb]; rewrite ?N.lnot_spec_low, get_bit by auto; destruct (N.testbit x (i + j)); reflexivity. }
  assert (HR : every_run (crun c rgp n (flat_map g (iota 0 (N.to_nat len))) (Some psi)) (fun r => exists psi', r = Ok (Some psi') /\ basis_map n always (fun x => xor_into o len (U x) x) (fun _ => 1%amp) psi psi')).
  { apply (loop_run c rgp n g (fun j x => xorb (negb s) (N.testbit x (i + j))) o len U); auto.
    - intros j Hj. now apply HG.
    - intros j x Hj. now apply HG.
    - intros j x y Hj H. now rewrite (in_bit x y i len o). }
  assert (EQ : forall x, xor_into o len (U x) x = put_reg x o len (W len (get_reg x a len) (get_reg x b len))).
  { intros x. unfold xor_into. f_equal. apply N.bits_inj. intros j. rewrite N.lxor_spec. destruct (N.ltb_spec j len) as [Hj|Hj].
    - rewrite UB, get_bit by auto. unfold s, i. cbn [In] in HI. destruct HI as [HI|[HI|[]]]; injection HI as <- <-; [change (N.testbit (w_xor 1 0 0) 0) with false; rewrite w_xor_ok by auto|change (N.testbit (w_xnor 1 0 0) 0) with true; rewrite w_xnor_ok by auto];
        rewrite !get_bit by auto; unfold f_xor, f_xnor; cbn [negb xorb]; (destruct (N.eqb_spec o a) as [->|NO]; [|destruct HO as [HO|HO]; [congruence|subst o]]); destruct (N.testbit x (a + j)), (N.testbit x (b + j)); reflexivity.
    - rewrite (high_bits (U x) len), (high_bits (get_reg x o len) len), (high_bits (W len _ _) len); auto; try apply get_lt. apply w_fits; try apply get_lt. cbn [In] in HI. destruct HI as [HI|[HI|[]]]; injection HI as <- <-; cbn; tauto. }
  assert (HE : forall r, reg_3 c rgp nrm n op a b o len psi r <-> crun c rgp n (flat_map g (iota 0 (N.to_nat len))) (Some psi) r).
  { intros r. apply loop_gates; auto. intros j Hj. apply iota_In in Hj. destruct (HG j) as [A [B _]]. lia. auto. }
  destruct HR as [[r0 R0] HA]. split. exists r0. now apply HE. intros r HR. destruct (HA r (proj1 (HE r) HR)) as [psi' [-> HB]]. exists psi'. split; auto. eapply basis_map_ext; [| |exact HB]; auto. Qed.

Lemma l_c189_throws : forall (K : StarRing) (c : cfg) rgp (nrm : K) n op a b o len (psi : mem K), In op [qi_AND; qi_OR; qi_NAND; qi_NOR] -> 0 < len -> a <> b -> o = a \/ o = b ->
  every_run (reg_3 c rgp nrm n op a b o len psi) (fun r => r = Throw).
Proof. intros K c rgp nrm n op a b o len psi HI HL E HO. unfold reg_3. destruct (N.to_nat len) as [|k] eqn:EL; [lia|]. cbn [iota loop_3]. unfold and_then.
  destruct (PCircuit13.l_c43_inplace_throws K c rgp nrm n op (a + 0) (b + 0) (o + 0) psi HI) as [[r0 R0] HA]; try lia. split.
  - exists Throw. exists r0. split; auto. now rewrite (HA r0 R0).
  - intros r [r1 [R1 R2]]. now rewrite (HA r1 R1) in R2. Qed.

Lemma l_c190_swap : forall (K : StarRing) (c : cfg) rgp n a b len (psi : mem K), fits c n -> a + len <= n -> b + len <= n -> disjoint_regs a len b len \/ a = b ->
  every_run (crun c rgp n (reg_2 qi_Swap a b len) (Some psi)) (fun r => exists psi', r = Ok (Some psi') /\ basis_map n always (exchange a b len) (fun _ => 1%amp) psi psi').
Proof. intros K c rgp n a b len psi Hf Ha Hb D. unfold reg_2. apply perm_run; auto.
  - apply wf_flat. intros j Hj. apply iota_In in Hj. apply wf_Swap; lia.
  - intros x _. apply N.bits_inj. intros q. rewrite (swap_loop a b len) by (auto; lia). unfold exchange. rewrite !tb_put_reg by apply get_lt. rewrite !tb_get_reg, N2Nat.id. unfold disjoint_regs in D.
    repeat match goal with
    | |- context [?u <=? ?v] => destruct (N.leb_spec u v)
    | |- context [?u <? ?v] => destruct (N.ltb_spec u v)
    end; cbn [andb]; try lia; try reflexivity; f_equal; lia. Qed.

Lemma l_c191_bits_partial : forall (K : StarRing) (gate : N -> bool -> N -> circ K) a v o len, len <= 64 ->
  reg_3b gate a v o len = flat_map (fun i => gate (a + i) (N.testbit v i) (o + i)) (map N.of_nat (seq 0 (N.to_nat len))).
Proof. intros K gate a v o len H. unfold reg_3b. assert (E : forall k j, iota j k = map N.of_nat (seq (N.to_nat j) k)).
  { induction k as [|k IH]; intros j; cbn [iota seq map]; auto. rewrite N2Nat.id, IH. repeat f_equal. lia. }
  rewrite E. change (N.to_nat 0) with 0%nat. rewrite !flat_map_concat_map. f_equal. apply map_ext_in. intros i Hi. rewrite slice_ok; auto. apply in_map_iff in Hi. destruct Hi as [k [<- Hk]]. apply in_seq in Hk. lia. Qed.

Lemma l_c191_bits_refuted : exists a v o len, a + len <= 128 /\ o + len <= 128 /\ v < 2 ^ len /\ reg_3b (@qi_CLAND GI) a v o len = [] /\
  flat_map (fun i => @qi_CLAND GI (a + i) (N.testbit v i) (o + i)) (map N.of_nat (seq 0 (N.to_nat len))) = qi_CNOT 64 127.
Proof. exists 0, (2 ^ 64), 63, 65. split. lia. split. lia. split. reflexivity. split; vm_compute; reflexivity. Qed.
