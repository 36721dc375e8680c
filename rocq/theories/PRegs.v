(** Proofs about the register forms of the logic gates. *)
From Coq Require Import NArith List Bool Lia.
From Verif Require Import Bits MFunctions PFunctions MParFor PParFor MKernel Amp PAmp MEngine SpecState SpecEngine
  PGates PGates2 PGates3 PEngine PCompose MAlu SpecAlu PAlu PAlu2 PAlu5 PAlu6 PAlu9 MCircuit SpecCircuit PCircuit PCircuit2 PCircuit3 PCircuit4 PCircuit5 PCircuit6 MRegs SpecRegs.
Import ListNotations.
Local Open Scope N_scope.

(** ** Words *)
Definition word_of (W : N -> N -> N -> N) (F : bool -> bool -> bool) : Prop :=
  forall len a b j, j < len -> N.testbit (W len a b) j = F (N.testbit a j) (N.testbit b j).
Lemma w_and_ok : word_of w_and f_and. Proof. intros len a b j _. apply N.land_spec. Qed.
Lemma w_or_ok : word_of w_or f_or. Proof. intros len a b j _. apply N.lor_spec. Qed.
Lemma w_xor_ok : word_of w_xor f_xor. Proof. intros len a b j _. apply N.lxor_spec. Qed.
Lemma w_nand_ok : word_of w_nand f_nand. Proof. intros len a b j H. unfold w_nand. rewrite N.lnot_spec_low, N.land_spec; auto. Qed.
Lemma w_nor_ok : word_of w_nor f_nor. Proof. intros len a b j H. unfold w_nor. rewrite N.lnot_spec_low, N.lor_spec; auto. Qed.
Lemma w_xnor_ok : word_of w_xnor f_xnor. Proof. intros len a b j H. unfold w_xnor. rewrite N.lnot_spec_low, N.lxor_spec; auto. Qed.

Lemma lt_of_bits v len : (forall j, len <= j -> N.testbit v j = false) -> v < 2 ^ len.
Proof.
  intros H. assert (E : v = v mod 2 ^ len). { apply N.bits_inj. intros j. destruct (N.ltb_spec j len). now rewrite N.mod_pow2_bits_low. rewrite N.mod_pow2_bits_high by auto. auto. }
  rewrite E. apply N.mod_lt. apply N.pow_nonzero. lia.
Qed.
Lemma high_bits v len j : v < 2 ^ len -> len <= j -> N.testbit v j = false.
Proof. intros H Hj. rewrite <- (N.mod_small v (2 ^ len)) by auto. now apply N.mod_pow2_bits_high. Qed.
Definition word_fits (W : N -> N -> N -> N) : Prop := forall len a b, a < 2 ^ len -> b < 2 ^ len -> W len a b < 2 ^ len.
Lemma w_fits W : In W [w_and; w_or; w_xor; w_nand; w_nor; w_xnor] -> word_fits W.
Proof.
  intros HI len a b Ha Hb. apply lt_of_bits. intros j Hj. pose proof (high_bits a len j Ha Hj) as A. pose proof (high_bits b len j Hb Hj) as B.
  cbn [In] in HI. destruct HI as [<-|[<-|[<-|[<-|[<-|[<-|[]]]]]]]; unfold w_and, w_or, w_xor, w_nand, w_nor, w_xnor; rewrite ?N.lnot_spec_high by auto;
    rewrite ?N.land_spec, ?N.lor_spec, ?N.lxor_spec, A, B; reflexivity.
Qed.
Lemma get_lt x s len : get_reg x s len < 2 ^ len.
Proof. apply N.mod_lt. apply N.pow_nonzero. lia. Qed.
Lemma tb_xor_into out len v x q : v < 2 ^ len ->
  N.testbit (xor_into out len v x) q = xorb (N.testbit x q) ((out <=? q) && (q <? out + len) && N.testbit v (q - out)).
Proof.
  intros Hv. unfold xor_into. rewrite tb_put_reg.
  - destruct (N.ltb_spec q out); destruct (N.leb_spec out q); try lia; cbn [andb]; rewrite ?xorb_false_r; auto.
    destruct (N.ltb_spec q (out + len)); cbn [andb]; rewrite ?xorb_false_r; auto.
    rewrite N.lxor_spec, tb_get_reg. destruct (N.ltb_spec (q - out) len); [|lia]. cbn [andb]. do 2 f_equal. lia.
  - apply lt_of_bits. intros j Hj. rewrite N.lxor_spec, (high_bits v len), (high_bits (get_reg x out len) len); auto. apply get_lt.
Qed.
Lemma slice_ok i v : i < 64 -> slice_bool i v = N.testbit v i.
Proof.
  intros Hi. unfold slice_bool. rewrite N.shiftl_1_l. destruct (N.testbit v i) eqn:E.
  - apply negb_true_iff, N.eqb_neq. intros Z. pose proof (f_equal (fun z => N.testbit z i) Z) as T. cbn beta in T. rewrite N.mod_pow2_bits_low, N.land_spec, N.pow2_bits_true, E, N.bits_0 in T by auto. discriminate.
  - apply negb_false_iff, N.eqb_eq. assert (Z : N.land (2 ^ i) v = 0). { apply N.bits_inj. intros j. rewrite N.land_spec, N.bits_0. destruct (N.eq_dec i j) as [<-|D]. now rewrite E, andb_false_r. now rewrite N.pow2_bits_false. }
    rewrite Z. reflexivity.
Qed.

Section P.
  Context {K : StarRing}.
  Variable c : cfg.
  Local Notation V := (mem K).
  Local Notation circ := (circ K).

  (** ** A loop of toggles of the bits of a register *)
  Lemma tb_toggle out F x q : N.testbit (toggle out F x) q = xorb (N.testbit x q) ((out =? q) && F x).
  Proof. unfold toggle. rewrite tb_put_bit. destruct (N.eqb_spec out q) as [<-|E]; cbn [andb]; rewrite ?xorb_false_r; auto. Qed.
  Lemma loop_bits (g : N -> circ) (F : N -> N -> bool) out len :
    (forall j x, j < len -> cact (g j) x = toggle (out + j) (F j) x) ->
    (forall j x y, j < len -> (forall q, q < out \/ out + len <= q -> N.testbit x q = N.testbit y q) -> F j x = F j y) ->
    forall k x q, N.of_nat k <= len -> N.testbit (cact (flat_map g (iota 0 k)) x) q = xorb (N.testbit x q) ((out <=? q) && (q <? out + N.of_nat k) && F (q - out) x).
  Proof.
    intros HG HF. induction k as [|k IH]; intros x q Hk.
    - cbn [iota flat_map]. replace (cact [] x) with x by reflexivity. destruct (N.leb_spec out q); destruct (N.ltb_spec q (out + N.of_nat 0)); try lia; cbn [andb]; now rewrite xorb_false_r.
    - rewrite iota_snoc, flat_map_app, cact_app. cbn [flat_map]. rewrite app_nil_r, N.add_0_l, HG by lia. rewrite tb_toggle, IH by lia.
      assert (E : F (N.of_nat k) (cact (flat_map g (iota 0 k)) x) = F (N.of_nat k) x).
      { apply HF. lia. intros p Hp. rewrite IH by lia. destruct (N.leb_spec out p); destruct (N.ltb_spec p (out + N.of_nat k)); try lia; cbn [andb]; now rewrite xorb_false_r. }
      rewrite E. destruct (N.eqb_spec (out + N.of_nat k) q) as [<-|D].
      + replace (out + N.of_nat k - out) with (N.of_nat k) by lia. destruct (N.leb_spec out (out + N.of_nat k)); [|lia]. destruct (N.ltb_spec (out + N.of_nat k) (out + N.of_nat k)); [lia|].
        destruct (N.ltb_spec (out + N.of_nat k) (out + N.of_nat (S k))); [|lia]. cbn [andb]. now rewrite xorb_false_r.
      + cbn [andb]. rewrite xorb_false_r. f_equal. f_equal. f_equal. destruct (N.ltb_spec q (out + N.of_nat k)); destruct (N.ltb_spec q (out + N.of_nat (S k))); auto; lia.
  Qed.
  Lemma loop_run rgp n (g : N -> circ) (F : N -> N -> bool) out len (W : N -> N) (psi : V) : fits c n ->
    (forall j, j < len -> Forall (wfx n) (g j)) ->
    (forall j x, j < len -> cact (g j) x = toggle (out + j) (F j) x) ->
    (forall j x y, j < len -> (forall q, q < out \/ out + len <= q -> N.testbit x q = N.testbit y q) -> F j x = F j y) ->
    (forall x, W x < 2 ^ len) -> (forall x j, j < len -> N.testbit (W x) j = F j x) ->
    every_run (crun c rgp n (flat_map g (iota 0 (N.to_nat len))) (Some psi)) (fun r => exists psi', r = Ok (Some psi') /\
      basis_map n always (fun x => xor_into out len (W x) x) (fun _ => 1%amp) psi psi').
  Proof.
    intros Hf HW HG HF WL WB. apply perm_run; auto.
    - apply wf_flat. intros j Hj. apply HW. apply iota_In in Hj. lia.
    - intros x _. apply N.bits_inj. intros q. rewrite (loop_bits g F out len) by (auto; lia). rewrite tb_xor_into by auto. rewrite N2Nat.id. f_equal.
      destruct (N.leb_spec out q); destruct (N.ltb_spec q (out + len)); cbn [andb]; auto. rewrite WB; auto. lia.
  Qed.
  (** ** The loop of the gates with two quantum inputs is a list of gates *)
  Lemma loop_gates rgp nrm n op a b o (g : N -> circ) bits : fits c n ->
    (forall j, In j bits -> op (a + j) (b + j) (o + j) = LGates (g j) /\ Forall (wfx n) (g j)) ->
    forall (psi : V) r, loop_3 c rgp nrm n op a b o bits psi r <-> crun c rgp n (flat_map g bits) (Some psi) r.
  Proof.
    intros Hf. induction bits as [|j t IH]; intros H psi r; cbn [loop_3 flat_map]. reflexivity.
    destruct (H j (or_introl eq_refl)) as [E W]. rewrite crun_app. unfold and_then. rewrite E. cbn [lrun].
    destruct (perm_run c rgp n (g j) (cact (g j)) psi Hf W ltac:(auto)) as [_ HA].
    split; intros [r1 [R1 R2]]; exists r1; (split; [exact R1|]); destruct (HA r1 R1) as [psi' [-> _]]; cbn [on_vec] in *; apply IH; auto; intros i Hi; apply H; now right.
  Qed.
  (** ** A loop of swaps *)
  Lemma swap_loop a b len : disjoint_regs a len b len \/ a = b -> forall k x q, N.of_nat k <= len ->
    N.testbit (cact (flat_map (fun j => qi_Swap (a + j) (b + j) : circ) (iota 0 k)) x) q =
      if (a <=? q) && (q <? a + N.of_nat k) then N.testbit x (b + (q - a)) else if (b <=? q) && (q <? b + N.of_nat k) then N.testbit x (a + (q - b)) else N.testbit x q.
  Proof.
    intros D. induction k as [|k IH]; intros x q Hk.
    - cbn [iota flat_map]. replace (cact [] x) with x by reflexivity. destruct (N.leb_spec a q); destruct (N.ltb_spec q (a + N.of_nat 0)); try lia; destruct (N.leb_spec b q); destruct (N.ltb_spec q (b + N.of_nat 0)); try lia; reflexivity.
    - rewrite iota_snoc, flat_map_app, cact_app. cbn [flat_map]. rewrite app_nil_r, N.add_0_l, swap_act, tb_swap, !IH by lia. clear IH. unfold disjoint_regs in D. rewrite Nat2N.inj_succ in *.
      repeat match goal with
      | |- context [?u =? ?v] => destruct (N.eqb_spec u v)
      | |- context [?u <=? ?v] => destruct (N.leb_spec u v)
      | |- context [?u <? ?v] => destruct (N.ltb_spec u v)
      end; cbn [andb]; try lia; f_equal; lia.
  Qed.
End P.
