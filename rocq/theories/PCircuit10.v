(** Proofs about the generic circuits (part 10: the quantum Fourier transform is the discrete Fourier transform). *)
From Coq Require Import NArith Arith List Bool Lia Ring.
From Verif Require Import Bits MFunctions PFunctions MParFor PParFor MKernel Amp PAmp MEngine SpecState SpecEngine PLoop
  PGates PGates2 PGates3 PEngine PEngine2 PCompose MAlu SpecAlu PAlu PAlu2 PAlu5 PAlu6 PAlu9 MCircuit SpecCircuit PCircuit PCircuit2 PCircuit3 PCircuit4 PCircuit5 PCircuit6 PCircuit7 PCircuit9.
Import ListNotations.
Local Open Scope N_scope.

Section P.
  Context {K : StarRing}.
  Add Ring KrT : (sr_ring K).
  Local Notation V := (mem K).
  Local Notation circ := (circ K).

  Definition pw (z : K) (k : N) : K := apow z (N.to_nat k).
  Lemma pw_add z a b : pw z (a + b) = (pw z a * pw z b)%amp.
  Proof. unfold pw. now rewrite N2Nat.inj_add, apow_add. Qed.
  Lemma pw_0 z : pw z 0 = 1%amp. Proof. reflexivity. Qed.
  Lemma pw_1 z : pw z 1 = z. Proof. unfold pw. change (N.to_nat 1) with 1%nat. cbn [apow]. ring. Qed.
  Lemma pw_one k : pw 1%amp k = 1%amp.
  Proof. unfold pw. induction (N.to_nat k) as [|j IH]; cbn [apow]; auto. rewrite IH. ring. Qed.
  Lemma pw_mul z a b : pw z (a * b) = pw (pw z a) b.
  Proof.
    unfold pw. rewrite N2Nat.inj_mul. induction (N.to_nat b) as [|j IH]. now rewrite Nat.mul_0_r.
    rewrite Nat.mul_succ_r, Nat.add_comm, apow_add, IH. reflexivity.
  Qed.

  Section Roots.
    Variable root : N -> K.
    Hypothesis (R1 : (root 1 = - (1))%amp) (R2 : forall k, 1 <= k -> (root (k + 1)%N * root (k + 1)%N = root k)%amp).
    Lemma root_down k : 1 <= k -> pw (root (k + 1)) 2 = root k.
    Proof using R2. intros H. change 2 with (1 + 1). rewrite pw_add, pw_1. auto. Qed.
    Lemma root_pow j : forall k, 1 <= k -> pw (root (k + j)) (2 ^ j) = root k.
    Proof using R2.
      induction j as [|j IH] using N.peano_ind; intros k Hk. rewrite N.add_0_r. apply pw_1.
      rewrite N.pow_succ_r', pw_mul. replace (k + N.succ j) with (k + j + 1) by lia. rewrite root_down by lia. now apply IH.
    Qed.
    Lemma root_half L : pw (root (L + 1)) (2 ^ L) = (- (1))%amp.
    Proof using R1 R2. replace (L + 1) with (1 + L) by lia. rewrite root_pow by lia. exact R1. Qed.
    Lemma root_full L : pw (root (L + 1)) (2 ^ (L + 1)) = 1%amp.
    Proof using R1 R2. rewrite N.pow_add_r, pw_mul, root_half. change (2 ^ 1) with (1 + 1). rewrite pw_add, pw_1. ring. Qed.

    (** The phases gathered by one qubit. *)
    Lemma phase_pow at_ (L : N) w x : N.testbit w (at_ L) = true -> x < 2 ^ L -> (forall k, k < L -> N.testbit w (at_ k) = N.testbit x k) ->
      phase_of root at_ L (iota 0 (N.to_nat L)) w = pw (root (L + 1)) x.
    Proof using R2.
      intros HB Hx HA.
      assert (G : forall M : nat, N.of_nat M <= L -> phase_of root at_ L (iota 0 M) w = pw (root (L + 1)) (x / 2 ^ (L - N.of_nat M) * 2 ^ (L - N.of_nat M))).
      { induction M as [|M IH]; intros HM.
        - cbn [iota phase_of fold_right]. rewrite N.sub_0_r, N.div_small, N.mul_0_l by auto. reflexivity.
        - rewrite iota_snoc, N.add_0_l. assert (PA : forall l1 l2, phase_of root at_ L (l1 ++ l2) w = (phase_of root at_ L l1 w * phase_of root at_ L l2 w)%amp).
          { intros l1 l2. unfold phase_of. induction l1 as [|a r IHl]; cbn [app fold_right]. ring. rewrite IHl. ring. }
          rewrite PA, IH by lia. cbn [phase_of fold_right]. rewrite HB, andb_true_r, HA by lia.
          set (m := L - (N.of_nat M + 1)). replace (L - N.of_nat M) with (m + 1) by lia. replace (L - N.of_nat (S M)) with m by lia.
          replace (x / 2 ^ m * 2 ^ m) with (x / 2 ^ (m + 1) * 2 ^ (m + 1) + N.b2n (N.testbit x m) * 2 ^ m).
          + rewrite pw_add. f_equal. destruct (N.testbit x m); cbn [N.b2n].
            * rewrite N.mul_1_l. replace (L + 1) with (N.of_nat M + 2 + m) by lia. rewrite root_pow by lia. ring.
            * rewrite N.mul_0_l, pw_0. ring.
          + rewrite N.testbit_spec'. replace (x / 2 ^ (m + 1)) with (x / 2 ^ m / 2). 2:{ rewrite N.add_1_r, N.pow_succ_r', (N.mul_comm 2), N.div_div; auto; try lia. }
            rewrite N.add_1_r, N.pow_succ_r'. pose proof (N.div_mod' (x / 2 ^ m) 2) as HD. set (q := x / 2 ^ m) in *. rewrite HD at 3. lia. }
      rewrite (G (N.to_nat L)) by lia. rewrite N2Nat.id, N.sub_diag. change (2 ^ 0) with 1. now rewrite N.div_1_r, N.mul_1_r.
    Qed.
    Lemma phase_none at_ (L : N) w l : N.testbit w (at_ L) = false -> phase_of root at_ L l w = 1%amp.
    Proof using. intros H. unfold phase_of. rewrite H. induction l as [|a r IH]; cbn [fold_right]; auto. rewrite andb_false_r. rewrite IH. ring. Qed.

    Lemma basis_split L (f : N -> K) : asum f (basis (L + 1)) = (asum f (basis L) + asum (fun x => f (x + 2 ^ L)%N) (basis L))%amp.
    Proof using.
      rewrite !basis_iota. rewrite N.add_1_r, N.pow_succ_r', N2Nat.inj_mul. change (N.to_nat 2) with 2%nat. set (M := N.to_nat (2 ^ L)).
      replace (2 ^ L) with (N.of_nat M) by (unfold M; lia). replace (2 * M)%nat with (M + M)%nat by lia. clearbody M.
      enough (G : forall J, asum f (iota 0 (M + J)) = (asum f (iota 0 M) + asum (fun x => f (x + N.of_nat M)%N) (iota 0 J))%amp) by apply G.
      induction J as [|J IH]. rewrite Nat.add_0_r. cbn [iota]. cbn [asum]. ring.
      replace (M + S J)%nat with (S (M + J)) by lia. rewrite (iota_snoc (M + J)), (iota_snoc J), !asum_app, IH. cbn [asum]. rewrite !N.add_0_l. replace (N.of_nat (M + J)) with (N.of_nat J + N.of_nat M) by lia. ring.
    Qed.
    Lemma rev_mod L : forall y y', (forall k, k < N.of_nat L -> N.testbit y k = N.testbit y' k) -> rev_bits L y = rev_bits L y'.
    Proof using. induction L as [|L IH]; intros y y' H; cbn [rev_bits]; auto. rewrite (IH y y') by (intros; apply H; lia). rewrite H by lia. reflexivity. Qed.

    Lemma qr_dft h s : forall L psi y, csem (qr root h (fun k => s + k) L : circ) psi y = dft_rev (root (N.of_nat L)) h s (N.of_nat L) psi y.
    Proof using R1 R2.
      unfold dft_rev. induction L as [|L IH]; intros psi y.
      - assert (E0 : put_reg y s 0 0 = y). { unfold put_reg. rewrite !N.mul_0_l || cbn [N.mul]. rewrite !N.add_0_r, N.add_comm, N.mul_comm. symmetry. apply N.div_mod'. }
        cbn [N.of_nat N.to_nat qr csem fold_left apow rev_bits]. change (basis 0) with [0]. cbn [asum N.mul N.to_nat apow]. rewrite E0. ring.
      - cbn [qr]. rewrite !csem_app, IH. rewrite !Nat2N.id. cbn [apow].
        replace (N.of_nat (S L)) with (N.of_nat L + 1) by lia. rewrite basis_split. set (l := N.of_nat L) in *.
        rewrite <- asum_add. rewrite <- !asum_scale. apply asum_ext. intros x Hx. rewrite basis_In in Hx. rewrite sem_phs. cbn [csem]. rewrite sem_H.
        set (w := put_reg y s l x). assert (Wb : forall k, k < l -> N.testbit w (s + k) = N.testbit x k).
        { intros k Hk. unfold w. rewrite tb_put_reg by auto. destruct (N.ltb_spec (s + k) s); [lia|]. destruct (N.ltb_spec (s + k) (s + l)); [|lia]. f_equal. lia. }
        assert (WL : N.testbit w (s + l) = N.testbit y (s + l)).
        { unfold w. rewrite tb_put_reg by auto. destruct (N.ltb_spec (s + l) s); [lia|]. destruct (N.ltb_spec (s + l) (s + l)); [lia|]. auto. }
        assert (Hx2 : x + 2 ^ l < 2 ^ (l + 1)) by (rewrite N.add_1_r, N.pow_succ_r'; lia). assert (Hx1 : x < 2 ^ (l + 1)) by lia.
        assert (TX : forall k, N.testbit (x + 2 ^ l) k = N.testbit x k || (l =? k)).
        { intros k. rewrite add_lor. now rewrite N.lor_spec, N.pow2_bits_eqb. rewrite land_pow2_testbit. now rewrite (tb_high x l l). }
        assert (EC : N.clearbit w (s + l) = put_reg y s (l + 1) x).
        { apply N.bits_inj. intros k. rewrite N.clearbit_eqb, tb_put_reg by auto. unfold w. rewrite tb_put_reg by auto.
          destruct (N.ltb_spec k s), (N.ltb_spec k (s + l)), (N.ltb_spec k (s + (l + 1))), (N.eqb_spec (s + l) k); try lia; rewrite ?andb_true_r; auto.
          rewrite andb_false_r. symmetry. apply (tb_high x l); lia. }
        assert (ES : N.setbit w (s + l) = put_reg y s (l + 1) (x + 2 ^ l)).
        { apply N.bits_inj. intros k. rewrite N.setbit_eqb, tb_put_reg by auto. unfold w. rewrite tb_put_reg by auto. rewrite TX.
          destruct (N.ltb_spec k s), (N.ltb_spec k (s + l)), (N.ltb_spec k (s + (l + 1))), (N.eqb_spec (s + l) k); try lia; cbn [orb]; auto.
          - now rewrite (neqb_f l (k - s)), orb_false_r by lia.
          - replace (l =? k - s) with true by (symmetry; apply N.eqb_eq; lia). now rewrite orb_true_r. }
        assert (ER : rev_bits (S L) (get_reg y s (l + 1)) = 2 * rev_bits L (get_reg y s l) + N.b2n (N.testbit y (s + l))).
        { cbn [rev_bits]. f_equal. f_equal. apply rev_mod. intros k Hk. rewrite !tb_get_reg. destruct (N.ltb_spec k (l + 1)), (N.ltb_spec k l); try lia; auto.
          f_equal. rewrite tb_get_reg. fold l. destruct (N.ltb_spec l (l + 1)); [|lia]. cbn [andb]. f_equal. lia. }
        rewrite ER. set (R := rev_bits L (get_reg y s l)). change (apow ?z (N.to_nat ?k)) with (pw z k).
        set (z := root (l + 1)).
        assert (Z2 : l <> 0 -> pw (root l) (R * x) = pw z (2 * (R * x))). { intros Hl. rewrite (pw_mul z 2). unfold z. rewrite root_down by lia. reflexivity. }
        assert (Z2' : pw (root l) (R * x) = pw z (2 * (R * x))).
        { destruct (N.eq_dec l 0) as [E|E]; auto. assert (x = 0) as ->. { rewrite E in Hx. change (2 ^ 0) with 1 in Hx. lia. } rewrite !N.mul_0_r. reflexivity. }
        rewrite Z2'. 
        assert (ZF : pw z ((2 * R) * 2 ^ l) = 1%amp). { replace (2 * R * 2 ^ l) with (2 ^ (l + 1) * R) by (rewrite N.add_1_r, N.pow_succ_r'; lia). rewrite pw_mul. unfold z. rewrite root_full. apply pw_one. }
        assert (ZH : pw z (2 ^ l) = (- (1))%amp) by apply root_half.
        rewrite WL. change (psi (N.clearbit w (s + l))) with (psi (N.clearbit w (s + l))).
        replace L with (N.to_nat l) by lia. rewrite !N2Nat.id. destruct (N.testbit y (s + l)) eqn:B; cbn [N.b2n].
        + rewrite (phase_pow (fun k => s + k) l w x) by auto. fold z.
          assert (Ew : w = N.setbit w (s + l)). { apply N.bits_inj. intros k. rewrite N.setbit_eqb. destruct (N.eqb_spec (s + l) k) as [<-|]; cbn [orb]; auto. }
          rewrite Ew at 2. rewrite EC, ES.
          replace ((2 * R + 1) * (x + 2 ^ l)) with (2 * (R * x) + x + ((2 * R) * 2 ^ l + 2 ^ l)) by lia.
          replace ((2 * R + 1) * x) with (2 * (R * x) + x) by lia. rewrite !pw_add, ZF. rewrite ZH. ring.
        + rewrite phase_none by auto.
          assert (Ew : w = N.clearbit w (s + l)). { apply N.bits_inj. intros k. rewrite N.clearbit_eqb. destruct (N.eqb_spec (s + l) k) as [<-|]; cbn [negb]; rewrite ?andb_true_r, ?andb_false_r; auto. }
          rewrite Ew at 1. rewrite EC, ES.
          replace ((2 * R + 0) * (x + 2 ^ l)) with (2 * (R * x) + ((2 * R) * 2 ^ l)) by lia.
          replace ((2 * R + 0) * x) with (2 * (R * x)) by lia. rewrite !pw_add, ZF. ring.
    Qed.
  End Roots.
End P.
