(** Proofs about the arithmetic kernels (part 1: registers, scatter loops, ROL, INC, CINC). *)
From Coq Require Import NArith ZArith List Bool Lia Ring.
From Verif Require Import Bits MFunctions SpecFunctions PFunctions MParFor PParFor MKernel PKernel Amp PAmp MEngine SpecState SpecEngine
  PLoop PApply PGates PGates2 PGates3 PCompose PProb PEngine MAlu SpecAlu.
Import ListNotations.
Local Open Scope N_scope.

Ltac bcases := repeat match goal with
  | |- context [N.ltb ?a ?b] => destruct (N.ltb_spec a b)
  | |- context [N.leb ?a ?b] => destruct (N.leb_spec a b)
  | |- context [N.eqb ?a ?b] => destruct (N.eqb_spec a b)
  end; cbn [andb orb negb xorb].

(** ** Registers *)
Lemma put_reg_slice x s len v : put_reg x s len v = slice_ix s len v (outside x s len).
Proof.
  unfold put_reg, slice_ix. f_equal; [f_equal|].
  - apply N.bits_inj. intros j. rewrite !tb_mod2, tb_outside. bcases; auto; lia.
  - f_equal. apply N.bits_inj. intros j. rewrite !tb_div2, tb_outside. bcases; try lia. f_equal. lia.
Qed.
Lemma tb_put_reg x s len v j : v < 2 ^ len -> N.testbit (put_reg x s len v) j =
  if j <? s then N.testbit x j else if j <? s + len then N.testbit v (j - s) else N.testbit x j.
Proof.
  intros Hv. rewrite put_reg_slice, tb_slice_ix, !tb_outside by auto. bcases; auto; try lia. f_equal. lia.
Qed.
Lemma put_reg_lt x s len v n : s + len <= n -> v < 2 ^ len -> x < 2 ^ n -> put_reg x s len v < 2 ^ n.
Proof.
  intros Hs Hv Hx. apply lt_pow2_bits. intros j Hj. rewrite tb_put_reg by auto. bcases; try lia; apply (tb_high x n); auto.
Qed.
Lemma get_put_same x s len v : v < 2 ^ len -> get_reg (put_reg x s len v) s len = v.
Proof. intros Hv. rewrite put_reg_slice. now apply reg_slice. Qed.
Lemma get_put_other x s len v s2 l2 : v < 2 ^ len -> disjoint_regs s len s2 l2 -> get_reg (put_reg x s len v) s2 l2 = get_reg x s2 l2.
Proof.
  intros Hv Hd. apply N.bits_inj. intros j. rewrite !tb_get_reg, tb_put_reg by auto. unfold disjoint_regs in Hd. bcases; auto; lia.
Qed.
Lemma put_get x s len : put_reg x s len (get_reg x s len) = x.
Proof. rewrite put_reg_slice. apply slice_outside. Qed.
Lemma put_put x s len v w : v < 2 ^ len -> w < 2 ^ len -> put_reg (put_reg x s len v) s len w = put_reg x s len w.
Proof. intros Hv Hw. apply N.bits_inj. intros j. rewrite !tb_put_reg by auto. bcases; auto. Qed.
Lemma put_reg_inj x y s len v w : v < 2 ^ len -> w < 2 ^ len -> put_reg x s len v = put_reg y s len w ->
  v = w /\ (forall j, outside_reg j s len -> N.testbit x j = N.testbit y j).
Proof.
  intros Hv Hw H. split.
  - rewrite <- (get_put_same x s len v), <- (get_put_same y s len w) by auto. now rewrite H.
  - intros j Hj. pose proof (f_equal (fun z => N.testbit z j) H) as E. cbn beta in E. rewrite !tb_put_reg in E by auto.
    unfold outside_reg in Hj. revert E. bcases; auto; lia.
Qed.
Lemma reg_ext x y s len : get_reg x s len = get_reg y s len -> (forall j, outside_reg j s len -> N.testbit x j = N.testbit y j) -> x = y.
Proof.
  intros Hr Ho. apply N.bits_inj. intros j. destruct (N.lt_ge_cases j s). apply Ho; left; auto.
  destruct (N.lt_ge_cases j (s + len)); [|apply Ho; right; auto].
  pose proof (f_equal (fun z => N.testbit z (j - s)) Hr) as E. cbn beta in E. rewrite !tb_get_reg in E.
  replace (j - s + s) with j in E by lia. revert E. bcases; auto; lia.
Qed.
(** Changing a register by an injective function of its value is injective. *)
Lemma upd_inj (g : N -> N) s len : (forall v, v < 2 ^ len -> g v < 2 ^ len) ->
  (forall v w, v < 2 ^ len -> w < 2 ^ len -> g v = g w -> v = w) ->
  forall x y, put_reg x s len (g (get_reg x s len)) = put_reg y s len (g (get_reg y s len)) -> x = y.
Proof.
  intros Hg Hi x y E. apply put_reg_inj in E; try (apply Hg; apply get_reg_lt). destruct E as [E Ho].
  apply (reg_ext x y s len); auto. apply Hi; auto; apply get_reg_lt.
Qed.
Lemma tb_put_bit x q b j : N.testbit (put_bit x q b) j = if q =? j then b else N.testbit x j.
Proof. apply tb_setto. Qed.
Lemma put_bit_lt x q b n : q < n -> x < 2 ^ n -> put_bit x q b < 2 ^ n.
Proof. intros. destruct b; cbn [put_bit]. now apply setbit_lt. now apply clearbit_lt. Qed.
Lemma put_bit_same x q : put_bit x q (N.testbit x q) = x.
Proof. apply N.bits_inj. intros j. rewrite tb_put_bit. bcases; subst; auto. Qed.
Lemma get_put_bit x q b s len : outside_reg q s len -> get_reg (put_bit x q b) s len = get_reg x s len.
Proof.
  intros Hq. apply N.bits_inj. intros j. rewrite !tb_get_reg, tb_put_bit. unfold outside_reg in Hq. bcases; auto; lia.
Qed.

(** ** Masks *)
Definition rmask (s len : N) : N := shl64 (pow2MaskOcl len) s.
Lemma rmask_reg s len : bitRegMaskOcl s len = rmask s len.
Proof. reflexivity. Qed.
Lemma tb_rmask s len j : s + len < 64 -> N.testbit (rmask s len) j = ((s <=? j) && (j <? s + len)).
Proof. intros H. apply (bitRegMask_ok s len); auto. Qed.
Lemma shl64_small v s n : n < 64 -> v < 2 ^ (n - s) -> s <= n -> shl64 v s = N.shiftl v s.
Proof.
  intros Hn Hv Hs. unfold shl64. apply (w64_small _ n); auto. apply lt_pow2_bits. intros j Hj. rewrite tb_shiftl.
  bcases; auto. apply (tb_high v (n - s)); auto. lia.
Qed.
Lemma tb_shl64 v s len j : s + len < 64 -> v < 2 ^ len -> N.testbit (shl64 v s) j = ((s <=? j) && N.testbit v (j - s)).
Proof.
  intros Hs Hv. rewrite (shl64_small v s (s + len)) by (try lia; replace (s + len - s) with len by lia; auto). apply tb_shiftl.
Qed.
Lemma field_ok x s len : s + len < 64 -> N.shiftr (N.land x (rmask s len)) s = get_reg x s len.
Proof.
  intros H. apply N.bits_inj. intros j. rewrite tb_shiftr, N.land_spec, tb_rmask, tb_get_reg by auto. bcases; auto; try lia; idtac.
  all: destruct (N.testbit x (j + s)); auto.
Qed.
Lemma tb_other x n m j : x < 2 ^ n -> N.testbit (N.land x (N.lxor (2 ^ n - 1) m)) j = N.testbit x j && negb (N.testbit m j).
Proof.
  intros Hx. rewrite N.land_spec, N.lxor_spec, tb_ones. destruct (N.ltb_spec j n).
  - now destruct (N.testbit x j), (N.testbit m j).
  - rewrite (tb_high x n) by auto. auto.
Qed.
Lemma put_ok x n s len v : s + len < 64 -> x < 2 ^ n -> v < 2 ^ len ->
  N.lor (shl64 v s) (N.land x (N.lxor (2 ^ n - 1) (rmask s len))) = put_reg x s len v.
Proof.
  intros Hs Hx Hv. apply N.bits_inj. intros j. rewrite N.lor_spec, tb_other, tb_rmask, (tb_shl64 v s len), tb_put_reg by auto.
  bcases; try lia; rewrite ?andb_true_r, ?andb_false_r, ?orb_false_r; auto.
  rewrite (tb_high v len) by (auto; lia). auto.
Qed.

(** ** Scatter loops *)
Lemma map_NoDup_in {A B} (f : A -> B) l : (forall a b, In a l -> In b l -> f a = f b -> a = b) -> NoDup l -> NoDup (map f l).
Proof.
  induction l as [|x l IH]; intros Hi Hn; cbn [map]; constructor; inversion Hn; subst.
  - intros H. apply in_map_iff in H. destruct H as [y [E Hy]]. assert (y = x) by (apply Hi; simpl; auto). subst. auto.
  - apply IH; auto. intros a b Ha Hb. apply Hi; simpl; auto.
Qed.
Section Scatter.
  Context {K : StarRing}.
  Add Ring KrA : (sr_ring K).
  Variable c : cfg.
  Local Notation V := (mem K).

  Lemma runs_iff (P Q : N -> Prop) (body : N -> prog K) (m m' : V) : (forall x, P x <-> Q x) -> runs P body m m' -> runs Q body m m'.
  Proof. intros H [idx [A B]]. exists idx. split; auto. eapply enumerates_iff; eauto. Qed.

  Lemma scatter (P : N -> Prop) (body : N -> prog K) (f : N -> N) (val : N -> K) (m m' : V) :
    (forall i, P i -> body i = Wr (f i) (val i) Ret) -> (forall i j, P i -> P j -> f i = f j -> i = j) ->
    runs P body m m' -> (forall i, P i -> m' (f i) = val i) /\ (forall a, (forall i, P i -> f i <> a) -> m' a = m a).
  Proof.
    intros Hb Hi HR. apply (runs_local P (fun i a => a = f i)) in HR.
    - destruct HR as [A B]. split.
      + intros i Hp. rewrite (A i (f i)) by auto. rewrite Hb by auto. cbn [exec]. apply mset_eq.
      + intros a Ha. apply B. intros i Hp E. now apply (Ha i Hp).
    - intros i j a Hpi Hpj -> E. apply Hi; auto.
    - intros i Hp. rewrite Hb by auto. split; [reflexivity|exact I].
  Qed.

  Lemma scatter_of (P : N -> Prop) (body : N -> prog K) (f : N -> N) (val : N -> K) (m m' : V) :
    runs P body m m' -> (forall i, P i -> body i = Wr (f i) (val i) Ret) -> (forall i j, P i -> P j -> f i = f j -> i = j) ->
    (forall i, P i -> m' (f i) = val i) /\ (forall a, (forall i, P i -> f i <> a) -> m' a = m a).
  Proof. intros; eapply scatter; eauto. Qed.

  Lemma new_zero_ok n (m : V) : fits c n -> new_zero c n m -> forall x, x < 2 ^ n -> m x = 0%amp.
  Proof. intros Hf [fr H] x Hx. now rewrite (fill_ok c n _ _ _ _ Hf (N.le_refl _) H x Hx). Qed.
  Lemma new_copy_ok n (psi m : V) : fits c n -> new_copy c n psi m -> forall x, x < 2 ^ n -> m x = psi x.
  Proof. intros Hf [fr H] x Hx. now rewrite (fill_ok c n _ _ _ _ Hf (N.le_refl _) H x Hx). Qed.
  Lemma new_zero_any n : fits c n -> exists m : V, new_zero c n m.
  Proof. intros Hf. destruct (fill_exists (K := K) c n (2 ^ n) (fun _ => 0%amp) (fun _ => 0%amp) Hf (N.le_refl _)) as [m Hm]. exists m, (fun _ => 0%amp). auto. Qed.
  Lemma new_copy_any n (psi : V) : fits c n -> exists m : V, new_copy c n psi m.
  Proof. intros Hf. destruct (fill_exists c n (2 ^ n) psi (fun _ => 0%amp) Hf (N.le_refl _)) as [m Hm]. exists m, (fun _ => 0%amp). auto. Qed.

  (** A scatter loop over the basis states [D] into a zeroed vector. *)
  Lemma scatter_map n (P : N -> Prop) (D : N -> bool) (f : N -> N) (ph : N -> K) (body : N -> prog K) (psi m0 m' : V) : fits c n ->
    (forall x, x < 2 ^ n -> m0 x = 0%amp) -> (forall x, P x <-> x < 2 ^ n /\ D x = true) ->
    (forall x, x < 2 ^ n -> D x = true -> f x < 2 ^ n /\ body x = Wr (f x) (ph x * psi x)%amp Ret) ->
    (forall x y, x < 2 ^ n -> y < 2 ^ n -> D x = true -> D y = true -> f x = f y -> x = y) ->
    runs P body m0 m' -> basis_map n D f ph psi m'.
  Proof.
    intros Hf Hz HP Hb Hi HR.
    destruct (scatter P body f (fun i => (ph i * psi i)%amp) m0 m') as [A B]; auto.
    - intros i Hp. apply HP in Hp. now apply Hb.
    - intros i j Hp Hq. apply HP in Hp. apply HP in Hq. now apply Hi.
    - split; [exact Hi|]. split.
      + intros x Hx Hd. split. now apply Hb. apply A. now apply HP.
      + intros y Hy Hn. rewrite B. now apply Hz. intros i Hp. apply HP in Hp. now apply Hn.
  Qed.

  (** A permutation of the basis: a full-range scatter loop needs no initialisation. *)
  Lemma finite_surj n (f : N -> N) : (forall x, x < 2 ^ n -> f x < 2 ^ n) ->
    (forall x y, x < 2 ^ n -> y < 2 ^ n -> f x = f y -> x = y) -> forall y, y < 2 ^ n -> exists x, x < 2 ^ n /\ f x = y.
  Proof.
    intros Hb Hi y Hy.
    assert (Hincl : incl (basis n) (map f (basis n))).
    { apply NoDup_length_incl.
      - apply map_NoDup_in; [|apply basis_NoDup]. intros a b Ha Hb2. apply basis_In in Ha. apply basis_In in Hb2. now apply Hi.
      - now rewrite map_length.
      - intros z Hz. apply in_map_iff in Hz. destruct Hz as [x [<- Hx]]. apply basis_In. apply Hb. now apply basis_In. }
    apply basis_In in Hy. apply Hincl in Hy. apply in_map_iff in Hy. destruct Hy as [x [E Hx]]. exists x. split; auto. now apply basis_In.
  Qed.
  Lemma scatter_perm n (f : N -> N) (ph : N -> K) (body : N -> prog K) (psi m0 m' : V) : fits c n ->
    (forall x, x < 2 ^ n -> f x < 2 ^ n /\ body x = Wr (f x) (ph x * psi x)%amp Ret) ->
    (forall x y, x < 2 ^ n -> y < 2 ^ n -> f x = f y -> x = y) ->
    loop_for c (2 ^ n) body m0 m' -> basis_map n always f ph psi m'.
  Proof.
    intros Hf Hb Hi HR. apply (loop_for_runs c n) in HR; auto; [|apply N.le_refl].
    destruct (scatter (fun x => x < 2 ^ n) body f (fun i => (ph i * psi i)%amp) m0 m') as [A B]; auto.
    - intros i Hp. now apply Hb.
    - split; [intros; auto|]. split.
      + intros x Hx _. split. now apply Hb. now apply A.
      + intros y Hy Hn. exfalso. destruct (finite_surj n f) with (y := y) as [x [Hx E]]; auto.
        intros x Hx. now apply Hb. apply (Hn x); auto.
  Qed.
  Lemma basis_map_ext n D D' f f' ph ph' (psi psi' : V) : (forall x, x < 2 ^ n -> D x = D' x) ->
    (forall x, x < 2 ^ n -> D x = true -> f x = f' x /\ ph x = ph' x) -> basis_map n D f ph psi psi' -> basis_map n D' f' ph' psi psi'.
  Proof.
    intros HD Hf [A [B C]]. split; [|split].
    - intros x y Hx Hy Dx Dy E. rewrite <- HD in Dx, Dy by auto. apply A; auto. destruct (Hf x Hx Dx) as [-> _]. now destruct (Hf y Hy Dy) as [-> _].
    - intros x Hx Dx. rewrite <- HD in Dx by auto. destruct (Hf x Hx Dx) as [<- <-]. now apply B.
    - intros y Hy Hn. apply C; auto. intros x Hx Dx. destruct (Hf x Hx Dx) as [-> _]. apply Hn; auto. now rewrite <- HD.
  Qed.
  Lemma basis_map_id n (psi : V) : basis_map n always (fun x => x) (fun _ => 1%amp) psi psi.
  Proof.
    split; [intros; auto|]. split; [intros x Hx _; split; auto; ring|]. intros y Hy Hn. exfalso. apply (Hn y); auto.
  Qed.

  (** Every loop has an outcome. *)
  Lemma for_new n (body : N -> prog K) : fits c n -> exists r, exists fresh m' : V, loop_for c (2 ^ n) body fresh m' /\ r = Ok (Some m').
  Proof.
    intros Hf. destruct (loop_for_exists c n (2 ^ n) body (fun _ => 0%amp) Hf (N.le_refl _)) as [m' Hm]. exists (Ok (Some m')), (fun _ => 0%amp), m'. auto.
  Qed.
  Lemma for_zero n (body : N -> prog K) : fits c n -> exists r, exists m0 m' : V, new_zero c n m0 /\ loop_for c (2 ^ n) body m0 m' /\ r = Ok (Some m').
  Proof.
    intros Hf. destruct (new_zero_any n Hf) as [m0 H0]. destruct (loop_for_exists c n (2 ^ n) body m0 Hf (N.le_refl _)) as [m' Hm]. exists (Ok (Some m')), m0, m'. auto.
  Qed.
  Lemma mask_copy n ms (psi : V) (body : N -> prog K) : fits c n -> exists r, exists m0 m' : V, new_copy c n psi m0 /\ loop_mask c (2 ^ n) ms body m0 m' /\ r = Ok (Some m').
  Proof.
    intros Hf. destruct (new_copy_any n psi Hf) as [m0 H0]. destruct (loop_mask_exists c n ms body m0 Hf) as [m' Hm]. exists (Ok (Some m')), m0, m'. auto.
  Qed.
  Lemma mask_zero n ms (body : N -> prog K) : fits c n -> exists r, exists m0 m' : V, new_zero c n m0 /\ loop_mask c (2 ^ n) ms body m0 m' /\ r = Ok (Some m').
  Proof.
    intros Hf. destruct (new_zero_any n Hf) as [m0 H0]. destruct (loop_mask_exists c n ms body m0 Hf) as [m' Hm]. exists (Ok (Some m')), m0, m'. auto.
  Qed.
  Lemma skip_zero n q w (body : N -> prog K) : fits c n -> q <= n -> exists r, exists m0 m' : V, new_zero c n m0 /\ loop_skip c (2 ^ n) (pow2Ocl q) w body m0 m' /\ r = Ok (Some m').
  Proof.
    intros Hf Hq. destruct (new_zero_any n Hf) as [m0 H0]. rewrite pow2Ocl_small by (destruct Hf; lia).
    destruct (loop_skip_exists c n q w body m0 Hf Hq) as [m' Hm]. exists (Ok (Some m')), m0, m'. auto.
  Qed.

  (** ** INC *)
  Lemma range_ok n s len : n < 64 -> s + len <= n -> isBadBitRange s len n = false.
  Proof. intros Hn H. rewrite isBadBitRange_ok by (change (2 ^ 8) with 256; lia). apply N.ltb_ge. lia. Qed.
  Lemma lenMask len : len < 64 -> pow2MaskOcl len = 2 ^ len - 1.
  Proof. apply pow2MaskOcl_small. Qed.
  Lemma addend_ok a len : len < 64 -> N.land (w64 a) (pow2MaskOcl len) = a mod 2 ^ len.
  Proof.
    intros H. rewrite lenMask, land_ones by auto. unfold w64. apply N.bits_inj. intros j. rewrite !tb_mod2. bcases; auto; lia.
  Qed.
  Lemma mod_add_cancel M u v a : 0 < M -> u < M -> v < M -> (u + a) mod M = (v + a) mod M -> u = v.
  Proof.
    intros HM Hu Hv E.
    assert (G : forall p q, p < M -> q < M -> (p + a) mod M = (q + a) mod M -> p <= q -> p = q).
    { intros p q Hp Hq Epq Hle.
      pose proof (N.div_mod (p + a) M ltac:(lia)) as D1. pose proof (N.div_mod (q + a) M ltac:(lia)) as D2. rewrite Epq in D1.
      assert ((q + a) / M = (p + a) / M); [|nia].
      apply N.le_antisymm; [|apply N.div_le_mono; lia].
      assert (q + a = p + a + (q - p)) by lia. destruct (N.le_gt_cases ((q + a) / M) ((p + a) / M)); auto. nia. }
    destruct (N.le_ge_cases u v). now apply G. symmetry. apply G; auto.
  Qed.
  Lemma add_reg_lt n s len a x : s + len <= n -> x < 2 ^ n -> add_reg s len a x < 2 ^ n.
  Proof. intros H Hx. apply put_reg_lt; auto. apply mod_lt_pow2. Qed.
  Lemma add_reg_inj s len a x y : add_reg s len a x = add_reg s len a y -> x = y.
  Proof.
    apply (upd_inj (fun v => (v + a) mod 2 ^ len)). intros; apply mod_lt_pow2.
    intros v w Hv Hw. apply mod_add_cancel; auto. apply pow2_pos.
  Qed.
  Lemma add_reg_mod s len a x : add_reg s len (a mod 2 ^ len) x = add_reg s len a x.
  Proof. unfold add_reg. f_equal. apply N.add_mod_idemp_r, pow2_nz. Qed.
  Lemma add_reg_0 s len a x : a mod 2 ^ len = 0 -> add_reg s len a x = x.
  Proof.
    intros E. rewrite <- add_reg_mod, E. unfold add_reg. rewrite N.add_0_r, N.mod_small by apply get_reg_lt. apply put_get.
  Qed.
  Lemma outInt_ok u a len : len < 64 -> u < 2 ^ len -> a < 2 ^ len -> N.land (w64 (u + a)) (pow2MaskOcl len) = (u + a) mod 2 ^ len.
  Proof. intros H _ _. apply addend_ok; auto. Qed.

  Theorem inc_ok n toAdd s len (psi : V) r : fits c n -> s + len <= n -> INC c n toAdd s len (Some psi) r ->
    exists psi', r = Ok (Some psi') /\ basis_map n always (add_reg s len toAdd) (fun _ => 1%amp) psi psi'.
  Proof.
    intros Hf Hr HR. assert (Hn : n < 64) by apply Hf. unfold INC in HR. rewrite range_ok in HR by auto.
    destruct (N.eqb_spec len 0) as [->|Hl].
    - exists psi. split; auto. eapply basis_map_ext; [| |apply basis_map_id]; auto. intros x Hx _. split; auto.
      symmetry. apply add_reg_0. apply N.mod_1_r.
    - cbv zeta in HR. rewrite addend_ok in HR by lia. destruct (N.eqb_spec (toAdd mod 2 ^ len) 0) as [E|E].
      + exists psi. split; auto. eapply basis_map_ext; [| |apply basis_map_id]; auto. intros x Hx _. split; auto. symmetry. now apply add_reg_0.
      + destruct HR as [fr [m' [HL ->]]]. exists m'. split; auto.
        refine (scatter_perm n _ _ _ psi fr m' Hf _ _ HL).
        * intros x Hx. split. now apply add_reg_lt.
          fold (rmask s len). rewrite field_ok by lia. pose proof (get_reg_lt x s len). rewrite outInt_ok; auto; try lia; try apply mod_lt_pow2.
          rewrite (put_ok x n s len) by (auto; try lia; apply mod_lt_pow2).
          rewrite <- (add_reg_mod s len toAdd). unfold add_reg. f_equal. ring.
        * intros x y _ _. apply add_reg_inj.
  Qed.
  Lemma inc_any n toAdd s len (v : option V) : fits c n -> exists r, INC c n toAdd s len v r.
  Proof.
    intros Hf. unfold INC. destruct (isBadBitRange s len n); [eauto|]. destruct v as [psi|]; [|eauto].
    destruct (len =? 0); [eauto|]. cbv zeta. destruct (N.land (w64 toAdd) (pow2MaskOcl len) =? 0); [eauto|].
    now apply for_new.
  Qed.

  (** ** Permutations of the basis *)
  Lemma basis_map_perm n f (ph : N -> K) (psi psi' : V) : (forall x y, x < 2 ^ n -> y < 2 ^ n -> f x = f y -> x = y) ->
    (forall x, x < 2 ^ n -> f x < 2 ^ n /\ psi' (f x) = (ph x * psi x)%amp) -> basis_map n always f ph psi psi'.
  Proof.
    intros Hi Hb. split; [auto|]. split; [auto|]. intros y Hy Hn. exfalso.
    destruct (finite_surj n f) with (y := y) as [x [Hx E]]; auto. intros x Hx. now apply Hb. apply (Hn x); auto.
  Qed.
  (** Running the inverse permutation afterwards restores the state. *)
  Lemma basis_map_undo n D f g (a b : K) (psi psi1 psi2 : V) : (forall x, x < 2 ^ n -> D x = true -> g (f x) = x) -> (b * a = 1)%amp ->
    supported n D psi ->
    basis_map n D f (fun _ => a) psi psi1 -> basis_map n always g (fun _ => b) psi1 psi2 -> eqv n psi2 psi.
  Proof.
    intros Hg Hab Hs [A1 [B1 C1]] [A2 [B2 C2]] x Hx. destruct (D x) eqn:Dx.
    - destruct (B1 x Hx Dx) as [F1 E1]. destruct (B2 (f x) F1 eq_refl) as [F2 E2]. rewrite Hg in E2 by auto.
      rewrite E2, E1. transitivity ((b * a) * psi x)%amp; [ring|rewrite Hab; ring].
    - rewrite (Hs x Hx Dx). destruct (finite_surj n g) with (y := x) as [y [Hy E]]; auto.
      + intros z Hz. now apply B2.
      + destruct (B2 y Hy eq_refl) as [_ E2]. rewrite E in E2. rewrite E2, C1; auto; [ring|].
        intros z Hz Dz F. subst y. rewrite Hg in E by auto. subst z. congruence.
  Qed.

  (** ** DEC *)
  Lemma neg_const len a : len <= 127 -> sub128 (pow2_128 len) a mod 2 ^ len = (2 ^ len - a mod 2 ^ len) mod 2 ^ len.
  Proof.
    intros Hl. unfold sub128, pow2_128, w128. rewrite N.shiftl_mul_pow2, N.mul_1_l.
    assert (E : 2 ^ 128 = 2 ^ len * 2 ^ (128 - len)) by (rewrite <- N.pow_add_r; f_equal; lia).
    pose proof (pow2_pos len) as P1. pose proof (pow2_pos (128 - len)) as P2. pose proof (pow2_lt_mono len 128 ltac:(lia)) as L.
    rewrite (N.mod_small (2 ^ len)) by auto. rewrite E in *. set (A := 2 ^ len) in *. set (B := 2 ^ (128 - len)) in *. clearbody A B. clear E.
    rewrite N.mod_mul_r by lia.
    rewrite (N.mul_comm A (_ mod B)), N.mod_add by lia. rewrite N.mod_mod by lia.
    assert (Ha : (a mod (A * B)) mod A = a mod A).
    { rewrite N.mod_mul_r by lia. rewrite (N.mul_comm A (_ mod B)), N.mod_add by lia. apply N.mod_mod. lia. }
    pose proof (N.mod_lt a (A * B) ltac:(nia)) as La. set (w := a mod (A * B)) in *. clearbody w. rewrite <- Ha.
    pose proof (N.div_mod w A ltac:(lia)) as Dw. pose proof (N.mod_lt w A ltac:(lia)) as Lw.
    set (q := w / A) in *. set (p := w mod A) in *. clearbody q p.
    assert (q < B) by nia.
    replace (A + (A * B - w)) with ((A - p) + (B - q) * A) by nia. now rewrite N.mod_add by lia.
  Qed.
  Lemma sub_reg_add s len a x : sub_reg s len a x = add_reg s len ((2 ^ len - a mod 2 ^ len) mod 2 ^ len) x.
  Proof. rewrite add_reg_mod. reflexivity. Qed.
  Lemma dec_const_ok s len a x : len <= 127 -> add_reg s len (sub128 (pow2_128 len) a) x = sub_reg s len a x.
  Proof. intros Hl. now rewrite <- add_reg_mod, neg_const, sub_reg_add by auto. Qed.
  Lemma sub_add s len a x : sub_reg s len a (add_reg s len a x) = x.
  Proof.
    unfold sub_reg, add_reg. pose proof (pow2_pos len) as HP. rewrite get_put_same, put_put by apply mod_lt_pow2.
    pose proof (get_reg_lt x s len) as Hg. transitivity (put_reg x s len (get_reg x s len)); [f_equal|apply put_get].
    set (v := get_reg x s len) in *. clearbody v. set (M := 2 ^ len) in *. clearbody M.
    rewrite N.add_mod_idemp_l by lia. pose proof (N.div_mod a M ltac:(lia)) as D. pose proof (N.mod_lt a M ltac:(lia)) as L.
    set (q := a / M) in *. set (p := a mod M) in *. clearbody q p.
    replace (v + a + (M - p)) with (v + (q + 1) * M) by nia. rewrite N.mod_add by lia. now apply N.mod_small.
  Qed.
  Lemma add_sub s len a x : add_reg s len a (sub_reg s len a x) = x.
  Proof.
    unfold sub_reg, add_reg. pose proof (pow2_pos len) as HP. rewrite get_put_same, put_put by apply mod_lt_pow2.
    pose proof (get_reg_lt x s len) as Hg. transitivity (put_reg x s len (get_reg x s len)); [f_equal|apply put_get].
    set (v := get_reg x s len) in *. clearbody v. set (M := 2 ^ len) in *. clearbody M.
    rewrite N.add_mod_idemp_l by lia. pose proof (N.div_mod a M ltac:(lia)) as D. pose proof (N.mod_lt a M ltac:(lia)) as L.
    set (q := a / M) in *. set (p := a mod M) in *. clearbody q p.
    replace (v + (M - p) + a) with (v + (q + 1) * M) by nia. rewrite N.mod_add by lia. now apply N.mod_small.
  Qed.
  Theorem dec_ok n toSub s len (psi : V) r : fits c n -> s + len <= n -> DEC c n toSub s len (Some psi) r ->
    exists psi', r = Ok (Some psi') /\ basis_map n always (sub_reg s len toSub) (fun _ => 1%amp) psi psi'.
  Proof.
    intros Hf Hr HR. assert (n < 64) by apply Hf. apply inc_ok in HR; auto. destruct HR as [psi' [-> HB]]. exists psi'. split; auto.
    eapply basis_map_ext; [| |exact HB]; auto. intros x _ _. split; auto. apply dec_const_ok. lia.
  Qed.

  (** ** CINC *)
  Lemma all_set_put x s len v cs : v < 2 ^ len -> (forall q, In q cs -> outside_reg q s len) -> all_set cs (put_reg x s len v) = all_set cs x.
  Proof.
    intros Hv Ho. unfold all_set. induction cs as [|q cs IH]; auto. cbn [forallb]. rewrite IH by (intros; apply Ho; now right). f_equal.
    rewrite tb_put_reg by auto. pose proof (Ho q (or_introl eq_refl)) as H. unfold outside_reg in H. bcases; auto; lia.
  Qed.
  Lemma all_set_lor cs x : (forall q, In q cs -> q < 64) -> all_set cs (N.lor x (or_pows cs)) = true.
  Proof.
    intros H. unfold all_set. apply forallb_forall. intros q Hq. rewrite N.lor_spec. apply orb_true_iff. right. now apply or_pows_bit.
  Qed.
  Lemma all_set_true cs x : all_set cs x = true <-> forall q, In q cs -> N.testbit x q = true.
  Proof. unfold all_set. apply forallb_forall. Qed.
  Lemma set_split cs x : (forall q, In q cs -> q < 64) -> all_set cs x = true -> N.lor (N.ldiff x (or_pows cs)) (or_pows cs) = x.
  Proof.
    intros H Hx. apply N.bits_inj. intros j. rewrite N.lor_spec, N.ldiff_spec. destruct (N.testbit (or_pows cs) j) eqn:E.
    - apply or_pows_bit in E; auto. rewrite orb_true_r. symmetry. now apply (proj1 (all_set_true cs x)).
    - now rewrite andb_true_r, orb_false_r.
  Qed.
  Lemma ldiff_lt x y n : x < 2 ^ n -> N.ldiff x y < 2 ^ n.
  Proof. intros H. apply lt_pow2_bits. intros j Hj. rewrite N.ldiff_spec, (tb_high x n) by auto. reflexivity. Qed.
  Lemma ldiff_zero cs x : (forall q, In q cs -> q < 64) -> zero_at cs (N.ldiff x (or_pows cs)).
  Proof. intros H q Hq. rewrite N.ldiff_spec. apply (or_pows_bit cs H) in Hq. rewrite Hq. apply andb_false_r. Qed.
  Lemma lor_ldiff cs x : (forall q, In q cs -> q < 64) -> zero_at cs x -> N.ldiff (N.lor x (or_pows cs)) (or_pows cs) = x.
  Proof.
    intros H Hz. apply N.bits_inj. intros j. rewrite N.ldiff_spec, N.lor_spec. destruct (N.testbit (or_pows cs) j) eqn:E.
    - apply or_pows_bit in E; auto. rewrite (Hz j E). auto.
    - now rewrite orb_false_r, andb_true_r.
  Qed.
  Lemma cinc_any n toAdd s len cs (v : option V) : fits c n -> exists r, CINC c n toAdd s len cs v r.
  Proof.
    intros Hf. unfold CINC. destruct v as [psi|]; [|eauto]. destruct cs; [now apply inc_any|].
    destruct (_ || _); [eauto|]. destruct (len =? 0); [eauto|]. cbv zeta. destruct (_ =? 0); [eauto|]. now apply mask_copy.
  Qed.

  Lemma loop_ctl n cs (body : N -> prog K) (m0 m' : V) : fits c n -> NoDup cs -> (forall q, In q cs -> q < n) ->
    loop_mask c (2 ^ n) (nsort (map pow2Ocl cs)) body m0 m' -> runs (fun x => x < 2 ^ n /\ zero_at cs x) body m0 m'.
  Proof.
    intros Hf Hd Hc HR. assert (n < 64) by apply Hf. rewrite (map_pow2Ocl n) in HR by (auto; lia). rewrite nsort_pow in HR.
    apply loop_mask_runs in HR; auto; [|apply nsort_increasing; auto].
    eapply runs_iff; [|exact HR]. intros x. cbn beta. unfold zero_at. split; intros [A B]; split; auto; intros p Hp; apply B; now apply nsort_In.
  Qed.
  Lemma put_ok_ctl x n s len v cs : n < 64 -> s + len <= n -> x < 2 ^ n -> v < 2 ^ len -> (forall q, In q cs -> q < n /\ outside_reg q s len) -> zero_at cs x ->
    N.lor (N.lor (shl64 v s) (N.land x (N.lxor (2 ^ n - 1) (N.lor (rmask s len) (or_pows cs))))) (or_pows cs) = put_reg (N.lor x (or_pows cs)) s len v.
  Proof.
    intros Hn Hs Hx Hv Hc Hz. apply N.bits_inj. intros j. rewrite !N.lor_spec, tb_other, N.lor_spec, tb_rmask, (tb_shl64 v s len), tb_put_reg by (auto; lia).
    rewrite N.lor_spec. destruct (N.testbit (or_pows cs) j) eqn:E.
    - apply or_pows_bit in E; [|intros q Hq; apply Hc in Hq; lia]. rewrite orb_true_r.
      destruct (Hc j E) as [_ Ho]. unfold outside_reg in Ho. bcases; auto; try lia; now rewrite orb_true_r.
    - rewrite !orb_false_r. bcases; try lia; rewrite ?andb_true_r, ?andb_false_r, ?orb_false_r; auto.
      rewrite (tb_high v len) by (auto; lia). auto.
  Qed.
  Lemma get_reg_lor x m s len : (forall j, N.testbit m j = true -> outside_reg j s len) -> get_reg (N.lor x m) s len = get_reg x s len.
  Proof.
    intros H. apply N.bits_inj. intros j. rewrite !tb_get_reg, N.lor_spec. destruct (N.ltb_spec j len); auto. cbn [andb].
    destruct (N.testbit m (j + s)) eqn:E; [|apply orb_false_r]. apply H in E. unfold outside_reg in E. lia.
  Qed.
  Theorem cinc_ok n toAdd s len cs (psi : V) r : fits c n -> s + len <= n -> NoDup cs -> (forall q, In q cs -> q < n /\ outside_reg q s len) ->
    CINC c n toAdd s len cs (Some psi) r ->
    exists psi', r = Ok (Some psi') /\ basis_map n always (controlled cs (add_reg s len toAdd)) (fun _ => 1%amp) psi psi'.
  Proof.
    intros Hf Hr Hd Hc HR. assert (Hn : n < 64) by apply Hf.
    assert (Hc64 : forall q, In q cs -> q < 64) by (intros q Hq; apply Hc in Hq; lia).
    assert (Hcn : forall q, In q cs -> q < n) by (intros q Hq; now apply Hc).
    assert (Hco : forall q, In q cs -> outside_reg q s len) by (intros q Hq; now apply Hc).
    destruct cs as [|c0 cs0].
    { cbn [CINC] in HR. apply inc_ok in HR; auto. }
    set (cs := c0 :: cs0) in *. unfold CINC in HR. fold cs in HR. replace (match cs with [] => _ | _ => _ end) with
      (if isBadBitRange s len n || throwIfQbIdArrayIsBad cs n then r = Throw
        else if len =? 0 then r = Ok (Some psi)
        else
          let lengthMask := pow2Ocl len - 1 in
          let toAddOcl := N.land (w64 toAdd) lengthMask in
          if toAddOcl =? 0 then r = Ok (Some psi)
          else
            let controlMask := or_pows cs in
            let inOutMask := shl64 lengthMask s in
            let otherMask := N.lxor (2 ^ n - 1) (N.lor inOutMask controlMask) in
            exists m0 m', new_copy c n psi m0 /\
              loop_mask c (2 ^ n) (nsort (map pow2Ocl cs)) (fun lcv =>
                let otherRes := N.land lcv otherMask in
                let inOutInt := N.shiftr (N.land lcv inOutMask) s in
                let outInt := N.land (w64 (inOutInt + toAddOcl)) lengthMask in
                Wr (N.lor (N.lor (shl64 outInt s) otherRes) controlMask) (psi (N.lor lcv controlMask)) Ret) m0 m' /\
              r = Ok (Some m')) in HR by reflexivity. clearbody cs. clear c0 cs0.
    rewrite range_ok in HR by auto.
    replace (throwIfQbIdArrayIsBad cs n) with false in HR by (symmetry; apply throwIf_ok; split; auto; now apply Forall_forall).
    cbn [orb] in HR.
    assert (Hid : toAdd mod 2 ^ len = 0 -> basis_map n always (controlled cs (add_reg s len toAdd)) (fun _ => 1%amp) psi psi).
    { intros E. eapply basis_map_ext; [| |apply basis_map_id]; auto. intros x Hx _. split; auto. unfold controlled.
      destruct (all_set cs x); auto. symmetry. now apply add_reg_0. }
    destruct (N.eqb_spec len 0) as [->|Hl].
    - exists psi. split; auto. apply Hid. apply N.mod_1_r.
    - cbv zeta in HR. change (pow2Ocl len - 1) with (pow2MaskOcl len) in HR. rewrite addend_ok in HR by lia.
      destruct (N.eqb_spec (toAdd mod 2 ^ len) 0) as [E|E].
      + exists psi. split; auto.
      + destruct HR as [m0 [m' [Hm0 [HL ->]]]]. exists m'. split; auto. apply loop_ctl in HL; auto.
        pose proof (new_copy_ok n psi m0 Hf Hm0) as Hcp.
        set (F := fun i => add_reg s len toAdd (N.lor i (or_pows cs))).
        assert (Hlt : forall i, i < 2 ^ n -> N.lor i (or_pows cs) < 2 ^ n) by (intros i Hi; apply lor_lt_pow2; auto; apply or_pows_lt; auto; lia).
        destruct (scatter_of _ _ F (fun i => psi (N.lor i (or_pows cs))) m0 m' HL) as [A B].
        * intros i [Hi Hz]. unfold F. fold (rmask s len). rewrite field_ok by lia. rewrite outInt_ok; try lia; try apply get_reg_lt; try apply mod_lt_pow2.
          rewrite (put_ok_ctl i n s len _ cs) by (auto; apply mod_lt_pow2). f_equal. rewrite <- (add_reg_mod s len toAdd). unfold add_reg. f_equal. f_equal. f_equal.
          symmetry. apply get_reg_lor. intros j Hj. apply or_pows_bit in Hj; auto.
        * intros i j [Hi Hzi] [Hj Hzj] EF. unfold F in EF. apply add_reg_inj in EF.
          rewrite <- (lor_ldiff cs i), <- (lor_ldiff cs j) by auto. now rewrite EF.
        * assert (AS : forall x, all_set cs (add_reg s len toAdd x) = all_set cs x) by (intros x; unfold add_reg; apply all_set_put; auto; apply mod_lt_pow2).
          apply basis_map_perm.
          -- intros x y Hx Hy. unfold controlled. destruct (all_set cs x) eqn:Ex, (all_set cs y) eqn:Ey; auto.
             ++ apply add_reg_inj.
             ++ intros Exy. rewrite <- Exy, AS in Ey. congruence.
             ++ intros Exy. rewrite Exy, AS in Ex. congruence.
          -- intros x Hx. unfold controlled. destruct (all_set cs x) eqn:Ex.
             ++ split. now apply add_reg_lt. rewrite <- (set_split cs x) by auto.
                transitivity (psi (N.lor (N.ldiff x (or_pows cs)) (or_pows cs))); [|ring].
                apply (A (N.ldiff x (or_pows cs))). split. now apply ldiff_lt. now apply ldiff_zero.
             ++ split; auto. transitivity (psi x); [|ring]. rewrite B; auto. intros i _ EF. unfold F in EF.
                rewrite <- EF, AS, all_set_lor in Ex by auto. discriminate.
  Qed.
End Scatter.
