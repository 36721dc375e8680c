(** Composition, disposal and amplitude pages. *)
From Coq Require Import NArith List Bool Lia Permutation Ring.
From Verif Require Import Bits MFunctions SpecFunctions PFunctions MParFor SpecParFor PParFor MKernel PKernel Amp PAmp SpecState MEngine SpecEngine PLoop PApply PGates.
Import ListNotations.
Local Open Scope N_scope.

Lemma pow2MaskOcl_small q : q < 64 -> pow2MaskOcl q = 2 ^ q - 1.
Proof. intros H. unfold pow2MaskOcl. rewrite <- (pow2Ocl_small q) by auto. reflexivity. Qed.

(** Splitting a number around a register. *)
Lemma tb_outside x s len j : N.testbit (outside x s len) j = if j <? s then N.testbit x j else N.testbit x (j + len).
Proof.
  unfold outside. rewrite tb_cat by apply mod_lt_pow2. destruct (N.ltb_spec j s); autorewrite with tb.
  - destruct (N.ltb_spec j s); auto; lia.
  - f_equal. lia.
Qed.
Lemma tb_get_reg x s len j : N.testbit (get_reg x s len) j = (j <? len) && N.testbit x (j + s).
Proof. unfold get_reg. autorewrite with tb. reflexivity. Qed.
Lemma outside_lt x s len n : s <= n -> x < 2 ^ (n + len) -> outside x s len < 2 ^ n.
Proof.
  intros Hs Hx. apply lt_pow2_bits. intros m Hm. rewrite tb_outside. destruct (N.ltb_spec m s); [lia|].
  apply (tb_high x (n + len)); auto. lia.
Qed.
Lemma get_reg_lt x s len : get_reg x s len < 2 ^ len.
Proof. apply mod_lt_pow2. Qed.

(** Index of slice. *)
Definition slice_ix (s len p x : N) : N := x mod 2 ^ s + p * 2 ^ s + x / 2 ^ s * 2 ^ (s + len).
Lemma tb_slice_ix s len p x j : p < 2 ^ len -> N.testbit (slice_ix s len p x) j =
  if j <? s then N.testbit x j else if j <? s + len then N.testbit p (j - s) else N.testbit x (j - len).
Proof.
  intros Hp. unfold slice_ix. rewrite tb_cat.
  - destruct (N.ltb_spec j (s + len)).
    + rewrite tb_cat by apply mod_lt_pow2. destruct (N.ltb_spec j s); auto. autorewrite with tb. destruct (N.ltb_spec j s); auto; lia.
    + destruct (N.ltb_spec j s); [lia|]. autorewrite with tb. f_equal. lia.
  - rewrite N.pow_add_r. pose proof (mod_lt_pow2 x s). set (u := x mod 2 ^ s) in *. set (S := 2 ^ s) in *. set (L := 2 ^ len) in *. clearbody u S L. nia.
Qed.
Lemma slice_ix_lt s len p x n : s <= n -> p < 2 ^ len -> x < 2 ^ n -> slice_ix s len p x < 2 ^ (n + len).
Proof.
  intros Hs Hp Hx. apply lt_pow2_bits. intros m Hm. rewrite tb_slice_ix by auto.
  destruct (N.ltb_spec m s); [lia|]. destruct (N.ltb_spec m (s + len)); [lia|]. apply (tb_high x n); auto. lia.
Qed.
Lemma outside_slice s len p x : p < 2 ^ len -> outside (slice_ix s len p x) s len = x.
Proof.
  intros Hp. apply N.bits_inj. intros j. rewrite tb_outside, !tb_slice_ix by auto. destruct (N.ltb_spec j s); auto.
  destruct (N.ltb_spec (j + len) s); [lia|]. destruct (N.ltb_spec (j + len) (s + len)); [lia|]. f_equal. lia.
Qed.
Lemma reg_slice s len p x : p < 2 ^ len -> get_reg (slice_ix s len p x) s len = p.
Proof.
  intros Hp. apply N.bits_inj. intros j. rewrite tb_get_reg, !tb_slice_ix by auto. destruct (N.ltb_spec j len); cbn [andb].
  - destruct (N.ltb_spec (j + s) s); [lia|]. destruct (N.ltb_spec (j + s) (s + len)); [|lia]. f_equal. lia.
  - symmetry. now apply (tb_high p len).
Qed.
Lemma slice_outside s len x : slice_ix s len (get_reg x s len) (outside x s len) = x.
Proof.
  apply N.bits_inj. intros j. rewrite tb_slice_ix by apply get_reg_lt. rewrite tb_get_reg, !tb_outside.
  destruct (N.ltb_spec j s); auto. destruct (N.ltb_spec j (s + len)).
  - destruct (N.ltb_spec (j - s) len); [|lia]. cbn [andb]. f_equal. lia.
  - destruct (N.ltb_spec (j - len) s); [lia|]. f_equal. lia.
Qed.

Section Compose.
  Context {K : StarRing}.
  Variable c : cfg.
  Add Ring Kr6 : (sr_ring K).
  Local Notation V := (mem K).

  Theorem compose_ok maxQB na nb (va vb : option V) r : fits c (na + nb) -> 0 < na -> 0 < nb -> na + nb <= maxQB ->
    Compose c maxQB (mkEng na va) (mkEng nb vb) r ->
    exists v, r = Ok (mkEng (na + nb) v, na) /\ eqv (na + nb) (vread v) (tensor na (vread va) (vread vb)).
  Proof.
    intros Hf Ha Hb Hm. assert (Hn : na + nb < 64) by apply Hf. unfold Compose. cbn [e_n e_vec].
    destruct (N.eqb_spec nb 0); [lia|]. destruct (N.ltb_spec maxQB (na + nb)); [lia|]. destruct (N.eqb_spec na 0); [lia|].
    destruct va as [pa|], vb as [pb|].
    - intros [fresh [m' [HF ->]]]. exists (Some m'). split; auto. intros x Hx. cbn [vread].
      rewrite pow2Ocl_small in HF by lia. rewrite (fill_ok c (na + nb) _ _ _ _ Hf (N.le_refl _) HF x Hx). unfold tensor.
      rewrite land_ones. cbn [vread]. do 2 f_equal. apply N.bits_inj. intros j.
      rewrite tb_shiftr, N.land_spec. unfold w64. autorewrite with tb.
      destruct (N.ltb_spec (j + na) 64), (N.leb_spec na (j + na)), (N.ltb_spec (j + na - na) nb); cbn [andb]; try lia; rewrite ?andb_true_r, ?andb_false_r; auto;
      rewrite (tb_high x (na + nb)) by (auto; lia); auto.
    - intros ->. exists None. split; auto. intros x _. cbn [vread]. unfold tensor. cbn [vread]. ring.
    - intros ->. exists None. split; auto. intros x _. cbn [vread]. unfold tensor. cbn [vread]. ring.
    - intros ->. exists None. split; auto. intros x _. cbn [vread]. unfold tensor. cbn [vread]. ring.
  Qed.

  (** Composing onto an empty engine copies the operand. *)
  Theorem compose_empty_ok maxQB nb (va vb : option V) r : fits c nb -> 0 < nb -> nb <= maxQB -> vb <> None ->
    Compose c maxQB (mkEng 0 va) (mkEng nb vb) r ->
    exists v, r = Ok (mkEng nb v, 0) /\ eqv nb (vread v) (vread vb).
  Proof.
    intros Hf Hb Hm Hv. unfold Compose. cbn [e_n e_vec]. destruct (N.eqb_spec nb 0); [lia|].
    destruct (N.ltb_spec maxQB (0 + nb)); [lia|]. rewrite N.eqb_refl. destruct vb as [pb|]; [|congruence].
    intros [fresh [m' [HF ->]]]. exists (Some m'). split; auto. intros x Hx. exact (fill_ok c nb _ _ _ _ Hf (N.le_refl _) HF x Hx).
  Qed.

  Theorem compose_at_ok maxQB na nb start (va vb : option V) r : fits c (na + nb) -> 0 < na -> 0 < nb -> na + nb <= maxQB -> start <= na ->
    ComposeAt c maxQB (mkEng na va) (mkEng nb vb) start r ->
    exists v, r = Ok (mkEng (na + nb) v, start) /\ eqv (na + nb) (vread v) (tensor_at start nb (vread va) (vread vb)).
  Proof.
    intros Hf Ha Hb Hm Hs. assert (Hn : na + nb < 64) by apply Hf. unfold ComposeAt. cbn [e_n e_vec].
    destruct (N.ltb_spec na start); [lia|]. destruct (N.eqb_spec na 0); [lia|].
    destruct (N.eqb_spec nb 0); [lia|]. destruct (N.ltb_spec maxQB (na + nb)); [lia|].
    destruct va as [pa|], vb as [pb|].
    - intros [fresh [m' [HF ->]]]. exists (Some m'). split; auto. intros x Hx. cbn [vread].
      rewrite pow2Ocl_small in HF by lia. rewrite (fill_ok c (na + nb) _ _ _ _ Hf (N.le_refl _) HF x Hx). unfold tensor_at.
      rewrite !pow2MaskOcl_small by lia.
      cbn [vread]. f_equal; f_equal; apply N.bits_inj; intros j.
      + rewrite tb_outside, N.lor_spec, tb_shiftr, !N.land_spec, !tb_ones.
        destruct (N.lt_ge_cases (j + nb) 64) as [Hj|Hj].
        * rewrite not64_bit by auto. rewrite N.lor_spec, tb_ones, bitRegMask_ok by lia.
          destruct (N.ltb_spec j start); destruct (N.ltb_spec (j + nb) start); try lia;
          destruct (N.ltb_spec (j + nb) (na + nb)), (N.leb_spec start (j + nb)), (N.ltb_spec (j + nb) (start + nb)); try lia; cbn [andb orb negb];
          rewrite ?andb_true_r, ?andb_false_r, ?orb_false_r; auto.
          rewrite (tb_high x (na + nb) (j + nb)) by auto. reflexivity.
        * rewrite (tb_high x (na + nb) (j + nb)) by (auto; lia). cbn [andb]. rewrite orb_false_r.
          destruct (N.ltb_spec j start). now rewrite andb_true_r. now rewrite andb_false_r.
      + rewrite tb_get_reg, tb_shiftr, N.land_spec, bitRegMask_ok by lia.
        destruct (N.leb_spec start (j + start)), (N.ltb_spec (j + start) (start + nb)), (N.ltb_spec j nb); try lia; cbn [andb];
        rewrite ?andb_true_r, ?andb_false_r; auto.
    - intros ->. exists None. split; auto. intros x _. cbn [vread]. unfold tensor_at. cbn [vread]. ring.
    - intros ->. exists None. split; auto. intros x _. cbn [vread]. unfold tensor_at. cbn [vread]. ring.
    - intros ->. exists None. split; auto. intros x _. cbn [vread]. unfold tensor_at. cbn [vread]. ring.
  Qed.

  (** At position [na] it is the plain tensor product. *)
  Lemma tensor_at_end na nb (a b : V) x : x < 2 ^ (na + nb) -> tensor_at na nb a b x = tensor na a b x.
  Proof.
    intros Hx. unfold tensor_at, tensor. f_equal; f_equal.
    - unfold outside. rewrite (N.div_small x (2 ^ (na + nb))) by auto. lia.
    - unfold get_reg. apply N.mod_small. apply N.div_lt_upper_bound. apply pow2_nz. rewrite <- N.pow_add_r. auto.
  Qed.

  (** Several operands. *)
  Lemma sum_sizes_ge (srcs : list (N * V)) : forall na, na <= sum_sizes na srcs.
  Proof.
    unfold sum_sizes. induction srcs as [|[k s] t IH]; intros na; simpl. lia. specialize (IH (na + k)). lia.
  Qed.
  Lemma compose_srcs_within srcs lcv : forall off, within2 (fun a => a = lcv) (fun _ => False) (@compose_srcs K off srcs lcv).
  Proof.
    induction srcs as [|[k s] t IH]; intros off; simpl; auto.
  Qed.
  Lemma compose_srcs_ok srcs x : forall off (m : V) a, sum_sizes off srcs < 64 -> x < 2 ^ sum_sizes off srcs ->
    m x = a (x mod 2 ^ off) -> exec (compose_srcs off srcs x) m x = tensor_many off a srcs x.
  Proof.
    induction srcs as [|[k s] t IH]; intros off m a Hs Hx Hm.
    - cbn [compose_srcs exec tensor_many]. rewrite Hm. f_equal. apply N.mod_small. exact Hx.
    - cbn [compose_srcs exec tensor_many].
      change (sum_sizes off ((k, s) :: t)) with (sum_sizes (off + k) t) in Hs, Hx.
      apply IH; auto. rewrite mset_eq, Hm. unfold tensor.
      pose proof (sum_sizes_ge t (off + k)) as Hge. f_equal.
      + f_equal. apply N.bits_inj. intros j. autorewrite with tb. destruct (N.ltb_spec j off), (N.ltb_spec j (off + k)); auto; lia.
      + f_equal. apply N.bits_inj. intros j. rewrite tb_shiftr, N.land_spec. unfold w64. autorewrite with tb.
        replace (j + off - off) with j by lia.
        destruct (N.ltb_spec (j + off) 64), (N.leb_spec off (j + off)), (N.ltb_spec j k), (N.ltb_spec (j + off) (off + k)); cbn [andb]; try lia; rewrite ?andb_true_r, ?andb_false_r; auto.
  Qed.
  Theorem compose_many_ok na (pa : V) srcs n' m' : fits c n' -> ComposeMany c na pa srcs n' m' ->
    n' = sum_sizes na srcs /\ eqv n' m' (tensor_many na pa srcs).
  Proof.
    intros Hf [En [fresh HR]]. split; auto. assert (Hn : n' < 64) by apply Hf. rewrite pow2Ocl_small in HR by auto.
    apply (loop_for_runs c n') in HR; auto; [|lia]. apply runs_cell in HR.
    - destruct HR as [A _]. intros x Hx. rewrite A by auto. cbn [exec]. change (n' = sum_sizes na srcs) in En. apply compose_srcs_ok.
      now rewrite <- En. now rewrite <- En. rewrite mset_eq, land_ones. reflexivity.
    - intros i _. cbn [within2]. split; auto. apply compose_srcs_within.
  Qed.

  (** ** Dispose *)
  Theorem dispose_ok n start len perm (v : option V) r : fits c n -> n < 2 ^ 8 -> start + len <= n -> 0 < len -> perm < 2 ^ len ->
    Dispose c (mkEng n v) start len perm r ->
    exists v', r = Ok (mkEng (if (n - len =? 0) && match v with None => false | _ => true end then 1 else n - len) v') /\ (v' = None <-> v = None) /\
      eqv (n - len) (vread v') (slice start len perm (vread v)).
  Proof.
    intros Hf H8 Hs Hl Hp. assert (Hn : n < 64) by apply Hf. unfold Dispose. cbn [e_n e_vec].
    rewrite isBadBitRange_ok by lia. destruct (N.ltb_spec n (start + len)); [lia|]. destruct (N.eqb_spec len 0); [lia|].
    assert (Hpn : perm < 2 ^ n) by (apply N.lt_le_trans with (2 ^ len); auto; apply pow2_le_mono; lia).
    destruct v as [pa|].
    - intros [fresh [m' [HF ->]]]. exists (Some m'). rewrite andb_true_r. split; auto. split. split; discriminate.
      intros x Hx. cbn [vread]. rewrite !pow2Ocl_small in HF by lia.
      rewrite (fill_ok c (n - len) _ _ _ _ (fits_le _ _ _ Hf (N.le_sub_l n len)) (N.le_refl _) HF x Hx). unfold slice. cbn [vread]. f_equal.
      apply N.bits_inj. intros j. change (x mod 2 ^ start + perm * 2 ^ start + x / 2 ^ start * 2 ^ (start + len)) with (slice_ix start len perm x).
      rewrite tb_slice_ix by auto. rewrite (w64_small perm n) by auto. rewrite land_ones. unfold w64. rewrite !N.lor_spec. autorewrite with tb.
      destruct (N.lt_ge_cases j 64) as [Hj|Hj].
      + destruct (N.ltb_spec j 64); [|lia]. cbn [andb].
        destruct (N.ltb_spec j start), (N.leb_spec len j), (N.ltb_spec (j - len) start), (N.leb_spec start j), (N.ltb_spec j (start + len)); try lia; cbn [andb orb xorb];
        rewrite ?xorb_nilpotent, ?xorb_false_r, ?orb_false_r, ?andb_false_r; auto.
        rewrite (tb_high perm len (j - start)) by (auto; lia). apply orb_false_r.
      + destruct (N.ltb_spec j 64); [lia|]. cbn [andb]. destruct (N.ltb_spec j start); [lia|]. destruct (N.ltb_spec j (start + len)); [lia|].
        cbn [andb orb]. symmetry. apply (tb_high x (n - len)); auto. lia.
    - intros ->. exists None. rewrite andb_false_r. split; auto. split. tauto. intros x _. reflexivity.
  Qed.

  (** Disposing of an inserted basis state. *)
  Lemma slice_tensor s len p (a : V) x : p < 2 ^ len -> slice s len p (tensor_at s len a (ket p)) x = a x.
  Proof.
    intros Hp. unfold slice, tensor_at. fold (slice_ix s len p x). rewrite outside_slice, reg_slice by auto. unfold ket. rewrite N.eqb_refl. ring.
  Qed.
  (** And conversely: a state supported on [p] is recovered by inserting the basis state again. *)
  Lemma tensor_slice s len p (a : V) : p < 2 ^ len -> forall x, (get_reg x s len <> p -> a x = 0%amp) -> tensor_at s len (slice s len p a) (ket p) x = a x.
  Proof.
    intros Hp x Hx. unfold tensor_at, slice. fold (slice_ix s len p (outside x s len)). unfold ket. destruct (N.eqb_spec (get_reg x s len) p) as [<-|E].
    - rewrite slice_outside. ring.
    - rewrite Hx by auto. ring.
  Qed.

  Theorem dispose_inverse n start len perm (pa a : V) r : fits c n -> n < 2 ^ 8 -> start + len <= n -> 0 < len < n -> perm < 2 ^ len ->
    eqv n pa (tensor_at start len a (ket perm)) -> Dispose c (mkEng n (Some pa)) start len perm r ->
    exists m', r = Ok (mkEng (n - len) (Some m')) /\ eqv (n - len) m' a.
  Proof.
    intros Hf H8 Hs Hl Hp HE HD. apply dispose_ok in HD; auto; [|lia]. destruct HD as [v' [-> [Hv E]]].
    destruct (N.eqb_spec (n - len) 0); [lia|]. cbn [andb]. destruct v' as [m'|]; [|exfalso; assert (Some pa = None) by tauto; discriminate].
    exists m'. split; auto. intros x Hx. cbn [vread] in E. rewrite E by auto. transitivity (slice start len perm (tensor_at start len a (ket perm)) x).
    - unfold slice. apply HE. fold (slice_ix start len perm x). replace n with (n - len + len) by lia. apply slice_ix_lt; auto. lia.
    - now apply slice_tensor.
  Qed.
End Compose.
