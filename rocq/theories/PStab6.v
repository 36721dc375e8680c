(** Reading a stabilizer state out of a tableau: the seed, the generated group, uniqueness. *)
From Coq Require Import NArith ZArith List Bool Lia Ring FinFun Permutation.
From Verif Require Import Amp PAmp Bits MFunctions MParFor MQCircuit MEngine MStab SpecState SpecStab PStab1 PStab2 PStab3 PStab4 PStab5 PLoop.
Import ListNotations.
Local Open Scope N_scope.

(** Parity of the common bits of [z] and [y] below [n]. *)
Definition par (n z y : N) : bool := sx (fun j => N.testbit z j && N.testbit y j) (N.to_nat n).
Lemma phi_par n z y : phi n 0 z y mod 4 = (2 * b2n (par n z y)) mod 4.
Proof.
  unfold phi, par. rewrite <- sum_parity. apply sumf_mod4. intros j _. unfold phij, phi1. rewrite N.bits_0, xorb_false_r. cbn [andb b2n]. reflexivity.
Qed.
Lemma par_flip n z y p : p < n -> par n z (N.lxor y (2 ^ p)) = xorb (par n z y) (N.testbit z p).
Proof.
  intros Hp. unfold par. rewrite (sx_upd1 _ (fun j => N.testbit z j && N.testbit y j) _ p).
  - f_equal. rewrite tb_lxor, tb_pow2, N.eqb_refl. destruct (N.testbit z p), (N.testbit y p); reflexivity.
  - lia.
  - intros j _ Hj. rewrite tb_lxor, tb_pow2. replace (p =? j) with false by (symmetry; apply N.eqb_neq; auto). now rewrite xorb_false_r.
Qed.
Lemma par_lxor n z y u : par n z (N.lxor y u) = xorb (par n z y) (par n z u).
Proof. unfold par. rewrite <- sx_xor. apply sx_ext. intros j _. rewrite tb_lxor. destruct (N.testbit z j), (N.testbit y j), (N.testbit u j); reflexivity. Qed.

(** ** seed *)
Definition scan (z xec : N) (k : nat) (st : N * N) : N * N :=
  fold_left (fun (a : N * N) j => if N.testbit z j then (j, if N.testbit xec j then (snd a + 2) mod 4 else snd a) else a) (rev (iota 0 k)) st.
Lemma rev_iota_S k : rev (iota 0 (S k)) = N.of_nat k :: rev (iota 0 k).
Proof. rewrite iota_S, rev_app_distr. reflexivity. Qed.
Lemma scan_min z xec piv k : N.testbit z piv = true -> (forall m, m < piv -> N.testbit z m = false) -> forall st, fst (scan z xec k st) = if piv <? N.of_nat k then piv else fst st.
Proof.
  intros H1 H2. induction k as [|k IH]; intros st; [cbn; destruct (piv <? 0) eqn:E; auto; apply N.ltb_lt in E; lia|]. unfold scan. rewrite rev_iota_S. cbn [fold_left]. fold (scan z xec k).
  change (fold_left _ (rev (iota 0 k)) ?s) with (scan z xec k s). rewrite IH. destruct (N.lt_trichotomy piv (N.of_nat k)) as [L|[L|L]].
  - replace (piv <? N.of_nat k) with true by (symmetry; apply N.ltb_lt; lia). replace (piv <? N.of_nat (S k)) with true by (symmetry; apply N.ltb_lt; lia). reflexivity.
  - subst piv. rewrite N.ltb_irrefl, H1. replace (N.of_nat k <? N.of_nat (S k)) with true by (symmetry; apply N.ltb_lt; lia). reflexivity.
  - rewrite (H2 (N.of_nat k)) by lia. replace (piv <? N.of_nat k) with false by (symmetry; apply N.ltb_ge; lia). replace (piv <? N.of_nat (S k)) with false by (symmetry; apply N.ltb_ge; lia). reflexivity.
Qed.
Lemma scan_sum z xec k : forall st, snd st < 4 -> snd (scan z xec k st) < 4 /\ snd (scan z xec k st) = (snd st + 2 * b2n (sx (fun j => N.testbit z j && N.testbit xec j) k)) mod 4.
Proof.
  induction k as [|k IH]; intros st Hs; [cbn; rewrite N.add_0_r, N.mod_small by auto; auto|]. unfold scan. rewrite rev_iota_S. cbn [fold_left].
  change (fold_left _ (rev (iota 0 k)) ?s) with (scan z xec k s). cbn [sx].
  set (s1 := if N.testbit z (N.of_nat k) then _ else st).
  assert (S1 : snd s1 < 4 /\ snd s1 = (snd st + 2 * b2n (N.testbit z (N.of_nat k) && N.testbit xec (N.of_nat k))) mod 4).
  { unfold s1. destruct (N.testbit z (N.of_nat k)), (N.testbit xec (N.of_nat k)); cbn [snd andb b2n]; rewrite ?N.add_0_r; split; auto; try (now rewrite N.mod_small); apply N.mod_lt; lia. }
  clearbody s1. destruct S1 as [A B]. destruct (IH s1 A) as [C D]. split; auto. rewrite D, B. clear. set (b := sx _ k). clearbody b.
  destruct b, (N.testbit z (N.of_nat k) && N.testbit xec (N.of_nat k)); cbn [xorb b2n]; generalize (snd st); intros; mlia.
Qed.
Definition sat (n : N) (w : row) (xec : N) : Prop := (rr w + 2 * b2n (par n (rz w) xec)) mod 4 = 0.
Lemma seed_row_spec n w xec mn piv : lead rz w piv -> piv < n -> rr w < 4 -> rr w mod 2 = 0 -> xec < 2 ^ n ->
  let xec' := fst (seed_row n w (xec, mn)) in sat n w xec' /\ xec' < 2 ^ n /\ (xec' = xec \/ xec' = N.lxor xec (2 ^ piv)).
Proof.
  intros [L1 L2] Hp Hr He Hx. unfold seed_row. fold (scan (rz w) xec (N.to_nat n) (mn, rr w)).
  assert (A := scan_min (rz w) xec piv (N.to_nat n) L1 L2 (mn, rr w)). destruct (scan_sum (rz w) xec (N.to_nat n) (mn, rr w) Hr) as [B C]. fold (par n (rz w) xec) in C. cbn [snd] in C.
  destruct (scan (rz w) xec (N.to_nat n) (mn, rr w)) as [mn' f]. cbn [fst snd] in *. rewrite N2Nat.id in A. replace (piv <? n) with true in A by (symmetry; now apply N.ltb_lt). subst mn'.
  destruct (N.eqb_spec f 2) as [E|E].
  - split; [|split]; auto.
    + unfold sat. rewrite par_flip, L1 by auto. rewrite E in C. clear - C. destruct (par n (rz w) xec); cbn [xorb b2n] in *; revert C; generalize (rr w); intros; mlia.
    + apply lxor_lt_pow2; auto. apply N.pow_lt_mono_r; lia.
  - split; [|split]; auto. unfold sat. assert (f mod 2 = 0) by (rewrite C; clear - He; destruct (par n (rz w) xec); cbn [b2n]; revert He; generalize (rr w); intros; mlia).
    clear - C B E H. rewrite <- C. assert (f = 0 \/ f = 1 \/ f = 3) by lia. destruct H0 as [H0|[H0|H0]]; auto; rewrite H0 in H; discriminate.
Qed.

(** All Z-type rows accept the seed. *)
Lemma seed_spec T g : valid T -> reduced_form T g -> rx (seed T g) < 2 ^ t_n T /\ forall a, g <= a -> a < t_n T -> sat (t_n T) (t_row T (t_n T + a)) (rx (seed T g)).
Proof.
  intros V R. destruct (rf_z T g R) as (piv & P1 & P2). set (n := t_n T) in *.
  assert (Q : forall k a, g <= a -> a + N.of_nat k <= n ->
    let st := fold_left (fun st i => seed_row n (t_row T i) st) (rev (iota (n + a) k)) (0, 0) in
    fst st < 2 ^ n /\ forall b, a <= b -> b < a + N.of_nat k -> sat n (t_row T (n + b)) (fst st)).
  { induction k as [|k IH]; intros a Ha Hk; cbn [iota rev fold_left].
    - split; [apply pow2_pos|]. intros; lia.
    - rewrite fold_left_app. cbn [fold_left]. replace (n + a + 1) with (n + (a + 1)) by lia. destruct (IH (a + 1) ltac:(lia) ltac:(lia)) as [A B]. set (st := fold_left _ (rev (iota (n + (a + 1)) k)) (0, 0)) in *. clearbody st. destruct st as [xec mn]. cbn [fst] in A, B.
      destruct (P1 a Ha ltac:(lia)) as [L Lp]. destruct (seed_row_spec n (t_row T (n + a)) xec mn (piv a) L Lp) as (C1 & C2 & C3); auto; [apply V; unfold n; lia|apply V; unfold n; lia|].
      split; auto. intros b Hb Hb2. destruct (N.eq_dec b a) as [->|Hn]; auto. specialize (B b ltac:(lia) ltac:(lia)). destruct C3 as [->|C3]; auto. rewrite C3. unfold sat. rewrite par_flip by auto.
      destruct (P1 b ltac:(lia) ltac:(lia)) as [[_ L2] _]. rewrite (L2 (piv a)) by (apply P2; lia). now rewrite xorb_false_r. }
  destruct (Q (N.to_nat (n - g)) g ltac:(lia) ltac:(assert (G := rf_g T g R); unfold n in *; lia)) as [A B]. unfold seed. fold n. cbn [rx]. split; auto. intros a Ha Ha2. apply B; auto. assert (G := rf_g T g R). unfold n in *. lia.
Qed.

(** ** The rows span everything *)
Lemma spanning T v : valid T -> fitrow (t_n T) v -> exists c, rx v = rx (comb T c (N.to_nat (2 * t_n T))) /\ rz v = rz (comb T c (N.to_nat (2 * t_n T))).
Proof.
  intros V Fv. set (n := t_n T) in *. set (K2 := N.to_nat (2 * n)).
  assert (CP : forall c j, j < 2 * n -> sym n (comb T c K2) (t_row T (partner n j)) = N.testbit c j).
  { intros c j Hj. assert (A := comb_pair T c K2 j V (le_n _) Hj). fold n in A. rewrite A. replace (j <? N.of_nat K2) with true by (symmetry; apply N.ltb_lt; unfold K2; lia). apply andb_true_r. }
  assert (P : forall k, (k <= K2)%nat -> exists c, fitrow n (comb T c K2) /\ forall j, j < N.of_nat k -> sym n (comb T c K2) (t_row T (partner n j)) = sym n v (t_row T (partner n j))).
  { induction k as [|k IH]; intros Hk; [exists 0; split; [now apply comb_fit|intros; lia]|]. destruct (IH ltac:(lia)) as (c & F & H).
    exists (setb c (N.of_nat k) (sym n v (t_row T (partner n (N.of_nat k))))). split; [now apply comb_fit|]. intros j Hj.
    rewrite CP by (unfold K2 in Hk; lia). rewrite tb_setb.
    destruct (N.eqb_spec (N.of_nat k) j) as [->|E]; auto. rewrite <- H by lia. rewrite CP by (unfold K2 in Hk; lia). reflexivity. }
  destruct (P K2 (le_n _)) as (c & F & H). exists c. destruct (nondegenerate T (row_mul n v (comb T c K2)) V (fitrow_mul _ _ _ Fv F)) as [A B].
  - intros i Hi. fold n in Hi. fold n. rewrite sym_mul_l. replace i with (partner n (partner n i)).
    + rewrite H; [apply xorb_nilpotent|]. assert (L := partner_lt n i Hi). unfold K2. lia.
    + unfold partner. destruct (N.ltb_spec i n) as [L|L]; [replace (i + n <? n) with false by (symmetry; apply N.ltb_ge; lia); lia|replace (i - n <? n) with true by (symmetry; apply N.ltb_lt; lia); lia].
  - cbn [row_mul rx rz] in A, B. apply N.lxor_eq in A, B. auto.
Qed.

(** A vector commuting with all stabilizers is a product of stabilizers: its x part is a sum of the x parts of the
    first g of them. *)
Fixpoint xsum (T : tab) (c : N) (k : nat) : N := match k with O => 0 | S j => if N.testbit c (N.of_nat j) then N.lxor (xsum T c j) (rx (t_row T (t_n T + N.of_nat j))) else xsum T c j end.
Lemma comb_low T c k : (forall j, j < N.of_nat k -> N.testbit c j = false) -> comb T c k = row0.
Proof. induction k as [|k IH]; intros H; cbn [comb]; [reflexivity|]. rewrite H by lia. apply IH. intros j Hj. apply H. lia. Qed.
Lemma comb_x T c : (forall j, j < t_n T -> N.testbit c j = false) -> forall k, rx (comb T c (N.to_nat (t_n T) + k)) = xsum T (N.shiftr c (t_n T)) k.
Proof.
  intros H. induction k as [|k IH].
  - rewrite Nat.add_0_r. rewrite comb_low by (intros j Hj; apply H; lia). reflexivity.
  - replace (N.to_nat (t_n T) + S k)%nat with (S (N.to_nat (t_n T) + k)) by lia. cbn [comb xsum]. rewrite N.shiftr_spec' . replace (N.of_nat (N.to_nat (t_n T) + k)) with (N.of_nat k + t_n T) by lia.
    destruct (N.testbit c (N.of_nat k + t_n T)); auto. cbn [row_mul rx]. rewrite IH. rewrite (N.add_comm (N.of_nat k)). reflexivity.
Qed.
Lemma xsum_g T c g k : (forall a, g <= a -> a < t_n T -> rx (t_row T (t_n T + a)) = 0) -> (k <= N.to_nat (t_n T - g))%nat -> xsum T c (N.to_nat g + k) = xsum T c (N.to_nat g).
Proof.
  intros H. induction k as [|k IH]; intros Hk; [now rewrite Nat.add_0_r|]. replace (N.to_nat g + S k)%nat with (S (N.to_nat g + k)) by lia. cbn [xsum].
  rewrite H, N.lxor_0_r by lia. destruct (N.testbit c _); apply IH; lia.
Qed.
Lemma commutant T g v : valid T -> reduced_form T g -> fitrow (t_n T) v -> (forall p, p < t_n T -> sym (t_n T) v (t_row T (t_n T + p)) = false) ->
  exists c, rx v = xsum T c (N.to_nat g).
Proof.
  intros V R Fv H. destruct (spanning T v V Fv) as (c & E1 & E2). exists (N.shiftr c (t_n T)). rewrite E1.
  assert (C0 : forall j, j < t_n T -> N.testbit c j = false).
  { intros j Hj. assert (A := comb_pair T c (N.to_nat (2 * t_n T)) j V ltac:(lia) ltac:(lia)). replace (j <? N.of_nat (N.to_nat (2 * t_n T))) with true in A by (symmetry; apply N.ltb_lt; lia). rewrite andb_true_r in A. rewrite <- A.
    rewrite (sym_masks _ _ v) by auto. unfold partner. replace (j <? t_n T) with true by (symmetry; now apply N.ltb_lt). rewrite N.add_comm. now apply H. }
  replace (N.to_nat (2 * t_n T)) with (N.to_nat (t_n T) + N.to_nat (t_n T))%nat by lia. rewrite comb_x by auto.
  assert (G := rf_g T g R). replace (N.to_nat (t_n T)) with (N.to_nat g + N.to_nat (t_n T - g))%nat at 1 by lia. apply xsum_g; [apply R|lia].
Qed.

(** Back substitution: a z mask with given parities against rows in echelon form. *)
Lemma solve_z (X : N -> N) (piv : N -> N) (b : N -> bool) n g : (forall a, a < g -> N.testbit (X a) (piv a) = true /\ (forall m, m < piv a -> N.testbit (X a) m = false) /\ piv a < n) ->
  (forall a c, a < c -> c < g -> piv a < piv c) -> exists z, z < 2 ^ n /\ forall a, a < g -> par n (X a) z = b a.
Proof.
  intros P1 P2. assert (Q : forall k, (k <= N.to_nat g)%nat -> exists z, z < 2 ^ n /\ forall a, g - N.of_nat k <= a -> a < g -> par n (X a) z = b a).
  { induction k as [|k IH]; intros Hk; [exists 0; split; [apply pow2_pos|intros; lia]|]. destruct (IH ltac:(lia)) as (z & Hz & H). set (a0 := g - N.of_nat (S k)).
    destruct (P1 a0 ltac:(unfold a0; lia)) as (A1 & A2 & A3).
    destruct (Bool.bool_dec (par n (X a0) z) (b a0)) as [E|E].
    - exists z. split; auto. intros a Ha Ha2. destruct (N.eq_dec a a0) as [->|Hn]; auto. apply H; auto. unfold a0 in *. lia.
    - exists (N.lxor z (2 ^ piv a0)). split; [apply lxor_lt_pow2; auto; apply N.pow_lt_mono_r; lia|]. intros a Ha Ha2. rewrite par_flip by auto. destruct (N.eq_dec a a0) as [->|Hn].
      + rewrite A1. destruct (par n (X a0) z), (b a0); auto; congruence.
      + destruct (P1 a Ha2) as (B1 & B2 & B3). rewrite (B2 (piv a0)) by (apply P2; unfold a0 in *; lia). rewrite xorb_false_r. apply H; auto. unfold a0 in *. lia. }
  destruct (Q (N.to_nat g) (le_n _)) as (z & Hz & H). exists z. split; auto. intros a Ha. apply H; auto. lia.
Qed.
Lemma sym_par n w v : sym n w v = xorb (par n (rx w) (rz v)) (par n (rz w) (rx v)).
Proof. unfold sym, par. rewrite <- sx_xor. apply sx_ext. intros j _. reflexivity. Qed.
Lemma par_comm n a b : par n a b = par n b a. Proof. unfold par. apply sx_ext. intros j _. apply andb_comm. Qed.
Lemma par_0 n a : par n 0 a = false. Proof. unfold par. apply sx_false. intros j _. rewrite N.bits_0. reflexivity. Qed.

(** The basis states accepted by all Z-type rows are the seed shifted by sums of x parts. *)
Lemma orbit T g y : valid T -> reduced_form T g -> y < 2 ^ t_n T -> (forall a, g <= a -> a < t_n T -> sat (t_n T) (t_row T (t_n T + a)) y) ->
  exists c, y = N.lxor (rx (seed T g)) (xsum T c (N.to_nat g)).
Proof.
  intros V R Hy Hs. destruct (seed_spec T g V R) as [S1 S2]. set (s := rx (seed T g)) in *. set (n := t_n T) in *. set (u := N.lxor y s).
  assert (Hu : u < 2 ^ n) by (apply lxor_lt_pow2; auto).
  assert (Pu : forall a, g <= a -> a < n -> par n (rz (t_row T (n + a))) u = false).
  { intros a Ha Ha2. unfold u. rewrite par_lxor. assert (A := Hs a Ha Ha2). assert (B := S2 a Ha Ha2). unfold sat in A, B. clear - A B. destruct (par n _ y), (par n _ s); auto; exfalso; revert A B; cbn [b2n]; generalize (rr (t_row T (n + a))); intros; mlia. }
  destruct (rf_x T g R) as (piv & P1 & P2). destruct (solve_z (fun a => rx (t_row T (n + a))) piv (fun a => par n (rz (t_row T (n + a))) u) n g) as (z & Hz & HZ).
  - intros a Ha. destruct (P1 a Ha) as [[L1 L2] L3]. auto.
  - auto.
  - destruct (commutant T g (mkRow u z 0) V R (conj Hu Hz)) as (c & Ec).
    + intros p Hp. fold n in Hp. fold n. rewrite sym_par. cbn [rx rz]. rewrite (par_comm n u), (par_comm n z). destruct (N.lt_ge_cases p g) as [L|L].
      * rewrite HZ by auto. apply xorb_nilpotent.
      * rewrite Pu by auto. rewrite (rf_x0 T g R) by auto. now rewrite par_0.
    + exists c. cbn [rx] in Ec. rewrite <- Ec. unfold u. rewrite (N.lxor_comm y), <- N.lxor_assoc, N.lxor_nilpotent. now rewrite N.lxor_0_l.
Qed.

(** Distinct coefficient vectors give distinct sums. *)
Lemma xsum_zero T c k : (forall j, j < N.of_nat k -> N.testbit c j = false) -> xsum T c k = 0.
Proof. induction k as [|k IH]; intros H; cbn [xsum]; [reflexivity|]. rewrite H by lia. apply IH. intros j Hj. apply H. lia. Qed.
Lemma xsum_inj0 T g c : reduced_form T g -> xsum T c (N.to_nat g) = 0 -> forall j, j < g -> N.testbit c j = false.
Proof.
  intros R. destruct (rf_x T g R) as (piv & P1 & P2).
  assert (Q : forall k, (k <= N.to_nat g)%nat -> forall i, i < N.of_nat k -> N.testbit c i = true -> (forall j, j < i -> N.testbit c j = false) -> N.testbit (xsum T c k) (piv i) = true).
  { induction k as [|k IH]; intros Hk i Hi H1 H2; [lia|]. cbn [xsum]. destruct (N.eq_dec i (N.of_nat k)) as [->|Hn].
    - rewrite H1, tb_lxor. rewrite (xsum_zero T c k) by auto. rewrite N.bits_0. rewrite (proj1 (proj1 (P1 (N.of_nat k) ltac:(lia)))). reflexivity.
    - assert (A := IH ltac:(lia) i ltac:(lia) H1 H2). destruct (N.testbit c (N.of_nat k)); auto. rewrite tb_lxor, A. destruct (P1 (N.of_nat k) ltac:(lia)) as [[_ L] _]. rewrite L by (apply P2; lia). reflexivity. }
  intros E. apply (well_founded_induction N.lt_wf_0 (fun j => j < g -> N.testbit c j = false)). intros j IH Hj. destruct (N.testbit c j) eqn:F; auto. exfalso.
  assert (A := Q (N.to_nat g) (le_n _) j ltac:(lia) F ltac:(intros m Hm; apply IH; lia)). rewrite E, N.bits_0 in A. discriminate.
Qed.
Lemma xsum_lxor T c d k : xsum T (N.lxor c d) k = N.lxor (xsum T c k) (xsum T d k).
Proof.
  induction k as [|k IH]; cbn [xsum]; [reflexivity|]. rewrite tb_lxor, IH. set (w := rx (t_row T (t_n T + N.of_nat k))).
  apply N.bits_inj. intros m. destruct (N.testbit c (N.of_nat k)), (N.testbit d (N.of_nat k)); cbn [xorb]; rewrite !tb_lxor; destruct (N.testbit (xsum T c k) m), (N.testbit (xsum T d k) m), (N.testbit w m); reflexivity.
Qed.
Lemma xsum_inj T g c d : reduced_form T g -> xsum T c (N.to_nat g) = xsum T d (N.to_nat g) -> forall j, j < g -> N.testbit c j = N.testbit d j.
Proof.
  intros R E j Hj. assert (A := xsum_inj0 T g (N.lxor c d) R). rewrite xsum_lxor, E, N.lxor_nilpotent in A. specialize (A eq_refl j Hj). rewrite tb_lxor in A. destruct (N.testbit c j), (N.testbit d j); auto; discriminate.
Qed.

(** ** The state *)
Section K.
  Context {K : StarRing}.
  Add Ring KrAI : (sr_ring K).
  Variable im : K.
  Hypothesis Him : (im * im = - (1))%amp.
  Local Notation vec := (N -> K).
  Local Notation stab := (stab im). Local Notation rop := (rop im). Local Notation ph := (ph im). Local Notation good := (good im).

  Lemma rop_pext n w (a b : vec) : fitrow n w -> (forall y, a y = b y) -> forall y, rop n w a y = rop n w b y.
  Proof. intros F H y. rewrite !(rop_closed im Him) by auto. now rewrite H. Qed.

  (** Apply the stabilizers chosen by the bits of [c], the lowest first. *)
  Fixpoint ops (T : tab) (c : N) (k : nat) (psi : vec) : vec :=
    match k with O => psi | S j => if N.testbit c (N.of_nat j) then rop (t_n T) (t_row T (t_n T + N.of_nat j)) (ops T c j psi) else ops T c j psi end.
  Lemma S_fit T p : valid T -> p < t_n T -> fitrow (t_n T) (t_row T (t_n T + p)).
  Proof. intros V Hp. apply valid_fit; auto. lia. Qed.
  Lemma ops_pext T c k a b : valid T -> N.of_nat k <= t_n T -> (forall y, a y = b y) -> forall y, ops T c k a y = ops T c k b y.
  Proof.
    intros V. induction k as [|k IH]; intros Hk H y; cbn [ops]; auto. destruct (N.testbit c (N.of_nat k)); [|apply IH; auto; lia]. apply rop_pext; [apply S_fit; auto; lia|]. apply IH; auto. lia.
  Qed.
  Lemma rop_commute T p q psi y : valid T -> p < t_n T -> q < t_n T ->
    rop (t_n T) (t_row T (t_n T + p)) (rop (t_n T) (t_row T (t_n T + q)) psi) y = rop (t_n T) (t_row T (t_n T + q)) (rop (t_n T) (t_row T (t_n T + p)) psi) y.
  Proof.
    intros V Hp Hq. rewrite (rop_comm im Him) by (apply S_fit; auto). rewrite (proj1 (proj2 (proj2 V))), pat_f by lia. cbn [b2n]. change (2 * 0) with 0. rewrite ph_0. ring.
  Qed.
  Lemma rop_ops T p c k psi : valid T -> p < t_n T -> N.of_nat k <= t_n T -> forall y,
    rop (t_n T) (t_row T (t_n T + p)) (ops T c k psi) y = ops T c k (rop (t_n T) (t_row T (t_n T + p)) psi) y.
  Proof.
    intros V Hp. induction k as [|k IH]; intros Hk y; cbn [ops]; [reflexivity|]. destruct (N.testbit c (N.of_nat k)); [|apply IH; lia].
    rewrite rop_commute by (auto; lia). apply rop_pext; [apply S_fit; auto; lia|]. intros u. apply IH. lia.
  Qed.
  (** One more stabilizer: flip the coefficient. *)
  Lemma ops_flip T p c k psi : valid T -> N.of_nat k <= t_n T -> p < N.of_nat k -> forall y,
    rop (t_n T) (t_row T (t_n T + p)) (ops T c k psi) y = ops T (N.lxor c (2 ^ p)) k psi y.
  Proof.
    intros V. induction k as [|k IH]; intros Hk Hp y; [lia|]. cbn [ops]. rewrite tb_lxor, tb_pow2. destruct (N.eq_dec p (N.of_nat k)) as [->|Hn].
    - assert (E : forall u, ops T (N.lxor c (2 ^ N.of_nat k)) k psi u = ops T c k psi u).
      { assert (G : forall i, (i <= k)%nat -> forall u, ops T (N.lxor c (2 ^ N.of_nat k)) i psi u = ops T c i psi u).
        { induction i as [|i IHi]; intros Hi u; cbn [ops]; [reflexivity|]. rewrite tb_lxor, tb_pow2. replace (N.of_nat k =? N.of_nat i) with false by (symmetry; apply N.eqb_neq; lia). rewrite xorb_false_r.
          destruct (N.testbit c (N.of_nat i)); [|apply IHi; lia]. apply rop_pext; [apply S_fit; auto; lia|]. apply IHi. lia. }
        apply G. lia. }
      rewrite N.eqb_refl. destruct (N.testbit c (N.of_nat k)); cbn [xorb].
      + rewrite (rop_even im Him) by (first [apply S_fit; auto; lia|apply V; lia]). symmetry. apply E.
      + apply rop_pext; [apply S_fit; auto; lia|]. intros u. symmetry. apply E.
    - replace (p =? N.of_nat k) with false by (symmetry; apply N.eqb_neq; auto). rewrite xorb_false_r. destruct (N.testbit c (N.of_nat k)); [|apply IH; lia].
      rewrite rop_commute by (auto; lia). apply rop_pext; [apply S_fit; auto; lia|]. intros u. apply IH; lia.
  Qed.
  (** Closed form: a phase and a shift by the sum of the x parts. *)
  Lemma ops_shift T c k psi psi' y : valid T -> N.of_nat k <= t_n T -> psi (N.lxor y (xsum T c k)) = psi' (N.lxor y (xsum T c k)) -> ops T c k psi y = ops T c k psi' y.
  Proof.
    intros V. revert y. induction k as [|k IH]; intros y Hk H; cbn [ops xsum] in *; [rewrite N.lxor_0_r in H; exact H|]. destruct (N.testbit c (N.of_nat k)); [|apply IH; auto; lia].
    rewrite !(rop_closed im Him) by (apply S_fit; auto; lia). f_equal. apply IH; [lia|]. rewrite N.lxor_assoc, (N.lxor_comm (rx _) (xsum T c k)). exact H.
  Qed.
  Lemma ops_scale T c k (a : K) psi y : valid T -> N.of_nat k <= t_n T -> ops T c k (fun u => (a * psi u)%amp) y = (a * ops T c k psi y)%amp.
  Proof.
    intros V. revert y. induction k as [|k IH]; intros y Hk; cbn [ops]; [reflexivity|]. destruct (N.testbit c (N.of_nat k)); [|apply IH; lia].
    rewrite !(rop_closed im Him) by (apply S_fit; auto; lia). rewrite IH by lia. ring.
  Qed.
  Lemma ops_good T c k psi : valid T -> N.of_nat k <= t_n T -> good T psi -> eqv (t_n T) (ops T c k psi) psi.
  Proof.
    intros V. induction k as [|k IH]; intros Hk G y Hy; cbn [ops]; [reflexivity|]. destruct (N.testbit c (N.of_nat k)); [|apply IH; auto; lia].
    rewrite (rop_ext im Him (t_n T) _ _ psi (S_fit T (N.of_nat k) V ltac:(lia)) (IH ltac:(lia) G) y Hy). apply (G (N.of_nat k)); auto. lia.
  Qed.
  (** A state vanishes where some Z-type row says so. *)
  Hypothesis tors : forall a : K, (a + a = 0)%amp -> a = 0%amp.
  Lemma sat_zero n w psi y : fitrow n w -> rx w = 0 -> rr w mod 2 = 0 -> y < 2 ^ n -> stab n w psi -> ~ sat n w y -> psi y = 0%amp.
  Proof.
    intros F Hx He Hy S Hs. assert (A := S y Hy). change (rop n w psi y = psi y) in A. rewrite (rop_closed im Him) in A by auto. rewrite Hx, N.lxor_0_r in A.
    rewrite (ph_eq im Him _ 2) in A; [rewrite (ph_2 im Him) in A|].
    - apply tors. transitivity (psi y + - (1) * psi y)%amp; [now rewrite A|ring].
    - assert (P := phi_par n (rz w) y). unfold sat in Hs. clear - P Hs He. revert P Hs. generalize (phi n 0 (rz w) y). intros f P Hs. destruct (par n (rz w) y); cbn [b2n] in *; revert P Hs He; generalize (rr w); intros; mlia.
  Qed.
  Lemma sat_ket n w y : fitrow n w -> rx w = 0 -> sat n w y -> forall u, rop n w (ket y) u = ket y u.
  Proof.
    intros F Hx Hs u. rewrite (rop_closed im Him) by auto. rewrite Hx, N.lxor_0_r. unfold ket. destruct (N.eqb_spec u y) as [->|E]; [|ring]. rewrite (ph_eq im Him _ 0), ph_0; [ring|].
    assert (P := phi_par n (rz w) y). unfold sat in Hs. clear - P Hs. revert P Hs. generalize (phi n 0 (rz w) y). intros f P Hs. destruct (par n (rz w) y); cbn [b2n] in *; revert P Hs; generalize (rr w); intros; mlia.
  Qed.

  (** The state of a reduced tableau: the sum over the group of the images of the seed. *)
  Definition span_state (T : tab) (g : N) : vec := fun y => asum (fun c => ops T c (N.to_nat g) (ket (rx (seed T g))) y) (basis g).
  Lemma rop_asum n w (F : N -> vec) l y : fitrow n w -> rop n w (fun u => asum (fun c => F c u) l) y = asum (fun c => rop n w (F c) y) l.
  Proof.
    intros Fw. rewrite (rop_closed im Him) by auto. rewrite <- (asum_scale K). apply (asum_ext K). intros c _. now rewrite (rop_closed im Him).
  Qed.
  Theorem span_good T g : valid T -> reduced_form T g -> good T (span_state T g).
  Proof.
    intros V R p Hp y Hy. change (rop (t_n T) (t_row T (t_n T + p)) (span_state T g) y = span_state T g y). assert (G := rf_g T g R). unfold span_state at 1. rewrite rop_asum by now apply S_fit.
    destruct (N.lt_ge_cases p g) as [L|L].
    - unfold span_state. rewrite <- (asum_perm K _ _ _ (flip_perm g (2 ^ p) ltac:(apply N.pow_lt_mono_r; lia))). rewrite (asum_map K). apply (asum_ext K). intros c _. etransitivity; [apply ops_flip; auto; lia|]. rewrite N.lxor_assoc, N.lxor_nilpotent, N.lxor_0_r. reflexivity.
    - apply (asum_ext K). intros c _. rewrite rop_ops by (auto; lia). apply ops_pext; auto; [lia|]. apply sat_ket; [now apply S_fit|apply R; auto|]. now apply seed_spec.
  Qed.
  Lemma ops_ket T g c y : valid T -> reduced_form T g -> y <> N.lxor (rx (seed T g)) (xsum T c (N.to_nat g)) -> ops T c (N.to_nat g) (ket (rx (seed T g))) y = 0%amp.
  Proof.
    intros V R H. assert (G := rf_g T g R). transitivity (ops T c (N.to_nat g) (fun u => (0 * ket (rx (seed T g)) u)%amp) y); [|rewrite ops_scale by (auto; lia); ring].
    apply ops_shift; auto; [lia|]. unfold ket. destruct (N.eqb_spec (N.lxor y (xsum T c (N.to_nat g))) (rx (seed T g))) as [E|E]; [|ring]. exfalso. apply H. rewrite <- E, N.lxor_assoc, N.lxor_nilpotent. now rewrite N.lxor_0_r.
  Qed.
  (** In the sum at most one term contributes. *)
  Lemma asum_one {A} (f : A -> K) (l : list A) a : NoDup l -> In a l -> (forall b, In b l -> b <> a -> f b = 0%amp) -> asum f l = f a.
  Proof.
    induction l as [|x l IH]; intros ND; [intros []|]. intros [->|Hin] H; inversion ND as [|? ? Hn ND']; subst; cbn [asum].
    - rewrite (asum_zero K) by (intros b Hb; apply H; [now right|intros ->; contradiction]). ring.
    - rewrite IH; auto; [|intros b Hb; apply H; now right]. rewrite (H x); [ring|now left|intros ->; contradiction].
  Qed.
  Lemma span_at T g c : valid T -> reduced_form T g -> c < 2 ^ g ->
    span_state T g (N.lxor (rx (seed T g)) (xsum T c (N.to_nat g))) = ops T c (N.to_nat g) (ket (rx (seed T g))) (N.lxor (rx (seed T g)) (xsum T c (N.to_nat g))).
  Proof.
    intros V R Hc. unfold span_state. apply (asum_one (fun c0 => ops T c0 (N.to_nat g) (ket (rx (seed T g))) _) (basis g) c (basis_NoDup g)); [now apply basis_In|].
    intros d Hd Hn. apply basis_In in Hd. apply ops_ket; auto. intros E. apply (f_equal (N.lxor (rx (seed T g)))) in E. rewrite <- !N.lxor_assoc, N.lxor_nilpotent, !N.lxor_0_l in E.
    apply Hn. symmetry. apply (bits_inj_below g); auto. intros j Hj. now apply (xsum_inj T g c d R E).
  Qed.
  Lemma span_seed T g : valid T -> reduced_form T g -> span_state T g (rx (seed T g)) = 1%amp.
  Proof.
    intros V R. assert (A := span_at T g 0 V R (pow2_pos g)). rewrite xsum_zero in A by (intros; apply N.bits_0). rewrite N.lxor_0_r in A. rewrite A.
    assert (O : forall k y, ops T 0 k (ket (rx (seed T g))) y = ket (rx (seed T g)) y) by (induction k as [|k IH]; intros y; cbn [ops]; auto). rewrite O. unfold ket. now rewrite N.eqb_refl.
  Qed.
  (** The tableau determines the state up to a factor. *)
  Theorem span_unique T g psi : valid T -> reduced_form T g -> good T psi -> eqv (t_n T) psi (fun y => (psi (rx (seed T g)) * span_state T g y)%amp).
  Proof.
    intros V R G y Hy. assert (Hg := rf_g T g R).
    destruct (List.existsb (fun a => negb ((rr (t_row T (t_n T + a)) + 2 * b2n (par (t_n T) (rz (t_row T (t_n T + a))) y)) mod 4 =? 0)) (iota g (N.to_nat (t_n T - g)))) eqn:E.
    - apply existsb_exists in E. destruct E as (a & Ha & E). apply in_iota in Ha. apply negb_true_iff, N.eqb_neq in E.
      assert (Z : forall phi, good T phi -> phi y = 0%amp).
      { intros f Gf. apply (sat_zero (t_n T) (t_row T (t_n T + a))); auto; [apply S_fit; auto; lia|apply R; lia|apply V; lia|apply Gf; lia]. }
      rewrite (Z psi G), (Z _ (span_good T g V R)). ring.
    - destruct (orbit T g y V R Hy) as (c0 & Ec0).
      { intros a Ha Ha2. unfold sat. apply not_true_iff_false in E. destruct (N.eq_dec ((rr (t_row T (t_n T + a)) + 2 * b2n (par (t_n T) (rz (t_row T (t_n T + a))) y)) mod 4) 0) as [Z|Z]; auto. exfalso. apply E. apply existsb_exists. exists a. split; [apply in_iota; lia|]. apply negb_true_iff. now apply N.eqb_neq. }
      set (c := c0 mod 2 ^ g). assert (Hc : c < 2 ^ g) by (apply N.mod_lt, pow2_nz). assert (Ec : y = N.lxor (rx (seed T g)) (xsum T c (N.to_nat g))).
      { rewrite Ec0. f_equal. assert (X : forall k, N.of_nat k <= g -> xsum T c0 k = xsum T c k); [|apply X; lia]. induction k as [|k IH]; intros Hk; cbn [xsum]; [reflexivity|]. unfold c at 1. rewrite tb_mod2. replace (N.of_nat k <? g) with true by (symmetry; apply N.ltb_lt; lia). cbn [andb]. rewrite IH by lia. reflexivity. }
      transitivity (psi (rx (seed T g)) * ops T c (N.to_nat g) (ket (rx (seed T g))) y)%amp; [|rewrite Ec; rewrite span_at by auto; reflexivity].
      rewrite <- ops_scale by (auto; lia). transitivity (ops T c (N.to_nat g) psi y); [symmetry; apply (ops_good T c (N.to_nat g) psi V ltac:(lia) G y Hy)|].
      apply ops_shift; auto; [lia|]. rewrite Ec, N.lxor_assoc, N.lxor_nilpotent, N.lxor_0_r. unfold ket. rewrite N.eqb_refl. ring.
  Qed.

  (** ** The rows walked by the code *)
  Lemma rop_next T g t w psi : valid T -> g <= t_n T -> fitrow (t_n T) w -> forall k, N.of_nat k <= g ->
    let w' := fold_left (fun w i => if N.testbit (N.lxor t (t + 1)) i then row_mul (t_n T) w (t_row T (t_n T + i)) else w) (iota 0 k) w in
    fitrow (t_n T) w' /\ forall y, rop (t_n T) w' psi y = ops T (N.lxor t (t + 1)) k (rop (t_n T) w psi) y.
  Proof.
    intros V Hg Fw. induction k as [|k IH]; intros Hk; [split; [exact Fw|reflexivity]|]. cbv zeta in *. rewrite iota_S, fold_left_app. destruct (IH ltac:(lia)) as [A B]. cbn [fold_left ops]. rewrite N.add_0_l.
    destruct (N.testbit (N.lxor t (t + 1)) (N.of_nat k)); auto. split; [apply fitrow_mul; auto; apply S_fit; auto; lia|].
    intros y. rewrite (rowmul_op im Him) by (auto; apply S_fit; auto; lia). apply rop_pext; [apply S_fit; auto; lia|exact B].
  Qed.
  Lemma ops_ops T c d k psi : valid T -> N.of_nat k <= t_n T -> forall y, ops T c k (ops T d k psi) y = ops T (N.lxor c d) k psi y.
  Proof.
    intros V. induction k as [|k IH]; intros Hk y; cbn [ops]; [reflexivity|]. rewrite tb_lxor. assert (FS := S_fit T (N.of_nat k) V ltac:(lia)).
    destruct (N.testbit c (N.of_nat k)), (N.testbit d (N.of_nat k)); cbn [xorb].
    - rewrite rop_ops by (auto; lia). rewrite <- IH by lia. apply ops_pext; auto; [lia|]. intros u. rewrite (rop_even im Him); auto. apply V; lia.
    - apply rop_pext; auto. intros u. apply IH. lia.
    - rewrite <- rop_ops by (auto; lia). apply rop_pext; auto. intros u. apply IH. lia.
    - apply IH. lia.
  Qed.
  Lemma amp_rows_ops T g psi : valid T -> g <= t_n T -> forall k t w, fitrow (t_n T) w ->
    forall i, (i <= k)%nat -> exists v, nth_error (amp_rows T g t k w) i = Some v /\ fitrow (t_n T) v /\
      forall y, rop (t_n T) v psi y = ops T (N.lxor t (t + N.of_nat i)) (N.to_nat g) (rop (t_n T) w psi) y.
  Proof.
    intros V Hg. induction k as [|k IH]; intros t w Fw i Hi.
    - assert (i = 0)%nat by lia. subst i. exists w. split; [reflexivity|]. split; auto. intros y. rewrite N.add_0_r, N.lxor_nilpotent. symmetry.
      assert (O : forall j u, ops T 0 j (rop (t_n T) w psi) u = rop (t_n T) w psi u) by (induction j as [|j IHj]; intros u; cbn [ops]; auto). apply O.
    - destruct i as [|i].
      + exists w. split; [reflexivity|]. split; auto. intros y. rewrite N.add_0_r, N.lxor_nilpotent. symmetry.
        assert (O : forall j u, ops T 0 j (rop (t_n T) w psi) u = rop (t_n T) w psi u) by (induction j as [|j IHj]; intros u; cbn [ops]; auto). apply O.
      + cbn [amp_rows nth_error]. destruct (rop_next T g t w psi V Hg Fw (N.to_nat g) ltac:(lia)) as [A B]. fold (next_row T g t w) in A, B.
        destruct (IH (t + 1) (next_row T g t w) A i ltac:(lia)) as (v & E & Fv & H). exists v. split; auto. split; auto. intros y. rewrite H.
        transitivity (ops T (N.lxor (t + 1) (t + 1 + N.of_nat i)) (N.to_nat g) (ops T (N.lxor t (t + 1)) (N.to_nat g) (rop (t_n T) w psi)) y); [apply ops_pext; auto; lia|].
        rewrite ops_ops by (auto; lia). f_equal. replace (t + N.of_nat (S i)) with (t + 1 + N.of_nat i) by lia. apply N.bits_inj. intros m. rewrite !tb_lxor. destruct (N.testbit (t + 1) m), (N.testbit t m), (N.testbit (t + 1 + N.of_nat i) m); reflexivity.
  Qed.
  Lemma next_x T t w k : rx (fold_left (fun w i => if N.testbit (N.lxor t (t + 1)) i then row_mul (t_n T) w (t_row T (t_n T + i)) else w) (iota 0 k) w) = N.lxor (rx w) (xsum T (N.lxor t (t + 1)) k).
  Proof.
    induction k as [|k IH]; [cbn; now rewrite N.lxor_0_r|]. rewrite iota_S, fold_left_app. cbn [fold_left xsum]. rewrite N.add_0_l. destruct (N.testbit (N.lxor t (t + 1)) (N.of_nat k)); auto.
    cbn [row_mul rx]. rewrite IH. apply N.lxor_assoc.
  Qed.
  Lemma amp_rows_x T g : forall k t w i v, nth_error (amp_rows T g t k w) i = Some v -> rx v = N.lxor (rx w) (xsum T (N.lxor t (t + N.of_nat i)) (N.to_nat g)).
  Proof.
    assert (Z : forall t j, xsum T (N.lxor t (t + N.of_nat 0)) j = 0) by (intros t j; apply xsum_zero; intros; rewrite N.add_0_r, N.lxor_nilpotent; apply N.bits_0).
    induction k as [|k IH]; intros t w i v H; (destruct i as [|i]; [injection H as <-; rewrite Z, N.lxor_0_r; reflexivity|]).
    - destruct i; discriminate.
    - cbn [amp_rows nth_error] in H. apply IH in H. rewrite H. unfold next_row. rewrite next_x, N.lxor_assoc, <- xsum_lxor. f_equal. f_equal. replace (t + N.of_nat (S i)) with (t + 1 + N.of_nat i) by lia.
      apply N.bits_inj. intros m. rewrite !tb_lxor. destruct (N.testbit (t + 1) m), (N.testbit t m), (N.testbit (t + 1 + N.of_nat i) m); reflexivity.
  Qed.
  Lemma amp_rows_len T g : forall k t w, length (amp_rows T g t k w) = S k.
  Proof. induction k as [|k IH]; intros t w; cbn [amp_rows length]; auto. Qed.
  Lemma phi_self n x z : phi n x z x mod 4 = sumf (fun j => b2n (N.testbit x j && N.testbit z j)) (N.to_nat n) mod 4.
  Proof. unfold phi. apply sumf_mod4. intros j _. unfold phij, phi1. rewrite xorb_nilpotent, andb_false_r. cbn [b2n]. f_equal. lia. Qed.
  Lemma basis_amp_ph n w : fitrow n w -> ph (snd (basis_amp n w)) = rop n w (ket 0) (fst (basis_amp n w)) /\ fst (basis_amp n w) = rx w.
  Proof.
    intros F. split; [|reflexivity]. cbn [basis_amp fst snd]. rewrite (rop_closed im Him) by auto. rewrite N.lxor_nilpotent. unfold ket. rewrite N.eqb_refl.
    transitivity (ph (rr w + phi n (rx w) (rz w) (rx w))); [|ring]. apply ph_eq; auto.
    assert (A : forall k e, fold_left (fun e j => if N.testbit (rx w) j && N.testbit (rz w) j then (e + 1) mod 4 else e) (iota 0 k) e mod 4 = (e + sumf (fun j => b2n (N.testbit (rx w) j && N.testbit (rz w) j)) k) mod 4).
    { induction k as [|k IH]; intros e; [cbn; now rewrite N.add_0_r|]. rewrite iota_S, fold_left_app. cbn [fold_left sumf]. rewrite N.add_0_l. specialize (IH e). destruct (N.testbit (rx w) (N.of_nat k) && N.testbit (rz w) (N.of_nat k)); cbn [b2n].
      - revert IH. generalize (fold_left (fun e j => if N.testbit (rx w) j && N.testbit (rz w) j then (e + 1) mod 4 else e) (iota 0 k) e). generalize (sumf (fun j => b2n (N.testbit (rx w) j && N.testbit (rz w) j)) k). intros; mlia.
      - rewrite N.add_0_r. exact IH. }
    rewrite A. assert (B := phi_self n (rx w) (rz w)). revert B. generalize (phi n (rx w) (rz w) (rx w)), (sumf (fun j => b2n (N.testbit (rx w) j && N.testbit (rz w) j)) (N.to_nat n)), (rr w). intros; mlia.
  Qed.

  (** The amplitude list of a reduced tableau. *)
  Definition amp_list (T : tab) (g : N) : list (N * N) := map (basis_amp (t_n T)) (amp_rows T g 0 (N.to_nat (2 ^ g - 1)) (seed T g)).
  Lemma amp_list_len T g : length (amp_list T g) = N.to_nat (2 ^ g).
  Proof. unfold amp_list. rewrite map_length, amp_rows_len. assert (P := pow2_pos g). lia. Qed.
  Lemma amp_list_nth T g c : valid T -> reduced_form T g -> c < 2 ^ g -> exists e, nth_error (amp_list T g) (N.to_nat c) = Some (N.lxor (rx (seed T g)) (xsum T c (N.to_nat g)), e) /\
    ph e = span_state T g (N.lxor (rx (seed T g)) (xsum T c (N.to_nat g))).
  Proof.
    intros V R Hc. assert (G := rf_g T g R). assert (Fs : fitrow (t_n T) (seed T g)) by (split; [now apply seed_spec|apply pow2_pos]).
    destruct (amp_rows_ops T g (ket 0) V G (N.to_nat (2 ^ g - 1)) 0 (seed T g) Fs (N.to_nat c) ltac:(lia)) as (v & E & Fv & H).
    assert (X := amp_rows_x T g _ _ _ _ _ E). rewrite N.add_0_l, N2Nat.id, N.lxor_0_l in X, H. exists (snd (basis_amp (t_n T) v)). split.
    - unfold amp_list. rewrite (map_nth_error _ _ _ E). rewrite <- X. reflexivity.
    - rewrite span_at by auto. destruct (basis_amp_ph (t_n T) v Fv) as [B _]. rewrite B. cbn [basis_amp fst]. rewrite X, H. apply ops_pext; auto; [lia|]. intros y. rewrite (rop_closed im Him) by auto. cbn [seed rr rz]. 
      change (rx (seed T g)) with (rx (seed T g)). unfold ket. rewrite (ph_eq im Him _ 0), ph_0.
      + destruct (N.eqb_spec (N.lxor y (rx (seed T g))) 0) as [F|F]; destruct (N.eqb_spec y (rx (seed T g))) as [F2|F2]; try ring; exfalso; [apply F2; now apply N.lxor_eq|apply F; subst; apply N.lxor_nilpotent].
      + replace (phi (t_n T) (rx (seed T g)) 0 y) with 0; [reflexivity|]. symmetry. unfold phi. transitivity (sumf (fun _ => 0) (N.to_nat (t_n T))); [|generalize (N.to_nat (t_n T)); induction n as [|k IH]; cbn [sumf]; [reflexivity|rewrite IH; reflexivity]].
        apply sumf_ext. intros j _. unfold phij, phi1. rewrite N.bits_0, andb_false_r. reflexivity.
  Qed.
  Lemma amp_list_keys T g : valid T -> reduced_form T g -> NoDup (map fst (amp_list T g)).
  Proof.
    intros V R. apply NoDup_nth_error. intros i j Hi E. rewrite map_length, amp_list_len in Hi.
    destruct (amp_list_nth T g (N.of_nat i) V R ltac:(lia)) as (e & E1 & _). rewrite Nat2N.id in E1. apply (map_nth_error fst) in E1. rewrite E1 in E.
    assert (Hj : (j < N.to_nat (2 ^ g))%nat). { rewrite <- amp_list_len with (T := T), <- (map_length fst). apply nth_error_Some. rewrite <- E. discriminate. }
    destruct (amp_list_nth T g (N.of_nat j) V R ltac:(lia)) as (e2 & E2 & _). rewrite Nat2N.id in E2. apply (map_nth_error fst) in E2. rewrite E2 in E. injection E as E. cbn [fst] in E.
    apply (f_equal (N.lxor (rx (seed T g)))) in E. rewrite <- !N.lxor_assoc, N.lxor_nilpotent, !N.lxor_0_l in E.
    assert (N.of_nat i = N.of_nat j); [|lia]. apply (bits_inj_below g); [lia|lia|]. intros m Hm. now apply (xsum_inj T g _ _ R E).
  Qed.
  (** Looking up a basis state gives its amplitude. *)
  Theorem amp_list_find T g y : valid T -> reduced_form T g -> y < 2 ^ t_n T ->
    span_state T g y = match find (fun a => fst a =? y) (amp_list T g) with Some a => ph (snd a) | None => 0%amp end.
  Proof.
    intros V R Hy. destruct (find (fun a => fst a =? y) (amp_list T g)) as [[k e]|] eqn:F.
    - apply find_some in F. destruct F as [Hin E]. cbn [fst] in E. apply N.eqb_eq in E. subst k. apply In_nth_error in Hin. destruct Hin as (i & Hi).
      assert (L : (i < N.to_nat (2 ^ g))%nat) by (rewrite <- amp_list_len with (T := T); apply nth_error_Some; rewrite Hi; discriminate).
      destruct (amp_list_nth T g (N.of_nat i) V R ltac:(lia)) as (e2 & E2 & P2). rewrite Nat2N.id, Hi in E2. injection E2 as E3 E4. cbn [snd]. rewrite E4, P2. f_equal. exact E3.
    - unfold span_state. apply (asum_zero K). intros c Hc. apply basis_In in Hc. apply ops_ket; auto. intros E. destruct (amp_list_nth T g c V R Hc) as (e & E1 & _). apply nth_error_In in E1.
      assert (A := find_none _ _ F _ E1). cbn [fst] in A. rewrite <- E, N.eqb_refl in A. discriminate.
  Qed.
End K.
