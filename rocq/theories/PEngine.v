(** Engine operations always have an outcome; running norm; recorded deviations. *)
From Coq Require Import NArith List Bool Lia Permutation Ring.
From Verif Require Import Bits MFunctions SpecFunctions PFunctions MParFor SpecParFor PParFor MKernel PKernel Amp PAmp SpecState MEngine SpecEngine PLoop PApply PGates PGates2 PGates3 PCompose PProb.
Import ListNotations.
Local Open Scope N_scope.

Section Total.
  Context {K : StarRing}.
  Variable c : cfg.
  Add Ring Kr8 : (sr_ring K).
  Local Notation V := (mem K).

  Lemma sum_for_exists n e (term : N -> K) : fits c n -> e <= 2 ^ n -> exists r, sum_for c e term r.
  Proof. intros Hf He. destruct (loop_for_exists c n e (fun _ => @Ret K) (fun _ => 0%amp) Hf He) as [m' [calls [Hc _]]]. eexists. exists calls. eauto. Qed.
  Lemma sum_mask_exists n masks (term : N -> K) : fits c n -> exists r, sum_mask c (2 ^ n) masks term r.
  Proof. intros Hf. destruct (loop_mask_exists c n masks (fun _ => @Ret K) (fun _ => 0%amp) Hf) as [m' [calls [Hc _]]]. eexists. exists calls. eauto. Qed.
  Lemma sum_skip_exists n q w (term : N -> K) : fits c n -> q <= n -> exists r, sum_skip c (2 ^ n) (2 ^ q) w term r.
  Proof. intros Hf Hq. destruct (loop_skip_exists c n q w (fun _ => @Ret K) (fun _ => 0%amp) Hf Hq) as [m' [calls [Hc _]]]. eexists. exists calls. eauto. Qed.

  Lemma apply2x2_any n o1 o2 (m : mat2 K) qps v : fits c n -> exists r, Apply2x2 c n o1 o2 m qps v r.
  Proof.
    intros Hf. unfold Apply2x2. destruct v as [psi|]; eauto. destruct (a2_throws _ _ _ _); eauto.
    destruct (loop_mask_exists c n qps (a2_body o1 o2 (a2_fn NPlain m)) psi Hf) as [psi' H]. eauto.
  Qed.
  Lemma mtrx_any rgp n (m : mat2 K) t v : fits c n -> exists r, Mtrx c rgp n m t v r.
  Proof. intros Hf. unfold Mtrx. destruct (is_identity _ _ _); eauto. now apply apply2x2_any. Qed.
  Lemma either_any rgp anti n cs (m : mat2 K) t v : fits c n -> exists r, EitherMtrx c rgp anti n cs m t v r.
  Proof.
    intros Hf. unfold EitherMtrx. destruct cs. now apply mtrx_any. destruct (is_identity _ _ _); eauto. destruct anti; now apply apply2x2_any.
  Qed.
  Lemma uc_any rgp n cs (m : mat2 K) t p v : fits c n -> exists r, UCMtrx c rgp n cs m t p v r.
  Proof. intros Hf. unfold UCMtrx. destruct cs. now apply mtrx_any. destruct (is_identity _ _ _); eauto. now apply apply2x2_any. Qed.
  Lemma swap_any anti n cs (m : mat2 K) a b v : fits c n -> exists r, CSwapLike c anti n cs m a b v r.
  Proof.
    intros Hf. unfold CSwapLike, SwapLike. destruct cs; destruct (a =? b); eauto; cbv zeta; now apply apply2x2_any.
  Qed.
  Lemma fill_any {T} n e (val : N -> K) (g : V -> T) : fits c n -> e <= 2 ^ n -> exists r, exists fresh m', fill c e val fresh m' /\ r = g m'.
  Proof. intros Hf He. destruct (fill_exists c n e val (fun _ => 0%amp) Hf He) as [m' H]. eauto. Qed.
  Lemma sum_any {T} n e (term : N -> K) (g : K -> T) : fits c n -> e <= 2 ^ n -> exists r, exists p, sum_for c e term p /\ r = g p.
  Proof. intros Hf He. destruct (sum_for_exists n e term Hf He) as [p H]. eauto. Qed.
  Lemma for_any n (body : N -> prog K) (psi : V) : fits c n ->
    exists r, exists psi', loop_for c (2 ^ n) body psi psi' /\ r = Ok (Some psi').
  Proof. intros Hf. destruct (loop_for_exists c n (2 ^ n) body psi Hf) as [m' H]. lia. eauto. Qed.

  Theorem c19_either rgp anti n cs (m : mat2 K) t (psi : V) : fits c n -> NoDup (cs ++ [t]) -> (forall q, In q (cs ++ [t]) -> q < n) ->
    every_run (EitherMtrx c rgp anti n cs m t (Some psi))
      (gate_result n rgp cs m psi (gate1 (if anti then all_clear cs else all_set cs) t m psi)).
  Proof. intros. split. now apply either_any. intros r. now apply either_ok. Qed.
  Theorem c19_uc rgp n cs (m : mat2 K) t p (psi : V) : fits c n -> NoDup (cs ++ [t]) -> (forall q, In q (cs ++ [t]) -> q < n) ->
    every_run (UCMtrx c rgp n cs m t p (Some psi)) (gate_result n rgp cs m psi (gate1 (match_perm 0 cs p) t m psi)).
  Proof. intros. split. now apply uc_any. intros r. now apply uc_ok. Qed.
  Theorem c19_swap anti n cs (m : mat2 K) a b (psi : V) : fits c n -> sym2 m -> NoDup (cs ++ [a; b]) ->
    (forall q, In q (cs ++ [a; b]) -> q < n) ->
    every_run (CSwapLike c anti n cs m a b (Some psi))
      (fun r => exists psi', r = Ok (Some psi') /\ eqv n psi' (gate_swap (if anti then all_clear cs else all_set cs) a b m psi)).
  Proof. intros. split. now apply swap_any. intros r. now apply swap_like_ok. Qed.

  (** ** Norm preservation and inverse at the level of engine calls *)
  Lemma norm2_eqv n (a b : V) : eqv n a b -> norm2 n a = norm2 n b.
  Proof. intros H. unfold norm2. apply asum_ext. intros x Hx. apply basis_In in Hx. now rewrite H. Qed.
  Lemma gate1_eqv n P t (m : mat2 K) (a b : V) : t < n -> eqv n a b -> eqv n (gate1 P t m a) (gate1 P t m b).
  Proof.
    intros Ht H x Hx. unfold gate1. rewrite (H x Hx), (H (N.clearbit x t)), (H (N.setbit x t)); auto.
    now apply setbit_lt. now apply clearbit_lt.
  Qed.
  Lemma gate1_scale P t (m : mat2 K) (g : K) (a : V) x : gate1 P t m (fun y => g * a y)%amp x = (g * gate1 P t m a x)%amp.
  Proof. unfold gate1. destruct (P x), (N.testbit x t); ring. Qed.
  Lemma scalar_unitary (ph : K) : unitary2 (mkMat ph 0%amp 0%amp ph) -> anorm ph = 1%amp.
  Proof.
    unfold unitary2, mmul, mdag, midn. cbn [m00 m01 m10 m11]. intros U. injection U as U1 U2 U3 U4.
    unfold anorm. rewrite <- U1. rewrite conj_0. ring.
  Qed.
  Lemma norm_scale n (g : K) (a : V) : norm2 n (fun x => g * a x)%amp = (anorm g * norm2 n a)%amp.
  Proof. unfold norm2. rewrite <- asum_scale. apply asum_ext. intros. apply anorm_mul. Qed.

  Definition ctrl_of (anti : bool) (cs : list N) := if anti then all_clear cs else all_set cs.
  Lemma ctrl_of_indep anti cs t : NoDup (cs ++ [t]) -> indep (ctrl_of anti cs) t.
  Proof.
    intros ND. assert (~ In t cs) by (intros H; apply NoDup_remove_2 in ND; rewrite app_nil_r in ND; auto).
    unfold ctrl_of. destruct anti. now apply indep_all_clear. now apply indep_all_set.
  Qed.
  Lemma result_norm n rgp cs (m : mat2 K) (psi : V) P t r : t < n -> indep P t -> unitary2 m ->
    gate_result n rgp cs m psi (gate1 P t m psi) r -> exists psi', r = Ok (Some psi') /\ norm2 n psi' = norm2 n psi.
  Proof.
    intros Ht HP U [psi' [ph [-> [E Hph]]]]. exists psi'. split; auto.
    assert (N1 : norm2 n (gate1 P t m psi) = (anorm ph * norm2 n psi')%amp).
    { rewrite <- norm_scale. now apply norm2_eqv. }
    rewrite gate1_norm in N1 by auto. rewrite N1.
    assert (A : anorm ph = 1%amp).
    { destruct Hph as [->|[_ [_ ->]]]. unfold anorm. rewrite conj_1. ring. now apply scalar_unitary. }
    rewrite A. ring.
  Qed.
  Theorem c20_norm rgp anti n cs (m : mat2 K) t (psi : V) : fits c n -> NoDup (cs ++ [t]) -> (forall q, In q (cs ++ [t]) -> q < n) -> unitary2 m ->
    every_run (EitherMtrx c rgp anti n cs m t (Some psi)) (fun r => exists psi', r = Ok (Some psi') /\ norm2 n psi' = norm2 n psi).
  Proof.
    intros Hf ND Hin U. destruct (c19_either rgp anti n cs m t psi Hf ND Hin) as [HE HA]. split; auto. intros r Hr.
    eapply result_norm; eauto. apply Hin, in_or_app; simpl; auto. now apply (ctrl_of_indep anti).
  Qed.
  (** Undoing a gate returns the state (up to a global phase if the engine randomises global phases). *)
  Theorem c20_inverse rgp anti n cs (m : mat2 K) t (psi : V) : fits c n -> NoDup (cs ++ [t]) -> (forall q, In q (cs ++ [t]) -> q < n) -> unitary2 m ->
    every_run (EitherMtrx c rgp anti n cs m t (Some psi)) (fun r1 => exists psi1, r1 = Ok (Some psi1) /\
      every_run (EitherMtrx c rgp anti n cs (mdag m) t (Some psi1)) (fun r2 => exists psi2 g, r2 = Ok (Some psi2) /\
        (forall x, x < 2 ^ n -> psi x = g * psi2 x)%amp /\ anorm g = 1%amp /\ (rgp = false -> g = 1%amp))).
  Proof.
    intros Hf ND Hin U. assert (Ht : t < n) by (apply Hin, in_or_app; simpl; auto).
    assert (HI : indep (ctrl_of anti cs) t) by now apply ctrl_of_indep.
    destruct (c19_either rgp anti n cs m t psi Hf ND Hin) as [HE HA]. split; auto. intros r1 Hr1.
    destruct (HA r1 Hr1) as [psi1 [ph1 [-> [E1 P1]]]]. exists psi1. split; auto.
    destruct (c19_either rgp anti n cs (mdag m) t psi1 Hf ND Hin) as [HE2 HA2]. split; auto. intros r2 Hr2.
    destruct (HA2 r2 Hr2) as [psi2 [ph2 [-> [E2 P2]]]]. exists psi2, (ph1 * ph2)%amp. split; auto.
    assert (A1 : anorm ph1 = 1%amp). { destruct P1 as [->|[_ [_ ->]]]. unfold anorm. rewrite conj_1. ring. now apply scalar_unitary. }
    assert (A2 : anorm ph2 = 1%amp).
    { destruct P2 as [->|[_ [_ E]]]. unfold anorm. rewrite conj_1. ring. apply scalar_unitary. rewrite <- E. now apply unitary_dag. }
    split; [|split].
    - intros x Hx. rewrite <- (gate1_inverse (ctrl_of anti cs) t m psi HI U x).
      transitivity (gate1 (ctrl_of anti cs) t (mdag m) (fun y => ph1 * psi1 y)%amp x).
      + apply (gate1_eqv n); auto.
      + rewrite gate1_scale. unfold ctrl_of. rewrite E2 by auto. ring.
    - rewrite anorm_mul, A1, A2. ring.
    - intros Hr. destruct P1 as [->|[? _]]; [|congruence]. destruct P2 as [->|[? _]]; [|congruence]. ring.
  Qed.
  Theorem c20_swap_norm anti n cs (m : mat2 K) a b (psi : V) : fits c n -> sym2 m -> NoDup (cs ++ [a; b]) ->
    (forall q, In q (cs ++ [a; b]) -> q < n) -> unitary2 m ->
    every_run (CSwapLike c anti n cs m a b (Some psi)) (fun r => exists psi', r = Ok (Some psi') /\ norm2 n psi' = norm2 n psi).
  Proof.
    intros Hf HS ND Hin U. destruct (c19_swap anti n cs m a b psi Hf HS ND Hin) as [HE HA]. split; auto. intros r Hr.
    destruct (HA r Hr) as [psi' [-> E]]. exists psi'. split; auto. rewrite (norm2_eqv n _ _ E).
    assert (Ha : ~ In a cs /\ ~ In b cs /\ a <> b).
    { assert (forall l, NoDup (l ++ [a; b]) -> ~ In a l /\ ~ In b l /\ a <> b) as G; [|now apply G].
      clear. induction l as [|q l IH]; simpl; intros ND; inversion_clear ND as [|? ? Hq Hl].
      - repeat split; auto. intros ->. apply Hq. simpl; auto.
      - destruct (IH Hl) as [A [B C]]. repeat split; auto; intros [->|H]; auto; apply Hq, in_or_app; simpl; auto. }
    destruct Ha as [Ha [Hb Hab]]. apply gate_swap_norm; auto; try (apply Hin, in_or_app; simpl; auto).
    intros x. assert (G : forall q, In q cs -> N.testbit (swap_bits a b x) q = N.testbit x q).
    { intros q Hq. rewrite tb_swap. destruct (N.eqb_spec a q) as [->|]; [contradiction|]. destruct (N.eqb_spec b q) as [->|]; [contradiction|]. auto. }
    clear - G. destruct anti; unfold all_clear, all_set; (induction cs as [|q cs IH]; simpl; auto; rewrite IH by (intros; apply G; simpl; auto); rewrite G by (simpl; auto); auto).
  Qed.

  (** ** Masks, uniform control *)
  Lemma isPow_exists mask n (psi : V) (body : N -> prog K) (R : res (option V) -> Prop) : fits c n -> (exists r, R r) ->
    exists r, if isPowerOfTwoOcl mask then R r else exists psi', loop_for c (2 ^ n) body psi psi' /\ r = Ok (Some psi').
  Proof. intros Hf HR. destruct (isPowerOfTwoOcl mask); auto. now apply for_any. Qed.
  Theorem c21_xmask rgp n mask (psi : V) : fits c n -> mask < 2 ^ n ->
    every_run (XMask c rgp n mask (Some psi)) (fun r => exists psi', r = Ok (Some psi') /\ eqv n psi' (fun x => psi (N.lxor x mask))).
  Proof.
    intros Hf Hm. split; [|intros r; now apply xmask_ok]. unfold XMask. destruct (_ <=? _); eauto. destruct (mask =? 0); eauto.
    apply isPow_exists; auto. now apply mtrx_any.
  Qed.
  Lemma phase_any rgp n (tl br : K) q v : fits c n -> exists r, Phase c rgp n tl br q v r.
  Proof. intros Hf. unfold Phase. destruct (_ && _); eauto. now apply mtrx_any. Qed.
  Theorem c21_phaseparity rgp n (ph phA : K) mask (psi : V) : fits c n -> 0 < mask < 2 ^ n ->
    every_run (PhaseParity c rgp n ph phA mask (Some psi)) (fun r =>
      exists psi' g, r = Ok (Some psi') /\ (forall x, x < 2 ^ n -> parity_phase mask ph phA psi x = (g * psi' x)%amp) /\
        (g = 1%amp \/ rgp = true /\ g = ph /\ g = phA)).
  Proof.
    intros Hf Hm. split; [|intros r; now apply phaseparity_ok]. unfold PhaseParity. destruct (_ <=? _); eauto. destruct (mask =? 0); eauto.
    apply isPow_exists; auto. now apply phase_any.
  Qed.
  Theorem c21_uprz pb n mask (ph phA : K) (psi : V) : fits c n -> pb <= 64 -> mask < 2 ^ n -> mask < 2 ^ pb ->
    every_run (UniformParityRZ c pb n mask ph phA (Some psi)) (fun r => exists psi', r = Ok (Some psi') /\ eqv n psi' (parity_phase mask ph phA psi)).
  Proof.
    intros Hf Hp Hm Hm'. split; [|intros r; now apply uprz_ok]. unfold UniformParityRZ. destruct (_ <=? _); eauto. now apply for_any.
  Qed.
  Theorem c21_cuprz pb n cs mask (ph phA : K) (psi : V) : fits c n -> pb <= 64 -> mask < 2 ^ n -> mask < 2 ^ pb -> cs <> [] ->
    NoDup cs -> (forall q, In q cs -> q < n /\ N.testbit mask q = false) ->
    every_run (CUniformParityRZ c pb n cs mask ph phA (Some psi)) (fun r =>
      exists psi', r = Ok (Some psi') /\ eqv n psi' (fun x => if all_set cs x then parity_phase mask ph phA psi x else psi x)).
  Proof.
    intros Hf Hp Hm Hm' Hne ND Hin. split; [|intros r; now apply cuprz_ok]. unfold CUniformParityRZ. destruct cs as [|q cs]; [congruence|].
    destruct (_ || _); eauto.
    destruct (loop_mask_exists c n (map pow2Ocl (nsort (q :: cs))) (cuprz_body pb mask (or_pows (nsort (q :: cs))) ph phA) psi Hf) as [psi' H]. eauto.
  Qed.
  Theorem c22_ucsb rgp n cs t (mtrxs : N -> K) M skips skipValue (psi : V) : fits c n -> layout mtrxs M -> cs <> [] ->
    NoDup (cs ++ [t]) -> (forall q, In q (cs ++ [t]) -> q < n) ->
    increasing_below 0 62 skips -> N.of_nat (length cs) + N.of_nat (length skips) <= 62 -> skipValue < 2 ^ 62 ->
    every_run (UniformlyControlledSingleBit c rgp n cs t mtrxs (map (fun q => 2 ^ q) skips) skipValue (Some psi)) (fun r =>
      exists psi', r = Ok (Some psi') /\
        eqv n psi' (fun x => gate1 always t (M (N.lor (insert_zeros skips (ctrl_value 0 cs x)) skipValue)) psi x)).
  Proof.
    intros Hf HL Hne ND Hin HI Hlen Hs. split; [|intros r; now apply ucsb_ok]. unfold UniformlyControlledSingleBit.
    destruct cs as [|q cs]; [congruence|]. destruct (_ || _); eauto.
    assert (Ht : t < n) by (apply Hin, in_or_app; simpl; auto). assert (Hn : n < 64) by apply Hf. rewrite pow2Ocl_small by lia.
    destruct (loop_skip_exists c n t 1 (ucsb_body (q :: cs) t mtrxs (map (fun q => 2 ^ q) skips) skipValue) psi Hf) as [psi' H]. lia. eauto.
  Qed.

  (** ** Compose and Dispose *)
  Theorem c23_compose maxQB na nb (va vb : option V) : fits c (na + nb) -> 0 < na -> 0 < nb -> na + nb <= maxQB ->
    every_run (Compose c maxQB (mkEng na va) (mkEng nb vb)) (fun r =>
      exists v, r = Ok (mkEng (na + nb) v, na) /\ eqv (na + nb) (vread v) (tensor na (vread va) (vread vb))).
  Proof.
    intros Hf Ha Hb Hm. split; [|intros r; now apply compose_ok]. unfold Compose. cbn [e_n e_vec]. assert (Hn : na + nb < 64) by apply Hf.
    destruct (nb =? 0); eauto. destruct (maxQB <? _); eauto. destruct (N.eqb_spec na 0); [lia|]. destruct va, vb; eauto.
    rewrite pow2Ocl_small by auto. apply (fill_any (na + nb)); auto. lia.
  Qed.
  Theorem c23_compose_at maxQB na nb start (va vb : option V) : fits c (na + nb) -> 0 < na -> 0 < nb -> na + nb <= maxQB -> start <= na ->
    every_run (ComposeAt c maxQB (mkEng na va) (mkEng nb vb) start) (fun r =>
      exists v, r = Ok (mkEng (na + nb) v, start) /\ eqv (na + nb) (vread v) (tensor_at start nb (vread va) (vread vb))).
  Proof.
    intros Hf Ha Hb Hm Hs. split; [|intros r; now apply compose_at_ok]. unfold ComposeAt. cbn [e_n e_vec]. assert (Hn : na + nb < 64) by apply Hf.
    destruct (na <? start); eauto. destruct (N.eqb_spec na 0); [lia|]. destruct (nb =? 0); eauto. destruct (maxQB <? _); eauto. destruct va, vb; eauto.
    rewrite pow2Ocl_small by auto. apply (fill_any (na + nb)); auto. lia.
  Qed.
  Theorem c23_compose_many na (pa : V) srcs : fits c (sum_sizes na srcs) ->
    every_run (fun o => ComposeMany c na pa srcs (fst o) (snd o)) (fun o => fst o = sum_sizes na srcs /\ eqv (fst o) (snd o) (tensor_many na pa srcs)).
  Proof.
    intros Hf. split.
    - destruct (loop_for_exists c (sum_sizes na srcs) (2 ^ sum_sizes na srcs) (fun lcv => Wr lcv (pa (N.land lcv (2 ^ na - 1))) (compose_srcs na srcs lcv)) (fun _ => 0%amp) Hf) as [m' H]. lia.
      exists (sum_sizes na srcs, m'). split. reflexivity. exists (fun _ => 0%amp). cbn [fst snd]. rewrite pow2Ocl_small by apply Hf. exact H.
    - intros [n' m'] H. cbn [fst snd] in *. assert (En : n' = sum_sizes na srcs) by apply H. subst. now apply (compose_many_ok c).
  Qed.
  Lemma dispose_any n start len perm (v : option V) : fits c n -> exists r, Dispose c (mkEng n v) start len perm r.
  Proof.
    intros Hf. unfold Dispose. cbn [e_n e_vec]. destruct (isBadBitRange _ _ _); eauto. destruct (len =? 0); eauto. destruct v; eauto.
    assert (Hn : n < 64) by apply Hf. rewrite (pow2Ocl_small (n - len)) by lia.
    apply (fill_any n); auto. apply pow2_le_mono; lia.
  Qed.
  Theorem c24_dispose n start len perm (v : option V) : fits c n -> n < 2 ^ 8 -> start + len <= n -> 0 < len -> perm < 2 ^ len ->
    every_run (Dispose c (mkEng n v) start len perm) (fun r =>
      exists v', r = Ok (mkEng (if (n - len =? 0) && match v with None => false | _ => true end then 1 else n - len) v') /\ (v' = None <-> v = None) /\
        eqv (n - len) (vread v') (slice start len perm (vread v))).
  Proof. intros. split. now apply dispose_any. intros r. now apply dispose_ok. Qed.
  Theorem c24_dispose_undoes n start len perm (pa a : V) : fits c n -> n < 2 ^ 8 -> start + len <= n -> 0 < len < n -> perm < 2 ^ len ->
    eqv n pa (tensor_at start len a (ket perm)) ->
    every_run (Dispose c (mkEng n (Some pa)) start len perm) (fun r => exists m', r = Ok (mkEng (n - len) (Some m')) /\ eqv (n - len) m' a).
  Proof. intros. split. now apply dispose_any. intros r. now apply (dispose_inverse c n start len perm pa). Qed.

  (** Composing the basis state at [start] and disposing it again. *)
  Theorem c24_roundtrip maxQB na nb start perm (a : V) : fits c (na + nb) -> na + nb < 2 ^ 8 -> 0 < na -> 0 < nb -> na + nb <= maxQB -> start <= na -> perm < 2 ^ nb ->
    every_run (ComposeAt c maxQB (mkEng na (Some a)) (mkEng nb (Some (ket perm))) start) (fun r1 =>
      exists e, r1 = Ok (e, start) /\
        every_run (Dispose c e start nb perm) (fun r2 => exists m', r2 = Ok (mkEng na (Some m')) /\ eqv na m' a)).
  Proof.
    intros Hf H8 Ha Hb Hm Hs Hp. destruct (c23_compose_at maxQB na nb start (Some a) (Some (ket perm)) Hf Ha Hb Hm Hs) as [HE HA]. split; auto.
    intros r Hr. destruct (HA r Hr) as [v [-> E]]. exists (mkEng (na + nb) v). split; auto.
    assert (exists m, v = Some m) as [m ->].
    { unfold ComposeAt in Hr. cbn [e_n e_vec] in Hr. destruct (N.ltb_spec na start); [lia|]. destruct (N.eqb_spec na 0); [lia|]. destruct (N.eqb_spec nb 0); [lia|].
      destruct (N.ltb_spec maxQB (na + nb)); [lia|]. destruct Hr as [f [m' [_ Hr]]]. injection Hr as ->. eauto. }
    pose proof (c24_dispose_undoes (na + nb) start nb perm m a Hf H8 ltac:(lia) ltac:(lia) Hp E) as D. replace (na + nb - nb) with na in D by lia. exact D.
  Qed.

  (** ** Probabilities *)
  Theorem c25_prob simd n q (psi : V) : fits c n -> q < n ->
    every_run (Prob c simd n q (Some psi)) (fun r => r = Ok (weight_of n (fun x => N.testbit x q) psi)).
  Proof.
    intros Hf Hq. split; [|intros r; now apply prob_ok]. assert (Hn : n < 64) by apply Hf. unfold Prob. destruct (n <=? q); eauto. destruct (N.eqb_spec n 1); eauto.
    rewrite pow2Ocl_small by lia. destruct simd.
    - destruct (N.eqb_spec (2 ^ q) 1) as [|E].
      + destruct (sum_for_exists n (N.shiftr (2 ^ n) 2) (fun lcv => let t4 := w64 (N.shiftl lcv 2) in anorm (psi (N.lor t4 1)) + anorm (psi (N.lor t4 3)))%amp Hf) as [p H]; eauto.
        rewrite N.shiftr_div_pow2. apply N.div_le_upper_bound. discriminate. change (2 ^ 2) with 4. lia.
      + assert (q <> 0) by (intros ->; apply E; reflexivity).
        replace (N.shiftr (2 ^ n) 1) with (2 ^ (n - 1)).
        2:{ rewrite N.shiftr_div_pow2. apply N.div_unique_exact. discriminate. rewrite <- N.pow_add_r. f_equal. lia. }
        replace (N.shiftr (2 ^ q) 1) with (2 ^ (q - 1)).
        2:{ rewrite N.shiftr_div_pow2. apply N.div_unique_exact. discriminate. rewrite <- N.pow_add_r. f_equal. lia. }
        destruct (sum_skip_exists (n - 1) (q - 1) 1 (fun lcv => let t2 := N.lor (w64 (N.shiftl lcv 1)) (2 ^ q) in anorm (psi t2) + anorm (psi (N.lor t2 1)))%amp) as [p Hp]; eauto.
        apply (fits_le _ _ _ Hf); lia. lia.
    - destruct (sum_skip_exists n q 1 (fun lcv => anorm (psi (N.lor lcv (2 ^ q)))) Hf) as [p H]; eauto. lia.
  Qed.
  Theorem c25_probreg n start len perm (psi : V) : fits c n -> start + len <= n -> perm < 2 ^ len ->
    every_run (ProbReg c n start len perm (Some psi)) (fun p => p = weight_of n (fun x => get_reg x start len =? perm) psi).
  Proof.
    intros Hf Hs Hp. split; [|intros r; now apply probreg_ok]. assert (Hn : n < 64) by apply Hf. unfold ProbReg. rewrite pow2Ocl_small by lia. apply sum_skip_exists; auto. lia.
  Qed.
  Theorem c25_probmask n mask perm (psi : V) : fits c n -> mask < 2 ^ n -> N.land perm mask = perm ->
    every_run (ProbMask c n mask perm (Some psi)) (fun r => r = Ok (weight_of n (fun x => N.land x mask =? perm) psi)).
  Proof.
    intros Hf Hm Hp. split; [|intros r; now apply probmask_ok]. unfold ProbMask. destruct (_ <=? _); eauto.
    destruct (sum_mask_exists n (mask_powers 64 mask) (fun lcv => anorm (psi (N.lor lcv perm))) Hf) as [p H]. eauto.
  Qed.
  Theorem c25_probparity pb n mask (psi : V) : fits c n -> pb <= 64 -> mask < 2 ^ n -> mask < 2 ^ pb ->
    every_run (ProbParity c pb n mask (Some psi)) (fun r => r = Ok (weight_of n (fun x => odd_bits 64 (N.land x mask)) psi)).
  Proof.
    intros Hf Hp Hm Hm'. split; [|intros r; now apply probparity_ok]. unfold ProbParity. destruct (_ <=? _); eauto. destruct (mask =? 0); eauto.
    apply (sum_any n); auto. lia.
  Qed.
  Theorem c25_ctrlprob n control target cstate (psi : V) : fits c n -> control < n -> target < n -> control <> target ->
    every_run (CtrlOrAntiProb_num c n control target cstate psi)
      (fun p => p = weight_of n (fun x => Bool.eqb (N.testbit x control) cstate && N.testbit x target) psi).
  Proof.
    intros Hf Hc Ht Hne. split; [|intros r; now apply ctrlprob_ok]. assert (Hn : n < 64) by apply Hf. unfold CtrlOrAntiProb_num. rewrite !pow2Ocl_small by lia. apply sum_skip_exists; auto. lia.
  Qed.

  (** ** Measurement *)
  Theorem c26_applym n mask result (nrm : K) (psi : V) : fits c n -> mask < 2 ^ n -> result < 2 ^ n ->
    every_run (ApplyM c n mask result nrm (Some psi)) (fun v' =>
      exists psi', v' = Some psi' /\ eqv n psi' (project (fun x => N.land x mask =? result) nrm psi)).
  Proof.
    intros Hf Hm Hr. split; [|intros r; now apply applym_ok]. unfold ApplyM.
    destruct (loop_for_exists c n (2 ^ n) (applym_body (w64 mask) (w64 result) nrm) psi Hf) as [m' H]. lia. eauto.
  Qed.
  (** Measuring the same mask again: the same outcome carries the whole norm, every other outcome has weight zero. *)
  Theorem c26_repeat n mask result (nrm : K) (psi : V) : fits c n -> mask < 2 ^ n -> N.land result mask = result ->
    every_run (ApplyM c n mask result nrm (Some psi)) (fun v' =>
      exists psi', v' = Some psi' /\ norm2 n psi' = (anorm nrm * weight_of n (fun x => N.land x mask =? result) psi)%amp /\
        every_run (ProbMask c n mask result v') (fun p => p = Ok (norm2 n psi')) /\
        forall other, N.land other mask = other -> other <> result -> every_run (ProbMask c n mask other v') (fun p => p = Ok 0%amp)).
  Proof.
    intros Hf Hm Hr. assert (Hrl : result < 2 ^ n) by (rewrite <- Hr; now apply land_mask_lt).
    destruct (c26_applym n mask result nrm psi Hf Hm Hrl) as [HE HA]. split; auto. intros v' Hv. destruct (HA v' Hv) as [psi' [-> E]].
    exists psi'. split; auto. destruct (project_repeat n (fun x => N.land x mask =? result) nrm psi) as [R1 [R2 R3]].
    rewrite (norm2_eqv n _ _ E). split; auto. split.
    - destruct (c25_probmask n mask result psi' Hf Hm Hr) as [PE PA]. split; auto. intros p Hp. rewrite (PA p Hp). f_equal.
      rewrite <- R1. apply weight_ext. intros x Hx. split; auto.
    - intros other Ho Hne. destruct (c25_probmask n mask other psi' Hf Hm Ho) as [PE PA]. split; auto. intros p Hp. rewrite (PA p Hp). f_equal.
      rewrite <- (R2 (fun x => N.land x mask =? other)).
      + apply weight_ext. intros x Hx. split; auto.
      + intros x Hx. apply N.eqb_eq in Hx. apply N.eqb_neq. congruence.
  Qed.
  Theorem c26_parity pb n mask result (psi : V) : fits c n -> pb <= 64 -> mask < 2 ^ n -> mask < 2 ^ pb ->
    every_run (loop_for c (2 ^ n) (mparity_body pb mask result) psi) (fun psi' =>
      eqv n psi' (project (fun x => Bool.eqb (odd_bits 64 (N.land x mask)) result) 1%amp psi)).
  Proof.
    intros Hf Hp Hm Hm'. split; [|intros r; now apply mparity_ok]. apply (loop_for_exists c n); auto. lia.
  Qed.

  (** ** Running norm (C66) *)
  Lemma asum_halves n t (f : N -> K) xs : t < n -> enumerates (fun x => x < 2 ^ n /\ zero_at [t] x) xs ->
    asum (fun x => f x + f (N.setbit x t))%amp xs = asum f (basis n).
  Proof.
    intros Ht HE. rewrite asum_add.
    assert (HE' : enumerates (fun x => x < 2 ^ n /\ forall j, t <= j < t + 1 -> N.testbit x j = false) xs).
    { eapply enumerates_iff; [|exact HE]. intros x. unfold zero_at. split; intros [A B]; split; auto.
      - intros j Hj. replace j with t by lia. apply B. simpl; auto.
      - intros j [<-|[]]. apply B. lia. }
    rewrite (asum_ext K (fun x => f (N.setbit x t)) (fun x => f (N.lor x (2 ^ t)))) by (intros; now rewrite setbit_lor).
    rewrite (sum_bit_ok n t f xs Ht HE').
    rewrite (asum_enum n (fun x => negb (N.testbit x t)) f xs).
    - rewrite <- asum_add. apply asum_ext. intros x _. destruct (N.testbit x t); cbn [negb]; ring.
    - eapply enumerates_iff; [|exact HE]. intros x. cbn beta. rewrite negb_true_iff. unfold zero_at. split; intros [A B]; split; auto.
      + apply B. simpl; auto.
      + intros j [<-|[]]. auto.
  Qed.

  Theorem c66_norm n t (m : mat2 K) md (psi psi' : V) rn : fits c n -> t < n -> md <> NPlain ->
    Apply2x2_norm c false n 0 (2 ^ t) m [2 ^ t] md psi psi' rn -> rn = norm2 n psi'.
  Proof.
    intros Hf Ht Hmd [calls [Hc [Hk ->]]]. assert (Hn : n < 64) by apply Hf.
    assert (Hin : increasing_below 0 n [t]) by (simpl; lia).
    pose proof (pow2_lt_mono t n Ht) as Hp. pose proof (pow2_pos n) as H0.
    assert (HL : loop_mask c (2 ^ n) (map (fun q => 2 ^ q) [t]) (a2_body 0 (2 ^ t) (a2_fn md m)) psi psi') by (exists calls; auto).
    assert (HS : sum_mask c (2 ^ n) (map (fun q => 2 ^ q) [t]) (fun lcv => a2_term md m (psi (w64 (lcv + 0))) (psi (w64 (lcv + 2 ^ t))))
      (acc_total c (fun lcv => a2_term md m (psi (w64 (lcv + 0))) (psi (w64 (lcv + 2 ^ t)))) calls)) by (exists calls; auto).
    apply sum_mask_ok with (1 := Hf) in HS; auto. destruct HS as [xs [HE Hs]].
    assert (Ecalc : fold_left (fun acc t0 => (acc + thread_acc (match md with NCalc _ => false | _ => false end)
                (fun lcv => a2_term md m (psi (w64 (lcv + 0))) (psi (w64 (lcv + 2 ^ t)))) t0 calls)%amp)
              (seq 0 (N.to_nat (cf_cores c))) 0%amp = acc_total c (fun lcv => a2_term md m (psi (w64 (lcv + 0))) (psi (w64 (lcv + 2 ^ t)))) calls).
    { unfold acc_total, par_norm_result, thread_acc. destruct md; reflexivity. }
    rewrite Ecalc, Hs. unfold norm2. rewrite <- (asum_halves n t _ xs Ht HE). apply asum_ext. intros x Hx. apply (proj2 HE) in Hx. destruct Hx as [Hx Hz].
    assert (Bx : N.testbit x t = false) by (apply Hz; simpl; auto).
    assert (Ob1 : only_bits [t] 0) by (intros i Hi; rewrite N.bits_0 in Hi; discriminate).
    assert (Ob2 : only_bits [t] (2 ^ t)) by (intros i Hi; rewrite tb_pow2 in Hi; apply N.eqb_eq in Hi; simpl; auto).
    assert (Hne : 0 <> 2 ^ t) by (intros E; symmetry in E; now apply pow2_nz in E).
    assert (Es : x + 2 ^ t = N.setbit x t).
    { rewrite <- setbit_lor. apply add_lor. now rewrite land_pow2_testbit, Bx. }
    assert (Hsl : N.setbit x t < 2 ^ n) by now apply setbit_lt.
    rewrite N.add_0_r, Es, !(w64_small _ n) by auto.
    pose proof (pair_effect c n [t] 0 (2 ^ t) (a2_fn md m) psi psi' Hf Hin Ob1 Ob2 H0 Hp Hne HL) as PE.
    destruct (PE x Hx) as [A _]. destruct (PE _ Hsl) as [_ [B _]].
    rewrite A, B.
    - rewrite N.lxor_0_l. replace (N.lxor x (2 ^ t)) with (N.setbit x t).
      + replace (N.lxor (N.setbit x t) (2 ^ t)) with x.
        * unfold a2_term. destruct md; congruence.
        * apply N.bits_inj. intros i. rewrite N.lxor_spec, tb_setbit, tb_pow2. destruct (N.eqb_spec t i); subst; cbn [orb]. now rewrite Bx. now rewrite xorb_false_r.
      + apply N.bits_inj. intros i. rewrite N.lxor_spec, tb_setbit, tb_pow2. destruct (N.eqb_spec t i); subst; cbn [orb]. now rewrite Bx. now rewrite xorb_false_r.
    - intros p [<-|[]]. now rewrite tb_setbit, tb_pow2, !N.eqb_refl.
    - intros p [<-|[]]. now rewrite N.bits_0.
  Qed.
End Total.
