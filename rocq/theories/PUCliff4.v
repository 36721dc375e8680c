(** Proofs for QUnitClifford: amplitudes, the first state, programs, measurements. *)
From Coq Require Import Arith NArith List Bool Lia Ring Permutation.
From Verif Require Import Bits MFunctions SpecFunctions PFunctions MKernel PKernel Amp PAmp SpecState PApply PCompose PGates PGates2 PQCirc2 PQCirc3 PEngine MShard SpecShard MUnit PShard1 PShard2 PShard5 PUnit1 PUnit2 PUnit3 PUnit4 PQCirc6 PUnitW PUnit6 PUnit9 MTensor MUCliff SpecUCliff PUCliff1 PUCliff2 PUCliff3.
Import ListNotations.
Local Open Scope N_scope.
Local Notation up n := (upto (N.to_nat n)).

Section P.
  Context {K : StarRing} (ci ch : K) (c : kcfg K) (D : definite (K := K)) (Sep : sep_ok c) (A : amps_ok ci ch).
  Add Ring KrEE : (sr_ring K).
  Local Notation vec := (N -> K).
  Local Notation uk := (ucliff K).
  Local Notation M2 := (mat2 K).
  Local Notation good := PUCliff2.good.
  Implicit Types (U V : uk) (v psi : vec) (m : M2).

  (** ** Amplitudes *)
  Lemma k_units_in bits U : forall seen u, In u (k_units bits U seen) <-> ((exists b, In b bits /\ k_unit U b = u) /\ ~ In u seen).
  Proof.
    induction bits as [|b t IH]; intros seen u; cbn [k_units]; [split; [intros []|intros [(b & [] & _) _]]|].
    assert (X : existsb (N.eqb (k_unit U b)) seen = true <-> In (k_unit U b) seen).
    { rewrite existsb_exists. split; [intros (w & Hw & E); apply N.eqb_eq in E; congruence|intros H; exists (k_unit U b); rewrite N.eqb_refl; auto]. }
    destruct (existsb _ seen) eqn:E.
    - rewrite IH. split; intros [(b' & H1 & H2) H3]; (split; [|exact H3]); [exists b'; split; [right; exact H1|exact H2]|]. destruct H1 as [->|H1]; [|eauto]. destruct H3. rewrite <- H2. apply X. reflexivity.
    - cbn [In]. rewrite IH. split.
      + intros [<-|[(b' & H1 & H2) H3]]; [split; [exists b; cbn; auto|intros F; apply X in F; congruence]|]. split; [exists b'; cbn; auto|intros F; apply H3; right; exact F].
      + intros [(b' & [->|H1] & H2) H3]; [left; exact H2|]. destruct (N.eq_dec (k_unit U b) u) as [F|F]; [left; exact F|right]. split; [eauto|]. intros [G|G]; contradiction.
  Qed.
  Lemma k_units_nodup bits U : forall seen, NoDup (k_units bits U seen).
  Proof.
    induction bits as [|b t IH]; intros seen; cbn [k_units]; [constructor|]. destruct (existsb _ seen); [apply IH|]. constructor; [|apply IH]. intros F. apply k_units_in in F. destruct F as [_ F]. apply F. left. reflexivity.
  Qed.
  Lemma aprod_sub (f : N -> K) l : forall l', NoDup l -> NoDup l' -> (forall u, In u l' -> In u l) -> (forall u, In u l -> ~ In u l' -> f u = 1%amp) -> aprod f l = aprod f l'.
  Proof.
    induction l as [|u l IH]; intros l' ND ND' H1 H2.
    - destruct l' as [|w l']; [reflexivity|]. destruct (H1 w (or_introl eq_refl)).
    - apply NoDup_cons_iff in ND. destruct ND as [NI ND]. destruct (in_dec N.eq_dec u l') as [Hu|Hu].
      + rewrite (aprod_at f u l' ND' Hu). cbn [aprod fold_right]. f_equal. apply (IH (but u l')); [exact ND|apply NoDup_filter, ND'| |].
        * intros w Hw. apply but_in in Hw. destruct Hw as [Hw Hn]. destruct (H1 w Hw); [congruence|assumption].
        * intros w Hw F. apply H2; [right; exact Hw|]. intros G. apply F, but_in. split; [exact G|]. intros ->. contradiction.
      + cbn [aprod fold_right]. rewrite (H2 u (or_introl eq_refl) Hu). fold (aprod f l). rewrite (IH l'); [ring|exact ND|exact ND'| |].
        * intros w Hw. destruct (H1 w Hw) as [->|G]; [contradiction|exact G].
        * intros w Hw. apply H2. right. exact Hw.
  Qed.
  Lemma fold_mul (f : N -> K) l : forall a, fold_left (fun a u => if sr_eqb a 0 then a else (a * f u)%amp) l a = (a * aprod f l)%amp.
  Proof.
    induction l as [|u l IH]; intros a; cbn [fold_left aprod fold_right]; [ring|]. rewrite IH. destruct (PAmp.eqb_spec K a 0%amp) as [->|]; fold (aprod f l); ring.
  Qed.
  Lemma owned U u : kwf U -> u < k_next U -> ~ In u (k_units (up (k_n U)) U []) -> k_size U u = 0.
  Proof.
    intros W Hu HN. destruct (N.eq_dec (k_size U u) 0) as [E|E]; [exact E|exfalso]. apply HN, k_units_in. split; [|intros []].
    destruct (pl_cov _ _ _ _ (kw_placed U W) u 0 Hu) as (p & Hp & EP & _); [unfold k_size in E; lia|]. exists p. split; [apply up_in, Hp|]. rewrite csh_unit in EP. injection EP as EP. exact EP.
  Qed.
  Lemma amplitude_ok U x : kwf U -> x < 2 ^ k_n U -> k_amplitude x U = Ret (joint U x).
  Proof.
    intros W Hx. unfold k_amplitude. destruct (N.leb_spec (2 ^ k_n U) x); [lia|]. f_equal. rewrite (fold_mul (fun u => k_vec U u (k_gather u x U))). unfold joint. f_equal. unfold parts, base_of.
    rewrite (aprod_one (fun p => loc (csh U p) (N.testbit x p))) by reflexivity.
    rewrite (aprod_sub (fun u => snd (k_eng U u) (gather (k_n U) (csh U) u x)) (up (k_next U)) (k_units (up (k_n U)) U [])).
    - assert (E : forall a : K, a = (a * 1)%amp) by (intros; ring). apply E.
    - apply upto_nodup.
    - apply k_units_nodup.
    - intros u Hu. apply k_units_in in Hu. destruct Hu as [(b & Hb & <-) _]. apply up_in. apply up_in in Hb. apply (kw_in U b W Hb).
    - intros u Hu HN. apply up_in in Hu. assert (Z := owned U u W Hu HN). assert (Hg : gather (k_n U) (csh U) u x < 2 ^ fst (k_eng U u)) by apply (gather_lt _ _ _ _ (kw_placed U W)).
      change (fst (k_eng U u)) with (k_size U u) in Hg. rewrite Z in Hg. replace (gather (k_n U) (csh U) u x) with 0 by (cbn in Hg; lia). apply (kw_idle U W u Hu Z).
  Qed.

  (** ** The first state *)
  Lemma perm_good n perm (ph : K) : anorm ph = 1%amp -> good (set_permutation n perm ph).
  Proof.
    intros HP. split; [|exact HP]. split.
    - split; cbn [k_n k_next set_permutation].
      + intros p u Hp E. rewrite csh_unit in E. injection E as E. cbn in E. subst u. split; [exact Hp|]. rewrite csh_map. cbn [k_eng set_permutation k_map k_sh snd]. destruct (N.ltb_spec p n); [cbn; lia|lia].
      + intros p p' u _ _ E E' _. rewrite csh_unit in E, E'. injection E as E. injection E' as E'. cbn in E, E'. congruence.
      + intros u j Hu Hj. exists u. split; [exact Hu|]. split; [reflexivity|]. cbn [k_eng set_permutation] in Hj. destruct (N.ltb_spec u n); [|lia]. cbn in Hj. rewrite csh_map. cbn. lia.
    - cbn [k_next set_permutation]. intros u Hu. unfold k_size, k_vec. cbn [k_eng set_permutation]. destruct (N.ltb_spec u n); [|lia]. cbn [fst snd]. rewrite norm_one. unfold ket. destruct (N.testbit perm u); cbn [N.eqb Pos.eqb]; rewrite anorm_0; unfold anorm; rewrite conj_1; ring.
    - cbn [k_next set_permutation]. intros u Hu. unfold k_size. cbn [k_eng set_permutation]. destruct (N.ltb_spec u n); [discriminate|lia].
  Qed.
  Lemma perm_joint n perm (ph : K) : anorm ph = 1%amp -> perm < 2 ^ n -> eqv n (joint (set_permutation n perm ph)) (fun x => (ph * ket perm x)%amp).
  Proof.
    intros HP Hp x Hx. set (U := set_permutation n perm ph). assert (W := gd_wf _ (perm_good n perm ph HP)). fold U in W. unfold joint. change (k_ph U) with ph. f_equal. unfold parts, base_of.
    rewrite (aprod_one (fun p => loc (csh U p) (N.testbit x p))) by reflexivity. change (k_next U) with n. change (k_n U) with n.
    rewrite (aprod_ext (fun u => snd (k_eng U u) (gather n (csh U) u x)) (fun u => if eqb (N.testbit x u) (N.testbit perm u) then 1%amp else 0%amp)).
    2:{ intros u Hu. apply up_in in Hu. assert (EU : k_eng U u = (1, ket (if N.testbit perm u then 1 else 0))) by (cbn [U k_eng set_permutation]; destruct (N.ltb_spec u n); [reflexivity|lia]). rewrite EU. cbn [snd].
        rewrite (gather_eq n n (csh U) (k_eng U) (kw_placed U W) u x (if N.testbit x u then 1 else 0) Hu).
        - unfold ket. destruct (N.testbit x u), (N.testbit perm u); reflexivity.
        - rewrite EU. destruct (N.testbit x u); cbn; lia.
        - intros p Hpn E. rewrite csh_unit in E. injection E as E. cbn in E. subst p. rewrite csh_map. cbn [k_map k_sh U set_permutation snd]. destruct (N.testbit x u); reflexivity. }
    unfold ket. destruct (N.eqb_spec x perm) as [->|Hne].
    - rewrite aprod_one; [ring|]. intros u _. rewrite eqb_reflx. reflexivity.
    - assert (EX : exists u, u < n /\ N.testbit x u <> N.testbit perm u).
      { destruct (existsb (fun u => negb (eqb (N.testbit x u) (N.testbit perm u))) (up n)) eqn:E.
        - apply existsb_exists in E. destruct E as (u & Hu & E). exists u. split; [apply up_in, Hu|]. intros F. rewrite F, eqb_reflx in E. discriminate.
        - exfalso. apply Hne. apply N.bits_inj. intros j. destruct (N.lt_ge_cases j n) as [Hj|Hj]; [|rewrite !(tb_high _ n) by assumption; reflexivity].
          destruct (bool_dec (N.testbit x j) (N.testbit perm j)) as [F|F]; [exact F|exfalso]. apply not_true_iff_false in E. apply E, existsb_exists. exists j. split; [apply up_in, Hj|]. apply eqb_false_iff in F. rewrite F. reflexivity. }
      destruct EX as (u & Hu & F). rewrite (aprod_at _ u) by (apply upto_nodup || apply up_in, Hu). apply eqb_false_iff in F. rewrite F. ring.
  Qed.

  (** ** Programs *)
  Lemma swapped_eqv n a b psi phi : a < n -> b < n -> eqv n psi phi -> eqv n (swapped a b psi) (swapped a b phi).
  Proof. intros Ha Hb E x Hx. unfold swapped. apply E, swap_bits_lt; assumption. Qed.
  Lemma ideal_eqv ok ok2 n o psi phi : valid ok ok2 n o -> eqv n psi phi -> eqv n (ideal_call ci ch o psi) (ideal_call ci ch o phi).
  Proof.
    intros HV E. destruct o as [t|t|t|t|t|t|m t|a q t|a q t|a q t|a cs m t|a b|i a b]; cbn [ideal_call valid] in *; try (apply gate1_eqv; [|exact E]; first [exact HV|apply HV]).
    - apply swapped_eqv; [apply HV|apply HV|exact E].
    - intros x Hx. unfold iswapped. rewrite (E x Hx), (E (swap_bits a b x)); [reflexivity|]. apply swap_bits_lt; [apply HV|apply HV|exact Hx].
  Qed.
  Lemma unsure_eqv n anti q psi phi : eqv n psi phi -> unsure n anti q phi -> unsure n anti q psi.
  Proof. intros E (x & Hx & F & Z). exists x. split; [exact Hx|]. split; [exact F|]. rewrite (E x Hx). exact Z. Qed.
  Lemma call_unsure_eqv n o psi phi : eqv n psi phi -> call_unsure n o phi -> call_unsure n o psi.
  Proof. intros E. destruct o as [t|t|t|t|t|t|m t|a q t|a q t|a q t|a [|q [|q' l]] m t|a b|i a b]; cbn [call_unsure]; auto; apply unsure_eqv, E. Qed.
  Lemma run_unsure_eqv ok ok2 n p : forall psi phi, Forall (valid ok ok2 n) p -> eqv n psi phi -> run_unsure ci ch n p phi -> run_unsure ci ch n p psi.
  Proof.
    induction p as [|o p IH]; intros psi phi HV E; cbn [run_unsure]; [auto|]. intros [H1 H2]. inversion HV as [|? ? V1 V2]; subst. split; [apply (call_unsure_eqv n o psi phi E H1)|].
    apply (IH _ (ideal_call ci ch o phi) V2); [apply (ideal_eqv ok ok2 n o _ _ V1 E)|exact H2].
  Qed.
  Lemma run_eqv ok ok2 n p : forall psi phi, Forall (valid ok ok2 n) p -> eqv n psi phi -> eqv n (ideal_run ci ch p psi) (ideal_run ci ch p phi).
  Proof.
    induction p as [|o p IH]; intros psi phi HV E; [exact E|]. inversion HV as [|? ? V1 V2]; subst. apply (IH (ideal_call ci ch o psi) (ideal_call ci ch o phi) V2). apply (ideal_eqv ok ok2 n o _ _ V1 E).
  Qed.
  Lemma call_ok U o : good U -> valid (kc_ok c) (kc_ok2 c) (k_n U) o -> call_unsure (k_n U) o (joint U) -> exists V, k_call ci ch c o U = Ret V /\ becomes U V (ideal_call ci ch o (joint U)).
  Proof.
    intros G HV HU. destruct (unit_i ci ch A) as [I1 I2]. destruct o as [t|t|t|t|t|t|m t|a q t|a q t|a q t|a cs m t|a b|i a b]; cbn [k_call ideal_call valid call_unsure] in *.
    - apply k_gate_ok; [exact G|exact HV|apply (uni_H ci ch A)].
    - apply k_gate_ok; [exact G|exact HV|apply uni_X].
    - apply k_gate_ok; [exact G|exact HV|apply (uni_Y ci ch A)].
    - apply k_gate_ok; [exact G|exact HV|apply uni_Z].
    - apply k_gate_ok; [exact G|exact HV|apply uni_P; [apply unit_1|exact I1]].
    - apply k_gate_ok; [exact G|exact HV|apply uni_P; [apply unit_1|exact I2]].
    - destruct HV as (Ht & HM & Hok). unfold k_mtrx. destruct (N.leb_spec (k_n U) t); [lia|]. rewrite Hok. apply gate_ok; assumption.
    - destruct HV as (Hq & Ht & Hn). apply (cz_ok c D Sep); auto. apply unsure_not, HU.
    - destruct HV as (Hq & Ht & Hn). apply (CGate_ok c D Sep); auto; [apply (uni_Y ci ch A)|apply unsure_not, HU].
    - destruct HV as (Hq & Ht & Hn). apply (cnot_ok ci ch c D Sep A); auto. apply unsure_not, HU.
    - destruct HV as (Ht & HM & Hc). destruct cs as [|q [|q' l]]; [| |destruct Hc].
      + cbn [k_mc]. unfold k_mtrx. destruct (N.leb_spec (k_n U) t); [lia|]. rewrite Hc. apply (gate_ok U t m G Ht HM).
      + destruct Hc as (Hq & Hn & Hok). destruct (mc_ok ci ch c D Sep A U a q m t G Hq Ht Hn HM Hok (unsure_not U a q HU)) as (V & E & B). exists V. split; [exact E|].
        apply (becomes_same _ _ _ _ B). intros x. unfold gate1. cbn [forallb]. rewrite andb_true_r. reflexivity.
    - destruct HV as (Hq & Ht & Hn). apply swap_ok; assumption.
    - destruct HV as (Hq & Ht & Hn). apply (iswap_ok c D Sep); auto. destruct i; assumption.
  Qed.
  Lemma run_ok p : forall U, good U -> Forall (valid (kc_ok c) (kc_ok2 c) (k_n U)) p -> run_unsure ci ch (k_n U) p (joint U) ->
    exists V, k_run ci ch c p U = Ret V /\ good V /\ k_n V = k_n U /\ k_draw V = k_draw U /\ eqv (k_n U) (joint V) (ideal_run ci ch p (joint U)).
  Proof.
    induction p as [|o p IH]; intros U G HV HU.
    - exists U. split; [reflexivity|]. split; [exact G|]. split; [reflexivity|]. split; [reflexivity|intros x _; reflexivity].
    - inversion HV as [|? ? V1 V2]; subst. cbn [run_unsure] in HU. destruct HU as [U1 U2]. destruct (call_ok U o G V1 U1) as (V & E & (G1 & N1 & D1 & E1)). cbn [k_run]. rewrite E. cbn [bind].
      assert (EE : eqv (k_n U) (joint V) (ideal_call ci ch o (joint U))) by (intros x _; apply E1).
      destruct (IH V G1) as (X & EX & GX & NX & DX & JX); [rewrite N1; exact V2|rewrite N1; apply (run_unsure_eqv _ _ _ _ _ _ V2 EE U2)|].
      exists X. split; [exact EX|]. split; [exact GX|]. split; [congruence|]. split; [congruence|]. intros x Hx. rewrite N1 in JX. rewrite (JX x Hx). apply (run_eqv _ _ _ _ _ _ V2 EE x Hx).
  Qed.
  Theorem programs_ok n perm (ph : K) p : anorm ph = 1%amp -> perm < 2 ^ n -> Forall (valid (kc_ok c) (kc_ok2 c) n) p -> run_unsure ci ch n p (fun x => (ph * ket perm x)%amp) ->
    exists V, k_run ci ch c p (set_permutation n perm ph) = Ret V /\ forall x, x < 2 ^ n -> k_amplitude x V = Ret (ideal_run ci ch p (fun x => (ph * ket perm x)%amp) x).
  Proof.
    intros HP Hp HV HU. pose proof (perm_good n perm ph HP) as G. pose proof (perm_joint n perm ph HP Hp) as J.
    destruct (run_ok p (set_permutation n perm ph) G HV) as (V & E & GV & NV & _ & JV); [apply (run_unsure_eqv _ _ _ _ _ _ HV J HU)|].
    exists V. split; [exact E|]. intros x Hx. change (k_n (set_permutation n perm ph)) with n in NV, JV. rewrite (amplitude_ok V x (gd_wf V GV)) by (rewrite NV; exact Hx). rewrite (JV x Hx). f_equal. apply (run_eqv _ _ _ _ _ _ HV J x Hx).
  Qed.
  (** Prob after a program. *)
  Theorem prob_programs n perm (ph : K) p q : anorm ph = 1%amp -> perm < 2 ^ n -> Forall (valid (kc_ok c) (kc_ok2 c) n) p -> run_unsure ci ch n p (fun x => (ph * ket perm x)%amp) -> q < n ->
    exists V, k_run ci ch c p (set_permutation n perm ph) = Ret V /\ k_prob q V = Ret (weight_of n (fun x => N.testbit x q) (ideal_run ci ch p (fun x => (ph * ket perm x)%amp))).
  Proof.
    intros HP Hp HV HU Hq. pose proof (perm_good n perm ph HP) as G. pose proof (perm_joint n perm ph HP Hp) as J.
    destruct (run_ok p (set_permutation n perm ph) G HV) as (V & E & GV & NV & _ & JV); [apply (run_unsure_eqv _ _ _ _ _ _ HV J HU)|].
    change (k_n (set_permutation n perm ph)) with n in NV, JV. exists V. split; [exact E|]. rewrite (prob_ok V q GV) by (rewrite NV; exact Hq). f_equal. rewrite NV, <- wt_true. apply wt_eqv. intros y Hy. rewrite (JV y Hy). apply (run_eqv _ _ _ _ _ _ HV J y Hy).
  Qed.
End P.
