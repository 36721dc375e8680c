(** Proofs for QUnit: logical qubits and programs of gates. *)
From Coq Require Import Arith NArith List Bool Lia Ring.
From Verif Require Import Bits MFunctions SpecFunctions PFunctions MKernel PKernel Amp PAmp SpecState PApply PCompose PGates PGates2 PProb PQCirc2 PQCirc3 PEngine MShard SpecShard MUnit SpecUnit PShard1 PShard2 PShard3 PShard4 PShard5 PShard6 PShard7 PShard9 PUnit1 PUnit2 PUnit3 PUnit4 PUnit5 PUnit6 PUnit7 PUnit8 PUnit9 PUnit10 PUnit11 PUnit12 PUnit13 PUnit14 PUnit15 PUnit16 PUnit17 PUnit18 SpecUnit2 PUnit19.
Import ListNotations.
Local Open Scope N_scope.
Local Notation up n := (upto (N.to_nat n)).

(** ** The index of the positions for an index of the logical qubits *)
Definition phys (sw : N -> N) (n x : N) : N := fold_right (fun i a => if N.testbit x i then N.setbit a (sw i) else a) 0 (up n).
Definition bij (sw : N -> N) (n : N) : Prop := (forall i, i < n -> sw i < n) /\ (forall i j, i < n -> j < n -> sw i = sw j -> i = j) /\ (forall p, p < n -> exists i, i < n /\ sw i = p).
Lemma tb_phys_any sw n x j : N.testbit (phys sw n x) j = existsb (fun i => N.testbit x i && (sw i =? j)) (up n).
Proof.
  unfold phys. induction (up n) as [|i l IH]; cbn [fold_right existsb]; [apply N.bits_0|].
  destruct (N.testbit x i) eqn:E; cbn [andb orb]; [|exact IH]. rewrite tb_setbit, IH. reflexivity.
Qed.
Lemma tb_phys sw n x i : bij sw n -> i < n -> N.testbit (phys sw n x) (sw i) = N.testbit x i.
Proof.
  intros (B1 & B2 & _) Hi. rewrite tb_phys_any. apply eq_iff_eq_true. rewrite existsb_exists. split.
  - intros (j & Hj & H). apply up_in in Hj. apply andb_prop in H. destruct H as [H1 H2]. apply N.eqb_eq in H2. rewrite (B2 i j Hi Hj (eq_sym H2)). exact H1.
  - intros H. exists i. split; [apply up_in, Hi|]. rewrite H, N.eqb_refl. reflexivity.
Qed.
Lemma tb_phys_out sw n x p : bij sw n -> n <= p -> N.testbit (phys sw n x) p = false.
Proof.
  intros (B1 & _) Hp. rewrite tb_phys_any. apply not_true_iff_false. intros H. apply existsb_exists in H. destruct H as (j & Hj & H). apply up_in in Hj. apply andb_prop in H. destruct H as [_ H]. apply N.eqb_eq in H. specialize (B1 j Hj). lia.
Qed.
Lemma phys_is sw n x y : bij sw n -> (forall i, i < n -> N.testbit y (sw i) = N.testbit x i) -> (forall p, n <= p -> N.testbit y p = false) -> phys sw n x = y.
Proof.
  intros B H1 H2. apply N.bits_inj. intros p. destruct (N.lt_ge_cases p n) as [Hp|Hp].
  - destruct B as (B1 & B2 & B3). destruct (B3 p Hp) as (i & Hi & <-). rewrite (tb_phys sw n x i (conj B1 (conj B2 B3)) Hi). symmetry. apply H1, Hi.
  - rewrite (tb_phys_out sw n x p B Hp). symmetry. apply H2, Hp.
Qed.
Lemma phys_fx sw n t x : bij sw n -> t < n -> phys sw n (fx t x) = fx (sw t) (phys sw n x).
Proof.
  intros B Ht. pose proof B as (B1 & B2 & B3). apply phys_is; [exact B| |].
  - intros i Hi. destruct (N.eq_dec i t) as [->|Hn]; [rewrite !tb_fx_eq, tb_phys by assumption; reflexivity|].
    rewrite tb_fx_neq, (tb_fx_neq t) by (congruence || (intros E; apply Hn; symmetry; apply (B2 t i Ht Hi); congruence)). apply tb_phys; assumption.
  - intros p Hp. rewrite tb_fx_neq; [apply tb_phys_out; assumption|]. specialize (B1 t Ht). lia.
Qed.
Lemma phys_id n x : x < 2 ^ n -> phys (fun q => q) n x = x.
Proof.
  intros Hx. apply phys_is; [|reflexivity|].
  - split; [auto|]. split; [auto|]. intros p Hp. exists p. auto.
  - intros p Hp. destruct (N.eq_dec x 0) as [->|H0]; [apply N.bits_0|]. apply N.bits_above_log2. apply N.log2_lt_pow2 in Hx; lia.
Qed.
Definition swap_of (sw : N -> N) (a b : N) : N -> N := fun q => sw (if q =? a then b else if q =? b then a else q).
Lemma swapped_lt a b n i : a < n -> b < n -> i < n -> swapped a b i < n.
Proof. intros Ha Hb Hi. unfold swapped. destruct (i =? a); [exact Hb|]. destruct (i =? b); assumption. Qed.
Lemma swapped_twice a b i : swapped a b (swapped a b i) = i.
Proof.
  unfold swapped. destruct (N.eqb_spec i a) as [->|H1]; [destruct (N.eqb_spec b a) as [->|H2]; [reflexivity|rewrite N.eqb_refl; reflexivity]|].
  destruct (N.eqb_spec i b) as [->|H2]; [rewrite N.eqb_refl; reflexivity|]. destruct (N.eqb_spec i a); [contradiction|]. destruct (N.eqb_spec i b); [contradiction|reflexivity].
Qed.
Lemma swap_bij sw n a b : bij sw n -> a < n -> b < n -> bij (swap_of sw a b) n.
Proof.
  intros (B1 & B2 & B3) Ha Hb. split; [|split].
  - intros i Hi. apply B1. apply (swapped_lt a b n i Ha Hb Hi).
  - intros i j Hi Hj E. apply B2 in E; [|apply (swapped_lt a b n i Ha Hb Hi)|apply (swapped_lt a b n j Ha Hb Hj)]. rewrite <- (swapped_twice a b i), <- (swapped_twice a b j). change (swapped a b i = swapped a b j) in E. rewrite E. reflexivity.
  - intros p Hp. destruct (B3 p Hp) as (i & Hi & <-). exists (swapped a b i). split; [apply swapped_lt; assumption|]. unfold swap_of. fold (swapped a b (swapped a b i)). rewrite swapped_twice. reflexivity.
Qed.
Lemma phys_swap sw n a b x : bij sw n -> a < n -> b < n -> phys (swap_of sw a b) n x = phys sw n (swap_bits a b x).
Proof.
  intros B Ha Hb. apply phys_is; [apply swap_bij; assumption| |intros p Hp; apply tb_phys_out; assumption].
  intros i Hi. unfold swap_of. fold (swapped a b i). rewrite tb_phys by (exact B || apply swapped_lt; assumption). rewrite tb_swap. unfold swapped.
  destruct (N.eqb_spec i a) as [->|H1]; [destruct (N.eqb_spec a b) as [->|H2]; [|rewrite N.eqb_refl]; reflexivity|].
  destruct (N.eqb_spec i b) as [->|H2]; [rewrite N.eqb_refl; reflexivity|].
  destruct (N.eqb_spec a i); [congruence|]. destruct (N.eqb_spec b i); [congruence|reflexivity].
Qed.
Lemma swap_same a x : swap_bits a a x = x.
Proof. apply N.bits_inj. intros i. rewrite tb_swap. destruct (N.eqb_spec a i) as [->|]; reflexivity. Qed.

Section P.
  Context {K : StarRing} (cx : Cplx K) (D : definite (K := K)).
  Add Ring KrCI : (sr_ring K).
  Local Notation vec := (N -> K).
  Local Notation unit1 x := (anorm x = 1%amp).
  Local Notation M2 := (mat2 K).
  Local Notation qu := (qunit K).
  Local Notation meaning := (meaning cx).
  Local Notation good := (good cx).
  Local Notation keeps := (keeps cx).
  Implicit Types (U V : qu) (psi phi : vec) (L : N -> Prop) (R : N -> N -> Prop).

  (** ** The state of the logical qubits *)
  Definition at_logical U psi : vec := fun x => psi (phys (u_sw U) (u_n U) x).
  Definition logical U : vec := at_logical U (meaning U).
  Lemma logical_gate U (P P' : N -> bool) t (m : M2) psi x : good U -> t < u_n U -> (forall y, P (phys (u_sw U) (u_n U) y) = P' y) ->
    at_logical U (gate1 P (u_sw U t) m psi) x = gate1 P' t m (at_logical U psi) x.
  Proof.
    intros G Ht HP. pose proof (wf_sw U (gd_wf cx U G)) as B. unfold at_logical. rewrite (gate1_at P), (gate1_at P'), HP, (tb_phys (u_sw U) (u_n U) x t B Ht), (phys_fx (u_sw U) (u_n U) t x B Ht). reflexivity.
  Qed.
  Lemma like_at U V psi phi : u_n V = u_n U -> u_sw V = u_sw U -> like psi phi -> like (at_logical V psi) (at_logical U phi).
  Proof. intros E1 E2 (c & Hc & H). exists c. split; [exact Hc|]. intros x. unfold at_logical. rewrite E1, E2. apply H. Qed.
  Definition track R U : Prop := forall c t, links U c t -> exists i j, R i j /\ i < u_n U /\ j < u_n U /\ u_sw U i = c /\ u_sw U j = t.
  Lemma track_open n R U q psi : good U -> u_n U = n -> upto_phase n (logical U) psi -> track R U -> q < n -> (forall p, R q p -> undecided n p psi) -> open_at cx (u_sw U q) U.
  Proof.
    intros G En (c & Hc & HL) T Hq HU p Hl. pose proof (wf_sw U (gd_wf cx U G)) as B. pose proof B as (B1 & B2 & _). destruct (T _ _ Hl) as (i & j & Hij & Hi & Hj & Ei & Ej). rewrite <- En in Hq. rewrite (B2 i q Hi Hq Ei) in Hij. subst p.
    assert (Z : forall v, ~ supported (u_sw U j) (negb v) (meaning U)).
    { intros v S. destruct (HU j Hij v) as (x & Hx & Hb & Hne). apply Hne. assert (E : logical U x = 0%amp).
      { apply (S (phys (u_sw U) (u_n U) x)). rewrite (tb_phys (u_sw U) (u_n U) x j B Hj), Hb. destruct v; discriminate. }
      rewrite (HL x Hx) in E. unfold anorm in Hc. transitivity (c * sr_conj c * psi x)%amp; [rewrite Hc; ring|]. transitivity (sr_conj c * (c * psi x))%amp; [ring|]. rewrite E. ring. }
    split; [apply (Z true)|apply (Z false)].
  Qed.
  Lemma upto_like n (psi phi chi : vec) : like psi phi -> upto_phase n phi chi -> upto_phase n psi chi.
  Proof. intros (c & Hc & H) (e & He & H'). exists (c * e)%amp. split; [rewrite anorm_mul, Hc, He; ring|]. intros x Hx. rewrite H, H' by exact Hx. ring. Qed.
  Record step_ok R (g : ugate) U V : Prop := mkStep { st_good : good V; st_like : like (logical V) (ideal cx g (logical U)); st_n : u_n V = u_n U; st_track : track (relink cx g R) V; st_rgp : u_rgp V = u_rgp U /\ u_rnd V = u_rnd U }.
  Lemma done_step R U V q (m : M2) g : good U -> q < u_n U -> track R U -> done cx (fun c t => t = u_sw U q /\ hadamards cx g q /\ links U (u_sw U q) c) (gate1 always (u_sw U q) m) U V -> (forall psi, ideal cx g psi = gate1 always q m psi) ->
    (forall a b, g <> USwap a b) -> step_ok R g U V.
  Proof.
    intros G Hq T [A1 A2 (A3 & A4 & A5 & _ & A7 & _) A6] Hg Ns. split; [exact A1| |exact A4| |split; [exact A3|exact A7]].
    - rewrite Hg. eapply like_trans; [apply (like_at U V _ _ A4 A5 A2)|]. apply like_ss. intros x. apply logical_gate; auto.
    - intros c t Hc. rewrite A4, A5. destruct (A6 c t Hc) as [H|(-> & Hh & H)].
      + destruct (T c t H) as (i & j & Hij & Q). exists i, j. split; [|exact Q]. destruct g; try (left; exact Hij). destruct (Ns a b eq_refl).
      + destruct (T _ _ H) as (i & j & Hij & Hi & Hj & Ei & Ej). destruct (wf_sw U (gd_wf cx U G)) as (_ & B2 & _). rewrite (B2 i q Hi Hq Ei) in Hij. exists j, q. split; [|auto].
        destruct g; try (right; left; split; assumption). destruct (Ns a b eq_refl).
  Qed.
  Lemma holds_phys U cs y : good U -> (forall cv, In cv cs -> fst cv < u_n U) -> holds (map (fun cv => (u_sw U (fst cv), snd cv)) cs) (phys (u_sw U) (u_n U) y) = holds cs y.
  Proof.
    intros G. unfold holds. induction cs as [|[c v] cs IH]; intros HR; [reflexivity|]. cbn [map forallb fst snd].
    rewrite (tb_phys (u_sw U) (u_n U) y c (wf_sw U (gd_wf cx U G)) (HR (c, v) (or_introl eq_refl))), IH; [reflexivity|]. intros cv H. apply HR. right. exact H.
  Qed.
  (** QSwap only renames. *)
  Lemma good_sw f U : bij f (u_n U) -> good U -> good (set_sw f U).
  Proof.
    intros B [[W1 W2 W3 W4 W5 W6] [N1 N2] T Li Ub]. split; [|split; assumption|exact T|exact Li|exact Ub]. split; assumption.
  Qed.
  Lemma swap_step R a b U : good U -> a < u_n U -> b < u_n U -> track R U -> step_ok R (USwap a b) U (QSwap a b U).
  Proof.
    intros G Ha Hb T. pose proof (wf_sw U (gd_wf cx U G)) as B. unfold QSwap. destruct (N.eqb_spec a b) as [->|Hab].
    - split; [exact G| |reflexivity| |split; reflexivity].
      + apply like_ss. intros x. cbn [ideal]. rewrite swap_same. reflexivity.
      + intros c t Hc. destruct (T c t Hc) as (i & j & Hij & E). exists i, j. split; [|exact E]. assert (Z : forall k, swapped b b k = k) by (intros k; unfold swapped; destruct (N.eqb_spec k b) as [->|]; reflexivity). cbn [relink]. rewrite !Z. exact Hij.
    - fold (swap_of (u_sw U) a b). split; [apply good_sw; [apply swap_bij; assumption|exact G]| |reflexivity| |split; reflexivity].
      + apply like_ss. intros x. unfold logical, at_logical. cbn [ideal]. change (u_sw (set_sw (swap_of (u_sw U) a b) U)) with (swap_of (u_sw U) a b). change (u_n (set_sw (swap_of (u_sw U) a b) U)) with (u_n U).
        rewrite (phys_swap (u_sw U) (u_n U) a b x B Ha Hb). reflexivity.
      + intros c t Hc. destruct (T c t Hc) as (i & j & Hij & Hi & Hj & Ei & Ej). exists (swapped a b i), (swapped a b j). split; [cbn [relink]; rewrite !swapped_twice; exact Hij|]. split; [apply swapped_lt; assumption|]. split; [apply swapped_lt; assumption|].
        change (swap_of (u_sw U) a b (swapped a b i) = c /\ swap_of (u_sw U) a b (swapped a b j) = t). unfold swap_of. fold (swapped a b (swapped a b i)). fold (swapped a b (swapped a b j)). rewrite !swapped_twice. auto.
  Qed.
  Lemma ctrl_step n R cs (m : M2) t U psi : good U -> u_n U = n -> t < n -> (forall cv, In cv cs -> fst cv < n /\ fst cv <> t) -> unitary2 m -> upto_phase n (logical U) psi -> track R U -> (h_like cx m -> forall p, R t p -> undecided n p psi) ->
    step_ok R (UCtrl cs m t) U (invoke cx (UCtrl cs m t) U).
  Proof.
    intros G En Ht HR Um HP T Hh. cbn [invoke]. pose proof (wf_sw U (gd_wf cx U G)) as (B1 & B2 & B3). set (l := map (fun cv => (u_sw U (fst cv), snd cv)) cs). rewrite <- En in Ht.
    assert (HR' : forall cv, In cv cs -> fst cv < u_n U /\ fst cv <> t) by (rewrite En; exact HR).
    assert (Hl : forall c v, In (c, v) l -> exists i, In (i, v) cs /\ c = u_sw U i).
    { intros c v H. apply in_map_iff in H. destruct H as ([i w] & E & H). cbn [fst snd] in E. injection E as <- <-. exists i. auto. }
    destruct (ucmtrx_ok cx D (fun c p => p = u_sw U t /\ ((exists i v, In (i, v) cs /\ c = u_sw U i) \/ (h_like cx m /\ links U (u_sw U t) c))) l m (u_sw U t) U) as [A1 A2 (A3 & A4 & A5 & _ & A7 & _) A6]; auto.
    - destruct (ctl l (u_sw U t)) eqn:E; [|reflexivity]. apply ctl_iff in E. destruct E as (v & Hin). destruct (Hl _ _ Hin) as (i & Hi & E). destruct (HR' (i, v) Hi) as [Q1 Q2]. destruct Q2. cbn [fst]. symmetry. apply B2; auto.
    - intros c v Hin. destruct (Hl _ _ Hin) as (i & Hi & ->). apply B1, (HR' (i, v) Hi).
    - intros c v Hin. destruct (Hl _ _ Hin) as (i & Hi & ->). split; [reflexivity|]. left. exists i, v. auto.
    - intros H. split; [apply (track_open n R U t psi); auto; rewrite <- En; exact Ht|]. intros c p [-> Hc]. auto.
    - split; [exact A1| |exact A4| |split; [exact A3|exact A7]].
      + eapply like_trans; [apply (like_at U _ _ _ A4 A5 A2)|]. apply like_ss. intros x. cbn [ideal]. apply logical_gate; [exact G|exact Ht|]. intros y. apply holds_phys; [exact G|]. intros cv H. apply (HR' cv H).
      + intros c p Hc. rewrite A4, A5. destruct (A6 c p Hc) as [E|[-> [(i & v & Hi & ->)|[Hm E]]]].
        * destruct (T c p E) as (i & j & Hij & E'). exists i, j. split; [left; exact Hij|exact E'].
        * exists i, t. split; [right; right; split; [reflexivity|apply (in_map fst) in Hi; exact Hi]|]. split; [apply (HR' (i, v) Hi)|]. auto.
        * destruct (T _ _ E) as (i & j & Hij & Hi & Hj & Ei & Ej). rewrite (B2 i t Hi Ht Ei) in Hij. exists j, t. split; [right; left; split; [split; [exact Hm|reflexivity]|exact Hij]|auto].
  Qed.

  (** ** Programs *)
  Lemma fx_lt n t x : t < n -> x < 2 ^ n -> fx t x < 2 ^ n.
  Proof. intros Ht Hx. apply lxor_lt_pow2; [exact Hx|]. apply N.pow_lt_mono_r; lia. Qed.
  Lemma ideal_upto n g (psi phi : vec) : proper_gate n g -> upto_phase n psi phi -> upto_phase n (ideal cx g psi) (ideal cx g phi).
  Proof.
    intros Hg (c & Hc & H). exists c. split; [exact Hc|]. intros x Hx.
    assert (Z : forall P t m, t < n -> gate1 P t m psi x = (c * gate1 P t m phi x)%amp) by (intros P t m Ht; rewrite !gate1_at, H, H by (exact Hx || apply fx_lt; assumption); ring).
    destruct g; cbn [ideal proper_gate] in *; try (apply Z; tauto). apply H, PGates2.swap_bits_lt; tauto.
  Qed.
  Lemma one_step n R g U psi : good U -> u_n U = n -> proper_gate n g -> track R U -> (forall q p, hadamards cx g q -> R q p -> undecided n p psi) -> upto_phase n (logical U) psi -> step_ok R g U (invoke cx g U).
  Proof.
    intros G En Hg T H0 HL. assert (OP : forall q, q < n -> hadamards cx g q -> open_at cx (u_sw U q) U) by (intros q Hq Hh; apply (track_open n R U q psi); auto; intros p; apply (H0 q p Hh)).
      destruct g as [q|q|q|x y q|x y q|m q|cs m t|a b]; cbn [proper_gate] in Hg; pose proof (wf_sw U (gd_wf cx U G)) as (B1 & _); rewrite <- En in Hg.
      - apply (done_step R U _ q (mH cx)); auto; [|discriminate]. apply (done_mono cx (turned U (u_sw U q))); [apply gateh_open; auto; apply OP; [rewrite <- En; exact Hg|reflexivity]|]. intros c t [-> Hc]. right. repeat split; assumption.
      - apply (done_step R U _ q (phaseM 1 (cx_i cx))%amp); auto; [|discriminate]. apply does_done, gates_ok; auto.
      - apply (done_step R U _ q (phaseM 1 (- cx_i cx))%amp); auto; [|discriminate]. apply does_done, gateis_ok; auto.
      - destruct Hg as (H1 & H2 & H3). apply (done_step R U _ q (phaseM x y)); auto; [|discriminate]. apply does_done, phase_ok; auto.
      - destruct Hg as (H1 & H2 & H3). apply (done_step R U _ q (invertM x y)); auto; [|discriminate]. apply does_done, invert_ok; auto.
      - destruct Hg as (H1 & H2). apply (done_step R U _ q m); auto; [|discriminate]. apply mtrx_ok; auto. intros Hm. split; [apply OP; [rewrite <- En; exact H1|split; [exact Hm|reflexivity]]|]. intros c t [-> Hc]. split; [reflexivity|]. split; [split; [exact Hm|reflexivity]|exact Hc].
      - destruct Hg as (_ & H1 & H2 & H3). rewrite En in H1, H2. apply (ctrl_step n R cs m t U psi); auto. intros Hm p. apply H0. split; [exact Hm|reflexivity].
      - destruct Hg as (H1 & H2). apply swap_step; auto.
  Qed.
  Lemma run_ok n gs : forall R U psi, good U -> u_n U = n -> Forall (proper_gate n) gs -> track R U -> h_open cx n R psi gs -> upto_phase n (logical U) psi ->
    good (run cx gs U) /\ upto_phase n (logical (run cx gs U)) (ideal_run cx gs psi) /\ u_n (run cx gs U) = n /\ u_rgp (run cx gs U) = u_rgp U /\ u_rnd (run cx gs U) = u_rnd U.
  Proof.
    induction gs as [|g gs IH]; intros R U psi G En HF T HH HL; [split; [exact G|]; split; [exact HL|split; [exact En|split; reflexivity]]|].
    inversion HF as [|g' gs' Hg HF' E]; subst g' gs'. destruct HH as [H0 HH].
    assert (Z : step_ok R g U (invoke cx g U)) by (apply (one_step n R g U psi); assumption).
    destruct Z as [Z1 Z2 Z3 Z4 [Z5 Z6]]. change (run cx (g :: gs) U) with (run cx gs (invoke cx g U)). change (ideal_run cx (g :: gs) psi) with (ideal_run cx gs (ideal cx g psi)).
    destruct (IH (relink cx g R) (invoke cx g U) (ideal cx g psi) Z1) as (I1 & I2 & I3 & I4 & I5); auto; [congruence| |split; [exact I1|]; split; [exact I2|]; split; [exact I3|]; split; congruence].
    eapply upto_like; [exact Z2|]. apply ideal_upto; assumption.
  Qed.
  (** The static condition. *)
  Lemma first_open n gs : forall (used : list N) R psi, (forall c t, R c t -> In c used) -> h_first cx used gs -> h_open cx n R psi gs.
  Proof.
    induction gs as [|g gs IH]; intros used R psi HR HH; [exact I|]. cbn [h_open]. split.
    - intros q p Hq Hl. exfalso. apply HR in Hl. destruct g; cbn [hadamards h_first] in *; try contradiction; [subst; tauto| |]; destruct Hq as [Hm ->]; destruct HH as [H _]; apply (H Hm Hl).
    - destruct g as [q|q|q|x y q|x y q|m q|cs m t|a b]; cbn [h_first] in HH.
      1: apply (IH used); [|apply HH]; intros c p [H|[[H H']|[]]]; [apply (HR c p H)|]. 1: cbn [hadamards] in H; subst p; apply HR in H'; tauto.
      1-4: apply (IH used); [|exact HH]; intros c p [H|[[[] _]|[]]]; apply (HR c p H).
      1: apply (IH used); [|apply HH]; intros c p [H|[[[Hm ->] H']|[]]]; [apply (HR c p H)|apply HR in H'; destruct HH as [H _]; destruct (H Hm H')].
      1: apply (IH (map fst cs ++ used)); [|apply HH]; intros c p [H|[[[Hm ->] H']|[-> H]]]; apply in_or_app; [right; apply (HR c p H)|apply HR in H'; destruct HH as [H _]; destruct (H Hm H')|left; exact H].
      apply (IH (map (swapped a b) used)); [|exact HH]. intros c p H. cbn [relink] in H. apply HR, (in_map (swapped a b)) in H. rewrite swapped_twice in H. exact H.
  Qed.
End P.
