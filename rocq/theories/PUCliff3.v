(** Proofs for QUnitClifford: programs. *)
From Coq Require Import Arith NArith List Bool Lia Ring Permutation.
From Verif Require Import Bits MFunctions SpecFunctions PFunctions MKernel PKernel Amp PAmp SpecState PApply PCompose PGates PGates2 PQCirc2 PQCirc3 PEngine MShard SpecShard MUnit PShard1 PShard2 PShard5 PUnit1 PUnit2 PUnit3 PUnit4 PQCirc6 PUnitW PUnit6 PUnit9 MTensor MUCliff SpecUCliff PUCliff1 PUCliff2.
Import ListNotations.
Local Open Scope N_scope.
Local Notation up n := (upto (N.to_nat n)).

Section P.
  Context {K : StarRing} (ci ch : K) (c : kcfg K) (D : definite (K := K)) (Sep : sep_ok c) (A : amps_ok ci ch).
  Add Ring KrED : (sr_ring K).
  Local Notation vec := (N -> K).
  Local Notation uk := (ucliff K).
  Local Notation M2 := (mat2 K).
  Local Notation mH := (mH ch).
  Local Notation mY := (mY ci).
  Local Notation fires := SpecUCliff.fires.
  Local Notation good := PUCliff2.good.
  Implicit Types (U V : uk) (v psi : vec) (m : M2).

  (** ** Matrices *)
  Lemma conj_0' : sr_conj (0 : K)%amp = 0%amp. Proof. apply conj_0. Qed.
  Lemma unit_i : anorm ci = 1%amp /\ anorm (- ci)%amp = 1%amp.
  Proof. destruct A as (A1 & A2 & _). unfold anorm. rewrite ?conj_opp, A2. split; [transitivity (- (ci * ci))%amp; [ring|rewrite A1; ring]|transitivity (- (ci * ci))%amp; [ring|rewrite A1; ring]]. Qed.
  Lemma unit_m1 : anorm (- (1) : K)%amp = 1%amp.
  Proof. unfold anorm. rewrite conj_opp, conj_1. ring. Qed.
  Lemma unit_1 : anorm (1 : K)%amp = 1%amp.
  Proof. unfold anorm. rewrite conj_1. ring. Qed.
  Lemma uni_H : unitary2 mH.
  Proof.
    destruct A as (_ & _ & A3 & A4). unfold unitary2, mmul, mdag, midn, MUCliff.mH. cbn [m00 m01 m10 m11]. rewrite conj_opp, A4. f_equal; try ring; try (rewrite <- A3; ring).
  Qed.
  Lemma uni_X : unitary2 (mX : M2). Proof. apply anti_unitary; apply unit_1. Qed.
  Lemma uni_Y : unitary2 mY. Proof. apply anti_unitary; apply unit_i. Qed.
  Lemma uni_P (a b : K) : anorm a = 1%amp -> anorm b = 1%amp -> unitary2 (mkMat a 0 0 b)%amp. Proof. apply diag_unitary. Qed.
  Lemma uni_Z : unitary2 (mZ : M2). Proof. apply uni_P; [apply unit_1|apply unit_m1]. Qed.

  Lemma HH t psi : same_state (gate1 always t mH (gate1 always t mH psi)) psi.
  Proof.
    intros x. destruct A as (_ & _ & A3 & _). rewrite gate1_compose by (intros y; split; reflexivity).
    transitivity (gate1 always t midn psi x); [|apply gate1_one]. f_equal. unfold mmul, midn, MUCliff.mH. cbn [m00 m01 m10 m11]. f_equal; try ring; rewrite <- A3; ring.
  Qed.
  Lemma gate_local P t m (f g : vec) x : f x = g x -> f (fx t x) = g (fx t x) -> gate1 P t m f x = gate1 P t m g x.
  Proof. intros E F. rewrite !gate1_at, E, F. reflexivity. Qed.
  Lemma HZH P t psi : indep P t -> same_state (gate1 always t mH (gate1 P t mZ (gate1 always t mH psi))) (gate1 P t mX psi).
  Proof.
    intros HP x. destruct A as (_ & _ & A3 & _). assert (IA : indep always t) by (intros y; split; reflexivity). assert (Pf := indep_fx P t x HP). destruct (P x) eqn:E.
    - assert (R : forall y m phi, P y = true -> gate1 P t m phi y = gate1 always t m phi y) by (intros y m phi Hy; rewrite !gate1_at, Hy; reflexivity).
      rewrite (R x mX) by exact E. rewrite (gate_local always t mH _ (gate1 always t mZ (gate1 always t mH psi))) by (apply R; assumption).
      rewrite (gate_local always t mH _ (gate1 always t (mmul mZ mH) psi)) by (apply gate1_compose, IA). rewrite gate1_compose by exact IA.
      f_equal. unfold mmul, MUCliff.mH, mX, mZ. cbn [m00 m01 m10 m11]. f_equal; try ring; (transitivity (ch * ch + ch * ch)%amp; [ring|exact A3]).
    - assert (R : forall y m phi, P y = false -> gate1 P t m phi y = phi y) by (intros y m phi Hy; unfold gate1; rewrite Hy; reflexivity).
      rewrite (R x mX) by exact E. rewrite (gate_local always t mH _ (gate1 always t mH psi)) by (apply R; assumption). apply HH.
  Qed.
  Lemma diag_at P t (a b : K) psi x : gate1 P t (mkMat a 0 0 b)%amp psi x = if P x then ((if N.testbit x t then b else a) * psi x)%amp else psi x.
  Proof. rewrite gate1_at. unfold dia, off. cbn [m00 m01 m10 m11]. destruct (P x), (N.testbit x t); ring. Qed.
  Lemma sup_gate q b P t m psi : q <> t -> supported q b psi -> supported q b (gate1 P t m psi).
  Proof.
    intros Hq HS x Hx. rewrite gate1_at, (HS x Hx), (HS (fx t x)); [ring|]. rewrite tb_fx_neq by congruence. exact Hx.
  Qed.

  (** ** Controlled gates *)
  Lemma cz_ok U anti q t : good U -> q < k_n U -> t < k_n U -> q <> t -> ~ supported q (negb anti) (joint U) ->
    exists V, k_cz c anti q t U = Ret V /\ becomes U V (gate1 (fires anti q) t mZ (joint U)).
  Proof.
    intros G Hq Ht Hqt HU. unfold k_cz. rewrite (prob_ok U t G Ht). cbn [bind]. destruct (definitely true (wt (k_n U) t true (joint U))) eqn:E.
    - apply (definitely_ok D U t true G Ht) in E.
      destruct (k_gate_ok U q (if anti then mkMat (- (1)) 0 0 1 else mZ)%amp G Hq) as (V & EV & B); [destruct anti; [apply uni_P; [apply unit_m1|apply unit_1]|apply uni_Z]|].
      exists V. split; [exact EV|]. apply (becomes_same _ _ _ _ B). intros x. unfold mZ. rewrite diag_at. destruct (N.testbit x t) eqn:Et.
      + destruct anti; rewrite diag_at; unfold always, SpecUCliff.fires; destruct (N.testbit x q); cbn [negb]; ring.
      + rewrite (E x) by (rewrite Et; discriminate). destruct anti; rewrite diag_at; unfold always; rewrite (E x) by (rewrite Et; discriminate); destruct (fires _ q x), (N.testbit x q); ring.
    - apply (CGate_ok c D Sep); auto. apply uni_Z.
  Qed.
  Lemma cnot_ok U anti q t : good U -> q < k_n U -> t < k_n U -> q <> t -> ~ supported q (negb anti) (joint U) ->
    exists V, k_cnot ch c anti q t U = Ret V /\ becomes U V (gate1 (fires anti q) t mX (joint U)).
  Proof.
    intros G Hq Ht Hqt HU. unfold k_cnot. destruct (k_gate_ok U t mH G Ht uni_H) as (U1 & -> & (G1 & N1 & D1 & E1)). cbn [bind].
    assert (Hq1 : q < k_n U1) by (rewrite N1; exact Hq). assert (Ht1 : t < k_n U1) by (rewrite N1; exact Ht).
    assert (HU1 : ~ supported q (negb anti) (joint U1)).
    { intros F. apply HU. intros x Hx. rewrite <- (HH t (joint U) x). apply (sup_gate q (negb anti)); [exact Hqt| |exact Hx]. intros y Hy. rewrite <- E1. apply F, Hy. }
    unfold k_separable_z. rewrite (prob_ok U1 t G1 Ht1). cbn [bind]. destruct (_ || _).
    - destruct (cz_ok U1 anti q t G1 Hq1 Ht1 Hqt HU1) as (U2 & -> & (G2 & N2 & D2 & E2)). cbn [bind].
      destruct (k_gate_ok U2 t mH G2 ltac:(rewrite N2; exact Ht1) uni_H) as (V & -> & B). exists V. split; [reflexivity|].
      apply (becomes_by U U2); [congruence|congruence|]. apply (becomes_same _ _ _ _ B). intros x. rewrite <- (HZH (fires anti q) t (joint U) (fires_indep anti q t Hqt) x).
      apply gate_same. intros y. rewrite E2. apply gate_same, E1.
    - destruct (k_gate_ok U1 t mH G1 Ht1 uni_H) as (U2 & -> & (G2 & N2 & D2 & E2)). cbn [bind].
      assert (J : same_state (joint U2) (joint U)) by (intros x; rewrite E2, <- (HH t (joint U) x); apply gate_same, E1).
      destruct (CGate_ok c D Sep U2 anti true q t mX G2) as (V & -> & B); [congruence|congruence|exact Hqt|apply uni_X|intros F; apply HU; intros x Hx; rewrite <- J; apply F, Hx|].
      exists V. split; [reflexivity|]. apply (becomes_by U U2); [congruence|congruence|]. apply (becomes_same _ _ _ _ B). apply gate_same, J.
  Qed.
  Lemma mc_ok U anti q m t : good U -> q < k_n U -> t < k_n U -> q <> t -> unitary2 m -> kc_ok2 c anti m = true -> ~ supported q (negb anti) (joint U) ->
    exists V, k_mc ch c anti [q] m t U = Ret V /\ becomes U V (gate1 (fires anti q) t m (joint U)).
  Proof.
    intros G Hq Ht Hqt HM Hok HU. unfold k_mc. destruct (N.leb_spec (k_n U) t); [lia|]. destruct (N.leb_spec (k_n U) q); [lia|]. cbn [orb]. rewrite Hok.
    assert (CG := CGate_ok c D Sep U anti (kc_ok c m) q t m G Hq Ht Hqt HM HU).
    destruct (sr_eqb (m01 m) 0 && sr_eqb (m10 m) 0) eqn:E1.
    - destruct (sr_eqb (m00 m) 1 && sr_eqb (m11 m) (- (1)))%amp eqn:E2; [|exact CG]. apply andb_true_iff in E1. apply andb_true_iff in E2. rewrite !sr_eqb_ok in E1, E2. destruct E1, E2.
      replace m with (mZ : M2) by (destruct m; cbn in *; subst; reflexivity). apply cz_ok; assumption.
    - destruct (sr_eqb (m00 m) 0 && sr_eqb (m11 m) 0) eqn:E2; [|exact CG]. destruct (sr_eqb (m01 m) 1 && sr_eqb (m10 m) 1)%amp eqn:E3; [|exact CG].
      apply andb_true_iff in E2. apply andb_true_iff in E3. rewrite !sr_eqb_ok in E2, E3. destruct E2, E3.
      replace m with (mX : M2) by (destruct m; cbn in *; subst; reflexivity). apply cnot_ok; assumption.
  Qed.

  (** ** Swaps *)
  Definition tr (a b p : N) : N := if p =? a then b else if p =? b then a else p.
  Lemma tr_tr a b p : tr a b (tr a b p) = p.
  Proof. unfold tr. destruct (N.eqb_spec p a) as [->|Ha]; [destruct (N.eqb_spec b a); [congruence|rewrite N.eqb_refl; reflexivity]|]. destruct (N.eqb_spec p b) as [->|Hb]; [rewrite N.eqb_refl; reflexivity|]. destruct (N.eqb_spec p a); [contradiction|]. destruct (N.eqb_spec p b); [contradiction|reflexivity]. Qed.
  Lemma tr_lt a b p n : a < n -> b < n -> p < n -> tr a b p < n.
  Proof. unfold tr. destruct (p =? a), (p =? b); auto. Qed.
  Lemma tb_tr a b x p : N.testbit (swap_bits a b x) p = N.testbit x (tr a b p).
  Proof. rewrite tb_swap. unfold tr. rewrite ?(N.eqb_sym _ p). destruct (N.eqb_spec p a) as [->|Ea]; [destruct (N.eqb_spec a b) as [->|]; reflexivity|]. destruct (N.eqb_spec p b) as [->|]; reflexivity. Qed.
  Lemma tb_sw a b x p : N.testbit (swap_bits a b x) p = if p =? a then N.testbit x b else if p =? b then N.testbit x a else N.testbit x p.
  Proof. rewrite tb_tr. unfold tr. destruct (p =? a), (p =? b); reflexivity. Qed.
  Lemma swap_ok U a b : good U -> a < k_n U -> b < k_n U -> a <> b -> exists V, k_swap a b U = Ret V /\ becomes U V (swapped a b (joint U)).
  Proof.
    intros [W P] Ha Hb Hab. unfold k_swap. destruct (N.leb_spec (k_n U) a); [lia|]. destruct (N.leb_spec (k_n U) b); [lia|]. cbn [orb]. destruct (N.eqb_spec a b); [contradiction|].
    eexists. split; [reflexivity|]. set (V := set_shards _ U).
    assert (SV : forall p, k_sh V p = k_sh U (tr a b p)) by (intros p; unfold V, set_shards, tr; cbn [k_sh]; destruct (p =? a), (p =? b); reflexivity).
    assert (CV : forall p, csh V p = csh U (tr a b p)) by (intros p; unfold csh; rewrite SV; reflexivity).
    assert (L := kw_placed U W).
    assert (L' : placed (k_n V) (k_next V) (csh V) (k_eng V)).
    { split; change (k_n V) with (k_n U); change (k_next V) with (k_next U); change (k_eng V) with (k_eng U).
      - intros p u Hp E. rewrite CV in *. apply (pl_in _ _ _ _ L); [apply tr_lt; assumption|exact E].
      - intros p p' u Hp Hp' E E' M. rewrite !CV in *. rewrite <- (tr_tr a b p), <- (tr_tr a b p'). f_equal. apply (pl_inj _ _ _ _ L _ _ u); try assumption; apply tr_lt; assumption.
      - intros u j Hu Hj. destruct (pl_cov _ _ _ _ L u j Hu Hj) as (p & Hp & E & M). exists (tr a b p). rewrite CV, tr_tr. split; [apply tr_lt; assumption|]. split; assumption. }
    split; [split; [split; [exact L'|apply W|apply W]|exact P]|]. split; [reflexivity|]. split; [reflexivity|].
    intros x. unfold joint, swapped, parts. change (k_ph V) with (k_ph U). f_equal. unfold base_of. change (k_n V) with (k_n U). change (k_next V) with (k_next U). change (k_eng V) with (k_eng U).
    f_equal. apply aprod_ext. intros u Hu. apply up_in in Hu. f_equal.
    apply (gather_eq _ _ _ _ L' u); [exact Hu|apply (gather_lt _ _ _ _ L)|]. intros p Hp E. rewrite CV in *. rewrite (gather_bit _ _ _ _ L) by (exact E || (apply tr_lt; assumption)).
    rewrite tb_tr, tr_tr. reflexivity.
  Qed.
  Lemma iswap_put U a b (f : K) : good U -> a < k_n U -> b < k_n U -> a <> b -> k_unit U a = k_unit U b -> anorm f = 1%amp ->
    exists V, u_iswap (k_unit U a) (k_map U a) (k_map U b) f U = Ret V /\ becomes U V (iswapped f a b (joint U)).
  Proof.
    intros [W P] Ha Hb Hab EU Hf. destruct (kw_in U a W Ha) as [Hu Ba]. destruct (kw_in U b W Hb) as [_ Bb]. rewrite <- EU in Bb. unfold u_iswap.
    destruct (N.ltb_spec (k_map U a) (k_size U (k_unit U a))); [|lia]. destruct (N.ltb_spec (k_map U b) (k_size U (k_unit U a))); [|lia]. cbn [andb]. eexists. split; [reflexivity|].
    set (u := k_unit U a) in *. set (ma := k_map U a) in *. set (mb := k_map U b) in *. set (n := k_size U u) in *. set (V := put_unit u n _ U). assert (L := kw_placed U W).
    assert (NE : norm2 n (iswap ma mb f (k_vec U u)) = 1%amp).
    { rewrite <- (kw_norm U W u Hu). fold n. unfold norm2. transitivity (asum (fun x => anorm (k_vec U u (swap_bits ma mb x))) (basis n)).
      - apply asum_ext. intros x _. unfold iswap. destruct (xorb (N.testbit x ma) (N.testbit x mb)) eqn:E; [rewrite anorm_mul, Hf; ring|]. do 2 f_equal. apply N.bits_inj. intros j. rewrite tb_sw.
        apply xorb_eq in E. destruct (N.eqb_spec j ma) as [Ej|]; [rewrite Ej; exact E|]. destruct (N.eqb_spec j mb) as [Ej|]; [rewrite Ej; symmetry; exact E|reflexivity].
      - pose proof (PQCirc6.weight_swap n (fun _ => true) ma mb (k_vec U u) Ba Bb (fun _ => eq_refl)) as HW. unfold weight_of in HW. exact HW. }
    split; [split; [apply put_wf; auto; lia|exact P]|]. split; [reflexivity|]. split; [reflexivity|].
    intros x. unfold joint, iswapped. change (k_ph V) with (k_ph U). unfold parts. change (k_n V) with (k_n U). change (k_next V) with (k_next U). change (csh V) with (csh U).
    rewrite (base_at (k_n U) (k_next U) (csh U) (k_eng V) u x Hu). rewrite !(base_at (k_n U) (k_next U) (csh U) (k_eng U) u _ Hu).
    assert (EV : forall w, k_eng V w = if w =? u then (n, ktab n (iswap ma mb f (k_vec U u))) else k_eng U w) by reflexivity.
    rewrite (aprod_ext (fun w => snd (k_eng V w) (gather (k_n U) (csh U) w x)) (fun w => snd (k_eng U w) (gather (k_n U) (csh U) w x)) (but u (up (k_next U)))).
    2:{ intros w Hw. apply but_in in Hw. rewrite EV. destruct (N.eqb_spec w u); [destruct Hw; contradiction|reflexivity]. }
    rewrite (aprod_ext (fun w => snd (k_eng U w) (gather (k_n U) (csh U) w (swap_bits a b x))) (fun w => snd (k_eng U w) (gather (k_n U) (csh U) w x)) (but u (up (k_next U)))).
    2:{ intros w Hw. apply but_in in Hw. destruct Hw as [_ Hw]. f_equal. apply gather_ext; [reflexivity|]. intros p Hp E. rewrite csh_unit in E. injection E as E. split; [reflexivity|]. rewrite tb_sw.
        destruct (N.eqb_spec p a) as [->|]; [destruct Hw; symmetry; exact E|]. destruct (N.eqb_spec p b) as [->|]; [destruct Hw; rewrite EU; symmetry; exact E|reflexivity]. }
    rewrite !(aprod_one (fun p => loc (csh _ p) _)) by reflexivity. rewrite EV, N.eqb_refl. cbn [snd]. rewrite ktab_ok by apply (gather_lt _ _ _ _ L).
    change (snd (k_eng U u)) with (k_vec U u). set (g := gather (k_n U) (csh U) u x).
    assert (Ga : N.testbit g ma = N.testbit x a) by (apply (gather_bit _ _ _ _ L u x a Ha); reflexivity).
    assert (Gb : N.testbit g mb = N.testbit x b) by (apply (gather_bit _ _ _ _ L u x b Hb); rewrite csh_unit, <- EU; reflexivity).
    assert (GS : gather (k_n U) (csh U) u (swap_bits a b x) = swap_bits ma mb g).
    { apply (gather_eq _ _ _ _ L u); [exact Hu|apply swap_bits_lt; [exact Ba|exact Bb|apply (gather_lt _ _ _ _ L)]|]. intros p Hp E. rewrite csh_map. rewrite !tb_sw.
      assert (E' := E). rewrite csh_unit in E. injection E as E. destruct (N.eqb_spec p a) as [->|Hpa]; [fold ma; rewrite N.eqb_refl; exact Gb|]. destruct (N.eqb_spec p b) as [->|Hpb].
      - fold mb. destruct (N.eqb_spec mb ma) as [M|M]; [|rewrite N.eqb_refl; exact Ga]. exfalso. apply Hab. apply (pl_inj _ _ _ _ L a b u); [exact Ha|exact Hb|reflexivity|exact E'|symmetry; exact M].
      - destruct (N.eqb_spec (k_map U p) ma) as [M|M]; [exfalso; apply Hpa; apply (pl_inj _ _ _ _ L p a u); auto|]. destruct (N.eqb_spec (k_map U p) mb) as [M'|M']; [exfalso; apply Hpb; apply (pl_inj _ _ _ _ L p b u); auto; rewrite csh_unit, <- EU; reflexivity|].
        apply (gather_bit _ _ _ _ L u x p Hp). exact E'. }
    rewrite GS. unfold iswap. rewrite Ga, Gb. destruct (N.testbit x a), (N.testbit x b); cbn [xorb eqb]; ring.
  Qed.
  Lemma iswap_ok U a b (f : K) : good U -> a < k_n U -> b < k_n U -> a <> b -> anorm f = 1%amp -> exists V, k_iswap c f a b U = Ret V /\ becomes U V (iswapped f a b (joint U)).
  Proof.
    intros G Ha Hb Hab Hf. unfold k_iswap. rewrite (prob_ok U a G Ha). cbn [bind]. rewrite (prob_ok U b G Hb). cbn [bind].
    pose proof (definitely_ok D U a false G Ha) as A0. pose proof (definitely_ok D U a true G Ha) as A1. pose proof (definitely_ok D U b false G Hb) as B0. pose proof (definitely_ok D U b true G Hb) as B1.
    destruct (_ || _) eqn:E.
    - assert (S : exists r, supported a r (joint U) /\ supported b (negb r) (joint U)).
      { apply orb_true_iff in E. destruct E as [E|E]; apply andb_true_iff in E; destruct E as [E1 E2]; [exists false; split; [apply A0, E1|apply B1, E2]|exists true; split; [apply A1, E2|apply B0, E1]]. }
      destruct S as (r & SA & SB). destruct (swap_ok U a b G Ha Hb Hab) as (U1 & -> & (G1 & N1 & D1 & E1)). cbn [bind].
      destruct (k_gate_ok U1 b (mkMat f 0 0 f)%amp G1 ltac:(rewrite N1; exact Hb) (uni_P f f Hf Hf)) as (V & -> & B). exists V. split; [reflexivity|]. apply (becomes_by U U1); [exact N1|exact D1|].
      apply (becomes_same _ _ _ _ B). intros x. rewrite diag_at. unfold always. rewrite E1. unfold swapped, iswapped. destruct (eqb (N.testbit x a) (N.testbit x b)) eqn:Ex; [|destruct (N.testbit x b); reflexivity].
      apply eqb_prop in Ex. assert (Z : joint U x = 0%amp). { destruct (bool_dec (N.testbit x a) r) as [F|F]; [|apply SA, F]. apply SB. rewrite <- Ex, F. destruct r; discriminate. }
      assert (Z' : joint U (swap_bits a b x) = 0%amp). { destruct (bool_dec (N.testbit x a) r) as [F|F]; [apply SB; rewrite tb_sw; destruct (N.eqb_spec b a); [congruence|]; rewrite N.eqb_refl, F; destruct r; discriminate|].
        apply SA. rewrite tb_sw, N.eqb_refl, <- Ex. exact F. }
      rewrite Z, Z'. destruct (N.testbit x b); ring.
    - clear A0 A1 B0 B1 E. destruct (entangle2_ok a b U (gd_wf U G) Ha Hb) as (W1 & J1 & (X1 & X2) & DR & EU). set (U1 := entangle [a; b] U) in *.
      assert (G1 : good U1) by (split; [exact W1|rewrite X2; apply G]). assert (Ha1 : a < k_n U1) by (rewrite X1; exact Ha). assert (Hb1 : b < k_n U1) by (rewrite X1; exact Hb).
      destruct (iswap_put U1 a b f G1 Ha1 Hb1 Hab EU Hf) as (U2 & -> & (G2 & N2 & D2 & E2)). cbn [bind]. eexists. split; [reflexivity|]. apply (becomes_by U U2); [congruence|congruence|].
      apply try2_ok; [exact Sep|exact G2|congruence|congruence|]. intros x. rewrite E2. unfold iswapped. rewrite !J1. reflexivity.
  Qed.
End P.
