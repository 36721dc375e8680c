(** Expectation values of observables on single qubits; proofs of PropExpect2.v. *)
From Coq Require Import NArith ZArith Arith List Bool Lia Ring.
From Verif Require Import Bits Amp PAmp SpecState MTensor MApi PApi9 MExpect SpecExpect PExpect1 PExpect2 PExpect3 MExpect2 SpecExpect2 PExpect4.
Import ListNotations.
Local Open Scope N_scope.

Lemma l_c173_expectation_is_partial : forall (K : StarRing) (recip : K -> K) n (l : list (factor K)) (psi : N -> K), l <> [] -> proper_bits n (map f_bit l) ->
  (forall e, In e l -> unitary2 (f_basis e) /\ (recip (m00 (f_basis e) * m11 (f_basis e) - m01 (f_basis e) * m10 (f_basis e)) * (m00 (f_basis e) * m11 (f_basis e) - m01 (f_basis e) * m10 (f_basis e)) = 1)%amp) -> norm2 n psi = 1%amp ->
  exists w, unitary_all recip true n (map f_bit l) (map f_basis l) (flat_map f_eigs l) psi = Ret (asum (fun e => obs_exp n e psi) l, w) /\ forall x, w x = psi x.
Proof. intros. now apply unitary_exp_ok. Qed.

Lemma l_c173_variance_partial : forall (K : StarRing) (recip : K -> K) n (e : factor K) (psi : N -> K), f_bit e < n -> unitary2 (f_basis e) /\ (recip (m00 (f_basis e) * m11 (f_basis e) - m01 (f_basis e) * m10 (f_basis e)) * (m00 (f_basis e) * m11 (f_basis e) - m01 (f_basis e) * m10 (f_basis e)) = 1)%amp -> norm2 n psi = 1%amp ->
  exists w, unitary_all recip false n [f_bit e] [f_basis e] (f_eigs e) psi = Ret (obs_var n e psi, w) /\ forall x, w x = psi x.
Proof. intros. now apply unitary_var_ok. Qed.

Lemma l_c173_default : forall (K : StarRing) (recip : K -> K) isExp n bits ops (psi : N -> K), unitary_all recip isExp n bits ops [] psi = unitary_all recip isExp n bits ops (flat_map (fun _ => [1; - (1)]%amp) bits) psi.
Proof. intros. apply unitary_default. Qed.

Lemma l_c173_product_refuted : let l := [@mkF GI 0 midn (1, 0)%Z (-1, 0)%Z; @mkF GI 1 midn (1, 0)%Z (-1, 0)%Z] in
  (exists w, unitary_all (K := GI) (fun x => x) true 2 (map f_bit l) (map f_basis l) (flat_map f_eigs l) (ket 0) = Ret ((2, 0)%Z, w)) /\ obs_prod 2 l (ket 0) = (1, 0)%Z.
Proof. cbv zeta. split; [|vm_compute; reflexivity]. eexists. unfold unitary_all. cbv beta iota zeta delta [map f_bit f_basis length Nat.ltb Nat.leb]. match goal with |- context [float_call ?a ?b ?c ?d ?e] => replace (float_call a b c d e) with (Ret ((2, 0)%Z : GI)) by (vm_compute; reflexivity) end. reflexivity. Qed.

Section R3.
  Context {K : StarRing}.
  Add Ring KrEW : (sr_ring K).
  Local Open Scope amp_scope.
  Variable h : K.
  Hypothesis HH : h * h + h * h = 1.
  Hypothesis HC : sr_conj h = h.
  Let u := mkU h h 1 (- (1)).
  Let psi := fun _ : N => h.
  Lemma hb : basis 1 = [0; 1]%N. Proof. reflexivity. Qed.
  Lemma had_norm : norm2 1 psi = 1.
  Proof. unfold norm2. rewrite hb. cbn [asum]. unfold anorm, psi. rewrite HC, <- HH. ring. Qed.
  Let psi1 := apply_us u_neg [0%N] [u] psi.
  Lemma psi1_0 : psi1 0%N = 0.
  Proof. unfold psi1, psi, u. cbn [apply_us]. unfold app1, gate1, always, u_mat, u_neg. cbn [u_c u_s u_ep u_el m00 m01 m10 m11 N.testbit]. rewrite conj_opp, conj_1. ring. Qed.
  Lemma psi1_1 : psi1 1%N = - (1).
  Proof. unfold psi1, psi, u. cbn [apply_us]. unfold app1, gate1, always, u_mat, u_neg. cbn [u_c u_s u_ep u_el m00 m01 m10 m11 N.testbit Pos.testbit]. rewrite conj_opp, conj_1. transitivity (- (h * h + h * h)); [ring|]. now rewrite HH. Qed.
  Lemma had_exp : exp_floats 1 [0%N] [1; - (1)] psi1 = Ret (- (1)).
  Proof.
    transitivity (Ret (1 * (1 - prob_one 1 psi1 0) + - (1) * prob_one 1 psi1 0) : out K); [reflexivity|]. f_equal. rewrite prob_one_ok. unfold weight_of. rewrite hb. cbn [asum N.testbit Pos.testbit]. rewrite psi1_1. unfold anorm. rewrite conj_opp, conj_1. ring.
  Qed.
  Lemma had_run : exists w, unitary_all3 true 1 [0%N] [u] [] psi = Ret (- (1), w) /\ w 0%N = - h /\ w 1%N = h.
  Proof.
    unfold unitary_all3. cbn [length Nat.ltb Nat.leb default_eigs flat_map app float_call]. cbv zeta. fold psi1. rewrite had_exp. cbn [bind]. eexists. split; [reflexivity|].
    cbn [apply_us]. unfold app1, gate1, always, u_mat. cbn [N.testbit Pos.testbit N.clearbit N.setbit N.ldiff N.lor N.shiftl Pos.ldiff Pos.lor Pos.shiftl N.sub u u_c u_s u_ep u_el m00 m01 m10 m11].
    change (N.clearbit 1 0) with 0%N. change (N.setbit 0 0) with 1%N. rewrite psi1_0, psi1_1. split; ring.
  Qed.
  Lemma had_spec : obs_exp 1 (u_factor (0%N, u, (1, - (1)))) psi = 1 /\ obs (u_factor (0%N, u, (1, - (1)))) = mkMat 0 1 1 0.
  Proof.
    assert (E : obs (u_factor (0%N, u, (1, - (1)))) = mkMat 0 1 1 0).
    { unfold obs, u_factor, u_std, mmul, mdag, u. cbn [fst snd f_basis f_e0 f_e1 u_c u_s u_ep u_el m00 m01 m10 m11]. rewrite !sr_conj_mul, !conj_opp, !sr_conj_mul, !conj_opp, !conj_1, HC. apply mat_eq; try ring; (transitivity (h * h + h * h); [ring|exact HH]). }
    split; auto. unfold obs_exp, obs_on. rewrite E. unfold inner. rewrite hb. cbn [asum]. unfold gate1, always, psi. cbn [m00 m01 m10 m11 u_factor f_bit fst snd N.testbit Pos.testbit]. rewrite HC. transitivity (h * h + h * h); [ring|exact HH].
  Qed.
  Lemma had_angles : angles u.
  Proof. unfold angles, u. cbn [u_c u_s u_ep u_el]. rewrite conj_opp, conj_1. repeat split; auto; ring. Qed.
End R3.

Lemma l_c174_expectation_is_partial : forall (K : StarRing) n (l : list (N * u3 K * (K * K))) (psi : N -> K), l <> [] -> proper_bits n (map (fun e => fst (fst e)) l) ->
  (forall e, In e l -> angles (snd (fst e)) /\ (u_ep (snd (fst e)) = u_el (snd (fst e)) \/ u_s (snd (fst e)) = 0%amp)) -> norm2 n psi = 1%amp ->
  exists w, unitary_all3 true n (map (fun e => fst (fst e)) l) (map (fun e => snd (fst e)) l) (flat_map (fun e => [fst (snd e); snd (snd e)]) l) psi = Ret (asum (fun e => obs_exp n (u_factor e) psi) l, w) /\ forall x, w x = psi x.
Proof. intros K n l psi HN HB HF H1. destruct (unitary3_exp_ok K (fun x => x) n l psi HN HB HF H1) as [w [E W]]. exists w. split; auto. rewrite E. f_equal. f_equal. apply asum_ext. intros e _. unfold ufac. now rewrite ufac_is. Qed.

Lemma l_c174_hadamard_refuted : forall (K : StarRing) (h : K), (h * h + h * h = 1)%amp -> sr_conj h = h -> let u := mkU h h 1%amp (- (1))%amp in let psi := fun _ : N => h in
  angles u /\ norm2 1 psi = 1%amp /\ obs (u_factor (0, u, (1, - (1))%amp)) = mkMat 0%amp 1%amp 1%amp 0%amp /\ obs_exp 1 (u_factor (0, u, (1, - (1))%amp)) psi = 1%amp /\
  exists w, unitary_all3 true 1 [0] [u] [] psi = Ret ((- (1))%amp, w) /\ w 0 = (- h)%amp /\ w 1 = h.
Proof. intros K h HH HC. cbv zeta. split; [now apply had_angles|]. split; [now apply had_norm|]. split; [now apply had_spec|]. split; [now apply had_spec|now apply had_run]. Qed.
