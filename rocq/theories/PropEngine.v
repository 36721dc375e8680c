(** Property theorems C19-C26, C66, C70-C72: the state-vector engine.  [K] is any ring of amplitudes, [c] any number of
    cores and stride; [every_run] says that the call has an outcome and that every outcome, whatever the thread schedule,
    satisfies the condition. *)
From Coq Require Import NArith ZArith List Bool Lia.
From Verif Require Import MFunctions SpecFunctions MParFor SpecParFor MKernel Amp SpecState MEngine SpecEngine PProb PEngine PEngine2.
Import ListNotations.
Local Open Scope N_scope.

(** * C19 *)

(** Mtrx, MCMtrx and MACMtrx. *)
Theorem c19_controlled_gate : forall (K : StarRing) (c : cfg) rgp anti n cs (m : mat2 K) t (psi : mem K), fits c n -> NoDup (cs ++ [t]) ->
  (forall q, In q (cs ++ [t]) -> q < n) ->
  every_run (EitherMtrx c rgp anti n cs m t (Some psi))
    (gate_result n rgp cs m psi (gate1 (if anti then all_clear cs else all_set cs) t m psi)).
Proof. exact @PEngine.c19_either. Qed.
Print Assumptions c19_controlled_gate.

Example c19_controlled_gate_hyps : fits (mkCfg 4 2) 5 /\ NoDup ([4; 1] ++ [2]) /\ (forall q, In q ([4; 1] ++ [2]) -> q < 5).
Proof.
  split; [vm_compute; repeat split; discriminate|]. split.
  - repeat constructor; simpl; intuition discriminate.
  - simpl. intros q H. repeat destruct H as [<-|H]; try lia; contradiction.
Qed.
Example c19_controlled_gate_example :
  map (gate1 (all_set [1]) 0 (@mkMat GI (2, 0) (0, 1) (0, -1) (3, 0) : mat2 GI)%Z (fun x => (Z.of_N x, 1)%Z)) [0; 1; 2; 3] =
  [(0, 1); (1, 1); (3, 5); (10, 1)]%Z.
Proof. reflexivity. Qed.

(** UCMtrx: control [i] must equal bit [i] of [p]. *)
Theorem c19_controlled_gate_any_values : forall (K : StarRing) (c : cfg) rgp n cs (m : mat2 K) t p (psi : mem K), fits c n -> NoDup (cs ++ [t]) ->
  (forall q, In q (cs ++ [t]) -> q < n) ->
  every_run (UCMtrx c rgp n cs m t p (Some psi)) (gate_result n rgp cs m psi (gate1 (match_perm 0 cs p) t m psi)).
Proof. exact @PEngine.c19_uc. Qed.
Print Assumptions c19_controlled_gate_any_values.

Example c19_any_values_example : map (match_perm 0 [3; 1] 2) [0; 2; 8; 10] = [false; true; false; false].
Proof. reflexivity. Qed.

(** Swap, ISwap, IISwap, SqrtSwap, ISqrtSwap and their controlled forms. *)
Theorem c19_swap_family : forall (K : StarRing) (c : cfg) anti n cs (m : mat2 K) a b (psi : mem K), fits c n -> sym2 m -> NoDup (cs ++ [a; b]) ->
  (forall q, In q (cs ++ [a; b]) -> q < n) ->
  every_run (CSwapLike c anti n cs m a b (Some psi)) (fun r => exists psi', r = Ok (Some psi') /\
    eqv n psi' (gate_swap (if anti then all_clear cs else all_set cs) a b m psi)).
Proof. exact @PEngine.c19_swap. Qed.
Print Assumptions c19_swap_family.

Example c19_swap_hyps : fits (mkCfg 4 2) 5 /\ sym2 (@mkMat GI (0, 0) (0, 1) (0, 1) (0, 0) : mat2 GI)%Z /\ NoDup ([3] ++ [4; 1]) /\
  (forall q, In q ([3] ++ [4; 1]) -> q < 5).
Proof.
  split; [vm_compute; repeat split; discriminate|]. split; [split; reflexivity|]. split.
  - repeat constructor; simpl; intuition discriminate.
  - simpl. intros q H. repeat destruct H as [<-|H]; try lia; contradiction.
Qed.

(** * C20 *)

(** Norm. *)
Theorem c20_unitary_preserves_norm : forall (K : StarRing) (c : cfg) rgp anti n cs (m : mat2 K) t (psi : mem K), fits c n -> NoDup (cs ++ [t]) ->
  (forall q, In q (cs ++ [t]) -> q < n) -> unitary2 m ->
  every_run (EitherMtrx c rgp anti n cs m t (Some psi)) (fun r => exists psi', r = Ok (Some psi') /\ norm2 n psi' = norm2 n psi).
Proof. exact @PEngine.c20_norm. Qed.
Print Assumptions c20_unitary_preserves_norm.

Example c20_norm_hyps : unitary2 (@mkMat GI (0, 0) (0, 1) (1, 0) (0, 0) : mat2 GI)%Z /\ midn <> (@mkMat GI (0, 0) (0, 1) (1, 0) (0, 0) : mat2 GI)%Z.
Proof. split. reflexivity. discriminate. Qed.

(** Inverse; a global phase can remain only when the engine's global phase is random. *)
Theorem c20_gate_then_adjoint_restores : forall (K : StarRing) (c : cfg) rgp anti n cs (m : mat2 K) t (psi : mem K), fits c n -> NoDup (cs ++ [t]) ->
  (forall q, In q (cs ++ [t]) -> q < n) -> unitary2 m ->
  every_run (EitherMtrx c rgp anti n cs m t (Some psi)) (fun r1 => exists psi1, r1 = Ok (Some psi1) /\
    every_run (EitherMtrx c rgp anti n cs (mdag m) t (Some psi1)) (fun r2 => exists psi2 g, r2 = Ok (Some psi2) /\
      (forall x, x < 2 ^ n -> psi x = g * psi2 x)%amp /\ anorm g = 1%amp /\ (rgp = false -> g = 1%amp))).
Proof. exact @PEngine.c20_inverse. Qed.
Print Assumptions c20_gate_then_adjoint_restores.

(** The swap family. *)
Theorem c20_swap_family_preserves_norm : forall (K : StarRing) (c : cfg) anti n cs (m : mat2 K) a b (psi : mem K), fits c n -> sym2 m -> NoDup (cs ++ [a; b]) ->
  (forall q, In q (cs ++ [a; b]) -> q < n) -> unitary2 m ->
  every_run (CSwapLike c anti n cs m a b (Some psi)) (fun r => exists psi', r = Ok (Some psi') /\ norm2 n psi' = norm2 n psi).
Proof. exact @PEngine.c20_swap_norm. Qed.
Print Assumptions c20_swap_family_preserves_norm.

Example c20_swap_hyps : unitary2 (@mkMat GI (0, 0) (0, 1) (0, 1) (0, 0) : mat2 GI)%Z /\ sym2 (@mkMat GI (0, 0) (0, 1) (0, 1) (0, 0) : mat2 GI)%Z.
Proof. split. reflexivity. split; reflexivity. Qed.

(** * C21 *)

(** XMask. *)
Theorem c21_xmask_flips_bits : forall (K : StarRing) (c : cfg) rgp n mask (psi : mem K), fits c n -> mask < 2 ^ n ->
  every_run (XMask c rgp n mask (Some psi)) (fun r => exists psi', r = Ok (Some psi') /\ eqv n psi' (fun x => psi (N.lxor x mask))).
Proof. exact @PEngine.c21_xmask. Qed.
Print Assumptions c21_xmask_flips_bits.

Example c21_xmask_hyps : fits (mkCfg 4 2) 5 /\ 22 < 2 ^ 5.
Proof. vm_compute. repeat split; discriminate. Qed.

(** PhaseParity; [ph] and [phA] are the two phases. *)
Theorem c21_phase_parity : forall (K : StarRing) (c : cfg) rgp n (ph phA : K) mask (psi : mem K), fits c n -> 0 < mask < 2 ^ n ->
  every_run (PhaseParity c rgp n ph phA mask (Some psi)) (fun r => exists psi' g, r = Ok (Some psi') /\
    (forall x, x < 2 ^ n -> parity_phase mask ph phA psi x = (g * psi' x)%amp) /\ (g = 1%amp \/ rgp = true /\ g = ph /\ g = phA)).
Proof. exact @PEngine.c21_phaseparity. Qed.
Print Assumptions c21_phase_parity.

Example c21_phase_parity_example :
  map (parity_phase 5 ((0, 1) : GI) (0, -1) (fun x => (Z.of_N x, 0)))%Z [0; 1; 2; 4; 5] = [(0, 0); (0, 1); (0, -2); (0, 4); (0, -5)]%Z.
Proof. reflexivity. Qed.

(** UniformParityRZ, for masks within the width [pb] of the population count. *)
Theorem c21_uniform_parity_rz : forall (K : StarRing) (c : cfg) pb n mask (ph phA : K) (psi : mem K), fits c n -> pb <= 64 -> mask < 2 ^ n -> mask < 2 ^ pb ->
  every_run (UniformParityRZ c pb n mask ph phA (Some psi)) (fun r => exists psi', r = Ok (Some psi') /\ eqv n psi' (parity_phase mask ph phA psi)).
Proof. exact @PEngine.c21_uprz. Qed.
Print Assumptions c21_uniform_parity_rz.

Example c21_uprz_hyps : fits (mkCfg 4 2) 5 /\ 32 <= 64 /\ 22 < 2 ^ 5 /\ 22 < 2 ^ 32.
Proof. vm_compute. repeat split; discriminate. Qed.

(** With the 32-bit population count of the C++11 build the parity of qubits above 31 is ignored. *)
Theorem c21_uniform_parity_rz_refuted : exists (c : cfg) n mask (ph phA : GI) (psi : mem GI), fits c n /\ mask < 2 ^ n /\
  ~ every_run (UniformParityRZ c 32 n mask ph phA (Some psi)) (fun r => exists psi', r = Ok (Some psi') /\ eqv n psi' (parity_phase mask ph phA psi)).
Proof. 
  exists (mkCfg 4 4096), 33, (2 ^ 32), (0, 1)%Z, (0, -1)%Z, (ket (2 ^ 32)).
  split; [vm_compute; repeat split; discriminate|]. split; [reflexivity|]. exact uprz_32_gi.
 Qed.
Print Assumptions c21_uniform_parity_rz_refuted.

(** CUniformParityRZ. *)
Theorem c21_controlled_uniform_parity_rz : forall (K : StarRing) (c : cfg) pb n cs mask (ph phA : K) (psi : mem K), fits c n -> pb <= 64 -> mask < 2 ^ n -> mask < 2 ^ pb -> cs <> [] ->
  NoDup cs -> (forall q, In q cs -> q < n /\ N.testbit mask q = false) ->
  every_run (CUniformParityRZ c pb n cs mask ph phA (Some psi)) (fun r => exists psi', r = Ok (Some psi') /\
    eqv n psi' (fun x => if all_set cs x then parity_phase mask ph phA psi x else psi x)).
Proof. exact @PEngine.c21_cuprz. Qed.
Print Assumptions c21_controlled_uniform_parity_rz.

Example c21_cuprz_hyps : NoDup [3; 0] /\ (forall q, In q [3; 0] -> q < 5 /\ N.testbit 22 q = false).
Proof. split. repeat constructor; simpl; intuition discriminate. simpl. intros q H. repeat destruct H as [<-|H]; try contradiction; split; reflexivity. Qed.

(** * C22 *)

(** UniformlyControlledSingleBit with skip bits. *)
Theorem c22_uniformly_controlled : forall (K : StarRing) (c : cfg) rgp n cs t (mtrxs : N -> K) M skips skipValue (psi : mem K), fits c n -> layout mtrxs M -> cs <> [] ->
  NoDup (cs ++ [t]) -> (forall q, In q (cs ++ [t]) -> q < n) ->
  increasing_below 0 62 skips -> N.of_nat (length cs) + N.of_nat (length skips) <= 62 -> skipValue < 2 ^ 62 ->
  every_run (UniformlyControlledSingleBit c rgp n cs t mtrxs (map (fun q => 2 ^ q) skips) skipValue (Some psi)) (fun r =>
    exists psi', r = Ok (Some psi') /\
      eqv n psi' (fun x => gate1 always t (M (N.lor (insert_zeros skips (ctrl_value 0 cs x)) skipValue)) psi x)).
Proof. exact @PEngine.c22_ucsb. Qed.
Print Assumptions c22_uniformly_controlled.

Example c22_example : map (fun x => N.lor (insert_zeros [1] (ctrl_value 0 [3; 0] x)) 2) [0; 1; 8; 9] = [2; 6; 3; 7] /\
  increasing_below 0 62 [1] /\ layout (fun k => (Z.of_N k, 0)%Z : GI) (fun k => @mkMat GI (Z.of_N (4 * k), 0) (Z.of_N (4 * k + 1), 0) (Z.of_N (4 * k + 2), 0) (Z.of_N (4 * k + 3), 0))%Z.
Proof. split; [reflexivity|]. split. simpl. lia. intros k. repeat split. Qed.

(** * C23 *)

(** Compose(toCopy). *)
Theorem c23_compose : forall (K : StarRing) (c : cfg) maxQB na nb (va vb : option (mem K)), fits c (na + nb) -> 0 < na -> 0 < nb -> na + nb <= maxQB ->
  every_run (Compose c maxQB (mkEng na va) (mkEng nb vb)) (fun r =>
    exists v, r = Ok (mkEng (na + nb) v, na) /\ eqv (na + nb) (vread v) (tensor na (vread va) (vread vb))).
Proof. exact @PEngine.c23_compose. Qed.
Print Assumptions c23_compose.

Example c23_compose_example : fits (mkCfg 4 2) (2 + 1) /\
  map (tensor 1 (fun x => (Z.of_N x + 1, 0) : GI) (fun x => (0, Z.of_N x + 3))%Z)%Z [0; 1; 2; 3] = [(0, 3); (0, 6); (0, 4); (0, 8)]%Z.
Proof. split; [vm_compute; repeat split; discriminate | reflexivity]. Qed.

(** Compose(toCopy, start). *)
Theorem c23_compose_at : forall (K : StarRing) (c : cfg) maxQB na nb start (va vb : option (mem K)), fits c (na + nb) -> 0 < na -> 0 < nb -> na + nb <= maxQB -> start <= na ->
  every_run (ComposeAt c maxQB (mkEng na va) (mkEng nb vb) start) (fun r =>
    exists v, r = Ok (mkEng (na + nb) v, start) /\ eqv (na + nb) (vread v) (tensor_at start nb (vread va) (vread vb))).
Proof. exact @PEngine.c23_compose_at. Qed.
Print Assumptions c23_compose_at.

Example c23_compose_at_example : map (fun x => (outside x 1 2, get_reg x 1 2)) [0; 5; 9; 14] = [(0, 0); (1, 2); (3, 0); (2, 3)].
Proof. reflexivity. Qed.

(** Compose(vector). *)
Theorem c23_compose_many : forall (K : StarRing) (c : cfg) na (pa : mem K) srcs, fits c (sum_sizes na srcs) ->
  every_run (fun o => ComposeMany c na pa srcs (fst o) (snd o)) (fun o => fst o = sum_sizes na srcs /\ eqv (fst o) (snd o) (tensor_many na pa srcs)).
Proof. exact @PEngine.c23_compose_many. Qed.
Print Assumptions c23_compose_many.

Example c23_compose_many_hyps : fits (mkCfg 4 2) (sum_sizes 2 [(1, fun _ => (1, 0)%Z : GI); (3, fun _ => (1, 0)%Z)]).
Proof. vm_compute. repeat split; discriminate. Qed.

(** * C24 *)

(** The amplitudes after Dispose(start, length, perm). *)
Theorem c24_dispose_keeps_matching_amplitudes : forall (K : StarRing) (c : cfg) n start len perm (v : option (mem K)), fits c n -> n < 2 ^ 8 -> start + len <= n -> 0 < len -> perm < 2 ^ len ->
  every_run (Dispose c (mkEng n v) start len perm) (fun r => exists v',
    r = Ok (mkEng (if (n - len =? 0) && match v with None => false | _ => true end then 1 else n - len) v') /\ (v' = None <-> v = None) /\
    eqv (n - len) (vread v') (slice start len perm (vread v))).
Proof. exact @PEngine.c24_dispose. Qed.
Print Assumptions c24_dispose_keeps_matching_amplitudes.

Example c24_dispose_hyps : fits (mkCfg 4 2) 5 /\ 1 + 3 <= 5 /\ 6 < 2 ^ 3.
Proof. vm_compute. repeat split; discriminate. Qed.

(** Known basis state: the other factor is returned. *)
Theorem c24_dispose_undoes_insertion : forall (K : StarRing) (c : cfg) n start len perm (pa a : mem K), fits c n -> n < 2 ^ 8 -> start + len <= n -> 0 < len < n -> perm < 2 ^ len ->
  eqv n pa (tensor_at start len a (ket perm)) ->
  every_run (Dispose c (mkEng n (Some pa)) start len perm) (fun r => exists m', r = Ok (mkEng (n - len) (Some m')) /\ eqv (n - len) m' a).
Proof. exact @PEngine.c24_dispose_undoes. Qed.
Print Assumptions c24_dispose_undoes_insertion.

(** Compose at a position and Dispose there. *)
Theorem c24_compose_then_dispose : forall (K : StarRing) (c : cfg) maxQB na nb start perm (a : mem K), fits c (na + nb) -> na + nb < 2 ^ 8 -> 0 < na -> 0 < nb -> na + nb <= maxQB -> start <= na -> perm < 2 ^ nb ->
  every_run (ComposeAt c maxQB (mkEng na (Some a)) (mkEng nb (Some (ket perm))) start) (fun r1 =>
    exists e, r1 = Ok (e, start) /\
      every_run (Dispose c e start nb perm) (fun r2 => exists m', r2 = Ok (mkEng na (Some m')) /\ eqv na m' a)).
Proof. exact @PEngine.c24_roundtrip. Qed.
Print Assumptions c24_compose_then_dispose.

Example c24_roundtrip_hyps : fits (mkCfg 4 2) (3 + 2) /\ 1 <= 3 /\ 2 < 2 ^ 2.
Proof. vm_compute. repeat split; discriminate. Qed.

(** Disposing every qubit leaves an engine that claims one qubit while its vector has one amplitude. *)
Theorem c24_dispose_all_refuted : forall (K : StarRing) (c : cfg) n perm (psi : mem K), fits c n -> 0 < n -> n < 2 ^ 8 -> perm < 2 ^ n ->
  ~ every_run (Dispose c (mkEng n (Some psi)) 0 n perm) (fun r => exists e, r = Ok e /\ e_n e = n - n).
Proof. intros K c n perm psi Hf H0 H8 Hp [_ H]. destruct (dispose_all c n perm psi Hf H0 H8 Hp) as [[r HR] Hall].
  destruct (Hall r HR) as [v Ev]. destruct (H r HR) as [e [Ee Hn]]. rewrite Ev in Ee. injection Ee as <-. cbn [e_n] in Hn. lia. Qed.
Print Assumptions c24_dispose_all_refuted.

(** * C25 *)

(** Prob, both builds. *)
Theorem c25_prob : forall (K : StarRing) (c : cfg) simd n q (psi : mem K), fits c n -> q < n ->
  every_run (Prob c simd n q (Some psi)) (fun r => r = Ok (weight_of n (fun x => N.testbit x q) psi)).
Proof. exact @PEngine.c25_prob. Qed.
Print Assumptions c25_prob.

Example c25_hyps : fits (mkCfg 4 2) 5 /\ 3 < 5 /\ 1 + 3 <= 5 /\ 6 < 2 ^ 3 /\ 22 < 2 ^ 5 /\ N.land 18 22 = 18.
Proof. vm_compute. repeat split; discriminate. Qed.

(** ProbReg. *)
Theorem c25_prob_reg : forall (K : StarRing) (c : cfg) n start len perm (psi : mem K), fits c n -> start + len <= n -> perm < 2 ^ len ->
  every_run (ProbReg c n start len perm (Some psi)) (fun p => p = weight_of n (fun x => get_reg x start len =? perm) psi).
Proof. exact @PEngine.c25_probreg. Qed.
Print Assumptions c25_prob_reg.

(** ProbMask. *)
Theorem c25_prob_mask : forall (K : StarRing) (c : cfg) n mask perm (psi : mem K), fits c n -> mask < 2 ^ n -> N.land perm mask = perm ->
  every_run (ProbMask c n mask perm (Some psi)) (fun r => r = Ok (weight_of n (fun x => N.land x mask =? perm) psi)).
Proof. exact @PEngine.c25_probmask. Qed.
Print Assumptions c25_prob_mask.

(** ProbParity, for masks within the width of the population count. *)
Theorem c25_prob_parity : forall (K : StarRing) (c : cfg) pb n mask (psi : mem K), fits c n -> pb <= 64 -> mask < 2 ^ n -> mask < 2 ^ pb ->
  every_run (ProbParity c pb n mask (Some psi)) (fun r => r = Ok (weight_of n (fun x => odd_bits 64 (N.land x mask)) psi)).
Proof. exact @PEngine.c25_probparity. Qed.
Print Assumptions c25_prob_parity.

(** The 32-bit population count misses qubits above 31. *)
Theorem c25_prob_parity_refuted : exists (c : cfg) n mask (psi : mem GI), fits c n /\ mask < 2 ^ n /\
  ~ every_run (ProbParity c 32 n mask (Some psi)) (fun r => r = Ok (weight_of n (fun x => odd_bits 64 (N.land x mask)) psi)).
Proof. 
  exists (mkCfg 4 4096), 33, (2 ^ 32), (ket (2 ^ 32)). split; [vm_compute; repeat split; discriminate|]. split; [reflexivity|]. exact probparity_32_gi.
 Qed.
Print Assumptions c25_prob_parity_refuted.

(** CProb and ACProb before the division by the control's probability. *)
Theorem c25_joint_prob : forall (K : StarRing) (c : cfg) n control target cstate (psi : mem K), fits c n -> control < n -> target < n -> control <> target ->
  every_run (CtrlOrAntiProb_num c n control target cstate psi)
    (fun p => p = weight_of n (fun x => Bool.eqb (N.testbit x control) cstate && N.testbit x target) psi).
Proof. exact @PEngine.c25_ctrlprob. Qed.
Print Assumptions c25_joint_prob.

(** ProbRegAll. *)
Theorem c25_prob_reg_all : forall (K : StarRing) n start len (v : option (mem K)) k, n < 64 -> len < 64 ->
  ProbRegAll n start len v k = weight_of n (fun x => get_reg x start len =? k) (vread v).
Proof. exact @PProb.probregall_ok. Qed.
Print Assumptions c25_prob_reg_all.

(** Totals. *)
Theorem c25_register_probabilities_sum_to_norm : forall (K : StarRing) n start len (psi : mem K),
  asum (fun k => weight_of n (fun x => get_reg x start len =? k) psi) (basis len) = norm2 n psi.
Proof. exact @PProb.reg_total. Qed.
Print Assumptions c25_register_probabilities_sum_to_norm.

(** * C26 *)

(** ApplyM. *)
Theorem c26_measurement_projects : forall (K : StarRing) (c : cfg) n mask result (nrm : K) (psi : mem K), fits c n -> mask < 2 ^ n -> result < 2 ^ n ->
  every_run (ApplyM c n mask result nrm (Some psi)) (fun v' =>
    exists psi', v' = Some psi' /\ eqv n psi' (project (fun x => N.land x mask =? result) nrm psi)).
Proof. exact @PEngine.c26_applym. Qed.
Print Assumptions c26_measurement_projects.

Example c26_hyps : fits (mkCfg 4 2) 5 /\ 22 < 2 ^ 5 /\ N.land 18 22 = 18.
Proof. vm_compute. repeat split; discriminate. Qed.

(** After the projection the measured outcome carries the whole norm and every other outcome has probability zero. *)
Theorem c26_repeated_measurement_agrees : forall (K : StarRing) (c : cfg) n mask result (nrm : K) (psi : mem K), fits c n -> mask < 2 ^ n -> N.land result mask = result ->
  every_run (ApplyM c n mask result nrm (Some psi)) (fun v' =>
    exists psi', v' = Some psi' /\ norm2 n psi' = (anorm nrm * weight_of n (fun x => N.land x mask =? result) psi)%amp /\
      every_run (ProbMask c n mask result v') (fun p => p = Ok (norm2 n psi')) /\
      forall other, N.land other mask = other -> other <> result -> every_run (ProbMask c n mask other v') (fun p => p = Ok 0%amp)).
Proof. exact @PEngine.c26_repeat. Qed.
Print Assumptions c26_repeated_measurement_agrees.

(** The projection of ForceMParity. *)
Theorem c26_parity_measurement_projects : forall (K : StarRing) (c : cfg) pb n mask result (psi : mem K), fits c n -> pb <= 64 -> mask < 2 ^ n -> mask < 2 ^ pb ->
  every_run (loop_for c (2 ^ n) (mparity_body pb mask result) psi) (fun psi' =>
    eqv n psi' (project (fun x => Bool.eqb (odd_bits 64 (N.land x mask)) result) 1%amp psi)).
Proof. exact @PEngine.c26_parity. Qed.
Print Assumptions c26_parity_measurement_projects.

(** * C66 *)

(** Kernels that add to the accumulator (SIMD build, and every thresholded kernel). *)
Theorem c66_running_norm : forall (K : StarRing) (c : cfg) n t (m : mat2 K) md (psi psi' : mem K) rn, fits c n -> t < n -> md <> NPlain ->
  Apply2x2_norm c false n 0 (2 ^ t) m [2 ^ t] md psi psi' rn -> rn = norm2 n psi'.
Proof. exact @PEngine.c66_norm. Qed.
Print Assumptions c66_running_norm.

Example c66_hyps : exists (psi' : mem GI) (rn : GI), fits (mkCfg 1 4096) 2 /\
  Apply2x2_norm (mkCfg 1 4096) false 2 0 (2 ^ 0) (@midn GI) [2 ^ 0] (NCalc 1%amp) (fun _ => (1, 0)%Z) psi' rn /\ rn = (4, 0)%Z.
Proof.
  eexists. eexists. split; [vm_compute; repeat split; discriminate|]. split.
  - exists [(0, 0%nat); (2, 0%nat)]. split; [reflexivity|]. split; [|reflexivity]. exists [0; 0; 0; 0; 1; 1; 1; 1]%nat. reflexivity.
  - reflexivity.
Qed.

(** The portable kernel assigns instead of adding: the running norm is wrong after one gate. *)
Theorem c66_running_norm_refuted : exists (c : cfg) n t (m : mat2 GI) (psi psi' : mem GI) rn, fits c n /\ t < n /\ unitary2 m /\
  Apply2x2_norm c true n 0 (2 ^ t) m [2 ^ t] (NCalc 1%amp) psi psi' rn /\ rn <> norm2 n psi'.
Proof. exact norm_assign_wrong. Qed.
Print Assumptions c66_running_norm_refuted.

(** * C70 *)

(** FSim(theta, phi) with [co], [si] the cosine and sine of theta, unless sin(theta) = 0 and cos(theta) <> 1. *)
Theorem c70_fsim : forall (K : StarRing) (c : cfg) rgp n (i co si ph : K) q1 q2 (psi : mem K), fits c n -> q1 < n -> q2 < n -> q1 <> q2 ->
  ((si * si = 0)%amp -> si = 0%amp /\ co = 1%amp) ->
  every_run (FSim c rgp n i co si ph q1 q2 (Some psi)) (fun r => exists psi', r = Ok (Some psi') /\
    eqv n psi' (gate1 (all_set [N.min q1 q2]) (N.max q1 q2) (mkMat 1%amp 0%amp 0%amp ph)
      (gate_swap always q1 q2 (mkMat co (- (i * si)) (- (i * si)) co)%amp psi))).
Proof. exact @PEngine2.fsim_run. Qed.
Print Assumptions c70_fsim.

Example c70_hyps : let si := (1, 0)%Z : GI in (si * si = 0)%amp -> si = 0%amp /\ (0 : GI)%amp = 1%amp.
Proof. discriminate. Qed.

(** At theta = pi the sign flip of the one-excitation states is lost. *)
Theorem c70_fsim_refuted : exists (c : cfg) rgp n (i co si ph : GI) q1 q2 (psi : mem GI), fits c n /\ q1 < n /\ q2 < n /\ q1 <> q2 /\ (co * co + si * si = 1)%amp /\
  ~ every_run (FSim c rgp n i co si ph q1 q2 (Some psi)) (fun r => exists psi', r = Ok (Some psi') /\
    eqv n psi' (gate1 (all_set [N.min q1 q2]) (N.max q1 q2) (mkMat 1%amp 0%amp 0%amp ph)
      (gate_swap always q1 q2 (mkMat co (- (i * si)) (- (i * si)) co)%amp psi))).
Proof. 
  exists (mkCfg 1 4096), false, 2, (0, 1)%Z, (-1, 0)%Z, (0, 0)%Z, (1, 0)%Z, 0, 1, (fun _ => (1, 0)%Z).
  repeat split; try (vm_compute; congruence). intros [_ H]. destruct (H _ (@fsim_pi GI (mkCfg 1 4096) false 2 (0, 1)%Z (-1, 0)%Z 0 1 (fun _ => (1, 0)%Z))) as [psi' [E Hx]].
  injection E as <-. specialize (Hx 1 ltac:(reflexivity)). vm_compute in Hx. discriminate.
 Qed.
Print Assumptions c70_fsim_refuted.

(** * C71 *)

(** PhaseRootNMask multiplies by the conjugate root once per set masked bit. *)
Theorem c71_phase_root_mask : forall (K : StarRing) (c : cfg) rgp pb n nr (i w : K) mask (psi : mem K), fits c n -> pb <= 64 -> 2 <= nr < 64 -> 0 < mask -> mask < 2 ^ n -> mask < 2 ^ pb ->
  apow (sr_conj w) (N.to_nat (2 ^ nr)) = 1%amp ->
  every_run (PhaseRootNMask c rgp pb n nr i w mask (Some psi)) (fun r =>
    exists psi', r = Ok (Some psi') /\ eqv n psi' (fun x => apow (sr_conj w) (count_bits 64 (N.land x mask)) * psi x)%amp).
Proof. exact @PEngine2.prn_run. Qed.
Print Assumptions c71_phase_root_mask.

Example c71_hyps : apow (sr_conj ((0, 1)%Z : GI)) (N.to_nat (2 ^ 2)) = 1%amp /\ count_bits 64 (N.land 29 22) = 2%nat.
Proof. split; reflexivity. Qed.

(** PhaseRootN(2, q) is the S gate, PhaseRootNMask(2, 2^q) its inverse. *)
Theorem c71_mask_is_product_refuted : exists (c : cfg) n (w : GI) q (psi : mem GI), fits c n /\ q < n /\ (w * w = - (1))%amp /\
  every_run (PhaseRootN c false n 2 w q (Some psi)) (fun r1 => exists psi1, r1 = Ok (Some psi1) /\
    every_run (PhaseRootNMask c false 64 n 2 w w (2 ^ q) (Some psi)) (fun r2 => exists psi2, r2 = Ok (Some psi2) /\
      psi1 (2 ^ q) <> psi2 (2 ^ q))).
Proof. exact prn_differs. Qed.
Print Assumptions c71_mask_is_product_refuted.

(** * C72 *)

(** Always the product of Z gates times -i. *)
Theorem c72_zmask_up_to_phase : forall (K : StarRing) (c : cfg) rgp n (i : K) mask (psi : mem K), fits c n -> 0 < mask < 2 ^ n -> (1 + 1 <> 0 :> K)%amp -> (i * i = - (1))%amp ->
  every_run (ZMask c rgp n i mask (Some psi)) (fun r => exists psi', r = Ok (Some psi') /\
    eqv n psi' (fun x => - i * (if odd_bits 64 (N.land x mask) then - psi x else psi x))%amp).
Proof. exact @PEngine2.zmask_run. Qed.
Print Assumptions c72_zmask_up_to_phase.

Example c72_hyps : (((0, 1)%Z : GI) * ((0, 1)%Z : GI) = - (1 : GI))%amp /\ (1 + 1 <> 0 :> GI)%amp.
Proof. split. reflexivity. discriminate. Qed.

(** With a fixed (not random) global phase the amplitudes differ from those of the Z gates. *)
Theorem c72_zmask_refuted : exists (c : cfg) n (i : GI) mask (psi : mem GI), fits c n /\ 0 < mask < 2 ^ n /\
  ~ every_run (ZMask c false n i mask (Some psi)) (fun r => exists psi', r = Ok (Some psi') /\
    eqv n psi' (fun x => if odd_bits 64 (N.land x mask) then - psi x else psi x)%amp).
Proof. exact zmask_phase. Qed.
Print Assumptions c72_zmask_refuted.
