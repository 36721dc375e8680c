(** More of the generic gate bodies of /repo/src/qinterface/gates.cpp: YMask, PhaseRootNMask, the controlled square roots of
    Swap and TimeEvolve, in the form of MCircuit.v (a list of primitive calls).

    - [i] is I_CMPLX, [h] is SQRT1_2_R1, [h + i h] is C_SQRT_I and [h - i h] is C_SQRT_N_I.
    - [mexp] stands for exp2x2 (functions.cpp:200), the matrix exponential of a 2x2 matrix: its numerical computation is
      not modelled.
    - The comparison of the time step with REAL1_EPSILON is a comparison with 0. *)
From Coq Require Import NArith List Bool.
From Verif Require Import Amp MEngine MCircuit.
Import ListNotations.
Local Open Scope N_scope.

Section Circuit2.
  Context {K : StarRing}.
  Local Notation circ := (circ K).

  (** Y, qinterface.hpp:1101; PhaseFlip, qinterface.hpp:2341. *)
  Definition qi_Y (i : K) (q : N) : circ := qi_Invert (- i)%amp i q.
  Definition qi_PhaseFlip (rgp : bool) : circ := qi_Phase rgp (- (1))%amp (- (1))%amp 0.
  (** YMask, 112-142: the number of set bits modulo 4 selects the remaining phase. *)
  Definition qi_YMask (rgp : bool) (i : K) (mask : N) : circ :=
    let bit := N.log2 mask in
    if 2 ^ bit =? mask then qi_Y i bit
    else qi_ZMask rgp mask ++ qi_XMask mask ++
      (if rgp then []
       else match N.land (N.of_nat (length (mask_bits 128 mask))) 3 with
            | 1 => qi_Phase rgp i i 0
            | 2 => qi_PhaseFlip rgp
            | 3 => qi_Phase rgp (- i)%amp (- i)%amp 0
            | _ => []
            end).
  (** PhaseRootN, qinterface.hpp:1055-1062; PhaseRootNMask, 155-164.  [root k] is pow(-1, 1/2^(k-1)). *)
  Definition qi_PhaseRootN (rgp : bool) (root : N -> K) (k q : N) : circ := if k =? 0 then [] else qi_Phase rgp 1%amp (root k) q.
  Definition qi_PhaseRootNMask (rgp : bool) (root : N -> K) (k mask : N) : circ := flat_map (qi_PhaseRootN rgp root k) (mask_bits 128 mask).

  (** The matrices of CSqrtSwap and CISqrtSwap, 299-327. *)
  Definition g_had (h : K) (cs : list N) (q : N) : gop K := GM cs (mkMat h h h (- h)%amp) q.
  Definition g_ph (z : K) (cs : list N) (q : N) : gop K := GM cs (mkMat 1%amp 0%amp 0%amp z) q.
  (** CSqrtSwap, 282-329. *)
  Definition qi_CSqrtSwap (rgp : bool) (h i : K) (cs : list N) (q1 q2 : N) : circ :=
    match cs with
    | [] => qi_SqrtSwap rgp h i q1 q2
    | _ => if q1 =? q2 then [] else
        let lc := cs ++ [q1] in let t := (h + i * h)%amp in let it := (h - i * h)%amp in
        qi_MCInvert lc 1%amp 1%amp q2 ++ [g_had h cs q1; g_ph it cs q2; g_ph t cs q1; g_had h cs q2; g_had h cs q1] ++
        qi_MCInvert lc 1%amp 1%amp q2 ++ [g_had h cs q1; g_had h cs q2; g_ph it cs q1; g_had h cs q1] ++
        qi_MCInvert lc 1%amp 1%amp q2 ++ [g_ph (- i)%amp cs q1; g_ph i cs q2]
    end.
  (** CISqrtSwap, 331-373. *)
  Definition qi_CISqrtSwap (h i : K) (cs : list N) (q1 q2 : N) : circ :=
    if q1 =? q2 then [] else
      let lc := cs ++ [q1] in let t := (h + i * h)%amp in let it := (h - i * h)%amp in
      [g_ph (- i)%amp cs q2; g_ph i cs q1] ++ qi_MCInvert lc 1%amp 1%amp q2 ++
      [g_had h cs q1; g_ph t cs q1; g_had h cs q2; g_had h cs q1] ++ qi_MCInvert lc 1%amp 1%amp q2 ++
      [g_had h cs q1; g_had h cs q2; g_ph it cs q1; g_ph t cs q2; g_had h cs q1] ++ qi_MCInvert lc 1%amp 1%amp q2.
  (** AntiCSqrtSwap, 375-385; AntiCISqrtSwap, 387-397. *)
  Definition qi_AntiCSqrtSwap (rgp : bool) (h i : K) (cs : list N) (q1 q2 : N) : circ :=
    [GXM (pow_mask cs)] ++ qi_CSqrtSwap rgp h i cs q1 q2 ++ [GXM (pow_mask cs)].
  Definition qi_AntiCISqrtSwap (h i : K) (cs : list N) (q1 q2 : N) : circ :=
    [GXM (pow_mask cs)] ++ qi_CISqrtSwap h i cs q1 q2 ++ [GXM (pow_mask cs)].

  (** HamiltonianOp, hamiltonian.hpp:27-65; [ho_mats k] is the k-th matrix of the array (only the first unless uniform). *)
  Record hop := mkHop { ho_target : N; ho_anti : bool; ho_uniform : bool; ho_mats : N -> mat2 K; ho_controls : list N; ho_toggles : list bool }.
  Definition mscale (z : K) (m : mat2 K) : mat2 K := mkMat (z * m00 m)%amp (z * m01 m)%amp (z * m10 m)%amp (z * m11 m)%amp.
  (** The X gates on the toggled controls, 450-456 and 477-483; an empty list of toggles toggles nothing. *)
  Fixpoint toggle_x (cs : list N) (ts : list bool) : circ :=
    match cs, ts with
    | q :: cs, b :: ts => (if b then qi_X q else []) ++ toggle_x cs ts
    | _, _ => []
    end.
  (** One pass of the loop of TimeEvolve, 437-484. *)
  Definition qi_hop (mexp : mat2 K -> mat2 K) (i dt : K) (o : hop) : circ :=
    let mtrx k := mscale (- dt)%amp (ho_mats o k) in
    toggle_x (ho_controls o) (ho_toggles o) ++
    (if ho_uniform o then qi_UCSB (ho_controls o) (ho_target o) (fun k => mexp (mtrx k))
     else let toApply := mexp (mscale i (mtrx 0)) in
          match ho_controls o with
          | [] => [GM [] toApply (ho_target o)]
          | _ => if ho_anti o then qi_MACMtrx (ho_controls o) toApply (ho_target o) else [GM (ho_controls o) toApply (ho_target o)]
          end) ++
    toggle_x (ho_controls o) (ho_toggles o).
  (** TimeEvolve, 426-485. *)
  Definition qi_TimeEvolve (mexp : mat2 K -> mat2 K) (i dt : K) (l : list hop) : circ :=
    if sr_eqb dt 0%amp then [] else flat_map (qi_hop mexp i dt) l.
  (** Exp with a matrix, rotational.cpp:231-245; the uncontrolled call is MCMtrx with no controls. *)
  Definition qi_ExpM (mexp : mat2 K -> mat2 K) (i : K) (cs : list N) (q : N) (m : mat2 K) (anti : bool) : circ :=
    let toApply := mexp (mscale i m) in
    if anti then qi_MACMtrx cs toApply q else [GM cs toApply q].
End Circuit2.
