(** The rotation gates of /repo/src/qinterface/rotational.cpp (lines below without a file name), in the form of MCircuit.v
    (a list of primitive calls).

    - An angle is given by the cosine and the sine that the code computes from it ([ang]); [i] is I_CMPLX.  The library
      functions cos and sin, and rounding, are not modelled.
    - [recip] is complex division of 1 (inv2x2, functions.cpp:204-211, is [inv2] of MExpect2.v).
    - ExpX, ExpY, ExpZ, Exp and CRX are compiled only with ENABLE_ROT_API (off by default, cmake/RotApi.cmake:1).  CRX (276-284)
      passes an array and its length to MCMtrx, which takes a std::vector (qinterface.hpp:490): it does not compile as it
      stands; it is modelled as a call with the one control. *)
From Coq Require Import NArith List Bool.
From Verif Require Import Amp MEngine MCircuit MExpect2.
Import ListNotations.
Local Open Scope N_scope.

Section Rot.
  Context {K : StarRing}.
  Local Notation circ := (circ K).
  Local Open Scope amp_scope.
  (** A cosine and a sine. *)
  Record ang := mkAng { a_c : K; a_s : K }.

  (** RT, 171-174; RX, 177-184; RY, 187-193; RZ, 196-201: [a] holds cos and sin of half the angle. *)
  Definition qi_RT (rgp : bool) (i : K) (a : ang) (q : N) : circ := qi_Phase rgp 1 (a_c a + i * a_s a) q.
  Definition m_RX (i : K) (a : ang) : mat2 K := mkMat (a_c a) (i * - a_s a) (i * - a_s a) (a_c a).
  Definition qi_RX (i : K) (a : ang) (q : N) : circ := [GM [] (m_RX i a) q].
  Definition m_RY (a : ang) : mat2 K := mkMat (a_c a) (- a_s a) (a_s a) (a_c a).
  Definition qi_RY (a : ang) (q : N) : circ := [GM [] (m_RY a) q].
  Definition qi_RZ (rgp : bool) (i : K) (a : ang) (q : N) : circ := qi_Phase rgp (a_c a + i * - a_s a) (a_c a + i * a_s a) q.
  (** CRZ, 204-210; CRY, 213-221. *)
  Definition qi_CRZ (i : K) (a : ang) (ctl t : N) : circ := qi_MCPhase [ctl] (a_c a + i * - a_s a) (a_c a + i * a_s a) t.
  Definition qi_CRY (a : ang) (ctl t : N) : circ := [GM [ctl] (m_RY a) t].
  (** UniformlyControlledRY, 130-147; UniformlyControlledRZ, 151-168: the k-th matrix is made of the k-th angle. *)
  Definition qi_UCRY (cs : list N) (t : N) (angles : N -> ang) : circ := qi_UCSB cs t (fun k => m_RY (angles k)).
  Definition qi_UCRZ (i : K) (cs : list N) (t : N) (angles : N -> ang) : circ :=
    qi_UCSB cs t (fun k => mkMat (a_c (angles k) + i * - a_s (angles k)) 0 0 (a_c (angles k) + i * a_s (angles k))).

  (** U, 18-26; CU, 29-38; AntiCU, 41-50. *)
  Definition qi_U (u : u3 K) (t : N) : circ := [GM [] (u_mat u) t].
  Definition qi_CU (u : u3 K) (cs : list N) (t : N) : circ := [GM cs (u_mat u) t].
  Definition qi_AntiCU (u : u3 K) (cs : list N) (t : N) : circ := qi_MACMtrx cs (u_mat u) t.

  (** AI, 53-61; IAI, 64-74; CAI, 77-86; CIAI, 89-100; AntiCAI, 103-112; AntiCIAI, 115-126: [az] holds cos and sin of the
      azimuth, [inc] of half the inclination. *)
  Definition m_AI (i : K) (az inc : ang) : mat2 K :=
    mkMat (a_c inc) ((- a_c az + i * a_s az) * a_s inc) ((a_c az + i * a_s az) * a_s inc) (a_c inc).
  Variable recip : K -> K.
  Definition qi_AI (i : K) (az inc : ang) (t : N) : circ := [GM [] (m_AI i az inc) t].
  Definition qi_IAI (i : K) (az inc : ang) (t : N) : circ := [GM [] (inv2 recip (m_AI i az inc)) t].
  Definition qi_CAI (i : K) (az inc : ang) (ctl t : N) : circ := [GM [ctl] (m_AI i az inc) t].
  Definition qi_CIAI (i : K) (az inc : ang) (ctl t : N) : circ := [GM [ctl] (inv2 recip (m_AI i az inc)) t].
  Definition qi_AntiCAI (i : K) (az inc : ang) (ctl t : N) : circ := qi_MACMtrx [ctl] (m_AI i az inc) t.
  Definition qi_AntiCIAI (i : K) (az inc : ang) (ctl t : N) : circ := qi_MACMtrx [ctl] (inv2 recip (m_AI i az inc)) t.

  (** Exp, 225-229; ExpX, 248-252; ExpY, 255-259; ExpZ, 262-266: [a] holds cos and sin of the angle itself. *)
  Definition qi_Exp (rgp : bool) (i : K) (a : ang) (q : N) : circ := qi_Phase rgp (a_c a + i * a_s a) (a_c a + i * a_s a) q.
  Definition qi_ExpX (i : K) (a : ang) (q : N) : circ := qi_Invert (a_c a + i * a_s a) (a_c a + i * a_s a) q.
  Definition qi_ExpY (i : K) (a : ang) (q : N) : circ := qi_Invert ((a_c a + i * a_s a) * - i) ((a_c a + i * a_s a) * i) q.
  Definition qi_ExpZ (rgp : bool) (i : K) (a : ang) (q : N) : circ := qi_Phase rgp (a_c a + i * a_s a) (- (a_c a + i * a_s a)) q.
  (** CRX, 276-284. *)
  Definition qi_CRX (i : K) (a : ang) (ctl t : N) : circ := [GM [ctl] (mkMat (a_c a) (i * a_s a) (i * a_s a) (a_c a)) t].
End Rot.
Arguments ang : clear implicits.
