(** Choosing a measurement outcome from a distribution and a random draw, /repo/src/qengine/qengine.cpp and
    /repo/src/qengine/state.cpp.  Probabilities and draws are rational numbers (exact); Rand() is in [0,1)
    (std::uniform_real_distribution(0,1), qinterface.hpp:286-293), zero included.  Division by a zero probability is
    visible as a zero [nrmlzr]; reading past the probability array is [None]. *)
From Coq Require Import NArith QArith List Bool.
Import ListNotations.
Local Open Scope N_scope.

Definition qlt (a b : Q) : bool := negb (Qle_bool b a).

(** ForceM(qubit), qengine.cpp:78-107: the value measured (without forcing). *)
Definition forcem_choose (p1 r : Q) : bool :=
  if Qle_bool 1 p1 then true else if Qle_bool p1 0 then false else Qle_bool r p1.
(** [None] is the exception thrown for an outcome without probability, line 96-98. *)
Definition ForceM1 (p1 r : Q) (result doForce : bool) : option (bool * Q) :=
  let res := if doForce then result else forcem_choose p1 r in
  let nrmlzr := if res then p1 else (1 - p1)%Q in
  if Qle_bool nrmlzr 0 then None else Some (res, nrmlzr).

(** ForceMReg, qengine.cpp:513-530: the loop over the probabilities; the result is the value and [nrmlzr]. *)
Fixpoint reg_loop (ps : list Q) (lcv : N) (lower r : Q) (result : N) (nrmlzr : Q) : N * Q :=
  match ps with
  | [] => (result, nrmlzr)
  | p :: t =>
      if qlt lower r
      then reg_loop t (lcv + 1) (lower + p)%Q r (if qlt 0 p then lcv else result) (if qlt 0 p then p else nrmlzr)
      else (result, nrmlzr)
  end.
Definition ForceMReg_draw (ps : list Q) (r : Q) : N * Q :=
  reg_loop ps 0 0 r (N.of_nat (length ps) - 1) 1.

(** ForceM(bits) without forced values, qengine.cpp:168-190: [lower] starts with the first probability, the index is
    advanced before the array is read. *)
Fixpoint bits_loop (fuel : nat) (ps : list Q) (lcv : nat) (lower r : Q) : option nat :=
  match fuel with
  | O => Some lcv
  | S f =>
      if qlt lower r && (lcv <? length ps)%nat
      then match nth_error ps (S lcv) with
           | None => None
           | Some p => bits_loop f ps (S lcv) (lower + p)%Q r
           end
      else Some lcv
  end.
(** The final assignment, lines 187-190, overrides whatever the loop stored whenever the index is in range. *)
Definition ForceMBits_draw (ps : list Q) (r : Q) : option (N * Q) :=
  match bits_loop (S (length ps)) ps 0 (nth 0 ps 0%Q) r with
  | None => None
  | Some lcv => match nth_error ps lcv with Some p => Some (N.of_nat lcv, p) | None => None end
  end.

(** MAll, state.cpp:1531-1555; [e1] is REAL1_EPSILON and [e2] FP_NORM_EPSILON. *)
Fixpoint mall_loop (e1 e2 : Q) (ps : list Q) (perm : N) (tot r : Q) (last : N) : N :=
  match ps with
  | [] => last
  | p :: t =>
      if qlt e1 p
      then let tot' := (tot + p)%Q in
           if qlt r tot' || Qle_bool (1 - tot') e2 then perm else mall_loop e1 e2 t (perm + 1) tot' r perm
      else mall_loop e1 e2 t (perm + 1) tot r last
  end.
Definition MAll_draw (e1 e2 : Q) (ps : list Q) (r : Q) : N :=
  mall_loop e1 e2 ps 0 0 r (N.of_nat (length ps) - 1).

(** ForceM(bits, values, doApply) with forced values, qengine.cpp:124-163.  The result is the returned mask and whether
    the state was projected.  [p1] is the probability of the single bit, [pv] that of the forced values on all bits,
    [eps] FP_NORM_EPSILON (REAL1_EPSILON for the single bit, line 100; one tolerance here). *)
Fixpoint forced_mask (bits : list N) (values : list bool) : N :=
  match bits, values with
  | q :: bt, v :: vt => N.lor (if v then 2 ^ q else 0) (forced_mask bt vt)
  | _, _ => 0
  end.
Definition ForceMBits_forced (eps p1 pv r : Q) (bits : list N) (values : list bool) (doApply : bool) : option (N * bool) :=
  match bits with
  | [q] =>
      match ForceM1 p1 r (nth 0 values false) false with
      | None => None
      | Some (res, nrmlzr) => Some (if res then 2 ^ q else 0, doApply && qlt eps (1 - nrmlzr))
      end
  | _ => Some (forced_mask bits values, qlt eps (1 - pv)%Q)
  end.
