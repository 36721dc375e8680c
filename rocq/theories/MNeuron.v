(** QNeuron: a rotation of an output qubit, with an angle for each value of the input qubits, and its training.
    /repo/include/qneuron.hpp ("qneuron").
    Simplified: the register is an exact state vector of [n] qubits, its calls do what they should, and real arithmetic is exact.
    RY and UniformlyControlledRY are given by their matrices (/repo/src/qinterface/rotational.cpp:130-147, 187-193); that the engines
    apply them is C19 and C22.  Angles are any type with the operations below; erf and pow are any functions. *)
From Coq Require Import NArith List Bool.
From Verif Require Import Amp SpecState MTensor.
Import ListNotations.
Local Open Scope N_scope.

(** QNeuronActivationFn, /repo/include/common/qneuron_activation_function.hpp:17-28. *)
Inductive actfn := Sigmoid | ReLU | GeLU | Generalized_Logistic | Leaky_ReLU.

(** Angles: 0, sum, negation, order; cos and sin of half the angle; pi and pi/2; angle * (1 + erf(angle / sqrt 2));
    (2 |angle| / pi) ^ alpha * (pi / 2) with the sign of the angle; alpha * angle; fmod(angle, 4 pi) and the rest of clampAngle
    (qneuron:60-71). *)
Record angles (K : StarRing) := mkAng {
  ang : Type; a_0 : ang; a_add : ang -> ang -> ang; a_neg : ang -> ang; a_ltb : ang -> ang -> bool;
  a_cos : ang -> K; a_sin : ang -> K; a_pi : ang; a_half_pi : ang;
  a_gelu : ang -> ang; a_pow : ang -> ang; a_scale : ang -> ang; a_clamp : ang -> ang }.
Arguments mkAng {K}. Arguments ang {K}. Arguments a_0 {K}. Arguments a_add {K}. Arguments a_neg {K}. Arguments a_ltb {K}.
Arguments a_cos {K}. Arguments a_sin {K}. Arguments a_pi {K}. Arguments a_half_pi {K}. Arguments a_gelu {K}. Arguments a_pow {K}.
Arguments a_scale {K}. Arguments a_clamp {K}.

Section Neuron.
  Context {K : StarRing} (G : angles K).
  Local Notation vec := (N -> K).
  Local Notation A := (ang G).
  Local Open Scope amp_scope.

  (** Random comparisons of measurements; 1 / sqrt; the comparison "less or equal" of probabilities; tolerance. *)
  Record ncfg := mkNC { nc_rnd : N -> K -> bool; nc_nrm : K -> K; nc_leb : K -> K -> bool; nc_tol : K }.
  Variable c : ncfg.
  Variable n : N.

  (** inputIndices, outputIndex, activationFn, inputPower and the array of angles (qneuron:26-34). *)
  Record neuron := mkNr { nr_in : list N; nr_out : N; nr_fn : actfn; nr_pow : N; nr_ang : list A }.
  Definition set_angles (l : list A) (r : neuron) : neuron := mkNr (nr_in r) (nr_out r) (nr_fn r) (nr_pow r) l.
  Definition angle_at (i : N) (r : neuron) : A := nth (N.to_nat i) (nr_ang r) (a_0 G).
  (** Constructor (qneuron:84-95): the angles are 0. *)
  Definition new_neuron (ins : list N) (out : N) (f : actfn) : neuron :=
    mkNr ins out f (2 ^ N.of_nat (length ins)) (repeat (a_0 G) (N.to_nat (2 ^ N.of_nat (length ins)))).
  (** Copy constructor (qneuron:98-103): writing past the new array is undefined. *)
  Definition copy_neuron (r : neuron) : out neuron :=
    let s := new_neuron (nr_in r) (nr_out r) (nr_fn r) in
    if (nr_pow s <? nr_pow r)%N then Undef
    else Ret (set_angles (firstn (N.to_nat (nr_pow r)) (nr_ang r) ++ skipn (N.to_nat (nr_pow r)) (nr_ang s)) s).
  (** operator= (qneuron:105-116): the array keeps its size, and inputPower is not assigned; writing past the array is undefined. *)
  Definition assign (r to : neuron) : out neuron :=
    if (N.of_nat (length (nr_ang r)) <? nr_pow to)%N then Undef
    else Ret (mkNr (nr_in to) (nr_out to) (nr_fn to) (nr_pow r) (firstn (N.to_nat (nr_pow to)) (nr_ang to) ++ skipn (N.to_nat (nr_pow to)) (nr_ang r))).

  (** std::max; applyRelu, applyGelu, applyAlpha, applyLeakyRelu (qneuron:36-58). *)
  Definition a_max (x y : A) : A := if a_ltb G x y then y else x.
  Definition apply_alpha (a : A) : A :=
    let '(r, a) := if a_ltb G (a_pi G) a then (a_pi G, a_add G a (a_neg G (a_pi G)))
                   else if negb (a_ltb G (a_neg G (a_pi G)) a) then (a_neg G (a_pi G), a_add G a (a_pi G)) else (a_0 G, a) in
    a_add G r (a_pow G a).
  (** The angle used by Predict (qneuron:153-196) and the one used by Unpredict (qneuron:207-252). *)
  Definition act (f : actfn) (a : A) : A :=
    match f with
    | Sigmoid => a | ReLU => a_max (a_0 G) a | GeLU => a_gelu G a | Generalized_Logistic => apply_alpha a | Leaky_ReLU => a_max (a_scale G a) a
    end.
  Definition neg_act (f : actfn) (a : A) : A :=
    match f with
    | Sigmoid => a_neg G a | ReLU => a_neg G (a_max (a_0 G) a) | GeLU => a_neg G (a_gelu G a)
    | Generalized_Logistic => a_neg G (apply_alpha a) | Leaky_ReLU => a_neg G (a_max (a_scale G a) a)
    end.

  (** RY (rotational.cpp:187-193) and UniformlyControlledRY (rotational.cpp:130-147). *)
  Definition ry_mat (a : A) : mat2 K := mkMat (a_cos G a) (- a_sin G a) (a_sin G a) (a_cos G a).
  Definition ry (a : A) (t : N) (psi : vec) : vec := gate1 always t (ry_mat a) psi.
  Definition uc_ry (cs : list N) (t : N) (l : list A) (psi : vec) : vec :=
    fun x => gate1 always t (ry_mat (nth (N.to_nat (ctrl_value 0 cs x)) l (a_0 G))) psi x.
  Definition prob1 (q : N) (psi : vec) : K := weight_of n (fun x => N.testbit x q) psi.
  (** M; [d] counts the random numbers. *)
  Definition measure (q d : N) (psi : vec) : bool * vec * N :=
    let p := prob1 q psi in
    let '(r, d) := if sr_eqb p 1 then (true, d) else if sr_eqb p 0 then (false, d) else (nc_rnd c d p, (d + 1)%N) in
    let nz := if r then p else 1 - p in
    (r, fun x => if eqb (N.testbit x q) r then nc_nrm c nz * psi x else 0, d).
  (** SetBit(q, false) (/repo/include/qinterface.hpp:2823-2828) and RY(pi / 2) (qneuron:148-151). *)
  Definition reset_out (q d : N) (psi : vec) : vec * N :=
    let '(r, psi, d) := measure q d psi in
    let psi := if r then gate1 always q (mkMat 0 1 1 0) psi else psi in
    (ry (a_half_pi G) q psi, d).

  (** The rotations of Predict (qneuron:153-196), Unpredict (qneuron:207-252), and the value returned (qneuron:197-201, 253-257). *)
  Definition rotate (f : A -> A) (r : neuron) (psi : vec) : vec :=
    match nr_in r with
    | [] => ry (f (angle_at 0 r)) (nr_out r) psi
    | _ => uc_ry (nr_in r) (nr_out r) (map f (firstn (N.to_nat (nr_pow r)) (nr_ang r))) psi
    end.
  Definition answer_of (expected : bool) (r : neuron) (psi : vec) : K :=
    let p := prob1 (nr_out r) psi in if expected then p else 1 - p.
  Definition predict (expected reset : bool) (r : neuron) (psi : vec) (d : N) : K * vec * N :=
    let '(psi, d) := if reset then reset_out (nr_out r) d psi else (psi, d) in
    let psi := rotate (act (nr_fn r)) r psi in
    (answer_of expected r psi, psi, d).
  Definition unpredict (expected : bool) (r : neuron) (psi : vec) : K * vec :=
    let psi := rotate (neg_act (nr_fn r)) r psi in
    (answer_of expected r psi, psi).
  (** LearnCycle (qneuron:260-265). *)
  Definition learn_cycle (expected : bool) (r : neuron) (psi : vec) (d : N) : K * vec * N :=
    let '(p, psi, d) := predict expected false r psi d in
    let '(_, psi) := unpredict expected r psi in
    (p, psi, d).

  Definition close (p : K) : bool := nc_leb c (1 - p) (nc_tol c).
  Definition set_angle (i : N) (a : A) (r : neuron) : neuron := set_angles (set_nth (N.to_nat i) a (nr_ang r)) r.
  (** LearnInternal (qneuron:319-354); [step] is eta * pi, None stands for the result -1. *)
  Definition learn_internal (expected : bool) (step : A) (i : N) (start : K) (r : neuron) (psi : vec) (d : N) : option K * neuron * vec * N :=
    let orig := angle_at i r in
    let r := set_angle i (a_add G orig step) r in
    let '(plus, psi, d) := learn_cycle expected r psi d in
    if close plus then (None, set_angle i (a_clamp G (angle_at i r)) r, psi, d)
    else
      let r := set_angle i (a_add G orig (a_neg G step)) r in
      let '(minus, psi, d) := learn_cycle expected r psi d in
      if close minus then (None, set_angle i (a_clamp G (angle_at i r)) r, psi, d)
      else if nc_leb c plus start && nc_leb c minus start then (Some start, set_angle i orig r, psi, d)
      else if negb (nc_leb c plus minus) then (Some plus, set_angle i (a_add G orig step) r, psi, d)
      else (Some minus, r, psi, d).
  (** The loop of Learn (qneuron:283-288). *)
  Fixpoint learn_loop (expected : bool) (step : A) (l : list N) (start : K) (r : neuron) (psi : vec) (d : N) : neuron * vec * N :=
    match l with
    | [] => (r, psi, d)
    | i :: t =>
        let '(p, r, psi, d) := learn_internal expected step i start r psi d in
        match p with None => (r, psi, d) | Some start => learn_loop expected step t start r psi d end
    end.
  (** Learn (qneuron:275-289). *)
  Definition learn (step : A) (expected reset : bool) (r : neuron) (psi : vec) (d : N) : neuron * vec * N :=
    let '(start, psi, d) := predict expected reset r psi d in
    let '(_, psi) := unpredict expected r psi in
    if close start then (r, psi, d) else learn_loop expected step (upto (N.to_nat (nr_pow r))) start r psi d.
  (** The measurements of LearnPermutation (qneuron:308-313). *)
  Fixpoint measure_all (qs : list N) (i acc : N) (psi : vec) (d : N) : N * vec * N :=
    match qs with
    | [] => (acc, psi, d)
    | q :: t => let '(b, psi, d) := measure q d psi in measure_all t (i + 1) (if b then N.lor acc (2 ^ i) else acc) psi d
    end.
  (** LearnPermutation (qneuron:300-316). *)
  Definition learn_permutation (step : A) (expected reset : bool) (r : neuron) (psi : vec) (d : N) : neuron * vec * N :=
    let '(start, psi, d) := predict expected reset r psi d in
    let '(_, psi) := unpredict expected r psi in
    if close start then (r, psi, d)
    else
      let '(i, psi, d) := measure_all (nr_in r) 0 0 psi d in
      let '(_, r, psi, d) := learn_internal expected step i start r psi d in
      (r, psi, d).
End Neuron.
