(** What QUnitClifford should do: the gates of its interface on the state of all qubits.  Nothing here refers to units. *)
From Coq Require Import NArith List Bool.
From Verif Require Import Amp SpecState MTensor MUCliff.
Import ListNotations.
Local Open Scope N_scope.

Section S.
  Context {K : StarRing} (ci ch : K).
  Local Notation vec := (N -> K).
  (** The control has the value for which the gate acts. *)
  Definition fires (anti : bool) (q x : N) : bool := if anti then negb (N.testbit x q) else N.testbit x q.
  Definition swapped (a b : N) (psi : vec) : vec := fun x => psi (swap_bits a b x).
  (** Swap, with the factor [f] on |01> and |10>. *)
  Definition iswapped (f : K) (a b : N) (psi : vec) : vec := fun x => if eqb (N.testbit x a) (N.testbit x b) then psi x else (f * psi (swap_bits a b x))%amp.
  Definition id_H : mat2 K := (mkMat ch ch ch (- ch))%amp.
  Definition id_X : mat2 K := (mkMat 0 1 1 0)%amp.
  Definition id_Y : mat2 K := (mkMat 0 (- ci) ci 0)%amp.
  Definition id_P (f : K) : mat2 K := (mkMat 1 0 0 f)%amp.
  Definition ideal_call (o : kcall K) (psi : vec) : vec :=
    match o with
    | OH t => gate1 always t id_H psi | OX t => gate1 always t id_X psi | OY t => gate1 always t id_Y psi
    | OZ t => gate1 always t (id_P (- (1))%amp) psi | OS t => gate1 always t (id_P ci) psi | OIS t => gate1 always t (id_P (- ci)%amp) psi
    | OMtrx m t => gate1 always t m psi
    | OCZ anti q t => gate1 (fires anti q) t (id_P (- (1))%amp) psi | OCY anti q t => gate1 (fires anti q) t id_Y psi
    | OCNOT anti q t => gate1 (fires anti q) t id_X psi | OMC anti cs m t => gate1 (fun x => forallb (fun q => fires anti q x) cs) t m psi
    | OSwap a b => swapped a b psi
    | OISwap inv a b => iswapped (if inv then - ci else ci)%amp a b psi
    end.
  Definition ideal_run (p : list (kcall K)) (psi : vec) : vec := fold_left (fun s o => ideal_call o s) p psi.

  (** Calls that make sense on [n] qubits: different qubits below [n], at most one control, matrices that are unitary and that the
      simulator of the units accepts. *)
  Definition valid (ok : mat2 K -> bool) (ok2 : bool -> mat2 K -> bool) (n : N) (o : kcall K) : Prop :=
    match o with
    | OH t | OX t | OY t | OZ t | OS t | OIS t => t < n
    | OMtrx m t => t < n /\ unitary2 m /\ ok m = true
    | OCZ _ q t | OCY _ q t | OCNOT _ q t | OSwap q t | OISwap _ q t => q < n /\ t < n /\ q <> t
    | OMC anti cs m t => t < n /\ unitary2 m /\ match cs with [] => ok m = true | [q] => q < n /\ q <> t /\ ok2 anti m = true | _ => False end
    end.
  (** The controls of a call are not certain to let the gate act: some basis state in which they do not is part of the state. *)
  Definition unsure (n : N) (anti : bool) (q : N) (psi : vec) : Prop := exists x, x < 2 ^ n /\ fires anti q x = false /\ psi x <> 0%amp.
  Definition call_unsure (n : N) (o : kcall K) (psi : vec) : Prop :=
    match o with
    | OCZ anti q _ | OCY anti q _ | OCNOT anti q _ | OMC anti [q] _ _ => unsure n anti q psi
    | _ => True
    end.
  Fixpoint run_unsure (n : N) (p : list (kcall K)) (psi : vec) : Prop :=
    match p with [] => True | o :: t => call_unsure n o psi /\ run_unsure n t (ideal_call o psi) end.

  (** What the simulator of the units has to do when it splits off a qubit [m] of [n]: find the two parts of a product. *)
  Definition sep_ok (c : kcfg K) : Prop := forall n m v rest one, 1 < n -> m < n -> norm2 n v = 1%amp -> kc_sep c n m v = Some (rest, one) ->
    norm2 (n - 1) rest = 1%amp /\ norm2 1 one = 1%amp /\ eqv n v (tensor_at m 1 rest one).
  (** The state that GetAmplitude shows. *)
  Definition amps (U : ucliff K) : vec := fun x => match k_amplitude x U with Ret a => a | _ => 0%amp end.
  Definition weight_at (U : ucliff K) (q : N) (r : bool) : K := weight_of (k_n U) (fun x => eqb (N.testbit x q) r) (amps U).
  (** 1 / sqrt is right for the probabilities of qubit [q]. *)
  Definition nrm_ok (c : kcfg K) (U : ucliff K) (q : N) : Prop := forall r, weight_at U q r <> 0%amp -> (anorm (kc_nrm c (weight_at U q r)) * weight_at U q r = 1)%amp.
  (** Registers that can be reached: new ones, and the results of gates, measurements and Compose that complete. *)
  Inductive reached (c : kcfg K) : ucliff K -> Prop :=
  | r_new n perm ph : anorm ph = 1%amp -> reached c (set_permutation n perm ph)
  | r_call U o V : reached c U -> valid (kc_ok c) (kc_ok2 c) (k_n U) o -> k_call ci ch c o U = Ret V -> reached c V
  | r_measure U q res force apply r V : reached c U -> q < k_n U -> nrm_ok c U q -> k_force_m c q res force apply U = Ret (r, V) -> reached c V
  | r_compose U T start V : reached c U -> reached c T -> k_compose T start U = Ret V -> reached c V.
  (** [ci] is i and [ch] is 1 / sqrt 2. *)
  Definition amps_ok : Prop := (ci * ci = - (1))%amp /\ sr_conj ci = (- ci)%amp /\ (ch * ch + ch * ch = 1)%amp /\ sr_conj ch = ch.
End S.
