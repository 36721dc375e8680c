(** Specification, continued: call sequences of the stabilizer simulator, the tableaus they reach, and what it means
    that a tableau describes a state.  Gate names are linked to the model's functions here. *)
From Coq Require Import NArith ZArith List Bool.
From Verif Require Import Amp SpecState SpecStab MEngine MStab.
Import ListNotations.
Local Open Scope N_scope.

(** The code's function for a gate. *)
Definition sg_run (rgp : bool) (T : tab) (g : cgate) : res tab :=
  match g with
  | GX t => sg_x rgp T t | GY t => sg_y rgp T t | GZ t => sg_z rgp T t | GS t => sg_s rgp T t | GIS t => sg_is rgp T t | GH t => sg_h rgp T t
  | GCNOT c t => sg_cnot rgp T c t | GACNOT c t => sg_anticnot rgp T c t | GCY c t => sg_cy rgp T c t | GACY c t => sg_anticy rgp T c t
  | GCZ c t => sg_cz rgp T c t | GACZ c t => sg_anticz rgp T c t
  | GSWAP a b => sg_swap rgp T a b | GISWAP a b => sg_iswap rgp T a b | GIISWAP a b => sg_iiswap rgp T a b
  end.
Definition sg_circuit (rgp : bool) (T : tab) (l : list cgate) : res tab := fold_left (fun r g => rbind r (fun T => sg_run rgp T g)) l (Ok T).

(** The operator of a tableau row. *)
Definition row_op {K : StarRing} (im : K) (n : N) (w : row) (psi : N -> K) : N -> K := pauli_op im n (rx w) (rz w) (rr w) psi.
Definition row_fits (n : N) (w : row) : Prop := rx w < 2 ^ n /\ rz w < 2 ^ n.
(** Every stabilizer row (n .. 2n-1) leaves the state unchanged. *)
Definition describes {K : StarRing} (im : K) (T : tab) (psi : N -> K) : Prop :=
  forall p, p < t_n T -> eqv (t_n T) (row_op im (t_n T) (t_row T (t_n T + p)) psi) psi.
(** Destabilizer i anticommutes with stabilizer n+i; all other pairs of rows commute. *)
Definition partners (n i j : N) : Prop := i + n = j \/ j + n = i.
Definition commutation_pattern {K : StarRing} (im : K) (T : tab) : Prop :=
  forall i j, i < 2 * t_n T -> j < 2 * t_n T ->
    (partners (t_n T) i j -> op_anticommute (t_n T) (row_op im (t_n T) (t_row T i)) (row_op im (t_n T) (t_row T j))) /\
    (~ partners (t_n T) i j -> op_commute (t_n T) (row_op im (t_n T) (t_row T i)) (row_op im (t_n T) (t_row T j))).
(** The imaginary unit of the Gaussian integers. *)
Definition gim : GI := (0%Z, 1%Z).
(** Twice a nonzero amplitude is nonzero. *)
Definition no_torsion (K : StarRing) : Prop := forall a : K, (a + a = 0)%amp -> a = 0%amp.
(** Products of nonzero amplitudes are nonzero. *)
Definition domain (K : StarRing) : Prop := forall a b : K, (a * b = 0)%amp -> a = 0%amp \/ b = 0%amp.

(** The state is an eigenstate of the one-qubit matrix [M] on qubit [t], with eigenvalue 1 or -1. *)
Definition signed {K : StarRing} (s : bool) (psi : N -> K) : N -> K := fun y => if s then (- psi y)%amp else psi y.
Definition eigen {K : StarRing} (n t : N) (M : mat2 K) (psi : N -> K) : Prop := exists s, eqv n (gate1 always t M psi) (signed s psi).
(** Not the zero vector, as a negation. *)
Definition notzero {K : StarRing} (n : N) (psi : N -> K) : Prop := ~ eqv n psi (fun _ => 0%amp).

(** The lowest set bit of [v] is bit [j]. *)
Definition lowest (v j : N) : Prop := N.testbit v j = true /\ forall m, m < j -> N.testbit v m = false.
(** Row echelon form: stabilizers 0 .. g-1 have increasing lowest x bits, the others have no x bits and increasing
    lowest z bits. *)
Definition echelon (T : tab) (g : N) : Prop :=
  g <= t_n T /\
  (exists piv, (forall a, a < g -> lowest (rx (t_row T (t_n T + a))) (piv a) /\ piv a < t_n T) /\ (forall a b, a < b -> b < g -> piv a < piv b)) /\
  (forall a, g <= a -> a < t_n T -> rx (t_row T (t_n T + a)) = 0) /\
  (exists piv, (forall a, g <= a -> a < t_n T -> lowest (rz (t_row T (t_n T + a))) (piv a) /\ piv a < t_n T) /\
     (forall a b, g <= a -> a < b -> b < t_n T -> piv a < piv b)).

(** ** Commands: gates, measurements with a random bit, forced measurements *)
Inductive command := Gate (g : cgate) | Measure (t : N) (rnd : bool) | Force (t : N) (b : bool).
Definition command_fits (n : N) (c : command) : Prop := match c with Gate g => gate_fits n g | Measure t _ | Force t _ => t < n end.
(** The model: results of the measurements in order, final tableau. *)
Definition run_command (rgp : bool) (st : list bool * tab) (c : command) : res (list bool * tab) :=
  let '(l, T) := st in
  match c with
  | Gate g => rbind (sg_run rgp T g) (fun T => Ok (l, T))
  | Measure t rnd => rbind (force_m rgp rnd T t false false true) (fun r => Ok (l ++ [fst r], snd r))
  | Force t b => rbind (force_m rgp false T t b true true) (fun r => Ok (l ++ [fst r], snd r))
  end.
Definition run_commands (rgp : bool) (T : tab) (cs : list command) : res (list bool * tab) :=
  fold_left (fun r c => rbind r (fun st => run_command rgp st c)) cs (Ok ([], T)).
(** Specification: the (unnormalised) state after the commands, given the results. *)
Fixpoint commands_act {K : StarRing} (im h : K) (cs : list command) (bs : list bool) (psi : N -> K) : N -> K :=
  match cs with
  | [] => psi
  | Gate g :: cs => commands_act im h cs bs (gate_act im h g psi)
  | Measure t _ :: cs | Force t _ :: cs => match bs with [] => psi | b :: bs => commands_act im h cs bs (collapsed t b psi) end
  end.
Definition count_meas (cs : list command) : nat := length (filter (fun c => match c with Gate _ => false | _ => true end) cs).

(** ** Tableaus that the simulator can hold *)
Inductive reachable : tab -> Prop :=
| r_new rgp n perm T : n <= 127 -> set_permutation rgp n perm = Ok T -> reachable T
| r_gate rgp T g T' : reachable T -> gate_fits (t_n T) g -> sg_run rgp T g = Ok T' -> reachable T'
| r_measure rgp rnd T t result doForce doApply b T' : reachable T -> force_m rgp rnd T t result doForce doApply = Ok (b, T') -> reachable T'
| r_reduced T : reachable T -> reachable (reduced T)
| r_separable rgp T t c T' : reachable T -> is_separable rgp T t = Ok (c, T') -> reachable T'
| r_compose T C s R : reachable T -> reachable C -> t_n T + t_n C <= 127 -> stab_compose T C s = Ok R -> reachable R
| r_rest rgp dest T s m T1 R D : reachable T -> 0 < m -> can_dispose T s m = Ok (true, T1) -> decompose_dispose rgp dest T1 s m = Ok (R, D) -> reachable R
| r_part rgp dest T s m T1 R D : reachable T -> 0 < m -> can_dispose T s m = Ok (true, T1) -> decompose_dispose rgp dest T1 s m = Ok (R, D) -> reachable D.
