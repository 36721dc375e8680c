(** Vocabulary for statements about circuit objects. *)
From Coq Require Import NArith List Bool.
From Verif Require Import Amp SpecFunctions SpecState MQCircuit.
Import ListNotations.
Local Open Scope N_scope.

Section S.
  Context {K : StarRing}.
  Local Notation vec := (N -> K).

  (** The matrix a gate applies to its target when the controls read [k]: the listed one, or the identity. *)
  Definition matrix_for (g : @qgate K) (k : N) : mat2 K :=
    match find (fun e => fst e =? k) (qg_pl g) with Some e => snd e | None => midn end.
  (** Effect of a gate: a swap when it has one control and no matrices, else a uniformly controlled gate. *)
  Definition effect (g : @qgate K) (psi : vec) : vec :=
    match qg_pl g, qg_ctl g with
    | [], c :: _ => fun x => psi (swap_bits c (qg_t g) x)
    | _, cs => fun x => gate1 always (qg_t g) (matrix_for g (ctrl_value 0 cs x)) psi x
    end.
  (** Effect of a sequence of gates, first gate first. *)
  Definition effects (gs : list (@qgate K)) (psi : vec) : vec := fold_left (fun s g => effect g s) gs psi.

  (** A gate on [n] qubits with unitary matrices: controls in increasing order, different from the target, at least one
      matrix, keys in increasing order and within the control values. *)
  Definition good_gate (n : N) (g : @qgate K) : Prop :=
    qg_t g < n /\ increasing_below 0 n (qg_ctl g) /\ ~ In (qg_t g) (qg_ctl g) /\ qg_pl g <> [] /\
    increasing_below 0 (2 ^ N.of_nat (length (qg_ctl g))) (map fst (qg_pl g)) /\
    forall e, In e (qg_pl g) -> unitary2 (snd e).
  (** A swap gate on two different qubits. *)
  Definition good_swap (n : N) (g : @qgate K) : Prop :=
    qg_pl g = [] /\ exists c, qg_ctl g = [c] /\ c < n /\ qg_t g < n /\ c <> qg_t g.

  (** [psi'] is [spec] up to a global phase. *)
  Definition phase_equal (n : N) (spec psi' : vec) : Prop :=
    exists ph, anorm ph = 1%amp /\ forall x, x < 2 ^ n -> spec x = (ph * psi' x)%amp.
End S.

(** [P] looks only at the listed qubits. *)
Definition depends_on (qs : list N) (P : N -> bool) : Prop :=
  forall x y, (forall q, In q qs -> N.testbit x q = N.testbit y q) -> P x = P y.
