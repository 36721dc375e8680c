(** What programs on a QTensorNetwork should do, stated on state vectors. *)
From Coq Require Import NArith List Bool.
From Verif Require Import Amp SpecState SpecUnit3 MTensor.
Import ListNotations.
Local Open Scope N_scope.

Section Spec.
  Context {K : StarRing}.
  Local Notation vec := (N -> K).
  Local Open Scope amp_scope.

  (** Calls with qubits in range, distinct, and unitary matrices. *)
  Definition in_range_t (n : N) (a : @tcall K) : Prop :=
    match a with
    | TGate m t => (t < n)%N /\ unitary2 m
    | TMC cs m t | TMAC cs m t => NoDup (t :: cs) /\ (forall q, In q (t :: cs) -> (q < n)%N) /\ unitary2 m
    | TSwap a b => (a < n)%N /\ (b < n)%N
    | TMeas q _ _ _ => (q < n)%N
    | TProb q => (q < n)%N
    | TAmp x => (x < 2 ^ n)%N
    end.
  Definition is_gate (a : @tcall K) : bool := match a with TGate _ _ | TMC _ _ _ | TMAC _ _ _ | TSwap _ _ => true | _ => false end.
  Definition is_read (a : @tcall K) : bool := match a with TProb _ | TAmp _ => true | _ => false end.
  (** The qubits of a gate. *)
  Definition touches (a : @tcall K) : list N :=
    match a with TGate _ t => [t] | TMC cs _ t | TMAC cs _ t => t :: cs | TSwap a b => [a; b] | _ => [] end.
  (** The effect of a gate on the state. *)
  Definition ideal_t (a : @tcall K) (psi : vec) : vec :=
    match a with
    | TGate m t => gate1 always t m psi
    | TMC cs m t => gate1 (all_set cs) t m psi
    | TMAC cs m t => gate1 (all_clear cs) t m psi
    | TSwap a b => fun x => psi (swap_bits a b x)
    | _ => psi
    end.

  (** The state after a program without measurements. *)
  Definition after (l : list (@tcall K)) (psi : vec) : vec := fold_left (fun v a => ideal_t a v) l psi.
  (** MAll of a layer stack draws a basis state with an amplitude that is not 0. *)
  Definition picks (c : @tcfg K) (n : N) : Prop := forall d v, norm2 n v = 1 -> (tc_pick c d n v < 2 ^ n)%N /\ v (tc_pick c d n v) <> 0.

  (** [runs_to l psi o]: a correct simulator in state [psi] may end a program with [o]: the results of the measurements and the
      final state, or an exception if a result of probability 0 is forced. *)
  Inductive runs_to (n : N) (rnd : N -> K -> bool) : list (@tcall K) -> vec -> out (list bool * vec) -> Prop :=
  | r_nil psi : runs_to n rnd [] psi (Ret ([], psi))
  | r_gate a t psi o : is_gate a = true -> runs_to n rnd t (ideal_t a psi) o -> runs_to n rnd (a :: t) psi o
  | r_read a t psi o : is_read a = true -> runs_to n rnd t psi o -> runs_to n rnd (a :: t) psi o
  | r_meas q r (f ap : bool) t psi b phi o : (if f then b = r else chosen rnd (chance n q true psi) b) -> chance n q b psi <> 0 ->
      (if ap then normalized n phi (collapse q b psi) else phi = psi) -> runs_to n rnd t phi o ->
      runs_to n rnd (TMeas q r f ap :: t) psi (do (bs, v) <- o; Ret (b :: bs, v))
  | r_stop q r ap t psi : chance n q r psi = 0 -> runs_to n rnd (TMeas q r true ap :: t) psi Throws.

  (** The amplitudes read are those of [psi], up to one phase, and the probabilities are those of [psi]. *)
  Definition reads_as (A : MBdt.Arith K) (ci : K) (c : @tcfg K) (T : @tn K) (psi : vec) : Prop :=
    (exists ph, anorm ph = 1 /\ forall x, (x < 2 ^ tn_n T)%N -> exists T', tn_amp A ci c x T = Ret (ph * psi x, T')) /\
    (forall q, (q < tn_n T)%N -> exists T', tn_prob A ci c q T = Ret (chance (tn_n T) q true psi, T')).
  (** The run of the network and the correct run agree. *)
  Definition agrees (A : MBdt.Arith K) (ci : K) (c : @tcfg K) (r : out (list bool * @tn K)) (o : out (list bool * vec)) : Prop :=
    match r, o with
    | Ret (bs, T), Ret (bs', psi) => bs = bs' /\ reads_as A ci c T psi
    | Throws, Throws => True
    | _, _ => False
    end.

  (** ** Programs on which QTensorNetwork is right (see PropTensor.v)

      [M] holds the qubits measured so far, [S] the qubits of the gates that came later and had a measured qubit.  A gate with a
      measured qubit may follow; another gate must have no qubit in [S]; once there are such gates, a measurement that changes the
      state must be the start of a rest without gates.  With a QEngine as layer stack ([eng]), gates must not follow when exactly
      one qubit has been measured. *)
  Definition meets (qs l : list N) : bool := existsb (fun q => existsb (N.eqb q) l) qs.
  Fixpoint ordered (eng : bool) (M S : list N) (l : list (@tcall K)) : Prop :=
    match l with
    | [] => True
    | TMeas q _ _ true :: t => match S with [] => ordered eng (q :: M) S t | _ => forallb (fun a => negb (is_gate a)) t = true end
    | TMeas _ _ _ false :: t | TProb _ :: t | TAmp _ :: t => ordered eng M S t
    | a :: t =>
        (eng = true -> length (nodup N.eq_dec M) <> 1%nat) /\
        (if meets (touches a) M then ordered eng M (touches a ++ S) t else meets (touches a) S = false /\ ordered eng M S t)
    end.
End Spec.
