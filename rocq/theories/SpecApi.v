(** Independent specification of named qubits: a state gives an amplitude to every assignment of bits to IDs. *)
From Coq Require Import NArith List Bool.
From Verif Require Import Amp SpecState.
Import ListNotations.
Local Open Scope N_scope.

(** An assignment with the bit of [q] replaced. *)
Definition upd (f : N -> bool) (q : N) (b : bool) : N -> bool := fun i => if i =? q then b else f i.
(** All assignments to the IDs of a list; other IDs are false. *)
Fixpoint assign (ids : list N) : list (N -> bool) :=
  match ids with [] => [fun _ => false] | q :: t => flat_map (fun f => [upd f q false; upd f q true]) (assign t) end.
(** The value of a register of IDs, the first one is the lowest bit. *)
Fixpoint value_of (ids : list N) (f : N -> bool) : N :=
  match ids with [] => 0 | q :: t => (if f q then 1 else 0) + 2 * value_of t f end.
Fixpoint write_value (ids : list N) (k : N) (f : N -> bool) : N -> bool :=
  match ids with [] => f | q :: t => upd (write_value t (k / 2) f) q (N.odd k) end.
(** The basis state of an assignment when qubit [snd e] has the name [fst e]. *)
Fixpoint index_of (m : list (N * N)) (f : N -> bool) : N :=
  match m with [] => 0 | (k, v) :: t => if f k then N.setbit (index_of t f) v else index_of t f end.
(** The IDs of a new simulator, newest first. *)
Definition first_ids (n : N) : list N := rev (upto (N.to_nat n)).
(** The first ID was allocated before the second one; [ids] has the newest first. *)
Definition earlier (ids : list N) (a b : N) : Prop := exists l1 l2 l3, ids = l1 ++ b :: l2 ++ a :: l3.

Section Named.
  Context {K : StarRing}.
  Local Notation nstate := ((N -> bool) -> K).
  Local Open Scope amp_scope.
  (** The matrix on [q] where all controls have the value [want]. *)
  Definition ngate (want : bool) (cs : list N) (m : mat2 K) (q : N) (Psi : nstate) : nstate := fun f =>
    if forallb (fun c => eqb (f c) want) cs then
      (if f q then m10 m * Psi (upd f q false) + m11 m * Psi f else m00 m * Psi f + m01 m * Psi (upd f q true))
    else Psi f.
  Definition nswap (a b : N) (Psi : nstate) : nstate := fun f => Psi (upd (upd f a (f b)) b (f a)).
  (** A new qubit is clear; a qubit that certainly is [b] is taken away. *)
  Definition nalloc (q : N) (Psi : nstate) : nstate := fun f => if f q then 0 else Psi f.
  Definition nrelease (q : N) (b : bool) (Psi : nstate) : nstate := fun f => Psi (upd f q b).
  Definition nproject (q : N) (r : bool) (g : K) (Psi : nstate) : nstate := fun f => if eqb (f q) r then g * Psi f else 0.
  Definition nweight (ids : list N) (P : (N -> bool) -> bool) (Psi : nstate) : K :=
    asum (fun f => if P f then anorm (Psi f) else 0) (assign ids).
  Definition nchance (ids : list N) (q : N) (r : bool) (Psi : nstate) : K := nweight ids (fun f => eqb (f q) r) Psi.
  Definition certainly (q : N) (b : bool) (Psi : nstate) : Prop := forall f, f q = negb b -> Psi f = 0.

  (** All qubits clear; the basis state of an assignment; two sets of qubits side by side. *)
  Definition nzero (ids : list N) : nstate := fun f => if forallb (fun q => negb (f q)) ids then 1 else 0.
  Definition nket (ids : list N) (g : N -> bool) : nstate := fun f => if forallb (fun q => eqb (f q) (g q)) ids then 1 else 0.
  Definition nboth (Psi Phi : nstate) : nstate := fun f => Psi f * Phi f.
  (** Qubits named [l1] get the names [l2]. *)
  Fixpoint rename (l1 l2 : list N) (f : N -> bool) : N -> bool :=
    match l1, l2 with a :: t1, b :: t2 => upd (rename t1 t2 f) a (f b) | _, _ => f end.

  (** Calls on one simulator and their results. *)
  Inductive ncall := NAlloc (q : N) | NRelease (q : N) | NGate (want : bool) (cs : list N) (m : mat2 K) (q : N) | NSwap (a b : N) | NM (q : N) | NProb (q : N).
  Inductive nres := RNone | RBit (b : bool) | RVal (p : K).
  (** One call: IDs (newest first) and state before, result, IDs and state after. *)
  Inductive nstep : list N -> nstate -> ncall -> nres -> list N -> nstate -> Prop :=
    | ns_alloc ids Psi q : nstep ids Psi (NAlloc q) RNone (q :: ids) (nalloc q Psi)
    | ns_release l1 l2 Psi q b : certainly q b Psi -> nstep (l1 ++ q :: l2) Psi (NRelease q) (RBit (negb b)) (l1 ++ l2) (nrelease q b Psi)
    | ns_gate ids Psi want cs m q : nstep ids Psi (NGate want cs m q) RNone ids (ngate want cs m q Psi)
    | ns_swap ids Psi a b : nstep ids Psi (NSwap a b) RNone ids (nswap a b Psi)
    | ns_m ids Psi q r g : nchance ids q r Psi <> 0 -> anorm g * nchance ids q r Psi = 1 -> nstep ids Psi (NM q) (RBit r) ids (nproject q r g Psi)
    | ns_prob ids Psi q : nstep ids Psi (NProb q) (RVal (nchance ids q true Psi)) ids Psi.
  Inductive nsteps : list N -> nstate -> list ncall -> list nres -> list N -> nstate -> Prop :=
    | nss_nil ids Psi : nsteps ids Psi [] [] ids Psi
    | nss_cons ids Psi a l r rs ids1 Psi1 ids2 Psi2 : nstep ids Psi a r ids1 Psi1 -> nsteps ids1 Psi1 l rs ids2 Psi2 -> nsteps ids Psi (a :: l) (r :: rs) ids2 Psi2.
  (** Calls that neither allocate nor release. *)
  Definition keeps_ids (k : ncall) : bool := match k with NAlloc _ | NRelease _ => false | _ => true end.
  (** When a call may be made: IDs below [lim], at most [mx] qubits; gates are unitary with different qubits; a released qubit has a
      certain value. *)
  Definition allowed (lim mx : N) (ids : list N) (Psi : nstate) (a : ncall) : Prop :=
    match a with
    | NAlloc q => (q < lim)%N /\ ~ In q ids /\ (N.of_nat (length ids) < mx)%N
    | NRelease q => In q ids /\ exists b, certainly q b Psi
    | NGate _ cs m q => unitary2 m /\ NoDup (q :: cs) /\ incl (q :: cs) ids
    | NSwap a b => In a ids /\ In b ids
    | NM q | NProb q => In q ids
    end.
  Fixpoint allowed_all (lim mx : N) (l : list ncall) (ids : list N) (Psi : nstate) : Prop :=
    match l with
    | [] => True
    | a :: t => allowed lim mx ids Psi a /\ forall r ids' Psi', nstep ids Psi a r ids' Psi' -> allowed_all lim mx t ids' Psi'
    end.
End Named.
