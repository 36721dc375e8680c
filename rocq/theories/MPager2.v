(** Model of QPager, continued: rotations, composition and disposal of qubits; /repo/src/qpager.cpp and the generic
    bodies of /repo/include/qinterface.hpp and /repo/src/qinterface/qinterface.cpp that QPager inherits.  Conventions as in
    MPager.v. *)
From Coq Require Import NArith List Bool.
From Verif Require Import MQCircuit MFunctions MParFor MKernel Amp MEngine MCircuit MPager.
Import ListNotations.
Local Open Scope N_scope.

(** The swaps of Reverse, qinterface.hpp:2431-2438, in order. *)
Fixpoint reverse_pairs (fuel : nat) (first last : N) : list (N * N) :=
  match fuel with
  | O => []
  | S f => if (0 <? last) && (first <? last - 1) then (first, last - 1) :: reverse_pairs f (first + 1) (last - 1) else []
  end.
Definition Reverse_pairs (first last : N) : list (N * N) := reverse_pairs (N.to_nat (last - first)) first last.
(** The swaps of ROL and ROR, qinterface.cpp:295-330. *)
Definition rol_pairs (shift start length : N) : list (N * N) :=
  if length <? 2 then []
  else let shift := shift mod length in
  if shift =? 0 then []
  else let end_ := start + length in
  Reverse_pairs start end_ ++ Reverse_pairs start (start + shift) ++ Reverse_pairs (start + shift) end_.
Definition ror_pairs (shift start length : N) : list (N * N) :=
  if length <? 2 then []
  else let shift := shift mod length in
  if shift =? 0 then []
  else let end_ := start + length in
  Reverse_pairs (start + shift) end_ ++ Reverse_pairs start (start + shift) ++ Reverse_pairs start end_.

Section Pager2.
  Context {K : StarRing}.
  Variable c : cfg.
  Local Notation V := (mem K).
  Local Notation pgstep := (@pgstep K).

  (** A sequence of QPager::Swap calls, and the rotations QPager inherits. *)
  Fixpoint PSwaps (l : list (N * N)) : pgstep :=
    match l with
    | [] => pg_skip
    | (a, b) :: t => andthen (PSwap c a b) (PSwaps t)
    end.
  Definition PROL (shift start length : N) : pgstep := PSwaps (rol_pairs shift start length).
  Definition PROR (shift start length : N) : pgstep := PSwaps (ror_pairs shift start length).

  (** ComposeEither up to the threshold, qpager.cpp:630-636: both operands are combined to one page; [maxQB] is the limit
      of the page engine. *)
  Definition ComposeSmall (maxQB : N) (p2 : pager K) : pgstep := fun p r =>
    exists r1 r2, CombineAll c p r1 /\ CombineAll c p2 r2 /\
      match r1, r2 with
      | Ok p', Ok p2' => exists r3, Compose c maxQB (mkEng (pg_n p) (pg_page p' 0)) (mkEng (pg_n p2) (pg_page p2' 0)) r3 /\
          r = match r3 with Throw => Throw | Ok (e, _) => Ok (mkPager (pg_n p + pg_n p2) (pg_thr p) 1 (fun _ => e_vec e)) end
      | _, _ => r = Throw
      end.
  (** ComposeEither for an operand that is not larger, qpager.cpp:616-636 and 647-711; [maxPaging] is QRACK_MAX_PAGING_QB. *)
  Definition ComposeFit (maxPaging maxQB : N) (p2 : pager K) : pgstep := fun p r =>
    if pg_n p2 =? 0 then r = Ok p
    else if maxPaging <? pg_n p + pg_n p2 then r = Throw
    else if pg_n p + pg_n p2 <=? pg_thr p then ComposeSmall maxQB p2 p r
    else ComposeLarge c p2 p r.
  (** QInterface::Compose(toCopy, start), qinterface.cpp:398-410, for such an operand. *)
  Definition ComposeFitAt (maxPaging maxQB : N) (p2 : pager K) (start : N) : pgstep := fun p r =>
    if start =? pg_n p then ComposeFit maxPaging maxQB p2 p r
    else andthen (PROL (pg_n p - start) 0 (pg_n p))
           (andthen (ComposeFit maxPaging maxQB p2) (fun p1 r => PROR (pg_n p - start) 0 (pg_n p1) p1 r)) p r.
  (** ComposeEither, qpager.cpp:616-711, and Compose / ComposeNoClone, qpager.hpp:330-333.  When the second operand is
      larger (638-645), it is composed with the first, inserted at 0, and its pages are taken over.  [willDestroy]: no
      clone is made; Clone (1601-1611) separates the pages and copies them. *)
  Definition ComposeEither (willDestroy : bool) (maxPaging maxQB : N) (p2 : pager K) : pgstep := fun p r =>
    if (pg_n p2 =? 0) || (maxPaging <? pg_n p + pg_n p2) || (pg_n p + pg_n p2 <=? pg_thr p) || (pg_n p2 <=? pg_n p)
    then ComposeFit maxPaging maxQB p2 p r
    else exists r1, andthen (if willDestroy then pg_skip else SeparateBase c) (ComposeFitAt maxPaging maxQB p 0) p2 r1 /\
           r = match r1 with Throw => Throw | Ok p3 => Ok (mkPager (pg_n p + pg_n p2) (pg_thr p) (pg_count p3) (pg_page p3)) end.

  (** Dispose(start, length, disposedPerm) on every page, SetQubitCount and the final change of page size,
      qpager.cpp:787-795. *)
  Definition eng_Dispose (q start length perm : N) (v : option V) (r : res (option V)) : Prop :=
    exists r1, Dispose c (mkEng q v) start length perm r1 /\ r = match r1 with Throw => Throw | Ok e => Ok (e_vec e) end.
  Definition dispose_pages (start length perm : N) : pgstep := fun p r =>
    andthen (fun p r => each (page_op (eng_Dispose (qubitsPerPage p) start length perm)) (all_pages p) p r)
      (andthen (set_qubit_count (pg_n p - length)) (andthen (CombineEngines c (pg_thr p)) (SeparateBase c))) p r.
  (** Dispose(start, length, disposedPerm), qpager.cpp:774-797.  The inner call for start 0 does not rotate again: the
      pages then hold at least [length] qubits. *)
  Definition PDispose (start length perm : N) : pgstep :=
    andthen (CombineEngines c (w8 (length + 1)))
      (fun p r =>
        if qubitsPerPage p <? start + length
        then andthen (PROR start 0 (pg_n p))
               (andthen (CombineEngines c (w8 (length + 1)))
                 (andthen (dispose_pages 0 length perm) (fun p1 r => PROL start 0 (pg_n p1) p1 r))) p r
        else dispose_pages start length perm p r).
End Pager2.
