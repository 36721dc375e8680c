(** Model of the logical-swap containers: QubitSwapMap of /repo/include/qubitswapmap.hpp and QEngineShardMap of
    /repo/include/qengineshard.hpp.  std::vector is a list; [None] is undefined behaviour (an index past the end).
    bitLenInt wraps at 256, bitCapInt is 128 bits wide. *)
From Coq Require Import NArith List Bool.
From Verif Require Import MFunctions MParFor MQCircuit.
Import ListNotations.
Local Open Scope N_scope.

(** vector element assignment, std::swap of two elements (indices in range). *)
Fixpoint vset {A} (l : list A) (i : nat) (a : A) : list A :=
  match l, i with
  | [], _ => []
  | _ :: t, O => a :: t
  | x :: t, S j => x :: vset t j a
  end.
Definition vget {A} (l : list A) (i : N) : option A := nth_error l (N.to_nat i).
Definition vswap {A} (l : list A) (i j : N) : option (list A) :=
  match vget l i, vget l j with
  | Some a, Some b => Some (vset (vset l (N.to_nat i) b) (N.to_nat j) a)
  | _, _ => None
  end.

(** ** QubitSwapMap *)

(** Constructor, qubitswapmap.hpp:27-33. *)
Definition qsm_new (n : N) : list N := iota 0 (N.to_nat n).
(** swap, qubitswapmap.hpp:41. *)
Definition qsm_swap (m : list N) (q1 q2 : N) : option (list N) := vswap m q1 q2.
(** map, qubitswapmap.hpp:43-52; the loop runs over the positions in order. *)
Fixpoint qsm_map_from (m : list N) (i perm acc : N) : N :=
  match m with
  | [] => acc
  | t :: r => qsm_map_from r (i + 1) perm (if N.testbit perm i then N.lor acc (w128 (N.shiftl 1 t)) else acc)
  end.
Definition qsm_map (m : list N) (perm : N) : N := qsm_map_from m 0 perm 0.
(** inverseMap, qubitswapmap.hpp:54-63. *)
Fixpoint qsm_imap_from (m : list N) (i perm acc : N) : N :=
  match m with
  | [] => acc
  | t :: r => qsm_imap_from r (i + 1) perm (if N.testbit perm t then N.lor acc (w128 (N.shiftl 1 i)) else acc)
  end.
Definition qsm_inverseMap (m : list N) (perm : N) : N := qsm_imap_from m 0 perm 0.

(** ** QEngineShardMap *)

Section M.
  Context {A : Type}.
  (** Members, qengineshard.hpp:318-319. *)
  Record smap := mkSM { sm_shards : list A; sm_swap : list N }.
  (** Constructors, 322-334; [d] is a default shard. *)
  Definition sm_new (d : A) (n : N) : smap := mkSM (repeat d (N.to_nat n)) (iota 0 (N.to_nat n)).
  (** operator[], 338; size, 344. *)
  Definition sm_get (m : smap) (i : N) : option A :=
    match vget (sm_swap m) i with Some p => vget (sm_shards m) p | None => None end.
  Definition sm_size (m : smap) : N := w8 (N.of_nat (length (sm_shards m))).
  (** Assignment through operator[], 338. *)
  Definition sm_set (m : smap) (i : N) (a : A) : option smap :=
    match vget (sm_swap m) i with
    | Some p => match vget (sm_shards m) p with
                | Some _ => Some (mkSM (vset (sm_shards m) (N.to_nat p) a) (sm_swap m))
                | None => None end
    | None => None
    end.
  (** push_back, 346-350. *)
  Definition sm_push (m : smap) (a : A) : smap :=
    mkSM (sm_shards m ++ [a]) (sm_swap m ++ [w8 (N.of_nat (length (sm_swap m)))]).
  (** insert, 352-362: the appended indices are shifted by the old size. *)
  Fixpoint shift_range (l : list N) (start k : nat) (by_ : N) : list N :=
    match l, start, k with
    | x :: t, S s, _ => x :: shift_range t s k by_
    | x :: t, O, S j => w8 (x + by_) :: shift_range t O j by_
    | _, _, _ => l
    end.
  Definition sm_insert (m : smap) (start : N) (i : smap) : option smap :=
    if N.of_nat (length (sm_swap m)) <? start then None
    else
      let s := N.to_nat start in
      Some (mkSM (sm_shards m ++ sm_shards i)
                 (shift_range (firstn s (sm_swap m) ++ sm_swap i ++ skipn s (sm_swap m)) s (N.to_nat (sm_size i)) (sm_size m))).
  (** erase, 364-378: one shard at a time; indices at or above the removed one are decremented, with wrap at 0. *)
  Definition dec8 (x : N) : N := w8 (x + 255).
  Fixpoint erase_loop (k : nat) (index : N) (m : smap) : option smap :=
    match k with
    | O => Some m
    | S j =>
        match vget (sm_swap m) index with
        | None => None
        | Some off =>
            match vget (sm_shards m) off with
            | None => None
            | Some _ => erase_loop j (index + 1)
                (mkSM (firstn (N.to_nat off) (sm_shards m) ++ skipn (S (N.to_nat off)) (sm_shards m))
                      (map (fun x => if off <=? x then dec8 x else x) (sm_swap m)))
            end
        end
    end.
  Definition sm_erase (m : smap) (b e : N) : option smap :=
    match erase_loop (N.to_nat (e - b)) b m with
    | None => None
    | Some m1 => Some (mkSM (sm_shards m1) (firstn (N.to_nat b) (sm_swap m1) ++ skipn (N.to_nat e) (sm_swap m1)))
    end.
  (** swap, 380. *)
  Definition sm_swapq (m : smap) (q1 q2 : N) : option smap :=
    match vswap (sm_swap m) q1 q2 with Some s => Some (mkSM (sm_shards m) s) | None => None end.
End M.
Arguments smap : clear implicits.

(** reindex, 382-395.  A shard is its unit (none, or a number standing for the pointer), its index in the unit, and the rest. *)
Section R.
  Context {B : Type}.
  Definition shard : Type := option N * N * B.
  Fixpoint renumber (l : list shard) (seen : N -> N) : list shard :=
    match l with
    | [] => []
    | (None, _, b) :: t => (None, 0, b) :: renumber t seen
    | (Some u, _, b) :: t => (Some u, seen u, b) :: renumber t (fun v => if v =? u then w8 (seen v + 1) else seen v)
    end.
  Definition sm_reindex (m : smap shard) : smap shard :=
    mkSM (renumber (sm_shards m) (fun _ => 0)) (iota 0 (length (sm_shards m))).
End R.
