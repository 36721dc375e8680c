(** SampleClone and MultiShotMeasureMask of QInterface (/repo/include/qinterface.hpp:191-204,
    /repo/src/qinterface/qinterface.cpp:805-832, below "qi").  QEngine, QUnit and QStabilizerHybrid override them.

    - [raw s] is the permutation that MAll returns on the clone made for shot [s].  Which permutations it may return is a
      hypothesis of the theorems; the random numbers are not modelled.
    - The shots are run by par_for; [order] is the order in which they take the lock, any permutation of the shots.
    - bitCapInt has 128 bits (QBCAPPOW = 7); up to 128 powers, pow2(i) is 2^i.
    - The counts are of type int (32 bits); counting beyond 2^31 - 1 is undefined. *)
From Coq Require Import NArith List Bool.
From Verif Require Import Bits MTensor.
Import ListNotations.
Local Open Scope N_scope.

(** SampleClone: the loop of hpp:196-201. *)
Fixpoint sample_bits (i : N) (powers : list N) (raw sample : N) : N :=
  match powers with
  | [] => sample
  | p :: t => sample_bits (i + 1) t raw (if N.land raw p =? 0 then sample else N.lor sample (2 ^ i))
  end.
Definition sample_clone_base (powers : list N) (raw : N) : N := sample_bits 0 powers raw 0.

(** ++results[sample] on a std::map, qi:816; the entries are in the order of their keys. *)
Fixpoint map_incr (k : N) (m : list (N * N)) : out (list (N * N)) :=
  match m with
  | [] => Ret [(k, 1)]
  | (a, c) :: t =>
      if k =? a then (if c =? 2 ^ 31 - 1 then Undef else Ret ((a, c + 1) :: t))
      else if k <? a then Ret ((k, 1) :: (a, c) :: t)
      else bind (map_incr k t) (fun t' => Ret ((a, c) :: t'))
  end.
Fixpoint count_samples (powers : list N) (raw : N -> N) (order : list N) (m : list (N * N)) : out (list (N * N)) :=
  match order with
  | [] => Ret m
  | s :: t => bind (map_incr (sample_clone_base powers (raw s)) m) (count_samples powers raw t)
  end.
(** MultiShotMeasureMask into a map, qi:805-821. *)
Definition multi_shot (powers : list N) (shots : N) (raw : N -> N) (order : list N) : out (list (N * N)) :=
  if shots =? 0 then Ret [] else count_samples powers raw order [].
(** MultiShotMeasureMask into an array, qi:823-832: the conversion to bitCapIntOcl keeps 64 bits and the one to unsigned 32. *)
Definition multi_shot_array (powers : list N) (shots : N) (raw : N -> N) (order : list N) (arr : N -> N) : N -> N :=
  if shots =? 0 then arr
  else fold_left (fun a s j => if j =? s then (sample_clone_base powers (raw s) mod 2 ^ 64) mod 2 ^ 32 else a j) order arr.
