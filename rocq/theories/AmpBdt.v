(** The arithmetic of MBdt.v in Q(sqrt 2, i), for computed examples.  The square root is exact on squares of rational numbers and on
    twice such squares; other numbers do not occur. *)
From Coq Require Import ZArith NArith List Bool QArith Qcanon.
From Verif Require Import Amp AmpQ8 MBdt.
Import ListNotations.
Local Open Scope Qc_scope.

Definition s_inv (x : S2) : S2 := let d := fst x * fst x - (1 + 1) * (snd x * snd x) in (fst x / d, - snd x / d).
Definition z_div (x y : Q8) : Q8 := let p := (x * sr_conj y)%amp in let i := s_inv (fst (anorm y)) in (s_mul (fst p) i, s_mul (snd p) i).
(** The square root of a rational number, when it is rational. *)
Definition q_root (x : Qc) : option Qc :=
  let n := Qnum (this x) in let d := Z.pos (Qden (this x)) in
  let r := Z.sqrt n in let s := Z.sqrt d in
  if ((r * r =? n) && (s * s =? d))%Z then Some (Q2Qc (r # Z.to_pos s)) else None.
Definition z_root (p : Q8) : Q8 :=
  match q_root (fst (fst p)) with
  | Some r => ((r, 0), s0)
  | None => match q_root (fst (fst p) / (1 + 1)) with Some r => ((0, r), s0) | None => p end
  end.
Definition z_ltb (x y : Q8) : bool := s_pos (s_sub (fst y) (fst x)).
Definition arQ8 : Arith Q8 := mkArith Q8 z_h z_div z_root z_ltb.
