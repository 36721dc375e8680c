(** Independent specification of register arithmetic on basis states. *)
From Coq Require Import NArith ZArith List Bool.
From Verif Require Import Amp SpecState SpecFunctions.
Import ListNotations.
Local Open Scope N_scope.

(** Replace the register of [len] bits at [s] by [v], or one bit by [b]. *)
Definition put_reg (x s len v : N) : N := x mod 2 ^ s + v * 2 ^ s + x / 2 ^ (s + len) * 2 ^ (s + len).
Definition put_bit (x q : N) (b : bool) : N := if b then N.setbit x q else N.clearbit x q.
(** The registers [s1, s1+l1) and [s2, s2+l2) have no common qubit. *)
Definition disjoint_regs (s1 l1 s2 l2 : N) : Prop := s1 + l1 <= s2 \/ s2 + l2 <= s1.
Definition outside_reg (q s len : N) : Prop := q < s \/ s + len <= q.

Section S.
  Context {K : StarRing}.
  Local Notation vec := (N -> K).
  (** [psi'] is the image of the part of [psi] on the basis states satisfying [D] under the (injective) map
      [|x> -> ph x |f x>]; all basis states that are not images have amplitude zero. *)
  Definition basis_map (n : N) (D : N -> bool) (f : N -> N) (ph : N -> K) (psi psi' : vec) : Prop :=
    (forall x y, x < 2 ^ n -> y < 2 ^ n -> D x = true -> D y = true -> f x = f y -> x = y) /\
    (forall x, x < 2 ^ n -> D x = true -> f x < 2 ^ n /\ psi' (f x) = (ph x * psi x)%amp) /\
    (forall y, y < 2 ^ n -> (forall x, x < 2 ^ n -> D x = true -> f x <> y) -> psi' y = 0%amp).
  (** No amplitude outside [D]. *)
  Definition supported (n : N) (D : N -> bool) (psi : vec) : Prop := forall x, x < 2 ^ n -> D x = false -> psi x = 0%amp.
  (** A state that is not identically zero. *)
  Definition nonzero (n : N) (psi : vec) : Prop := exists x, x < 2 ^ n /\ psi x <> 0%amp.
End S.

(** ** Effects on basis states *)
Definition add_reg (s len a x : N) : N := put_reg x s len ((get_reg x s len + a) mod 2 ^ len).
Definition sub_reg (s len a x : N) : N := put_reg x s len ((get_reg x s len + (2 ^ len - a mod 2 ^ len)) mod 2 ^ len).
(** Register plus constant plus incoming carry bit (or minus constant minus borrow, the borrow being the complement of
    the carry bit); the carry bit receives the outgoing carry (the complement of the outgoing borrow). *)
Definition add_carry (s len carry a : N) (x : N) : N :=
  let t := get_reg x s len + a + N.b2n (N.testbit x carry) in
  put_bit (put_reg x s len (t mod 2 ^ len)) carry (2 ^ len <=? t).
Definition sub_carry (s len carry a : N) (x : N) : N :=
  let d := (Z.of_N (get_reg x s len) - Z.of_N a - (1 - Z.of_N (N.b2n (N.testbit x carry))))%Z in
  put_bit (put_reg x s len (Z.to_N (d mod 2 ^ Z.of_N len))) carry (0 <=? d)%Z.
(** Signed overflow of register + constant. *)
Definition overflows (len a b : N) : bool :=
  let t := (signed_value len a + signed_value len b)%Z in
  negb ((- 2 ^ (Z.of_N len - 1) <=? t) && (t <? 2 ^ (Z.of_N len - 1)))%Z.
(** Bit [j] of the register moves to bit [(j + k) mod len]. *)
Definition rotated (s len k : N) (x y : N) : Prop :=
  (forall j, j < len -> N.testbit y (s + (j + k) mod len) = N.testbit x (s + j)) /\
  (forall q, outside_reg q s len -> N.testbit y q = N.testbit x q).
(** Low half of the product in one register, high half in the other. *)
Definition mul_regs (s carry len m x : N) : N :=
  let p := get_reg x s len * m in put_reg (put_reg x s len (p mod 2 ^ len)) carry len (p / 2 ^ len).

(** ** Measurements *)
Definition bit_is (q : N) (b : bool) (x : N) : bool := Bool.eqb (N.testbit x q) b.
Definition reg_is (s len v : N) (x : N) : bool := get_reg x s len =? v.
Section M.
  Context {K : StarRing}.
  (** The outcome [P] has probability in [psi], and the state is rescaled by [g]: one when the outcome was certain and
      nothing needed to be done, else the renormalisation factor [nrm]. *)
  Definition measured (n : N) (P : N -> bool) (nrm g : K) (psi : N -> K) : Prop :=
    (exists x, x < 2 ^ n /\ P x = true /\ psi x <> 0%amp) /\ (g = 1%amp /\ supported n P psi \/ g = nrm).
End M.

(** Signed overflow of register + constant + carry, and of register - constant - borrow (borrow = complement of carry). *)
Definition overflows_z (len : N) (t : Z) : bool := negb ((- 2 ^ (Z.of_N len - 1) <=? t) && (t <? 2 ^ (Z.of_N len - 1)))%Z.
Definition adds_over (s len carry a : N) (x : N) : bool :=
  overflows_z len (signed_value len (get_reg x s len) + signed_value len a + Z.b2z (N.testbit x carry)).
Definition subs_over (s len carry a : N) (x : N) : bool :=
  overflows_z len (signed_value len (get_reg x s len) - signed_value len a - (1 - Z.b2z (N.testbit x carry))).
(** The overflow flag qubit, when there is one. *)
Definition flag_set (flag : option N) (x : N) : bool := match flag with None => true | Some q => N.testbit x q end.

(** ** Output registers *)
Section G.
  Context {K : StarRing}.
  (** The inverse of a basis map: amplitudes are pulled back along [f] on [D], and are zero elsewhere. *)
  Definition pulled_back (n : N) (D : N -> bool) (f : N -> N) (psi psi' : N -> K) : Prop :=
    forall x, x < 2 ^ n -> psi' x = if D x then psi (f x) else 0%amp.
  (** [psi'] is [g] times [psi]. *)
  Definition scaled (n : N) (g : K) (psi psi' : N -> K) : Prop := forall x, x < 2 ^ n -> psi' x = (g * psi x)%amp.
End G.
(** A function of one register written to another. *)
Definition out_reg (s o len : N) (h : N -> N) (x : N) : N := put_reg x o len (h (get_reg x s len)).
(** Apply [f] only to basis states with all controls set. *)
Definition controlled (cs : list N) (f : N -> N) (x : N) : N := if all_set cs x then f x else x.

(** ** Tables: little-endian entries of [bytes] bytes each. *)
Fixpoint le_bytes (tab : N -> N) (base : N) (bytes : nat) : N :=
  match bytes with
  | O => 0
  | S k => le_bytes tab base k + tab (base + N.of_nat k) * 256 ^ N.of_nat k
  end.
Definition bytes_for (len : N) : N := (len + 7) / 8.
Definition table_entry (tab : N -> N) (len i : N) : N := le_bytes tab (i * bytes_for len) (N.to_nat (bytes_for len)).
(** Every byte is a byte, and every entry fits in the value register. *)
Definition good_table (tab : N -> N) (indexLength valueLength : N) : Prop :=
  (forall a, tab a < 256) /\ (forall i, i < 2 ^ indexLength -> table_entry tab valueLength i < 2 ^ valueLength).
(** Load, add with carry and subtract with borrow of the indexed entry; permutation of a register by a table. *)
Definition lookup (tab : N -> N) (is il vs vl x : N) : N := put_reg x vs vl (table_entry tab vl (get_reg x is il)).
Definition lookup_add (tab : N -> N) (is il vs vl q x : N) : N := add_carry vs vl q (table_entry tab vl (get_reg x is il)) x.
Definition lookup_sub (tab : N -> N) (is il vs vl q x : N) : N := sub_carry vs vl q (table_entry tab vl (get_reg x is il)) x.
Definition hashed (tab : N -> N) (s len x : N) : N := put_reg x s len (table_entry tab len (get_reg x s len)).

(** ** Full adder: sum into the carry-in qubit, carry added to the carry-out qubit. *)
Definition full_add (in1 in2 sum carry x : N) : N :=
  let a := N.testbit x in1 in let b := N.testbit x in2 in let ci := N.testbit x sum in
  put_bit (put_bit x sum (xorb (xorb a b) ci)) carry (xorb (N.testbit x carry) ((a && b) || (a && ci) || (b && ci))).

(** ** Well-formed arguments *)
Definition sgn {K : StarRing} (b : bool) : K := if b then (- (1))%amp else 1%amp.
(** The overflow qubit, if any, is neither in the register nor the carry qubit. *)
Definition flag_ok (flag : option N) (n s len q : N) : Prop := match flag with None => True | Some o => o < n /\ outside_reg o s len /\ o <> q end.
(** Two disjoint registers in range, and a multiplier (or modulus) that fits in one of them. *)
Definition muldiv_ok (n m s car len : N) : Prop := s + len <= n /\ car + len <= n /\ disjoint_regs s len car len /\ 1 <= m <= 2 ^ len.
Definition mod_ok (n N0 s o len : N) : Prop := s + len <= n /\ o + len <= n /\ disjoint_regs s len o len /\ 1 <= N0 <= 2 ^ len.
(** At least one control, all different, in range and outside both registers. *)
Definition ctl_regs (n : N) (cs : list N) (s1 s2 len : N) : Prop :=
  cs <> [] /\ NoDup cs /\ (forall q, In q cs -> q < n /\ outside_reg q s1 len /\ outside_reg q s2 len).
(** Disjoint index and value registers, and a carry qubit outside both. *)
Definition idx_ok (n is il vs vl : N) : Prop := is + il <= n /\ vs + vl <= n /\ disjoint_regs is il vs vl.
Definition adc_ok (n is il vs vl q : N) : Prop := idx_ok n is il vs vl /\ q < n /\ outside_reg q is il /\ outside_reg q vs vl /\ 1 <= vl.
(** The adder's inputs differ from its outputs. *)
Definition adder_ok (n in1 in2 sum carry : N) : Prop :=
  in1 < n /\ in2 < n /\ sum < n /\ carry < n /\ in1 <> sum /\ in1 <> carry /\ in2 <> sum /\ in2 <> carry /\ sum <> carry.
