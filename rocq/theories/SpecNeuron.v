(** What is expected of a QNeuron, and the angles and orders it is used with. *)
From Coq Require Import NArith ZArith QArith Qcanon List Bool Reals Rtrigo_def.
From Verif Require Import Amp AmpC AmpC2 AmpQ8 SpecState MTensor MNeuron.
Import ListNotations.
Local Open Scope N_scope.

(** Cosine and sine of half an angle. *)
Record trig {K : StarRing} (G : angles K) : Prop := mkTrig {
  tr_cos_real : forall a, sr_conj (a_cos G a) = a_cos G a; tr_sin_real : forall a, sr_conj (a_sin G a) = a_sin G a;
  tr_one : forall a, (a_cos G a * a_cos G a + a_sin G a * a_sin G a = 1)%amp;
  tr_cos_0 : a_cos G (a_0 G) = 1%amp; tr_sin_0 : a_sin G (a_0 G) = 0%amp;
  tr_cos_neg : forall a, a_cos G (a_neg G a) = a_cos G a; tr_sin_neg : forall a, a_sin G (a_neg G a) = (- a_sin G a)%amp;
  tr_cos_add : forall a b, a_cos G (a_add G a b) = (a_cos G a * a_cos G b - a_sin G a * a_sin G b)%amp;
  tr_sin_add : forall a b, a_sin G (a_add G a b) = (a_sin G a * a_cos G b + a_cos G a * a_sin G b)%amp;
  tr_quarter : a_cos G (a_half_pi G) = a_sin G (a_half_pi G);
  tr_clamp_cos : forall a, a_cos G (a_clamp G a) = a_cos G a; tr_clamp_sin : forall a, a_sin G (a_clamp G a) = a_sin G a }.

(** The comparison of probabilities is a total order of real numbers. *)
Record order_ok {K : StarRing} (c : @ncfg K) : Prop := mkOrd {
  or_refl : forall x, nc_leb c x x = true;
  or_trans : forall x y z, nc_leb c x y = true -> nc_leb c y z = true -> nc_leb c x z = true;
  or_total : forall x y, nc_leb c x y = false -> nc_leb c y x = true;
  or_minus : forall x y, nc_leb c (1 - x)%amp (1 - y)%amp = nc_leb c y x }.

Section Spec.
  Context {K : StarRing} (G : angles K).
  Local Open Scope amp_scope.
  (** A neuron on different qubits below [n], with an angle for every value of its inputs. *)
  Definition sound (n : N) (r : neuron G) : Prop :=
    NoDup (nr_out G r :: nr_in G r) /\ (forall q, In q (nr_out G r :: nr_in G r) -> q < n)%N /\
    N.of_nat (length (nr_ang G r)) = nr_pow G r /\ (2 ^ N.of_nat (length (nr_in G r)) <= nr_pow G r)%N.
  (** The rotation of the output qubit from |0>, for the value [v] of the inputs: pi / 2 and the activation of the angle. *)
  Definition total_angle (r : neuron G) (v : N) : ang G := a_add G (a_half_pi G) (act G (nr_fn G r) (angle_at G v r)).
  Definition predicted_state (r : neuron G) (psi : N -> K) : N -> K :=
    fun x => (if N.testbit x (nr_out G r) then a_sin G (total_angle r (ctrl_value 0 (nr_in G r) x)) else a_cos G (total_angle r (ctrl_value 0 (nr_in G r) x)))
             * psi (N.clearbit x (nr_out G r)).
  (** The probability of 1: the mean of those of the values of the inputs. *)
  Definition predicted (n : N) (r : neuron G) (psi : N -> K) : K :=
    asum (fun v => weight_of n (fun x => (ctrl_value 0 (nr_in G r) x =? v)%N) psi * anorm (a_sin G (total_angle r v))) (upto (N.to_nat (2 ^ N.of_nat (length (nr_in G r))))).
  Definition for_expected (e : bool) (p : K) : K := if e then p else 1 - p.
  (** Training with rate 1/2 on the basis states [xs], where [f] gives the expected output for each value of the inputs; [perm] says
      whether LearnPermutation is called, or Learn. *)
  Fixpoint train (c : @ncfg K) (n : N) (perm : bool) (f : N -> bool) (xs : list N) (r : neuron G) (d : N) : neuron G :=
    match xs with
    | [] => r
    | x :: t => let '(r, _, _) := (if perm then learn_permutation G else learn G) c n (a_half_pi G) (f (ctrl_value 0 (nr_in G r) x)) true r (ket x) d in train c n perm f t r d
    end.
End Spec.

(** Angles that are multiples of pi / 2, with exact cosines; [alpha] is an integer. *)
Definition cosZ (k : Z) : Q8 :=
  match Z.modulo k 8 with 0%Z => 1%amp | 1%Z => z_h | 2%Z => 0%amp | 3%Z => (- z_h)%amp | 4%Z => (- (1))%amp | 5%Z => (- z_h)%amp | 6%Z => 0%amp | _ => z_h end.
Definition sinZ (k : Z) : Q8 := cosZ (k - 2).
Definition clampZ (a : Z) : Z :=
  let a := Z.rem a 8 in if Z.leb a (-4) then (a + 8)%Z else if Z.ltb 4 a then (a - 8)%Z else a.
Definition angZ (alpha : Z) : angles Q8 :=
  mkAng Z 0%Z Z.add Z.opp Z.ltb cosZ sinZ 2%Z 1%Z (fun a => a) (fun a => a) (Z.mul alpha) clampZ.
(** The comparison of rational numbers. *)
Definition lebQ8 (x y : Q8) : bool := match Qccompare (fst (fst x)) (fst (fst y)) with Gt => false | _ => true end.
Definition ncQ8 (tol : Q8) (nrm : Q8 -> Q8) : @ncfg Q8 := mkNC (fun _ _ => false) nrm lebQ8 tol.

(** Real angles. *)
Local Open Scope R_scope.
Definition truncR (x : R) : Z := if Rle_dec 0 x then Int_part x else Z.opp (Int_part (- x)).
Definition clampR (a : R) : R :=
  let a := a - 4 * PI * IZR (truncR (a / (4 * PI))) in
  if Rle_dec a (- 2 * PI) then a + 4 * PI else if Rlt_dec (2 * PI) a then a - 4 * PI else a.
Definition ltbR (x y : R) : bool := if Rlt_dec x y then true else false.
Definition angR (gelu pow : R -> R) (alpha : R) : angles CC :=
  mkAng R 0 Rplus Ropp ltbR (fun a => (cos (a / 2), 0) : CC) (fun a => (sin (a / 2), 0) : CC) PI (PI / 2) gelu pow (Rmult alpha) clampR.
Definition ncCC (rnd : N -> CC -> bool) (nrm : CC -> CC) (tol : R) : @ncfg CC :=
  mkNC rnd nrm (fun x y : CC => if Rle_dec (fst x) (fst y) then true else false) ((tol, 0) : CC).
