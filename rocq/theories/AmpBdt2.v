(** The complex numbers over Coq's real numbers meet the conditions of the theorems about QBdt.  Only examples use this file (it
    depends on the axioms of Coq's Reals). *)
From Coq Require Import Reals Lra NArith List.
From Verif Require Import Amp PAmp AmpC AmpC2 MBdt SpecBdt.
Local Open Scope R_scope.

Definition c_ltb (x y : CC) : bool := if Rlt_dec (fst x) (fst y) then true else false.
Definition arCC : Arith CC := mkArith CC cc_h c_div c_sqrt c_ltb.
Lemma c_sum (x y : CC) : (anorm x + anorm y)%amp = ((fst x * fst x + snd x * snd x) + (fst y * fst y + snd y * snd y), 0) :> CC.
Proof. rewrite !c_anorm. cbn. unfold c_add. cbn [fst snd]. f_equal. ring. Qed.
Lemma c_sqrt_real a : 0 <= a -> c_sqrt (a, 0) = (sqrt a, 0).
Proof.
  intros H. unfold c_sqrt. cbn [fst snd]. destruct (Rlt_dec 0 a) as [L|L]; [destruct (Req_EM_T 0 0) as [_|E]; [reflexivity|destruct E; reflexivity]|].
  assert (a = 0) as -> by lra. rewrite sqrt_0. reflexivity.
Qed.
Lemma arCC_exact : exact_arith arCC.
Proof.
  split; [|split; [|split]].
  - intros [a b] [c d] H. assert (D : c * c + d * d <> 0) by (intros E; apply sum_sq_0 in E; destruct E as [-> ->]; apply H; reflexivity).
    cbn. unfold c_div, c_mul. cbn [fst snd]. f_equal; field; exact D.
  - intros x y. cbn zeta. rewrite c_sum. pose proof (norm_nonneg x). pose proof (norm_nonneg y). change (ar_sqrt arCC) with c_sqrt. rewrite c_sqrt_real by lra. cbn. unfold c_mul, c_conj. cbn [fst snd]. split; [|f_equal; ring].
    f_equal; [|ring]. match goal with |- sqrt ?a * _ - _ = _ => rewrite (sqrt_sqrt a) by lra end. ring.
  - change (c_sqrt (1, 0) = (1, 0)). rewrite c_sqrt_real by lra. rewrite sqrt_1. reflexivity.
  - split; [exact cc_h_sq|exact cc_h_conj].
Qed.
Lemma cc_sums : positive_sums (K := CC).
Proof.
  split; [intros E; apply (f_equal fst) in E; cbn in E; lra|]. intros x y E. rewrite c_sum in E. apply (f_equal fst) in E. cbn [fst] in E. change (fst (0%amp : CC)) with 0 in E.
  pose proof (norm_nonneg x). pose proof (norm_nonneg y). destruct x as [a b], y as [c d]. cbn [fst snd] in *. destruct (sum_sq_0 a b) as [-> ->]; [lra|]. destruct (sum_sq_0 c d) as [-> ->]; [lra|]. split; reflexivity.
Qed.
