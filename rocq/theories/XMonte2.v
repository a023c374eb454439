(** Concrete cases for the error of Monte Carlo options. *)
From Coq Require Import Reals List Lra Lia.
From Coquelicot Require Import Coquelicot.
From Verif Require Import Num Py MBase MAmerican MMonte SMonte SMonte2 SHeston PCnd PGauss PMonte PHeston PExpect PMonte5 PMonte6.
Import List ListNotations.
Open Scope R_scope.

(** an at-the-money call with unit volatility, priced with one path of one step *)
Definition x_value (M : list (list R)) : R := average (map (fun zs => discounted true 1 1 0 (underlying false 1 0 1 (1 / INR 1) zs)) M).
Lemma x_returned M : shaped 1 M -> length M = (1 * 1)%nat -> exists o prices tr,
  MonteCarloOption 1 1 1 1 1 1 0 0 (Some 1) from_stream wiener_path vanilla_payoff false false false = Ok o /\
  mc_price true o M = Ok (MArray prices, tr, []) /\ x_value M = average prices.
Proof.
  intros _ HM. destruct (stream_value false false false true 1 1 1 1 1 1 0 0 1 M ltac:(lia) ltac:(lia) ltac:(lia) HM) as (o & p & tr & A & B & _ & C). exists o, p, tr. repeat (split; [assumption|]). symmetry. exact C.
Qed.
Definition x_v : R := 1 * exp ((0 - 0) * 1) * Phi ((ln (1 / 1) + (0 + 1 ^ 2 / 2) * 1) / (1 * sqrt 1)) - 1 * exp (- 0 * 1) * Phi ((ln (1 / 1) + (0 + 1 ^ 2 / 2) * 1) / (1 * sqrt 1) - 1 * sqrt 1).
Lemma x_payoff z : discounted true 1 1 0 (underlying false 1 0 1 (1 / INR 1) [z]) = Rmax 0 (exp (- / 2 + z) - 1).
Proof.
  unfold discounted, underlying, gbm, total. cbn [length fold_right INR]. replace (1 / 1) with 1 by field. rewrite sqrt_1. replace (- 0 * 1) with 0 by ring. rewrite exp_0, !Rmult_1_l. do 3 f_equal. field.
Qed.
Lemma x_v_range : 0 <= x_v < 1.
Proof.
  assert (H := proj1 (mc_variance true 1 1 1 1 0 0 1 ltac:(lra) ltac:(lra) ltac:(lra) ltac:(lra) ltac:(lia))). cbv zeta in H. fold x_v in H. split.
  - refine (is_expect_le 1 (fun _ => 0) _ 0 _ _ (is_expect_const 1 0) H). intros zs _. unfold discounted. apply Rmult_le_pos; [apply Rlt_le, exp_pos|apply Rmax_l].
  - unfold x_v. replace (- 0 * 1) with 0 by ring. replace ((0 - 0) * 1) with 0 by ring. rewrite exp_0. pose proof (Phi_lt_1 ((ln (1 / 1) + (0 + 1 ^ 2 / 2) * 1) / (1 * sqrt 1))).
    pose proof (Phi_gt_0 ((ln (1 / 1) + (0 + 1 ^ 2 / 2) * 1) / (1 * sqrt 1) - 1 * sqrt 1)). lra.
Qed.
(** the probability of being off by 1 or more *)
Lemma x_probability : is_error_probability (1 * 1) 1 x_value x_v 1 (Phi (- (/ 2 + ln (x_v + 2)))).
Proof.
  pose proof x_v_range as [V1 V2]. exists (fun row => if Rle_dec 1 (Rabs (x_value [row] - x_v)) then 1 else 0). split; [reflexivity|].
  exists (fun z => if Rle_dec (/ 2 + ln (x_v + 2)) z then 1 else 0). split; [|apply mean_indicator]. intro z. cbn. unfold x_value, average. cbn [map length total fold_right]. rewrite x_payoff. replace ((Rmax 0 (exp (- / 2 + z) - 1) + 0) / INR 1) with (Rmax 0 (exp (- / 2 + z) - 1)) by (cbn; field).
  assert (X : 1 <= Rabs (Rmax 0 (exp (- / 2 + z) - 1) - x_v) <-> / 2 + ln (x_v + 2) <= z).
  { assert (B : x_v + 2 <= exp (- / 2 + z) <-> / 2 + ln (x_v + 2) <= z).
    { split; intro H.
      - destruct (Rle_or_lt (/ 2 + ln (x_v + 2)) z) as [L|L]; [exact L|]. assert (exp (- / 2 + z) < exp (ln (x_v + 2))) by (apply exp_increasing; lra). rewrite exp_ln in H0; lra.
      - rewrite <- (exp_ln (x_v + 2)) by lra. destruct H as [H| <-]; [left; apply exp_increasing; lra|right; f_equal; ring]. }
    rewrite <- B. unfold Rmax. destruct (Rle_dec 0 (exp (- / 2 + z) - 1)); unfold Rabs; destruct (Rcase_abs _); split; lra. }
  destruct (Rle_dec 1 _), (Rle_dec _ z); tauto || reflexivity.
Qed.
