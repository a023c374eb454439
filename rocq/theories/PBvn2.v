(** Accuracy of the quadrature of the bivariate normal routine in its base case (both limits and the correlation
    not positive). *)
From Coq Require Import Reals QArith Qreals ZArith Bool List Lra Lia Psatz.
From Coquelicot Require Import Coquelicot.
From Interval Require Import Tactic.
From Verif Require Import Num Py MBase PCnd PGauss PHeston PMonte4 SAmerican2 PRgw2 PCbnd PBvn.
Open Scope R_scope.

(** ** Half-line integrals *)
Lemma lint_unique f a v w : lint f a v -> lint f a w -> v = w.
Proof.
  intros H1 H2. apply Rminus_diag_uniq. apply cond_eq. intros eps He. destruct (H1 (eps / 2) ltac:(lra)) as (M1 & X1). destruct (H2 (eps / 2) ltac:(lra)) as (M2 & X2).
  pose proof (Rmin_l M1 M2). pose proof (Rmin_r M1 M2). destruct (X1 (Rmin M1 M2 - 1) ltac:(lra)) as (I1 & A1 & B1). destruct (X2 (Rmin M1 M2 - 1) ltac:(lra)) as (I2 & A2 & B2).
  assert (E : I1 = I2) by (rewrite <- (is_RInt_unique _ _ _ _ A1); apply is_RInt_unique; exact A2). subst I2.
  apply Rabs_def2 in B1. apply Rabs_def2 in B2. apply Rabs_def1; lra.
Qed.
Lemma lint_primitive (F f : R -> R) a : (forall y, is_derive F y (f y)) -> (forall y, continuous f y) -> (forall eps, 0 < eps -> exists M, forall x, x < M -> Rabs (F x) < eps) -> lint f a (F a).
Proof.
  intros HF Hf HL eps He. destruct (HL eps He) as (M & HM). exists M. intros x Hx. exists (F a - F x). split.
  - apply (is_RInt_derive F f); intros; auto.
  - specialize (HM x Hx). replace (F a - F x - F a) with (- F x) by ring. now rewrite Rabs_Ropp.
Qed.
Lemma Phi_small eps : 0 < eps -> exists M, forall x, x < M -> Phi x < eps.
Proof. intro He. destruct (Phi_near_1 eps He) as (M & HM). exists (- M). intros x Hx. pose proof (HM (- x) ltac:(lra)) as H. rewrite Phi_opp in H. lra. Qed.
Lemma lint_npdf m s b : 0 < s -> lint (fun y => npdf ((y - m) / s)) b (s * Phi ((b - m) / s)).
Proof.
  intro Hs. apply (lint_primitive (fun y => s * Phi ((y - m) / s)) (fun y => npdf ((y - m) / s))).
  - intro y. evar_last; [apply (is_derive_scal (fun y => Phi ((y - m) / s)) y s); apply (is_derive_comp Phi (fun y => (y - m) / s)); [apply Phi_derive|auto_derive; [exact Coq.Init.Logic.I|reflexivity]]|].
    unfold scal. cbn. unfold mult. cbn. field. lra.
  - intro y. apply (continuous_comp (fun y => (y - m) / s) npdf); [apply (ex_derive_continuous (fun y => (y - m) / s)); auto_derive; exact Coq.Init.Logic.I|apply npdf_cont].
  - intros eps He. destruct (Phi_small (eps / s)) as (M & HM); [now apply Rdiv_lt_0_compat|]. exists (m + s * M). intros x Hx.
    assert (L : (x - m) / s < M) by (apply Rmult_lt_reg_r with s; [exact Hs|]; unfold Rdiv; rewrite Rmult_assoc, Rinv_l by lra; lra).
    specialize (HM _ L). pose proof (Phi_gt_0 ((x - m) / s)). rewrite Rabs_pos_eq by (apply Rmult_le_pos; lra).
    apply Rmult_lt_reg_r with (/ s); [now apply Rinv_0_lt_compat|]. replace (s * Phi ((x - m) / s) * / s) with (Phi ((x - m) / s)) by (field; lra). exact HM.
Qed.
Lemma lint_Phi b : lint npdf b (Phi b).
Proof.
  assert (H := lint_npdf 0 1 b ltac:(lra)). replace ((b - 0) / 1) with b in H by field. rewrite Rmult_1_l in H. eapply lint_ext; [|exact H]. intros y _. cbv beta. f_equal. field.
Qed.
Lemma lint_le f g a v w : (forall y, y < a -> f y <= g y) -> lint f a v -> lint g a w -> v <= w.
Proof.
  intros L H1 H2. apply Rnot_lt_le. intro C. set (e := (v - w) / 2). destruct (H1 e ltac:(unfold e; lra)) as (M1 & X1). destruct (H2 e ltac:(unfold e; lra)) as (M2 & X2).
  set (x := Rmin (Rmin M1 M2) a - 1). assert (x < M1 /\ x < M2 /\ x < a) as (P1 & P2 & P3).
  { unfold x. pose proof (Rmin_l (Rmin M1 M2) a). pose proof (Rmin_r (Rmin M1 M2) a). pose proof (Rmin_l M1 M2). pose proof (Rmin_r M1 M2). lra. }
  destruct (X1 x P1) as (I1 & A1 & B1). destruct (X2 x P2) as (I2 & A2 & B2).
  assert (I1 <= I2) by (apply (is_RInt_le f g x a I1 I2); [lra|assumption|assumption|intros; apply L; lra]).
  apply Rabs_def2 in B1. apply Rabs_def2 in B2. unfold e in *. lra.
Qed.
Lemma lint_bound f a v C : 0 <= C -> (forall y, y < a -> Rabs (f y) <= C * npdf y) -> lint f a v -> Rabs v <= C * Phi a.
Proof.
  intros HC L H. assert (A := lint_lin _ _ _ _ _ C 0 (lint_Phi a) (lint_Phi a)). assert (B := lint_lin _ _ _ _ _ (- C) 0 (lint_Phi a) (lint_Phi a)). apply Rabs_le. split.
  - enough (- C * Phi a + 0 * Phi a <= v) by lra. eapply lint_le; [|exact B|exact H]. intros y Hy. specialize (L y Hy). apply Rabs_le_between in L. cbv beta. lra.
  - enough (v <= C * Phi a + 0 * Phi a) by lra. eapply lint_le; [|exact H|exact A]. intros y Hy. specialize (L y Hy). apply Rabs_le_between in L. cbv beta. lra.
Qed.
Lemma lint_wsum (f : R -> R -> R) (V : R -> R) a l : (forall w, lint (f w) a (V w)) -> lint (fun y => wsum (fun w => f w y) l) a (wsum V l).
Proof.
  intro H. induction l as [|(w, y) l IH]; cbn [wsum].
  - assert (Z := lint_lin _ _ _ _ _ 0 0 (lint_Phi a) (lint_Phi a)). replace 0 with (0 * Phi a + 0 * Phi a) by ring. eapply lint_ext; [|exact Z]. intros; cbv beta; ring.
  - assert (Z := lint_lin _ _ _ _ _ w 1 (H y) IH). replace (w * V y + wsum V l) with (w * V y + 1 * wsum V l) by ring. eapply lint_ext; [|exact Z]. intros; cbv beta; ring.
Qed.

(** ** The double sum of the code *)
Lemma fold_wsum (f : R -> R) k l s0 : fold_left (fun s jy => s + k * fst jy * f (snd jy)) l s0 = s0 + k * wsum f l.
Proof. revert s0. induction l as [|(w, y) l IH]; intro s0; cbn [fold_left wsum fst snd]; [ring|]. rewrite IH. ring. Qed.
Lemma fold_wsum2 (f : R -> R -> R) l l' s0 : fold_left (fun s Iy => fold_left (fun s jy => s + fst Iy * fst jy * f (snd Iy) (snd jy)) l' s) l s0 = s0 + wsum (fun w => wsum (f w) l') l.
Proof. revert s0. induction l as [|(w, y) l IH]; intro s0; cbn [fold_left wsum fst snd]; [ring|]. rewrite fold_wsum, IH. ring. Qed.
Lemma quad_wsum a1 b1 rho : cbnd_quad a1 b1 rho =
  wsum (fun w => wsum (fun y => exp (a1 * (2 * w - a1) + b1 * (2 * y - b1) + 2 * rho * (w - a1) * (y - b1))) rule) rule.
Proof.
  unfold cbnd_quad. rewrite rule_eq. toR. rewrite (fold_wsum2 (fun w y => exp (a1 * (2 * w - a1) + b1 * (2 * y - b1) + 2 * rho * (w - a1) * (y - b1)))). ring.
Qed.

(** ** The base case *)
Section Base.
Variables (M : R -> R -> R -> R) (a b rho : R).
Hypothesis HM : bivariate_normal M.
Hypothesis Ha : a <= 0.
Hypothesis Hb : b <= 0.
Hypothesis Hr : -1 < rho <= 0.
Let s := sqrt (1 - rho ^ 2).
Lemma s_pos : 0 < s. Proof. unfold s. apply sqrt_lt_R0. nra. Qed.
Lemma s_sq : s * s = 1 - rho ^ 2. Proof. unfold s. apply sqrt_sqrt. nra. Qed.
Lemma s_le : s <= 1. Proof. pose proof s_sq. pose proof s_pos. nra. Qed.
Let r2 := sqrt 2.
Lemma r2_sq : r2 * r2 = 2. Proof. apply sqrt_sqrt. lra. Qed.
Lemma r2_pos : 0 < r2. Proof. apply sqrt_lt_R0. lra. Qed.
(** distribution function in terms of the rule *)
Lemma Phi_rule x : Phi x = / sqrt PI * (wsum (fun y => exp (- ((- (r2 * x)) ^ 2 / 4) - (- (r2 * x)) * y)) rule + gk1 (- (r2 * x))).
Proof.
  unfold gk1. replace (- (- (r2 * x) / sqrt 2)) with x; [field; apply Rgt_not_eq, sqrt_lt_R0, PI_RGT_0|]. fold r2. pose proof r2_pos. field. lra.
Qed.
Let a' (w : R) := a - r2 * s * w.
Definition V (w : R) : R := exp (w ^ 2 - a' w ^ 2 / 2) * (s * Phi ((b - rho * a' w) / s)).
Let cc (y : R) := - (r2 * ((a - rho * y) / s)).
Lemma gauss_split w y : exp (- (cc y ^ 2 / 4) - cc y * w) * npdf y = exp (w ^ 2 - a' w ^ 2 / 2) * npdf ((y - rho * a' w) / s).
Proof.
  assert (N : forall e x, exp e * npdf x = exp (e + - x ^ 2 / 2) / sqrt (2 * PI)) by (intros; unfold npdf, Rdiv; rewrite exp_plus; ring).
  rewrite !N. f_equal. f_equal.
  pose proof s_pos. pose proof s_sq as S2. pose proof r2_sq as R2. set (A := a' w).
  assert (C : cc y / 2 + w = - (r2 * (A - rho * y) / (2 * s))).
  { unfold cc, A, a'. assert (W : w = (r2 * r2) * w / 2) by (rewrite R2; lra). rewrite W at 1. field. lra. }
  replace (- (cc y ^ 2 / 4) - cc y * w) with (w ^ 2 - (cc y / 2 + w) ^ 2) by field. rewrite C.
  replace ((- (r2 * (A - rho * y) / (2 * s))) ^ 2) with ((r2 * r2) * (A - rho * y) ^ 2 / (4 * (s * s))) by (field; lra).
  replace (((y - rho * A) / s) ^ 2) with ((y - rho * A) ^ 2 / (s * s)) by (field; lra). rewrite R2, S2. field. rewrite <- S2. nra.
Qed.
Lemma lint_term w : lint (fun y => exp (- (cc y ^ 2 / 4) - cc y * w) * npdf y) b (V w).
Proof.
  assert (Z := lint_npdf (rho * a' w) s b s_pos). assert (Y := lint_lin _ _ _ _ _ (exp (w ^ 2 - a' w ^ 2 / 2)) 0 Z Z).
  unfold V. replace (exp (w ^ 2 - a' w ^ 2 / 2) * (s * Phi ((b - rho * a' w) / s))) with (exp (w ^ 2 - a' w ^ 2 / 2) * (s * Phi ((b - rho * a' w) / s)) + 0 * (s * Phi ((b - rho * a' w) / s))) by ring.
  eapply lint_ext; [|exact Y]. intros y _. cbv beta. rewrite gauss_split. ring.
Qed.
Lemma sqPI : 0 < sqrt PI. Proof. apply sqrt_lt_R0, PI_RGT_0. Qed.
Lemma step1 : Rabs (M a b rho - / sqrt PI * wsum V rule) <= e1 / sqrt PI / 2.
Proof.
  assert (H := HM a b rho ltac:(lra)). apply lint_gen in H. fold s in H.
  assert (W := lint_wsum (fun w y => exp (- (cc y ^ 2 / 4) - cc y * w) * npdf y) V b rule lint_term).
  assert (D := lint_lin _ _ _ _ _ 1 (- / sqrt PI) H W). pose proof sqPI as P.
  assert (E : 0 <= e1 / sqrt PI) by (unfold e1; apply Rlt_le, Rdiv_lt_0_compat; lra).
  eapply (lint_bound _ _ _ (e1 / sqrt PI)) in D; [|exact E|].
  - replace (M a b rho - / sqrt PI * wsum V rule) with (1 * M a b rho + - / sqrt PI * wsum V rule) by ring.
    eapply Rle_trans; [exact D|]. assert (Phi b <= 1 / 2). { rewrite <- Phi_0. destruct (Req_dec b 0) as [->|]; [lra|]. left. apply Phi_incr. lra. }
    assert (e1 / sqrt PI * Phi b <= e1 / sqrt PI * (1 / 2)) by (apply Rmult_le_compat_l; assumption). lra.
  - intros y Hy. rewrite (Phi_rule ((a - rho * y) / s)). fold (cc y).
    assert (X : wsum (fun w => exp (- (cc y ^ 2 / 4) - cc y * w) * npdf y) rule = npdf y * wsum (fun w => exp (- (cc y ^ 2 / 4) - cc y * w)) rule).
    { rewrite (wsum_ext _ (fun w => npdf y * exp (- (cc y ^ 2 / 4) - cc y * w) + 0 * exp (- (cc y ^ 2 / 4) - cc y * w))) by (intros; ring). rewrite wsum_lin. ring. }
    rewrite X. replace (1 * (/ sqrt PI * (wsum (fun y0 => exp (- (cc y ^ 2 / 4) - cc y * y0)) rule + gk1 (cc y)) * npdf y) + - / sqrt PI * (npdf y * wsum (fun w => exp (- (cc y ^ 2 / 4) - cc y * w)) rule)) with (/ sqrt PI * gk1 (cc y) * npdf y) by ring.
    assert (0 < npdf y) by apply npdf_pos. rewrite !Rabs_mult, (Rabs_pos_eq (npdf y)) by lra. apply Rmult_le_compat_r; [lra|].
    rewrite Rabs_pos_eq by (apply Rlt_le, Rinv_0_lt_compat; exact P). unfold Rdiv. rewrite Rmult_comm. apply Rmult_le_compat_r; [apply Rlt_le, Rinv_0_lt_compat; exact P|].
    apply gk_bound. unfold cc. pose proof s_pos. pose proof r2_pos.
    assert (0 <= r2 * ((- a + rho * y) / s)).
    { apply Rmult_le_pos; [lra|]. apply Rmult_le_pos; [|apply Rlt_le, Rinv_0_lt_compat; lra]. assert (0 <= (- rho) * (- y)) by (apply Rmult_le_pos; lra). lra. }
    replace (- (r2 * ((a - rho * y) / s))) with (r2 * ((- a + rho * y) / s)) by (field; lra). assumption.
Qed.
Let ci (w : R) := - (r2 * ((b - rho * a' w) / s)).
Let a1 := a / sqrt (2 * (1 - rho ^ 2)).
Let b1 := b / sqrt (2 * (1 - rho ^ 2)).
Lemma expo w y : w ^ 2 - a' w ^ 2 / 2 + (- (ci w ^ 2 / 4) - ci w * y) = a1 * (2 * w - a1) + b1 * (2 * y - b1) + 2 * rho * (w - a1) * (y - b1).
Proof.
  assert (E : sqrt (2 * (1 - rho ^ 2)) = r2 * s) by (unfold r2, s; apply sqrt_mult; nra). pose proof s_pos. pose proof s_sq as S2. pose proof r2_sq as R2. pose proof r2_pos.
  assert (A : a' w = r2 * s * (a1 - w)) by (unfold a', a1; rewrite E; field; lra).
  assert (B : b = r2 * s * b1) by (unfold b1; rewrite E; field; lra).
  assert (C : ci w = - ((r2 * r2) * (b1 - rho * (a1 - w)))) by (unfold ci; rewrite A, B at 1; field; lra).
  rewrite C, A. replace ((r2 * s * (a1 - w)) ^ 2) with ((r2 * r2) * (s * s) * (a1 - w) ^ 2) by ring. rewrite R2, S2. field.
Qed.
Lemma ci_nonneg w : 0 < w -> 0 <= ci w.
Proof.
  intro Hw. unfold ci. pose proof s_pos. pose proof r2_pos. assert (0 <= r2 * s * w) by (repeat apply Rmult_le_pos; lra).
  assert (0 <= (- rho) * (- a' w)) by (apply Rmult_le_pos; unfold a'; lra).
  replace (- (r2 * ((b - rho * a' w) / s))) with (r2 * ((- b + rho * a' w) / s)) by (field; lra). apply Rmult_le_pos; [lra|]. apply Rmult_le_pos; [lra|apply Rlt_le, Rinv_0_lt_compat; lra].
Qed.
Lemma step2 : Rabs (/ sqrt PI * wsum V rule - q3 a b rho) <= 89 / 100 * e1 / PI.
Proof.
  pose proof sqPI as P. pose proof PI_RGT_0 as Pi. assert (PP : sqrt PI * sqrt PI = PI) by (apply sqrt_sqrt; lra). pose proof s_pos.
  assert (E : wsum V rule = / sqrt PI * (s * cbnd_quad a1 b1 rho + wsum (fun w => exp (w ^ 2 - a' w ^ 2 / 2) * (s * gk1 (ci w))) rule)).
  { rewrite quad_wsum.
    assert (X : forall w, V w = / sqrt PI * s * wsum (fun y => exp (a1 * (2 * w - a1) + b1 * (2 * y - b1) + 2 * rho * (w - a1) * (y - b1))) rule + / sqrt PI * (exp (w ^ 2 - a' w ^ 2 / 2) * (s * gk1 (ci w)))).
    { intro w. unfold V. rewrite (Phi_rule ((b - rho * a' w) / s)). fold (ci w).
      rewrite (wsum_ext (fun y => exp (a1 * (2 * w - a1) + b1 * (2 * y - b1) + 2 * rho * (w - a1) * (y - b1))) (fun y => exp (w ^ 2 - a' w ^ 2 / 2) * exp (- (ci w ^ 2 / 4) - ci w * y) + 0 * 0)).
      2:{ intros v y _. rewrite <- exp_plus, expo. ring. }
      rewrite (wsum_lin _ (fun _ => 0)). ring. }
    rewrite (wsum_ext V _ rule (fun w y _ => X y)), wsum_lin. ring. }
  unfold q3. fold s a1 b1. rewrite E. set (G := wsum _ rule). set (Q := cbnd_quad a1 b1 rho).
  assert (R : / sqrt PI * (/ sqrt PI * (s * Q + G)) - s / PI * Q = G / PI).
  { clearbody G Q. revert P PP. generalize (sqrt PI). intros p P PP. rewrite <- PP. field. lra. }
  rewrite R.
  unfold Rdiv. rewrite Rabs_mult, (Rabs_pos_eq (/ PI)) by (apply Rlt_le, Rinv_0_lt_compat; lra). apply Rmult_le_compat_r; [apply Rlt_le, Rinv_0_lt_compat; lra|].
  assert (B : Rabs G <= wsum (fun w => (e1 * s) * exp ((1 - s ^ 2) * w ^ 2) + 0 * 0) rule).
  { unfold G. apply wsum_abs. intros v w Hin. destruct (rule_pos v w Hin) as [Hv Hw]. split; [exact Hv|]. 
    rewrite !Rabs_mult, (Rabs_pos_eq (exp _)), (Rabs_pos_eq s) by (try (apply Rlt_le, exp_pos); lra).
    assert (K : Rabs (gk1 (ci w)) <= e1) by (apply gk_bound, ci_nonneg, Hw).
    assert (L : exp (w ^ 2 - a' w ^ 2 / 2) <= exp ((1 - s ^ 2) * w ^ 2)).
    { assert (L : w ^ 2 - a' w ^ 2 / 2 <= (1 - s ^ 2) * w ^ 2).
      { pose proof r2_sq as R2. pose proof r2_pos. assert (T : 0 <= r2 * s * w) by (repeat apply Rmult_le_pos; lra). 
        assert (U : (r2 * s * w) ^ 2 <= a' w ^ 2) by (unfold a'; replace ((a - r2 * s * w) ^ 2) with ((- a + r2 * s * w) ^ 2) by ring; apply pow_incr; lra).
        replace ((r2 * s * w) ^ 2) with ((r2 * r2) * (s ^ 2 * w ^ 2)) in U by ring. rewrite R2 in U. lra. }
      destruct L as [L|L]; [left; now apply exp_increasing|rewrite L; lra]. }
    rewrite Rmult_0_l, Rplus_0_r. rewrite (Rmult_comm (e1 * s)). apply Rmult_le_compat; [apply Rlt_le, exp_pos|apply Rmult_le_pos; [lra|apply Rabs_pos]|exact L|]. rewrite Rmult_comm. apply Rmult_le_compat_r; lra. }
  rewrite (wsum_lin _ (fun _ => 0)) in B. assert (W := rule_weight s). specialize (W ltac:(pose proof s_le; lra)).
  eapply Rle_trans; [exact B|]. rewrite Rmult_0_l, Rplus_0_r, Rmult_assoc, Rmult_comm. apply Rmult_le_compat_r; [unfold e1; lra|exact W].
Qed.
Lemma base_accuracy : Rabs (q3 a b rho - M a b rho) <= 6 / 10 ^ 7.
Proof.
  assert (A := step1). assert (B := step2). 
  assert (N1 : e1 / sqrt PI / 2 <= 2992 / 10 ^ 10) by (unfold e1; interval with (i_prec 50)).
  assert (N2 : 89 / 100 * e1 / PI <= 3004 / 10 ^ 10) by (unfold e1; interval with (i_prec 50)).
  replace (q3 a b rho - M a b rho) with (- ((M a b rho - / sqrt PI * wsum V rule) + (/ sqrt PI * wsum V rule - q3 a b rho))) by ring.
  rewrite Rabs_Ropp. eapply Rle_trans; [apply Rabs_triang|]. lra.
Qed.
End Base.
