(** Identities of the bivariate normal distribution function: derivatives, symmetry, reflections, and the
    reduction of a general pair of limits to pairs with one limit at zero. *)
From Coq Require Import Reals ZArith Bool Lra Lia Psatz.
From Coquelicot Require Import Coquelicot.
From Verif Require Import Num Py PCnd PCnd2 PGauss PHeston PMonte4 SAmerican2 PRgw2 PBvn PBvn2.
Open Scope R_scope.

Lemma sq_pos rho : -1 < rho < 1 -> 0 < sqrt (1 - rho ^ 2).
Proof. intro H. apply sqrt_lt_R0. nra. Qed.
Lemma sq_sq rho : -1 < rho < 1 -> sqrt (1 - rho ^ 2) * sqrt (1 - rho ^ 2) = 1 - rho ^ 2.
Proof. intro H. apply sqrt_sqrt. nra. Qed.
Lemma npdf_lip x : Rabs (- x * npdf x) <= 1.
Proof.
  rewrite Rabs_mult, Rabs_Ropp, (Rabs_pos_eq (npdf x)) by (left; apply npdf_pos). unfold npdf.
  assert (S : 1 <= sqrt (2 * PI)) by (rewrite <- sqrt_1 at 1; apply sqrt_le_1; pose proof PI2_3_2; lra).
  assert (A : Rabs x * exp (- x ^ 2 / 2) <= 1).
  { assert (E : 1 + x ^ 2 / 2 <= exp (x ^ 2 / 2)) by apply exp_ineq1_le. replace (- x ^ 2 / 2) with (- (x ^ 2 / 2)) by field. rewrite exp_Ropp.
    apply Rmult_le_reg_r with (exp (x ^ 2 / 2)); [apply exp_pos|]. rewrite Rmult_assoc, Rinv_l by (apply Rgt_not_eq, exp_pos).
    assert (Rabs x <= 1 + x ^ 2 / 2) by (rewrite <- (pow2_abs x); pose proof (pow2_ge_0 (Rabs x - 1)); nra). lra. }
  assert (B : 0 <= Rabs x * exp (- x ^ 2 / 2)) by (apply Rmult_le_pos; [apply Rabs_pos|apply Rlt_le, exp_pos]).
  unfold Rdiv at 1. rewrite <- Rmult_assoc. assert (/ sqrt (2 * PI) <= 1) by (rewrite <- Rinv_1; apply Rinv_le_contravar; lra).
  assert (0 < / sqrt (2 * PI)) by (apply Rinv_0_lt_compat; lra). nra.
Qed.
Lemma Phi_taylor x k : Rabs (Phi (x + k) - Phi x - k * npdf x) <= k ^ 2.
Proof.
  assert (L : forall y, Rabs (npdf y - npdf x) <= Rabs (y - x)).
  { intro y. destruct (MVT_gen npdf x y (fun z => - z * npdf z)) as (z & _ & E).
    - intros; apply npdf_derive.
    - intros z _. apply continuity_pt_filterlim. apply npdf_cont.
    - rewrite E, Rabs_mult. pose proof (npdf_lip z). pose proof (Rabs_pos (y - x)). nra. }
  destruct (MVT_gen (fun y => Phi y - (y - x) * npdf x) x (x + k) (fun z => npdf z - npdf x)) as (z & Hz & E).
  - intros y _. evar_last; [apply (is_derive_minus Phi (fun y => (y - x) * npdf x)); [apply Phi_derive|auto_derive; [exact Coq.Init.Logic.I|reflexivity]]|]. unfold minus, plus, opp. cbn. ring.
  - intros y _. apply continuity_pt_filterlim. apply (ex_derive_continuous (fun y => Phi y - (y - x) * npdf x)). eexists. apply (is_derive_minus Phi (fun y => (y - x) * npdf x)); [apply Phi_derive|auto_derive; [exact Coq.Init.Logic.I|reflexivity]].
  - replace (Phi (x + k) - Phi x - k * npdf x) with (Phi (x + k) - (x + k - x) * npdf x - (Phi x - (x - x) * npdf x)) by ring. rewrite E.
    rewrite Rabs_mult. specialize (L z). assert (Rabs (z - x) <= Rabs k).
    { unfold Rmin, Rmax in Hz. destruct (Rle_dec x (x + k)); unfold Rabs; destruct (Rcase_abs (z - x)), (Rcase_abs k); lra. }
    replace (x + k - x) with k by ring. rewrite <- (pow2_abs k). pose proof (Rabs_pos k). pose proof (Rabs_pos (npdf z - npdf x)). nra.
Qed.

Section Bvn.
Variable M : R -> R -> R -> R.
Hypothesis HM : bivariate_normal M.
Section Rho.
Variable rho : R.
Hypothesis Hr : -1 < rho < 1.
Let s := sqrt (1 - rho ^ 2).
Let Hs : 0 < s := sq_pos rho Hr.
Let Ss : s * s = 1 - rho ^ 2 := sq_sq rho Hr.
Let f (a y : R) := Phi ((a - rho * y) / s) * npdf y.
Lemma M_lint a b : lint (f a) b (M a b rho).
Proof. apply lint_gen. apply HM. exact Hr. Qed.
Lemma f_cont a y : continuous (f a) y.
Proof.
  apply (continuous_mult (K := R_AbsRing)); [|apply npdf_cont]. apply (continuous_comp (fun y => (a - rho * y) / s) Phi); [|apply (ex_derive_continuous Phi); eexists; apply Phi_derive].
  apply (ex_derive_continuous (fun y => (a - rho * y) / s)). auto_derive. exact Coq.Init.Logic.I.
Qed.
Lemma M_range a b : 0 <= M a b rho <= Phi b.
Proof.
  assert (A := M_lint a b). assert (N : forall y, 0 <= f a y <= npdf y).
  { intro y. unfold f. pose proof (Phi_gt_0 ((a - rho * y) / s)). pose proof (Phi_lt_1 ((a - rho * y) / s)). assert (0 < npdf y) by apply npdf_pos. split; [apply Rmult_le_pos; lra|]. rewrite <- (Rmult_1_l (npdf y)) at 2. apply Rmult_le_compat_r; lra. }
  split.
  - assert (Z := lint_lin _ _ _ _ _ 0 0 (lint_Phi b) (lint_Phi b)). enough (0 * Phi b + 0 * Phi b <= M a b rho) by lra. eapply lint_le; [|exact Z|exact A]. intros y _. cbv beta. specialize (N y). lra.
  - eapply lint_le; [|exact A|apply lint_Phi]. intros y _. apply N.
Qed.
Lemma M_step a b b' : is_RInt (f a) b b' (M a b' rho - M a b rho).
Proof.
  assert (Hi : forall u v, ex_RInt (f a) u v) by (intros; apply (ex_RInt_continuous (V := R_CompleteNormedModule)); intros; apply f_cont).
  destruct (Hi b b') as (v & Hv). change R in v.
  assert (A : lint (f a) b' (M a b rho + v)).
  { intros eps He. destruct (M_lint a b eps He) as (N & HN). exists N. intros x Hx. destruct (HN x Hx) as (I0 & H1 & H2). exists (I0 + v). split.
    - exact (is_RInt_Chasles (V := R_NormedModule) (f a) x b b' _ _ H1 Hv).
    - now replace (I0 + v - (M a b rho + v)) with (I0 - M a b rho) by ring. }
  rewrite (lint_unique _ _ _ _ (M_lint a b') A). replace (M a b rho + v - M a b rho) with v by ring. exact Hv.
Qed.
Lemma M_derive_b a b : is_derive (fun b => M a b rho) b (npdf b * Phi ((a - rho * b) / s)).
Proof.
  apply (is_derive_ext (fun y => M a 0 rho + (M a y rho - M a 0 rho))); [intro y; change (M a 0 rho + (M a y rho - M a 0 rho) = M a y rho); ring|].
  evar_last; [apply (is_derive_plus (fun _ => M a 0 rho) (fun y => M a y rho - M a 0 rho)); [apply is_derive_const|]|].
  - apply (is_derive_RInt (V := R_NormedModule) (f a) (fun y => M a y rho - M a 0 rho) 0 b); [|apply f_cont]. apply filter_forall. intro y. apply M_step.
  - unfold plus, zero. cbn. unfold f. ring.
Qed.
Lemma lint_slope a b : lint (fun y => npdf ((a - rho * y) / s) * npdf y) b (s * (npdf a * Phi ((b - rho * a) / s))).
Proof.
  assert (Z := lint_npdf (rho * a) s b Hs). assert (Y := lint_lin _ _ _ _ _ (npdf a) 0 Z Z).
  replace (s * (npdf a * Phi ((b - rho * a) / s))) with (npdf a * (s * Phi ((b - rho * a) / s)) + 0 * (s * Phi ((b - rho * a) / s))) by ring.
  eapply lint_ext; [|exact Y]. intros y _. cbv beta.
  assert (N : forall u v, npdf u * npdf v = exp (- (u ^ 2 + v ^ 2) / 2) * (/ sqrt (2 * PI) * / sqrt (2 * PI))).
  { intros. unfold npdf, Rdiv. replace (- (u ^ 2 + v ^ 2) * / 2) with (- u ^ 2 * / 2 + - v ^ 2 * / 2) by ring. rewrite exp_plus. ring. }
  rewrite Rmult_0_l, Rplus_0_r, !N. f_equal. f_equal. f_equal. f_equal.
  replace (((y - rho * a) / s) ^ 2) with ((y - rho * a) ^ 2 / (s * s)) by (field; lra). replace (((a - rho * y) / s) ^ 2) with ((a - rho * y) ^ 2 / (s * s)) by (field; lra).
  rewrite Ss. field. rewrite <- Ss. nra.
Qed.
Lemma M_step_a a h b : Rabs (M (a + h) b rho - M a b rho - h * (npdf a * Phi ((b - rho * a) / s))) <= h ^ 2 / s ^ 2.
Proof.
  assert (D := lint_lin _ _ _ _ _ 1 (-1) (M_lint (a + h) b) (M_lint a b)). assert (E := lint_lin _ _ _ _ _ 1 (- (h / s)) D (lint_slope a b)). cbv beta in E.
  assert (P : 0 < s ^ 2) by (apply pow_lt; exact Hs).
  eapply (lint_bound _ _ _ (h ^ 2 / s ^ 2)) in E.
  - replace (1 * (1 * M (a + h) b rho + -1 * M a b rho) + - (h / s) * (s * (npdf a * Phi ((b - rho * a) / s)))) with (M (a + h) b rho - M a b rho - h * (npdf a * Phi ((b - rho * a) / s))) in E by (field; lra).
    eapply Rle_trans; [exact E|]. pose proof (Phi_lt_1 b). pose proof (Phi_gt_0 b). assert (0 <= h ^ 2 / s ^ 2) by (apply Rmult_le_pos; [apply pow2_ge_0|apply Rlt_le, Rinv_0_lt_compat, P]). nra.
  - apply Rmult_le_pos; [apply pow2_ge_0|apply Rlt_le, Rinv_0_lt_compat, P].
  - intros y _. unfold f. set (x := (a - rho * y) / s). replace ((a + h - rho * y) / s) with (x + h / s) by (unfold x; field; lra).
    replace (1 * (1 * (Phi (x + h / s) * npdf y) + -1 * (Phi x * npdf y)) + - (h / s) * (npdf x * npdf y)) with ((Phi (x + h / s) - Phi x - h / s * npdf x) * npdf y) by ring.
    assert (0 < npdf y) by apply npdf_pos. rewrite Rabs_mult, (Rabs_pos_eq (npdf y)) by lra. apply Rmult_le_compat_r; [lra|]. 
    replace (h ^ 2 / s ^ 2) with ((h / s) ^ 2) by (field; lra). apply Phi_taylor.
Qed.
Lemma M_derive_a a b : is_derive (fun a => M a b rho) a (npdf a * Phi ((b - rho * a) / s)).
Proof.
  split; [apply (is_linear_scal_l (K := R_AbsRing))|]. intros x Hx. apply (is_filter_lim_locally_unique (V := R_NormedModule)) in Hx. subst x.
  intro eps. assert (P : 0 < s ^ 2) by (apply pow_lt; exact Hs). assert (Q : 0 < eps * s ^ 2) by (apply Rmult_lt_0_compat; [apply cond_pos|exact P]).
  exists (mkposreal _ Q). intros y Hy. change R in y. change (Rabs (y - a) < eps * s ^ 2) in Hy. unfold norm, minus, plus, opp, scal. cbn -[pow]. unfold abs, mult. cbn -[pow].
  assert (B := M_step_a a (y - a) b). assert (Y : a + (y - a) = y) by ring. rewrite Y in B.
  replace (M y b rho + - M a b rho + - ((y + - a) * (npdf a * Phi ((b - rho * a) / s)))) with (M y b rho - M a b rho - (y - a) * (npdf a * Phi ((b - rho * a) / s))) by ring.
  eapply Rle_trans; [exact B|]. change (y + - a) with (y - a). rewrite <- (pow2_abs (y - a)). pose proof (Rabs_pos (y - a)).
  replace (Rabs (y - a) ^ 2 / s ^ 2) with (Rabs (y - a) / s ^ 2 * Rabs (y - a)) by (field; lra). apply Rmult_le_compat_r; [lra|].
  apply Rmult_le_reg_r with (s ^ 2); [exact P|]. unfold Rdiv. rewrite Rmult_assoc, Rinv_l by lra. lra.
Qed.
Lemma M_sym a b : M a b rho = M b a rho.
Proof.
  assert (Z : forall a, is_derive (fun a => M a b rho - M b a rho) a 0).
  { intro x. evar_last; [apply (is_derive_minus (fun a => M a b rho) (fun a => M b a rho)); [apply M_derive_a|apply M_derive_b]|]. unfold minus, plus, opp. cbn. ring. }
  assert (E := const_of_derive _ a b Z). cbv beta in E. lra.
Qed.
(** the derivative along a ray *)
Lemma M_ray a b t : is_derive (fun t => M (t * a) (t * b) rho) t (a * (npdf (t * a) * Phi ((t * b - rho * (t * a)) / s)) + b * (npdf (t * b) * Phi ((t * a - rho * (t * b)) / s))).
Proof.
  assert (FD : filterdiff (fun u : R * R => M (fst u) (snd u) rho) (locally (t * a, t * b)) (fun u : R * R => plus (scal (fst u) (npdf (t * a) * Phi ((t * b - rho * (t * a)) / s))) (scal (snd u) (npdf (t * b) * Phi ((t * a - rho * (t * b)) / s))))).
  { apply (is_derive_filterdiff (fun x y => M x y rho) (t * a) (t * b) (fun x y => npdf x * Phi ((y - rho * x) / s))).
    - apply filter_forall. intros (u, v). cbn [fst snd]. apply M_derive_a.
    - apply M_derive_b.
    - apply (continuous_mult (K := R_AbsRing) (fun u : R * R => npdf (fst u)) (fun u : R * R => Phi ((snd u - rho * fst u) / s))).
      + apply (continuous_comp fst npdf); [apply continuous_fst|apply npdf_cont].
      + apply (continuous_comp (fun u : R * R => (snd u - rho * fst u) / s) Phi); [|apply (ex_derive_continuous Phi); eexists; apply Phi_derive].
        apply (continuous_mult (K := R_AbsRing) (fun u : R * R => snd u - rho * fst u) (fun _ => / s)); [|apply continuous_const].
        apply (continuous_minus (V := R_NormedModule) (fun u : R * R => snd u) (fun u : R * R => rho * fst u)); [apply continuous_snd|].
        apply (continuous_scal_r (V := R_NormedModule) rho (fun u : R * R => fst u)). apply continuous_fst. }
  assert (L : forall c, filterdiff (fun t : R => t * c) (locally t) (fun h : R => h * c)).
  { intro c. assert (D : is_derive (fun t : R => t * c) t c) by (auto_derive; [exact Coq.Init.Logic.I|ring]). exact D. }
  assert (C := filterdiff_comp'_2 (fun t : R => t * a) (fun t : R => t * b) (fun x y => M x y rho) t _ _ (fun x y => plus (scal x (npdf (t * a) * Phi ((t * b - rho * (t * a)) / s))) (scal y (npdf (t * b) * Phi ((t * a - rho * (t * b)) / s)))) (L a) (L b) FD).
  eapply filterdiff_ext_lin; [exact C|]. intro h. unfold plus, scal. cbn. unfold mult. cbn. ring.
Qed.
End Rho.

Lemma M_flip_a a b rho : -1 < rho < 1 -> M (- a) b (- rho) = Phi b - M a b rho.
Proof.
  intro Hr. assert (A := M_lint rho Hr a b). assert (B := M_lint (- rho) ltac:(lra) (- a) b). assert (C := lint_lin _ _ _ _ _ 1 (-1) (lint_Phi b) A).
  enough (M (- a) b (- rho) = 1 * Phi b + -1 * M a b rho) by lra. eapply lint_unique; [exact B|]. eapply lint_ext; [|exact C]. intros y _. cbv beta.
  replace ((- rho) ^ 2) with (rho ^ 2) by ring. replace ((- a - - rho * y) / sqrt (1 - rho ^ 2)) with (- ((a - rho * y) / sqrt (1 - rho ^ 2))) by (field; apply Rgt_not_eq, sq_pos, Hr). rewrite Phi_opp. ring.
Qed.
Lemma M_flip_b a b rho : -1 < rho < 1 -> M a (- b) (- rho) = Phi a - M a b rho.
Proof. intro Hr. rewrite (M_sym (- rho)) by lra. rewrite M_flip_a by lra. now rewrite (M_sym rho). Qed.
Lemma M_flip a b rho : -1 < rho < 1 -> M a b rho = Phi a + Phi b - 1 + M (- a) (- b) rho.
Proof. intro Hr. assert (A := M_flip_b (- a) b (- rho) ltac:(lra)). rewrite Ropp_involutive in A. rewrite A, Phi_opp, M_flip_a by lra. ring. Qed.
Lemma M_le_a a b rho : -1 < rho < 1 -> M a b rho <= Phi a.
Proof. intro Hr. rewrite (M_sym rho) by lra. now apply M_range. Qed.
Lemma M_ge a b rho : -1 < rho < 1 -> Phi a + Phi b - 1 <= M a b rho.
Proof. intro Hr. rewrite (M_flip a b rho) by lra. destruct (M_range rho Hr (- a) (- b)). lra. Qed.

(** limits along a ray *)
Lemma ray_small a : a < 0 -> forall eps, 0 < eps -> exists T, forall t, T < t -> 0 < Phi (t * a) < eps.
Proof.
  intros Ha eps He. destruct (Phi_small eps He) as (N & HN). exists (N / a). intros t Ht. split; [apply Phi_gt_0|]. apply HN.
  assert (X : t * a < N / a * a) by nra. unfold Rdiv in X. rewrite Rmult_assoc, Rinv_l, Rmult_1_r in X by lra. exact X.
Qed.
Definition corner (a : R) : R := if Rlt_dec 0 a then 1 else 0.
Lemma ray_Phi a : a <> 0 -> forall eps, 0 < eps -> exists T, forall t, T < t -> Rabs (Phi (t * a) - corner a) < eps.
Proof.
  intros Ha eps He. unfold corner. destruct (Rlt_dec 0 a).
  - destruct (ray_small (- a) ltac:(lra) eps He) as (T & HT). exists T. intros t Ht. specialize (HT t Ht). replace (t * - a) with (- (t * a)) in HT by ring. rewrite Phi_opp in HT. apply Rabs_def1; lra.
  - destruct (ray_small a ltac:(lra) eps He) as (T & HT). exists T. intros t Ht. specialize (HT t Ht). apply Rabs_def1; lra.
Qed.
Lemma ray_M a b rho : -1 < rho < 1 -> a <> 0 -> b <> 0 -> forall eps, 0 < eps -> exists T, forall t, T < t -> Rabs (M (t * a) (t * b) rho - corner a * corner b) < eps.
Proof.
  intros Hr Ha Hb eps He. destruct (ray_Phi a Ha (eps / 2) ltac:(lra)) as (T1 & H1). destruct (ray_Phi b Hb (eps / 2) ltac:(lra)) as (T2 & H2).
  exists (Rmax T1 T2). intros t Ht. pose proof (Rmax_l T1 T2). pose proof (Rmax_r T1 T2). specialize (H1 t ltac:(lra)). specialize (H2 t ltac:(lra)). apply Rabs_def2 in H1. apply Rabs_def2 in H2.
  destruct (M_range rho Hr (t * a) (t * b)) as [R1 R2]. assert (R3 := M_le_a (t * a) (t * b) rho Hr). assert (R4 := M_ge (t * a) (t * b) rho Hr).
  unfold corner in *. pose proof (Phi_lt_1 (t * a)). pose proof (Phi_lt_1 (t * b)). destruct (Rlt_dec 0 a), (Rlt_dec 0 b); apply Rabs_def1; lra.
Qed.
Lemma ray_M0 a rho : -1 < rho < 1 -> a <> 0 -> forall eps, 0 < eps -> exists T, forall t, T < t -> Rabs (M (t * a) 0 rho - corner a / 2) < eps.
Proof.
  intros Hr Ha eps He. destruct (ray_Phi a Ha eps He) as (T1 & H1). exists T1. intros t Ht. specialize (H1 t Ht). apply Rabs_def2 in H1.
  destruct (M_range rho Hr (t * a) 0) as [R1 R2]. assert (R3 := M_le_a (t * a) 0 rho Hr). assert (R4 := M_ge (t * a) 0 rho Hr). rewrite Phi_0 in *.
  unfold corner in *. destruct (Rlt_dec 0 a); apply Rabs_def1; lra.
Qed.
Lemma const_limit (F : R -> R) L : (forall t, is_derive F t 0) -> (forall eps, 0 < eps -> exists T, forall t, T < t -> Rabs (F t - L) < eps) -> F 1 = L.
Proof.
  intros D H. apply Rminus_diag_uniq. apply cond_eq. intros eps He. destruct (H eps He) as (T & HT). specialize (HT (T + 1) ltac:(lra)). rewrite (const_of_derive F 1 (T + 1) D). now rewrite Rminus_0_r.
Qed.
(** a pair of limits through pairs with one limit at zero *)
Lemma M_reduce a b rho : -1 < rho < 1 -> a <> 0 -> b <> 0 ->
  let q := sqrt (a ^ 2 - 2 * rho * a * b + b ^ 2) in
  let rho1 := (rho * a - b) * sign a / q in let rho2 := (rho * b - a) * sign b / q in
  (-1 < rho1 < 1 /\ -1 < rho2 < 1) /\ M a b rho = M a 0 rho1 + M b 0 rho2 - (1 - sign a * sign b) / 4.
Proof.
  intros Hr Ha Hb. set (q2 := a ^ 2 - 2 * rho * a * b + b ^ 2). intros q rho1 rho2. set (s := sqrt (1 - rho ^ 2)). assert (Hs : 0 < s) by now apply sq_pos. assert (Ss := sq_sq rho Hr). fold s in Ss.
  assert (A2 : 0 < a ^ 2) by nra. assert (B2 : 0 < b ^ 2) by nra.
  assert (Q1 : q2 = (b - rho * a) ^ 2 + (s * s) * a ^ 2) by (rewrite Ss; unfold q2; ring). assert (Q2 : q2 = (a - rho * b) ^ 2 + (s * s) * b ^ 2) by (rewrite Ss; unfold q2; ring).
  assert (Q : 0 < q2) by (rewrite Q1; pose proof (pow2_ge_0 (b - rho * a)); assert (0 < s * s * a ^ 2) by (apply Rmult_lt_0_compat; [apply Rmult_lt_0_compat|]; assumption); lra).
  assert (Hq : 0 < q) by (now apply sqrt_lt_R0). assert (Sq : q * q = q2) by (apply sqrt_sqrt; lra).
  assert (SG : forall x, x <> 0 -> sign x * sign x = 1 /\ 0 < sign x * x).
  { intros x Hx. destruct (Rlt_dec 0 x); [rewrite sign_eq_1 by lra; lra|rewrite sign_eq_m1 by lra; lra]. }
  assert (G : forall u v r, u <> 0 -> q2 = (v - rho * u) ^ 2 + (s * s) * u ^ 2 -> r = (rho * u - v) * sign u / q -> sqrt (1 - r ^ 2) = s * (sign u * u) / q /\ -1 < r < 1).
  { intros u v r Hu E Er. destruct (SG u Hu) as [S1 S2]. assert (T : 1 - r ^ 2 = (s * (sign u * u) / q) ^ 2).
    { rewrite Er. replace (((rho * u - v) * sign u / q) ^ 2) with ((v - rho * u) ^ 2 * (sign u * sign u) / (q * q)) by (field; lra).
      replace ((s * (sign u * u) / q) ^ 2) with ((s * s) * (sign u * sign u) * u ^ 2 / (q * q)) by (field; lra). rewrite S1, Sq. 
      replace (1 - (v - rho * u) ^ 2 * 1 / q2) with ((q2 - (v - rho * u) ^ 2) / q2) by (field; lra). rewrite E at 1. field. lra. }
    assert (P : 0 < s * (sign u * u) / q) by (apply Rdiv_lt_0_compat; [apply Rmult_lt_0_compat; assumption|exact Hq]). split.
    - rewrite T. apply sqrt_pow2. lra.
    - assert (0 < 1 - r ^ 2) by (rewrite T; apply pow_lt, P). nra. }
  destruct (G a b rho1 Ha Q1 eq_refl) as [S1 R1]. destruct (G b a rho2 Hb Q2 eq_refl) as [S2 R2]. split; [split; assumption|].
  set (F := fun t => M (t * a) (t * b) rho - (M (t * a) (t * 0) rho1 + M (t * b) (t * 0) rho2)).
  assert (D : forall t, is_derive F t 0).
  { intro t. unfold F. evar_last; [apply (is_derive_minus (fun t => M (t * a) (t * b) rho) (fun t => M (t * a) (t * 0) rho1 + M (t * b) (t * 0) rho2)); [apply M_ray; exact Hr|apply (is_derive_plus (fun t => M (t * a) (t * 0) rho1) (fun t => M (t * b) (t * 0) rho2)); apply M_ray; assumption]|].
    unfold minus, plus, opp. cbn -[pow]. fold s. rewrite S1, S2. destruct (SG a Ha) as [_ Pa]. destruct (SG b Hb) as [_ Pb].
    replace ((t * 0 - rho1 * (t * a)) / (s * (sign a * a) / q)) with ((t * b - rho * (t * a)) / s) by (unfold rho1; field; repeat split; try lra; intros Z; rewrite Z in *; lra).
    replace ((t * 0 - rho2 * (t * b)) / (s * (sign b * b) / q)) with ((t * a - rho * (t * b)) / s) by (unfold rho2; field; repeat split; try lra; intros Z; rewrite Z in *; lra). ring. }
  set (L := corner a * corner b - (corner a / 2 + corner b / 2)).
  assert (E : F 1 = L).
  { apply const_limit; [exact D|]. intros eps He. destruct (ray_M a b rho Hr Ha Hb (eps / 3) ltac:(lra)) as (T0 & H0). destruct (ray_M0 a rho1 R1 Ha (eps / 3) ltac:(lra)) as (T1 & H1). destruct (ray_M0 b rho2 R2 Hb (eps / 3) ltac:(lra)) as (T2 & H2).
    exists (Rmax T0 (Rmax T1 T2)). intros t Ht. pose proof (Rmax_l T0 (Rmax T1 T2)). pose proof (Rmax_r T0 (Rmax T1 T2)). pose proof (Rmax_l T1 T2). pose proof (Rmax_r T1 T2).
    specialize (H0 t ltac:(lra)). specialize (H1 t ltac:(lra)). specialize (H2 t ltac:(lra)). apply Rabs_def2 in H0. apply Rabs_def2 in H1. apply Rabs_def2 in H2. unfold F, L. rewrite Rmult_0_r. apply Rabs_def1; lra. }
  unfold F in E. rewrite Rmult_0_r, !Rmult_1_l in E. assert (LV : L = - ((1 - sign a * sign b) / 4)).
  { unfold L, corner. destruct (Rlt_dec 0 a), (Rlt_dec 0 b); rewrite ?(sign_eq_1 a), ?(sign_eq_m1 a), ?(sign_eq_1 b), ?(sign_eq_m1 b) by lra; lra. }
  lra.
Qed.
End Bvn.
