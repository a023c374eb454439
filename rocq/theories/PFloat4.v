(** How far the floating-point Black-Scholes price is from the exact one (C70). *)
From Coq Require Import Reals QArith Qreals ZArith String Arith Lra Lia Psatz.
From Coquelicot Require Import Coquelicot.
From Verif Require Import Num Py MBase MVanilla PCnd PGauss PConv3 PCndAcc MFloat SFloat PFloat2 PFloat3.
From Coq Require Import List.
Open Scope R_scope.

Section Acc.
Variables (A : fp) (u eta : R).
Hypothesis HA : accurate_fp A u eta.
Notation rd := (rnd A).
Let Hu : 0 <= u <= / 1000 := u_range A u eta HA.
Let He : 0 <= eta <= / 1000 := eta_range A u eta HA.

Lemma lib_err f x y e a : Rabs (f - x) <= u * Rabs x + eta -> Rabs (x - y) <= e -> Rabs y <= a -> Rabs (f - y) <= 1001 / 1000 * e + u * a + eta.
Proof.
  intros H1 H2 H3. assert (Hx : Rabs x <= a + e). { replace x with (y + (x - y)) by ring. eapply Rle_trans; [apply Rabs_triang|]. lra. } pose proof (Rabs_pos (x - y)).
  replace (f - y) with ((f - x) + (x - y)) by ring. eapply Rle_trans; [apply Rabs_triang|]. assert (u * Rabs x <= u * (a + e)) by (apply Rmult_le_compat_l; lra). assert (u * e <= / 1000 * e) by (apply Rmult_le_compat_r; lra). lra.
Qed.
Lemma rd_err x y e a : Rabs (x - y) <= e -> Rabs y <= a -> Rabs (rd x - y) <= 1001 / 1000 * e + u * a + eta.
Proof. intros. eapply lib_err; [apply (a_err A u eta HA)|eassumption|assumption]. Qed.
Lemma add_err x y z w e f : Rabs (x - y) <= e -> Rabs (z - w) <= f -> Rabs (x + z - (y + w)) <= e + f.
Proof. intros. replace (x + z - (y + w)) with ((x - y) + (z - w)) by ring. now apply add_abs. Qed.
Lemma sub_err x y z w e f : Rabs (x - y) <= e -> Rabs (z - w) <= f -> Rabs (x - z - (y - w)) <= e + f.
Proof. intros. replace (x - z - (y - w)) with ((x - y) + - (z - w)) by ring. apply add_abs; [assumption|now rewrite Rabs_Ropp]. Qed.
Lemma abs_self x : Rabs x <= Rabs x. Proof. apply Rle_refl. Qed.

Section Price.
Variables S K t r b sigma : R.
Hypotheses (HS : 0 < S) (HK : 0 < K) (Ht : 0 < t) (Hs : 0 < sigma).
Hypotheses (E1 : eta <= u) (E2 : eta <= u * (S / K)) (E3 : eta <= u * sqrt t) (E4 : eta <= u * (sigma * sqrt t)).

Let v := sigma * sqrt t.
Let L := Rabs (ln (S / K)).
Let h := Rabs b + sigma ^ 2.
Let M := L + h * t.
Let Q := 1 + t + (1 + M) / v.

Let Hv : 0 < v. Proof. apply Rmult_lt_0_compat; [exact Hs|now apply sqrt_lt_R0]. Qed.
Let HL : 0 <= L. Proof. apply Rabs_pos. Qed.
Let Hh : 0 <= h. Proof. unfold h. pose proof (Rabs_pos b). pose proof (pow2_ge_0 sigma). lra. Qed.
Let HM : 0 <= M. Proof. unfold M. pose proof (Rmult_le_pos h t Hh ltac:(lra)). lra. Qed.

Lemma log_err : Rabs (f_log A (rd (S / K)) - ln (S / K)) <= u * L + 31 / 10 * u.
Proof.
  set (x := S / K) in *. assert (Hx : 0 < x) by (apply Rdiv_lt_0_compat; assumption). pose proof (a_err A u eta HA x) as E. rewrite (Rabs_pos_eq x) in E by lra.
  assert (Ex : Rabs (rd x - x) <= 2 * u * x) by lra. apply le_abs in Ex. set (q := rd x) in *. assert (Ux : 0 <= u * x <= / 1000 * x) by (split; [apply Rmult_le_pos|apply Rmult_le_compat_r]; lra). assert (Hq : 998 / 1000 * x <= q) by lra.
  assert (Lq : Rabs (ln q - ln x) <= 201 / 100 * u).
  { assert (Hln : forall a c, 0 < a -> 0 < c -> ln c - ln a <= (c - a) / a). { intros a c Ha Hc. rewrite <- ln_div by assumption. replace ((c - a) / a) with (c / a - 1) by (field; lra). assert (Hr : 0 < c / a) by (now apply Rdiv_lt_0_compat). pose proof (exp_ineq1_le (ln (c / a))) as I1. rewrite exp_ln in I1 by exact Hr. lra. }
    pose proof (Hln x q Hx ltac:(lra)) as I1. pose proof (Hln q x ltac:(lra) Hx) as I2.
    assert (J1 : (q - x) / x <= 2 * u) by (apply (Rmult_le_reg_r x); [exact Hx|]; replace ((q - x) / x * x) with (q - x) by (field; lra); lra).
    assert (J2 : (x - q) / q <= 201 / 100 * u). { apply (Rmult_le_reg_r q); [lra|]. replace ((x - q) / q * q) with (x - q) by (field; lra). assert (u * (998 / 1000 * x) <= u * q) by (apply Rmult_le_compat_l; lra). lra. } apply abs_le. lra. }
  pose proof (lib_err _ _ _ _ _ (a_log A u eta HA q ltac:(lra)) Lq (abs_self _)) as F. fold L in F. unfold L in *. lra.
Qed.

Let c0' := b + sigma * sigma / 2.
Lemma c0_abs : Rabs c0' <= h.
Proof. unfold c0', h. eapply Rle_trans; [apply Rabs_triang|]. rewrite (Rabs_pos_eq (sigma * sigma / 2)) by nra. nra. Qed.
Lemma drift_err : Rabs (rd (rd (b + rd (rd (sigma * sigma) / 2)) * t) - c0' * t) <= 31 / 10 * (u * (h * t)) + 41 / 10 * (eta * t) + eta.
Proof.
  pose proof (a_err A u eta HA (sigma * sigma)) as A1. rewrite (Rabs_pos_eq (sigma * sigma)) in A1 by nra. set (w := sigma * sigma) in *. assert (Hw : 0 < w) by (unfold w; nra).
  assert (A2 : Rabs (rd w / 2 - w / 2) <= u * (w / 2) + eta / 2) by (replace (rd w / 2 - w / 2) with ((rd w - w) * / 2) by field; rewrite Rabs_mult, (Rabs_pos_eq (/ 2)) by lra; lra).
  pose proof (rd_err _ _ _ _ A2 (ltac:(apply abs_le; lra) : Rabs (w / 2) <= w / 2)) as A3.
  assert (A4 : Rabs (b - b) <= 0) by (rewrite Rminus_eq_0, Rabs_R0; lra). pose proof (add_err _ _ _ _ _ _ A4 A3) as A5. pose proof c0_abs as C0. fold w c0' in A5. pose proof (rd_err _ _ _ _ A5 C0) as A6.
  assert (Huw : 0 <= u * w) by (apply Rmult_le_pos; lra). assert (Hhw : u * w <= u * h) by (apply Rmult_le_compat_l; [lra|]; unfold h, w; pose proof (Rabs_pos b); lra).
  assert (A7 : Rabs (rd (b + rd (rd w / 2)) - c0') <= 205 / 100 * (u * h) + 401 / 100 * eta) by lra.
  assert (A8 : Rabs (rd (b + rd (rd w / 2)) * t - c0' * t) <= (205 / 100 * (u * h) + 401 / 100 * eta) * t) by (rewrite <- Rmult_minus_distr_r, Rabs_mult, (Rabs_pos_eq t) by lra; apply Rmult_le_compat_r; lra).
  assert (A9 : Rabs (c0' * t) <= h * t) by (rewrite Rabs_mult, (Rabs_pos_eq t) by lra; apply Rmult_le_compat_r; lra). pose proof (rd_err _ _ _ _ A8 A9) as A10. assert (0 <= eta * t) by (apply Rmult_le_pos; lra). assert (0 <= u * (h * t)) by (apply Rmult_le_pos; [lra|apply Rmult_le_pos; lra]). lra.
Qed.

Let N := ln (S / K) + c0' * t.
Lemma N_abs : Rabs N <= M.
Proof. unfold N, M, L. eapply Rle_trans; [apply Rabs_triang|]. rewrite (Rabs_mult c0'), (Rabs_pos_eq t) by lra. pose proof c0_abs. assert (Rabs c0' * t <= h * t) by (apply Rmult_le_compat_r; lra). lra. Qed.
Let fnum := rd (f_log A (rd (S / K)) + rd (rd (b + rd (rd (sigma * sigma) / 2)) * t)).
Lemma num_err : Rabs (fnum - N) <= 52 / 10 * (u * (1 + M)) + 42 / 10 * (u * (t * v)).
Proof.
  pose proof (rd_err _ _ _ _ (add_err _ _ _ _ _ _ log_err drift_err) N_abs) as H. fold N fnum in H. assert (Et : eta * t <= u * v * t) by (apply Rmult_le_compat_r; [lra|exact E4]).
  assert (HM' : u * M = u * L + u * (h * t)) by (unfold M; ring). assert (0 <= u * L) by (apply Rmult_le_pos; lra). assert (0 <= u * (h * t)) by (apply Rmult_le_pos; [lra|apply Rmult_le_pos; lra]). assert (0 <= eta * t) by (apply Rmult_le_pos; lra).
  replace (u * (1 + M)) with (u + (u * L + u * (h * t))) by lra. replace (u * (t * v)) with (u * v * t) by ring. lra.
Qed.

Let fv := rd (sigma * f_sqrt A t).
Lemma v_err : Rabs (fv - v) <= 401 / 100 * (u * v).
Proof.
  pose proof (a_sqrt A u eta HA t ltac:(lra)) as B. assert (B1 : Rabs (f_sqrt A t - sqrt t) <= 2 * (u * sqrt t)) by lra.
  assert (B2 : Rabs (sigma * f_sqrt A t - v) <= 2 * (u * v)). { unfold v. rewrite <- Rmult_minus_distr_l, Rabs_mult, (Rabs_pos_eq sigma) by lra. replace (2 * (u * (sigma * sqrt t))) with (sigma * (2 * (u * sqrt t))) by ring. apply Rmult_le_compat_l; lra. }
  pose proof (rd_err _ _ _ _ B2 (ltac:(apply abs_le; lra) : Rabs v <= v)) as B3. fold fv in B3. fold v in E4. assert (0 <= u * v) by (apply Rmult_le_pos; lra). lra.
Qed.
Lemma fv_ge : 995 / 1000 * v <= fv.
Proof. pose proof v_err as V. apply le_abs in V. assert (u * v <= / 1000 * v) by (apply Rmult_le_compat_r; lra). lra. Qed.

Let d1 := N / v.
Lemma d1_abs : Rabs d1 <= M / v.
Proof. unfold d1, Rdiv. rewrite Rabs_mult, (Rabs_pos_eq (/ v)) by (apply Rlt_le, Rinv_0_lt_compat; lra). apply Rmult_le_compat_r; [apply Rlt_le, Rinv_0_lt_compat; lra|apply N_abs]. Qed.
Lemma Q_ge : 0 <= M / v /\ 0 < / v /\ Q = 1 + t + (/ v + M / v).
Proof. assert (0 < / v) by (apply Rinv_0_lt_compat; lra). split; [apply Rmult_le_pos; lra|]. split; [assumption|]. unfold Q. field. lra. Qed.
Lemma fd1_err : Rabs (rd (fnum / fv) - d1) <= 104 / 10 * (u * Q).
Proof.
  pose proof fv_ge as G. pose proof num_err as NE. pose proof v_err as VE. pose proof N_abs as NA'. assert (Hfv : 0 < fv) by lra. destruct Q_ge as (Qa & Qb & Qc).
  assert (H1 : Rabs (fnum / fv - d1) <= 93 / 10 * (u * (/ v + M / v)) + 43 / 10 * (u * t)).
  { replace (fnum / fv - d1) with (((fnum - N) - d1 * (fv - v)) * / fv) by (unfold d1; field; lra). rewrite Rabs_mult, (Rabs_pos_eq (/ fv)) by (apply Rlt_le, Rinv_0_lt_compat; lra).
    assert (I1 : Rabs (fnum - N - d1 * (fv - v)) <= 52 / 10 * (u * (1 + M)) + 42 / 10 * (u * (t * v)) + M / v * (401 / 100 * (u * v))). { change (fnum - N - d1 * (fv - v)) with (fnum - N + - (d1 * (fv - v))). apply add_abs; [exact NE|]. rewrite Rabs_Ropp. apply mul_abs; [apply d1_abs|exact VE]. }
    assert (I2 : / fv <= 1006 / 1000 * / v). { apply (Rmult_le_reg_r fv); [lra|]. rewrite Rinv_l by lra. apply Rle_trans with (1006 / 1000 * / v * (995 / 1000 * v)); [|apply Rmult_le_compat_l; [apply Rmult_le_pos; lra|exact G]]. replace (1006 / 1000 * / v * (995 / 1000 * v)) with (1006 / 1000 * (995 / 1000)) by (field; lra). lra. }
    assert (I3 : 0 < / fv) by (apply Rinv_0_lt_compat; lra).
    eapply Rle_trans; [apply Rmult_le_compat; [apply Rabs_pos|lra|exact I1|exact I2]|].
    replace ((52 / 10 * (u * (1 + M)) + 42 / 10 * (u * (t * v)) + M / v * (401 / 100 * (u * v))) * (1006 / 1000 * / v)) with (1006 / 1000 * (52 / 10 * (u * / v) + 52 / 10 * (u * (M / v)) + 42 / 10 * (u * t) + 401 / 100 * (u * (M / v)))) by (field; lra).
    assert (0 <= u * / v) by (apply Rmult_le_pos; lra). assert (0 <= u * (M / v)) by (apply Rmult_le_pos; lra). assert (0 <= u * t) by (apply Rmult_le_pos; lra). lra. }
  pose proof (rd_err _ _ _ _ H1 d1_abs) as H2. rewrite Qc. assert (0 <= u * / v) by (apply Rmult_le_pos; lra). assert (0 <= u * (M / v)) by (apply Rmult_le_pos; lra). assert (0 <= u * t) by (apply Rmult_le_pos; lra). lra.
Qed.
Let d2 := d1 - v.
Lemma fd2_err : Rabs (rd (rd (fnum / fv) - fv) - d2) <= 12 * (u * (Q + v)).
Proof.
  assert (H : Rabs d2 <= M / v + v). { unfold d2. change (d1 - v) with (d1 + - v). apply add_abs; [apply d1_abs|]. rewrite Rabs_Ropp. apply abs_le. lra. }
  pose proof (rd_err _ _ _ _ (sub_err _ _ _ _ _ _ fd1_err v_err) H) as F. fold d2 in F. destruct Q_ge as (Qa & Qb & Qc). assert (0 <= u * / v) by (apply Rmult_le_pos; lra). assert (0 <= u * (M / v)) by (apply Rmult_le_pos; lra). assert (0 <= u * t) by (apply Rmult_le_pos; lra). assert (0 <= u * v) by (apply Rmult_le_pos; lra).
  replace (u * (Q + v)) with (u * Q + u * v) by ring. rewrite Qc in *. lra.
Qed.

(** ** the discount factors *)
Lemma disc_err Y a fa P : 0 < Y -> 0 <= P -> Rabs (fa - a) <= 22 / 10 * (u * P) -> u * P <= / 100 -> 1 <= P ->
  Rabs (rd (Y * f_exp A fa) - Y * exp a) <= 5 * (u * P) * (Y * exp a) + 11 / 10 * (Y * eta) + eta.
Proof.
  intros HY HP Ha Hsm HP1. set (g := exp a). assert (Hg : 0 < g) by apply exp_pos. assert (HuP : u <= u * P) by (rewrite <- (Rmult_1_r u) at 1; apply Rmult_le_compat_l; lra).
  assert (X1 : Rabs (exp fa - g) <= 23 / 10 * (u * P) * g).
  { unfold g. eapply Rle_trans; [apply (exp_diff _ _ (a + 22 / 1000)); apply le_abs in Ha; lra|]. rewrite exp_plus. assert (Z : exp (22 / 1000) <= 1023 / 1000). { pose proof (exp_ineq1_le (- (22 / 1000))) as I1. rewrite exp_Ropp in I1. pose proof (exp_pos (22 / 1000)) as P0. apply (Rmult_le_reg_r (/ exp (22 / 1000))); [now apply Rinv_0_lt_compat|]. rewrite Rinv_r by lra. lra. }
    pose proof (exp_pos (22 / 1000)). apply Rle_trans with (22 / 10 * (u * P) * (exp a * (1023 / 1000))). { apply Rmult_le_compat; [apply Rabs_pos|apply Rmult_le_pos; fold g; lra|exact Ha|]. apply Rmult_le_compat_l; fold g; lra. }
    fold g. assert (0 <= u * P * g) by (apply Rmult_le_pos; lra). lra. }
  pose proof (a_exp A u eta HA fa) as X2. rewrite <- (Rabs_pos_eq (exp fa)) in X2 at 2 by (apply Rlt_le, exp_pos). pose proof (lib_err _ _ _ _ _ X2 X1 (ltac:(apply abs_le; lra) : Rabs g <= g)) as X3.
  assert (X4 : Rabs (Y * f_exp A fa - Y * g) <= Y * (1001 / 1000 * (23 / 10 * (u * P) * g) + u * g + eta)) by (rewrite <- Rmult_minus_distr_l, Rabs_mult, (Rabs_pos_eq Y) by lra; apply Rmult_le_compat_l; lra).
  assert (HYg : 0 < Y * g) by now apply Rmult_lt_0_compat. pose proof (rd_err _ _ _ _ X4 (ltac:(apply abs_le; lra) : Rabs (Y * g) <= Y * g)) as X5.
  assert (u * (Y * g) <= u * P * (Y * g)) by (apply Rmult_le_compat_r; lra). assert (0 <= Y * eta) by (apply Rmult_le_pos; lra). assert (0 <= u * P * (Y * g)) by (apply Rmult_le_pos; lra). lra.
Qed.

Let P := 1 + t + (Rabs b + Rabs r) * t.
Let W := P + Q + v.
Hypothesis HW : u * W <= / 100.

Let P1 : 1 <= P.
Proof. unfold P. pose proof (Rmult_le_pos (Rabs b + Rabs r) t ltac:(pose proof (Rabs_pos b); pose proof (Rabs_pos r); lra) ltac:(lra)). lra. Qed.
Let Q1 : 1 <= Q.
Proof. destruct Q_ge as (Qa & Qb & Qc). lra. Qed.
Let HuP : u * P <= / 100.
Proof. assert (u * P <= u * W) by (apply Rmult_le_compat_l; unfold W; lra). lra. Qed.
Let UP : u * P = u + u * t + u * ((Rabs b + Rabs r) * t). Proof. unfold P. ring. Qed.
Let UPn : 0 <= u * ((Rabs b + Rabs r) * t) /\ 0 <= u * t.
Proof. split; repeat apply Rmult_le_pos; try lra. pose proof (Rabs_pos b); pose proof (Rabs_pos r); lra. Qed.

Lemma arg1_err : Rabs (rd (rd (b - r) * t) - (b - r) * t) <= 22 / 10 * (u * P).
Proof.
  assert (B : Rabs (b - r) <= Rabs b + Rabs r) by (change (b - r) with (b + - r); eapply Rle_trans; [apply Rabs_triang|]; rewrite Rabs_Ropp; lra).
  pose proof (a_err A u eta HA (b - r)) as X1. assert (X2 : Rabs (rd (b - r) - (b - r)) <= u * (Rabs b + Rabs r) + eta) by (assert (u * Rabs (b - r) <= u * (Rabs b + Rabs r)) by (apply Rmult_le_compat_l; lra); lra).
  assert (X3 : Rabs (rd (b - r) * t - (b - r) * t) <= (u * (Rabs b + Rabs r) + eta) * t) by (rewrite <- Rmult_minus_distr_r, Rabs_mult, (Rabs_pos_eq t) by lra; apply Rmult_le_compat_r; lra).
  assert (X4 : Rabs ((b - r) * t) <= (Rabs b + Rabs r) * t) by (rewrite Rabs_mult, (Rabs_pos_eq t) by lra; apply Rmult_le_compat_r; lra).
  pose proof (rd_err _ _ _ _ X3 X4) as X5. assert (eta * t <= u * t) by (apply Rmult_le_compat_r; lra). lra.
Qed.
Lemma arg2_err : Rabs (rd (- r * t) - - r * t) <= 22 / 10 * (u * P).
Proof.
  pose proof (a_err A u eta HA (- r * t)) as X1. assert (X4 : Rabs (- r * t) <= (Rabs b + Rabs r) * t) by (rewrite Rabs_mult, Rabs_Ropp, (Rabs_pos_eq t) by lra; apply Rmult_le_compat_r; [lra|pose proof (Rabs_pos b); lra]).
  assert (u * Rabs (- r * t) <= u * ((Rabs b + Rabs r) * t)) by (apply Rmult_le_compat_l; lra). lra.
Qed.

Lemma leg_err Y F fF c p : 0 < Y -> 0 < F -> Rabs (fF - F) <= 5 * (u * P) * F + 11 / 10 * (Y * eta) + eta -> Rabs c <= 6 ->
  Rabs (c - p) <= 75 / 10 ^ 9 + 276 * u + 12 * (u * (Q + v)) ->
  Rabs (rd (fF * c) - F * p) <= F * (75 / 10 ^ 9 + 283 * u + 30 * (u * W)) + 67 / 10 * (Y * eta) + 8 * eta /\ Rabs (rd (fF * c)) <= 65 / 10 * F + 7 * (Y * eta) + 8 * eta.
Proof.
  intros HY HF Hd Hc Hp. assert (HuPF : 0 <= u * P * F <= / 100 * F) by (split; [apply Rmult_le_pos; [apply Rmult_le_pos|]; lra|apply Rmult_le_compat_r; lra]).
  assert (HYe : 0 <= Y * eta) by (apply Rmult_le_pos; lra). assert (Bf : Rabs fF <= 105 / 100 * F + 11 / 10 * (Y * eta) + eta). { replace fF with (F + (fF - F)) by ring. eapply Rle_trans; [apply Rabs_triang|]. rewrite (Rabs_pos_eq F) by lra. lra. }
  pose proof (mul_abs _ _ _ _ Bf Hc) as Bfc. pose proof (a_err A u eta HA (fF * c)) as R1.
  assert (U1 : u * Rabs (fF * c) <= 63 / 10 * (u * F) + / 1000 * (66 / 10 * (Y * eta) + 6 * eta)). { apply Rle_trans with (u * ((105 / 100 * F + 11 / 10 * (Y * eta) + eta) * 6)); [apply Rmult_le_compat_l; lra|]. assert (u * (66 / 10 * (Y * eta) + 6 * eta) <= / 1000 * (66 / 10 * (Y * eta) + 6 * eta)) by (apply Rmult_le_compat_r; lra). lra. }
  assert (D1 : Rabs (fF * c - F * p) <= (5 * (u * P) * F + 11 / 10 * (Y * eta) + eta) * 6 + F * (75 / 10 ^ 9 + 276 * u + 12 * (u * (Q + v)))).
  { replace (fF * c - F * p) with ((fF - F) * c + F * (c - p)) by ring. apply add_abs; [now apply mul_abs|]. apply mul_abs; [apply abs_le; lra|exact Hp]. }
  assert (UWs : F * (u * W) = F * (u * P) + F * (u * (Q + v))) by (unfold W; ring). assert (0 <= F * (u * (Q + v))) by (apply Rmult_le_pos; [lra|apply Rmult_le_pos; lra]). assert (0 <= u * F <= / 1000 * F) by (split; [apply Rmult_le_pos|apply Rmult_le_compat_r]; lra).
  split.
  - replace (rd (fF * c) - F * p) with ((rd (fF * c) - fF * c) + (fF * c - F * p)) by ring. eapply Rle_trans; [apply Rabs_triang|]. lra.
  - replace (rd (fF * c)) with (fF * c + (rd (fF * c) - fF * c)) by ring. eapply Rle_trans; [apply Rabs_triang|]. lra.
Qed.

Let F := S * exp ((b - r) * t).
Let X := K * exp (- r * t).
Let HF : 0 < F. Proof. apply Rmult_lt_0_compat; [assumption|apply exp_pos]. Qed.
Let HX : 0 < X. Proof. apply Rmult_lt_0_compat; [assumption|apply exp_pos]. Qed.

Lemma two_legs p1 p2 l1 l2 : Rabs (l1 - p1) <= F * (75 / 10 ^ 9 + 283 * u + 30 * (u * W)) + 67 / 10 * (S * eta) + 8 * eta -> Rabs l1 <= 65 / 10 * F + 7 * (S * eta) + 8 * eta ->
  Rabs (l2 - p2) <= X * (75 / 10 ^ 9 + 283 * u + 30 * (u * W)) + 67 / 10 * (K * eta) + 8 * eta -> Rabs l2 <= 65 / 10 * X + 7 * (K * eta) + 8 * eta ->
  Rabs (rd (l1 - l2) - (p1 - p2)) <= (F + X) * (75 / 10 ^ 9 + 180 * (u * W)) + 7 * ((S + K + 3) * eta).
Proof.
  intros A1 B1 A2 B2. pose proof (a_err A u eta HA (l1 - l2)) as R1. pose proof (sub_err _ _ _ _ _ _ A1 A2) as D. assert (Bl : Rabs (l1 - l2) <= (65 / 10 * F + 7 * (S * eta) + 8 * eta) + (65 / 10 * X + 7 * (K * eta) + 8 * eta)) by (change (l1 - l2) with (l1 + - l2); apply add_abs; [assumption|now rewrite Rabs_Ropp]).
  assert (HSe : 0 <= S * eta) by (apply Rmult_le_pos; lra). assert (HKe : 0 <= K * eta) by (apply Rmult_le_pos; lra).
  assert (U1 : u * Rabs (l1 - l2) <= 65 / 10 * (u * (F + X)) + / 1000 * (7 * (S * eta) + 7 * (K * eta) + 16 * eta)). { apply Rle_trans with (u * ((65 / 10 * F + 7 * (S * eta) + 8 * eta) + (65 / 10 * X + 7 * (K * eta) + 8 * eta))); [apply Rmult_le_compat_l; lra|]. assert (u * (7 * (S * eta) + 7 * (K * eta) + 16 * eta) <= / 1000 * (7 * (S * eta) + 7 * (K * eta) + 16 * eta)) by (apply Rmult_le_compat_r; lra). lra. }
  assert (W2 : 2 * u <= u * W) by (rewrite (Rmult_comm 2); apply Rmult_le_compat_l; unfold W; lra). assert (W3 : (F + X) * (2 * u) <= (F + X) * (u * W)) by (apply Rmult_le_compat_l; lra). assert (0 <= (F + X) * u) by (apply Rmult_le_pos; lra).
  replace (rd (l1 - l2) - (p1 - p2)) with ((rd (l1 - l2) - (l1 - l2)) + (l1 - l2 - (p1 - p2))) by ring. eapply Rle_trans; [apply Rabs_triang|]. lra.
Qed.

Lemma dist_err c fd d : Rabs (fd - d) <= 12 * (u * (Q + v)) -> c = @cnd R (FNum A) fd -> Rabs c <= 6 /\ Rabs (c - Phi d) <= 75 / 10 ^ 9 + 276 * u + 12 * (u * (Q + v)).
Proof.
  intros H ->. split; [apply (cnd_bound_f A u eta HA)|]. pose proof (cnd_float_Phi A u eta HA E1 fd d). lra.
Qed.
Lemma d1_le : Rabs (rd (fnum / fv) - d1) <= 12 * (u * (Q + v)).
Proof. pose proof fd1_err. assert (0 <= u * Q) by (apply Rmult_le_pos; lra). assert (0 <= u * v) by (apply Rmult_le_pos; lra). lra. Qed.
Lemma opp_err x y e : Rabs (x - y) <= e -> Rabs (- x - - y) <= e.
Proof. intro. replace (- x - - y) with (- (x - y)) by ring. now rewrite Rabs_Ropp. Qed.

Lemma price_err : let o := @GBSOption R (FNum A) S K t r b (Some sigma) in exists c p, @gbs_call R (FNum A) o = Ok c /\ @gbs_put R (FNum A) o = Ok p /\
  Rabs (c - (F * Phi d1 - X * Phi d2)) <= (F + X) * (75 / 10 ^ 9 + 180 * (u * W)) + 7 * ((S + K + 3) * eta) /\
  Rabs (p - (X * Phi (- d2) - F * Phi (- d1))) <= (F + X) * (75 / 10 ^ 9 + 180 * (u * W)) + 7 * ((S + K + 3) * eta).
Proof.
  intro o. do 2 eexists. split; [reflexivity|]. split; [reflexivity|].
  pose proof (disc_err S ((b - r) * t) _ P HS ltac:(lra) arg1_err HuP P1) as DF. pose proof (disc_err K (- r * t) _ P HK ltac:(lra) arg2_err HuP P1) as DX. fold F in DF. fold X in DX.
  unfold with_d. cbn [expn FNum mul sub opp g_S g_K g_t g_b g_r lit]. unfold gbs_d2, gbs_d1. cbn [logn div add mul sub sqrn FNum lit]. replace (Q2R 2) with 2 by (unfold Q2R; cbn; lra). rewrite (a_2 A u eta HA). fold fv fnum.
  split.
  - destruct (dist_err _ _ _ d1_le eq_refl) as [C1 Z1]. destruct (dist_err _ _ _ fd2_err eq_refl) as [C2 Z2]. destruct (leg_err S F _ _ _ HS HF DF C1 Z1). destruct (leg_err K X _ _ _ HK HX DX C2 Z2). now apply two_legs.
  - destruct (dist_err _ _ _ (opp_err _ _ _ d1_le) eq_refl) as [C1 Z1]. destruct (dist_err _ _ _ (opp_err _ _ _ fd2_err) eq_refl) as [C2 Z2]. destruct (leg_err S F _ _ _ HS HF DF C1 Z1). destruct (leg_err K X _ _ _ HK HX DX C2 Z2).
    match goal with |- Rabs (rd (?l2 - ?l1) - (?p2 - ?p1)) <= _ => replace (rd (l2 - l1) - (p2 - p1)) with (- (rd (l1 - l2) - (p1 - p2))) by (replace (l2 - l1) with (- (l1 - l2)) by ring; rewrite (a_opp A u eta HA); ring) end. rewrite Rabs_Ropp. now apply two_legs.
Qed.
End Price.
End Acc.

(*@ C70_distribution | The distribution function as computed in floating-point arithmetic is within 7.5e-8 + 276 u of the Gaussian distribution function at every number. *)
Lemma c70_distribution : forall A u eta, accurate_fp A u eta -> eta <= u -> forall x, Rabs (@cnd R (FNum A) x - Phi x) <= 75 / 10 ^ 9 + 276 * u.
Proof. intros A u eta HA He x. pose proof (cnd_float_Phi A u eta HA He x x) as H. rewrite (Rminus_eq_0 x), Rabs_R0, Rplus_0_r in H. exact H. Qed.

(*@ C70_price | The call and put prices computed by GBSOption in floating-point arithmetic are within (F + X) (7.5e-8 + 180 u W) of the exact Black-Scholes values, up to an underflow term; F and X are the discounted forward and strike and W measures how extreme the inputs are. *)
Lemma c70_price : forall A u eta, accurate_fp A u eta -> forall S K t r b sigma, 0 < S -> 0 < K -> 0 < t -> 0 < sigma ->
  let v := sigma * sqrt t in eta <= u -> eta <= u * (S / K) -> eta <= u * sqrt t -> eta <= u * v ->
  let W := 2 + 2 * t + (Rabs b + Rabs r) * t + v + (1 + Rabs (ln (S / K)) + (Rabs b + sigma ^ 2) * t) / v in u * W <= / 100 ->
  let d1 := (ln (S / K) + (b + sigma ^ 2 / 2) * t) / v in let d2 := d1 - v in let F := S * exp ((b - r) * t) in let X := K * exp (- r * t) in
  exists c p, @gbs_call R (FNum A) (@GBSOption R (FNum A) S K t r b (Some sigma)) = Ok c /\ @gbs_put R (FNum A) (@GBSOption R (FNum A) S K t r b (Some sigma)) = Ok p /\
    Rabs (c - (F * Phi d1 - X * Phi d2)) <= (F + X) * (75 / 10 ^ 9 + 180 * u * W) + 7 * (S + K + 3) * eta /\
    Rabs (p - (X * Phi (- d2) - F * Phi (- d1))) <= (F + X) * (75 / 10 ^ 9 + 180 * u * W) + 7 * (S + K + 3) * eta.
Proof.
  intros A u eta HA S K t r b s HS HK Ht Hs v E1 E2 E3 E4 W HW d1 d2 F X.
  assert (EW : W = (1 + t + (Rabs b + Rabs r) * t) + (1 + t + (1 + (Rabs (ln (S / K)) + (Rabs b + s ^ 2) * t)) / (s * sqrt t)) + s * sqrt t) by (unfold W, v; rewrite (Rplus_assoc 1 (Rabs (ln _))); ring).
  destruct (price_err A u eta HA S K t r b s HS HK Ht Hs E1 E2 E3 E4) as (c & p & Ec & Ep & Hc & Hp); [rewrite <- EW; exact HW|]. rewrite <- EW in Hc, Hp. exists c, p. split; [exact Ec|]. split; [exact Ep|].
  unfold d2, d1, v. replace (s ^ 2 / 2) with (s * s / 2) by field. rewrite !Rmult_assoc. split; assumption.
Qed.
