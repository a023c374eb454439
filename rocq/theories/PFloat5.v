(** Weights of CRR and trinomial trees computed in floating-point arithmetic are valid for ordinary inputs (C68). *)
From Coq Require Import Reals QArith Qreals ZArith String List Arith Lra Lia Psatz.
From Verif Require Import Num Py MTrees STrees MFloat SFloat PFloat PFloat2.
Open Scope R_scope.

Section W.
Variables (A : fp) (u eta : R).
Hypothesis HM : monotone_fp A.
Hypothesis HA : accurate_fp A u eta.
Hypothesis Heu : eta <= u * u.
Notation rd := (rnd A).
Let Hu : 0 <= u <= / 1000 := u_range A u eta HA.
Let He : 0 <= eta <= / 1000 := eta_range A u eta HA.
Let Hue : eta <= u. Proof. nra. Qed.

Lemma exp_third x : -1 <= x -> / 3 <= exp x.
Proof.
  intro H. apply Rle_trans with (exp (-1)); [|destruct H as [H| <-]; [now apply Rlt_le, exp_increasing|apply Rle_refl]]. replace (-1) with (- (1)) by ring. rewrite exp_Ropp. apply Rinv_le_contravar; [apply exp_pos|exact exp_le_3].
Qed.
(** relative error of the computed exponential of a number above -1 *)
Lemma fexp_rel x : -1 <= x -> exp x * (1 - 2 * u) <= f_exp A x <= exp x * (1 + 2 * u).
Proof.
  intro H. pose proof (exp_third x H). pose proof (le_abs _ _ (a_exp A u eta HA x)) as E. assert (eta <= u * exp x) by (apply Rle_trans with (u * u); [exact Heu|apply Rmult_le_compat_l; lra]). lra.
Qed.

Lemma crr_accurate t b s n : let dt := rd (t / rd (INR n)) in let h := rd (s * f_sqrt A dt) in
  100 * u <= h <= 1 -> 0 < h -> Rabs (rd (b * dt)) <= h / 2 -> float_weights A (Bi CRR) t b s n.
Proof.
  intros dt h Hh Hp Ha. apply le_abs in Ha. set (a := rd (b * dt)) in *. pose proof (fexp_rel h ltac:(lra)) as E1. pose proof (fexp_rel a ltac:(lra)) as E2. pose proof (exp_ineq1_le h) as I1.
  apply (crr_weights A HM); fold dt; fold h; fold a.
  - lra.
  - assert (0 <= u * (exp h - 1 - h)) by (apply Rmult_le_pos; lra). assert ((1 + h) * (1 - 2 * u) <= exp h * (1 - 2 * u)) by (apply Rmult_le_compat_r; lra). assert (u * h <= u) by nra. nra.
  - assert (I2 : 1 + h / 2 <= exp a * exp h). { rewrite <- exp_plus. pose proof (exp_ineq1_le (a + h)). lra. } pose proof (exp_pos a). pose proof (exp_pos h).
    apply Rle_trans with ((exp a * (1 - 2 * u)) * (exp h * (1 - 2 * u))); [|apply Rmult_le_compat; try apply Rmult_le_pos; lra].
    replace ((exp a * (1 - 2 * u)) * (exp h * (1 - 2 * u))) with (exp a * exp h * ((1 - 2 * u) * (1 - 2 * u))) by ring. apply Rle_trans with ((1 + h / 2) * ((1 - 2 * u) * (1 - 2 * u))); [|apply Rmult_le_compat_r; [nra|exact I2]]. nra.
Qed.

(** one weight of the trinomial step before squaring *)
Lemma ratio_accurate h N D z : 0 < h -> 100 * u <= h -> 15 / 100 * h <= N -> N <= D -> z = N / D -> 36 / 1000 <= z <= 1 ->
  let q := rd (rd N / rd D) in 0 <= q <= z * (1 + 35 / 10 * u) /\ f_powi A q 2 <= z * z + 10 * u /\ 0 <= f_powi A q 2.
Proof.
  intros Hh Hhu HN HND Hz Hzr q. assert (HD : 0 < D) by lra. assert (Ee : eta <= 7 / 100 * (u * N)) by nra.
  pose proof (le_abs _ _ (a_err A u eta HA N)) as E1. rewrite (Rabs_pos_eq N) in E1 by lra. pose proof (le_abs _ _ (a_err A u eta HA D)) as E2. rewrite (Rabs_pos_eq D) in E2 by lra.
  assert (UND : u * N <= u * D) by (apply Rmult_le_compat_l; lra). set (fN := rd N) in *. set (fD := rd D) in *.
  assert (F1 : 0 <= fN <= N * (1 + 11 / 10 * u)) by (split; [apply (rd_pos A HM); lra|lra]). assert (F2 : D * (1 - 11 / 10 * u) <= fD) by lra. assert (F2' : 0 < D * (1 - 11 / 10 * u)) by (apply Rmult_lt_0_compat; lra).
  assert (EN : N = z * D) by (rewrite Hz; field; lra).
  assert (Q1 : 0 <= fN / fD <= z * (1 + 23 / 10 * u)).
  { split; [unfold Rdiv; apply Rmult_le_pos; [lra|apply Rlt_le, Rinv_0_lt_compat; lra]|]. apply (Rmult_le_reg_r fD); [lra|]. replace (fN / fD * fD) with fN by (field; lra). eapply Rle_trans; [apply F1|]. rewrite EN.
    apply Rle_trans with (z * (1 + 23 / 10 * u) * (D * (1 - 11 / 10 * u))); [|apply Rmult_le_compat_l; [apply Rmult_le_pos; lra|lra]]. replace (z * D * (1 + 11 / 10 * u)) with (z * D * (1 + 11 / 10 * u)) by ring. replace (z * (1 + 23 / 10 * u) * (D * (1 - 11 / 10 * u))) with (z * D * ((1 + 23 / 10 * u) * (1 - 11 / 10 * u))) by ring. apply Rmult_le_compat_l; [apply Rmult_le_pos; lra|]. nra. }
  pose proof (le_abs _ _ (a_err A u eta HA (fN / fD))) as E3. rewrite (Rabs_pos_eq (fN / fD)) in E3 by lra. fold q in E3.
  assert (Uz : u * u <= 28 / 1000 * (u * z)) by nra. assert (UQ : u * (fN / fD) <= u * (z * (1 + 23 / 10 * u))) by (apply Rmult_le_compat_l; lra). assert (UUz : 0 <= u * (u * z) <= / 1000 * (u * z)) by (split; [repeat apply Rmult_le_pos; lra|apply Rmult_le_compat_r; [apply Rmult_le_pos; lra|lra]]).
  assert (Q2 : 0 <= q <= z * (1 + 35 / 10 * u)). { split; [apply (rd_pos A HM); lra|]. replace (u * (z * (1 + 23 / 10 * u))) with (u * z + 23 / 10 * (u * (u * z))) in UQ by ring. replace (z * (1 + 23 / 10 * u)) with (z + 23 / 10 * (u * z)) in Q1 by ring. replace (z * (1 + 35 / 10 * u)) with (z + 35 / 10 * (u * z)) by ring. lra. }
  split; [exact Q2|]. split; [|apply (pw_pos A HM); lra].
  pose proof (le_abs _ _ (a_powi A u eta HA q 2)) as E4. replace (q ^ 2) with (q * q) in E4 by ring. rewrite (Rabs_pos_eq (q * q)) in E4 by nra.
  assert (Q3 : q * q <= z * z * (1 + 71 / 10 * u)). { apply Rle_trans with (z * (1 + 35 / 10 * u) * (z * (1 + 35 / 10 * u))); [apply Rmult_le_compat; lra|]. replace (z * (1 + 35 / 10 * u) * (z * (1 + 35 / 10 * u))) with (z * z * ((1 + 35 / 10 * u) * (1 + 35 / 10 * u))) by ring. apply Rmult_le_compat_l; nra. }
  assert (Z1 : 0 <= z * z <= 1) by nra. assert (Z2 : u * (z * z) <= u * 1) by (apply Rmult_le_compat_l; lra). assert (Z3 : z * z * (1 + 71 / 10 * u) <= 1 * (1 + 71 / 10 * u)) by (apply Rmult_le_compat_r; lra). assert (U2 : u * (q * q) <= u * (11 / 10)) by (apply Rmult_le_compat_l; lra). assert (U3 : u * u <= / 1000 * u) by (apply Rmult_le_compat_r; lra). replace (z * z * (1 + 71 / 10 * u)) with (z * z + 71 / 10 * (u * (z * z))) in Q3 by ring. lra.
Qed.

Lemma tri_accurate t b s n : let dt := rd (t / rd (INR n)) in let h := rd (s * f_sqrt A (rd (dt / 2))) in
  100 * u <= h <= 1 -> 0 < h -> Rabs (rd (rd (b * dt) / 2)) <= h / 2 -> float_weights A Tri t b s n.
Proof.
  intros dt h Hh Hp Ha. cbn [float_weights]. rewrite <- INR_IZR_INZ. fold dt. rewrite (rd_2 A HM), (rd_1 A HM). rewrite Ropp_mult_distr_l_reverse, (rd_opp A HM). fold h. apply le_abs in Ha. set (a := rd (rd (b * dt) / 2)) in *.
  pose proof (fexp_rel h ltac:(lra)) as E1. pose proof (fexp_rel a ltac:(lra)) as E2. pose proof (fexp_rel (- h) ltac:(lra)) as E3.
  set (x := f_exp A h) in *. set (m := f_exp A a) in *. set (y := f_exp A (- h)) in *.
  assert (G : forall p q, -1 <= p -> p + h / 2 <= q -> 15 / 100 * h <= exp q * (1 - 2 * u) - exp p * (1 + 2 * u)).
  { intros p q Hpq H. pose proof (exp_third p Hpq) as T. assert (I : exp p * (1 + h / 2) <= exp q). { replace q with (p + (q - p)) by ring. rewrite exp_plus. apply Rmult_le_compat_l; [lra|]. pose proof (exp_ineq1_le (q - p)). lra. }
    apply Rle_trans with (exp p * (1 + h / 2) * (1 - 2 * u) - exp p * (1 + 2 * u)); [|apply Rplus_le_compat_r, Rmult_le_compat_r; lra]. replace (exp p * (1 + h / 2) * (1 - 2 * u) - exp p * (1 + 2 * u)) with (exp p * (h / 2 - 4 * u - h * u)) by field.
    assert (45 / 100 * h <= h / 2 - 4 * u - h * u) by nra. apply Rle_trans with (/ 3 * (45 / 100 * h)); [lra|]. apply Rmult_le_compat; lra. }
  assert (N1 : 15 / 100 * h <= m - y) by (specialize (G (- h) a ltac:(lra) ltac:(lra)); lra). assert (N2 : 15 / 100 * h <= x - m) by (specialize (G a h ltac:(lra) ltac:(lra)); lra).
  assert (D1 : x - y <= 41 / 10 * h).
  { assert (X1 : exp h <= 3) by (apply Rle_trans with (2 := exp_le_3); destruct (proj2 Hh) as [H| ->]; [now apply Rlt_le, exp_increasing|apply Rle_refl]).
    assert (X2 : exp h * exp (- h) = 1) by (rewrite <- exp_plus; replace (h + - h) with 0 by ring; apply exp_0). pose proof (exp_ineq1_le (- h)) as X3. pose proof (exp_pos h). pose proof (exp_ineq1_le h) as X5. assert (X4 : exp h - 1 <= 3 * h) by nra. assert (X6 : exp (- h) <= 1) by nra. assert (u * exp h <= 3 * u) by nra. assert (u * exp (- h) <= u) by nra. lra. }
  assert (HD : 0 < x - y) by lra. set (z := (m - y) / (x - y)). assert (Z : 36 / 1000 <= z) by (apply (Rmult_le_reg_r (x - y)); [exact HD|]; unfold z; replace ((m - y) / (x - y) * (x - y)) with (m - y) by (field; lra); lra).
  assert (Z' : 36 / 1000 <= 1 - z) by (apply (Rmult_le_reg_r (x - y)); [exact HD|]; unfold z; replace ((1 - (m - y) / (x - y)) * (x - y)) with (x - m) by (field; lra); lra).
  destruct (ratio_accurate h (m - y) (x - y) z Hp ltac:(lra) N1 ltac:(lra) eq_refl ltac:(lra)) as (_ & P1 & P2). destruct (ratio_accurate h (x - m) (x - y) (1 - z) Hp ltac:(lra) N2 ltac:(lra) ltac:(unfold z; field; lra) ltac:(lra)) as (_ & P3 & P4).
  set (pu := f_powi A (rd (rd (m - y) / rd (x - y))) 2) in *. set (pd := f_powi A (rd (rd (x - m) / rd (x - y))) 2) in *.
  split; [apply (rd_diff A HM); [apply (ex_float A HM)|apply (ex_float A HM)|lra]|]. split; [exact P2|]. split; [|exact P4]. apply (rd_pos A HM).
  assert (Z2 : z * z + (1 - z) * (1 - z) <= 1 - 69 / 1000) by nra. pose proof (rd_ge A u eta HA (1 - pu) (1 - pu) ltac:(nra)). nra.
Qed.
End W.

(*@ C68_weights_ordinary | In an arithmetic that is also accurate, the computed weights of CRR and trinomial trees are valid when the computed volatility per step is between 100 u and 1 and the computed drift per step is at most half of it in size. *)
Lemma c68_weights_ordinary : forall A u eta, monotone_fp A -> accurate_fp A u eta -> eta <= u * u -> forall t b sigma n,
  let dt := rnd A (t / rnd A (INR n)) in
  (let h := rnd A (sigma * f_sqrt A dt) in 0 < h -> 100 * u <= h <= 1 -> Rabs (rnd A (b * dt)) <= h / 2 -> float_weights A (Bi CRR) t b sigma n) /\
  (let h := rnd A (sigma * f_sqrt A (rnd A (dt / 2))) in 0 < h -> 100 * u <= h <= 1 -> Rabs (rnd A (rnd A (b * dt) / 2)) <= h / 2 -> float_weights A Tri t b sigma n).
Proof.
  intros A u eta HM HA He t b s n dt. split; intros h H1 H2 H3; [now apply (crr_accurate A u eta HM HA He)|now apply (tri_accurate A u eta HM HA He)].
Qed.
