(** Walks with small steps of any total variance, tilted walks, and binomial steps as tilted walks. *)
From Coq Require Import Reals Arith Lra Lia.
From Coquelicot Require Import Coquelicot.
From Verif Require Import Num Py SMonte PCnd PGauss SHeston PHeston PHeston2 PExpect PExpect2 PTrees3 PSpread3 PClt PAmer1.
Open Scope R_scope.

Lemma ch_pow_le' q a n B0 : INR n * a ^ 2 <= B0 ^ 2 -> ch (q * a) ^ n <= exp (q ^ 2 * B0 ^ 2 / 2).
Proof.
  intro H. apply Rle_trans with (exp ((q * a) ^ 2 / 2) ^ n).
  - apply pow_incr. split; [pose proof (ch_ge_1 (q * a)); lra|]. apply cosh_le.
  - rewrite exp_pow. apply exp_le. replace (INR n * ((q * a) ^ 2 / 2)) with (q ^ 2 * (INR n * a ^ 2) / 2) by field. pose proof (pow2_ge_0 q). nra.
Qed.

Theorem clt_gen q B0 : 0 <= q -> 0 <= B0 -> forall eps, 0 < eps -> exists d, 0 < d /\ forall n a, 0 <= a <= d -> INR n * a ^ 2 <= B0 ^ 2 -> forall c h, 0 <= c -> lip c q h ->
  Rabs (rw n a h 0 - Gs (sqrt (INR n * a ^ 2)) h 0) <= eps * c.
Proof.
  intros Hq HB00 eps He. set (B := sqrt (B0 ^ 2 + 1)). assert (HB0 : 0 <= B) by apply sqrt_pos. pose proof (pow2_ge_0 B0) as HB02. assert (HB2 : B ^ 2 = B0 ^ 2 + 1) by (unfold B; rewrite pow2_sqrt; lra).
  assert (HqB : 0 <= q * B) by nra.
  destruct (mean_kern (q * B) HqB) as (M & HM0 & HM). destruct (mean_wt (q * B + 1) ltac:(lra)) as (M1 & HM10 & HM1).
  set (X := exp (q ^ 2 * B0 ^ 2 / 2)). assert (HX : 1 <= X) by (unfold X; rewrite <- exp_0; apply exp_le; pose proof (pow2_ge_0 q); nra).
  set (C1 := 4 * M1 * X + 2 * M1 + 1). assert (HC1 : 0 < C1) by (unfold C1; assert (0 <= M1 * X) by nra; lra).
  set (o := Rmin 1 (eps / 2 / C1)). assert (Ho : 0 < o) by (apply Rmin_glb_lt; [lra|apply Rdiv_lt_0_compat; lra]).
  assert (Ho1 : o <= 1) by apply Rmin_l. assert (HoC : o * C1 <= eps / 2).
  { apply Rle_trans with (eps / 2 / C1 * C1); [apply Rmult_le_compat_r; [lra|apply Rmin_r]|]. right. field. lra. }
  assert (Ho2 : 0 < o ^ 2) by nra. assert (Ho21 : o ^ 2 <= 1) by nra.
  set (C2 := 12 * M * X * B0 ^ 2 / (o ^ 2) ^ 2). assert (HC2 : 0 <= C2).
  { unfold C2. apply Rmult_le_pos; [|apply Rlt_le, Rinv_0_lt_compat; nra]. assert (0 <= M * X) by nra. assert (0 <= M * X * B0 ^ 2) by nra. lra. }
  set (d := Rmin (o / 2) (eps / 2 / (C2 + 1))). assert (Hd : 0 < d) by (apply Rmin_glb_lt; [lra|apply Rdiv_lt_0_compat; lra]).
  assert (Hdo : d <= o / 2) by apply Rmin_l. assert (HdC : d * C2 <= eps / 2).
  { apply Rle_trans with (eps / 2 / (C2 + 1) * (C2 + 1)); [|right; field; lra]. apply Rmult_le_compat; [lra|exact HC2|apply Rmin_r|lra]. }
  exists d. split; [exact Hd|]. intros n a [Ha Had] Hna c h Hc Hh. pose proof (pos_INR n) as Hn. pose proof (pow2_ge_0 a) as Ha2. set (t := INR n * a ^ 2) in *. assert (Ht : 0 <= t) by (unfold t; nra).
  assert (Hao : a ^ 2 <= o ^ 2 / 2) by nra.
  assert (HX' : ch (q * a) ^ n * vq q 0 <= 2 * X).
  { unfold vq. rewrite !Rmult_0_r, exp_0. pose proof (ch_pow_le' q a n B0 Hna) as L. fold X in L. lra. }
  assert (T := telescope c q h o a B M n Hc Hq Ho Ha Hao ltac:(fold t; rewrite HB2; lra) HB0 Hh HM0 HM 0). fold t in T.
  assert (HoB : o <= B) by (apply Rsqr_incr_0_var; [rewrite !Rsqr_pow2, HB2; lra|exact HB0]).
  assert (S1 : Rabs (rw n a h 0 - rw n a (Gs o h) 0) <= c * o * (2 * M1) * (2 * X)).
  { replace (rw n a h 0 - rw n a (Gs o h) 0) with (1 * rw n a h 0 + -1 * rw n a (Gs o h) 0) by ring. rewrite <- rw_lin.
    eapply Rle_trans; [apply (rw_abs n a _ (fun w => c * o * (2 * M1) * exp (q * Rabs w) + 0 * exp (q * Rabs w)))|].
    - intro w. pose proof (Gs_lip_sd c q h 0 o w B M1 Hc Hq ltac:(lra) ltac:(lra) Hh HM1) as L. rewrite Gs_0 in L. replace (Rabs (0 - o)) with o in L by (rewrite Rabs_left1 by lra; ring).
      replace (1 * h w + -1 * Gs o h w) with (h w - Gs o h w) by ring. lra.
    - rewrite rw_lin. rewrite Rmult_0_l, Rplus_0_r. apply Rmult_le_compat_l; [assert (0 <= c * o) by nra; nra|]. eapply Rle_trans; [apply rw_weight; exact Hq|exact HX']. }
  assert (S2 : Rabs (Gs (sqrt (o ^ 2 + t)) h 0 - Gs (sqrt t) h 0) <= c * o * (2 * M1)).
  { assert (L := Gs_lip_sd c q h (sqrt (o ^ 2 + t)) (sqrt t) 0 B M1 Hc Hq). eapply Rle_trans; [apply L; [| |exact Hh|exact HM1]|].
    - split; [apply sqrt_pos|]. apply sqrt_le_1_alt. lra.
    - split; [apply sqrt_pos|]. apply sqrt_le_1_alt. lra.
    - rewrite Rabs_R0, Rmult_0_r, exp_0, Rmult_1_r. apply Rmult_le_compat_r; [lra|]. apply Rmult_le_compat_l; [exact Hc|]. apply sqrt_diff; lra. }
  assert (S3 : INR n * (c * (6 * (a ^ 2 / o ^ 2) ^ 2) * M) * (ch (q * a) ^ n * vq q 0) <= c * (eps / 2)).
  { assert (F : INR n * (a ^ 2 / o ^ 2) ^ 2 = t * a ^ 2 / (o ^ 2) ^ 2) by (unfold t; field; lra).
    apply Rle_trans with (INR n * (c * (6 * (a ^ 2 / o ^ 2) ^ 2) * M) * (2 * X)).
    - apply Rmult_le_compat_l; [|exact HX']. pose proof (pow2_ge_0 (a ^ 2 / o ^ 2)). apply Rmult_le_pos; [lra|]. apply Rmult_le_pos; [nra|exact HM0].
    - replace (INR n * (c * (6 * (a ^ 2 / o ^ 2) ^ 2) * M) * (2 * X)) with (c * (12 * M * X * (INR n * (a ^ 2 / o ^ 2) ^ 2))) by ring. rewrite F. apply Rmult_le_compat_l; [exact Hc|].
      apply Rle_trans with (d * C2); [|exact HdC]. replace (d * C2) with (12 * M * X * (B0 ^ 2 * d / (o ^ 2) ^ 2)) by (unfold C2; field; lra).
      apply Rmult_le_compat_l; [assert (0 <= M * X) by nra; lra|]. apply Rmult_le_compat_r; [apply Rlt_le, Rinv_0_lt_compat; nra|]. assert (a ^ 2 <= d) by nra. nra. }
  assert (S4 : c * o * (2 * M1) * (2 * X) + c * o * (2 * M1) <= c * (eps / 2)).
  { replace (c * o * (2 * M1) * (2 * X) + c * o * (2 * M1)) with (c * (o * (4 * M1 * X + 2 * M1))) by ring. apply Rmult_le_compat_l; [exact Hc|]. unfold C1 in HoC. lra. }
  apply Rabs_le_between in S1, S2, T. apply Rabs_le. split; lra.
Qed.
