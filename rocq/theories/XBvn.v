(** A concrete Roll-Geske-Whaley option meeting the hypotheses of C73_rgw_value. *)
From Coq Require Import Reals QArith Qreals ZArith Bool List Lra Lia Psatz.
From Coquelicot Require Import Coquelicot.
From Interval Require Import Tactic.
From Verif Require Import Num Py MBase MVanilla MAmerican PCnd PCnd2 PCndAcc PGauss PBlack PGbs PHeston PMonte4 PExpect SHeston SAmerican SAmerican2 PRgw PRgw2 PCbnd PBvn PBvn2 PBvn3 PBvn4.
Open Scope R_scope.

Definition tau0 : R := 1 / 3 - 1 / 4.
Definition D0 : R := black_call 100 100 tau0 (6 / 100) (30 / 100).
Definition S0 : R := 90 + D0 * exp (- (6 / 100) * (1 / 4)).
Lemma D0_range : 3 <= D0 <= 100.
Proof.
  unfold D0, black_call. cbv zeta. replace (100 / 100) with 1 by field. rewrite ln_1.
  set (d1 := (0 + _) / _). set (d2 := d1 - _). set (e := exp _).
  assert (E1 : 1 / 10 <= d1 <= 11 / 100) by (unfold d1, tau0; interval). assert (E2 : 1 / 100 <= d2 <= 2 / 100) by (unfold d2, d1, tau0; interval).
  assert (E3 : 99 / 100 <= e <= 1) by (unfold e, tau0; interval).
  destruct (MVT_gen Phi d2 d1 npdf) as (c & Hc & E); [intros; apply Phi_derive|intros y _; apply continuity_pt_filterlim; apply (ex_derive_continuous Phi); eexists; apply Phi_derive|].
  rewrite Rmin_left, Rmax_right in Hc by lra. assert (Hc' : 0 <= c <= 11 / 100) by lra.
  assert (N : 39 / 100 <= npdf c) by (unfold npdf; interval with (i_bisect c)).
  assert (P2 := Phi_gt_0 d2). assert (P1 := Phi_lt_1 d1). assert (Phi d1 - Phi d2 >= 39 / 100 * (8 / 100)) by (rewrite E; assert (39 / 100 * (8 / 100) <= npdf c * (d1 - d2)) by (apply Rmult_le_compat; lra); lra).
  assert (e * Phi d2 <= Phi d2) by (rewrite <- (Rmult_1_l (Phi d2)) at 2; apply Rmult_le_compat_r; lra). assert (0 <= e * Phi d2) by (apply Rmult_le_pos; lra).
  replace (100 * e * Phi d2) with (100 * (e * Phi d2)) by ring. lra.
Qed.
Lemma x0_eq : S0 - D0 * exp (- (6 / 100) * (1 / 4)) = 90. Proof. unfold S0. ring. Qed.
Lemma S0_range : 0 < S0 <= 10 ^ 8.
Proof. unfold S0. pose proof D0_range. assert (0 < exp (- (6 / 100) * (1 / 4)) <= 1) by (split; [apply exp_pos|interval]). nra. Qed.
Lemma optimal0 : rgw_is_call_optimal (mkRgw S0 100 (1 / 3) (1 / 4) (6 / 100) D0 (Some (30 / 100))) = true.
Proof.
  unfold rgw_is_call_optimal, rgw_never. cbn [w_D w_K w_r w_t w_td]. toR. rewrite (proj2 (Rleb_false _ _)); [reflexivity|].
  pose proof D0_range. apply Rlt_le_trans with 3; [interval|lra].
Qed.
Lemma cap0 x d : 10 ^ 8 / 2 < x <= 10 ^ 8 -> holding_gain 100 (1 / 3) (1 / 4) (6 / 100) D0 (30 / 100) x d -> d <= 0.
Proof.
  intros Hx (c & Hc & ->). change (gbs_c x 100 (1 / 3 - 1 / 4) (6 / 100) (6 / 100) (Some (30 / 100)) = Ok c) in Hc. rewrite gap_call in Hc by lra. injection Hc as <-.
  fold tau0. unfold bcall. set (B := 100 * exp (- (6 / 100) * tau0)). set (v := 30 / 100 * sqrt tau0).
  assert (B1 : 99 <= B <= 100) by (unfold B, tau0; interval). assert (V1 : 8 / 100 <= v <= 9 / 100) by (unfold v, tau0; interval).
  assert (L : 10 <= ln (x / B)).
  { rewrite <- (ln_exp 10). apply Rcomplements.ln_le; [apply exp_pos|]. apply Rle_trans with (10 ^ 8 / 2 / 100); [interval|]. unfold Rdiv at 1 3. apply Rmult_le_compat; [lra|lra|lra|]. apply Rinv_le_contravar; lra. }
  assert (Q : 10 <= bd2 x B v).
  { unfold bd2. assert (11 <= ln (x / B) / v); [|lra]. apply Rmult_le_reg_r with v; [lra|]. unfold Rdiv at 1. rewrite Rmult_assoc, Rinv_l by lra. lra. }
  assert (C1 : cnd (bd1 x B v) < 1) by apply cnd_range.
  assert (C2 : 99 / 100 <= cnd (bd2 x B v)).
  { assert (A := cnd_accuracy (bd2 x B v)). apply Rabs_le_between in A. destruct (Phi_tail (bd2 x B v) ltac:(lra)) as [T1 T2].
    assert (Z : - (bd2 x B v) ^ 2 / 2 <= -50) by nra. assert (exp (- (bd2 x B v) ^ 2 / 2) <= exp (-50)) by (destruct Z as [Z|Z]; [left; now apply exp_increasing|rewrite Z; lra]). assert (exp (-50) <= 5 / 1000) by interval. lra. }
  pose proof D0_range. assert (99 * (9 / 10) <= B * cnd (bd2 x B v)) by (apply Rmult_le_compat; lra). assert (x * cnd (bd1 x B v) <= x * 1) by (apply Rmult_le_compat_l; lra). fold B v. assert (B3 : 97 <= B * cnd (bd2 x B v)).
  { apply Rle_trans with (99 * (99 / 100)); [lra|]. apply Rmult_le_compat; lra. }
  lra.
Qed.
