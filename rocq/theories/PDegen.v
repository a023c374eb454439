(** Degenerate inputs over the extended reals (C56, C43): zero volatility, expiry, zero interest rate. *)
From Coq Require Import Reals ZArith QArith Qreals List Bool Lra Lia.
From Verif Require Import Num Py MBase MVanilla MAmerican PBlack PGbs.
Open Scope R_scope.

Lemma Xdiv_fin a b : b <> 0 -> Xdiv (Fin a) (Fin b) = Fin (a / b).
Proof. intro H. cbn. destruct (Req_EM_T b 0); [contradiction|reflexivity]. Qed.
Lemma Xdiv_zero a : Xdiv (Fin a) (Fin 0) = Xinf_sgn a.
Proof. cbn. destruct (Req_EM_T 0 0); [reflexivity|contradiction]. Qed.
Lemma Xsgn_pos a : 0 < a -> Xinf_sgn a = PInf.
Proof. intro H. unfold Xinf_sgn. destruct (Rlt_dec 0 a); [reflexivity|contradiction]. Qed.
Lemma Xsgn_neg a : a < 0 -> Xinf_sgn a = MInf.
Proof. intro H. unfold Xinf_sgn. destruct (Rlt_dec 0 a); [lra|]. destruct (Rlt_dec a 0); [reflexivity|contradiction]. Qed.
Lemma Xsgn_0 : Xinf_sgn 0 = NaN.
Proof. unfold Xinf_sgn. destruct (Rlt_dec 0 0); [lra|]. destruct (Rlt_dec 0 0); [lra|reflexivity]. Qed.
Lemma sqrt8 : sqrt (8 * atan 1) <> 0.
Proof. apply Rgt_not_eq, sqrt_lt_R0. rewrite atan_1. generalize PI_RGT_0. lra. Qed.
Lemma q2 (z : Z) : Q2R (inject_Z z) = IZR z. Proof. unfold Q2R, inject_Z. cbn. lra. Qed.

Ltac xcbn := cbn [absn expn logn sqrn atn lit ofZ add sub mul div opp powi powr sgn ltb leb eqb XNum
  Xopp Xabs Xmul Xsgn Xadd Xsub Xexp Xlog Xsqrt Xatan Xdiv Xinf_sgn Xpowi Xltb Xleb Xeqb] in *.
Ltac xdec := match goal with
  | |- context [Req_EM_T ?a ?b] => destruct (Req_EM_T a b); try (exfalso; unfold Q2R in *; cbn [Qnum Qden] in *; lra)
  | |- context [Rlt_dec ?a ?b] => destruct (Rlt_dec a b); try (exfalso; unfold Q2R in *; cbn [Qnum Qden] in *; lra) end.
Ltac x := repeat (xcbn; xdec); xcbn.

Lemma ndf_pinf : ndf PInf = Fin 0.
Proof.
  assert (A : Q2R 8 * atan (Q2R 1) = 8 * atan 1) by (f_equal; [|f_equal]; unfold Q2R; cbn; lra).
  pose proof sqrt8. assert (0 < atan 1) by (rewrite atan_1; generalize PI_RGT_0; lra).
  unfold ndf. xcbn. rewrite A. x. f_equal. unfold Rdiv. ring.
Qed.
Lemma ndf_minf : ndf MInf = Fin 0.
Proof.
  assert (A : Q2R 8 * atan (Q2R 1) = 8 * atan 1) by (f_equal; [|f_equal]; unfold Q2R; cbn; lra).
  pose proof sqrt8. assert (0 < atan 1) by (rewrite atan_1; generalize PI_RGT_0; lra).
  unfold ndf. xcbn. rewrite A. x. f_equal. unfold Rdiv. ring.
Qed.
Lemma ndf_nan : ndf NaN = NaN.
Proof. reflexivity. Qed.
Lemma k_inf z : z = PInf \/ z = MInf -> cnd_k z = Fin 0.
Proof.
  intro H. assert (E : absn z = PInf) by (destruct H; subst; reflexivity). unfold cnd_k. rewrite E.
  cbn [mul lit XNum Xmul]. rewrite Xsgn_pos by (unfold Q2R; cbn; lra). reflexivity.
Qed.
Lemma poly_0 : cnd_poly (Fin 0) = Fin 0.
Proof. unfold cnd_poly. xcbn. f_equal. ring. Qed.
Lemma cnd_pinf : cnd PInf = Fin 1.
Proof. unfold cnd. rewrite k_inf, poly_0, ndf_pinf by auto. xcbn. f_equal. unfold Q2R. cbn. lra. Qed.
Lemma cnd_minf : cnd MInf = Fin 0.
Proof. unfold cnd. rewrite k_inf, poly_0, ndf_minf by auto. xcbn. f_equal. unfold Q2R. cbn. lra. Qed.
Lemma cnd_nan : cnd NaN = NaN.
Proof. reflexivity. Qed.

Section Deg.
Variables S0 K t r b s : R.
Hypothesis HS : 0 < S0.
Hypothesis HK : 0 < K.
Hypothesis Ht : 0 <= t.
Hypothesis Hs : 0 <= s.
Hypothesis H0 : s * sqrt t = 0.
Let o := GBSOption (Fin S0) (Fin K) (Fin t) (Fin r) (Fin b) (Some (Fin s)).
Let m := ln (S0 / K) + (b + s * s / 2) * t.
Lemma d1_deg : gbs_d1 (Fin S0) (Fin K) (Fin t) (Fin b) (Fin s) = Xinf_sgn m.
Proof.
  assert (0 < S0 / K) by (apply Rdiv_lt_0_compat; lra).
  unfold gbs_d1. xcbn. destruct (Req_EM_T K 0); [lra|]. xcbn. destruct (Rlt_dec 0 (S0 / K)); [|lra].
  destruct (Rlt_dec t 0); [lra|]. xcbn. destruct (Req_EM_T (Q2R 2) 0) as [E|E]; [exfalso; unfold Q2R in E; cbn in E; lra|].
  xcbn. rewrite H0. destruct (Req_EM_T 0 0); [|lra]. replace (ln (S0 / K) + (b + s * s / Q2R 2) * t) with m; [reflexivity|].
  unfold m, Q2R. cbn. repeat f_equal. lra.
Qed.
Lemma m_fwd : m = ln (S0 * exp (b * t) / K).
Proof.
  unfold m. assert (E : s * s * t = 0).
  { replace (s * s * t) with ((s * sqrt t) * (s * sqrt t)) by (rewrite <- (sqrt_sqrt t Ht) at 3; ring). rewrite H0. ring. }
  replace (S0 * exp (b * t) / K) with (S0 / K * exp (b * t)) by (field; lra).
  rewrite ln_mult, ln_exp by (try apply exp_pos; apply Rdiv_lt_0_compat; lra). lra.
Qed.
Lemma m_sign : (K < S0 * exp (b * t) -> 0 < m) /\ (S0 * exp (b * t) < K -> m < 0) /\ (S0 * exp (b * t) = K -> m = 0).
Proof.
  rewrite m_fwd. assert (0 < S0 * exp (b * t)) by (apply Rmult_lt_0_compat; [lra|apply exp_pos]). set (f := S0 * exp (b * t)) in *.
  assert (0 < / K) by (apply Rinv_0_lt_compat; lra).
  repeat split; intro E.
  - rewrite <- ln_1. apply ln_increasing; [lra|]. unfold Rdiv. apply Rmult_lt_reg_r with K; [lra|]. rewrite Rmult_assoc, Rinv_l; lra.
  - rewrite <- ln_1. apply ln_increasing; [apply Rdiv_lt_0_compat; lra|]. unfold Rdiv. apply Rmult_lt_reg_r with K; [lra|]. rewrite Rmult_assoc, Rinv_l; lra.
  - rewrite E. unfold Rdiv. rewrite Rinv_r by lra. apply ln_1.
Qed.
Lemma d2_deg : gbs_d2 (Fin S0) (Fin K) (Fin t) (Fin b) (Fin s) = Xinf_sgn m.
Proof.
  unfold gbs_d2. rewrite d1_deg. xcbn. destruct (Rlt_dec t 0); [lra|]. xcbn. unfold Xinf_sgn. rewrite H0.
  destruct (Rlt_dec 0 m); [reflexivity|]. destruct (Rlt_dec m 0); reflexivity.
Qed.
Lemma call_deg : gbs_call o = Ok (sub (mul (Fin (S0 * exp ((b - r) * t))) (cnd (Xinf_sgn m))) (mul (Fin (K * exp (- r * t))) (cnd (Xinf_sgn m)))).
Proof.
  unfold gbs_call, gbs_call_F, with_d, o, GBSOption. cbn [g_sigma g_d1 g_d2 g_S g_K g_t g_r g_b]. rewrite d1_deg, d2_deg. reflexivity.
Qed.
Lemma put_deg : gbs_put o = Ok (sub (mul (Fin (K * exp (- r * t))) (cnd (Xopp (Xinf_sgn m)))) (mul (Fin (S0 * exp ((b - r) * t))) (cnd (Xopp (Xinf_sgn m))))).
Proof.
  unfold gbs_put, gbs_put_F, with_d, o, GBSOption. cbn [g_sigma g_d1 g_d2 g_S g_K g_t g_r g_b]. rewrite d1_deg, d2_deg. reflexivity.
Qed.
Lemma gamma_deg : gbs_gamma o = Ok NaN.
Proof.
  unfold gbs_gamma, gbs_gamma_F, with_d, o, GBSOption. cbn [g_sigma g_d1 g_d2 g_S g_K g_t g_r g_b]. rewrite d1_deg.
  unfold Xinf_sgn at 1. destruct (Rlt_dec 0 m); [|destruct (Rlt_dec m 0)]; rewrite ?ndf_pinf, ?ndf_minf, ?ndf_nan; xcbn; try reflexivity;
    (destruct (Rlt_dec t 0); [lra|]; xcbn; rewrite Rmult_assoc, H0, !Rmult_0_r; destruct (Req_EM_T 0 0); [|lra]; now rewrite Xsgn_0).
Qed.
Lemma vega_deg : m <> 0 -> gbs_vega o = Ok (Fin 0).
Proof.
  intro Hm. unfold gbs_vega, gbs_vega_F, with_d, o, GBSOption. cbn [g_sigma g_d1 g_d2 g_S g_K g_t g_r g_b]. rewrite d1_deg.
  unfold Xinf_sgn at 1. destruct (Rlt_dec 0 m); [|destruct (Rlt_dec m 0)]; [| |lra]; rewrite ?ndf_pinf, ?ndf_minf; xcbn;
    (destruct (Rlt_dec t 0); [lra|]; xcbn; do 2 f_equal; ring).
Qed.
End Deg.

(*@ C56_degenerate | At expiry or with zero volatility (numpy arithmetic with infinities and nan): when the forward S e^{bt} differs from the strike, the call and put are exactly the discounted forward payoffs, the put-call parity holds and vega is 0; at the money the call and the put are nan. Gamma is nan at expiry whatever the moneyness. *)
Lemma degenerate_thm : forall S K t r b s : R, 0 < S -> 0 < K -> 0 <= t -> 0 <= s -> (t = 0 \/ s = 0) ->
  let o := GBSOption (Fin S) (Fin K) (Fin t) (Fin r) (Fin b) (Some (Fin s)) in
  (S * exp (b * t) <> K ->
     gbs_call o = Ok (Fin (exp (- r * t) * Rmax (S * exp (b * t) - K) 0)) /\
     gbs_put o = Ok (Fin (exp (- r * t) * Rmax (K - S * exp (b * t)) 0)) /\ gbs_vega o = Ok (Fin 0)) /\
  (S * exp (b * t) = K -> gbs_call o = Ok NaN /\ gbs_put o = Ok NaN) /\
  gbs_gamma o = Ok NaN.
Proof.
  intros S K t r b s HS HK Ht Hs Hd o.
  assert (H0 : s * sqrt t = 0) by (destruct Hd as [->| ->]; [rewrite sqrt_0|]; ring).
  destruct (m_sign S K t b s HS HK Ht H0) as (M1 & M2 & M3). unfold o.
  rewrite call_deg, put_deg, gamma_deg by assumption. set (m := ln (S / K) + (b + s * s / 2) * t) in *.
  assert (EQ : exp ((b - r) * t) = exp (b * t) * exp (- r * t)) by (rewrite <- exp_plus; f_equal; ring).
  split; [|split].
  - intro Hne. split; [|split; [|rewrite vega_deg; auto; fold m; destruct (Rtotal_order (S * exp (b * t)) K) as [A|[A|A]]; [specialize (M2 A)|contradiction|specialize (M1 A)]; lra]].
    + destruct (Rtotal_order (S * exp (b * t)) K) as [A|[A|A]]; [|contradiction|].
      * rewrite Xsgn_neg, cnd_minf by auto. rewrite Rmax_right by lra. xcbn. do 2 f_equal. ring.
      * rewrite Xsgn_pos, cnd_pinf by auto. rewrite Rmax_left by lra. xcbn. rewrite EQ. do 2 f_equal. ring.
    + destruct (Rtotal_order (S * exp (b * t)) K) as [A|[A|A]]; [|contradiction|].
      * rewrite Xsgn_neg by auto. cbn [Xopp]. rewrite cnd_pinf. rewrite Rmax_left by lra. xcbn. rewrite EQ. do 2 f_equal. ring.
      * rewrite Xsgn_pos by auto. cbn [Xopp]. rewrite cnd_minf. rewrite Rmax_right by lra. xcbn. do 2 f_equal. ring.
  - intro E. rewrite (M3 E), Xsgn_0. split; reflexivity.
  - reflexivity.
Qed.

(** ** BAW put with zero rates *)
Section Zero.
Variables S0 K t s : R.
Hypothesis HS : 0 < S0.
Hypothesis HK : 0 < K.
Hypothesis Ht : 0 < t.
Hypothesis Hs : 0 < s.
Let o := mkAmer (Fin S0) (Fin K) (Fin t) (Fin 0) (Fin 0) (Some (Fin s)).
Lemma Q1_nan : baw_Q1 o (Fin s) = NaN.
Proof.
  assert (E : baw_X o (Fin s) = NaN).
  { unfold baw_X, o. cbn [y_r y_t]. xcbn. replace (- 0 * t) with 0 by ring. rewrite exp_0.
    replace (Q2R 1 + - (1)) with 0 by (unfold Q2R; cbn; lra). rewrite !Rmult_0_r. destruct (Req_EM_T 0 0); [apply Xsgn_0|lra]. }
  unfold baw_Q1. rewrite E. cbn [mul lit XNum Xmul add sub]. 
  destruct (powi _ 2); cbn [Xadd Xsqrt sqrn XNum Xsub Xopp]; destruct (opp _); reflexivity.
Qed.
Lemma n_zero : baw_n o (Fin s) = Fin 0.
Proof.
  unfold baw_n, o. cbn [y_b]. xcbn. destruct (Req_EM_T (s * (s * 1)) 0) as [E|E]; [nra|]. f_equal. unfold Rdiv. ring.
Qed.
Lemma q1u_zero : div (sub (opp (sub (Fin 0) (lit 1))) (sqrn (add (powi (sub (Fin 0) (lit 1)) 2) (mul (lit 4) (Fin 0))))) (lit 2) = Fin 0.
Proof.
  xcbn. replace ((0 + - Q2R 1) * ((0 + - Q2R 1) * 1) + Q2R 4 * 0) with 1 by (unfold Q2R; cbn; lra). destruct (Rlt_dec 1 0); [lra|]. xcbn.
  destruct (Req_EM_T (Q2R 2) 0) as [E|E]; [exfalso; unfold Q2R in E; cbn in E; lra|]. f_equal. rewrite sqrt_1. unfold Q2R. cbn. field.
Qed.
Lemma seed_zero : baw_seed_p o (Fin s) = Fin (K * exp (- 2 * s * sqrt t)).
Proof.
  unfold baw_seed_p. rewrite n_zero. unfold o. cbn [y_b y_r y_t y_K].
  replace (div (mul (lit 2) (Fin 0)) (powi (Fin s) 2)) with (Fin 0) by (symmetry; exact n_zero).
  rewrite q1u_zero.
  replace (div (lit 1) (Fin 0)) with PInf by (cbn [div lit XNum]; rewrite Xdiv_zero, Xsgn_pos; [reflexivity|unfold Q2R; cbn; lra]).
  cbn [sub lit XNum Xsub Xopp Xadd div Xdiv]. xcbn. destruct (Rlt_dec t 0); [lra|]. xcbn.
  destruct (Req_EM_T (K + - 0) 0); [lra|]. xcbn. f_equal. rewrite Rplus_0_l. f_equal; [ring|]. f_equal. unfold Q2R. cbn. field. lra.
Qed.
Lemma Kp_zero fuel : baw_Kp fuel o (Fin s) = Ok (Fin (K * exp (- 2 * s * sqrt t))).
Proof.
  unfold baw_Kp. rewrite seed_zero. set (k := Fin (K * exp (- 2 * s * sqrt t))).
  assert (E : baw_rhs_p o (Fin s) k = Ok NaN).
  { unfold baw_rhs_p, gbs_p. set (g := gbs_put _). assert (Hg : exists p, g = Ok p) by (unfold g, gbs_put, gbs_put_F; eexists; reflexivity).
    destruct Hg as (p & ->). cbn [bind]. rewrite Q1_nan. f_equal. cbn [sub div XNum].
    match goal with |- Xsub p (Xdiv ?a NaN) = _ => generalize a end. intros [| | |]; cbn [Xdiv Xsub Xopp]; destruct p; reflexivity. }
  rewrite E. cbn [bind]. destruct fuel; reflexivity.
Qed.
Lemma put_zero fuel : baw_put fuel o = Ok (if Rlt_dec (K * exp (- 2 * s * sqrt t)) S0 then NaN else Fin (K - S0)).
Proof.
  unfold baw_put. unfold o at 1. cbn [y_sigma need of_opt bind]. rewrite Kp_zero. cbn [bind]. rewrite Q1_nan. unfold o. cbn [y_S y_K y_t y_r y_b y_sigma].
  cbn [ltb XNum Xltb]. destruct (Rlt_dec _ S0) as [H|H].
  - rewrite (proj2 (Rltb_true _ _) H). unfold gbs_p. set (g := gbs_put _).
    assert (Hg : exists p, g = Ok p) by (unfold g, gbs_put, gbs_put_F; eexists; reflexivity). destruct Hg as (p & ->). cbn [bind].
    cbn [div XNum Xdiv opp Xopp mul add Xmul]. destruct p; reflexivity.
  - rewrite (proj2 (Rltb_false _ _)) by lra. reflexivity.
Qed.
End Zero.

(*@ C43_zero_rate_refuted | Finding: with a zero interest rate the approximation breaks down silently. For r = b = 0 the put is nan whenever S > K e^{-2 sigma sqrt t}, and K - S (less than the Black-Scholes put) otherwise, whatever the iteration budget. *)
Lemma baw_zero_thm : forall (S K t s : R) (fuel : nat), 0 < S -> 0 < K -> 0 < t -> 0 < s ->
  (K * exp (- 2 * s * sqrt t) < S -> baw_put fuel (mkAmer (Fin S) (Fin K) (Fin t) (Fin 0) (Fin 0) (Some (Fin s))) = Ok NaN) /\
  (S <= K * exp (- 2 * s * sqrt t) -> baw_put fuel (mkAmer (Fin S) (Fin K) (Fin t) (Fin 0) (Fin 0) (Some (Fin s))) = Ok (Fin (K - S)) /\
     exists p, gbs_put (GBSOption S K t 0 0 (Some s)) = Ok p /\ K - S < p).
Proof.
  intros S K t s fuel HS HK Ht Hs. rewrite (put_zero S K t s) by assumption.
  split; intro H; destruct (Rlt_dec _ S); try lra; try reflexivity. split; [reflexivity|].
  eexists. split; [apply put_link; lra|].
  assert (0 < s * sqrt t) by (apply Rmult_lt_0_compat; [lra|now apply sqrt_lt_R0]).
  pose proof (bput_lb (S * exp ((0 - 0) * t)) (K * exp (- 0 * t)) (s * sqrt t)) as B.
  replace ((0 - 0) * t) with 0 in * by ring. replace (- 0 * t) with 0 in * by ring. rewrite exp_0 in *. specialize (B ltac:(lra) ltac:(lra) ltac:(lra)). lra.
Qed.
