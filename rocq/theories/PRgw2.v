(** The Roll-Geske-Whaley formula over the exact distribution functions is the discounted mean of the value of
    exercising just before the dividend above the critical price and holding below it. *)
From Coq Require Import Reals Lra Lia.
From Coquelicot Require Import Coquelicot.
From Verif Require Import Num Py SMonte SHeston PCnd PBlack PGauss PGbs PMonte4 PHeston PHeston2 PExpect SAmerican SAmerican2.
Open Scope R_scope.

(** ** Integrals over half lines *)
Definition lint (f : R -> R) (a v : R) : Prop :=
  forall eps, 0 < eps -> exists M, forall x, x < M -> exists I0, is_RInt f x a I0 /\ Rabs (I0 - v) < eps.
Lemma lint_gen f a v : lint f a v <-> is_RInt_gen f (Rbar_locally m_infty) (at_point a) v.
Proof.
  split.
  - intros H P [eps HP]. destruct (H eps (cond_pos eps)) as (M & HM).
    apply (Filter_prod _ _ _ (fun x => x < M) (fun c => c = a)).
    + exists M. intros; assumption.
    + reflexivity.
    + intros x c Hx ->. cbn [fst snd]. destruct (HM x Hx) as (I0 & H1 & H2). exists I0. split; [exact H1|]. apply HP. exact H2.
  - intros H eps He. specialize (H (ball v (mkposreal eps He))). destruct H as [P Q [M1 H1] H2 HPQ].
    { exists (mkposreal eps He). intros y Hy. exact Hy. }
    exists M1. intros x Hx. destruct (HPQ x a) as (I0 & X1 & X2); [now apply H1|exact H2|]. now exists I0.
Qed.
Definition uint (f : R -> R) (a v : R) : Prop :=
  forall eps, 0 < eps -> exists M, forall x, M < x -> exists I0, is_RInt f a x I0 /\ Rabs (I0 - v) < eps.
Lemma gint_join f a v w : lint f a v -> uint f a w -> gint f (v + w).
Proof.
  intros H1 H2 eps He. destruct (H1 (eps / 2) ltac:(lra)) as (M1 & X1). destruct (H2 (eps / 2) ltac:(lra)) as (M2 & X2).
  exists (Rmax (- M1) M2). intros x y Hx Hy. pose proof (Rmax_l (- M1) M2). pose proof (Rmax_r (- M1) M2).
  destruct (X1 x ltac:(lra)) as (I1 & A1 & B1). destruct (X2 y ltac:(lra)) as (I2 & A2 & B2).
  exists (I1 + I2). split; [exact (is_RInt_Chasles f x a y I1 I2 A1 A2)|]. replace (I1 + I2 - (v + w)) with ((I1 - v) + (I2 - w)) by ring.
  eapply Rle_lt_trans; [apply Rabs_triang|]. lra.
Qed.
Lemma lint_ext f g a v : (forall x, x < a -> f x = g x) -> lint f a v -> lint g a v.
Proof.
  intros E H eps He. destruct (H eps He) as (M & HM). exists (Rmin M a). intros x Hx. pose proof (Rmin_l M a). pose proof (Rmin_r M a).
  destruct (HM x ltac:(lra)) as (I0 & A & B). exists I0. split; [|exact B]. eapply is_RInt_ext; [|exact A]. rewrite Rmin_left, Rmax_right by lra. intros y Hy. apply E. lra.
Qed.
Lemma uint_ext f g a v : (forall x, a < x -> f x = g x) -> uint f a v -> uint g a v.
Proof.
  intros E H eps He. destruct (H eps He) as (M & HM). exists (Rmax M a). intros x Hx. pose proof (Rmax_l M a). pose proof (Rmax_r M a).
  destruct (HM x ltac:(lra)) as (I0 & A & B). exists I0. split; [|exact B]. eapply is_RInt_ext; [|exact A]. rewrite Rmin_left, Rmax_right by lra. intros y Hy. apply E. lra.
Qed.
Lemma lint_shift f a c v : lint f (a - c) v -> lint (fun y => f (y - c)) a v.
Proof.
  intros H eps He. destruct (H eps He) as (M & HM). exists (M + c). intros x Hx. destruct (HM (x - c) ltac:(lra)) as (I0 & A & B). exists I0. split; [|exact B].
  assert (X := is_RInt_comp_lin f 1 (- c) x a I0). replace (1 * x + - c) with (x - c) in X by ring. replace (1 * a + - c) with (a - c) in X by ring. specialize (X A).
  eapply is_RInt_ext; [|exact X]. intros y _. cbn. unfold scal. cbn. unfold mult. cbn. rewrite Rmult_1_l. f_equal. ring.
Qed.
Lemma lint_lin f g a v w p q : lint f a v -> lint g a w -> lint (fun y => p * f y + q * g y) a (p * v + q * w).
Proof.
  rewrite !lint_gen. intros H1 H2. apply (is_RInt_gen_plus (V := R_NormedModule) (fun y => p * f y) (fun y => q * g y) (p * v) (q * w)).
  - apply (is_RInt_gen_scal (V := R_NormedModule) f p v H1).
  - apply (is_RInt_gen_scal (V := R_NormedModule) g q w H2).
Qed.
Lemma uint_lin f g a v w p q : uint f a v -> uint g a w -> uint (fun y => p * f y + q * g y) a (p * v + q * w).
Proof.
  intros H1 H2 eps He. assert (HP : 0 < Rabs p + Rabs q + 1) by (pose proof (Rabs_pos p); pose proof (Rabs_pos q); lra).
  set (d := eps / (Rabs p + Rabs q + 1)). assert (Hd : 0 < d) by (now apply Rdiv_lt_0_compat).
  destruct (H1 d Hd) as (M1 & X1). destruct (H2 d Hd) as (M2 & X2). exists (Rmax M1 M2). intros x Hx. pose proof (Rmax_l M1 M2). pose proof (Rmax_r M1 M2).
  destruct (X1 x ltac:(lra)) as (I1 & A1 & B1). destruct (X2 x ltac:(lra)) as (I2 & A2 & B2). exists (p * I1 + q * I2). split.
  - apply (is_RInt_plus (V := R_NormedModule) (fun y => p * f y) (fun y => q * g y) a x (p * I1) (q * I2)); [exact (is_RInt_scal (V := R_NormedModule) f a x p I1 A1)|exact (is_RInt_scal (V := R_NormedModule) g a x q I2 A2)].
  - replace (p * I1 + q * I2 - (p * v + q * w)) with (p * (I1 - v) + q * (I2 - w)) by ring. eapply Rle_lt_trans; [apply Rabs_triang|]. rewrite !Rabs_mult.
    pose proof (Rabs_pos p). pose proof (Rabs_pos q). assert (E : eps = d * (Rabs p + Rabs q + 1)) by (unfold d; field; lra). rewrite E. nra.
Qed.
Lemma uint_npdf a c : uint (fun y => npdf (y - c)) a (Phi (c - a)).
Proof.
  intros eps He. destruct (Phi_near_1 eps He) as (M & HM). exists (M + c). intros x Hx. exists (Phi (x - c) - Phi (a - c)). split.
  - apply (is_RInt_derive (fun y => Phi (y - c)) (fun y => npdf (y - c))).
    + intros y _. evar_last; [apply (is_derive_comp Phi (fun y => y - c)); [apply Phi_derive|auto_derive; [exact Coq.Init.Logic.I|reflexivity]]|]. unfold scal. cbn. unfold mult. cbn. ring.
    + intros y _. apply (continuous_comp (fun y => y - c) npdf); [apply (ex_derive_continuous (fun y => y - c)); auto_derive; exact Coq.Init.Logic.I|apply npdf_cont].
  - replace (a - c) with (- (c - a)) by ring. rewrite Phi_opp. pose proof (HM (x - c) ltac:(lra)). pose proof (Phi_lt_1 (x - c)). apply Rabs_def1; lra.
Qed.

(** ** The two regions *)
Section Rgw.
Variables (M : R -> R -> R -> R) (x K t td r D s Ic : R).
Hypothesis HM : bivariate_normal M.
Hypothesis Hx : 0 < x.
Hypothesis HK : 0 < K.
Hypothesis Htd : 0 < td.
Hypothesis Ht : td < t.
Hypothesis Hs : 0 < s.
Hypothesis HI : 0 < Ic.
Let X := stock_after x r s td.
Let b1 := (ln (x / Ic) + (r + s ^ 2 / 2) * td) / (s * sqrt td).
Let b2 := b1 - s * sqrt td.
Let a1 := (ln (x / K) + (r + s ^ 2 / 2) * t) / (s * sqrt t).
Let a2 := a1 - s * sqrt t.
Let rho := - sqrt (td / t).
Let Htd' : 0 < sqrt td. Proof. now apply sqrt_lt_R0. Qed.
Let Ht' : 0 < sqrt t. Proof. apply sqrt_lt_R0. lra. Qed.
Let Hq' : 0 < sqrt (t - td). Proof. apply sqrt_lt_R0. lra. Qed.
Lemma X_pos z : 0 < X z. Proof. unfold X, stock_after. apply Rmult_lt_0_compat; [exact Hx|apply exp_pos]. Qed.
Lemma X_npdf z : X z * npdf z = x * exp (r * td) * npdf (z - s * sqrt td).
Proof. exact (shift_pdf x td r s Htd z). Qed.
Lemma X_above z : Ic < X z <-> - b2 < z.
Proof.
  assert (HT : X z = Ic * exp (s * sqrt td * (z + b2))).
  { unfold X, stock_after. replace (s * sqrt td * (z + b2)) with ((r - s ^ 2 / 2) * td + s * sqrt td * z + ln (x / Ic)).
    - rewrite (exp_plus _ (ln _)), exp_ln by (apply Rdiv_lt_0_compat; assumption). field. lra.
    - unfold b2, b1. assert (Q : (s * sqrt td) * (s * sqrt td) = s ^ 2 * td) by (replace (s * sqrt td * (s * sqrt td)) with (s ^ 2 * (sqrt td * sqrt td)) by ring; rewrite sqrt_sqrt by lra; ring).
      assert (W : 0 < s * sqrt td) by now apply Rmult_lt_0_compat. revert Q W. generalize (s * sqrt td). intros w Q W.
      replace (w * (z + ((ln (x / Ic) + (r + s ^ 2 / 2) * td) / w - w))) with (w * z + ln (x / Ic) + (r + s ^ 2 / 2) * td - w * w) by (field; lra). rewrite Q. field. }
  assert (W : 0 < s * sqrt td) by now apply Rmult_lt_0_compat. rewrite HT. split; intro H.
  - assert (1 < exp (s * sqrt td * (z + b2))) by (apply Rmult_lt_reg_l with Ic; lra). rewrite <- exp_0 in H0. apply exp_lt_inv in H0. destruct (Rle_or_lt z (- b2)); [nra|assumption].
  - rewrite <- (Rmult_1_r Ic) at 1. apply Rmult_lt_compat_l; [exact HI|]. rewrite <- exp_0. apply exp_increasing. nra.
Qed.
Lemma rho_in : -1 < rho < 1.
Proof.
  assert (0 < td / t < 1) by (split; [apply Rdiv_lt_0_compat; lra|apply Rmult_lt_reg_r with t; [lra|]; unfold Rdiv; rewrite Rmult_assoc, Rinv_l by lra; lra]).
  unfold rho. assert (0 < sqrt (td / t)) by (apply sqrt_lt_R0; lra). assert (sqrt (td / t) < 1) by (rewrite <- sqrt_1; apply sqrt_lt_1; lra). lra.
Qed.
Lemma ratio : rho = - (sqrt td / sqrt t) /\ sqrt (1 - rho ^ 2) = sqrt (t - td) / sqrt t.
Proof.
  assert (E : rho = - (sqrt td / sqrt t)) by (unfold rho; rewrite sqrt_div; lra). split; [exact E|].
  rewrite <- sqrt_div by lra. f_equal. rewrite E. replace ((- (sqrt td / sqrt t)) ^ 2) with ((sqrt td * sqrt td) / (sqrt t * sqrt t)) by (field; lra). rewrite !sqrt_sqrt by lra. field. lra.
Qed.
Definition h1 (z : R) : R := (ln (X z / K) + (r + s ^ 2 / 2) * (t - td)) / (s * sqrt (t - td)).
Lemma h1_eq z : h1 z = (a1 - rho * (z - s * sqrt td)) / sqrt (1 - rho ^ 2).
Proof.
  destruct ratio as [E1 E2]. rewrite E2, E1. unfold h1, a1.
  assert (L : ln (X z / K) = ln (x / K) + ((r - s ^ 2 / 2) * td + s * sqrt td * z)).
  { unfold X, stock_after. replace (x * exp ((r - s ^ 2 / 2) * td + s * sqrt td * z) / K) with (x / K * exp ((r - s ^ 2 / 2) * td + s * sqrt td * z)) by (field; lra).
    rewrite ln_mult, ln_exp; [reflexivity|now apply Rdiv_lt_0_compat|apply exp_pos]. }
  rewrite L. assert (Q1 : sqrt td * sqrt td = td) by (apply sqrt_sqrt; lra). assert (Q2 : sqrt t * sqrt t = t) by (apply sqrt_sqrt; lra).
  set (l := ln (x / K)). set (qd := sqrt td) in *. set (qt := sqrt t) in *. set (qr := sqrt (t - td)) in *.
  replace ((l + ((r - s ^ 2 / 2) * td + s * qd * z) + (r + s ^ 2 / 2) * (t - td)) / (s * qr)) with ((l + (r + s ^ 2 / 2) * t + s * qd * z - s ^ 2 * td) / (s * qr)) by (field; lra).
  replace (s ^ 2 * td) with (s ^ 2 * (qd * qd)) by (rewrite Q1; ring). field. lra.
Qed.
Lemma h2_eq z : h1 z - s * sqrt (t - td) = (a2 - rho * z) / sqrt (1 - rho ^ 2).
Proof.
  rewrite h1_eq. destruct ratio as [E1 E2]. rewrite E2, E1. unfold a2.
  assert (Q1 : sqrt td * sqrt td = td) by (apply sqrt_sqrt; lra). assert (Q2 : sqrt t * sqrt t = t) by (apply sqrt_sqrt; lra). assert (Q3 : sqrt (t - td) * sqrt (t - td) = t - td) by (apply sqrt_sqrt; lra).
  revert Q1 Q2 Q3. generalize a1. intro a. set (qd := sqrt td) in *. set (qt := sqrt t) in *. set (qr := sqrt (t - td)) in *. intros Q1 Q2 Q3.
  assert (Q : qt * qt = qd * qd + qr * qr) by lra.
  replace ((a - - (qd / qt) * (z - s * qd)) / (qr / qt) - s * qr) with ((a * qt + qd * z - s * (qd * qd + qr * qr)) / qr) by (field; lra). rewrite <- Q. field. lra.
Qed.
Lemma hold_int : lint (fun z => black_call (X z) K (t - td) r s * npdf z) (- b2)
  (x * exp (r * td) * M a1 (- b1) rho - K * exp (- r * (t - td)) * M a2 (- b2) rho).
Proof.
  assert (L1 := proj2 (lint_gen _ _ _) (HM a1 (- b1) rho rho_in)). assert (L2 := proj2 (lint_gen _ _ _) (HM a2 (- b2) rho rho_in)).
  replace (- b1) with (- b2 - s * sqrt td) in L1 by (unfold b2; ring). apply lint_shift in L1. replace (- b2 - s * sqrt td) with (- b1) in L1 by (unfold b2; ring).
  assert (L := lint_lin _ _ _ _ _ (x * exp (r * td)) (- (K * exp (- r * (t - td)))) L1 L2).
  replace (x * exp (r * td) * M a1 (- b1) rho - K * exp (- r * (t - td)) * M a2 (- b2) rho) with (x * exp (r * td) * M a1 (- b1) rho + - (K * exp (- r * (t - td))) * M a2 (- b2) rho) by ring.
  eapply lint_ext; [|exact L]. intros z _. cbn beta. rewrite <- h1_eq, <- h2_eq. unfold black_call. fold (h1 z). cbv zeta.
  replace ((X z * Phi (h1 z) - K * exp (- r * (t - td)) * Phi (h1 z - s * sqrt (t - td))) * npdf z) with
    ((X z * npdf z) * Phi (h1 z) - K * exp (- r * (t - td)) * (Phi (h1 z - s * sqrt (t - td)) * npdf z)) by ring.
  rewrite X_npdf. ring.
Qed.
Lemma exercise_int : uint (fun z => (X z + D - K) * npdf z) (- b2) (x * exp (r * td) * Phi b1 - (K - D) * Phi b2).
Proof.
  assert (U1 := uint_npdf (- b2) (s * sqrt td)). assert (U2 := uint_npdf (- b2) 0). replace (s * sqrt td - - b2) with b1 in U1 by (unfold b2; ring). replace (0 - - b2) with b2 in U2 by ring.
  assert (U := uint_lin _ _ _ _ _ (x * exp (r * td)) (- (K - D)) U1 U2). replace (x * exp (r * td) * Phi b1 - (K - D) * Phi b2) with (x * exp (r * td) * Phi b1 + - (K - D) * Phi b2) by ring.
  eapply uint_ext; [|exact U]. intros z _. cbn beta. rewrite <- X_npdf. rewrite Rminus_0_r. ring.
Qed.
Lemma rgw_mean : is_mean (fun z => if Rlt_dec Ic (X z) then X z + D - K else black_call (X z) K (t - td) r s) (exp (r * td) * rgw_price Phi M x K t td r D s Ic).
Proof.
  apply is_mean_gint. assert (E : exp (r * td) * rgw_price Phi M x K t td r D s Ic =
    (x * exp (r * td) * M a1 (- b1) rho - K * exp (- r * (t - td)) * M a2 (- b2) rho) + (x * exp (r * td) * Phi b1 - (K - D) * Phi b2)).
  { unfold rgw_price. fold b1. fold a1. fold rho. fold b2. fold a2. cbv zeta.
    assert (X1 : exp (r * td) * exp (- r * t) = exp (- r * (t - td))) by (rewrite <- exp_plus; f_equal; ring). assert (X2 : exp (r * td) * exp (- r * td) = 1) by (rewrite <- exp_plus; rewrite <- exp_0; f_equal; ring).
    replace (exp (r * td) * (x * Phi b1 + x * M a1 (- b1) rho - K * exp (- r * t) * M a2 (- b2) rho - (K - D) * exp (- r * td) * Phi b2)) with
      (x * exp (r * td) * Phi b1 + x * exp (r * td) * M a1 (- b1) rho - K * (exp (r * td) * exp (- r * t)) * M a2 (- b2) rho - (K - D) * (exp (r * td) * exp (- r * td)) * Phi b2) by ring. rewrite X1, X2. ring. }
  rewrite E. apply (gint_join _ (- b2)).
  - eapply lint_ext; [|exact hold_int]. intros z Hz. cbn beta. destruct (Rlt_dec Ic (X z)) as [H|_]; [apply X_above in H; lra|reflexivity].
  - eapply uint_ext; [|exact exercise_int]. intros z Hz. cbn beta. destruct (Rlt_dec Ic (X z)) as [_|H]; [reflexivity|apply X_above in Hz; contradiction].
Qed.
End Rgw.

(** ** The critical price *)
Lemma black_call_bcall y K tau r s : 0 < y -> 0 < K -> 0 < tau -> 0 < s -> black_call y K tau r s = bcall Phi y (K * exp (- r * tau)) (s * sqrt tau).
Proof.
  intros Hy HK Ht Hs. unfold black_call, bcall. assert (E : (ln (y / K) + (r + s ^ 2 / 2) * tau) / (s * sqrt tau) = bd1 y (K * exp (- r * tau)) (s * sqrt tau)).
  { unfold bd1. replace (y / (K * exp (- r * tau))) with (y / K * exp (r * tau)).
    - rewrite ln_mult, ln_exp; [|now apply Rdiv_lt_0_compat|apply exp_pos]. assert (Q : sqrt tau * sqrt tau = tau) by (apply sqrt_sqrt; lra). assert (0 < sqrt tau) by now apply sqrt_lt_R0.
      revert Q H. generalize (sqrt tau). intros q Q Hq. rewrite <- Q. field. lra.
    - replace (- r * tau) with (- (r * tau)) by ring. rewrite exp_Ropp. field. split; [apply Rgt_not_eq, exp_pos|lra]. }
  cbv zeta. rewrite E. f_equal. f_equal. f_equal. now rewrite bd12.
Qed.
Lemma black_call_slope K tau r s y1 y2 : 0 < K -> 0 < tau -> 0 < s -> 0 < y1 -> y1 <= y2 -> black_call y2 K tau r s - black_call y1 K tau r s <= y2 - y1.
Proof.
  intros HK Ht Hs H1 H2. destruct H2 as [H2| ->]; [|lra]. rewrite !black_call_bcall by lra. set (B := K * exp (- r * tau)). set (v := s * sqrt tau).
  assert (HB : 0 < B) by (apply Rmult_lt_0_compat; [exact HK|apply exp_pos]). assert (Hv : 0 < v) by (apply Rmult_lt_0_compat; [exact Hs|now apply sqrt_lt_R0]).
  destruct (MVT_gen (fun y => bcall Phi y B v) y1 y2 (fun y => Phi (bd1 y B v))) as (c & Hc & E).
  - intros y Hy. rewrite Rmin_left, Rmax_right in Hy by lra. evar_last; [apply (bcall_derive Phi (fun y => y) (fun _ => B) (fun _ => v) 1 0 0 y Phi_derive)|].
    + apply (is_derive_id (K := R_AbsRing)).
    + apply (is_derive_const (K := R_AbsRing) (V := R_NormedModule)).
    + apply (is_derive_const (K := R_AbsRing) (V := R_NormedModule)).
    + lra.
    + exact HB.
    + exact Hv.
    + cbn. ring.
  - intros y Hy. rewrite Rmin_left, Rmax_right in Hy by lra. apply derivable_continuous_pt. eexists. apply is_derive_Reals. apply (bcall_derive Phi (fun y => y) (fun _ => B) (fun _ => v) 1 0 0 y Phi_derive).
    + apply (is_derive_id (K := R_AbsRing)).
    + apply (is_derive_const (K := R_AbsRing) (V := R_NormedModule)).
    + apply (is_derive_const (K := R_AbsRing) (V := R_NormedModule)).
    + lra.
    + exact HB.
    + exact Hv.
  - rewrite E. pose proof (Phi_lt_1 (bd1 c B v)). nra.
Qed.
Lemma best_choice K tau r s D Ic y : 0 < K -> 0 < tau -> 0 < s -> 0 < Ic -> 0 < y -> black_call Ic K tau r s = Ic + D - K ->
  (if Rlt_dec Ic y then y + D - K else black_call y K tau r s) = Rmax (y + D - K) (black_call y K tau r s).
Proof.
  intros HK Ht Hs HI Hy E. destruct (Rlt_dec Ic y) as [L|L].
  - pose proof (black_call_slope K tau r s Ic y HK Ht Hs HI ltac:(lra)). rewrite Rmax_left; lra.
  - pose proof (black_call_slope K tau r s y Ic HK Ht Hs Hy ltac:(lra)). rewrite Rmax_right; lra.
Qed.

(*@ C42_formula | With the exact univariate and bivariate normal distribution functions the Roll-Geske-Whaley formula is right: for every critical price Ic it is the discounted mean, over the lognormal stock price just before the dividend, of the value of exercising above Ic and keeping a Black-Scholes call below. *)
Lemma rgw_formula_mean : forall M x K t td r D s Ic, bivariate_normal M -> 0 < x -> 0 < K -> 0 < td < t -> 0 < s -> 0 < Ic ->
  is_mean (fun z => let X := stock_after x r s td z in if Rlt_dec Ic X then X + D - K else black_call X K (t - td) r s)
    (exp (r * td) * rgw_price Phi M x K t td r D s Ic).
Proof. intros M x K t td r D s Ic HM Hx HK [H1 H2] Hs HI. now apply rgw_mean. Qed.
(*@ C42_american_value | At the critical price, where holding and exercising are worth the same, the formula is the value of the American call on a stock with one dividend: the discounted mean of the better of exercising and holding. No other critical price gives more. *)
Lemma rgw_american : forall M x K t td r D s Ic, bivariate_normal M -> 0 < x -> 0 < K -> 0 < td < t -> 0 < s -> 0 < Ic -> black_call Ic K (t - td) r s = Ic + D - K ->
  is_mean (fun z => let X := stock_after x r s td z in Rmax (X + D - K) (black_call X K (t - td) r s)) (exp (r * td) * rgw_price Phi M x K t td r D s Ic) /\
  forall I', 0 < I' -> rgw_price Phi M x K t td r D s I' <= rgw_price Phi M x K t td r D s Ic.
Proof.
  intros M x K t td r D s Ic HM Hx HK Ht Hs HI E. assert (A : is_mean (fun z => Rmax (stock_after x r s td z + D - K) (black_call (stock_after x r s td z) K (t - td) r s)) (exp (r * td) * rgw_price Phi M x K t td r D s Ic)).
  { eapply is_mean_ext; [|exact (rgw_formula_mean M x K t td r D s Ic HM Hx HK Ht Hs HI)]. intro z. cbv zeta. apply best_choice; try lra. now apply X_pos. }
  split; [exact A|]. intros I' HI'. apply Rmult_le_reg_l with (exp (r * td)); [apply exp_pos|].
  eapply is_mean_le; [|exact (rgw_formula_mean M x K t td r D s I' HM Hx HK Ht Hs HI')|exact A].
  intro z. cbv beta zeta. destruct (Rlt_dec I' (stock_after x r s td z)); [apply Rmax_l|apply Rmax_r].
Qed.

(*@ C42_near_critical | A critical price found only approximately costs no more than its error: if holding and exercising differ by at most eps at Ic, then the formula at Ic is below the value of the American call by at most the discounted eps, and never above it. *)
Lemma rgw_near : forall M x K t td r D s Ic eps V, bivariate_normal M -> 0 < x -> 0 < K -> 0 < td < t -> 0 < s -> 0 < Ic ->
  Rabs (black_call Ic K (t - td) r s - (Ic + D - K)) <= eps ->
  is_mean (fun z => let X := stock_after x r s td z in Rmax (X + D - K) (black_call X K (t - td) r s)) V ->
  exp (- r * td) * V - exp (- r * td) * eps <= rgw_price Phi M x K t td r D s Ic <= exp (- r * td) * V.
Proof.
  intros M x K t td r D s Ic eps V HM Hx HK Ht Hs HI He HV. assert (A := rgw_formula_mean M x K t td r D s Ic HM Hx HK Ht Hs HI). set (P := rgw_price _ _ _ _ _ _ _ _ _ _) in *.
  assert (E : exp (- r * td) * exp (r * td) = 1) by (rewrite <- exp_plus; replace (- r * td + r * td) with 0 by ring; apply exp_0).
  pose proof (exp_pos (- r * td)). apply Rabs_le_between in He.
  assert (L : exp (r * td) * P <= V).
  { eapply is_mean_le; [|exact A|exact HV]. intro z. cbv beta zeta. destruct (Rlt_dec Ic (stock_after x r s td z)); [apply Rmax_l|apply Rmax_r]. }
  assert (U : V <= 1 * (exp (r * td) * P) + eps * 1).
  { eapply is_mean_le; [|exact HV|exact (is_mean_lin _ _ _ _ 1 eps A mean_1)]. intro z. cbv beta zeta. assert (Hp := X_pos x td r s Hx z). 
    set (y := stock_after x r s td z) in *. change (0 < y) in Hp. destruct (Rlt_dec Ic y) as [Q|Q].
    - pose proof (black_call_slope K (t - td) r s Ic y HK ltac:(lra) Hs HI ltac:(lra)). apply Rmax_lub; lra.
    - pose proof (black_call_slope K (t - td) r s y Ic HK ltac:(lra) Hs Hp ltac:(lra)). apply Rmax_lub; lra. }
  assert (F : exp (- r * td) * (exp (r * td) * P) = P) by (rewrite <- Rmult_assoc, E; ring).
  split; rewrite <- F.
  - rewrite <- Rmult_minus_distr_l. apply Rmult_le_compat_l; lra.
  - apply Rmult_le_compat_l; lra.
Qed.

(** ** There is a bivariate normal distribution function *)
Definition bvn (a b rho : R) : R := RInt_gen (fun y => Phi ((a - rho * y) / sqrt (1 - rho ^ 2)) * npdf y) (Rbar_locally m_infty) (at_point b).
Lemma bvn_ok : bivariate_normal bvn.
Proof.
  intros a b rho Hr. change R in b. unfold bvn. apply (RInt_gen_correct (V := R_CompleteNormedModule)). set (f := fun y => Phi ((a - rho * y) / sqrt (1 - rho ^ 2)) * npdf y).
  assert (Hc : forall y, continuous f y).
  { intro y. apply (continuous_mult (K := R_AbsRing)); [|apply npdf_cont]. apply (continuous_comp (fun y => (a - rho * y) / sqrt (1 - rho ^ 2)) Phi); [|apply (ex_derive_continuous Phi); eexists; apply Phi_derive].
    apply (ex_derive_continuous (fun y => (a - rho * y) / sqrt (1 - rho ^ 2))). auto_derive. exact Coq.Init.Logic.I. }
  assert (Hi : forall u v, ex_RInt f u v) by (intros; apply (ex_RInt_continuous (V := R_CompleteNormedModule)); intros; apply Hc).
  assert (Hf : forall y, 0 <= f y <= npdf y).
  { intro y. unfold f. pose proof (Phi_gt_0 ((a - rho * y) / sqrt (1 - rho ^ 2))). pose proof (Phi_lt_1 ((a - rho * y) / sqrt (1 - rho ^ 2))). assert (0 < npdf y) by apply npdf_pos. nra. }
  pose (F := fun x : R => RInt f x b : R).
  assert (Hm : forall x y, x <= y -> F y <= F x).
  { intros x y Hxy. assert (C : RInt f x y + F y = F x) by exact (RInt_Chasles (V := R_CompleteNormedModule) f x y b (Hi _ _) (Hi _ _)). assert (0 <= RInt f x y) by (apply RInt_ge_0; [exact Hxy|apply Hi|intros; apply Hf]). lra. }
  assert (Hb : forall x, x <= b -> F x <= 1).
  { intros x Hx. unfold F. apply Rle_trans with (RInt npdf x b); [apply RInt_le; [exact Hx|apply Hi|apply npdf_int|intros; apply Hf]|].
    assert (X := is_RInt_derive Phi npdf x b ltac:(intros; apply Phi_derive) ltac:(intros; apply npdf_cont)). rewrite (is_RInt_unique (V := R_CompleteNormedModule) _ _ _ _ X). unfold minus, plus, opp. cbn. pose proof (Phi_lt_1 b). pose proof (Phi_gt_0 x). lra. }
  destruct (ex_finite_lim_seq_incr (fun n => F (b - INR n)) 1) as (L & HL).
  - intro n. apply Hm. rewrite S_INR. lra.
  - intro n. apply Hb. pose proof (pos_INR n). lra.
  - exists L. apply lint_gen. intros eps He. apply is_lim_seq_spec in HL. destruct (HL (mkposreal eps He)) as (N & HN). exists (b - INR N). intros x Hx. exists (F x).
    split; [apply (RInt_correct (V := R_CompleteNormedModule)); apply Hi|].
    assert (UB : F x <= L).
    { destruct (archimed (b - x)) as [Ha _]. assert (Hz : (0 <= up (b - x))%Z) by (apply le_IZR; pose proof (pos_INR N); lra). 
      apply Rle_trans with (F (b - INR (Z.to_nat (up (b - x))))).
      - apply Hm. rewrite INR_IZR_INZ, Z2Nat.id by exact Hz. lra.
      - apply (is_lim_seq_incr_compare (fun n => F (b - INR n)) L); [apply is_lim_seq_spec; exact HL|]. intro n. apply Hm. rewrite S_INR. lra. }
    specialize (HN N (le_n N)). change (Rabs (F (b - INR N) - L) < eps) in HN. apply Rabs_def2 in HN. assert (F (b - INR N) <= F x) by (apply Hm; apply Rlt_le; exact Hx). apply Rabs_def1; lra.
Qed.
