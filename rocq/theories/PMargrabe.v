(** Closed forms of the lognormal means: the Black-Scholes call and Margrabe's exchange option. *)
From Coq Require Import Reals String List Arith ZArith Lra Lia.
From Coquelicot Require Import Coquelicot.
From Verif Require Import Num Py PBlack SMonte PCnd PGauss SHeston PHeston PHeston2 PExpect PExpect2 PRgw2 PCnd2 PClt.
Import List ListNotations.
Open Scope R_scope.

Lemma lint_0 a : lint (fun _ => 0) a 0.
Proof. intros eps He. exists a. intros x _. exists 0. split; [|rewrite Rminus_eq_0, Rabs_R0; exact He]. assert (H := is_RInt_const (V := R_NormedModule) x a 0). unfold scal in H; cbn in H; unfold mult in H; cbn in H. rewrite Rmult_0_r in H. exact H. Qed.
Lemma mean_bcall A X g : 0 < A -> 0 < X -> 0 < g -> is_mean (fun z => Rmax 0 (A * exp (g * z - g ^ 2 / 2) - X)) (bcall Phi A X g).
Proof.
  intros HA HX Hg. set (k := - bd2 A X g). assert (Q : forall z, A * exp (g * z - g ^ 2 / 2) = X * exp (g * (z - k))).
  { intro z. replace (g * (z - k)) with (g * z - g ^ 2 / 2 + ln (A / X)) by (unfold k, bd2; field; lra). rewrite exp_plus, exp_ln by now apply Rdiv_lt_0_compat. field. lra. }
  apply is_mean_gint. replace (bcall Phi A X g) with (0 + (A * Phi (g - k) + - X * Phi (0 - k))).
  - apply (gint_join _ k).
    + apply (lint_ext (fun _ => 0)); [|apply lint_0]. intros z Hz. rewrite Rmax_left; [ring|]. rewrite Q. assert (exp (g * (z - k)) <= 1) by (rewrite <- exp_0; apply exp_le; nra). nra.
    + eapply uint_ext; [|exact (uint_lin _ _ _ _ _ A (- X) (uint_npdf k g) (uint_npdf k 0))]. intros z Hz. cbv beta. rewrite Rmax_right.
      * rewrite npdf_shift, Rminus_0_r. ring.
      * rewrite Q. assert (1 <= exp (g * (z - k))) by (rewrite <- exp_0; apply exp_le; nra). nra.
  - unfold bcall. replace (g - k) with (bd1 A X g) by (unfold k; rewrite bd12; ring). replace (0 - k) with (bd2 A X g) by (unfold k; ring). ring.
Qed.
Lemma mean_exp_1 q : is_mean (fun z => exp (q * z - q ^ 2 / 2)) 1.
Proof. replace 1 with (1 * (1 + 1) + -1 * 1) by ring. eapply is_mean_ext; [|exact (is_mean_lin _ _ _ _ 1 (-1) (mean_exp 1 q) mean_1)]. intro z. cbv beta. ring. Qed.

(** ** mean of the normal distribution function *)
Lemma npdf_slope x : Rabs (x * npdf x) <= 1.
Proof.
  unfold npdf. assert (H1 : 1 <= sqrt (2 * PI)) by (rewrite <- sqrt_1; apply sqrt_le_1_alt; pose proof PI2_1; unfold PI2 in *; lra).
  assert (H2 : Rabs x <= exp (x ^ 2 / 2)) by (pose proof (exp_ineq1_le (x ^ 2 / 2)); rewrite <- (pow2_abs x) in *; pose proof (Rabs_pos x); nra).
  assert (E : exp (- x ^ 2 / 2) * exp (x ^ 2 / 2) = 1) by (rewrite <- exp_plus; replace (- x ^ 2 / 2 + x ^ 2 / 2) with 0 by field; apply exp_0).
  pose proof (exp_pos (- x ^ 2 / 2)). rewrite Rabs_mult, (Rabs_pos_eq (_ / _)) by (apply Rlt_le, Rdiv_lt_0_compat; lra).
  apply Rle_trans with (Rabs x * exp (- x ^ 2 / 2)); [|nra]. apply Rmult_le_compat_l; [apply Rabs_pos|]. apply Rmult_le_reg_r with (sqrt (2 * PI)); [lra|].
  unfold Rdiv. rewrite Rmult_assoc, Rinv_l by lra. nra.
Qed.
Lemma npdf_lip x y : Rabs (npdf y - npdf x) <= Rabs (y - x).
Proof.
  assert (P : forall x y, x < y -> Rabs (npdf y - npdf x) <= Rabs (y - x)).
  { clear. intros x y H. destruct (MVT_cor2 npdf (fun x => - x * npdf x) x y H) as (c & E & Hc); [intros c _; apply is_derive_Reals, npdf_derive|].
    rewrite E, Rabs_mult. replace (- c * npdf c) with (- (c * npdf c)) by ring. rewrite Rabs_Ropp. pose proof (npdf_slope c). pose proof (Rabs_pos (y - x)). nra. }
  destruct (Rtotal_order x y) as [H|[->|H]]; [now apply P|rewrite !Rminus_eq_0; lra|]. rewrite (Rabs_minus_sym (npdf y)), (Rabs_minus_sym y). now apply P.
Qed.
Lemma Phi_taylor x h : Rabs (Phi (x + h) - Phi x - h * npdf x) <= h ^ 2.
Proof.
  assert (G : exists c, Rabs (c - x) <= Rabs h /\ Phi (x + h) - Phi x = npdf c * h).
  { destruct (Rtotal_order h 0) as [H|[->|H]].
    - destruct (MVT_cor2 Phi npdf (x + h) x ltac:(lra)) as (c & E & Hc); [intros c _; apply is_derive_Reals, Phi_derive|]. exists c. split; [rewrite !Rabs_left1 by lra; lra|]. lra.
    - exists x. rewrite Rminus_eq_0, Rplus_0_r. split; [lra|ring].
    - destruct (MVT_cor2 Phi npdf x (x + h) ltac:(lra)) as (c & E & Hc); [intros c _; apply is_derive_Reals, Phi_derive|]. exists c. split; [rewrite !Rabs_pos_eq by lra; lra|]. lra. }
  destruct G as (c & Hc & E). rewrite E. replace (npdf c * h - h * npdf x) with (h * (npdf c - npdf x)) by ring. rewrite Rabs_mult, <- (pow2_abs h). pose proof (npdf_lip x c). pose proof (Rabs_pos h).
  replace (Rabs h ^ 2) with (Rabs h * Rabs h) by ring. apply Rmult_le_compat_l; lra.
Qed.
Lemma derive_quadratic (F : R -> R) a l : (forall h, Rabs (F (a + h) - F a - h * l) <= h ^ 2) -> is_derive F a l.
Proof.
  intro H. apply is_derive_Reals. intros eps He. exists (mkposreal eps He). intros h Hh0 Hh. cbn in Hh. specialize (H h).
  assert (0 < Rabs h) by now apply Rabs_pos_lt. apply Rmult_lt_reg_r with (Rabs h); [assumption|]. rewrite <- Rabs_mult.
  replace (((F (a + h) - F a) / h - l) * h) with (F (a + h) - F a - h * l) by (field; exact Hh0). eapply Rle_lt_trans; [exact H|]. rewrite <- (pow2_abs h). nra.
Qed.
Lemma Phi_abs x : Rabs (Phi x) <= 1.
Proof. pose proof (Phi_gt_0 x). pose proof (Phi_lt_1 x). apply Rabs_le. lra. Qed.
Lemma mean_Phi_ex a b : is_mean (fun z => Phi (a + b * z)) (Tm (fun z => Phi (a + b * z))).
Proof.
  destruct (mean_exists (fun z => Phi (a + b * z)) 1 0) as (v & Hv); [lra| | |now rewrite (Tm_val _ _ Hv)].
  - intro z. apply (continuous_comp (fun z => a + b * z) Phi); [apply (ex_derive_continuous (fun z => a + b * z)); auto_derive; exact Coq.Init.Logic.I|].
    apply (ex_derive_continuous Phi). eexists. apply Phi_derive.
  - intro z. pose proof (Phi_abs (a + b * z)). rewrite Ropp_0, !Rmult_0_l, exp_0. lra.
Qed.
Lemma mean_npdf a b : is_mean (fun z => npdf (a + b * z)) (npdf (a / sqrt (1 + b ^ 2)) / sqrt (1 + b ^ 2)).
Proof.
  set (u := sqrt (1 + b ^ 2)). assert (Hb : 0 < 1 + b ^ 2) by (pose proof (pow2_ge_0 b); lra). assert (Hu : 0 < u) by now apply sqrt_lt_R0. assert (Hu2 : u ^ 2 = 1 + b ^ 2) by (unfold u; rewrite pow2_sqrt; lra).
  apply is_mean_gint. assert (X := mean_1). apply is_mean_gint in X. apply (gint_comp _ _ u (a * b / u) Hu) in X.
  assert (Y := gint_lin _ _ _ _ (npdf (a / u) / u) 0 X X). replace (npdf (a / u) / u * 1 + 0 * 1) with (npdf (a / u) / u) in Y by ring. eapply gint_ext; [|exact Y]. intro z. cbv beta.
  transitivity (npdf (a / u) * npdf (u * z + a * b / u)); [field; lra|]. unfold npdf.
  transitivity (exp (- (a / u) ^ 2 / 2 + - (u * z + a * b / u) ^ 2 / 2) / (sqrt (2 * PI)) ^ 2); [rewrite exp_plus; field; apply Rgt_not_eq, sqrt_lt_R0; pose proof PI_RGT_0; lra|].
  replace (- (a / u) ^ 2 / 2 + - (u * z + a * b / u) ^ 2 / 2) with (- (a + b * z) ^ 2 / 2 + - z ^ 2 / 2); [rewrite exp_plus; field; apply Rgt_not_eq, sqrt_lt_R0; pose proof PI_RGT_0; lra|].
  transitivity (- (a ^ 2 * (1 + b ^ 2) / u ^ 2 + u ^ 2 * z ^ 2 + 2 * z * (a * b)) / 2); [|field; lra]. rewrite Hu2. field. lra.
Qed.
Lemma mean_Phi a b : is_mean (fun z => Phi (a + b * z)) (Phi (a / sqrt (1 + b ^ 2))).
Proof.
  set (u := sqrt (1 + b ^ 2)). assert (Hb : 0 < 1 + b ^ 2) by (pose proof (pow2_ge_0 b); lra). assert (Hu : 0 < u) by now apply sqrt_lt_R0.
  pose (F := fun a => Tm (fun z => Phi (a + b * z)) : R).
  assert (DF : forall a, is_derive F a (npdf (a / u) / u)).
  { intro x. apply derive_quadratic. intro h. assert (HL := is_mean_lin _ _ _ _ 1 (- h) (is_mean_lin _ _ _ _ 1 (-1) (mean_Phi_ex (x + h) b) (mean_Phi_ex x b)) (mean_npdf x b)). cbv beta in HL. fold u in HL.
    unfold F. replace (Tm (fun z => Phi (x + h + b * z)) - Tm (fun z => Phi (x + b * z)) - h * (npdf (x / u) / u)) with (1 * (1 * Tm (fun z => Phi (x + h + b * z)) + -1 * Tm (fun z => Phi (x + b * z))) + - h * (npdf (x / u) / u)) by ring.
    rewrite <- (Rmult_1_r (h ^ 2)). refine (mean_abs _ _ _ _ _ HL (mean_scal _ _ (h ^ 2) mean_1)). intro z. cbv beta.
    replace (1 * (1 * Phi (x + h + b * z) + -1 * Phi (x + b * z)) + - h * npdf (x + b * z)) with (Phi (x + b * z + h) - Phi (x + b * z) - h * npdf (x + b * z)) by (replace (x + b * z + h) with (x + h + b * z) by ring; ring).
    rewrite Rmult_1_r. apply Phi_taylor. }
  assert (F0 : F 0 = 1 / 2).
  { assert (H1 := mean_Phi_ex 0 b). assert (H2 : is_mean (fun z => Phi (0 + b * z)) (1 - Tm (fun z => Phi (0 + b * z)))).
    { assert (X := H1). apply is_mean_gint in X. assert (Y : gint (fun z => Phi (0 - b * z) * npdf z) (Tm (fun z => Phi (0 + b * z)))).
      { intros eps He. destruct (X eps He) as (M & HM). exists M. intros x y Hx Hy. destruct (HM (- y) (- x) ltac:(lra) ltac:(lra)) as (I0 & A & B). exists I0. split; [|exact B].
        assert (Z := is_RInt_comp_opp (V := R_NormedModule) (fun z => Phi (0 + b * z) * npdf z) x y (- I0)). apply is_RInt_swap in A. specialize (Z A).
        apply (is_RInt_opp (V := R_NormedModule)) in Z. rewrite <- (Ropp_involutive I0). eapply is_RInt_ext; [|exact Z]. intros w _. cbn. unfold opp. cbn. rewrite Ropp_involutive.
        replace (0 + b * - w) with (0 - b * w) by ring. now rewrite npdf_even. }
      apply is_mean_gint in Y. replace (1 - Tm (fun z => Phi (0 + b * z))) with (1 * 1 + -1 * Tm (fun z => Phi (0 + b * z))) by ring.
      eapply is_mean_ext; [|exact (is_mean_lin _ _ _ _ 1 (-1) mean_1 Y)]. intro z. cbv beta. replace (0 - b * z) with (- (0 + b * z)) by ring. rewrite Phi_opp. ring. }
    assert (E := is_mean_unique _ _ _ H1 H2). fold (F 0) in E. lra. }
  assert (DG : forall a, is_derive (fun a => F a - Phi (a / u)) a 0).
  { intro x. evar_last; [apply (is_derive_minus (K := R_AbsRing) (V := R_NormedModule) F (fun a => Phi (a / u)) x); [apply DF|apply (is_derive_comp Phi (fun a => a / u)); [apply Phi_derive|auto_derive; [exact Coq.Init.Logic.I|reflexivity]]]|].
    unfold minus, plus, opp, scal. cbn. unfold mult. cbn. field. lra. }
  assert (E := const_of_derive (fun a => F a - Phi (a / u)) a 0 DG). cbv beta in E. rewrite F0 in E. replace (0 / u) with 0 in E by (field; lra). rewrite Phi_0 in E.
  assert (H := mean_Phi_ex a b). fold (F a) in H. replace (Phi (a / u)) with (F a) by lra. exact H.
Qed.
(** with an exponential weight *)
Lemma mean_exp_Phi a b q : is_mean (fun z => exp (q * z - q ^ 2 / 2) * Phi (a + b * z)) (Phi ((a + b * q) / sqrt (1 + b ^ 2))).
Proof.
  eapply is_mean_ext; [|exact (mean_shift _ _ q (mean_Phi (a + b * q) b))]. intro z. cbv beta. replace (a + b * q + b * (z - q)) with (a + b * z) by ring. ring.
Qed.

(** ** Black's formula averaged over a further lognormal factor in each argument *)
Lemma black_step A1 A2 al be ga : 0 < A1 -> 0 < A2 -> 0 < ga ->
  is_mean (fun z => bcall Phi (A2 * exp (be * z - be ^ 2 / 2)) (A1 * exp (al * z - al ^ 2 / 2)) ga) (bcall Phi A2 A1 (sqrt (ga ^ 2 + (be - al) ^ 2))).
Proof.
  intros H1 H2 Hg. set (v := sqrt (ga ^ 2 + (be - al) ^ 2)). assert (Hv2 : v ^ 2 = ga ^ 2 + (be - al) ^ 2) by (unfold v; rewrite pow2_sqrt; [reflexivity|pose proof (pow2_ge_0 (be - al)); nra]).
  assert (Hv : 0 < v) by (apply sqrt_lt_R0; pose proof (pow2_ge_0 (be - al)); nra). set (b := (be - al) / ga).
  assert (Hb : sqrt (1 + b ^ 2) = v / ga).
  { apply sqrt_lem_1; [pose proof (pow2_ge_0 b); lra|apply Rlt_le, Rdiv_lt_0_compat; assumption|]. unfold b. transitivity (v ^ 2 / ga ^ 2); [field; lra|]. rewrite Hv2. field. lra. }
  set (c := ln (A2 / A1)). set (k := - be ^ 2 / 2 + al ^ 2 / 2).
  assert (L : forall z, ln (A2 * exp (be * z - be ^ 2 / 2) / (A1 * exp (al * z - al ^ 2 / 2))) = c + k + (be - al) * z).
  { intro z. replace (A2 * exp (be * z - be ^ 2 / 2) / (A1 * exp (al * z - al ^ 2 / 2))) with (A2 / A1 * exp (k + (be - al) * z)).
    - rewrite ln_mult, ln_exp; [unfold c; ring|now apply Rdiv_lt_0_compat|apply exp_pos].
    - replace (k + (be - al) * z) with ((be * z - be ^ 2 / 2) + - (al * z - al ^ 2 / 2)) by (unfold k; field). rewrite exp_plus, exp_Ropp. field. split; [apply Rgt_not_eq, exp_pos|lra]. }
  assert (P := is_mean_lin _ _ _ _ A2 (- A1) (mean_exp_Phi ((c + k) / ga + ga / 2) b be) (mean_exp_Phi ((c + k) / ga - ga / 2) b al)). rewrite Hb in P.
  replace (bcall Phi A2 A1 v) with (A2 * Phi (((c + k) / ga + ga / 2 + b * be) / (v / ga)) + - A1 * Phi (((c + k) / ga - ga / 2 + b * al) / (v / ga))).
  - eapply is_mean_ext; [|exact P]. intro z. cbv beta. unfold bcall, bd1, bd2. rewrite L.
    replace ((c + k + (be - al) * z) / ga + ga / 2) with ((c + k) / ga + ga / 2 + b * z) by (unfold b; field; lra).
    replace ((c + k + (be - al) * z) / ga - ga / 2) with ((c + k) / ga - ga / 2 + b * z) by (unfold b; field; lra). ring.
  - unfold bcall, bd1, bd2. fold c.
    replace (((c + k) / ga + ga / 2 + b * be) / (v / ga)) with (c / v + v / 2).
    + replace (((c + k) / ga - ga / 2 + b * al) / (v / ga)) with (c / v - v / 2); [ring|].
      transitivity ((c - v ^ 2 / 2) / v); [field; lra|]. rewrite Hv2. unfold b, k. field. lra.
    + transitivity ((c + v ^ 2 / 2) / v); [field; lra|]. rewrite Hv2. unfold b, k. field. lra.
Qed.

(** ** Margrabe *)
Definition X1 (A al z1 : R) : R := A * exp (al * z1 - al ^ 2 / 2).
Definition X2 (A be ga z1 z2 : R) : R := A * exp (be * z1 + ga * z2 - (be ^ 2 + ga ^ 2) / 2).
Lemma exchange_mean A1 A2 al be ga : 0 < A1 -> 0 < A2 -> 0 < ga ->
  is_expect 2 (fun zs => Rmax 0 (X2 A2 be ga (nth 0 zs 0) (nth 1 zs 0) - X1 A1 al (nth 0 zs 0))) (bcall Phi A2 A1 (sqrt (ga ^ 2 + (be - al) ^ 2))).
Proof.
  intros H1 H2 Hg. exists (fun z => bcall Phi (A2 * exp (be * z - be ^ 2 / 2)) (A1 * exp (al * z - al ^ 2 / 2)) ga). split.
  - intro z. exists (fun y => Rmax 0 (A2 * exp (be * z - be ^ 2 / 2) * exp (ga * y - ga ^ 2 / 2) - A1 * exp (al * z - al ^ 2 / 2))). split.
    + intro y. cbn [is_expect nth]. unfold X1, X2. rewrite Rmult_assoc, <- exp_plus. do 4 f_equal. field.
    + apply mean_bcall; [apply Rmult_lt_0_compat; [assumption|apply exp_pos]..|assumption].
  - now apply black_step.
Qed.
Lemma mean_const c : is_mean (fun _ => c) c.
Proof. assert (H := mean_scal _ _ c mean_1). rewrite Rmult_1_r in H. eapply is_mean_ext; [|exact H]. intro; cbv beta; ring. Qed.
Lemma mean_scal1 f c : is_mean f 1 -> is_mean (fun z => c * f z) c.
Proof. intro H. apply (mean_scal _ _ c) in H. now rewrite Rmult_1_r in H. Qed.
Lemma X1_mean A al : is_expect 2 (fun zs => X1 A al (nth 0 zs 0)) A.
Proof.
  exists (fun z => X1 A al z). split.
  - intro z. exists (fun _ => X1 A al z). split; [reflexivity|]. apply mean_const.
  - apply (mean_scal1 _ A), mean_exp_1.
Qed.
Lemma X2_mean A be ga : is_expect 2 (fun zs => X2 A be ga (nth 0 zs 0) (nth 1 zs 0)) A.
Proof.
  exists (fun z => X1 A be z). split.
  - intro z. exists (fun y => X2 A be ga z y). split; [reflexivity|]. eapply is_mean_ext; [|exact (mean_scal1 _ (X1 A be z) (mean_exp_1 ga))].
    intro y. cbv beta. unfold X1, X2. rewrite Rmult_assoc, <- exp_plus. do 2 f_equal. field.
  - apply (mean_scal1 _ A), mean_exp_1.
Qed.

(** ** several equal steps *)
Lemma black_steps n : forall A X g, 0 < A -> 0 < X -> 0 < g ->
  is_expect (S n) (fun zs => Rmax 0 (A * exp (g * total zs - INR (S n) * g ^ 2 / 2) - X)) (bcall Phi A X (g * sqrt (INR (S n)))).
Proof.
  induction n as [|n IH]; intros A X g HA HX Hg.
  - exists (fun z => Rmax 0 (A * exp (g * z - g ^ 2 / 2) - X)). split.
    + intro z. cbn. f_equal. f_equal. f_equal. f_equal. field.
    + cbn [INR]. rewrite sqrt_1, Rmult_1_r. now apply mean_bcall.
  - set (n1 := S n) in *. assert (Hn : 0 < INR n1) by (apply lt_0_INR; unfold n1; lia). assert (Hq : 0 < sqrt (INR n1)) by now apply sqrt_lt_R0.
    exists (fun z => bcall Phi (A * exp (g * z - g ^ 2 / 2)) X (g * sqrt (INR n1))). split.
    + intro z. eapply is_expect_ext; [|apply (IH (A * exp (g * z - g ^ 2 / 2)) X g); [apply Rmult_lt_0_compat; [exact HA|apply exp_pos]|exact HX|exact Hg]].
      intros zs _. cbv beta. rewrite Rmult_assoc, <- exp_plus. f_equal. f_equal. f_equal. f_equal. change (total (z :: zs)) with (z + total zs). rewrite (S_INR n1). field.
    + assert (P := black_step X A 0 g (g * sqrt (INR n1)) HX HA ltac:(apply Rmult_lt_0_compat; assumption)).
      replace (g * sqrt (INR (S n1))) with (sqrt ((g * sqrt (INR n1)) ^ 2 + (g - 0) ^ 2)).
      * eapply is_mean_ext; [|exact P]. intro z. cbv beta. replace (0 * z - 0 ^ 2 / 2) with 0 by field. now rewrite exp_0, Rmult_1_r.
      * apply sqrt_lem_1; [pose proof (pow2_ge_0 (g * sqrt (INR n1))); pose proof (pow2_ge_0 (g - 0)); lra|apply Rmult_le_pos; [lra|apply sqrt_pos]|].
        assert (E1 := sqrt_sqrt (INR n1) ltac:(lra)). assert (E2 := sqrt_sqrt (INR (S n1)) (pos_INR _)). rewrite S_INR in E2 |- *.
        replace (g * sqrt (INR n1 + 1) * (g * sqrt (INR n1 + 1))) with (g ^ 2 * (sqrt (INR n1 + 1) * sqrt (INR n1 + 1))) by ring. rewrite E2.
        replace ((g * sqrt (INR n1)) ^ 2) with (g ^ 2 * (sqrt (INR n1) * sqrt (INR n1))) by ring. rewrite E1. ring.
Qed.
Lemma gbm_steps_mean n : forall A g, is_expect n (fun zs => A * exp (g * total zs - INR n * g ^ 2 / 2)) A.
Proof.
  induction n as [|n IH]; intros A g.
  - cbn. replace (g * 0 - 0 * (g * (g * 1)) / 2) with 0 by field. rewrite exp_0. ring.
  - exists (fun z => A * exp (g * z - g ^ 2 / 2)). split.
    + intro z. eapply is_expect_ext; [|apply (IH (A * exp (g * z - g ^ 2 / 2)) g)]. intros zs _. cbv beta. rewrite Rmult_assoc, <- exp_plus. f_equal. f_equal.
      change (total (z :: zs)) with (z + total zs). rewrite S_INR. field.
    + apply (mean_scal1 _ A), mean_exp_1.
Qed.
