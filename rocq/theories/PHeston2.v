(** Heston-Nandi option: the integrand is a mean over the GARCH process; parity, Greeks, scaling (C50, C51). *)
From Coq Require Import Reals ZArith QArith Qreals Lra Lia.
From Coquelicot Require Import Coquelicot.
From Coq Require Import List Bool.
From Verif Require Import Num Py MAmerican MMonte MHeston SMonte SHeston PCnd PCnd2 PGauss PMonte4 PCplx PHnGauss PHeston.
Import ListNotations.
Open Scope R_scope.

(* ------------------------------------------------------------------ *)
(** * Means are linear *)
Lemma gint_lin f g v w a b : gint f v -> gint g w -> gint (fun z => a * f z + b * g z) (a * v + b * w).
Proof.
  intros H1 H2 eps He. set (d := eps / (Rabs a + Rabs b + 1)). pose proof (Rabs_pos a). pose proof (Rabs_pos b).
  assert (Hd : 0 < d) by (apply Rdiv_lt_0_compat; lra). assert (E : d * (Rabs a + Rabs b + 1) = eps) by (unfold d; field; lra).
  destruct (H1 d Hd) as (M1 & X1). destruct (H2 d Hd) as (M2 & X2). exists (Rmax M1 M2). intros x y Hx Hy.
  pose proof (Rmax_l M1 M2). pose proof (Rmax_r M1 M2).
  destruct (X1 x y) as (I1 & A1 & B1); [lra|lra|]. destruct (X2 x y) as (I2 & A2 & B2); [lra|lra|].
  exists (a * I1 + b * I2). split.
  - apply (is_RInt_plus (V := R_NormedModule) (fun z => a * f z) (fun z => b * g z)); apply (is_RInt_scal (V := R_NormedModule)); assumption.
  - replace (a * I1 + b * I2 - (a * v + b * w)) with (a * (I1 - v) + b * (I2 - w)) by ring.
    eapply Rle_lt_trans; [apply Rabs_triang|]. rewrite !Rabs_mult. pose proof (Rabs_pos (I1 - v)). pose proof (Rabs_pos (I2 - w)). nra.
Qed.
Lemma is_mean_lin f g v w a b : is_mean f v -> is_mean g w -> is_mean (fun z => a * f z + b * g z) (a * v + b * w).
Proof. rewrite !is_mean_gint. intros H1 H2. eapply gint_ext; [|apply (gint_lin _ _ _ _ a b H1 H2)]. intro z. cbn beta. ring. Qed.
Lemma is_expect_lin n : forall f g v w a b, is_expect n f v -> is_expect n g w -> is_expect n (fun zs => a * f zs + b * g zs) (a * v + b * w).
Proof.
  induction n as [|n IH]; cbn; intros f g v w a b; [now intros -> ->|].
  intros (h & H1 & H2) (k & K1 & K2). exists (fun z => a * h z + b * k z). split; [intro z; now apply IH|now apply is_mean_lin].
Qed.
Lemma is_expect_unique n : forall f v w, is_expect n f v -> is_expect n f w -> v = w.
Proof.
  induction n as [|n IH]; cbn; intros f v w; [congruence|]. intros (h & H1 & H2) (k & K1 & K2).
  eapply is_mean_unique; [exact H2|]. eapply is_mean_ext; [|exact K2]. intro z. eapply IH; [apply K1|apply H1].
Qed.

(* ------------------------------------------------------------------ *)
(** * Moments: the mean of the next variance *)
Lemma gint_der (F f : R -> R) l u : (forall z, is_derive F z (f z)) -> (forall z, continuous f z) ->
  (forall eps, 0 < eps -> exists M, forall x, M < x -> Rabs (F x - u) < eps /\ Rabs (F (- x) - l) < eps) -> gint f (u - l).
Proof.
  intros HD HC HL eps He. destruct (HL (eps / 2) ltac:(lra)) as (M & HM). exists M. intros a b Ha Hb. exists (F b - F a). split.
  - apply (is_RInt_derive (V := R_CompleteNormedModule)); intros; [apply HD|apply HC].
  - destruct (HM b Hb) as [X _]. destruct (HM (- a) ltac:(lra)) as [_ Y]. rewrite Ropp_involutive in Y.
    replace (F b - F a - (u - l)) with ((F b - u) - (F a - l)) by ring. eapply Rle_lt_trans; [apply Rabs_triang|]. rewrite Rabs_Ropp. lra.
Qed.
Lemma npdf_pos z : 0 < npdf z.
Proof. unfold npdf. apply Rdiv_lt_0_compat; [apply exp_pos|]. apply sqrt_lt_R0. generalize PI_RGT_0. lra. Qed.
Lemma npdf_even z : npdf (- z) = npdf z.
Proof. unfold npdf. do 2 f_equal. field. Qed.
Lemma sqrt2pi_gt1 : 1 < sqrt (2 * PI).
Proof. rewrite <- sqrt_1 at 1. apply sqrt_lt_1; generalize PI2_3_2; intros; lra. Qed.
Lemma npdf_tail eps : 0 < eps -> exists M, forall x, M < Rabs x -> (1 + Rabs x) * npdf x < eps.
Proof.
  intro He. destruct (gtail_lim 0 0 ltac:(cbn; lra) eps He) as (M & HM). exists M. intros x Hx. specialize (HM x Hx). unfold gtail, gc in HM.
  rewrite Cmod_0 in HM. replace (Rmin 1 (1 - 2 * Re 0)) with 1 in HM by (cbn; rewrite Rmin_left; lra).
  replace (- (1 / 2) * x ^ 2 + 0 * Rabs x) with (- (x ^ 2) / 2) in HM by field. eapply Rle_lt_trans; [|exact HM].
  apply Rmult_le_compat_l; [generalize (Rabs_pos x); lra|]. unfold npdf. generalize sqrt2pi_gt1 (exp_pos (- x ^ 2 / 2)). intros H1 H2.
  apply Rmult_le_reg_r with (sqrt (2 * PI)); [lra|]. unfold Rdiv at 1. rewrite Rmult_assoc, Rinv_l by lra. nra.
Qed.
Lemma mean_1 : is_mean (fun _ => 1) 1.
Proof.
  apply is_mean_gint. eapply gint_ext; [|evar_last; [apply (gint_der Phi npdf 0 1)|]].
  - intro z. cbn beta. ring. - apply Phi_derive. - apply npdf_cont.
  - intros eps He. destruct (Phi_near_1 eps He) as (M & HM). exists M. intros x Hx. specialize (HM x Hx). pose proof (Phi_lt_1 x). pose proof (Phi_opp x).
    split; apply Rabs_def1; lra.
  - ring.
Qed.
Lemma mean_z : is_mean (fun z => z) 0.
Proof.
  apply is_mean_gint. evar_last; [apply (gint_der (fun z => - npdf z) _ 0 0)|].
  - intro z. evar_last. { apply (is_derive_opp (K := R_AbsRing) (V := R_NormedModule)), npdf_derive. } unfold opp. cbn. ring.
  - intro z. apply (continuous_mult (K := R_AbsRing) (fun z => z) npdf); [apply continuous_id|apply npdf_cont].
  - intros eps He. destruct (npdf_tail eps He) as (M & HM). exists (Rmax 0 M). intros x Hx. pose proof (Rmax_l 0 M). pose proof (Rmax_r 0 M).
    specialize (HM x ltac:(rewrite Rabs_pos_eq; lra)). rewrite Rabs_pos_eq in HM by lra. pose proof (npdf_pos x). rewrite npdf_even. split; apply Rabs_def1; nra.
  - ring.
Qed.
Lemma mean_z2 : is_mean (fun z => z ^ 2) 1.
Proof.
  apply is_mean_gint. evar_last; [apply (gint_der (fun z => Phi z - z * npdf z) _ 0 1)|].
  - intro z. evar_last. { apply (is_derive_minus (K := R_AbsRing) (V := R_NormedModule) Phi (fun z => z * npdf z)); [apply Phi_derive|].
      apply (rder_mult (fun z => z) npdf z 1); [apply (is_derive_id (K := R_AbsRing))|apply npdf_derive]. }
    unfold minus, plus, opp. cbn. ring.
  - intro z. apply (continuous_mult (K := R_AbsRing) (fun z => z ^ 2) npdf); [|apply npdf_cont]. apply (ex_derive_continuous (V := R_NormedModule) (fun z => z ^ 2)). auto_derive. easy.
  - intros eps He. destruct (npdf_tail (eps / 2) ltac:(lra)) as (M & HM). destruct (Phi_near_1 (eps / 2) ltac:(lra)) as (M2 & HM2). exists (Rmax 0 (Rmax M M2)). intros x Hx.
    pose proof (Rmax_l 0 (Rmax M M2)). pose proof (Rmax_r 0 (Rmax M M2)). pose proof (Rmax_l M M2). pose proof (Rmax_r M M2).
    specialize (HM x ltac:(rewrite Rabs_pos_eq; lra)). rewrite Rabs_pos_eq in HM by lra. specialize (HM2 x ltac:(lra)). pose proof (Phi_lt_1 x). pose proof (Phi_opp x). pose proof (npdf_pos x). rewrite npdf_even. split; apply Rabs_def1; nra.
  - ring.
Qed.
Lemma mean_next omega alpha beta g h : 0 <= h -> is_mean (hn_next omega alpha beta g h) (omega + alpha + (alpha * g ^ 2 + beta) * h).
Proof.
  intro Hh. set (q := sqrt h). assert (Hq : q * q = h) by now apply sqrt_sqrt.
  assert (H := is_mean_lin _ _ _ _ 1 1 (is_mean_lin _ _ _ _ (omega + alpha * g ^ 2 * h + beta * h) (- (2 * alpha * g * q)) mean_1 mean_z) (is_mean_lin _ _ _ _ alpha 0 mean_z2 mean_1)).
  evar_last; [eapply is_mean_ext; [|exact H]|ring]. intro z. cbn beta. unfold hn_next. fold q. replace (alpha * g ^ 2 * h) with (alpha * g ^ 2 * (q * q)) by (rewrite Hq; ring). ring.
Qed.
Lemma stationary_iff omega alpha beta g h : alpha * g ^ 2 + beta < 1 -> 0 <= h -> (stationary omega alpha beta g h <-> h = (omega + alpha) / (1 - beta - alpha * g ^ 2)).
Proof.
  intros Hp Hh. unfold stationary. assert (HM := mean_next omega alpha beta g h Hh). split.
  - intro H. assert (E := is_mean_unique _ _ _ H HM). apply Rmult_eq_reg_r with (1 - beta - alpha * g ^ 2); [|lra]. unfold Rdiv. rewrite Rmult_assoc, Rinv_l by lra. lra.
  - intro E. evar_last; [exact HM|]. assert (h * (1 - beta - alpha * g ^ 2) = omega + alpha) by (rewrite E; field; lra). lra.
Qed.

(* ------------------------------------------------------------------ *)
(** * The integrand *)
Definition hn_full (S K : R) (t : Z) (r lamb omega alpha beta gamma : R) : hn R :=
  mkHn S K (DInt t) r (Some lamb) (Some omega) (Some alpha) (Some beta) (Some gamma).

Lemma fHN_closed S K t r lamb omega alpha beta gamma c phi : phi <> 0 ->
  let g := gamma + lamb + 1 / 2 in let h := (omega + alpha) / (1 - beta - alpha * g ^ 2) in let cphi : C := (c, phi) in
  fHN_complex (hn_full S K t r lamb omega alpha beta gamma) phi c =
  Ok (Cexp ((0, - (phi * ln K))%R + cphi * ln S + (A_ omega alpha beta g r cphi (Z.to_nat (t - 1)) + B_ omega alpha beta g r cphi (Z.to_nat (t - 1)) * h))%C / (0, phi)%R / PI)%C.
Proof.
  intros Hphi g h cphi. unfold fHN_complex, hn_full, need, of_opt, bind. cbn [h_lamb h_omega h_alpha h_beta h_gamma h_t h_r h_S h_K days_range].
  assert (Eg : (gamma + lamb + lit (1 # 2))%num = g) by (unfold g; toR; lra). rewrite Eg.
  assert (El : (lit (-1 # 2) : R) = - (1) / 2) by (toR; lra). rewrite El.
  assert (Ep : cadd (lit 0, phi) (cre c) = cphi) by (unfold cphi; apply C_ext; toR; cbn; lra). rewrite Ep.
  assert (Eh : ((omega + alpha) / (lit 1 - beta - alpha * g ^ 2))%num = h). { unfold h. toR. repeat f_equal; lra. } rewrite Eh.
  unfold A_, B_. destruct (hn_ab omega alpha beta g (- (1) / 2) r cphi (Z.to_nat (t - 1))) as [a b]. cbn [fst snd]. f_equal.
  assert (E0 : (lit 0, phi) = (0, phi)) by (f_equal; toR; lra). rewrite E0.
  rewrite cdivr_C by (change pinum with PI; apply PI_neq0). change pinum with PI. rewrite cdiv_C by (intro E; injection E; lra). rewrite cexp_C. repeat f_equal.
  toC. apply C_ext; toR; unfold Re, Im; cbn; ring.
Qed.


(*@ C50_integrand | The function integrated for the price is a mean over the GARCH process: started at the stationary variance and run for t days with daily drift r and risk-neutral leverage gamma + lamb + 1/2, it is the mean of P^c sin(phi ln(P/K)) / (phi pi) for the terminal price P *)
Lemma hn_integrand : forall S K (t : Z) r lamb omega alpha beta gamma h c phi,
  let g := gamma + lamb + 1 / 2 in
  0 < S -> 0 < K -> (1 <= t)%Z -> 0 <= omega -> 0 <= alpha -> 0 <= beta -> alpha * g ^ 2 + beta < 1 ->
  0 <= h -> stationary omega alpha beta g h -> 0 <= c <= 1 -> phi <> 0 ->
  exists v, fHN (mkHn S K (DInt t) r (Some lamb) (Some omega) (Some alpha) (Some beta) (Some gamma)) c phi = Ok v /\
    is_expect (Z.to_nat t) (fun zs => let P := hn_price S (-1 / 2) omega alpha beta g r h zs in Rpower P c * sin (phi * ln (P / K)) / (phi * PI)) v.
Proof.
  intros S K t r lamb omega alpha beta gamma h c phi g HS HK Ht Ho Ha Hb Hp Hh Hst Hc Hphi.
  apply (stationary_iff _ _ _ _ _ Hp Hh) in Hst.
  change (mkHn _ _ _ _ _ _ _ _ _) with (hn_full S K t r lamb omega alpha beta gamma). unfold fHN. rewrite fHN_closed by exact Hphi. cbn [rmap]. eexists. split; [reflexivity|].
  fold g. rewrite <- Hst. set (cphi := (c, phi) : C). set (n := Z.to_nat (t - 1)).
  replace (Z.to_nat t) with (Datatypes.S n) by (unfold n; lia).
  destruct (hn_char omega alpha beta g r Ha Hb Ho cphi Hc n h (ln S) Hh) as [H1 H2].
  set (V := (cphi * ln S + (A_ omega alpha beta g r cphi n + B_ omega alpha beta g r cphi n * h))%C) in *.
  assert (H := is_expect_lin _ _ _ _ _ (- sin (phi * ln K) / (phi * PI)) (cos (phi * ln K) / (phi * PI)) H1 H2).
  pose proof PI_neq0 as Hpi.
  assert (EV : - sin (phi * ln K) / (phi * PI) * Re (Cexp V) + cos (phi * ln K) / (phi * PI) * Im (Cexp V) =
    re (Cexp ((0, - (phi * ln K))%R + cphi * ln S + (A_ omega alpha beta g r cphi n + B_ omega alpha beta g r cphi n * h))%C / (0, phi)%R / PI)%C).
  { replace ((0, - (phi * ln K))%R + cphi * ln S + (A_ omega alpha beta g r cphi n + B_ omega alpha beta g r cphi n * h))%C with ((0, - (phi * ln K))%R + V)%C by (unfold V; ring).
    rewrite Cexp_plus. set (W := Cexp V). clearbody W. destruct W as [w1 w2]. unfold re, Cexp, Cdiv, Cinv, Cmult. cbn. rewrite exp_0, cos_neg, sin_neg. field. repeat split; assumption || nra. }
  rewrite <- EV. eapply is_expect_ext; [|exact H]. intros zs _. cbn beta.
  assert (EP : ln (hn_price S (-1 / 2) omega alpha beta g r h zs) = ln S + lret omega alpha beta g r h zs).
  { unfold hn_price. rewrite ln_mult, ln_exp by (assumption || apply exp_pos). reflexivity. }
  assert (HP : 0 < hn_price S (-1 / 2) omega alpha beta g r h zs) by (apply Rmult_lt_0_compat; [exact HS|apply exp_pos]).
  set (P := hn_price S (-1 / 2) omega alpha beta g r h zs) in *. cbv zeta. rewrite ln_div by assumption. unfold Rpower. rewrite EP. set (x := ln S + lret omega alpha beta g r h zs).
  replace (phi * (x - ln K)) with (phi * x - phi * ln K) by ring. rewrite sin_minus. unfold cphi. unfold Cexp. cbn.
  replace (c * x - phi * 0) with (c * x) by ring. replace (c * 0 + phi * x) with (phi * x) by ring. field. split; [apply PI_neq0|exact Hphi].
Qed.

(** ** martingale *)
Lemma A_real omega alpha beta g r c n (Ha : 0 <= alpha) : c = 0 \/ c = 1 -> A_ omega alpha beta g r (RtoC c) n = RtoC (c * r * INR (Datatypes.S n)) /\ B_ omega alpha beta g r (RtoC c) n = 0%C.
Proof.
  intro Hc. assert (Hcc : c * c = c) by (destruct Hc; subst; ring).
  assert (HB : forall n, B_ omega alpha beta g r (RtoC c) n = 0%C -> B_ omega alpha beta g r (RtoC c) (Datatypes.S n) = 0%C).
  { intros k Hk. rewrite (B_S omega alpha beta g r Ha) by (rewrite Hk; cbn; lra). rewrite Hk.
    assert (Ep : p_ omega alpha beta g r (RtoC c) k = 1%C) by (unfold p_; rewrite Hk; ring). rewrite Ep. apply C_ext; cbn; [|field]. 
    replace (c - g) with (c + - g) by ring. field_simplify. replace (c ^ 2) with c by (cbn; lra). field. }
  induction n as [|n [IA IB]].
  - rewrite A_0, B_0. cbn [INR]. split; apply C_ext; cbn; try field. replace (c * c) with c by lra. field.
  - split; [|now apply HB]. rewrite (A_S omega alpha beta g r Ha) by (rewrite IB; cbn; lra). rewrite IA, IB.
    assert (Ep : p_ omega alpha beta g r (RtoC c) n = 1%C) by (unfold p_; rewrite IB; ring). rewrite Ep.
    assert (EL : Cln 1 = 0%C). { unfold Cln. apply C_ext; cbn; [replace (1 * (1 * 1) + 0 * (0 * 1)) with 1 by ring; now rewrite sqrt_1, ln_1|replace (0 / 1) with 0 by field; apply atan_0]. }
    rewrite EL, (S_INR (Datatypes.S n)). apply C_ext; cbn [Re Im fst snd RtoC Cplus Cminus Cmult Copp Cdiv Cinv]; field.
Qed.
Lemma is_expect_one n : is_expect n (fun _ => 1) 1.
Proof. induction n; cbn; [reflexivity|]. exists (fun _ => 1). split; [intro; exact IHn|apply mean_1]. Qed.
Lemma martingale S r omega alpha beta g h n : 0 <= omega -> 0 <= alpha -> 0 <= beta -> 0 <= h -> 0 < S ->
  is_expect n (hn_price S (-1 / 2) omega alpha beta g r h) (S * exp (r * INR n)).
Proof.
  intros Ho Ha Hb Hh HS. destruct n as [|n].
  - unfold hn_price. cbn. rewrite Rmult_0_r. reflexivity.
  - destruct (hn_char omega alpha beta g r Ha Hb Ho (RtoC 1) ltac:(cbn; lra) n h (ln S) Hh) as [H1 _].
    destruct (A_real omega alpha beta g r 1 n Ha (or_intror eq_refl)) as [EA EB]. rewrite EA, EB in H1.
    evar_last; [eapply is_expect_ext; [|exact H1]|].
    + intros zs _. cbn beta. rewrite <- RtoC_mult, Cexp_real. cbn [Re fst RtoC]. rewrite Rmult_1_l, exp_plus, exp_ln by exact HS. reflexivity.
    + replace (RtoC 1 * ln S + (RtoC (1 * r * INR (Datatypes.S n)) + RtoC 0 * h))%C with (RtoC (ln S + r * INR (Datatypes.S n))) by (rewrite RtoC_plus, !RtoC_mult; ring).
      rewrite Cexp_real. cbn [Re fst RtoC]. rewrite exp_plus, exp_ln by exact HS. reflexivity.
Qed.
