(** Monte Carlo options: the one-step estimator is unbiased (C47). *)
From Coq Require Import Reals ZArith QArith Qreals List Bool Lra Lia.
From Coquelicot Require Import Coquelicot.
From Verif Require Import Num Py MBase MAmerican MMonte SMonte PCnd PCnd2 PGauss PMonte PMonte2 PMonte3.
Import ListNotations.
Open Scope R_scope.

Section One.
Variables S0 K t r b s : R.
Hypothesis HS : 0 < S0.
Hypothesis HK : 0 < K.
Hypothesis Ht : 0 < t.
Hypothesis Hs : 0 < s.
Let v := s * sqrt t.
Let D := exp (- r * t).
Let F := S0 * exp (b * t).
Let d2 := (ln (S0 / K) + (b - s ^ 2 / 2) * t) / v.
Let G (e : R) : R := D * (F * Phi (e - v) - K * Phi e).
Lemma v_pos : 0 < v. Proof. apply Rmult_lt_0_compat; [exact Hs|now apply sqrt_lt_R0]. Qed.
Lemma v_sq : v ^ 2 = s ^ 2 * t. Proof. unfold v. rewrite Rpow_mult_distr, pow2_sqrt; lra. Qed.
Definition term (e : R) : R := S0 * exp ((b - s ^ 2 / 2) * t + v * e).
Lemma shift_pdf e : term e * npdf e = F * npdf (e - v).
Proof.
  assert (HX : exp ((b - s ^ 2 / 2) * t + v * e) * exp (- (e ^ 2) / 2) = exp (b * t) * exp (- ((e - v) ^ 2) / 2)).
  { rewrite <- !exp_plus. f_equal. replace ((e - v) ^ 2) with (e ^ 2 - 2 * e * v + v ^ 2) by ring. rewrite v_sq. field. }
  unfold term, F, npdf, Rdiv. rewrite <- !Rmult_assoc. f_equal. rewrite !Rmult_assoc. unfold Rdiv in HX. rewrite HX. reflexivity.
Qed.
Lemma term_strike e : (- d2 <= e -> K <= term e) /\ (e <= - d2 -> term e <= K).
Proof.
  assert (HT : term e = K * exp (v * (e + d2))).
  { unfold term. replace (v * (e + d2)) with ((b - s ^ 2 / 2) * t + v * e + ln (S0 / K)) by (unfold d2; field; pose proof v_pos; lra).
    rewrite (exp_plus _ (ln _)), exp_ln by (apply Rdiv_lt_0_compat; assumption). field. lra. }
  rewrite HT. pose proof v_pos. split; intro He.
  - rewrite <- (Rmult_1_r K) at 1. apply Rmult_le_compat_l; [lra|]. rewrite <- exp_0. 
    destruct (Req_dec (v * (e + d2)) 0) as [->|]; [lra|]. left. apply exp_increasing. nra.
  - rewrite <- (Rmult_1_r K) at 2. apply Rmult_le_compat_l; [lra|]. rewrite <- exp_0. 
    destruct (Req_dec (v * (e + d2)) 0) as [->|]; [lra|]. left. apply exp_increasing. nra.
Qed.
Lemma G_derive e : is_derive G e (D * (term e - K) * npdf e).
Proof.
  unfold G. evar_last.
  { apply (is_derive_scal (fun e => F * Phi (e - v) - K * Phi e)). apply (is_derive_minus (fun e => F * Phi (e - v)) (fun e => K * Phi e)).
    - apply (is_derive_scal (fun e => Phi (e - v))). apply (is_derive_comp Phi (fun e => e - v)); [apply Phi_derive|]. auto_derive; reflexivity.
    - apply (is_derive_scal Phi). apply Phi_derive. }
  hier. cbn. generalize (shift_pdf e). unfold minus, plus, opp, scal, mult. cbn. unfold mult. cbn. intro Hq. replace (D * (term e - K) * npdf e) with (D * (term e * npdf e - K * npdf e)) by ring. rewrite Hq. ring.
Qed.
Let f (call : bool) (e : R) : R := discounted call K t r (term e) * npdf e.
Lemma npdf_term_cont e : continuous (fun e => D * (term e - K) * npdf e) e.
Proof. apply (ex_derive_continuous (fun e => D * (term e - K) * npdf e)). unfold term. apply (ex_derive_mult (fun e => D * (S0 * exp ((b - s ^ 2 / 2) * t + v * e) - K)) npdf); [auto_derive; exact Coq.Init.Logic.I|eexists; apply npdf_derive]. Qed.
Lemma G_int a c : is_RInt (fun e => D * (term e - K) * npdf e) a c (G c - G a).
Proof. apply (is_RInt_derive G (fun e => D * (term e - K) * npdf e)); intros; [apply G_derive|apply npdf_term_cont]. Qed.
Lemma f_out (call : bool) a c : a <= c -> (if call then c <= - d2 else - d2 <= a) -> is_RInt (f call) a c 0.
Proof.
  intros Hac Hc. apply is_RInt_ext with (f := fun _ => 0).
  - rewrite Rmin_left, Rmax_right by lra. intros e He. unfold f, discounted. destruct (term_strike e) as [T1 T2].
    destruct call; [specialize (T2 ltac:(lra))|specialize (T1 ltac:(lra))]; rewrite Rmax_left by lra; eqR; ring.
  - evar_last; [apply (is_RInt_const a c 0)|]. unfold scal. cbn. unfold mult. cbn. eqR; ring.
Qed.
Lemma f_in (call : bool) a c : a <= c -> (if call then - d2 <= a else c <= - d2) -> is_RInt (f call) a c ((if call then 1 else -1) * (G c - G a)).
Proof.
  intros Hac Hc. apply is_RInt_ext with (f := fun e => (if call then 1 else -1) * (D * (term e - K) * npdf e)).
  - rewrite Rmin_left, Rmax_right by lra. intros e He. unfold f, discounted. fold D. destruct (term_strike e) as [T1 T2].
    destruct call; [specialize (T1 ltac:(lra))|specialize (T2 ltac:(lra))]; rewrite Rmax_right by lra; eqR; ring.
  - apply (is_RInt_scal (fun e => D * (term e - K) * npdf e) a c (if call then 1 else -1) (G c - G a)). apply G_int.
Qed.
Lemma f_all (call : bool) a c : a <= - d2 <= c -> is_RInt (f call) a c (if call then G c - G (- d2) else G a - G (- d2)).
Proof.
  intros [Ha Hc]. destruct call.
  - replace (G c - G (- d2)) with (0 + (1 * (G c - G (- d2)))) by ring. apply (is_RInt_Chasles (f true) a (- d2) c 0 (1 * (G c - G (- d2)))); [apply f_out; lra|apply (f_in true); lra].
  - replace (G a - G (- d2)) with (-1 * (G (- d2) - G a) + 0) by ring. apply (is_RInt_Chasles (f false) a (- d2) c (-1 * (G (- d2) - G a)) 0); [apply (f_in false); lra|apply f_out; lra].
Qed.

Lemma Phi_near_1 eps : 0 < eps -> exists M, forall x, M < x -> 1 - eps < Phi x.
Proof.
  intro He. exists (Rmax 1 (2 / eps)). intros x Hx. pose proof (Rmax_l 1 (2 / eps)). pose proof (Rmax_r 1 (2 / eps)).
  assert (H2 : 2 < x * eps). { apply Rmult_lt_reg_r with (/ eps); [now apply Rinv_0_lt_compat|]. replace (x * eps * / eps) with x by (field; lra). unfold Rdiv in *. lra. }
  destruct (Phi_tail x ltac:(lra)) as [_ HT].
  assert (H3 : exp (- x ^ 2 / 2) < eps).
  { replace (- x ^ 2 / 2) with (- (x ^ 2 / 2)) by field. rewrite exp_Ropp. generalize (exp_ineq1 (x ^ 2 / 2) ltac:(nra)). intro.
    apply Rmult_lt_reg_r with (exp (x ^ 2 / 2)); [apply exp_pos|]. rewrite Rinv_l by (generalize (exp_pos (x ^ 2 / 2)); lra). nra. }
  lra.
Qed.
Lemma G_top eps : 0 < eps -> exists M, forall x, M < x -> Rabs (G x - D * (F - K)) < eps.
Proof.
  intro He. assert (HD : 0 < D) by apply exp_pos. assert (HF : 0 < F) by (apply Rmult_lt_0_compat; [exact HS|apply exp_pos]).
  set (q := eps / (D * (F + K))). assert (Hc : 0 < D * (F + K)) by (apply Rmult_lt_0_compat; lra). assert (Hq : 0 < q) by (apply Rdiv_lt_0_compat; assumption).
  destruct (Phi_near_1 q Hq) as (M & HM). exists (Rmax M (M + v)). intros x Hx. pose proof (Rmax_l M (M + v)). pose proof (Rmax_r M (M + v)).
  pose proof (HM x ltac:(lra)). pose proof (HM (x - v) ltac:(lra)). pose proof (Phi_lt_1 x). pose proof (Phi_lt_1 (x - v)).
  assert (E : D * (F + K) * q = eps) by (unfold q; field; lra). unfold G.
  set (p := Phi x) in *. set (p' := Phi (x - v)) in *.
  assert (X1 : 0 < D * F * (1 - p') < D * F * q) by (assert (0 < D * F) by (apply Rmult_lt_0_compat; lra); split; [apply Rmult_lt_0_compat|apply Rmult_lt_compat_l]; lra).
  assert (X2 : 0 < D * K * (1 - p) < D * K * q) by (assert (0 < D * K) by (apply Rmult_lt_0_compat; lra); split; [apply Rmult_lt_0_compat|apply Rmult_lt_compat_l]; lra).
  replace (D * (F * p' - K * p) - D * (F - K)) with (D * K * (1 - p) - D * F * (1 - p')) by ring. apply Rabs_def1; nra.
Qed.
Lemma G_bottom eps : 0 < eps -> exists M, forall x, x < M -> Rabs (G x) < eps.
Proof.
  intro He. assert (HD : 0 < D) by apply exp_pos. assert (HF : 0 < F) by (apply Rmult_lt_0_compat; [exact HS|apply exp_pos]).
  set (q := eps / (D * (F + K))). assert (Hc : 0 < D * (F + K)) by (apply Rmult_lt_0_compat; lra). assert (Hq : 0 < q) by (apply Rdiv_lt_0_compat; assumption).
  pose proof v_pos as Hv. destruct (Phi_near_1 q Hq) as (M & HM). exists (- M). intros x Hx.
  pose proof (HM (- x) ltac:(lra)) as A1. pose proof (HM (- (x - v)) ltac:(lra)) as A2. rewrite Phi_opp in A1, A2. pose proof (Phi_gt_0 x). pose proof (Phi_gt_0 (x - v)).
  assert (E : D * (F + K) * q = eps) by (unfold q; field; lra). unfold G.
  set (p := Phi x) in *. set (p' := Phi (x - v)) in *.
  assert (X1 : 0 < D * F * p' < D * F * q) by (assert (0 < D * F) by (apply Rmult_lt_0_compat; lra); split; [apply Rmult_lt_0_compat|apply Rmult_lt_compat_l]; lra).
  assert (X2 : 0 < D * K * p < D * K * q) by (assert (0 < D * K) by (apply Rmult_lt_0_compat; lra); split; [apply Rmult_lt_0_compat|apply Rmult_lt_compat_l]; lra).
  replace (D * (F * p' - K * p)) with (D * F * p' - D * K * p) by ring. apply Rabs_def1; nra.
Qed.
Lemma f_expect (call : bool) : is_RInt_gen (f call) (Rbar_locally m_infty) (Rbar_locally p_infty)
  (if call then D * F * Phi (d2 + v) - D * K * Phi d2 else D * K * Phi (- d2) - D * F * Phi (- (d2 + v))).
Proof.
  intros P [eps HP]. destruct (G_top eps (cond_pos eps)) as (M & HM). destruct (G_bottom eps (cond_pos eps)) as (M' & HM').
  apply (Filter_prod _ _ _ (fun a => a < Rmin (- d2) M') (fun c => Rmax (- d2) M < c)).
  - exists (Rmin (- d2) M'). intros; assumption.
  - exists (Rmax (- d2) M). intros; assumption.
  - intros a c Ha Hc. cbn [fst snd]. pose proof (Rmin_l (- d2) M'). pose proof (Rmin_r (- d2) M'). pose proof (Rmax_l (- d2) M). pose proof (Rmax_r (- d2) M).
    eexists. split; [apply f_all; lra|]. apply HP. unfold ball. cbn. unfold AbsRing_ball, abs, minus, plus, opp. cbn.
    assert (E0 : - (d2 + v) = - d2 - v) by ring. pose proof (Phi_opp d2). pose proof (Phi_opp (d2 + v)). rewrite E0 in *.
    destruct call.
    + specialize (HM c ltac:(lra)). replace (G c - G (- d2) + _) with (G c - D * (F - K)); [exact HM|]. unfold G at 3.
      replace (Phi (d2 + v)) with (1 - Phi (- d2 - v)) by lra. replace (Phi d2) with (1 - Phi (- d2)) by lra. ring.
    + specialize (HM' a ltac:(lra)). replace (G a - G (- d2) + _) with (G a); [exact HM'|]. unfold G at 3. ring.
Qed.
End One.

(*@ C47_unbiased_one_step | For one path of one step, the price the option returns, integrated against the Gaussian density of the innovation, is the Black-Scholes price with the exact normal distribution function: the one-step estimator is unbiased. *)
Lemma mc_unbiased : forall (trace call : bool) (S K t r b s : R) (price : R -> R), 0 < S -> 0 < K -> 0 < t -> 0 < s ->
  (forall e : R, exists o tr, MonteCarloOption 1 1 1 S K t r b (Some s) (fun _ _ st => Ok ([[e]], st)) wiener_path vanilla_payoff trace false false = Ok o /\ mc_price call o tt = Ok (MArray [price e], tr, tt)) ->
  let d1 := (ln (S / K) + (b + s ^ 2 / 2) * t) / (s * sqrt t) in let d2 := d1 - s * sqrt t in
  is_RInt_gen (fun e => price e * npdf e) (Rbar_locally m_infty) (Rbar_locally p_infty)
    (if call then S * exp ((b - r) * t) * Phi d1 - K * exp (- r * t) * Phi d2
     else K * exp (- r * t) * Phi (- d2) - S * exp ((b - r) * t) * Phi (- d1)).
Proof.
  intros trace call S K t r b s price HS HK Ht Hs Hp d1 d2.
  assert (Hv : 0 < s * sqrt t) by (apply v_pos; assumption).
  assert (E2 : (ln (S / K) + (b - s ^ 2 / 2) * t) / (s * sqrt t) = d2).
  { unfold d2, d1. pose proof (v_sq t s Ht) as Hq. replace ((b + s ^ 2 / 2) * t) with ((b - s ^ 2 / 2) * t + (s * sqrt t) ^ 2) by (rewrite Hq; field).
    clear - Hv. revert Hv. generalize (s * sqrt t). intros w Hw. field. lra. }
  pose proof (f_expect S K t r b s HS HK Ht Hs call) as HF. cbv zeta in HF. rewrite E2 in HF. replace (d2 + s * sqrt t) with d1 in HF by (unfold d2; ring).
  assert (HE : exp (- r * t) * (S * exp (b * t)) = S * exp ((b - r) * t)).
  { replace ((b - r) * t) with (- r * t + b * t) by ring. rewrite exp_plus. ring. }
  rewrite HE, (Rmult_comm (exp (- r * t)) K) in HF.
  apply (is_RInt_gen_ext (fun e => discounted call K t r (term S t b s e) * npdf e)); [|exact HF].
  apply filter_forall. intros ab e _. f_equal.
  destruct (Hp e) as (o & tr & Ho & HP).
  destruct (mc_price_thm unit _ false trace false false 1 1 1 S K t r b s o tt tt [[[e]]] Ho eq_refl ltac:(discriminate)) as (Es' & HT & HV).
  inversion HT as [|x y l l' T1 T2]; subst. inversion T2; subst. unfold treated in T1. subst y.
  destruct (HV call) as (tr' & HV'). rewrite HP in HV'. injection HV' as HV' _. rewrite HV'. unfold estimate, average, underlying, gbm, total, term. cbn.
  rewrite <- (Rmult_1_r (discounted _ _ _ _ _)) at 1. rewrite Rdiv_plus_distr || idtac.
  replace (t / 1) with t by field. replace ((b - s * (s * 1) / 2) * (1 * t) + s * sqrt t * (e + 0)) with ((b - s * (s * 1) / 2) * t + s * sqrt t * e) by ring. field.
Qed.
