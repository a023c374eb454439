(** Miltersen-Schwartz prices as means under Gaussian interest rates, and as Black-76 prices. *)
From Coq Require Import QArith Reals String List Arith ZArith Lra Lia.
From Coquelicot Require Import Coquelicot.
From Verif Require Import Num Py MBase MVanilla PCnd PCnd2 PCndAcc PBlack PGauss PGbs PMs SHeston PHeston PHeston2 PExpect PExpect2 PRgw2 PClt PMargrabe SMs.
Import List ListNotations.
Open Scope R_scope.

Lemma mean_disc c q : is_mean (fun z => c * exp (q * z)) (c * exp (q ^ 2 / 2)).
Proof.
  assert (H := mean_scal _ _ (c * exp (q ^ 2 / 2)) (mean_exp_1 q)). rewrite Rmult_1_r in H. eapply is_mean_ext; [|exact H].
  intro z. cbv beta. rewrite Rmult_assoc, <- exp_plus. do 2 f_equal. field.
Qed.
Section Mean.
Variables FT l g m a c Pt : R.
Hypothesis HF : 0 < FT.
Hypothesis HG : is_mean (futures_price FT l g) FT.
Hypothesis HX : is_expect 2 (fun zs => exp (- accrued m a c (nth 0 zs 0) (nth 1 zs 0))) Pt.
Lemma l_val : l = - (g ^ 2 / 2).
Proof.
  assert (H := mean_disc (FT * exp l) g). assert (E : FT = FT * exp l * exp (g ^ 2 / 2)).
  { apply (is_mean_unique (futures_price FT l g)); [exact HG|]. eapply is_mean_ext; [|exact H]. intro z. unfold futures_price. cbv beta. rewrite exp_plus. ring. }
  rewrite Rmult_assoc, <- exp_plus in E. assert (E2 : exp (l + g ^ 2 / 2) = 1) by (apply Rmult_eq_reg_l with FT; lra). rewrite <- exp_0 in E2. apply exp_inv in E2. lra.
Qed.
Lemma weighted (w : R -> R) v : is_mean (fun z => exp (- a * z - a ^ 2 / 2) * w z) v ->
  is_expect 2 (fun zs => exp (- accrued m a c (nth 0 zs 0) (nth 1 zs 0)) * w (nth 0 zs 0)) (exp (- m + (a ^ 2 + c ^ 2) / 2) * v).
Proof.
  intro H. exists (fun z => exp (- m - a * z) * w z * exp (c ^ 2 / 2)). split.
  - intro z. exists (fun y => exp (- m - a * z) * w z * exp (- c * y)). split.
    + intro y. cbn [is_expect nth]. unfold accrued. rewrite (Rmult_comm (exp (- m - a * z))), Rmult_assoc, <- exp_plus, Rmult_comm. do 2 f_equal. ring.
    + replace (c ^ 2) with ((- c) ^ 2) by ring. apply mean_disc.
  - apply (mean_scal _ _ (exp (- m + (a ^ 2 + c ^ 2) / 2))) in H. eapply is_mean_ext; [|exact H]. intro z. cbv beta.
    rewrite <- Rmult_assoc, <- exp_plus, (Rmult_comm (exp (- m - a * z) * w z)), <- Rmult_assoc, <- exp_plus. do 2 f_equal. field.
Qed.
Lemma Pt_val : Pt = exp (- m + (a ^ 2 + c ^ 2) / 2).
Proof.
  assert (H := weighted (fun _ => 1) 1). rewrite Rmult_1_r in H. eapply is_expect_unique; [exact HX|]. eapply is_expect_ext; [|apply H].
  - intros zs _. cbv beta. ring.
  - eapply is_mean_ext; [|exact (mean_exp_1 (- a))]. intro z. cbv beta. rewrite Rmult_1_r. f_equal. field.
Qed.
Lemma shifted (h : R -> R) v : is_mean (fun z => h (FT * exp (- (a * g)) * exp (g * z - g ^ 2 / 2))) v ->
  discounted_mean FT l g m a c h (Pt * v).
Proof.
  intro H. unfold discounted_mean. cbv zeta. rewrite Pt_val. apply (weighted (fun z => h (futures_price FT l g z)) v).
  eapply is_mean_ext; [|exact (mean_shift _ _ (- a) H)]. intro z. cbv beta. unfold futures_price. rewrite l_val, Rmult_comm. f_equal; [f_equal; field|].
  f_equal. rewrite Rmult_assoc, <- exp_plus. do 2 f_equal. field.
Qed.
Lemma call_mean K : 0 < K -> 0 < g -> discounted_mean FT l g m a c (fun G => Rmax 0 (G - K)) (Pt * bcall Phi (FT * exp (- (a * g))) K g).
Proof.
  intros HK Hg. apply (shifted (fun G => Rmax 0 (G - K))). apply mean_bcall; [apply Rmult_lt_0_compat; [exact HF|apply exp_pos]|exact HK|exact Hg].
Qed.
Lemma put_mean K : 0 < K -> 0 < g -> discounted_mean FT l g m a c (fun G => Rmax 0 (K - G)) (Pt * bput Phi (FT * exp (- (a * g))) K g).
Proof.
  intros HK Hg. apply (shifted (fun G => Rmax 0 (K - G))). set (A := FT * exp (- (a * g))). assert (HA : 0 < A) by (apply Rmult_lt_0_compat; [exact HF|apply exp_pos]).
  assert (P := b_parity Phi A K g ltac:(intro x; rewrite Phi_opp; ring)).
  assert (Q := is_mean_lin _ _ _ _ 1 1 (mean_bcall A K g HA HK Hg) (is_mean_lin _ _ _ _ K (- A) mean_1 (mean_exp_1 g))).
  replace (bput Phi A K g) with (1 * bcall Phi A K g + 1 * (K * 1 + - A * 1)) by lra. eapply is_mean_ext; [|exact Q]. intro z. cbv beta.
  unfold Rmax. repeat destruct Rle_dec; nra.
Qed.
End Mean.

Lemma b_acc A B v : 0 < A -> 0 < B -> Rabs (bcall cnd A B v - bcall Phi A B v) <= (A + B) * (75 / 10 ^ 9) /\ Rabs (bput cnd A B v - bput Phi A B v) <= (A + B) * (75 / 10 ^ 9).
Proof.
  intros HA HB. assert (Q : forall x y, Rabs (A * x - B * y) <= A * Rabs x + B * Rabs y).
  { intros x y. eapply Rle_trans; [apply Rabs_triang|]. rewrite Rabs_Ropp, !Rabs_mult, (Rabs_pos_eq A), (Rabs_pos_eq B) by lra. lra. }
  pose proof (cnd_accuracy (bd1 A B v)) as P1. pose proof (cnd_accuracy (bd2 A B v)) as P2. pose proof (cnd_accuracy (- bd1 A B v)) as P3. pose proof (cnd_accuracy (- bd2 A B v)) as P4.
  unfold bcall, bput. split.
  - replace (A * cnd (bd1 A B v) - B * cnd (bd2 A B v) - (A * Phi (bd1 A B v) - B * Phi (bd2 A B v))) with (A * (cnd (bd1 A B v) - Phi (bd1 A B v)) - B * (cnd (bd2 A B v) - Phi (bd2 A B v))) by ring.
    eapply Rle_trans; [apply Q|]. nra.
  - rewrite Rabs_minus_sym. replace (B * Phi (- bd2 A B v) - A * Phi (- bd1 A B v) - (B * cnd (- bd2 A B v) - A * cnd (- bd1 A B v))) with (A * (cnd (- bd1 A B v) - Phi (- bd1 A B v)) - B * (cnd (- bd2 A B v) - Phi (- bd2 A B v))) by ring.
    eapply Rle_trans; [apply Q|]. nra.
Qed.

Lemma cov_spec Pt FT K t T sS sE sF rSE rSF rEF kE kF : 0 < kE -> 0 < kF ->
  interest_covariance sS sE sF rSE rSF rEF kE kF T t (ms_vxz (mkMs Pt FT K t T sS sE sF rSE rSF rEF kE kF)).
Proof.
  intros HE HkF. assert (H := ms_cov_integral (mkMs Pt FT K t T sS sE sF rSE rSF rEF kE kF) HE HkF). unfold interest_covariance. eapply is_RInt_ext; [|exact H].
  intros u _. unfold ms_cov, loading, Hload. cbn [m_sE m_kE m_T m_sF m_kF m_t m_sS m_rSF m_rEF].
  match goal with |- ?x = ?y => change (@eq R x y) end. ring.
Qed.

(*@ C81_value | Call and put of MiltersenSchwartzOption are, up to the error of the distribution function, the means of the payoff of the futures price, discounted with the random interest accrued until expiry: for every pair of Gaussian variables (log futures price, accrued interest) with the variance and covariance of the three-factor model, for which the futures price is a martingale and the zero-coupon bond is worth Pt. *)
Lemma c81_value : forall Pt FT K t T sS sE sF rSE rSF rEF kE kF l g m a c,
  0 < FT -> 0 < K -> 0 < kE -> 0 < kF -> 0 < g ->
  futures_variance sS sE sF rSE rSF rEF kE kF T t (g ^ 2) ->
  interest_covariance sS sE sF rSE rSF rEF kE kF T t (a * g) ->
  is_mean (futures_price FT l g) FT ->
  is_expect 2 (fun zs => exp (- accrued m a c (nth 0 zs 0) (nth 1 zs 0))) Pt ->
  let o := mkMs Pt FT K t T sS sE sF rSE rSF rEF kE kF in
  exists vc vp, discounted_mean FT l g m a c (fun G => Rmax 0 (G - K)) vc /\ discounted_mean FT l g m a c (fun G => Rmax 0 (K - G)) vp /\
    let tol := Pt * (FT * exp (- (a * g)) + K) * (75 / 10 ^ 9) in
    Rabs (ms_call o - vc) <= tol /\ Rabs (ms_put o - vp) <= tol.
Proof.
  intros Pt FT K t T sS sE sF rSE rSF rEF kE kF l g m a c HF HK HE HkF Hg HV HC HG HX o.
  assert (V : ms_vz2 o = g ^ 2).
  { assert (H := ms_var_integral o HE HkF). exact (eq_trans (eq_sym (is_RInt_unique _ _ _ _ H)) (is_RInt_unique _ _ _ _ HV)). }
  assert (X : ms_vxz o = a * g).
  { assert (H := cov_spec Pt FT K t T sS sE sF rSE rSF rEF kE kF HE HkF). exact (eq_trans (eq_sym (is_RInt_unique _ _ _ _ H)) (is_RInt_unique _ _ _ _ HC)). }
  assert (Z : ms_vz o = g) by (unfold ms_vz; toR; rewrite V; apply sqrt_pow2; lra).
  assert (HP : 0 < Pt) by (rewrite (Pt_val m a c Pt HX); apply exp_pos).
  assert (V0 : 0 < ms_vz2 o) by (rewrite V; apply pow_lt; lra).
  exists (Pt * bcall Phi (FT * exp (- (a * g))) K g), (Pt * bput Phi (FT * exp (- (a * g))) K g).
  split; [now apply call_mean|]. split; [now apply put_mean|]. cbv zeta.
  assert (HA : 0 < FT * exp (- (a * g))) by (apply Rmult_lt_0_compat; [exact HF|apply exp_pos]).
  rewrite ms_call_link, ms_put_link by easy. rewrite X, Z. cbn [m_Pt m_FT m_K o]. rewrite bcall_scale, bput_scale by easy.
  rewrite <- !Rmult_minus_distr_l, !Rabs_mult, (Rabs_pos_eq Pt) by lra. destruct (b_acc _ _ g HA HK) as (Q1 & Q2). split; rewrite Rmult_assoc; (apply Rmult_le_compat_l; [lra|assumption]).
Qed.

(*@ C81_black76 | MiltersenSchwartzOption prices are Black76Option prices: of the futures price lowered by the covariance with interest, at the rate of the bond and the average volatility until expiry. *)
Lemma c81_black76 : forall Pt FT K t T sS sE sF rSE rSF rEF kE kF v x,
  0 < Pt -> 0 < FT -> 0 < K -> 0 < t -> 0 < kE -> 0 < kF -> 0 < v ->
  futures_variance sS sE sF rSE rSF rEF kE kF T t v ->
  interest_covariance sS sE sF rSE rSF rEF kE kF T t x ->
  let o := mkMs Pt FT K t T sS sE sF rSE rSF rEF kE kF in
  let b := Black76Option (FT * exp (- x)) K t (- ln Pt / t) (Some (sqrt (v / t))) in
  gbs_call b = Ok (ms_call o) /\ gbs_put b = Ok (ms_put o).
Proof.
  intros Pt FT K t T sS sE sF rSE rSF rEF kE kF v x HP HF HK Ht HE HkF Hv HV HC o b.
  assert (V : ms_vz2 o = v).
  { assert (H := ms_var_integral o HE HkF). exact (eq_trans (eq_sym (is_RInt_unique _ _ _ _ H)) (is_RInt_unique _ _ _ _ HV)). }
  assert (X : ms_vxz o = x).
  { assert (H := cov_spec Pt FT K t T sS sE sF rSE rSF rEF kE kF HE HkF). exact (eq_trans (eq_sym (is_RInt_unique _ _ _ _ H)) (is_RInt_unique _ _ _ _ HC)). }
  assert (V0 : 0 < ms_vz2 o) by (rewrite V; lra).
  assert (HA : 0 < FT * exp (- x)) by (apply Rmult_lt_0_compat; [exact HF|apply exp_pos]).
  assert (Hq : 0 < sqrt (v / t)) by (apply sqrt_lt_R0, Rdiv_lt_0_compat; lra).
  assert (Z : ms_vz o = sqrt (v / t) * sqrt t).
  { unfold ms_vz. toR. rewrite V, <- sqrt_mult; [f_equal; field; lra|apply Rlt_le, Rdiv_lt_0_compat; lra|lra]. }
  rewrite ms_call_link, ms_put_link by easy. rewrite X, Z. unfold b, Black76Option, gbs_call, gbs_put.
  assert (E0 : lit 0 = 0) by (toR; lra). rewrite E0, call_link, put_link by lra.
  replace ((0 - - ln Pt / t) * t) with (ln Pt) by (field; lra).
  replace (- (- ln Pt / t) * t) with (ln Pt) by (field; lra).
  rewrite exp_ln by easy. cbn [m_Pt m_FT m_K o]. 
  split; f_equal; f_equal; ring.
Qed.

(*@ C81_model_exists | For every option with a positive variance the Gaussian variables of C81_value exist. *)
Lemma c81_exists : forall Pt sS sE sF rSE rSF rEF kE kF T t,
  0 < Pt -> 0 < kE -> 0 < kF ->
  exists v x, futures_variance sS sE sF rSE rSF rEF kE kF T t v /\ interest_covariance sS sE sF rSE rSF rEF kE kF T t x /\
    (0 < v -> forall FT w, 0 <= w -> exists l g m a c, 0 < g /\ v = g ^ 2 /\ x = a * g /\ a ^ 2 + c ^ 2 = x ^ 2 / v + w /\
       is_mean (futures_price FT l g) FT /\
       is_expect 2 (fun zs => exp (- accrued m a c (nth 0 zs 0) (nth 1 zs 0))) Pt).
Proof.
  intros Pt sS sE sF rSE rSF rEF kE kF T t HP HE HkF. set (o := mkMs Pt 1 1 t T sS sE sF rSE rSF rEF kE kF).
  exists (ms_vz2 o), (ms_vxz o). split; [exact (ms_var_integral o HE HkF)|]. split; [now apply cov_spec|].
  intros Hv FT w Hw. set (g := sqrt (ms_vz2 o)). assert (Hg : 0 < g) by now apply sqrt_lt_R0. assert (Hg2 : g ^ 2 = ms_vz2 o) by (unfold g; rewrite pow2_sqrt; lra).
  pose (a := ms_vxz o / g). pose (c := sqrt w). assert (Hc : c ^ 2 = w) by (unfold c; rewrite pow2_sqrt; lra).
  exists (- (g ^ 2 / 2)), g, ((a ^ 2 + c ^ 2) / 2 - ln Pt), a, c. split; [exact Hg|]. split; [now rewrite Hg2|]. split; [unfold a; field; lra|].
  split; [rewrite Hc, <- Hg2; unfold a; field; lra|]. split.
  - assert (H := mean_disc (FT * exp (- (g ^ 2 / 2))) g). rewrite Rmult_assoc, <- exp_plus, Rplus_opp_l, exp_0, Rmult_1_r in H. eapply is_mean_ext; [|exact H].
    intro z. unfold futures_price. cbv beta. rewrite exp_plus. ring.
  - assert (H := weighted ((a ^ 2 + c ^ 2) / 2 - ln Pt) a c (fun _ => 1) 1). rewrite Rmult_1_r in H.
    replace (- ((a ^ 2 + c ^ 2) / 2 - ln Pt) + (a ^ 2 + c ^ 2) / 2) with (ln Pt) in H by ring. rewrite exp_ln in H by exact HP. eapply is_expect_ext; [|apply H].
    + intros zs _. cbv beta. ring.
    + eapply is_mean_ext; [|exact (mean_exp_1 (- a))]. intro z. cbv beta. rewrite Rmult_1_r. f_equal. field.
Qed.
