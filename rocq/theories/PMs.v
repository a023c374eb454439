(** MiltersenSchwartzOption over the reals. *)
From Coq Require Import Reals QArith Qreals ZArith Bool List Lra Lia Psatz.
From Coquelicot Require Import Coquelicot.
From Interval Require Import Tactic.
From Verif Require Import Num Py MBase MVanilla PCnd PCnd2 PBlack PGauss PGbs.
Open Scope R_scope.

(** loading of a mean-reverting rate over a period of length x *)
Definition Hload (kappa x : R) : R := (1 - exp (- kappa * x)) / kappa.

(** instantaneous variance of the futures price at time u (maturity T) *)
Definition ms_inst (p : ms_params R) (u : R) : R :=
  let e := m_sE p * Hload (m_kE p) (m_T p - u) in
  let f := m_sF p * Hload (m_kF p) (m_T p - u) in
  m_sS p ^ 2 + e ^ 2 + f ^ 2
  - 2 * m_rSE p * m_sS p * e + 2 * m_rSF p * m_sS p * f - 2 * m_rEF p * e * f.

(** instantaneous covariance of the futures price with the bond maturing at t *)
Definition ms_cov (p : ms_params R) (u : R) : R :=
  let e := m_sE p * Hload (m_kE p) (m_T p - u) in
  let f := m_sF p * Hload (m_kF p) (m_T p - u) in
  m_sF p * Hload (m_kF p) (m_t p - u) * (m_sS p * m_rSF p + f - m_rEF p * e).

Lemma is_RInt_of_derive (F f : R -> R) a b : 
  (forall x, is_derive F x (f x)) -> (forall x, continuous f x) -> is_RInt f a b (F b - F a).
Proof.
  intros D C. apply (is_RInt_derive F f a b); intros; auto.
Qed.

Definition ms_anti (p : ms_params R) (u : R) : R :=
  let '(mkMs _ _ _ t T sS sE sF rSE rSF rEF kE kF) := p in
  sS ^ 2 * u + 2 * sS * (sF * rSF / kF * (u - 1 / kF *
    exp (- kF * T) * exp (kF * u)) - sE * rSE / kE *
    (u - 1 / kE * exp (- kE * T) * exp (kE * u))) + sE ^ 2
    / kE ^ 2 * (u + 1 / (2 * kE) * exp (-2 * kE * T) * exp (2 * kE * u) - 2 / kE * exp (- kE * T) * exp (kE * u)) + sF ^ 2
    / kF ^ 2 * (u + 1 / (2 * kF) * exp (-2 * kF * T) * exp (2 * kF * u) - 2 / kF * exp (- kF * T) * exp (kF * u)) - 2 * sE *
    sF * rEF / kE / kF * (u - 1 / kE * exp (- kE * T) *
    exp (kE * u) - 1 / kF * exp (- kF * T) * exp (kF * u) + 1 / (kE + kF) * exp (- (kE + kF) * T) * exp ((kE + kF) * u)).

Lemma exp_mul2 x : exp (2 * x) = exp x ^ 2.
Proof. replace (2 * x) with (x + x) by ring. rewrite exp_plus. ring. Qed.

Lemma ms_var_integral p : 0 < m_kE p -> 0 < m_kF p ->
  is_RInt (ms_inst p) 0 (m_t p) (ms_vz2 p).
Proof.
  destruct p as [Pt FT K t T sS sE sF rSE rSF rEF kE kF]. cbn [m_kE m_kF m_t]. intros HE HF.
  set (p := mkMs Pt FT K t T sS sE sF rSE rSF rEF kE kF).
  replace (ms_vz2 p) with (ms_anti p t - ms_anti p 0).
  - apply is_RInt_of_derive.
    + intros u. unfold ms_anti, p, ms_inst, Hload. cbn [m_sS m_sE m_sF m_rSE m_rSF m_rEF m_kE m_kF m_T].
      auto_derive; [easy|].
      replace (exp (- kE * (T - u))) with (exp (- kE * T) * exp (kE * u)) by (rewrite <- exp_plus; f_equal; ring).
      replace (exp (- kF * (T - u))) with (exp (- kF * T) * exp (kF * u)) by (rewrite <- exp_plus; f_equal; ring).
      replace (exp (-2 * kE * T)) with (exp (- kE * T) ^ 2) by (rewrite <- exp_mul2; f_equal; ring).
      replace (exp (-2 * kF * T)) with (exp (- kF * T) ^ 2) by (rewrite <- exp_mul2; f_equal; ring).
      replace (exp (2 * kE * u)) with (exp (kE * u) ^ 2) by (rewrite <- exp_mul2; f_equal; ring).
      replace (exp (2 * kF * u)) with (exp (kF * u) ^ 2) by (rewrite <- exp_mul2; f_equal; ring).
      replace (exp (- (kE + kF) * T)) with (exp (- kE * T) * exp (- kF * T)) by (rewrite <- exp_plus; f_equal; ring).
      replace (exp ((kE + kF) * u)) with (exp (kE * u) * exp (kF * u)) by (rewrite <- exp_plus; f_equal; ring).
      field. lra.
    + intros u. apply (ex_derive_continuous (ms_inst p)). unfold ms_inst, Hload, p. auto_derive. easy.
  - unfold ms_vz2, ms_anti, p. toR. rewrite !Rmult_0_r, !exp_0. field. lra.
Qed.

Definition ms_anti2 (p : ms_params R) (u : R) : R :=
  let '(mkMs _ _ _ t T sS sE sF rSE rSF rEF kE kF) := p in
  sF / kF * (sS * rSF * (u - 1 / kF * exp (- kF * t) * exp (kF * u))
    + sF / kF * (u - 1 / kF * exp (- kF * T) * exp (kF * u) - 1 / kF * exp (- kF * t) * exp (kF * u)
                 + 1 / (2 * kF) * exp (- kF * T) * exp (- kF * t) * exp (2 * kF * u))
    - sE * rEF / kE * (u - 1 / kE * exp (- kE * T) * exp (kE * u) - 1 / kF * exp (- kF * t) * exp (kF * u)
                 + 1 / (kE + kF) * exp (- kE * T) * exp (- kF * t) * exp ((kE + kF) * u))).

Lemma ms_cov_integral p : 0 < m_kE p -> 0 < m_kF p ->
  is_RInt (ms_cov p) 0 (m_t p) (ms_vxz p).
Proof.
  destruct p as [Pt FT K t T sS sE sF rSE rSF rEF kE kF]. cbn [m_kE m_kF m_t]. intros HE HF.
  set (p := mkMs Pt FT K t T sS sE sF rSE rSF rEF kE kF).
  replace (ms_vxz p) with (ms_anti2 p t - ms_anti2 p 0).
  - apply is_RInt_of_derive.
    + intros u. unfold ms_anti2, p, ms_cov, Hload. cbn [m_sS m_sE m_sF m_rSE m_rSF m_rEF m_kE m_kF m_T m_t].
      auto_derive; [easy|].
      replace (exp (- kE * (T - u))) with (exp (- kE * T) * exp (kE * u)) by (rewrite <- exp_plus; f_equal; ring).
      replace (exp (- kF * (T - u))) with (exp (- kF * T) * exp (kF * u)) by (rewrite <- exp_plus; f_equal; ring).
      replace (exp (- kF * (t - u))) with (exp (- kF * t) * exp (kF * u)) by (rewrite <- exp_plus; f_equal; ring).
      replace (exp (2 * kF * u)) with (exp (kF * u) ^ 2) by (rewrite <- exp_mul2; f_equal; ring).
      replace (exp ((kE + kF) * u)) with (exp (kE * u) * exp (kF * u)) by (rewrite <- exp_plus; f_equal; ring).
      field. lra.
    + intros u. apply (ex_derive_continuous (ms_cov p)). unfold ms_cov, Hload, p. auto_derive. easy.
  - unfold ms_vxz, ms_anti2, p. toR. rewrite !Rmult_0_r, !exp_0.
    replace (exp (2 * kF * t)) with (exp (kF * t) * exp (kF * t)) by (rewrite <- exp_plus; f_equal; ring).
    replace (exp ((kE + kF) * t)) with (exp (kE * t) * exp (kF * t)) by (rewrite <- exp_plus; f_equal; ring).
    replace (exp (- kF * t)) with (/ exp (kF * t)) by (rewrite <- exp_Ropp; f_equal; ring).
    field. generalize (exp_pos (kF * t)); intros. repeat split; lra.
Qed.

(** admissible correlations: the correlation matrix is positive semidefinite *)
Definition corr_psd (a b c : R) : Prop :=
  forall x y z, 0 <= x ^ 2 + y ^ 2 + z ^ 2 + 2 * a * x * y + 2 * b * x * z + 2 * c * y * z.

Lemma ms_inst_nonneg p u : corr_psd (m_rSE p) (m_rSF p) (m_rEF p) -> 0 <= ms_inst p u.
Proof.
  intros H. unfold ms_inst.
  set (e := m_sE p * Hload (m_kE p) (m_T p - u)).
  set (f := m_sF p * Hload (m_kF p) (m_T p - u)).
  generalize (H (m_sS p) (- e) f). intros G. nra.
Qed.

Lemma ms_var_nonneg p : 0 <= m_t p -> 0 < m_kE p -> 0 < m_kF p ->
  corr_psd (m_rSE p) (m_rSF p) (m_rEF p) -> 0 <= ms_vz2 p.
Proof.
  intros. rewrite <- (is_RInt_unique _ _ _ _ (ms_var_integral p H0 H1)).
  apply RInt_ge_0; auto.
  - eexists; now apply ms_var_integral.
  - intros; now apply ms_inst_nonneg.
Qed.

Lemma ms_d1_link p : 0 < m_Pt p -> 0 < m_FT p -> 0 < m_K p -> 0 < ms_vz2 p ->
  ms_d1 p = bd1 (m_Pt p * (m_FT p * exp (- ms_vxz p))) (m_Pt p * m_K p) (ms_vz p).
Proof.
  intros. unfold ms_d1, bd1. toR.
  assert (0 < ms_vz p) by (unfold ms_vz; toR; now apply sqrt_lt_R0).
  replace (m_Pt p * (m_FT p * exp (- ms_vxz p)) / (m_Pt p * m_K p)) with (m_FT p / m_K p * exp (- ms_vxz p)) by (field; lra).
  rewrite ln_mult, ln_exp; [| apply Rdiv_lt_0_compat; lra | apply exp_pos]. field. lra.
Qed.
Lemma ms_d2_link p : 0 < m_Pt p -> 0 < m_FT p -> 0 < m_K p -> 0 < ms_vz2 p ->
  ms_d2 p = bd2 (m_Pt p * (m_FT p * exp (- ms_vxz p))) (m_Pt p * m_K p) (ms_vz p).
Proof.
  intros. unfold ms_d2, bd2. toR.
  assert (0 < ms_vz p) by (unfold ms_vz; toR; now apply sqrt_lt_R0).
  replace (m_Pt p * (m_FT p * exp (- ms_vxz p)) / (m_Pt p * m_K p)) with (m_FT p / m_K p * exp (- ms_vxz p)) by (field; lra).
  rewrite ln_mult, ln_exp; [| apply Rdiv_lt_0_compat; lra | apply exp_pos]. field. lra.
Qed.

Lemma ms_call_link p : 0 < m_Pt p -> 0 < m_FT p -> 0 < m_K p -> 0 < ms_vz2 p ->
  ms_call p = bcall cnd (m_Pt p * (m_FT p * exp (- ms_vxz p))) (m_Pt p * m_K p) (ms_vz p).
Proof.
  intros. unfold ms_call, bcall. rewrite ms_d1_link, ms_d2_link by easy. toR. ring.
Qed.
Lemma ms_put_link p : 0 < m_Pt p -> 0 < m_FT p -> 0 < m_K p -> 0 < ms_vz2 p ->
  ms_put p = bput cnd (m_Pt p * (m_FT p * exp (- ms_vxz p))) (m_Pt p * m_K p) (ms_vz p).
Proof.
  intros. unfold ms_put, bput. rewrite ms_d1_link, ms_d2_link by easy. toR. ring.
Qed.

Lemma ms_parity p : 0 < m_Pt p -> 0 < m_FT p -> 0 < m_K p -> 0 < ms_vz2 p ->
  ms_call p - ms_put p = m_Pt p * (m_FT p * exp (- ms_vxz p) - m_K p).
Proof.
  intros. rewrite ms_call_link, ms_put_link, b_parity by (easy || apply cnd_sym). ring.
Qed.

Lemma ms_bounds p : 0 < m_Pt p -> 0 < m_FT p -> 0 < m_K p -> 0 < ms_vz2 p ->
  let fwd := m_Pt p * m_FT p * exp (- ms_vxz p) in let strike := m_Pt p * m_K p in
  Rmax 0 (fwd - strike) < ms_call p < fwd /\ Rmax 0 (strike - fwd) < ms_put p < strike.
Proof.
  intros H1 H2 H3 H4 fwd strike. rewrite ms_call_link, ms_put_link by easy.
  unfold fwd, strike. rewrite Rmult_assoc.
  set (A := m_Pt p * (m_FT p * exp (- ms_vxz p))). set (B := m_Pt p * m_K p).
  assert (0 < A). { unfold A. apply Rmult_lt_0_compat; [easy|]. apply Rmult_lt_0_compat; [easy|apply exp_pos]. }
  assert (0 < B) by (now apply Rmult_lt_0_compat).
  assert (0 < ms_vz p) by (unfold ms_vz; toR; now apply sqrt_lt_R0).
  repeat split.
  - apply Rmax_lub_lt; [now apply bcall_pos | now apply bcall_lb].
  - now apply bcall_ub.
  - apply Rmax_lub_lt; [now apply bput_pos | now apply bput_lb].
  - now apply bput_ub.
Qed.

Lemma ms_parity_bounds p : 0 < m_Pt p -> 0 < m_FT p -> 0 < m_K p -> 0 < ms_vz2 p ->
  let fwd := m_Pt p * m_FT p * exp (- ms_vxz p) in let strike := m_Pt p * m_K p in
  ms_call p - ms_put p = fwd - strike /\
  Rmax 0 (fwd - strike) < ms_call p < fwd /\ Rmax 0 (strike - fwd) < ms_put p < strike.
Proof.
  intros H1 H2 H3 H4 fwd strike. split; [|now apply ms_bounds].
  rewrite ms_parity by easy. unfold fwd, strike. ring.
Qed.

Lemma ms_black76 Pt FT K t T sS rSE rSF rEF kE kF :
  0 < Pt -> 0 < FT -> 0 < K -> 0 < t -> 0 < sS -> 0 < kE -> 0 < kF ->
  let p := mkMs Pt FT K t T sS 0 0 rSE rSF rEF kE kF in
  gbs_call (Black76Option FT K t (- ln Pt / t) (Some sS)) = Ok (ms_call p) /\
  gbs_put (Black76Option FT K t (- ln Pt / t) (Some sS)) = Ok (ms_put p).
Proof.
  intros HP HF HK Ht Hs HE HkF p.
  assert (V : ms_vz2 p = sS ^ 2 * t) by (unfold ms_vz2, p; toR; field; lra).
  assert (X : ms_vxz p = 0) by (unfold ms_vxz, p; toR; field; lra).
  assert (V0 : 0 < ms_vz2 p) by (rewrite V; apply Rmult_lt_0_compat; [apply pow_lt|]; lra).
  assert (Z : ms_vz p = sS * sqrt t).
  { unfold ms_vz. toR. rewrite V, sqrt_mult, sqrt_pow2 by (try apply pow2_ge_0; lra). reflexivity. }
  rewrite ms_call_link, ms_put_link by easy. rewrite X, Z, Ropp_0, exp_0.
  unfold Black76Option, gbs_call, gbs_put.
  assert (E0 : lit 0 = 0) by (toR; lra). rewrite E0, call_link, put_link by lra.
  replace ((0 - - ln Pt / t) * t) with (ln Pt) by (field; lra).
  replace (- (- ln Pt / t) * t) with (ln Pt) by (field; lra).
  rewrite exp_ln by easy. cbn [m_Pt m_FT m_K p]. 
  split; f_equal; f_equal; ring.
Qed.

Lemma ms_doc_example :
  let p := mkMs 1 95 80 (1/4) (1/2) (266/1000) (249/1000) (96/10000) (805/1000) (805/10000) (1243/10000) (1045/1000) (2/10) in
  0 < m_Pt p /\ 0 < m_FT p /\ 0 < m_K p /\ 0 < m_kE p /\ 0 < m_kF p /\
  (forall x y z, 0 <= x ^ 2 + y ^ 2 + z ^ 2 + 2 * m_rSE p * x * y + 2 * m_rSF p * x * z + 2 * m_rEF p * y * z) /\
  0 < ms_vz2 p.
Proof.
  intros p. repeat (split; [cbn; lra|]). split.
  - intros x y z. cbn [m_rSE m_rSF m_rEF p].
    assert (E : x ^ 2 + y ^ 2 + z ^ 2 + 2 * (805/1000) * x * y + 2 * (805/10000) * x * z + 2 * (1243/10000) * y * z
      = (x + 805/1000 * y + 805/10000 * z) ^ 2 + (1 - (805/1000)^2) * (y + (1243/10000 - 805/1000 * (805/10000)) / (1 - (805/1000)^2) * z) ^ 2
        + (1 - (805/10000)^2 - (1243/10000 - 805/1000 * (805/10000)) ^ 2 / (1 - (805/1000)^2)) * z ^ 2) by field.
    rewrite E. generalize (pow2_ge_0 (x + 805/1000 * y + 805/10000 * z)) (pow2_ge_0 (y + (1243/10000 - 805/1000 * (805/10000)) / (1 - (805/1000)^2) * z)) (pow2_ge_0 z).
    nra.
  - unfold ms_vz2, p. toR. interval with (i_prec 60).
Qed.
