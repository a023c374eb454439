(** The Black-Scholes put as a function of remaining time and spot: derivatives with uniform bounds, and
    the error of one lattice step (C34). *)
From Coq Require Import Reals Lra Lia Psatz.
From Coquelicot Require Import Coquelicot.
From Verif Require Import Num MBase PCnd PCnd2 PBlack PGauss PTrees2.
Open Scope R_scope.

Ltac hc := hier; eqR.

(** Mean value theorem in the form used below. *)
Lemma mvt (f f' : R -> R) a b :
  (forall x, Rmin a b <= x <= Rmax a b -> is_derive f x (f' x)) ->
  exists c, Rmin a b <= c <= Rmax a b /\ f b - f a = f' c * (b - a).
Proof.
  intros H. apply (MVT_gen f a b f').
  - intros x Hx. apply H. lra.
  - intros x Hx. apply derivable_continuous_pt. exists (f' x). apply is_derive_Reals. auto.
Qed.

Lemma between a b c r : Rmin a b <= c <= Rmax a b -> Rabs a <= r -> Rabs b <= r -> Rabs c <= r.
Proof. unfold Rmin, Rmax. destruct (Rle_dec a b); intros; split_Rabs; lra. Qed.
Lemma between0 y c : Rmin 0 y <= c <= Rmax 0 y -> Rabs c <= Rabs y.
Proof. intros. apply (between 0 y c); auto. rewrite Rabs_R0. apply Rabs_pos. lra. Qed.

Lemma taylor3 (f f1 f2 f3 : R -> R) rho M y :
  (forall z, Rabs z <= rho -> is_derive f z (f1 z)) -> (forall z, Rabs z <= rho -> is_derive f1 z (f2 z)) ->
  (forall z, Rabs z <= rho -> is_derive f2 z (f3 z)) -> (forall z, Rabs z <= rho -> Rabs (f3 z) <= M) ->
  Rabs y <= rho -> Rabs (f y - f 0 - f1 0 * y - f2 0 / 2 * y ^ 2) <= M * Rabs y ^ 3.
Proof.
  intros H0 H1 H2 H3 Hy.
  set (g := fun z => f z - f1 0 * z - f2 0 / 2 * z ^ 2).
  set (g1 := fun z => f1 z - f2 0 * z).
  destruct (mvt g (fun z => f1 z - f1 0 - f2 0 * z) 0 y) as (c & Hc & Ec).
  { intros x Hx. assert (Rabs x <= rho) by (generalize (between0 _ _ Hx); lra).
    unfold g. evar_last. apply @is_derive_minus. apply @is_derive_minus. apply H0; auto.
    apply (is_derive_ext (fun z => f1 0 * z)); [reflexivity|]. apply is_derive_scal. apply is_derive_id.
    apply is_derive_scal. apply is_derive_pow. apply is_derive_id.
    hc. field. }
  assert (Bc := between0 _ _ Hc).
  destruct (mvt g1 (fun z => f2 z - f2 0) 0 c) as (c1 & Hc1 & Ec1).
  { intros x Hx. assert (Rabs x <= rho) by (generalize (between0 _ _ Hx); lra).
    unfold g1. evar_last. apply @is_derive_minus. apply H1; auto.
    apply is_derive_scal. apply is_derive_id. hc. ring. }
  assert (Bc1 := between0 _ _ Hc1).
  destruct (mvt f2 f3 0 c1) as (c2 & Hc2 & Ec2).
  { intros x Hx. assert (Rabs x <= rho) by (generalize (between0 _ _ Hx); lra). auto. }
  assert (Bc2 := between0 _ _ Hc2).
  assert (E : f y - f 0 - f1 0 * y - f2 0 / 2 * y ^ 2 = f3 c2 * c1 * c * y).
  { transitivity (g y - g 0 - f1 0 * y + f1 0 * y). unfold g; field.
    rewrite Ec. replace (f1 c - f1 0 - f2 0 * c) with (g1 c - g1 0) by (unfold g1; ring).
    rewrite Ec1, Ec2. ring. }
  rewrite E, !Rabs_mult.
  assert (Rabs (f3 c2) <= M) by (apply H3; lra).
  pose proof (Rabs_pos (f3 c2)). pose proof (Rabs_pos c1). pose proof (Rabs_pos c). pose proof (Rabs_pos y).
  replace (M * Rabs y ^ 3) with (M * Rabs y * Rabs y * Rabs y) by ring.
  apply Rmult_le_compat_r; auto. apply Rmult_le_compat; [apply Rmult_le_pos; lra|lra|apply Rmult_le_compat; lra|lra].
Qed.

(** Gaussian bounds *)
Lemma sqrt2PI_2 : 2 <= sqrt (2 * PI).
Proof. apply Rle_trans with (sqrt (2 * 2)); [rewrite sqrt_square; lra|]. apply sqrt_le_1_alt. pose proof PI_lb. lra. Qed.

Lemma exp_lb x : 1 + x <= exp x.
Proof. destruct (Req_dec x 0) as [->|]. rewrite exp_0; lra. left. now apply exp_ineq1. Qed.

Lemma npdf_bounds d : npdf d <= 1 / 2 /\ Rabs d * npdf d <= 1 /\ d ^ 2 * npdf d <= 1.
Proof.
  unfold npdf. set (s := sqrt (2 * PI)). assert (2 <= s) by apply sqrt2PI_2.
  set (e := exp (- d ^ 2 / 2)). assert (0 < e) by apply exp_pos.
  assert (E1 : e * (1 + d ^ 2 / 2) <= 1).
  { replace 1 with (e * exp (d ^ 2 / 2)) at 2.
    - apply Rmult_le_compat_l; [lra|apply exp_lb].
    - unfold e. rewrite <- exp_plus. replace (- d ^ 2 / 2 + d ^ 2 / 2) with 0 by field. apply exp_0. }
  assert (0 <= d ^ 2) by apply pow2_ge_0.
  assert (I : e / s <= e / 2) by (unfold Rdiv; apply Rmult_le_compat_l; [lra|apply Rinv_le_contravar; lra]).
  assert (0 <= e / s) by (apply Rlt_le, Rdiv_lt_0_compat; lra).
  assert (Rabs d <= (1 + d ^ 2) / 2) by (pose proof (pow2_ge_0 (d - 1)); pose proof (pow2_ge_0 (d + 1)); unfold Rabs; destruct (Rcase_abs d); lra).
  pose proof (Rabs_pos d).
  repeat split; nra.
Qed.

Section BS.
Variables (K b s : R).
Hypothesis HK : 0 < K.
Hypothesis Hs : 0 < s.

(** d2, and the undiscounted put with remaining time [tau] at spot [x] *)
Definition dx (tau x : R) : R := (ln x - ln K + b * tau) / (s * sqrt tau) - s * sqrt tau / 2.
Definition Pv (tau x : R) : R := bput Phi (x * exp (b * tau)) K (s * sqrt tau).
Definition Av (tau x : R) : R := x * exp (b * tau) * Phi (- (dx tau x + s * sqrt tau)).
Definition qv (tau x : R) : R := K * npdf (dx tau x).

Lemma fw_pos tau x : 0 < x -> 0 < x * exp (b * tau).
Proof. intros. apply Rmult_lt_0_compat; auto. apply exp_pos. Qed.
Lemma sq_pos tau : 0 < tau -> 0 < sqrt tau. Proof. apply sqrt_lt_R0. Qed.
Lemma v_pos tau : 0 < tau -> 0 < s * sqrt tau. Proof. intros. apply Rmult_lt_0_compat; auto using sq_pos. Qed.

Lemma ln_fw tau x : 0 < x -> ln (x * exp (b * tau) / K) = ln x - ln K + b * tau.
Proof.
  intros. unfold Rdiv. rewrite ln_mult. rewrite ln_mult, ln_exp, ln_Rinv; auto. ring.
  apply exp_pos. apply fw_pos; auto. now apply Rinv_0_lt_compat.
Qed.
Lemma dx2 tau x : 0 < x -> bd2 (x * exp (b * tau)) K (s * sqrt tau) = dx tau x.
Proof. intros. unfold bd2, dx. now rewrite ln_fw. Qed.
Lemma dx1 tau x : 0 < x -> bd1 (x * exp (b * tau)) K (s * sqrt tau) = dx tau x + s * sqrt tau.
Proof. intros. rewrite <- dx2 by auto. rewrite bd12. ring. Qed.

Lemma Pv_eq tau x : 0 < x -> Pv tau x = K * Phi (- dx tau x) - Av tau x.
Proof. intros. unfold Pv, bput, Av. now rewrite dx1, dx2. Qed.

Lemma qv_eq tau x : 0 < x -> 0 < tau -> x * exp (b * tau) * npdf (dx tau x + s * sqrt tau) = qv tau x.
Proof.
  intros. unfold qv. rewrite <- dx1, <- dx2 by auto. apply b_density; auto using fw_pos, v_pos.
Qed.

Lemma qv_bounds tau x : 0 < qv tau x <= K /\ Rabs (dx tau x) * qv tau x <= K /\ dx tau x ^ 2 * qv tau x <= K.
Proof.
  unfold qv. destruct (npdf_bounds (dx tau x)) as (B1 & B2 & B3). pose proof (npdf_pos (dx tau x)).
  repeat split; nra.
Qed.

Lemma Av_bounds tau x : 0 < x -> 0 < tau -> 0 <= Av tau x <= K.
Proof.
  intros. unfold Av. pose proof (fw_pos tau x H). pose proof (v_pos tau H0).
  set (d1 := dx tau x + s * sqrt tau). pose proof (Phi_gt_0 (- d1)). pose proof (Phi_lt_1 (- d1)).
  split. apply Rmult_le_pos; lra.
  destruct (Rle_dec (x * exp (b * tau)) K) as [L|L]; [nra|].
  assert (0 < d1).
  { unfold d1. rewrite <- dx1 by auto. unfold bd1.
    assert (0 < ln (x * exp (b * tau) / K) / (s * sqrt tau)); [|lra].
    apply Rdiv_lt_0_compat; auto. rewrite <- ln_1. apply ln_increasing; [lra|].
    apply (Rmult_lt_reg_r K); auto. unfold Rdiv. rewrite Rmult_assoc, Rinv_l; lra. }
  destruct (Phi_tail d1 H5) as [_ T]. rewrite Phi_opp.
  apply Rle_trans with (x * exp (b * tau) * exp (- d1 ^ 2 / 2)); [apply Rmult_le_compat_l; lra|].
  assert (Q := qv_eq tau x H H0). fold d1 in Q. unfold qv, npdf in Q.
  pose proof sqrt2PI_pos.
  assert (Q' : x * exp (b * tau) * exp (- d1 ^ 2 / 2) = K * exp (- dx tau x ^ 2 / 2)).
  { apply (Rmult_eq_reg_r (/ sqrt (2 * PI))); [|apply Rinv_neq_0_compat; lra].
    unfold Rdiv in Q |- *. rewrite <- !Rmult_assoc in Q. exact Q. }
  rewrite Q'. rewrite <- (Rmult_1_r K) at 2. apply Rmult_le_compat_l; [lra|].
  rewrite <- exp_0. assert (0 <= dx tau x ^ 2) by apply pow2_ge_0.
  destruct (Req_dec (- dx tau x ^ 2 / 2) 0) as [->|]; [lra|]. left. apply exp_increasing. lra.
Qed.

(** derivatives in the spot *)
Definition D1 (tau x : R) : R := - exp (b * tau) * Phi (- (dx tau x + s * sqrt tau)).
Definition D2 (tau x : R) : R := qv tau x / (x ^ 2 * (s * sqrt tau)).
Definition D3 (tau x : R) : R := - qv tau x / (x ^ 3 * (s * sqrt tau)) * (dx tau x / (s * sqrt tau) + 2).

Lemma dx_derive_x tau x : 0 < x -> 0 < tau -> is_derive (dx tau) x (/ (x * (s * sqrt tau))).
Proof.
  intros. unfold dx. pose proof (sq_pos tau H0). auto_derive; auto. field. repeat split; lra.
Qed.

Lemma Phi_comp_derive (f : R -> R) x f' : is_derive f x f' -> is_derive (fun y => Phi (f y)) x (f' * npdf (f x)).
Proof. intros. apply (is_derive_comp Phi f). apply Phi_derive. auto. Qed.

Lemma npdf_even x : npdf (- x) = npdf x.
Proof. unfold npdf. replace ((- x) ^ 2) with (x ^ 2) by ring. reflexivity. Qed.

Lemma PhiD1_derive tau x : 0 < x -> 0 < tau ->
  is_derive (fun y => Phi (- (dx tau y + s * sqrt tau))) x (- / (x * (s * sqrt tau)) * npdf (dx tau x + s * sqrt tau)).
Proof.
  intros. evar_last. apply Phi_comp_derive. apply @is_derive_opp. apply @is_derive_plus.
  apply dx_derive_x; auto. apply is_derive_const. simpl. rewrite npdf_even.
  hc. ring.
Qed.

Lemma Pv_derive_x tau x : 0 < x -> 0 < tau -> is_derive (Pv tau) x (D1 tau x).
Proof.
  intros. apply (is_derive_ext_loc (fun y => K * Phi (- dx tau y) - exp (b * tau) * (y * Phi (- (dx tau y + s * sqrt tau))))).
  { exists (mkposreal x H). intros y Hy. change (Rabs (y - x) < x) in Hy. apply Rabs_def2 in Hy.
    assert (0 < y) by lra. rewrite Pv_eq by auto. unfold Av. eqR. ring. }
  evar_last. apply @is_derive_minus. apply is_derive_scal. apply Phi_comp_derive. apply @is_derive_opp. apply dx_derive_x; auto.
  apply is_derive_scal. apply @is_derive_mult. apply is_derive_id. apply PhiD1_derive; auto. intros; apply Rmult_comm.
  unfold D1. rewrite npdf_even. hc.
  assert (Q := qv_eq tau x H H0). unfold qv in Q. pose proof (sq_pos tau H0).
  replace (K * (- / (x * (s * sqrt tau)) * npdf (dx tau x))) with (- (K * npdf (dx tau x)) * / (x * (s * sqrt tau))) by ring.
  rewrite <- Q. field. repeat split; lra.
Qed.

Lemma D1_derive_x tau x : 0 < x -> 0 < tau -> is_derive (D1 tau) x (D2 tau x).
Proof.
  intros. unfold D1. evar_last. apply is_derive_scal. apply PhiD1_derive; auto.
  unfold D2. rewrite <- qv_eq by auto. pose proof (sq_pos tau H0). simpl. field. repeat split; lra.
Qed.

Lemma npdf_comp_derive (f : R -> R) x f' : is_derive f x f' -> is_derive (fun y => npdf (f y)) x (f' * (- f x * npdf (f x))).
Proof. intros. apply (is_derive_comp npdf f). apply npdf_derive. auto. Qed.

Lemma D2_derive_x tau x : 0 < x -> 0 < tau -> is_derive (D2 tau) x (D3 tau x).
Proof.
  intros. pose proof (sq_pos tau H0). unfold D2, qv. unfold Rdiv.
  evar_last. apply @is_derive_mult. apply is_derive_scal. apply npdf_comp_derive. apply dx_derive_x; auto.
  apply (is_derive_inv (fun y => y ^ 2 * (s * sqrt tau)) x (2 * x * (s * sqrt tau))).
  auto_derive; auto. ring. apply Rgt_not_eq, Rmult_lt_0_compat. apply pow_lt; auto. now apply v_pos.
  intros; apply Rmult_comm.
  unfold D3, qv. hc. field. repeat split; lra.
Qed.

(** derivative in time: the Black-Scholes equation *)
Definition Dt (tau x : R) : R := - b * Av tau x + s * qv tau x / (2 * sqrt tau).

Lemma pde tau x : 0 < x -> 0 < tau -> Dt tau x = b * (x * D1 tau x) + s ^ 2 / 2 * (x ^ 2 * D2 tau x).
Proof.
  intros. unfold Dt, D1, D2, Av. pose proof (sq_pos tau H0). field. repeat split; lra.
Qed.

Lemma sqrt_derive tau : 0 < tau -> is_derive sqrt tau (/ (2 * sqrt tau)).
Proof. intros. apply is_derive_Reals. now apply derivable_pt_lim_sqrt. Qed.

Definition dxt (tau x : R) : R := - dx tau x / (2 * tau) + (b - s ^ 2 / 2) / (s * sqrt tau).
Lemma dx_derive_t tau x : 0 < tau -> is_derive (fun t => dx t x) tau (dxt tau x).
Proof.
  intros. unfold dx. pose proof (sq_pos tau H). assert (Q : tau = sqrt tau * sqrt tau) by (rewrite sqrt_sqrt; lra).
  auto_derive.
  { repeat split; auto. apply Rgt_not_eq, v_pos; auto. }
  unfold dxt, dx. set (q := sqrt tau) in *. rewrite Q. field. repeat split; lra.
Qed.

Lemma d1_derive_t tau x : 0 < tau -> is_derive (fun t => dx t x + s * sqrt t) tau (dxt tau x + s / (2 * sqrt tau)).
Proof.
  intros. evar_last. apply @is_derive_plus. now apply dx_derive_t. apply is_derive_scal. now apply sqrt_derive. reflexivity.
Qed.

Definition At (tau x : R) : R := b * Av tau x - qv tau x * (dxt tau x + s / (2 * sqrt tau)).
Lemma Av_derive_t tau x : 0 < x -> 0 < tau -> is_derive (fun t => Av t x) tau (At tau x).
Proof.
  intros. unfold Av. evar_last. apply @is_derive_mult.
  apply (is_derive_ext (fun t => x * exp (b * t))); [reflexivity|]. apply is_derive_scal. 
  apply (is_derive_comp exp (fun t => b * t)). apply is_derive_exp. apply is_derive_scal. apply is_derive_id.
  apply Phi_comp_derive. apply @is_derive_opp. now apply d1_derive_t. intros; apply Rmult_comm.
  unfold At. rewrite <- qv_eq by auto. rewrite npdf_even. unfold Av. hc. ring.
Qed.

Lemma qv_derive_t tau x : 0 < tau -> is_derive (fun t => qv t x) tau (- dxt tau x * dx tau x * qv tau x).
Proof.
  intros. unfold qv. evar_last. apply is_derive_scal. apply npdf_comp_derive. now apply dx_derive_t. simpl. ring.
Qed.

Lemma Pv_derive_t tau x : 0 < x -> 0 < tau -> is_derive (fun t => Pv t x) tau (Dt tau x).
Proof.
  intros. apply (is_derive_ext (fun t => K * Phi (- dx t x) - Av t x)).
  { intros t. now rewrite Pv_eq. }
  evar_last. apply @is_derive_minus. apply is_derive_scal. apply Phi_comp_derive. apply @is_derive_opp. now apply dx_derive_t.
  now apply Av_derive_t. simpl; rewrite npdf_even. unfold At, Dt, qv. hc.
  pose proof (sq_pos tau H0). field. lra.
Qed.

Definition Dtt (tau x : R) : R :=
  - b * At tau x + s / 2 * (- dxt tau x * dx tau x * qv tau x / sqrt tau - qv tau x / (2 * sqrt tau ^ 3)).
Lemma Dt_derive_t tau x : 0 < x -> 0 < tau -> is_derive (fun t => Dt t x) tau (Dtt tau x).
Proof.
  intros. pose proof (sq_pos tau H0).
  apply (is_derive_ext (fun t => - b * Av t x + s / 2 * (qv t x * / sqrt t))).
  { intros t. unfold Dt. unfold Rdiv. rewrite Rinv_mult. eqR; ring. }
  evar_last. apply @is_derive_plus. apply is_derive_scal. now apply Av_derive_t.
  apply is_derive_scal. apply @is_derive_mult. now apply qv_derive_t. apply is_derive_inv. now apply sqrt_derive. lra.
  intros; apply Rmult_comm.
  unfold Dtt. hc. field. lra.
Qed.
End BS.
