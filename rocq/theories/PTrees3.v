(** Jump sizes, probabilities and price-level facts of the tree pricers over the reals. *)
From Coq Require Import Reals List Arith ZArith QArith String Bool Lia Lra Psatz.
From Coquelicot Require Import Coquelicot.
From Verif Require Import Num Py Arr MTrees STrees PTrees PTrees2 PStop.
Import ListNotations.
Open Scope R_scope.

Lemma INR_IZR n : IZR (Z.of_nat n) = INR n.
Proof. symmetry. apply INR_IZR_INZ. Qed.

Lemma exp_pow x n : exp x ^ n = exp (INR n * x).
Proof.
  induction n.
  - simpl. now rewrite Rmult_0_l, exp_0.
  - simpl pow. rewrite IHn, S_INR, <- exp_plus. f_equal. ring.
Qed.

Section Params.
Variables (S K t r b sigma : R) (ty : string) (n : nat).
Notation o := (mkTree S K t r b sigma ty n).
Hypothesis Hn : n <> 0%nat.
Hypothesis Ht : 0 < t.

Let dt := t / INR n.

Lemma n_pos : 0 < INR n.
Proof. apply lt_0_INR. lia. Qed.
Lemma dt_eq : bi_dt o = dt.
Proof. unfold bi_dt, dt. toR. cbn [to_t to_n]. now rewrite INR_IZR. Qed.
Lemma dt_pos : 0 < dt.
Proof. unfold dt. apply Rdiv_lt_0_compat; auto using n_pos. Qed.

Lemma bi_Df_eq : bi_Df o = exp (- r * dt).
Proof. unfold bi_Df. rewrite dt_eq. reflexivity. Qed.

(* CRR *)
Lemma crr_u : bi_u CRR o = exp (sigma * sqrt dt).
Proof. unfold bi_u. rewrite dt_eq. reflexivity. Qed.
Lemma crr_d : bi_d CRR o = exp (- (sigma * sqrt dt)).
Proof.
  unfold bi_d. rewrite crr_u. toR. rewrite exp_Ropp. field. apply Rgt_not_eq, exp_pos.
Qed.
Lemma sqrt_dt : 0 < sqrt dt.
Proof. apply sqrt_lt_R0, dt_pos. Qed.
Lemma crr_u_ne_d : sigma <> 0 -> bi_u CRR o <> bi_d CRR o.
Proof.
  intro Hs. rewrite crr_u, crr_d. intro E. apply exp_inv in E. pose proof sqrt_dt.
  assert (sigma * sqrt dt <> 0) by (apply Rmult_integral_contrapositive; lra). lra.
Qed.
Lemma crr_p : bi_p CRR o = (exp (b * dt) - bi_d CRR o) / (bi_u CRR o - bi_d CRR o).
Proof. unfold bi_p. rewrite dt_eq. reflexivity. Qed.
Lemma tian_p : bi_p TIAN o = (exp (b * dt) - bi_d TIAN o) / (bi_u TIAN o - bi_d TIAN o).
Proof. unfold bi_p. rewrite dt_eq. reflexivity. Qed.
Lemma jr_p : bi_p JR o = 1 / 2.
Proof. reflexivity. Qed.

(* TIAN *)
Let M := exp (b * dt).
Let V := exp (sigma ^ 2 * dt).
Let Q := sqrt (V * V + 2 * V - 3).
Lemma tian_u : bi_u TIAN o = M * V / 2 * (V + 1 + Q).
Proof. unfold bi_u. rewrite dt_eq. reflexivity. Qed.
Lemma tian_d : bi_d TIAN o = M * V / 2 * (V + 1 - Q).
Proof. unfold bi_d. rewrite dt_eq. reflexivity. Qed.
Lemma V_gt_1 : sigma <> 0 -> 1 < V.
Proof.
  intro. unfold V. rewrite <- exp_0. apply exp_increasing. pose proof dt_pos.
  assert (0 < sigma ^ 2) by (rewrite <- Rsqr_pow2; now apply Rsqr_pos_lt). nra.
Qed.
Lemma tian_order : sigma <> 0 -> 0 < bi_d TIAN o < M /\ M < bi_u TIAN o.
Proof.
  intro Hs. rewrite tian_u, tian_d. pose proof (V_gt_1 Hs) as HV.
  assert (HM : 0 < M) by apply exp_pos.
  assert (HQ2 : Q * Q = V * V + 2 * V - 3) by (apply sqrt_sqrt; nra).
  assert (HQ : 0 < Q) by (apply sqrt_lt_R0; nra).
  assert (Q < V + 1) by nra.
  assert (KEY : V * (V + 1) - 2 < V * Q).
  { apply Rsqr_incrst_0; unfold Rsqr; [|nra|nra].
    replace (V * Q * (V * Q)) with (V * V * (Q * Q)) by ring. rewrite HQ2.
    assert (0 < V - 1) by lra. nra. }
  assert (A : V * (V + 1 - Q) < 2) by nra.
  assert (B : 2 < V * (V + 1 + Q)) by nra.
  assert (C0 : 0 < V * (V + 1 - Q)) by nra.
  replace (M * V / 2 * (V + 1 - Q)) with (M * (V * (V + 1 - Q) / 2)) by field.
  replace (M * V / 2 * (V + 1 + Q)) with (M * (V * (V + 1 + Q) / 2)) by field.
  set (y := V * (V + 1 - Q)) in *. set (w := V * (V + 1 + Q)) in *.
  repeat split; nra.
Qed.
Lemma tian_p_01 : sigma <> 0 -> 0 < bi_p TIAN o < 1.
Proof.
  intro Hs. destruct (tian_order Hs) as ((D0 & D1) & U). rewrite tian_p. fold M.
  set (u := bi_u TIAN o) in *. set (d := bi_d TIAN o) in *. split.
  - apply Rdiv_lt_0_compat; lra.
  - apply Rmult_lt_reg_r with (u - d); [lra|]. unfold Rdiv. rewrite Rmult_assoc, Rinv_l by lra. lra.
Qed.

(* JR *)
Lemma jr_u : bi_u JR o = exp ((b - sigma ^ 2 / 2) * dt + sigma * sqrt dt).
Proof. unfold bi_u. rewrite dt_eq. reflexivity. Qed.
Lemma jr_d : bi_d JR o = exp ((b - sigma ^ 2 / 2) * dt - sigma * sqrt dt).
Proof. unfold bi_d. rewrite dt_eq. reflexivity. Qed.

Lemma bi_ud_pos k : sigma <> 0 -> 0 < bi_u k o /\ 0 < bi_d k o.
Proof.
  intro Hs. destruct k.
  - rewrite crr_u, crr_d. split; apply exp_pos.
  - rewrite jr_u, jr_d. split; apply exp_pos.
  - destruct (tian_order Hs). lra.
Qed.

(** one-step forward of CRR and TIAN is exact *)
Lemma one_step_forward k : k <> JR -> sigma <> 0 ->
  bi_p k o * bi_u k o + (1 - bi_p k o) * bi_d k o = exp (b * dt).
Proof.
  intros Hk Hs. assert (bi_u k o - bi_d k o <> 0).
  { destruct k; [|congruence|].
    - pose proof (crr_u_ne_d Hs). lra.
    - pose proof (tian_order Hs). lra. }
  assert (E : bi_p k o = (exp (b * dt) - bi_d k o) / (bi_u k o - bi_d k o)).
  { destruct k; [apply crr_p|congruence|apply tian_p]. }
  rewrite E. field. auto.
Qed.


(** CRR's p *)
Lemma crr_p_range : 0 < sigma ->
  (0 <= bi_p CRR o <= 1 <-> Rabs b * sqrt dt <= sigma).
Proof.
  intro Hs. rewrite crr_p, crr_u, crr_d.
  pose proof sqrt_dt as Hq. pose proof dt_pos as Hd. set (q := sqrt dt) in *.
  assert (Hqq : q * q = dt) by (apply sqrt_sqrt; lra).
  assert (D : 0 < exp (sigma * q) - exp (- (sigma * q))).
  { assert (exp (- (sigma * q)) < exp (sigma * q)) by (apply exp_increasing; nra). lra. }
  assert (A : 0 <= (exp (b * dt) - exp (- (sigma * q))) / (exp (sigma * q) - exp (- (sigma * q)))
              <-> exp (- (sigma * q)) <= exp (b * dt)).
  { split; intro H.
    - apply Rmult_le_compat_r with (r := exp (sigma * q) - exp (- (sigma * q))) in H; [|lra].
      unfold Rdiv in H. rewrite Rmult_assoc, Rinv_l, Rmult_0_l in H by lra. lra.
    - apply Rle_div_r; lra. }
  assert (B : (exp (b * dt) - exp (- (sigma * q))) / (exp (sigma * q) - exp (- (sigma * q))) <= 1
              <-> exp (b * dt) <= exp (sigma * q)).
  { split; intro H.
    - apply Rmult_le_compat_r with (r := exp (sigma * q) - exp (- (sigma * q))) in H; [|lra].
      unfold Rdiv in H. rewrite Rmult_assoc, Rinv_l, Rmult_1_l in H by lra. lra.
    - apply Rle_div_l; lra. }
  rewrite A, B.
  assert (EL : forall x y, exp x <= exp y <-> x <= y).
  { intros x y. split; intro H.
    - destruct (Rle_lt_dec x y); auto. apply exp_increasing in r0. lra.
    - destruct H as [H|H]; [left; now apply exp_increasing|right; now rewrite H]. }
  rewrite !EL. rewrite <- Hqq. unfold Rabs. destruct (Rcase_abs b); split; intros; nra.
Qed.


(* trinomial: square root step *)
Definition sq_o := mkTree S K t r b sigma ty (2 * n).
Lemma half_dt : bi_dt sq_o = dt / 2.
Proof.
  unfold bi_dt, sq_o, dt. toR. cbn [to_t to_n]. rewrite INR_IZR, mult_INR.
  change (INR 2) with (1 + 1). pose proof n_pos. field. lra.
Qed.
Lemma tri_dt_eq : tri_dt o = dt.
Proof. unfold tri_dt, dt. toR. cbn [to_t to_n]. now rewrite INR_IZR. Qed.
Lemma sqrt_2dt : sqrt (2 * dt) = 2 * sqrt (dt / 2).
Proof.
  replace (2 * dt) with (Rsqr 2 * (dt / 2)) by (unfold Rsqr; field).
  pose proof dt_pos. rewrite sqrt_mult; [|unfold Rsqr; lra|lra]. rewrite sqrt_Rsqr by lra. reflexivity.
Qed.
Lemma tri_u_sq : tri_u o = bi_u CRR sq_o * bi_u CRR sq_o.
Proof.
  unfold tri_u, bi_u. rewrite half_dt, tri_dt_eq. toR. cbn [to_sigma sq_o]. rewrite sqrt_2dt.
  rewrite <- exp_plus. f_equal. ring.
Qed.
Lemma crr_d2 : bi_d CRR sq_o = exp (- sigma * sqrt (dt / 2)).
Proof.
  unfold bi_d, bi_u. rewrite half_dt. toR. cbn [to_sigma sq_o].
  rewrite Ropp_mult_distr_l_reverse, exp_Ropp. field. apply Rgt_not_eq, exp_pos.
Qed.
Lemma crr_u2 : bi_u CRR sq_o = exp (sigma * sqrt (dt / 2)).
Proof. unfold bi_u. rewrite half_dt. reflexivity. Qed.
Lemma tri_d_sq : tri_d o = bi_d CRR sq_o * bi_d CRR sq_o.
Proof.
  rewrite crr_d2. unfold tri_d. rewrite tri_dt_eq. toR. cbn [to_sigma]. rewrite sqrt_2dt.
  rewrite <- exp_plus. f_equal. ring.
Qed.
Lemma u2_ne_d2 : sigma <> 0 -> bi_u CRR sq_o - bi_d CRR sq_o <> 0.
Proof.
  intro Hs. rewrite crr_u2, crr_d2. intro E.
  assert (E' : exp (sigma * sqrt (dt / 2)) = exp (- sigma * sqrt (dt / 2))) by lra.
  apply exp_inv in E'. pose proof dt_pos.
  assert (0 < sqrt (dt / 2)) by (apply sqrt_lt_R0; lra).
  assert (sigma * sqrt (dt / 2) <> 0) by (apply Rmult_integral_contrapositive; lra). lra.
Qed.
Lemma crr_p2 : bi_p CRR sq_o = (exp (b * (dt / 2)) - bi_d CRR sq_o) / (bi_u CRR sq_o - bi_d CRR sq_o).
Proof. unfold bi_p. rewrite half_dt. reflexivity. Qed.
Lemma tri_pu_sq : sigma <> 0 -> tri_pu o = bi_p CRR sq_o * bi_p CRR sq_o.
Proof.
  intro Hs. rewrite crr_p2, crr_u2, crr_d2.
  unfold tri_pu. rewrite tri_dt_eq. toR. cbn [to_sigma to_b].
  replace (b * dt / 2) with (b * (dt / 2)) by field. simpl pow. rewrite Rmult_1_r. reflexivity.
Qed.
Lemma tri_pd_sq : sigma <> 0 -> tri_pd o = (1 - bi_p CRR sq_o) * (1 - bi_p CRR sq_o).
Proof.
  intro Hs. pose proof (u2_ne_d2 Hs) as H. rewrite crr_p2, crr_u2, crr_d2 in *.
  unfold tri_pd. rewrite tri_dt_eq. toR. cbn [to_sigma to_b].
  replace (b * dt / 2) with (b * (dt / 2)) by field. simpl pow. field. auto.
Qed.
End Params.

(* ------------------------------------------------------------------ cosh x < exp (x^2/2) *)
Lemma pos_of_deriv (f f' : R -> R) x :
  0 < x -> (forall c, 0 <= c <= x -> is_derive f c (f' c)) -> (forall c, 0 < c < x -> 0 < f' c) ->
  f 0 < f x.
Proof.
  intros Hx D P.
  destruct (MVT_cor2 f f' 0 x Hx) as (c & E & Hc).
  - intros c Hc. apply is_derive_Reals. auto.
  - specialize (P c Hc). nra.
Qed.

Lemma tanh_lt x : 0 < x -> exp x - exp (- x) < x * (exp x + exp (- x)).
Proof.
  intro Hx.
  assert (H := pos_of_deriv (fun y => y * (exp y + exp (- y)) - (exp y - exp (- y)))
                 (fun y => y * (exp y - exp (- y))) x Hx).
  cbv beta in H. rewrite Ropp_0, exp_0 in H. cut (0 * (1 + 1) - (1 - 1) < x * (exp x + exp (- x)) - (exp x - exp (- x))); [lra|].
  apply H.
  - intros. auto_derive; auto. ring.
  - intros c Hc. assert (exp (- c) < exp c) by (apply exp_increasing; lra). nra.
Qed.

Lemma cosh_lt_gauss x : x <> 0 -> (exp x + exp (- x)) / 2 < exp (x ^ 2 / 2).
Proof.
  assert (P : forall x, 0 < x -> (exp x + exp (- x)) / 2 < exp (x ^ 2 / 2)).
  { clear. intros x Hx.
    assert (H := pos_of_deriv (fun y => - (exp (- (y * y / 2)) * (exp y + exp (- y))))
                  (fun y => exp (- (y * y / 2)) * (y * (exp y + exp (- y)) - (exp y - exp (- y)))) x Hx).
    cbv beta in H.
    assert (L : - (exp (- (0 * 0 / 2)) * (exp 0 + exp (- 0))) < - (exp (- (x * x / 2)) * (exp x + exp (- x)))).
    { apply H.
      - intros. auto_derive; auto. unfold Rdiv. field.
      - intros c Hc. apply Rmult_lt_0_compat; [apply exp_pos|]. pose proof (tanh_lt c). lra. }
    replace (- (0 * 0 / 2)) with 0 in L by field. replace (x * x) with (x ^ 2) in L by ring. rewrite Ropp_0, exp_0 in L.
    rewrite (exp_Ropp (x ^ 2 / 2)) in L.
    assert (HP := exp_pos (x ^ 2 / 2)). set (g := exp (x ^ 2 / 2)) in *.
    assert (/ g * (exp x + exp (- x)) < 2) by lra.
    apply Rmult_lt_compat_l with (r := g) in H0; [|auto].
    rewrite <- Rmult_assoc, Rinv_r in H0 by lra. lra. }
  intro Hx. destruct (Rlt_dec 0 x); [auto|].
  specialize (P (- x) ltac:(lra)). rewrite Ropp_involutive in P.
  replace ((- x) ^ 2) with (x ^ 2) in P by ring. lra.
Qed.

(** Jarrow-Rudd's one-step forward is strictly too low *)
Lemma jr_one_step S K t r b sigma ty n : n <> 0%nat -> 0 < t -> sigma <> 0 ->
  let o := mkTree S K t r b sigma ty n in
  bi_p JR o * bi_u JR o + (1 - bi_p JR o) * bi_d JR o < exp (b * (t / INR n)).
Proof.
  intros Hn Ht Hs o. unfold o. rewrite jr_p, jr_u, jr_d.
  pose proof (dt_pos t n Hn Ht) as Hd. set (dt := t / INR n) in *.
  set (q := sqrt dt). assert (Hq : 0 < q) by (apply sqrt_lt_R0; auto).
  assert (Hqq : q * q = dt) by (apply sqrt_sqrt; lra).
  assert (G := cosh_lt_gauss (sigma * q)).
  assert (Hsq : sigma * q <> 0) by (apply Rmult_integral_contrapositive; lra).
  specialize (G Hsq).
  unfold Rminus at 3. rewrite !exp_plus.
  replace ((b - sigma ^ 2 / 2) * dt) with (b * dt + - ((sigma * q) ^ 2 / 2)) by (rewrite <- Hqq; field).
  rewrite exp_plus, exp_Ropp.
  pose proof (exp_pos (b * dt)). pose proof (exp_pos ((sigma * q) ^ 2 / 2)).
  set (g := exp ((sigma * q) ^ 2 / 2)) in *. set (B := exp (b * dt)) in *.
  set (X := exp (sigma * q)) in *. set (Y := exp (- (sigma * q))) in *.
  replace (1 / 2 * (B * / g * X) + (1 - 1 / 2) * (B * / g * Y)) with (B * ((X + Y) / 2 * / g)) by (field; lra).
  rewrite <- (Rmult_1_r B) at 2. apply Rmult_lt_compat_l; auto.
  apply Rmult_lt_reg_r with g; auto. rewrite Rmult_assoc, Rinv_l by lra. lra.
Qed.
