(** How fast European tree prices approach the Black-Scholes price (C71): the Black-Scholes put has four
    spot derivatives that grow like powers of 1/sqrt(remaining time); the error of one lattice step is
    summed over the steps. *)
From Coq Require Import Reals Lra Lia Psatz.
From Coquelicot Require Import Coquelicot.
From Verif Require Import Num MBase PCnd PCnd2 PBlack PGauss PTrees2 PConv PConv2 PConv3.
Open Scope R_scope.

Lemma taylor4 (f f1 f2 f3 f4 : R -> R) rho M y :
  (forall z, Rabs z <= rho -> is_derive f z (f1 z)) -> (forall z, Rabs z <= rho -> is_derive f1 z (f2 z)) ->
  (forall z, Rabs z <= rho -> is_derive f2 z (f3 z)) -> (forall z, Rabs z <= rho -> is_derive f3 z (f4 z)) ->
  (forall z, Rabs z <= rho -> Rabs (f4 z) <= M) ->
  Rabs y <= rho -> Rabs (f y - f 0 - f1 0 * y - f2 0 / 2 * y ^ 2 - f3 0 / 6 * y ^ 3) <= M * Rabs y ^ 4.
Proof.
  intros H0 H1 H2 H3 H4 Hy.
  set (g := fun z => f z - f1 0 * z - f2 0 / 2 * z ^ 2 - f3 0 / 6 * z ^ 3).
  destruct (mvt g (fun z => f1 z - f1 0 - f2 0 * z - f3 0 / 2 * z ^ 2) 0 y) as (c & Hc & Ec).
  { intros x Hx. assert (Rabs x <= rho) by (generalize (between0 _ _ Hx); lra).
    unfold g. evar_last. apply @is_derive_minus. apply @is_derive_minus. apply @is_derive_minus. apply H0; auto.
    apply (is_derive_ext (fun z => f1 0 * z)); [reflexivity|]. apply is_derive_scal. apply is_derive_id.
    apply is_derive_scal. apply is_derive_pow. apply is_derive_id.
    apply is_derive_scal. apply is_derive_pow. apply is_derive_id.
    hc. field. }
  assert (Bc := between0 _ _ Hc).
  assert (M0 : 0 <= M) by (eapply Rle_trans; [apply Rabs_pos|]; apply (H4 y); auto).
  assert (T := taylor3 f1 f2 f3 f4 rho M c H1 H2 H3 H4 ltac:(lra)).
  assert (E : f y - f 0 - f1 0 * y - f2 0 / 2 * y ^ 2 - f3 0 / 6 * y ^ 3
    = (f1 c - f1 0 - f2 0 * c - f3 0 / 2 * c ^ 2) * y).
  { transitivity (g y - g 0). unfold g; field. rewrite Ec. rewrite Rminus_0_r. reflexivity. }
  rewrite E, Rabs_mult.
  replace (M * Rabs y ^ 4) with (M * Rabs y ^ 3 * Rabs y) by ring.
  apply Rmult_le_compat_r; [apply Rabs_pos|]. eapply Rle_trans; [exact T|].
  apply Rmult_le_compat_l; auto. apply pow_incr. split; [apply Rabs_pos|auto].
Qed.

Section BS.
Variables (K b s : R).
Hypothesis HK : 0 < K.
Hypothesis Hs : 0 < s.
Notation dx := (dx K b s).
Notation Pv := (Pv K b s).
Notation Av := (Av K b s).
Notation qv := (qv K b s).
Notation D1 := (D1 K b s).
Notation D2 := (D2 K b s).
Notation D3 := (D3 K b s).
Notation Dt := (Dt K b s).
Notation Dtt := (Dtt K b s).

Definition D4 (tau x : R) : R :=
  qv tau x / (x ^ 4 * (s * sqrt tau)) * ((dx tau x / (s * sqrt tau)) ^ 2 + 5 * (dx tau x / (s * sqrt tau)) + 6 - / (s * sqrt tau) ^ 2).

Lemma D3_derive_x tau x : 0 < x -> 0 < tau -> is_derive (D3 tau) x (D4 tau x).
Proof.
  intros. pose proof (sq_pos tau H0). unfold PConv.D3, PConv.qv. unfold Rdiv.
  evar_last. apply @is_derive_mult. apply @is_derive_mult. apply @is_derive_opp. apply is_derive_scal.
  apply npdf_comp_derive. apply dx_derive_x; auto.
  apply (is_derive_inv (fun y => y ^ 3 * (s * sqrt tau)) x (3 * x ^ 2 * (s * sqrt tau))).
  auto_derive; auto. ring. apply Rgt_not_eq, Rmult_lt_0_compat. apply pow_lt; auto. now apply v_pos.
  intros; apply Rmult_comm.
  apply @is_derive_plus.
  apply (is_derive_ext (fun y => / (s * sqrt tau) * dx tau y)). { intros; apply Rmult_comm. }
  apply is_derive_scal. apply dx_derive_x; auto. apply is_derive_const.
  intros; apply Rmult_comm.
  unfold D4, PConv.qv. hc. field. repeat split; lra.
Qed.

Lemma Dtt_at tau x : 0 < tau -> 0 < x -> let w := / sqrt tau in let c2 := w * w / 2 + Rabs ((b - s ^ 2 / 2) / s) * w in
  Rabs (Dtt tau x) <= Rabs b * (Rabs b * K + K * c2 + K * (s / 2 * w)) + s / 2 * (K * c2 * w + K * (/ 2 * (w * (w * w)))).
Proof.
  intros H Hx w c2.
  destruct (qv_bounds K b s HK tau x) as ([Q0 Q1] & Q2 & Q3).
  destruct (Av_bounds K b s HK Hs tau x Hx H) as [A0 A1].
  pose proof (sq_pos tau H) as SQ.
  assert (W0 : 0 < w) by (unfold w; now apply Rinv_0_lt_compat).
  assert (EW : / (2 * tau) = w * w / 2).
  { unfold w. rewrite <- (sqrt_sqrt tau) at 1 by lra. field. lra. }
  set (c1 := Rabs ((b - s ^ 2 / 2) / s) * w) in *.
  assert (C1 : 0 <= c1) by (unfold c1; apply Rmult_le_pos; [apply Rabs_pos|lra]).
  assert (E0 : 0 < / (2 * tau)) by (apply Rinv_0_lt_compat; lra).
  assert (Bd : Rabs (dxt K b s tau x) <= Rabs (dx tau x) * / (2 * tau) + c1).
  { unfold dxt. eapply Rle_trans; [apply Rabs_triang|]. apply Rplus_le_compat.
    - unfold Rdiv. rewrite Rabs_mult, Rabs_Ropp, (Rabs_right (/ _)) by lra. lra.
    - replace ((b - s ^ 2 / 2) / (s * sqrt tau)) with ((b - s ^ 2 / 2) / s * w).
      + unfold c1. apply Rabs_mul_le; [lra|rewrite Rabs_right; lra].
      + unfold w. field. split; lra. }
  rewrite EW in Bd, E0.
  set (d := dx tau x) in *. set (q := qv tau x) in *. set (dt := dxt K b s tau x) in *.
  pose proof (Rabs_pos d) as Dp. pose proof (Rabs_pos dt) as Dtp.
  set (h := w * w / 2) in *.
  assert (B1 : Rabs (q * dt) <= K * c2).
  { rewrite Rabs_mult, (Rabs_right q) by lra. unfold c2.
    apply Rle_trans with (q * (Rabs d * h + c1)); [apply Rmult_le_compat_l; lra|].
    replace (q * (Rabs d * h + c1)) with (Rabs d * q * h + q * c1) by ring.
    rewrite Rmult_plus_distr_l. apply Rplus_le_compat; apply Rmult_le_compat_r; lra. }
  assert (B2 : Rabs (dt * d * q) <= K * c2).
  { rewrite !Rabs_mult, (Rabs_right q) by lra. unfold c2.
    apply Rle_trans with ((Rabs d * h + c1) * Rabs d * q).
    { apply Rmult_le_compat_r; [lra|]. apply Rmult_le_compat_r; lra. }
    replace ((Rabs d * h + c1) * Rabs d * q) with (d ^ 2 * q * h + Rabs d * q * c1).
    2:{ rewrite <- (pow2_abs d). ring. }
    rewrite Rmult_plus_distr_l. apply Rplus_le_compat; apply Rmult_le_compat_r; lra. }
  assert (E : Dtt tau x = - b * (b * Av tau x - q * dt - q * (s / 2 * w)) + s / 2 * (- (dt * d * q * w) - q * (/ 2 * (w * (w * w))))).
  { unfold PConv.Dtt, PConv.At. fold q d dt. unfold w. field. lra. }
  rewrite E. clear E.
  assert (W2 : 0 <= w * w) by nra.
  assert (W3 : 0 <= w * (w * w)) by (apply Rmult_le_pos; lra).
  eapply Rle_trans; [apply Rabs_triang|]. apply Rplus_le_compat.
  - apply Rabs_mul_le; [rewrite Rabs_Ropp; lra|].
    unfold Rminus. eapply Rle_trans; [apply Rabs_triang|]. apply Rplus_le_compat.
    + eapply Rle_trans; [apply Rabs_triang|]. apply Rplus_le_compat.
      * apply Rabs_mul_le; [lra|rewrite Rabs_right; lra].
      * now rewrite Rabs_Ropp.
    + rewrite Rabs_Ropp. apply Rabs_mul_le; [rewrite Rabs_right; lra|].
      rewrite Rabs_right by (apply Rle_ge, Rmult_le_pos; lra). lra.
  - apply Rabs_mul_le; [rewrite Rabs_right; lra|].
    unfold Rminus. eapply Rle_trans; [apply Rabs_triang|]. apply Rplus_le_compat.
    + rewrite Rabs_Ropp. apply Rabs_mul_le; auto. rewrite Rabs_right; lra.
    + rewrite Rabs_Ropp. apply Rabs_mul_le; rewrite Rabs_right; try lra.
Qed.

(** all derivatives, up to remaining time T *)
Lemma bounds_at T : 0 < T -> exists C, 0 <= C /\ forall tau x, 0 < tau <= T -> 0 < x -> let w := / sqrt tau in
  Rabs (x * D1 tau x) <= C /\ Rabs (x ^ 2 * D2 tau x) <= C * w /\ Rabs (x ^ 3 * D3 tau x) <= C * w ^ 2 /\
  Rabs (x ^ 4 * D4 tau x) <= C * w ^ 3 /\ Rabs (Dtt tau x) <= C * w ^ 3.
Proof.
  intros HT. set (g := sqrt T). assert (Hg : 0 < g) by (apply sq_pos; auto).
  set (a := / s). assert (Ha : 0 < a) by (apply Rinv_0_lt_compat; auto).
  set (m := Rabs ((b - s ^ 2 / 2) / s)). assert (Hm : 0 <= m) by apply Rabs_pos.
  set (B := Rabs b). assert (HB : 0 <= B) by apply Rabs_pos.
  set (Ct := B * (B * K * g ^ 3 + K * (g / 2 + m * g ^ 2) + K * (s / 2 * g ^ 2)) + s / 2 * (K * (/ 2 + m * g) + K / 2)).
  set (C4 := K * a * (2 * a ^ 2 + 5 * a * g + 6 * g ^ 2)).
  set (C3 := K * a * a + 2 * K * a * g).
  set (C2 := K * a).
  assert (P2 : 0 <= C2) by (unfold C2; nra).
  assert (P3 : 0 <= C3) by (unfold C3; assert (0 <= K * a) by nra; assert (0 <= K * a * a) by nra; assert (0 <= K * a * g) by nra; lra).
  assert (P4 : 0 <= C4).
  { unfold C4. apply Rmult_le_pos; [nra|]. assert (0 <= a ^ 2) by apply pow2_ge_0. assert (0 <= a * g) by nra. assert (0 <= g ^ 2) by apply pow2_ge_0. lra. }
  assert (Pt : 0 <= Ct).
  { assert (G2 : 0 <= g ^ 2) by apply pow2_ge_0. assert (G3 : 0 <= g ^ 3) by (apply pow_le; lra).
    assert (0 <= m * g) by nra. assert (0 <= m * g ^ 2) by nra. assert (0 <= s / 2 * g ^ 2) by (apply Rmult_le_pos; lra).
    unfold Ct. apply Rplus_le_le_0_compat; apply Rmult_le_pos; try lra.
    - repeat apply Rplus_le_le_0_compat; repeat apply Rmult_le_pos; lra.
    - apply Rplus_le_le_0_compat; try lra. apply Rmult_le_pos; lra. }
  exists (K + C2 + C3 + C4 + Ct). split; [lra|].
  intros tau x [H HtT] Hx w. pose proof (sq_pos tau H) as SQ.
  assert (W0 : 0 < w) by (unfold w; now apply Rinv_0_lt_compat).
  assert (W1 : 1 <= g * w).
  { unfold w, g. apply (Rmult_le_reg_r (sqrt tau)); auto. rewrite Rmult_assoc, Rinv_l by lra.
    rewrite Rmult_1_l, Rmult_1_r. apply sqrt_le_1_alt; lra. }
  assert (W1' : w <= g * w ^ 2) by nra.
  assert (W2 : 1 <= g ^ 2 * w ^ 2) by nra.
  assert (PW2 : 0 < w ^ 2) by (apply pow_lt; auto).
  assert (PW3 : 0 < w ^ 3) by (apply pow_lt; auto).
  assert (W12 : w ^ 2 <= g * w ^ 3) by nra.
  assert (W13 : w <= g ^ 2 * w ^ 3) by nra.
  assert (W03 : 1 <= g ^ 3 * w ^ 3) by nra.
  destruct (qv_bounds K b s HK tau x) as ([Q0 Q1] & Q2 & Q3).
  destruct (Av_bounds K b s HK Hs tau x Hx H) as [A0 A1].
  pose proof (Rabs_pos (dx tau x)) as Dp.
  set (c := w * a). assert (Hc : 0 < c) by (unfold c; nra).
  assert (X2 : Rabs (x ^ 2 * D2 tau x) <= C2 * w).
  { replace (x ^ 2 * D2 tau x) with (qv tau x * c) by (unfold PConv.D2, c, w, a; field; repeat split; lra).
    rewrite Rabs_right by (apply Rle_ge, Rmult_le_pos; lra).
    apply Rle_trans with (K * c); [apply Rmult_le_compat_r; lra|]. right. unfold C2, c. ring. }
  assert (X3 : Rabs (x ^ 3 * D3 tau x) <= C3 * w ^ 2).
  { replace (x ^ 3 * D3 tau x) with (- (dx tau x * qv tau x * (c * c)) - 2 * (qv tau x * c)).
    2:{ unfold PConv.D3, c, w, a. field. repeat split; lra. }
    assert (Rabs (dx tau x * qv tau x * (c * c)) <= K * (c * c)).
    { rewrite Rabs_mult. rewrite (Rabs_right (c * c)) by nra. apply Rmult_le_compat_r; [nra|].
      rewrite Rabs_mult, (Rabs_right (qv tau x)) by lra. auto. }
    assert (0 <= qv tau x * c <= K * c) by (split; [apply Rmult_le_pos; lra|apply Rmult_le_compat_r; lra]).
    assert (K * c <= K * a * g * w ^ 2).
    { unfold c. replace (K * (w * a)) with (K * a * w) by ring. rewrite (Rmult_assoc (K * a)). apply Rmult_le_compat_l; [nra|lra]. }
    replace (C3 * w ^ 2) with (K * (c * c) + 2 * (K * a * g * w ^ 2)) by (unfold C3, c; ring).
    apply Rabs_le_between in H0. apply Rabs_le. lra. }
  assert (X4 : Rabs (x ^ 4 * D4 tau x) <= C4 * w ^ 3).
  { replace (x ^ 4 * D4 tau x) with (dx tau x ^ 2 * qv tau x * c ^ 3 + 5 * (dx tau x * qv tau x * c ^ 2) + 6 * (qv tau x * c) - qv tau x * c ^ 3).
    2:{ unfold D4, c, w, a. field. repeat split; lra. }
    assert (c3 : 0 < c ^ 3) by (apply pow_lt; auto). assert (c2 : 0 < c ^ 2) by (apply pow_lt; auto).
    assert (Y1 : 0 <= dx tau x ^ 2 * qv tau x * c ^ 3 <= K * c ^ 3).
    { assert (0 <= dx tau x ^ 2 * qv tau x) by (apply Rmult_le_pos; [apply pow2_ge_0|lra]). split; [apply Rmult_le_pos; lra|apply Rmult_le_compat_r; lra]. }
    assert (Y2 : Rabs (dx tau x * qv tau x * c ^ 2) <= K * c ^ 2).
    { rewrite Rabs_mult, (Rabs_right (c ^ 2)) by lra. apply Rmult_le_compat_r; [lra|].
      rewrite Rabs_mult, (Rabs_right (qv tau x)) by lra. auto. }
    assert (Y3 : 0 <= qv tau x * c <= K * c) by (split; [apply Rmult_le_pos; lra|apply Rmult_le_compat_r; lra]).
    assert (Y4 : 0 <= qv tau x * c ^ 3 <= K * c ^ 3) by (split; [apply Rmult_le_pos; lra|apply Rmult_le_compat_r; lra]).
    assert (Y5 : K * c ^ 2 <= K * a ^ 2 * g * w ^ 3).
    { unfold c. replace (K * (w * a) ^ 2) with (K * a ^ 2 * w ^ 2) by ring. rewrite (Rmult_assoc (K * a ^ 2)).
      apply Rmult_le_compat_l; [apply Rmult_le_pos; [lra|apply pow2_ge_0]|lra]. }
    assert (Y6 : K * c <= K * a * g ^ 2 * w ^ 3).
    { unfold c. replace (K * (w * a)) with (K * a * w) by ring. rewrite (Rmult_assoc (K * a)). apply Rmult_le_compat_l; [nra|lra]. }
    replace (C4 * w ^ 3) with (2 * (K * c ^ 3) + 5 * (K * a ^ 2 * g * w ^ 3) + 6 * (K * a * g ^ 2 * w ^ 3)) by (unfold C4, c; ring).
    apply Rabs_le_between in Y2. apply Rabs_le. lra. }
  assert (Xt : Rabs (Dtt tau x) <= Ct * w ^ 3).
  { eapply Rle_trans; [apply (Dtt_at tau x H Hx)|]. fold w B m.
    assert (Z1 : w * w / 2 + m * w <= (g / 2 + m * g ^ 2) * w ^ 3).
    { replace (w * w / 2) with (w ^ 2 / 2) by field. rewrite Rmult_plus_distr_r. apply Rplus_le_compat; [lra|].
      rewrite Rmult_assoc. apply Rmult_le_compat_l; lra. }
    assert (Z2 : (w * w / 2 + m * w) * w <= (/ 2 + m * g) * w ^ 3).
    { replace ((w * w / 2 + m * w) * w) with (/ 2 * w ^ 3 + m * w ^ 2) by field. rewrite Rmult_plus_distr_r.
      apply Rplus_le_compat_l. rewrite Rmult_assoc. apply Rmult_le_compat_l; lra. }
    unfold Ct. rewrite (Rmult_plus_distr_r _ _ (w ^ 3)). apply Rplus_le_compat.
    - rewrite (Rmult_assoc B _ (w ^ 3)). apply Rmult_le_compat_l; auto.
      assert (0 <= B * K) by nra.
      assert (F1 : B * K * 1 <= B * K * (g ^ 3 * w ^ 3)) by (apply Rmult_le_compat_l; lra).
      assert (F2 := Rmult_le_compat_l K _ _ (Rlt_le _ _ HK) Z1).
      assert (F3 : K * (s / 2) * w <= K * (s / 2) * (g ^ 2 * w ^ 3)) by (apply Rmult_le_compat_l; [apply Rmult_le_pos; lra|lra]).
      lra.
    - rewrite (Rmult_assoc (s / 2)). apply Rmult_le_compat_l; [lra|].
      assert (F2 := Rmult_le_compat_l K _ _ (Rlt_le _ _ HK) Z2).
      replace (w * (w * w)) with (w ^ 3) by ring. lra. }
  assert (0 <= C2 * w) by nra. assert (0 <= C3 * w) by nra. assert (0 <= C4 * w) by nra. assert (0 <= Ct * w) by nra.
  assert (0 <= K * w) by nra. assert (0 <= K * w ^ 2) by nra. assert (0 <= K * w ^ 3) by nra.
  assert (0 <= C2 * w ^ 2) by nra. assert (0 <= C4 * w ^ 2) by nra. assert (0 <= Ct * w ^ 2) by nra.
  assert (0 <= C2 * w ^ 3) by nra. assert (0 <= C3 * w ^ 3) by nra. assert (0 <= C4 * w ^ 3) by nra. assert (0 <= Ct * w ^ 3) by nra.
  rewrite !Rmult_plus_distr_r.
  repeat split; try lra.
  replace (x * D1 tau x) with (- Av tau x) by (unfold PConv.D1, PConv.Av; ring).
  rewrite Rabs_Ropp, Rabs_right; lra.
Qed.

(** error of one lattice step with remaining time tau after it *)
Lemma one_step_rate T : 0 < T -> exists C, 0 <= C /\ forall tau x p y1 y2 dt,
  0 < tau -> 0 < dt -> tau + dt <= T -> 0 < x -> 0 <= p <= 1 -> Rabs y1 <= 1 / 2 -> Rabs y2 <= 1 / 2 ->
  Rabs (p * Pv tau (x * (1 + y1)) + (1 - p) * Pv tau (x * (1 + y2)) - Pv (tau + dt) x)
  <= C * (Rabs (p * y1 + (1 - p) * y2 - b * dt) + Rabs (p * y1 ^ 2 + (1 - p) * y2 ^ 2 - s ^ 2 * dt) * / sqrt tau
          + Rabs (p * y1 ^ 3 + (1 - p) * y2 ^ 3) * (/ sqrt tau) ^ 2
          + (p * Rabs y1 ^ 4 + (1 - p) * Rabs y2 ^ 4 + dt ^ 2) * (/ sqrt tau) ^ 3).
Proof.
  intros HT. destruct (bounds_at T HT) as (C & HC & HD).
  exists (16 * C). split; [lra|].
  intros tau x p y1 y2 dt Ht Hdt HtT Hx Hp Hy1 Hy2. set (w := / sqrt tau).
  assert (W : 0 < w) by (apply Rinv_0_lt_compat, sq_pos; auto).
  assert (W2 : 0 < w ^ 2) by (apply pow_lt; auto). assert (W3 : 0 < w ^ 3) by (apply pow_lt; auto).
  assert (T4 : forall y, Rabs y <= 1 / 2 ->
    Rabs (Pv tau (x * (1 + y)) - Pv tau x - x * D1 tau x * y - x ^ 2 * D2 tau x / 2 * y ^ 2 - x ^ 3 * D3 tau x / 6 * y ^ 3) <= 16 * (C * w ^ 3) * Rabs y ^ 4).
  { intros y Hy.
    assert (pos : forall z, Rabs z <= 1 / 2 -> 1 / 2 <= 1 + z) by (intros z Hz; apply Rabs_le_between in Hz; lra).
    assert (posx : forall z, Rabs z <= 1 / 2 -> 0 < x * (1 + z)) by (intros z Hz; generalize (pos z Hz); intros; apply Rmult_lt_0_compat; lra).
    assert (HT4 : Rabs (Pv tau (x * (1 + y)) - Pv tau (x * (1 + 0)) - x * D1 tau (x * (1 + 0)) * y
                 - x ^ 2 * D2 tau (x * (1 + 0)) / 2 * y ^ 2 - x ^ 3 * D3 tau (x * (1 + 0)) / 6 * y ^ 3) <= 16 * (C * w ^ 3) * Rabs y ^ 4).
    2:{ now rewrite Rplus_0_r, Rmult_1_r in HT4. }
    apply (taylor4 (fun z => Pv tau (x * (1 + z))) (fun z => x * D1 tau (x * (1 + z)))
      (fun z => x ^ 2 * D2 tau (x * (1 + z))) (fun z => x ^ 3 * D3 tau (x * (1 + z))) (fun z => x ^ 4 * D4 tau (x * (1 + z))) (1 / 2)); auto.
    - intros z Hz. evar_last. apply (is_derive_comp (Pv tau) (fun z => x * (1 + z))).
      apply Pv_derive_x; auto; lra. auto_derive; auto. hc. ring.
    - intros z Hz. evar_last. apply is_derive_scal. apply (is_derive_comp (D1 tau) (fun z => x * (1 + z))).
      apply D1_derive_x; auto; lra. auto_derive; auto. hc. ring.
    - intros z Hz. evar_last. apply is_derive_scal. apply (is_derive_comp (D2 tau) (fun z => x * (1 + z))).
      apply D2_derive_x; auto; lra. auto_derive; auto. hc. ring.
    - intros z Hz. evar_last. apply is_derive_scal. apply (is_derive_comp (D3 tau) (fun z => x * (1 + z))).
      apply D3_derive_x; auto; lra. auto_derive; auto. hc. ring.
    - intros z Hz. destruct (HD tau (x * (1 + z)) ltac:(lra) (posx z Hz)) as (_ & _ & _ & H4 & _). fold w in H4.
      generalize (pos z Hz); intros Pz. set (m := 1 + z) in *.
      replace ((x * m) ^ 4 * D4 tau (x * m)) with (m ^ 4 * (x ^ 4 * D4 tau (x * m))) in H4 by ring.
      rewrite Rabs_mult, (Rabs_right (m ^ 4)) in H4 by (apply Rle_ge, pow_le; lra).
      assert (/ 16 <= m ^ 4).
      { replace (/ 16) with ((1 / 2) ^ 4) by field. apply pow_incr. lra. }
      pose proof (Rabs_pos (x ^ 4 * D4 tau (x * m))). nra. }
  destruct (mvt (fun t => Pv t x) (fun t => Dt t x) tau (tau + dt)) as (t1 & Ht1 & E1).
  { intros z. rewrite Rmin_left, Rmax_right by lra. intros. apply Pv_derive_t; auto; lra. }
  rewrite Rmin_left, Rmax_right in Ht1 by lra.
  destruct (mvt (fun t => Dt t x) (fun t => Dtt t x) tau t1) as (t2 & Ht2 & E2).
  { intros z. rewrite Rmin_left, Rmax_right by lra. intros. apply Dt_derive_t; auto; lra. }
  rewrite Rmin_left, Rmax_right in Ht2 by lra.
  assert (ET : Rabs (Pv (tau + dt) x - Pv tau x - Dt tau x * dt) <= C * w ^ 3 * dt ^ 2).
  { rewrite E1. replace (Dt t1 x) with (Dt tau x + Dtt t2 x * (t1 - tau)) by lra.
    replace ((Dt tau x + Dtt t2 x * (t1 - tau)) * (tau + dt - tau) - Dt tau x * dt) with (Dtt t2 x * ((t1 - tau) * dt)) by ring.
    apply Rabs_mul_le.
    - destruct (HD t2 x ltac:(lra) Hx) as (_ & _ & _ & _ & H5). eapply Rle_trans; [exact H5|].
      apply Rmult_le_compat_l; auto. destruct (inv_sqrt_le tau t2 Ht ltac:(lra)) as [I0 I1]. apply pow_incr. fold w in I1. lra.
    - rewrite Rabs_right; [|apply Rle_ge, Rmult_le_pos; lra]. simpl. rewrite Rmult_1_r.
      apply Rmult_le_compat_r; lra. }
  rewrite pde in ET by (auto; lra).
  destruct (HD tau x ltac:(lra) Hx) as (H1 & H2 & H3 & _). fold w in H2, H3. generalize (T4 y1 Hy1) (T4 y2 Hy2). intros U1 U2.
  set (d1 := x * D1 tau x) in *. set (d2 := x ^ 2 * D2 tau x) in *. set (d3 := x ^ 3 * D3 tau x) in *.
  set (P0 := Pv tau x) in *. set (P1 := Pv tau (x * (1 + y1))) in *. set (P2 := Pv tau (x * (1 + y2))) in *.
  set (PT := Pv (tau + dt) x) in *.
  set (r1 := P1 - P0 - d1 * y1 - d2 / 2 * y1 ^ 2 - d3 / 6 * y1 ^ 3) in *. set (r2 := P2 - P0 - d1 * y2 - d2 / 2 * y2 ^ 2 - d3 / 6 * y2 ^ 3) in *.
  set (rt := PT - P0 - (b * d1 + s ^ 2 / 2 * d2) * dt) in *.
  replace (p * P1 + (1 - p) * P2 - PT) with
    (d1 * (p * y1 + (1 - p) * y2 - b * dt) + d2 * ((p * y1 ^ 2 + (1 - p) * y2 ^ 2 - s ^ 2 * dt) / 2)
     + d3 * ((p * y1 ^ 3 + (1 - p) * y2 ^ 3) / 6) + (p * r1 + (1 - p) * r2) - rt).
  2:{ unfold r1, r2, rt. field. }
  set (e1 := p * y1 + (1 - p) * y2 - b * dt). set (e2 := p * y1 ^ 2 + (1 - p) * y2 ^ 2 - s ^ 2 * dt).
  set (e3 := p * y1 ^ 3 + (1 - p) * y2 ^ 3).
  pose proof (Rabs_pos e1). pose proof (Rabs_pos e2). pose proof (Rabs_pos e3).
  assert (V1 : Rabs (d1 * e1) <= C * Rabs e1) by (apply Rabs_mul_le; lra).
  assert (V2 : Rabs (d2 * (e2 / 2)) <= C * w * Rabs e2).
  { apply Rabs_mul_le; [lra|]. unfold Rdiv. rewrite Rabs_mult, (Rabs_right (/ 2)) by lra. lra. }
  assert (V2' : Rabs (d3 * (e3 / 6)) <= C * w ^ 2 * Rabs e3).
  { apply Rabs_mul_le; [lra|]. unfold Rdiv. rewrite Rabs_mult, (Rabs_right (/ 6)) by lra. lra. }
  set (s4 := p * Rabs y1 ^ 4 + (1 - p) * Rabs y2 ^ 4) in *.
  assert (V3 : Rabs (p * r1 + (1 - p) * r2) <= 16 * (C * w ^ 3) * s4).
  { eapply Rle_trans; [apply Rabs_triang|]. rewrite !Rabs_mult, (Rabs_right p), (Rabs_right (1 - p)) by lra. unfold s4.
    assert (p * Rabs r1 <= p * (16 * (C * w ^ 3) * Rabs y1 ^ 4)) by (apply Rmult_le_compat_l; lra).
    assert ((1 - p) * Rabs r2 <= (1 - p) * (16 * (C * w ^ 3) * Rabs y2 ^ 4)) by (apply Rmult_le_compat_l; lra). lra. }
  assert (0 <= C * w) by nra. assert (0 <= C * w ^ 2) by nra. assert (0 <= C * w ^ 3) by nra.
  assert (0 <= C * Rabs e1) by nra. assert (0 <= C * w * Rabs e2) by (apply Rmult_le_pos; lra).
  assert (0 <= C * w ^ 2 * Rabs e3) by (apply Rmult_le_pos; lra).
  assert (0 <= C * w ^ 3 * dt ^ 2) by (apply Rmult_le_pos; [lra|apply pow2_ge_0]).
  replace (16 * C * (Rabs e1 + Rabs e2 * w + Rabs e3 * w ^ 2 + (s4 + dt ^ 2) * w ^ 3)) with
    (16 * (C * Rabs e1) + 16 * (C * w * Rabs e2) + 16 * (C * w ^ 2 * Rabs e3) + 16 * (C * w ^ 3) * s4 + 16 * (C * w ^ 3 * dt ^ 2)) by ring.
  apply Rabs_le_between in V1, V2, V2', V3, ET. apply Rabs_le. lra.
Qed.

(** the recursion, with an error that depends on the step *)
Lemma recursion_sum u d p dt G n :
  0 < u -> 0 < d -> 0 <= p <= 1 -> 0 < dt ->
  (forall k x, (k < n)%nat -> 0 < x ->
    Rabs (p * Pv (INR (S k) * dt) (x * u) + (1 - p) * Pv (INR (S k) * dt) (x * d) - Pv (INR (S k) * dt + dt) x) <= G (S k) - G k) ->
  forall m x, (m <= n)%nat -> 0 < x -> Rabs (bsum u d p (Pv dt) m x - Pv (INR (S m) * dt) x) <= G m - G 0%nat.
Proof.
  intros Hu Hd Hp Hdt H. induction m; intros x Hm Hx.
  - rewrite bsum_0. change (INR 1) with 1. rewrite Rmult_1_l. replace (Pv dt x - Pv dt x) with 0 by ring. rewrite Rabs_R0; lra.
  - rewrite bsum_S.
    assert (X1 := IHm (x * u) ltac:(lia) ltac:(now apply Rmult_lt_0_compat)).
    assert (X2 := IHm (x * d) ltac:(lia) ltac:(now apply Rmult_lt_0_compat)).
    assert (X3 := H m x ltac:(lia) Hx).
    replace (INR (S m) * dt + dt) with (INR (S (S m)) * dt) in X3 by (rewrite (S_INR (S m)); ring).
    apply Rabs_le_between in X1, X2, X3. apply Rabs_le. nra.
Qed.

(** sums of inverse powers *)
Lemma sum_half k : / sqrt (INR (S k)) <= 2 * (sqrt (INR (S k)) - sqrt (INR k)).
Proof.
  assert (P : 0 < INR (S k)) by (apply lt_0_INR; lia). pose proof (sq_pos _ P) as Q. pose proof (sqrt_pos (INR k)) as Q0.
  assert (E : sqrt (INR (S k)) * sqrt (INR (S k)) - sqrt (INR k) * sqrt (INR k) = 1).
  { rewrite !sqrt_sqrt by (try apply pos_INR; lra). rewrite S_INR. ring. }
  assert (L : sqrt (INR k) <= sqrt (INR (S k))) by (apply sqrt_le_1_alt; rewrite S_INR; lra).
  set (A := sqrt (INR (S k))) in *. set (B := sqrt (INR k)) in *.
  apply (Rmult_le_reg_r A); auto. rewrite Rinv_l by lra. nra.
Qed.

Lemma sum_three_halves k : (/ sqrt (INR (S k))) ^ 3 <= 4 * (/ sqrt (INR (S k)) - / sqrt (INR (S (S k)))).
Proof.
  assert (P : 0 < INR (S k)) by (apply lt_0_INR; lia). pose proof (sq_pos _ P) as Q.
  assert (P' : 0 < INR (S (S k))) by (apply lt_0_INR; lia). pose proof (sq_pos _ P') as Q'.
  assert (E : sqrt (INR (S (S k))) * sqrt (INR (S (S k))) = sqrt (INR (S k)) * sqrt (INR (S k)) + 1).
  { rewrite !sqrt_sqrt by lra. rewrite (S_INR (S k)). ring. }
  assert (L1 : 1 <= sqrt (INR (S k))) by (rewrite <- sqrt_1; apply sqrt_le_1_alt; rewrite S_INR; pose proof (pos_INR k); lra).
  set (A := sqrt (INR (S k))) in *. set (B := sqrt (INR (S (S k)))) in *.
  assert (L : B <= 3 / 2 * A) by nra.
  assert (LA : A < B) by nra.
  (* 1/A - 1/B = 1/(A B (A+B)) *)
  assert (X : / A - / B = / (A * B * (A + B))).
  { apply (Rmult_eq_reg_r (A * B * (A + B))); [|apply Rgt_not_eq; repeat apply Rmult_lt_0_compat; lra].
    rewrite Rinv_l by (apply Rgt_not_eq; repeat apply Rmult_lt_0_compat; lra).
    replace ((/ A - / B) * (A * B * (A + B))) with (B * B - A * A) by (field; lra). lra. }
  rewrite X. assert (Y : A * B * (A + B) <= 4 * A ^ 3).
  { replace (4 * A ^ 3) with (A * A * (4 * A)) by ring.
    assert (B * (A + B) <= A * (4 * A)) by nra. nra. }
  assert (0 < A * B * (A + B)) by (repeat apply Rmult_lt_0_compat; lra).
  assert (A3 : 0 < A ^ 3) by (apply pow_lt; auto).
  rewrite pow_inv. apply (Rmult_le_reg_r (A ^ 3 * (A * B * (A + B)))). nra.
  replace (/ A ^ 3 * (A ^ 3 * (A * B * (A + B)))) with (A * B * (A + B)) by (field; lra).
  replace (4 * / (A * B * (A + B)) * (A ^ 3 * (A * B * (A + B)))) with (4 * A ^ 3) by (field; repeat split; lra). auto.
Qed.

(** the put on a lattice whose step has the right moments up to small errors; q is the square root of the time step *)
Theorem put_rate t c : 0 < t -> 0 <= c -> exists C, 0 <= C /\ forall n u d p x,
  let dt := t / INR n in let q := sqrt dt in
  (0 < n)%nat -> 0 < x -> 0 <= p <= 1 -> Rabs (u - 1) <= 1 / 2 -> Rabs (d - 1) <= 1 / 2 ->
  Rabs (u - 1) <= c * q -> Rabs (d - 1) <= c * q ->
  Rabs (p * (u - 1) + (1 - p) * (d - 1) - b * dt) <= c * q ^ 3 ->
  Rabs (p * (u - 1) ^ 2 + (1 - p) * (d - 1) ^ 2 - s ^ 2 * dt) <= c * q ^ 3 ->
  Rabs (p * (u - 1) ^ 3 + (1 - p) * (d - 1) ^ 3) <= c * q ^ 4 ->
  Rabs (bsum u d p (pay K) n x - Pv t x) <= C / sqrt (INR n).
Proof.
  intros Ht Hc. destruct (one_step_rate (2 * t) ltac:(lra)) as (C & HC & H).
  set (C1 := C * (c + c + c + (c ^ 4 + 1))).
  assert (c4 : 0 <= c ^ 4) by (apply pow_le; auto).
  assert (HC1 : 0 <= C1) by (unfold C1; apply Rmult_le_pos; lra).
  set (g := sqrt t). assert (Hg : 0 < g) by (apply sq_pos; auto).
  set (C2 := C1 * (t + 4 * g + 4) + 2 * (Rabs b * K * g + s * K)).
  exists (C2 * g).
  assert (HC2 : 0 <= C2).
  { unfold C2. pose proof (Rabs_pos b). assert (0 <= Rabs b * K * g) by (repeat apply Rmult_le_pos; lra). assert (0 <= s * K) by nra.
    assert (0 <= C1 * (t + 4 * g + 4)) by (apply Rmult_le_pos; lra). lra. }
  split; [apply Rmult_le_pos; lra|].
  intros n u d p x dt q Hn Hx Hp Hu1 Hd1 Hu Hd M1 M2 M3.
  assert (HN : 0 < INR n) by now apply lt_0_INR.
  assert (HN1 : 1 <= INR n) by (change 1 with (INR 1); apply le_INR; lia).
  assert (Hdt : 0 < dt) by now apply Rdiv_lt_0_compat.
  assert (Hq : 0 < q) by now apply sq_pos.
  assert (Eq : q * q = dt) by (apply sqrt_sqrt; lra).
  assert (Edt : INR n * dt = t) by (unfold dt; field; lra).
  assert (Eqn : q * sqrt (INR n) = g).
  { unfold q, g. rewrite <- sqrt_mult by lra. f_equal. lra. }
  pose proof (sq_pos _ HN) as Sn.
  assert (Eg : g / sqrt (INR n) = q) by (rewrite <- Eqn; field; lra).
  replace (C2 * g / sqrt (INR n)) with (C2 * q) by (rewrite <- Eg; field; lra).
  assert (Un : 0 < u) by (apply Rabs_le_between in Hu1; lra).
  assert (Dn : 0 < d) by (apply Rabs_le_between in Hd1; lra).
  assert (q3 : 0 < q ^ 3) by (apply pow_lt; auto). assert (q2 : 0 < q ^ 2) by (apply pow_lt; auto). assert (q4 : 0 < q ^ 4) by (apply pow_lt; auto).
  set (G := fun k => C1 * (INR k * q ^ 3 + 4 * (sqrt (INR k) * q ^ 2) - 4 * (q * / sqrt (INR (S k))))).
  assert (A1 : forall k y, (k < n)%nat -> 0 < y ->
    Rabs (p * Pv (INR (S k) * dt) (y * u) + (1 - p) * Pv (INR (S k) * dt) (y * d) - Pv (INR (S k) * dt + dt) y) <= G (S k) - G k).
  { intros k y Hk Hy. assert (PK : 0 < INR (S k)) by (apply lt_0_INR; lia).
    assert (PKn : INR (S k) <= INR n) by (apply le_INR; lia).
    assert (Tau : INR (S k) * dt + dt <= 2 * t).
    { assert (INR (S k) * dt <= t) by (rewrite <- Edt; apply Rmult_le_compat_r; lra).
      assert (dt <= t) by (rewrite <- Edt; rewrite <- (Rmult_1_l dt) at 1; apply Rmult_le_compat_r; lra). lra. }
    assert (Q := H (INR (S k) * dt) y p (u - 1) (d - 1) dt ltac:(apply Rmult_lt_0_compat; auto) Hdt Tau Hy Hp Hu1 Hd1).
    replace (1 + (u - 1)) with u in Q by ring. replace (1 + (d - 1)) with d in Q by ring.
    eapply Rle_trans; [exact Q|]. clear Q.
    pose proof (sq_pos _ PK) as SK. set (a := / sqrt (INR (S k))).
    assert (Ha : 0 < a) by (apply Rinv_0_lt_compat; auto).
    assert (Ha1 : a <= 1).
    { unfold a. rewrite <- Rinv_1. apply Rinv_le_contravar; [lra|]. rewrite <- sqrt_1. apply sqrt_le_1_alt. rewrite S_INR. pose proof (pos_INR k). lra. }
    assert (Ew : / sqrt (INR (S k) * dt) = a * / q).
    { rewrite sqrt_mult by lra. fold q. unfold a. field. lra. }
    rewrite Ew.
    assert (Iq : 0 < / q) by (apply Rinv_0_lt_compat; auto).
    assert (B4 : p * Rabs (u - 1) ^ 4 + (1 - p) * Rabs (d - 1) ^ 4 <= c ^ 4 * q ^ 4).
    { assert (Z1 : Rabs (u - 1) ^ 4 <= (c * q) ^ 4) by (apply pow_incr; split; [apply Rabs_pos|auto]).
      assert (Z2 : Rabs (d - 1) ^ 4 <= (c * q) ^ 4) by (apply pow_incr; split; [apply Rabs_pos|auto]).
      rewrite <- Rpow_mult_distr. nra. }
    assert (S1 := sum_half k). assert (S2 := sum_three_halves k). fold a in S1, S2.
    assert (a2 : a ^ 2 <= a) by nra.
    assert (L : Rabs (p * (u - 1) + (1 - p) * (d - 1) - b * dt) + Rabs (p * (u - 1) ^ 2 + (1 - p) * (d - 1) ^ 2 - s ^ 2 * dt) * (a * / q)
      + Rabs (p * (u - 1) ^ 3 + (1 - p) * (d - 1) ^ 3) * (a * / q) ^ 2
      + (p * Rabs (u - 1) ^ 4 + (1 - p) * Rabs (d - 1) ^ 4 + dt ^ 2) * (a * / q) ^ 3
      <= c * q ^ 3 + c * (a * q ^ 2) + c * (a * q ^ 2) + (c ^ 4 + 1) * (a ^ 3 * q)).
    { assert (F1 : 0 < a * / q) by (apply Rmult_lt_0_compat; auto).
      assert (F2 : 0 < (a * / q) ^ 2) by (apply pow_lt; auto). assert (F3 : 0 < (a * / q) ^ 3) by (apply pow_lt; auto).
      apply Rplus_le_compat; [apply Rplus_le_compat; [apply Rplus_le_compat|]|]; auto.
      - apply Rle_trans with (c * q ^ 3 * (a * / q)); [apply Rmult_le_compat_r; lra|]. right. field. lra.
      - apply Rle_trans with (c * q ^ 4 * (a * / q) ^ 2); [apply Rmult_le_compat_r; lra|].
        replace (c * q ^ 4 * (a * / q) ^ 2) with (c * (a ^ 2 * q ^ 2)) by (field; lra).
        apply Rmult_le_compat_l; auto. apply Rmult_le_compat_r; lra.
      - apply Rle_trans with ((c ^ 4 * q ^ 4 + dt ^ 2) * (a * / q) ^ 3); [apply Rmult_le_compat_r; lra|].
        rewrite <- Eq. right. field. lra. }
    apply Rle_trans with (C * (c * q ^ 3 + c * (a * q ^ 2) + c * (a * q ^ 2) + (c ^ 4 + 1) * (a ^ 3 * q))); [apply Rmult_le_compat_l; auto|].
    apply Rle_trans with (C1 * (q ^ 3 + 2 * (a * q ^ 2) + a ^ 3 * q)).
    { unfold C1. rewrite Rmult_assoc. apply Rmult_le_compat_l; auto.
      assert (0 <= a * q ^ 2) by (apply Rmult_le_pos; lra). assert (0 <= a ^ 3 * q) by (apply Rmult_le_pos; [apply pow_le|]; lra).
      set (X := q ^ 3) in *. set (Y := a * q ^ 2) in *. set (Z := a ^ 3 * q) in *. set (c5 := c ^ 4) in *. clearbody X Y Z c5.
      assert (0 <= c * X) by nra. assert (0 <= c * Y) by nra. assert (0 <= c * Z) by nra.
      assert (0 <= c5 * X) by nra. assert (0 <= c5 * Y) by nra. assert (0 <= c5 * Z) by nra. lra. }
    unfold G. rewrite <- Rmult_minus_distr_l. apply Rmult_le_compat_l; auto.
    assert (F1 : INR (S k) * q ^ 3 = INR k * q ^ 3 + q ^ 3) by (rewrite S_INR; ring). fold a. rewrite F1.
    assert (F2 : a * q ^ 2 <= 2 * (sqrt (INR (S k)) - sqrt (INR k)) * q ^ 2) by (apply Rmult_le_compat_r; lra).
    assert (F3 : a ^ 3 * q <= 4 * (a - / sqrt (INR (S (S k)))) * q) by (apply Rmult_le_compat_r; lra).
    lra. }
  assert (A2 := recursion_sum u d p dt G n Un Dn Hp Hdt A1 n x ltac:(lia) Hx).
  assert (GB : G n - G 0%nat <= C1 * (t + 4 * g + 4) * q).
  { unfold G. rewrite <- Rmult_minus_distr_l, Rmult_assoc. apply Rmult_le_compat_l; auto.
    change (INR 0) with 0. change (INR 1) with 1. rewrite sqrt_0, sqrt_1, Rinv_1.
    replace (INR n * q ^ 3) with (t * q) by (rewrite <- Edt, <- Eq; ring).
    replace (sqrt (INR n) * q ^ 2) with (g * q) by (rewrite <- Eqn; ring).
    assert (0 < q * / sqrt (INR (S n))).
    { apply Rmult_lt_0_compat; auto. apply Rinv_0_lt_compat, sq_pos, lt_0_INR; lia. }
    lra. }
  assert (A3 := bsum_close u d p (pay K) (Pv dt) (modulus K b s dt) Un Dn Hp
    ltac:(intros y Hy; rewrite Rabs_minus_sym; apply expiry_close; auto) n x Hx).
  assert (A4 := time_close K b s HK Hs x t (dt + t) Hx ltac:(lra)).
  assert (A5 := modulus_sub K b s HK Hs t dt ltac:(lra) ltac:(lra)). replace (t + dt) with (dt + t) in A5 by ring.
  replace (INR (S n) * dt) with (dt + t) in A2 by (rewrite S_INR, <- Edt; ring).
  assert (A6 : modulus K b s dt <= (Rabs b * K * g + s * K) * q).
  { assert (Lq : q <= g).
    { unfold q, g. apply sqrt_le_1_alt. rewrite <- Edt. rewrite <- (Rmult_1_l dt) at 1. apply Rmult_le_compat_r; lra. }
    assert (0 <= Rabs b * K) by (apply Rmult_le_pos; [apply Rabs_pos|lra]).
    assert (Rabs b * K * (q * q) <= Rabs b * K * (g * q)) by (apply Rmult_le_compat_l; [auto|apply Rmult_le_compat_r; lra]).
    unfold modulus. fold q. rewrite Eq in H1. lra. }
  set (w := bsum u d p (pay K) n x) in *. set (w' := bsum u d p (Pv dt) n x) in *.
  replace (w - Pv t x) with ((w - w') + (w' - Pv (dt + t) x) + (Pv (dt + t) x - Pv t x)) by ring.
  eapply Rle_trans; [apply Rabs_triang|]. eapply Rle_trans; [apply Rplus_le_compat_r, Rabs_triang|].
  unfold C2. rewrite (Rmult_plus_distr_r _ _ q). lra.
Qed.
End BS.
