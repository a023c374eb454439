(** Bounds on the Black-Scholes put, and the lattice recursion compared with it (C34). *)
From Coq Require Import Reals Lra Lia Psatz.
From Coquelicot Require Import Coquelicot.
From Verif Require Import Num MBase PCnd PCnd2 PBlack PGauss PTrees2 PConv.
Open Scope R_scope.

Section BS.
Variables (K b s : R).
Hypothesis HK : 0 < K.
Hypothesis Hs : 0 < s.
Notation dx := (dx K b s).
Notation Pv := (Pv K b s).
Notation Av := (Av K b s).
Notation qv := (qv K b s).
Notation D1 := (D1 K b s).
Notation D2 := (D2 K b s).
Notation D3 := (D3 K b s).
Notation Dt := (Dt K b s).
Notation Dtt := (Dtt K b s).

Lemma inv_sqrt_le eps tau : 0 < eps -> eps <= tau -> 0 < / sqrt tau <= / sqrt eps.
Proof.
  intros. pose proof (sq_pos eps H). split. apply Rinv_0_lt_compat, sq_pos; lra.
  apply Rinv_le_contravar; auto. apply sqrt_le_1_alt; lra.
Qed.

Lemma Rabs_mul_le x y A B : Rabs x <= A -> Rabs y <= B -> Rabs (x * y) <= A * B.
Proof. intros. rewrite Rabs_mult. apply Rmult_le_compat; auto using Rabs_pos. Qed.

Lemma Dtt_bound eps : 0 < eps -> exists C, forall tau x, eps <= tau -> 0 < x -> Rabs (Dtt tau x) <= C.
Proof.
  intros He. set (w0 := / sqrt eps). set (c1 := Rabs ((b - s ^ 2 / 2) / s) * w0).
  set (c2 := / (2 * eps) + c1).
  exists (Rabs b * (Rabs b * K + K * c2 + K * (s / 2 * w0)) + s / 2 * (K * c2 * w0 + K * (/ 2 * (w0 * (w0 * w0))))).
  intros tau x Ht Hx. assert (0 < tau) by lra.
  destruct (inv_sqrt_le eps tau He Ht) as [W0 W1]. fold w0 in W1. set (w := / sqrt tau) in *.
  destruct (qv_bounds K b s HK tau x) as ([Q0 Q1] & Q2 & Q3).
  destruct (Av_bounds K b s HK Hs tau x Hx H) as [A0 A1].
  assert (Hw : 0 < w0) by lra.
  assert (C1 : 0 <= c1) by (unfold c1; apply Rmult_le_pos; [apply Rabs_pos|lra]).
  assert (HI : / (2 * tau) <= / (2 * eps)) by (apply Rinv_le_contravar; lra).
  assert (HI0 : 0 < / (2 * tau)) by (apply Rinv_0_lt_compat; lra).
  assert (Bd : Rabs (dxt K b s tau x) <= Rabs (dx tau x) * / (2 * eps) + c1).
  { unfold dxt. eapply Rle_trans; [apply Rabs_triang|]. apply Rplus_le_compat.
    - unfold Rdiv. rewrite Rabs_mult, Rabs_Ropp, (Rabs_right (/ _)) by lra.
      apply Rmult_le_compat_l; [apply Rabs_pos|auto].
    - replace ((b - s ^ 2 / 2) / (s * sqrt tau)) with ((b - s ^ 2 / 2) / s * w).
      + unfold c1. apply Rabs_mul_le; [lra|rewrite Rabs_right; lra].
      + unfold w. field. pose proof (sq_pos tau H). split; lra. }
  set (d := dx tau x) in *. set (q := qv tau x) in *. set (dt := dxt K b s tau x) in *.
  pose proof (Rabs_pos d) as Dp. pose proof (Rabs_pos dt) as Dtp.
  assert (E0 : 0 < / (2 * eps)) by lra.
  assert (B1 : Rabs (q * dt) <= K * c2).
  { rewrite Rabs_mult, (Rabs_right q) by lra. unfold c2.
    apply Rle_trans with (q * (Rabs d * / (2 * eps) + c1)); [apply Rmult_le_compat_l; lra|].
    replace (q * (Rabs d * / (2 * eps) + c1)) with (Rabs d * q * / (2 * eps) + q * c1) by ring.
    rewrite Rmult_plus_distr_l. apply Rplus_le_compat; apply Rmult_le_compat_r; lra. }
  assert (B2 : Rabs (dt * d * q) <= K * c2).
  { rewrite !Rabs_mult, (Rabs_right q) by lra. unfold c2.
    apply Rle_trans with ((Rabs d * / (2 * eps) + c1) * Rabs d * q).
    { apply Rmult_le_compat_r; [lra|]. apply Rmult_le_compat_r; lra. }
    replace ((Rabs d * / (2 * eps) + c1) * Rabs d * q) with (d ^ 2 * q * / (2 * eps) + Rabs d * q * c1).
    2:{ rewrite <- (pow2_abs d). ring. }
    rewrite Rmult_plus_distr_l. apply Rplus_le_compat; apply Rmult_le_compat_r; lra. }
  assert (E : Dtt tau x = - b * (b * Av tau x - q * dt - q * (s / 2 * w)) + s / 2 * (- (dt * d * q * w) - q * (/ 2 * (w * (w * w))))).
  { unfold PConv.Dtt, PConv.At. fold q d dt. unfold w. pose proof (sq_pos tau H). field. lra. }
  rewrite E. clear E.
  assert (W2 : 0 <= w * w <= w0 * w0) by (split; [nra|apply Rmult_le_compat; lra]).
  assert (W3 : 0 <= w * (w * w) <= w0 * (w0 * w0)) by (split; [apply Rmult_le_pos; lra|apply Rmult_le_compat; lra]).
  eapply Rle_trans; [apply Rabs_triang|]. apply Rplus_le_compat.
  - apply Rabs_mul_le; [rewrite Rabs_Ropp; lra|].
    unfold Rminus. eapply Rle_trans; [apply Rabs_triang|]. apply Rplus_le_compat.
    + eapply Rle_trans; [apply Rabs_triang|]. apply Rplus_le_compat.
      * apply Rabs_mul_le; [lra|rewrite Rabs_right; lra].
      * now rewrite Rabs_Ropp.
    + rewrite Rabs_Ropp. apply Rabs_mul_le; [rewrite Rabs_right; lra|].
      rewrite Rabs_right by (apply Rle_ge, Rmult_le_pos; lra). apply Rmult_le_compat_l; lra.
  - apply Rabs_mul_le; [rewrite Rabs_right; lra|].
    unfold Rminus. eapply Rle_trans; [apply Rabs_triang|]. apply Rplus_le_compat.
    + rewrite Rabs_Ropp. apply Rabs_mul_le; auto. rewrite Rabs_right; lra.
    + rewrite Rabs_Ropp. apply Rabs_mul_le; rewrite Rabs_right; try lra.
Qed.

Lemma D_bounds eps : 0 < eps -> exists C, 0 <= C /\ forall tau x, eps <= tau -> 0 < x ->
  Rabs (x * D1 tau x) <= C /\ Rabs (x ^ 2 * D2 tau x) <= C /\ Rabs (x ^ 3 * D3 tau x) <= C.
Proof.
  intros He. set (w0 := / sqrt eps). assert (W : 0 < w0) by (apply Rinv_0_lt_compat, sq_pos; auto).
  set (a := w0 / s). assert (Ha : 0 < a) by (apply Rdiv_lt_0_compat; lra).
  exists (K + K * a + (K * a * a + 2 * K * a)).
  assert (0 <= K * a) by nra. assert (0 <= K * a * a) by nra. split; [lra|].
  intros tau x Ht Hx. assert (0 < tau) by lra.
  destruct (inv_sqrt_le eps tau He Ht) as [W0 W1]. fold w0 in W1.
  destruct (qv_bounds K b s HK tau x) as ([Q0 Q1] & Q2 & Q3).
  destruct (Av_bounds K b s HK Hs tau x Hx H1) as [A0 A1].
  pose proof (sq_pos tau H1) as SQ.
  set (c := / sqrt tau / s).
  assert (Hc : 0 < c <= a).
  { unfold c, a. split. apply Rdiv_lt_0_compat; lra. apply Rmult_le_compat_r; [|lra]. left. apply Rinv_0_lt_compat; lra. }
  pose proof (Rabs_pos (dx tau x)).
  assert (B2 : qv tau x * c <= K * a) by (apply Rmult_le_compat; lra).
  repeat split.
  - replace (x * D1 tau x) with (- Av tau x) by (unfold PConv.D1, PConv.Av; ring).
    rewrite Rabs_Ropp, Rabs_right; lra.
  - replace (x ^ 2 * D2 tau x) with (qv tau x * c) by (unfold PConv.D2, c; field; repeat split; lra).
    rewrite Rabs_right; [lra|]. apply Rle_ge, Rmult_le_pos; lra.
  - replace (x ^ 3 * D3 tau x) with (- (dx tau x * qv tau x * c * c) - 2 * (qv tau x * c)).
    2:{ unfold PConv.D3, c. field. repeat split; lra. }
    assert (Rabs (dx tau x * qv tau x * c * c) <= K * a * a).
    { rewrite !Rabs_mult. rewrite (Rabs_right (qv tau x)), (Rabs_right c) by lra.
      apply Rmult_le_compat; try lra. apply Rmult_le_pos; [apply Rmult_le_pos|]; lra.
      apply Rmult_le_compat; try lra. apply Rmult_le_pos; lra. }
    assert (0 <= qv tau x * c) by (apply Rmult_le_pos; lra).
    apply Rabs_le_between in H3. apply Rabs_le. lra.
Qed.

(** error of replacing one unit of time by one lattice step *)
Lemma one_step eps : 0 < eps -> exists C, 0 <= C /\ forall tau x p y1 y2 dt,
  eps <= tau -> 0 < x -> 0 <= p <= 1 -> Rabs y1 <= 1 / 2 -> Rabs y2 <= 1 / 2 -> 0 < dt ->
  Rabs (p * Pv tau (x * (1 + y1)) + (1 - p) * Pv tau (x * (1 + y2)) - Pv (tau + dt) x)
  <= C * (Rabs (p * y1 + (1 - p) * y2 - b * dt) + Rabs (p * y1 ^ 2 + (1 - p) * y2 ^ 2 - s ^ 2 * dt)
          + (p * Rabs y1 ^ 3 + (1 - p) * Rabs y2 ^ 3) + dt ^ 2).
Proof.
  intros He. destruct (D_bounds eps He) as (C & HC & HD). destruct (Dtt_bound eps He) as (C' & HC').
  assert (P' : 0 <= C') by (eapply Rle_trans; [apply Rabs_pos|]; apply (HC' eps 1); lra).
  exists (8 * C + C'). split; [lra|].
  intros tau x p y1 y2 dt Ht Hx Hp Hy1 Hy2 Hdt.
  assert (T3 : forall y, Rabs y <= 1 / 2 ->
    Rabs (Pv tau (x * (1 + y)) - Pv tau x - x * D1 tau x * y - x ^ 2 * D2 tau x / 2 * y ^ 2) <= 8 * C * Rabs y ^ 3).
  { intros y Hy.
    assert (pos : forall z, Rabs z <= 1 / 2 -> 1 / 2 <= 1 + z) by (intros z Hz; apply Rabs_le_between in Hz; lra).
    assert (posx : forall z, Rabs z <= 1 / 2 -> 0 < x * (1 + z)) by (intros z Hz; generalize (pos z Hz); intros; apply Rmult_lt_0_compat; lra).
    assert (HT : Rabs (Pv tau (x * (1 + y)) - Pv tau (x * (1 + 0)) - x * D1 tau (x * (1 + 0)) * y
                 - x ^ 2 * D2 tau (x * (1 + 0)) / 2 * y ^ 2) <= 8 * C * Rabs y ^ 3).
    2:{ now rewrite Rplus_0_r, Rmult_1_r in HT. }
    apply (taylor3 (fun z => Pv tau (x * (1 + z))) (fun z => x * D1 tau (x * (1 + z)))
      (fun z => x ^ 2 * D2 tau (x * (1 + z))) (fun z => x ^ 3 * D3 tau (x * (1 + z))) (1 / 2)); auto.
    - intros z Hz. evar_last. apply (is_derive_comp (Pv tau) (fun z => x * (1 + z))).
      apply Pv_derive_x; auto; lra. auto_derive; auto. hc. ring.
    - intros z Hz. evar_last. apply is_derive_scal. apply (is_derive_comp (D1 tau) (fun z => x * (1 + z))).
      apply D1_derive_x; auto; lra. auto_derive; auto. hc. ring.
    - intros z Hz. evar_last. apply is_derive_scal. apply (is_derive_comp (D2 tau) (fun z => x * (1 + z))).
      apply D2_derive_x; auto; lra. auto_derive; auto. hc. ring.
    - intros z Hz. destruct (HD tau (x * (1 + z)) Ht (posx z Hz)) as (_ & _ & H3).
      generalize (pos z Hz); intros Pz. set (m := 1 + z) in *.
      replace ((x * m) ^ 3 * D3 tau (x * m)) with (m ^ 3 * (x ^ 3 * D3 tau (x * m))) in H3 by ring.
      rewrite Rabs_mult, (Rabs_right (m ^ 3)) in H3 by (apply Rle_ge, pow_le; lra).
      assert (/ 8 <= m ^ 3).
      { replace (/ 8) with ((1 / 2) ^ 3) by field. apply pow_incr. lra. }
      pose proof (Rabs_pos (x ^ 3 * D3 tau (x * m))). nra. }
  (* the time derivative *)
  destruct (mvt (fun t => Pv t x) (fun t => Dt t x) tau (tau + dt)) as (t1 & Ht1 & E1).
  { intros z. rewrite Rmin_left, Rmax_right by lra. intros. apply Pv_derive_t; auto; lra. }
  rewrite Rmin_left, Rmax_right in Ht1 by lra.
  destruct (mvt (fun t => Dt t x) (fun t => Dtt t x) tau t1) as (t2 & Ht2 & E2).
  { intros z. rewrite Rmin_left, Rmax_right by lra. intros. apply Dt_derive_t; auto; lra. }
  rewrite Rmin_left, Rmax_right in Ht2 by lra.
  assert (ET : Rabs (Pv (tau + dt) x - Pv tau x - Dt tau x * dt) <= C' * dt ^ 2).
  { rewrite E1. replace (Dt t1 x) with (Dt tau x + Dtt t2 x * (t1 - tau)) by lra.
    replace ((Dt tau x + Dtt t2 x * (t1 - tau)) * (tau + dt - tau) - Dt tau x * dt) with (Dtt t2 x * ((t1 - tau) * dt)) by ring.
    apply Rabs_mul_le; [apply HC'; lra|]. rewrite Rabs_right; [|apply Rle_ge, Rmult_le_pos; lra]. simpl. rewrite Rmult_1_r.
    apply Rmult_le_compat_r; lra. }
  rewrite pde in ET by (auto; lra).
  destruct (HD tau x Ht Hx) as (H1 & H2 & _). generalize (T3 y1 Hy1) (T3 y2 Hy2). intros U1 U2.
  set (d1 := x * D1 tau x) in *. set (d2 := x ^ 2 * D2 tau x) in *.
  set (P0 := Pv tau x) in *. set (P1 := Pv tau (x * (1 + y1))) in *. set (P2 := Pv tau (x * (1 + y2))) in *.
  set (PT := Pv (tau + dt) x) in *.
  set (r1 := P1 - P0 - d1 * y1 - d2 / 2 * y1 ^ 2) in *. set (r2 := P2 - P0 - d1 * y2 - d2 / 2 * y2 ^ 2) in *.
  set (rt := PT - P0 - (b * d1 + s ^ 2 / 2 * d2) * dt) in *.
  replace (p * P1 + (1 - p) * P2 - PT) with
    (d1 * (p * y1 + (1 - p) * y2 - b * dt) + d2 * ((p * y1 ^ 2 + (1 - p) * y2 ^ 2 - s ^ 2 * dt) / 2) + (p * r1 + (1 - p) * r2) - rt).
  2:{ unfold r1, r2, rt. field. }
  set (e1 := p * y1 + (1 - p) * y2 - b * dt). set (e2 := p * y1 ^ 2 + (1 - p) * y2 ^ 2 - s ^ 2 * dt).
  assert (V1 : Rabs (d1 * e1) <= C * Rabs e1) by (apply Rabs_mul_le; lra).
  assert (V2 : Rabs (d2 * (e2 / 2)) <= C * Rabs e2).
  { apply Rabs_mul_le; [lra|]. unfold Rdiv. rewrite Rabs_mult, (Rabs_right (/ 2)) by lra. pose proof (Rabs_pos e2). lra. }
  assert (V3 : Rabs (p * r1 + (1 - p) * r2) <= 8 * C * (p * Rabs y1 ^ 3 + (1 - p) * Rabs y2 ^ 3)).
  { eapply Rle_trans; [apply Rabs_triang|]. rewrite !Rabs_mult, (Rabs_right p), (Rabs_right (1 - p)) by lra. nra. }
  assert (S3 : 0 <= p * Rabs y1 ^ 3 + (1 - p) * Rabs y2 ^ 3).
  { assert (0 <= Rabs y1 ^ 3) by (apply pow_le, Rabs_pos). assert (0 <= Rabs y2 ^ 3) by (apply pow_le, Rabs_pos). nra. }
  assert (0 <= dt ^ 2) by apply pow2_ge_0.
  pose proof (Rabs_pos e1). pose proof (Rabs_pos e2).
  set (s3 := p * Rabs y1 ^ 3 + (1 - p) * Rabs y2 ^ 3) in *.
  apply Rle_trans with (C * Rabs e1 + C * Rabs e2 + 8 * C * s3 + C' * dt ^ 2).
  - apply Rabs_le_between in V1, V2, V3, ET. apply Rabs_le. lra.
  - assert (0 <= C * Rabs e1) by nra. assert (0 <= C * Rabs e2) by nra. assert (0 <= C * dt ^ 2) by nra.
    assert (0 <= C' * Rabs e1) by nra. assert (0 <= C' * Rabs e2) by nra. assert (0 <= C' * s3) by nra. nra.
Qed.

(** the recursion stays close to the Black-Scholes values *)
Lemma recursion_close u d p dt e eps :
  0 < u -> 0 < d -> 0 <= p <= 1 -> 0 < dt -> 0 < eps ->
  (forall tau x, eps <= tau -> 0 < x -> Rabs (p * Pv tau (x * u) + (1 - p) * Pv tau (x * d) - Pv (tau + dt) x) <= e) ->
  forall m x, 0 < x -> Rabs (bsum u d p (Pv eps) m x - Pv (eps + INR m * dt) x) <= INR m * e.
Proof.
  intros Hu Hd Hp Hdt He H. induction m; intros x Hx.
  - rewrite bsum_0. simpl. rewrite !Rmult_0_l, Rplus_0_r. replace (Pv eps x - Pv eps x) with 0 by ring. rewrite Rabs_R0; lra.
  - rewrite bsum_S, S_INR. 
    assert (X1 := IHm (x * u) ltac:(now apply Rmult_lt_0_compat)).
    assert (X2 := IHm (x * d) ltac:(now apply Rmult_lt_0_compat)).
    assert (Hm : eps <= eps + INR m * dt) by (assert (0 <= INR m * dt) by (apply Rmult_le_pos; [apply pos_INR|lra]); lra).
    assert (X3 := H (eps + INR m * dt) x Hm Hx).
    replace (eps + INR m * dt + dt) with (eps + (INR m + 1) * dt) in X3 by ring.
    apply Rabs_le_between in X1, X2, X3. apply Rabs_le. nra.
Qed.

Lemma bsum_close u d p f g e : 0 < u -> 0 < d -> 0 <= p <= 1 -> (forall x, 0 < x -> Rabs (f x - g x) <= e) ->
  forall m x, 0 < x -> Rabs (bsum u d p f m x - bsum u d p g m x) <= e.
Proof.
  intros Hu Hd Hp H. induction m; intros x Hx; rewrite ?bsum_0, ?bsum_S; auto.
  assert (X1 := IHm (x * u) ltac:(now apply Rmult_lt_0_compat)).
  assert (X2 := IHm (x * d) ltac:(now apply Rmult_lt_0_compat)).
  apply Rabs_le_between in X1, X2. apply Rabs_le. nra.
Qed.

(** time continuity, uniform in the spot, down to expiry *)
Definition modulus (t : R) : R := Rabs b * K * t + s * K * sqrt t.

Lemma time_close x t1 t2 : 0 < x -> 0 < t1 <= t2 -> Rabs (Pv t2 x - Pv t1 x) <= modulus t2 - modulus t1.
Proof.
  intros Hx Ht.
  assert (BD : forall t, 0 < t -> Rabs (Dt t x) <= Rabs b * K + s * K * / (2 * sqrt t)).
  { intros t H0. unfold PConv.Dt. destruct (qv_bounds K b s HK t x) as ([Q0 Q1] & _).
    destruct (Av_bounds K b s HK Hs t x Hx H0) as [A0 A1]. pose proof (sq_pos t H0).
    eapply Rle_trans; [apply Rabs_triang|]. apply Rplus_le_compat.
    - apply Rabs_mul_le. rewrite Rabs_Ropp; lra. rewrite Rabs_right; lra.
    - assert (0 < / (2 * sqrt t)) by (apply Rinv_0_lt_compat; lra).
      unfold Rdiv. rewrite Rabs_right by (apply Rle_ge, Rmult_le_pos; nra). apply Rmult_le_compat_r; nra. }
  assert (G : forall c, c = 1 \/ c = -1 -> c * Pv t2 x - c * Pv t1 x <= modulus t2 - modulus t1).
  { intros c Hc.
    destruct (mvt (fun t => modulus t - c * Pv t x) (fun t => Rabs b * K + s * K * / (2 * sqrt t) - c * Dt t x) t1 t2) as (z & Hz & E).
    - rewrite Rmin_left, Rmax_right by lra. intros z Hz. unfold modulus.
      evar_last. apply @is_derive_minus. apply @is_derive_plus. apply is_derive_scal. apply is_derive_id. apply is_derive_scal. apply sqrt_derive; lra.
      apply is_derive_scal. apply Pv_derive_t; auto; lra. hc. ring.
    - rewrite Rmin_left, Rmax_right in Hz by lra. assert (B := BD z ltac:(lra)). apply Rabs_le_between in B.
      assert (0 <= (Rabs b * K + s * K * / (2 * sqrt z) - c * Dt z x) * (t2 - t1)).
      { apply Rmult_le_pos; [|lra]. destruct Hc; subst c; lra. }
      lra. }
  generalize (G 1 (or_introl eq_refl)) (G (-1) (or_intror eq_refl)). intros. apply Rabs_le. lra.
Qed.
End BS.
