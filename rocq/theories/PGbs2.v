(** GBSOption: parity, bounds, Greeks, duality, volatility. *)
From Coq Require Import Reals QArith Qreals ZArith Bool List Lra Lia Psatz.
From Coquelicot Require Import Coquelicot.
From Verif Require Import Num Py MBase MVanilla PCnd PCnd2 PBlack PGauss PGbs.
Import ListNotations.
Open Scope R_scope.

(** C01 *)
Lemma gbs_parity S K t r b s : 0 < S -> 0 < K -> 0 < t -> s <> 0 ->
  exists c p,
    gbs_call (GBSOption S K t r b (Some s)) = Ok c /\
    gbs_put (GBSOption S K t r b (Some s)) = Ok p /\
    c - p = S * exp ((b - r) * t) - K * exp (- r * t).
Proof.
  intros. exists (bcall cnd (S * exp ((b - r) * t)) (K * exp (- r * t)) (s * sqrt t)).
  exists (bput cnd (S * exp ((b - r) * t)) (K * exp (- r * t)) (s * sqrt t)).
  split; [|split].
  - now apply call_link.
  - now apply put_link.
  - apply b_parity, cnd_sym.
Qed.

Lemma v_pos s t : 0 < s -> 0 < t -> 0 < s * sqrt t.
Proof. intros. apply Rmult_lt_0_compat; [easy|now apply sqrt_lt_R0]. Qed.

(** C02 *)
Lemma gbs_bounds S K t r b s : 0 < S -> 0 < K -> 0 < t -> 0 < s ->
  exists c p,
    gbs_call (GBSOption S K t r b (Some s)) = Ok c /\
    gbs_put (GBSOption S K t r b (Some s)) = Ok p /\
    Rmax 0 (S * exp ((b - r) * t) - K * exp (- r * t)) < c < S * exp ((b - r) * t) /\
    Rmax 0 (K * exp (- r * t) - S * exp ((b - r) * t)) < p < K * exp (- r * t).
Proof.
  intros HS HK Ht Hs.
  set (A := S * exp ((b - r) * t)). set (B := K * exp (- r * t)).
  assert (PA : 0 < A) by now apply fwd_pos. assert (PB : 0 < B) by now apply strk_pos.
  assert (PV := v_pos s t Hs Ht).
  exists (bcall cnd A B (s * sqrt t)), (bput cnd A B (s * sqrt t)).
  split; [apply call_link; lra|]. split; [apply put_link; lra|].
  repeat split.
  - apply Rmax_lub_lt; [now apply bcall_pos | now apply bcall_lb].
  - now apply bcall_ub.
  - apply Rmax_lub_lt; [now apply bput_pos | now apply bput_lb].
  - now apply bput_ub.
Qed.

(** C05 *)
Lemma gbs_pde S K t r b s (call : bool) : 0 < S -> 0 < K -> 0 < t -> 0 < s ->
  let o := GBSOption S K t r b (Some s) in
  exists price delta gamma theta,
    (if call then gbs_call o else gbs_put o) = Ok price /\
    gbs_delta call o = Ok delta /\ gbs_gamma o = Ok gamma /\ gbs_theta call o = Ok theta /\
    theta + b * S * delta + / 2 * s ^ 2 * S ^ 2 * gamma = r * price.
Proof.
  intros HS HK Ht Hs o. assert (P := sqrt_t_pos t Ht). assert (Q := sqrt_t t Ht).
  unfold o. destruct call; gbs_open; do 4 eexists; repeat (split; [reflexivity|]).
  - field. lra.
  - rewrite !cnd_opp. field. lra.
Qed.

(** C07 *)
Lemma gbs_relations S K t r b s : 0 < S -> 0 < K -> 0 < t -> 0 < s ->
  let o := GBSOption S K t r b (Some s) in
  exists c p dc dp tc tp ve ga rc rp kc kp lc lp,
    gbs_call o = Ok c /\ gbs_put o = Ok p /\
    gbs_delta true o = Ok dc /\ gbs_delta false o = Ok dp /\
    gbs_theta true o = Ok tc /\ gbs_theta false o = Ok tp /\
    gbs_vega o = Ok ve /\ gbs_gamma o = Ok ga /\
    gbs_rho true o = Ok rc /\ gbs_rho false o = Ok rp /\
    gbs_cofc true o = Ok kc /\ gbs_cofc false o = Ok kp /\
    gbs_lamb true o = Ok lc /\ gbs_lamb false o = Ok lp /\
    dc - dp = exp ((b - r) * t) /\
    tc - tp = - (b - r) * S * exp ((b - r) * t) - r * K * exp (- r * t) /\
    ve = ga * S ^ 2 * s * t /\
    kc = t * S * dc /\ kp = t * S * dp /\
    (b <> 0 -> rc = kc - t * c /\ rp = kp - t * p /\ rc - rp = t * K * exp (- r * t)) /\
    (b = 0 -> rc = - t * c /\ rp = - t * p) /\
    lc * c = dc * S /\ lp * p = dp * S.
Proof.
  intros HS HK Ht Hs o. assert (P := sqrt_t_pos t Ht). assert (Q := sqrt_t t Ht).
  destruct (gbs_bounds S K t r b s HS HK Ht Hs) as (c & p & Ec & Ep & Bc & Bp).
  assert (Pc : 0 < c) by (eapply Rle_lt_trans; [|apply Bc]; apply Rmax_l).
  assert (Pp : 0 < p) by (eapply Rle_lt_trans; [|apply Bp]; apply Rmax_l).
  clear Bc Bp. unfold o. revert Ec Ep. gbs_open. intros Ec Ep.
  apply Ok_inj in Ec. apply Ok_inj in Ep.
  do 14 eexists. repeat (split; [reflexivity|]).
  cbn [g_S g_K g_t g_r g_b g_sigma g_d1 g_d2]; toR.
  rewrite Ec, Ep.
  split; [ring|]. split; [rewrite !cnd_opp; ring|].
  split.
  { generalize (ndf (gbs_d1 S K t b s)) (exp ((b - r) * t)); intros n e.
    replace (e * n / (S * s * sqrt t) * S ^ 2 * s * t) with (e * n * S * (t / sqrt t)) by (field; lra).
    replace (t / sqrt t) with (sqrt t) by (rewrite <- Q at 2; field; lra). ring. }
  split; [ring|]. split; [rewrite !cnd_opp; ring|].
  assert (Eb : Reqb b (0 * / 1) = Reqb b 0) by (f_equal; field).
  split; [|split; [|split]].
  - intros Hb. destruct (Reqb b 0) eqn:E; [apply Reqb_true in E; lra|]. cbn [negb].
    rewrite <- Ec, <- Ep, !cnd_opp. repeat split; ring.
  - intros Hb. rewrite (proj2 (Reqb_true b 0) Hb). cbn [negb]. split; ring.
  - field. lra.
  - field. lra.
Qed.

(** C08 *)
Lemma gbs_homog S K t r b s c : 0 < S -> 0 < K -> 0 < t -> 0 < s -> 0 < c ->
  exists call put,
    gbs_call (GBSOption S K t r b (Some s)) = Ok call /\
    gbs_put (GBSOption S K t r b (Some s)) = Ok put /\
    gbs_call (GBSOption (c * S) (c * K) t r b (Some s)) = Ok (c * call) /\
    gbs_put (GBSOption (c * S) (c * K) t r b (Some s)) = Ok (c * put).
Proof.
  intros HS HK Ht Hs Hc.
  assert (PA := fwd_pos S t r b HS). assert (PB := strk_pos K t r HK).
  assert (0 < c * S) by nra. assert (0 < c * K) by nra.
  do 2 eexists. split; [apply call_link; lra|]. split; [apply put_link; lra|].
  unfold gbs_call, gbs_put. rewrite call_link, put_link by lra.
  rewrite !Rmult_assoc.
  rewrite bcall_scale, bput_scale by easy. now split.
Qed.

Lemma gbs_dual S K t r b s : 0 < S -> 0 < K -> 0 < t -> 0 < s ->
  gbs_call (GBSOption S K t r b (Some s)) = gbs_put (GBSOption K S t (r - b) (- b) (Some s)).
Proof.
  intros. unfold gbs_call, gbs_put. rewrite call_link, put_link by lra. f_equal.
  rewrite bcall_dual by (apply fwd_pos || apply strk_pos; easy).
  replace (- b - (r - b)) with (- r) by ring. replace (- (r - b)) with (b - r) by ring. reflexivity.
Qed.

(** C09 *)
Lemma gbs_vol_incr S K t r b s1 s2 : 0 < S -> 0 < K -> 0 < t -> 0 < s1 -> s1 < s2 ->
  exists c1 c2 p1 p2,
    gbs_call (GBSOption S K t r b (Some s1)) = Ok c1 /\ gbs_call (GBSOption S K t r b (Some s2)) = Ok c2 /\
    gbs_put (GBSOption S K t r b (Some s1)) = Ok p1 /\ gbs_put (GBSOption S K t r b (Some s2)) = Ok p2 /\
    c1 < c2 /\ p1 < p2.
Proof.
  intros HS HK Ht H1 H2.
  assert (PA := fwd_pos S t r b HS). assert (PB := strk_pos K t r HK).
  assert (P := sqrt_t_pos t Ht). assert (V := v_pos s1 t H1 Ht).
  do 4 eexists. do 2 (split; [apply call_link; lra|]). do 2 (split; [apply put_link; lra|]).
  assert (s1 * sqrt t < s2 * sqrt t) by (apply Rmult_lt_compat_r; lra).
  split; [now apply bcall_incr_v | now apply bput_incr_v].
Qed.

Lemma gbs_vol_unique S K t r b s1 s2 (call : bool) price : 0 < S -> 0 < K -> 0 < t -> 0 < s1 -> 0 < s2 ->
  (if call then gbs_call else gbs_put) (GBSOption S K t r b (Some s1)) = Ok price ->
  (if call then gbs_call else gbs_put) (GBSOption S K t r b (Some s2)) = Ok price -> s1 = s2.
Proof.
  intros HS HK Ht H1 H2 E1 E2.
  destruct (Rtotal_order s1 s2) as [L|[L|L]]; auto; exfalso.
  - destruct (gbs_vol_incr S K t r b s1 s2 HS HK Ht H1 L) as (c1&c2&p1&p2&A&B&C&D&X&Y).
    destruct call; congruence || (rewrite E1 in *; rewrite E2 in *; apply Ok_inj in A; apply Ok_inj in B; apply Ok_inj in C; apply Ok_inj in D; lra).
  - destruct (gbs_vol_incr S K t r b s2 s1 HS HK Ht H2 L) as (c1&c2&p1&p2&A&B&C&D&X&Y).
    destruct call; congruence || (rewrite E1 in *; rewrite E2 in *; apply Ok_inj in A; apply Ok_inj in B; apply Ok_inj in C; apply Ok_inj in D; lra).
Qed.

