(** Accuracy of implied volatilities and of rho against the exact normal distribution. *)
From Coq Require Import Reals QArith Qreals ZArith Bool List Lra Lia Psatz.
From Coquelicot Require Import Coquelicot.
From Interval Require Import Tactic.
From Verif Require Import Num Py MBase MVanilla PCnd PCnd2 PBlack PGauss PGbs PGbs2 PGbs3 PVol PCndAcc PVanilla.
Open Scope R_scope.

(** the exact price as a total function of sigma <> 0 *)
Definition eprice (call : bool) (S K t r b s : R) : R :=
  let A := S * exp ((b - r) * t) in let B := K * exp (- r * t) in
  if call then bcall Phi A B (s * sqrt t) else bput Phi A B (s * sqrt t).

Lemma eprice_link (call : bool) (S K t r b s : R) : 0 < S -> 0 < K -> 0 < t -> s <> 0 ->
  (if call then gbs_call_F Phi else gbs_put_F Phi) (GBSOption S K t r b (Some s)) = Ok (eprice call S K t r b s).
Proof. intros. destruct call; unfold eprice; [apply call_link|apply put_link]; auto. Qed.

Lemma price_gap call S K t r b s : 0 < S -> 0 < K -> 0 < t -> s <> 0 ->
  Rabs (vprice call S K t r b s - eprice call S K t r b s) <= (S * exp ((b - r) * t) + K * exp (- r * t)) * (75 / 10 ^ 9).
Proof.
  intros HS HK Ht Hs. destruct (gbs_price_accuracy S K t r b s call HS HK Ht Hs) as (a & e & Ea & Ee & H).
  rewrite eprice_link in Ee by auto. apply Ok_inj in Ee. subst e.
  assert (X := gprice_link call S K t r b s HS HK Ht Hs). unfold gprice in X. rewrite X in Ea. apply Ok_inj in Ea.
  subst a. exact H.
Qed.

Lemma eprice_derive call S K t r b s : 0 < S -> 0 < K -> 0 < t -> 0 < s ->
  exists d, gbs_vega (GBSOption S K t r b (Some s)) = Ok d /\ is_derive (eprice call S K t r b) s d.
Proof.
  intros HS HK Ht Hs.
  destruct (greek_vega Phi Phi_derive S K t r b s HS HK Ht Hs call) as (d & E & f & e & Hf & D).
  exists d. split; [exact E|]. eapply is_derive_ext_loc; [|exact D].
  assert (P : 0 < Rmin e s) by (apply Rmin_pos; [apply cond_pos|easy]).
  exists (mkposreal _ P). intros q Hq.
  assert (Hq' : Rabs (q - s) < Rmin e s) by exact Hq.
  assert (M1 := Rmin_l e s). assert (M2 := Rmin_r e s).
  assert (N : q <> 0) by (apply Rabs_def2 in Hq'; lra).
  specialize (Hf q ltac:(lra)). unfold price_F in Hf.
  assert (X := eprice_link call S K t r b q HS HK Ht N). 
  assert (Y : Ok (f q) = Ok (eprice call S K t r b q)) by (rewrite <- X, <- Hf; destruct call; reflexivity).
  now apply Ok_inj in Y.
Qed.

(** the exact price grows at least as fast as a lower bound of vega *)
Lemma eprice_growth call S K t r b m s1 s2 : 0 < S -> 0 < K -> 0 < t -> 0 < s1 -> s1 <= s2 ->
  (forall s v, s1 <= s <= s2 -> gbs_vega (GBSOption S K t r b (Some s)) = Ok v -> m <= v) ->
  m * (s2 - s1) <= eprice call S K t r b s2 - eprice call S K t r b s1.
Proof.
  intros HS HK Ht H1 H12 Hm. destruct (Req_dec s1 s2) as [->|N]; [lra|].
  destruct (MVT_cor2 (eprice call S K t r b) (Derive (eprice call S K t r b)) s1 s2 ltac:(lra)) as (c & E & Hc).
  - intros c Hc. destruct (eprice_derive call S K t r b c HS HK Ht ltac:(lra)) as (d & _ & D).
    apply is_derive_Reals. rewrite (is_derive_unique _ _ _ D). exact D.
  - destruct (eprice_derive call S K t r b c HS HK Ht ltac:(lra)) as (d & Ed & D).
    rewrite (is_derive_unique _ _ _ D) in E. rewrite E.
    apply Rmult_le_compat_r; [lra|]. apply (Hm c d); [lra|exact Ed].
Qed.

Lemma vol_market solver tol (S K t r b : R) so (call : bool) price s0 m delta x :
  bracketing tol solver -> 0 < S -> 0 < K -> 0 < t -> 0 < delta < s0 ->
  (if call then gbs_call_F Phi else gbs_put_F Phi) (GBSOption S K t r b (Some s0)) = Ok price ->
  (forall s v, s0 - delta <= s <= s0 + delta -> gbs_vega (GBSOption S K t r b (Some s)) = Ok v -> m <= v) ->
  (S * exp ((b - r) * t) + K * exp (- r * t)) * (75 / 10 ^ 9) < m * delta ->
  gbs_volatility solver (GBSOption S K t r b so) price call = Ok x ->
  Rabs (x - s0) <= delta + tol.
Proof.
  intros HB HS HK Ht Hd E Hm He V. unfold gbs_volatility in V.
  rewrite eprice_link in E by lra. apply Ok_inj in E.
  destruct (HB _ _ _ _ V) as (a & c & fa & fc & Ha & Hc & Hac & Na & Nc & Ea & Ec & Hp).
  rewrite vol_func_link in Ea, Ec by auto. apply Ok_inj in Ea, Ec. toR.
  assert (L : vprice call S K t r b (s0 - delta) < price).
  { generalize (price_gap call S K t r b (s0 - delta) HS HK Ht ltac:(lra)). intros G. apply Rabs_le_between in G.
    generalize (eprice_growth call S K t r b m (s0 - delta) s0 HS HK Ht ltac:(lra) ltac:(lra)
      ltac:(intros s v Hs; apply Hm; lra)). lra. }
  assert (U : price < vprice call S K t r b (s0 + delta)).
  { generalize (price_gap call S K t r b (s0 + delta) HS HK Ht ltac:(lra)). intros G. apply Rabs_le_between in G.
    generalize (eprice_growth call S K t r b m s0 (s0 + delta) HS HK Ht ltac:(lra) ltac:(lra)
      ltac:(intros s v Hs; apply Hm; lra)). lra. }
  assert (below : forall q, q <> 0 -> q < s0 - delta -> vprice call S K t r b q < price).
  { intros q Nq Hq. destruct (Rtotal_order q 0) as [Z|[Z|Z]]; [|lra|].
    - generalize (vprice_neg call S K t r b q HS HK Ht Z) (vprice_pos call S K t r b (s0 - delta) HS HK Ht ltac:(lra)). lra.
    - generalize (vprice_incr call S K t r b q (s0 - delta) HS HK Ht Z Hq). lra. }
  assert (above : forall q, s0 + delta < q -> price < vprice call S K t r b q).
  { intros q Hq. generalize (vprice_incr call S K t r b (s0 + delta) q HS HK Ht ltac:(lra) Hq). lra. }
  assert (a <= s0 + delta).
  { destruct (Rle_dec a (s0 + delta)); auto. exfalso. generalize (above a ltac:(lra)) (above c ltac:(lra)). nra. }
  assert (s0 - delta <= c).
  { destruct (Rle_dec (s0 - delta) c); auto. exfalso. generalize (below a Na ltac:(lra)) (below c Nc ltac:(lra)). nra. }
  apply Rabs_le. lra.
Qed.

(** rho: the error of the strike term, or t times that of the price when b = 0 *)
Lemma rho_accuracy S K t r b sigma (call : bool) :
  0 < S -> 0 < K -> 0 < t -> sigma <> 0 ->
  exists rh rh', gbs_rho call (GBSOption S K t r b (Some sigma)) = Ok rh /\
    gbs_rho_F Phi call (GBSOption S K t r b (Some sigma)) = Ok rh' /\
    (b <> 0 -> Rabs (rh - rh') <= t * (K * exp (- r * t)) * (75 / 10 ^ 9)) /\
    (b = 0 -> Rabs (rh - rh') <= t * (S * exp (- r * t) + K * exp (- r * t)) * (75 / 10 ^ 9)).
Proof.
  intros HS HK Ht Hs.
  assert (M : forall a x, Rabs (a * cnd x - a * Phi x) <= Rabs a * (75 / 10 ^ 9)).
  { intros. rewrite <- Rmult_minus_distr_l, Rabs_mult. apply Rmult_le_compat_l; [apply Rabs_pos|apply cnd_accuracy]. }
  assert (Y := exp_pos (- r * t)).
  destruct (Req_dec b 0) as [Hb|Hb].
  - assert (Eb : (b =? lit 0)%num = true) by (toR; apply Reqb_true; lra).
    exists (- t * vprice call S K t r b sigma), (- t * eprice call S K t r b sigma).
    assert (P := gprice_link call S K t r b sigma HS HK Ht Hs). assert (Q := eprice_link call S K t r b sigma HS HK Ht Hs).
    assert (G := price_gap call S K t r b sigma HS HK Ht Hs). unfold gprice, gbs_call, gbs_put in P.
    split; [|split; [|split]]; [| |easy|].
    + unfold gbs_rho, gbs_rho_F, with_d. unfold GBSOption in *. cbn [g_sigma g_d1 g_d2 g_b].
      destruct call; rewrite P; cbn [bind]; rewrite Eb; reflexivity.
    + unfold gbs_rho_F, with_d. unfold GBSOption in *. cbn [g_sigma g_d1 g_d2 g_b].
      destruct call; rewrite Q; cbn [bind]; rewrite Eb; reflexivity.
    + intros _. rewrite <- Rmult_minus_distr_l, Rabs_mult, Rabs_Ropp, (Rabs_pos_eq t), Rmult_assoc by lra.
      apply Rmult_le_compat_l; [lra|]. rewrite Hb in G. replace (0 - r) with (- r) in G by ring. rewrite Hb. exact G.
  - assert (Eb : (b =? lit 0)%num = false) by (toR; apply Reqb_false; lra).
    exists (if call then t * K * exp (- r * t) * cnd (gbs_d2 S K t b sigma) else - t * K * exp (- r * t) * cnd (- gbs_d2 S K t b sigma)),
      (if call then t * K * exp (- r * t) * Phi (gbs_d2 S K t b sigma) else - t * K * exp (- r * t) * Phi (- gbs_d2 S K t b sigma)).
    split; [|split; [|split]]; [| | |easy].
    + unfold gbs_rho, gbs_rho_F, with_d, GBSOption. cbn [g_sigma g_d1 g_d2 g_b]. rewrite Eb. destruct call; reflexivity.
    + unfold gbs_rho_F, with_d, GBSOption. cbn [g_sigma g_d1 g_d2 g_b]. rewrite Eb. destruct call; reflexivity.
    + intros _. assert (0 < t * (K * exp (- r * t))) by (apply Rmult_lt_0_compat; [|apply Rmult_lt_0_compat]; easy).
      rewrite <- (Rabs_pos_eq (t * (K * exp (- r * t)))) by lra. destruct call.
      * replace (t * K * exp (- r * t)) with (t * (K * exp (- r * t))) by ring. apply M.
      * replace (- t * K * exp (- r * t)) with (- (t * (K * exp (- r * t)))) by ring.
        eapply Rle_trans; [apply M|]. rewrite Rabs_Ropp. lra.
Qed.

(** a one-year option at the money at 20%: every bracketing root finder recovers the volatility to 1e-6 plus its tolerance *)
Lemma vol_market_case solver tol x (call : bool) price :
  bracketing tol solver ->
  (if call then gbs_call_F Phi else gbs_put_F Phi) (GBSOption 100 100 1 0 0 (Some (1 / 5))) = Ok price ->
  gbs_volatility solver (GBSOption 100 100 1 0 0 None) price call = Ok x ->
  Rabs (x - 1 / 5) <= 1 / 10 ^ 6 + tol.
Proof.
  intros HB E V.
  refine (vol_market solver tol 100 100 1 0 0 None call price (1 / 5) 39 (1 / 10 ^ 6) x HB _ _ _ _ E _ _ V);
    try lra.
  - intros s v Hs Ev.
    destruct (eprice_derive true 100 100 1 0 0 s) as (d & Ed & _); try lra.
    assert (Hv : v = 100 * npdf (s / 2)).
    { revert Ev. gbs_open. intros Ev. apply Ok_inj in Ev. rewrite <- Ev. rewrite ndf_npdf.
      unfold gbs_d1. toR. replace (100 / 100) with 1 by lra. rewrite ln_1, sqrt_1.
      match goal with |- context [npdf ?y] => replace y with (s / 2) by (field; lra) end.
      replace ((0 - 0) * 1) with 0 by ring. rewrite exp_0. ring. }
    rewrite Hv. unfold npdf. interval.
  - replace ((0 - 0) * 1) with 0 by ring. replace (- 0 * 1) with 0 by ring. rewrite exp_0. lra.
Qed.
