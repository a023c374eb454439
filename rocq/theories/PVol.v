(** Implied volatility of GBSOption over the reals. *)
From Coq Require Import Reals QArith Qreals ZArith Bool List Lra Lia Psatz.
From Coquelicot Require Import Coquelicot.
From Verif Require Import Num Py MBase MVanilla PCnd PCnd2 PBlack PGauss PGbs PGbs2.
Open Scope R_scope.

Definition gprice (call : bool) (o : gbs R) : res R := (if call then gbs_call else gbs_put) o.

Lemma bput_opp F A B v : bput F A B (- v) = - bcall F A B v.
Proof. generalize (bcall_opp F A B (- v)). rewrite Ropp_involutive. lra. Qed.

(** the price as a total function of sigma <> 0 *)
Definition vprice (call : bool) (S K t r b s : R) : R :=
  let A := S * exp ((b - r) * t) in let B := K * exp (- r * t) in
  if call then bcall cnd A B (s * sqrt t) else bput cnd A B (s * sqrt t).

Lemma gprice_link call S K t r b s : 0 < S -> 0 < K -> 0 < t -> s <> 0 ->
  gprice call (GBSOption S K t r b (Some s)) = Ok (vprice call S K t r b s).
Proof. intros. destruct call; unfold gprice, gbs_call, gbs_put, vprice; [apply call_link|apply put_link]; auto. Qed.

Lemma vprice_pos call S K t r b s : 0 < S -> 0 < K -> 0 < t -> 0 < s -> 0 < vprice call S K t r b s.
Proof.
  intros. assert (0 < s * sqrt t) by now apply v_pos.
  assert (PA := fwd_pos S t r b H). assert (PB := strk_pos K t r H0).
  destruct call; [now apply bcall_pos|now apply bput_pos].
Qed.
Lemma vprice_neg call S K t r b s : 0 < S -> 0 < K -> 0 < t -> s < 0 -> vprice call S K t r b s < 0.
Proof.
  intros. assert (G : 0 < vprice (negb call) S K t r b (- s)) by (apply vprice_pos; lra).
  unfold vprice in *. destruct call; cbn [negb] in G; replace (- s * sqrt t) with (- (s * sqrt t)) in G by ring.
  - rewrite bput_opp in G. lra.
  - rewrite bcall_opp in G. lra.
Qed.
Lemma vprice_incr call S K t r b s1 s2 : 0 < S -> 0 < K -> 0 < t -> 0 < s1 -> s1 < s2 ->
  vprice call S K t r b s1 < vprice call S K t r b s2.
Proof.
  intros. assert (0 < sqrt t) by now apply sqrt_t_pos.
  assert (PA := fwd_pos S t r b H). assert (PB := strk_pos K t r H0).
  unfold vprice. destruct call; [apply bcall_incr_v|apply bput_incr_v]; auto; nra.
Qed.

Lemma vol_func_link S K t r b so call price s : 0 < S -> 0 < K -> 0 < t -> s <> 0 ->
  vol_func (GBSOption S K t r b so) call price s = Ok (price - vprice call S K t r b s).
Proof.
  intros. unfold vol_func. 
  replace (GBSOption (g_S _) (g_K _) (g_t _) (g_r _) (g_b _) (Some s)) with (GBSOption S K t r b (Some s))
    by (destruct so; reflexivity).
  change ((if call then gbs_call else gbs_put) (GBSOption S K t r b (Some s))) with (gprice call (GBSOption S K t r b (Some s))).
  rewrite gprice_link by easy. reflexivity.
Qed.

(** sign pattern of the objective *)
Lemma vol_sign S K t r b so call price s0 s : 0 < S -> 0 < K -> 0 < t -> 0 < s0 -> s <> 0 ->
  gprice call (GBSOption S K t r b (Some s0)) = Ok price ->
  exists y, vol_func (GBSOption S K t r b so) call price s = Ok y /\
    (s < s0 -> 0 < y) /\ (s = s0 -> y = 0) /\ (s0 < s -> y < 0).
Proof.
  intros HS HK Ht H0 Hs E. rewrite gprice_link in E by lra. apply Ok_inj in E. subst price.
  eexists. split; [apply vol_func_link; auto|]. repeat split; intros L.
  - destruct (Rtotal_order s 0) as [Z|[Z|Z]]; [|lra|].
    + generalize (vprice_neg call S K t r b s) (vprice_pos call S K t r b s0). lra.
    + generalize (vprice_incr call S K t r b s s0). lra.
  - subst. lra.
  - generalize (vprice_incr call S K t r b s0 s). lra.
Qed.

(** What a bracketing solver promises: a returned point lies in an interval, no longer than [tol]
    and inside the bracket, at whose ends the objective was evaluated with opposite weak signs.
    (The ends are nonzero: at sigma = 0 the code divides by zero, see the XNum theorems.) *)
Definition bracketing (tol : R) (solver : (R -> res R) -> R -> R -> res R) : Prop :=
  forall f lo hi x, solver f lo hi = Ok x ->
    exists a c fa fc, lo <= a <= x /\ x <= c <= hi /\ c - a <= tol /\ a <> 0 /\ c <> 0 /\
      f a = Ok fa /\ f c = Ok fc /\ fa * fc <= 0.

Lemma vol_sound solver tol S K t r b so call price s0 x :
  bracketing tol solver -> 0 < S -> 0 < K -> 0 < t -> 0 < s0 ->
  gprice call (GBSOption S K t r b (Some s0)) = Ok price ->
  gbs_volatility solver (GBSOption S K t r b so) price call = Ok x ->
  Rabs (x - s0) <= tol.
Proof.
  intros HB HS HK Ht H0 E V. unfold gbs_volatility in V.
  destruct (HB _ _ _ _ V) as (a & c & fa & fc & Ha & Hc & Hac & Na & Nc & Ea & Ec & Hp).
  destruct (vol_sign S K t r b so call price s0 a HS HK Ht H0 Na E) as (ya & Fa & A1 & A2 & A3).
  destruct (vol_sign S K t r b so call price s0 c HS HK Ht H0 Nc E) as (yc & Fc & C1 & C2 & C3).
  rewrite Ea in Fa. apply Ok_inj in Fa. rewrite Ec in Fc. apply Ok_inj in Fc. subst ya yc.
  assert (a <= s0).
  { destruct (Rle_dec a s0); auto. exfalso. assert (fa < 0) by (apply A3; lra). assert (fc < 0) by (apply C3; lra). nra. }
  assert (s0 <= c).
  { destruct (Rle_dec s0 c); auto. exfalso. assert (0 < fa) by (apply A1; lra). assert (0 < fc) by (apply C1; lra). nra. }
  apply Rabs_le. lra.
Qed.

(** the bracket ends have opposite signs for every price in [0, price at sigma = 10) *)
Lemma vol_bracket S K t r b so call price : 0 < S -> 0 < K -> 0 < t -> 0 <= price ->
  (exists p10, gprice call (GBSOption S K t r b (Some 10)) = Ok p10 /\ price < p10) ->
  exists lo hi, vol_func (GBSOption S K t r b so) call price (-10) = Ok lo /\
    vol_func (GBSOption S K t r b so) call price 10 = Ok hi /\ hi < 0 < lo.
Proof.
  intros HS HK Ht Hp (p10 & E & L). rewrite gprice_link in E by lra. apply Ok_inj in E.
  do 2 eexists. split; [apply vol_func_link; lra|]. split; [apply vol_func_link; lra|].
  generalize (vprice_neg call S K t r b (-10)). lra.
Qed.

(** a root finder that starts whenever the ends of its bracket have opposite signs finds a result, and one that refuses
    ends of equal sign refuses prices above the one at volatility 10 *)
Lemma vol_succeeds solver S K t r b so call price :
  (forall f lo hi flo fhi, f lo = Ok flo -> f hi = Ok fhi -> flo * fhi < 0 -> exists x, solver f lo hi = Ok x) ->
  0 < S -> 0 < K -> 0 < t -> 0 <= price ->
  (exists p10, gprice call (GBSOption S K t r b (Some 10)) = Ok p10 /\ price < p10) ->
  exists x, gbs_volatility solver (GBSOption S K t r b so) price call = Ok x.
Proof.
  intros Hs HS HK Ht Hp H. destruct (vol_bracket S K t r b so call price HS HK Ht Hp H) as (lo & hi & E1 & E2 & L).
  assert (L' : lo * hi < 0) by nra. assert (X := Hs _ _ _ _ _ E1 E2 L'). unfold gbs_volatility. toR. exact X.
Qed.
Lemma vol_refuses solver e S K t r b so call price :
  (forall f lo hi flo fhi, f lo = Ok flo -> f hi = Ok fhi -> 0 < flo * fhi -> solver f lo hi = Err e) ->
  0 < S -> 0 < K -> 0 < t ->
  (exists p10, gprice call (GBSOption S K t r b (Some 10)) = Ok p10 /\ p10 < price) ->
  gbs_volatility solver (GBSOption S K t r b so) price call = Err e.
Proof.
  intros Hs HS HK Ht (p10 & E & L). rewrite gprice_link in E by lra. apply Ok_inj in E.
  unfold gbs_volatility. toR. eapply Hs; [apply vol_func_link; lra|apply vol_func_link; lra|].
  pose proof (vprice_pos call S K t r b 10 HS HK Ht ltac:(lra)). pose proof (vprice_neg call S K t r b (-10) HS HK Ht ltac:(lra)). nra.
Qed.

(** prices at or below the discounted intrinsic value are attained by no volatility *)
Lemma vol_unattained (S K t r b : R) (call : bool) (price s : R) : 0 < S -> 0 < K -> 0 < t -> s <> 0 ->
  let intrinsic := if call then S * exp ((b - r) * t) - K * exp (- r * t)
                   else K * exp (- r * t) - S * exp ((b - r) * t) in
  0 <= price <= Rmax 0 intrinsic -> gprice call (GBSOption S K t r b (Some s)) <> Ok price.
Proof.
  intros HS HK Ht Hs intr Hp E. rewrite gprice_link in E by auto. apply Ok_inj in E.
  destruct (Rtotal_order s 0) as [Z|[Z|Z]]; [|lra|].
  - generalize (vprice_neg call S K t r b s HS HK Ht Z). lra.
  - destruct (gbs_bounds S K t r b s HS HK Ht Z) as (c & p & Ec & Ep & Bc & Bp).
    destruct call; unfold intr in Hp.
    + unfold gbs_call in Ec. rewrite call_link in Ec by lra. apply Ok_inj in Ec. unfold vprice in E. lra.
    + unfold gbs_put in Ep. rewrite put_link in Ep by lra. apply Ok_inj in Ep. unfold vprice in E. lra.
Qed.

(** finding: a price below intrinsic, attained by no volatility, for which the bracket test passes *)
Lemma vol_bracket_refuted : exists S K t r b price lo hi : R,
  0 < S /\ 0 < K /\ 0 < t /\ 0 < price /\
  vol_func (GBSOption S K t r b None) true price (-10) = Ok lo /\
  vol_func (GBSOption S K t r b None) true price 10 = Ok hi /\
  hi < 0 < lo /\
  (forall s, s <> 0 -> gprice true (GBSOption S K t r b (Some s)) <> Ok price).
Proof.
  exists 20, 10, 1, 0, 0, 5.
  destruct (gbs_bounds 20 10 1 0 0 10 ltac:(lra) ltac:(lra) ltac:(lra) ltac:(lra)) as (c & p & Ec & Ep & Bc & Bp).
  assert (X : exp ((0 - 0) * 1) = 1) by (replace ((0 - 0) * 1) with 0 by ring; apply exp_0).
  assert (Y : exp (- 0 * 1) = 1) by (replace (- 0 * 1) with 0 by ring; apply exp_0).
  rewrite X, Y in *.
  assert (M : 10 <= Rmax 0 (20 * 1 - 10 * 1)) by (eapply Rle_trans; [|apply Rmax_r]; lra).
  destruct (vol_bracket 20 10 1 0 0 None true 5) as (lo & hi & A & B & C); try lra.
  { exists c. split; [exact Ec|lra]. }
  exists lo, hi. repeat split; auto; try lra.
  intros s Hs. apply vol_unattained; auto; try lra. cbv zeta. rewrite X, Y. lra.
Qed.
