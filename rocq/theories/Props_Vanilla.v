(** Property theorems C01-C13: closed-form options (vanillaoptions.py, base.py) over the reals. *)
From Coq Require Import Reals QArith Qreals ZArith Bool List Lra.
From Coquelicot Require Import Coquelicot.
From Verif Require Import Num Py MBase MVanilla.
From Verif Require Import PCnd PCnd2 PBlack PGauss PGbs PGbs2 PGbs3 PVol PMs PCndAcc PMono PVanilla PVolAcc.
Import ListNotations.
Open Scope R_scope.

(* ---------------------------------------------------------------- C01 *)
(** Put-call parity of GBSOption, for either sign of sigma. *)
Theorem C01_gbs_parity : forall S K t r b sigma,
  0 < S -> 0 < K -> 0 < t -> sigma <> 0 ->
  exists c p,
    gbs_call (GBSOption S K t r b (Some sigma)) = Ok c /\
    gbs_put (GBSOption S K t r b (Some sigma)) = Ok p /\
    c - p = S * exp ((b - r) * t) - K * exp (- r * t).
Proof. exact gbs_parity. Qed.
Print Assumptions C01_gbs_parity.

(** Without a volatility every price and Greek is refused with ValueError. *)
Theorem C01_no_sigma : forall (S K t r b : R) (call : bool),
  let o := GBSOption S K t r b None in
  gbs_call o = Err ValueError /\ gbs_put o = Err ValueError /\
  gbs_delta call o = Err ValueError /\ gbs_theta call o = Err ValueError /\
  gbs_vega o = Err ValueError /\ gbs_rho call o = Err ValueError /\
  gbs_lamb call o = Err ValueError /\ gbs_gamma o = Err ValueError /\
  gbs_cofc call o = Err ValueError /\ gbs_greeks call o = Err ValueError.
Proof. exact gbs_no_sigma. Qed.
Print Assumptions C01_no_sigma.

Example C01_case : exists c p,
  gbs_call (GBSOption 100 95 (1/2) (5/100) (3/100) (Some (1/5))) = Ok c /\
  gbs_put (GBSOption 100 95 (1/2) (5/100) (3/100) (Some (1/5))) = Ok p /\
  c - p = 100 * exp ((3/100 - 5/100) * (1/2)) - 95 * exp (- (5/100) * (1/2)).
Proof. apply C01_gbs_parity; lra. Qed.

(* ---------------------------------------------------------------- C02 *)
Theorem C02_gbs_bounds : forall S K t r b sigma,
  0 < S -> 0 < K -> 0 < t -> 0 < sigma ->
  exists c p,
    gbs_call (GBSOption S K t r b (Some sigma)) = Ok c /\
    gbs_put (GBSOption S K t r b (Some sigma)) = Ok p /\
    Rmax 0 (S * exp ((b - r) * t) - K * exp (- r * t)) < c < S * exp ((b - r) * t) /\
    Rmax 0 (K * exp (- r * t) - S * exp ((b - r) * t)) < p < K * exp (- r * t).
Proof. exact gbs_bounds. Qed.
Print Assumptions C02_gbs_bounds.

Example C02_case : exists c,
  gbs_call (GBSOption 100 95 (1/2) 0 0 (Some (1/5))) = Ok c /\ 5 < c < 100.
Proof.
  destruct (C02_gbs_bounds 100 95 (1/2) 0 0 (1/5)) as (c & p & Ec & _ & [L U] & _); try lra.
  exists c. split; [exact Ec|].
  replace ((0 - 0) * (1/2)) with 0 in * by field. replace (- 0 * (1/2)) with 0 in * by field.
  rewrite exp_0 in *. split; [|lra]. eapply Rle_lt_trans; [|exact L].
  eapply Rle_trans; [|apply Rmax_r]. lra.
Qed.

(* ---------------------------------------------------------------- C03 *)
Theorem C03_cnd_distribution :
  (forall x, 0 < cnd x < 1) /\
  (forall x y, x < y -> cnd x < cnd y) /\
  (forall x, cnd x + cnd (- x) = 1) /\
  cnd 0 = 1 / 2 /\
  (forall eps, 0 < eps -> exists A, 0 < A /\ forall x, A < x -> 1 - eps < cnd x) /\
  (forall eps, 0 < eps -> exists A, A < 0 /\ forall x, x < A -> cnd x < eps).
Proof. exact cnd_distribution. Qed.
Print Assumptions C03_cnd_distribution.

(** The density [_NDF] is the Gaussian density and [Phi] below is a distribution function with it. *)
Theorem C03_ndf_gaussian : forall x,
  ndf x = exp (- (x ^ 2) / 2) / sqrt (2 * PI) /\ is_derive Phi x (ndf x).
Proof. exact ndf_gaussian. Qed.
Print Assumptions C03_ndf_gaussian.

(* ---------------------------------------------------------------- C04 *)
(** [Phi x = 1/2 + integral of the Gaussian density from 0 to x]. *)
Theorem C04_cnd_accuracy : forall x, Rabs (cnd x - Phi x) <= 75 / 10 ^ 9.
Proof. exact cnd_accuracy. Qed.
Print Assumptions C04_cnd_accuracy.

Theorem C04_Phi_meaning : forall x,
  Phi x = 1 / 2 + RInt (fun u => exp (- (u ^ 2) / 2) / sqrt (2 * PI)) 0 x /\
  Phi x + Phi (- x) = 1 /\ 0 < Phi x < 1 /\
  (0 < x -> 1 - Phi x <= exp (- (x ^ 2) / 2)).
Proof. exact Phi_meaning. Qed.
Print Assumptions C04_Phi_meaning.

(* ---------------------------------------------------------------- C05 *)
Theorem C05_black_scholes_equation : forall S K t r b sigma (call : bool),
  0 < S -> 0 < K -> 0 < t -> 0 < sigma ->
  let o := GBSOption S K t r b (Some sigma) in
  exists price delta gamma theta,
    (if call then gbs_call o else gbs_put o) = Ok price /\
    gbs_delta call o = Ok delta /\ gbs_gamma o = Ok gamma /\ gbs_theta call o = Ok theta /\
    theta + b * S * delta + / 2 * sigma ^ 2 * S ^ 2 * gamma = r * price.
Proof. exact gbs_pde. Qed.
Print Assumptions C05_black_scholes_equation.

Example C05_case : exists price delta gamma theta,
  let o := GBSOption 100 95 (1/2) (5/100) (3/100) (Some (1/5)) in
  gbs_put o = Ok price /\ gbs_delta false o = Ok delta /\ gbs_gamma o = Ok gamma /\
  gbs_theta false o = Ok theta /\
  theta + 3/100 * 100 * delta + / 2 * (1/5) ^ 2 * 100 ^ 2 * gamma = 5/100 * price.
Proof. apply (C05_black_scholes_equation 100 95 (1/2) (5/100) (3/100) (1/5) false); lra. Qed.

(* ---------------------------------------------------------------- C06 *)
(** With [Phi] for the distribution function the analytic Greeks are exactly the partial
    derivatives.  [is_price_greek Phi call fS fK ft fr fb fs p d]: near [p] the price of the option
    with parameters fS q, fK q, ... exists, and has derivative [d] in [q] at [p]. *)
Theorem C06_greeks_are_derivatives : forall S K t r b sigma (call : bool),
  0 < S -> 0 < K -> 0 < t -> 0 < sigma ->
  let o := GBSOption S K t r b (Some sigma) in
  (exists d, gbs_delta_F Phi call o = Ok d /\
     is_price_greek Phi call (fun x => x) (fun _ => K) (fun _ => t) (fun _ => r) (fun _ => b) (fun _ => sigma) S d) /\
  (exists d, gbs_vega_F o = Ok d /\
     is_price_greek Phi call (fun _ => S) (fun _ => K) (fun _ => t) (fun _ => r) (fun _ => b) (fun x => x) sigma d) /\
  (exists d, gbs_theta_F Phi call o = Ok d /\
     is_price_greek Phi call (fun _ => S) (fun _ => K) (fun x => x) (fun _ => r) (fun _ => b) (fun _ => sigma) t (- d)) /\
  (exists d, gbs_cofc_F Phi call o = Ok d /\
     is_price_greek Phi call (fun _ => S) (fun _ => K) (fun _ => t) (fun _ => r) (fun x => x) (fun _ => sigma) b d) /\
  (b <> 0 -> exists d, gbs_rho_F Phi call o = Ok d /\
     is_price_greek Phi call (fun _ => S) (fun _ => K) (fun _ => t) (fun x => r + x) (fun x => b + x) (fun _ => sigma) 0 d) /\
  (b = 0 -> exists d, gbs_rho_F Phi call o = Ok d /\
     is_price_greek Phi call (fun _ => S) (fun _ => K) (fun _ => t) (fun x => x) (fun _ => b) (fun _ => sigma) r d) /\
  (exists d (g : R -> R), gbs_gamma_F o = Ok d /\
     (forall x, 0 < x -> gbs_delta_F Phi call (GBSOption x K t r b (Some sigma)) = Ok (g x)) /\
     is_derive g S d).
Proof. exact greeks_are_derivatives. Qed.
Print Assumptions C06_greeks_are_derivatives.

(** With the code's own distribution function: prices and Greeks are within 7.5e-8 times the
    forward and strike values of the exact ones. *)
Theorem C06_price_accuracy : forall S K t r b sigma (call : bool),
  0 < S -> 0 < K -> 0 < t -> sigma <> 0 ->
  exists approx exact,
    (if call then gbs_call else gbs_put) (GBSOption S K t r b (Some sigma)) = Ok approx /\
    (if call then gbs_call_F Phi else gbs_put_F Phi) (GBSOption S K t r b (Some sigma)) = Ok exact /\
    Rabs (approx - exact) <= (S * exp ((b - r) * t) + K * exp (- r * t)) * (75 / 10 ^ 9).
Proof. exact gbs_price_accuracy. Qed.
Print Assumptions C06_price_accuracy.

Theorem C06_greek_accuracy : forall S K t r b sigma (call : bool),
  0 < S -> 0 < K -> 0 < t -> sigma <> 0 ->
  let o := GBSOption S K t r b (Some sigma) in
  exists de de' th th' co co',
    gbs_delta call o = Ok de /\ gbs_delta_F Phi call o = Ok de' /\
    gbs_theta call o = Ok th /\ gbs_theta_F Phi call o = Ok th' /\
    gbs_cofc call o = Ok co /\ gbs_cofc_F Phi call o = Ok co' /\
    Rabs (de - de') <= exp ((b - r) * t) * (75 / 10 ^ 9) /\
    Rabs (th - th') <= (Rabs (b - r) * S * exp ((b - r) * t) + Rabs r * K * exp (- r * t)) * (75 / 10 ^ 9) /\
    Rabs (co - co') <= t * S * exp ((b - r) * t) * (75 / 10 ^ 9).
Proof. exact gbs_greek_accuracy. Qed.
Print Assumptions C06_greek_accuracy.

Theorem C06_rho_accuracy : forall S K t r b sigma (call : bool),
  0 < S -> 0 < K -> 0 < t -> sigma <> 0 ->
  exists rh rh', gbs_rho call (GBSOption S K t r b (Some sigma)) = Ok rh /\
    gbs_rho_F Phi call (GBSOption S K t r b (Some sigma)) = Ok rh' /\
    (b <> 0 -> Rabs (rh - rh') <= t * (K * exp (- r * t)) * (75 / 10 ^ 9)) /\
    (b = 0 -> Rabs (rh - rh') <= t * (S * exp (- r * t) + K * exp (- r * t)) * (75 / 10 ^ 9)).
Proof. exact rho_accuracy. Qed.
Print Assumptions C06_rho_accuracy.

(* ---------------------------------------------------------------- C07 *)
Theorem C07_greek_relations : forall S K t r b sigma,
  0 < S -> 0 < K -> 0 < t -> 0 < sigma ->
  let o := GBSOption S K t r b (Some sigma) in
  exists c p dc dp tc tp ve ga rc rp kc kp lc lp,
    gbs_call o = Ok c /\ gbs_put o = Ok p /\
    gbs_delta true o = Ok dc /\ gbs_delta false o = Ok dp /\
    gbs_theta true o = Ok tc /\ gbs_theta false o = Ok tp /\
    gbs_vega o = Ok ve /\ gbs_gamma o = Ok ga /\
    gbs_rho true o = Ok rc /\ gbs_rho false o = Ok rp /\
    gbs_cofc true o = Ok kc /\ gbs_cofc false o = Ok kp /\
    gbs_lamb true o = Ok lc /\ gbs_lamb false o = Ok lp /\
    dc - dp = exp ((b - r) * t) /\
    tc - tp = - (b - r) * S * exp ((b - r) * t) - r * K * exp (- r * t) /\
    ve = ga * S ^ 2 * sigma * t /\
    kc = t * S * dc /\ kp = t * S * dp /\
    (b <> 0 -> rc = kc - t * c /\ rp = kp - t * p /\ rc - rp = t * K * exp (- r * t)) /\
    (b = 0 -> rc = - t * c /\ rp = - t * p) /\
    lc * c = dc * S /\ lp * p = dp * S.
Proof. exact gbs_relations. Qed.
Print Assumptions C07_greek_relations.

(** Signs and ranges of the Greeks. *)
Theorem C07_greek_signs : forall S K t r b sigma,
  0 < S -> 0 < K -> 0 < t -> 0 < sigma ->
  let o := GBSOption S K t r b (Some sigma) in
  exists dc dp ve ga kc kp lc lp,
    gbs_delta true o = Ok dc /\ gbs_delta false o = Ok dp /\
    gbs_vega o = Ok ve /\ gbs_gamma o = Ok ga /\
    gbs_cofc true o = Ok kc /\ gbs_cofc false o = Ok kp /\
    gbs_lamb true o = Ok lc /\ gbs_lamb false o = Ok lp /\
    0 < dc < exp ((b - r) * t) /\ - exp ((b - r) * t) < dp < 0 /\
    0 < ve /\ 0 < ga /\ 0 < kc /\ kp < 0 /\ 1 < lc /\ lp < 0.
Proof. exact gbs_greek_signs. Qed.
Print Assumptions C07_greek_signs.

(** [greeks()] returns exactly the individually computed values in the documented order. *)
Theorem C07_greeks_dict : forall T (N : Num T) (S K t r b sigma : T) (call : bool),
  let o := GBSOption S K t r b (Some sigma) in
  exists de th ve rh la ga co,
    gbs_delta call o = Ok de /\ gbs_theta call o = Ok th /\ gbs_vega o = Ok ve /\
    gbs_rho call o = Ok rh /\ gbs_lamb call o = Ok la /\ gbs_gamma o = Ok ga /\
    gbs_cofc call o = Ok co /\
    gbs_greeks call o = Ok [de; th; ve; rh; la; ga; co].
Proof. exact gbs_greeks_dict. Qed.
Print Assumptions C07_greeks_dict.

(* ---------------------------------------------------------------- C08 *)
Theorem C08_homogeneity : forall S K t r b sigma c,
  0 < S -> 0 < K -> 0 < t -> 0 < sigma -> 0 < c ->
  exists call put,
    gbs_call (GBSOption S K t r b (Some sigma)) = Ok call /\
    gbs_put (GBSOption S K t r b (Some sigma)) = Ok put /\
    gbs_call (GBSOption (c * S) (c * K) t r b (Some sigma)) = Ok (c * call) /\
    gbs_put (GBSOption (c * S) (c * K) t r b (Some sigma)) = Ok (c * put).
Proof. exact gbs_homog. Qed.
Print Assumptions C08_homogeneity.

Theorem C08_duality : forall S K t r b sigma,
  0 < S -> 0 < K -> 0 < t -> 0 < sigma ->
  gbs_call (GBSOption S K t r b (Some sigma)) = gbs_put (GBSOption K S t (r - b) (- b) (Some sigma)).
Proof. exact gbs_dual. Qed.
Print Assumptions C08_duality.

Example C08_case : exists v,
  gbs_call (GBSOption 100 95 (1/2) (5/100) (3/100) (Some (1/5))) = Ok v /\ 0 < v /\
  gbs_put (GBSOption 95 100 (1/2) (5/100 - 3/100) (- (3/100)) (Some (1/5))) = Ok v.
Proof.
  destruct (C02_gbs_bounds 100 95 (1/2) (5/100) (3/100) (1/5)) as (c & p & Ec & _ & [L _] & _); try lra.
  exists c. repeat split; [exact Ec| eapply Rle_lt_trans; [apply Rmax_l|exact L]|].
  rewrite <- C08_duality by lra. exact Ec.
Qed.

(* ---------------------------------------------------------------- C09 *)
Theorem C09_increasing_in_volatility : forall S K t r b s1 s2,
  0 < S -> 0 < K -> 0 < t -> 0 < s1 -> s1 < s2 ->
  exists c1 c2 p1 p2,
    gbs_call (GBSOption S K t r b (Some s1)) = Ok c1 /\ gbs_call (GBSOption S K t r b (Some s2)) = Ok c2 /\
    gbs_put (GBSOption S K t r b (Some s1)) = Ok p1 /\ gbs_put (GBSOption S K t r b (Some s2)) = Ok p2 /\
    c1 < c2 /\ p1 < p2.
Proof. exact gbs_vol_incr. Qed.
Print Assumptions C09_increasing_in_volatility.

Theorem C09_volatility_unique : forall S K t r b s1 s2 (call : bool) price,
  0 < S -> 0 < K -> 0 < t -> 0 < s1 -> 0 < s2 ->
  (if call then gbs_call else gbs_put) (GBSOption S K t r b (Some s1)) = Ok price ->
  (if call then gbs_call else gbs_put) (GBSOption S K t r b (Some s2)) = Ok price -> s1 = s2.
Proof. exact gbs_vol_unique. Qed.
Print Assumptions C09_volatility_unique.

(* ---------------------------------------------------------------- C10 *)
(** [bracketing tol solver]: a result lies in an interval of length at most [tol], inside the
    bracket, at whose nonzero ends the objective takes values of opposite weak sign. *)
Theorem C10_volatility_roundtrip : forall solver tol (S K t r b : R) so (call : bool) price s0 x,
  bracketing tol solver -> 0 < S -> 0 < K -> 0 < t -> 0 < s0 ->
  (if call then gbs_call else gbs_put) (GBSOption S K t r b (Some s0)) = Ok price ->
  gbs_volatility solver (GBSOption S K t r b so) price call = Ok x ->
  Rabs (x - s0) <= tol.
Proof. exact vol_sound. Qed.
Print Assumptions C10_volatility_roundtrip.

(** A price quoted by the exact Black-Scholes formula at volatility s0: the library's own distribution function moves the
    implied volatility by less than delta, as soon as vega on [s0 - delta, s0 + delta] is at least m and m * delta exceeds
    the error of the prices. *)
Theorem C10_market_accuracy : forall solver tol (S K t r b : R) so (call : bool) price s0 m delta x,
  bracketing tol solver -> 0 < S -> 0 < K -> 0 < t -> 0 < delta < s0 ->
  (if call then gbs_call_F Phi else gbs_put_F Phi) (GBSOption S K t r b (Some s0)) = Ok price ->
  (forall s v, s0 - delta <= s <= s0 + delta -> gbs_vega (GBSOption S K t r b (Some s)) = Ok v -> m <= v) ->
  (S * exp ((b - r) * t) + K * exp (- r * t)) * (75 / 10 ^ 9) < m * delta ->
  gbs_volatility solver (GBSOption S K t r b so) price call = Ok x ->
  Rabs (x - s0) <= delta + tol.
Proof. exact vol_market. Qed.
Print Assumptions C10_market_accuracy.
(** One year at the money at 20%: recovered to 1e-6 plus the tolerance of the root finder. *)
Example C10_market_accuracy_case : forall solver tol x (call : bool) price,
  bracketing tol solver ->
  (if call then gbs_call_F Phi else gbs_put_F Phi) (GBSOption 100 100 1 0 0 (Some (1 / 5))) = Ok price ->
  gbs_volatility solver (GBSOption 100 100 1 0 0 None) price call = Ok x ->
  Rabs (x - 1 / 5) <= 1 / 10 ^ 6 + tol.
Proof. exact vol_market_case. Qed.

Theorem C10_bracket_changes_sign : forall S K t r b so (call : bool) price,
  0 < S -> 0 < K -> 0 < t -> 0 <= price ->
  (exists p10, (if call then gbs_call else gbs_put) (GBSOption S K t r b (Some 10)) = Ok p10 /\ price < p10) ->
  exists lo hi, vol_func (GBSOption S K t r b so) call price (-10) = Ok lo /\
    vol_func (GBSOption S K t r b so) call price 10 = Ok hi /\ hi < 0 < lo.
Proof. exact vol_bracket. Qed.
Print Assumptions C10_bracket_changes_sign.

(** A root finder that starts whenever the ends of its bracket have opposite signs returns for all these prices; one that
    refuses ends of equal sign refuses every price above the one at volatility 10, although larger volatilities attain some. *)
Theorem C10_volatility_succeeds : forall solver (S K t r b : R) so (call : bool) price,
  (forall f lo hi flo fhi, f lo = Ok flo -> f hi = Ok fhi -> flo * fhi < 0 -> exists x, solver f lo hi = Ok x) ->
  0 < S -> 0 < K -> 0 < t -> 0 <= price ->
  (exists p10, (if call then gbs_call else gbs_put) (GBSOption S K t r b (Some 10)) = Ok p10 /\ price < p10) ->
  exists x, gbs_volatility solver (GBSOption S K t r b so) price call = Ok x.
Proof. exact vol_succeeds. Qed.
Print Assumptions C10_volatility_succeeds.
Example C10_volatility_succeeds_case : exists solver : (R -> res R) -> R -> R -> res R,
  forall f lo hi flo fhi, f lo = Ok flo -> f hi = Ok fhi -> flo * fhi < 0 -> exists x, solver f lo hi = Ok x.
Proof. exists (fun _ lo _ => Ok lo). intros f lo hi flo fhi _ _ _. now exists lo. Qed.

Theorem C10_volatility_refuses : forall solver e (S K t r b : R) so (call : bool) price,
  (forall f lo hi flo fhi, f lo = Ok flo -> f hi = Ok fhi -> 0 < flo * fhi -> solver f lo hi = Err e) ->
  0 < S -> 0 < K -> 0 < t ->
  (exists p10, (if call then gbs_call else gbs_put) (GBSOption S K t r b (Some 10)) = Ok p10 /\ p10 < price) ->
  gbs_volatility solver (GBSOption S K t r b so) price call = Err e.
Proof. exact vol_refuses. Qed.
Print Assumptions C10_volatility_refuses.
Example C10_volatility_refuses_case : exists solver : (R -> res R) -> R -> R -> res R,
  forall f lo hi flo fhi, f lo = Ok flo -> f hi = Ok fhi -> 0 < flo * fhi -> solver f lo hi = Err ValueError.
Proof. exists (fun _ _ _ => Err ValueError). reflexivity. Qed.

(** Finding: the bracket test passes for a price that no volatility attains. *)
Theorem C10_bracket_detects_unattainable_refuted : exists S K t r b price lo hi : R,
  0 < S /\ 0 < K /\ 0 < t /\ 0 < price /\
  vol_func (GBSOption S K t r b None) true price (-10) = Ok lo /\
  vol_func (GBSOption S K t r b None) true price 10 = Ok hi /\
  hi < 0 < lo /\
  (forall s, s <> 0 -> gbs_call (GBSOption S K t r b (Some s)) <> Ok price).
Proof. exact vol_bracket_refuted. Qed.
Print Assumptions C10_bracket_detects_unattainable_refuted.

(* ---------------------------------------------------------------- C11 *)
(** Monotonicity in strike, up to [eps_mono = 1.1e-9] times the discounted strike or forward, and
    exact away from the discontinuity of the distribution function at 0. *)
Theorem C11_strike_monotone : forall S K1 K2 t r b sigma,
  0 < S -> 0 < K1 -> K1 < K2 -> 0 < t -> 0 < sigma ->
  exists c1 c2 p1 p2,
    gbs_call (GBSOption S K1 t r b (Some sigma)) = Ok c1 /\ gbs_call (GBSOption S K2 t r b (Some sigma)) = Ok c2 /\
    gbs_put (GBSOption S K1 t r b (Some sigma)) = Ok p1 /\ gbs_put (GBSOption S K2 t r b (Some sigma)) = Ok p2 /\
    c2 < c1 + 11 / 10 ^ 10 * (K2 * exp (- r * t)) /\
    c1 - c2 < (K2 - K1) * exp (- r * t) + 11 / 10 ^ 10 * (S * exp ((b - r) * t)) /\
    p1 < p2 + 11 / 10 ^ 10 * (S * exp ((b - r) * t)) /\
    p2 - p1 < (K2 - K1) * exp (- r * t) + 11 / 10 ^ 10 * (K2 * exp (- r * t)) /\
    (0 < ln (S / K2) + (b - sigma ^ 2 / 2) * t \/ ln (S / K1) + (b - sigma ^ 2 / 2) * t < 0 -> c2 < c1) /\
    (0 < ln (S / K2) + (b + sigma ^ 2 / 2) * t \/ ln (S / K1) + (b + sigma ^ 2 / 2) * t < 0 -> p1 < p2).
Proof. exact gbs_strike_mono. Qed.
Print Assumptions C11_strike_monotone.

Theorem C11_spot_monotone : forall S1 S2 K t r b sigma,
  0 < S1 -> S1 < S2 -> 0 < K -> 0 < t -> 0 < sigma ->
  exists c1 c2 p1 p2,
    gbs_call (GBSOption S1 K t r b (Some sigma)) = Ok c1 /\ gbs_call (GBSOption S2 K t r b (Some sigma)) = Ok c2 /\
    gbs_put (GBSOption S1 K t r b (Some sigma)) = Ok p1 /\ gbs_put (GBSOption S2 K t r b (Some sigma)) = Ok p2 /\
    c1 < c2 + 11 / 10 ^ 10 * (K * exp (- r * t)) /\
    c2 - c1 < (S2 - S1) * exp ((b - r) * t) + 11 / 10 ^ 10 * (S2 * exp ((b - r) * t)) /\
    p2 < p1 + 11 / 10 ^ 10 * (S2 * exp ((b - r) * t)) /\
    p1 - p2 < (S2 - S1) * exp ((b - r) * t) + 11 / 10 ^ 10 * (K * exp (- r * t)) /\
    (0 < ln (S1 / K) + (b - sigma ^ 2 / 2) * t \/ ln (S2 / K) + (b - sigma ^ 2 / 2) * t < 0 -> c1 < c2) /\
    (0 < ln (S1 / K) + (b + sigma ^ 2 / 2) * t \/ ln (S2 / K) + (b + sigma ^ 2 / 2) * t < 0 -> p2 < p1).
Proof. exact gbs_spot_mono. Qed.
Print Assumptions C11_spot_monotone.

(** Finding: exact monotonicity fails. S=K=100, t=1, r=b=2%, sigma=20%: raising the strike by
    1e-8 raises the call price, because d2 crosses 0. *)
Theorem C11_exact_monotonicity_refuted : exists c1 c2,
  gbs_call (GBSOption 100 100 1 (1/50) (1/50) (Some (1/5))) = Ok c1 /\
  gbs_call (GBSOption 100 (100 + / 10 ^ 8) 1 (1/50) (1/50) (Some (1/5))) = Ok c2 /\ c1 < c2.
Proof. exact gbs_strike_mono_refuted. Qed.
Print Assumptions C11_exact_monotonicity_refuted.

(** the side condition for strict monotonicity is met away from the money *)
Example C11_case : exists c1 c2,
  gbs_call (GBSOption 100 110 1 0 0 (Some (1/5))) = Ok c1 /\
  gbs_call (GBSOption 100 120 1 0 0 (Some (1/5))) = Ok c2 /\ c2 < c1.
Proof.
  destruct (C11_strike_monotone 100 110 120 1 0 0 (1/5)) as (c1 & c2 & p1 & p2 & A & B & _ & _ & _ & _ & _ & _ & H & _);
    try lra.
  exists c1, c2. repeat split; auto. apply H. right.
  assert (ln (100 / 110) < ln 1) by (apply ln_increasing; lra). rewrite ln_1 in *. lra.
Qed.

(* ---------------------------------------------------------------- C12 *)
Theorem C12_black76_is_gbs : forall T (N : Num T) (FT K t r : T) sigma,
  Black76Option FT K t r sigma = GBSOption FT K t r (lit 0) sigma.
Proof. reflexivity. Qed.
Print Assumptions C12_black76_is_gbs.

Theorem C12_black76 : forall FT K t r sigma,
  0 < FT -> 0 < K -> 0 < t -> 0 < sigma ->
  let o := Black76Option FT K t r (Some sigma) in
  exists c p rc rp tc tp dc dp ga,
    gbs_call o = Ok c /\ gbs_put o = Ok p /\ gbs_rho true o = Ok rc /\ gbs_rho false o = Ok rp /\
    gbs_theta true o = Ok tc /\ gbs_theta false o = Ok tp /\
    gbs_delta true o = Ok dc /\ gbs_delta false o = Ok dp /\ gbs_gamma o = Ok ga /\
    c - p = exp (- r * t) * (FT - K) /\
    exp (- r * t) * Rmax 0 (FT - K) < c < exp (- r * t) * FT /\
    exp (- r * t) * Rmax 0 (K - FT) < p < exp (- r * t) * K /\
    dc - dp = exp (- r * t) /\
    rc = - t * c /\ rp = - t * p /\
    tc = r * c - / 2 * sigma ^ 2 * FT ^ 2 * ga /\ tp = r * p - / 2 * sigma ^ 2 * FT ^ 2 * ga /\
    gbs_put (Black76Option K FT t r (Some sigma)) = Ok c.
Proof. exact b76_all. Qed.
Print Assumptions C12_black76.

(* ---------------------------------------------------------------- C13 *)
(** [Hload k x = (1 - exp(-k x))/k]; [ms_inst], [ms_cov] (PMs.v) are the instantaneous variance of
    the futures price and its covariance with the bond, written out below. *)
Theorem C13_variance_is_integral : forall p : ms_params R,
  0 < m_kE p -> 0 < m_kF p ->
  is_RInt (fun u =>
    let e := m_sE p * ((1 - exp (- m_kE p * (m_T p - u))) / m_kE p) in
    let f := m_sF p * ((1 - exp (- m_kF p * (m_T p - u))) / m_kF p) in
    m_sS p ^ 2 + e ^ 2 + f ^ 2
    - 2 * m_rSE p * m_sS p * e + 2 * m_rSF p * m_sS p * f - 2 * m_rEF p * e * f)
    0 (m_t p) (ms_vz2 p).
Proof. exact ms_var_integral. Qed.
Print Assumptions C13_variance_is_integral.

Theorem C13_covariance_is_integral : forall p : ms_params R,
  0 < m_kE p -> 0 < m_kF p ->
  is_RInt (fun u =>
    let e := m_sE p * ((1 - exp (- m_kE p * (m_T p - u))) / m_kE p) in
    let f := m_sF p * ((1 - exp (- m_kF p * (m_T p - u))) / m_kF p) in
    m_sF p * ((1 - exp (- m_kF p * (m_t p - u))) / m_kF p) * (m_sS p * m_rSF p + f - m_rEF p * e))
    0 (m_t p) (ms_vxz p).
Proof. exact ms_cov_integral. Qed.
Print Assumptions C13_covariance_is_integral.

(** [corr_psd a b c]: the matrix with unit diagonal and off-diagonal entries a, b, c is positive
    semidefinite. *)
Theorem C13_variance_nonneg : forall p : ms_params R,
  0 <= m_t p -> 0 < m_kE p -> 0 < m_kF p ->
  (forall x y z, 0 <= x ^ 2 + y ^ 2 + z ^ 2 + 2 * m_rSE p * x * y + 2 * m_rSF p * x * z + 2 * m_rEF p * y * z) ->
  0 <= ms_vz2 p.
Proof. exact ms_var_nonneg. Qed.
Print Assumptions C13_variance_nonneg.

Theorem C13_parity_and_bounds : forall p : ms_params R,
  0 < m_Pt p -> 0 < m_FT p -> 0 < m_K p -> 0 < ms_vz2 p ->
  let fwd := m_Pt p * m_FT p * exp (- ms_vxz p) in let strike := m_Pt p * m_K p in
  ms_call p - ms_put p = fwd - strike /\
  Rmax 0 (fwd - strike) < ms_call p < fwd /\ Rmax 0 (strike - fwd) < ms_put p < strike.
Proof. exact ms_parity_bounds. Qed.
Print Assumptions C13_parity_and_bounds.

(** with no convenience-yield and no rate volatility the model is Black76 *)
Theorem C13_reduces_to_black76 : forall Pt FT K t T sS rSE rSF rEF kE kF,
  0 < Pt -> 0 < FT -> 0 < K -> 0 < t -> 0 < sS -> 0 < kE -> 0 < kF ->
  let p := mkMs Pt FT K t T sS 0 0 rSE rSF rEF kE kF in
  gbs_call (Black76Option FT K t (- ln Pt / t) (Some sS)) = Ok (ms_call p) /\
  gbs_put (Black76Option FT K t (- ln Pt / t) (Some sS)) = Ok (ms_put p).
Proof. exact ms_black76. Qed.
Print Assumptions C13_reduces_to_black76.

(** the documentation's example parameters satisfy the hypotheses *)
Example C13_case :
  let p := mkMs 1 95 80 (1/4) (1/2) (266/1000) (249/1000) (96/10000) (805/1000) (805/10000) (1243/10000) (1045/1000) (2/10) in
  0 < m_Pt p /\ 0 < m_FT p /\ 0 < m_K p /\ 0 < m_kE p /\ 0 < m_kF p /\
  (forall x y z, 0 <= x ^ 2 + y ^ 2 + z ^ 2 + 2 * m_rSE p * x * y + 2 * m_rSF p * x * z + 2 * m_rEF p * y * z) /\
  0 < ms_vz2 p.
Proof. exact ms_doc_example. Qed.
