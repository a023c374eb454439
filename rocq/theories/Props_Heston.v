(** Property theorems C50-C54 (Heston-Nandi options and GARCH series). *)
From Coquelicot Require Import Coquelicot.
From Coq Require Import QArith Reals List Arith ZArith Lra Lia.
From Verif Require Import Num Py MBase MAmerican MMonte SMonte PCnd PGauss PMonte MHeston SHeston PHeston PHeston2 PHnPrice PHeston3 PHeston4 PHestonX XHeston.
Import List ListNotations.
Open Scope R_scope.

(* ---------------------------------------------------------------- C50 *)
(** The function integrated for the price is a mean over the GARCH process: started at the stationary variance and run for t days with daily drift r and risk-neutral leverage gamma + lamb + 1/2, it is the mean of P^c sin(phi ln(P/K)) / (phi pi) for the terminal price P *)
Theorem C50_integrand : forall S K (t : Z) r lamb omega alpha beta gamma h c phi,
  let g := gamma + lamb + 1 / 2 in
  0 < S -> 0 < K -> (1 <= t)%Z -> 0 <= omega -> 0 <= alpha -> 0 <= beta -> alpha * g ^ 2 + beta < 1 ->
  0 <= h -> stationary omega alpha beta g h -> 0 <= c <= 1 -> phi <> 0 ->
  exists v, fHN (mkHn S K (DInt t) r (Some lamb) (Some omega) (Some alpha) (Some beta) (Some gamma)) c phi = Ok v /\
    is_expect (Z.to_nat t) (fun zs => let P := hn_price S (-1 / 2) omega alpha beta g r h zs in Rpower P c * sin (phi * ln (P / K)) / (phi * PI)) v.
Proof. exact hn_integrand. Qed.
Print Assumptions C50_integrand.
Example C50_integrand_case := C50_integrand 100 95 30 (1/1000) (1/4) (1/10) (1/10) (1/5) (1/4) (2/7) 1 3
  ltac:(lra) ltac:(lra) ltac:(lia) ltac:(lra) ltac:(lra) ltac:(lra) ltac:(lra) ltac:(lra) st1 ltac:(lra) ltac:(lra).

(** With an integrator that returns the exact value of convergent half-line integrals, call() and put() return the discounted mean payoff of the option under the GARCH process started at its stationary variance *)
Theorem C50_price : forall quad S K (t : Z) r lamb omega alpha beta gamma h,
  let g := gamma + lamb + 1 / 2 in
  0 < S -> 0 < K -> (1 <= t)%Z -> 0 < omega -> 0 <= alpha -> 0 <= beta -> alpha * g ^ 2 + beta < 1 ->
  0 <= h -> stationary omega alpha beta g h -> exact_quad quad ->
  let o := mkHn S K (DInt t) r (Some lamb) (Some omega) (Some alpha) (Some beta) (Some gamma) in
  let P := hn_price S (-1 / 2) omega alpha beta g r h in
  exists c p, is_expect (Z.to_nat t) (fun zs => Rmax (P zs - K) 0) c /\ hn_call quad o = Ok (exp (- r * IZR t) * c) /\
    is_expect (Z.to_nat t) (fun zs => Rmax (K - P zs) 0) p /\ hn_put quad o = Ok (exp (- r * IZR t) * p).
Proof. exact hn_price_thm. Qed.
Print Assumptions C50_price.
Example C50_price_case := C50_price half_line_quad 100 95 30 (1/1000) (1/4) (1/10) (1/10) (1/5) (1/4) (2/7)
  ltac:(lra) ltac:(lra) ltac:(lia) ltac:(lra) ltac:(lra) ltac:(lra) ltac:(lra) ltac:(lra) st1 half_line_exact.

(** With exact integration the prices across strikes are free of arbitrage: they lie between the discounted payoff of the forward and the stock price (call) or discounted strike (put), the call falls with the strike with slope at most the discount factor, and prices are convex in the strike *)
Theorem C50_strikes : forall quad S K K' w (t : Z) r lamb omega alpha beta gamma,
  let g := gamma + lamb + 1 / 2 in
  0 < S -> 0 < K <= K' -> 0 <= w <= 1 -> (1 <= t)%Z -> 0 < omega -> 0 <= alpha -> 0 <= beta -> alpha * g ^ 2 + beta < 1 -> exact_quad quad ->
  let o K := mkHn S K (DInt t) r (Some lamb) (Some omega) (Some alpha) (Some beta) (Some gamma) in
  exists c p c' cw, hn_call quad (o K) = Ok c /\ hn_put quad (o K) = Ok p /\ hn_call quad (o K') = Ok c' /\ hn_call quad (o (w * K + (1 - w) * K')) = Ok cw /\
    Rmax 0 (S - K * exp (- r * IZR t)) <= c <= S /\ Rmax 0 (K * exp (- r * IZR t) - S) <= p <= K * exp (- r * IZR t) /\
    0 <= c - c' <= exp (- r * IZR t) * (K' - K) /\ cw <= w * c + (1 - w) * c'.
Proof. exact hn_strikes. Qed.
Print Assumptions C50_strikes.
Example C50_strikes_case := C50_strikes half_line_quad 100 95 105 (1/3) 30 (1/1000) (1/4) (1/10) (1/10) (1/5) (1/4)
  ltac:(lra) ltac:(lra) ltac:(lra) ltac:(lia) ltac:(lra) ltac:(lra) ltac:(lra) ltac:(lra) half_line_exact.

(** Without volatility clustering (alpha = 0) the exact price is the Black-Scholes price with daily variance omega/(1-beta): the option nests the constant-volatility model *)
Theorem C50_black_scholes : forall quad S K (t : Z) r lamb omega beta gamma, 0 < S -> 0 < K -> (1 <= t)%Z -> 0 < omega -> 0 <= beta < 1 -> exact_quad quad ->
  let s := sqrt (omega / (1 - beta)) in
  let d1 := (ln (S / K) + (r + s ^ 2 / 2) * IZR t) / (s * sqrt (IZR t)) in let d2 := d1 - s * sqrt (IZR t) in
  let o := mkHn S K (DInt t) r (Some lamb) (Some omega) (Some 0) (Some beta) (Some gamma) in
  hn_call quad o = Ok (S * Phi d1 - K * exp (- r * IZR t) * Phi d2) /\
  hn_put quad o = Ok (K * exp (- r * IZR t) * Phi (- d2) - S * Phi (- d1)).
Proof. exact hn_black_scholes. Qed.
Print Assumptions C50_black_scholes.
Example C50_black_scholes_case := C50_black_scholes half_line_quad 100 95 30 (1/1000) (1/4) (1/10) (1/5) (1/4)
  ltac:(lra) ltac:(lra) ltac:(lia) ltac:(lra) ltac:(lra) half_line_exact.

(** Under the process the option is priced with, the discounted price is a martingale: the mean terminal price is S e^(r t) *)
Theorem C50_martingale : forall S r lamb omega alpha beta gamma h (n : nat),
  let g := gamma + lamb + 1 / 2 in
  0 < S -> 0 <= omega -> 0 <= alpha -> 0 <= beta -> 0 <= h ->
  is_expect n (hn_price S (-1 / 2) omega alpha beta g r h) (S * exp (r * INR n)).
Proof. exact hn_martingale. Qed.
Print Assumptions C50_martingale.
Example C50_martingale_case := C50_martingale 100 (1/1000) (1/4) (1/10) (1/10) (1/5) (1/4) (2/7) 30
  ltac:(lra) ltac:(lra) ltac:(lra) ltac:(lra) ltac:(lra).

(** A number of days given as a float, as in the documentation, makes every price and Greek raise TypeError *)
Theorem C50_float_days_refuted : forall quad S K x r lamb omega alpha beta gamma call, extensional quad -> strict quad ->
  let o := mkHn S K (DFloat x) r (Some lamb) (Some omega) (Some alpha) (Some beta) (Some gamma) in
  hn_call quad o = Err TypeError /\ hn_put quad o = Err TypeError /\ hn_delta quad call o = Err TypeError /\ hn_gamma quad o = Err TypeError.
Proof. exact hn_float_days. Qed.
Print Assumptions C50_float_days_refuted.
Example C50_float_days_refuted_case := C50_float_days_refuted twopt 100 95 (63/2) (1/1000) (1/4) (1/10) (1/10) (1/5) (1/4) true twopt_ext twopt_strict.

(** An option created without its parameters (the defaults are None) raises TypeError from every price and Greek *)
Theorem C50_missing : forall quad (o : hn R) call, extensional quad -> strict quad ->
  h_lamb o = None \/ h_omega o = None \/ h_alpha o = None \/ h_beta o = None \/ h_gamma o = None ->
  hn_call quad o = Err TypeError /\ hn_put quad o = Err TypeError /\ hn_delta quad call o = Err TypeError /\ hn_gamma quad o = Err TypeError.
Proof. exact hn_missing. Qed.
Print Assumptions C50_missing.
Example C50_missing_case := C50_missing twopt (mkHn 100 95 (DInt 30) (1/1000) (Some (1/4)) None (Some (1/10)) (Some (1/5)) (Some (1/4))) true
  twopt_ext twopt_strict (or_intror (or_introl eq_refl)).


(* ---------------------------------------------------------------- C51 *)
(** Call minus put is S - K e^(-r t) and the deltas differ by one, whatever the integrator returns; a put has a price exactly when the call has *)
Theorem C51_parity : forall quad (o : hn R) (t : Z), h_t o = DInt t ->
  (forall e, hn_call quad o = Err e <-> hn_put quad o = Err e) /\
  (forall c p, hn_call quad o = Ok c -> hn_put quad o = Ok p -> c - p = h_S o - h_K o * exp (- h_r o * IZR t)) /\
  (forall d d', hn_delta quad true o = Ok d -> hn_delta quad false o = Ok d' -> d - d' = 1).
Proof. exact hn_parity. Qed.
Print Assumptions C51_parity.
Example C51_parity_case := C51_parity twopt (mkHn 100 95 (DInt 30) (1/1000) (Some (1/4)) (Some (1/10)) (Some (1/10)) (Some (1/5)) (Some (1/4))) 30 eq_refl.

(** With any fixed quadrature rule (nodes off zero) delta is the derivative of the price with respect to S and gamma the derivative of delta *)
Theorem C51_greeks : forall nodes K (t : Z) r lamb omega alpha beta gamma, Forall (fun p => snd p <> 0) nodes ->
  let o S := mkHn S K (DInt t) r (Some lamb) (Some omega) (Some alpha) (Some beta) (Some gamma) in
  exists price delta gamma' : R -> R,
    (forall S, 0 < S -> hn_call (rule nodes) (o S) = Ok (price S) /\ hn_delta (rule nodes) true (o S) = Ok (delta S) /\ hn_gamma (rule nodes) (o S) = Ok (gamma' S)) /\
    forall S, 0 < S -> is_derive price S (delta S) /\ is_derive delta S (gamma' S).
Proof. exact hn_greeks. Qed.
Print Assumptions C51_greeks.
Example C51_greeks_case := C51_greeks [(1, 1); (1/2, 2)] 95 30 (1/1000) (1/4) (1/10) (1/10) (1/5) (1/4) twopt_nodes.

(** Scaling the stock price and the strike scales the prices and leaves delta as it is, for every integrator that is linear and does not look at the integrand at 0 *)
Theorem C51_homogeneous : forall quad S K a (t : Z) r lamb omega alpha beta gamma call,
  (forall f g : R -> res R, (forall x, x <> 0 -> f x = g x) -> quad f = quad g) -> scales quad -> 0 < S -> 0 < K -> 0 < a ->
  let o S K := mkHn S K (DInt t) r (Some lamb) (Some omega) (Some alpha) (Some beta) (Some gamma) in
  hn_call quad (o (a * S) (a * K)) = rmap (Rmult a) (hn_call quad (o S K)) /\
  hn_put quad (o (a * S) (a * K)) = rmap (Rmult a) (hn_put quad (o S K)) /\
  hn_delta quad call (o (a * S) (a * K)) = hn_delta quad call (o S K).
Proof. exact hn_homogeneous. Qed.
Print Assumptions C51_homogeneous.
Example C51_homogeneous_case := C51_homogeneous twopt 100 95 3 30 (1/1000) (1/4) (1/10) (1/10) (1/5) (1/4) false twopt_off0 twopt_scales
  ltac:(lra) ltac:(lra) ltac:(lra).


(* ---------------------------------------------------------------- C52 *)
(** The variance every series starts from is the only one equal to its own expected successor *)
Theorem C52_stationary : forall omega alpha beta gamma, 0 < omega -> 0 <= alpha -> 0 <= beta -> alpha * gamma ^ 2 + beta < 1 ->
  exists h, 0 < h /\ stationary omega alpha beta gamma h /\ (forall h', 0 <= h' -> stationary omega alpha beta gamma h' -> h' = h) /\
  forall normal lamb rf z, hngarch_sim normal lamb (Some omega) (Some alpha) beta gamma rf 1 0 (Some [z]) None = Ok [rf + lamb * h + sqrt h * z].
Proof. exact garch_stationary. Qed.
Print Assumptions C52_stationary.
Example C52_stationary_case := C52_stationary (1/10) (1/10) (1/5) (1/2) ltac:(lra) ltac:(lra) ltac:(lra) ltac:(lra).

(** A simulated series is the return series of the Heston-Nandi process driven by the innovations, started at the stationary variance, with the burn-in dropped: the given innovations are used after the given or sampled burn-in innovations *)
Theorem C52_simulation : forall normal lamb omega alpha beta gamma rf h n n_start inno inno_start,
  0 < omega -> 0 <= alpha -> 0 <= beta -> alpha * gamma ^ 2 + beta < 1 -> 0 <= h -> stationary omega alpha beta gamma h ->
  (1 <= n + n_start)%nat ->
  let zs := match inno with Some z => z | None => normal 0%nat n end in
  let start := match inno_start with Some s => s | None => if Nat.ltb 0 n_start then normal 1%nat n_start else [] end in
  length zs = n -> length start = n_start ->
  hngarch_sim normal lamb (Some omega) (Some alpha) beta gamma rf n n_start inno inno_start =
    Ok (skipn n_start (hn_returns lamb omega alpha beta gamma rf h (start ++ zs))).
Proof. exact garch_sim. Qed.
Print Assumptions C52_simulation.
Example C52_simulation_case := C52_simulation (fun i n => repeat (INR i) n) 1 (1/10) (1/10) (1/5) (1/2) (1/20) (8/31) 2 1 (Some [1; -1]) None
  ltac:(lra) ltac:(lra) ltac:(lra) ltac:(lra) ltac:(lra) st2 ltac:(lia) eq_refl eq_refl.

(** Evaluating the likelihood of a simulated series at the parameters it was simulated with returns exactly the innovations and the variances of the simulation, and minus their log likelihood *)
Theorem C52_round_trip : forall normal lamb omega alpha beta gamma rf h zs symmetric,
  0 < omega < 1 -> 0 < alpha < 1 -> 0 < beta < 1 -> alpha * gamma ^ 2 + beta < 1 -> zs <> [] ->
  0 <= h -> stationary omega alpha beta gamma h ->
  let hs := hn_variances omega alpha beta gamma h zs in
  exists x, hngarch_sim normal lamb (Some omega) (Some alpha) beta gamma rf (length zs) 0 (Some zs) None = Ok x /\
    llhHNGarch [lamb; to_line omega; to_line alpha; to_line beta; gamma] symmetric rf x = Ok (mkFit (- log_likelihood hs zs) zs hs).
Proof. exact garch_round_trip. Qed.
Print Assumptions C52_round_trip.
Example C52_round_trip_case := C52_round_trip (fun _ n => repeat 0 n) 1 (1/10) (1/10) (1/5) (1/2) (1/20) (8/31) [1; -1; 1/2] true
  ltac:(lra) ltac:(lra) ltac:(lra) ltac:(lra) ltac:(discriminate) ltac:(lra) st2.

(** Given more innovations than n the series has the wrong length: the surplus innovations are returned as if they were returns *)
Theorem C52_long_refuted : forall normal lamb omega alpha beta gamma rf zs z more, 
  0 < omega -> 0 <= alpha -> 0 <= beta -> alpha * gamma ^ 2 + beta < 1 ->
  exists x, length x = length (z :: zs) /\
    hngarch_sim normal lamb (Some omega) (Some alpha) beta gamma rf (length (z :: zs)) 0 (Some (z :: zs ++ more)%list) None = Ok (x ++ more)%list.
Proof. exact garch_long. Qed.
Print Assumptions C52_long_refuted.
Example C52_long_refuted_case := C52_long_refuted (fun _ n => repeat 0 n) 1 (1/10) (1/10) (1/5) (1/2) (1/20) [1; -1] 2 [1/2; 3] ltac:(lra) ltac:(lra) ltac:(lra) ltac:(lra).

(** Given fewer innovations than n the simulation raises IndexError; without omega or alpha (the default) it raises TypeError *)
Theorem C52_short : forall normal lamb omega alpha beta gamma rf n zs, (length zs < n)%nat ->
  hngarch_sim normal lamb (Some omega) (Some alpha) beta gamma rf n 0 (Some zs) None = (Err IndexError : res (list R)) /\
  (forall inno start k, hngarch_sim normal lamb None (Some alpha) beta gamma rf n k inno start = (Err TypeError : res (list R)) /\
     hngarch_sim normal lamb (Some omega) None beta gamma rf n k inno start = (Err TypeError : res (list R))).
Proof. exact garch_short. Qed.
Print Assumptions C52_short.
Example C52_short_case := C52_short (fun _ n => repeat 0 n) 1 (1/10) (1/10) (1/5) (1/2) (1/20) 3 [1; -1] ltac:(cbn; lia).


(* ---------------------------------------------------------------- C53 *)
(** symmetric=True does not switch the leverage parameter off: the likelihood is the same as with symmetric=False, and the variances still depend on gamma *)
Theorem C53_symmetric_refuted : forall (x : list R) rf,
  (forall x0, llhHNGarch x0 true rf x = llhHNGarch x0 false rf x) /\
  (x <> [] -> forall lamb e1 e2 e3 gamma gamma', gamma ^ 2 <> gamma' ^ 2 ->
     to_unit e2 * gamma ^ 2 + to_unit e3 < 1 -> to_unit e2 * gamma' ^ 2 + to_unit e3 < 1 ->
     exists fit fit', llhHNGarch [lamb; e1; e2; e3; gamma] true rf x = Ok fit /\ llhHNGarch [lamb; e1; e2; e3; gamma'] true rf x = Ok fit' /\ f_h fit <> f_h fit').
Proof. exact garch_symmetric. Qed.
Print Assumptions C53_symmetric_refuted.
Example C53_symmetric_refuted_case := proj2 (C53_symmetric_refuted [1/10; -(1/5)] (1/20)) ltac:(discriminate) 1 0 0 0 (1/2) (1/4)
  ltac:(lra) ltac:(rewrite unit0; lra) ltac:(rewrite unit0; lra).

(** A fit with symmetric=False is consistent with itself: omega, alpha, beta lie between 0 and 1 and, when the reported persistence is below 1, the reported sigma2 is the stationary variance, and the reported innovations and variances are those of the process that produces the data under the reported parameters *)
Theorem C53_fit : forall minimize x lamb omega alpha beta gamma rf fit, hngarch_fit minimize x lamb omega alpha beta gamma rf false = Ok fit ->
  0 < g_omega fit < 1 /\ 0 < g_alpha fit < 1 /\ 0 < g_beta fit < 1 /\ g_persistence fit = g_beta fit + g_alpha fit * g_gamma fit ^ 2 /\
  (g_persistence fit < 1 ->
   stationary (g_omega fit) (g_alpha fit) (g_beta fit) (g_gamma fit) (g_sigma2 fit) /\ 0 < g_sigma2 fit /\
   hn_returns (g_lamb fit) (g_omega fit) (g_alpha fit) (g_beta fit) (g_gamma fit) (g_rf fit) (g_sigma2 fit) (g_z fit) = x /\
   g_h fit = hn_variances (g_omega fit) (g_alpha fit) (g_beta fit) (g_gamma fit) (g_sigma2 fit) (g_z fit)).
Proof. exact garch_fit_ok. Qed.
Print Assumptions C53_fit.
Example C53_fit_case := C53_fit at_point [1/10; -(1/5)] 1 None None (1/5) (1/2) (1/20) _ eq_refl.

(** A fit with symmetric=True reports gamma = 0 and the matching sigma2 while the variances it returns are those of the gamma found by the minimiser: they do not start at the reported sigma2 *)
Theorem C53_fit_symmetric_refuted : forall x lamb omega alpha beta gamma rf e0 e1 e2 e3 e4 fn fit, e4 <> 0 -> to_unit e2 * e4 ^ 2 + to_unit e3 < 1 ->
  hngarch_fit (fun _ _ => Ok ([e0; e1; e2; e3; e4], fn)) x lamb omega alpha beta gamma rf true = Ok fit ->
  g_gamma fit = 0 /\ exists h hs, g_h fit = h :: hs /\ stationary (to_unit e1) (to_unit e2) (to_unit e3) e4 h /\ g_sigma2 fit < h.
Proof. exact garch_fit_symmetric. Qed.
Print Assumptions C53_fit_symmetric_refuted.
Example C53_fit_symmetric_refuted_case := C53_fit_symmetric_refuted [1/10; -(1/5)] 1 None None (1/5) (1/2) (1/20) (1/5) 0 0 0 (1/2) 7 _
  ltac:(lra) ltac:(rewrite unit0; lra) eq_refl.

(** The reported "minimum" is not the log likelihood at the estimate: it is larger by n sqrt(2 pi), for every minimiser that reports the value of the objective at the point it returns *)
Theorem C53_minimum_refuted : forall minimize x lamb omega alpha beta gamma rf fit,
  (forall f s est fn, minimize f s = Ok (est, fn) -> f est = Ok fn) ->
  hngarch_fit minimize x lamb omega alpha beta gamma rf false = Ok fit -> g_persistence fit < 1 ->
  g_minimum fit = log_likelihood (g_h fit) (g_z fit) + INR (length x) * sqrt (2 * PI) /\ log_likelihood (g_h fit) (g_z fit) < g_minimum fit.
Proof. exact garch_minimum. Qed.
Print Assumptions C53_minimum_refuted.
Example C53_minimum_refuted_case := C53_minimum_refuted at_point [1/10; -(1/5)] 1 None None (1/5) (1/2) (1/20) _ at_point_ok eq_refl (fit_persistence _ eq_refl).


(* ---------------------------------------------------------------- C54 *)
(** The first value a fit reports is minus the log likelihood at the given start parameters: the transformation to the unit interval is undone exactly *)
Theorem C54_start : forall minimize x lamb omega alpha beta gamma rf symmetric fit h,
  hngarch_fit minimize x lamb (Some omega) (Some alpha) beta gamma rf symmetric = Ok fit ->
  0 < omega < 1 -> 0 < alpha < 1 -> 0 < beta < 1 -> alpha * gamma ^ 2 + beta < 1 -> 0 <= h -> stationary omega alpha beta gamma h ->
  exists zs, hn_returns lamb omega alpha beta gamma rf h zs = x /\ g_value fit = - log_likelihood (hn_variances omega alpha beta gamma h zs) zs.
Proof. exact garch_start. Qed.
Print Assumptions C54_start.
Example C54_start_case := C54_start at_point [1/10; -(1/5)] 1 (1/10) (1/10) (1/5) (1/2) (1/20) true _ (8/31) eq_refl
  ltac:(lra) ltac:(lra) ltac:(lra) ltac:(lra) ltac:(lra) st2.

(** Without omega and alpha the fit starts from the variance of the series and a tenth of it *)
Theorem C54_defaults : forall minimize x lamb beta gamma rf symmetric, x <> [] ->
  hngarch_fit minimize x lamb None None beta gamma rf symmetric = hngarch_fit minimize x lamb (Some (variance x)) (Some (variance x / 10)) beta gamma rf symmetric.
Proof. exact garch_defaults. Qed.
Print Assumptions C54_defaults.
Example C54_defaults_case := C54_defaults at_point [1/10; -(1/5)] 1 (1/5) (1/2) (1/20) false ltac:(discriminate).

(** Where alpha gamma^2 + beta exceeds 1 the filter starts from a negative variance and the likelihood handed to the minimiser is nan, whatever the series *)
Theorem C54_nan : forall (x : list X) lamb e1 e2 e3 gamma rf symmetric fit,
  1 < to_unit e2 * gamma ^ 2 + to_unit e3 ->
  llhHNGarch [Fin lamb; Fin e1; Fin e2; Fin e3; Fin gamma] symmetric rf x = Ok fit ->
  f_llh fit = NaN /\ exists h z hs zs, f_h fit = Fin h :: hs /\ f_z fit = z :: zs /\ h < 0 /\ z = NaN.
Proof. exact garch_nan. Qed.
Print Assumptions C54_nan.
Example C54_nan_case := C54_nan [Fin (1/10); Fin (-(1/5))] 1 0 0 0 2 (Fin (1/20)) false _ ltac:(rewrite unit0; lra) eq_refl.

