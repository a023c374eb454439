(** Property theorems C42-C44 (American approximations), C55, C73 (bivariate normal), C56 (degenerate inputs). *)
From Coquelicot Require Import Coquelicot.
From Coq Require Import Reals String List Arith ZArith Lra Lia.
From Verif Require Import Num Py MBase MVanilla MAmerican SAmerican SAmerican2 SHeston PGauss PCbnd PRgw PRgw2 PBaw PBaw2 PBaw3 PBaw4 PBs PDegen XAmerican XBaw PBvn3 PBvn4 PRgw3 PBs6 PBaw5 PRgw4 XBvn.
Import ListNotations.
Open Scope R_scope.


(* ---------------------------------------------------------------- C42 *)
(** is_call_optimal() is True exactly when there is a stock price just before the dividend at which exercising (x + D - K) beats holding the Black-Scholes call that remains after the dividend. *)
Theorem C42_optimal_iff : forall S K t td r D s : R, 0 < K -> td < t -> 0 < s ->
  (rgw_is_call_optimal (mkRgw S K t td r D (Some s)) = true <->
   exists x c, 0 < x /\ gbs_call (GBSOption x K (t - td) r r (Some s)) = Ok c /\ c < x + D - K).
Proof. exact rgw_optimal_iff. Qed.
Print Assumptions C42_optimal_iff.
Example C42_optimal_iff_case := C42_optimal_iff 80 82 (1/3) (1/4) (6/100) 4 (30/100) ltac:(lra) ltac:(lra) ltac:(lra).

(** When is_call_optimal() is False the price is the Black-Scholes call on the stock price less the present value of the dividend. *)
Theorem C42_not_optimal : forall (T : Type) (N : Num T) f1 f2 (S K t td r D : T) (s : option T),
  rgw_is_call_optimal (mkRgw S K t td r D s) = false ->
  rgw_call f1 f2 (mkRgw S K t td r D s) = gbs_call (GBSOption (S - D * expn (- r * td))%num K t r r s).
Proof. exact rgw_not_optimal. Qed.
Print Assumptions C42_not_optimal.
Example C42_not_optimal_case := C42_not_optimal R RNum 100 100 80 82 (1/3) (1/4) (6/100) 0 (Some (30/100)).
Example C42_not_optimal_case' : rgw_is_call_optimal (mkRgw 80 82 (1/3) (1/4) (6/100) 0 (Some (30/100))) = false := rgw_case_never.

(** When early exercise may be optimal both search loops terminate, and: either the search gives up with ValueError, which happens only if the stock price is above 1e8 or holding is still better than exercising at some price between 0.5e8 and 1e8; or it ends with a bracket L < H (holding is at least as good at L unless L = 0, exercising at least as good at H unless H = 1e8) of length at most 1e-5 or with holding and exercising within 1e-5 of each other at its midpoint, and the price is the Roll-Geske-Whaley formula with that midpoint as critical price. *)
Theorem C42_search : forall S K t td r D s : R, 0 < S -> 0 < K -> td < t -> 0 < s ->
  rgw_is_call_optimal (mkRgw S K t td r D (Some s)) = true ->
  exists n,
  ((10 ^ 8 < S \/ exists x d, 10 ^ 8 / 2 < x < 10 ^ 8 /\ holding_gain K t td r D s x d /\ 0 < d) /\
   forall f1 f2, (n <= f1)%nat -> (n <= f2)%nat -> rgw_call f1 f2 (mkRgw S K t td r D (Some s)) = Err ValueError) \/
  (exists L H, 0 <= L < H /\
   (L = 0 \/ exists d, holding_gain K t td r D s L d /\ 0 <= d) /\
   (H = 10 ^ 8 \/ exists d, holding_gain K t td r D s H d /\ d <= 0) /\
   (H - L <= / 10 ^ 5 \/ exists d, holding_gain K t td r D s ((H + L) / 2) d /\ Rabs d <= / 10 ^ 5) /\
   forall f1 f2, (n <= f1)%nat -> (n <= f2)%nat ->
     rgw_call f1 f2 (mkRgw S K t td r D (Some s)) =
     Ok (rgw_price cnd bivariate (S - D * exp (- r * td)) K t td r D s ((H + L) / 2))).
Proof. exact rgw_search_thm. Qed.
Print Assumptions C42_search.
Example C42_search_case := C42_search 80 82 (1/3) (1/4) (6/100) 4 (30/100) ltac:(lra) ltac:(lra) ltac:(lra) ltac:(lra) rgw_case_optimal.

(** Finding: if the dividend exceeds the strike by more than 1e-5 there is no critical price (exercising is better at every price), yet the search does not report it: it converges to a price of at most 1e-5 and the formula is evaluated there. *)
Theorem C42_large_dividend : forall S K t td r D s : R, 0 < S -> S <= 10 ^ 8 -> 0 < K -> td < t -> 0 < s -> K + / 10 ^ 5 <= D ->
  (forall x d, 0 < x -> holding_gain K t td r D s x d -> d < - / 10 ^ 5) /\
  exists n Ic, 0 < Ic <= / 10 ^ 5 /\ forall f1 f2, (n <= f1)%nat -> (n <= f2)%nat ->
    rgw_call f1 f2 (mkRgw S K t td r D (Some s)) =
    Ok (rgw_price cnd bivariate (S - D * exp (- r * td)) K t td r D s Ic).
Proof. exact rgw_large_dividend. Qed.
Print Assumptions C42_large_dividend.
Example C42_large_dividend_case := C42_large_dividend 80 82 (1/3) (1/4) (6/100) 83 (30/100)
  ltac:(lra) ltac:(lra) ltac:(lra) ltac:(lra) ltac:(lra) ltac:(lra).

(** With the exact univariate and bivariate normal distribution functions the Roll-Geske-Whaley formula is right: for every critical price Ic it is the discounted mean, over the lognormal stock price just before the dividend, of the value of exercising above Ic and keeping a Black-Scholes call below. *)
Theorem C42_formula : forall M x K t td r D s Ic, bivariate_normal M -> 0 < x -> 0 < K -> 0 < td < t -> 0 < s -> 0 < Ic ->
  is_mean (fun z => let X := stock_after x r s td z in if Rlt_dec Ic X then X + D - K else black_call X K (t - td) r s)
    (exp (r * td) * rgw_price Phi M x K t td r D s Ic).
Proof. exact rgw_formula_mean. Qed.
Print Assumptions C42_formula.
Example C42_formula_case := C42_formula bvn 80 82 (1/3) (1/4) (6/100) 4 (30/100) 80 bvn_ok ltac:(lra) ltac:(lra) ltac:(lra) ltac:(lra) ltac:(lra).

(** At the critical price, where holding and exercising are worth the same, the formula is the value of the American call on a stock with one dividend: the discounted mean of the better of exercising and holding. No other critical price gives more. *)
Theorem C42_american_value : forall M x K t td r D s Ic, bivariate_normal M -> 0 < x -> 0 < K -> 0 < td < t -> 0 < s -> 0 < Ic -> black_call Ic K (t - td) r s = Ic + D - K ->
  is_mean (fun z => let X := stock_after x r s td z in Rmax (X + D - K) (black_call X K (t - td) r s)) (exp (r * td) * rgw_price Phi M x K t td r D s Ic) /\
  forall I', 0 < I' -> rgw_price Phi M x K t td r D s I' <= rgw_price Phi M x K t td r D s Ic.
Proof. exact rgw_american. Qed.
Print Assumptions C42_american_value.
(** a dividend for which 100 is the critical price *)
Example C42_american_value_case := C42_american_value bvn 90 100 (1/3) (1/4) (6/100) (black_call 100 100 (1/3 - 1/4) (6/100) (30/100)) (30/100) 100
  bvn_ok ltac:(lra) ltac:(lra) ltac:(lra) ltac:(lra) ltac:(lra) ltac:(ring).

(** A critical price found only approximately costs no more than its error: if holding and exercising differ by at most eps at Ic, then the formula at Ic is below the value of the American call by at most the discounted eps, and never above it. *)
Theorem C42_near_critical : forall M x K t td r D s Ic eps V, bivariate_normal M -> 0 < x -> 0 < K -> 0 < td < t -> 0 < s -> 0 < Ic ->
  Rabs (black_call Ic K (t - td) r s - (Ic + D - K)) <= eps ->
  is_mean (fun z => let X := stock_after x r s td z in Rmax (X + D - K) (black_call X K (t - td) r s)) V ->
  exp (- r * td) * V - exp (- r * td) * eps <= rgw_price Phi M x K t td r D s Ic <= exp (- r * td) * V.
Proof. exact rgw_near. Qed.
Print Assumptions C42_near_critical.
Example C42_near_critical_case := C42_near_critical bvn 90 100 (1/3) (1/4) (6/100) (black_call 100 100 (1/3 - 1/4) (6/100) (30/100)) (30/100) 101 _ _
  bvn_ok ltac:(lra) ltac:(lra) ltac:(lra) ltac:(lra) ltac:(lra) (Rle_refl _) (proj1 C42_american_value_case).

(** With exact distribution functions the Roll-Geske-Whaley price at the critical price is at least the European call on the stock net of the dividend, at least what is made by always exercising just before the dividend, and, when the dividend does not exceed the strike, at most the stock price net of the dividend. *)
Theorem C42_bounds : forall M x K t td r D s Ic, bivariate_normal M -> 0 < x -> 0 < K -> 0 < td < t -> 0 < s -> 0 < Ic -> black_call Ic K (t - td) r s = Ic + D - K ->
  let p := rgw_price Phi M x K t td r D s Ic in
  black_call x K t r s <= p /\ x + (D - K) * exp (- r * td) <= p /\ (D <= K -> p <= x).
Proof. exact rgw_bounds. Qed.
Print Assumptions C42_bounds.
(** the option of C42_american_value *)
Example C42_bounds_case := C42_bounds bvn 90 100 (1/3) (1/4) (6/100) (black_call 100 100 (1/3 - 1/4) (6/100) (30/100)) (30/100) 100
  bvn_ok ltac:(lra) ltac:(lra) ltac:(lra) ltac:(lra) ltac:(lra) ltac:(ring).

(** Roll-Geske-Whaley under a change of the unit of money, spot, strike and dividend multiplied by c > 0: is_call_optimal() stays the same, and when it is False the price is multiplied by c. Finding: when it is True and c S exceeds 1e8, call() raises ValueError: every such option has a unit in which it has no price. *)
Theorem C42_unit : forall (S K t td r D s c : R), 0 < K -> 0 < c ->
  let o := mkRgw S K t td r D (Some s) in let o' := mkRgw (c * S) (c * K) t td r (c * D) (Some s) in
  rgw_is_call_optimal o' = rgw_is_call_optimal o /\
  (rgw_is_call_optimal o = false -> exists v, forall f1 f2, rgw_call f1 f2 o = Ok v /\ rgw_call f1 f2 o' = Ok (c * v)) /\
  (rgw_is_call_optimal o = true -> 10 ^ 8 < c * S -> forall f1 f2, rgw_call f1 f2 o' = Err ValueError).
Proof. exact rgw_unit. Qed.
Print Assumptions C42_unit.
(** the option of C42_search quoted in a currency unit 10^7 times smaller *)
Example C42_unit_case : forall f1 f2, rgw_call f1 f2 (mkRgw (10 ^ 7 * 80) (10 ^ 7 * 82) (1/3) (1/4) (6/100) (10 ^ 7 * 4) (Some (30/100))) = Err ValueError :=
  proj2 (proj2 (C42_unit 80 82 (1/3) (1/4) (6/100) 4 (30/100) (10 ^ 7) ltac:(lra) ltac:(lra))) rgw_case_optimal ltac:(lra).


(* ---------------------------------------------------------------- C43 *)
(** BAW call: with a cost of carry of at least the interest rate it is the Black-Scholes call. *)
Theorem C43_carry : forall (T : Type) (N : Num T) fuel (S K t r b : T) (s : option T),
  leb r b = true -> baw_call fuel (mkAmer S K t r b s) = gbs_call (GBSOption S K t r b s).
Proof. exact baw_carry_call. Qed.
Print Assumptions C43_carry.
Example C43_carry_case := C43_carry R RNum 100 42 40 (3/4) (4/100) (4/100) (Some (35/100)) (proj2 (Rleb_true (4/100) (4/100)) ltac:(lra)).

(** BAW call below the carry boundary: whatever the iteration budget, either the search does not converge (for any spot), or there are one critical price Sk, exponent q and premium A, the same for every spot, such that the price is the Black-Scholes call plus A (S/Sk)^q below Sk and exactly S - K from Sk on; q is the root above 1 of the quadratic, and for a positive Sk the premium is positive, the two pieces meet within 1e-6 K (value matching) and have the same slope 1 (smooth pasting: the Black-Scholes delta plus q A / Sk). *)
Theorem C43_call_value : forall (K t r b s : R) (fuel : nat), 0 < K -> 0 < t -> 0 < s -> r <> 0 -> b < r ->
  (forall S, 0 < S -> baw_call fuel (mkAmer S K t r b (Some s)) = Err NoConvergence) \/
  exists Sk q A, 1 < q /\ baw_exponent t r b s q /\
    (0 < Sk -> 0 < A /\ exists c d, gbs_call (GBSOption Sk K t r b (Some s)) = Ok c /\ gbs_delta true (GBSOption Sk K t r b (Some s)) = Ok d /\
       Rabs ((Sk - K) - (c + A)) <= / 10 ^ 6 * K /\ d + q * A / Sk = 1) /\
    forall S, 0 < S -> exists c, gbs_call (GBSOption S K t r b (Some s)) = Ok c /\
      (S < Sk -> baw_call fuel (mkAmer S K t r b (Some s)) = Ok (c + A * Rpower (S / Sk) q)) /\
      (Sk <= S -> baw_call fuel (mkAmer S K t r b (Some s)) = Ok (S - K)).
Proof. exact baw_call_thm. Qed.
Print Assumptions C43_call_value.
Example C43_call_value_case := C43_call_value 100 1000 (1/10) 0 (1/5) 0 ltac:(lra) ltac:(lra) ltac:(lra) ltac:(lra) ltac:(lra).
(** and in this case the search does converge *)
Example C43_call_value_case' := baw_call_converges.

(** Hence, whenever a BAW call has a price, that price is either exactly S - K or strictly above the Black-Scholes call. *)
Theorem C43_call_early_exercise : forall (S K t r b s c v : R) (fuel : nat), 0 < S -> 0 < K -> 0 < t -> 0 < s -> r <> 0 -> b < r ->
  baw_call fuel (mkAmer S K t r b (Some s)) = Ok v -> gbs_call (GBSOption S K t r b (Some s)) = Ok c -> v = S - K \/ c < v.
Proof. exact baw_call_ge. Qed.
Print Assumptions C43_call_early_exercise.
Example C43_call_early_exercise_case (c v : R) := C43_call_early_exercise 100 100 1000 (1/10) 0 (1/5) c v 0
  ltac:(lra) ltac:(lra) ltac:(lra) ltac:(lra) ltac:(lra) ltac:(lra).

(** BAW put: either the search does not converge (for any spot), or there are one critical price Sk, exponent q and premium A, the same for every spot, such that the price is the Black-Scholes put plus A (S/Sk)^q above Sk and exactly K - S up to Sk; q is the negative root of the quadratic, and for a positive Sk the pieces meet within 1e-6 K, have the same slope -1, and the premium is positive if b <= r. *)
Theorem C43_put_value : forall (K t r b s : R) (fuel : nat), 0 < K -> 0 < t -> 0 < s -> r <> 0 ->
  (forall S, 0 < S -> baw_put fuel (mkAmer S K t r b (Some s)) = Err NoConvergence) \/
  exists Sk q A, q < 0 /\ baw_exponent t r b s q /\
    (0 < Sk -> (b <= r -> 0 < A) /\ exists p d, gbs_put (GBSOption Sk K t r b (Some s)) = Ok p /\ gbs_delta false (GBSOption Sk K t r b (Some s)) = Ok d /\
       Rabs ((K - Sk) - (p + A)) <= / 10 ^ 6 * K /\ d + q * A / Sk = - 1) /\
    forall S, 0 < S -> exists p, gbs_put (GBSOption S K t r b (Some s)) = Ok p /\
      (Sk < S -> baw_put fuel (mkAmer S K t r b (Some s)) = Ok (p + A * Rpower (S / Sk) q)) /\
      (S <= Sk -> baw_put fuel (mkAmer S K t r b (Some s)) = Ok (K - S)).
Proof. exact baw_put_thm. Qed.
Print Assumptions C43_put_value.
Example C43_put_value_case := C43_put_value 100 (1/2) (1/10) 0 (25/100) 100 ltac:(lra) ltac:(lra) ltac:(lra) ltac:(lra).

(** Finding: with a strongly negative cost of carry every call is priced S - K, a negative number out of the money, whatever the iteration budget. With q > 1 the root of sigma^2/2 q (q - 1) + b q = r, it happens as soon as -(b t + 2 sigma sqrt t) (q - 1) > ln q, and so always when -b t >= 1 + 2 sigma sqrt t: the seed of the search is then negative, its logarithm is nan, and the comparison with nan ends the search at the seed. *)
Theorem C43_negative_refuted : forall (S K t r b s q : R) (fuel : nat), 0 < S -> 0 < K -> 0 < t -> 0 < s -> 0 < r ->
  1 < q -> s ^ 2 / 2 * q * (q - 1) + b * q = r ->
  ln q < - (b * t + 2 * s * sqrt t) * (q - 1) \/ 1 <= - (b * t + 2 * s * sqrt t) ->
  baw_call fuel (mkAmer (Fin S) (Fin K) (Fin t) (Fin r) (Fin b) (Some (Fin s))) = Ok (Fin (S - K)) /\
  exists c, gbs_call (GBSOption S K t r b (Some s)) = Ok c /\ 0 < c /\ (S <= K -> S - K < c).
Proof. exact baw_negative. Qed.
Print Assumptions C43_negative_refuted.
(** an out-of-the-money call on 100 struck at 110 over 4 years costs minus 10 *)
Example C43_negative_refuted_case (fuel : nat) := C43_negative_refuted 100 110 4 (203/10000) (- (1/10)) (1/20) (406/5) fuel
  ltac:(lra) ltac:(lra) ltac:(lra) ltac:(lra) ltac:(lra) ltac:(lra) ltac:(lra) (or_introl baw_case_neg).

(** With a positive interest rate, b < r and b t + 2 sigma sqrt t >= 0 (compare C43_negative_refuted), a BAW call is worth at least S - K, at least the Black-Scholes call, and at most S, for every spot and iteration budget for which the search ends; up to 1e-6 K and the error of the distribution function. *)
Theorem C43_call_dominates : forall (K t r b s : R) (fuel : nat), 0 < K -> 0 < t -> 0 < s -> 0 < r -> b < r -> 0 <= b * t + 2 * s * sqrt t ->
  (forall S, 0 < S -> baw_call fuel (mkAmer S K t r b (Some s)) = Err NoConvergence) \/
  exists Sk, 0 < Sk /\ forall S, 0 < S -> exists v c,
    baw_call fuel (mkAmer S K t r b (Some s)) = Ok v /\ gbs_call (GBSOption S K t r b (Some s)) = Ok c /\
    (S < Sk -> c < v) /\ (Sk <= S -> v = S - K) /\
    let err := / 10 ^ 6 * K + 15 / 10 ^ 8 * (Rmax S Sk * exp ((b - r) * t) + K * exp (- r * t)) in
    S - K - err <= v /\ c - err <= v /\ v <= S + err.
Proof. exact baw_call_dominates. Qed.
Print Assumptions C43_call_dominates.
Example C43_call_dominates_case := C43_call_dominates 100 1000 (1/10) 0 (1/5) 0
  ltac:(lra) ltac:(lra) ltac:(lra) ltac:(lra) ltac:(lra) baw_case_dom.

(** With a positive interest rate and b <= r a BAW put is worth at least K - S, at least the Black-Scholes put, and at most K, for every spot and iteration budget for which the search ends; up to 1e-6 K and the error of the distribution function. *)
Theorem C43_put_dominates : forall (K t r b s : R) (fuel : nat), 0 < K -> 0 < t -> 0 < s -> 0 < r -> b <= r ->
  (forall S, 0 < S -> baw_put fuel (mkAmer S K t r b (Some s)) = Err NoConvergence) \/
  exists Sk, 0 < Sk /\ forall S, 0 < S -> exists v p,
    baw_put fuel (mkAmer S K t r b (Some s)) = Ok v /\ gbs_put (GBSOption S K t r b (Some s)) = Ok p /\
    (Sk < S -> p < v) /\ (S <= Sk -> v = K - S) /\
    let err := / 10 ^ 6 * K + 15 / 10 ^ 8 * (Rmax S Sk * exp ((b - r) * t) + K * exp (- r * t)) in
    K - S - err <= v /\ p - err <= v /\ v <= K + err.
Proof. exact baw_put_dominates. Qed.
Print Assumptions C43_put_dominates.
Example C43_put_dominates_case := C43_put_dominates 100 (1/2) (1/10) (1/10) (25/100) 100 ltac:(lra) ltac:(lra) ltac:(lra) ltac:(lra) ltac:(lra).

(** The search behind a BAW call ends: if the cost of carry b is nonnegative and below r, and at some spot B (K < B <= 5 K, above the perpetual critical price) exercise is worth more than the Black-Scholes price plus the early exercise premium of the approximation by over 1e-6 K, then from some number of iterations on every call has a price, the same for every larger number. *)
Theorem C43_call_terminates : forall (K t r b s B q c d : R), 0 < K -> 0 < t -> 0 < s -> 0 <= b -> b < r -> s * sqrt t <= 10 ^ 6 -> r * t <= 10 ^ 6 ->
  K < B <= 5 * K -> s ^ 2 / 2 * B * K / (B - K) ^ 2 + b * B / (B - K) <= r ->
  1 < q -> s ^ 2 / 2 * q * (q - 1) + b * q = r / (1 - exp (- r * t)) ->
  gbs_call (GBSOption B K t r b (Some s)) = Ok c -> gbs_delta true (GBSOption B K t r b (Some s)) = Ok d ->
  c + B * (1 - d) / q + / 10 ^ 6 * K < B - K ->
  exists N, forall S, 0 < S -> exists v, forall fuel, (N <= fuel)%nat -> baw_call fuel (mkAmer S K t r b (Some s)) = Ok v.
Proof. exact baw_call_terminates. Qed.
Print Assumptions C43_call_terminates.
(** derived from the theorem with B = 500 *)
Example C43_call_terminates_case := baw_call_ends.

(** The search behind a BAW put ends if it starts at a spot S0 <= U = K exp(-(b + sigma^2/2) t) at which exercise is worth no more than the Black-Scholes price plus the early exercise premium of the approximation, or at which the tangent of the Black-Scholes put meets the exercise line below (1 - 1/q) U: from some number of iterations on every put has a price, the same for every larger number. *)
Theorem C43_put_terminates : forall (K t r b s q h S0 p0 d0 : R), 0 < K -> 0 < t -> 0 < s -> 0 < r -> b <= r ->
  q <= - (1 / 4) -> s ^ 2 / 2 * q * (q - 1) + b * q = r / (1 - exp (- r * t)) -> s * sqrt t * - q <= 10 ^ 5 ->
  h < 0 -> s ^ 2 / 2 * h * (h - 1) + b * h = r -> S0 = K * (1 - (1 - exp ((b * t - 2 * s * sqrt t) * (1 - h))) / (1 - h)) ->
  gbs_put (GBSOption S0 K t r b (Some s)) = Ok p0 -> gbs_delta false (GBSOption S0 K t r b (Some s)) = Ok d0 ->
  let U := K * exp (- (b + s ^ 2 / 2) * t) in
  S0 <= U ->
  (K - S0 <= p0 - S0 * (1 + d0) / q + / 10 ^ 6 * K \/ K - p0 + S0 * d0 + / 10 ^ 6 * (K + U * (1 - / q)) <= U * (1 - / q) * (1 + d0)) ->
  exists N, forall S, 0 < S -> exists v, forall fuel, (N <= fuel)%nat -> baw_put fuel (mkAmer S K t r b (Some s)) = Ok v.
Proof. exact baw_put_terminates. Qed.
Print Assumptions C43_put_terminates.
(** derived from the theorem by its second condition *)
Example C43_put_terminates_case := baw_put_ends.

(** Finding: with a zero interest rate the approximation breaks down silently. For r = b = 0 the put is nan whenever S > K e^{-2 sigma sqrt t}, and K - S (less than the Black-Scholes put) otherwise, whatever the iteration budget. *)
Theorem C43_zero_rate_refuted : forall (S K t s : R) (fuel : nat), 0 < S -> 0 < K -> 0 < t -> 0 < s ->
  (K * exp (- 2 * s * sqrt t) < S -> baw_put fuel (mkAmer (Fin S) (Fin K) (Fin t) (Fin 0) (Fin 0) (Some (Fin s))) = Ok NaN) /\
  (S <= K * exp (- 2 * s * sqrt t) -> baw_put fuel (mkAmer (Fin S) (Fin K) (Fin t) (Fin 0) (Fin 0) (Some (Fin s))) = Ok (Fin (K - S)) /\
     exists p, gbs_put (GBSOption S K t 0 0 (Some s)) = Ok p /\ K - S < p).
Proof. exact baw_zero_thm. Qed.
Print Assumptions C43_zero_rate_refuted.
Example C43_zero_rate_refuted_case := C43_zero_rate_refuted 100 100 (1/2) (25/100) 100 ltac:(lra) ltac:(lra) ltac:(lra) ltac:(lra).

(** BAW prices do not depend on the unit of money: scaling spot and strike by c > 0 takes the search through the same number of steps, so that with any iteration budget the prices exist for both options or for neither (with the same exception) and differ by the factor c. Rates, maturity and volatility are arbitrary, missing volatility included. *)
Theorem C43_scale : forall (S K t r b c : R) (sigma : option R) (fuel : nat), 0 < K -> 0 < c ->
  match baw_call fuel (mkAmer S K t r b sigma) with
  | Ok v => baw_call fuel (mkAmer (c * S) (c * K) t r b sigma) = Ok (c * v)
  | Err e => baw_call fuel (mkAmer (c * S) (c * K) t r b sigma) = Err e end /\
  match baw_put fuel (mkAmer S K t r b sigma) with
  | Ok v => baw_put fuel (mkAmer (c * S) (c * K) t r b sigma) = Ok (c * v)
  | Err e => baw_put fuel (mkAmer (c * S) (c * K) t r b sigma) = Err e end.
Proof. exact baw_scale. Qed.
Print Assumptions C43_scale.
Example C43_scale_case := C43_scale 90 100 1 (5/100) (-2/100) 1000 (Some (1/5)) 50 ltac:(lra) ltac:(lra).


(* ---------------------------------------------------------------- C44 *)
(** BS call: with a cost of carry of at least the interest rate it is the Black-Scholes call, and no trigger price is reported. *)
Theorem C44_carry : forall (T : Type) (N : Num T) (S K t r b : T) (s : option T) c,
  leb r b = true -> gbs_call (GBSOption S K t r b s) = Ok c -> bs_call (mkAmer S K t r b s) = Ok (c, None).
Proof. exact bs_carry_call. Qed.
Print Assumptions C44_carry.
Example C44_carry_case (c : R) := C44_carry R RNum 42 40 (3/4) (4/100) (4/100) (Some (35/100)) c (proj2 (Rleb_true (4/100) (4/100)) ltac:(lra)).

(** BS put with a nonpositive interest rate is the Black-Scholes put. *)
Theorem C44_put_no_rate : forall S K t r b s : R, 0 < S -> 0 < K -> 0 < t -> 0 < s -> r <= 0 ->
  exists p, gbs_put (GBSOption S K t r b (Some s)) = Ok p /\ bs_put (mkAmer S K t r b (Some s)) = Ok (p, None).
Proof. exact bs_put_nonpos. Qed.
Print Assumptions C44_put_no_rate.
Example C44_put_no_rate_case := C44_put_no_rate 42 40 (3/4) (- 1/100) (-4/100) (35/100) ltac:(lra) ltac:(lra) ltac:(lra) ltac:(lra) ltac:(lra).

(** BS put is the BS call with spot and strike exchanged, interest rate r - b and cost of carry -b (put-call transformation). *)
Theorem C44_put_dual : forall (T : Type) (N : Num T) (S K t r b : T) (s : option T),
  bs_put (mkAmer S K t r b s) = bs_call (mkAmer K S t (sub r b) (opp b) s).
Proof. exact bs_put_dual. Qed.
Print Assumptions C44_put_dual.
Example C44_put_dual_case := C44_put_dual R RNum 42 40 (3/4) (4/100) (-4/100) (Some (35/100)).

(** BS call with b < r: the reported trigger does not depend on the spot; from the trigger on the price is exactly S - K; if b t + 2 sigma sqrt t > 0 the trigger is above the strike and above r/(r-b) K and below the exercise price of the perpetual call, beta/(beta-1) K, where beta > 1 solves sigma^2/2 beta(beta-1) + b beta = r. *)
Theorem C44_trigger : forall K t r b s : R, 0 < K -> 0 < t -> 0 < s -> b < r ->
  exists I0, (forall S, I0 <= S -> bs_call (mkAmer S K t r b (Some s)) = Ok (S - K, Some I0)) /\
    (forall S, S < I0 -> exists v, bs_call (mkAmer S K t r b (Some s)) = Ok (v, Some I0)) /\
    (0 < b * t + 2 * s * sqrt t -> K < I0 /\ r / (r - b) * K < I0 /\
       exists beta, 1 < beta /\ 1 / 2 * s ^ 2 * beta * (beta - 1) + b * beta - r = 0 /\ I0 < beta / (beta - 1) * K).
Proof. exact bs_trigger_thm. Qed.
Print Assumptions C44_trigger.
Example C44_trigger_case := C44_trigger 40 (3/4) (4/100) (-4/100) (35/100) ltac:(lra) ltac:(lra) ltac:(lra) ltac:(lra).

(** Finding: the price can be negative. If b >= 0, r > 0 and b sqrt t > 2 sigma (so for a plain stock put, b = r, with low volatility) the put's trigger formula goes wrong: there is a price ratio g < 1 such that for all strikes g S <= K < S the put is K - S < 0. *)
Theorem C44_negative_refuted : forall S t r b s : R, 0 < S -> 0 < t -> 0 < s -> 0 < r -> 0 <= b -> 2 * s < b * sqrt t ->
  exists I0, I0 < S /\ forall K, I0 <= K -> K < S -> exists v, bs_put (mkAmer S K t r b (Some s)) = Ok (v, Some I0) /\ v = K - S /\ v < 0.
Proof. exact bs_negative. Qed.
Print Assumptions C44_negative_refuted.
Example C44_negative_refuted_case := C44_negative_refuted 100 9 (8/100) (8/100) (1/10)
  ltac:(lra) ltac:(lra) ltac:(lra) ltac:(lra) ltac:(lra) bs_case_neg.

(** With the exact normal distribution the price is continuous at the trigger: approaching the trigger from either side it tends to the exercise value (b < r, b t + 2 sigma sqrt t > 0). *)
Theorem C44_trigger_continuity : forall K t r b s eps : R, 0 < K -> 0 < t -> 0 < s -> b < r -> 0 < b * t + 2 * s * sqrt t -> 0 < eps ->
  exists I0 delta, K < I0 /\ 0 < delta /\ forall S, 0 < S -> Rabs (S - I0) < delta ->
    exists v, bs_call_F Phi (mkAmer S K t r b (Some s)) = Ok (v, Some I0) /\ Rabs (v - (I0 - K)) < eps.
Proof. exact bs_continuity. Qed.
Print Assumptions C44_trigger_continuity.
Example C44_trigger_continuity_case := C44_trigger_continuity 40 1 (4/100) (-4/100) (35/100) (1/100)
  ltac:(lra) ltac:(lra) ltac:(lra) ltac:(lra) bs_case_pos ltac:(lra).

(** The formula used below the trigger gives exactly the exercise value at the trigger, whatever distribution function is used: near the trigger the price jumps only as much as the distribution function's implementation does. *)
Theorem C44_value_matching : forall (F : R -> R) (K t r b s : R), 0 < K -> 0 < t -> 0 < s -> b < r -> 0 < b * t + 2 * s * sqrt t ->
  exists I0 (low : R -> R), K < I0 /\ low I0 = I0 - K /\
    forall S, 0 < S < I0 -> bs_call_F F (mkAmer S K t r b (Some s)) = Ok (low S, Some I0).
Proof. exact bs_matching. Qed.
Print Assumptions C44_value_matching.
Example C44_value_matching_case := C44_value_matching cnd 40 1 (4/100) (-4/100) (35/100) ltac:(lra) ltac:(lra) ltac:(lra) ltac:(lra) bs_case_pos.

(** With the exact normal distribution a BS call is worth a positive amount at every spot (b < r, b t + 2 sigma sqrt t > 0; compare the negative prices of C44_negative_refuted when that condition fails). *)
Theorem C44_positive : forall S K t r b s : R, 0 < S -> 0 < K -> 0 < t -> 0 < s -> b < r -> 0 < b * t + 2 * s * sqrt t ->
  exists v I0, bs_call_F Phi (mkAmer S K t r b (Some s)) = Ok (v, Some I0) /\ 0 < v.
Proof. exact bs_positive. Qed.
Print Assumptions C44_positive.
Example C44_positive_case := C44_positive 42 40 1 (4/100) (-4/100) (35/100) ltac:(lra) ltac:(lra) ltac:(lra) ltac:(lra) ltac:(lra) bs_case_pos.

(** Scaling spot and strike by the same positive factor scales the BS call and its trigger by that factor (b < r; any distribution function; trigger positive). *)
Theorem C44_homogeneous : forall (F : R -> R) (a S K t r b s v I0 : R), 0 < a -> 0 < S -> 0 < K -> b < r -> 0 < I0 ->
  bs_call_F F (mkAmer S K t r b (Some s)) = Ok (v, Some I0) ->
  bs_call_F F (mkAmer (a * S) (a * K) t r b (Some s)) = Ok (a * v, Some (a * I0)).
Proof. exact bs_homogeneous. Qed.
Print Assumptions C44_homogeneous.
Example C44_homogeneous_case (v I0 : R) (H : 0 < I0) := C44_homogeneous cnd 10 42 40 1 (4/100) (-4/100) (35/100) v I0
  ltac:(lra) ltac:(lra) ltac:(lra) ltac:(lra) H.

(** BS call with 0 <= b < r: the reported trigger rises strictly with the maturity. For short maturities it starts at max(K, r/(r-b) K) and lies about two standard deviations above it (the excess divided by sqrt t tends to 2 sigma times that price); for long maturities it tends to the exercise price of the perpetual call. *)
Theorem C44_trigger_maturity : forall K r b s, 0 < K -> 0 < s -> 0 <= b < r ->
  exists I0 beta, (forall S t, 0 < t -> exists v, bs_call (mkAmer S K t r b (Some s)) = Ok (v, Some (I0 t))) /\
    (forall t1 t2, 0 < t1 -> t1 < t2 -> I0 t1 < I0 t2) /\
    (let B := Rmax K (r / (r - b) * K) in forall eps, 0 < eps -> exists d, 0 < d /\ forall t, 0 < t < d -> Rabs ((I0 t - B) / sqrt t - 2 * s * B) < eps) /\
    1 < beta /\ 1 / 2 * s ^ 2 * beta * (beta - 1) + b * beta - r = 0 /\
    forall eps, 0 < eps -> exists T, forall t, T < t -> Rabs (I0 t - beta / (beta - 1) * K) < eps.
Proof. exact bs_trigger_maturity. Qed.
Print Assumptions C44_trigger_maturity.
Example C44_trigger_maturity_case := C44_trigger_maturity 40 (8/100) (4/100) (35/100) ltac:(lra) ltac:(lra) ltac:(lra).

(** BS call with 0 <= b < r: as the maturity grows the price tends to the value of the perpetual American call, (B - K) (S/B)^beta below its exercise price B = beta/(beta-1) K and S - K from there on; with the distribution function of the code as well as with the exact one. *)
Theorem C44_perpetual : forall F S K r b s, F = cnd \/ F = Phi -> 0 < S -> 0 < K -> 0 < s -> 0 <= b < r ->
  exists beta, 1 < beta /\ 1 / 2 * s ^ 2 * beta * (beta - 1) + b * beta - r = 0 /\
    let B := beta / (beta - 1) * K in
    forall eps, 0 < eps -> exists T, forall t, T < t -> exists v I0, bs_call_F F (mkAmer S K t r b (Some s)) = Ok (v, Some I0) /\
      Rabs (v - (if Rlt_dec S B then (B - K) * Rpower (S / B) beta else S - K)) < eps.
Proof. exact bs_perpetual. Qed.
Print Assumptions C44_perpetual.
Example C44_perpetual_case := C44_perpetual cnd 42 40 (8/100) (4/100) (35/100) (or_introl eq_refl) ltac:(lra) ltac:(lra) ltac:(lra) ltac:(lra).

(** BS call with b < r: the speed at which the reported trigger approaches the exercise price Binf of the perpetual call as the maturity grows: ln (Binf - trigger) / t tends to -b B/(Binf - B), where B = max(K, r/(r-b) K). For b < 0 the trigger moves away from Binf at that rate, instead of approaching it. *)
Theorem C44_trigger_rate : forall K r b s, 0 < K -> 0 < s -> b < r ->
  exists I0 beta, (forall S t, 0 < t -> exists v, bs_call (mkAmer S K t r b (Some s)) = Ok (v, Some (I0 t))) /\
    1 < beta /\ 1 / 2 * s ^ 2 * beta * (beta - 1) + b * beta - r = 0 /\
    let B := Rmax K (r / (r - b) * K) in let Binf := beta / (beta - 1) * K in
    B < Binf /\ (forall t, 0 < t -> I0 t < Binf) /\
    forall eps, 0 < eps -> exists T, forall t, T < t -> Rabs (ln (Binf - I0 t) / t + b * (B / (Binf - B))) < eps.
Proof. exact bs_trigger_rate. Qed.
Print Assumptions C44_trigger_rate.
Example C44_trigger_rate_case := C44_trigger_rate 40 (8/100) (4/100) (35/100) ltac:(lra) ltac:(lra) ltac:(lra).


(* ---------------------------------------------------------------- C55 *)
(** The bivariate normal routine returns a number for all real arguments (its recursion is at most three deep) and is symmetric in its two limits. *)
Theorem C55_total_symmetric : forall a b rho : R,
  (exists v, cbnd a b rho = Some v) /\ cbnd a b rho = cbnd b a rho /\
  forall fuel, (3 <= fuel)%nat -> cbnd_fuel fuel a b rho = cbnd a b rho.
Proof. exact cbnd_total_symmetric. Qed.
Print Assumptions C55_total_symmetric.
Example C55_total_symmetric_case := C55_total_symmetric 1 (-2) (1/2).

(** It has exact normal marginals: P(X<a, Y<b) + P(X<a, Y>b) is the library's N(a); hence also P(X<a,Y<b) = N(a) + N(b) - 1 + P(X>a,Y>b). (|rho| < 1; away from the line b = rho a, resp. a = -rho b where the reflected correlation is clipped.) *)
Theorem C55_marginals : forall a b rho : R, -1 < rho < 1 -> rho * a <> b -> rho * b <> a ->
  exists u v w, cbnd a b rho = Some u /\ cbnd a (- b) (- rho) = Some v /\ cbnd (- a) (- b) rho = Some w /\
    u + v = cnd a /\ u = cnd a + cnd b - 1 + w.
Proof. exact cbnd_marginals. Qed.
Print Assumptions C55_marginals.
Example C55_marginals_case := C55_marginals 1 (-2) (1/2) ltac:(lra) ltac:(lra) ltac:(lra).


(* ---------------------------------------------------------------- C56 *)
(** At expiry or with zero volatility (numpy arithmetic with infinities and nan): when the forward S e^{bt} differs from the strike, the call and put are exactly the discounted forward payoffs, the put-call parity holds and vega is 0; at the money the call and the put are nan. Gamma is nan at expiry whatever the moneyness. *)
Theorem C56_degenerate : forall S K t r b s : R, 0 < S -> 0 < K -> 0 <= t -> 0 <= s -> (t = 0 \/ s = 0) ->
  let o := GBSOption (Fin S) (Fin K) (Fin t) (Fin r) (Fin b) (Some (Fin s)) in
  (S * exp (b * t) <> K ->
     gbs_call o = Ok (Fin (exp (- r * t) * Rmax (S * exp (b * t) - K) 0)) /\
     gbs_put o = Ok (Fin (exp (- r * t) * Rmax (K - S * exp (b * t)) 0)) /\ gbs_vega o = Ok (Fin 0)) /\
  (S * exp (b * t) = K -> gbs_call o = Ok NaN /\ gbs_put o = Ok NaN) /\
  gbs_gamma o = Ok NaN.
Proof. exact degenerate_thm. Qed.
Print Assumptions C56_degenerate.
Example C56_degenerate_case := C56_degenerate 100 90 0 (1/10) (1/10) (1/5) ltac:(lra) ltac:(lra) ltac:(lra) ltac:(lra) (or_introl eq_refl).


(* ---------------------------------------------------------------- C73 *)
(** For all real limits and every correlation strictly between -1 and 1 the bivariate normal routine is within 1.35e-6 of the true distribution function of two correlated standard normal variables, and within 7.5e-7 when the product of its three arguments is not positive (no reduction step needed). *)
Theorem C73_accuracy : forall M a b rho, bivariate_normal M -> -1 < rho < 1 ->
  exists v, cbnd a b rho = Some v /\ Rabs (v - M a b rho) <= 135 / 10 ^ 8 /\ (a * b * rho <= 0 -> Rabs (v - M a b rho) <= 75 / 10 ^ 8).
Proof. exact cbnd_accuracy. Qed.
Print Assumptions C73_accuracy.
(** two independent variables are both negative with probability a quarter *)
Example C73_accuracy_case : exists v : R, cbnd 0 0 0 = Some v /\ Rabs (v - 1 / 4) <= 75 / 10 ^ 8.
Proof.
  destruct (C73_accuracy bvn 0 0 0 bvn_ok ltac:(lra)) as (v & E & _ & B). exists v. split; [exact E|].
  pose proof (M_flip_a bvn bvn_ok 0 0 0 ltac:(lra)) as F. rewrite Ropp_0, Phi_0 in F. replace (1 / 4) with (bvn 0 0 0) by lra. apply B. lra.
Qed.
(** the branch that reduces to limits at zero *)
Example C73_accuracy_reduced := C73_accuracy bvn 1 2 (1/2) bvn_ok ltac:(lra).

(** Hence the Roll-Geske-Whaley formula evaluated with the library's two distribution functions is within 1.5e-6 (x + K e^{-rt} + |K - D| e^{-r td}) of the formula with the exact ones, whatever the critical price. *)
Theorem C73_rgw_formula : forall M x K t td r D s Ic, bivariate_normal M -> 0 < x -> 0 < K -> 0 < td < t ->
  Rabs (rgw_price cnd bivariate x K t td r D s Ic - rgw_price Phi M x K t td r D s Ic) <= 15 / 10 ^ 7 * (x + K * exp (- r * t) + Rabs (K - D) * exp (- r * td)).
Proof. exact rgw_distributions. Qed.
Print Assumptions C73_rgw_formula.
Example C73_rgw_formula_case := C73_rgw_formula bvn 90 100 (1/3) (1/4) (6/100) 4 (30/100) 101 bvn_ok ltac:(lra) ltac:(lra) ltac:(lra).

(** End to end: when early exercise may be optimal, the dividend does not exceed the strike, the stock price is at most 1e8 and exercising is right at every price from 0.5e8 to 1e8, call() returns a price p that differs from the true value of the American call on a stock with one known dividend (the discounted mean of the better of exercising just before the dividend and holding on) by at most the discounted tolerance of the search, 1e-5 + 7.5e-8 (Ic + K e^{-r(t-td)}), plus the error of the distribution functions, 1.5e-6 (x + K e^{-rt} + (K - D) e^{-r td}). *)
Theorem C73_rgw_value : forall M S K t td r D s V, bivariate_normal M -> 0 < S <= 10 ^ 8 -> 0 < K -> 0 < td < t -> 0 < s -> D <= K ->
  0 < S - D * exp (- r * td) ->
  rgw_is_call_optimal (mkRgw S K t td r D (Some s)) = true ->
  (forall x d, 10 ^ 8 / 2 < x <= 10 ^ 8 -> holding_gain K t td r D s x d -> d <= 0) ->
  is_mean (fun z => let X := stock_after (S - D * exp (- r * td)) r s td z in Rmax (X + D - K) (black_call X K (t - td) r s)) V ->
  exists n p Ic, 0 < Ic /\
    (forall f1 f2, (n <= f1)%nat -> (n <= f2)%nat -> rgw_call f1 f2 (mkRgw S K t td r D (Some s)) = Ok p) /\
    let search := / 10 ^ 5 + 75 / 10 ^ 9 * (Ic + / 10 ^ 5 + K * exp (- r * (t - td))) in
    let dist := 15 / 10 ^ 7 * (S - D * exp (- r * td) + K * exp (- r * t) + (K - D) * exp (- r * td)) in
    Rabs (black_call Ic K (t - td) r s - (Ic + D - K)) <= search /\
    exp (- r * td) * V - exp (- r * td) * search - dist <= p <= exp (- r * td) * V + dist.
Proof. exact rgw_value. Qed.
Print Assumptions C73_rgw_value.
(** the option of C42_american_value: stock price 90 net of the dividend, critical price 100 *)
Example C73_rgw_value_case := C73_rgw_value bvn S0 100 (1/3) (1/4) (6/100) D0 (30/100)
  (exp (6/100 * (1/4)) * rgw_price Phi bvn 90 100 (1/3) (1/4) (6/100) D0 (30/100) 100)
  bvn_ok S0_range ltac:(lra) ltac:(lra) ltac:(lra) (proj2 D0_range) ltac:(rewrite x0_eq; lra) optimal0 cap0
  ltac:(rewrite x0_eq; exact (proj1 C42_american_value_case)).

(** The computed call is at least the computed European call of GBSOption on the stock net of the dividend and at least what always exercising just before the dividend makes, and it is at most the stock price net of the dividend, up to the tolerance of the search and the errors of the distribution functions. *)
Theorem C73_rgw_bounds : forall M S K t td r D s, bivariate_normal M -> 0 < S <= 10 ^ 8 -> 0 < K -> 0 < td < t -> 0 < s -> D <= K ->
  let x := S - D * exp (- r * td) in 0 < x ->
  rgw_is_call_optimal (mkRgw S K t td r D (Some s)) = true ->
  (forall y d, 10 ^ 8 / 2 < y <= 10 ^ 8 -> holding_gain K t td r D s y d -> d <= 0) ->
  exists n p Ic e, 0 < Ic /\
    (forall f1 f2, (n <= f1)%nat -> (n <= f2)%nat -> rgw_call f1 f2 (mkRgw S K t td r D (Some s)) = Ok p) /\
    gbs_call (GBSOption x K t r r (Some s)) = Ok e /\
    let search := / 10 ^ 5 + 75 / 10 ^ 9 * (Ic + / 10 ^ 5 + K * exp (- r * (t - td))) in
    let dist := 16 / 10 ^ 7 * (x + K * exp (- r * t) + (K - D) * exp (- r * td)) in
    e - exp (- r * td) * search - dist <= p /\ x + (D - K) * exp (- r * td) - exp (- r * td) * search - dist <= p /\ p <= x + dist.
Proof. exact rgw_code_bounds. Qed.
Print Assumptions C73_rgw_bounds.
(** the option of C73_rgw_value *)
Example C73_rgw_bounds_case := C73_rgw_bounds bvn S0 100 (1/3) (1/4) (6/100) D0 (30/100)
  bvn_ok S0_range ltac:(lra) ltac:(lra) ltac:(lra) (proj2 D0_range) ltac:(rewrite x0_eq; lra) optimal0 cap0.

