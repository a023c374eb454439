(** Specification vocabulary for the American approximations. *)
From Coq Require Import Reals.
From Verif Require Import Num Py MBase MVanilla.
Open Scope R_scope.

(** what holding the option just before the dividend is worth in excess of exercising it, when the stock
    (cum dividend) will be at [x] after the dividend: the Black-Scholes call on the remaining life against x + D - K *)
Definition holding_gain (K t td r D sigma x d : R) : Prop :=
  exists c, gbs_call (GBSOption x K (t - td) r r (Some sigma)) = Ok c /\ d = c - (x + D - K).

(** the Roll-Geske-Whaley formula (Haug, "The complete guide to option pricing formulas") for the stock price
    less the present value of the dividend [x] and the critical price [Ic], over given distribution functions *)
Definition rgw_price (N : R -> R) (M : R -> R -> R -> R) (x K t td r D sigma Ic : R) : R :=
  let a1 := (ln (x / K) + (r + sigma ^ 2 / 2) * t) / (sigma * sqrt t) in
  let a2 := a1 - sigma * sqrt t in
  let b1 := (ln (x / Ic) + (r + sigma ^ 2 / 2) * td) / (sigma * sqrt td) in
  let b2 := b1 - sigma * sqrt td in
  let rho := - sqrt (td / t) in
  x * N b1 + x * M a1 (- b1) rho - K * exp (- r * t) * M a2 (- b2) rho - (K - D) * exp (- r * td) * N b2.

(** the bivariate distribution function as a number (it always returns one) *)
Definition bivariate (a b rho : R) : R := match cbnd a b rho with Some v => v | None => 0 end.

(** the quadratic of the quadratic approximation: S^q solves the approximate early-exercise-premium equation *)
Definition baw_exponent (t r b sigma q : R) : Prop :=
  q ^ 2 + (2 * b / sigma ^ 2 - 1) * q = 2 * r / (sigma ^ 2 * (1 - exp (- r * t))).
