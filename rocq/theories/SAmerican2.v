(** Specification vocabulary for the Roll-Geske-Whaley option: the optimal-exercise value it is meant to be. *)
From Coq Require Import Reals.
From Coquelicot Require Import Coquelicot.
From Verif Require Import PCnd PGauss.
Open Scope R_scope.

(** [M] is the distribution function of two standard normal variables X, Y with correlation rho:
    P(X <= a, Y <= b) is the integral, over the values y <= b of Y, of the conditional probability of X <= a *)
Definition bivariate_normal (M : R -> R -> R -> R) : Prop := forall a b rho, -1 < rho < 1 ->
  is_RInt_gen (fun y => Phi ((a - rho * y) / sqrt (1 - rho ^ 2)) * npdf y) (Rbar_locally m_infty) (at_point b) (M a b rho).
(** a stock without dividends after time [u], driven by a standard normal innovation [z] *)
Definition stock_after (x r sigma u z : R) : R := x * exp ((r - sigma ^ 2 / 2) * u + sigma * sqrt u * z).
(** Black-Scholes call on a stock without dividends, exact normal distribution function *)
Definition black_call (x K tau r sigma : R) : R :=
  let d1 := (ln (x / K) + (r + sigma ^ 2 / 2) * tau) / (sigma * sqrt tau) in
  x * Phi d1 - K * exp (- r * tau) * Phi (d1 - sigma * sqrt tau).
