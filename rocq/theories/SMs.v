(** Specification: the three-factor model behind Miltersen-Schwartz options, reduced to the two Gaussian variables
    the price depends on: the logarithm of the futures price at expiry and the interest accrued until then. *)
From Coq Require Import Reals List.
From Coquelicot Require Import Coquelicot.
From Coq Require Import List.
From Verif Require Import SHeston.
Import ListNotations.
Open Scope R_scope.

(** loading at time [u] of a mean-reverting factor with volatility [s] and speed [kappa] on a contract ending at [T] *)
Definition loading (s kappa T u : R) : R := s * ((1 - exp (- kappa * (T - u))) / kappa).
(** variance of the log futures price (contract maturity [T]) accumulated until [t]: spot, convenience yield (with a minus sign) and interest *)
Definition futures_variance (sS sE sF rSE rSF rEF kE kF T t v : R) : Prop :=
  is_RInt (fun u => let e := loading sE kE T u in let f := loading sF kF T u in
    sS ^ 2 + e ^ 2 + f ^ 2 - 2 * rSE * sS * e + 2 * rSF * sS * f - 2 * rEF * e * f) 0 t v.
(** covariance accumulated until [t] of the log futures price with the interest accrued until [t] *)
Definition interest_covariance (sS sE sF rSE rSF rEF kE kF T t v : R) : Prop :=
  is_RInt (fun u => let e := loading sE kE T u in let f := loading sF kF T u in
    loading sF kF t u * (rSF * sS + f - rEF * e)) 0 t v.
(** futures price and accrued interest at expiry, driven by two independent standard normal variables *)
Definition futures_price (FT l g z1 : R) : R := FT * exp (l + g * z1).
Definition accrued (m a c z1 z2 : R) : R := m + a * z1 + c * z2.
(** [v] is the mean of [payoff (futures price)] paid at expiry, discounted with the accrued interest *)
Definition discounted_mean (FT l g m a c : R) (payoff : R -> R) (v : R) : Prop :=
  is_expect 2 (fun zs => let z1 := nth 0 zs 0 in let z2 := nth 1 zs 0 in exp (- accrued m a c z1 z2) * payoff (futures_price FT l g z1)) v.
