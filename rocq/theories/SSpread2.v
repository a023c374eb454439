(** Specification: two correlated lognormal assets, and the value of a European claim on them. *)
From Coq Require Import Reals List.
From Verif Require Import SMonte PGauss SHeston.
Import ListNotations.
Open Scope R_scope.

(** prices at time [t] driven by two independent standard normal variables [z1], [z2]; [rho] is the correlation of the log-returns *)
Definition lognormal1 (S b s t z1 : R) : R := S * exp ((b - s ^ 2 / 2) * t + s * (sqrt t * z1)).
Definition lognormal2 (S b s rho t z1 z2 : R) : R :=
  S * exp ((b - s ^ 2 / 2) * t + s * (sqrt t * (rho * z1 + sqrt (1 - rho ^ 2) * z2))).
(** [v] is the discounted mean of the payoff [g] of the two prices at expiry *)
Definition two_asset_value (S1 S2 t r b1 b2 s1 s2 rho : R) (g : R * R -> R) (v : R) : Prop :=
  is_expect 2 (fun zs => let z1 := nth 0 zs 0 in let z2 := nth 1 zs 0 in
     exp (- r * t) * g (lognormal1 S1 b1 s1 t z1, lognormal2 S2 b2 s2 rho t z1 z2)) v.
(** [v] is the discounted mean of a call's or put's payoff on one lognormal asset *)
Definition lognormal_value (call : bool) (S K t r b s v : R) : Prop :=
  is_mean (fun z => discounted call K t r (lognormal1 S b s t z)) v.
(** Margrabe's value of the right to receive [Q1] units of asset 1 for [Q2] units of asset 2, exact normal distribution function *)
Definition margrabe (S1 S2 t r b1 b2 s1 s2 rho Q1 Q2 : R) : R :=
  let A := Q1 * S1 * exp ((b1 - r) * t) in let B := Q2 * S2 * exp ((b2 - r) * t) in
  let v := sqrt (s1 ^ 2 + s2 ^ 2 - 2 * rho * s1 * s2) * sqrt t in
  let d := ln (A / B) / v + v / 2 in A * Phi d - B * Phi (d - v).
