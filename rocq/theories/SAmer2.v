(** Specification: the value of a claim on two correlated lognormal assets that may be exercised early. *)
From Coq Require Import Reals List.
From Coquelicot Require Import Coquelicot.
From Verif Require Import SHeston SSpread2.
Import List ListNotations.
Open Scope R_scope.

(** the two prices after time [dt], from the prices [x], driven by the standard normal variables [zs] *)
Definition after (b1 b2 s1 s2 rho dt : R) (x : R * R) (zs : list R) : R * R :=
  (lognormal1 (fst x) b1 s1 dt (nth 0 zs 0), lognormal2 (snd x) b2 s2 rho dt (nth 0 zs 0) (nth 1 zs 0)).
(** [v] is the value, at prices [x], of a claim paying [g] of the prices when it is exercised, where exercise is possible
    now and at [k] further dates [dt] apart, and at each date the holder takes the larger of the payoff and the
    discounted mean of the value at the next date *)
Fixpoint bermudan2 (g : R * R -> R) (r b1 b2 s1 s2 rho dt : R) (k : nat) (x : R * R) (v : R) : Prop :=
  match k with
  | O => v = g x
  | S k' => exists f c, (forall y, 0 < fst y -> 0 < snd y -> bermudan2 g r b1 b2 s1 s2 rho dt k' y (f y)) /\
      is_expect 2 (fun zs => exp (- r * dt) * f (after b1 b2 s1 s2 rho dt x zs)) c /\ v = Rmax (g x) c
  end.
(** [v] is the American value: the limit, and an upper bound, of the values with [m] equally spaced exercise dates up to time [t] *)
Definition american_value2 (g : R * R -> R) (r b1 b2 s1 s2 rho t : R) (x : R * R) (v : R) : Prop :=
  exists B : nat -> R, (forall m, (0 < m)%nat -> bermudan2 g r b1 b2 s1 s2 rho (t / INR m) m x (B m) /\ B m <= v) /\ is_lim_seq B v.

(** A portfolio of [a] units of asset 1, [c] units of asset 2 and [d] in cash, as a function of the prices; and the
    condition that each of its three positions is worth at least as much when the claim to it is postponed: asset held
    long if its carry covers interest, short if it does not, cash received if interest is not positive, paid if it is not negative *)
Definition portfolio (p : R * R * R) (x : R * R) : R := let '(a, c, d) := p in a * fst x + c * snd x + d.
Definition better_later (r b1 b2 : R) (p : R * R * R) : Prop := let '(a, c, d) := p in 0 <= a * (b1 - r) /\ 0 <= c * (b2 - r) /\ d * r <= 0.
(** the best of several portfolios, or nothing *)
Definition best_of (ps : list (R * R * R)) (x : R * R) : R := fold_right (fun p m => Rmax (portfolio p x) m) 0 ps.
