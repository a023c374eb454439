(** Specification: the value of a claim on one lognormal asset that may be exercised early. *)
From Coq Require Import Reals.
From Coquelicot Require Import Coquelicot.
From Verif Require Import SHeston SSpread2.
Open Scope R_scope.

(** [v] is the value, at price [S], of a claim paying [g] of the price when it is exercised, where exercise is possible
    now and at [k] further dates [dt] apart, and at each date the holder takes the larger of the payoff and the
    discounted mean of the value at the next date *)
Fixpoint bermudan (g : R -> R) (r b s dt : R) (k : nat) (S v : R) : Prop :=
  match k with
  | O => v = g S
  | Datatypes.S k' => exists f c, (forall x, 0 < x -> bermudan g r b s dt k' x (f x)) /\
      is_mean (fun z => exp (- r * dt) * f (lognormal1 S b s dt z)) c /\ v = Rmax (g S) c
  end.
(** [v] is the American value: the limit, and an upper bound, of the values with [m] equally spaced exercise dates up to time [t] *)
Definition american_value (g : R -> R) (r b s t S v : R) : Prop :=
  exists B : nat -> R, (forall m, (0 < m)%nat -> bermudan g r b s (t / INR m) m S (B m) /\ B m <= v) /\ is_lim_seq B v.
(** payoff of a call or a put *)
Definition call_put (call : bool) (K x : R) : R := if call then Rmax (x - K) 0 else Rmax (K - x) 0.
