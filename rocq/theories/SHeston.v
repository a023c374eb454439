(** Specification vocabulary for the Heston-Nandi options and GARCH series. *)
From Coq Require Import Reals.
From Coquelicot Require Import Coquelicot.
From Coq Require Import List.
From Verif Require Import Py PCnd SMonte.
Import ListNotations.
Open Scope R_scope.

(** [v] is the mean of [f Z] for a standard normal [Z] (an improper Riemann integral over the line) *)
Definition is_mean (f : R -> R) (v : R) : Prop :=
  is_RInt_gen (fun z => f z * npdf z) (Rbar_locally m_infty) (Rbar_locally p_infty) v.
(** [v] is the mean of [f [Z1; ...; Zn]] for independent standard normal [Z1 ... Zn] *)
Fixpoint is_expect (n : nat) (f : list R -> R) (v : R) : Prop :=
  match n with
  | O => f [] = v
  | S n' => exists g, (forall z, is_expect n' (fun zs => f (z :: zs)) (g z)) /\ is_mean g v
  end.

(** The Heston-Nandi GARCH(1,1) process: today's variance [h] and innovation [z] give tomorrow's variance *)
Definition hn_next (omega alpha beta gamma h z : R) : R := omega + alpha * (z - gamma * sqrt h) ^ 2 + beta * h.
(** the daily variances and returns produced by the innovations [zs], starting at variance [h] *)
Fixpoint hn_variances (omega alpha beta gamma h : R) (zs : list R) : list R :=
  match zs with
  | [] => []
  | z :: zs' => h :: hn_variances omega alpha beta gamma (hn_next omega alpha beta gamma h z) zs'
  end.
Fixpoint hn_returns (lamb omega alpha beta gamma rf h : R) (zs : list R) : list R :=
  match zs with
  | [] => []
  | z :: zs' => (rf + lamb * h + sqrt h * z) :: hn_returns lamb omega alpha beta gamma rf (hn_next omega alpha beta gamma h z) zs'
  end.
(** a variance that is its own expected successor *)
Definition stationary (omega alpha beta gamma h : R) : Prop := is_mean (hn_next omega alpha beta gamma h) h.
(** the price after the innovations [zs]: its daily log returns follow the process *)
Definition hn_price (S lamb omega alpha beta gamma rf h : R) (zs : list R) : R :=
  S * exp (total (hn_returns lamb omega alpha beta gamma rf h zs)).

(** [v] is the integral of [f] over the positive half line *)
Definition is_half_line (f : R -> R) (v : R) : Prop := is_RInt_gen f (at_right 0) (Rbar_locally p_infty) v.

(** a quadrature rule with fixed (weight, node) pairs, passing on exceptions of the integrand *)
Fixpoint rule (nodes : list (R * R)) (f : R -> res R) : res R :=
  match nodes with
  | [] => Ok 0
  | (w, x) :: l => match f x with
                   | Err e => Err e
                   | Ok v => match rule l f with Err e => Err e | Ok s => Ok (w * v + s) end
                   end
  end.
(** what is asked of a numerical integrator: it looks only at the values of the integrand, passes on an
    exception raised everywhere, and is linear under scaling *)
Definition extensional (quad : (R -> res R) -> res R) : Prop := forall f g, (forall x, f x = g x) -> quad f = quad g.
Definition strict (quad : (R -> res R) -> res R) : Prop := forall e, quad (fun _ => Err e) = Err e.
Definition scales (quad : (R -> res R) -> res R) : Prop :=
  forall c f, quad (fun x => rmap (Rmult c) (f x)) = rmap (Rmult c) (quad f).

(** the log likelihood of a series with innovations [zs] and variances [hs]: the density of a daily return
    given the past is that of its innovation divided by the standard deviation *)
Definition log_likelihood (hs zs : list R) : R := total (map (fun p => ln (npdf (snd p) / sqrt (fst p))) (combine hs zs)).
(** population variance *)
Definition variance (x : list R) : R := average (map (fun y => (y - average x) ^ 2) x).
(** the minimiser works on the line: the map to the unit interval and its inverse *)
Definition to_unit (e : R) : R := 1 / (1 + exp (- e)).
Definition to_line (p : R) : R := - ln ((1 - p) / p).
(** an exact integrator: on an integrand whose integral over the positive half line converges it returns that integral *)
Definition exact_quad (quad : (R -> res R) -> res R) : Prop :=
  forall f g v, (forall x, 0 < x -> f x = Ok (g x)) -> is_half_line g v -> quad f = Ok v.

(** [v] is the mean of [f] over matrices of [paths] rows of [len] independent standard normal variables *)
Fixpoint is_matrix_expect (paths len : nat) (f : list (list R) -> R) (v : R) : Prop :=
  match paths with
  | O => f [] = v
  | S p => exists g, (forall row, length row = len -> is_matrix_expect p len (fun m => f (row :: m)) (g row)) /\ is_expect len g v
  end.
