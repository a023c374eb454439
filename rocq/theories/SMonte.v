(** Specification vocabulary for the Monte Carlo options. *)
From Coq Require Import Reals List.
From Verif Require Import Num Py.
Import ListNotations.
Open Scope R_scope.

Definition total (l : list R) : R := fold_right Rplus 0 l.
Definition average (l : list R) : R := total l / INR (length l).

(** what a geometric Brownian motion from [S] is worth after the steps [eps] (standard normal innovations)
    of length [dt], with drift [b] and volatility [s] *)
Definition gbm (S b s dt : R) (eps : list R) : R :=
  S * exp ((b - s ^ 2 / 2) * (INR (length eps) * dt) + s * sqrt dt * total eps).
(** its average over the time points 1..n *)
Definition gbm_average (S b s dt : R) (eps : list R) : R :=
  average (map (fun k => gbm S b s dt (firstn k eps)) (seq 1 (length eps))).

(** the discounted payoff of a call or put on [u] *)
Definition discounted (call : bool) (K t r u : R) : R := exp (- r * t) * Rmax 0 (if call then u - K else K - u).

(** running a sampler [n] times *)
Fixpoint draws {M St : Type} (sample : St -> res (M * St)) (n : nat) (st : St) : res (list M * St) :=
  match n with
  | O => Ok ([], st)
  | S n' => match sample st with
            | Err e => Err e
            | Ok (m, st') => match draws sample n' st' with Err e => Err e | Ok (l, st'') => Ok (m :: l, st'') end
            end
  end.

(** a matrix with rows of length [n] and at least one row *)
Definition shaped (n : nat) (m : list (list R)) : Prop := m <> [] /\ Forall (fun row => length row = n) m.

(** all rows followed by all rows negated *)
Definition mirrored (m : list (list R)) : list (list R) := (m ++ map (map Ropp) m)%list.
(** [m'] is [m] shifted and scaled to average 0 and average square 1 *)
Definition standardised (m m' : list (list R)) : Prop :=
  (exists c d, 0 < d /\ m' = map (map (fun x => (x - c) / d)) m) /\
  average (concat m') = 0 /\ average (map (fun x => x ^ 2) (concat m')) = 1.

(** the quantity the option is written on, as a function of one path's innovations *)
Definition underlying (asian : bool) (S b s dt : R) (eps : list R) : R :=
  if asian then gbm_average S b s dt eps else gbm S b s dt eps.
(** the Monte Carlo estimate from the paths [m] *)
Definition estimate (asian call : bool) (S K t r b s dt : R) (m : list (list R)) : R :=
  average (map (fun eps => discounted call K t r (underlying asian S b s dt eps)) m).
(** variance reduction: from the sampled innovations to those used *)
Definition treated (antithetic standardization : bool) (m m' : list (list R)) : Prop :=
  let m1 := if antithetic then mirrored m else m in
  if standardization then standardised m1 m' else m' = m1.
(** not all entries equal *)
Definition varied (m : list (list R)) : Prop := exists x y, In x (concat m) /\ In y (concat m) /\ x <> y.
