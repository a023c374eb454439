(** Specification vocabulary for numerical sensitivities: difference formulas. *)
From Coq Require Import Reals List.
From Verif Require Import STrees.
Import ListNotations.
Open Scope R_scope.

(** A difference formula is a list of (weight, point); its value on a function is the weighted sum of the
    values at the points.  First derivatives: the weights sum to 0.  Second derivatives: moreover the
    weighted points do, so that straight lines get 0. *)
Definition formula (l : list (R * R)) (f : R -> R) : R := sumR (map (fun a => fst a * f (snd a)) l).
Definition first_order (l : list (R * R)) : Prop := sumR (map fst l) = 0.
Definition second_order (l : list (R * R)) : Prop := first_order l /\ sumR (map (fun a => fst a * snd a) l) = 0.
