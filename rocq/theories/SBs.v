(** Specification: the value of a claim exercised as soon as the price reaches a given level. *)
From Coq Require Import Reals.
From Coquelicot Require Import Coquelicot.
From Verif Require Import SHeston SSpread2.
Open Scope R_scope.

(** [v] is the value, at price [S], of a claim paying [g] of the price when it is exercised, where the price is observed
    now and at [k] further dates [dt] apart: the holder exercises at the first date at which the price is at least [I0],
    otherwise at the last date *)
Fixpoint exercise_at (g : R -> R) (I0 r b s dt : R) (k : nat) (S v : R) : Prop :=
  match k with
  | O => v = g S
  | Datatypes.S k' => if Rle_dec I0 S then v = g S else
      exists f, (forall x, 0 < x -> exercise_at g I0 r b s dt k' x (f x)) /\
        is_mean (fun z => exp (- r * dt) * f (lognormal1 S b s dt z)) v
  end.
