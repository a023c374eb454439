(** Specification vocabulary for the error of Monte Carlo options. *)
From Coq Require Import Reals.
From Coquelicot Require Import Coquelicot.
From Coq Require Import List.
From Verif Require Import Py SMonte SHeston.
Import ListNotations.
Open Scope R_scope.

(** a generator of innovations that reads a stream of random numbers, one row per path *)
Definition from_stream (paths len : nat) (st : list (list R)) : res (list (list R) * list (list R)) :=
  Ok (firstn paths st, skipn paths st).
(** [P] is the probability that [f] is off [v] by [eps] or more *)
Definition is_error_probability (paths len : nat) (f : list (list R) -> R) (v eps P : R) : Prop :=
  is_matrix_expect paths len (fun m => if Rle_dec eps (Rabs (f m - v)) then 1 else 0) P.
