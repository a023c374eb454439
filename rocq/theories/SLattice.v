(** Specification vocabulary for lattices over an arbitrary state space: a finite list of moves with
    weights, a transition per move, and a payoff on states.  Used for the two-asset trees. *)
From Coq Require Import Reals List.
From Verif Require Import STrees.
Import ListNotations.
Open Scope R_scope.

Section Lattice.
Context {A X : Type}.
Variables (weight : A -> R) (act : A -> X -> X) (moves_ : list A).

(** all sequences of n moves *)
Fixpoint gpaths (n : nat) : list (list A) :=
  match n with
  | O => [[]]
  | S n' => flat_map (fun a => map (cons a) (gpaths n')) moves_
  end.
Definition gprob (p : list A) : R := fold_right (fun a q => weight a * q) 1 p.
Definition gstate (x : X) (p : list A) : X := fold_left (fun y a => act a y) p x.

(** discounted expected payoff after n moves *)
Definition gexpect (Df : R) (g : X -> R) (n : nat) (x : X) : R :=
  Df ^ n * sumR (map (fun p => gprob p * g (gstate x p)) (gpaths n)).

(** payoff of a holder who exercises the first time [stop history] is true, or at the end *)
Fixpoint greward (stop : list A -> bool) (Df : R) (g : X -> R) (x : X) (h rest : list A) : R :=
  match rest with
  | [] => Df ^ length h * g (gstate x h)
  | a :: rest' =>
      if stop h then Df ^ length h * g (gstate x h)
      else greward stop Df g x (h ++ [a]) rest'
  end.
Definition gpolicy (stop : list A -> bool) (Df : R) (g : X -> R) (n : nat) (x : X) : R :=
  sumR (map (fun p => gprob p * greward stop Df g x [] p) (gpaths n)).
End Lattice.
