(** Specification vocabulary for C64: what the constructor arguments of an option object amount to. *)
From Coq Require Import String List ZArith QArith.
From Verif Require Import Num Py MTrees MSpread MAmerican MObjects MClasses STrees SObjects.
Import ListNotations.
Open Scope string_scope.

Section Spec.
Context {T : Type} {N : Num T}.
(** the arguments [names] of an option built with keyword arguments [kw] (defaults filled in) are the numbers [x] *)
Definition numbers (c : cls T) (kw : dict (pyv T)) (names : list string) (x : string -> T) : Prop :=
  forall p, In p names -> as_num (arg_value c kw p) = Ok (x p).
(** argument [p] is the number [Some x], or None *)
Definition maybe (c : cls T) (kw : dict (pyv T)) (p : string) (x : option T) : Prop := as_opt (arg_value c kw p) = Ok x.
(** argument [n] is a number of steps different from zero *)
Definition step_count (c : cls T) (kw : dict (pyv T)) (n : nat) : Prop :=
  arg_value c kw "n" = VInt (Z.of_nat n) /\ n <> 0%nat /\ (ofZ (Z.of_nat n) =? lit 0)%num = false.
(** the class a user calls for each kind of tree *)
Definition tree_class_of (c : tree_class) : cls T :=
  match c with Bi CRR => CRR_cls | Bi JR => JR_cls | Bi TIAN => TIAN_cls | Tri => Trinomial_cls end.
(** payoff codes documented for the wrapper classes *)
Definition wrapper_code (class : string) : Z :=
  if String.eqb class "BionomialSpreadOption" then 1 else if String.eqb class "BionomialMaxOption" then 2 else 3.
End Spec.
