(** Specification vocabulary for array inputs. *)
From Coq Require Import List.
From Verif Require Import Num Py MVanilla MVector.
Import ListNotations.

Section Spec.
Context {E : Type}.
(** usable in a computation on [n] elements: a number, an array of length 1, or an array of length [n] *)
Definition fits (n : nat) (a : arr E) : Prop :=
  match a with Sc _ => True | Ve l => length l = n \/ length l = 1 | Bad => False end.
(** what position [i] of a computation sees of an input *)
Definition item (i : nat) (a : arr E) : option E :=
  match a with Sc x => Some x | Ve [x] => Some x | Ve l => nth_error l i | Bad => None end.
(** length of an array; [None] for a number *)
Definition len (a : arr E) : option nat := match a with Ve l => Some (length l) | _ => None end.
(** the length of the result of combining inputs: a number if all are numbers, else the length other than 1, if any *)
Definition join (a b : option nat) : option nat :=
  match a, b with None, x => x | x, None => x | Some 1, x => x | x, _ => x end.
Definition joint (l : list (arr E)) : option nat := fold_right join None (map len l).
(** lengths that do not broadcast *)
Definition clash (a b : arr E) : Prop :=
  exists k k', len a = Some k /\ len b = Some k' /\ k <> k' /\ k <> 1 /\ k' <> 1.
End Spec.

(** what can be asked of a GBSOption ([true]: for the call) *)
Inductive quantity := Price (call : bool) | Delta (call : bool) | Theta (call : bool) | Vega | Lambda (call : bool) | Gamma | CofC (call : bool).
Definition ask {E} `{Num E} (q : quantity) (o : gbs E) : res E :=
  match q with
  | Price true => gbs_call o | Price false => gbs_put o | Delta c => gbs_delta c o | Theta c => gbs_theta c o
  | Vega => gbs_vega o | Lambda c => gbs_lamb c o | Gamma => gbs_gamma o | CofC c => gbs_cofc c o
  end.
Definition vask {E} `{Num E} (q : quantity) (o : gbs (arr E)) : res (arr E) :=
  match q with
  | Price true => vgbs_call o | Price false => vgbs_put o | Delta c => vgbs_delta c o | Theta c => vgbs_theta c o
  | Vega => vgbs_vega o | Lambda c => vgbs_lamb c o | Gamma => vgbs_gamma o | CofC c => vgbs_cofc c o
  end.
(** the thirteen parameters of a MiltersenSchwartzOption *)
Definition ms_fields {E} (p : ms_params E) : list E :=
  let '(mkMs Pt FT K t T sS sE sF rSE rSF rEF kE kF) := p in [Pt; FT; K; t; T; sS; sE; sF; rSE; rSF; rEF; kE; kF].
(** the given sigma, if any, fits *)
Definition fits_opt {E} (n : nat) (s : option (arr E)) : Prop := match s with Some a => fits n a | None => True end.
Definition given {E} (s : option (arr E)) : list (arr E) := match s with Some a => [a] | None => [] end.

