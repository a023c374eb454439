(** Model of the tree plotters, src/finoptions/binomial_tree_options/__init__.py:12-87.
    A plot is modelled by the list of its annotations (point, number shown); drawing itself, the
    rounding to [digits] and the text offsets are not modelled. *)
From Coq Require Import List Arith ZArith Lia.
From Verif Require Import Num Py Arr MTrees.
Import ListNotations.
Open Scope py_scope.
Open Scope Z_scope.

(** [numpy.arange(lo, hi, step)] for step = -2 (fuel: number of elements) *)
Fixpoint arange_down (fuel : nat) (lo : Z) : list Z :=
  match fuel with O => [] | S k => lo :: arange_down k (lo - 2) end.

(** position(s) of [y] in [a]: [numpy.where(a == y)[0]] *)
Fixpoint where_eq (a : list Z) (y : Z) (k : nat) : list nat :=
  match a with
  | [] => []
  | v :: a' => if v =? y then k :: where_eq a' y (S k) else where_eq a' y (S k)
  end.

(** __init__.py:40-48, BiTreePlotter._convert_to_index.  arange(max, -max - 2, -2) has max + 1
    elements; [int(...)] of an array that does not have exactly one element raises TypeError. *)
Definition convert_to_index (p : Z * Z) : res nat :=
  let mx := fst p in
  if 0 <? mx then
    match where_eq (arange_down (Z.to_nat (mx + 1)) mx) (snd p) 0 with
    | [k] => Ok k
    | _ => Err TypeError
    end
  else Ok 0%nat.

Section Plot.
Context {T : Type}.

(** [tree[i][j]] with Python indices: negative indices count from the end *)
Definition pyget (m : list (list T)) (i j : Z) : res T :=
  let fix_ (k : Z) (n : nat) : res nat :=
    if 0 <=? k then Ok (Z.to_nat k)
    else if 0 <=? k + Z.of_nat n then Ok (Z.to_nat (k + Z.of_nat n)) else Err IndexError in
  i' <- fix_ i (length m) ;;
  row <- get m i' ;;
  j' <- fix_ j (length row) ;;
  get row j'.

(** [tree.shape[1]] *)
Definition ncols (m : list (list T)) : nat := match m with [] => 0%nat | r :: _ => length r end.

(** __init__.py:16-38, BiTreePlotter.plot *)
Definition bi_points (i : nat) : list (Z * Z) :=
  let xs := map (fun v => v + Z.of_nat i) ([1; 0; 1] ++ concat (repeat [0; 1] i)) in
  let ys := rev (map (fun k => Z.of_nat k - (Z.of_nat i + 1)) (seq 0 (2 * i + 3))) in
  combine xs ys.
Definition bi_plot (tree : list (list T)) : res (list ((Z * Z) * T)) :=
  let depth := (ncols tree - 1)%nat in
  for_ (seq 0 depth) (fun i out =>
    for_ (bi_points i) (fun p out =>
      k <- convert_to_index p ;;
      v <- pyget tree (Z.of_nat k) (fst p) ;;
      Ok (out ++ [(p, v)])) out) [].

(** __init__.py:69-87, TriTreePlotter._plot_node *)
Definition tri_plot_node (tree : list (list T)) (i j : Z) (out : list ((Z * Z) * T))
  : res (list ((Z * Z) * T)) :=
  for_ [-1; 0; 1] (fun c out =>
    let depth := Z.of_nat (ncols tree) - 1 in
    let p := (1 + i, c + j) in
    v <- pyget tree (- snd p + depth) (fst p) ;;
    Ok (out ++ [(p, v)])) out.

(** __init__.py:55-67, TriTreePlotter.plot; range(-i + 1, i) has 2i - 1 elements for i > 0 *)
Definition tri_plot (tree : list (list T)) : res (list ((Z * Z) * T)) :=
  let n := (ncols tree - 1)%nat in
  out <- for_ (seq 0 (n + 1)) (fun i out =>
    for_ (map (fun k => Z.of_nat k - Z.of_nat i + 1) (seq 0 (2 * i - 1)))
      (fun j out => tri_plot_node tree (Z.of_nat i - 1) j out) out) [] ;;
  v <- pyget tree (Z.of_nat n) 0 ;;
  Ok (out ++ [((0, 0), v)]).
End Plot.
