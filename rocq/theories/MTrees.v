(** Model of src/finoptions/binomial_tree_options/__init__.py: the CRR, JR, TIAN binomial trees and
    the trinomial tree.

    Simplifications: the number of steps [n] is a natural number (negative or non-integer [n] is not
    modelled; n = 0 with Python numbers raises ZeroDivisionError at [self._t / n]); prices are
    computed with scalar parameters; finite-difference Greeks are in MObjects.v. *)
From Coq Require Import List Arith ZArith QArith String Bool.
From Verif Require Import Num Py Arr.
Import ListNotations.
Open Scope py_scope.
Open Scope nat_scope.

(** Result of [call(tree)] / [put(tree)]: a number or a matrix (list of rows). *)
Inductive tree_out (T : Type) := Price (x : T) | Matrix (m : list (list T)).
Arguments Price {T}. Arguments Matrix {T}.

(** Attributes set by CRRBinomialTreeOption.__init__, __init__.py:149-169 (shared by all four). *)
Record TreeOption (T : Type) := mkTree {
  to_S : T; to_K : T; to_t : T; to_r : T; to_b : T; to_sigma : T; to_type : string; to_n : nat }.
Arguments mkTree {T}. Arguments to_S {T}. Arguments to_K {T}. Arguments to_t {T}.
Arguments to_r {T}. Arguments to_b {T}. Arguments to_sigma {T}. Arguments to_type {T}.
Arguments to_n {T}.

Inductive bi_model := CRR | JR | TIAN.

Section Trees.
Context {T : Type} {N : Num T}.
Local Open Scope num_scope.

(** binomial_tree_options/__init__.py:304-308 (CRR), 437-441 (JR), 508-514 (TIAN):
    (u, d, p, Df) for step size dt *)
Definition bi_dt (o : TreeOption T) : T := to_t o / ofnat (to_n o).
Definition bi_u (m : bi_model) (o : TreeOption T) : T :=
  let dt := bi_dt o in
  match m with
  | CRR => expn (to_sigma o * sqrn dt)
  | JR => expn ((to_b o - to_sigma o ^ 2 / ofZ 2) * dt + to_sigma o * sqrn dt)
  | TIAN =>
      let M := expn (to_b o * dt) in
      let V := expn (to_sigma o ^ 2 * dt) in
      (M * V / ofZ 2) * (V + ofZ 1 + sqrn (V * V + ofZ 2 * V - ofZ 3))
  end.
Definition bi_d (m : bi_model) (o : TreeOption T) : T :=
  let dt := bi_dt o in
  match m with
  | CRR => ofZ 1 / bi_u CRR o
  | JR => expn ((to_b o - to_sigma o ^ 2 / ofZ 2) * dt - to_sigma o * sqrn dt)
  | TIAN =>
      let M := expn (to_b o * dt) in
      let V := expn (to_sigma o ^ 2 * dt) in
      (M * V / ofZ 2) * (V + ofZ 1 - sqrn (V * V + ofZ 2 * V - ofZ 3))
  end.
Definition bi_p (m : bi_model) (o : TreeOption T) : T :=
  let dt := bi_dt o in
  match m with
  | CRR | TIAN =>
      (expn (to_b o * dt) - bi_d m o) / (bi_u m o - bi_d m o)
  | JR => ofZ 1 / ofZ 2
  end.
Definition bi_Df (o : TreeOption T) : T := expn (- to_r o * bi_dt o).

(** __init__.py:310-311 (also 443-446 and 516-519): the terminal payoff array *)
Definition bi_terminal (z : Z) (n : nat) (S K u d : T) : list T :=
  map (fun i => let x := ofZ z * (S * u ^ i * d ^ (n - i) - K) in (absn x + x) / ofZ 2)
      (seq 0 (n + 1)).

(** __init__.py:323-335, CRRBinomialTreeOption._euro: the array is updated in place, [tr] records
    every value written.  The state of the loops is (OptionValue, tr). *)
Definition bi_euro (OptionValue : list T) (n : nat) (Df p : T) (tree : bool) : res (list T + list (list T)) :=
  st <- for_ (rev (seq 0 n)) (fun j st =>
          let '(ov, tr) := st in
          let tr := tr ++ repeat (ofZ 0) (n - j) in
          for_ (seq 0 (j + 1)) (fun i st =>
            let '(ov, tr) := st in
            vu <- get ov (i + 1) ;;
            vd <- get ov i ;;
            ov <- upd ov i ((p * vu + (ofZ 1 - p) * vd) * Df) ;;
            v <- get ov i ;;
            Ok (ov, tr ++ [v])) (ov, tr)) (OptionValue, OptionValue) ;;
  let '(ov, tr) := st in
  if tree then
    m <- reshape (rev tr) (n + 1) (n + 1) ;; Ok (inr (transpose (n + 1) m))
  else Ok (inl ov).

(** Python's builtin [max(a, b)] on two numbers *)
Definition pymax (a b : T) : T := if b >? a then b else a.

(** __init__.py:337-351, CRRBinomialTreeOption._amer *)
Definition bi_amer (OptionValue : list T) (n : nat) (Df p K d S u : T) (z : Z) (tree : bool)
  : res (list T + list (list T)) :=
  st <- for_ (rev (seq 0 n)) (fun j st =>
          let '(ov, tr) := st in
          let tr := tr ++ repeat (ofZ 0) (n - j) in
          for_ (seq 0 (j + 1)) (fun i st =>
            let '(ov, tr) := st in
            vu <- get ov (i + 1) ;;
            vd <- get ov i ;;
            ov <- upd ov i
                    (pymax (ofZ z * (S * u ^ i * d ^ (Z.abs_nat (Z.of_nat i - Z.of_nat j)) - K))
                           ((p * vu + (ofZ 1 - p) * vd) * Df)) ;;
            v <- get ov i ;;
            Ok (ov, tr ++ [v])) (ov, tr)) (OptionValue, OptionValue) ;;
  let '(ov, tr) := st in
  if tree then
    m <- reshape (rev tr) (n + 1) (n + 1) ;; Ok (inr (transpose (n + 1) m))
  else Ok (inl ov).

(** __init__.py:303-321 (CRR), 436-461 (JR), 507-529 (TIAN): _calc_price.
    A type other than the two known ones leaves [out] unassigned. *)
Definition bi_calc_price (m : bi_model) (o : TreeOption T) (z : Z) (tree : bool) : res (tree_out T) :=
  let n := to_n o in
  if Nat.eqb n 0 then Err ZeroDivisionError else
  let u := bi_u m o in let d := bi_d m o in let p := bi_p m o in let Df := bi_Df o in
  let ov := bi_terminal z n (to_S o) (to_K o) u d in
  out <- (if String.eqb (to_type o) "european" then bi_euro ov n Df p tree
          else if String.eqb (to_type o) "american" then
                 bi_amer ov n Df p (to_K o) d (to_S o) u z tree
          else Err UnboundLocalError) ;;
  match out with
  | inl ov => v <- get ov 0 ;; Ok (Price v)
  | inr t => Ok (Matrix t)
  end.

(** __init__.py:183-210 and 212-239: call and put *)
Definition bi_call (m : bi_model) (o : TreeOption T) (tree : bool) := bi_calc_price m o 1 tree.
Definition bi_put (m : bi_model) (o : TreeOption T) (tree : bool) := bi_calc_price m o (-1) tree.

(* ---------------------------------------------------------------- trinomial *)

(** __init__.py:583-611: jump sizes, probabilities, discount factor *)
Definition tri_dt (o : TreeOption T) : T := to_t o / ofnat (to_n o).
Definition tri_u (o : TreeOption T) : T := expn (to_sigma o * sqrn (ofZ 2 * tri_dt o)).
Definition tri_d (o : TreeOption T) : T := expn (- to_sigma o * sqrn (ofZ 2 * tri_dt o)).
Definition tri_pu (o : TreeOption T) : T :=
  let dt := tri_dt o in
  ((expn (to_b o * dt / ofZ 2) - expn (- to_sigma o * sqrn (dt / ofZ 2)))
   / (expn (to_sigma o * sqrn (dt / ofZ 2)) - expn (- to_sigma o * sqrn (dt / ofZ 2)))) ^ 2.
Definition tri_pd (o : TreeOption T) : T :=
  let dt := tri_dt o in
  ((expn (to_sigma o * sqrn (dt / ofZ 2)) - expn (to_b o * dt / ofZ 2))
   / (expn (to_sigma o * sqrn (dt / ofZ 2)) - expn (- to_sigma o * sqrn (dt / ofZ 2)))) ^ 2.
Definition tri_pm (o : TreeOption T) : T := ofZ 1 - tri_pu o - tri_pd o.
Definition tri_Df (o : TreeOption T) : T := expn (- to_r o * tri_dt o).

(** [numpy.maximum(a - b, 0)] for nonnegative ints *)
Definition posdiff (a b : nat) : nat := Z.to_nat (Z.max (Z.of_nat a - Z.of_nat b) 0).

(** z * (S * u ** max(i - j, 0) * d ** max(j - i, 0) - K): the exercise value of node i at time j,
    __init__.py:616-622 and 647 (line 620 writes j - i as n * 2 - n - i) *)
Definition tri_exercise (z : Z) (S K u d : T) (i j : nat) : T :=
  ofZ z * (S * u ^ (posdiff i j) * d ^ (posdiff j i) - K).

(** __init__.py:613-622: the terminal payoffs, written into an array of zeros *)
Definition tri_terminal (z : Z) (n : nat) (S K u d : T) : res (list T) :=
  for_ (seq 0 (2 * n + 1)) (fun i ov => upd ov i (maxn (ofZ 0) (tri_exercise z S K u d i n)))
       (repeat (ofZ 0) (2 * n + 1)).

(** __init__.py:639-643 and 645-652: TrinomialTreeOption._euro and _amer *)
Definition tri_euro (i : nat) (ov : list T) (Df pu pd pm : T) : res T :=
  v2 <- get ov (i + 2) ;; v1 <- get ov (i + 1) ;; v0 <- get ov i ;;
  Ok ((pu * v2 + pm * v1 + pd * v0) * Df).
Definition tri_amer (i j : nat) (ov : list T) (Df pu pd pm K d S u : T) (z : Z) : res T :=
  v2 <- get ov (i + 2) ;; v1 <- get ov (i + 1) ;; v0 <- get ov i ;;
  Ok (maxn (tri_exercise z S K u d i j) ((pu * v2 + pm * v1 + pd * v0) * Df)).

(** __init__.py:682-690: _reshape, column i of a (2n-1) x n matrix of zeros receives
    tr[::-1][i^2 : i^2+2i+1] in rows n-i-1 .. n+i-1 *)
Definition tri_reshape (tr : list T) (n : nat) : res (list (list T)) :=
  for_ (seq 0 n) (fun i out =>
    if Nat.ltb 0 i then
      let src := firstn (2 * i + 1) (skipn (i ^ 2) (rev tr)) in
      if Nat.eqb (List.length src) (2 * i + 1) then
        for_ (seq 0 (2 * i + 1)) (fun k out => v <- get src k ;; mupd out (n - i - 1 + k) i v) out
      else Err ValueError
    else v <- get (rev tr) 0 ;; mupd out (n - 1) i v)
  (repeat (repeat (ofZ 0) n) (2 * n - 1)).

(** __init__.py:581-637: TrinomialTreeOption._calc_price *)
Definition tri_calc_price (o : TreeOption T) (z : Z) (tree : bool) : res (tree_out T) :=
  let n := to_n o in
  if Nat.eqb n 0 then Err ZeroDivisionError else
  let u := tri_u o in let d := tri_d o in
  let pu := tri_pu o in let pd := tri_pd o in let pm := tri_pm o in let Df := tri_Df o in
  ov <- tri_terminal z n (to_S o) (to_K o) u d ;;
  st <- for_ (rev (seq 0 n)) (fun j st =>
          for_ (seq 0 (j * 2 + 1)) (fun i st =>
            let '(ov, tr) := st in
            ov <- (if String.eqb (to_type o) "european" then
                     v <- tri_euro i ov Df pu pd pm ;; upd ov i v
                   else if String.eqb (to_type o) "american" then
                     v <- tri_amer i j ov Df pu pd pm (to_K o) d (to_S o) u z ;; upd ov i v
                   else Ok ov) ;;
            v <- get ov i ;;
            Ok (ov, tr ++ [v])) st) (ov, ov) ;;
  let '(ov, tr) := st in
  if tree then m <- tri_reshape tr (n + 1) ;; Ok (Matrix m)
  else v <- get ov 0 ;; Ok (Price v).

Definition tri_call (o : TreeOption T) (tree : bool) := tri_calc_price o 1 tree.
Definition tri_put (o : TreeOption T) (tree : bool) := tri_calc_price o (-1) tree.
End Trees.
