(** Arithmetic used by the model.

    The Python code computes with numpy / Python floats.  Every numeric function of the model is
    written once over the class [Num] below and then read over a chosen instance:
    - [RNum]: exact real numbers (no rounding, no overflow);
    - [XNum]: reals extended with +inf, -inf and nan, following numpy's conventions
      (division by zero gives an infinity or nan, log 0 = -inf, log of a negative is nan, ...);
    - theorems quantified over every [Num] also cover IEEE doubles. *)
From Coq Require Import Reals QArith Qreals ZArith Bool Lra.

Class Num (T : Type) := {
  lit  : Q -> T;              (* a Python numeric literal such as 0.2316419 *)
  ofZ  : Z -> T;              (* a Python int used as a number *)
  add  : T -> T -> T;
  sub  : T -> T -> T;
  mul  : T -> T -> T;
  div  : T -> T -> T;
  opp  : T -> T;              (* unary minus *)
  absn : T -> T;              (* abs *)
  sgn  : T -> T;              (* numpy.sign *)
  expn : T -> T;
  logn : T -> T;
  sqrn : T -> T;              (* numpy.sqrt *)
  atn  : T -> T;              (* math.atan, numpy.arctan *)
  sinn : T -> T;
  cosn : T -> T;
  pinum : T;                  (* numpy.pi *)
  powi : T -> nat -> T;       (* x ** k, k a nonnegative int *)
  powr : T -> T -> T;         (* x ** y, y a float *)
  maxn : T -> T -> T;         (* numpy.maximum *)
  minn : T -> T -> T;
  ltb  : T -> T -> bool;
  leb  : T -> T -> bool;
  eqb  : T -> T -> bool
}.

Declare Scope num_scope.
Delimit Scope num_scope with num.
Infix "+" := add : num_scope.
Infix "-" := sub : num_scope.
Infix "*" := mul : num_scope.
Infix "/" := div : num_scope.
Notation "- x" := (opp x) : num_scope.
Infix "<?" := ltb : num_scope.
Infix "<=?" := leb : num_scope.
Infix "=?" := eqb : num_scope.
Notation "x >? y" := (ltb y x) (at level 70, only parsing) : num_scope.
Notation "x >=? y" := (leb y x) (at level 70, only parsing) : num_scope.
Infix "^" := powi : num_scope.
Infix "**" := powr (at level 30, right associativity) : num_scope.

Definition ofnat {T} `{Num T} (n : nat) : T := ofZ (Z.of_nat n).

(* ------------------------------------------------------------------ *)
(** * Exact reals *)

Definition Rltb (x y : R) : bool := if Rlt_dec x y then true else false.
Definition Rleb (x y : R) : bool := if Rle_dec x y then true else false.
Definition Reqb (x y : R) : bool := if Req_EM_T x y then true else false.

(** numpy.sign *)
Definition Rsgn (x : R) : R :=
  if Rlt_dec 0 x then 1%R else if Rlt_dec x 0 then (-1)%R else 0%R.

#[export] Instance RNum : Num R := {
  lit := Q2R;
  ofZ := IZR;
  add := Rplus; sub := Rminus; mul := Rmult; div := Rdiv; opp := Ropp;
  absn := Rabs; sgn := Rsgn;
  expn := exp; logn := ln; sqrn := sqrt; atn := atan; sinn := sin; cosn := cos;
  pinum := PI;
  powi := pow; powr := Rpower;
  maxn := Rmax; minn := Rmin;
  ltb := Rltb; leb := Rleb; eqb := Reqb
}.

Lemma Rltb_true x y : Rltb x y = true <-> (x < y)%R.
Proof. unfold Rltb; destruct (Rlt_dec x y); split; intros; try easy. Qed.
Lemma Rltb_false x y : Rltb x y = false <-> (y <= x)%R.
Proof. unfold Rltb; destruct (Rlt_dec x y); split; intros; try easy; try lra. Qed.
Lemma Rleb_true x y : Rleb x y = true <-> (x <= y)%R.
Proof. unfold Rleb; destruct (Rle_dec x y); split; intros; try easy. Qed.
Lemma Rleb_false x y : Rleb x y = false <-> (y < x)%R.
Proof. unfold Rleb; destruct (Rle_dec x y); split; intros; try easy; lra. Qed.
Lemma Reqb_true x y : Reqb x y = true <-> x = y.
Proof. unfold Reqb; destruct (Req_EM_T x y); split; intros; try easy. Qed.
Lemma Reqb_false x y : Reqb x y = false <-> x <> y.
Proof. unfold Reqb; destruct (Req_EM_T x y); split; intros; try easy. Qed.

Lemma Rsgn_pos x : (0 < x)%R -> Rsgn x = 1%R.
Proof. intro; unfold Rsgn; destruct (Rlt_dec 0 x); easy. Qed.
Lemma Rsgn_neg x : (x < 0)%R -> Rsgn x = (-1)%R.
Proof.
  intro; unfold Rsgn; destruct (Rlt_dec 0 x); [lra|].
  destruct (Rlt_dec x 0); easy.
Qed.
Lemma Rsgn_0 : Rsgn 0 = 0%R.
Proof. unfold Rsgn; destruct (Rlt_dec 0 0); [lra|]. destruct (Rlt_dec 0 0); lra. Qed.

Lemma Q2R_int z : Q2R (z # 1) = IZR z.
Proof. unfold Q2R; simpl; field. Qed.

(** Exposes the plain real-number expression behind a model definition read over [R]. *)
Ltac toR :=
  unfold ofnat in *;
  cbn [lit ofZ add sub mul div opp absn sgn expn logn sqrn atn sinn cosn pinum powi powr maxn
       minn ltb leb eqb RNum] in *;
  rewrite ?Q2R_int in *;
  unfold Q2R in *; cbn [Qnum Qden] in *.

(* ------------------------------------------------------------------ *)
(** * Extended reals *)

Inductive X := Fin (r : R) | PInf | MInf | NaN.

Definition Xopp (x : X) : X :=
  match x with Fin a => Fin (- a) | PInf => MInf | MInf => PInf | NaN => NaN end.

Definition Xadd (x y : X) : X :=
  match x, y with
  | NaN, _ | _, NaN => NaN
  | Fin a, Fin b => Fin (a + b)
  | PInf, MInf | MInf, PInf => NaN
  | PInf, _ | _, PInf => PInf
  | MInf, _ | _, MInf => MInf
  end.

Definition Xsub (x y : X) : X := Xadd x (Xopp y).

(** infinity with the sign of a (nan when a = 0) *)
Definition Xinf_sgn (a : R) : X :=
  if Rlt_dec 0 a then PInf else if Rlt_dec a 0 then MInf else NaN.

Definition Xmul (x y : X) : X :=
  match x, y with
  | NaN, _ | _, NaN => NaN
  | Fin a, Fin b => Fin (a * b)
  | PInf, PInf | MInf, MInf => PInf
  | PInf, MInf | MInf, PInf => MInf
  | PInf, Fin a | Fin a, PInf => Xinf_sgn a
  | MInf, Fin a | Fin a, MInf => Xinf_sgn (- a)
  end.

(** Simplification: zeros are unsigned (read as +0.0). *)
Definition Xdiv (x y : X) : X :=
  match x, y with
  | NaN, _ | _, NaN => NaN
  | Fin a, Fin b => if Req_EM_T b 0 then Xinf_sgn a else Fin (a / b)
  | Fin _, _ => Fin 0
  | PInf, Fin b => if Rlt_dec b 0 then MInf else PInf
  | MInf, Fin b => if Rlt_dec b 0 then PInf else MInf
  | _, _ => NaN
  end.

Definition Xabs (x : X) : X :=
  match x with Fin a => Fin (Rabs a) | PInf | MInf => PInf | NaN => NaN end.
Definition Xsgn (x : X) : X :=
  match x with Fin a => Fin (Rsgn a) | PInf => Fin 1 | MInf => Fin (-1) | NaN => NaN end.
Definition Xexp (x : X) : X :=
  match x with Fin a => Fin (exp a) | PInf => PInf | MInf => Fin 0 | NaN => NaN end.
Definition Xlog (x : X) : X :=
  match x with
  | Fin a => if Rlt_dec 0 a then Fin (ln a) else if Rlt_dec a 0 then NaN else MInf
  | PInf => PInf | MInf => NaN | NaN => NaN
  end.
Definition Xsqrt (x : X) : X :=
  match x with
  | Fin a => if Rlt_dec a 0 then NaN else Fin (sqrt a)
  | PInf => PInf | MInf => NaN | NaN => NaN
  end.
Definition Xatan (x : X) : X :=
  match x with
  | Fin a => Fin (atan a) | PInf => Fin (PI / 2) | MInf => Fin (- PI / 2) | NaN => NaN end.
Definition Xsin (x : X) : X := match x with Fin a => Fin (sin a) | _ => NaN end.
Definition Xcos (x : X) : X := match x with Fin a => Fin (cos a) | _ => NaN end.
Fixpoint Xpowi (x : X) (k : nat) : X :=
  match k with O => Fin 1 | S k' => Xmul x (Xpowi x k') end.
(** Only finite positive bases are modelled precisely. *)
Definition Xpowr (x y : X) : X :=
  match x, y with
  | Fin a, Fin b => if Rlt_dec 0 a then Fin (Rpower a b) else NaN
  | _, _ => NaN
  end.
Definition Xltb (x y : X) : bool :=
  match x, y with
  | NaN, _ | _, NaN => false
  | Fin a, Fin b => Rltb a b
  | MInf, MInf | PInf, PInf => false
  | MInf, _ | _, PInf => true
  | _, _ => false
  end.
Definition Xeqb (x y : X) : bool :=
  match x, y with
  | Fin a, Fin b => Reqb a b
  | PInf, PInf | MInf, MInf => true
  | _, _ => false
  end.
Definition Xleb (x y : X) : bool := Xltb x y || Xeqb x y.
Definition Xmax (x y : X) : X :=
  match x, y with
  | NaN, _ | _, NaN => NaN
  | _, _ => if Xltb x y then y else x
  end.
Definition Xmin (x y : X) : X :=
  match x, y with
  | NaN, _ | _, NaN => NaN
  | _, _ => if Xltb x y then x else y
  end.

#[export] Instance XNum : Num X := {
  lit := fun q => Fin (Q2R q);
  ofZ := fun z => Fin (IZR z);
  add := Xadd; sub := Xsub; mul := Xmul; div := Xdiv; opp := Xopp;
  absn := Xabs; sgn := Xsgn;
  expn := Xexp; logn := Xlog; sqrn := Xsqrt; atn := Xatan; sinn := Xsin; cosn := Xcos;
  pinum := Fin PI;
  powi := Xpowi; powr := Xpowr;
  maxn := Xmax; minn := Xmin;
  ltb := Xltb; leb := Xleb; eqb := Xeqb
}.
