(** Floating-point arithmetic: every operation is the exact one followed by a rounding function, and the
    library functions (exp, log, sqrt, ...) are arbitrary functions on the reals.

    Simplifications: numbers are real numbers, so there is no overflow, and dividing by zero gives an unspecified number
    instead of an infinity or nan; the theorems that use this arithmetic exclude division by zero where it matters.
    Underflow is covered (rounding may give 0). *)
From Coq Require Import Reals QArith Qreals ZArith.
From Verif Require Import Num.
Open Scope R_scope.

Record fp := mkFp {
  rnd : R -> R;                                            (* rounding to a floating-point number *)
  f_exp : R -> R; f_log : R -> R; f_sqrt : R -> R; f_atan : R -> R; f_sin : R -> R; f_cos : R -> R;
  f_pi : R; f_powi : R -> nat -> R; f_powr : R -> R -> R }.  (* the library functions *)

Definition FNum (A : fp) : Num R := {|
  lit q := rnd A (Q2R q);
  ofZ z := rnd A (IZR z);
  add x y := rnd A (x + y); sub x y := rnd A (x - y); mul x y := rnd A (x * y); div x y := rnd A (x / y);
  opp := Ropp; absn := Rabs; sgn := Rsgn;
  expn := f_exp A; logn := f_log A; sqrn := f_sqrt A; atn := f_atan A; sinn := f_sin A; cosn := f_cos A;
  pinum := f_pi A; powi := f_powi A; powr := f_powr A;
  maxn := Rmax; minn := Rmin;
  ltb := Rltb; leb := Rleb; eqb := Reqb
|}.
