(** Model of src/finoptions/basic_american_options/__init__.py: Roll-Geske-Whaley, Barone-Adesi-Whaley
    and Bjerksund-Stensland options.

    Simplifications: parameters are numbers (arrays of size > 1 are refused by the constructors, lines
    74-75, 396-397, 704-705); divisions follow numpy (a zero [sigma] given as a Python float would raise
    ZeroDivisionError at [sigma ** 2] denominators).  [while] loops carry explicit fuel; running out of
    fuel is the exception [NoConvergence], which no Python execution raises: theorems about results
    either exclude it or show that enough fuel exists. *)
From Coq Require Import QArith ZArith String List Bool.
From Verif Require Import Num Py MBase MVanilla MTrees.
Import ListNotations.
Open Scope py_scope.

(** Python's [while cond: body] on a loop state *)
Fixpoint while_ {A} (fuel : nat) (cond : A -> bool) (body : A -> res A) (a : A) : res A :=
  if cond a then
    match fuel with
    | O => Err NoConvergence
    | S f => a' <- body a ;; while_ f cond body a'
    end
  else Ok a.

Section American.
Context {T : Type} {N : Num T}.
Local Open Scope num_scope.

(** [_GBSOption(S, K, t, r, b, sigma).call()] and [.put()], as used throughout the module *)
Definition gbs_c (S K t r b : T) (sigma : option T) : res T := gbs_call (GBSOption S K t r b sigma).
Definition gbs_p (S K t r b : T) (sigma : option T) : res T := gbs_put (GBSOption S K t r b sigma).

(** arithmetic with a missing sigma raises TypeError *)
Definition need {A} (o : option A) : res A := of_opt TypeError o.

(* ------------------------------------------------------------------ *)
(** * RollGeskeWhaleyOption *)

(** attributes, __init__.py:64-89 *)
Record rgw := mkRgw { w_S : T; w_K : T; w_t : T; w_td : T; w_r : T; w_D : T; w_sigma : option T }.

(** __init__.py:86-87 *)
Definition rgw_big : T := lit 100000000.
Definition rgw_eps : T := lit (1 # 100000).

(** the test of __init__.py:100 and 109: early exercise is never optimal *)
Definition rgw_never (o : rgw) : bool :=
  w_D o <=? w_K o * (lit 1 - expn (- w_r o * (w_t o - w_td o))).

(** __init__.py:91-103, is_call_optimal *)
Definition rgw_is_call_optimal (o : rgw) : bool := if rgw_never o then false else true.

(** the call on the remaining life [t - td] used by the search (lines 116-118, 124-131, 142-144, 156-158) *)
Definition rgw_ci (o : rgw) (x : T) : res T :=
  gbs_c x (w_K o) (w_t o - w_td o) (w_r o) (w_r o) (w_sigma o).

(** __init__.py:122-131, the doubling loop; state (HighS, ci) *)
Definition rgw_double (fuel : nat) (o : rgw) (HighS ci : T) : res (T * T) :=
  while_ fuel
    (fun st => let '(HighS, ci) := st in
       (ci - HighS - w_D o + w_K o >? lit 0) && (HighS <? rgw_big))
    (fun st => let '(HighS, _) := st in
       let HighS := HighS * lit 2 in ci <- rgw_ci o HighS ;; Ok (HighS, ci))
    (HighS, ci).

(** __init__.py:147-158, the bisection loop; state (LowS, HighS, Ic, ci) *)
Definition rgw_bisect (fuel : nat) (o : rgw) (LowS HighS Ic ci : T) : res (T * T * T * T) :=
  while_ fuel
    (fun st => let '(LowS, HighS, Ic, ci) := st in
       (absn (ci - Ic - w_D o + w_K o) >? rgw_eps) && (HighS - LowS >? rgw_eps))
    (fun st => let '(LowS, HighS, Ic, ci) := st in
       let '(LowS, HighS) := if ci - Ic - w_D o + w_K o <? lit 0 then (LowS, Ic) else (Ic, HighS) in
       let Ic := (HighS + LowS) / lit 2 in
       ci <- rgw_ci o Ic ;; Ok (LowS, HighS, Ic, ci))
    (LowS, HighS, Ic, ci).

(** __init__.py:116-158: the critical stock price, with the final bracket (LowS, HighS, Ic) *)
Definition rgw_search (f1 f2 : nat) (o : rgw) : res (T * T * T) :=
  ci <- rgw_ci o (w_S o) ;;
  st <- rgw_double f1 o (w_S o) ci ;;
  let '(HighS, _) := st in
  if HighS >? rgw_big then Err ValueError
  else
    let Ic := HighS * lit (5#10) in
    ci <- rgw_ci o Ic ;;
    st <- rgw_bisect f2 o (lit 0) HighS Ic ci ;;
    let '(LowS, HighS, Ic, _) := st in Ok (LowS, HighS, Ic).

(** [_CBND] falling off its end returns None, and arithmetic with it raises TypeError *)
Definition cbnd_r (a b rho : T) : res T := need (cbnd a b rho).

(** __init__.py:160-176: the Roll-Geske-Whaley formula at critical price I *)
Definition rgw_formula (o : rgw) (Sx s I : T) : res T :=
  let a1 := (logn (Sx / w_K o) + (w_r o + s ^ 2 / lit 2) * w_t o) / (s * sqrn (w_t o)) in
  let a2 := a1 - s * sqrn (w_t o) in
  let b1 := (logn (Sx / I) + (w_r o + s ^ 2 / lit 2) * w_td o) / (s * sqrn (w_td o)) in
  let b2 := b1 - s * sqrn (w_td o) in
  M1 <- cbnd_r a1 (- b1) (- sqrn (w_td o / w_t o)) ;;
  M2 <- cbnd_r a2 (- b2) (- sqrn (w_td o / w_t o)) ;;
  Ok (Sx * cnd b1 + Sx * M1 - w_K o * expn (- w_r o * w_t o) * M2
      - (w_K o - w_D o) * expn (- w_r o * w_td o) * cnd b2).

(** __init__.py:105-176, call *)
Definition rgw_call (f1 f2 : nat) (o : rgw) : res T :=
  let Sx := w_S o - w_D o * expn (- w_r o * w_td o) in
  if rgw_never o then gbs_c Sx (w_K o) (w_t o) (w_r o) (w_r o) (w_sigma o)
  else
    br <- rgw_search f1 f2 o ;;
    s <- need (w_sigma o) ;;
    rgw_formula o Sx s (snd br).

(* ------------------------------------------------------------------ *)
(** * BAWAmericanApproxOption *)

(** attributes, __init__.py:392-401 and base.py:355-361 (shared with BSAmericanApproxOption) *)
Record amer := mkAmer { y_S : T; y_K : T; y_t : T; y_r : T; y_b : T; y_sigma : option T }.

(** __init__.py:407, 465, 550, 597 *)
Definition baw_n (o : amer) (s : T) : T := lit 2 * y_b o / s ^ 2.
(** __init__.py:417, 478, 551, 598 *)
Definition baw_X (o : amer) (s : T) : T :=
  lit 2 * y_r o / (s ^ 2 * (lit 1 - expn (- y_r o * y_t o))).
(** __init__.py:421, 555: Q2; 482, 602: Q1 *)
Definition baw_Q2 (o : amer) (s : T) : T :=
  let n := baw_n o s in (- (n - lit 1) + sqrn ((n - lit 1) ^ 2 + lit 4 * baw_X o s)) / lit 2.
Definition baw_Q1 (o : amer) (s : T) : T :=
  let n := baw_n o s in (- (n - lit 1) - sqrn ((n - lit 1) ^ 2 + lit 4 * baw_X o s)) / lit 2.
(** __init__.py:418-420 (also 443-445, 479-481, 504-506, 552-554, 599-601) *)
Definition baw_d1 (o : amer) (s Si : T) : T :=
  (logn (Si / y_K o) + (y_b o + s ^ 2 / lit 2) * y_t o) / (s * sqrn (y_t o)).
Definition baw_carry (o : amer) : T := expn ((y_b o - y_r o) * y_t o).

(** __init__.py:407-416: seed of the call search *)
Definition baw_seed_c (o : amer) (s : T) : T :=
  let n := baw_n o s in
  let m := lit 2 * y_r o / s ^ 2 in
  let q2u := (- (n - lit 1) + sqrn ((n - lit 1) ^ 2 + lit 4 * m)) / lit 2 in
  let Su := y_K o / (lit 1 - lit 1 / q2u) in
  let h2 := (- (y_b o * y_t o + lit 2 * s * sqrn (y_t o))) * y_K o / (Su - y_K o) in
  y_K o + (Su - y_K o) * (lit 1 - expn h2).
(** __init__.py:423-426 and 447-450 *)
Definition baw_rhs_c (o : amer) (s Si : T) : res T :=
  c <- gbs_c Si (y_K o) (y_t o) (y_r o) (y_b o) (Some s) ;;
  Ok (c + (lit 1 - baw_carry o * cnd (baw_d1 o s Si)) * Si / baw_Q2 o s).
(** __init__.py:427-436 and 451-460: the slope used by the search *)
Definition baw_bi_c (o : amer) (s Si : T) : T :=
  baw_carry o * cnd (baw_d1 o s Si) * (lit 1 - lit 1 / baw_Q2 o s)
  + (lit 1 - baw_carry o * cnd (baw_d1 o s Si) / (s * sqrn (y_t o))) / baw_Q2 o s.

(** __init__.py:437 and 499 *)
Definition baw_E : T := lit (1 # 1000000).

(** __init__.py:403-462, _bawKc; state (Si, LHS, RHS, bi) *)
Definition baw_Kc (fuel : nat) (o : amer) (s : T) : res T :=
  let Si := baw_seed_c o s in
  RHS <- baw_rhs_c o s Si ;;
  st <- while_ fuel
          (fun st => let '(Si, LHS, RHS, bi) := st in absn (LHS - RHS) / y_K o >? baw_E)
          (fun st => let '(Si, LHS, RHS, bi) := st in
             let Si := (y_K o + RHS - bi * Si) / (lit 1 - bi) in
             RHS <- baw_rhs_c o s Si ;;
             Ok (Si, Si - y_K o, RHS, baw_bi_c o s Si))
          (Si, Si - y_K o, RHS, baw_bi_c o s Si) ;;
  let '(Si, _, _, _) := st in Ok Si.

(** __init__.py:468-477: seed of the put search *)
Definition baw_seed_p (o : amer) (s : T) : T :=
  let n := baw_n o s in
  let m := lit 2 * y_r o / s ^ 2 in
  let q1u := (- (n - lit 1) - sqrn ((n - lit 1) ^ 2 + lit 4 * m)) / lit 2 in
  let Su := y_K o / (lit 1 - lit 1 / q1u) in
  let h1 := (y_b o * y_t o - lit 2 * s * sqrn (y_t o)) * y_K o / (y_K o - Su) in
  Su + (y_K o - Su) * expn h1.
(** __init__.py:484-487 and 508-513 *)
Definition baw_rhs_p (o : amer) (s Si : T) : res T :=
  p <- gbs_p Si (y_K o) (y_t o) (y_r o) (y_b o) (Some s) ;;
  Ok (p - (lit 1 - baw_carry o * cnd (- baw_d1 o s Si)) * Si / baw_Q1 o s).
(** __init__.py:488-497 and 514-523 *)
Definition baw_bi_p (o : amer) (s Si : T) : T :=
  (- baw_carry o) * cnd (- baw_d1 o s Si) * (lit 1 - lit 1 / baw_Q1 o s)
  - (lit 1 + baw_carry o * cnd (- baw_d1 o s Si) / (s * sqrn (y_t o))) / baw_Q1 o s.

(** __init__.py:464-525, _bawKp *)
Definition baw_Kp (fuel : nat) (o : amer) (s : T) : res T :=
  let Si := baw_seed_p o s in
  RHS <- baw_rhs_p o s Si ;;
  st <- while_ fuel
          (fun st => let '(Si, LHS, RHS, bi) := st in absn (LHS - RHS) / y_K o >? baw_E)
          (fun st => let '(Si, LHS, RHS, bi) := st in
             let Si := (y_K o - RHS + bi * Si) / (lit 1 + bi) in
             RHS <- baw_rhs_p o s Si ;;
             Ok (Si, y_K o - Si, RHS, baw_bi_p o s Si))
          (Si, y_K o - Si, RHS, baw_bi_p o s Si) ;;
  let '(Si, _, _, _) := st in Ok Si.

(** __init__.py:527-572, call *)
Definition baw_call (fuel : nat) (o : amer) : res T :=
  if y_b o >=? y_r o then gbs_c (y_S o) (y_K o) (y_t o) (y_r o) (y_b o) (y_sigma o)
  else
    s <- need (y_sigma o) ;;
    Sk <- baw_Kc fuel o s ;;
    let Q2 := baw_Q2 o s in
    let a2 := (Sk / Q2) * (lit 1 - baw_carry o * cnd (baw_d1 o s Sk)) in
    if y_S o <? Sk then
      c <- gbs_c (y_S o) (y_K o) (y_t o) (y_r o) (y_b o) (y_sigma o) ;;
      Ok (c + a2 * (y_S o / Sk) ** Q2)
    else Ok (y_S o - y_K o).

(** __init__.py:574-612, put *)
Definition baw_put (fuel : nat) (o : amer) : res T :=
  s <- need (y_sigma o) ;;
  Sk <- baw_Kp fuel o s ;;
  let Q1 := baw_Q1 o s in
  let a1 := (- (Sk / Q1)) * (lit 1 - baw_carry o * cnd (- baw_d1 o s Sk)) in
  if y_S o >? Sk then
    p <- gbs_p (y_S o) (y_K o) (y_t o) (y_r o) (y_b o) (y_sigma o) ;;
    Ok (p + a1 * (y_S o / Sk) ** Q1)
  else Ok (y_K o - y_S o).

(* ------------------------------------------------------------------ *)
(** * BSAmericanApproxOption *)

(** __init__.py:857-876, _bsPhi, over the distribution function [F] ([self._CND] in the code) *)
Definition bs_phi_F (F : T -> T) (S Time gamma H I r b sigma : T) : T :=
  let lamb := (- r + gamma * b + lit (5#10) * gamma * (gamma - lit 1) * sigma ^ 2) * Time in
  let d := (- (logn (S / H) + (b + (gamma - lit (5#10)) * sigma ^ 2) * Time)) / (sigma * sqrn Time) in
  let kappa := lit 2 * b / sigma ^ 2 + (lit 2 * gamma - lit 1) in
  expn lamb * S ** gamma
  * (F d - (I / S) ** kappa * F (d - lit 2 * logn (I / S) / (sigma * sqrn Time))).

(** __init__.py:834-836 *)
Definition bs_Beta (r b sigma : T) : T :=
  (lit 1 / lit 2 - b / sigma ^ 2)
  + sqrn ((b / sigma ^ 2 - lit 1 / lit 2) ^ 2 + lit 2 * r / sigma ^ 2).

(** __init__.py:837-841: the trigger price I *)
Definition bs_trigger (X Time r b sigma : T) : T :=
  let Beta := bs_Beta r b sigma in
  let BInfinity := Beta / (Beta - lit 1) * X in
  let B0 := pymax X (r / (r - b) * X) in
  let ht := (- (b * Time + lit 2 * sigma * sqrn Time)) * B0 / (BInfinity - B0) in
  B0 + (BInfinity - B0) * (lit 1 - expn ht).

(** __init__.py:823-855, _BSAmericanCallApprox: (OptionPrice, TriggerPrice), [None] for nan *)
Definition bs_approx_F (F : T -> T) (S X Time r b : T) (sigma : option T) : res (T * option T) :=
  if b >=? r then
    c <- gbs_call_F F (GBSOption S X Time r b sigma) ;; Ok (c, None)
  else
    s <- need sigma ;;
    let Beta := bs_Beta r b s in
    let I := bs_trigger X Time r b s in
    let alpha := (I - X) * I ** (- Beta) in
    if S >=? I then Ok (S - X, Some I)
    else
      Ok (alpha * S ** Beta
          - alpha * bs_phi_F F S Time Beta I I r b s
          + bs_phi_F F S Time (lit 1) I I r b s
          - bs_phi_F F S Time (lit 1) X I r b s
          - X * bs_phi_F F S Time (lit 0) I I r b s
          + X * bs_phi_F F S Time (lit 0) X I r b s, Some I).

(** __init__.py:776-797 and 799-821 *)
Definition bs_call_F (F : T -> T) (o : amer) : res (T * option T) :=
  bs_approx_F F (y_S o) (y_K o) (y_t o) (y_r o) (y_b o) (y_sigma o).
Definition bs_put_F (F : T -> T) (o : amer) : res (T * option T) :=
  bs_approx_F F (y_K o) (y_S o) (y_t o) (y_r o - y_b o) (- y_b o) (y_sigma o).
Definition bs_call := bs_call_F cnd.
Definition bs_put := bs_put_F cnd.
End American.
Arguments rgw : clear implicits.
Arguments amer : clear implicits.
