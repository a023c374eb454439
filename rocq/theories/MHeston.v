(** Model of heston_nandi_options/__init__.py: the option, the GARCH filter, fit and simulation. *)
From Coq Require Import Reals QArith ZArith List Bool.
From Verif Require Import Num Py MAmerican MMonte.
Import ListNotations.
Open Scope num_scope.
Open Scope py_scope.

(* ------------------------------------------------------------------ *)
(** * Complex numbers as numpy computes with them *)
Section Complex.
Context {T : Type} `{Num T}.
Definition cx : Type := T * T.
Definition re (z : cx) : T := fst z.
Definition im (z : cx) : T := snd z.
Definition cre (x : T) : cx := (x, lit 0).
Definition cadd (z w : cx) : cx := (re z + re w, im z + im w).
Definition csub (z w : cx) : cx := (re z - re w, im z - im w).
Definition copp (z : cx) : cx := (- re z, - im z).
Definition cmul (z w : cx) : cx := (re z * re w - im z * im w, re z * im w + im z * re w).
Definition cscal (x : T) (z : cx) : cx := (x * re z, x * im z).
Definition cdiv (z w : cx) : cx :=
  let d := re w ^ 2 + im w ^ 2 in
  ((re z * re w + im z * im w) / d, (im z * re w - re z * im w) / d).
Definition cdivr (z : cx) (x : T) : cx := (re z / x, im z / x).
Definition cexp (z : cx) : cx := (expn (re z) * cosn (im z), expn (re z) * sinn (im z)).
(** the argument in (-pi, pi] *)
Definition carg (z : cx) : T :=
  if lit 0 <? re z then atn (im z / re z)
  else if re z <? lit 0 then if im z <? lit 0 then atn (im z / re z) - pinum else atn (im z / re z) + pinum
  else if lit 0 <? im z then pinum / lit 2 else if im z <? lit 0 then - (pinum / lit 2) else lit 0.
Definition clog (z : cx) : cx := (logn (sqrn (re z ^ 2 + im z ^ 2)), carg z).
End Complex.
Arguments cx : clear implicits.

(* ------------------------------------------------------------------ *)
(** * The option *)

(** the number of days: [range(1, t)] accepts an int, a float raises TypeError *)
Inductive days (T : Type) := DInt (z : Z) | DFloat (x : T).
Arguments DInt {T}. Arguments DFloat {T}.

Section Heston.
Context {T : Type} `{Num T}.

Definition days_num (t : days T) : T := match t with DInt z => ofZ z | DFloat x => x end.
(** how often the loop over [range(1, t)] runs *)
Definition days_range (t : days T) : res nat :=
  match t with DInt z => Ok (Z.to_nat (z - 1)) | DFloat _ => Err TypeError end.

(** __init__.py:30-101, HestonNandiOption.__init__: the arguments are stored unchecked; the model
    argument is ignored *)
Record hn := mkHn {
  h_S : T; h_K : T; h_t : days T; h_r : T;
  h_lamb : option T; h_omega : option T; h_alpha : option T; h_beta : option T; h_gamma : option T }.

(** __init__.py:199-204: one pass of the loop over the days, [g] the risk-neutral gamma, [l] = -1/2 *)
Definition hn_step (omega alpha beta g l r : T) (cphi : cx T) (ab : cx T * cx T) : cx T * cx T :=
  let '(a, b) := ab in
  let one_2ab := csub (cre (lit 1)) (cscal (lit 2 * alpha) b) in
  (csub (cadd (cadd a (cscal r cphi)) (cscal omega b)) (cdivr (clog one_2ab) (lit 2)),
   cadd (cadd (csub (cscal (l + g) cphi) (cre (g ^ 2 / lit 2))) (cscal beta b))
        (cdiv (cscal (lit 0.5) (cmul (csub cphi (cre g)) (csub cphi (cre g)))) one_2ab)).
(** __init__.py:197-204: a and b after the loop ([n] passes) *)
Fixpoint hn_ab (omega alpha beta g l r : T) (cphi : cx T) (n : nat) : cx T * cx T :=
  match n with
  | O => (cscal r cphi, cadd (cscal l cphi) (cdivr (cmul cphi cphi) (lit 2)))
  | S n' => hn_step omega alpha beta g l r cphi (hn_ab omega alpha beta g l r cphi n')
  end.

(** __init__.py:183-211, _fHN with real=False.  Simplification: the one-element arrays are scalars. *)
Definition fHN_complex (o : hn) (phi const : T) : res (cx T) :=
  lamb <- need (h_lamb o) ;; omega <- need (h_omega o) ;; alpha <- need (h_alpha o) ;;
  beta <- need (h_beta o) ;; gamma <- need (h_gamma o) ;;
  let g := gamma + lamb + lit (1#2) in
  let l := lit (-1#2) in
  let sigma2 := (omega + alpha) / (lit 1 - beta - alpha * g ^ 2) in
  let cphi0 := (lit 0, phi) in
  let cphi := cadd cphi0 (cre const) in
  n <- days_range (h_t o) ;;
  let '(a, b) := hn_ab omega alpha beta g l (h_r o) cphi n in
  Ok (cdivr (cdiv (cexp (cadd (cadd (cadd (cscal (- logn (h_K o)) cphi0) (cscal (logn (h_S o)) cphi)) a) (cscal sigma2 b))) cphi0) pinum).
(** __init__.py:206-207, _fHN with real=True: the real part is taken before dividing by pi *)
Definition fHN (o : hn) (const phi : T) : res T := rmap re (fHN_complex o phi const).
(** __init__.py:214-221, _fdeltaHN *)
Definition fdeltaHN (o : hn) (const phi : T) : res T :=
  f <- fHN_complex o phi const ;;
  let cphi := cadd (lit 0, phi) (cre const) in
  Ok (re (cdivr (cmul cphi f) (h_S o))).
(** __init__.py:224-234, _fgammaHN *)
Definition fgammaHN (o : hn) (const phi : T) : res T :=
  f <- fHN_complex o phi const ;;
  let cphi := cadd (lit 0, phi) (cre const) in
  Ok (re (cdivr (cmul (cmul cphi (csub cphi (cre (lit 1)))) f) (h_S o ^ 2))).

(** scipy's [quad(f, 0, inf, ...)[0]] is an argument of the model *)
Section Quad.
Variable quad : (T -> res T) -> res T.
(** __init__.py:103-134 *)
Definition hn_call (o : hn) : res T :=
  call1 <- quad (fHN o (lit 1)) ;;
  call2 <- quad (fHN o (lit 0)) ;;
  let t := days_num (h_t o) in
  Ok (h_S o / lit 2 + expn (- h_r o * t) * call1 - h_K o * expn (- h_r o * t) * (lit 1 / lit 2 + call2)).
(** __init__.py:136-137 *)
Definition hn_put (o : hn) : res T :=
  c <- hn_call o ;;
  Ok (c + h_K o * expn (- h_r o * days_num (h_t o)) - h_S o).
(** __init__.py:140-160 *)
Definition hn_delta (call : bool) (o : hn) : res T :=
  delta1 <- quad (fdeltaHN o (lit 1)) ;;
  delta2 <- quad (fdeltaHN o (lit 0)) ;;
  let t := days_num (h_t o) in
  let greek := lit 1 / lit 2 + expn (- h_r o * t) * delta1 - h_K o * expn (- h_r o * t) * delta2 in
  Ok (if call then greek else greek - lit 1).
(** __init__.py:162-180 *)
Definition hn_gamma (o : hn) : res T :=
  gamma1 <- quad (fgammaHN o (lit 1)) ;;
  gamma2 <- quad (fgammaHN o (lit 0)) ;;
  let t := days_num (h_t o) in
  Ok (expn (- h_r o * t) * gamma1 - h_K o * expn (- h_r o * t) * gamma2).
End Quad.

(* ------------------------------------------------------------------ *)
(** * GARCH filter, fit and simulation *)

(** __init__.py:256-259: the transformation keeping parameters between 0 and 1 *)
Definition logistic (x : T) : T := lit 1 / (lit 1 + expn (- x)).
(** __init__.py:315-317: and the one applied to the start values *)
Definition logit (p : T) : T := - logn ((lit 1 - p) / p).

(** truth value of [~symmetric] for a Python bool: ~True = -2, ~False = -1 *)
Definition inverted (symmetric : bool) : bool := negb (Z.eqb (Z.lnot (if symmetric then 1 else 0)%Z) 0).

(** __init__.py:268-274: the loop, from the previous h and z on *)
Fixpoint hn_filter_from (lamb omega alpha beta gam rfr : T) (h z : T) (x : list T) : list (T * T) :=
  match x with
  | [] => []
  | xi :: x' =>
    let hi := omega + alpha * (z - gam * sqrn h) ^ 2 + beta * h in
    let zi := (xi - rfr - lamb * hi) / sqrn hi in
    (hi, zi) :: hn_filter_from lamb omega alpha beta gam rfr hi zi x'
  end.
(** __init__.py:266-274; an empty series raises IndexError *)
Definition hn_filter (lamb omega alpha beta gam rfr : T) (x : list T) : res (list (T * T)) :=
  match x with
  | [] => Err IndexError
  | x0 :: x' =>
    let h0 := (omega + alpha) / (lit 1 - alpha * gam * gam - beta) in
    let z0 := (x0 - rfr - lamb * h0) / sqrn h0 in
    Ok ((h0, z0) :: hn_filter_from lamb omega alpha beta gam rfr h0 z0 x')
  end.
(** scipy.stats.norm.pdf *)
Definition norm_pdf (z : T) : T := expn (- (z ^ 2) / lit 2) / sqrn (lit 2 * pinum).

(** __init__.py:236-242, ParamFit *)
Record param_fit := mkFit { f_llh : T; f_z : list T; f_h : list T }.

(** [x0[i]] *)
Definition item (l : list T) (i : nat) : res T := of_opt IndexError (nth_error l i).

(** __init__.py:245-289, _llhHNGarch; the result with ret_obj=True (with ret_obj=False it is [f_llh]) *)
Definition llhHNGarch (x0 : list T) (symmetric : bool) (rfr : T) (x : list T) : res param_fit :=
  lamb <- item x0 0 ;; omega <- item x0 1 ;; alpha <- item x0 2 ;; beta <- item x0 3 ;; gamma <- item x0 4 ;;
  let omega := logistic omega in
  let alpha := logistic alpha in
  let beta := logistic beta in
  let gam := if inverted symmetric then gamma else lit 0 in
  hz <- hn_filter lamb omega alpha beta gam rfr x ;;
  Ok (mkFit (- suml (map (fun p => logn (norm_pdf (snd p) / sqrn (fst p))) hz)) (map snd hz) (map fst hz)).

(** what hngarch_fit returns *)
Record garch_fit := mkGarch {
  g_value : T; g_minimum : T; g_estimate : list T; g_h : list T; g_z : list T;
  g_lamb : T; g_omega : T; g_alpha : T; g_beta : T; g_gamma : T; g_rf : T;
  g_persistence : T; g_sigma2 : T }.

(** [l[i] = v] *)
Fixpoint set_item (l : list T) (i : nat) (v : T) : list T :=
  match l, i with
  | [], _ => []
  | _ :: l', O => v :: l'
  | y :: l', S i' => y :: set_item l' i' v
  end.

(** [numpy.var] *)
Definition varl (x : list T) : T := meanl (map (fun y => (y - meanl x) ^ 2) x).

(** __init__.py:292-374, hngarch_fit; [minimize start] stands for scipy's L-BFGS-B minimisation of the
    likelihood from the start values, giving [(res.x, res.fun)]; any exception it raises is its own *)
Definition hngarch_fit (minimize : (list T -> res T) -> list T -> res (list T * T))
    (x : list T) (lamb : T) (omega alpha : option T) (beta gamma rf : T) (symmetric : bool) : res garch_fit :=
  let omega := match omega with None => varl x | Some w => w end in
  let alpha := match alpha with None => lit 0.1 * omega | Some a => a end in
  let par_start := ([lamb; logit omega; logit alpha; logit beta] ++ (if inverted symmetric then [gamma] else []))%list in
  let llh p := rmap f_llh (llhHNGarch p symmetric rf x) in
  value <- llh par_start ;;
  rs <- minimize llh par_start ;;
  let '(est, fn) := rs in
  let minimum := - fn + ofnat (List.length x) * sqrn (lit 2 * pinum) in
  final <- llhHNGarch est symmetric rf x ;;
  lamb <- item est 0 ;; e1 <- item est 1 ;; e2 <- item est 2 ;; e3 <- item est 3 ;; e4 <- item est 4 ;;
  let omega := logistic e1 in
  let alpha := logistic e2 in
  let beta := logistic e3 in
  let est := set_item (set_item (set_item est 1 omega) 2 alpha) 3 beta in
  let est := if symmetric then set_item est 4 (lit 0) else est in
  gam <- item est 4 ;;
  let persistence := beta + alpha * gam * gam in
  Ok (mkGarch value minimum est (f_h final) (f_z final) lamb omega alpha beta gam rf
        persistence ((omega + alpha) / (lit 1 - persistence))).

(** __init__.py:425-429: [k] more passes of the simulation loop; [zs] are the innovations still to come,
    the entries of x not reached keep their innovation; IndexError if the innovations run out *)
Fixpoint sim_from (lamb omega alpha beta gamma rf : T) (h z : T) (k : nat) (zs : list T) : res (list T) :=
  match k, zs with
  | O, _ => Ok zs
  | S _, [] => Err IndexError
  | S k', zi :: zs' =>
    let hi := omega + alpha * (z - gamma * sqrn h) ^ 2 + beta * h in
    xs <- sim_from lamb omega alpha beta gamma rf hi zi k' zs' ;;
    Ok ((rf + lamb * hi + sqrn hi * zi) :: xs)
  end.

(** __init__.py:377-438, hngarch_sim; [normal k n] is the result of the k-th call of
    [numpy.random.normal(0, 1, n)]; [n], [n_start] natural numbers *)
Definition hngarch_sim (normal : nat -> nat -> list T) (lamb : T) (omega alpha : option T) (beta gamma rf : T)
    (n n_start : nat) (inno inno_start : option (list T)) : res (list T) :=
  let inno := match inno with None => normal 0%nat n | Some z => z end in
  let inno_start := match inno_start with None => if Nat.ltb 0%nat n_start then Some (normal 1%nat n_start) else None | s => s end in
  let Z := match inno_start with None => inno | Some s => (s ++ inno)%list end in
  omega <- need omega ;; alpha <- need alpha ;;
  match Z with
  | [] => Err IndexError
  | z0 :: zs =>
    let h0 := (omega + alpha) / (lit 1 - alpha * gamma * gamma - beta) in
    xs <- sim_from lamb omega alpha beta gamma rf h0 z0 (n_start + n - 1)%nat zs ;;
    Ok (skipn n_start ((rf + lamb * h0 + sqrn h0 * z0) :: xs))
  end.
End Heston.
Arguments hn : clear implicits.
Arguments garch_fit : clear implicits.
Arguments param_fit : clear implicits.
