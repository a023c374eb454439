(** Model of monte_carlo_options: innovations, paths, payoffs and [MonteCarloOption]. *)
From Coq Require Import Reals QArith ZArith List Bool.
From Verif Require Import Num Py MAmerican.
Import ListNotations.
Open Scope num_scope.
Open Scope py_scope.

Section Monte.
Context {T : Type} `{Num T}.

(** a two-dimensional numpy array, by rows *)
Definition matrix := list (list T).

(** [numpy.sum], [numpy.mean] and [numpy.std] of the entries of a list (population standard deviation) *)
Definition suml (l : list T) : T := fold_left add l (lit 0).
Definition meanl (l : list T) : T := suml l / ofnat (List.length l).
Definition stdl (l : list T) : T := sqrn (meanl (map (fun x => (x - meanl l) ^ 2) l)).

(** [numpy.cumsum] of a row *)
Fixpoint cumsum_from (acc : T) (l : list T) : list T :=
  match l with [] => [] | x :: l' => (acc + x) :: cumsum_from (acc + x) l' end.
Definition cumsum (l : list T) : list T := cumsum_from (lit 0) l.

(** [x == numpy.inf]: the number is above zero and adding one does not change it *)
Definition is_pinf (x : T) : bool := (lit 0 <? x) && (x =? x + lit 1).

(* ------------------------------------------------------------------ *)
(** * Paths, mc_paths.py *)

(** mc_paths.py:33-35, WienerPath.generate_path; [None ** 2] raises TypeError *)
Definition wiener_path (epsilon : matrix) (sigma : option T) (dt b : T) : res matrix :=
  s <- need sigma ;;
  Ok (map (map (fun e => (b - s ^ 2 / lit 2) * dt + s * sqrn dt * e)) epsilon).

(* ------------------------------------------------------------------ *)
(** * Payoffs, mc_payoffs.py *)

(** the part of a Payoff object the methods read: the generated path and S, K, t, r *)
Record payoff_args := mkPay { p_path : res matrix; p_S : T; p_K : T; p_t : T; p_r : T }.

(** mc_payoffs.py:28, 32: terminal prices *)
Definition terminal_prices (a : payoff_args) : res (list T) :=
  m <- p_path a ;; Ok (map (fun row => p_S a * expn (suml row)) m).
(** mc_payoffs.py:38-39, 43-44: average prices along each path *)
Definition average_prices (a : payoff_args) : res (list T) :=
  m <- p_path a ;; Ok (map (fun row => meanl (map (fun c => p_S a * expn c) (cumsum row))) m).

(** mc_payoffs.py:26-33, PlainVanillaPayoff.call and .put *)
Definition vanilla_payoff (call : bool) (a : payoff_args) : res (list T) :=
  st <- terminal_prices a ;;
  Ok (map (fun x => expn (- p_r a * p_t a) * maxn (if call then x - p_K a else p_K a - x) (lit 0)) st).
(** mc_payoffs.py:36-45, ArithmeticAsianPayoff.call and .put *)
Definition asian_payoff (call : bool) (a : payoff_args) : res (list T) :=
  sm <- average_prices a ;;
  Ok (map (fun x => expn (- p_r a * p_t a) * maxn (if call then x - p_K a else p_K a - x) (lit 0)) sm).

(* ------------------------------------------------------------------ *)
(** * Innovations, mc_innovations.py *)

(** mc_innovations.py:46-62, _get_sobol: [points] is the Sobol sequence of a freshly constructed sampler,
    [ppf] scipy's normal quantile function.  [random(n)] returns points 0..n-1; without scrambling the
    first is dropped and point n appended. *)
Definition get_sobol (points : nat -> list T) (ppf : T -> T) (scramble : bool) (mc_paths : nat) : matrix :=
  let sobol := map points (seq 0 mc_paths) in
  let sobol := if scramble then sobol else (tl sobol ++ [points mc_paths])%list in
  map (map ppf) sobol.

(** [numpy.max] of an array; numpy raises ValueError on an empty one; nan propagates *)
Definition npmax (l : list T) : res T :=
  match l with [] => Err ValueError | x :: l' => Ok (fold_left maxn l' x) end.

(** mc_innovations.py:33-36: the guard of the retry loop, [abs(max(sobol)) == inf] *)
Definition sobol_bad (m : matrix) : res bool :=
  x <- npmax (concat m) ;; Ok (is_pinf (absn x)).

(** mc_innovations.py:33-44, NormalSobolInnovations.sample_innovation; [draw k] is the k-th matrix
    produced by _get_sobol (each call builds a new, newly scrambled sampler); the state is the number of
    draws made; [NoConvergence] stands for exhausted fuel. *)
Fixpoint sobol_loop (fuel : nat) (draw : nat -> matrix) (k : nat) : res (matrix * nat) :=
  bad <- sobol_bad (draw k) ;;
  if bad then match fuel with O => Err NoConvergence | S f => sobol_loop f draw (S k) end
  else Ok (draw k, S k).
Definition sobol_sample (fuel : nat) (draw : nat -> matrix) (eps : option matrix) (k : nat) : res (matrix * nat) :=
  mk <- sobol_loop fuel draw k ;;
  Ok (match eps with None => fst mk | Some e => e end, snd mk).

(* ------------------------------------------------------------------ *)
(** * MonteCarloOption, __init__.py *)

(** what call() and put() return: an array with a price per loop, or, when a loop's mean is +inf, the
    triple (eps, path, payoff) of that loop (__init__.py:340-342; the path object is the matrix it generates) *)
Inductive mc_result :=
| MArray (prices : list T)
| MDump (loop : nat) (eps : matrix) (path : res matrix) (payoff : list T).

(** the Innovation class: a sampler threading some state of the random generator *)
Section Option.
Context {St : Type}.

Record mc := mkMc {
  m_loops : nat; m_length : nat; m_paths : nat;
  m_dt : T; m_S : T; m_K : T; m_t : T; m_r : T; m_b : T; m_sigma : option T;
  m_inno : St -> res (matrix * St);
  m_path : matrix -> option T -> T -> T -> res matrix;
  m_pay : bool -> payoff_args -> res (list T);
  m_trace : bool; m_anti : bool; m_std : bool }.

(** __init__.py:188-226; [t / path_length] raises ZeroDivisionError for path_length = 0.
    [Innovation(mc_paths, path_length, eps)] is the sampler it is applied to. *)
Definition MonteCarloOption (mc_loops path_length mc_paths : nat) (S K t r b : T) (sigma : option T)
    (Innovation : nat -> nat -> St -> res (matrix * St)) Path Payoff (trace antithetic standardization : bool) : res mc :=
  if Nat.eqb path_length 0 then Err ZeroDivisionError
  else Ok (mkMc mc_loops path_length mc_paths (t / ofnat path_length) S K t r b sigma
             (Innovation mc_paths path_length) Path Payoff trace antithetic standardization).

(** __init__.py:313-315 *)
Definition mc_antithetic (eps : matrix) : matrix := (eps ++ map (map opp) eps)%list.
(** __init__.py:317-318 *)
Definition mc_standardize (eps : matrix) : matrix :=
  let m := meanl (concat eps) in let s := stdl (concat eps) in map (map (fun e => (e - m) / s)) eps.
(** __init__.py:311-318: the innovations handed to the path *)
Definition mc_innovations (o : mc) (eps : matrix) : matrix :=
  let eps := if m_anti o then mc_antithetic eps else eps in
  if m_std o then mc_standardize eps else eps.

(** __init__.py:322-336: one loop's payoffs from the sampled innovations *)
Definition mc_loop_path (o : mc) (eps : matrix) : res matrix :=
  m_path o (mc_innovations o eps) (m_sigma o) (m_dt o) (m_b o).
Definition mc_loop_payoff (o : mc) (call : bool) (eps : matrix) : res (list T) :=
  m_pay o call (mkPay (mc_loop_path o eps) (m_S o) (m_K o) (m_t o) (m_r o)).

(** __init__.py:301-346, _sim_mc: [i] is the loop counter, [todo] the loops left, [acc] the prices so far
    (the remaining entries of [iteration] are still zero) *)
Fixpoint sim_mc_from (o : mc) (call : bool) (todo i : nat) (acc : list T) (st : St) : res (mc_result * St) :=
  match todo with
  | O => Ok (MArray acc, st)
  | S todo' =>
    es <- m_inno o st ;;
    payoff <- mc_loop_payoff o call (fst es) ;;
    let tmp := meanl payoff in
    if is_pinf tmp then Ok (MDump i (mc_innovations o (fst es)) (mc_loop_path o (fst es)) payoff, snd es)
    else sim_mc_from o call todo' (S i) (acc ++ [tmp])%list (snd es)
  end.
Definition sim_mc (o : mc) (call : bool) (st : St) : res (mc_result * St) := sim_mc_from o call (m_loops o) 0 [] st.

(** __init__.py:286-299, _print_trace: what is printed per loop: (i, iteration[i], sum(iteration)/(i+1)).
    For a dump, [enumerate] runs over the triple and [numpy.sum] of a ragged tuple fails: TypeError/ValueError;
    the model says ValueError. *)
Fixpoint trace_from (i : nat) (total : T) (l : list T) : list (nat * T * T) :=
  match l with [] => [] | x :: l' => (i, x, total / ofnat (S i)) :: trace_from (S i) total l' end.
Definition print_trace (m : mc_result) : res (list (nat * T * T)) :=
  match m with MArray l => Ok (trace_from 0 (suml l) l) | MDump _ _ _ _ => Err ValueError end.

(** __init__.py:228-255 and 257-284: the returned object, what is printed, the sampler's new state *)
Definition mc_price (call : bool) (o : mc) (st : St) : res (mc_result * list (nat * T * T) * St) :=
  it <- sim_mc o call st ;;
  if m_trace o then tr <- print_trace (fst it) ;; Ok (fst it, tr, snd it)
  else Ok (fst it, [], snd it).
Definition mc_call := mc_price true.
Definition mc_put := mc_price false.
End Option.
End Monte.
Arguments matrix : clear implicits.
Arguments mc_result : clear implicits.
Arguments payoff_args : clear implicits.
Arguments mc : clear implicits.
