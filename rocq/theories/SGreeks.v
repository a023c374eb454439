(** Specification vocabulary for elasticities and the dictionary of all Greeks. *)
From Coq Require Import String List Arith ZArith QArith Bool.
From Verif Require Import Num Py Arr MSpread MAmerican MObjects MClasses SObjects.
Import ListNotations.
Open Scope py_scope.
Open Scope string_scope.

Section Spec.
Context {T : Type} {N : Num T}.
Variable diff : nat -> option T -> T -> strat T.

(** lambda: the percentage change of the price per percentage change of the spot, delta * spot / price, one
    number per underlying asset; price and delta are those of an option with the current arguments.
    Roll-Geske-Whaley prices calls only. *)
Definition spots (class : string) : list string :=
  if isin class two_asset then ["S1"; "S2"]
  else if isin class ["Black76Option"; "MiltersenSchwartzOption"] then ["FT"] else ["S"].
Definition lambda_expected (c : cls T) (kw : dict (pyv T)) (call : bool) : res (list (string * T)) :=
  let call := if String.eqb (c_class c) "RollGeskeWhaleyOption" then true else call in
  _ <- fdm_check c kw "lambda" ;;
  price <- fresh c (c_own_der c) call kw ;;
  deltas <- mapM (fd_expected diff c kw call) (expected (c_class c) "delta") ;;
  mapM (fun pd => let '(p, (_, delta)) := pd in
          spot <- as_num (arg_value c kw p) ;;
          Ok (if isin (c_class c) two_asset then p else "lambda", (delta * spot / price)%num))
       (combine (spots (c_class c)) deltas).

(** the Greeks in the dictionary *)
Definition all_greeks (class : string) : list string :=
  if String.eqb class "MiltersenSchwartzOption" then ["delta"; "theta"; "vega"; "lambda"; "gamma"]
  else ["delta"; "theta"; "vega"; "rho"; "lambda"; "gamma"].
End Spec.
