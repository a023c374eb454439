(** Model of the methods [lamb] (elasticity) and [greeks] (dictionary of all Greeks) computed by finite
    differences: base.py:254-271 and 291-312 and the overrides of the option classes.  The analytic
    versions of the Black-Scholes classes are in MVanilla.v. *)
From Coq Require Import String List Arith ZArith QArith Bool.
From Verif Require Import Num Py Arr MSpread MAmerican MObjects MClasses.
Import ListNotations.
Open Scope py_scope.
Open Scope string_scope.

Section Greeks.
Context {T : Type} {N : Num T}.
Local Notation pyv := (pyv T).
Local Notation dict := (dict pyv).
Local Notation heap := (heap T).
Variable diff : nat -> option T -> T -> strat T.

(** a method called on [self._greeks], which refers to the option at [o]: delta, theta, vega, rho, gamma
    of GreeksFDM, base.py:181-252 and 273-289 *)
Definition fdm_method (own : bool) (o : nat) (name : string) (call : bool) (h : heap) : res (list (string * T)) * heap :=
  match dget (base_greeks (T := T)) name with
  | Some gm => fd_all diff own o (if gm_flag gm then call else true) (gm_specs gm) h
  | None => (Err AttributeError, h)
  end.

(** how a class computes lamb: by [self._greeks.lamb] or in its own method; does it take the flag [call];
    a check that may raise first; does it read the entry "OptionPrice" of the price; for each entry of
    the result its key, the key of the delta used, and the attribute holding the spot *)
Record lmeth := mkLM {
  lm_via : bool; lm_flag : bool; lm_guard : option (meth T unit); lm_dict : bool;
  lm_comps : list (string * string * string) }.

(** [self.delta(call=call)[key] * self._S / price]; delta is evaluated anew for each entry.  The quotient
    is one of numpy numbers and does not raise. *)
Fixpoint lamb_comps (delta : heap -> res (list (string * T)) * heap) (o : nat) (x : T)
    (l : list (string * string * string)) (h : heap) : res (list (string * T)) * heap :=
  match l with
  | [] => (Ok [], h)
  | (label, key, attr) :: l' =>
      match delta h with
      | (Err e, h1) => (Err e, h1)
      | (Ok d, h1) =>
          match (d <- of_opt KeyError (dget d key) ;; ca <- get_opt h1 o ;;
                 v <- of_opt AttributeError (dget (snd ca) attr) ;; s <- as_num v ;; Ok (d * s / x)%num) with
          | Err e => (Err e, h1)
          | Ok y =>
              match lamb_comps delta o x l' h1 with
              | (Err e, h2) => (Err e, h2)
              | (Ok ys, h2) => (Ok ((label, y) :: ys), h2)
              end
          end
      end
  end.

Definition lamb_with (lm : lmeth) (a : nat) (call : bool) (h : heap) : res (list (string * T)) * heap :=
  let call := if lm_flag lm then call else true in
  match (ca <- get_opt h a ;;
         _ <- match lm_guard lm with Some m => mcall m (snd ca) | None => Ok tt end ;;
         og <- greeks_of a h ;;
         let o := if lm_via lm then fst og else a in
         p <- price o call h ;; x <- extract (lm_dict lm) p ;; Ok (o, snd og, x)) with
  | Err e => (Err e, h)
  | Ok (o, own, x) =>
      lamb_comps (if lm_via lm then fdm_method own o "delta" call else greek diff a "delta" call) o x (lm_comps lm) h
  end.

(** vanillaoptions.py:334-379 with method="fdm" and 848-865, basic_american_options/__init__.py:275-287,
    627-629 and 763-769, binomial_tree_options/__init__.py:291-293 and 671-673,
    spread_options/bitree3d.py:321-332, spreadapprox.py:212-223 *)
Definition one (attr : string) : list (string * string * string) := [("lambda", "delta", attr)].
Definition lamb_of (class : string) : lmeth :=
  if existsb (String.eqb class) ["BionomialSpreadAllTypes"; "BionomialMaxOption"; "BionomialMinOption";
                                 "BionomialSpreadOption"; "SpreadApproxOption"]
  then mkLM false true None false [("S1", "S1", "_S1"); ("S2", "S2", "_S2")]
  else if String.eqb class "MiltersenSchwartzOption" then mkLM false true None false (one "_FT")
  else if String.eqb class "BSAmericanApproxOption" then mkLM false true None true (one "_S")
  else if String.eqb class "RollGeskeWhaleyOption" then mkLM true false None false (one "_S")
  else if existsb (String.eqb class) ["GBSOption"; "BlackScholesOption"; "Black76Option"]
  then mkLM true true (Some check_sigma) false (one "_S")
  else mkLM true true None false (one "_S").
Definition lamb (a : nat) (call : bool) (h : heap) : res (list (string * T)) * heap :=
  match get_opt h a with
  | Err e => (Err e, h)
  | Ok (c, _) => lamb_with (lamb_of (c_class c)) a call h
  end.

(** the dictionary display [{"delta": self.delta(call), "theta": ...}]: entries in order, the first
    exception is raised *)
Fixpoint entries (meth : string -> heap -> res (list (string * T)) * heap) (keys : list string) (h : heap)
  : res (list (string * list (string * T))) * heap :=
  match keys with
  | [] => (Ok [], h)
  | k :: keys' =>
      match meth k h with
      | (Err e, h1) => (Err e, h1)
      | (Ok v, h1) =>
          match entries meth keys' h1 with
          | (Err e, h2) => (Err e, h2)
          | (Ok vs, h2) => (Ok ((k, v) :: vs), h2)
          end
      end
  end.

(** the lambda of GreeksFDM, base.py:254-271 *)
Definition fdm_lamb : lmeth := mkLM true true None false (one "_S").
(** GreeksFDM.greeks, base.py:291-312, for trees (binomial_tree_options/__init__.py:299-301, 679-681) and,
    without a flag, RollGeskeWhaleyOption (basic_american_options/__init__.py:303-315); the own methods of
    BAW (635-647), BS (749-761), MiltersenSchwartzOption (vanillaoptions.py:836-846, no rho) and the
    two-asset options (bitree3d.py:347-357, spreadapprox.py:238-248) call the methods of the class *)
Definition greeks_keys (class : string) : list string :=
  if String.eqb class "MiltersenSchwartzOption" then ["delta"; "theta"; "vega"; "lambda"; "gamma"]
  else ["delta"; "theta"; "vega"; "rho"; "lambda"; "gamma"].
Definition greeks_via (class : string) : bool :=
  existsb (String.eqb class) ["RollGeskeWhaleyOption"; "CRRBinomialTreeOption"; "JRBinomialTreeOption";
                              "TIANBinomialTreeOption"; "TrinomialTreeOption"].
Definition greeks (a : nat) (call : bool) (h : heap) : res (list (string * list (string * T))) * heap :=
  match (ca <- get_opt h a ;; og <- greeks_of a h ;; Ok (fst ca, og)) with
  | Err e => (Err e, h)
  | Ok (c, (o, own)) =>
      let call := if String.eqb (c_class c) "RollGeskeWhaleyOption" then true else call in
      entries (fun k h =>
                 if greeks_via (c_class c)
                 then if String.eqb k "lambda" then lamb_with fdm_lamb o call h else fdm_method own o k call h
                 else if String.eqb k "lambda" then lamb a call h else greek diff a k call h)
              (greeks_keys (c_class c)) h
  end.
End Greeks.
