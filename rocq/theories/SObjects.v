(** Specification vocabulary for the object protocol, independent of how methods are implemented:
    programs a user can write, what a parameter should be worth after a program, what it means that two
    options cannot be told apart, and which derivative each Greek stands for. *)
From Coq Require Import String List Arith ZArith QArith Bool.
From Verif Require Import Num Py Arr MSpread MAmerican MObjects MClasses.
Import ListNotations.
Open Scope py_scope.
Open Scope string_scope.

Section Spec.
Context {T : Type} {N : Num T}.
Local Notation pyv := (pyv T).
Local Notation dict := (dict pyv).
Local Notation cls := (cls T).
Local Notation heap := (heap T).

(** what a user may pass: a number, an int, a string or None *)
Definition plain (v : pyv) : Prop := match v with VRef _ | VMeth _ => False | _ => True end.
Definition plains (d : dict) : Prop := Forall (fun kv => plain (snd kv)) d.
Definition user_op (classes : list cls) (o : op T) : Prop :=
  match o with New c kw => In c classes /\ plains kw | SetParam _ _ v => plain v | _ => True end.

(** a heap some user program can lead to *)
Definition reachable (classes : list cls) (h : heap) : Prop := exists diff solver prog,
  Forall (user_op classes) prog /\ h = snd (exec_all diff solver prog []).

(** the program never calls set_param on the object at [a] *)
Definition untouched (a : nat) (prog : list (op T)) : Prop :=
  forall b x v, In (SetParam b x v) prog -> b <> a.

(** keyword arguments after a successful [set_param(x, v)]; a name the class ignores has no effect *)
Definition upd (c : cls) (kw : dict) (x : string) (v : pyv) : dict :=
  if existsb (String.eqb x) (c_drop c) then kw else dset kw x v.
Fixpoint updates (c : cls) (a : nat) (l : list (op T)) (kw : dict) : dict :=
  match l with
  | [] => kw
  | SetParam b x v :: l' => updates c a l' (if Nat.eqb b a then upd c kw x v else kw)
  | _ :: l' => updates c a l' kw
  end.
(** no [set_param] on the object at [a] raised *)
Fixpoint sets_ok (a : nat) (l : list (op T)) (es : list (option exn)) : Prop :=
  match l, es with
  | SetParam b _ _ :: l', e :: es' => (b = a -> e = None) /\ sets_ok a l' es'
  | _ :: l', _ :: es' => sets_ok a l' es'
  | _, _ => True
  end.
(** the last value written to parameter [p] of the object at [a], or [v0] *)
Fixpoint last_write (a : nat) (p : string) (l : list (op T)) (v0 : pyv) : pyv :=
  match l with
  | [] => v0
  | SetParam b x v :: l' => last_write a p l' (if Nat.eqb b a && String.eqb x p then v else v0)
  | _ :: l' => last_write a p l' v0
  end.
(** the value of a parameter given to the constructor; b of Black76Option is always 0 *)
Definition arg_value (c : cls) (kw : dict) (p : string) : pyv :=
  match dget kw p with
  | Some v => v
  | None => match dget (c_sig c) p with
            | Some (Some d) => d
            | Some None => VNone
            | None => VInt 0
            end
  end.

(** the object at [a] is an option of class [c], built and since then updated without an exception, amidst
    any other activity of the program; its constructor arguments now amount to [kw] *)
Definition made (classes : list cls) (c : cls) (kw : dict) (a : nat) (h : heap) : Prop :=
  exists diff solver h0 h1 prog kw0,
    reachable classes h0 /\ In c classes /\ plains kw0 /\ new c kw0 h0 = (Ok a, h1) /\
    Forall (user_op classes) prog /\ sets_ok a prog (fst (exec_all diff solver prog h1)) /\
    h = snd (exec_all diff solver prog h1) /\ kw = updates c a prog kw0.

(** price of a newly built option, as a number *)
Definition fresh (c : cls) (own call : bool) (kw : dict) : res T :=
  match new c kw [] with
  | (Ok b, h) => p <- price b call h ;; extract own p
  | (Err e, _) => Err e
  end.
(** the price in what [call] or [put] returns: a number, or the entry "OptionPrice" of a dictionary *)
Definition amount (p : pout T) : T := match p with PNum x => x | PDict x _ => x end.
(** a numerical routine run against a pure function *)
Fixpoint ask (f : T -> res T) (s : strat T) : res T :=
  match s with
  | Done r => r
  | Ask x k => y <- f x ;; ask f (k y)
  end.

Section Num.
Variable diff : nat -> option T -> T -> strat T.
Variable solver : T -> T -> strat T.
Variable show : pyv -> string.
Variable show6 : T -> string.

(** every public method returns the same *)
Record same_view (a : nat) (h : heap) (b : nat) (h' : heap) : Prop := {
  sv_params : get_params a h = get_params b h';
  sv_price : forall call, price a call h = price b call h';
  sv_greek : forall name call, fst (greek diff a name call h) = fst (greek diff b name call h');
  sv_volatility : forall p call, fst (volatility solver a p call h) = fst (volatility solver b p call h');
  sv_repr : repr show a h = repr show b h';
  sv_summary : summary show show6 a h = summary show show6 b h'
}.

(** one component of a Greek: label, parameter, order, step, sign *)
Definition fd_expected (c : cls) (kw : dict) (call : bool) (e : string * string * nat * gstep * Z) : res (string * T) :=
  let '(label, p, n, step, sign) := e in
  st <- match step with
        | NoStep => Ok None
        | FixStep q => Ok (Some (lit q))
        | SigmaTenth => s <- as_num (arg_value c kw "sigma") ;; Ok (Some (s / lit 10)%num)
        end ;;
  x <- as_num (arg_value c kw p) ;;
  y <- ask (fun x => fresh c (c_own_der c) call (upd c kw p (VNpy x))) (diff n st x) ;;
  Ok (label, (y * ofZ sign)%num).
End Num.

(** the derivatives each Greek stands for.  The price is a function of spot (two-asset options: each
    spot; futures options: the futures price), time to maturity, volatility and interest rate; theta is
    minus the derivative with respect to the time to maturity, taken with a step of one trading day. *)
Definition two_asset : list string :=
  ["BionomialSpreadAllTypes"; "BionomialMaxOption"; "BionomialMinOption"; "BionomialSpreadOption"; "SpreadApproxOption"].
Definition isin (x : string) (l : list string) : bool := existsb (String.eqb x) l.
Definition expected (class greek : string) : list (string * string * nat * gstep * Z) :=
  let spots := if isin class two_asset then ["S1"; "S2"]
               else if isin class ["Black76Option"; "MiltersenSchwartzOption"] then ["FT"] else ["S"] in
  let vols := if isin class two_asset then ["sigma1"; "sigma2"]
              else if String.eqb class "MiltersenSchwartzOption" then ["sigmaS"; "sigmaE"; "sigmaF"] else ["sigma"] in
  let lab p := if isin class two_asset then p else greek in
  let vlab p := if isin class ("MiltersenSchwartzOption" :: two_asset) then p else greek in
  let vstep := if isin class ["BAWAmericanApproxOption"; "BSAmericanApproxOption"] then SigmaTenth else NoStep in
  if String.eqb greek "delta" then map (fun p => (lab p, p, 1%nat, NoStep, 1%Z)) spots
  else if String.eqb greek "gamma" then map (fun p => (lab p, p, 2%nat, NoStep, 1%Z)) spots
  else if String.eqb greek "vega" then map (fun p => (vlab p, p, 1%nat, vstep, 1%Z)) vols
  else if String.eqb greek "theta" then [("theta", "t", 1%nat, FixStep (1 # 252), (-1)%Z)]
  else [("rho", "r", 1%nat, NoStep, 1%Z)].
(** Greeks that depend on the type of the option: delta, theta and rho.  (Roll-Geske-Whaley prices calls
    only.) *)
Definition takes_flag (class greek : string) : bool :=
  isin greek ["delta"; "theta"; "rho"] && negb (String.eqb class "RollGeskeWhaleyOption").
(** closed-form classes refuse to differentiate numerically without a volatility, and refuse the
    derivative with respect to the interest rate unless the cost of carry is 0 *)
Definition fdm_check (c : cls) (kw : dict) (greek : string) : res unit :=
  if isin (c_class c) ["GBSOption"; "BlackScholesOption"; "Black76Option"] then
    match arg_value c kw "sigma" with
    | VNone => Err ValueError
    | _ => if String.eqb greek "rho"
           then b <- as_num (arg_value c kw "b") ;; if (b =? lit 0)%num then Ok tt else Err ValueError
           else Ok tt
    end
  else Ok tt.

(** ** Text *)
Definition repr_spec (show : pyv -> string) (class : string) (ps : dict) : string :=
  class ++ "(" ++ String.concat ", " (map (fun pv => show (snd pv)) ps) ++ ")".
Definition summary_head_spec (show : pyv -> string) (title : string) (ps : dict) : string :=
  "Title: " ++ title ++ " Valuation" ++ nl ++ nl ++ "Parameters:" ++ nl ++ nl ++
  String.concat "" (map (fun pv => "  " ++ fst pv ++ " = " ++ show (snd pv) ++ nl) ps).
End Spec.
