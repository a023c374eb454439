(** Model of the object protocol shared by the option classes (base.py:131-577): construction,
    [get_params], [set_param], [copy], finite-difference Greeks, implied volatility, [repr] and
    [summary], on a heap of Python objects.

    A class is a descriptor [cls]: constructor signature, the assignments of [__init__] in order, the
    dictionary built by [get_params], the pricing methods and the Greek methods.  The descriptors of all
    classes derived from [Option] are in MClasses.v.

    Simplifications: parameter values are numbers, ints, strings or None (no arrays); methods that only
    read are functions of the heap; the objects a failed constructor leaves behind are dropped, since no
    reference to them escapes; Python's [str] and [round] on values are parameters. *)
From Coq Require Import String List Arith ZArith QArith Bool Ascii.
From Verif Require Import Num Py Arr MSpread.
Import ListNotations.
Open Scope py_scope.
Open Scope string_scope.

(** Python values.  [VFlt] is a Python number, [VNpy] a numpy scalar (only the latter divides by zero
    without raising); [VRef] a reference; [VMeth a] a bound method of the object at [a]. *)
Inductive pyv (T : Type) :=
| VFlt (x : T) | VNpy (x : T) | VInt (z : Z) | VStr (s : string) | VNone | VRef (a : nat) | VMeth (a : nat).
Arguments VFlt {T}. Arguments VNpy {T}. Arguments VInt {T}. Arguments VStr {T}. Arguments VNone {T}.
Arguments VRef {T}. Arguments VMeth {T}.

(** a price: a number, or the dictionary {OptionPrice, TriggerPrice} of BSAmericanApproxOption *)
Inductive pout (T : Type) := PNum (x : T) | PDict (price : T) (trigger : option T).
Arguments PNum {T}. Arguments PDict {T}.

(* ------------------------------------------------------------------ *)
(** * Python dictionaries *)
Section Dict.
Context {V : Type}.
Definition dict := list (string * V).
Fixpoint dget (d : dict) (k : string) : option V :=
  match d with
  | [] => None
  | (k', v) :: d' => if String.eqb k' k then Some v else dget d' k
  end.
(** [d[k] = v]: replaces in place, or appends *)
Fixpoint dset (d : dict) (k : string) (v : V) : dict :=
  match d with
  | [] => [(k, v)]
  | (k', v') :: d' => if String.eqb k' k then (k', v) :: d' else (k', v') :: dset d' k v
  end.
(** [del d[k]] *)
Fixpoint ddel (d : dict) (k : string) : dict :=
  match d with
  | [] => []
  | (k', v') :: d' => if String.eqb k' k then d' else (k', v') :: ddel d' k
  end.
Definition dmem (d : dict) (k : string) : bool := match dget d k with Some _ => true | None => false end.
End Dict.
Arguments dict : clear implicits.

Section Objects.
Context {T : Type} {N : Num T}.
Local Notation pyv := (pyv T).
Local Notation dict := (dict pyv).
Local Notation pout := (pout T).

(** a value used as a number *)
Definition as_num (v : pyv) : res T :=
  match v with
  | VFlt x | VNpy x => Ok x
  | VInt z => Ok (ofZ z)
  | _ => Err TypeError
  end.
Definition is_py (v : pyv) : bool := match v with VFlt _ | VInt _ => true | _ => false end.
(** the operator [a / b] *)
Definition py_div (a b : pyv) : res T :=
  x <- as_num a ;; y <- as_num b ;;
  if (is_py a && is_py b && (y =? lit 0)%num)%bool then Err ZeroDivisionError else Ok (x / y)%num.
Definition is_none (v : pyv) : bool := match v with VNone => true | _ => false end.
Definition as_opt (v : pyv) : res (option T) :=
  match v with VNone => Ok None | _ => x <- as_num v ;; Ok (Some x) end.

(* ------------------------------------------------------------------ *)
(** * Class descriptors *)

(** one statement of [__init__]:
    - [Store a p]: [self.a = p] for an argument [p];
    - [Const a v]: [self.a = v];
    - [Comp g a l f]: [self.a = f(self.l1, self.l2, ...)], a computed number, executed only if the
      argument [g] is not None when [g] is given. *)
Inductive stmt :=
| Store (attr param : string)
| Const (attr : string) (v : pyv)
| Comp (guard : option string) (attr : string) (reads : list string) (f : list pyv -> res T).

(** a method reading the attributes [m_reads] of self ([None]: the attribute is missing) *)
Record meth (A : Type) := mkMeth { m_reads : list string; m_fun : list (option pyv) -> res A }.
Arguments mkMeth {A}. Arguments m_reads {A}. Arguments m_fun {A}.
Definition mcall {A} (m : meth A) (at_ : dict) : res A := m_fun m (map (dget at_) (m_reads m)).

(** step argument given to numdifftools.Derivative *)
Inductive gstep := NoStep | FixStep (q : Q) | SigmaTenth.
(** one finite-difference derivative: parameter name, attribute holding the point of evaluation, order,
    step, sign factor *)
Record gspec := mkG { gs_label : string; gs_wrt : string; gs_attr : string; gs_n : nat; gs_step : gstep; gs_sign : Z }.
(** a Greek method: does it differentiate [self._greeks._opt] (methods of GreeksFDM) or [self] (methods
    overridden in the option class); does it take the flag [call] (else call=True); a check that may
    raise before anything else; the derivatives *)
Record gmeth := mkGM {
  gm_via_greeks : bool; gm_flag : bool; gm_guard : option (meth unit); gm_specs : list gspec }.

(** how [summary] prints prices *)
Inductive sumkind := SumBase | SumTyped (attr : string) | SumRGW (opt : meth bool) | SumBS.

Record cls := mkCls {
  c_class : string;                       (* the name a user calls to construct *)
  c_name : string;                        (* __name__ *)
  c_title : string;                       (* __title__ *)
  c_sig : list (string * option pyv);     (* constructor parameters and defaults *)
  c_init : list stmt;                     (* body of __init__ up to the creation of GreeksFDM *)
  c_own_der : bool;                       (* __init__ overrides _greeks._make_partial_der *)
  c_params : list (string * string);      (* get_params: key, attribute *)
  c_drop : list string;                   (* keys deleted by set_param before calling __init__ *)
  c_call : meth pout;
  c_put : option (meth pout);             (* None: the class has no method put *)
  c_greeks : list (string * gmeth);
  c_summary : sumkind
}.

(** keyword arguments -> values in signature order; Python's TypeErrors *)
Definition bind_args (sig : list (string * option pyv)) (kw : dict) : res (list pyv) :=
  if existsb (fun kv => negb (existsb (String.eqb (fst kv)) (map fst sig))) kw then Err TypeError
  else mapM (fun pd => match dget kw (fst pd) with Some v => Ok v | None => of_opt TypeError (snd pd) end) sig.

(** positional arguments *)
Fixpoint bind_pos (sig : list (string * option pyv)) (vals : list pyv) : res (list pyv) :=
  match sig, vals with
  | [], [] => Ok []
  | [], _ :: _ => Err TypeError
  | (_, d) :: sig', [] => v <- of_opt TypeError d ;; vs <- bind_pos sig' [] ;; Ok (v :: vs)
  | _ :: sig', v :: vals' => vs <- bind_pos sig' vals' ;; Ok (v :: vs)
  end.

Definition exec_stmt (args : dict) (self : dict) (st : stmt) : res dict :=
  match st with
  | Store a p => v <- of_opt TypeError (dget args p) ;; Ok (dset self a v)
  | Const a v => Ok (dset self a v)
  | Comp g a l f =>
      let skip := match g with
                  | Some p => match dget args p with Some v => is_none v | None => false end
                  | None => false end in
      if skip then Ok self
      else vs <- mapM (fun k => of_opt AttributeError (dget self k)) l ;;
           x <- f vs ;; Ok (dset self a (VNpy x))
  end.

(** a failing statement leaves the earlier assignments in place *)
Fixpoint run_stmts (args : dict) (l : list stmt) (self : dict) : dict * option exn :=
  match l with
  | [] => (self, None)
  | st :: l' => match exec_stmt args self st with
                | Ok self' => run_stmts args l' self'
                | Err e => (self, Some e)
                end
  end.
Definition run_init (c : cls) (vals : list pyv) (self : dict) : dict * option exn :=
  run_stmts (combine (map fst (c_sig c)) vals) (c_init c) self.

(* ------------------------------------------------------------------ *)
(** * Heap *)

Inductive kind := KOpt (c : cls) | KGreeks.
Record obj := mkObj { o_kind : kind; o_attrs : dict }.
Definition heap := list obj.
Definition hget (h : heap) (a : nat) : option obj := nth_error h a.
Fixpoint hset (h : heap) (a : nat) (o : obj) : heap :=
  match h, a with
  | [], _ => []
  | _ :: h', O => o :: h'
  | x :: h', S a' => x :: hset h' a' o
  end.

(** GreeksFDM(self) (base.py:153-160); BSAmericanApproxOption also stores its bound method in it
    (basic_american_options/__init__.py:711) *)
Definition greeks_obj (c : cls) (a : nat) : obj :=
  mkObj KGreeks (("_opt", VRef a) :: if c_own_der c then [("_make_partial_der", VMeth a)] else []).

(** [self.__init__(...)] on the object at [a] *)
Definition do_init (c : cls) (vals : list pyv) (a : nat) (h : heap) : option exn * heap :=
  match hget h a with
  | None => (Some AttributeError, h)
  | Some o =>
      match run_init c vals (o_attrs o) with
      | (s, Some e) => (Some e, hset h a (mkObj (KOpt c) s))
      | (s, None) =>
          (None, (hset h a (mkObj (KOpt c) (dset s "_greeks" (VRef (List.length h)))) ++ [greeks_obj c a])%list)
      end
  end.

(** the constructor call with keyword arguments [kw] *)
Definition new_vals (c : cls) (vals : list pyv) (h : heap) : res nat * heap :=
  let a := List.length h in
  match do_init c vals a (h ++ [mkObj (KOpt c) []])%list with
  | (None, h') => (Ok a, h')
  | (Some e, _) => (Err e, h)
  end.
Definition new (c : cls) (kw : dict) (h : heap) : res nat * heap :=
  match bind_args (c_sig c) kw with
  | Err e => (Err e, h)
  | Ok vals => new_vals c vals h
  end.
(** C(v1, v2, ...) *)
Definition new_pos (c : cls) (vals : list pyv) (h : heap) : res nat * heap :=
  match bind_pos (c_sig c) vals with
  | Err e => (Err e, h)
  | Ok vals => new_vals c vals h
  end.

(** base.py:363-371 and the overrides *)
Definition params_of (c : cls) (at_ : dict) : res dict :=
  mapM (fun pa => v <- of_opt AttributeError (dget at_ (snd pa)) ;; Ok (fst pa, v)) (c_params c).
Definition get_opt (h : heap) (a : nat) : res (cls * dict) :=
  match hget h a with
  | Some (mkObj (KOpt c) at_) => Ok (c, at_)
  | _ => Err AttributeError
  end.
Definition get_params (a : nat) (h : heap) : res dict :=
  ca <- get_opt h a ;; params_of (fst ca) (snd ca).

(** base.py:388-392; vanillaoptions.py:590-595 for Black76Option *)
Definition set_param (a : nat) (x : string) (v : pyv) (h : heap) : option exn * heap :=
  match get_opt h a with
  | Err e => (Some e, h)
  | Ok (c, at_) =>
      match params_of c at_ with
      | Err e => (Some e, h)
      | Ok tmp =>
          let tmp := dset tmp x v in
          let tmp := fold_left ddel (c_drop c) tmp in
          match bind_args (c_sig c) tmp with
          | Err e => (Some e, h)
          | Ok vals => do_init c vals a h
          end
      end
  end.

(** call() and put() *)
Definition price_of (c : cls) (at_ : dict) (call : bool) : res pout :=
  if call then mcall (c_call c) at_
  else match c_put c with Some m => mcall m at_ | None => Err AttributeError end.
Definition price (a : nat) (call : bool) (h : heap) : res pout :=
  ca <- get_opt h a ;; price_of (fst ca) (snd ca) call.

(** base.py:138-139: [copy.deepcopy(self)].  Each object is copied once (memo), its attributes are
    copied recursively and stored into the copy at the end; bound methods are rebound to the copy of
    their object.  [fuel] bounds the recursion depth by the number of objects. *)
Definition memo_t := list (nat * nat).
Definition copy_value (dc : nat -> memo_t -> heap -> res (nat * memo_t * heap)) (v : pyv) (memo : memo_t) (h : heap)
  : res (pyv * memo_t * heap) :=
  match v with
  | VRef b => st <- dc b memo h ;; let '(b', memo, h) := st in Ok (VRef b', memo, h)
  | VMeth b => st <- dc b memo h ;; let '(b', memo, h) := st in Ok (VMeth b', memo, h)
  | _ => Ok (v, memo, h)
  end.
Fixpoint copy_attrs (dc : nat -> memo_t -> heap -> res (nat * memo_t * heap)) (l : dict) (memo : memo_t) (h : heap)
  : res (dict * memo_t * heap) :=
  match l with
  | [] => Ok ([], memo, h)
  | (k, v) :: l' =>
      st <- copy_value dc v memo h ;;
      let '(v', memo, h) := st in
      st <- copy_attrs dc l' memo h ;;
      let '(l'', memo, h) := st in Ok ((k, v') :: l'', memo, h)
  end.
Fixpoint deepcopy (fuel : nat) (a : nat) (memo : memo_t) (h : heap) : res (nat * memo_t * heap) :=
  match fuel with
  | O => Err NoConvergence
  | S fuel' =>
    match find (fun p => Nat.eqb (fst p) a) memo with
    | Some (_, a') => Ok (a', memo, h)
    | None =>
      match hget h a with
      | None => Err AttributeError
      | Some o =>
        let a' := List.length h in
        st <- copy_attrs (deepcopy fuel') (o_attrs o) ((a, a') :: memo) (h ++ [mkObj (o_kind o) []])%list ;;
        let '(l, memo, h) := st in
        Ok (a', memo, hset h a' (mkObj (o_kind o) l))
      end
    end
  end.
Definition copy (a : nat) (h : heap) : res nat * heap :=
  match get_opt h a with
  | Err e => (Err e, h)
  | Ok _ =>
      match deepcopy (S (List.length h)) a [] h with
      | Ok (a', _, h') => (Ok a', h')
      | Err e => (Err e, h)
      end
  end.

(* ------------------------------------------------------------------ *)
(** * Finite differences *)

(** what the function handed to numdifftools returns: base.py:170-175, or the override
    basic_american_options/__init__.py:720-726 which reads ["OptionPrice"] *)
Definition extract (own : bool) (p : pout) : res T :=
  match p, own with
  | PNum x, false => Ok x
  | PDict x _, true => Ok x
  | _, _ => Err TypeError
  end.

(** base.py:169-175, [_func(x)] *)
Definition partial (own : bool) (opt : nat) (wrt : string) (call : bool) (x : T) (h : heap) : res T * heap :=
  match copy opt h with
  | (Err e, h1) => (Err e, h1)
  | (Ok tmp, h1) =>
      match set_param tmp wrt (VNpy x) h1 with
      | (Some e, h2) => (Err e, h2)
      | (None, h2) => ((p <- price tmp call h2 ;; extract own p), h2)
      end
  end.

(** A numerical routine that evaluates a given function at points of its choice and then returns
    (numdifftools.Derivative, scipy root_scalar): any adaptive strategy.  An exception raised by the
    function is propagated. *)
Inductive strat := Done (r : res T) | Ask (x : T) (k : T -> strat).
Fixpoint run_strat (f : T -> heap -> res T * heap) (s : strat) (h : heap) : res T * heap :=
  match s with
  | Done r => (r, h)
  | Ask x k => match f x h with
               | (Err e, h') => (Err e, h')
               | (Ok y, h') => run_strat f (k y) h'
               end
  end.

(** numdifftools.Derivative(f, n, step)(x) *)
Variable diff : nat -> option T -> T -> strat.

Definition step_of (g : gstep) (at_ : dict) : res (option T) :=
  match g with
  | NoStep => Ok None
  | FixStep q => Ok (Some (lit q))
  | SigmaTenth => s <- of_opt AttributeError (dget at_ "_sigma") ;; x <- as_num s ;; Ok (Some (x / lit 10)%num)
  end.

(** [fd = _make_partial_der(wrt, call, opt, n=, step=)], then [fd(opt.attr) * sign] *)
Definition fd_eval (own : bool) (opt : nat) (call : bool) (sp : gspec) (h : heap) : res T * heap :=
  match get_opt h opt with
  | Err e => (Err e, h)
  | Ok (_, at_) =>
      match (st <- step_of (gs_step sp) at_ ;;
             v <- of_opt AttributeError (dget at_ (gs_attr sp)) ;; x <- as_num v ;; Ok (st, x)) with
      | Err e => (Err e, h)
      | Ok (st, x) =>
          match run_strat (partial own opt (gs_wrt sp) call) (diff (gs_n sp) st x) h with
          | (Ok y, h') => (Ok (y * ofZ (gs_sign sp))%num, h')
          | (Err e, h') => (Err e, h')
          end
      end
  end.

Fixpoint fd_all (own : bool) (opt : nat) (call : bool) (l : list gspec) (h : heap)
  : res (list (string * T)) * heap :=
  match l with
  | [] => (Ok [], h)
  | sp :: l' =>
      match fd_eval own opt call sp h with
      | (Err e, h') => (Err e, h')
      | (Ok y, h') =>
          match fd_all own opt call l' h' with
          | (Err e, h'') => (Err e, h'')
          | (Ok ys, h'') => (Ok ((gs_label sp, y) :: ys), h'')
          end
      end
  end.

(** the object [self._greeks] and what it refers to *)
Definition greeks_of (a : nat) (h : heap) : res (nat * bool) :=
  ca <- get_opt h a ;;
  v <- of_opt AttributeError (dget (snd ca) "_greeks") ;;
  match v with
  | VRef g =>
      match hget h g with
      | Some (mkObj KGreeks ga) =>
          o <- of_opt AttributeError (dget ga "_opt") ;;
          match o with VRef o => Ok (o, dmem ga "_make_partial_der") | _ => Err AttributeError end
      | _ => Err AttributeError
      end
  | _ => Err AttributeError
  end.

(** option.delta(call), option.theta(call), ...: name of the method and flag *)
Definition greek (a : nat) (name : string) (call : bool) (h : heap) : res (list (string * T)) * heap :=
  match (ca <- get_opt h a ;; gm <- of_opt AttributeError (dget (c_greeks (fst ca)) name) ;;
         _ <- match gm_guard gm with Some m => mcall m (snd ca) | None => Ok tt end ;;
         og <- greeks_of a h ;; Ok (gm, og)) with
  | Err e => (Err e, h)
  | Ok (gm, (o, own)) =>
      fd_all own (if gm_via_greeks gm then o else a) (if gm_flag gm then call else true) (gm_specs gm) h
  end.

(** base.py:503-512 and 514-577 (scalar branch): implied volatility; [solver lo hi] is scipy's
    root_scalar with that bracket *)
Variable solver : T -> T -> strat.
Definition volatility (a : nat) (p : T) (call : bool) (h : heap) : res T * heap :=
  run_strat (fun s h => match partial false a "sigma" call s h with
                        | (Ok y, h') => (Ok (p - y)%num, h')
                        | (Err e, h') => (Err e, h')
                        end) (solver (lit (-10)) (lit 10)) h.

(* ------------------------------------------------------------------ *)
(** * repr and summary *)

(** Python's str(v) and the rendering of round(x, 6) *)
Variable show : pyv -> string.
Variable show6 : T -> string.

(** base.py:454-465 *)
Definition repr_of (c : cls) (params : dict) : string :=
  let out := fold_left (fun out pv => out ++ show (snd pv) ++ ", ") params (c_name c ++ "(") in
  String.substring 0 (String.length out - 2) out ++ ")".
Definition repr (a : nat) (h : heap) : res string :=
  ca <- get_opt h a ;; ps <- params_of (fst ca) (snd ca) ;; Ok (repr_of (fst ca) ps).

Definition nl : string := String (Ascii.ascii_of_nat 10) EmptyString.

(** base.py:427-431: title and parameter lines *)
Definition summary_head (c : cls) (params : dict) : string :=
  fold_left (fun out pv => out ++ "  " ++ fst pv ++ " = " ++ show (snd pv) ++ nl) params
            ("Title: " ++ c_title c ++ " Valuation" ++ nl ++ nl ++ "Parameters:" ++ nl ++ nl).

(** the body of the [try] block: base.py:435-443, binomial_tree_options/__init__.py:256-264 and
    spread_options/bitree3d.py:394-402, basic_american_options/__init__.py:207-209 and 896-897 *)
Definition summary_price (c : cls) (at_ : dict) : res string :=
  let po := nl ++ "Option Price:" ++ nl ++ nl in
  match c_summary c with
  | SumBase =>
      pc <- price_of c at_ true ;; pp <- price_of c at_ false ;;
      match pc, pp with
      | PNum x, PNum y => Ok (po ++ "  call: " ++ show6 x ++ nl ++ "  put: " ++ show6 y)
      | _, _ => Err TypeError
      end
  | SumTyped attr =>
      ty <- of_opt AttributeError (dget at_ attr) ;;
      pc <- price_of c at_ true ;; pp <- price_of c at_ false ;;
      match pc, pp with
      | PNum x, PNum y =>
          Ok (po ++ "  call-" ++ show ty ++ ": " ++ show6 x ++ nl ++ "  put-" ++ show ty ++ ": " ++ show6 y)
      | _, _ => Err TypeError
      end
  | SumRGW _ =>
      pc <- price_of c at_ true ;;
      match pc with PNum x => Ok (po ++ "  call: " ++ show6 x ++ nl) | _ => Err TypeError end
  | SumBS =>
      pc <- price_of c at_ true ;; pp <- price_of c at_ false ;;
      match pc, pp with
      | PDict x tx, PDict y ty =>
          let tr t := match t with Some v => show6 v | None => "nan" end in
          Ok (po ++ "  call: " ++ show6 x ++ ", trigger: " ++ tr tx ++ nl
                 ++ "  put: " ++ show6 y ++ ", trigger: " ++ tr ty)
      | _, _ => Err TypeError
      end
  end.

(** base.py:418-449 and the overrides, with printer=False.  RollGeskeWhaleyOption appends a line outside
    the try block (basic_american_options/__init__.py:212). *)
Definition summary (a : nat) (h : heap) : res string :=
  ca <- get_opt h a ;;
  let '(c, at_) := ca in
  ps <- params_of c at_ ;;
  let out := summary_head c ps in
  let out := match summary_price c at_ with Ok s => out ++ s | Err _ => out end in
  match c_summary c with
  | SumRGW m =>
      b <- mcall m at_ ;;
      Ok (out ++ "  Optimal to Exercise Call Option: " ++ (if b then "True" else "False"))
  | _ => Ok out
  end.

(* ------------------------------------------------------------------ *)
(** * Programs *)

(** what a user does with option objects, as far as it may change the heap *)
Inductive op :=
| New (c : cls) (kw : dict)
| SetParam (a : nat) (x : string) (v : pyv)
| Copy (a : nat)
| Greek (a : nat) (name : string) (call : bool)
| Volatility (a : nat) (p : T) (call : bool).

(** effect on the heap, and the exception raised if any *)
Definition exec (o : op) (h : heap) : option exn * heap :=
  let exc {A} (r : res A * heap) := (match fst r with Ok _ => None | Err e => Some e end, snd r) in
  match o with
  | New c kw => exc (new c kw h)
  | SetParam a x v => set_param a x v h
  | Copy a => exc (copy a h)
  | Greek a name call => exc (greek a name call h)
  | Volatility a p call => exc (volatility a p call h)
  end.
(** a program that continues after exceptions; the exceptions raised, and the final heap *)
Fixpoint exec_all (l : list op) (h : heap) : list (option exn) * heap :=
  match l with
  | [] => ([], h)
  | o :: l' => let '(e, h1) := exec o h in let '(es, h2) := exec_all l' h1 in (e :: es, h2)
  end.
End Objects.
Arguments mkMeth {T A}. Arguments m_reads {T A}. Arguments m_fun {T A}.
Arguments stmt : clear implicits. Arguments cls : clear implicits. Arguments meth : clear implicits.
Arguments obj : clear implicits. Arguments heap : clear implicits. Arguments op : clear implicits.
Arguments strat : clear implicits. Arguments kind : clear implicits. Arguments sumkind : clear implicits.
