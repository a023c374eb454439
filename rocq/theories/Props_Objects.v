(** Property theorems C14-C21, C64 and C74: the life of an option object (construction, set_param, get_params, copy, Greeks by
    finite differences, elasticities, the dictionary of Greeks, implied volatility, repr, summary), for all sixteen option classes and for every program
    that creates, updates, copies and queries any number of options. *)
From Coq Require Import Reals String List Arith ZArith QArith Lra Lia.
From Verif Require Import Num Py Arr MBase MVanilla MTrees MSpread MAmerican MObjects MClasses STrees SObjects SFormula.
From Verif Require Import PClasses3 PClasses4 PClasses5 PFormula XObjects XFormula MGreeks SGreeks PGreeks.
Import ListNotations.
Open Scope py_scope.
Open Scope string_scope.

(* ---------------------------------------------------------------- C14 *)
(** After any program, an option whose updates all succeeded is indistinguishable from one freshly built (in any reachable heap) with the current parameters: same parameters, prices, Greeks, implied volatility, repr and summary. *)
Theorem C14_rebuild : forall (T : Type) (N : Num T) (f1 f2 f3 : nat) diff solver show show6
    (c : cls T) (kw : dict (pyv T)) (a : nat) (h h0 : heap T),
  made (all_classes f1 f2 f3) c kw a h -> reachable (all_classes f1 f2 f3) h0 ->
  exists b h2, new c kw h0 = (Ok b, h2) /\ same_view diff solver show show6 a h b h2.
Proof. exact c14_made. Qed.
Print Assumptions C14_rebuild.
Example C14_rebuild_case := C14_rebuild R RNum 0 0 0 no_diff no_solver shw shw6 CRR_cls crr_kw 0 crr_heap crr_heap crr_made crr_reach.

(** After any program in which no set_param on the object raised, get_params returns for each constructor parameter the last value written by the program, or the constructor's value (b of Black76Option is 0). *)
Theorem C14_last_write : forall (T : Type) (N : Num T) (f1 f2 f3 : nat) diff solver
    (h h1 : heap T) (c : cls T) (kw : dict (pyv T)) (a : nat) (prog : list (op T)),
  reachable (all_classes f1 f2 f3) h -> In c (all_classes f1 f2 f3) -> plains kw -> new c kw h = (Ok a, h1) ->
  Forall (user_op (all_classes f1 f2 f3)) prog -> sets_ok a prog (fst (exec_all diff solver prog h1)) ->
  get_params a (snd (exec_all diff solver prog h1)) =
  Ok (map (fun p => (p, if isin p (map fst (c_sig c)) then last_write a p prog (arg_value c kw p) else VInt 0))
          (map fst (c_params c))).
Proof. exact c14_params. Qed.
Print Assumptions C14_last_write.
Example C14_last_write_case :=
  C14_last_write R RNum 0 0 0 no_diff no_solver [] crr_heap CRR_cls crr_kw 0
    [SetParam 0 "S" (VFlt 60%R); Copy 0; SetParam 2 "S" (VFlt 70%R); SetParam 0 "n" (VInt 50); SetParam 0 "S" (VInt 55)]
    (reachable_nil _ _ _) ltac:(cbn; tauto) ltac:(repeat constructor) eq_refl ltac:(repeat constructor)
    ltac:(cbn; repeat (split; [intro; first [reflexivity|discriminate]|]); exact Coq.Init.Logic.I).


(* ---------------------------------------------------------------- C15 *)
(** In every reachable state (also after failed updates) set_param with a name that is not a parameter raises TypeError and changes nothing at all. *)
Theorem C15_unknown_name : forall (T : Type) (N : Num T) (f1 f2 f3 : nat) (h : heap T) (a : nat) (c : cls T) s x v,
  reachable (all_classes f1 f2 f3) h -> get_opt h a = Ok (c, s) -> ~ In x (map fst (c_params c)) ->
  set_param a x v h = (Some TypeError, h).
Proof. exact c15_made. Qed.
Print Assumptions C15_unknown_name.
Example C15_unknown_name_case :=
  C15_unknown_name R RNum 0 0 0 crr_heap 0 CRR_cls _ "strike" (VInt 3) crr_reach eq_refl ltac:(cbn; intuition discriminate).


(* ---------------------------------------------------------------- C16 *)
(** American approximations and one-asset trees: an update that raises leaves the whole heap as it was. *)
Theorem C16_atomic : forall (T : Type) (N : Num T) (f1 f2 f3 : nat) (h h' : heap T) (a : nat) (c : cls T) s x v e,
  reachable (all_classes f1 f2 f3) h -> get_opt h a = Ok (c, s) -> plain v ->
  In c [RollGeskeWhaley_cls f1 f2; BAWAmerican_cls f3; BSAmerican_cls; CRR_cls; JR_cls; TIAN_cls; Trinomial_cls] ->
  set_param a x v h = (Some e, h') -> h' = h.
Proof. exact c16_stores. Qed.
Print Assumptions C16_atomic.
Example C16_atomic_case :=
  C16_atomic R RNum 0 0 0 crr_heap crr_heap 0 CRR_cls _ "strike" (VInt 3) TypeError crr_reach eq_refl
    Coq.Init.Logic.I ltac:(cbn; tauto) eq_refl.

(** Whatever happened before, after a set_param that succeeds the object is again indistinguishable from a freshly built one. *)
Theorem C16_recovery : forall (T : Type) (N : Num T) (f1 f2 f3 : nat) diff solver show show6
    (h h' h0 : heap T) (a : nat) (c : cls T) s ps x v,
  reachable (all_classes f1 f2 f3) h -> reachable (all_classes f1 f2 f3) h0 ->
  get_opt h a = Ok (c, s) -> plain v -> get_params a h = Ok ps ->
  set_param a x v h = (None, h') ->
  exists b h2, new c (fold_left ddel (c_drop c) (dset ps x v)) h0 = (Ok b, h2) /\
    same_view diff solver show show6 a h' b h2.
Proof. exact c16_recover. Qed.
Print Assumptions C16_recovery.
Example C16_recovery_case :=
  C16_recovery R RNum 0 0 0 no_diff no_solver shw shw6 crr_heap _ [] 0 CRR_cls _ _ "S" (VInt 60) crr_reach
    (reachable_nil _ _ _) eq_refl Coq.Init.Logic.I eq_refl eq_refl.

(** Finding: a failed update is not always without effect. GBSOption(100, 100, 1, 0.05, 0.05, 0.2).set_param('K', 0) raises ZeroDivisionError and the call price afterwards differs from the one before. *)
Theorem C16_refuted : ~ (forall (f1 f2 f3 : nat) (h h' : heap R) (a : nat) (c : cls R) s x v e call,
  reachable (all_classes f1 f2 f3) h -> get_opt h a = Ok (c, s) -> plain v ->
  set_param a x v h = (Some e, h') -> price a call h' = price a call h).
Proof. exact c16_refuted. Qed.
Print Assumptions C16_refuted.

(** Finding, for every class: when set_param on a known name raises, get_params afterwards returns the rejected value. *)
Theorem C16_not_rolled_back : forall (T : Type) (N : Num T) (f1 f2 f3 : nat) (kw : dict (pyv T)) (a : nat) (h h' : heap T) (c : cls T) x v e,
  made (all_classes f1 f2 f3) c kw a h -> plain v -> In x (map fst (c_sig c)) ->
  set_param a x v h = (Some e, h') ->
  get_params a h' = Ok (map (fun p => (p, arg_value c (dset kw x v) p)) (map fst (c_params c))).
Proof. exact c16_left. Qed.
Print Assumptions C16_not_rolled_back.
Example C16_not_rolled_back_case : exists h h', made (all_classes 0 0 0) GBSOption_cls (gbs_kw 100) 0 h /\
  set_param 0 "K" (VFlt 0%R) h = (Some ZeroDivisionError, h') /\
  get_params 0 h' = Ok [("S", VFlt 100%R); ("K", VFlt 0%R); ("t", VFlt 1%R); ("r", VFlt (1/20)%R); ("b", VFlt (1/20)%R); ("sigma", VFlt (1/5)%R)].
Proof.
  destruct gbs_new as (d1 & d2 & Hn). eexists _, _.
  assert (Hm : made (all_classes 0 0 0) GBSOption_cls (gbs_kw 100) 0 _) by (eapply made_new; [cbn; tauto|repeat constructor|exact Hn]).
  split; [exact Hm|]. split; [apply gbs_fail|].
  exact (C16_not_rolled_back R RNum 0 0 0 (gbs_kw 100) 0 _ _ GBSOption_cls "K" (VFlt 0%R) ZeroDivisionError Hm
    Coq.Init.Logic.I ltac:(cbn; tauto) (gbs_fail d1 d2)).
Qed.


(* ---------------------------------------------------------------- C17 *)
(** Black76Option: an update raises exactly when building from the updated arguments raises, with the same exception; otherwise the object is indistinguishable from the rebuilt one. *)
Theorem C17_outcome : forall (T : Type) (N : Num T) (f1 f2 f3 : nat) diff solver show show6
    (kw : dict (pyv T)) (a : nat) (h h0 : heap T) x v,
  made (all_classes f1 f2 f3) Black76Option_cls kw a h -> reachable (all_classes f1 f2 f3) h0 -> plain v ->
  In x ["FT"; "K"; "t"; "r"; "sigma"] ->
  match new Black76Option_cls (dset kw x v) h0 with
  | (Err e, _) => fst (set_param a x v h) = Some e
  | (Ok b, h2) => fst (set_param a x v h) = None /\
                  same_view diff solver show show6 a (snd (set_param a x v h)) b h2
  end.
Proof. exact c17_outcome. Qed.
Print Assumptions C17_outcome.
Example C17_outcome_case :=
  C17_outcome R RNum 0 0 0 no_diff no_solver shw shw6 b76_kw 0 b76_heap [] "FT" (VInt 100) b76_made (reachable_nil _ _ _)
    Coq.Init.Logic.I ltac:(cbn; tauto).

(** Black76Option.set_param('b', v) never raises and has no effect on any later observation. *)
Theorem C17_b_ignored : forall (T : Type) (N : Num T) (f1 f2 f3 : nat) diff solver show show6
    (kw : dict (pyv T)) (a : nat) (h : heap T) v,
  made (all_classes f1 f2 f3) Black76Option_cls kw a h -> plain v ->
  fst (set_param a "b" v h) = None /\
  same_view diff solver show show6 a (snd (set_param a "b" v h)) a h.
Proof. exact c17_b. Qed.
Print Assumptions C17_b_ignored.
Example C17_b_ignored_case :=
  C17_b_ignored R RNum 0 0 0 no_diff no_solver shw shw6 b76_kw 0 b76_heap (VInt 3) b76_made Coq.Init.Logic.I.

(** Black76Option.set_param('S', v) raises TypeError and changes nothing. *)
Theorem C17_S_rejected : forall (T : Type) (N : Num T) (f1 f2 f3 : nat) (h : heap T) (a : nat) s v,
  reachable (all_classes f1 f2 f3) h -> get_opt h a = Ok (Black76Option_cls, s) ->
  set_param a "S" v h = (Some TypeError, h).
Proof. exact c17_S. Qed.
Print Assumptions C17_S_rejected.
Example C17_S_rejected_case : set_param 0 "S" (VInt 3) b76_heap = (Some TypeError, b76_heap).
Proof.
  destruct (made_opt _ _ _ _ _ _ _ _ _ b76_made) as (s & Hs).
  exact (C17_S_rejected R RNum 0 0 0 b76_heap 0 s (VInt 3) b76_reach Hs).
Qed.

(** Finding: the finite-difference delta and gamma of Black76Option always raise TypeError (they try to set 'S', which that class does not accept), for every differentiator that evaluates its function at all. *)
Theorem C17_fdm_delta_gamma : forall (T : Type) (N : Num T) (f1 f2 f3 : nat) diff (kw : dict (pyv T)) (a : nat) (h : heap T) name call F,
  made (all_classes f1 f2 f3) Black76Option_cls kw a h -> In name ["delta"; "gamma"] ->
  as_num (arg_value Black76Option_cls kw "FT") = Ok F -> is_none (arg_value Black76Option_cls kw "sigma") = false ->
  (forall n st x, exists y k, diff n st x = Ask y k) ->
  fst (greek diff a name call h) = Err TypeError.
Proof. exact c17_fdm. Qed.
Print Assumptions C17_fdm_delta_gamma.
Example C17_fdm_delta_gamma_case :=
  C17_fdm_delta_gamma R RNum 0 0 0 no_diff b76_kw 0 b76_heap "gamma" true 95%R b76_made ltac:(cbn; tauto) eq_refl eq_refl
    (fun n st x => ex_intro _ x (ex_intro _ _ eq_refl)).

(** Black76Option prices like the generalised Black-Scholes option with spot FT and cost of carry 0. *)
Theorem C17_black_scholes : forall (T : Type) (N : Num T) (f1 f2 f3 : nat) (kw : dict (pyv T)) (a : nat) (h h0 : heap T),
  made (all_classes f1 f2 f3) Black76Option_cls kw a h ->
  exists b h2, new GBSOption_cls [("S", arg_value Black76Option_cls kw "FT"); ("K", arg_value Black76Option_cls kw "K");
                    ("t", arg_value Black76Option_cls kw "t"); ("r", arg_value Black76Option_cls kw "r");
                    ("b", VInt 0); ("sigma", arg_value Black76Option_cls kw "sigma")] h0 = (Ok b, h2) /\
    forall call, price a call h = price b call h2.
Proof. exact c17_gbs. Qed.
Print Assumptions C17_black_scholes.
Example C17_black_scholes_case := C17_black_scholes R RNum 0 0 0 b76_kw 0 b76_heap [] b76_made.


(* ---------------------------------------------------------------- C18 *)
(** copy() returns a new object indistinguishable from the original. *)
Theorem C18_copy : forall (T : Type) (N : Num T) (f1 f2 f3 : nat) diff solver show show6 (h : heap T) (a : nat) (c : cls T) s,
  reachable (all_classes f1 f2 f3) h -> get_opt h a = Ok (c, s) ->
  exists b h', copy a h = (Ok b, h') /\ hget h b = None /\ b <> a /\
    same_view diff solver show show6 b h' a h /\ same_view diff solver show show6 a h' a h.
Proof. exact c18_copy. Qed.
Print Assumptions C18_copy.
Example C18_copy_case := C18_copy R RNum 0 0 0 no_diff no_solver shw shw6 crr_heap 0 CRR_cls _ crr_reach eq_refl.

(** No program that does not call set_param on an object changes what that object returns; in particular updates of the copy never affect the original and vice versa, and computing Greeks or implied volatilities, or failing to, changes nothing. *)
Theorem C18_independent : forall (T : Type) (N : Num T) (f1 f2 f3 : nat) diff solver show show6 diff' solver'
    (h : heap T) (a : nat) (c : cls T) s prog,
  reachable (all_classes f1 f2 f3) h -> get_opt h a = Ok (c, s) ->
  Forall (user_op (all_classes f1 f2 f3)) prog -> untouched a prog ->
  same_view diff solver show show6 a (snd (exec_all diff' solver' prog h)) a h.
Proof. exact c18_frame. Qed.
Print Assumptions C18_independent.
Example C18_independent_case :=
  C18_independent R RNum 0 0 0 no_diff no_solver shw shw6 no_diff no_solver crr_heap 0 CRR_cls _
    [Copy 0; SetParam 2 "S" (VFlt 70%R); SetParam 2 "nonsense" (VInt 50); Greek 0 "delta" true; Volatility 0 5%R true]
    crr_reach eq_refl ltac:(repeat constructor)
    ltac:(intros b x v Hi; cbn in Hi; intuition (try congruence; match goal with H : _ = SetParam _ _ _ |- _ => injection H; intros; subst; discriminate end)).


(* ---------------------------------------------------------------- C19 *)
(** The function handed to the root finder of volatility() is s -> given price minus the price of a fresh option whose volatility is s and whose other parameters are the current ones. *)
Theorem C19_volatility : forall (T : Type) (N : Num T) (f1 f2 f3 : nat) solver (c : cls T) (kw : dict (pyv T)) (a : nat) (h : heap T) p call,
  made (all_classes f1 f2 f3) c kw a h ->
  fst (volatility solver a p call h) =
  ask (fun s => y <- fresh c false call (upd c kw "sigma" (VNpy s)) ;; Ok (p - y)%num) (solver (lit (-10)) (lit 10)).
Proof. exact c19_vol. Qed.
Print Assumptions C19_volatility.
Example C19_volatility_case := C19_volatility R RNum 0 0 0 no_solver CRR_cls crr_kw 0 crr_heap 5%R true crr_made.

(** Finite-difference Greeks: for every class and Greek, the numerical differentiator is handed the function x -> price of a fresh option with the named parameter set to x and all others as they are now, is asked for the right order and step at the current value of the right parameter, and its answer is returned with the right sign. *)
Theorem C19_greeks : forall (T : Type) (N : Num T) (f1 f2 f3 : nat) diff (c : cls T) (kw : dict (pyv T)) (a : nat) (h : heap T) name call,
  made (all_classes f1 f2 f3) c kw a h -> has_greek (c_class c) name = true ->
  fst (greek diff a name call h) =
  (_ <- fdm_check c kw name ;;
   mapM (fd_expected diff c kw (if takes_flag (c_class c) name then call else true)) (expected (c_class c) name)).
Proof. exact c19_greeks. Qed.
Print Assumptions C19_greeks.
Example C19_greeks_case := C19_greeks R RNum 0 0 0 no_diff CRR_cls crr_kw 0 crr_heap "theta" false crr_made eq_refl.

(** What the finite-difference Greeks and the solver of volatility() evaluate is the price the fresh option returns; the entry "OptionPrice" of the dictionary for the Bjerksund-Stensland approximation, the number itself for the other classes. *)
Theorem C19_price : forall (T : Type) (N : Num T) (f1 f2 f3 : nat) (c : cls T) (kw : dict (pyv T)) call b h,
  In c (all_classes f1 f2 f3) -> new c kw [] = (Ok b, h) ->
  fresh c (c_own_der c) call kw = (p <- price b call h ;; Ok (amount p)).
Proof. exact c19_price. Qed.
Print Assumptions C19_price.
Example C19_price_case := C19_price R RNum 0 0 0 BSAmerican_cls [("S", VFlt 100); ("K", VFlt 100); ("t", VFlt 1); ("r", VFlt (1/10)); ("b", VFlt 0); ("sigma", VFlt (1/5))]%R true _ _
  ltac:(cbn; tauto) eq_refl.


(* ---------------------------------------------------------------- C20 *)
(** repr(option) is the class's __name__ followed by the parameter values of get_params, in that order, separated by commas. *)
Theorem C20_repr : forall (T : Type) (N : Num T) (f1 f2 f3 : nat) show (h : heap T) (a : nat) (c : cls T) s,
  In c (all_classes f1 f2 f3) -> reachable (all_classes f1 f2 f3) h -> get_opt h a = Ok (c, s) ->
  exists ps, get_params a h = Ok ps /\ map fst ps = map fst (c_params c) /\ repr show a h = Ok (repr_spec show (c_name c) ps).
Proof. exact c20_repr. Qed.
Print Assumptions C20_repr.
Example C20_repr_case := C20_repr R RNum 0 0 0 shw crr_heap 0 CRR_cls _ ltac:(cbn; tauto) crr_reach eq_refl.

(** For every class but Black76Option and BionomialSpreadAllTypes get_params lists the values in the order of the constructor's parameters. *)
Theorem C20_order : forall (T : Type) (N : Num T) (f1 f2 f3 : nat) (c : cls T),
  In c (all_classes f1 f2 f3) -> ~ In (c_class c) ["Black76Option"; "BionomialSpreadAllTypes"] ->
  map fst (c_params c) = map fst (c_sig c).
Proof. exact c20_order. Qed.
Print Assumptions C20_order.
Example C20_order_case := C20_order R RNum 0 0 0 CRR_cls ltac:(cbn; tauto) ltac:(cbn; intuition discriminate).

(** Calling the class with the values repr shows, in that order, gives an option indistinguishable from the original (all classes but Black76Option and BionomialSpreadAllTypes); and the name shown is the class's own name, TIANBinomialTreeOption and BionomialSpreadOption excepted. *)
Theorem C20_round_trip : forall (T : Type) (N : Num T) (f1 f2 f3 : nat) diff solver show show6 (kw : dict (pyv T)) (a : nat) (h h0 : heap T) (c : cls T),
  made (all_classes f1 f2 f3) c kw a h -> reachable (all_classes f1 f2 f3) h0 ->
  ~ In (c_class c) ["Black76Option"; "BionomialSpreadAllTypes"] ->
  exists ps b h2, get_params a h = Ok ps /\ repr show a h = Ok (repr_spec show (c_name c) ps) /\
    new_pos c (map snd ps) h0 = (Ok b, h2) /\ same_view diff solver show show6 a h b h2 /\
    (~ In (c_class c) ["TIANBinomialTreeOption"; "BionomialSpreadOption"] -> c_name c = c_class c).
Proof. exact c20_round. Qed.
Print Assumptions C20_round_trip.
Example C20_round_trip_case :=
  C20_round_trip R RNum 0 0 0 no_diff no_solver shw shw6 crr_kw 0 crr_heap [] CRR_cls crr_made (reachable_nil _ _ _)
    ltac:(cbn; intuition discriminate).

(** Finding: the name shown by repr is not the class's name for TIANBinomialTreeOption, BionomialSpreadOption and BionomialSpreadAllTypes. *)
Theorem C20_refuted_names : forall (T : Type) (N : Num T) (f1 f2 f3 : nat) (c : cls T), In c (all_classes f1 f2 f3) ->
  In (c_class c) ["TIANBinomialTreeOption"; "BionomialSpreadOption"; "BionomialSpreadAllTypes"] -> c_name c <> c_class c.
Proof. exact c20_names. Qed.
Print Assumptions C20_refuted_names.
Example C20_refuted_names_case := C20_refuted_names R RNum 0 0 0 TIAN_cls ltac:(cbn; tauto) ltac:(cbn; tauto).

(** Finding: repr of a Black76Option shows six values while its constructor takes five, so that calling the constructor with them always raises TypeError. *)
Theorem C20_refuted_black76 : forall (T : Type) (N : Num T) (f1 f2 f3 : nat) (h h0 : heap T) (a : nat) s ps,
  reachable (all_classes f1 f2 f3) h -> get_opt h a = Ok (Black76Option_cls, s) -> get_params a h = Ok ps ->
  new_pos Black76Option_cls (map snd ps) h0 = (Err TypeError, h0).
Proof. exact c20_b76. Qed.
Print Assumptions C20_refuted_black76.
Example C20_refuted_black76_case : exists ps, get_params 0 b76_heap = Ok ps /\
  new_pos Black76Option_cls (map snd ps) [] = (Err TypeError, []).
Proof.
  destruct (made_opt _ _ _ _ _ _ _ _ _ b76_made) as (s & Hs).
  destruct (C20_repr R RNum 0 0 0 shw b76_heap 0 Black76Option_cls s ltac:(cbn; tauto) b76_reach Hs) as (ps & HP & _).
  exists ps. split; [exact HP|]. exact (C20_refuted_black76 R RNum 0 0 0 b76_heap [] 0 s ps b76_reach Hs HP).
Qed.

(** Finding: for BionomialSpreadAllTypes the values shown by repr, given to the constructor in that order, never rebuild the option unless its strike equals its time to maturity. *)
Theorem C20_refuted_alltypes : forall (T : Type) (N : Num T) (f1 f2 f3 : nat) (kw : dict (pyv T)) (h h0 h2 : heap T) (a b : nat) ps,
  made (all_classes f1 f2 f3) AllTypes_cls kw a h -> get_params a h = Ok ps ->
  arg_value AllTypes_cls kw "K" <> arg_value AllTypes_cls kw "t" ->
  new_pos AllTypes_cls (map snd ps) h0 = (Ok b, h2) -> get_params b h2 <> Ok ps.
Proof. exact c20_alltypes. Qed.
Print Assumptions C20_refuted_alltypes.
Example C20_refuted_alltypes_case : exists ps, get_params 0 (snd (new AllTypes_cls all_kw [])) = Ok ps /\
  forall b h2, new_pos AllTypes_cls (map snd ps) [] = (Ok b, h2) -> get_params b h2 <> Ok ps.
Proof.
  destruct (made_opt _ _ _ _ _ _ _ _ _ all_made) as (s & Hs).
  destruct (C20_repr R RNum 0 0 0 shw (snd (new AllTypes_cls all_kw [])) 0 AllTypes_cls s ltac:(cbn; tauto)
    all_reach Hs) as (ps & HP & _).
  exists ps. split; [exact HP|]. intros b h2 Hn.
  refine (C20_refuted_alltypes R RNum 0 0 0 all_kw _ [] h2 0 b ps all_made HP _ Hn). discriminate.
Qed.


(* ---------------------------------------------------------------- C21 *)
(** summary() never raises, whatever the parameter values and whether or not call and put raise, except for RollGeskeWhaleyOption; its text starts with the title and one line per parameter. *)
Theorem C21_total : forall (T : Type) (N : Num T) (f1 f2 f3 : nat) show show6 (h : heap T) (a : nat) (c : cls T) s,
  In c (all_classes f1 f2 f3) -> reachable (all_classes f1 f2 f3) h -> get_opt h a = Ok (c, s) ->
  c_class c <> "RollGeskeWhaleyOption" ->
  exists ps tail, get_params a h = Ok ps /\ summary show show6 a h = Ok (summary_head_spec show (c_title c) ps ++ tail).
Proof. exact c21_total. Qed.
Print Assumptions C21_total.
Example C21_total_case := C21_total R RNum 0 0 0 shw shw6 crr_heap 0 CRR_cls _ ltac:(cbn; tauto) crr_reach eq_refl ltac:(discriminate).

(** Whenever summary() returns, for any class, the text contains a line " name = value" for every parameter. *)
Theorem C21_lists_parameters : forall (T : Type) (N : Num T) (f1 f2 f3 : nat) show show6 (h : heap T) (a : nat) text ps p v,
  reachable (all_classes f1 f2 f3) h -> summary show show6 a h = Ok text -> get_params a h = Ok ps -> In (p, v) ps ->
  exists pre post, text = pre ++ "  " ++ p ++ " = " ++ show v ++ nl ++ post.
Proof. exact c21_lists. Qed.
Print Assumptions C21_lists_parameters.
Example C21_lists_parameters_case : exists text ps, get_params 0 crr_heap = Ok ps /\ summary shw shw6 0 crr_heap = Ok text /\
  exists pre post, text = pre ++ "  S = number" ++ nl ++ post.
Proof.
  destruct (C21_total R RNum 0 0 0 shw shw6 crr_heap 0 CRR_cls _ ltac:(cbn; tauto) crr_reach eq_refl ltac:(discriminate)) as (ps & tl & HP & HS).
  eexists _, ps. split; [exact HP|]. split; [exact HS|]. injection HP as HP.
  apply (C21_lists_parameters R RNum 0 0 0 shw shw6 crr_heap 0 _ ps "S" (VFlt 50%R) crr_reach HS); subst ps; [reflexivity|now left].
Qed.

(** If call and put return numbers, summary() of a class other than the Roll-Geske-Whaley and Bjerksund-Stensland ones ends with both of them; if either raises, no price section appears. *)
Theorem C21_prices_shown : forall (T : Type) (N : Num T) (f1 f2 f3 : nat) show show6 (h : heap T) (a : nat) (c : cls T) s,
  In c (all_classes f1 f2 f3) -> reachable (all_classes f1 f2 f3) h -> get_opt h a = Ok (c, s) ->
  ~ In (c_class c) ["RollGeskeWhaleyOption"; "BSAmericanApproxOption"] ->
  exists ps, get_params a h = Ok ps /\
  match price a true h, price a false h with
  | Ok (PNum x), Ok (PNum y) => exists ty, summary show show6 a h =
       Ok (summary_head_spec show (c_title c) ps ++ nl ++ "Option Price:" ++ nl ++ nl ++
           "  call" ++ ty ++ ": " ++ show6 x ++ nl ++ "  put" ++ ty ++ ": " ++ show6 y)
  | Err _, _ | _, Err _ => summary show show6 a h = Ok (summary_head_spec show (c_title c) ps)
  | _, _ => True
  end.
Proof. exact c21_prices. Qed.
Print Assumptions C21_prices_shown.
Example C21_prices_shown_case :=
  C21_prices_shown R RNum 0 0 0 shw shw6 crr_heap 0 CRR_cls _ ltac:(cbn; tauto) crr_reach eq_refl ltac:(cbn; intuition discriminate).

(** Finding: summary() of a RollGeskeWhaleyOption with strike None raises TypeError. *)
Theorem C21_refuted_rgw : exists (h : heap R) a kw, made (all_classes 0 0 0) (RollGeskeWhaley_cls 0 0) kw a h /\
  forall show show6, summary show show6 a h = Err TypeError.
Proof. exact c21_rgw. Qed.
Print Assumptions C21_refuted_rgw.

(** RollGeskeWhaleyOption.summary() raises only if evaluating the optimality test does: with numeric parameters it never raises. *)
Theorem C21_rgw : forall (T : Type) (N : Num T) (f1 f2 f3 : nat) show show6 (h : heap T) (a : nat) (s : dict (pyv T)) ps,
  reachable (all_classes f1 f2 f3) h -> get_opt h a = Ok (RollGeskeWhaley_cls f1 f2, s) -> get_params a h = Ok ps ->
  (forall p v, In (p, v) ps -> p <> "sigma" -> exists x, as_num v = Ok x) ->
  (forall v, In ("sigma", v) ps -> exists x, as_opt v = Ok x) ->
  exists text, summary show show6 a h = Ok text.
Proof. exact c21_rgw_ok. Qed.
Print Assumptions C21_rgw.
Example C21_rgw_case : exists text, summary shw shw6 0 (snd (new (RollGeskeWhaley_cls 0 0)
  [("S", VFlt 80%R); ("K", VFlt 82%R); ("t", VFlt (1/3)%R); ("td", VFlt (1/4)%R); ("r", VFlt (6/100)%R); ("D", VFlt 4%R); ("sigma", VFlt (3/10)%R)] [])) = Ok text.
Proof.
  eapply (C21_rgw R RNum 0 0 0).
  - apply reachable_new; [cbn; tauto|repeat constructor].
  - reflexivity.
  - reflexivity.
  - intros p v H Hp. cbn in H. repeat (destruct H as [[= <- <-]|H]; [eexists; reflexivity|]). destruct H.
  - intros v H. cbn in H. repeat (destruct H as [H|H]; [first [discriminate H|injection H as <-; eexists; reflexivity]|]). destruct H.
Qed.


(* ---------------------------------------------------------------- C64 *)
(** A GBSOption or BlackScholesOption, built and updated in any program, prices the formula at its current arguments; without a volatility it raises. Black76Option prices the formula with spot FT and cost of carry 0. *)
Theorem C64_vanilla : forall (T : Type) (N : Num T) (f1 f2 f3 : nat) (c : cls T) (kw : dict (pyv T)) (a : nat) (h : heap T) (call : bool) x sigma,
  made (all_classes f1 f2 f3) c kw a h -> maybe c kw "sigma" sigma ->
  (In c [GBSOption_cls; BlackScholesOption_cls] -> numbers c kw ["S"; "K"; "t"; "r"; "b"] x ->
    price a call h = rmap PNum ((if call then gbs_call else gbs_put) (GBSOption (x "S") (x "K") (x "t") (x "r") (x "b") sigma))) /\
  (c = Black76Option_cls -> numbers c kw ["FT"; "K"; "t"; "r"] x ->
    price a call h = rmap PNum ((if call then gbs_call else gbs_put) (GBSOption (x "FT") (x "K") (x "t") (x "r") (ofZ 0) sigma))).
Proof. exact c64_vanilla. Qed.
Print Assumptions C64_vanilla.
Example C64_vanilla_case := proj2 (C64_vanilla R RNum 0 0 0 Black76Option_cls b76_kw 0 b76_heap true
  (nums_of [("FT", 95%R); ("K", 80%R); ("t", (1/2)%R); ("r", (1/20)%R)]) (Some (1/4)%R) b76_made eq_refl) eq_refl ltac:(args).

(** A MiltersenSchwartzOption prices its formula at its thirteen current arguments although constructor and methods pass the intermediate results on as attributes. *)
Theorem C64_miltersen_schwartz : forall (T : Type) (N : Num T) (f1 f2 f3 : nat) (kw : dict (pyv T)) (a : nat) (h : heap T) (call : bool) x,
  made (all_classes f1 f2 f3) MiltersenSchwartz_cls kw a h -> 
  numbers MiltersenSchwartz_cls kw ["Pt"; "FT"; "K"; "t"; "T"; "sigmaS"; "sigmaE"; "sigmaF"; "rhoSE"; "rhoSF"; "rhoEF"; "KappaE"; "KappaF"] x ->
  price a call h = Ok (PNum ((if call then ms_call else ms_put) (mkMs (x "Pt") (x "FT") (x "K") (x "t") (x "T") (x "sigmaS") (x "sigmaE") (x "sigmaF")
    (x "rhoSE") (x "rhoSF") (x "rhoEF") (x "KappaE") (x "KappaF")))).
Proof. exact c64_ms. Qed.
Print Assumptions C64_miltersen_schwartz.
Example C64_miltersen_schwartz_case := C64_miltersen_schwartz R RNum 0 0 0 ms_kw 0 (snd (new MiltersenSchwartz_cls ms_kw [])) false
  (nums_of [("Pt", (19/20)%R); ("FT", 95%R); ("K", 80%R); ("t", (1/4)%R); ("T", (1/2)%R);
  ("sigmaS", (53/200)%R); ("sigmaE", (49/200)%R); ("sigmaF", (3/200)%R); ("rhoSE", (4/5)%R); ("rhoSF", (1/10)%R); ("rhoEF", (1/10)%R);
  ("KappaE", 1%R); ("KappaF", (1/5)%R)]) ms_made ltac:(args).

(** The three American approximations price their formulas at the current arguments; RollGeskeWhaleyOption has no put; BSAmericanApproxOption returns the price and the trigger price. *)
Theorem C64_american : forall (T : Type) (N : Num T) (f1 f2 f3 : nat) (c : cls T) (kw : dict (pyv T)) (a : nat) (h : heap T) x sigma,
  made (all_classes f1 f2 f3) c kw a h -> maybe c kw "sigma" sigma ->
  (c = RollGeskeWhaley_cls f1 f2 -> numbers c kw ["S"; "K"; "t"; "td"; "r"; "D"] x ->
    price a true h = rmap PNum (rgw_call f1 f2 (mkRgw (x "S") (x "K") (x "t") (x "td") (x "r") (x "D") sigma)) /\ price a false h = Err AttributeError) /\
  (forall call, c = BAWAmerican_cls f3 -> numbers c kw ["S"; "K"; "t"; "r"; "b"] x ->
    price a call h = rmap PNum ((if call then baw_call f3 else baw_put f3) (mkAmer (x "S") (x "K") (x "t") (x "r") (x "b") sigma))) /\
  (forall call, c = BSAmerican_cls -> numbers c kw ["S"; "K"; "t"; "r"; "b"] x ->
    price a call h = rmap (fun p => PDict (fst p) (snd p)) ((if call then bs_call else bs_put) (mkAmer (x "S") (x "K") (x "t") (x "r") (x "b") sigma))).
Proof. exact c64_american. Qed.
Print Assumptions C64_american.
Example C64_american_case := proj2 (proj2 (C64_american R RNum 0 0 0 BSAmerican_cls bs_kw 0 (snd (new BSAmerican_cls bs_kw []))
  (nums_of [("S", 42%R); ("K", 40%R); ("t", (3/4)%R); ("r", (1/25)%R); ("b", (-1/25)%R)]) (Some (7/20)%R) bs_made eq_refl)) true eq_refl ltac:(args).

(** Objects of the four one-asset tree classes price the tree of their class at the current arguments, including the exercise type and the number of steps. *)
Theorem C64_trees : forall (T : Type) (N : Num T) (f1 f2 f3 : nat) (k : tree_class) (kw : dict (pyv T)) (a : nat) (h : heap T) (call : bool) x n type,
  let c := tree_class_of k in
  made (all_classes f1 f2 f3) c kw a h -> numbers c kw ["S"; "K"; "t"; "r"; "b"; "sigma"] x -> step_count c kw n -> arg_value c kw "type" = VStr type ->
  price a call h = the_price (tree_price k (mkTree (x "S") (x "K") (x "t") (x "r") (x "b") (x "sigma") type n) call false).
Proof. exact c64_trees. Qed.
Print Assumptions C64_trees.
Example C64_trees_case := C64_trees R RNum 0 0 0 (Bi CRR) crr_kw 0 crr_heap false
  (nums_of [("S", 50%R); ("K", 50%R); ("t", (5/12)%R); ("r", (1/10)%R); ("b", (1/10)%R); ("sigma", (2/5)%R)]) 5 "european" crr_made ltac:(args) (five_steps CRR_cls crr_kw eq_refl) eq_refl.

(** Two-asset tree objects price the tree with the payoff code, strikes and quantities of their current arguments; the three wrapper classes price codes 1 (spread), 2 (maximum) and 3 (minimum). SpreadApproxOption prices Kirk's formula. *)
Theorem C64_spreads : forall (T : Type) (N : Num T) (f1 f2 f3 : nat) (c : cls T) (kw : dict (pyv T)) (a : nat) (h : heap T) (call : bool) x,
  made (all_classes f1 f2 f3) c kw a h -> numbers c kw ["S1"; "S2"; "t"; "r"; "b1"; "b2"; "sigma1"; "sigma2"; "rho"; "Q1"; "Q2"] x ->
  (forall K K2 code n type, c = AllTypes_cls -> maybe c kw "K" K -> maybe c kw "K2" K2 -> arg_value c kw "option" = VInt code -> arg_value c kw "n" = VInt (Z.of_nat n) -> n <> 0%nat -> arg_value c kw "otype" = VStr type ->
    price a call h = the_price (all_types call false code (x "S1") (x "S2") (x "t") (x "r") (x "b1") (x "b2") (x "sigma1") (x "sigma2") (x "rho") K K2 (x "Q1") (x "Q2") type n)) /\
  (forall n type, In c [Spread_cls; Max_cls; Min_cls] -> numbers c kw ["K"] x -> arg_value c kw "n" = VInt (Z.of_nat n) -> n <> 0%nat -> arg_value c kw "otype" = VStr type ->
    price a call h = the_price (all_types call false (wrapper_code (c_class c)) (x "S1") (x "S2") (x "t") (x "r") (x "b1") (x "b2") (x "sigma1") (x "sigma2") (x "rho") (Some (x "K")) None (x "Q1") (x "Q2") type n)) /\
  (c = SpreadApprox_cls -> numbers c kw ["K"] x ->
    price a call h = Ok (PNum ((if call then kirk_call else kirk_put) (KirkOption (x "S1") (x "S2") (x "K") (x "t") (x "r") (x "b1") (x "b2") (x "sigma1") (x "sigma2") (x "rho") (x "Q1") (x "Q2"))))).
Proof. exact c64_spreads. Qed.
Print Assumptions C64_spreads.
Example C64_spreads_case := proj1 (proj2 (C64_spreads R RNum 0 0 0 Max_cls spread_kw 0 (snd (new Max_cls spread_kw [])) true
  (nums_of [("S1", 122%R); ("S2", 120%R); ("K", 3%R); ("t", 1%R); ("r", (1/10)%R); ("b1", 0%R); ("b2", 0%R); ("sigma1", (1/5)%R); ("sigma2", (1/4)%R); ("rho", (1/2)%R);
  ("Q1", 1%R); ("Q2", 1%R)]) max_made ltac:(args))) 5%nat "european" ltac:(cbn; tauto) ltac:(args) eq_refl ltac:(discriminate) eq_refl.


(* ---------------------------------------------------------------- C74 *)
(** lamb() is, per underlying asset, delta times spot over price, all three taken from the option's current arguments: delta by finite differences of the call or the put as asked for, the spot the current one, the price that of call() or put(). *)
Theorem C74_lambda : forall (T : Type) (N : Num T) (f1 f2 f3 : nat) diff (c : cls T) (kw : dict (pyv T)) (a : nat) (h : heap T) call,
  made (all_classes f1 f2 f3) c kw a h -> c_class c <> "Black76Option" ->
  fst (lamb diff a call h) = lambda_expected diff c kw call.
Proof. exact c74_lambda. Qed.
Print Assumptions C74_lambda.
Example C74_lambda_case := C74_lambda R RNum 0 0 0 no_diff CRR_cls crr_kw 0 crr_heap false crr_made ltac:(discriminate).
Example C74_lambda_case_two_assets := C74_lambda R RNum 0 0 0 no_diff AllTypes_cls all_kw 0 _ true all_made ltac:(discriminate).

(** greeks() is the dictionary of the single Greeks: for every class that computes it by finite differences the entry for delta is what delta(call) returns on the same object, and so for theta, vega, rho (not Miltersen-Schwartz), lambda and gamma; if one of them raises, greeks() raises the first of those exceptions. *)
Theorem C74_greeks : forall (T : Type) (N : Num T) (f1 f2 f3 : nat) diff (h : heap T) (a : nat) (c : cls T) s call,
  reachable (all_classes f1 f2 f3) h -> In c (all_classes f1 f2 f3) -> get_opt h a = Ok (c, s) ->
  isin (c_class c) ["GBSOption"; "BlackScholesOption"; "Black76Option"] = false ->
  fst (greeks diff a call h) =
  mapM (fun k => v <- (if String.eqb k "lambda" then fst (lamb diff a call h) else fst (greek diff a k call h)) ;; Ok (k, v))
       (all_greeks (c_class c)).
Proof. exact c74_greeks. Qed.
Print Assumptions C74_greeks.
Example C74_greeks_case := C74_greeks R RNum 0 0 0 no_diff crr_heap 0 CRR_cls _ true crr_reach ltac:(cbn; tauto) eq_refl eq_refl.

(** Computing lamb() or greeks(), successfully or not, changes nothing that any option object returns. *)
Theorem C74_no_effect : forall (T : Type) (N : Num T) (f1 f2 f3 : nat) diff diff' solver show show6 (h : heap T) (a b : nat) (c : cls T) s call,
  reachable (all_classes f1 f2 f3) h -> get_opt h b = Ok (c, s) ->
  same_view diff' solver show show6 b (snd (lamb diff a call h)) b h /\
  same_view diff' solver show show6 b (snd (greeks diff a call h)) b h /\
  fst (lamb diff b call (snd (greeks diff a call h))) = fst (lamb diff b call h) /\
  fst (greeks diff b call (snd (lamb diff a call h))) = fst (greeks diff b call h).
Proof. exact c74_quiet. Qed.
Print Assumptions C74_no_effect.
Example C74_no_effect_case :=
  C74_no_effect R RNum 0 0 0 no_diff no_diff no_solver shw shw6 crr_heap 0 0 CRR_cls _ true crr_reach eq_refl.

(** Finding: lamb(method="fdm") of Black76Option never returns a number, whatever the flag, for every differentiator that evaluates its function at all: its delta tries to set 'S', which that class does not accept (delta and gamma: C17). *)
Theorem C74_black76_refuted : forall (T : Type) (N : Num T) (f1 f2 f3 : nat) diff (kw : dict (pyv T)) (a : nat) (h : heap T) call F,
  made (all_classes f1 f2 f3) Black76Option_cls kw a h ->
  as_num (arg_value Black76Option_cls kw "FT") = Ok F ->
  (forall n st x, exists y k, diff n st x = Ask y k) ->
  exists e, fst (lamb diff a call h) = Err e.
Proof. exact c74_black76. Qed.
Print Assumptions C74_black76_refuted.
Example C74_black76_refuted_case :=
  C74_black76_refuted R RNum 0 0 0 no_diff b76_kw 0 b76_heap true 95%R b76_made eq_refl
    (fun n st x => ex_intro _ x (ex_intro _ (fun y => Done (Ok y)) eq_refl)).

