(** Descriptors of all classes derived from [Option]: constructor, get_params, pricing and
    finite-difference Greek methods, as data for the object model of MObjects.v.

    Simplification: a negative number of tree steps is not modelled (it stands for ValueError here). *)
From Coq Require Import String List Arith ZArith QArith Bool.
From Verif Require Import Num Py Arr MBase MVanilla MTrees MSpread MAmerican MObjects.
Import ListNotations.
Open Scope py_scope.
Open Scope string_scope.

Section Classes.
Context {T : Type} {N : Num T}.
(** fuel of the search loops of the American approximations *)
Variables f1 f2 f3 : nat.
Local Notation pyv := (pyv T).
Local Notation pout := (pout T).
Local Notation cls := (cls T).

Definition all_some (l : list (option pyv)) : res (list pyv) := mapM (of_opt AttributeError) l.
Definition nums (l : list (option pyv)) : res (list T) := vs <- all_some l ;; mapM as_num vs.
Definition req (names : list string) : list (string * option pyv) := map (fun n => (n, None)) names.
(** get_params where key k is attribute _k *)
Definition same (names : list string) : list (string * string) := map (fun n => (n, "_" ++ n)) names.
(** [self._p = p] for each argument *)
Definition stores (names : list string) : list (stmt T) := map (fun n => Store ("_" ++ n) n) names.

(* ------------------------------------------------------------------ *)
(** * GreeksFDM methods, base.py:181-289 *)

Definition g_delta := mkG "delta" "S" "_S" 1 NoStep 1.
Definition g_theta := mkG "theta" "t" "_t" 1 (FixStep (1 # 252)) (-1).
Definition g_vega := mkG "vega" "sigma" "_sigma" 1 NoStep 1.
Definition g_rho := mkG "rho" "r" "_r" 1 NoStep 1.
Definition g_gamma := mkG "gamma" "S" "_S" 2 NoStep 1.
(** vega of BAW and BS with its own step: basic_american_options/__init__.py:649-655, 771-774 *)
Definition g_vega10 := mkG "vega" "sigma" "_sigma" 1 SigmaTenth 1.

Definition via (flag : bool) (sp : gspec) : gmeth (T := T) := mkGM true flag None [sp].
Definition own (flag : bool) (sps : list gspec) : gmeth (T := T) := mkGM false flag None sps.

Definition base_greeks : list (string * gmeth) :=
  [("delta", via true g_delta); ("theta", via true g_theta); ("vega", via false g_vega);
   ("rho", via true g_rho); ("gamma", via false g_gamma)].

(* ------------------------------------------------------------------ *)
(** * Closed forms *)

(** vanillaoptions.py:80-82 *)
Definition check_sigma : meth T unit :=
  mkMeth ["_sigma"] (fun l => match l with
    | [Some VNone] => Err ValueError | [Some _] => Ok tt | _ => Err AttributeError end).
(** vanillaoptions.py:299 and 326-332: rho(method="fdm") is refused unless b = 0 *)
Definition check_rho : meth T unit :=
  mkMeth ["_sigma"; "_b"] (fun l => match l with
    | [Some VNone; _] => Err ValueError
    | [Some _; Some b] => b <- as_num b ;; if (b =? lit 0)%num then Ok tt else Err ValueError
    | _ => Err AttributeError end).
Definition fdm (m : meth T unit) (flag : bool) (sp : gspec) : gmeth := mkGM true flag (Some m) [sp].

(** vanillaoptions.py:142-412, the methods with method="fdm" *)
Definition gbs_greeks_fdm : list (string * gmeth) :=
  [("delta", fdm check_sigma true g_delta); ("theta", fdm check_sigma true g_theta);
   ("vega", fdm check_sigma false g_vega); ("rho", fdm check_rho true g_rho);
   ("gamma", fdm check_sigma false g_gamma)].

(** vanillaoptions.py:70-73; the quotient S / K raises for Python numbers and K = 0 *)
Definition st_d1 : stmt T :=
  Comp (Some "sigma") "_d1" ["_S"; "_K"; "_t"; "_b"; "_sigma"] (fun l => match l with
    | [S0; K; t; b; sg] =>
        _ <- py_div S0 K ;; S0 <- as_num S0 ;; K <- as_num K ;; t <- as_num t ;; b <- as_num b ;;
        s <- as_num sg ;; Ok (gbs_d1 S0 K t b s)
    | _ => Err TypeError end).
(** vanillaoptions.py:75 *)
Definition st_d2 : stmt T :=
  Comp (Some "sigma") "_d2" ["_d1"; "_sigma"; "_t"] (fun l => match l with
    | [d1; sg; t] => d1 <- as_num d1 ;; s <- as_num sg ;; t <- as_num t ;; Ok (d1 - s * sqrn t)%num
    | _ => Err TypeError end).

Definition opt_num (o : option pyv) : res (option T) :=
  match o with None => Ok None | Some v => x <- as_num v ;; Ok (Some x) end.
(** the attributes of a GBS object as the record of MVanilla.v *)
Definition gbs_meth (f : gbs T -> res T) : meth T pout :=
  mkMeth ["_S"; "_K"; "_t"; "_r"; "_b"; "_sigma"; "_d1"; "_d2"] (fun l => match l with
    | [Some S0; Some K; Some t; Some r; Some b; Some sg; d1; d2] =>
        if is_none sg then Err ValueError
        else
          S0 <- as_num S0 ;; K <- as_num K ;; t <- as_num t ;; r <- as_num r ;; b <- as_num b ;;
          s <- as_num sg ;; d1 <- opt_num d1 ;; d2 <- opt_num d2 ;;
          rmap PNum (f (mkGbs S0 K t r b (Some s) d1 d2))
    | _ => Err AttributeError end).

(** vanillaoptions.py:60-78, base.py:355-371 *)
Definition gbs_names := ["S"; "K"; "t"; "r"; "b"; "sigma"].
Definition gbs_sig : list (string * option pyv) := (req ["S"; "K"; "t"; "r"; "b"] ++ [("sigma", Some VNone)])%list.
Definition GBSOption_cls : cls := {|
  c_class := "GBSOption"; c_name := "GBSOption"; c_title := "Black Scholes Option";
  c_sig := gbs_sig;
  c_init := (stores gbs_names ++ [st_d1; st_d2])%list;
  c_own_der := false; c_params := same gbs_names; c_drop := [];
  c_call := gbs_meth gbs_call; c_put := Some (gbs_meth gbs_put);
  c_greeks := gbs_greeks_fdm; c_summary := SumBase |}.

(** vanillaoptions.py:530-532 *)
Definition BlackScholesOption_cls : cls := {|
  c_class := "BlackScholesOption"; c_name := "BlackScholesOption"; c_title := "Black Scholes Option";
  c_sig := gbs_sig;
  c_init := (stores gbs_names ++ [st_d1; st_d2])%list;
  c_own_der := false; c_params := same gbs_names; c_drop := [];
  c_call := gbs_meth gbs_call; c_put := Some (gbs_meth gbs_put);
  c_greeks := gbs_greeks_fdm; c_summary := SumBase |}.

(** vanillaoptions.py:535-595: constructor (FT, K, t, r, sigma=None), cost of carry fixed to 0;
    get_params reports "b" but set_param deletes it before calling the constructor *)
Definition Black76Option_cls : cls := {|
  c_class := "Black76Option"; c_name := "Black76Option"; c_title := "Black 1977 Option";
  c_sig := (req ["FT"; "K"; "t"; "r"] ++ [("sigma", Some VNone)])%list;
  c_init := [Store "_S" "FT"; Store "_K" "K"; Store "_t" "t"; Store "_r" "r"; Const "_b" (VInt 0);
             Store "_sigma" "sigma"; st_d1; st_d2];
  c_own_der := false;
  c_params := [("FT", "_S"); ("K", "_K"); ("t", "_t"); ("r", "_r"); ("b", "_b"); ("sigma", "_sigma")];
  c_drop := ["b"];
  c_call := gbs_meth gbs_call; c_put := Some (gbs_meth gbs_put);
  c_greeks := gbs_greeks_fdm; c_summary := SumBase |}.

(** MiltersenSchwartzOption, vanillaoptions.py:598-881 *)
Definition ms_names :=
  ["Pt"; "FT"; "K"; "t"; "T"; "sigmaS"; "sigmaE"; "sigmaF"; "rhoSE"; "rhoSF"; "rhoEF"; "KappaE"; "KappaF"].
Definition ms_attrs := map (fun n => "_" ++ n) ms_names.
Definition ms_of (l : list T) : res (ms_params T) :=
  match l with
  | [Pt; FT; K; t; T_; sS; sE; sF; rSE; rSF; rEF; kE; kF] => Ok (mkMs Pt FT K t T_ sS sE sF rSE rSF rEF kE kF)
  | _ => Err TypeError
  end.
(** vanillaoptions.py:677-699: every kappa, and their sum, is a divisor of a Python number *)
Definition ms_kappas (l : list pyv) : res unit :=
  match l with
  | [_; _; _; _; _; _; _; _; _; _; _; kE; kF] =>
      _ <- py_div (VInt 1) kF ;; _ <- py_div (VInt 1) kE ;;
      x <- as_num kE ;; y <- as_num kF ;;
      _ <- py_div (VInt 1) (if is_py kE && is_py kF then VFlt (x + y)%num else VNpy (x + y)%num) ;; Ok tt
  | _ => Err TypeError
  end.
Definition st_vz2 : stmt T := Comp None "_vz" ms_attrs (fun l =>
  xs <- mapM as_num l ;; _ <- ms_kappas l ;; p <- ms_of xs ;; Ok (ms_vz2 p)).
Definition st_vxz : stmt T := Comp None "_vxz" ms_attrs (fun l =>
  xs <- mapM as_num l ;; _ <- ms_kappas l ;; p <- ms_of xs ;; Ok (ms_vxz p)).
(** vanillaoptions.py:701 *)
Definition st_vz : stmt T := Comp None "_vz" ["_vz"] (fun l => match l with
  | [v] => v <- as_num v ;; Ok (sqrn v) | _ => Err TypeError end).
(** vanillaoptions.py:703-706 *)
Definition st_msd (attr : string) (sign : bool) : stmt T :=
  Comp None attr ["_FT"; "_K"; "_vxz"; "_vz"] (fun l => match l with
    | [FT; K; vxz; vz] =>
        q <- py_div FT K ;; vxz <- as_num vxz ;; vz <- as_num vz ;;
        Ok (if sign then (logn q - vxz + vz ^ 2 / lit 2) / vz else (logn q - vxz - vz ^ 2 / lit 2) / vz)%num
    | _ => Err TypeError end).
(** vanillaoptions.py:733 and 761, from the cached attributes *)
Definition ms_meth (call : bool) : meth T pout :=
  mkMeth ["_Pt"; "_FT"; "_vxz"; "_d1"; "_K"; "_d2"] (fun l =>
    xs <- nums l ;;
    match xs with
    | [Pt; FT; vxz; d1; K; d2] =>
        Ok (PNum (if call then Pt * (FT * expn (- vxz) * cnd d1 - K * cnd d2)
                  else Pt * (K * cnd (- d2) - FT * expn (- vxz) * cnd (- d1)))%num)
    | _ => Err AttributeError end).
Definition MiltersenSchwartz_cls : cls := {|
  c_class := "MiltersenSchwartzOption"; c_name := "MiltersenSchwartzOption"; c_title := "Miltersen Schwartz Option";
  c_sig := req ms_names;
  c_init := (stores ms_names ++ [st_vz2; st_vxz; st_vz; st_msd "_d1" true; st_msd "_d2" false])%list;
  c_own_der := false; c_params := same ms_names; c_drop := [];
  c_call := ms_meth true; c_put := Some (ms_meth false);
  (* vanillaoptions.py:783-881; there is no method rho *)
  c_greeks := [("delta", own true [mkG "delta" "FT" "_FT" 1 NoStep 1]); ("theta", via true g_theta);
               ("vega", own false [mkG "sigmaS" "sigmaS" "_sigmaS" 1 NoStep 1;
                                   mkG "sigmaE" "sigmaE" "_sigmaE" 1 NoStep 1;
                                   mkG "sigmaF" "sigmaF" "_sigmaF" 1 NoStep 1]);
               ("gamma", own false [mkG "gamma" "FT" "_FT" 2 NoStep 1])];
  c_summary := SumBase |}.

(* ------------------------------------------------------------------ *)
(** * American approximations, basic_american_options/__init__.py *)

Definition sigma_opt (o : option pyv) : res (option T) :=
  v <- of_opt AttributeError o ;; as_opt v.

Definition rgw_names := ["S"; "K"; "t"; "td"; "r"; "D"; "sigma"].
Definition rgw_meth {A} (f : rgw T -> res A) : meth T A :=
  mkMeth ["_S"; "_K"; "_t"; "_td"; "_r"; "_D"; "_sigma"] (fun l => match l with
    | [S0; K; t; td; r; D; sg] =>
        xs <- nums [S0; K; t; td; r; D] ;; sg <- sigma_opt sg ;;
        match xs with
        | [S0; K; t; td; r; D] => f (mkRgw S0 K t td r D sg)
        | _ => Err AttributeError end
    | _ => Err AttributeError end).
(** lines 64-89 and 178-187; no method put; the Greek methods (219-301) take no flag *)
Definition RollGeskeWhaley_cls : cls := {|
  c_class := "RollGeskeWhaleyOption"; c_name := "RollGeskeWhaleyOption";
  c_title := "Roll-Geske-Whaley Calls on Dividend Paying Stocks";
  c_sig := (req ["S"; "K"; "t"; "td"; "r"; "D"] ++ [("sigma", Some VNone)])%list;
  c_init := (stores rgw_names ++ [Const "_big" (VInt 100000000); Const "_eps" (VFlt (lit (1 # 100000)))])%list;
  c_own_der := false; c_params := same rgw_names; c_drop := [];
  c_call := rgw_meth (fun o => rmap PNum (rgw_call f1 f2 o)); c_put := None;
  c_greeks := [("delta", via false g_delta); ("theta", via false g_theta); ("vega", via false g_vega);
               ("rho", via false g_rho); ("gamma", via false g_gamma)];
  c_summary := SumRGW (rgw_meth (fun o => Ok (rgw_is_call_optimal o))) |}.

Definition amer_meth (f : amer T -> res pout) : meth T pout :=
  mkMeth ["_S"; "_K"; "_t"; "_r"; "_b"; "_sigma"] (fun l => match l with
    | [S0; K; t; r; b; sg] =>
        xs <- nums [S0; K; t; r; b] ;; sg <- sigma_opt sg ;;
        match xs with
        | [S0; K; t; r; b] => f (mkAmer S0 K t r b sg)
        | _ => Err AttributeError end
    | _ => Err AttributeError end).
(** lines 392-401, 613-655 *)
Definition BAWAmerican_cls : cls := {|
  c_class := "BAWAmericanApproxOption"; c_name := "BAWAmericanApproxOption";
  c_title := "Barone-Adesi and Whaley Approximation";
  c_sig := gbs_sig; c_init := stores gbs_names; c_own_der := false; c_params := same gbs_names; c_drop := [];
  c_call := amer_meth (fun o => rmap PNum (baw_call f3 o));
  c_put := Some (amer_meth (fun o => rmap PNum (baw_put f3 o)));
  c_greeks := [("delta", via true g_delta); ("theta", via true g_theta); ("vega", own false [g_vega10]);
               ("rho", via true g_rho); ("gamma", via false g_gamma)];
  c_summary := SumBase |}.
(** lines 700-774 *)
Definition BSAmerican_cls : cls := {|
  c_class := "BSAmericanApproxOption"; c_name := "BSAmericanApproxOption";
  c_title := "The Bjerksund and Stensland (1993) American Approximation Option";
  c_sig := gbs_sig; c_init := stores gbs_names; c_own_der := true; c_params := same gbs_names; c_drop := [];
  c_call := amer_meth (fun o => rmap (fun p => PDict (fst p) (snd p)) (bs_call o));
  c_put := Some (amer_meth (fun o => rmap (fun p => PDict (fst p) (snd p)) (bs_put o)));
  c_greeks := [("delta", via true g_delta); ("theta", via true g_theta); ("vega", own false [g_vega10]);
               ("rho", via true g_rho); ("gamma", via false g_gamma)];
  c_summary := SumBS |}.

(* ------------------------------------------------------------------ *)
(** * Trees, binomial_tree_options/__init__.py *)

(** the number of steps; [t / n] with n = 0 raises for a Python number t *)
Definition steps (t n : pyv) : res nat :=
  match n with
  | VInt z => if (z <? 0)%Z then Err ValueError
              else _ <- py_div t n ;; Ok (Z.to_nat z)
  | _ => Err TypeError
  end.
Definition as_str (v : pyv) : string := match v with VStr s => s | _ => "" end.
Definition the_price (r : res (tree_out T)) : res pout :=
  o <- r ;; match o with Price x => Ok (PNum x) | Matrix _ => Err TypeError end.
Definition tree_meth (f : TreeOption T -> res (tree_out T)) : meth T pout :=
  mkMeth ["_S"; "_K"; "_t"; "_r"; "_b"; "_sigma"; "_type"; "_n"] (fun l => match l with
    | [S0; K; t; r; b; sg; Some ty; Some n] =>
        t0 <- of_opt AttributeError t ;;
        n <- steps t0 n ;; xs <- nums [S0; K; t; r; b; sg] ;;
        match xs with
        | [S0; K; t; r; b; s] => the_price (f (mkTree S0 K t r b s (as_str ty) n))
        | _ => Err AttributeError end
    | _ => Err AttributeError end).
Definition tree_names := ["S"; "K"; "t"; "r"; "b"; "sigma"; "type"; "n"].
(** lines 149-181 (inherited by the other three classes) *)
Definition tree_cls (class name title : string) (f : bool -> TreeOption T -> res (tree_out T)) : cls := {|
  c_class := class; c_name := name; c_title := title;
  c_sig := (req ["S"; "K"; "t"; "r"; "b"; "sigma"] ++ [("type", Some (VStr "european")); ("n", Some (VInt 5))])%list;
  c_init := [Store "_S" "S"; Store "_K" "K"; Store "_t" "t"; Store "_r" "r"; Store "_b" "b";
             Store "_sigma" "sigma"; Store "_n" "n"; Store "_type" "type"];
  c_own_der := false; c_params := same tree_names; c_drop := [];
  c_call := tree_meth (f true); c_put := Some (tree_meth (f false));
  c_greeks := base_greeks; c_summary := SumTyped "_type" |}.
Definition bi_value (m : bi_model) (call : bool) (o : TreeOption T) : res (tree_out T) :=
  if call then bi_call m o false else bi_put m o false.
Definition tri_value (call : bool) (o : TreeOption T) : res (tree_out T) :=
  if call then tri_call o false else tri_put o false.
(** __name__ and __title__: lines 146-147, 438-439, 578-579; TIANBinomialTreeOption defines neither *)
Definition CRR_cls : cls := tree_cls "CRRBinomialTreeOption" "CRRBinomialTreeOption" "CRR Binomial Tree Model" (bi_value CRR).
Definition JR_cls : cls := tree_cls "JRBinomialTreeOption" "JRBinomialTreeOption" "JR Binomial Tree Model" (bi_value JR).
Definition TIAN_cls : cls := tree_cls "TIANBinomialTreeOption" "CRRBinomialTreeOption" "CRR Binomial Tree Model" (bi_value TIAN).
Definition Trinomial_cls : cls := tree_cls "TrinomialTreeOption" "TrinomialTreeOption" "Trinomial Tree Model" tri_value.

(* ------------------------------------------------------------------ *)
(** * Spread options *)

(** spread_options/bitree3d.py:284-357 and spreadapprox.py:175-248 *)
Definition spread_greeks : list (string * gmeth) :=
  [("delta", own true [mkG "S1" "S1" "_S1" 1 NoStep 1; mkG "S2" "S2" "_S2" 1 NoStep 1]);
   ("theta", via true g_theta);
   ("vega", own false [mkG "sigma1" "sigma1" "_sigma1" 1 NoStep 1; mkG "sigma2" "sigma2" "_sigma2" 1 NoStep 1]);
   ("rho", via true g_rho);
   ("gamma", own false [mkG "S1" "S1" "_S1" 2 NoStep 1; mkG "S2" "S2" "_S2" 2 NoStep 1])].

(** bitree3d.py:152: [_dt = t / n] *)
Definition st_dt : stmt T := Comp None "_dt" ["_t"; "_n"] (fun l => match l with
  | [t; n] => py_div t n | _ => Err TypeError end).
(** bitree3d.py:153-154 *)
Definition st_mu (attr b s : string) : stmt T := Comp None attr [b; s] (fun l =>
  xs <- mapM as_num l ;; match xs with
  | [b; s] => Ok (b - lit (5#10) * s * s)%num | _ => Err TypeError end).
(** bitree3d.py:156-157 *)
Definition st_ud (attr : string) (up : bool) : stmt T := Comp None attr ["_mu1"; "_dt"; "_sigma1"] (fun l =>
  xs <- mapM as_num l ;; match xs with
  | [mu; dt; s] => Ok (if up then expn (mu * dt + s * sqrn dt) else expn (mu * dt - s * sqrn dt))%num
  | _ => Err TypeError end).
Definition st_cached : list (stmt T) :=
  [st_dt; st_mu "_mu1" "_b1" "_sigma1"; st_mu "_mu2" "_b2" "_sigma2"; st_ud "_u" true; st_ud "_d" false].

(** the number of steps as a length: np.zeros((n+2, n+2)) and range(0, n+1) *)
Definition count (n : pyv) : res nat :=
  match n with
  | VInt z => if (z <? 0)%Z then Err ValueError else Ok (Z.to_nat z)
  | _ => Err TypeError
  end.
(** bitree3d.py:161-199: pricing reads the parameters and the values cached by the constructor *)
Definition spread_meth (f : Spread3D T -> res (tree_out T)) : meth T pout :=
  mkMeth ["_S1"; "_S2"; "_t"; "_r"; "_b1"; "_b2"; "_sigma1"; "_sigma2"; "_rho"; "_Q1"; "_Q2";
          "_dt"; "_mu1"; "_mu2"; "_u"; "_d"; "_K"; "_K2"; "_option"; "_otype"; "_n"] (fun l => match l with
    | [S1; S2; t; r; b1; b2; s1; s2; rho; Q1; Q2; dt; mu1; mu2; u; d; Some K; Some K2; Some opt; Some ty; Some n] =>
        n <- count n ;; xs <- nums [S1; S2; t; r; b1; b2; s1; s2; rho; Q1; Q2; dt; mu1; mu2; u; d] ;;
        K <- as_opt K ;; K2 <- as_opt K2 ;;
        match opt, xs with
        | VInt code, [S1; S2; t; r; b1; b2; s1; s2; rho; Q1; Q2; dt; mu1; mu2; u; d] =>
            the_price (f (attrs3D S1 S2 t r b1 b2 s1 s2 rho K K2 Q1 Q2 code (as_str ty) n dt mu1 mu2 u d))
        | _, _ => Err TypeError end
    | _ => Err AttributeError end).

(** bitree3d.py:116-159 and 359-377 *)
Definition AllTypes_cls : cls := {|
  c_class := "BionomialSpreadAllTypes"; c_name := "BionomialSpreadOption";
  c_title := "Rubinstein Binomial Tree Spread Option Model";
  c_sig := (req ["S1"; "S2"; "t"; "r"; "b1"; "b2"; "sigma1"; "sigma2"; "rho"] ++
            [("K", Some VNone); ("K2", Some VNone); ("Q1", Some (VInt 1)); ("Q2", Some (VInt 1));
             ("option", Some (VInt 1)); ("otype", Some (VStr "european")); ("n", Some (VInt 5))])%list;
  c_init := (stores ["S1"; "S2"; "Q1"; "Q2"; "K"; "K2"; "t"; "r"; "b1"; "b2"; "sigma1"; "sigma2"; "rho";
                     "option"; "n"; "otype"] ++ st_cached)%list;
  c_own_der := false;
  c_params := same ["S1"; "S2"; "K"; "K2"; "t"; "r"; "b1"; "b2"; "sigma1"; "sigma2"; "rho"; "Q1"; "Q2";
                    "option"; "otype"; "n"];
  c_drop := [];
  c_call := spread_meth (s3_value true false); c_put := Some (spread_meth (s3_value false false));
  c_greeks := spread_greeks; c_summary := SumTyped "_otype" |}.

(** bitree3d.py:413-544, 547-678, 681-811: the wrappers fix [_option] and [_K2] *)
Definition wrapper_cls (class name title : string) (code : Z) : cls := {|
  c_class := class; c_name := name; c_title := title;
  c_sig := (req ["S1"; "S2"; "K"; "t"; "r"; "b1"; "b2"; "sigma1"; "sigma2"; "rho"] ++
            [("Q1", Some (VInt 1)); ("Q2", Some (VInt 1)); ("otype", Some (VStr "european")); ("n", Some (VInt 5))])%list;
  c_init := (stores ["S1"; "S2"; "Q1"; "Q2"; "K"] ++ [Const "_K2" VNone] ++
             stores ["t"; "r"; "b1"; "b2"; "sigma1"; "sigma2"; "rho"] ++ [Const "_option" (VInt code)] ++
             stores ["n"; "otype"] ++ st_cached)%list;
  c_own_der := false;
  c_params := same ["S1"; "S2"; "K"; "t"; "r"; "b1"; "b2"; "sigma1"; "sigma2"; "rho"; "Q1"; "Q2"; "otype"; "n"];
  c_drop := [];
  c_call := spread_meth (s3_value true false); c_put := Some (spread_meth (s3_value false false));
  c_greeks := spread_greeks; c_summary := SumTyped "_otype" |}.
Definition Max_cls : cls := wrapper_cls "BionomialMaxOption" "BionomialMaxOption" "Binomial Tree Maximum Spread Option Model" 2.
Definition Min_cls : cls := wrapper_cls "BionomialMinOption" "BionomialMinOption" "Binomial Tree Minimum Spread Option Model" 3.
Definition Spread_cls : cls := wrapper_cls "BionomialSpreadOption" "BionomialMinOption" "Binomial Tree Spread Option Model" 1.

(** spreadapprox.py:78-123.  [F] (line 112) is a local variable; it is recomputed by the statement for
    [_sigma]. *)
Definition kirk_names := ["S1"; "S2"; "K"; "t"; "r"; "b1"; "b2"; "sigma1"; "sigma2"; "rho"; "Q1"; "Q2"].
Definition kcomp (attr : string) (reads : list string) (f : list T -> res T) : stmt T :=
  Comp None attr reads (fun l => xs <- mapM as_num l ;; f xs).
Definition st_kirk : list (stmt T) :=
  [kcomp "_e1" ["_b1"; "_r"; "_t"] (fun l => match l with
     | [b; r; t] => Ok (expn ((b - r) * t))%num | _ => Err TypeError end);
   kcomp "_e2" ["_b2"; "_r"; "_t"] (fun l => match l with
     | [b; r; t] => Ok (expn ((b - r) * t))%num | _ => Err TypeError end);
   kcomp "_S" ["_Q1"; "_S1"; "_e1"; "_Q2"; "_S2"; "_e2"; "_K"; "_r"; "_t"] (fun l => match l with
     | [Q1; S1; e1; Q2; S2; e2; K; r; t] =>
         Ok ((Q1 * S1 * e1) / (Q2 * S2 * e2 + K * expn (- r * t)))%num | _ => Err TypeError end);
   kcomp "_sigma" ["_Q2"; "_S2"; "_e2"; "_K"; "_r"; "_t"; "_sigma1"; "_sigma2"; "_rho"] (fun l => match l with
     | [Q2; S2; e2; K; r; t; s1; s2; rho] =>
         let F := ((Q2 * S2 * e2) / (Q2 * S2 * e2 + K * expn (- r * t)))%num in
         Ok (sqrn (s1 ^ 2 + (s2 * F) ^ 2 - ofZ 2 * rho * s1 * s2 * F))%num | _ => Err TypeError end);
   kcomp "_d1" ["_S"; "_sigma"; "_t"] (fun l => match l with
     | [S0; s; t] => Ok ((logn S0 + lit (5#10) * s ^ 2 * t) / (s * sqrn t))%num | _ => Err TypeError end);
   kcomp "_d2" ["_d1"; "_sigma"; "_t"] (fun l => match l with
     | [d1; s; t] => Ok (d1 - s * sqrn t)%num | _ => Err TypeError end)].
(** spreadapprox.py:144-148 and 169-173 *)
Definition kirk_meth (call : bool) : meth T pout :=
  mkMeth ["_Q2"; "_S2"; "_e2"; "_K"; "_r"; "_t"; "_S"; "_d1"; "_d2"] (fun l =>
    xs <- nums l ;; match xs with
    | [Q2; S2; e2; K; r; t; S0; d1; d2] =>
        Ok (PNum ((Q2 * S2 * e2 + K * expn (- r * t))
                  * (if call then S0 * cnd d1 - cnd d2 else - S0 * cnd (- d1) + cnd (- d2)))%num)
    | _ => Err AttributeError end).
Definition SpreadApprox_cls : cls := {|
  c_class := "SpreadApproxOption"; c_name := "SpreadApproxOption"; c_title := "Spread-Option Approximation Model";
  c_sig := (req ["S1"; "S2"; "K"; "t"; "r"; "b1"; "b2"; "sigma1"; "sigma2"; "rho"] ++
            [("Q1", Some (VInt 1)); ("Q2", Some (VInt 1))])%list;
  c_init := (stores ["S1"; "S2"; "Q1"; "Q2"; "K"; "t"; "r"; "b1"; "b2"; "sigma1"; "sigma2"; "rho"] ++ st_kirk)%list;
  c_own_der := false; c_params := same kirk_names; c_drop := [];
  c_call := kirk_meth true; c_put := Some (kirk_meth false);
  c_greeks := spread_greeks; c_summary := SumBase |}.

(** every concrete class deriving from Option *)
Definition all_classes : list cls :=
  [GBSOption_cls; BlackScholesOption_cls; Black76Option_cls; MiltersenSchwartz_cls; RollGeskeWhaley_cls;
   BAWAmerican_cls; BSAmerican_cls; CRR_cls; JR_cls; TIAN_cls; Trinomial_cls; AllTypes_cls; Max_cls; Min_cls;
   Spread_cls; SpreadApprox_cls].
End Classes.
