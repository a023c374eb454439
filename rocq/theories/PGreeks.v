(** Elasticities and the dictionary of all Greeks (C74). *)
From Coq Require Import String List Arith ZArith QArith Bool Lia.
From Verif Require Import Num Py Arr MBase MVanilla MTrees MSpread MAmerican MObjects MClasses MGreeks.
From Verif Require Import SObjects SGreeks PObjects PObjects2 PObjects3 PClasses PClasses2 PClasses3.
Import ListNotations.
Open Scope py_scope.
Open Scope string_scope.

Section G.
Context {T : Type} {N : Num T}.
Local Notation pyv := (pyv T).
Local Notation dict := (dict pyv).
Local Notation cls := (cls T).
Local Notation heap := (heap T).
Variable diff : nat -> option T -> T -> strat T.

Definition quiet {A} (f : heap -> res A * heap) : Prop :=
  forall h, inv h -> inv (snd (f h)) /\ extends h (snd (f h)).

Lemma fdm_method_quiet own o name call : quiet (fdm_method diff own o name call).
Proof. intros h Hi. unfold fdm_method. destruct (dget (base_greeks (T := T)) name); [now apply fd_all_ok|cbn; auto using extends_refl]. Qed.
Lemma greek_quiet a name call : quiet (greek diff a name call).
Proof. intros h Hi. now apply greek_ok. Qed.
Lemma lamb_comps_quiet delta o x l : quiet delta -> quiet (lamb_comps delta o x l).
Proof.
  intro Hd. induction l as [|[[lb k] at_] l IH]; intros h Hi; cbn; [auto using extends_refl|].
  destruct (Hd h Hi) as [F1 F2]. destruct (delta h) as [[d|e] h1]; cbn [snd] in *; [|auto].
  destruct (d0 <- _ ;; _) as [y|e]; [|cbn; auto].
  destruct (IH h1 F1) as [I1 I2]. destruct (lamb_comps delta o x l h1) as [[ys|e] h2]; cbn [snd] in *;
    (split; [exact I1|eapply extends_trans; eassumption]).
Qed.
Lemma lamb_with_quiet lm a call : quiet (lamb_with diff lm a call).
Proof.
  intros h Hi. unfold lamb_with. destruct (ca <- _ ;; _) as [[[o own] x]|e]; [|cbn; auto using extends_refl].
  apply lamb_comps_quiet; [|exact Hi]. destruct (lm_via lm); [apply fdm_method_quiet|apply greek_quiet].
Qed.
Lemma lamb_quiet a call : quiet (lamb diff a call).
Proof. intros h Hi. unfold lamb. destruct (get_opt h a) as [[c s]|e]; [now apply lamb_with_quiet|cbn; auto using extends_refl]. Qed.
Lemma entries_quiet meth keys : (forall k, quiet (meth k)) -> quiet (entries meth keys).
Proof.
  intro Hm. induction keys as [|k l IH]; intros h Hi; cbn; [auto using extends_refl|].
  destruct (Hm k h Hi) as [F1 F2]. destruct (meth k h) as [[d|e] h1]; cbn [snd] in *; [|auto].
  destruct (IH h1 F1) as [I1 I2]. destruct (entries meth l h1) as [[ys|e] h2]; cbn [snd] in *;
    (split; [exact I1|eapply extends_trans; eassumption]).
Qed.
Lemma greeks_quiet a call : quiet (greeks diff a call).
Proof.
  intros h Hi. unfold greeks. destruct (ca <- _ ;; _) as [[c [o own]]|e]; [|cbn; auto using extends_refl].
  apply entries_quiet; [|exact Hi]. intro k. destruct (greeks_via (c_class c)); destruct (String.eqb k "lambda");
    auto using lamb_with_quiet, fdm_method_quiet, lamb_quiet, greek_quiet.
Qed.

(** results depend on the object only *)
Lemma lamb_comps_value (c : cls) s delta o x D l : quiet delta -> 
  (forall h, inv h -> at_obj c s o h -> fst (delta h) = D) -> forall h, inv h -> at_obj c s o h ->
  fst (lamb_comps delta o x l h) =
  mapM (fun lka => let '(label, key, attr) := lka in
          ds <- D ;; d <- of_opt KeyError (dget ds key) ;; v <- of_opt AttributeError (dget s attr) ;;
          n <- as_num v ;; Ok (label, (d * n / x)%num)) l.
Proof.
  intros Hq HD. set (F := fun lka : string * string * string => _). induction l as [|[[lb k] at_] l IH]; intros h Hi Ha; [reflexivity|].
  destruct (Hq h Hi) as [F1 F2]. pose proof (HD h Hi Ha) as E.
  change (mapM F ((lb, k, at_) :: l)) with (y <- F (lb, k, at_) ;; ys <- mapM F l ;; Ok (y :: ys)).
  cbn [lamb_comps]. 
  destruct (delta h) as [[d|e] h1]; cbn [fst snd] in *; unfold F at 1; rewrite <- E; cbn [bind]; [|reflexivity].
  assert (Ha1 : at_obj c s o h1) by (apply F2; exact Ha).
  rewrite (proj2 (get_opt_hget _ _ _ _) Ha1). cbn [bind snd].
  destruct (dget d k) as [y|]; cbn [bind of_opt]; [|reflexivity].
  destruct (dget s at_) as [v|]; cbn [bind of_opt]; [|reflexivity].
  destruct (as_num v) as [n|e]; cbn [bind of_opt]; [|reflexivity].
  rewrite <- (IH h1 F1 Ha1). destruct (lamb_comps delta o x l h1) as [[ys|e] h2]; reflexivity.
Qed.

Definition delta_val (c : cls) (ps s : dict) (lm : lmeth (T := T)) (call : bool) : res (list (string * T)) :=
  if lm_via lm then mapM (fd_val diff c (c_own_der c) call ps s) [g_delta] else greek_val diff c ps s "delta" call.
Definition lamb_val (c : cls) (ps s : dict) (lm : lmeth (T := T)) (call : bool) : res (list (string * T)) :=
  let call := if lm_flag lm then call else true in
  _ <- match lm_guard lm with Some m => mcall m s | None => Ok tt end ;;
  p <- price_of c s call ;; x <- extract (lm_dict lm) p ;;
  mapM (fun lka => let '(label, key, attr) := lka in
          ds <- delta_val c ps s lm call ;; d <- of_opt KeyError (dget ds key) ;; v <- of_opt AttributeError (dget s attr) ;;
          n <- as_num v ;; Ok (label, (d * n / x)%num)) (lm_comps lm).
Lemma lamb_with_value (c : cls) s ps lm a call h : inv h -> at_obj c s a h -> params_of c s = Ok ps ->
  fst (lamb_with diff lm a call h) = lamb_val c ps s lm call.
Proof.
  intros Hi Ha HP. unfold lamb_with, lamb_val. set (cl := if lm_flag lm then call else true). clearbody cl.
  rewrite (proj2 (get_opt_hget _ _ _ _) Ha). cbn [bind snd fst].
  destruct (match lm_guard lm with Some m => mcall m s | None => Ok tt end); cbn [bind fst]; [|reflexivity].
  rewrite (greeks_of_obj c s a h Hi Ha). cbn [bind fst snd].
  replace (if lm_via lm then a else a) with a by (destruct (lm_via lm); reflexivity).
  unfold price. rewrite (proj2 (get_opt_hget _ _ _ _) Ha). cbn [bind snd fst].
  destruct (price_of c s cl) as [p|e]; cbn [bind fst]; [|reflexivity].
  destruct (extract (lm_dict lm) p) as [x|e]; cbn [bind fst]; [|reflexivity].
  apply (lamb_comps_value c s); auto.
  - destruct (lm_via lm); [apply fdm_method_quiet|apply greek_quiet].
  - intros h' Hi' Ha'. unfold delta_val. destruct (lm_via lm).
    + unfold fdm_method. cbn [dget base_greeks String.eqb]. cbn -[fd_all fd_val mapM].
      now apply fd_all_gen.
    + now apply greek_gen.
Qed.

Lemma entries_value (c : cls) s o meth V keys : (forall k, quiet (meth k)) ->
  (forall k h, In k keys -> inv h -> at_obj c s o h -> fst (meth k h) = V k) -> forall h, inv h -> at_obj c s o h ->
  fst (entries meth keys h) = mapM (fun k => v <- V k ;; Ok (k, v)) keys.
Proof.
  intros Hq. induction keys as [|k l IH]; intros HV h Hi Ha; cbn; [reflexivity|].
  destruct (Hq k h Hi) as [F1 F2]. pose proof (HV k h (or_introl eq_refl) Hi Ha) as E.
  destruct (meth k h) as [[d|e] h1]; cbn [fst snd] in *; rewrite <- E; cbn; [|reflexivity].
  assert (Ha1 : at_obj c s o h1) by (apply F2; exact Ha).
  rewrite <- (IH (fun k h Hk => HV k h (or_intror Hk)) h1 F1 Ha1).
  destruct (entries meth l h1) as [[ys|e] h2]; reflexivity.
Qed.
End G.

Lemma ltable (T : Type) (N : Num T) (f1 f2 f3 : nat) (c : cls T) :
  In c (all_classes f1 f2 f3) -> has_greek (c_class c) "delta" = true ->
  let lm := lamb_of (T := T) (c_class c) in
  exists gm, dget (c_greeks c) "delta" = Some gm /\ (lm_via lm = true -> gm_specs gm = [g_delta]) /\
    gm_flag gm = lm_flag lm /\ gm_guard gm = lm_guard lm /\ lm_dict lm = c_own_der c /\
    lm_flag lm = negb (String.eqb (c_class c) "RollGeskeWhaleyOption") /\
    takes_flag (c_class c) "delta" = lm_flag lm /\
    ((exists p, spots (c_class c) = [p] /\ isin (c_class c) two_asset = false /\ lm_comps lm = one ("_" ++ p) /\ In (p, "_" ++ p) (c_params c) /\
        expected (c_class c) "delta" = [("delta", p, 1%nat, NoStep, 1%Z)]) \/
     (spots (c_class c) = ["S1"; "S2"] /\ isin (c_class c) two_asset = true /\ lm_comps lm = [("S1", "S1", "_S1"); ("S2", "S2", "_S2")] /\
        In ("S1", "_S1") (c_params c) /\ In ("S2", "_S2") (c_params c) /\
        expected (c_class c) "delta" = [("S1", "S1", 1%nat, NoStep, 1%Z); ("S2", "S2", 1%nat, NoStep, 1%Z)])).
Proof.
  intros Hc Hg. unfold all_classes in Hc.
  repeat (destruct Hc as [<-|Hc];
     [first [discriminate Hg
            |eexists; split; [reflexivity|]; split; [cbn; congruence|]; do 5 (split; [reflexivity|]);
               first [right; repeat split; cbn; tauto|left; eexists; repeat split; cbn; tauto]]|]).
  destruct Hc.
Qed.

Lemma fd_expected_label (T : Type) (N : Num T) diff (c : cls T) kw call l p n st z y :
  fd_expected diff c kw call (l, p, n, st, z) = Ok y -> fst y = l.
Proof.
  unfold fd_expected. destruct (match st with NoStep => _ | FixStep q => _ | SigmaTenth => _ end); cbn; [|discriminate].
  destruct (as_num _); cbn; [|discriminate]. destruct (ask _ _); cbn; [|discriminate]. now intros [= <-].
Qed.

(*@ C74_lambda | lamb() is, per underlying asset, delta times spot over price, all three taken from the option's current arguments: delta by finite differences of the call or the put as asked for, the spot the current one, the price that of call() or put(). *)
Lemma c74_lambda : forall (T : Type) (N : Num T) (f1 f2 f3 : nat) diff (c : cls T) (kw : dict (pyv T)) (a : nat) (h : heap T) call,
  made (all_classes f1 f2 f3) c kw a h -> c_class c <> "Black76Option" ->
  fst (lamb diff a call h) = lambda_expected diff c kw call.
Proof.
  intros * Hm Hn.
  assert (Hg : has_greek (c_class c) "delta" = true).
  { unfold has_greek. apply String.eqb_neq in Hn. rewrite Hn. cbn. rewrite andb_false_r. reflexivity. }
  pose proof (fun call => c19_greeks T N f1 f2 f3 diff c kw a h "delta" call Hm Hg) as HD.
  apply made_tracks in Hm. destruct Hm as (Hc & Hi & Ht & Hk & Hok).
  pose proof Ht as (s & vals & Ha & _). destruct (Hi _ _ _ Ha) as (_ & _ & _ & _ & (ps & HP)).
  destruct (ltable T N f1 f2 f3 c Hc Hg) as (gm & G1 & G2 & G3 & G4 & G5 & G6 & G7 & G8).
  set (lm := lamb_of (c_class c)) in *.
  unfold lamb. rewrite (proj2 (get_opt_hget _ _ _ _) Ha).
  fold lm. rewrite (lamb_with_value diff c s ps lm a call h Hi Ha HP).
  unfold lamb_val, lambda_expected. fold lm.
  replace (if String.eqb (c_class c) "RollGeskeWhaleyOption" then true else call) with (if lm_flag lm then call else true)
    by (rewrite G6; destruct (String.eqb _ _); reflexivity).
  set (cl := if lm_flag lm then call else true).
  (* the delta used *)
  pose proof (HD cl) as HD'. rewrite (greek_gen diff c s ps a "delta" cl h Hi Ha HP) in HD'. rewrite G7 in HD'.
  assert (Ecl : (if lm_flag lm then cl else true) = cl) by (unfold cl; destruct (lm_flag lm); reflexivity).
  rewrite Ecl in HD'.
  assert (HG : match lm_guard lm with Some m => mcall m s | None => Ok tt end = fdm_check c kw "lambda").
  { rewrite <- G4.
    destruct (table T N f1 f2 f3 c "delta" Hc Hg) as (gm' & K1 & _ & _ & _ & K5). rewrite G1 in K1. injection K1 as <-. rewrite K5.
    unfold fdm_check. destruct (isin (c_class c) ["GBSOption"; "BlackScholesOption"; "Black76Option"]) eqn:E3; [|reflexivity].
    assert (Hs1 : In ("sigma", "_sigma") (c_params c)).
    { clear - Hc E3. unfold all_classes in Hc.
      repeat (destruct Hc as [<-|Hc]; [first [discriminate E3|cbn; tauto]|]). destruct Hc. }
    assert (As : dget s "_sigma" = Some (arg_value c kw "sigma")).
    { rewrite (tracks_attr c kw a h s _ _ Hok Ht Ha Hs1). f_equal.
      apply (tracks_arg_value f1 f2 f3 c kw a h); auto. apply (in_map fst) in Hs1. exact Hs1. }
    unfold mcall. cbn. rewrite As. destruct (arg_value c kw "sigma"); reflexivity. }
  rewrite HG.
  assert (HGd : fdm_check c kw "delta" = fdm_check c kw "lambda") by reflexivity.
  rewrite HGd in HD'.
  destruct (fdm_check c kw "lambda") as [[]|e] eqn:Eg; cbn [bind] in *; [|reflexivity].
  assert (Edv : delta_val diff c ps s lm cl = mapM (fd_expected diff c kw cl) (expected (c_class c) "delta")).
  { rewrite <- HD'. unfold delta_val, greek_val. rewrite G1. cbn [of_opt bind]. rewrite G4, HG. cbn [bind]. rewrite G3, Ecl.
    destruct (lm_via lm); [rewrite (G2 eq_refl)|]; reflexivity. }
  rewrite Edv.
  (* the price *)
  destruct (tracks_new c kw a h [] Ht) as (b & hb & Hb). pose proof (new_tracks c kw [] hb b Hok Hb) as Htb.
  pose proof (tracks_price c kw a b h hb cl Ht Htb) as EP.
  assert (EP' : price_of c s cl = price b cl hb).
  { rewrite <- EP. unfold price. rewrite (proj2 (get_opt_hget _ _ _ _) Ha). reflexivity. }
  unfold fresh. rewrite Hb, EP', G5.
  destruct (price b cl hb) as [p|e]; cbn [bind]; [|reflexivity].
  destruct (extract (c_own_der c) p) as [x|e]; cbn [bind]; [|reflexivity].
  assert (Hattr : forall p, In (p, "_" ++ p) (c_params c) -> dget s ("_" ++ p) = Some (arg_value c kw p)).
  { intros q Hq. rewrite (tracks_attr c kw a h s _ _ Hok Ht Ha Hq). f_equal.
    apply (tracks_arg_value f1 f2 f3 c kw a h); auto. apply (in_map fst) in Hq. exact Hq. }
  destruct G8 as [(q & Q1 & Q2 & Q3 & Q4 & Q5)|(Q1 & Q2 & Q3 & Q4 & Q4' & Q5)]; rewrite Q1, Q2, Q3, Q5.
  - pose proof (fd_expected_label T N diff c kw cl "delta" q 1 NoStep 1%Z) as HL.
    cbn [mapM one]. destruct (fd_expected diff c kw cl _) as [[lb y]|e]; cbn [bind]; [|reflexivity].
    specialize (HL _ eq_refl). cbn in HL. subst lb. cbn [combine mapM bind]. cbn [dget String.eqb of_opt bind]. 
    change (String.eqb "delta" "delta") with true. cbn [of_opt bind]. rewrite (Hattr q Q4). cbn [of_opt bind].
    destruct (as_num (arg_value c kw q)); reflexivity.
  - pose proof (fd_expected_label T N diff c kw cl "S1" "S1" 1 NoStep 1%Z) as HL1.
    pose proof (fd_expected_label T N diff c kw cl "S2" "S2" 1 NoStep 1%Z) as HL2.
    cbn [mapM]. destruct (fd_expected diff c kw cl ("S1", _, _, _, _)) as [[lb1 y1]|e]; cbn [bind]; [|reflexivity].
    destruct (fd_expected diff c kw cl ("S2", _, _, _, _)) as [[lb2 y2]|e]; cbn [bind]; [|reflexivity].
    specialize (HL1 _ eq_refl). specialize (HL2 _ eq_refl). cbn in HL1, HL2. subst lb1 lb2.
    cbn [combine mapM bind]. pose proof (Hattr "S1" Q4) as A1. pose proof (Hattr "S2" Q4') as A2. cbn [append] in A1, A2. rewrite A1, A2.
    cbn -[arg_value as_num]. destruct (as_num (arg_value c kw "S1")); cbn -[arg_value as_num]; [|reflexivity].
    destruct (as_num (arg_value c kw "S2")); reflexivity.
Qed.

Lemma vtable (T : Type) (N : Num T) (f1 f2 f3 : nat) (c : cls T) k :
  In c (all_classes f1 f2 f3) -> greeks_via (c_class c) = true -> In k (greeks_keys (c_class c)) -> k <> "lambda" ->
  exists gm gm', dget (c_greeks c) k = Some gm /\ dget (base_greeks (T := T)) k = Some gm' /\ gm_specs gm = gm_specs gm' /\
    gm_guard gm = None /\ gm_flag gm = (if String.eqb (c_class c) "RollGeskeWhaleyOption" then false else gm_flag gm').
Proof.
  intros Hc Hv Hk Hn. unfold all_classes in Hc.
  repeat (destruct Hc as [<-|Hc];
     [first [discriminate Hv
            |cbn in Hk; repeat (destruct Hk as [<-|Hk]; [first [congruence|do 2 eexists; repeat split; cbn; auto]|]); destruct Hk]|]).
  destruct Hc.
Qed.
Lemma lvtable (T : Type) (N : Num T) (f1 f2 f3 : nat) (c : cls T) :
  In c (all_classes f1 f2 f3) -> greeks_via (c_class c) = true ->
  lamb_of (T := T) (c_class c) = mkLM true (negb (String.eqb (c_class c) "RollGeskeWhaleyOption")) None false (one "_S").
Proof.
  intros Hc Hv. unfold all_classes in Hc.
  repeat (destruct Hc as [<-|Hc]; [first [discriminate Hv|reflexivity]|]). destruct Hc.
Qed.

(*@ C74_greeks | greeks() is the dictionary of the single Greeks: for every class that computes it by finite differences the entry for delta is what delta(call) returns on the same object, and so for theta, vega, rho (not Miltersen-Schwartz), lambda and gamma; if one of them raises, greeks() raises the first of those exceptions. *)
Lemma c74_greeks : forall (T : Type) (N : Num T) (f1 f2 f3 : nat) diff (h : heap T) (a : nat) (c : cls T) s call,
  reachable (all_classes f1 f2 f3) h -> In c (all_classes f1 f2 f3) -> get_opt h a = Ok (c, s) ->
  isin (c_class c) ["GBSOption"; "BlackScholesOption"; "Black76Option"] = false ->
  fst (greeks diff a call h) =
  mapM (fun k => v <- (if String.eqb k "lambda" then fst (lamb diff a call h) else fst (greek diff a k call h)) ;; Ok (k, v))
       (all_greeks (c_class c)).
Proof.
  intros * Hr Hc Ho Hcl. apply reachable_inv in Hr. pose proof Ho as Ha. apply get_opt_hget in Ha.
  destruct (Hr _ _ _ Ha) as (Hok & _ & _ & _ & (ps & HP)).
  unfold greeks. rewrite Ho. cbn [bind]. rewrite (greeks_of_obj c s a h Hr Ha). cbn [bind fst].
  change (all_greeks (c_class c)) with (greeks_keys (c_class c)).
  apply (entries_value (T := T) c s a).
  - intro k. destruct (greeks_via (c_class c)); destruct (String.eqb k "lambda");
      auto using lamb_with_quiet, fdm_method_quiet, lamb_quiet, greek_quiet.
  - intros k h' Hk Hi' Ha'. destruct (greeks_via (c_class c)) eqn:Hv.
    + destruct (String.eqb_spec k "lambda") as [->|Hne].
      * unfold lamb. rewrite Ho. rewrite !(lamb_with_value diff c s ps) by assumption.
        rewrite (lvtable T N f1 f2 f3 c Hc Hv). unfold lamb_val, fdm_lamb, delta_val. cbn [lm_flag lm_guard lm_dict lm_comps lm_via].
        destruct (String.eqb (c_class c) "RollGeskeWhaleyOption"); reflexivity.
      * destruct (vtable T N f1 f2 f3 c k Hc Hv Hk Hne) as (gm & gm' & G1 & G2 & G3 & G4 & G5).
        rewrite (greek_gen diff c s ps) by assumption. unfold greek_val. rewrite G1. cbn [of_opt bind]. rewrite G4. cbn [bind].
        unfold fdm_method. rewrite G2, G3. rewrite (fd_all_gen diff c _ a _ s ps HP) by assumption.
        rewrite G5. destruct (String.eqb (c_class c) "RollGeskeWhaleyOption"); destruct (gm_flag gm'); reflexivity.
    + assert (String.eqb (c_class c) "RollGeskeWhaleyOption" = false) as ->.
      { destruct (String.eqb_spec (c_class c) "RollGeskeWhaleyOption") as [E|]; [rewrite E in Hv; discriminate|reflexivity]. }
      destruct (String.eqb_spec k "lambda") as [->|Hne].
      * unfold lamb. rewrite Ho, (proj2 (get_opt_hget _ _ _ _) Ha'). rewrite !(lamb_with_value diff c s ps) by assumption. reflexivity.
      * rewrite !(greek_gen diff c s ps) by assumption. reflexivity.
  - exact Hr.
  - exact Ha.
Qed.

Lemma greeks_same (T : Type) (N : Num T) (c : cls T) s ps diff a call h h' : inv h -> inv h' -> at_obj c s a h -> at_obj c s a h' ->
  params_of c s = Ok ps -> fst (greeks diff a call h) = fst (greeks diff a call h').
Proof.
  intros Hi Hi' Ha Ha' HP. unfold greeks.
  rewrite (proj2 (get_opt_hget _ _ _ _) Ha), (proj2 (get_opt_hget _ _ _ _) Ha'). cbn [bind].
  rewrite (greeks_of_obj c s a h Hi Ha), (greeks_of_obj c s a h' Hi' Ha'). cbn [bind fst].
  set (cl := if String.eqb _ _ then true else call).
  assert (V : exists V, forall k h, inv h -> at_obj c s a h ->
     fst (if greeks_via (c_class c)
          then if String.eqb k "lambda" then lamb_with diff fdm_lamb a cl h else fdm_method diff (c_own_der c) a k cl h
          else if String.eqb k "lambda" then lamb diff a cl h else greek diff a k cl h) = V k).
  { exists (fun k => if greeks_via (c_class c)
       then if String.eqb k "lambda" then lamb_val diff c ps s fdm_lamb cl
            else match dget (base_greeks (T := T)) k with Some gm => mapM (fd_val diff c (c_own_der c) (if gm_flag gm then cl else true) ps s) (gm_specs gm) | None => Err AttributeError end
       else if String.eqb k "lambda" then lamb_val diff c ps s (lamb_of (c_class c)) cl else greek_val diff c ps s k cl).
    intros k h0 H1 H2. destruct (greeks_via (c_class c)); destruct (String.eqb k "lambda").
    - now apply lamb_with_value.
    - unfold fdm_method. destruct (dget _ k); [now apply fd_all_gen|reflexivity].
    - unfold lamb. rewrite (proj2 (get_opt_hget _ _ _ _) H2). now apply lamb_with_value.
    - now apply greek_gen. }
  destruct V as [V HV].
  assert (Q : forall k, quiet (fun h => if greeks_via (c_class c)
          then if String.eqb k "lambda" then lamb_with diff fdm_lamb a cl h else fdm_method diff (c_own_der c) a k cl h
          else if String.eqb k "lambda" then lamb diff a cl h else greek diff a k cl h)).
  { intro k. destruct (greeks_via (c_class c)); destruct (String.eqb k "lambda");
      intros h0 H0; [now apply lamb_with_quiet|now apply fdm_method_quiet|now apply lamb_quiet|now apply greek_quiet]. }
  rewrite !(entries_value c s a _ V _ Q) by (intros; auto). reflexivity.
Qed.

(*@ C74_no_effect | Computing lamb() or greeks(), successfully or not, changes nothing that any option object returns. *)
Lemma c74_quiet : forall (T : Type) (N : Num T) (f1 f2 f3 : nat) diff diff' solver show show6 (h : heap T) (a b : nat) (c : cls T) s call,
  reachable (all_classes f1 f2 f3) h -> get_opt h b = Ok (c, s) ->
  same_view diff' solver show show6 b (snd (lamb diff a call h)) b h /\
  same_view diff' solver show show6 b (snd (greeks diff a call h)) b h /\
  fst (lamb diff b call (snd (greeks diff a call h))) = fst (lamb diff b call h) /\
  fst (greeks diff b call (snd (lamb diff a call h))) = fst (greeks diff b call h).
Proof.
  intros * Hr Hb. apply reachable_inv in Hr. apply get_opt_hget in Hb.
  destruct (lamb_quiet diff a call h Hr) as [L1 L2]. destruct (greeks_quiet diff a call h Hr) as [K1 K2].
  destruct (Hr _ _ _ Hb) as (_ & _ & _ & _ & (ps & HP)).
  pose proof (L2 _ _ Hb) as Lb. pose proof (K2 _ _ Hb) as Kb.
  split; [eapply view_same; eassumption|]. split; [eapply view_same; eassumption|]. split.
  - unfold lamb. rewrite (proj2 (get_opt_hget _ _ _ _) Kb), (proj2 (get_opt_hget _ _ _ _) Hb).
    rewrite !(lamb_with_value diff c s ps) by assumption. reflexivity.
  - eapply greeks_same; eassumption.
Qed.

(*@ C74_black76_refuted | Finding: lamb(method="fdm") of Black76Option never returns a number, whatever the flag, for every differentiator that evaluates its function at all: its delta tries to set 'S', which that class does not accept (delta and gamma: C17). *)
Lemma c74_black76 : forall (T : Type) (N : Num T) (f1 f2 f3 : nat) diff (kw : dict (pyv T)) (a : nat) (h : heap T) call F,
  made (all_classes f1 f2 f3) Black76Option_cls kw a h ->
  as_num (arg_value Black76Option_cls kw "FT") = Ok F ->
  (forall n st x, exists y k, diff n st x = Ask y k) ->
  exists e, fst (lamb diff a call h) = Err e.
Proof.
  intros * Hm HF Hd.
  pose proof (fun H => c17_fdm T N f1 f2 f3 diff kw a h "delta" call F Hm (or_introl eq_refl) HF H Hd) as HD.
  apply made_tracks in Hm. destruct Hm as (Hc & Hi & Ht & Hk & Hok).
  pose proof Ht as (s & vals & Ha & _). destruct (Hi _ _ _ Ha) as (_ & _ & _ & _ & (ps & HP)).
  unfold lamb. rewrite (proj2 (get_opt_hget _ _ _ _) Ha).
  rewrite (lamb_with_value diff _ s ps _ a call h Hi Ha HP).
  assert (As : dget s "_sigma" = Some (arg_value Black76Option_cls kw "sigma")).
  { rewrite (tracks_attr _ kw a h s "sigma" _ Hok Ht Ha) by (cbn; tauto). reflexivity. }
  change (lamb_of (c_class Black76Option_cls)) with (mkLM (T := T) true true (Some check_sigma) false (one "_S")).
  unfold lamb_val. cbn [lm_guard lm_flag lm_dict lm_comps].
  assert (Eg : mcall check_sigma s = if is_none (arg_value Black76Option_cls kw "sigma") then Err ValueError else Ok tt).
  { unfold mcall. cbn [m_reads m_fun check_sigma map]. rewrite As. destruct (arg_value _ kw "sigma"); reflexivity. }
  rewrite (greek_gen diff _ s ps a "delta" call h Hi Ha HP) in HD. unfold greek_val in HD.
  change (dget (c_greeks Black76Option_cls) "delta") with (Some (fdm (T := T) check_sigma true g_delta)) in HD.
  cbn [of_opt bind fdm gm_guard gm_flag gm_specs] in HD.
  rewrite Eg in HD |- *. destruct (is_none _); cbn [bind] in *; [eauto|]. specialize (HD eq_refl).
  destruct (price_of Black76Option_cls s call) as [p|e]; cbn [bind]; [|eauto].
  destruct (extract false p) as [x|e]; cbn [bind]; [|eauto].
  unfold one, delta_val. cbn [lm_via]. cbn [mapM] in HD |- *.
  destruct (fd_val diff Black76Option_cls _ call ps s g_delta) as [z|e]; cbn [bind] in *; [discriminate|eauto].
Qed.
