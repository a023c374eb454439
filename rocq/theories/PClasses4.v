(** Statements C16, C17, C20, C21: failed updates, Black76Option as a special case, repr and summary. *)
From Coq Require Import Reals String List Arith ZArith QArith Bool Lia Lra.
From Verif Require Import Num Py Arr MBase MVanilla MTrees MSpread MAmerican MObjects MClasses.
From Verif Require Import SObjects PObjects PObjects2 PObjects3 PClasses PClasses2 PClasses3.
Import ListNotations.
Open Scope py_scope.
Open Scope string_scope.

(*@ C17_black_scholes | Black76Option prices like the generalised Black-Scholes option with spot FT and cost of carry 0. *)
Lemma c17_gbs : forall (T : Type) (N : Num T) (f1 f2 f3 : nat) (kw : dict (pyv T)) (a : nat) (h h0 : heap T),
  made (all_classes f1 f2 f3) Black76Option_cls kw a h ->
  exists b h2, new GBSOption_cls [("S", arg_value Black76Option_cls kw "FT"); ("K", arg_value Black76Option_cls kw "K");
                    ("t", arg_value Black76Option_cls kw "t"); ("r", arg_value Black76Option_cls kw "r");
                    ("b", VInt 0); ("sigma", arg_value Black76Option_cls kw "sigma")] h0 = (Ok b, h2) /\
    forall call, price a call h = price b call h2.
Proof.
  intros * Hm. apply made_tracks in Hm. destruct Hm as (Hc & Hi & Ht & Hk & Hok).
  pose proof Ht as (s & vals & Ha & HB & HI & HO).
  assert (Hv : vals = map (arg_value Black76Option_cls kw) ["FT"; "K"; "t"; "r"; "sigma"]).
  { pose proof (bind_args_len _ _ _ HB) as HL. 
    assert (Q : forall p d, In (p, d) (c_sig Black76Option_cls) -> dget (combine (map fst (c_sig Black76Option_cls)) vals) p = Some (arg_value Black76Option_cls kw p)).
    { intros p d Hp. destruct (bind_args_val _ _ _ (k_sig _ Hok) HB _ _ Hp) as (v & V1 & V2). rewrite V1. f_equal.
      unfold arg_value. destruct (dget kw p); [congruence|]. rewrite (In_dget _ _ _ (k_sig _ Hok) Hp).
      destruct d; cbn in V2; congruence. }
    do 6 (destruct vals as [|? vals]; try discriminate HL).
    pose proof (Q "FT" None ltac:(cbn; tauto)) as Q1. pose proof (Q "K" None ltac:(cbn; tauto)) as Q2.
    pose proof (Q "t" None ltac:(cbn; tauto)) as Q3. pose proof (Q "r" None ltac:(cbn; tauto)) as Q4.
    pose proof (Q "sigma" (Some VNone) ltac:(cbn; tauto)) as Q5. cbn [combine map fst c_sig Black76Option_cls req app dget String.eqb Ascii.eqb Bool.eqb] in Q1, Q2, Q3, Q4, Q5.
    cbn [map]. congruence. }
  set (kw' := [("S", _); _; _; _; _; _]).
  assert (HB' : bind_args (c_sig (GBSOption_cls (T := T))) kw' =
     Ok [arg_value Black76Option_cls kw "FT"; arg_value Black76Option_cls kw "K"; arg_value Black76Option_cls kw "t";
         arg_value Black76Option_cls kw "r"; VInt 0; arg_value Black76Option_cls kw "sigma"]) by reflexivity.
  unfold new. rewrite HB', new_vals_spec.
  assert (HE : run_init GBSOption_cls [arg_value Black76Option_cls kw "FT"; arg_value Black76Option_cls kw "K"; arg_value Black76Option_cls kw "t";
         arg_value Black76Option_cls kw "r"; VInt 0; arg_value Black76Option_cls kw "sigma"] [] = run_init Black76Option_cls vals []).
  { rewrite Hv. reflexivity. }
  rewrite HE, HI. eexists _, _. split; [reflexivity|]. intro call.
  unfold price. rewrite (proj2 (get_opt_hget _ _ _ _) Ha).
  rewrite (proj2 (get_opt_hget _ _ _ _) (hget_len _ _ _)). cbn [bind fst snd].
  rewrite (oe_price _ _ _ HO), (oe_price _ _ _ (obs_eq_greeks _ (fst (run_init Black76Option_cls vals [])) (VRef (S (List.length h0))) Hok)).
  destruct call; reflexivity.
Qed.

(** ** repr *)
Lemma append_assoc (a b c : string) : (a ++ b) ++ c = a ++ b ++ c.
Proof. induction a; cbn; congruence. Qed.
Lemma append_nil_r (a : string) : a ++ "" = a.
Proof. induction a; cbn; congruence. Qed.
Lemma append_length (a b : string) : String.length (a ++ b) = (String.length a + String.length b)%nat.
Proof. induction a; cbn; congruence. Qed.
Lemma substring_prefix (a b : string) : String.substring 0 (String.length a) (a ++ b) = a.
Proof. induction a; cbn; [destruct b; reflexivity|congruence]. Qed.

Section Text.
Context {T : Type} {N : Num T}.
Variable show : pyv T -> string.
Lemma repr_fold (ps : dict (pyv T)) acc : ps <> [] ->
  fold_left (fun out pv => out ++ show (snd pv) ++ ", ") ps acc =
  acc ++ String.concat ", " (map (fun pv => show (snd pv)) ps) ++ ", ".
Proof.
  revert acc. induction ps as [|pv ps IH]; intros acc Hne; [congruence|]. cbn [fold_left map].
  destruct ps as [|pv2 ps]; [reflexivity|]. rewrite IH by discriminate. cbn [map String.concat].
  rewrite !append_assoc. reflexivity.
Qed.
Lemma repr_of_spec (c : cls T) ps : ps <> [] -> repr_of show c ps = repr_spec show (c_name c) ps.
Proof.
  intro Hne. unfold repr_of, repr_spec. rewrite repr_fold by exact Hne.
  set (x := String.concat _ _). 
  replace ((c_name c ++ "(") ++ x ++ ", ") with ((c_name c ++ "(" ++ x) ++ ", ") by now rewrite !append_assoc.
  rewrite append_length. replace (String.length (c_name c ++ "(" ++ x) + String.length ", " - 2)%nat with (String.length (c_name c ++ "(" ++ x)) by (cbn; lia).
  rewrite substring_prefix, !append_assoc. reflexivity.
Qed.
Lemma concat_nil_cons x (l : list string) : String.concat "" (x :: l) = x ++ String.concat "" l.
Proof. destruct l; cbn; [now rewrite append_nil_r|reflexivity]. Qed.
Lemma head_fold (ps : dict (pyv T)) acc :
  fold_left (fun out pv => out ++ "  " ++ fst pv ++ " = " ++ show (snd pv) ++ nl) ps acc =
  acc ++ String.concat "" (map (fun pv => "  " ++ fst pv ++ " = " ++ show (snd pv) ++ nl) ps).
Proof.
  revert acc. induction ps as [|pv ps IH]; intro acc; [cbn; now rewrite append_nil_r|]. cbn [fold_left map].
  rewrite IH, concat_nil_cons, !append_assoc. reflexivity.
Qed.
Lemma summary_head_eq (c : cls T) ps : summary_head show c ps = summary_head_spec show (c_title c) ps.
Proof. unfold summary_head, summary_head_spec. rewrite head_fold, !append_assoc. reflexivity. Qed.
Lemma head_lists title (ps : dict (pyv T)) p v : In (p, v) ps ->
  exists pre post, summary_head_spec show title ps = pre ++ "  " ++ p ++ " = " ++ show v ++ nl ++ post.
Proof.
  intro H. unfold summary_head_spec.
  assert (Q : exists pre post, String.concat "" (map (fun pv => "  " ++ fst pv ++ " = " ++ show (snd pv) ++ nl) ps)
            = pre ++ "  " ++ p ++ " = " ++ show v ++ nl ++ post).
  { induction ps as [|[q w] ps IH]; [destruct H|]. cbn [map]. rewrite concat_nil_cons. destruct H as [[= -> ->]|H].
    - exists "", (String.concat "" (map (fun pv => "  " ++ fst pv ++ " = " ++ show (snd pv) ++ nl) ps)).
      cbn [fst snd]. rewrite !append_assoc. reflexivity.
    - destruct (IH H) as (pre & post & ->). exists (("  " ++ q ++ " = " ++ show w ++ nl) ++ pre), post.
      cbn [fst snd]. rewrite !append_assoc. reflexivity. }
  destruct Q as (pre & post & ->).
  exists ("Title: " ++ title ++ " Valuation" ++ nl ++ nl ++ "Parameters:" ++ nl ++ nl ++ pre), post.
  rewrite !append_assoc. reflexivity.
Qed.
End Text.

(*@ C20_repr | repr(option) is the class's __name__ followed by the parameter values of get_params, in that order, separated by commas. *)
Lemma c20_repr : forall (T : Type) (N : Num T) (f1 f2 f3 : nat) show (h : heap T) (a : nat) (c : cls T) s,
  In c (all_classes f1 f2 f3) -> reachable (all_classes f1 f2 f3) h -> get_opt h a = Ok (c, s) ->
  exists ps, get_params a h = Ok ps /\ map fst ps = map fst (c_params c) /\ repr show a h = Ok (repr_spec show (c_name c) ps).
Proof.
  intros * Hc Hr Ha. apply reachable_inv in Hr. pose proof Ha as Hg. apply get_opt_hget in Ha.
  destruct (Hr _ _ _ Ha) as (_ & _ & _ & _ & (ps & HP)). exists ps.
  unfold get_params, repr. rewrite Hg. cbn [bind fst snd]. rewrite HP. cbn [bind].
  pose proof (params_of_keys _ _ _ HP) as HK. split; [reflexivity|]. split; [exact HK|].
  rewrite repr_of_spec; [reflexivity|]. intros ->. cbn in HK.
  unfold all_classes in Hc. repeat (destruct Hc as [<-|Hc]; [discriminate HK|]). destruct Hc.
Qed.

(*@ C20_order | For every class but Black76Option and BionomialSpreadAllTypes get_params lists the values in the order of the constructor's parameters. *)
Lemma c20_order : forall (T : Type) (N : Num T) (f1 f2 f3 : nat) (c : cls T),
  In c (all_classes f1 f2 f3) -> ~ In (c_class c) ["Black76Option"; "BionomialSpreadAllTypes"] ->
  map fst (c_params c) = map fst (c_sig c).
Proof.
  intros * Hc Hn. unfold all_classes in Hc.
  repeat (destruct Hc as [<-|Hc]; [first [reflexivity|exfalso; apply Hn; cbn; tauto]|]). destruct Hc.
Qed.

Lemma bind_pos_id {T} (sig : list (string * option (pyv T))) vals :
  List.length vals = List.length sig -> bind_pos sig vals = Ok vals.
Proof.
  revert vals. induction sig as [|[p d] sig IH]; intros [|v vals] H; cbn in *; try discriminate; [reflexivity|].
  rewrite IH by lia. reflexivity.
Qed.
Lemma combine_dget_map {V} (ks : list string) (vals : list V) (d : string -> V) : NoDup ks -> List.length vals = List.length ks ->
  map (fun p => match dget (combine ks vals) p with Some v => v | None => d p end) ks = vals.
Proof.
  intros Hn. revert vals. induction Hn as [|k ks Hk Hn IH]; intros [|v vals] Hl; cbn in *; try discriminate; [reflexivity|].
  rewrite String.eqb_refl. f_equal. transitivity (map (fun p => match dget (combine ks vals) p with Some v => v | None => d p end) ks); [|apply IH; lia].
  apply map_ext_in. intros p Hp.
  destruct (String.eqb_spec k p) as [->|]; [tauto|reflexivity].
Qed.

(*@ C20_round_trip | Calling the class with the values repr shows, in that order, gives an option indistinguishable from the original (all classes but Black76Option and BionomialSpreadAllTypes); and the name shown is the class's own name, TIANBinomialTreeOption and BionomialSpreadOption excepted. *)
Lemma c20_round : forall (T : Type) (N : Num T) (f1 f2 f3 : nat) diff solver show show6 (kw : dict (pyv T)) (a : nat) (h h0 : heap T) (c : cls T),
  made (all_classes f1 f2 f3) c kw a h -> reachable (all_classes f1 f2 f3) h0 ->
  ~ In (c_class c) ["Black76Option"; "BionomialSpreadAllTypes"] ->
  exists ps b h2, get_params a h = Ok ps /\ repr show a h = Ok (repr_spec show (c_name c) ps) /\
    new_pos c (map snd ps) h0 = (Ok b, h2) /\ same_view diff solver show show6 a h b h2 /\
    (~ In (c_class c) ["TIANBinomialTreeOption"; "BionomialSpreadOption"] -> c_name c = c_class c).
Proof.
  intros * Hm Hr Hn. apply made_tracks in Hm. destruct Hm as (Hc & Hi & Ht & Hk & Hok). apply reachable_inv in Hr.
  pose proof Ht as (s & vals & Ha & HB & HI & HO).
  pose proof (bind_args_len _ _ _ HB) as HL.
  pose proof (run_init_params c vals [] Hok HL HI) as HP. rewrite <- (oe_params _ _ _ HO) in HP.
  pose proof (c20_order T N f1 f2 f3 c Hc Hn) as Ho.
  eexists _, (List.length h0), _. split; [|split; [|split; [|split]]].
  - unfold get_params. rewrite (proj2 (get_opt_hget _ _ _ _) Ha). cbn [bind fst snd]. exact HP.
  - unfold repr. rewrite (proj2 (get_opt_hget _ _ _ _) Ha). cbn [bind fst snd]. rewrite HP. cbn [bind].
    rewrite repr_of_spec; [reflexivity|]. clear - Hc.
    unfold all_classes in Hc. repeat (destruct Hc as [<-|Hc]; [discriminate|]). destruct Hc.
  - rewrite map_map. cbn [snd]. unfold new_pos.
    replace (map (fun x => pval c vals (fst x)) (c_params c)) with vals.
    + rewrite bind_pos_id by exact HL. rewrite new_vals_spec, HI. reflexivity.
    + rewrite <- (map_map fst (pval c vals)), Ho. symmetry.
      apply combine_dget_map; [apply (k_sig _ Hok)|]. rewrite map_length. exact HL.
  - assert (Hnew : new c kw h0 = (Ok (List.length h0),
      (h0 ++ [mkObj (KOpt c) (dset (fst (run_init c vals [])) "_greeks" (VRef (S (List.length h0)))); greeks_obj c (List.length h0)])%list)).
    { unfold new. rewrite HB, new_vals_spec, HI. reflexivity. }
    eapply view_tracks; [exact Hi| |exact Ht|].
    + eapply new_reach_inv; [exact Hr|exact Hok|exact Hk|exact Hnew].
    + eapply new_tracks; [exact Hok|exact Hnew].
  - clear - Hc Hn. intro Hn2. unfold all_classes in Hc.
    repeat (destruct Hc as [<-|Hc]; [first [reflexivity|exfalso; apply Hn; cbn; tauto|exfalso; apply Hn2; cbn; tauto]|]). destruct Hc.
Qed.

(** ** summary *)
(*@ C21_total | summary() never raises, whatever the parameter values and whether or not call and put raise, except for RollGeskeWhaleyOption; its text starts with the title and one line per parameter. *)
Lemma c21_total : forall (T : Type) (N : Num T) (f1 f2 f3 : nat) show show6 (h : heap T) (a : nat) (c : cls T) s,
  In c (all_classes f1 f2 f3) -> reachable (all_classes f1 f2 f3) h -> get_opt h a = Ok (c, s) ->
  c_class c <> "RollGeskeWhaleyOption" ->
  exists ps tail, get_params a h = Ok ps /\ summary show show6 a h = Ok (summary_head_spec show (c_title c) ps ++ tail).
Proof.
  intros * Hc Hr Hg Hn. apply reachable_inv in Hr. pose proof Hg as Ha. apply get_opt_hget in Ha.
  destruct (Hr _ _ _ Ha) as (_ & _ & _ & _ & (ps & HP)). exists ps.
  unfold get_params, summary. rewrite Hg. cbn [bind fst snd]. rewrite HP. cbn [bind]. rewrite summary_head_eq.
  assert (Hs : forall m, c_summary c <> SumRGW m).
  { clear - Hc Hn. unfold all_classes in Hc.
    repeat (destruct Hc as [<-|Hc]; [first [discriminate|exfalso; now apply Hn]|]). destruct Hc. }
  destruct (summary_price show show6 c s) as [t|e].
  - exists t. split; [reflexivity|]. destruct (c_summary c); try reflexivity. now specialize (Hs opt).
  - exists "". rewrite append_nil_r. split; [reflexivity|]. destruct (c_summary c); try reflexivity. now specialize (Hs opt).
Qed.

(*@ C21_lists_parameters | Whenever summary() returns, for any class, the text contains a line "  name = value" for every parameter. *)
Lemma c21_lists : forall (T : Type) (N : Num T) (f1 f2 f3 : nat) show show6 (h : heap T) (a : nat) text ps p v,
  reachable (all_classes f1 f2 f3) h -> summary show show6 a h = Ok text -> get_params a h = Ok ps -> In (p, v) ps ->
  exists pre post, text = pre ++ "  " ++ p ++ " = " ++ show v ++ nl ++ post.
Proof.
  intros * Hr HS HP Hi. unfold summary in HS. unfold get_params in HP.
  destruct (get_opt h a) as [[c s]|e] eqn:Hg; cbn [bind fst snd] in *; [|discriminate]. rewrite HP in HS. cbn [bind] in HS.
  rewrite summary_head_eq in HS. destruct (head_lists show (c_title c) ps p v Hi) as (pre & post & E).
  assert (Q : exists tl, text = summary_head_spec show (c_title c) ps ++ tl).
  { destruct (summary_price show show6 c s) as [t|]; destruct (c_summary c);
      try (injection HS as <-; eexists; first [reflexivity|symmetry; apply append_nil_r]);
      destruct (mcall opt s); cbn [bind] in HS; try discriminate; injection HS as <-; [rewrite (append_assoc _ t)|]; eexists; reflexivity. }
  destruct Q as (tl & ->). rewrite E. exists pre, (post ++ tl). rewrite !append_assoc. reflexivity.
Qed.

(*@ C21_prices_shown | If call and put return numbers, summary() of a class other than the Roll-Geske-Whaley and Bjerksund-Stensland ones ends with both of them; if either raises, no price section appears. *)
Lemma c21_prices : forall (T : Type) (N : Num T) (f1 f2 f3 : nat) show show6 (h : heap T) (a : nat) (c : cls T) s,
  In c (all_classes f1 f2 f3) -> reachable (all_classes f1 f2 f3) h -> get_opt h a = Ok (c, s) ->
  ~ In (c_class c) ["RollGeskeWhaleyOption"; "BSAmericanApproxOption"] ->
  exists ps, get_params a h = Ok ps /\
  match price a true h, price a false h with
  | Ok (PNum x), Ok (PNum y) => exists ty, summary show show6 a h =
       Ok (summary_head_spec show (c_title c) ps ++ nl ++ "Option Price:" ++ nl ++ nl ++
           "  call" ++ ty ++ ": " ++ show6 x ++ nl ++ "  put" ++ ty ++ ": " ++ show6 y)
  | Err _, _ | _, Err _ => summary show show6 a h = Ok (summary_head_spec show (c_title c) ps)
  | _, _ => True
  end.
Proof.
  intros * Hc Hr Hg Hn. apply reachable_inv in Hr. pose proof Hg as Ha. apply get_opt_hget in Ha.
  destruct (Hr _ _ _ Ha) as (Hok & _ & _ & _ & (ps & HP)). exists ps.
  unfold get_params, summary, price. rewrite Hg. cbn [bind fst snd]. rewrite HP. cbn [bind]. rewrite summary_head_eq.
  split; [reflexivity|].
  assert (Hs : c_summary c = SumBase \/ exists at_ p, c_summary c = SumTyped at_ /\ In (p, at_) (c_params c)).
  { clear - Hc Hn. unfold all_classes in Hc.
    repeat (destruct Hc as [<-|Hc]; [first [now left|right; eexists _, _; split; [reflexivity|cbn; intuition reflexivity]|exfalso; apply Hn; cbn; tauto]|]). destruct Hc. }
  unfold summary_price. destruct Hs as [->|(at_ & p & -> & Hp)].
  - destruct (price_of c s true) as [[x|x tx]|e], (price_of c s false) as [[y|y ty]|e']; cbn [bind]; try exact Coq.Init.Logic.I; try reflexivity.
    exists "". rewrite ?append_assoc. reflexivity.
  - destruct (dget s at_) as [w|] eqn:E; [|exfalso; eapply params_of_present; eassumption]. cbn [of_opt bind].
    destruct (price_of c s true) as [[x|x tx]|e], (price_of c s false) as [[y|y ty]|e']; cbn [bind]; try exact Coq.Init.Logic.I; try reflexivity.
    exists ("-" ++ show w). rewrite ?append_assoc. reflexivity.
Qed.
