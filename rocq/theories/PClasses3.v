(** Statements C14-C19: updates, copies and finite differences of option objects. *)
From Coq Require Import String List Arith ZArith QArith Bool Lia.
From Verif Require Import Num Py Arr MBase MVanilla MTrees MSpread MAmerican MObjects MClasses.
From Verif Require Import SObjects PObjects PObjects2 PObjects3 PClasses PClasses2.
Import ListNotations.
Open Scope py_scope.
Open Scope string_scope.

Section Aux.
Context {T : Type} {N : Num T}.
Variables f1 f2 f3 : nat.
Local Notation pyv := (pyv T).
Local Notation dict := (dict pyv).
Local Notation cls := (cls T).
Local Notation heap := (heap T).
Local Notation classes := (all_classes f1 f2 f3).

Lemma updates_scalars (c : cls) a prog (kw : dict) : Forall op_ok prog -> scalars kw -> scalars (updates c a prog kw).
Proof.
  intros Hp. revert kw. induction prog as [|o l IH]; intros kw Hk; [exact Hk|].
  inversion Hp; subst. destruct o; cbn in *; try (now apply IH). apply IH; [assumption|].
  destruct (Nat.eqb a0 a); [|exact Hk]. unfold upd. destruct (existsb _ _); [exact Hk|]. now apply scalars_dset.
Qed.
Lemma made_tracks (c : cls) kw a (h : heap) : made classes c kw a h ->
  In c classes /\ inv h /\ tracks c kw a h /\ scalars kw /\ cls_ok c.
Proof.
  intros (diff & solver & h0 & h1 & prog & kw0 & Hr & Hc & Hk & Hn & Hp & Hs & -> & ->).
  apply reachable_inv in Hr. pose proof (all_ok f1 f2 f3 c Hc) as Hok. apply plains_scalars in Hk.
  pose proof (user_ops_ok _ _ _ _ Hp) as Hp'.
  assert (Hi1 : inv h1). { destruct (new_inv c kw0 h0 Hr Hok Hk) as [H _]. rewrite Hn in H. exact H. }
  split; [exact Hc|]. split; [now apply exec_all_inv|]. split; [|split; [now apply updates_scalars|exact Hok]].
  apply exec_all_tracks; auto. eapply new_tracks; eassumption.
Qed.
Lemma new_reach_inv (c : cls) kw (h h' : heap) b : inv h -> cls_ok c -> scalars kw -> new c kw h = (Ok b, h') -> inv h'.
Proof. intros H1 H2 H3 E. destruct (new_inv c kw h H1 H2 H3) as [H _]. rewrite E in H. exact H. Qed.

Lemma tracks_arg_value (c : cls) kw a (h : heap) p : In c classes -> tracks c kw a h -> In p (map fst (c_params c)) ->
  param_value c kw p = arg_value c kw p.
Proof.
  intros Hc (s & vals & _ & HB & _) Hp. pose proof (all_ok f1 f2 f3 c Hc) as Hok.
  apply (param_arg_value f1 f2 f3); auto.
  intros d Hd -> E.
  destruct (bind_args_val _ _ _ (k_sig _ Hok) HB _ _ Hd) as (v & _ & V2). rewrite E in V2. discriminate.
Qed.

(** a successful update from any state *)
Lemma set_any (c : cls) s ps a (h h' : heap) x v : inv h -> at_obj c s a h -> params_of c s = Ok ps -> scalar v ->
  set_param a x v h = (None, h') -> tracks c (fold_left ddel (c_drop c) (dset ps x v)) a h' /\ inv h'.
Proof.
  intros Hi Ha HP Hv HS. destruct (Hi _ _ _ Ha) as (Hc & W2 & W4 & W5 & _).
  split; [|destruct (set_param_ok a x v h Hi Hv) as [H _]; rewrite HS in H; exact H].
  unfold set_param in HS. rewrite (proj2 (get_opt_hget _ _ _ _) Ha), HP in HS.
  destruct (bind_args (c_sig c) _) as [vals|e] eqn:B; [|discriminate].
  assert (Hvs : Forall scalar vals).
  { eapply bind_args_scalar; [exact Hc| |exact B]. apply scalars_ddels, scalars_dset; [|exact Hv].
    eapply params_scalars; eassumption. }
  destruct (do_init_ok c vals a h s Hi Ha Hvs) as (_ & _ & D3 & at' & D4 & D5).
  destruct (k_det _ Hc vals s [] (bind_args_len _ _ _ B)) as [Q1 Q2]. rewrite HS in D3, D4. cbn in D3, D4.
  exists at', vals. split; [exact D4|]. split; [exact B|]. split; [congruence|].
  eapply obs_eq_trans; [exact D5|]. apply Q2. congruence.
Qed.

(** constructors made of plain assignments cannot fail *)
Definition stores_only (c : cls) : bool :=
  forallb (fun st => match st with Store _ p => mem p (map fst (c_sig c)) | Const _ _ => true | Comp _ _ _ _ => false end) (c_init c).
Lemma stores_only_ok (c : cls) vals s : stores_only c = true -> List.length vals = List.length (c_sig c) ->
  snd (run_init c vals s) = None.
Proof.
  unfold stores_only, run_init. intros H Hl. revert s. induction (c_init c) as [|st l IH]; intro s; [reflexivity|].
  cbn in H. apply andb_prop in H. destruct H as [H1 H2]. destruct st as [a p|a v|]; cbn; [| |discriminate].
  - apply mem_In in H1. assert (E : exists v, dget (combine (map fst (c_sig c)) vals) p = Some v).
    { apply dget_keys. clear - H1 Hl. revert vals Hl. induction (c_sig c) as [|[q d] sig IH]; intros [|v vals] Hl; cbn in *; try lia.
      destruct H1 as [->|H1]; [now left|]. right. apply IH; auto. }
    destruct E as (v & ->). cbn. now apply IH.
  - now apply IH.
Qed.
Lemma stores_atomic (c : cls) s a (h : heap) x v e h' : stores_only c = true -> inv h -> at_obj c s a h -> scalar v ->
  set_param a x v h = (Some e, h') -> h' = h.
Proof.
  intros Hs Hi Ha Hv HS. destruct (Hi _ _ _ Ha) as (Hc & W2 & W4 & W5 & (ps & HP)).
  unfold set_param in HS. rewrite (proj2 (get_opt_hget _ _ _ _) Ha), HP in HS.
  destruct (bind_args (c_sig c) _) as [vals|e'] eqn:B; [|now injection HS].
  assert (Hvs : Forall scalar vals).
  { eapply bind_args_scalar; [exact Hc| |exact B]. apply scalars_ddels, scalars_dset; [|exact Hv].
    eapply params_scalars; eassumption. }
  destruct (do_init_ok c vals a h s Hi Ha Hvs) as (_ & _ & D3 & _). rewrite HS in D3. cbn in D3.
  rewrite (stores_only_ok c vals s Hs (bind_args_len _ _ _ B)) in D3. discriminate.
Qed.
End Aux.

(*@ C14_rebuild | After any program, an option whose updates all succeeded is indistinguishable from one freshly built (in any reachable heap) with the current parameters: same parameters, prices, Greeks, implied volatility, repr and summary. *)
Lemma c14_made : forall (T : Type) (N : Num T) (f1 f2 f3 : nat) diff solver show show6
    (c : cls T) (kw : dict (pyv T)) (a : nat) (h h0 : heap T),
  made (all_classes f1 f2 f3) c kw a h -> reachable (all_classes f1 f2 f3) h0 ->
  exists b h2, new c kw h0 = (Ok b, h2) /\ same_view diff solver show show6 a h b h2.
Proof.
  intros * Hm Hr. apply made_tracks in Hm. destruct Hm as (Hc & Hi & Ht & Hk & Hok). apply reachable_inv in Hr.
  destruct (tracks_new c kw a h h0 Ht) as (b & h2 & Hb). exists b, h2. split; [exact Hb|].
  apply (view_tracks diff solver show show6 c kw); auto.
  - eapply new_reach_inv; eassumption.
  - eapply new_tracks; eassumption.
Qed.

(*@ C14_last_write | After any program in which no set_param on the object raised, get_params returns for each constructor parameter the last value written by the program, or the constructor's value (b of Black76Option is 0). *)
Lemma c14_params : forall (T : Type) (N : Num T) (f1 f2 f3 : nat) diff solver
    (h h1 : heap T) (c : cls T) (kw : dict (pyv T)) (a : nat) (prog : list (op T)),
  reachable (all_classes f1 f2 f3) h -> In c (all_classes f1 f2 f3) -> plains kw -> new c kw h = (Ok a, h1) ->
  Forall (user_op (all_classes f1 f2 f3)) prog -> sets_ok a prog (fst (exec_all diff solver prog h1)) ->
  get_params a (snd (exec_all diff solver prog h1)) =
  Ok (map (fun p => (p, if isin p (map fst (c_sig c)) then last_write a p prog (arg_value c kw p) else VInt 0))
          (map fst (c_params c))).
Proof. intros *. apply c14_last_write. Qed.

(*@ C15_unknown_name | In every reachable state (also after failed updates) set_param with a name that is not a parameter raises TypeError and changes nothing at all. *)
Lemma c15_made : forall (T : Type) (N : Num T) (f1 f2 f3 : nat) (h : heap T) (a : nat) (c : cls T) s x v,
  reachable (all_classes f1 f2 f3) h -> get_opt h a = Ok (c, s) -> ~ In x (map fst (c_params c)) ->
  set_param a x v h = (Some TypeError, h).
Proof. intros *. apply c15_unknown. Qed.

(*@ C16_atomic | American approximations and one-asset trees: an update that raises leaves the whole heap as it was. *)
Lemma c16_stores : forall (T : Type) (N : Num T) (f1 f2 f3 : nat) (h h' : heap T) (a : nat) (c : cls T) s x v e,
  reachable (all_classes f1 f2 f3) h -> get_opt h a = Ok (c, s) -> plain v ->
  In c [RollGeskeWhaley_cls f1 f2; BAWAmerican_cls f3; BSAmerican_cls; CRR_cls; JR_cls; TIAN_cls; Trinomial_cls] ->
  set_param a x v h = (Some e, h') -> h' = h.
Proof.
  intros * Hr Ha Hv Hc. apply reachable_inv in Hr. apply get_opt_hget in Ha.
  apply (stores_atomic c s a h x v e h'); auto using plain_scalar.
  cbn in Hc. repeat (destruct Hc as [<-|Hc]; [reflexivity|]). destruct Hc.
Qed.

(*@ C16_recovery | Whatever happened before, after a set_param that succeeds the object is again indistinguishable from a freshly built one. *)
Lemma c16_recover : forall (T : Type) (N : Num T) (f1 f2 f3 : nat) diff solver show show6
    (h h' h0 : heap T) (a : nat) (c : cls T) s ps x v,
  reachable (all_classes f1 f2 f3) h -> reachable (all_classes f1 f2 f3) h0 ->
  get_opt h a = Ok (c, s) -> plain v -> get_params a h = Ok ps ->
  set_param a x v h = (None, h') ->
  exists b h2, new c (fold_left ddel (c_drop c) (dset ps x v)) h0 = (Ok b, h2) /\
    same_view diff solver show show6 a h' b h2.
Proof.
  intros * Hr Hr0 Ha Hv HP HS. apply reachable_inv in Hr, Hr0. unfold get_params in HP. rewrite Ha in HP. cbn in HP.
  apply get_opt_hget in Ha. destruct (Hr _ _ _ Ha) as (Hok & _ & _ & W5 & _). apply plain_scalar in Hv.
  destruct (set_any c s ps a h h' x v Hr Ha HP Hv HS) as [Ht Hi'].
  destruct (tracks_new c _ a h' h0 Ht) as (b & h2 & Hb). exists b, h2. split; [exact Hb|].
  eapply view_tracks; [exact Hi'| |exact Ht|eapply new_tracks; eassumption].
  eapply new_reach_inv; [exact Hr0|exact Hok| |exact Hb].
  apply scalars_ddels, scalars_dset; [eapply params_scalars; eassumption|exact Hv].
Qed.

(*@ C17_outcome | Black76Option: an update raises exactly when building from the updated arguments raises, with the same exception; otherwise the object is indistinguishable from the rebuilt one. *)
Lemma c17_outcome : forall (T : Type) (N : Num T) (f1 f2 f3 : nat) diff solver show show6
    (kw : dict (pyv T)) (a : nat) (h h0 : heap T) x v,
  made (all_classes f1 f2 f3) Black76Option_cls kw a h -> reachable (all_classes f1 f2 f3) h0 -> plain v ->
  In x ["FT"; "K"; "t"; "r"; "sigma"] ->
  match new Black76Option_cls (dset kw x v) h0 with
  | (Err e, _) => fst (set_param a x v h) = Some e
  | (Ok b, h2) => fst (set_param a x v h) = None /\
                  same_view diff solver show show6 a (snd (set_param a x v h)) b h2
  end.
Proof.
  intros * Hm Hr Hv Hx. apply made_tracks in Hm. destruct Hm as (Hc & Hi & Ht & Hk & Hok). apply reachable_inv in Hr.
  apply plain_scalar in Hv. assert (Hu : upd Black76Option_cls kw x v = dset kw x v).
  { cbn in Hx. unfold upd. repeat (destruct Hx as [<-|Hx]; [reflexivity|]). destruct Hx. }
  destruct (set_tracks _ kw a h h0 x v Hi Ht Hv) as [E1 E2]. rewrite Hu in E1, E2. unfold exc in E1.
  destruct (new Black76Option_cls (dset kw x v) h0) as [[b|e] h2] eqn:En; cbn in E1; [|exact E1].
  split; [exact E1|]. specialize (E2 E1). destruct (set_param_ok a x v h Hi Hv) as [Hi' _].
  eapply view_tracks; [exact Hi'| |exact E2|eapply new_tracks; eassumption].
  eapply new_reach_inv; [exact Hr|exact Hok| |exact En]. now apply scalars_dset.
Qed.

(*@ C17_b_ignored | Black76Option.set_param('b', v) never raises and has no effect on any later observation. *)
Lemma c17_b : forall (T : Type) (N : Num T) (f1 f2 f3 : nat) diff solver show show6
    (kw : dict (pyv T)) (a : nat) (h : heap T) v,
  made (all_classes f1 f2 f3) Black76Option_cls kw a h -> plain v ->
  fst (set_param a "b" v h) = None /\
  same_view diff solver show show6 a (snd (set_param a "b" v h)) a h.
Proof.
  intros * Hm Hv. apply made_tracks in Hm. destruct Hm as (Hc & Hi & Ht & Hk & Hok). apply plain_scalar in Hv.
  destruct (set_tracks _ kw a h [] "b" v Hi Ht Hv) as [E1 E2]. 
  change (upd Black76Option_cls kw "b" v) with kw in E1, E2.
  destruct (tracks_new _ kw a h [] Ht) as (b & h2 & Hb). rewrite Hb in E1. cbn in E1. split; [exact E1|].
  destruct (set_param_ok a "b" v h Hi Hv) as [Hi' _]. eapply view_tracks; eauto.
Qed.

(*@ C17_S_rejected | Black76Option.set_param('S', v) raises TypeError and changes nothing. *)
Lemma c17_S : forall (T : Type) (N : Num T) (f1 f2 f3 : nat) (h : heap T) (a : nat) s v,
  reachable (all_classes f1 f2 f3) h -> get_opt h a = Ok (Black76Option_cls, s) ->
  set_param a "S" v h = (Some TypeError, h).
Proof. intros * Hr Ha. apply (c15_unknown f1 f2 f3 h a Black76Option_cls s); auto. cbn. intuition discriminate. Qed.

(*@ C18_copy | copy() returns a new object indistinguishable from the original. *)
Lemma c18_copy : forall (T : Type) (N : Num T) (f1 f2 f3 : nat) diff solver show show6 (h : heap T) (a : nat) (c : cls T) s,
  reachable (all_classes f1 f2 f3) h -> get_opt h a = Ok (c, s) ->
  exists b h', copy a h = (Ok b, h') /\ hget h b = None /\ b <> a /\
    same_view diff solver show show6 b h' a h /\ same_view diff solver show show6 a h' a h.
Proof.
  intros * Hr Ha. apply reachable_inv in Hr. apply get_opt_hget in Ha. destruct (Hr _ _ _ Ha) as (Hok & _).
  pose proof (hget_lt _ _ _ Ha) as Hl. destruct (copy_inv a h Hr) as [Hi' He].
  rewrite (copy_spec _ _ _ _ Hr Ha) in Hi', He |- *. cbn [snd] in Hi', He. eexists _, _. split; [reflexivity|].
  split; [apply nth_error_None; lia|]. split; [lia|]. split.
  - eapply view_obs; [exact Hi'|exact Hr|apply hget_len|exact Ha|]. apply obs_eq_sym, obs_eq_greeks, Hok.
  - eapply view_same; [exact Hi'|exact Hr|apply He; exact Ha|exact Ha].
Qed.

(*@ C18_independent | No program that does not call set_param on an object changes what that object returns; in particular updates of the copy never affect the original and vice versa, and computing Greeks or implied volatilities, or failing to, changes nothing. *)
Lemma c18_frame : forall (T : Type) (N : Num T) (f1 f2 f3 : nat) diff solver show show6 diff' solver'
    (h : heap T) (a : nat) (c : cls T) s prog,
  reachable (all_classes f1 f2 f3) h -> get_opt h a = Ok (c, s) ->
  Forall (user_op (all_classes f1 f2 f3)) prog -> untouched a prog ->
  same_view diff solver show show6 a (snd (exec_all diff' solver' prog h)) a h.
Proof.
  intros * Hr Ha Hp Hu. apply reachable_inv in Hr. apply get_opt_hget in Ha. apply user_ops_ok in Hp.
  pose proof (exec_all_frame diff' solver' prog a _ h Hr Hp (untouched_not_set a prog Hu) Ha) as Ha'.
  eapply view_same; [|exact Hr|exact Ha'|exact Ha]. now apply exec_all_inv.
Qed.

(*@ C19_volatility | The function handed to the root finder of volatility() is s -> given price minus the price of a fresh option whose volatility is s and whose other parameters are the current ones. *)
Lemma c19_vol : forall (T : Type) (N : Num T) (f1 f2 f3 : nat) solver (c : cls T) (kw : dict (pyv T)) (a : nat) (h : heap T) p call,
  made (all_classes f1 f2 f3) c kw a h ->
  fst (volatility solver a p call h) =
  ask (fun s => y <- fresh c false call (upd c kw "sigma" (VNpy s)) ;; Ok (p - y)%num) (solver (lit (-10)) (lit 10)).
Proof. intros * Hm. apply made_tracks in Hm. destruct Hm as (Hc & Hi & Ht & Hk & Hok). now apply volatility_value. Qed.

(** ** Greeks *)
Definition row (sp : gspec) : string * string * nat * gstep * Z :=
  (gs_label sp, gs_wrt sp, gs_n sp, gs_step sp, gs_sign sp).
Lemma fd_value_expected (T : Type) (N : Num T) (f1 f2 f3 : nat) diff (c : cls T) kw a h call gm sp :
  In c (all_classes f1 f2 f3) -> tracks c kw a h -> gm_ok c gm = true -> In sp (gm_specs gm) ->
  fd_value diff c kw call sp = fd_expected diff c kw call (row sp).
Proof.
  intros Hc Ht Hs Hsp. unfold gm_ok in Hs. rewrite forallb_forall in Hs. specialize (Hs _ Hsp).
  apply andb_prop in Hs. destruct Hs as [Hs1 Hs2]. apply existsb_pair in Hs1.
  apply (in_map fst) in Hs1. cbn in Hs1.
  unfold fd_value, fd_expected, row, step_value. rewrite (tracks_arg_value f1 f2 f3 c kw a h (gs_wrt sp) Hc Ht Hs1).
  destruct (gs_step sp); try reflexivity.
  apply existsb_pair in Hs2. apply (in_map fst) in Hs2. cbn in Hs2.
  rewrite (tracks_arg_value f1 f2 f3 c kw a h "sigma" Hc Ht Hs2). reflexivity.
Qed.
Lemma mapM_map {A B D} (f : B -> res D) (g : A -> B) l : mapM f (map g l) = mapM (fun x => f (g x)) l.
Proof. induction l as [|x l IH]; cbn; [reflexivity|]. now rewrite IH. Qed.

(** the Greeks each class implements, apart from the two of Black76Option that always fail *)
Definition has_greek (class greek : string) : bool :=
  isin greek ["delta"; "gamma"; "vega"; "theta"; "rho"]
  && negb (String.eqb class "MiltersenSchwartzOption" && String.eqb greek "rho")
  && negb (String.eqb class "Black76Option" && isin greek ["delta"; "gamma"]).

Lemma table (T : Type) (N : Num T) (f1 f2 f3 : nat) (c : cls T) name :
  In c (all_classes f1 f2 f3) -> has_greek (c_class c) name = true ->
  exists gm, dget (c_greeks c) name = Some gm /\ gm_ok c gm = true /\ map row (gm_specs gm) = expected (c_class c) name /\
    gm_flag gm = takes_flag (c_class c) name /\
    (gm_guard gm = if isin (c_class c) ["GBSOption"; "BlackScholesOption"; "Black76Option"]
                   then Some (if String.eqb name "rho" then check_rho else check_sigma) else None).
Proof.
  intros Hc Hg. assert (Hn : In name ["delta"; "gamma"; "vega"; "theta"; "rho"]).
  { unfold has_greek in Hg. apply andb_prop in Hg. destruct Hg as [Hg _]. apply andb_prop in Hg. now apply mem_In. }
  unfold all_classes in Hc.
  repeat (destruct Hn as [<-|Hn]; [repeat (destruct Hc as [<-|Hc];
     [first [discriminate Hg|eexists; repeat split; reflexivity]|]); destruct Hc|]).
  destruct Hn.
Qed.

(*@ C19_greeks | Finite-difference Greeks: for every class and Greek, the numerical differentiator is handed the function x -> price of a fresh option with the named parameter set to x and all others as they are now, is asked for the right order and step at the current value of the right parameter, and its answer is returned with the right sign. *)
Lemma c19_greeks : forall (T : Type) (N : Num T) (f1 f2 f3 : nat) diff (c : cls T) (kw : dict (pyv T)) (a : nat) (h : heap T) name call,
  made (all_classes f1 f2 f3) c kw a h -> has_greek (c_class c) name = true ->
  fst (greek diff a name call h) =
  (_ <- fdm_check c kw name ;;
   mapM (fd_expected diff c kw (if takes_flag (c_class c) name then call else true)) (expected (c_class c) name)).
Proof.
  intros * Hm Hg. apply made_tracks in Hm. destruct Hm as (Hc & Hi & Ht & Hk & Hok).
  destruct (table T N f1 f2 f3 c name Hc Hg) as (gm & G1 & G2 & G3 & G4 & G5).
  assert (HM : forall call, mapM (fd_value diff c kw call) (gm_specs gm) = mapM (fd_expected diff c kw call) (expected (c_class c) name)).
  { intro cl. rewrite <- G3, mapM_map. apply mapM_ext. intros sp Hsp.
    eapply (fd_value_expected T N f1 f2 f3); eassumption. }
  rewrite <- G4. unfold fdm_check.
  destruct (isin (c_class c) ["GBSOption"; "BlackScholesOption"; "Black76Option"]) eqn:Ecl.
  - pose proof Ht as (s & vals & Ha & _).
    rewrite (greek_value_guard diff c kw a name call h h a gm _ Hok G2 G1 G5 Hi Ht Ht).
    rewrite (proj2 (get_opt_hget _ _ _ _) Ha). cbn [bind snd]. rewrite HM.
    assert (Hsb : In ("sigma", "_sigma") (c_params c) /\ In ("b", "_b") (c_params c)).
    { clear - Hc Ecl. unfold all_classes in Hc.
      repeat (destruct Hc as [<-|Hc]; [first [discriminate Ecl|cbn; tauto]|]). destruct Hc. }
    destruct Hsb as [Hs1 Hs2].
    assert (As : dget s "_sigma" = Some (arg_value c kw "sigma")).
    { rewrite (tracks_attr c kw a h s _ _ Hok Ht Ha Hs1). f_equal.
      apply (tracks_arg_value f1 f2 f3 c kw a h); auto. apply (in_map fst) in Hs1. exact Hs1. }
    assert (Ab : dget s "_b" = Some (arg_value c kw "b")).
    { rewrite (tracks_attr c kw a h s _ _ Hok Ht Ha Hs2). f_equal.
      apply (tracks_arg_value f1 f2 f3 c kw a h); auto. apply (in_map fst) in Hs2. exact Hs2. }
    destruct (String.eqb name "rho"); unfold mcall; cbn [m_reads m_fun check_rho check_sigma map];
      rewrite ?As, ?Ab; destruct (arg_value c kw "sigma"); reflexivity.
  - rewrite (greek_value diff c kw a name call h gm Hok G2 G1 G5 Hi Ht). cbn [bind]. apply HM.
Qed.

(*@ C17_fdm_delta_gamma | Finding: the finite-difference delta and gamma of Black76Option always raise TypeError (they try to set 'S', which that class does not accept), for every differentiator that evaluates its function at all. *)
Lemma c17_fdm : forall (T : Type) (N : Num T) (f1 f2 f3 : nat) diff (kw : dict (pyv T)) (a : nat) (h : heap T) name call F,
  made (all_classes f1 f2 f3) Black76Option_cls kw a h -> In name ["delta"; "gamma"] ->
  as_num (arg_value Black76Option_cls kw "FT") = Ok F -> is_none (arg_value Black76Option_cls kw "sigma") = false ->
  (forall n st x, exists y k, diff n st x = Ask y k) ->
  fst (greek diff a name call h) = Err TypeError.
Proof.
  intros * Hm Hn HF Hs Hd. apply made_tracks in Hm. destruct Hm as (Hc & Hi & Ht & Hk & Hok).
  pose proof Ht as (s & vals & Ha & _). destruct (Hi _ _ _ Ha) as (_ & _ & _ & _ & (ps & HP)).
  rewrite (greek_gen diff _ s ps a name call h Hi Ha HP).
  assert (As : dget s "_sigma" = Some (arg_value Black76Option_cls kw "sigma")).
  { rewrite (tracks_attr _ kw a h s "sigma" _ Hok Ht Ha) by (cbn; tauto). reflexivity. }
  assert (AF : dget s "_S" = Some (arg_value Black76Option_cls kw "FT")).
  { rewrite (tracks_attr _ kw a h s "FT" _ Hok Ht Ha) by (cbn; tauto). reflexivity. }
  assert (Hpart : forall call x, part_val Black76Option_cls false "S" call ps x = Err TypeError).
  { intros cl x. unfold part_val. rewrite (bind_args_unknown _ _ "S"); [reflexivity| |cbn; intuition discriminate].
    cbn [c_drop Black76Option_cls fold_left].
    assert (Hnd : NoDup (map fst (dset ps "S" (VNpy x)))).
    { apply NoDup_dset. rewrite (params_of_keys _ _ _ HP). apply (k_par _ Hok). }
    apply keys_ddel; [exact Hnd|]. split; [discriminate|]. apply In_keys_dset. now left. }
  unfold greek_val. cbn in Hn.
  assert (Hguard : mcall check_sigma s = Ok tt).
  { unfold mcall. cbn [m_reads m_fun check_sigma map]. rewrite As. destruct (arg_value _ kw "sigma"); try reflexivity. discriminate. }
  assert (Hfd : forall label n cl, fd_val diff Black76Option_cls false cl ps s (mkG label "S" "_S" n NoStep 1) = Err TypeError).
  { intros label n cl. unfold fd_val. cbn [gs_step gs_attr gs_wrt gs_n step_of bind]. rewrite AF. cbn [of_opt bind].
    rewrite HF. cbn [bind fst snd]. destruct (Hd n None F) as (y & k & ->). cbn [ask]. rewrite Hpart. reflexivity. }
  destruct Hn as [<-|[<-|[]]]; cbn [c_greeks Black76Option_cls gbs_greeks_fdm dget String.eqb of_opt bind gm_guard fdm gm_flag gm_specs c_own_der mapM];
    cbn -[mcall fd_val]; rewrite Hguard; cbn -[mcall fd_val].
  - rewrite (Hfd "delta" 1%nat). reflexivity.
  - rewrite (Hfd "gamma" 2%nat). reflexivity.
Qed.
