(** The object protocol, for every option class and every user program. *)
From Coq Require Import String List Arith ZArith QArith Bool Lia.
From Verif Require Import Num Py Arr MBase MVanilla MTrees MSpread MAmerican MObjects MClasses.
From Verif Require Import SObjects PObjects PObjects2 PObjects3 PClasses.
Import ListNotations.
Open Scope py_scope.
Open Scope string_scope.

Section View.
Context {T : Type} {N : Num T}.
Local Notation pyv := (pyv T).
Local Notation dict := (dict pyv).
Local Notation cls := (cls T).
Local Notation heap := (heap T).

Lemma hget_len (h : heap) o l : hget (h ++ o :: l)%list (List.length h) = Some o.
Proof. rewrite <- (Nat.add_0_r (List.length h)) at 1. rewrite hget_app2. reflexivity. Qed.

(** ** What an object shows depends only on its observable state *)
Definition part_val (c : cls) (own : bool) (wrt : string) (call : bool) (ps : dict) (x : T) : res T :=
  vals <- bind_args (c_sig c) (fold_left ddel (c_drop c) (dset ps wrt (VNpy x))) ;;
  match snd (run_init c vals []) with
  | Some e => Err e
  | None => p <- price_of c (fst (run_init c vals [])) call ;; extract own p
  end.

Lemma partial_gen (c : cls) own a wrt call x (h : heap) at_ ps : inv h ->
  hget h a = Some (mkObj (KOpt c) at_) -> params_of c at_ = Ok ps ->
  fst (partial own a wrt call x h) = part_val c own wrt call ps x.
Proof.
  intros Hi Ha HP. destruct (Hi _ _ _ Ha) as (Hc & W2 & W4 & W5 & _).
  unfold partial. destruct (copy_inv a h Hi) as [C1 _]. rewrite (copy_spec _ _ _ _ Hi Ha) in C1 |- *. cbn [snd] in C1.
  set (at2 := dset at_ "_greeks" (VRef (S (List.length h)))) in *.
  set (h1 := (h ++ [mkObj (KOpt c) at2; greeks_obj c (List.length h)])%list) in *.
  assert (H1 : hget h1 (List.length h) = Some (mkObj (KOpt c) at2)).
  { unfold h1. apply hget_len. }
  assert (HP2 : params_of c at2 = Ok ps).
  { unfold at2. rewrite <- (oe_params _ _ _ (obs_eq_greeks c at_ _ Hc)). exact HP. }
  unfold part_val, set_param. rewrite (proj2 (get_opt_hget _ _ _ _) H1), HP2.
  destruct (bind_args (c_sig c) _) as [vals|e] eqn:B; cbn [bind fst]; [|reflexivity].
  assert (Hvs : Forall scalar vals).
  { eapply bind_args_scalar; [exact Hc| |exact B]. apply scalars_ddels, scalars_dset; [|exact Coq.Init.Logic.I].
    eapply params_scalars; [exact Hc|exact W5|exact HP]. }
  destruct (do_init_ok c vals _ h1 at2 C1 H1 Hvs) as (_ & _ & D3 & at' & D4 & D5).
  destruct (k_det _ Hc vals at2 [] (bind_args_len _ _ _ B)) as [Q1 Q2].
  rewrite Q1 in D3. destruct (do_init c vals (List.length h) h1) as [e h2]. cbn [fst snd] in *. subst e.
  destruct (snd (run_init c vals [])) eqn:E; cbn [fst]; [reflexivity|].
  unfold price. rewrite (proj2 (get_opt_hget _ _ _ _) D4). cbn.
  rewrite (oe_price _ _ _ D5), (oe_price _ _ _ (Q2 Q1)). reflexivity.
Qed.

Definition at_obj (c : cls) (s : dict) (a : nat) (h : heap) : Prop := hget h a = Some (mkObj (KOpt c) s).

Lemma run_strat_gen (c : cls) s a (f : T -> heap -> res T * heap) (g : T -> res T) :
  (forall x h, inv h -> inv (snd (f x h)) /\ extends h (snd (f x h))) ->
  (forall x h, inv h -> at_obj c s a h -> fst (f x h) = g x) ->
  forall st h, inv h -> at_obj c s a h -> fst (run_strat f st h) = ask g st.
Proof.
  intros Hf Hg st. induction st as [r|x k IH]; intros h Hi Ht; cbn; [reflexivity|].
  destruct (Hf x h Hi) as [F1 F2]. pose proof (Hg x h Hi Ht) as G.
  destruct (f x h) as [[y|e] h1]; cbn [fst snd] in *; rewrite <- G; cbn; [|reflexivity].
  apply IH; [exact F1|]. now apply F2.
Qed.

Section Num.
Variable diff : nat -> option T -> T -> strat T.
Variable solver : T -> T -> strat T.
Variable show : pyv -> string.
Variable show6 : T -> string.

Definition fd_val (c : cls) (own call : bool) (ps s : dict) (sp : gspec) : res (string * T) :=
  stx <- (st <- step_of (gs_step sp) s ;; v <- of_opt AttributeError (dget s (gs_attr sp)) ;; x <- as_num v ;; Ok (st, x)) ;;
  y <- ask (part_val c own (gs_wrt sp) call ps) (diff (gs_n sp) (fst stx) (snd stx)) ;;
  Ok (gs_label sp, (y * ofZ (gs_sign sp))%num).

Lemma fd_eval_gen (c : cls) own a call sp (h : heap) s ps : inv h -> at_obj c s a h -> params_of c s = Ok ps ->
  fst (fd_eval diff own a call sp h) = (z <- fd_val c own call ps s sp ;; Ok (snd z)).
Proof.
  intros Hi Ha HP. unfold fd_eval, fd_val. rewrite (proj2 (get_opt_hget _ _ _ _) Ha).
  destruct (st <- step_of (gs_step sp) s ;; _) as [[st x]|e]; cbn [bind fst snd]; [|reflexivity].
  pose proof (run_strat_gen c s a _ _ (fun x h Hi => partial_ok own a (gs_wrt sp) call x h Hi)
                (fun x h Hi Ht => partial_gen c own a (gs_wrt sp) call x h s ps Hi Ht HP)
                (diff (gs_n sp) st x) h Hi Ha) as R.
  destruct (run_strat _ _ h) as [[y|e] h1]; cbn [fst] in R |- *; rewrite <- R; reflexivity.
Qed.
Lemma fd_val_label (c : cls) own call ps s sp z : fd_val c own call ps s sp = Ok z -> fst z = gs_label sp.
Proof.
  unfold fd_val. destruct (st <- step_of (gs_step sp) s ;; _) as [[st x]|e]; cbn; [|discriminate].
  destruct (ask _ _); cbn; [|discriminate]. now intros [= <-].
Qed.
Lemma fd_all_gen (c : cls) own a call s ps : params_of c s = Ok ps ->
  forall l (h : heap), inv h -> at_obj c s a h ->
  fst (fd_all diff own a call l h) = mapM (fd_val c own call ps s) l.
Proof.
  intros HP. induction l as [|sp l IH]; intros h Hi Ht; cbn; [reflexivity|].
  pose proof (fd_eval_gen c own a call sp h s ps Hi Ht HP) as E.
  destruct (fd_eval_ok diff own a call sp h Hi) as [F1 F2].
  destruct (fd_eval diff own a call sp h) as [[y|e] h1]; cbn [fst snd] in *.
  - destruct (fd_val c own call ps s sp) as [[lb y']|] eqn:Ez; cbn in E; [|discriminate]. injection E as ->.
    pose proof (fd_val_label _ _ _ _ _ _ _ Ez) as Hlab. cbn in Hlab. subst lb. cbn.
    rewrite <- (IH h1 F1 (F2 _ _ Ht)).
    destruct (fd_all diff own a call l h1) as [[ys|e] h2]; reflexivity.
  - destruct (fd_val c own call ps s sp); cbn in *; [discriminate|]. now injection E as <-.
Qed.
Lemma greeks_of_obj (c : cls) s a (h : heap) : inv h -> at_obj c s a h -> greeks_of a h = Ok (a, c_own_der c).
Proof.
  intros Hi Ha. destruct (Hi _ _ _ Ha) as (Hc & (g & W2 & W3) & _).
  unfold greeks_of. rewrite (proj2 (get_opt_hget _ _ _ _) Ha). cbn. rewrite W2. cbn. rewrite W3. unfold greeks_obj, dmem.
  cbn. destruct (c_own_der c); reflexivity.
Qed.
Definition greek_val (c : cls) (ps s : dict) (name : string) (call : bool) : res (list (string * T)) :=
  gm <- of_opt AttributeError (dget (c_greeks c) name) ;;
  _ <- match gm_guard gm with Some m => mcall m s | None => Ok tt end ;;
  mapM (fd_val c (c_own_der c) (if gm_flag gm then call else true) ps s) (gm_specs gm).
Lemma greek_gen (c : cls) s ps a name call (h : heap) : inv h -> at_obj c s a h -> params_of c s = Ok ps ->
  fst (greek diff a name call h) = greek_val c ps s name call.
Proof.
  intros Hi Ha HP. unfold greek, greek_val. rewrite (proj2 (get_opt_hget _ _ _ _) Ha). cbn.
  destruct (dget (c_greeks c) name) as [gm|]; cbn; [|reflexivity].
  destruct (match gm_guard gm with Some m => mcall m s | None => Ok tt end); cbn; [|reflexivity].
  rewrite (greeks_of_obj c s a h Hi Ha). cbn.
  replace (if gm_via_greeks gm then a else a) with a by (destruct (gm_via_greeks gm); reflexivity).
  now apply fd_all_gen.
Qed.
Lemma greek_val_obs (c : cls) s1 s2 ps name call : obs_eq c s1 s2 -> 
  greek_val c ps s1 name call = greek_val c ps s2 name call.
Proof.
  intro H. unfold greek_val. destruct (dget (c_greeks c) name) as [gm|] eqn:E; cbn; [|reflexivity].
  apply dget_In in E.
  replace (match gm_guard gm with Some m => mcall m s2 | None => Ok tt end) with
          (match gm_guard gm with Some m => mcall m s1 | None => Ok tt end).
  2:{ destruct (gm_guard gm) eqn:G; [|reflexivity]. eapply (oe_guard _ _ _ H); eassumption. }
  destruct (match gm_guard gm with Some m => mcall m s1 | None => Ok tt end); cbn; [|reflexivity].
  apply mapM_ext. intros sp Hs. unfold fd_val.
  rewrite (oe_step _ _ _ H _ _ _ E Hs), (oe_point _ _ _ H _ _ _ E Hs). reflexivity.
Qed.
Lemma volatility_gen (c : cls) s ps a p call (h : heap) : inv h -> at_obj c s a h -> params_of c s = Ok ps ->
  fst (volatility solver a p call h) =
  ask (fun x => y <- part_val c false "sigma" call ps x ;; Ok (p - y)%num) (solver (lit (-10)) (lit 10)).
Proof.
  intros Hi Ha HP. unfold volatility. apply (run_strat_gen c s a); auto.
  - intros x h0 H0. destruct (partial_ok false a "sigma" call x h0 H0) as [P1 P2].
    destruct (partial false a "sigma" call x h0) as [[y|e] h1]; cbn [snd] in *; auto.
  - intros x h0 H0 H1. pose proof (partial_gen c false a "sigma" call x h0 s ps H0 H1 HP) as P.
    destruct (partial false a "sigma" call x h0) as [[y|e] h1]; cbn [fst] in *; rewrite <- P; reflexivity.
Qed.

Lemma view_obs (c : cls) a b (h h' : heap) s1 s2 : inv h -> inv h' -> at_obj c s1 a h -> at_obj c s2 b h' ->
  obs_eq c s1 s2 -> same_view diff solver show show6 a h b h'.
Proof.
  intros Hi Hi' Ha Hb H.
  assert (E1 : get_opt h a = Ok (c, s1)) by now apply get_opt_hget.
  assert (E2 : get_opt h' b = Ok (c, s2)) by now apply get_opt_hget.
  destruct (Hi _ _ _ Ha) as (Hc & _ & _ & _ & (ps & HP)).
  assert (HP2 : params_of c s2 = Ok ps) by (rewrite <- (oe_params _ _ _ H); exact HP).
  constructor.
  - unfold get_params. rewrite E1, E2. cbn. congruence.
  - intro call. unfold price. rewrite E1, E2. cbn. apply (oe_price _ _ _ H).
  - intros name call. rewrite (greek_gen c s1 ps), (greek_gen c s2 ps) by assumption. now apply greek_val_obs.
  - intros p call. rewrite (volatility_gen c s1 ps), (volatility_gen c s2 ps) by assumption. reflexivity.
  - unfold repr. rewrite E1, E2. cbn. rewrite HP, HP2. reflexivity.
  - unfold summary. rewrite E1, E2. cbn. rewrite HP, HP2. cbn.
    assert (Hsp : summary_price show show6 c s1 = summary_price show show6 c s2).
    { unfold summary_price. rewrite !(oe_price _ _ _ H). destruct (c_summary c) eqn:Es; try reflexivity.
      rewrite (oe_typed _ _ _ H _ Es). reflexivity. }
    rewrite Hsp. destruct (c_summary c) eqn:Es; try reflexivity.
    rewrite (oe_rgw _ _ _ H _ Es). reflexivity.
Qed.
Lemma view_tracks (c : cls) kw a b (h h' : heap) : inv h -> inv h' -> tracks c kw a h -> tracks c kw b h' ->
  same_view diff solver show show6 a h b h'.
Proof.
  intros Hi Hi' H1 H2. destruct (tracks_obs _ _ _ _ _ _ H1 H2) as (s1 & s2 & E1 & E2 & E).
  eapply view_obs; eassumption.
Qed.
Lemma view_same (c : cls) a (h h' : heap) s : inv h -> inv h' -> at_obj c s a h -> at_obj c s a h' ->
  same_view diff solver show show6 a h a h'.
Proof. intros. eapply view_obs; try eassumption. now apply obs_eq_reads. Qed.
End Num.
End View.

(** ** Reachable heaps *)
Section Reach.
Context {T : Type} {N : Num T}.
Variables f1 f2 f3 : nat.
Local Notation pyv := (pyv T).
Local Notation dict := (dict pyv).
Local Notation cls := (cls T).
Local Notation heap := (heap T).
Local Notation classes := (all_classes f1 f2 f3).

Lemma plain_scalar (v : pyv) : plain v -> scalar v.
Proof. destruct v; auto. Qed.
Lemma plains_scalars (d : dict) : plains d -> scalars d.
Proof. unfold plains, scalars. rewrite !Forall_forall. intros H x Hx. apply plain_scalar. now apply H. Qed.
Lemma user_op_ok (o : op T) : user_op classes o -> op_ok o.
Proof.
  destruct o; cbn; auto using plain_scalar. intros [H1 H2]. split; [now apply (all_ok f1 f2 f3)|now apply plains_scalars].
Qed.
Lemma user_ops_ok l : Forall (user_op classes) l -> Forall op_ok l.
Proof. rewrite !Forall_forall. intros H x Hx. now apply user_op_ok, H. Qed.
Lemma reachable_inv (h : heap) : reachable classes h -> inv h.
Proof. intros (d & s & l & H1 & ->). apply exec_all_inv; [apply inv_nil|now apply user_ops_ok]. Qed.
Lemma untouched_not_set a (l : list (op T)) : untouched a l -> Forall (not_set a) l.
Proof. intro H. apply Forall_forall. intros [] Hx; cbn; auto. eapply H; eassumption. Qed.

Definition prog_ok := Forall (user_op classes).

(** ** C14 *)
Section P.
Variable diff : nat -> option T -> T -> strat T.
Variable solver : T -> T -> strat T.
Variable show : pyv -> string.
Variable show6 : T -> string.


Lemma fixed_zero (c : cls) : In c classes -> forall p, In p (map fst (c_params c)) -> ~ In p (map fst (c_sig c)) -> fixed c p = VInt 0.
Proof.
  clear diff solver show show6. intros Hc. unfold all_classes in Hc.
  repeat (destruct Hc as [<-|Hc]; [intros p Hp Hn; cbn in Hp, Hn; unfold fixed;
    repeat (destruct Hp as [<-|Hp]; [first [exfalso; apply Hn; tauto|reflexivity]|]); tauto|]).
  destruct Hc.
Qed.
Lemma param_arg_value (c : cls) (kw : dict) p : In c classes -> In p (map fst (c_params c)) ->
  (forall d, In (p, d) (c_sig c) -> d = None -> dget kw p <> None) -> param_value c kw p = arg_value c kw p.
Proof.
  intros Hc Hp Hd. unfold param_value, arg_value. destruct (dget kw p) eqn:E; [reflexivity|].
  destruct (dget (c_sig c) p) as [[d|]|] eqn:E2; [reflexivity| |].
  - apply dget_In in E2. now specialize (Hd _ E2 eq_refl).
  - apply dget_None in E2. now apply fixed_zero.
Qed.

Lemma last_write_updates (c : cls) a p prog (kw : dict) : ~ In p (c_drop c) ->
  arg_value c (updates c a prog kw) p = last_write a p prog (arg_value c kw p).
Proof.
  intro Hp. revert kw. induction prog as [|o l IH]; intro kw; [reflexivity|]. destruct o; cbn; try apply IH.
  rewrite IH. f_equal. destruct (Nat.eqb a0 a); cbn; [|reflexivity]. unfold upd, arg_value at 1.
  destruct (existsb (String.eqb x) (c_drop c)) eqn:E.
  - destruct (String.eqb_spec x p) as [->|]; [|reflexivity]. exfalso. apply Hp. apply mem_In. exact E.
  - rewrite dget_dset. destruct (String.eqb x p); reflexivity.
Qed.
Lemma drop_updates (c : cls) a p prog (kw : dict) : ~ In p (map fst kw) -> In p (c_drop c) ->
  dget (updates c a prog kw) p = None.
Proof.
  intros Hk Hp. apply dget_None in Hk. revert kw Hk. induction prog as [|o l IH]; intros kw Hk; [exact Hk|].
  destruct o; cbn; try (now apply IH). apply IH. destruct (Nat.eqb a0 a); [|exact Hk]. unfold upd.
  destruct (existsb (String.eqb x) (c_drop c)) eqn:E; [exact Hk|]. rewrite dget_dset_other; [exact Hk|].
  intros ->. assert (mem p (c_drop c) = true) by now apply mem_In. unfold mem in *. congruence.
Qed.

Lemma c14_last_write (h h1 : heap) (c : cls) (kw : dict) a prog : reachable classes h -> In c classes ->
  plains kw -> new c kw h = (Ok a, h1) -> prog_ok prog ->
  sets_ok a prog (fst (exec_all diff solver prog h1)) ->
  get_params a (snd (exec_all diff solver prog h1)) =
  Ok (map (fun p => (p, if isin p (map fst (c_sig c)) then last_write a p prog (arg_value c kw p) else VInt 0))
          (map fst (c_params c))).
Proof.
  intros Hr Hc Hk Hn Hp Hs. apply reachable_inv in Hr. pose proof (all_ok f1 f2 f3 c Hc) as Hok.
  pose proof (user_ops_ok _ Hp) as Hp'.
  assert (Hi1 : inv h1). { destruct (new_inv c kw h Hr Hok (plains_scalars _ Hk)) as [H _]. rewrite Hn in H. exact H. }
  pose proof (new_tracks c kw h h1 a Hok Hn) as Ht.
  pose proof (exec_all_tracks diff solver c a prog kw h1 Hi1 Hp' Ht Hs) as Ht2.
  rewrite (tracks_params c _ a _ Hok Ht2). f_equal. rewrite map_map. apply map_ext_in. intros [p q] Hpq. cbn. f_equal.
  assert (Hpn : In p (map fst (c_params c))) by (change p with (fst (p, q)); now apply in_map).
  destruct Ht2 as (at2 & vals2 & K1 & K2 & _).
  rewrite param_arg_value; [|exact Hc|exact Hpn|].
  2:{ intros d Hd -> E. destruct (bind_args_val _ _ _ (k_sig _ Hok) K2 _ _ Hd) as (v & _ & V2). rewrite E in V2. discriminate. }
  change (isin p (map fst (c_sig c))) with (mem p (map fst (c_sig c))).
  destruct (mem p (map fst (c_sig c))) eqn:E.
  - apply mem_In in E. rewrite last_write_updates; [reflexivity|]. now apply (k_keys1 _ Hok).
  - assert (E' : ~ In p (map fst (c_sig c))) by (intro C; apply mem_In in C; congruence).
    destruct (k_keys2 _ Hok _ Hpn) as [C|Hd]; [tauto|]. unfold arg_value.
    rewrite drop_updates; [|intro C|exact Hd].
    + apply dget_None in E'. rewrite E'. reflexivity.
    + apply E'. destruct Ht as (at1 & vals1 & Q1 & Q2 & _). exact (bind_args_names _ _ _ _ Q2 C).
Qed.

(** ** C15 *)
Lemma c15_unknown (h : heap) a c at_ x v : reachable classes h -> get_opt h a = Ok (c, at_) ->
  ~ In x (map fst (c_params c)) -> set_param a x v h = (Some TypeError, h).
Proof.
  intros Hr Ha Hx. apply reachable_inv in Hr. apply get_opt_hget in Ha. pose proof (Hr _ _ _ Ha) as (Hok & _).
  apply (set_unknown c a h at_ x v Hr Ha).
  - intro C. now apply (k_keys1 _ Hok) in C.
  - intro C. now apply (k_drop _ Hok) in C.
Qed.
End P.
End Reach.
