(** An object behaves like one freshly built from the constructor arguments as last set. *)
From Coq Require Import String List Arith ZArith QArith Bool Lia.
From Verif Require Import Num Py Arr MSpread MObjects PObjects PObjects2 SObjects.
Import ListNotations.
Open Scope py_scope.
Open Scope string_scope.

Section Tracks.
Context {T : Type} {N : Num T}.
Local Notation pyv := (pyv T).
Local Notation dict := (dict pyv).
Local Notation cls := (cls T).
Local Notation heap := (heap T).

Definition tracks (c : cls) (kw : dict) (a : nat) (h : heap) : Prop := exists at_ vals,
  hget h a = Some (mkObj (KOpt c) at_) /\ bind_args (c_sig c) kw = Ok vals /\
  snd (run_init c vals []) = None /\ obs_eq c at_ (fst (run_init c vals [])).

Lemma new_tracks (c : cls) kw (h h' : heap) a : cls_ok c -> new c kw h = (Ok a, h') -> tracks c kw a h'.
Proof.
  intros Hc. unfold new. destruct (bind_args (c_sig c) kw) as [vals|] eqn:B; [|discriminate].
  rewrite new_vals_spec. destruct (snd (run_init c vals [])) eqn:E; [discriminate|]. intros [= <- <-].
  eexists _, vals. split.
  - replace (List.length h) with (List.length h + 0)%nat at 3 by lia. rewrite hget_app2. reflexivity.
  - split; [exact B|]. split; [exact E|]. apply obs_eq_sym, obs_eq_greeks, Hc.
Qed.
Lemma tracks_new (c : cls) kw a (h h0 : heap) : tracks c kw a h -> exists b h1, new c kw h0 = (Ok b, h1).
Proof.
  intros (at_ & vals & H1 & H2 & H3 & H4). unfold new. rewrite H2, new_vals_spec, H3. eauto.
Qed.
Lemma tracks_obs (c : cls) kw a b (h h' : heap) : tracks c kw a h -> tracks c kw b h' ->
  exists s1 s2, hget h a = Some (mkObj (KOpt c) s1) /\ hget h' b = Some (mkObj (KOpt c) s2) /\ obs_eq c s1 s2.
Proof.
  intros (s1 & vals & H1 & H2 & H3 & H4) (s2 & vals2 & K1 & K2 & K3 & K4).
  assert (vals2 = vals) as -> by congruence. exists s1, s2. split; [exact H1|]. split; [exact K1|].
  eapply obs_eq_trans; [exact H4|]. now apply obs_eq_sym.
Qed.
Lemma tracks_price (c : cls) kw a b (h h' : heap) call : tracks c kw a h -> tracks c kw b h' ->
  price a call h = price b call h'.
Proof.
  intros H1 H2. destruct (tracks_obs _ _ _ _ _ _ H1 H2) as (s1 & s2 & E1 & E2 & E).
  unfold price, get_opt. rewrite E1, E2. cbn. apply (oe_price _ _ _ E).
Qed.

(** value of a parameter as a function of the constructor arguments *)
Definition param_value (c : cls) (kw : dict) (p : string) : pyv :=
  match dget kw p with
  | Some v => v
  | None => match dget (c_sig c) p with Some (Some d) => d | _ => fixed c p end
  end.
Lemma bind_args_val (sig : list (string * option pyv)) (kw : dict) vals : NoDup (map fst sig) ->
  bind_args sig kw = Ok vals -> forall p d, In (p, d) sig ->
  exists v, dget (combine (map fst sig) vals) p = Some v /\
            (match dget kw p with Some v => Ok v | None => of_opt TypeError d end) = Ok v.
Proof.
  unfold bind_args. destruct (existsb _ kw); [discriminate|]. revert vals.
  induction sig as [|[q e] sig IH]; cbn; intros vals Hn HB p d Hi; [tauto|].
  destruct (match dget kw q with Some v => Ok v | None => of_opt TypeError e end) as [v|] eqn:E; cbn in HB; [|discriminate].
  destruct (mapM _ sig) eqn:Em; cbn in HB; [|discriminate]. injection HB as <-. inversion Hn; subst. cbn.
  destruct Hi as [[= -> ->]|Hi].
  - rewrite String.eqb_refl. eauto.
  - destruct (String.eqb_spec q p) as [->|]; [|eapply IH; eauto].
    exfalso. apply H1. change p with (fst (p, d)). now apply in_map.
Qed.
Lemma bind_args_names (sig : list (string * option pyv)) (kw : dict) vals p : bind_args sig kw = Ok vals ->
  In p (map fst kw) -> In p (map fst sig).
Proof.
  intros HB Hi. destruct (in_dec string_dec p (map fst sig)) as [H|H]; [exact H|].
  rewrite (bind_args_unknown _ _ _ Hi H) in HB. discriminate.
Qed.
Lemma param_value_pval (c : cls) kw vals p : cls_ok c -> bind_args (c_sig c) kw = Ok vals ->
  pval c vals p = param_value c kw p.
Proof.
  intros Hc HB. unfold pval, param_value.
  destruct (in_dec string_dec p (map fst (c_sig c))) as [Hi|Hi].
  - apply in_map_iff in Hi. destruct Hi as ((p' & d) & E & Hi). cbn in E. subst p'.
    destruct (bind_args_val _ _ _ (k_sig _ Hc) HB _ _ Hi) as (v & V1 & V2). rewrite V1.
    destruct (dget kw p); [congruence|]. rewrite (In_dget _ _ _ (k_sig _ Hc) Hi).
    destruct d; cbn in V2; congruence.
  - destruct (dget (combine _ _) p) eqn:E1.
    { exfalso. apply Hi. apply (combine_key _ vals). congruence. }
    destruct (dget kw p) eqn:E2.
    { exfalso. apply Hi. apply (bind_args_names _ _ _ _ HB). apply dget_In in E2.
      change p with (fst (p, p0)). now apply in_map. }
    apply dget_None in Hi. rewrite Hi. reflexivity.
Qed.
Lemma tracks_params (c : cls) kw a (h : heap) : cls_ok c -> tracks c kw a h ->
  get_params a h = Ok (map (fun pa => (fst pa, param_value c kw (fst pa))) (c_params c)).
Proof.
  intros Hc (at_ & vals & H1 & H2 & H3 & H4). unfold get_params, get_opt. rewrite H1. cbn.
  rewrite (oe_params _ _ _ H4), (run_init_params c vals [] Hc (bind_args_len _ _ _ H2) H3). f_equal.
  apply map_ext. intros [p q]. cbn. now rewrite (param_value_pval c kw vals p Hc H2).
Qed.

(** ** Updates *)
Lemma bind_args_eq (sig : list (string * option pyv)) (kw1 kw2 : dict) :
  (forall p, In p (map fst kw1) -> In p (map fst sig)) -> (forall p, In p (map fst kw2) -> In p (map fst sig)) ->
  (forall p d, In (p, d) sig -> (match dget kw1 p with Some v => Ok v | None => of_opt TypeError d end)
                              = (match dget kw2 p with Some v => Ok v | None => of_opt TypeError d end)) ->
  bind_args sig kw1 = bind_args sig kw2.
Proof.
  intros H1 H2 H3. unfold bind_args.
  assert (E : forall kw : dict, (forall p, In p (map fst kw) -> In p (map fst sig)) ->
            existsb (fun kv => negb (existsb (String.eqb (fst kv)) (map fst sig))) kw = false).
  { intros kw H. destruct (existsb _ kw) eqn:E; [|reflexivity]. apply existsb_exists in E.
    destruct E as ((k & v) & Hk & E). cbn in E. apply negb_true_iff in E.
    assert (Hm : mem k (map fst sig) = true). { apply mem_In, H. change k with (fst (k, v)). now apply in_map. }
    unfold mem in Hm. congruence. }
  rewrite (E kw1 H1), (E kw2 H2). apply mapM_ext. intros [p d] Hp. cbn. now apply H3.
Qed.

Lemma drop_keys (c : cls) (ps : dict) x v : cls_ok c -> map fst ps = map fst (c_params c) ->
  (In x (c_drop c) \/ In x (map fst (c_sig c))) ->
  forall p, In p (map fst (fold_left ddel (c_drop c) (dset ps x v))) -> In p (map fst (c_sig c)).
Proof.
  intros Hc Hk Hx p Hp. apply keys_ddels in Hp.
  2:{ apply NoDup_dset. rewrite Hk. apply (k_par _ Hc). }
  destruct Hp as [Hp1 Hp2]. apply In_keys_dset in Hp2. destruct Hp2 as [<-|Hp2]; [tauto|].
  rewrite Hk in Hp2. destruct (k_keys2 _ Hc _ Hp2); tauto.
Qed.

Lemma set_bind (c : cls) kw vals ps x v : cls_ok c -> bind_args (c_sig c) kw = Ok vals ->
  ps = map (fun pa => (fst pa, param_value c kw (fst pa))) (c_params c) ->
  bind_args (c_sig c) (fold_left ddel (c_drop c) (dset ps x v)) = bind_args (c_sig c) (upd c kw x v).
Proof.
  intros Hc HB Eps. assert (Hk : map fst ps = map fst (c_params c)).
  { rewrite Eps, map_map. reflexivity. }
  unfold upd. change (existsb (String.eqb x) (c_drop c)) with (mem x (c_drop c)).
  assert (Hg : forall p, In p (map fst (c_params c)) -> dget ps p = Some (param_value c kw p)).
  { intros p Hp. rewrite Eps. clear Eps Hk. induction (c_params c) as [|[q b] l IH]; cbn in *; [tauto|].
    destruct (String.eqb_spec q p) as [->|Hne]; [reflexivity|]. apply IH. tauto. }
  assert (Hold : forall p d, In (p, d) (c_sig c) ->
     (match dget kw p with Some v => Ok v | None => of_opt TypeError d end) = Ok (param_value c kw p)).
  { intros p d Hp. destruct (bind_args_val _ _ _ (k_sig _ Hc) HB _ _ Hp) as (w & V1 & V2).
    rewrite V2. unfold param_value. destruct (dget kw p); [congruence|].
    rewrite (In_dget _ _ _ (k_sig _ Hc) Hp). destruct d; cbn in V2; congruence. }
  assert (Hnew : forall p d, In (p, d) (c_sig c) ->
     dget (fold_left ddel (c_drop c) (dset ps x v)) p = if String.eqb x p then Some v else Some (param_value c kw p)).
  { intros p d Hp. assert (Hpn : In p (map fst (c_sig c))) by (change p with (fst (p, d)); now apply in_map).
    destruct (k_keys1 _ Hc _ Hpn) as [Q1 Q2]. rewrite dget_ddels by exact Q2. rewrite dget_dset, (Hg _ Q1). reflexivity. }
  destruct (mem x (c_drop c)) eqn:Em.
  - apply mem_In in Em. apply bind_args_eq.
    + apply drop_keys; auto.
    + intros p Hp. eapply bind_args_names; eassumption.
    + intros p d Hp. rewrite (Hnew p d Hp), (Hold p d Hp). destruct (String.eqb_spec x p) as [->|]; [|reflexivity].
      exfalso. assert (Hpn : In p (map fst (c_sig c))) by (change p with (fst (p, d)); now apply in_map).
      now apply (k_keys1 _ Hc) in Hpn.
  - destruct (in_dec string_dec x (map fst (c_sig c))) as [Hx|Hx].
    + apply bind_args_eq.
      * apply drop_keys; auto.
      * intros p Hp. apply In_keys_dset in Hp. destruct Hp as [<-|Hp]; [exact Hx|]. eapply bind_args_names; eassumption.
      * intros p d Hp. rewrite (Hnew p d Hp), dget_dset. destruct (String.eqb x p); [reflexivity|].
        now rewrite (Hold p d Hp).
    + rewrite !(bind_args_unknown _ _ x); auto.
      * apply In_keys_dset. now left.
      * apply keys_ddels; [apply NoDup_dset; rewrite Hk; apply (k_par _ Hc)|]. split.
        -- intro C. apply mem_In in C. congruence.
        -- apply In_keys_dset. now left.
Qed.

Definition exc {A B} (r : res A * B) : option exn := match fst r with Ok _ => None | Err e => Some e end.

Lemma set_tracks (c : cls) kw a (h h0 : heap) x v : inv h -> tracks c kw a h -> scalar v ->
  fst (set_param a x v h) = exc (new c (upd c kw x v) h0) /\
  (fst (set_param a x v h) = None -> tracks c (upd c kw x v) a (snd (set_param a x v h))).
Proof.
  intros Hi Ht Hv. pose proof Ht as (at_ & vals & H1 & H2 & H3 & H4).
  destruct (Hi _ _ _ H1) as (Hc & W2 & W4 & W5 & _).
  pose proof (tracks_params c kw a h Hc Ht) as HP. unfold get_params, get_opt in HP. rewrite H1 in HP. cbn in HP.
  unfold set_param, get_opt. rewrite H1, HP, (set_bind c kw vals _ x v Hc H2 eq_refl).
  unfold new. destruct (bind_args (c_sig c) (upd c kw x v)) as [vals'|e] eqn:B; [|cbn; split; [reflexivity|discriminate]].
  assert (Hvs : Forall scalar vals').
  { rewrite <- (set_bind c kw vals _ x v Hc H2 eq_refl) in B. eapply bind_args_scalar; [exact Hc| |exact B].
    apply scalars_ddels, scalars_dset; [|exact Hv]. eapply params_scalars; eassumption. }
  destruct (do_init_ok c vals' a h at_ Hi H1 Hvs) as (_ & _ & D3 & at' & D4 & D5).
  destruct (k_det _ Hc vals' at_ [] (bind_args_len _ _ _ B)) as [Q1 Q2].
  rewrite new_vals_spec. rewrite D3, Q1. split.
  - destruct (snd (run_init c vals' [])); reflexivity.
  - intro E. exists at', vals'. split; [exact D4|]. split; [exact B|]. split; [exact E|].
    eapply obs_eq_trans; [exact D5|]. apply Q2. congruence.
Qed.

Lemma tracks_frame (c : cls) kw a (h h' : heap) : tracks c kw a h ->
  (forall o, hget h a = Some o -> hget h' a = Some o) -> tracks c kw a h'.
Proof. intros (at_ & vals & H1 & H2) H. exists at_, vals. split; [now apply H|exact H2]. Qed.

Lemma copy_tracks (c : cls) kw a (h : heap) : inv h -> tracks c kw a h ->
  exists h', copy a h = (Ok (List.length h), h') /\ tracks c kw (List.length h) h' /\ tracks c kw a h'.
Proof.
  intros Hi Ht. pose proof Ht as (at_ & vals & H1 & H2 & H3 & H4). destruct (Hi _ _ _ H1) as (Hc & _).
  rewrite (copy_spec _ _ _ _ Hi H1). eexists. split; [reflexivity|]. split.
  - eexists _, vals. split; [|split; [exact H2|split; [exact H3|]]].
    + replace (List.length h) with (List.length h + 0)%nat at 3 by lia. rewrite hget_app2. reflexivity.
    + eapply obs_eq_trans; [|exact H4]. apply obs_eq_sym, obs_eq_greeks, Hc.
  - eapply tracks_frame; [exact Ht|]. intros o Ho. now apply extends_app.
Qed.

(** ** Finite differences *)
Lemma partial_fresh (c : cls) kw own a wrt call x (h : heap) : inv h -> tracks c kw a h ->
  fst (partial own a wrt call x h) = fresh c own call (upd c kw wrt (VNpy x)).
Proof.
  intros Hi Ht. unfold partial. destruct (copy_inv a h Hi) as [C1 _].
  destruct (copy_tracks c kw a h Hi Ht) as (h1 & E & Hc1 & _). rewrite E in C1 |- *. cbn in C1.
  destruct (set_tracks c kw (List.length h) h1 [] wrt (VNpy x) C1 Hc1 Coq.Init.Logic.I) as [S1 S2].
  unfold fresh. destruct (set_param (List.length h) wrt (VNpy x) h1) as [[e|] h2] eqn:Es; cbn [fst snd] in *.
  - unfold exc in S1. destruct (new c _ []) as [[b|e'] h3]; cbn in *; congruence.
  - specialize (S2 eq_refl). unfold exc in S1. destruct (new c _ []) as [[b|e'] h3] eqn:En; cbn in *; [|congruence].
    assert (Hc : cls_ok c) by (destruct Ht as (at_ & vals & H1 & _); apply (Hi _ _ _ H1)).
    rewrite (tracks_price c _ _ b _ h3 call S2 (new_tracks _ _ _ _ _ Hc En)). reflexivity.
Qed.

Lemma run_strat_ask (c : cls) kw a (f : T -> heap -> res T * heap) (g : T -> res T) :
  (forall x h, inv h -> inv (snd (f x h)) /\ extends h (snd (f x h))) ->
  (forall x h, inv h -> tracks c kw a h -> fst (f x h) = g x) ->
  forall s h, inv h -> tracks c kw a h -> fst (run_strat f s h) = ask g s.
Proof.
  intros Hf Hg s. induction s as [r|x k IH]; intros h Hi Ht; cbn; [reflexivity|].
  destruct (Hf x h Hi) as [F1 F2]. pose proof (Hg x h Hi Ht) as G.
  destruct (f x h) as [[y|e] h1]; cbn [fst snd] in *; rewrite <- G; cbn; [|reflexivity].
  apply IH; [exact F1|]. eapply tracks_frame; [exact Ht|]. intros o Ho. now apply F2.
Qed.

Section Num.
Variable diff : nat -> option T -> T -> strat T.
Variable solver : T -> T -> strat T.

Definition step_value (c : cls) (kw : dict) (g : gstep) : res (option T) :=
  match g with
  | NoStep => Ok None
  | FixStep q => Ok (Some (lit q))
  | SigmaTenth => s <- as_num (param_value c kw "sigma") ;; Ok (Some (s / lit 10)%num)
  end.
(** what a finite-difference Greek of an option with constructor arguments [kw] must return *)
Definition fd_value (c : cls) (kw : dict) (call : bool) (sp : gspec) : res (string * T) :=
  st <- step_value c kw (gs_step sp) ;;
  x <- as_num (param_value c kw (gs_wrt sp)) ;;
  y <- ask (fun x => fresh c (c_own_der c) call (upd c kw (gs_wrt sp) (VNpy x))) (diff (gs_n sp) st x) ;;
  Ok (gs_label sp, (y * ofZ (gs_sign sp))%num).

(** the attribute holding a parameter, and the reference point of each difference, agree *)
Definition gm_ok (c : cls) (gm : gmeth (T := T)) : bool :=
  forallb (fun sp =>
     existsb (fun pa => String.eqb (fst pa) (gs_wrt sp) && String.eqb (snd pa) (gs_attr sp)) (c_params c) &&
     match gs_step sp with
     | SigmaTenth => existsb (fun pa => String.eqb (fst pa) "sigma" && String.eqb (snd pa) "_sigma") (c_params c)
     | _ => true
     end) (gm_specs gm).

Lemma tracks_attr (c : cls) kw a (h : heap) at_ p q : cls_ok c -> tracks c kw a h ->
  hget h a = Some (mkObj (KOpt c) at_) -> In (p, q) (c_params c) -> dget at_ q = Some (param_value c kw p).
Proof.
  intros Hc Ht Ha Hp. pose proof (tracks_params c kw a h Hc Ht) as HP.
  unfold get_params, get_opt in HP. rewrite Ha in HP. cbn in HP.
  destruct (params_of_dget c at_ _ p q (k_par _ Hc) HP Hp) as (v & V1 & V2). rewrite V1, <- V2.
  pose proof (k_par _ Hc) as Hn. clear - Hp. induction (c_params c) as [|[p0 q0] l IH]; cbn in *; [tauto|].
  destruct (String.eqb_spec p0 p) as [->|Hne]; [reflexivity|]. apply IH. destruct Hp as [[= -> ->]|]; tauto.
Qed.

Lemma existsb_pair (l : list (string * string)) p q :
  existsb (fun pa => String.eqb (fst pa) p && String.eqb (snd pa) q) l = true -> In (p, q) l.
Proof.
  intro H. apply existsb_exists in H. destruct H as ((p' & q') & Hi & H). cbn in H.
  apply andb_prop in H. destruct H as [E1 E2]. apply String.eqb_eq in E1, E2. now subst.
Qed.

Lemma fd_eval_value (c : cls) kw a call sp name gm (h : heap) : cls_ok c -> gm_ok c gm = true ->
  In (name, gm) (c_greeks c) -> In sp (gm_specs gm) -> inv h -> tracks c kw a h ->
  fst (fd_eval diff (c_own_der c) a call sp h) = (z <- fd_value c kw call sp ;; Ok (snd z)).
Proof.
  intros Hc Hs Hn Hsp Hi Ht. pose proof Ht as (at_ & vals & Ha & _).
  unfold gm_ok in Hs. rewrite forallb_forall in Hs. specialize (Hs _ Hsp). apply andb_prop in Hs. destruct Hs as [Hs1 Hs2].
  apply existsb_pair in Hs1. pose proof (tracks_attr c kw a h at_ _ _ Hc Ht Ha Hs1) as A1.
  unfold fd_eval, get_opt. rewrite Ha, A1.
  assert (Est : step_of (gs_step sp) at_ = step_value c kw (gs_step sp)).
  { unfold step_of, step_value. destruct (gs_step sp); try reflexivity. apply existsb_pair in Hs2.
    rewrite (tracks_attr c kw a h at_ _ _ Hc Ht Ha Hs2). reflexivity. }
  rewrite Est. unfold fd_value. destruct (step_value c kw (gs_step sp)) as [st|e]; cbn; [|reflexivity].
  destruct (as_num (param_value c kw (gs_wrt sp))) as [x|e]; cbn; [|reflexivity].
  pose proof (run_strat_ask c kw a _ _ (fun x h Hi => partial_ok (c_own_der c) a (gs_wrt sp) call x h Hi)
                (fun x h Hi Ht => partial_fresh c kw (c_own_der c) a (gs_wrt sp) call x h Hi Ht)
                (diff (gs_n sp) st x) h Hi Ht) as R.
  destruct (run_strat _ _ h) as [[y|e] h1]; cbn [fst] in R |- *; rewrite <- R; reflexivity.
Qed.

Lemma fd_all_value (c : cls) kw a call name gm : cls_ok c -> gm_ok c gm = true -> In (name, gm) (c_greeks c) ->
  forall l (h : heap), (forall sp, In sp l -> In sp (gm_specs gm)) -> inv h -> tracks c kw a h ->
  fst (fd_all diff (c_own_der c) a call l h) = mapM (fd_value c kw call) l.
Proof.
  intros Hc Hs Hn. induction l as [|sp l IH]; intros h Hl Hi Ht; cbn; [reflexivity|].
  pose proof (fd_eval_value c kw a call sp name gm h Hc Hs Hn (Hl _ (or_introl eq_refl)) Hi Ht) as E.
  destruct (fd_eval_ok diff (c_own_der c) a call sp h Hi) as [F1 F2].
  assert (Hlab : forall z, fd_value c kw call sp = Ok z -> fst z = gs_label sp).
  { intros z. unfold fd_value. destruct (step_value c kw (gs_step sp)); cbn; [|discriminate].
    destruct (as_num (param_value c kw (gs_wrt sp))); cbn; [|discriminate].
    destruct (ask _ _); cbn; [|discriminate]. now intros [= <-]. }
  destruct (fd_eval diff (c_own_der c) a call sp h) as [[y|e] h1]; cbn [fst snd] in *.
  - destruct (fd_value c kw call sp) as [[lb y']|] eqn:Ez; cbn in E; [|discriminate]. injection E as ->.
    specialize (Hlab _ eq_refl). cbn in Hlab. subst lb. cbn.
    assert (Ht1 : tracks c kw a h1) by (eapply tracks_frame; [exact Ht|intros o Ho; now apply F2]).
    rewrite <- (IH h1 (fun sp0 H0 => Hl sp0 (or_intror H0)) F1 Ht1).
    destruct (fd_all diff (c_own_der c) a call l h1) as [[ys|e] h2]; reflexivity.
  - destruct (fd_value c kw call sp); cbn in *; [discriminate|]. now injection E as <-.
Qed.

Lemma greeks_of_tracks (c : cls) kw a (h : heap) : inv h -> tracks c kw a h -> greeks_of a h = Ok (a, c_own_der c).
Proof.
  intros Hi (at_ & vals & Ha & _). destruct (Hi _ _ _ Ha) as (Hc & (g & W2 & W3) & _).
  unfold greeks_of, get_opt. rewrite Ha. cbn. rewrite W2. cbn. rewrite W3. unfold greeks_obj, dmem.
  cbn. destruct (c_own_der c); reflexivity.
Qed.

Lemma greek_value (c : cls) kw a name call (h : heap) gm : cls_ok c -> gm_ok c gm = true ->
  dget (c_greeks c) name = Some gm -> gm_guard gm = None -> inv h -> tracks c kw a h ->
  fst (greek diff a name call h) = mapM (fd_value c kw (if gm_flag gm then call else true)) (gm_specs gm).
Proof.
  intros Hc Hs Hg Hgd Hi Ht. pose proof Ht as (at_ & vals & Ha & _). unfold greek.
  assert (E : get_opt h a = Ok (c, at_)) by now apply get_opt_hget.
  rewrite E. cbn. rewrite Hg. cbn. rewrite Hgd. cbn.
  rewrite (greeks_of_tracks c kw a h Hi Ht). cbn.
  replace (if gm_via_greeks gm then a else a) with a by (destruct (gm_via_greeks gm); reflexivity).
  apply (fd_all_value c kw a _ name gm Hc Hs (dget_In _ _ _ Hg)); auto.
Qed.
(** with a guard (refused unless the cost of carry is 0) *)
Lemma greek_value_guard (c : cls) kw a name call (h h' : heap) b gm m : cls_ok c -> gm_ok c gm = true ->
  dget (c_greeks c) name = Some gm -> gm_guard gm = Some m -> inv h -> tracks c kw a h ->
  tracks c kw b h' -> 
  fst (greek diff a name call h) =
    (ca <- get_opt h' b ;; _ <- mcall m (snd ca) ;;
     mapM (fd_value c kw (if gm_flag gm then call else true)) (gm_specs gm)).
Proof.
  intros Hc Hs Hg Hgd Hi Ht Hb. destruct (tracks_obs _ _ _ _ _ _ Ht Hb) as (s1 & s2 & E1 & E2 & E3).
  unfold greek.
  assert (E : get_opt h a = Ok (c, s1)) by now apply get_opt_hget.
  assert (E' : get_opt h' b = Ok (c, s2)) by now apply get_opt_hget.
  rewrite E, E'. cbn. rewrite Hg. cbn. rewrite Hgd.
  rewrite (oe_guard _ _ _ E3 name gm m (dget_In _ _ _ Hg) Hgd). destruct (mcall m s2); cbn; [|reflexivity].
  rewrite (greeks_of_tracks c kw a h Hi Ht). cbn.
  replace (if gm_via_greeks gm then a else a) with a by (destruct (gm_via_greeks gm); reflexivity).
  apply (fd_all_value c kw a _ name gm Hc Hs (dget_In _ _ _ Hg)); auto.
Qed.

Lemma volatility_value (c : cls) kw a p call (h : heap) : inv h -> tracks c kw a h ->
  fst (volatility solver a p call h) =
  ask (fun s => y <- fresh c false call (upd c kw "sigma" (VNpy s)) ;; Ok (p - y)%num) (solver (lit (-10)) (lit 10)).
Proof.
  intros Hi Ht. unfold volatility.
  apply (run_strat_ask c kw a); auto.
  - intros x h0 H0. destruct (partial_ok false a "sigma" call x h0 H0) as [P1 P2].
    destruct (partial false a "sigma" call x h0) as [[y|e] h1]; cbn [snd] in *; auto.
  - intros x h0 H0 H1. pose proof (partial_fresh c kw false a "sigma" call x h0 H0 H1) as P.
    destruct (partial false a "sigma" call x h0) as [[y|e] h1]; cbn [fst] in *; rewrite <- P; reflexivity.
Qed.

(** ** Programs *)
Lemma exec_all_tracks (c : cls) a l : forall kw (h : heap), inv h -> Forall op_ok l -> tracks c kw a h ->
  sets_ok a l (fst (exec_all diff solver l h)) ->
  tracks c (updates c a l kw) a (snd (exec_all diff solver l h)).
Proof.
  induction l as [|o l IH]; intros kw h Hi Hl Ht Hs; [exact Ht|]. inversion Hl; subst.
  pose proof (exec_ok diff solver o h Hi H1) as E.
  assert (Hfr : not_set a o -> tracks c kw a (snd (exec diff solver o h))).
  { intro Hn. eapply tracks_frame; [exact Ht|]. intros ob Ho. now apply exec_frame. }
  cbn [exec_all] in *. destruct (exec diff solver o h) as [e h1] eqn:Ee. cbn [fst snd] in *.
  destruct (exec_all diff solver l h1) as [es h2] eqn:El. cbn [fst snd] in *.
  assert (G : forall kw', tracks c kw' a h1 -> sets_ok a l es -> tracks c (updates c a l kw') a h2).
  { intros kw' Ht' Hs'. specialize (IH kw' h1 E H2 Ht'). rewrite El in IH. now apply IH. }
  destruct o; cbn in Hs |- *; try (apply G; [now apply Hfr|exact Hs]).
  destruct Hs as [Hs1 Hs2]. destruct (Nat.eqb_spec a0 a) as [->|Hne].
  - apply G; [|exact Hs2]. cbn in Ee, H1. destruct (set_tracks c kw a h [] x v Hi Ht H1) as [_ S2].
    rewrite Ee in S2. cbn in S2. apply S2. now apply Hs1.
  - apply G; [now apply Hfr|exact Hs2].
Qed.
End Num.

(** ** Unknown names *)
Lemma set_unknown (c : cls) a (h : heap) at_ x v : inv h -> hget h a = Some (mkObj (KOpt c) at_) ->
  ~ In x (map fst (c_sig c)) -> ~ In x (c_drop c) -> set_param a x v h = (Some TypeError, h).
Proof.
  intros Hi Ha Hx Hd. destruct (Hi _ _ _ Ha) as (Hc & _ & _ & _ & (ps & HP)).
  unfold set_param. rewrite (proj2 (get_opt_hget h a c at_) Ha), HP.
  assert (Hk : map fst ps = map fst (c_params c)) by (eapply params_of_keys; exact HP).
  rewrite (bind_args_unknown _ _ x); [reflexivity| |exact Hx].
  apply keys_ddels; [apply NoDup_dset; rewrite Hk; apply (k_par _ Hc)|]. split; [exact Hd|].
  apply In_keys_dset. now left.
Qed.
End Tracks.
