(** C64: option objects price what their constructor arguments say. *)
From Coq Require Import Reals String List Arith ZArith QArith Bool Lia.
From Verif Require Import Num Py Arr MBase MVanilla MTrees MSpread MAmerican MObjects MClasses.
From Verif Require Import STrees SObjects SFormula PObjects PObjects2 PObjects3 PClasses PClasses2 PClasses3.
Import ListNotations.
Local Open Scope nat_scope.
Open Scope py_scope.
Open Scope string_scope.

Section F.
Context {T : Type} {N : Num T}.
Variables f1 f2 f3 : nat.
Local Notation pyv := (pyv T).
Local Notation dict := (dict pyv).
Local Notation cls := (cls T).
Local Notation heap := (heap T).
Local Notation classes := (all_classes f1 f2 f3).

Lemma dget_combine_map (g : string -> pyv) (l : list string) vals : NoDup l -> List.length vals = List.length l ->
  (forall p, In p l -> dget (combine l vals) p = Some (g p)) -> vals = map g l.
Proof.
  revert vals. induction l as [|x l IH]; intros [|v vals] HN HL H; try discriminate; [reflexivity|]. cbn [map]. inversion HN; subst. f_equal.
  - specialize (H x (or_introl eq_refl)). cbn in H. rewrite String.eqb_refl in H. congruence.
  - apply IH; [assumption|now injection HL|]. intros p Hp. specialize (H p (or_intror Hp)). cbn in H. destruct (String.eqb x p) eqn:E; [|exact H]. apply String.eqb_eq in E. congruence.
Qed.

(** the state of an object built without an exception, as computed by the constructor *)
Lemma made_state (c : cls) kw a (h : heap) : made classes c kw a h -> exists s0,
  run_init c (map (arg_value c kw) (map fst (c_sig c))) [] = (s0, None) /\ forall call, price a call h = price_of c s0 call.
Proof.
  intro Hm. apply made_tracks in Hm. destruct Hm as (Hc & Hi & Ht & Hk & Hok).
  pose proof Ht as (s & vals & Ha & HB & HI & HO).
  assert (Hv : vals = map (arg_value c kw) (map fst (c_sig c))).
  { pose proof (bind_args_len _ _ _ HB) as HL. apply dget_combine_map; [exact (k_sig _ Hok)|now rewrite map_length|].
    intros p Hp. apply in_map_iff in Hp. destruct Hp as ([p' d] & <- & Hp). cbn [fst].
    destruct (bind_args_val _ _ _ (k_sig _ Hok) HB _ _ Hp) as (v & V1 & V2). rewrite V1. f_equal.
    unfold arg_value. destruct (dget kw p'); [congruence|]. rewrite (In_dget _ _ _ (k_sig _ Hok) Hp). destruct d; cbn in V2; congruence. }
  subst vals. exists (fst (run_init c (map (arg_value c kw) (map fst (c_sig c))) [])). split; [destruct (run_init _ _ _); cbn in *; congruence|].
  intro call. unfold price. rewrite (proj2 (get_opt_hget _ _ _ _) Ha). cbn [bind fst snd]. apply (oe_price _ _ _ HO).
Qed.

Lemma gbs_formula (c : cls) kw a (h : heap) call (x : string -> T) sg : In c [GBSOption_cls; BlackScholesOption_cls] -> made classes c kw a h ->
  (forall p, In p ["S"; "K"; "t"; "r"; "b"] -> as_num (arg_value c kw p) = Ok (x p)) -> as_opt (arg_value c kw "sigma") = Ok sg ->
  price a call h = rmap PNum ((if call then gbs_call else gbs_put) (GBSOption (x "S") (x "K") (x "t") (x "r") (x "b") sg)).
Proof.
  intros Hc Hm Hx Hs. destruct (made_state c kw a h Hm) as (s0 & HI & ->).
  pose proof (Hx "S" ltac:(cbn; tauto)) as XS. pose proof (Hx "K" ltac:(cbn; tauto)) as XK. pose proof (Hx "t" ltac:(cbn; tauto)) as Xt. pose proof (Hx "r" ltac:(cbn; tauto)) as Xr. pose proof (Hx "b" ltac:(cbn; tauto)) as Xb. clear Hx.
  assert (HI' : run_init GBSOption_cls (map (arg_value c kw) (map fst (c_sig (GBSOption_cls (T := T))))) [] = (s0, None)) by (destruct Hc as [<-|[<-|[]]]; exact HI).
  assert (E : price_of c s0 call = price_of GBSOption_cls s0 call) by (destruct Hc as [<-|[<-|[]]]; reflexivity). rewrite E. clear E HI Hm.
  revert HI' XS XK Xt Xr Xb Hs. cbn [map c_sig GBSOption_cls fst gbs_sig req app]. 
  generalize (arg_value c kw "S") (arg_value c kw "K") (arg_value c kw "t") (arg_value c kw "r") (arg_value c kw "b") (arg_value c kw "sigma"). clear. intros vS vK vt vr vb vs HI XS XK Xt Xr Xb Hs.
  destruct (is_none vs) eqn:En.
  - assert (vs = VNone) by (destruct vs; try discriminate; reflexivity). subst vs. cbn in Hs. injection Hs as <-. cbn in HI. injection HI as <-. destruct call; reflexivity.
  - assert (exists s, as_num vs = Ok s /\ sg = Some s) as (s & Xs & ->).
    { unfold as_opt in Hs. destruct vs; try discriminate; cbn in Hs |- *; eexists; split; try reflexivity; congruence. }
    cbn in HI. rewrite En in HI. cbn in HI. destruct (py_div vS vK); cbn in HI; [|discriminate]. rewrite XS, XK, Xt, Xb, Xs in HI. cbn in HI. rewrite Xs, Xt in HI. cbn in HI.
    injection HI as <-. unfold price_of. destruct call; cbn; rewrite En; rewrite XS, XK, Xt, Xr, Xb, Xs; reflexivity.
Qed.

Ltac learn H := apply Forall_forall in H; repeat (apply Forall_cons_iff in H; let X := fresh "X" in destruct H as [X H]); clear H.
Ltac run H := repeat (cbn -[arg_value ofnat py_div] in H; match goal with
  | X : as_num ?v = Ok _ |- _ => rewrite X in H
  | |- _ => match type of H with context [py_div ?a ?b] => let E := fresh "E" in destruct (py_div a b) eqn:E; [|discriminate H] end
  end).
Ltac runs H := repeat (rewrite ?H; match goal with X : as_num ?v = Ok _ |- _ => rewrite X end; cbn -[arg_value ofnat py_div]).

Lemma black76_formula kw a (h : heap) call (x : string -> T) sg : made classes Black76Option_cls kw a h ->
  (forall p, In p ["FT"; "K"; "t"; "r"] -> as_num (arg_value Black76Option_cls kw p) = Ok (x p)) -> as_opt (arg_value Black76Option_cls kw "sigma") = Ok sg ->
  price a call h = rmap PNum ((if call then gbs_call else gbs_put) (GBSOption (x "FT") (x "K") (x "t") (x "r") (ofZ 0) sg)).
Proof.
  intros Hm Hx Hs. destruct (made_state _ kw a h Hm) as (s0 & HI & ->). learn Hx.
  cbn [map c_sig Black76Option_cls fst req app] in HI. unfold run_init in HI. cbn [map c_sig Black76Option_cls fst req app] in HI.
  destruct (is_none (arg_value Black76Option_cls kw "sigma")) eqn:En.
  - destruct (arg_value Black76Option_cls kw "sigma"); try discriminate. cbn in Hs. injection Hs as <-. cbn -[arg_value] in HI. injection HI as <-. destruct call; reflexivity.
  - assert (exists s, as_num (arg_value Black76Option_cls kw "sigma") = Ok s /\ sg = Some s) as (s & Xs & ->).
    { unfold as_opt in Hs. destruct (arg_value Black76Option_cls kw "sigma"); try discriminate; cbn in Hs |- *; eexists; split; try reflexivity; congruence. }
    cbn -[arg_value] in HI. rewrite En in HI. run HI.
    injection HI as <-. unfold price_of. destruct call; cbn -[arg_value]; rewrite En; runs X; reflexivity.
Qed.

Lemma ms_formula kw a (h : heap) call (x : string -> T) : made classes MiltersenSchwartz_cls kw a h ->
  (forall p, In p ms_names -> as_num (arg_value MiltersenSchwartz_cls kw p) = Ok (x p)) ->
  price a call h = Ok (PNum ((if call then ms_call else ms_put) (mkMs (x "Pt") (x "FT") (x "K") (x "t") (x "T") (x "sigmaS") (x "sigmaE") (x "sigmaF")
    (x "rhoSE") (x "rhoSF") (x "rhoEF") (x "KappaE") (x "KappaF")))).
Proof.
  intros Hm Hx. destruct (made_state _ kw a h Hm) as (s0 & HI & ->). learn Hx.
  unfold run_init in HI. cbn -[arg_value run_stmts ms_names st_vz2 st_vxz st_vz st_msd] in HI.
  cbn -[arg_value py_div ms_vz2 ms_vxz ms_kappas ms_of] in HI.
  assert (Q : forall u v y z q, as_num u = Ok y -> as_num v = Ok z -> py_div u v = Ok q -> q = (y / z)%num).
  { intros u v y z q Hu Hv. unfold py_div. rewrite Hu, Hv. cbn. destruct (_ && _); congruence. }
  rewrite X, X0, X1, X2, X3, X4, X5, X6, X7, X8, X9, X10, X11 in HI. cbn -[arg_value py_div ms_vz2 ms_vxz ms_kappas] in HI.
  set (p := mkMs _ _ _ _ _ _ _ _ _ _ _ _ _) in *.
  destruct (ms_kappas _) in HI; [|discriminate HI]. cbn -[arg_value py_div ms_vz2 ms_vxz ms_kappas] in HI.
  rewrite X, X0, X1, X2, X3, X4, X5, X6, X7, X8, X9, X10, X11 in HI. cbn -[arg_value py_div ms_vz2 ms_vxz ms_kappas] in HI. fold p in HI.
  destruct (ms_kappas _) in HI; [|discriminate HI]. cbn -[arg_value py_div ms_vz2 ms_vxz ms_kappas] in HI.
  destruct (py_div (arg_value MiltersenSchwartz_cls kw "FT") (arg_value MiltersenSchwartz_cls kw "K")) as [q|] eqn:E; [|discriminate HI]. cbn -[arg_value py_div ms_vz2 ms_vxz ms_kappas] in HI.
  rewrite E in HI. cbn -[arg_value py_div ms_vz2 ms_vxz ms_kappas] in HI. injection HI as <-. rewrite (Q _ _ _ _ _ X0 X1 E).
  unfold price_of. destruct call; cbn -[arg_value ms_vz2 ms_vxz cnd]; rewrite X, X0, X1; reflexivity.
Qed.

Lemma rgw_formula_obj kw a (h : heap) (x : string -> T) sg : made classes (RollGeskeWhaley_cls f1 f2) kw a h ->
  (forall p, In p ["S"; "K"; "t"; "td"; "r"; "D"] -> as_num (arg_value (RollGeskeWhaley_cls f1 f2) kw p) = Ok (x p)) -> as_opt (arg_value (RollGeskeWhaley_cls f1 f2) kw "sigma") = Ok sg ->
  price a true h = rmap PNum (rgw_call f1 f2 (mkRgw (x "S") (x "K") (x "t") (x "td") (x "r") (x "D") sg)) /\ price a false h = Err AttributeError.
Proof.
  intros Hm Hx Hs. destruct (made_state _ kw a h Hm) as (s0 & HI & HP). rewrite !HP. learn Hx.
  unfold run_init in HI. cbn -[arg_value] in HI. injection HI as <-. split; [|reflexivity].
  unfold price_of. cbn -[arg_value rgw_call]. rewrite X, X0, X1, X2, X3, X4. cbn -[arg_value rgw_call]. rewrite Hs. reflexivity.
Qed.

Lemma baw_formula kw a (h : heap) call (x : string -> T) sg : made classes (BAWAmerican_cls f3) kw a h ->
  (forall p, In p ["S"; "K"; "t"; "r"; "b"] -> as_num (arg_value (BAWAmerican_cls f3) kw p) = Ok (x p)) -> as_opt (arg_value (BAWAmerican_cls f3) kw "sigma") = Ok sg ->
  price a call h = rmap PNum ((if call then baw_call f3 else baw_put f3) (mkAmer (x "S") (x "K") (x "t") (x "r") (x "b") sg)).
Proof.
  intros Hm Hx Hs. destruct (made_state _ kw a h Hm) as (s0 & HI & ->). learn Hx.
  unfold run_init in HI. cbn -[arg_value] in HI. injection HI as <-.
  unfold price_of. destruct call; cbn -[arg_value baw_call baw_put]; rewrite X, X0, X1, X2, X3; cbn -[arg_value baw_call baw_put]; rewrite Hs; reflexivity.
Qed.

Lemma bs_formula kw a (h : heap) call (x : string -> T) sg : made classes BSAmerican_cls kw a h ->
  (forall p, In p ["S"; "K"; "t"; "r"; "b"] -> as_num (arg_value BSAmerican_cls kw p) = Ok (x p)) -> as_opt (arg_value BSAmerican_cls kw "sigma") = Ok sg ->
  price a call h = rmap (fun p => PDict (fst p) (snd p)) ((if call then bs_call else bs_put) (mkAmer (x "S") (x "K") (x "t") (x "r") (x "b") sg)).
Proof.
  intros Hm Hx Hs. destruct (made_state _ kw a h Hm) as (s0 & HI & ->). learn Hx.
  unfold run_init in HI. cbn -[arg_value] in HI. injection HI as <-.
  unfold price_of. destruct call; cbn -[arg_value bs_call bs_put]; rewrite X, X0, X1, X2, X3; cbn -[arg_value bs_call bs_put]; rewrite Hs; reflexivity.
Qed.

Lemma div_ok (u : pyv) y n : as_num u = Ok y -> (ofZ (Z.of_nat n) =? lit 0)%num = false -> steps u (VInt (Z.of_nat n)) = Ok n.
Proof.
  intros Hu Hn. unfold steps. assert ((Z.of_nat n <? 0)%Z = false) as -> by (apply Z.ltb_ge; lia). unfold py_div. rewrite Hu. cbn [bind as_num]. rewrite Hn, andb_false_r. cbn [bind]. now rewrite Nat2Z.id.
Qed.

Lemma tree_formula (c : tree_class) kw a (h : heap) call (x : string -> T) n ty : made classes (tree_class_of c) kw a h ->
  (forall p, In p ["S"; "K"; "t"; "r"; "b"; "sigma"] -> as_num (arg_value (tree_class_of c) kw p) = Ok (x p)) ->
  arg_value (tree_class_of c) kw "n" = VInt (Z.of_nat n) -> arg_value (tree_class_of c) kw "type" = VStr ty -> (ofZ (Z.of_nat n) =? lit 0)%num = false ->
  price a call h = the_price (tree_price c (mkTree (x "S") (x "K") (x "t") (x "r") (x "b") (x "sigma") ty n) call false).
Proof.
  intros Hm Hx Hn Hty H0. destruct (made_state _ kw a h Hm) as (s0 & HI & ->). learn Hx.
  assert (D := div_ok _ _ n X1 H0). set (c' := tree_class_of c) in *.
  assert (HI' : s0 = [("_S", arg_value c' kw "S"); ("_K", arg_value c' kw "K"); ("_t", arg_value c' kw "t"); ("_r", arg_value c' kw "r"); ("_b", arg_value c' kw "b"); ("_sigma", arg_value c' kw "sigma"); ("_n", arg_value c' kw "n"); ("_type", arg_value c' kw "type")]).
  { unfold run_init in HI. unfold c' in *. destruct c as [[]|]; cbn -[arg_value] in HI; injection HI as <-; reflexivity. }
  rewrite HI', Hn, Hty. clear HI HI'.
  assert (G : forall f : TreeOption T -> res (tree_out T), mcall (tree_meth f) [("_S", arg_value c' kw "S"); ("_K", arg_value c' kw "K"); ("_t", arg_value c' kw "t"); ("_r", arg_value c' kw "r"); ("_b", arg_value c' kw "b"); ("_sigma", arg_value c' kw "sigma"); ("_n", VInt (Z.of_nat n)); ("_type", VStr ty)] = the_price (f (mkTree (x "S") (x "K") (x "t") (x "r") (x "b") (x "sigma") ty n))).
  { intro f. unfold mcall. cbn -[arg_value steps the_price]. rewrite D. cbn -[arg_value steps the_price]. rewrite X, X0, X1, X2, X3, X4. reflexivity. }
  destruct c as [[]|]; destruct call; unfold price_of; cbn [c_call c_put c' tree_class_of CRR_cls JR_cls TIAN_cls Trinomial_cls tree_cls]; rewrite G; reflexivity.
Qed.

Lemma kirk_formula kw a (h : heap) call (x : string -> T) : made classes SpreadApprox_cls kw a h ->
  (forall p, In p kirk_names -> as_num (arg_value SpreadApprox_cls kw p) = Ok (x p)) ->
  price a call h = Ok (PNum ((if call then kirk_call else kirk_put) (KirkOption (x "S1") (x "S2") (x "K") (x "t") (x "r") (x "b1") (x "b2") (x "sigma1") (x "sigma2") (x "rho") (x "Q1") (x "Q2")))).
Proof.
  intros Hm Hx. destruct (made_state _ kw a h Hm) as (s0 & HI & ->). learn Hx.
  unfold run_init in HI. cbn -[arg_value] in HI. 
  do 6 (rewrite ?X, ?X0, ?X1, ?X2, ?X3, ?X4, ?X5, ?X6, ?X7, ?X8, ?X9, ?X10 in HI; cbn -[arg_value] in HI).
  injection HI as <-. unfold price_of. destruct call; cbn -[arg_value cnd]; rewrite X0, X1, X2, X3, X10; reflexivity.
Qed.

(** two-asset trees *)
Lemma py_div_val (u v : pyv) y z q : as_num u = Ok y -> as_num v = Ok z -> py_div u v = Ok q -> q = (y / z)%num.
Proof. intros Hu Hv. unfold py_div. rewrite Hu, Hv. cbn. destruct (_ && _); congruence. Qed.
Lemma count_ok n : count (T := T) (VInt (Z.of_nat n)) = Ok n.
Proof. unfold count. assert ((Z.of_nat n <? 0)%Z = false) as -> by (apply Z.ltb_ge; lia). now rewrite Nat2Z.id. Qed.
Lemma alltypes_formula kw a (h : heap) call (x : string -> T) K K2 code ty n : made classes AllTypes_cls kw a h ->
  (forall p, In p ["S1"; "S2"; "t"; "r"; "b1"; "b2"; "sigma1"; "sigma2"; "rho"; "Q1"; "Q2"] -> as_num (arg_value AllTypes_cls kw p) = Ok (x p)) ->
  as_opt (arg_value AllTypes_cls kw "K") = Ok K -> as_opt (arg_value AllTypes_cls kw "K2") = Ok K2 -> arg_value AllTypes_cls kw "option" = VInt code ->
  arg_value AllTypes_cls kw "n" = VInt (Z.of_nat n) -> arg_value AllTypes_cls kw "otype" = VStr ty -> n <> 0%nat ->
  price a call h = the_price (all_types call false code (x "S1") (x "S2") (x "t") (x "r") (x "b1") (x "b2") (x "sigma1") (x "sigma2") (x "rho") K K2 (x "Q1") (x "Q2") ty n).
Proof.
  intros Hm Hx HK HK2 Hop Hn Hty Hn0. destruct (made_state _ kw a h Hm) as (s0 & HI & ->). learn Hx.
  assert (D := count_ok n).
  unfold run_init in HI. cbn -[arg_value py_div] in HI. destruct (py_div (arg_value AllTypes_cls kw "t") (arg_value AllTypes_cls kw "n")) as [dt|] eqn:Edt in HI; [|discriminate HI].
  assert (Hdt : dt = (x "t" / ofnat n)%num) by (refine (py_div_val _ _ _ _ _ X1 _ Edt); rewrite Hn; reflexivity).
  do 6 (rewrite ?X, ?X0, ?X1, ?X2, ?X3, ?X4, ?X5, ?X6, ?X7, ?X8, ?X9 in HI; cbn -[arg_value py_div] in HI).
  injection HI as <-. unfold price_of, all_types, AllTypes. apply Nat.eqb_neq in Hn0. rewrite Hn0.
  destruct call; cbn -[arg_value count s3_value]; rewrite Hn, Hop, Hty, D; cbn -[arg_value s3_value]; rewrite X, X0, X1, X2, X3, X4, X5, X6, X7, X8, X9; cbn -[arg_value s3_value]; rewrite HK, HK2, Hdt; reflexivity.
Qed.

Lemma wrapper_formula (c : cls) kw a (h : heap) call (x : string -> T) ty n : In c [Spread_cls; Max_cls; Min_cls] -> made classes c kw a h ->
  (forall p, In p ["S1"; "S2"; "K"; "t"; "r"; "b1"; "b2"; "sigma1"; "sigma2"; "rho"; "Q1"; "Q2"] -> as_num (arg_value c kw p) = Ok (x p)) ->
  arg_value c kw "n" = VInt (Z.of_nat n) -> arg_value c kw "otype" = VStr ty -> n <> 0%nat ->
  price a call h = the_price (all_types call false (wrapper_code (c_class c)) (x "S1") (x "S2") (x "t") (x "r") (x "b1") (x "b2") (x "sigma1") (x "sigma2") (x "rho") (Some (x "K")) None (x "Q1") (x "Q2") ty n).
Proof.
  intros Hc Hm Hx Hn Hty Hn0. destruct (made_state _ kw a h Hm) as (s0 & HI & ->). learn Hx.
  assert (D := count_ok n). apply Nat.eqb_neq in Hn0.
  assert (HK : as_opt (arg_value c kw "K") = Ok (Some (x "K"))) by (unfold as_opt; rewrite X1; destruct (arg_value c kw "K"); try reflexivity; discriminate).
  destruct Hc as [<-|[<-|[<-|[]]]]; unfold run_init in HI; cbn -[arg_value py_div] in HI; (destruct (py_div (arg_value _ kw "t") (arg_value _ kw "n")) as [dt|] eqn:Edt in HI; [|discriminate HI]);
  (assert (Hdt : dt = (x "t" / ofnat n)%num) by (refine (py_div_val _ _ _ _ _ X2 _ Edt); rewrite Hn; reflexivity));
  do 6 (rewrite ?X, ?X0, ?X1, ?X2, ?X3, ?X4, ?X5, ?X6, ?X7, ?X8, ?X9, ?X10 in HI; cbn -[arg_value py_div] in HI);
  injection HI as <-; unfold price_of, all_types, AllTypes; rewrite Hn0;
  destruct call; cbn -[arg_value count s3_value as_opt]; rewrite Hn, Hty, D; cbn -[arg_value s3_value as_opt]; rewrite X, X0, X2, X3, X4, X5, X6, X7, X8, X9, X10; cbn -[arg_value s3_value as_opt]; rewrite HK, Hdt; reflexivity.
Qed.
End F.

(*@ C64_vanilla | A GBSOption or BlackScholesOption, built and updated in any program, prices the formula at its current arguments; without a volatility it raises. Black76Option prices the formula with spot FT and cost of carry 0. *)
Lemma c64_vanilla : forall (T : Type) (N : Num T) (f1 f2 f3 : nat) (c : cls T) (kw : dict (pyv T)) (a : nat) (h : heap T) (call : bool) x sigma,
  made (all_classes f1 f2 f3) c kw a h -> maybe c kw "sigma" sigma ->
  (In c [GBSOption_cls; BlackScholesOption_cls] -> numbers c kw ["S"; "K"; "t"; "r"; "b"] x ->
    price a call h = rmap PNum ((if call then gbs_call else gbs_put) (GBSOption (x "S") (x "K") (x "t") (x "r") (x "b") sigma))) /\
  (c = Black76Option_cls -> numbers c kw ["FT"; "K"; "t"; "r"] x ->
    price a call h = rmap PNum ((if call then gbs_call else gbs_put) (GBSOption (x "FT") (x "K") (x "t") (x "r") (ofZ 0) sigma))).
Proof.
  intros T N f1 f2 f3 c kw a h call x sigma Hm Hs. split; [intros Hc Hx|intros -> Hx].
  - exact (gbs_formula f1 f2 f3 c kw a h call x sigma Hc Hm Hx Hs).
  - exact (black76_formula f1 f2 f3 kw a h call x sigma Hm Hx Hs).
Qed.

(*@ C64_miltersen_schwartz | A MiltersenSchwartzOption prices its formula at its thirteen current arguments although constructor and methods pass the intermediate results on as attributes. *)
Lemma c64_ms : forall (T : Type) (N : Num T) (f1 f2 f3 : nat) (kw : dict (pyv T)) (a : nat) (h : heap T) (call : bool) x,
  made (all_classes f1 f2 f3) MiltersenSchwartz_cls kw a h -> 
  numbers MiltersenSchwartz_cls kw ["Pt"; "FT"; "K"; "t"; "T"; "sigmaS"; "sigmaE"; "sigmaF"; "rhoSE"; "rhoSF"; "rhoEF"; "KappaE"; "KappaF"] x ->
  price a call h = Ok (PNum ((if call then ms_call else ms_put) (mkMs (x "Pt") (x "FT") (x "K") (x "t") (x "T") (x "sigmaS") (x "sigmaE") (x "sigmaF")
    (x "rhoSE") (x "rhoSF") (x "rhoEF") (x "KappaE") (x "KappaF")))).
Proof. intros T N f1 f2 f3 kw a h call x. exact (ms_formula f1 f2 f3 kw a h call x). Qed.

(*@ C64_american | The three American approximations price their formulas at the current arguments; RollGeskeWhaleyOption has no put; BSAmericanApproxOption returns the price and the trigger price. *)
Lemma c64_american : forall (T : Type) (N : Num T) (f1 f2 f3 : nat) (c : cls T) (kw : dict (pyv T)) (a : nat) (h : heap T) x sigma,
  made (all_classes f1 f2 f3) c kw a h -> maybe c kw "sigma" sigma ->
  (c = RollGeskeWhaley_cls f1 f2 -> numbers c kw ["S"; "K"; "t"; "td"; "r"; "D"] x ->
    price a true h = rmap PNum (rgw_call f1 f2 (mkRgw (x "S") (x "K") (x "t") (x "td") (x "r") (x "D") sigma)) /\ price a false h = Err AttributeError) /\
  (forall call, c = BAWAmerican_cls f3 -> numbers c kw ["S"; "K"; "t"; "r"; "b"] x ->
    price a call h = rmap PNum ((if call then baw_call f3 else baw_put f3) (mkAmer (x "S") (x "K") (x "t") (x "r") (x "b") sigma))) /\
  (forall call, c = BSAmerican_cls -> numbers c kw ["S"; "K"; "t"; "r"; "b"] x ->
    price a call h = rmap (fun p => PDict (fst p) (snd p)) ((if call then bs_call else bs_put) (mkAmer (x "S") (x "K") (x "t") (x "r") (x "b") sigma))).
Proof.
  intros T N f1 f2 f3 c kw a h x sigma Hm Hs. split; [|split].
  - intros -> Hx. exact (rgw_formula_obj f1 f2 f3 kw a h x sigma Hm Hx Hs).
  - intros call -> Hx. exact (baw_formula f1 f2 f3 kw a h call x sigma Hm Hx Hs).
  - intros call -> Hx. exact (bs_formula f1 f2 f3 kw a h call x sigma Hm Hx Hs).
Qed.

(*@ C64_trees | Objects of the four one-asset tree classes price the tree of their class at the current arguments, including the exercise type and the number of steps. *)
Lemma c64_trees : forall (T : Type) (N : Num T) (f1 f2 f3 : nat) (k : tree_class) (kw : dict (pyv T)) (a : nat) (h : heap T) (call : bool) x n type,
  let c := tree_class_of k in
  made (all_classes f1 f2 f3) c kw a h -> numbers c kw ["S"; "K"; "t"; "r"; "b"; "sigma"] x -> step_count c kw n -> arg_value c kw "type" = VStr type ->
  price a call h = the_price (tree_price k (mkTree (x "S") (x "K") (x "t") (x "r") (x "b") (x "sigma") type n) call false).
Proof. intros T N f1 f2 f3 k kw a h call x n type c Hm Hx (Hn & _ & H0) Hty. exact (tree_formula f1 f2 f3 k kw a h call x n type Hm Hx Hn Hty H0). Qed.

(*@ C64_spreads | Two-asset tree objects price the tree with the payoff code, strikes and quantities of their current arguments; the three wrapper classes price codes 1 (spread), 2 (maximum) and 3 (minimum). SpreadApproxOption prices Kirk's formula. *)
Lemma c64_spreads : forall (T : Type) (N : Num T) (f1 f2 f3 : nat) (c : cls T) (kw : dict (pyv T)) (a : nat) (h : heap T) (call : bool) x,
  made (all_classes f1 f2 f3) c kw a h -> numbers c kw ["S1"; "S2"; "t"; "r"; "b1"; "b2"; "sigma1"; "sigma2"; "rho"; "Q1"; "Q2"] x ->
  (forall K K2 code n type, c = AllTypes_cls -> maybe c kw "K" K -> maybe c kw "K2" K2 -> arg_value c kw "option" = VInt code -> arg_value c kw "n" = VInt (Z.of_nat n) -> n <> 0%nat -> arg_value c kw "otype" = VStr type ->
    price a call h = the_price (all_types call false code (x "S1") (x "S2") (x "t") (x "r") (x "b1") (x "b2") (x "sigma1") (x "sigma2") (x "rho") K K2 (x "Q1") (x "Q2") type n)) /\
  (forall n type, In c [Spread_cls; Max_cls; Min_cls] -> numbers c kw ["K"] x -> arg_value c kw "n" = VInt (Z.of_nat n) -> n <> 0%nat -> arg_value c kw "otype" = VStr type ->
    price a call h = the_price (all_types call false (wrapper_code (c_class c)) (x "S1") (x "S2") (x "t") (x "r") (x "b1") (x "b2") (x "sigma1") (x "sigma2") (x "rho") (Some (x "K")) None (x "Q1") (x "Q2") type n)) /\
  (c = SpreadApprox_cls -> numbers c kw ["K"] x ->
    price a call h = Ok (PNum ((if call then kirk_call else kirk_put) (KirkOption (x "S1") (x "S2") (x "K") (x "t") (x "r") (x "b1") (x "b2") (x "sigma1") (x "sigma2") (x "rho") (x "Q1") (x "Q2"))))).
Proof.
  intros T N f1 f2 f3 c kw a h call x Hm Hx.
  assert (W : numbers c kw ["K"] x -> forall p, In p ["S1"; "S2"; "K"; "t"; "r"; "b1"; "b2"; "sigma1"; "sigma2"; "rho"; "Q1"; "Q2"] -> as_num (arg_value c kw p) = Ok (x p)).
  { intros HK p Hp. cbn [In] in Hp. destruct (string_dec p "K") as [->|Hne]; [apply HK; now left|]. apply Hx. cbn [In]. intuition congruence. }
  split; [|split].
  - intros K K2 code n type -> HK HK2 Hop Hn Hn0 Hty. exact (alltypes_formula f1 f2 f3 kw a h call x K K2 code type n Hm Hx HK HK2 Hop Hn Hty Hn0).
  - intros n type Hc HK Hn Hn0 Hty. exact (wrapper_formula f1 f2 f3 c kw a h call x type n Hc Hm (W HK) Hn Hty Hn0).
  - intros -> HK. exact (kirk_formula f1 f2 f3 kw a h call x Hm (W HK)).
Qed.
