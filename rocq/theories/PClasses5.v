(** Findings about the object protocol, over the real numbers. *)
From Coq Require Import Reals String List Arith ZArith QArith Bool Lia Lra.
From Verif Require Import Num Py Arr MBase MVanilla MTrees MSpread MAmerican MObjects MClasses.
From Verif Require Import SObjects PObjects PObjects2 PObjects3 PClasses PClasses2 PClasses3 PClasses4 PCnd.
Import ListNotations.
Open Scope py_scope.
Open Scope string_scope.

Lemma reachable_nil (T : Type) (N : Num T) classes : reachable classes (nil : heap T).
Proof. exists (fun _ _ _ => Done (Ok (lit 0))), (fun _ _ => Done (Ok (lit 0))), []. split; [constructor|reflexivity]. Qed.
Lemma made_new (T : Type) (N : Num T) classes (c : cls T) kw a h : In c classes -> plains kw ->
  new c kw [] = (Ok a, h) -> made classes c kw a h.
Proof.
  intros Hc Hk Hn. exists (fun _ _ _ => Done (Ok (lit 0))), (fun _ _ => Done (Ok (lit 0))), [], h, [], kw.
  repeat split; auto using reachable_nil.
Qed.
Lemma reachable_new (T : Type) (N : Num T) classes (c : cls T) kw : In c classes -> plains kw ->
  reachable classes (snd (new c kw [])).
Proof.
  intros Hc Hk. exists (fun _ _ _ => Done (Ok (lit 0))), (fun _ _ => Done (Ok (lit 0))), [New c kw]. split.
  - constructor; [split; assumption|constructor].
  - cbn. reflexivity.
Qed.

Definition gbs_kw (K : R) : dict (pyv R) :=
  [("S", VFlt 100%R); ("K", VFlt K); ("t", VFlt 1%R); ("r", VFlt (1/20)%R); ("b", VFlt (1/20)%R); ("sigma", VFlt (1/5)%R)].
Definition gbs_obj (K d1 d2 : R) : obj R := mkObj (KOpt GBSOption_cls)
  [("_S", VFlt 100%R); ("_K", VFlt K); ("_t", VFlt 1%R); ("_r", VFlt (1/20)%R); ("_b", VFlt (1/20)%R); ("_sigma", VFlt (1/5)%R);
   ("_d1", VNpy d1); ("_d2", VNpy d2); ("_greeks", VRef 1)].

Lemma R0 x : (x <> 0)%R -> Reqb x (Q2R (0 # 1)) = false.
Proof. intro H. apply Reqb_false. unfold Q2R; cbn; lra. Qed.
Lemma R0' : Reqb 0 (Q2R (0 # 1)) = true.
Proof. apply Reqb_true. unfold Q2R; cbn; lra. Qed.

Lemma gbs_new : exists d1 d2, new GBSOption_cls (gbs_kw 100) [] = (Ok 0%nat, [gbs_obj 100 d1 d2; greeks_obj GBSOption_cls 0]).
Proof.
  eexists _, _. unfold new.
  change (bind_args _ _) with (Ok [VFlt 100%R; VFlt 100%R; VFlt 1%R; VFlt (1/20)%R; VFlt (1/20)%R; VFlt (1/5)%R]).
  cbv iota beta. rewrite new_vals_spec. unfold run_init. cbn -[Reqb gbs_d1 Q2R]. rewrite R0 by lra. cbn -[Reqb gbs_d1 Q2R]. reflexivity.
Qed.
Lemma gbs_fail d1 d2 : set_param 0 "K" (VFlt 0%R) [gbs_obj 100 d1 d2; greeks_obj GBSOption_cls 0] =
  (Some ZeroDivisionError, [gbs_obj 0 d1 d2; greeks_obj GBSOption_cls 0]).
Proof.
  unfold set_param. cbn -[Reqb gbs_d1 Q2R]. rewrite R0'. reflexivity.
Qed.

(*@ C16_refuted | Finding: a failed update is not always without effect. GBSOption(100, 100, 1, 0.05, 0.05, 0.2).set_param('K', 0) raises ZeroDivisionError and the call price afterwards differs from the one before. *)
Lemma c16_refuted : ~ (forall (f1 f2 f3 : nat) (h h' : heap R) (a : nat) (c : cls R) s x v e call,
  reachable (all_classes f1 f2 f3) h -> get_opt h a = Ok (c, s) -> plain v ->
  set_param a x v h = (Some e, h') -> price a call h' = price a call h).
Proof.
  intro H. destruct gbs_new as (d1 & d2 & Hn).
  assert (Hr : reachable (all_classes 0 0 0) [gbs_obj 100 d1 d2; greeks_obj GBSOption_cls 0]).
  { replace [gbs_obj 100 d1 d2; greeks_obj GBSOption_cls 0] with (snd (new GBSOption_cls (gbs_kw 100) [])) by now rewrite Hn.
    apply reachable_new; [cbn; tauto|]. repeat constructor. }
  specialize (H 0%nat 0%nat 0%nat _ _ 0%nat GBSOption_cls _ "K" (VFlt 0%R) ZeroDivisionError true Hr eq_refl Coq.Init.Logic.I (gbs_fail d1 d2)).
  injection H as H. pose proof (cnd_range d2) as [Hp _].
  assert (H' : (100 * exp ((1/20 - 1/20) * 1) * cnd d1 - 0 * exp (- (1/20) * 1) * cnd d2 =
    100 * exp ((1/20 - 1/20) * 1) * cnd d1 - 100 * exp (- (1/20) * 1) * cnd d2)%R) by exact H.
  assert (0 < exp (- (1/20) * 1) * cnd d2)%R by (apply Rmult_lt_0_compat; [apply exp_pos|exact Hp]).
  clear H. lra.
Qed.

(** ** What a failed update leaves behind *)
Section Left.
Context {T : Type} {N : Num T}.
Variables f1 f2 f3 : nat.
Local Notation pyv := (pyv T).
Local Notation dict := (dict pyv).
Local Notation cls := (cls T).
Local Notation heap := (heap T).
Local Notation classes := (all_classes f1 f2 f3).

Fixpoint pre (l : list (stmt T)) : list (stmt T) :=
  match l with
  | Comp _ _ _ _ :: _ | [] => []
  | st :: l' => st :: pre l'
  end.
Fixpoint post (l : list (stmt T)) : list (stmt T) :=
  match l with
  | Store _ _ :: l' | Const _ _ :: l' => post l'
  | l => l
  end.
Lemma pre_post l : (pre l ++ post l)%list = l.
Proof. induction l as [|[]]; cbn; congruence. Qed.
Lemma run_stmts_app (args : dict) l1 l2 s : run_stmts args (l1 ++ l2)%list s =
  match run_stmts args l1 s with (s1, None) => run_stmts args l2 s1 | r => r end.
Proof.
  revert s. induction l1 as [|st l IH]; intro s; cbn; [reflexivity|].
  destruct (exec_stmt args s st); [apply IH|reflexivity].
Qed.
(** the class with only the plain assignments of its constructor *)
Definition stub (c : cls) : cls := {|
  c_class := c_class c; c_name := c_name c; c_title := c_title c; c_sig := c_sig c; c_init := pre (c_init c);
  c_own_der := c_own_der c; c_params := c_params c; c_drop := c_drop c;
  c_call := mkMeth [] (fun _ => Err TypeError); c_put := None; c_greeks := []; c_summary := SumBase |}.
Lemma stub_ok (c : cls) : In c classes -> cls_ok (stub c) /\ stores_only (stub c) = true /\
  forall q, In q (map snd (c_params c)) -> ~ In q (writes (post (c_init c))).
Proof.
  intro Hc. unfold all_classes in Hc.
  repeat (destruct Hc as [<-|Hc];
    [split; [apply det_ok; vm_compute; reflexivity|split; [vm_compute; reflexivity|]];
     intros q Hq Hw; revert Hq Hw; vm_compute; intuition (try congruence; subst; discriminate) |]).
  destruct Hc.
Qed.

Lemma failed_params (c : cls) vals s : In c classes -> List.length vals = List.length (c_sig c) ->
  params_of c (fst (run_init c vals s)) = Ok (map (fun pa => (fst pa, pval c vals (fst pa))) (c_params c)).
Proof.
  intros Hc Hl. destruct (stub_ok c Hc) as (S1 & S2 & S3).
  assert (Hfix : forall p, In p (map fst (c_params c)) -> pval (stub c) vals p = pval c vals p).
  { intros p Hp. unfold pval. cbn [stub c_sig]. destruct (dget (combine _ _) p) eqn:E; [reflexivity|].
    assert (Hn : ~ In p (map fst (c_sig c))).
    { apply dget_None in E. intro C. apply E. apply in_map_iff in C. destruct C as ([p' d] & <- & C). cbn.
      clear - C Hl. revert vals Hl. induction (c_sig c) as [|[q e] sig IH]; intros [|v vals] Hl; cbn in *; try lia.
      destruct C as [[= -> ->]|C]; [now left|right; auto]. }
    rewrite (fixed_zero f1 f2 f3 c Hc p Hp Hn).
    clear - Hc Hp Hn. unfold all_classes in Hc.
    repeat (destruct Hc as [<-|Hc]; [cbn in Hp, Hn; unfold fixed;
      repeat (destruct Hp as [<-|Hp]; [first [exfalso; apply Hn; tauto|reflexivity]|]); tauto|]). destruct Hc. }
  pose proof (run_init_params (stub c) vals s S1 Hl (stores_only_ok (stub c) vals s S2 Hl)) as HP.
  assert (HE : params_of c (fst (run_init c vals s)) = params_of (stub c) (fst (run_init (stub c) vals s))).
  { unfold run_init. cbn [stub c_sig c_init]. rewrite <- (pre_post (c_init c)) at 1. rewrite run_stmts_app.
    pose proof (stores_only_ok (stub c) vals s S2 Hl) as HN. unfold run_init in HN. cbn [stub c_sig c_init] in HN.
    set (args := combine (map fst (c_sig c)) vals) in *.
    destruct (run_stmts args (pre (c_init c)) s) as [s1 e]. cbn [fst snd] in *. subst e.
    destruct (run_stmts args (post (c_init c)) s1) as [s2 e2] eqn:E2. cbn [fst].
    assert (Q : forall q, In q (map snd (c_params c)) -> dget s2 q = dget s1 q).
    { pattern s2. revert E2. apply run_stmts_inv; [|auto]. intros s0 q v Hq Hs0 _ q' Hq'.
      rewrite dget_dset_other; [now apply Hs0|]. intros ->. now apply (S3 q'). }
    apply mapM_ext. intros [p q] Hpq. cbn. rewrite Q; [reflexivity|]. apply (in_map snd) in Hpq. exact Hpq. }
  rewrite HE, HP. f_equal. apply map_ext_in. intros [p q] Hpq. cbn. f_equal. apply Hfix.
  apply (in_map fst) in Hpq. exact Hpq.
Qed.
End Left.

(*@ C16_not_rolled_back | Finding, for every class: when set_param on a known name raises, get_params afterwards returns the rejected value. *)
Lemma c16_left : forall (T : Type) (N : Num T) (f1 f2 f3 : nat) (kw : dict (pyv T)) (a : nat) (h h' : heap T) (c : cls T) x v e,
  made (all_classes f1 f2 f3) c kw a h -> plain v -> In x (map fst (c_sig c)) ->
  set_param a x v h = (Some e, h') ->
  get_params a h' = Ok (map (fun p => (p, arg_value c (dset kw x v) p)) (map fst (c_params c))).
Proof.
  intros * Hm Hv Hx HS. apply made_tracks in Hm. destruct Hm as (Hc & Hi & Ht & Hk & Hok).
  pose proof Ht as (s & vals & Ha & HB & HI & HO). apply plain_scalar in Hv.
  pose proof (tracks_params c kw a h Hok Ht) as HP. unfold get_params in HP.
  rewrite (proj2 (get_opt_hget _ _ _ _) Ha) in HP. cbn [bind fst snd] in HP.
  unfold set_param in HS. rewrite (proj2 (get_opt_hget _ _ _ _) Ha), HP, (set_bind c kw vals _ x v Hok HB eq_refl) in HS.
  assert (Hu : upd c kw x v = dset kw x v).
  { unfold upd. destruct (existsb _ _) eqn:E; [|reflexivity]. exfalso. destruct (k_keys1 _ Hok _ Hx) as [_ C].
    apply C. now apply mem_In. }
  rewrite Hu in HS.
  destruct (bind_args (c_sig c) (dset kw x v)) as [vals'|e'] eqn:B.
  2:{ exfalso. assert (Q : forall p d, In (p, d) (c_sig c) -> exists w, (match dget (dset kw x v) p with Some v => Ok v | None => of_opt TypeError d end) = Ok w).
      { intros p d Hp. destruct (bind_args_val _ _ _ (k_sig _ Hok) HB _ _ Hp) as (w & _ & V2).
        rewrite dget_dset. destruct (String.eqb x p); eauto. }
      assert (Q2 : forall p, In p (map fst (dset kw x v)) -> In p (map fst (c_sig c))).
      { intros p Hp. apply In_keys_dset in Hp. destruct Hp as [<-|Hp]; [exact Hx|]. exact (bind_args_names _ _ _ _ HB Hp). }
      set (w := fun p => match dget (dset kw x v) p with Some v => v | None => arg_value c kw p end).
      assert (Q3 : bind_args (c_sig c) (dset kw x v) = mapM (fun pd => match dget (dset kw x v) (fst pd) with Some v => Ok v | None => of_opt TypeError (snd pd) end) (c_sig c)).
      { unfold bind_args. destruct (existsb _ (dset kw x v)) eqn:E; [|reflexivity]. exfalso. apply existsb_exists in E.
        destruct E as ((k & v0) & Hk0 & E). cbn in E. apply negb_true_iff in E.
        assert (Hmm : mem k (map fst (c_sig c)) = true) by (apply mem_In, Q2; apply (in_map fst) in Hk0; exact Hk0).
        unfold mem in Hmm. congruence. }
      rewrite Q3 in B. clear - B Q. revert e' B. induction (c_sig c) as [|[p d] sig IH]; intros e' B; [discriminate|].
      cbn in B. destruct (Q p d (or_introl eq_refl)) as (w0 & E). rewrite E in B. cbn in B.
      destruct (mapM _ sig) eqn:Em; cbn in B; [discriminate|]. eapply IH; [|exact B]. intros; apply Q; now right. }
  assert (Hvs : Forall scalar vals').
  { eapply bind_args_scalar; [exact Hok| |exact B]. now apply scalars_dset. }
  destruct (do_init_ok c vals' a h s Hi Ha Hvs) as (_ & _ & D3 & at' & D4 & D5). rewrite HS in D4. cbn in D4.
  unfold get_params. rewrite (proj2 (get_opt_hget _ _ _ _) D4). cbn [bind fst snd].
  rewrite (oe_params _ _ _ D5), (failed_params f1 f2 f3 c vals' s Hc (bind_args_len _ _ _ B)), map_map. f_equal.
  apply map_ext_in. intros [p q] Hpq. cbn. f_equal. rewrite (param_value_pval c _ vals' p Hok B).
  apply (param_arg_value f1 f2 f3); auto; [apply (in_map fst) in Hpq; exact Hpq|].
  intros d Hd -> E. destruct (bind_args_val _ _ _ (k_sig _ Hok) B _ _ Hd) as (w & _ & V2). rewrite E in V2. discriminate.
Qed.

(*@ C20_refuted_names | Finding: the name shown by repr is not the class's name for TIANBinomialTreeOption, BionomialSpreadOption and BionomialSpreadAllTypes. *)
Lemma c20_names : forall (T : Type) (N : Num T) (f1 f2 f3 : nat) (c : cls T), In c (all_classes f1 f2 f3) ->
  In (c_class c) ["TIANBinomialTreeOption"; "BionomialSpreadOption"; "BionomialSpreadAllTypes"] -> c_name c <> c_class c.
Proof.
  intros * Hc Hn. unfold all_classes in Hc.
  repeat (destruct Hc as [<-|Hc]; [first [discriminate|exfalso; cbn in Hn; intuition discriminate]|]). destruct Hc.
Qed.

(*@ C20_refuted_black76 | Finding: repr of a Black76Option shows six values while its constructor takes five, so that calling the constructor with them always raises TypeError. *)
Lemma c20_b76 : forall (T : Type) (N : Num T) (f1 f2 f3 : nat) (h h0 : heap T) (a : nat) s ps,
  reachable (all_classes f1 f2 f3) h -> get_opt h a = Ok (Black76Option_cls, s) -> get_params a h = Ok ps ->
  new_pos Black76Option_cls (map snd ps) h0 = (Err TypeError, h0).
Proof.
  intros * Hr Hg HP. unfold get_params in HP. rewrite Hg in HP. cbn [bind fst snd] in HP.
  apply params_of_keys in HP. apply (f_equal (@List.length _)) in HP. rewrite map_length in HP. cbn in HP.
  do 7 (destruct ps as [|? ps]; try discriminate HP). reflexivity.
Qed.

(*@ C20_refuted_alltypes | Finding: for BionomialSpreadAllTypes the values shown by repr, given to the constructor in that order, never rebuild the option unless its strike equals its time to maturity. *)
Lemma c20_alltypes : forall (T : Type) (N : Num T) (f1 f2 f3 : nat) (kw : dict (pyv T)) (h h0 h2 : heap T) (a b : nat) ps,
  made (all_classes f1 f2 f3) AllTypes_cls kw a h -> get_params a h = Ok ps ->
  arg_value AllTypes_cls kw "K" <> arg_value AllTypes_cls kw "t" ->
  new_pos AllTypes_cls (map snd ps) h0 = (Ok b, h2) -> get_params b h2 <> Ok ps.
Proof.
  intros * Hm HP Hne Hn HQ. apply made_tracks in Hm. destruct Hm as (Hc & Hi & Ht & Hk & Hok).
  rewrite (tracks_params _ kw a h Hok Ht) in HP. assert (Hps : ps = map (fun pa => (fst pa, param_value AllTypes_cls kw (fst pa))) (c_params AllTypes_cls)) by congruence.
  clear HP. subst ps. rewrite map_map in Hn. cbn [snd] in Hn.
  unfold new_pos in Hn. rewrite bind_pos_id in Hn by (rewrite map_length; reflexivity).
  rewrite new_vals_spec in Hn.
  set (vals := map (fun x => param_value AllTypes_cls kw (fst x)) (c_params AllTypes_cls)) in *.
  destruct (snd (run_init AllTypes_cls vals [])) eqn:E; [discriminate|]. injection Hn as <- <-.
  unfold get_params in HQ. rewrite (proj2 (get_opt_hget _ _ _ _) (hget_len _ _ _)) in HQ. cbn [bind fst snd] in HQ.
  rewrite <- (oe_params _ _ _ (obs_eq_greeks AllTypes_cls (fst (run_init AllTypes_cls vals [])) (VRef (S (List.length h0))) Hok)) in HQ.
  rewrite (run_init_params AllTypes_cls vals [] Hok) in HQ by (try exact E; unfold vals; rewrite map_length; reflexivity).
  injection HQ as HQ. apply Hne.
  rewrite <- (tracks_arg_value f1 f2 f3 AllTypes_cls kw a h "K" Hc Ht ltac:(cbn; tauto)).
  rewrite <- (tracks_arg_value f1 f2 f3 AllTypes_cls kw a h "t" Hc Ht ltac:(cbn; tauto)).
  exact H0.
Qed.

(*@ C21_refuted_rgw | Finding: summary() of a RollGeskeWhaleyOption with strike None raises TypeError. *)
Lemma c21_rgw : exists (h : heap R) a kw, made (all_classes 0 0 0) (RollGeskeWhaley_cls 0 0) kw a h /\
  forall show show6, summary show show6 a h = Err TypeError.
Proof.
  set (kw := [("S", VFlt 80%R); ("K", VNone); ("t", VFlt (1/3)%R); ("td", VFlt (1/4)%R); ("r", VFlt (6/100)%R); ("D", VFlt 4%R); ("sigma", VFlt (3/10)%R)]).
  exists (snd (new (RollGeskeWhaley_cls 0 0) kw [])), 0%nat, kw. split.
  - apply made_new; [cbn; tauto|repeat constructor|]. reflexivity.
  - intros show show6. unfold summary. cbn. reflexivity.
Qed.

(*@ C21_rgw | RollGeskeWhaleyOption.summary() raises only if evaluating the optimality test does: with numeric parameters it never raises. *)
Lemma c21_rgw_ok : forall (T : Type) (N : Num T) (f1 f2 f3 : nat) show show6 (h : heap T) (a : nat) (s : dict (pyv T)) ps,
  reachable (all_classes f1 f2 f3) h -> get_opt h a = Ok (RollGeskeWhaley_cls f1 f2, s) -> get_params a h = Ok ps ->
  (forall p v, In (p, v) ps -> p <> "sigma" -> exists x, as_num v = Ok x) ->
  (forall v, In ("sigma", v) ps -> exists x, as_opt v = Ok x) ->
  exists text, summary show show6 a h = Ok text.
Proof.
  intros * Hr Hg HP Hnum Hsig. apply reachable_inv in Hr. unfold get_params in HP. unfold summary. rewrite Hg in *.
  apply get_opt_hget in Hg. destruct (Hr _ _ _ Hg) as (Hok & _).
  cbn [bind fst snd] in HP |- *. rewrite HP. cbn [bind].
  assert (Hat : forall p q, In (p, q) (c_params (RollGeskeWhaley_cls f1 f2 (T := T))) -> exists v, dget s q = Some v /\ In (p, v) ps).
  { intros p q Hp. destruct (params_of_dget _ s ps p q (k_par _ Hok) HP Hp) as (v & V1 & V2). exists v. split; [exact V1|].
    now apply dget_In. }
  assert (Hm : exists b, mcall (rgw_meth (fun o => Ok (rgw_is_call_optimal o))) s = Ok b).
  { destruct (Hat "S" "_S" ltac:(cbn; tauto)) as (v1 & A1 & B1). destruct (Hat "K" "_K" ltac:(cbn; tauto)) as (v2 & A2 & B2).
    destruct (Hat "t" "_t" ltac:(cbn; tauto)) as (v3 & A3 & B3). destruct (Hat "td" "_td" ltac:(cbn; tauto)) as (v4 & A4 & B4).
    destruct (Hat "r" "_r" ltac:(cbn; tauto)) as (v5 & A5 & B5). destruct (Hat "D" "_D" ltac:(cbn; tauto)) as (v6 & A6 & B6).
    destruct (Hat "sigma" "_sigma" ltac:(cbn; tauto)) as (v7 & A7 & B7).
    destruct (Hnum _ _ B1 ltac:(discriminate)) as (x1 & X1). destruct (Hnum _ _ B2 ltac:(discriminate)) as (x2 & X2).
    destruct (Hnum _ _ B3 ltac:(discriminate)) as (x3 & X3). destruct (Hnum _ _ B4 ltac:(discriminate)) as (x4 & X4).
    destruct (Hnum _ _ B5 ltac:(discriminate)) as (x5 & X5). destruct (Hnum _ _ B6 ltac:(discriminate)) as (x6 & X6).
    destruct (Hsig _ B7) as (x7 & X7). eexists. unfold mcall. cbn [m_reads rgw_meth map m_fun].
    rewrite A1, A2, A3, A4, A5, A6, A7. unfold nums, all_some, sigma_opt. cbn. rewrite X1, X2, X3, X4, X5, X6, X7. cbn. reflexivity. }
  destruct Hm as (b & Hb). cbn [c_summary RollGeskeWhaley_cls]. rewrite Hb. cbn [bind]. eexists. reflexivity.
Qed.

(* ------------------------------------------------------------------ *)
(** ** What the Greeks differentiate is the price *)
Section Amount.
Context {T : Type} {N : Num T}.

Definition kind_ok (own : bool) (p : pout T) : Prop := match p with PNum _ => own = false | PDict _ _ => own = true end.
Lemma rmap_num {A} (f : A -> pout T) (r : res A) own p : (forall x, kind_ok own (f x)) -> rmap f r = Ok p -> kind_ok own p.
Proof. destruct r; cbn; [intros H [= <-]; apply H|discriminate]. Qed.
Lemma the_price_num r (p : pout T) : the_price r = Ok p -> kind_ok false p.
Proof. unfold the_price. destruct r as [[x|m]|]; cbn; try discriminate. now intros [= <-]. Qed.
End Amount.

Ltac kind_step := match goal with
  | H : Err _ = Ok _ |- _ => discriminate H
  | H : Ok _ = Ok _ |- _ => injection H as <-; reflexivity
  | H : the_price _ = Ok _ |- _ => exact (the_price_num _ _ H)
  | H : rmap _ _ = Ok _ |- _ => refine (rmap_num _ _ _ _ _ H); intro; reflexivity
  | H : bind ?r _ = Ok _ |- _ => destruct r; cbn [bind] in H
  | H : (if ?c then _ else _) = Ok _ |- _ => destruct c
  | H : match ?x with _ => _ end = Ok _ |- _ => destruct x
  end.

Lemma price_kind (T : Type) (N : Num T) (f1 f2 f3 : nat) (c : cls T) at_ call p :
  In c (all_classes f1 f2 f3) -> price_of c at_ call = Ok p -> kind_ok (c_own_der c) p.
Proof.
  intro Hc. unfold all_classes in Hc. cbn [In] in Hc. unfold price_of, mcall.
  repeat (destruct Hc as [<-|Hc]; [cbn [c_call c_put c_own_der GBSOption_cls BlackScholesOption_cls Black76Option_cls MiltersenSchwartz_cls RollGeskeWhaley_cls BAWAmerican_cls BSAmerican_cls CRR_cls JR_cls TIAN_cls Trinomial_cls tree_cls AllTypes_cls Max_cls Min_cls Spread_cls wrapper_cls SpreadApprox_cls
    gbs_meth ms_meth rgw_meth amer_meth tree_meth spread_meth kirk_meth m_fun m_reads];
    intro H; destruct call; cbv beta in H; repeat kind_step|]). contradiction.
Qed.

(*@ C19_price | What the finite-difference Greeks and the solver of volatility() evaluate is the price the fresh option returns; the entry "OptionPrice" of the dictionary for the Bjerksund-Stensland approximation, the number itself for the other classes. *)
Lemma c19_price : forall (T : Type) (N : Num T) (f1 f2 f3 : nat) (c : cls T) (kw : dict (pyv T)) call b h,
  In c (all_classes f1 f2 f3) -> new c kw [] = (Ok b, h) ->
  fresh c (c_own_der c) call kw = (p <- price b call h ;; Ok (amount p)).
Proof.
  intros T N f1 f2 f3 c kw call b h Hc HN. unfold fresh. rewrite HN. destruct (price b call h) as [p|e] eqn:P; cbn [bind]; [|reflexivity].
  assert (G : exists at_, get_opt h b = Ok (c, at_)).
  { destruct (new_tracks c kw [] h b (all_ok f1 f2 f3 c Hc) HN) as (at_ & vals & Ha & _). exists at_. apply get_opt_hget. exact Ha. }
  destruct G as (at_ & G). unfold price in P. rewrite G in P. cbn [bind fst snd] in P. pose proof (price_kind T N f1 f2 f3 c at_ call p Hc P) as Q. unfold extract. destruct p; cbn in Q; rewrite Q; reflexivity.
Qed.
