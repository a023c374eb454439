(** Heap invariant, copies, updates and the frame property of programs on option objects. *)
From Coq Require Import String List Arith ZArith QArith Bool Lia.
From Verif Require Import Num Py Arr MSpread MObjects PObjects.
Import ListNotations.
Open Scope py_scope.
Open Scope string_scope.

Section Inv.
Context {T : Type} {N : Num T}.
Local Notation pyv := (pyv T).
Local Notation dict := (dict pyv).
Local Notation cls := (cls T).
Local Notation heap := (heap T).

(* ------------------------------------------------------------------ *)
(** * Argument binding *)

Lemma bind_args_unknown (sig : list (string * option pyv)) (kw : dict) x :
  In x (map fst kw) -> ~ In x (map fst sig) -> bind_args sig kw = Err TypeError.
Proof.
  intros H1 H2. unfold bind_args. replace (existsb _ kw) with true; [reflexivity|].
  symmetry. apply existsb_exists. apply in_map_iff in H1. destruct H1 as ((k & v) & <- & H1).
  exists (k, v). split; [exact H1|]. cbn. apply negb_true_iff.
  destruct (existsb (String.eqb k) (map fst sig)) eqn:E; [|reflexivity].
  exfalso. apply H2. cbn. now apply mem_In.
Qed.
Lemma bind_args_len (sig : list (string * option pyv)) (kw : dict) vals :
  bind_args sig kw = Ok vals -> List.length vals = List.length sig.
Proof. unfold bind_args. destruct (existsb _ kw); [discriminate|]. apply mapM_length. Qed.

Lemma mapM_Forall {A B} (P : B -> Prop) (f : A -> res B) l r :
  (forall x y, In x l -> f x = Ok y -> P y) -> mapM f l = Ok r -> Forall P r.
Proof.
  revert r. induction l as [|x l IH]; cbn; intros r HP; [intros [= <-]; constructor|].
  destruct (f x) eqn:E; cbn; [|discriminate]. destruct (mapM f l) eqn:El; cbn; [|discriminate].
  intros [= <-]. constructor; [eauto|]. eapply IH; eauto.
Qed.
Definition scalars (d : dict) : Prop := Forall (fun kv => scalar (snd kv)) d.

Lemma dget_scalar (d : dict) k v : scalars d -> dget d k = Some v -> scalar v.
Proof. intros H E. apply dget_In in E. unfold scalars in H. rewrite Forall_forall in H. exact (H _ E). Qed.
Lemma scalars_dset (d : dict) k v : scalars d -> scalar v -> scalars (dset d k v).
Proof.
  unfold scalars. rewrite !Forall_forall. intros H Hv [k' v'] Hi. apply In_dset in Hi.
  destruct Hi as [[_ ->]|Hi]; [exact Hv|exact (H _ Hi)].
Qed.
Lemma scalars_ddel (d : dict) k : scalars d -> scalars (ddel d k).
Proof.
  unfold scalars. induction d as [|[k0 v0] d IH]; cbn; [auto|]. intro H. inversion H; subst.
  destruct (String.eqb k0 k); [assumption|]. constructor; auto.
Qed.
Lemma scalars_ddels (ks : list string) (d : dict) : scalars d -> scalars (fold_left ddel ks d).
Proof. revert d. induction ks; cbn; auto using scalars_ddel. Qed.

Lemma bind_args_scalar (c : cls) (kw : dict) vals :
  cls_ok c -> scalars kw -> bind_args (c_sig c) kw = Ok vals -> Forall scalar vals.
Proof.
  intros Hc Hk. unfold bind_args. destruct (existsb _ kw); [discriminate|].
  apply mapM_Forall. intros [p d] y Hp. cbn. destruct (dget kw p) eqn:E.
  - intros [= <-]. eapply dget_scalar; eassumption.
  - destruct d; cbn; [|discriminate]. intros [= <-]. eapply k_defaults; eassumption.
Qed.
Lemma combine_scalars (ks : list string) (vals : list pyv) : Forall scalar vals -> scalars (combine ks vals).
Proof.
  intro H. revert ks. induction H; intros [|k ks]; cbn; constructor; auto. apply IHForall.
Qed.

(* ------------------------------------------------------------------ *)
(** * Parameters of a state *)

Lemma params_of_keys (c : cls) at_ ps : params_of c at_ = Ok ps -> map fst ps = map fst (c_params c).
Proof.
  unfold params_of. revert ps. induction (c_params c) as [|[p a] l IH]; cbn; intros ps.
  - now intros [= <-].
  - destruct (dget at_ a); cbn; [|discriminate]. destruct (mapM _ l) eqn:E; cbn; [|discriminate].
    intros [= <-]. cbn. rewrite (IH _ eq_refl). reflexivity.
Qed.
Lemma params_of_dget (c : cls) at_ ps p a : NoDup (map fst (c_params c)) ->
  params_of c at_ = Ok ps -> In (p, a) (c_params c) -> exists v, dget at_ a = Some v /\ dget ps p = Some v.
Proof.
  unfold params_of. revert ps. induction (c_params c) as [|[p0 a0] l IH]; cbn; intros ps Hn HE Hi; [tauto|].
  destruct (dget at_ a0) as [v0|] eqn:E0; cbn in HE; [|discriminate].
  destruct (mapM _ l) eqn:E; cbn in HE; [|discriminate]. injection HE as <-. inversion Hn; subst. cbn.
  destruct Hi as [[= -> ->]|Hi].
  - exists v0. rewrite String.eqb_refl. auto.
  - destruct (IH _ H2 eq_refl Hi) as (v & Hv1 & Hv2). exists v. split; [exact Hv1|].
    destruct (String.eqb_spec p0 p) as [->|]; [|exact Hv2].
    exfalso. apply H1. change p with (fst (p, a)). now apply in_map.
Qed.
Lemma params_of_total (c : cls) at_ : (forall p a, In (p, a) (c_params c) -> dget at_ a <> None) ->
  exists ps, params_of c at_ = Ok ps.
Proof.
  unfold params_of. induction (c_params c) as [|[p a] l IH]; cbn; intro H; [eauto|].
  destruct (dget at_ a) eqn:E; cbn; [|exfalso; eapply H; [now left|exact E]].
  destruct IH as (ps & Hp); [intros; eapply H; right; eassumption|].
  rewrite Hp. cbn. eauto.
Qed.
Lemma params_of_present (c : cls) at_ ps p a : params_of c at_ = Ok ps -> In (p, a) (c_params c) -> dget at_ a <> None.
Proof.
  unfold params_of. revert ps. induction (c_params c) as [|[p0 a0] l IH]; cbn; intros ps HE Hi; [tauto|].
  destruct (dget at_ a0) as [v0|] eqn:E0; cbn in HE; [|discriminate].
  destruct (mapM _ l) eqn:E; cbn in HE; [|discriminate].
  destruct Hi as [[= -> ->]|Hi]; [congruence|]. eapply IH; eauto.
Qed.

(** value a class gives to a parameter its constructor does not take (cost of carry of Black76Option) *)
Definition fixed (c : cls) (p : string) : pyv :=
  match dget (c_params c) p with
  | Some a => match dget (sources (c_init c)) a with Some (SFix v) => v | _ => VNone end
  | None => VNone
  end.
Definition pval (c : cls) (vals : list pyv) (p : string) : pyv :=
  match dget (combine (map fst (c_sig c)) vals) p with Some v => v | None => fixed c p end.

Lemma combine_key (ks : list string) (vals : list pyv) p : dget (combine ks vals) p <> None -> In p ks.
Proof.
  intro H. destruct (dget (combine ks vals) p) eqn:E; [|congruence]. apply dget_In in E.
  now apply in_combine_l in E.
Qed.

Lemma run_init_params (c : cls) vals s : cls_ok c -> List.length vals = List.length (c_sig c) ->
  snd (run_init c vals s) = None ->
  params_of c (fst (run_init c vals s)) = Ok (map (fun pa => (fst pa, pval c vals (fst pa))) (c_params c)).
Proof.
  intros Hc Hl HE. destruct (run_init c vals s) as [s' e] eqn:E. cbn in *. subst e.
  unfold run_init in E. apply sources_sound in E. unfold params_of. apply mapM_Ok.
  intros [p a] Hp. cbn. specialize (E a).
  destruct (k_src _ Hc _ _ Hp) as [[Hs Ha]|[Hd (v & Ha)]]; rewrite Ha in E.
  - destruct E as [E1 E2]. unfold pval. rewrite <- E1. destruct (dget s' a); [reflexivity|congruence].
  - rewrite E. cbn. do 2 f_equal. unfold pval.
    destruct (dget (combine _ _) p) eqn:Ec.
    + exfalso. assert (Hi : In p (map fst (c_sig c))) by (apply (combine_key _ vals); congruence).
      now apply (k_keys1 _ Hc) in Hi.
    + unfold fixed. rewrite (In_dget _ _ _ (k_par _ Hc) Hp), Ha. reflexivity.
Qed.

(** the state of an object whose last (re)initialisation succeeded *)
Definition coherent (c : cls) (at_ : dict) : Prop := exists vals,
  List.length vals = List.length (c_sig c) /\ snd (run_init c vals []) = None /\
  obs_eq c at_ (fst (run_init c vals [])).


(** states differing in [_greeks] only *)
Lemma obs_eq_greeks (c : cls) at_ v : cls_ok c -> obs_eq c at_ (dset at_ "_greeks" v).
Proof.
  intro Hc. apply obs_eq_reads. intros k Hk. symmetry. apply dget_dset_other.
  intros <-. now apply (k_noread _ Hc).
Qed.

(* ------------------------------------------------------------------ *)
(** * The heap invariant *)

Definition opt_wf (h : heap) (a : nat) (c : cls) (at_ : dict) : Prop :=
  cls_ok c /\
  (exists g, dget at_ "_greeks" = Some (VRef g) /\ hget h g = Some (greeks_obj c a)) /\
  NoDup (map fst at_) /\
  (forall k v, In (k, v) at_ -> k <> "_greeks" -> scalar v) /\
  (exists ps, params_of c at_ = Ok ps).
Definition inv (h : heap) : Prop := forall a c at_, hget h a = Some (mkObj (KOpt c) at_) -> opt_wf h a c at_.

Lemma inv_nil : inv [].
Proof. intros a c at_ H. unfold hget in H. destruct a; discriminate. Qed.

Definition extends (h h' : heap) : Prop := forall b o, hget h b = Some o -> hget h' b = Some o.
Lemma extends_refl h : extends h h.
Proof. intros b o H; exact H. Qed.
Lemma extends_trans h1 h2 h3 : extends h1 h2 -> extends h2 h3 -> extends h1 h3.
Proof. intros H1 H2 b o H. apply H2, H1, H. Qed.
Lemma extends_app h l : extends h (h ++ l)%list.
Proof. intros b o H. rewrite hget_app1; [exact H|]. eapply hget_lt; eassumption. Qed.

(** everything but the object at [a] is kept; objects other than options are always kept *)
Definition keeps (a : nat) (h h' : heap) : Prop := forall b o, hget h b = Some o -> b <> a -> hget h' b = Some o.


(** re-initialisation *)
Lemma do_init_spec (c : cls) vals a h at_ : inv h -> hget h a = Some (mkObj (KOpt c) at_) ->
  Forall scalar vals ->
  let r := run_init c vals at_ in
  do_init c vals a h =
    match snd r with
    | Some e => (Some e, hset h a (mkObj (KOpt c) (fst r)))
    | None => (None, (hset h a (mkObj (KOpt c) (dset (fst r) "_greeks" (VRef (List.length h)))) ++ [greeks_obj c a])%list)
    end.
Proof.
  intros Hi Ha Hv. cbv zeta. unfold do_init. rewrite Ha. cbn [o_attrs].
  destruct (run_init c vals at_) as [s [e|]]; reflexivity.
Qed.

Lemma run_init_keeps (c : cls) vals at_ : cls_ok c -> Forall scalar vals -> NoDup (map fst at_) ->
  (forall k v, In (k, v) at_ -> k <> "_greeks" -> scalar v) ->
  let s := fst (run_init c vals at_) in
  dget s "_greeks" = dget at_ "_greeks" /\ NoDup (map fst s) /\
  (forall k v, In (k, v) s -> k <> "_greeks" -> scalar v) /\
  (forall k, dget at_ k <> None -> dget s k <> None).
Proof.
  intros Hc Hv Hn Hs. cbv zeta. destruct (run_init c vals at_) as [s e] eqn:E. cbn [fst].
  unfold run_init in E.
  pattern s. revert E. apply run_stmts_inv.
  - intros s0 a v Ha (I1 & I2 & I3 & I4) Hsc.
    assert (Hag : a <> "_greeks") by (intros ->; now apply (k_nogreeks _ Hc)).
    split; [rewrite dget_dset_other; auto|]. split; [now apply NoDup_dset|]. split.
    + intros k w Hin Hk. apply In_dset in Hin. destruct Hin as [[-> ->]|Hin]; [|eauto].
      apply Hsc; [now apply combine_scalars|exact (k_consts _ Hc)].
    + intros k Hk. rewrite dget_dset. destruct (String.eqb a k); [discriminate|auto].
  - repeat split; auto.
Qed.

Lemma inv_update (h h' : heap) a c at_ : inv h -> hget h a = Some (mkObj (KOpt c) at_) -> keeps a h h' ->
  (forall b o, hget h' b = Some o -> b <> a -> hget h b = Some o \/ o_kind o = KGreeks) ->
  (forall c' at', hget h' a = Some (mkObj (KOpt c') at') -> opt_wf h' a c' at') -> inv h'.
Proof.
  intros Hi Ha Hk Hb Hw b c' at' Hg. destruct (Nat.eq_dec b a) as [->|Hne]; [now apply Hw|].
  destruct (Hb _ _ Hg Hne) as [Hold|C]; [|discriminate].
  destruct (Hi _ _ _ Hold) as (W1 & (g & W2 & W3) & W4). split; [exact W1|]. split; [|exact W4].
  exists g. split; [exact W2|]. apply Hk; [exact W3|]. intros ->. rewrite Ha in W3. discriminate.
Qed.

Lemma do_init_ok (c : cls) vals a h at_ : inv h -> hget h a = Some (mkObj (KOpt c) at_) ->
  Forall scalar vals ->
  inv (snd (do_init c vals a h)) /\ keeps a h (snd (do_init c vals a h)) /\
  fst (do_init c vals a h) = snd (run_init c vals at_) /\
  exists at', hget (snd (do_init c vals a h)) a = Some (mkObj (KOpt c) at') /\ obs_eq c at' (fst (run_init c vals at_)).
Proof.
  intros Hi Ha Hv. rewrite (do_init_spec c vals a h at_ Hi Ha Hv). cbv zeta.
  destruct (Hi _ _ _ Ha) as (Hc & (g & W2 & W3) & W4 & W5 & (ps & W6)).
  pose proof (run_init_keeps c vals at_ Hc Hv W4 W5) as K. cbv zeta in K.
  destruct K as (K1 & K2 & K3 & K4).
  assert (Hga : g <> a) by (intros ->; rewrite Ha in W3; discriminate).
  pose proof (hget_lt _ _ _ Ha) as Hlt. pose proof (hget_lt _ _ _ W3) as Hgt.
  destruct (snd (run_init c vals at_)) as [e|] eqn:E; cbn [fst snd].
  - assert (Hkp : keeps a h (hset h a (mkObj (KOpt c) (fst (run_init c vals at_))))).
    { intros b o Hb Hne. rewrite hget_hset_other by auto. exact Hb. }
    split.
    + apply (inv_update h _ a c at_ Hi Ha Hkp).
      * intros b o Hb Hne. rewrite hget_hset_other in Hb by auto. now left.
      * intros c' at' Hb. rewrite (hget_hset_same _ _ _ _ Ha) in Hb. injection Hb as <- <-.
        split; [exact Hc|]. split; [exists g; rewrite K1, hget_hset_other by auto; auto|].
        split; [exact K2|]. split; [exact K3|]. apply params_of_total. intros p k Hp. apply K4.
        eapply params_of_present; eassumption.
    + split; [exact Hkp|]. split; [reflexivity|]. eexists. rewrite (hget_hset_same _ _ _ _ Ha).
      split; [reflexivity|]. now apply obs_eq_reads.
  - set (h1 := hset h a (mkObj (KOpt c) (dset (fst (run_init c vals at_)) "_greeks" (VRef (List.length h))))).
    assert (L1 : List.length h1 = List.length h) by apply hset_length.
    assert (G1 : hget (h1 ++ [greeks_obj c a])%list (List.length h) = Some (greeks_obj c a))
      by (rewrite <- L1; apply hget_last).
    assert (G2 : hget (h1 ++ [greeks_obj c a])%list a =
                 Some (mkObj (KOpt c) (dset (fst (run_init c vals at_)) "_greeks" (VRef (List.length h))))).
    { rewrite hget_app1 by lia. apply (hget_hset_same _ _ _ _ Ha). }
    assert (Hkp : keeps a h (h1 ++ [greeks_obj c a])%list).
    { intros b o Hb Hne. rewrite hget_app1 by (pose proof (hget_lt _ _ _ Hb); lia).
      unfold h1. rewrite hget_hset_other by auto. exact Hb. }
    split.
    + apply (inv_update h _ a c at_ Hi Ha Hkp).
      * intros b o Hb Hne. pose proof (hget_lt _ _ _ Hb) as Hbl. rewrite app_length in Hbl. cbn in Hbl.
        destruct (Nat.eq_dec b (List.length h)) as [->|].
        -- right. rewrite G1 in Hb. injection Hb as <-. reflexivity.
        -- left. rewrite hget_app1 in Hb by lia. unfold h1 in Hb. now rewrite hget_hset_other in Hb by auto.
      * intros c' at' Hb. rewrite G2 in Hb. injection Hb as <- <-.
        split; [exact Hc|]. split; [exists (List.length h); rewrite dget_dset_same; auto|].
        split; [now apply NoDup_dset|]. split.
        -- intros k v Hin Hk. apply In_dset in Hin. destruct Hin as [[-> _]|Hin]; [congruence|eauto].
        -- apply params_of_total. intros p k Hp. rewrite dget_dset.
           destruct (String.eqb "_greeks" k); [discriminate|]. apply K4. eapply params_of_present; eassumption.
    + split; [exact Hkp|]. split; [reflexivity|]. eexists. split; [exact G2|].
      apply obs_eq_sym, obs_eq_greeks, Hc.
Qed.

(** ** Construction *)
Lemma new_vals_spec (c : cls) vals h : 
  new_vals c vals h =
    match snd (run_init c vals []) with
    | Some e => (Err e, h)
    | None => (Ok (List.length h),
               (h ++ [mkObj (KOpt c) (dset (fst (run_init c vals [])) "_greeks" (VRef (S (List.length h))));
                      greeks_obj c (List.length h)])%list)
    end.
Proof.
  unfold new_vals, do_init. rewrite hget_last. cbn [o_attrs].
  destruct (run_init c vals []) as [s [e|]]; cbn [fst snd]; [reflexivity|].
  rewrite hset_app_last, app_length, <- app_assoc. cbn. rewrite Nat.add_1_r. reflexivity.
Qed.

Lemma inv_app2 (h : heap) c at_ : inv h -> cls_ok c ->
  dget at_ "_greeks" = Some (VRef (S (List.length h))) -> NoDup (map fst at_) ->
  (forall k v, In (k, v) at_ -> k <> "_greeks" -> scalar v) -> (exists ps, params_of c at_ = Ok ps) ->
  inv (h ++ [mkObj (KOpt c) at_; greeks_obj c (List.length h)])%list.
Proof.
  intros Hi Hc H1 H2 H3 H4 b c' at' Hb. pose proof (hget_lt _ _ _ Hb) as Hl. rewrite app_length in Hl. cbn in Hl.
  destruct (Nat.lt_trichotomy b (List.length h)) as [Hlt|[->|Hgt]].
  - rewrite hget_app1 in Hb by exact Hlt. destruct (Hi _ _ _ Hb) as (W1 & (g & W2 & W3) & W4).
    split; [exact W1|]. split; [|exact W4]. exists g. split; [exact W2|]. now apply extends_app.
  - replace (List.length h) with (List.length h + 0)%nat in Hb by lia. rewrite hget_app2 in Hb.
    cbn in Hb. injection Hb as <- <-. split; [exact Hc|]. split; [|auto].
    exists (S (List.length h)). split; [exact H1|].
    replace (S (List.length h)) with (List.length h + 1)%nat by lia. rewrite hget_app2. reflexivity.
  - assert (b = List.length h + 1)%nat as -> by lia. rewrite hget_app2 in Hb. discriminate.
Qed.

Lemma new_inv (c : cls) kw h : inv h -> cls_ok c -> scalars kw ->
  inv (snd (new c kw h)) /\ extends h (snd (new c kw h)).
Proof.
  intros Hi Hc Hk. unfold new. destruct (bind_args (c_sig c) kw) as [vals|] eqn:B; cbn; [|auto using extends_refl].
  rewrite new_vals_spec. destruct (snd (run_init c vals [])) eqn:E; cbn [snd]; [auto using extends_refl|].
  split; [|apply extends_app]. pose proof (bind_args_len _ _ _ B) as HL.
  pose proof (run_init_keeps c vals [] Hc (bind_args_scalar _ _ _ Hc Hk B) ltac:(constructor) ltac:(now intros)) as K.
  cbv zeta in K. destruct K as (K1 & K2 & K3 & K4). apply inv_app2; auto.
  - apply dget_dset_same.
  - now apply NoDup_dset.
  - intros k v Hin Hne. apply In_dset in Hin. destruct Hin as [[-> _]|Hin]; [congruence|eauto].
  - rewrite <- (oe_params _ _ _ (obs_eq_greeks c _ _ Hc)). eexists. now apply run_init_params.
Qed.

(** ** Copies *)
Lemma copy_attrs_scalar dc (l : dict) memo (h : heap) : scalars l -> copy_attrs dc l memo h = Ok (l, memo, h).
Proof.
  unfold scalars. induction l as [|[k v] l IH]; cbn; intro H; [reflexivity|]. inversion H; subst. cbn in *.
  destruct v; cbn in *; try tauto; rewrite IH by assumption; reflexivity.
Qed.
Lemma copy_attrs_one dc (l : dict) memo memo' (h h' : heap) k b b' :
  NoDup (map fst l) -> dget l k = Some (VRef b) -> (forall k' v, In (k', v) l -> k' <> k -> scalar v) ->
  dc b memo h = Ok (b', memo', h') ->
  copy_attrs dc l memo h = Ok (dset l k (VRef b'), memo', h').
Proof.
  induction l as [|[k0 v0] l IH]; cbn; intros Hn Hk Hs Hd; [discriminate|]. inversion Hn; subst.
  destruct (String.eqb_spec k0 k) as [->|Hne].
  - injection Hk as ->. cbn. rewrite Hd. cbn. rewrite copy_attrs_scalar; [reflexivity|].
    apply Forall_forall. intros [k' v'] Hi. apply (Hs k'); [now right|]. intros ->. apply H1.
    change k with (fst (k, v')). now apply in_map.
  - assert (Hv : scalar v0) by (eapply Hs; [now left|exact Hne]).
    assert (E : copy_value dc v0 memo h = Ok (v0, memo, h)) by (destruct v0; cbn in *; tauto).
    rewrite E. cbn. rewrite (IH H2 Hk) by (try assumption; intros; eapply Hs; eauto). reflexivity.
Qed.

Lemma hset_app_last' (h : heap) x o n : List.length h = n -> hset (h ++ [x])%list n o = (h ++ [o])%list.
Proof. intros <-. apply hset_app_last. Qed.
Lemma copy_spec a (h : heap) c at_ : inv h -> hget h a = Some (mkObj (KOpt c) at_) ->
  copy a h = (Ok (List.length h),
              (h ++ [mkObj (KOpt c) (dset at_ "_greeks" (VRef (S (List.length h)))); greeks_obj c (List.length h)])%list).
Proof.
  intros Hi Ha. destruct (Hi _ _ _ Ha) as (Hc & (g & W2 & W3) & W4 & W5 & W6).
  assert (Hga : g <> a) by (intros ->; rewrite Ha in W3; discriminate).
  pose proof (hget_lt _ _ _ Ha) as Hal. pose proof (hget_lt _ _ _ W3) as Hgl.
  assert (HL : (2 <= List.length h)%nat) by lia.
  unfold copy, get_opt. rewrite Ha. set (n := List.length h) in *.
  destruct n as [|[|f]] eqn:En; [lia|lia|]. rewrite <- En.
  replace (S (S (S f))) with (S (S (S f))) by reflexivity.
  (* the greeks object *)
  assert (HD : deepcopy (S (S f)) g [(a, n)] (h ++ [mkObj (KOpt c) []])%list =
          Ok (S n, [(g, S n); (a, n)], ((h ++ [mkObj (KOpt c) []]) ++ [greeks_obj c n])%list)).
  { assert (HM : forall h0 : heap, deepcopy (S f) a [(g, S n); (a, n)] h0 = Ok (n, [(g, S n); (a, n)], h0)).
    { intro h0. cbn. replace (Nat.eqb g a) with false by (symmetry; apply Nat.eqb_neq; auto).
      rewrite Nat.eqb_refl. reflexivity. }
    remember (S f) as f1 eqn:Ef1.
    cbn [deepcopy find fst]. replace (Nat.eqb a g) with false by (symmetry; apply Nat.eqb_neq; auto).
    rewrite hget_app1 by lia. rewrite W3. unfold greeks_obj. cbn [o_attrs o_kind].
    rewrite app_length. cbn [List.length]. rewrite Nat.add_1_r. fold n.
    destruct (c_own_der c) eqn:Eo; cbn; rewrite ?HM; cbn; rewrite ?HM; cbn;
      rewrite hset_app_last' by (rewrite app_length; cbn; fold n; lia); reflexivity. }
  remember (S (S f)) as ff eqn:Eff.
  cbn [deepcopy find]. rewrite Ha. cbn [o_attrs o_kind].
  fold n. rewrite <- En in HD. rewrite (copy_attrs_one _ at_ _ _ _ _ "_greeks" g _ W4 W2 W5 HD). cbn.
  rewrite <- app_assoc. cbn.
  replace (hset (h ++ [mkObj (KOpt c) []; greeks_obj c n])%list n
     (mkObj (KOpt c) (dset at_ "_greeks" (VRef (S n))))) with
    (h ++ [mkObj (KOpt c) (dset at_ "_greeks" (VRef (S n))); greeks_obj c n])%list; [reflexivity|].
  change [mkObj (KOpt c) []; greeks_obj c n] with ([mkObj (KOpt c) []] ++ [greeks_obj c n])%list.
  rewrite app_assoc, hset_app1 by (rewrite app_length; cbn; fold n; lia).
  unfold n. rewrite hset_app_last, <- app_assoc. reflexivity.
Qed.

Lemma copy_inv a (h : heap) : inv h -> inv (snd (copy a h)) /\ extends h (snd (copy a h)).
Proof.
  intro Hi. destruct (get_opt h a) as [[c at_]|e] eqn:G.
  - assert (Ha : hget h a = Some (mkObj (KOpt c) at_)).
    { unfold get_opt in G. destruct (hget h a) as [[[c'|] l]|]; congruence. }
    rewrite (copy_spec _ _ _ _ Hi Ha). cbn [snd]. split; [|apply extends_app].
    destruct (Hi _ _ _ Ha) as (Hc & (g & W2 & W3) & W4 & W5 & W6). apply inv_app2; auto.
    + apply dget_dset_same.
    + now apply NoDup_dset.
    + intros k v Hin Hne. apply In_dset in Hin. destruct Hin as [[-> _]|Hin]; [congruence|eauto].
    + rewrite <- (oe_params _ _ _ (obs_eq_greeks c _ _ Hc)). exact W6.
  - unfold copy. rewrite G. cbn. auto using extends_refl.
Qed.

(** ** set_param *)
Lemma get_opt_hget (h : heap) a c at_ : get_opt h a = Ok (c, at_) <-> hget h a = Some (mkObj (KOpt c) at_).
Proof.
  unfold get_opt. destruct (hget h a) as [[[c'|] l]|]; split; try congruence; try discriminate.
Qed.

Lemma params_scalars (c : cls) at_ ps : cls_ok c ->
  (forall k v, In (k, v) at_ -> k <> "_greeks" -> scalar v) -> params_of c at_ = Ok ps -> scalars ps.
Proof.
  intros Hc Hs HP. unfold params_of in HP. unfold scalars. revert HP. apply mapM_Forall.
  intros [p a] y Hp. cbn. destruct (dget at_ a) eqn:E; cbn; [|discriminate]. intros [= <-]. cbn.
  apply dget_In in E. apply (Hs a); [exact E|]. intros ->. apply (k_noread _ Hc).
  unfold c_reads. rewrite !in_app_iff. left. change "_greeks" with (snd (p, "_greeks")). now apply in_map.
Qed.

Lemma set_param_ok a x v (h : heap) : inv h -> scalar v ->
  inv (snd (set_param a x v h)) /\ keeps a h (snd (set_param a x v h)) /\
  (forall o, hget h a = Some o -> o_kind o = KGreeks -> hget (snd (set_param a x v h)) a = Some o).
Proof.
  intros Hi Hv. unfold set_param. destruct (get_opt h a) as [[c at_]|e] eqn:G.
  - apply get_opt_hget in G. destruct (Hi _ _ _ G) as (Hc & W2 & W4 & W5 & (ps & W6)). rewrite W6.
    destruct (bind_args (c_sig c) _) as [vals|e] eqn:B.
    + assert (Hvs : Forall scalar vals).
      { eapply bind_args_scalar; [exact Hc| |exact B]. apply scalars_ddels, scalars_dset; [|exact Hv].
        eapply params_scalars; eassumption. }
      destruct (do_init_ok c vals a h at_ Hi G Hvs) as (D1 & D2 & D3 & D4).
      split; [exact D1|]. split; [exact D2|]. intros o Ho Hk. rewrite G in Ho. injection Ho as <-. discriminate.
    + cbn. split; [exact Hi|]. split; [intros b o Hb _; exact Hb|auto].
  - cbn. split; [exact Hi|]. split; [intros b o Hb _; exact Hb|auto].
Qed.

(** ** Numerical routines *)
Lemma partial_ok own a wrt call x (h : heap) : inv h ->
  inv (snd (partial own a wrt call x h)) /\ extends h (snd (partial own a wrt call x h)).
Proof.
  intro Hi. unfold partial. destruct (copy_inv a h Hi) as [C1 C2].
  destruct (copy a h) as [[t|e] h1] eqn:Ec; cbn [snd] in *; [|auto].
  destruct (set_param_ok t wrt (VNpy x) h1 C1 Coq.Init.Logic.I) as (S1 & S2 & _).
  assert (Ht : hget h t = None).
  { destruct (get_opt h a) as [[c at_]|e'] eqn:G.
    - apply get_opt_hget in G. rewrite (copy_spec _ _ _ _ Hi G) in Ec. injection Ec as <- <-.
      apply nth_error_None. lia.
    - unfold copy in Ec. rewrite G in Ec. discriminate. }
  assert (HE : extends h (snd (set_param t wrt (VNpy x) h1))).
  { intros b o Hb. apply S2; [now apply C2|]. intros ->. congruence. }
  destruct (set_param t wrt (VNpy x) h1) as [[e|] h2]; cbn [snd] in *; auto.
Qed.

Lemma run_strat_ok (f : T -> heap -> res T * heap) :
  (forall x h, inv h -> inv (snd (f x h)) /\ extends h (snd (f x h))) ->
  forall s h, inv h -> inv (snd (run_strat f s h)) /\ extends h (snd (run_strat f s h)).
Proof.
  intros Hf s. induction s as [r|x k IH]; intros h Hi; cbn; [auto using extends_refl|].
  destruct (Hf x h Hi) as [F1 F2]. destruct (f x h) as [[y|e] h1]; cbn [snd] in *; [|auto].
  destruct (IH y h1 F1) as [I1 I2]. split; [exact I1|]. eapply extends_trans; eassumption.
Qed.

Section Num.
Variable diff : nat -> option T -> T -> strat T.
Variable solver : T -> T -> strat T.

Lemma fd_eval_ok own a call sp (h : heap) : inv h ->
  inv (snd (fd_eval diff own a call sp h)) /\ extends h (snd (fd_eval diff own a call sp h)).
Proof.
  intro Hi. unfold fd_eval. destruct (get_opt h a) as [[c at_]|e]; [|cbn; auto using extends_refl].
  destruct (st <- _ ;; _) as [[st x]|e]; [|cbn; auto using extends_refl].
  pose proof (run_strat_ok _ (fun x h Hi => partial_ok own a (gs_wrt sp) call x h Hi) (diff (gs_n sp) st x) h Hi) as [R1 R2].
  destruct (run_strat _ _ h) as [[y|e] h1]; cbn [snd] in *; auto.
Qed.
Lemma fd_all_ok own a call l : forall (h : heap), inv h ->
  inv (snd (fd_all diff own a call l h)) /\ extends h (snd (fd_all diff own a call l h)).
Proof.
  induction l as [|sp l IH]; intros h Hi; cbn; [auto using extends_refl|].
  destruct (fd_eval_ok own a call sp h Hi) as [F1 F2].
  destruct (fd_eval diff own a call sp h) as [[y|e] h1]; cbn [snd] in *; [|auto].
  destruct (IH h1 F1) as [I1 I2]. destruct (fd_all diff own a call l h1) as [[ys|e] h2]; cbn [snd] in *;
    (split; [exact I1|eapply extends_trans; eassumption]).
Qed.
Lemma greek_ok a name call (h : heap) : inv h ->
  inv (snd (greek diff a name call h)) /\ extends h (snd (greek diff a name call h)).
Proof.
  intro Hi. unfold greek. destruct (ca <- _ ;; _) as [[gm [o own]]|e]; [|cbn; auto using extends_refl].
  now apply fd_all_ok.
Qed.
Lemma volatility_ok a p call (h : heap) : inv h ->
  inv (snd (volatility solver a p call h)) /\ extends h (snd (volatility solver a p call h)).
Proof.
  intro Hi. unfold volatility. apply run_strat_ok; [|exact Hi]. intros x h0 H0.
  destruct (partial_ok false a "sigma" call x h0 H0) as [P1 P2].
  destruct (partial false a "sigma" call x h0) as [[y|e] h1]; cbn [snd] in *; auto.
Qed.

(** ** Programs *)
Definition op_ok (o : op T) : Prop :=
  match o with New c kw => cls_ok c /\ scalars kw | SetParam _ _ v => scalar v | _ => True end.
Definition not_set (a : nat) (o : op T) : Prop :=
  match o with SetParam b _ _ => b <> a | _ => True end.

Lemma exec_ok o (h : heap) : inv h -> op_ok o -> inv (snd (exec diff solver o h)).
Proof.
  intros Hi Ho. destruct o; cbn in *.
  - now apply new_inv.
  - now apply set_param_ok.
  - now apply copy_inv.
  - now apply greek_ok.
  - now apply volatility_ok.
Qed.
Lemma exec_frame o (h : heap) a ob : inv h -> op_ok o -> not_set a o ->
  hget h a = Some ob -> hget (snd (exec diff solver o h)) a = Some ob.
Proof.
  intros Hi Ho Hn. destruct o; cbn in *; intro Ha.
  - now apply new_inv.
  - apply (set_param_ok a0 x v h Hi Ho); auto.
  - now apply copy_inv.
  - now apply greek_ok.
  - now apply volatility_ok.
Qed.
Lemma exec_all_inv l : forall (h : heap), inv h -> Forall op_ok l -> inv (snd (exec_all diff solver l h)).
Proof.
  induction l as [|o l IH]; intros h Hi Hl; cbn; [exact Hi|]. inversion Hl; subst.
  pose proof (exec_ok o h Hi H1) as E. destruct (exec diff solver o h) as [e h1]. cbn in E.
  specialize (IH h1 E H2). destruct (exec_all diff solver l h1). exact IH.
Qed.
Lemma exec_all_frame l a ob : forall (h : heap), inv h -> Forall op_ok l -> Forall (not_set a) l ->
  hget h a = Some ob -> hget (snd (exec_all diff solver l h)) a = Some ob.
Proof.
  induction l as [|o l IH]; intros h Hi Hl Hn Ha; cbn; [exact Ha|]. inversion Hl; inversion Hn; subst.
  pose proof (exec_ok o h Hi H1) as E. pose proof (exec_frame o h a ob Hi H1 H5 Ha) as F.
  destruct (exec diff solver o h) as [e h1]. cbn in E, F.
  specialize (IH h1 E H2 H6 F). destruct (exec_all diff solver l h1). exact IH.
Qed.
End Num.
End Inv.
