(** Proofs about the object protocol: dictionaries, constructors, heap frame, deep copies. *)
From Coq Require Import String List Arith ZArith QArith Bool Lia.
From Verif Require Import Num Py Arr MSpread MObjects.
Import ListNotations.
Open Scope py_scope.
Open Scope string_scope.

(* ------------------------------------------------------------------ *)
(** * Dictionaries *)
Section Dict.
Context {V : Type}.
Lemma dget_dset (d : dict V) k v k' : dget (dset d k v) k' = if String.eqb k k' then Some v else dget d k'.
Proof.
  induction d as [|[k0 v0] d IH]; cbn.
  - reflexivity.
  - destruct (String.eqb_spec k0 k) as [->|Hk]; cbn.
    + destruct (String.eqb k k'); reflexivity.
    + rewrite IH. destruct (String.eqb_spec k0 k') as [->|H]; [|reflexivity].
      destruct (String.eqb_spec k k'); congruence.
Qed.
Lemma dget_dset_same (d : dict V) k v : dget (dset d k v) k = Some v.
Proof. rewrite dget_dset, String.eqb_refl; reflexivity. Qed.
Lemma dget_dset_other (d : dict V) k v k' : k <> k' -> dget (dset d k v) k' = dget d k'.
Proof. intro H. rewrite dget_dset. destruct (String.eqb_spec k k'); congruence. Qed.

Lemma dget_In (d : dict V) k v : dget d k = Some v -> In (k, v) d.
Proof.
  induction d as [|[k0 v0] d IH]; cbn; [discriminate|].
  destruct (String.eqb_spec k0 k) as [->|]; [intros [= ->]; now left | intro; right; auto].
Qed.
Lemma dget_None (d : dict V) k : dget d k = None <-> ~ In k (map fst d).
Proof.
  induction d as [|[k0 v0] d IH]; cbn; [split; auto|].
  destruct (String.eqb_spec k0 k) as [->|H].
  - split; [discriminate | intro H; exfalso; apply H; now left].
  - rewrite IH. split; intros H1; [intros [?|?]; congruence || tauto | tauto].
Qed.
Lemma dget_keys (d : dict V) k : In k (map fst d) -> exists v, dget d k = Some v.
Proof.
  intro H. destruct (dget d k) eqn:E; [eauto|]. apply dget_None in E; tauto.
Qed.
Lemma In_dget (d : dict V) k v : NoDup (map fst d) -> In (k, v) d -> dget d k = Some v.
Proof.
  induction d as [|[k0 v0] d IH]; cbn; [tauto|]. intros Hn H. inversion Hn; subst.
  destruct H as [[= -> ->]|H]; [rewrite String.eqb_refl; reflexivity|].
  destruct (String.eqb_spec k0 k) as [->|]; [|auto].
  exfalso. apply H2. change k with (fst (k, v)). now apply in_map.
Qed.

Lemma keys_dset (d : dict V) k v : map fst (dset d k v) = if dmem d k then map fst d else (map fst d ++ [k])%list.
Proof.
  unfold dmem. induction d as [|[k0 v0] d IH]; cbn; [reflexivity|].
  destruct (String.eqb_spec k0 k) as [->|Hk]; cbn; [reflexivity|].
  rewrite IH. destruct (dget d k); reflexivity.
Qed.
Lemma In_keys_dset (d : dict V) k v k' : In k' (map fst (dset d k v)) <-> k = k' \/ In k' (map fst d).
Proof.
  rewrite keys_dset. unfold dmem. destruct (dget d k) eqn:E.
  - split; [tauto|]. intros [<-|]; [|tauto]. apply dget_In in E. change k with (fst (k, v0)). now apply in_map.
  - rewrite in_app_iff. cbn. intuition.
Qed.
Lemma NoDup_dset (d : dict V) k v : NoDup (map fst d) -> NoDup (map fst (dset d k v)).
Proof.
  intro H. rewrite keys_dset. unfold dmem. destruct (dget d k) eqn:E; [assumption|].
  apply dget_None in E.
  induction (map fst d) as [|a l IH]; cbn; [constructor; [easy|constructor]|].
  inversion H; subst. cbn in E. constructor.
  - rewrite in_app_iff. cbn. intuition.
  - apply IH; [assumption|tauto].
Qed.
Lemma In_dset (d : dict V) k v k' v' : In (k', v') (dset d k v) -> (k' = k /\ v' = v) \/ (In (k', v') d).
Proof.
  induction d as [|[k0 v0] d IH]; cbn.
  - intros [[= <- <-]|[]]. now left.
  - destruct (String.eqb_spec k0 k) as [->|]; cbn.
    + intros [[= <- <-]|]; [now left|tauto].
    + intros [H|H]; [tauto|]. destruct (IH H); tauto.
Qed.

Lemma dget_ddel (d : dict V) k k' : k <> k' -> dget (ddel d k) k' = dget d k'.
Proof.
  intro H. induction d as [|[k0 v0] d IH]; cbn; [reflexivity|].
  destruct (String.eqb_spec k0 k) as [->|Hk]; cbn.
  - destruct (String.eqb_spec k k'); congruence.
  - rewrite IH; reflexivity.
Qed.
Lemma keys_ddel (d : dict V) k x : NoDup (map fst d) -> In x (map fst (ddel d k)) <-> x <> k /\ In x (map fst d).
Proof.
  induction d as [|[k0 v0] d IH]; cbn; [tauto|]. intro H. inversion H; subst.
  destruct (String.eqb_spec k0 k) as [->|Hk]; cbn.
  - split; [intro; split; [congruence|tauto] | intros [? [?|?]]; congruence || tauto].
  - rewrite IH by assumption. intuition congruence.
Qed.
Lemma NoDup_ddel (d : dict V) k : NoDup (map fst d) -> NoDup (map fst (ddel d k)).
Proof.
  induction d as [|[k0 v0] d IH]; cbn; [auto|]. intro H. inversion H; subst.
  destruct (String.eqb_spec k0 k) as [->|Hk]; cbn; [assumption|].
  constructor; [|auto]. rewrite keys_ddel by assumption. tauto.
Qed.
Lemma dget_ddels (ks : list string) (d : dict V) k' : ~ In k' ks -> dget (fold_left ddel ks d) k' = dget d k'.
Proof.
  revert d. induction ks as [|k ks IH]; cbn; [reflexivity|]. intros d H.
  rewrite IH by tauto. apply dget_ddel. intuition.
Qed.
Lemma keys_ddels (ks : list string) (d : dict V) x : NoDup (map fst d) ->
  In x (map fst (fold_left ddel ks d)) <-> ~ In x ks /\ In x (map fst d).
Proof.
  revert d. induction ks as [|k ks IH]; cbn; [tauto|]. intros d H.
  rewrite IH by now apply NoDup_ddel. rewrite keys_ddel by assumption. intuition congruence.
Qed.

End Dict.

(** mapM *)
Lemma mapM_ext {A B} (f g : A -> res B) l : (forall x, In x l -> f x = g x) -> mapM f l = mapM g l.
Proof.
  induction l as [|x l IH]; cbn; intro H; [reflexivity|].
  rewrite (H x), IH by (auto || now left). reflexivity.
Qed.
Lemma mapM_Ok {A B} (f : A -> res B) (g : A -> B) l : (forall x, In x l -> f x = Ok (g x)) -> mapM f l = Ok (map g l).
Proof.
  induction l as [|x l IH]; cbn; intro H; [reflexivity|].
  rewrite (H x), IH by (auto || now left). reflexivity.
Qed.
Lemma mapM_length {A B} (f : A -> res B) l r : mapM f l = Ok r -> List.length r = List.length l.
Proof.
  revert r. induction l as [|x l IH]; cbn; intros r; [now intros [= <-]|].
  destruct (f x); cbn; [|discriminate]. destruct (mapM f l) eqn:E; cbn; [|discriminate].
  intros [= <-]. cbn. rewrite (IH _ eq_refl). reflexivity.
Qed.

(** heap *)
Section Heap.
Context {T : Type} {N : Num T}.
Local Notation heap := (heap T).
Local Notation obj := (obj T).
Lemma hset_length (h : heap) a o : List.length (hset h a o) = List.length h.
Proof. revert a. induction h as [|x h IH]; intros [|a]; cbn; auto. Qed.
Lemma hget_hset_same (h : heap) a o o0 : hget h a = Some o0 -> hget (hset h a o) a = Some o.
Proof.
  unfold hget. revert a. induction h as [|x h IH]; intros [|a]; cbn; try discriminate; auto.
Qed.
Lemma hget_hset_other (h : heap) a o b : a <> b -> hget (hset h a o) b = hget h b.
Proof.
  unfold hget. revert a b. induction h as [|x h IH]; intros [|a] [|b] H; cbn; auto; congruence.
Qed.
Lemma hget_lt (h : heap) a o : hget h a = Some o -> (a < List.length h)%nat.
Proof. unfold hget. intro H. apply nth_error_Some. congruence. Qed.
Lemma hget_app1 (h : heap) l a : (a < List.length h)%nat -> hget (h ++ l)%list a = hget h a.
Proof. intro H. unfold hget. now apply nth_error_app1. Qed.
Lemma hget_app2 (h : heap) l k : hget (h ++ l)%list (List.length h + k) = nth_error l k.
Proof. unfold hget. rewrite nth_error_app2 by lia. f_equal. lia. Qed.
Lemma hget_last (h : heap) x : hget (h ++ [x])%list (List.length h) = Some x.
Proof. replace (List.length h) with (List.length h + 0)%nat by lia. rewrite hget_app2. reflexivity. Qed.
Lemma hset_app_last (h : heap) x o : hset (h ++ [x])%list (List.length h) o = (h ++ [o])%list.
Proof. induction h as [|y h IH]; cbn; [reflexivity|]. rewrite IH; reflexivity. Qed.
Lemma hset_app1 (h : heap) l a o : (a < List.length h)%nat -> hset (h ++ l)%list a o = (hset h a o ++ l)%list.
Proof.
  revert a. induction h as [|y h IH]; intros [|a] H; cbn in *; try lia; [reflexivity|].
  rewrite IH by lia. reflexivity.
Qed.
End Heap.

(* ------------------------------------------------------------------ *)
(** * Constructors *)
Section Init.
Context {T : Type} {N : Num T}.
Local Notation pyv := (pyv T).
Local Notation dict := (dict pyv).
Local Notation cls := (cls T).
Local Notation stmt := (stmt T).

Definition scalar (v : pyv) : Prop := match v with VRef _ | VMeth _ => False | _ => True end.
Definition scalarb (v : pyv) : bool := match v with VRef _ | VMeth _ => false | _ => true end.
Lemma scalarb_iff v : scalarb v = true <-> scalar v.
Proof. destruct v; cbn; intuition discriminate. Qed.

(** where an attribute comes from *)
Inductive source := SArg (p : string) | SFix (v : pyv) | SCalc.
Definition stmt_src (d : MObjects.dict source) (st : stmt) : MObjects.dict source :=
  match st with
  | Store a p => dset d a (SArg p)
  | Const a v => dset d a (SFix v)
  | Comp _ a _ _ => dset d a SCalc
  end.
Definition sources (l : list stmt) : MObjects.dict source := fold_left stmt_src l [].

Definition src_rel (args s0 s : dict) (d : MObjects.dict source) : Prop := forall k,
  match dget d k with
  | Some (SArg p) => dget s k = dget args p /\ dget s k <> None
  | Some (SFix v) => dget s k = Some v
  | Some SCalc => True
  | None => dget s k = dget s0 k
  end.

Lemma exec_stmt_src args s0 s s' d st : src_rel args s0 s d -> exec_stmt args s st = Ok s' ->
  src_rel args s0 s' (stmt_src d st).
Proof.
  intros HR HE k. specialize (HR k). destruct st as [a p|a v|g a l f]; cbn in *.
  - destruct (dget args p) as [v|] eqn:E; cbn in HE; [|discriminate]. injection HE as <-.
    rewrite !dget_dset. destruct (String.eqb_spec a k); [|exact HR]. rewrite E. split; [reflexivity|discriminate].
  - injection HE as <-. rewrite !dget_dset. destruct (String.eqb_spec a k); [reflexivity|exact HR].
  - rewrite dget_dset. destruct (String.eqb_spec a k) as [|Hk]; [exact I|].
    destruct (match g with Some p => _ | None => _ end).
    + injection HE as <-; exact HR.
    + destruct (mapM _ l); cbn in HE; [|discriminate]. destruct (f a0); cbn in HE; [|discriminate].
      injection HE as <-. rewrite dget_dset_other by assumption. exact HR.
Qed.
Lemma run_stmts_src args s0 l : forall s s' d, src_rel args s0 s d -> run_stmts args l s = (s', None) ->
  src_rel args s0 s' (fold_left stmt_src l d).
Proof.
  induction l as [|st l IH]; cbn; intros s s' d HR HE.
  - now injection HE as <-.
  - destruct (exec_stmt args s st) eqn:E; [|discriminate]. eapply IH; [|eassumption].
    eapply exec_stmt_src; eassumption.
Qed.
Lemma sources_sound args l s s' : run_stmts args l s = (s', None) -> src_rel args s s' (sources l).
Proof. intro H. eapply run_stmts_src; [|exact H]. intro k. reflexivity. Qed.

(** running a constructor, even one that fails half way, keeps attributes, uniqueness and scalars *)
Definition writes (l : list stmt) : list string :=
  map (fun st => match st with Store a _ | Const a _ | Comp _ a _ _ => a end) l.
Definition consts_scalar (l : list stmt) : bool :=
  forallb (fun st => match st with Const _ v => scalarb v | _ => true end) l.

Lemma exec_stmt_dset args s st s' : exec_stmt args s st = Ok s' ->
  s' = s \/ exists a v, In a (writes [st]) /\ s' = dset s a v /\
            (Forall (fun kv => scalar (snd kv)) args -> consts_scalar [st] = true -> scalar v).
Proof.
  destruct st as [a p|a v|g a l f]; cbn.
  - destruct (dget args p) as [v|] eqn:E; cbn; [|discriminate]. intros [= <-]. right.
    exists a, v. split; [now left|]. split; [reflexivity|]. intros H _.
    apply dget_In in E. rewrite Forall_forall in H. exact (H _ E).
  - intros [= <-]. right. exists a, v. split; [now left|]. split; [reflexivity|].
    intros _ H. apply scalarb_iff. rewrite andb_true_r in H. exact H.
  - destruct (match g with Some p => _ | None => _ end); [intros [= <-]; now left|].
    destruct (mapM _ l); cbn; [|discriminate]. destruct (f a0); cbn; [|discriminate].
    intros [= <-]. right. exists a, (VNpy a1). split; [now left|]. split; [reflexivity|]. intros; exact I.
Qed.

Lemma run_stmts_inv (P : dict -> Prop) args l : 
  (forall s a v, In a (writes l) -> P s ->
     (Forall (fun kv => scalar (snd kv)) args -> consts_scalar l = true -> scalar v) -> P (dset s a v)) ->
  forall s s' e, P s -> run_stmts args l s = (s', e) -> P s'.
Proof.
  induction l as [|st l IH]; cbn; intros HP s s' e Hs HE.
  - injection HE as <- <-. exact Hs.
  - destruct (exec_stmt args s st) eqn:E; [|injection HE as <- <-; exact Hs].
    apply IH with (s := a) (e := e); [| |exact HE].
    + intros s1 a1 v Ha Hs1 Hv. apply HP; [now right|exact Hs1|].
      intros HF HC. apply andb_prop in HC. apply Hv; tauto.
    + destruct (exec_stmt_dset _ _ _ _ E) as [->|(a1 & v & Ha & -> & Hv)]; [exact Hs|].
      apply HP; [destruct Ha as [<-|[]]; now left|exact Hs|].
      intros HF HC. apply andb_prop in HC. apply Hv; [exact HF|]. cbn. rewrite (proj1 HC). reflexivity.
Qed.

(** determinism: what the constructor computes does not depend on the previous state *)
Definition subset (l W : list string) : bool := forallb (fun k => existsb (String.eqb k) W) l.
Lemma subset_In l W : subset l W = true -> forall k, In k l -> In k W.
Proof.
  unfold subset. rewrite forallb_forall. intros H k Hk. specialize (H k Hk).
  apply existsb_exists in H. destruct H as (x & Hx & E). apply String.eqb_eq in E. now subst.
Qed.
Fixpoint check (g : string) (l : list stmt) (W CW : list string) : option (list string * list string) :=
  match l with
  | [] => Some (W, CW)
  | Store a _ :: l' | Const a _ :: l' => check g l' (a :: W) CW
  | Comp None a rd _ :: l' => if subset rd W then check g l' (a :: W) CW else None
  | Comp (Some g') a rd _ :: l' =>
      if (String.eqb g' g && subset rd (W ++ CW)%list)%bool then check g l' W (a :: CW) else None
  end.
Definition guard_on (args : dict) (g : string) : bool :=
  match dget args g with Some v => negb (is_none v) | None => true end.
Definition agree (args : dict) (g : string) (W CW : list string) (s1 s2 : dict) : Prop :=
  (forall k, In k W -> dget s1 k = dget s2 k) /\
  (guard_on args g = true -> forall k, In k CW -> dget s1 k = dget s2 k).

Lemma agree_dset args g W CW s1 s2 a v : agree args g W CW s1 s2 -> agree args g (a :: W) CW (dset s1 a v) (dset s2 a v).
Proof.
  intros [H1 H2]. split; [intros k [<-|Hk] | intros Hg k Hk]; rewrite ?dget_dset, ?String.eqb_refl; auto;
  destruct (String.eqb a k); auto.
Qed.
Lemma agree_dset_c args g W CW s1 s2 a v : agree args g W CW s1 s2 -> agree args g W (a :: CW) (dset s1 a v) (dset s2 a v).
Proof.
  intros [H1 H2]. split; [intros k Hk | intros Hg k [<-|Hk]]; rewrite ?dget_dset, ?String.eqb_refl; auto;
  destruct (String.eqb a k); auto.
Qed.

Lemma run_stmts_agree args g l : forall W CW W' CW' s1 s2,
  check g l W CW = Some (W', CW') -> agree args g W CW s1 s2 ->
  snd (run_stmts args l s1) = snd (run_stmts args l s2) /\
  (snd (run_stmts args l s1) = None ->
   agree args g W' CW' (fst (run_stmts args l s1)) (fst (run_stmts args l s2))).
Proof.
  induction l as [|st l IH]; cbn; intros W CW W' CW' s1 s2 HC HA.
  - injection HC as <- <-. auto.
  - destruct st as [a p|a v|[g'|] a rd f]; cbn in *.
    + destruct (dget args p) as [v|]; cbn; [|split; [reflexivity|discriminate]].
      eapply IH; [eassumption|]. now apply agree_dset.
    + eapply IH; [eassumption|]. now apply agree_dset.
    + destruct (String.eqb_spec g' g) as [->|]; [|discriminate]. cbn in HC.
      destruct (subset rd (W ++ CW)) eqn:Es; [|discriminate].
      assert (HG : match dget args g with Some v => is_none v | None => false end = negb (guard_on args g)).
      { unfold guard_on. destruct (dget args g); [now rewrite negb_involutive|reflexivity]. }
      rewrite HG. destruct (guard_on args g) eqn:Eg; cbn.
      * assert (HM : mapM (fun k => of_opt AttributeError (dget s1 k)) rd = mapM (fun k => of_opt AttributeError (dget s2 k)) rd).
        { apply mapM_ext. intros k Hk. f_equal. destruct HA as [H1 H2].
          apply (subset_In _ _ Es) in Hk. apply in_app_or in Hk. destruct Hk; auto. }
        rewrite HM. clear HM. destruct (mapM (fun k => of_opt AttributeError (dget s2 k)) rd); cbn; [|split; [reflexivity|discriminate]].
        destruct (f a0); cbn; [|split; [reflexivity|discriminate]].
        eapply IH; [eassumption|]. now apply agree_dset_c.
      * eapply IH; [eassumption|]. destruct HA as [H1 H2]. split; [exact H1|]. congruence.
    + destruct (subset rd W) eqn:Es; [|discriminate].
      assert (HM : mapM (fun k => of_opt AttributeError (dget s1 k)) rd = mapM (fun k => of_opt AttributeError (dget s2 k)) rd).
      { apply mapM_ext. intros k Hk. f_equal. destruct HA as [H1 H2]. apply H1. eapply subset_In; eassumption. }
      rewrite HM. clear HM. destruct (mapM (fun k => of_opt AttributeError (dget s2 k)) rd); cbn; [|split; [reflexivity|discriminate]].
      destruct (f a0); cbn; [|split; [reflexivity|discriminate]].
      eapply IH; [eassumption|]. now apply agree_dset.
Qed.

(** attributes read by the methods of a class *)
Definition c_reads (c : cls) : list string :=
  (map snd (c_params c) ++ m_reads (c_call c)
   ++ match c_put c with Some m => m_reads m | None => [] end
   ++ flat_map (fun ng => (match gm_guard (snd ng) with Some m => m_reads m | None => [] end)
                ++ flat_map (fun sp => gs_attr sp :: match gs_step sp with SigmaTenth => ["_sigma"] | _ => [] end)
                            (gm_specs (snd ng))) (c_greeks c)
   ++ match c_summary c with SumTyped a => [a] | SumRGW m => m_reads m | _ => [] end)%list.

(** two states no method can tell apart *)
Record obs_eq (c : cls) (s1 s2 : dict) : Prop := {
  oe_params : params_of c s1 = params_of c s2;
  oe_price : forall call, price_of c s1 call = price_of c s2 call;
  oe_guard : forall n gm m, In (n, gm) (c_greeks c) -> gm_guard gm = Some m -> mcall m s1 = mcall m s2;
  oe_point : forall n gm sp, In (n, gm) (c_greeks c) -> In sp (gm_specs gm) -> dget s1 (gs_attr sp) = dget s2 (gs_attr sp);
  oe_step : forall n gm sp, In (n, gm) (c_greeks c) -> In sp (gm_specs gm) -> step_of (gs_step sp) s1 = step_of (gs_step sp) s2;
  oe_typed : forall a, c_summary c = SumTyped a -> dget s1 a = dget s2 a;
  oe_rgw : forall m, c_summary c = SumRGW m -> mcall m s1 = mcall m s2
}.

Lemma obs_eq_sym c s1 s2 : obs_eq c s1 s2 -> obs_eq c s2 s1.
Proof. intros []. constructor; intros; symmetry; eauto. Qed.
Lemma obs_eq_trans c s1 s2 s3 : obs_eq c s1 s2 -> obs_eq c s2 s3 -> obs_eq c s1 s3.
Proof.
  intros H1 H2. constructor; intros.
  - rewrite (oe_params _ _ _ H1). apply (oe_params _ _ _ H2).
  - rewrite (oe_price _ _ _ H1). apply (oe_price _ _ _ H2).
  - erewrite (oe_guard _ _ _ H1) by eassumption. eapply (oe_guard _ _ _ H2); eassumption.
  - erewrite (oe_point _ _ _ H1) by eassumption. eapply (oe_point _ _ _ H2); eassumption.
  - erewrite (oe_step _ _ _ H1) by eassumption. eapply (oe_step _ _ _ H2); eassumption.
  - rewrite (oe_typed _ _ _ H1) by assumption. now apply (oe_typed _ _ _ H2).
  - rewrite (oe_rgw _ _ _ H1) by assumption. now apply (oe_rgw _ _ _ H2).
Qed.

Lemma mcall_ext {A} (m : meth T A) s1 s2 : (forall k, In k (m_reads m) -> dget s1 k = dget s2 k) -> mcall m s1 = mcall m s2.
Proof. intro H. unfold mcall. f_equal. apply map_ext_in. exact H. Qed.

Lemma obs_eq_reads c s1 s2 : (forall k, In k (c_reads c) -> dget s1 k = dget s2 k) -> obs_eq c s1 s2.
Proof.
  intro H. unfold c_reads in H. constructor.
  - apply mapM_ext. intros [p a] Hp. cbn. rewrite H; [reflexivity|]. rewrite !in_app_iff. left.
    change a with (snd (p, a)). now apply in_map.
  - intros []; unfold price_of.
    + apply mcall_ext. intros k Hk. apply H. rewrite !in_app_iff. tauto.
    + destruct (c_put c); [|reflexivity]. apply mcall_ext. intros k Hk. apply H. rewrite !in_app_iff. tauto.
  - intros n gm m Hn Hg. apply mcall_ext. intros k Hk. apply H. rewrite !in_app_iff.
    right; right; right; left. apply in_flat_map. exists (n, gm). split; [exact Hn|]. cbn. rewrite Hg, in_app_iff. tauto.
  - intros n gm sp Hn Hs. apply H. rewrite !in_app_iff. right; right; right; left.
    apply in_flat_map. exists (n, gm). split; [exact Hn|]. cbn. rewrite in_app_iff. right.
    apply in_flat_map. exists sp. split; [exact Hs|]. now left.
  - intros n gm sp Hn Hs. unfold step_of. destruct (gs_step sp) eqn:E; try reflexivity. rewrite H; [reflexivity|].
    rewrite !in_app_iff. right; right; right; left.
    apply in_flat_map. exists (n, gm). split; [exact Hn|]. cbn. rewrite in_app_iff. right.
    apply in_flat_map. exists sp. split; [exact Hs|]. rewrite E. right; now left.
  - intros a Ha. apply H. rewrite !in_app_iff, Ha. right; right; right; right. now left.
  - intros m Hm. apply mcall_ext. intros k Hk. apply H. rewrite !in_app_iff, Hm. tauto.
Qed.

(* ------------------------------------------------------------------ *)
(** * Well-formed classes *)

Fixpoint nodupb (l : list string) : bool :=
  match l with [] => true | x :: l' => negb (existsb (String.eqb x) l') && nodupb l' end.
Lemma nodupb_NoDup l : nodupb l = true -> NoDup l.
Proof.
  induction l as [|x l IH]; cbn; [constructor|]. rewrite andb_true_iff, negb_true_iff. intros [H1 H2].
  constructor; [|auto]. intro Hx. assert (existsb (String.eqb x) l = true); [|congruence].
  apply existsb_exists. exists x. split; [exact Hx|apply String.eqb_refl].
Qed.
Definition mem (x : string) (l : list string) : bool := existsb (String.eqb x) l.
Lemma mem_In x l : mem x l = true <-> In x l.
Proof.
  unfold mem. rewrite existsb_exists. split.
  - intros (y & Hy & E). apply String.eqb_eq in E. now subst.
  - intro H. exists x. split; [exact H|apply String.eqb_refl].
Qed.

Record cls_ok (c : cls) : Prop := {
  k_sig : NoDup (map fst (c_sig c));
  k_par : NoDup (map fst (c_params c));
  k_keys1 : forall p, In p (map fst (c_sig c)) -> In p (map fst (c_params c)) /\ ~ In p (c_drop c);
  k_keys2 : forall p, In p (map fst (c_params c)) -> In p (map fst (c_sig c)) \/ In p (c_drop c);
  k_drop : forall p, In p (c_drop c) -> In p (map fst (c_params c));
  k_src : forall p a, In (p, a) (c_params c) ->
            (In p (map fst (c_sig c)) /\ dget (sources (c_init c)) a = Some (SArg p)) \/
            (In p (c_drop c) /\ exists v, dget (sources (c_init c)) a = Some (SFix v));
  k_nogreeks : ~ In "_greeks" (writes (c_init c));
  k_noread : ~ In "_greeks" (c_reads c);
  k_consts : consts_scalar (c_init c) = true;
  k_defaults : forall p v, In (p, Some v) (c_sig c) -> scalar v;
  k_det : forall vals s1 s2, List.length vals = List.length (c_sig c) ->
            snd (run_init c vals s1) = snd (run_init c vals s2) /\
            (snd (run_init c vals s1) = None -> obs_eq c (fst (run_init c vals s1)) (fst (run_init c vals s2)))
}.

Definition ok_static (c : cls) : bool :=
  let names := map fst (c_sig c) in
  nodupb names && nodupb (map fst (c_params c))
  && forallb (fun p => mem p (map fst (c_params c)) && negb (mem p (c_drop c))) names
  && forallb (fun pa => if mem (fst pa) names
                        then match dget (sources (c_init c)) (snd pa) with Some (SArg q) => String.eqb q (fst pa) | _ => false end
                        else mem (fst pa) (c_drop c) &&
                             match dget (sources (c_init c)) (snd pa) with Some (SFix _) => true | _ => false end) (c_params c)
  && negb (mem "_greeks" (writes (c_init c))) && negb (mem "_greeks" (c_reads c)) && consts_scalar (c_init c)
  && forallb (fun p => mem p (map fst (c_params c))) (c_drop c)
  && forallb (fun pd => match snd pd with Some v => scalarb v | None => true end) (c_sig c).

(** every attribute a method reads has been set by this run of the constructor *)
Definition ok_det (c : cls) : bool :=
  match check "" (c_init c) [] [] with
  | Some (W, _) => subset (c_reads c) W
  | None => false
  end.

Lemma agree_nil args g s1 s2 : agree args g [] [] s1 s2.
Proof. split; cbn; tauto. Qed.

Lemma ok_det_sound c : ok_det c = true -> forall vals s1 s2,
  snd (run_init c vals s1) = snd (run_init c vals s2) /\
  (snd (run_init c vals s1) = None -> obs_eq c (fst (run_init c vals s1)) (fst (run_init c vals s2))).
Proof.
  unfold ok_det. destruct (check "" (c_init c) [] []) as [[W CW]|] eqn:E; [|discriminate].
  intros Hs vals s1 s2. unfold run_init.
  destruct (run_stmts_agree (combine (map fst (c_sig c)) vals) "" (c_init c) _ _ _ _ s1 s2 E (agree_nil _ _ _ _)) as [H1 H2].
  split; [exact H1|]. intro H. apply obs_eq_reads. intros k Hk. apply (proj1 (H2 H)). eapply subset_In; eassumption.
Qed.

Lemma ok_static_sound c : ok_static c = true ->
  (forall vals s1 s2, List.length vals = List.length (c_sig c) ->
            snd (run_init c vals s1) = snd (run_init c vals s2) /\
            (snd (run_init c vals s1) = None -> obs_eq c (fst (run_init c vals s1)) (fst (run_init c vals s2)))) ->
  cls_ok c.
Proof.
  unfold ok_static. rewrite !andb_true_iff, !negb_true_iff, !forallb_forall.
  intros [[[[[[[[H1 H2] H3] H4] H5] H6] H7] H9] H8] Hd.
  constructor; auto using nodupb_NoDup.
  - intros p Hp. specialize (H3 p Hp). apply andb_prop in H3. destruct H3 as [A B].
    split; [now apply mem_In|]. intro C. apply mem_In in C. now rewrite C in B.
  - intros p Hp. apply in_map_iff in Hp. destruct Hp as ((p' & a) & <- & Hp). cbn.
    specialize (H4 _ Hp). cbn in H4. destruct (mem p' (map fst (c_sig c))) eqn:E; [left; now apply mem_In|].
    right. apply andb_prop in H4. now apply mem_In.
  - intros p Hp. apply mem_In. now apply H9.
  - intros p a Hp. specialize (H4 _ Hp). cbn in H4. destruct (mem p (map fst (c_sig c))) eqn:E.
    + left. split; [now apply mem_In|]. destruct (dget _ a) as [[q| |]|]; try discriminate.
      apply String.eqb_eq in H4. now subst.
    + right. apply andb_prop in H4. destruct H4 as [A B]. split; [now apply mem_In|].
      destruct (dget _ a) as [[q|v|]|]; try discriminate. eauto.
  - intro C. apply mem_In in C. congruence.
  - intro C. apply mem_In in C. congruence.
  - intros p v Hp. specialize (H8 _ Hp). now apply scalarb_iff.
Qed.
End Init.
