(** Every option class is well formed, and the properties of the object protocol. *)
From Coq Require Import String List Arith ZArith QArith Bool Lia.
From Verif Require Import Num Py Arr MBase MVanilla MTrees MSpread MAmerican MObjects MClasses PObjects PObjects2 PObjects3.
Import ListNotations.
Open Scope py_scope.
Open Scope string_scope.

Section WF.
Context {T : Type} {N : Num T}.
Variables f1 f2 f3 : nat.
Local Notation pyv := (pyv T).
Local Notation dict := (dict pyv).
Local Notation cls := (cls T).

(** closed forms whose cached values exist only when a volatility is given *)
Definition sigma_guarded (c : cls) : Prop :=
  c_call c = gbs_meth gbs_call /\ c_put c = Some (gbs_meth gbs_put) /\ c_greeks c = gbs_greeks_fdm /\
  c_summary c = SumBase /\ In "sigma" (map fst (c_sig c)) /\
  dget (sources (c_init c)) "_sigma" = Some (SArg "sigma") /\
  exists W CW, check "sigma" (c_init c) [] [] = Some (W, CW) /\
    subset ("_S" :: "_K" :: "_t" :: "_r" :: "_b" :: "_sigma" :: map snd (c_params c)) W = true /\
    subset ["_d1"; "_d2"] CW = true.

Lemma gbs_meth_ext (f : gbs T -> res T) (s1 s2 : dict) :
  (forall k, In k ["_S"; "_K"; "_t"; "_r"; "_b"; "_sigma"] -> dget s1 k = dget s2 k) ->
  (dget s1 "_sigma" = Some VNone \/ (forall k, In k ["_d1"; "_d2"] -> dget s1 k = dget s2 k)) ->
  mcall (gbs_meth f) s1 = mcall (gbs_meth f) s2.
Proof.
  intros H1 H2. unfold mcall. cbn [m_reads gbs_meth map].
  rewrite <- (H1 "_S"), <- (H1 "_K"), <- (H1 "_t"), <- (H1 "_r"), <- (H1 "_b"), <- (H1 "_sigma") by (cbn; tauto).
  destruct H2 as [H2|H2].
  - rewrite H2. cbn [m_fun]. destruct (dget s1 "_S"), (dget s1 "_K"), (dget s1 "_t"), (dget s1 "_r"), (dget s1 "_b"); reflexivity.
  - rewrite <- (H2 "_d1"), <- (H2 "_d2") by (cbn; tauto). reflexivity.
Qed.

Lemma sigma_guarded_det (c : cls) : sigma_guarded c ->
  forall vals s1 s2, List.length vals = List.length (c_sig c) ->
    snd (run_init c vals s1) = snd (run_init c vals s2) /\
    (snd (run_init c vals s1) = None -> obs_eq c (fst (run_init c vals s1)) (fst (run_init c vals s2))).
Proof.
  intros (Hcall & Hput & Hgr & Hsum & Hsig & Hsrc & W & CW & Hch & HW & HCW) vals s1 s2 Hl. unfold run_init.
  set (args := combine (map fst (c_sig c)) vals).
  destruct (run_stmts_agree args "sigma" (c_init c) _ _ _ _ s1 s2 Hch (agree_nil _ _ _ _)) as [H1 H2].
  split; [exact H1|]. intro HE. specialize (H2 HE). destruct H2 as [A1 A2].
  assert (B : forall k, In k ("_S" :: "_K" :: "_t" :: "_r" :: "_b" :: "_sigma" :: map snd (c_params c)) ->
     dget (fst (run_stmts args (c_init c) s1)) k = dget (fst (run_stmts args (c_init c) s2)) k).
  { intros k Hk. apply A1. eapply subset_In; eassumption. }
  assert (D : dget (fst (run_stmts args (c_init c) s1)) "_sigma" = Some VNone \/
              (forall k, In k ["_d1"; "_d2"] -> dget (fst (run_stmts args (c_init c) s1)) k = dget (fst (run_stmts args (c_init c) s2)) k)).
  { destruct (guard_on args "sigma") eqn:G.
    - right. intros k Hk. apply (A2 eq_refl). eapply subset_In; eassumption.
    - left. destruct (run_stmts args (c_init c) s1) as [s' e] eqn:E. cbn in HE |- *.
      rewrite HE in E. apply sources_sound in E. specialize (E "_sigma"). rewrite Hsrc in E. destruct E as [E _]. rewrite E.
      unfold guard_on in G. destruct (dget args "sigma") as [v|]; [|discriminate].
      apply negb_false_iff in G. destruct v; try discriminate. reflexivity. }
  constructor.
  - apply mapM_ext. intros [p a] Hp. cbn. rewrite B; [reflexivity|]. do 6 right.
    change a with (snd (p, a)). now apply in_map.
  - intros []; unfold price_of; rewrite ?Hcall, ?Hput; apply gbs_meth_ext; auto;
      intros k Hk; apply B; cbn in Hk |- *; tauto.
  - rewrite Hgr. intros n gm m Hg Hm. cbn in Hg. unfold fdm in Hg.
    repeat (destruct Hg as [Hg|Hg]; [injection Hg as <- <-; cbn in Hm; injection Hm as <-|]); try tauto;
      apply mcall_ext; intros k Hk; apply B; cbn in Hk |- *; tauto.
  - rewrite Hgr. intros n gm sp Hg Hs. cbn in Hg. unfold fdm in Hg.
    repeat (destruct Hg as [Hg|Hg]; [injection Hg as <- <-; cbn in Hs; destruct Hs as [<-|[]]; apply B; cbn; tauto|]).
    tauto.
  - rewrite Hgr. intros n gm sp Hg Hs. cbn in Hg. unfold fdm in Hg.
    repeat (destruct Hg as [Hg|Hg]; [injection Hg as <- <-; cbn in Hs; destruct Hs as [<-|[]]; reflexivity|]).
    tauto.
  - rewrite Hsum. discriminate.
  - rewrite Hsum. discriminate.
Qed.

Lemma guarded_ok (c : cls) : ok_static c = true -> sigma_guarded c -> cls_ok c.
Proof. intros H1 H2. apply ok_static_sound; [exact H1|]. now apply sigma_guarded_det. Qed.
Lemma det_ok (c : cls) : ok_static c = true -> ok_det c = true -> cls_ok c.
Proof. intros H1 H2. apply ok_static_sound; [exact H1|]. intros. now apply ok_det_sound. Qed.

Local Ltac static := vm_compute; reflexivity.
Lemma all_ok (c : cls) : In c (all_classes f1 f2 f3) -> cls_ok c.
Proof.
  unfold all_classes. intro H.
  repeat (destruct H as [<-|H]);
    try (apply det_ok; static).
  1, 2, 3: apply guarded_ok; [static|]; repeat split; try (cbn; tauto); try reflexivity;
      eexists _, _; (split; [reflexivity|]); split; reflexivity.
  destruct H.
Qed.
End WF.
