(** Backward recursions on general lattices: expectation, optimal stopping, comparison. *)
From Coq Require Import Reals List Lra Lia Arith.
From Verif Require Import Num STrees PStop SLattice.
Import ListNotations.
Open Scope R_scope.

Section Gen.
Context {A X : Type}.
Variables (weight : A -> R) (act : A -> X -> X) (mv : list A) (Df : R).
Notation gpaths := (gpaths mv).
Notation gprob := (gprob weight).
Notation gstate := (gstate act).

Fixpoint GV (amer : bool) (g : X -> R) (m : nat) (x : X) : R :=
  match m with
  | O => g x
  | S m' => let cont := Df * sumR (map (fun a => weight a * GV amer g m' (act a x)) mv) in
            if amer then Rmax cont (g x) else cont
  end.

Lemma gsum_S m (F : list A -> R) :
  sumR (map (fun w => gprob w * F w) (gpaths (S m)))
  = sumR (map (fun a => weight a * sumR (map (fun w => gprob w * F (a :: w)) (gpaths m))) mv).
Proof.
  cbn [SLattice.gpaths]. generalize (gpaths m) as ps. intro ps.
  induction mv as [|a l IH]; simpl; auto.
  rewrite map_app, sumR_app. f_equal; auto.
  rewrite map_map. rewrite <- sumR_scal. apply sumR_ext. intros w Hw.
  change (gprob (a :: w)) with (weight a * gprob w). ring.
Qed.
Lemma gstate_snoc x h a : gstate x (h ++ [a]) = act a (gstate x h).
Proof. unfold SLattice.gstate. now rewrite fold_left_app. Qed.

Lemma GV_expect g m x : GV false g m x = gexpect weight act mv Df g m x.
Proof.
  unfold gexpect. revert x. induction m; intro x.
  - simpl. unfold SLattice.gprob. simpl. ring.
  - cbn [GV]. rewrite (gsum_S m (fun w => g (gstate x w))). cbn [pow]. rewrite Rmult_assoc. f_equal.
    rewrite <- sumR_scal. apply sumR_ext. intros a Ha. rewrite IHm.
    change (fun w => gprob w * g (gstate x (a :: w))) with (fun w => gprob w * g (gstate (act a x) w)).
    ring.
Qed.

Lemma GV_ext amer g g' m x : (forall y, g y = g' y) -> GV amer g m x = GV amer g' m x.
Proof.
  intro H. revert x. induction m; intro x; cbn [GV]; auto.
  rewrite (sumR_ext _ (fun a => weight a * GV amer g' m (act a x))) by (intros; now rewrite IHm).
  now rewrite H.
Qed.
Lemma GV_lin g g' c c' m x :
  GV false (fun y => c * g y + c' * g' y) m x = c * GV false g m x + c' * GV false g' m x.
Proof.
  revert x. induction m; intro x; cbn [GV]; auto.
  rewrite (sumR_ext _ (fun a => c * (weight a * GV false g m (act a x)) + c' * (weight a * GV false g' m (act a x)))).
  2:{ intros. rewrite IHm. ring. }
  assert (E : forall (f h : A -> R) l, sumR (map (fun a => f a + h a) l) = sumR (map f l) + sumR (map h l)).
  { intros f h l. induction l; simpl; [ring|]. rewrite IHl. ring. }
  rewrite (E (fun a => c * (weight a * GV false g m (act a x))) (fun a => c' * (weight a * GV false g' m (act a x)))).
  rewrite !sumR_scal. ring.
Qed.
Lemma GV_scal amer g c m x : 0 <= c -> GV amer (fun y => c * g y) m x = c * GV amer g m x.
Proof.
  intro Hc. revert x. induction m; intro x; cbn [GV]; auto. cbv zeta.
  rewrite (sumR_ext _ (fun a => c * (weight a * GV amer g m (act a x)))) by (intros; rewrite IHm; ring).
  rewrite sumR_scal. replace (Df * (c * sumR (map (fun a => weight a * GV amer g m (act a x)) mv)))
    with (c * (Df * sumR (map (fun a => weight a * GV amer g m (act a x)) mv))) by ring.
  destruct amer; auto. symmetry. now rewrite RmaxRmult.
Qed.

Section Pos.
Hypothesis Hw : forall a, In a mv -> 0 <= weight a.
Hypothesis HD : 0 < Df.

Lemma GV_mono amer g g' m x : (forall y, g y <= g' y) -> GV amer g m x <= GV amer g' m x.
Proof.
  intro H. revert x. induction m; intro x; cbn [GV]; auto. cbv zeta.
  assert (Df * sumR (map (fun a => weight a * GV amer g m (act a x)) mv)
          <= Df * sumR (map (fun a => weight a * GV amer g' m (act a x)) mv)).
  { apply Rmult_le_compat_l; [lra|]. apply sumR_le. intros a Ha. apply Rmult_le_compat_l; auto. }
  destruct amer; auto. apply Rmax_case; [eapply Rle_trans; [eassumption|apply Rmax_l]|].
  eapply Rle_trans; [apply H|apply Rmax_r].
Qed.
Lemma GV_nonneg amer g m x : (forall y, 0 <= g y) -> 0 <= GV amer g m x.
Proof.
  intro H. revert x. induction m; intro x; cbn [GV]; auto. cbv zeta.
  assert (0 <= Df * sumR (map (fun a => weight a * GV amer g m (act a x)) mv)).
  { apply Rmult_le_pos; [lra|]. replace 0 with (sumR (map (fun _ : A => 0) mv)).
    - apply sumR_le. intros a Ha. apply Rmult_le_pos; auto.
    - clear. induction mv; simpl; auto. rewrite IHl. ring. }
  destruct amer; auto. eapply Rle_trans; [eassumption|apply Rmax_l].
Qed.
Lemma GV_amer_ge g m x : GV false g m x <= GV true g m x /\ g x <= GV true g m x.
Proof.
  revert x. induction m; intro x; cbn [GV]; [split; apply Rle_refl|]. cbv zeta. split.
  - eapply Rle_trans; [|apply Rmax_l]. apply Rmult_le_compat_l; [lra|]. apply sumR_le.
    intros a Ha. apply Rmult_le_compat_l; auto. apply IHm.
  - apply Rmax_r.
Qed.

Hypothesis Hsum : sumR (map weight mv) = 1.

Lemma GV_const c m x : GV false (fun _ => c) m x = Df ^ m * c.
Proof.
  revert x. induction m; intro x; cbn [GV pow]; [ring|].
  rewrite (sumR_ext _ (fun a => (Df ^ m * c) * weight a)) by (intros; rewrite IHm; ring).
  rewrite sumR_scal, Hsum. ring.
Qed.
Lemma gprob_total m : sumR (map gprob (gpaths m)) = 1.
Proof.
  rewrite (sumR_ext _ (fun w => gprob w * 1)) by (intros; ring).
  induction m.
  - simpl. unfold SLattice.gprob. simpl. ring.
  - rewrite (gsum_S m (fun _ => 1)). rewrite IHm.
    rewrite (sumR_ext _ weight) by (intros; ring). exact Hsum.
Qed.
Lemma gconst_sum c m : sumR (map (fun w => gprob w * c) (gpaths m)) = c.
Proof.
  rewrite (sumR_ext _ (fun w => c * gprob w)) by (intros; ring).
  rewrite sumR_scal, gprob_total. ring.
Qed.

Variable g : X -> R.
Lemma gpolicy_step stop x m h :
  sumR (map (fun w => gprob w * greward act stop Df g x h w) (gpaths (S m)))
  = if stop h then Df ^ length h * g (gstate x h)
    else sumR (map (fun a => weight a * sumR (map (fun w => gprob w * greward act stop Df g x (h ++ [a]) w) (gpaths m))) mv).
Proof.
  rewrite (gsum_S m (greward act stop Df g x h)).
  destruct (stop h) eqn:E.
  - rewrite (sumR_ext _ (fun a => (Df ^ length h * g (gstate x h)) * weight a)).
    + rewrite sumR_scal, Hsum. ring.
    + intros a _. rewrite (sumR_ext _ (fun w => gprob w * (Df ^ length h * g (gstate x h)))).
      * rewrite gconst_sum. ring.
      * intros w _. cbn [greward]. rewrite E. reflexivity.
  - apply sumR_ext. intros a _. f_equal. apply sumR_ext. intros w _. cbn [greward]. now rewrite E.
Qed.
Lemma gpolicy_base stop x h :
  sumR (map (fun w => gprob w * greward act stop Df g x h w) (gpaths 0)) = Df ^ length h * g (gstate x h).
Proof. simpl. unfold SLattice.gprob. simpl. ring. Qed.

Lemma gpolicy_le stop x m h :
  sumR (map (fun w => gprob w * greward act stop Df g x h w) (gpaths m))
  <= Df ^ length h * GV true g m (gstate x h).
Proof.
  assert (HP : forall k, 0 < Df ^ k) by (intro; apply pow_lt; auto).
  revert h. induction m; intro h.
  - rewrite gpolicy_base. apply Rle_refl.
  - rewrite gpolicy_step. cbn [GV]. destruct (stop h).
    + apply Rmult_le_compat_l; [left; auto|]. apply Rmax_r.
    + eapply Rle_trans; [|apply Rmult_le_compat_l; [left; auto|apply Rmax_l]].
      rewrite <- sumR_scal, <- sumR_scal. apply sumR_le. intros a Ha.
      eapply Rle_trans; [apply Rmult_le_compat_l; [auto|apply IHm]|].
      rewrite app_length. simpl length. rewrite gstate_snoc.
      rewrite pow_add. right. ring.
Qed.
Definition gbest (n : nat) (x : X) (h : list A) : bool :=
  match (n - length h)%nat with
  | O => false
  | S m => Rleb (Df * sumR (map (fun a => weight a * GV true g m (act a (gstate x h))) mv)) (g (gstate x h))
  end.
Lemma gbest_policy n x m h :
  (length h + m = n)%nat ->
  sumR (map (fun w => gprob w * greward act (gbest n x) Df g x h w) (gpaths m))
  = Df ^ length h * GV true g m (gstate x h).
Proof.
  revert h. induction m; intros h Hh.
  - rewrite gpolicy_base. reflexivity.
  - rewrite gpolicy_step. cbn [GV].
    unfold gbest at 1. replace (n - length h)%nat with (S m) by lia.
    destruct (Rleb _ _) eqn:E.
    + apply Rleb_true in E. rewrite Rmax_right by auto. reflexivity.
    + apply Rleb_false in E. rewrite Rmax_left by lra.
      rewrite <- sumR_scal, <- sumR_scal. apply sumR_ext. intros a Ha.
      rewrite IHm by (rewrite app_length; simpl; lia).
      rewrite app_length. simpl length. rewrite gstate_snoc, pow_add. ring.
Qed.
Lemma g_optimal n x :
  (forall stop, gpolicy weight act mv stop Df g n x <= GV true g n x) /\
  (exists stop, gpolicy weight act mv stop Df g n x = GV true g n x).
Proof.
  split.
  - intro stop. unfold gpolicy. pose proof (gpolicy_le stop x n []) as H. simpl in H. lra.
  - exists (gbest n x). unfold gpolicy. rewrite (gbest_policy n x n []) by (simpl; lia). simpl. ring.
Qed.
End Pos.
End Gen.
