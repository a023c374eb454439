(** Optimal stopping on a recombining lattice given by weighted multiplicative moves: the backward
    recursion is the best expected discounted payoff over all exercise policies. *)
From Coq Require Import Reals List Arith Lia Lra.
From Verif Require Import Num MTrees STrees PTrees PTrees2.
Import ListNotations.
Open Scope R_scope.

(* ------------------------------------------------------------------ *)
Lemma sumR_app l l' : sumR (l ++ l') = sumR l + sumR l'.
Proof. induction l; simpl; [ring|]. rewrite IHl. ring. Qed.
Lemma sumR_scal {A} c (f : A -> R) l : sumR (map (fun a => c * f a) l) = c * sumR (map f l).
Proof. induction l; simpl; [ring|]. rewrite IHl. ring. Qed.
Lemma sumR_le {A} (f g : A -> R) l : (forall a, In a l -> f a <= g a) -> sumR (map f l) <= sumR (map g l).
Proof.
  induction l; simpl; intro H; [lra|]. pose proof (H a (or_introl eq_refl)).
  assert (sumR (map f l) <= sumR (map g l)) by auto. lra.
Qed.
Lemma sumR_ext {A} (f g : A -> R) l : (forall a, In a l -> f a = g a) -> sumR (map f l) = sumR (map g l).
Proof. intro H. f_equal. apply map_ext_in. auto. Qed.

Section Stop.
Variables (mv : list move) (Df z K : R).

(** the backward recursion *)
Fixpoint WG (m : nat) (x : R) : R :=
  match m with
  | O => Rmax (z * (x - K)) 0
  | S m' => Rmax (z * (x - K)) (Df * sumR (map (fun a => fst a * WG m' (x * snd a)) mv))
  end.
Fixpoint WGe (m : nat) (x : R) : R :=
  match m with
  | O => Rmax (z * (x - K)) 0
  | S m' => Df * sumR (map (fun a => fst a * WGe m' (x * snd a)) mv)
  end.

End Stop.

Section Sums.
Lemma sum_paths_S mv m (F : list move -> R) :
  sumR (map (fun w => prob w * F w) (paths mv (S m)))
  = sumR (map (fun a => fst a * sumR (map (fun w => prob w * F (a :: w)) (paths mv m))) mv).
Proof.
  cbn [paths]. generalize (paths mv m) as ps. intro ps.
  induction mv as [|a l IH]; simpl; auto.
  rewrite map_app, sumR_app. f_equal; auto.
  rewrite map_map. rewrite <- sumR_scal. apply sumR_ext. intros w Hw. change (prob (a :: w)) with (fst a * prob w). ring.
Qed.
Lemma price_after_snoc x h a : price_after x (h ++ [a]) = price_after x h * snd a.
Proof. unfold price_after. now rewrite fold_left_app. Qed.
End Sums.

Section Stop2.
Variables (mv : list move) (Df z K : R).
Hypothesis Hmv : forall a, In a mv -> 0 <= fst a.
Hypothesis Hsum : sumR (map fst mv) = 1.
Hypothesis HD : 0 < Df.
Notation WG := (WG mv Df z K).
Notation WGe := (WGe mv Df z K).

Lemma prob_total m : sumR (map prob (paths mv m)) = 1.
Proof.
  rewrite (sumR_ext _ (fun w => prob w * 1)) by (intros; ring).
  induction m.
  - simpl. unfold prob. simpl. ring.
  - rewrite (sum_paths_S mv m (fun _ => 1)). rewrite IHm.
    rewrite (sumR_ext _ fst) by (intros; ring). exact Hsum.
Qed.


Lemma const_sum c m : sumR (map (fun w => prob w * c) (paths mv m)) = c.
Proof.
  rewrite (sumR_ext _ (fun w => c * prob w)) by (intros; ring).
  rewrite sumR_scal, prob_total. ring.
Qed.

Lemma reward_cons stop x h a w :
  reward stop Df z K x h (a :: w) =
  if stop h then Df ^ length h * (z * (price_after x h - K)) else reward stop Df z K x (h ++ [a]) w.
Proof. reflexivity. Qed.

Lemma policy_step stop x m h :
  sumR (map (fun w => prob w * reward stop Df z K x h w) (paths mv (S m)))
  = if stop h then Df ^ length h * (z * (price_after x h - K))
    else sumR (map (fun a => fst a * sumR (map (fun w => prob w * reward stop Df z K x (h ++ [a]) w) (paths mv m))) mv).
Proof.
  rewrite (sum_paths_S mv m (reward stop Df z K x h)).
  destruct (stop h) eqn:E.
  - rewrite (sumR_ext _ (fun a => (Df ^ length h * (z * (price_after x h - K))) * fst a)).
    + rewrite sumR_scal, Hsum. ring.
    + intros a _. rewrite (sumR_ext _ (fun w => prob w * (Df ^ length h * (z * (price_after x h - K))))).
      * rewrite const_sum. ring.
      * intros w _. rewrite reward_cons, E. reflexivity.
  - apply sumR_ext. intros a _. f_equal. apply sumR_ext. intros w _. now rewrite reward_cons, E.
Qed.

Lemma policy_base stop x h :
  sumR (map (fun w => prob w * reward stop Df z K x h w) (paths mv 0))
  = Df ^ length h * Rmax (z * (price_after x h - K)) 0.
Proof. simpl. unfold prob. simpl. ring. Qed.

Lemma policy_le stop x m h :
  sumR (map (fun w => prob w * reward stop Df z K x h w) (paths mv m))
  <= Df ^ length h * WG m (price_after x h).
Proof.
  assert (HP : forall k, 0 < Df ^ k) by (intro; apply pow_lt; auto).
  revert h. induction m; intro h.
  - rewrite policy_base. apply Rle_refl.
  - rewrite policy_step. cbn [PStop.WG]. destruct (stop h).
    + apply Rmult_le_compat_l; [left; auto|]. apply Rmax_l.
    + eapply Rle_trans; [|apply Rmult_le_compat_l; [left; auto|apply Rmax_r]].
      rewrite <- sumR_scal, <- sumR_scal. apply sumR_le. intros a Ha.
      eapply Rle_trans; [apply Rmult_le_compat_l; [auto|apply IHm]|].
      rewrite app_length. simpl length. rewrite price_after_snoc.
      rewrite pow_add. right. ring.
Qed.

(** exercise exactly when it is worth at least continuing *)
Definition best_stop (n : nat) (x : R) (h : list move) : bool :=
  match (n - length h)%nat with
  | O => false
  | S m => Rleb (Df * sumR (map (fun a => fst a * WG m (price_after x h * snd a)) mv))
                (z * (price_after x h - K))
  end.

Lemma best_policy n x m h :
  (length h + m = n)%nat ->
  sumR (map (fun w => prob w * reward (best_stop n x) Df z K x h w) (paths mv m))
  = Df ^ length h * WG m (price_after x h).
Proof.
  revert h. induction m; intros h Hh.
  - rewrite policy_base. reflexivity.
  - rewrite policy_step. cbn [PStop.WG].
    unfold best_stop at 1. replace (n - length h)%nat with (S m) by lia.
    destruct (Rleb _ _) eqn:E.
    + apply Rleb_true in E. rewrite Rmax_left by auto. reflexivity.
    + apply Rleb_false in E. rewrite Rmax_right by lra.
      rewrite <- sumR_scal, <- sumR_scal. apply sumR_ext. intros a Ha.
      rewrite IHm by (rewrite app_length; simpl; lia).
      rewrite app_length. simpl length. rewrite price_after_snoc, pow_add. ring.
Qed.

Lemma optimal_stopping n x :
  (forall stop, policy_value mv stop Df z K n x <= WG n x) /\
  (exists stop, policy_value mv stop Df z K n x = WG n x).
Proof.
  split.
  - intro stop. unfold policy_value. pose proof (policy_le stop x n []) as H. simpl in H.
    unfold price_after in H. simpl in H. lra.
  - exists (best_stop n x). unfold policy_value.
    rewrite (best_policy n x n []) by (simpl; lia). simpl. unfold price_after. simpl. ring.
Qed.

Lemma never_policy x m h :
  sumR (map (fun w => prob w * reward (fun _ => false) Df z K x h w) (paths mv m))
  = Df ^ length h * WGe m (price_after x h).
Proof.
  revert h. induction m; intros h.
  - rewrite policy_base. reflexivity.
  - rewrite policy_step. cbn [PStop.WGe].
    rewrite <- sumR_scal, <- sumR_scal. apply sumR_ext. intros a Ha.
    rewrite IHm. rewrite app_length. simpl length. rewrite price_after_snoc, pow_add. ring.
Qed.
End Stop2.

Lemma W_WG z u d p Df K m x :
  W z true u d p Df K m x = WG [(p, u); (1 - p, d)] Df z K m x.
Proof.
  revert x. induction m; intros; cbn [W WG]; auto. cbv zeta. cbn [map fst snd sumR fold_right].
  rewrite !IHm. f_equal. ring.
Qed.
Lemma W_WGe z u d p Df K m x :
  W z false u d p Df K m x = WGe [(p, u); (1 - p, d)] Df z K m x.
Proof.
  revert x. induction m; intros; cbn [W WGe]; auto. cbv zeta. cbn [map fst snd sumR fold_right].
  rewrite !IHm. ring.
Qed.
Lemma WT_WG z u d pu pm pd Df K m x :
  WT z true u d pu pm pd Df K m x = WG [(pu, u); (pm, 1); (pd, d)] Df z K m x.
Proof.
  revert x. induction m; intros; cbn [WT WG]; auto. cbv zeta. cbn [map fst snd sumR fold_right].
  rewrite !IHm, Rmult_1_r. f_equal. ring.
Qed.
Lemma WT_WGe z u d pu pm pd Df K m x :
  WT z false u d pu pm pd Df K m x = WGe [(pu, u); (pm, 1); (pd, d)] Df z K m x.
Proof.
  revert x. induction m; intros; cbn [WT WGe]; auto. cbv zeta. cbn [map fst snd sumR fold_right].
  rewrite !IHm, Rmult_1_r. ring.
Qed.
