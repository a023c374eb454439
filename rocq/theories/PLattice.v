(** Order properties of the backward recursion on any lattice of weighted moves with nonnegative
    weights (binomial and trinomial alike). *)
From Coq Require Import Reals List Arith Lia Lra Psatz.
From Verif Require Import Num MTrees STrees PTrees PTrees2 PStop.
Import ListNotations.
Open Scope R_scope.

Definition WM (amer : bool) (mv : list move) (Df z K : R) (m : nat) (x : R) : R :=
  if amer then WG mv Df z K m x else WGe mv Df z K m x.

Section Lat.
Variables (mv : list move) (Df : R).
Hypothesis Hmv : forall a, In a mv -> 0 <= fst a.
Hypothesis HD : 0 < Df.

Definition Ex (g : R -> R) (x : R) : R := sumR (map (fun a => fst a * g (x * snd a)) mv).

Lemma WM_S amer z K m x :
  WM amer mv Df z K (S m) x =
  if amer then Rmax (z * (x - K)) (Df * Ex (WM amer mv Df z K m) x) else Df * Ex (WM amer mv Df z K m) x.
Proof. destruct amer; reflexivity. Qed.
Lemma WM_0 amer z K x : WM amer mv Df z K 0 x = Rmax (z * (x - K)) 0.
Proof. destruct amer; reflexivity. Qed.

Lemma Ex_mono f g x y :
  (forall a, In a mv -> f (x * snd a) <= g (y * snd a)) -> Ex f x <= Ex g y.
Proof. intro H. unfold Ex. apply sumR_le. intros a Ha. apply Rmult_le_compat_l; auto. Qed.

Lemma Ex_nonneg f x : (forall y, 0 <= f y) -> 0 <= Ex f x.
Proof.
  intro H. unfold Ex. rewrite <- (Rmult_0_l (sumR (map (fun a => fst a) mv))), <- sumR_scal.
  apply sumR_le. intros a Ha. rewrite Rmult_0_l. apply Rmult_le_pos; auto.
Qed.

Lemma sumR_plus {A} (f g : A -> R) l : sumR (map (fun a => f a + g a) l) = sumR (map f l) + sumR (map g l).
Proof. induction l; simpl; [ring|]. rewrite IHl. ring. Qed.

(** comparison rule: a relation f(x) <= g(y) between payoffs propagates *)
Lemma WM_nonneg amer z K m x : 0 <= WM amer mv Df z K m x.
Proof.
  revert x; induction m; intros.
  - rewrite WM_0. apply Rmax_r.
  - rewrite WM_S. assert (0 <= Df * Ex (WM amer mv Df z K m) x).
    { apply Rmult_le_pos; [lra|]. unfold Ex.
      rewrite <- (Rmult_0_l (sumR (map (fun a => fst a) mv))), <- sumR_scal.
      apply sumR_le. intros a Ha. rewrite Rmult_0_l. apply Rmult_le_pos; auto. }
    destruct amer; auto. eapply Rle_trans; [exact H|apply Rmax_r].
Qed.

Lemma WM_amer_ge_euro z K m x : WM false mv Df z K m x <= WM true mv Df z K m x.
Proof.
  revert x; induction m; intros.
  - rewrite !WM_0. apply Rle_refl.
  - rewrite !WM_S. eapply Rle_trans; [|apply Rmax_r]. apply Rmult_le_compat_l; [lra|].
    apply Ex_mono. auto.
Qed.

Lemma WM_amer_ge_ex z K m x : Rmax (z * (x - K)) 0 <= WM true mv Df z K m x.
Proof.
  apply Rmax_lub; [|apply WM_nonneg].
  destruct m; rewrite ?WM_0, ?WM_S; apply Rmax_l.
Qed.

Lemma WM_convex amer z K1 K2 m x1 x2 l :
  0 <= l <= 1 ->
  WM amer mv Df z (l * K1 + (1 - l) * K2) m (l * x1 + (1 - l) * x2)
  <= l * WM amer mv Df z K1 m x1 + (1 - l) * WM amer mv Df z K2 m x2.
Proof.
  intro Hl. revert x1 x2. induction m; intros.
  - rewrite !WM_0.
    assert (0 <= Rmax (z * (x1 - K1)) 0 /\ z * (x1 - K1) <= Rmax (z * (x1 - K1)) 0) by
      (split; [apply Rmax_r|apply Rmax_l]).
    assert (0 <= Rmax (z * (x2 - K2)) 0 /\ z * (x2 - K2) <= Rmax (z * (x2 - K2)) 0) by
      (split; [apply Rmax_r|apply Rmax_l]).
    apply Rmax_lub; nra.
  - rewrite !WM_S.
    assert (E : Df * Ex (WM amer mv Df z (l * K1 + (1 - l) * K2) m) (l * x1 + (1 - l) * x2)
      <= l * (Df * Ex (WM amer mv Df z K1 m) x1) + (1 - l) * (Df * Ex (WM amer mv Df z K2 m) x2)).
    { replace (l * (Df * Ex (WM amer mv Df z K1 m) x1) + (1 - l) * (Df * Ex (WM amer mv Df z K2 m) x2))
        with (Df * (l * Ex (WM amer mv Df z K1 m) x1 + (1 - l) * Ex (WM amer mv Df z K2 m) x2)) by ring.
      apply Rmult_le_compat_l; [lra|]. unfold Ex. rewrite <- !sumR_scal, <- sumR_plus.
      apply sumR_le. intros a Ha.
      eapply Rle_trans; [apply Rmult_le_compat_l; [auto|]|].
      - replace ((l * x1 + (1 - l) * x2) * snd a) with (l * (x1 * snd a) + (1 - l) * (x2 * snd a)) by ring.
        apply IHm.
      - right; ring. }
    destruct amer; [|exact E].
    set (C1 := Df * Ex (WM true mv Df z K1 m) x1) in *.
    set (C2 := Df * Ex (WM true mv Df z K2 m) x2) in *.
    pose proof (Rmax_l (z * (x1 - K1)) C1). pose proof (Rmax_r (z * (x1 - K1)) C1).
    pose proof (Rmax_l (z * (x2 - K2)) C2). pose proof (Rmax_r (z * (x2 - K2)) C2).
    apply Rmax_lub; [nra|].
    eapply Rle_trans; [exact E|]. nra.
Qed.

Lemma WM_homog amer z c K m x : 0 <= c -> WM amer mv Df z (c * K) m (c * x) = c * WM amer mv Df z K m x.
Proof.
  intro Hc. revert x. induction m; intros.
  - rewrite !WM_0. replace (z * (c * x - c * K)) with (c * (z * (x - K))) by ring.
    rewrite <- (Rmult_0_r c) at 1. now apply RmaxRmult.
  - rewrite !WM_S.
    assert (E : Df * Ex (WM amer mv Df z (c * K) m) (c * x) = c * (Df * Ex (WM amer mv Df z K m) x)).
    { rewrite <- Rmult_assoc, (Rmult_comm c Df), Rmult_assoc. f_equal. unfold Ex. rewrite <- sumR_scal.
      apply sumR_ext. intros a Ha. rewrite Rmult_assoc, IHm. ring. }
    rewrite E. destruct amer; auto.
    replace (z * (c * x - c * K)) with (c * (z * (x - K))) by ring. now apply RmaxRmult.
Qed.

Lemma WM_mono_gen amer z K1 K2 m x1 x2 :
  (forall (h : R), (exists w, (forall a, In a w -> In a mv) /\ h = fold_right (fun a q => snd a * q) 1 w) ->
     z * (x1 * h - K1) <= z * (x2 * h - K2)) ->
  WM amer mv Df z K1 m x1 <= WM amer mv Df z K2 m x2.
Proof.
  revert x1 x2. induction m; intros x1 x2 H.
  - rewrite !WM_0. apply Rle_max_compat_r. specialize (H 1). rewrite !Rmult_1_r in H. apply H.
    exists []. split; [intros a []|reflexivity].
  - rewrite !WM_S.
    assert (E : Df * Ex (WM amer mv Df z K1 m) x1 <= Df * Ex (WM amer mv Df z K2 m) x2).
    { apply Rmult_le_compat_l; [lra|]. apply Ex_mono. intros a Ha. apply IHm.
      intros h (w & Hw & Eh). rewrite !Rmult_assoc. apply H. exists (a :: w). split.
      - intros c [<-|Hc]; auto.
      - rewrite Eh. reflexivity. }
    destruct amer; auto.
    apply Rmax_lub; [|eapply Rle_trans; [exact E|apply Rmax_r]].
    eapply Rle_trans; [|apply Rmax_l]. specialize (H 1). rewrite !Rmult_1_r in H. apply H.
    exists []. split; [intros a []|reflexivity].
Qed.

Lemma WM_call_strike amer K1 K2 m x : K1 <= K2 -> WM amer mv Df 1 K2 m x <= WM amer mv Df 1 K1 m x.
Proof. intro. apply WM_mono_gen. intros. lra. Qed.
Lemma WM_put_strike amer K1 K2 m x : K1 <= K2 -> WM amer mv Df (-1) K1 m x <= WM amer mv Df (-1) K2 m x.
Proof. intro. apply WM_mono_gen. intros. lra. Qed.

Section Spot.
Hypothesis Hf : forall a, In a mv -> 0 <= snd a.
Lemma word_nonneg (h : R) :
  (exists w, (forall a, In a w -> In a mv) /\ h = fold_right (fun a q => snd a * q) 1 w) -> 0 <= h.
Proof.
  intros (w & Hw & ->). induction w; simpl; [lra|]. apply Rmult_le_pos.
  - apply Hf, Hw. simpl; auto.
  - apply IHw. intros. apply Hw. simpl; auto.
Qed.
Lemma WM_call_spot amer K m x1 x2 : x1 <= x2 -> WM amer mv Df 1 K m x1 <= WM amer mv Df 1 K m x2.
Proof. intro. apply WM_mono_gen. intros h Hh. apply word_nonneg in Hh. nra. Qed.
Lemma WM_put_spot amer K m x1 x2 : x1 <= x2 -> WM amer mv Df (-1) K m x2 <= WM amer mv Df (-1) K m x1.
Proof. intro. apply WM_mono_gen. intros h Hh. apply word_nonneg in Hh. nra. Qed.
End Spot.

Hypothesis Hsum : sumR (map fst mv) = 1.

Lemma Ex_lip f g x c : (forall a, In a mv -> f (x * snd a) - g (x * snd a) <= c) -> Ex f x - Ex g x <= c.
Proof.
  intro H. assert (Ex f x <= Ex g x + c); [|lra]. unfold Ex.
  replace c with (sumR (map (fun a => c * fst a) mv)) at 1 by (rewrite sumR_scal, Hsum; ring).
  rewrite <- sumR_plus. apply sumR_le. intros a Ha. specialize (H a Ha). specialize (Hmv a Ha). nra.
Qed.

Lemma WM_euro_lip z K1 K2 m x : z = 1 \/ z = -1 ->
  WM false mv Df z K1 m x - WM false mv Df z K2 m x <= Df ^ m * Rabs (K2 - K1).
Proof.
  intro Hz. revert x. induction m; intros.
  - rewrite !WM_0. cbn [pow]. unfold Rabs. destruct (Rcase_abs _); Rmax_cases; destruct Hz; subst; lra.
  - rewrite !WM_S. simpl pow. rewrite Rmult_assoc, <- Rmult_minus_distr_l.
    apply Rmult_le_compat_l; [lra|]. apply Ex_lip. auto.
Qed.

Lemma WM_amer_lip z K1 K2 m x : z = 1 \/ z = -1 -> Df <= 1 ->
  WM true mv Df z K1 m x - WM true mv Df z K2 m x <= Rabs (K2 - K1).
Proof.
  intros Hz HD1. revert x. induction m; intros.
  - rewrite !WM_0. unfold Rabs. destruct (Rcase_abs _); Rmax_cases; destruct Hz; subst; lra.
  - rewrite !WM_S.
    assert (E : Df * Ex (WM true mv Df z K1 m) x - Df * Ex (WM true mv Df z K2 m) x <= Rabs (K2 - K1)).
    { rewrite <- Rmult_minus_distr_l. pose proof (Ex_lip _ _ x _ (fun a _ => IHm (x * snd a))).
      pose proof (Rabs_pos (K2 - K1)).
      destruct (Rle_dec 0 (Ex (WM true mv Df z K1 m) x - Ex (WM true mv Df z K2 m) x)); nra. }
    assert (z * (x - K1) - z * (x - K2) <= Rabs (K2 - K1)).
    { unfold Rabs. destruct (Rcase_abs _); destruct Hz; subst; lra. }
    Rmax_cases; lra.
Qed.

(** expectation of the asset after one move *)
Let F := sumR (map (fun a => fst a * snd a) mv).

Lemma Ex_id x : Ex (fun y => y) x = x * F.
Proof. unfold Ex, F. rewrite <- sumR_scal. apply sumR_ext. intros. ring. Qed.

Lemma WM_parity K m x : WM false mv Df 1 K m x - WM false mv Df (-1) K m x = Df ^ m * (x * F ^ m - K).
Proof.
  revert x. induction m; intros.
  - rewrite !WM_0. simpl. Rmax_cases; lra.
  - rewrite !WM_S. rewrite <- Rmult_minus_distr_l. simpl pow. rewrite Rmult_assoc. f_equal.
    transitivity (sumR (map (fun a => fst a * (Df ^ m * (x * snd a * F ^ m - K))) mv)).
    + unfold Ex. unfold Rminus at 1. rewrite <- (Rmult_1_l (sumR (map (fun a => fst a * WM false mv Df (-1) K m (x * snd a)) mv))).
      rewrite Ropp_mult_distr_l, <- sumR_scal, <- sumR_plus. apply sumR_ext. intros a _. rewrite <- IHm. ring.
    + rewrite (sumR_ext _ (fun a => (Df ^ m * x * F ^ m) * (fst a * snd a) + (- Df ^ m * K) * fst a)) by (intros; ring).
      rewrite sumR_plus, !sumR_scal, Hsum. fold F. ring.
Qed.

Lemma WM_call_no_early K m x :
  (forall a, In a mv -> 0 <= snd a) -> 0 <= x -> 0 <= K -> Df <= 1 -> 1 <= Df * F ->
  WM true mv Df 1 K m x = WM false mv Df 1 K m x.
Proof.
  intros Hf Hx HK HD1 HF. revert x Hx. induction m; intros.
  - now rewrite !WM_0.
  - rewrite !WM_S.
    assert (E : Ex (WM true mv Df 1 K m) x = Ex (WM false mv Df 1 K m) x).
    { unfold Ex. apply sumR_ext. intros a Ha. rewrite IHm; auto. apply Rmult_le_pos; auto. }
    rewrite E. apply Rmax_right. change (Df * Ex (WM false mv Df 1 K m) x) with (WM false mv Df 1 K (S m) x).
    pose proof (WM_parity K (S m) x). pose proof (WM_nonneg false (-1) K (S m) x).
    replace (Df ^ S m * (x * F ^ S m - K)) with (x * (Df * F) ^ S m - Df ^ S m * K) in H
      by (rewrite Rpow_mult_distr; ring).
    assert (1 <= (Df * F) ^ S m) by (apply pow_R1_Rle; lra).
    assert (Df ^ S m <= 1).
    { rewrite <- (pow1 (S m)). apply pow_incr. lra. }
    nra.
Qed.

Lemma WM_put_no_early K m x :
  (forall a, In a mv -> 0 <= snd a) -> 0 <= x -> 0 <= K -> 1 <= Df -> 0 <= F -> Df * F <= 1 ->
  WM true mv Df (-1) K m x = WM false mv Df (-1) K m x.
Proof.
  intros Hf Hx HK HD1 HF0 HF. revert x Hx. induction m; intros.
  - now rewrite !WM_0.
  - rewrite !WM_S.
    assert (E : Ex (WM true mv Df (-1) K m) x = Ex (WM false mv Df (-1) K m) x).
    { unfold Ex. apply sumR_ext. intros a Ha. rewrite IHm; auto. apply Rmult_le_pos; auto. }
    rewrite E. apply Rmax_right. change (Df * Ex (WM false mv Df (-1) K m) x) with (WM false mv Df (-1) K (S m) x).
    pose proof (WM_parity K (S m) x). pose proof (WM_nonneg false 1 K (S m) x).
    replace (Df ^ S m * (x * F ^ S m - K)) with (x * (Df * F) ^ S m - Df ^ S m * K) in H
      by (rewrite Rpow_mult_distr; ring).
    assert (1 <= Df ^ S m) by (apply pow_R1_Rle; lra).
    assert ((Df * F) ^ S m <= 1).
    { rewrite <- (pow1 (S m)). apply pow_incr. nra. }
    nra.
Qed.

Lemma WM_call_le_spot amer K m x :
  (forall a, In a mv -> 0 <= snd a) -> 0 <= x -> 0 <= K -> Df * F <= 1 ->
  WM amer mv Df 1 K m x <= x.
Proof.
  intros Hf Hx HK HF. revert x Hx. induction m; intros.
  - rewrite WM_0. apply Rmax_lub; lra.
  - rewrite WM_S. assert (E : Df * Ex (WM amer mv Df 1 K m) x <= x).
    { eapply Rle_trans.
      - apply Rmult_le_compat_l; [lra|]. apply (Ex_mono _ (fun y => y) x x).
        intros a Ha. apply IHm. apply Rmult_le_pos; auto.
      - rewrite Ex_id. nra. }
    destruct amer; auto. apply Rmax_lub; lra.
Qed.

Lemma WM_put_le_strike amer K m x :
  (forall a, In a mv -> 0 <= snd a) -> 0 <= x -> 0 <= K -> Df <= 1 ->
  WM amer mv Df (-1) K m x <= K.
Proof.
  intros Hf Hx HK HF. revert x Hx. induction m; intros.
  - rewrite WM_0. apply Rmax_lub; lra.
  - rewrite WM_S. assert (E : Df * Ex (WM amer mv Df (-1) K m) x <= K).
    { assert (Ex (WM amer mv Df (-1) K m) x - Ex (fun _ => 0) x <= K).
      { apply Ex_lip. intros a Ha. rewrite Rminus_0_r. apply IHm. apply Rmult_le_pos; auto. }
      assert (Z : Ex (fun _ => 0) x = 0).
      { unfold Ex. rewrite (sumR_ext _ (fun a => 0 * fst a)) by (intros; ring). rewrite sumR_scal. ring. }
      rewrite Z in H. pose proof (WM_nonneg amer (-1) K m).
      destruct (Rle_dec 0 (Ex (WM amer mv Df (-1) K m) x)); nra. }
    destruct amer; auto. apply Rmax_lub; lra.
Qed.

(** American put-call inequalities (carry b with 1 <= Df*F ... covers b >= r) *)
Lemma WM_amer_parity K m x :
  (forall a, In a mv -> 0 <= snd a) -> 0 <= x -> 0 <= K -> Df <= 1 -> Df * F = 1 ->
  x - K <= WM true mv Df 1 K m x - WM true mv Df (-1) K m x <= x - K * Df ^ m.
Proof.
  intros Hf Hx HK HD1 HF. split.
  - (* induction: P <= C - x + K *)
    revert x Hx. induction m; intros.
    + rewrite !WM_0. Rmax_cases; lra.
    + rewrite !WM_S.
      set (A := Ex (WM true mv Df 1 K m) x). set (B := Ex (WM true mv Df (-1) K m) x).
      assert (E : Df * B <= Df * A - x + K).
      { assert (B <= A - x * F + K).
        { unfold A, B. rewrite <- Ex_id. unfold Ex.
          assert (sumR (map (fun a => fst a * WM true mv Df (-1) K m (x * snd a)) mv)
             + sumR (map (fun a => fst a * (x * snd a)) mv)
             <= sumR (map (fun a => fst a * WM true mv Df 1 K m (x * snd a)) mv) + sumR (map (fun a => K * fst a) mv)).
          { rewrite <- !sumR_plus. apply sumR_le. intros a Ha.
            assert (0 <= x * snd a) by (apply Rmult_le_pos; auto). pose proof (IHm (x * snd a) H).
            pose proof (Hmv a Ha). nra. }
          rewrite sumR_scal, Hsum in H. lra. }
        assert (Df * (x * F) = x) by (rewrite <- (Rmult_1_r x) at 2; rewrite <- HF; ring).
        nra. }
      assert (0 <= Df * A) by (apply Rmult_le_pos; [lra|]; apply Ex_nonneg; intro; apply WM_nonneg).
      Rmax_cases; lra.
  - rewrite WM_call_no_early; auto; [|lra].
    pose proof (WM_parity K m x). pose proof (WM_amer_ge_euro (-1) K m x).
    replace (Df ^ m * (x * F ^ m - K)) with (x * (Df * F) ^ m - K * Df ^ m) in H by (rewrite Rpow_mult_distr; ring).
    rewrite HF, pow1 in H. lra.
Qed.
End Lat.
