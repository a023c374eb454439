(** Calculus of the approximate distribution function: [cnd] is a smooth function plus a small
    upward jump at 0. *)
From Coq Require Import Reals QArith Qreals ZArith Bool Lra Lia Psatz.
From Coquelicot Require Import Coquelicot.
From Verif Require Import Num MBase PCnd.
Open Scope R_scope.

(** half of the jump of [cnd] at 0 *)
Definition jump : R := 1 / 2 - npdf 0 * Pk 1.

Lemma jump_pos : 0 < jump.
Proof. unfold jump; generalize jump0; lra. Qed.

(** [cnd] with the jump removed *)
Definition cndc (x : R) : R := cnd x - jump * Rsgn x.

(** [cndc' = npdf * hx] *)
Definition hx (x : R) : R := Rabs x * Pk (Kx x) + c0 * Qk (Kx x).

Definition cndc_r (x : R) : R := 1 - npdf x * Pk (/ (1 + c0 * x)) - jump.
Definition cndc_l (x : R) : R := npdf x * Pk (/ (1 - c0 * x)) + jump.

Lemma cndc_right x : 0 <= x -> cndc x = cndc_r x.
Proof.
  intros [H|H]; unfold cndc, cndc_r.
  - rewrite cnd_pos_form, Rsgn_pos by lra. unfold Kx. rewrite Rabs_pos_eq by lra. ring.
  - subst. rewrite cnd_0, Rsgn_0. replace (1 + c0 * 0) with 1 by ring. rewrite Rinv_1.
    unfold jump; field.
Qed.
Lemma cndc_left x : x <= 0 -> cndc x = cndc_l x.
Proof.
  intros [H|H]; unfold cndc, cndc_l.
  - rewrite cnd_neg_form, Rsgn_neg by lra. unfold Kx. rewrite Rabs_left by lra.
    replace (1 + c0 * - x) with (1 - c0 * x) by ring. ring.
  - subst. rewrite cnd_0, Rsgn_0. replace (1 - c0 * 0) with 1 by ring. rewrite Rinv_1.
    unfold jump; field.
Qed.

Lemma npdf_derive x : is_derive npdf x (- x * npdf x).
Proof.
  unfold npdf. auto_derive; [easy|]. simpl. unfold Rdiv. field. apply Rgt_not_eq, sqrt2PI_pos.
Qed.

Lemma glue_derive (f f1 f2 : R -> R) l :
  (forall x, 0 <= x -> f x = f1 x) -> (forall x, x <= 0 -> f x = f2 x) ->
  is_derive f1 0 l -> is_derive f2 0 l -> is_derive f 0 l.
Proof.
  intros E1 E2 D1 D2. apply is_derive_Reals. apply is_derive_Reals in D1, D2.
  intros eps He. destruct (D1 eps He) as [d1 H1]. destruct (D2 eps He) as [d2 H2].
  exists (mkposreal _ (Rmin_stable_in_posreal d1 d2)). simpl. intros h Hn Hh.
  destruct (Rle_dec 0 h).
  - rewrite (E1 (0 + h)), (E1 0) by lra. apply H1; auto.
    eapply Rlt_le_trans; [exact Hh | apply Rmin_l].
  - rewrite (E2 (0 + h)), (E2 0) by lra. apply H2; auto.
    eapply Rlt_le_trans; [exact Hh | apply Rmin_r].
Qed.

Lemma ext_derive_pos (f f1 : R -> R) x l :
  0 < x -> (forall y, 0 <= y -> f y = f1 y) -> is_derive f1 x l -> is_derive f x l.
Proof.
  intros Hx E D. apply is_derive_ext_loc with f1; auto.
  exists (mkposreal _ Hx). intros y Hy. symmetry. apply E.
  change (Rabs (y - x) < x) in Hy. apply Rabs_def2 in Hy. lra.
Qed.
Lemma ext_derive_neg (f f1 : R -> R) x l :
  x < 0 -> (forall y, y <= 0 -> f y = f1 y) -> is_derive f1 x l -> is_derive f x l.
Proof.
  intros Hx E D. apply is_derive_ext_loc with f1; auto.
  assert (Hx' : 0 < - x) by lra.
  exists (mkposreal _ Hx'). intros y Hy. symmetry. apply E.
  change (Rabs (y - x) < - x) in Hy. apply Rabs_def2 in Hy. lra.
Qed.

Lemma c0_pos : 0 < c0. Proof. unfold c0; lra. Qed.

Lemma cndc_r_derive x : 0 <= x -> is_derive cndc_r x (npdf x * hx x).
Proof.
  intros Hx. assert (0 < 1 + c0 * x) by (generalize c0_pos; nra).
  unfold cndc_r.
  evar_last.
  { apply (is_derive_minus (fun x => 1 - npdf x * Pk (/ (1 + c0 * x))) (fun _ => jump)).
    - apply (is_derive_minus (fun _ => 1) (fun x => npdf x * Pk (/ (1 + c0 * x)))).
      + apply is_derive_const.
      + apply (is_derive_mult npdf (fun x => Pk (/ (1 + c0 * x)))).
        * apply npdf_derive.
        * apply (is_derive_comp Pk (fun x => / (1 + c0 * x))).
          -- apply Pk_derive.
          -- auto_derive; [lra|reflexivity].
        * intros; apply Rmult_comm.
    - apply is_derive_const. }
  hier.
  unfold hx, Qk, Kx. rewrite (Rabs_pos_eq x) by lra. field. lra.
Qed.

Lemma cndc_l_derive x : x <= 0 -> is_derive cndc_l x (npdf x * hx x).
Proof.
  intros Hx. assert (0 < 1 - c0 * x) by (generalize c0_pos; nra).
  unfold cndc_l.
  evar_last.
  { apply (is_derive_plus (fun x => npdf x * Pk (/ (1 - c0 * x))) (fun _ => jump)).
    - apply (is_derive_mult npdf (fun x => Pk (/ (1 - c0 * x)))).
      + apply npdf_derive.
      + apply (is_derive_comp Pk (fun x => / (1 - c0 * x))).
        * apply Pk_derive.
        * auto_derive; [lra|reflexivity].
      + intros; apply Rmult_comm.
    - apply is_derive_const. }
  hier.
  unfold hx, Qk, Kx. rewrite (Rabs_left1 x) by lra.
  replace (1 + c0 * - x) with (1 - c0 * x) by ring. field. lra.
Qed.

Lemma cndc_derive x : is_derive cndc x (npdf x * hx x).
Proof.
  destruct (Rtotal_order x 0) as [H|[H|H]].
  - apply ext_derive_neg with cndc_l; auto. apply cndc_left. apply cndc_l_derive; lra.
  - subst. apply glue_derive with cndc_r cndc_l.
    + apply cndc_right. + apply cndc_left.
    + apply cndc_r_derive; lra. + apply cndc_l_derive; lra.
  - apply ext_derive_pos with cndc_r; auto. apply cndc_right. apply cndc_r_derive; lra.
Qed.

Lemma hx_even x : hx (- x) = hx x.
Proof. unfold hx; now rewrite Kx_even, Rabs_Ropp. Qed.

Lemma Qk_pos k : 0 < k <= 1 -> 0 < Qk k.
Proof.
  intros. unfold Qk. apply Rmult_lt_0_compat. apply pow_lt; lra. apply Pk'_pos; lra.
Qed.
Lemma hx_pos x : 0 < hx x.
Proof.
  unfold hx. generalize (Rabs_pos x) (Pk_pos _ (Kx_range x)) (Qk_pos _ (Kx_range x)) c0_pos.
  intros. assert (0 < c0 * Qk (Kx x)) by now apply Rmult_lt_0_compat. nra.
Qed.

(** x / hx x is strictly increasing (cross-multiplied form) *)
Lemma hx_ratio_pos x y : 0 <= x -> x < y -> x * hx y < y * hx x.
Proof.
  intros Hx Hy. destruct Hx as [Hx|Hx].
  - unfold hx. rewrite !Rabs_pos_eq by lra.
    assert (K : Kx y < Kx x) by (apply Kx_decr; lra).
    assert (A : Pk (Kx y) < Pk (Kx x)) by (apply Pk_incr; [left; apply Kx_range| easy| apply Kx_range]).
    assert (B : Qk (Kx y) < Qk (Kx x)) by (apply Qk_incr; [left; apply Kx_range| easy| apply Kx_range]).
    generalize c0_pos (Qk_pos _ (Kx_range x)); intros.
    assert (x * (y * Pk (Kx y)) < y * (x * Pk (Kx x))).
    { replace (y * (x * Pk (Kx x))) with ((x * y) * Pk (Kx x)) by ring.
      replace (x * (y * Pk (Kx y))) with ((x * y) * Pk (Kx y)) by ring.
      apply Rmult_lt_compat_l; [nra|easy]. }
    assert (x * (c0 * Qk (Kx y)) < y * (c0 * Qk (Kx x))).
    { apply Rle_lt_trans with (x * (c0 * Qk (Kx x))).
      - apply Rmult_le_compat_l; [lra|]. left. now apply Rmult_lt_compat_l.
      - apply Rmult_lt_compat_r; [|easy]. now apply Rmult_lt_0_compat. }
    lra.
  - subst. rewrite Rmult_0_l. apply Rmult_lt_0_compat; [easy|apply hx_pos].
Qed.

Lemma hx_ratio x y : x < y -> x * hx y < y * hx x.
Proof.
  intros H. destruct (Rle_dec 0 x) as [X|X].
  - now apply hx_ratio_pos.
  - destruct (Rle_dec y 0) as [Y|Y].
    + generalize (hx_ratio_pos (- y) (- x)). rewrite !hx_even. lra.
    + generalize (hx_pos x) (hx_pos y). nra.
Qed.

(** limits *)
Lemma npdf_small eps : 0 < eps -> exists A, 0 < A /\ forall x, A < x -> npdf x < eps.
Proof.
  intros He.
  set (m := npdf 0). assert (Hm : 0 < m) by apply npdf_pos.
  exists (Rmax 1 (2 * m / eps)). split. { apply Rlt_le_trans with 1; [lra|apply Rmax_l]. }
  intros x Hx.
  assert (X1 : 1 < x) by (eapply Rle_lt_trans; [apply Rmax_l|exact Hx]).
  assert (X2 : 2 * m / eps < x) by (eapply Rle_lt_trans; [apply Rmax_r|exact Hx]).
  assert (E : npdf x = m / exp (x ^ 2 / 2)).
  { unfold m. rewrite npdf_0. unfold npdf.
    replace (- x ^ 2 / 2) with (- (x ^ 2 / 2)) by field. rewrite exp_Ropp. field.
    split; apply Rgt_not_eq; [apply sqrt2PI_pos | apply exp_pos]. }
  rewrite E.
  assert (x / 2 < exp (x ^ 2 / 2)).
  { apply Rlt_trans with (1 + x ^ 2 / 2); [nra|]. apply exp_ineq1. nra. }
  apply Rlt_div_l; [apply exp_pos|].
  apply Rlt_trans with (eps * (x / 2)).
  - apply Rlt_div_l in X2; [|lra]. lra.
  - apply Rmult_lt_compat_l; lra.
Qed.

Lemma cnd_lim_pos eps : 0 < eps -> exists A, 0 < A /\ forall x, A < x -> 1 - eps < cnd x.
Proof.
  intros He.
  destruct (npdf_small (eps / Pk 1)) as [A [HA H]].
  { apply Rdiv_lt_0_compat; [lra|apply Pk_pos; lra]. }
  exists A; split; auto. intros x Hx. specialize (H x Hx).
  rewrite cnd_pos_form by lra.
  assert (Pk (Kx x) < Pk 1) by (apply Pk_Kx_lt; lra).
  assert (0 < Pk (Kx x)) by apply Pk_pos, Kx_range.
  assert (0 < npdf x) by apply npdf_pos.
  apply Rlt_div_r in H; [|apply Pk_pos; lra]. nra.
Qed.
Lemma cnd_lim_neg eps : 0 < eps -> exists A, A < 0 /\ forall x, x < A -> cnd x < eps.
Proof.
  intros He. destruct (cnd_lim_pos eps He) as [A [HA H]].
  exists (- A); split; [lra|]. intros x Hx. specialize (H (- x) ltac:(lra)).
  rewrite cnd_opp in H. lra.
Qed.
