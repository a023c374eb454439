(** Facts about the approximate normal distribution function of base.py over the reals. *)
From Coq Require Import Reals QArith Qreals ZArith Bool Lra Lia Psatz Machin.
From Coquelicot Require Import Coquelicot.
From Verif Require Import Num MBase.
Open Scope R_scope.

(** Coquelicot's algebraic-structure operations on R, unfolded. *)
Ltac hier :=
  unfold minus, Hierarchy.plus, Hierarchy.mult, scal, Hierarchy.opp, Hierarchy.zero, Hierarchy.one;
  simpl; unfold Hierarchy.mult; simpl.

(* ------------------------------------------------------------------ *)
(** * A bound on pi, from Machin's formula in the standard library *)

Lemma PI_lb : 3.1415926535 < PI.
Proof.
  destruct (PI_2_3_7_ineq 5) as [L _].
  assert (E : sum_f_R0 (tg_alt PI_2_3_7_tg) (S (2 * 5)) > 3.1415926535 / 4).
  { unfold tg_alt, PI_2_3_7_tg, Ratan_seq. cbn [sum_f_R0 Nat.mul Nat.add INR pow].
    lra. }
  lra.
Qed.

Lemma PI_ub : PI < 3.1415926536.
Proof.
  destruct (PI_2_3_7_ineq 5) as [_ L].
  assert (E : sum_f_R0 (tg_alt PI_2_3_7_tg) (2 * 5) < 3.1415926536 / 4).
  { unfold tg_alt, PI_2_3_7_tg, Ratan_seq. cbn [sum_f_R0 Nat.mul Nat.add INR pow].
    lra. }
  lra.
Qed.

(* ------------------------------------------------------------------ *)
(** * Plain real forms *)

(** the standard normal density *)
Definition npdf (x : R) : R := exp (- (x ^ 2) / 2) / sqrt (2 * PI).

Definition c0 : R := 0.2316419.
Definition Kx (x : R) : R := / (1 + c0 * Rabs x).
Definition Pk (k : R) : R :=
  0.319381530 * k - 0.356563782 * k ^ 2 + 1.781477937 * k ^ 3
  - 1.821255978 * k ^ 4 + 1.330274429 * k ^ 5.
Definition Pk' (k : R) : R :=
  0.319381530 - 0.713127564 * k + 5.344433811 * k ^ 2
  - 7.285023912 * k ^ 3 + 6.651372145 * k ^ 4.
Definition Pk'' (k : R) : R :=
  - 0.713127564 + 10.688867622 * k - 21.855071736 * k ^ 2 + 26.60548858 * k ^ 3.

Lemma ndf_npdf x : ndf x = npdf x.
Proof.
  unfold ndf, npdf. toR. rewrite atan_1.
  f_equal; [f_equal; field | f_equal; field].
Qed.

Lemma cnd_k_Kx x : cnd_k x = Kx x.
Proof.
  unfold cnd_k, Kx, c0. toR.
  assert (0 <= Rabs x) by apply Rabs_pos.
  field; lra.
Qed.

Lemma cnd_poly_Pk k : cnd_poly k = Pk k.
Proof. unfold cnd_poly, Pk. toR. simpl. field. Qed.

Lemma cnd_form x : cnd x = 1 / 2 - (npdf x * Pk (Kx x) - 1 / 2) * Rsgn x.
Proof.
  unfold cnd. rewrite cnd_k_Kx, cnd_poly_Pk, ndf_npdf. toR. field.
Qed.

Lemma cnd_pos_form x : 0 < x -> cnd x = 1 - npdf x * Pk (Kx x).
Proof. intros; rewrite cnd_form, Rsgn_pos by lra; field. Qed.
Lemma cnd_neg_form x : x < 0 -> cnd x = npdf x * Pk (Kx x).
Proof. intros; rewrite cnd_form, Rsgn_neg by lra; field. Qed.
Lemma cnd_0 : cnd 0 = 1 / 2.
Proof. rewrite cnd_form, Rsgn_0; field. Qed.

Lemma Kx_even x : Kx (- x) = Kx x.
Proof. unfold Kx; now rewrite Rabs_Ropp. Qed.
Lemma npdf_even x : npdf (- x) = npdf x.
Proof. unfold npdf; do 3 f_equal; ring. Qed.
Lemma Rsgn_opp x : Rsgn (- x) = - Rsgn x.
Proof.
  destruct (Rtotal_order x 0) as [H|[H|H]].
  - rewrite (Rsgn_neg x), Rsgn_pos; lra.
  - subst. rewrite Ropp_0, Rsgn_0; lra.
  - rewrite (Rsgn_pos x), Rsgn_neg; lra.
Qed.

(** The approximation satisfies F(x) + F(-x) = 1 exactly. *)
Lemma cnd_sym x : cnd x + cnd (- x) = 1.
Proof. rewrite !cnd_form, Kx_even, npdf_even, Rsgn_opp. field. Qed.
Lemma cnd_opp x : cnd (- x) = 1 - cnd x.
Proof. generalize (cnd_sym x); lra. Qed.

(* ------------------------------------------------------------------ *)
(** * The polynomial *)

Lemma Kx_range x : 0 < Kx x <= 1.
Proof.
  unfold Kx, c0. assert (0 <= Rabs x) by apply Rabs_pos.
  split. { apply Rinv_0_lt_compat; lra. }
  rewrite <- Rinv_1. apply Rinv_le_contravar; lra.
Qed.
Lemma Kx_0 : Kx 0 = 1.
Proof. unfold Kx; rewrite Rabs_R0. replace (1 + c0 * 0) with 1 by ring. apply Rinv_1. Qed.

Lemma Kx_decr x y : 0 <= x -> x < y -> Kx y < Kx x.
Proof.
  intros. unfold Kx, c0. rewrite !Rabs_pos_eq by lra.
  apply Rinv_lt_contravar; [|lra]. apply Rmult_lt_0_compat; lra.
Qed.
Lemma Kx_incr x y : x < y -> y <= 0 -> Kx x < Kx y.
Proof.
  intros. rewrite <- (Kx_even x), <- (Kx_even y). apply Kx_decr; lra.
Qed.

Lemma Pk'_pos k : 0 <= k <= 1 -> 0 < Pk' k.
Proof.
  intros. unfold Pk'.
  assert (0.319381530 - 0.713127564 * k + 0.5 * k^2 > 0) by nra.
  assert (k^2 * (4.844433811 - 7.285023912 * k + 6.651372145 * k ^ 2) >= 0).
  { assert (0 <= k^2) by nra.
    assert (4.844433811 - 7.285023912 * k + 6.651372145 * k ^ 2 > 0) by nra. nra. }
  nra.
Qed.

(** derivative of k^2 P'(k), divided by k *)
Lemma Pk'2_pos k : 0 <= k <= 1 -> 0 < 2 * Pk' k + k * Pk'' k.
Proof.
  intros. unfold Pk', Pk''.
  assert (0 <= k^2) by nra.
  assert (E : 2 * (0.319381530 - 0.713127564 * k + 5.344433811 * k ^ 2
  - 7.285023912 * k ^ 3 + 6.651372145 * k ^ 4) + k * (- 0.713127564 + 10.688867622 * k - 21.855071736 * k ^ 2 + 26.60548858 * k ^ 3)
   = (0.63876306 - 2.139382692 * k + 2.5 * k^2) +
     k^2 * (18.877735244 - 36.42511956 * k + 39.90823287 * k^2)) by lra.
  rewrite E.
  assert (0.63876306 - 2.139382692 * k + 2.5 * k^2 > 0)
    by (generalize (pow2_ge_0 (k - 0.43)); intros; lra).
  assert (18.877735244 - 36.42511956 * k + 39.90823287 * k^2 > 0)
    by (generalize (pow2_ge_0 (k - 0.456)); intros; lra).
  nra.
Qed.

Lemma Pk_derive k : is_derive Pk k (Pk' k).
Proof. unfold Pk, Pk'. auto_derive; [easy|]. simpl; lra. Qed.
Lemma Pk'_derive k : is_derive Pk' k (Pk'' k).
Proof. unfold Pk', Pk''. auto_derive; [easy|]. simpl; lra. Qed.

(** strict monotonicity on an interval from a positive derivative *)
Lemma incr_of_derive (f f' : R -> R) a b :
  (forall x, a <= x <= b -> is_derive f x (f' x)) ->
  (forall x, a < x < b -> 0 < f' x) -> a < b -> f a < f b.
Proof.
  intros D P ab.
  destruct (MVT_cor2 f f' a b ab) as [c [E C]].
  { intros c Hc. now apply is_derive_Reals, D. }
  specialize (P c C). nra.
Qed.

Lemma Pk_incr k l : 0 <= k -> k < l -> l <= 1 -> Pk k < Pk l.
Proof.
  intros. apply incr_of_derive with (f' := Pk'); auto.
  - intros; apply Pk_derive.
  - intros; apply Pk'_pos; lra.
Qed.
Lemma Pk_0 : Pk 0 = 0. Proof. unfold Pk; field. Qed.
Lemma Pk_pos k : 0 < k <= 1 -> 0 < Pk k.
Proof. intros; rewrite <- Pk_0; apply Pk_incr; lra. Qed.
Lemma Pk_1 : Pk 1 = 1.253314136. Proof. unfold Pk; lra. Qed.

(** k^2 P'(k) is increasing *)
Definition Qk (k : R) : R := k ^ 2 * Pk' k.
Lemma Qk_incr k l : 0 <= k -> k < l -> l <= 1 -> Qk k < Qk l.
Proof.
  intros. apply incr_of_derive with (f' := fun k => k * (2 * Pk' k + k * Pk'' k)); auto.
  - intros x Hx. unfold Qk.
    apply (is_derive_ext (fun k => mult (k ^ 2) (Pk' k))); [easy|].
    evar_last. { apply (is_derive_mult (fun k => k ^ 2) Pk'); [auto_derive; easy | apply Pk'_derive | intros; apply Rmult_comm]. }
    unfold plus, mult; simpl. ring.
  - intros x Hx. apply Rmult_lt_0_compat; [lra|]. apply Pk'2_pos; lra.
Qed.

(* ------------------------------------------------------------------ *)
(** * Density *)

Lemma sqrt2PI_pos : 0 < sqrt (2 * PI).
Proof. apply sqrt_lt_R0. generalize PI_lb; lra. Qed.
Lemma npdf_pos x : 0 < npdf x.
Proof. unfold npdf. apply Rdiv_lt_0_compat; [apply exp_pos | apply sqrt2PI_pos]. Qed.
Lemma npdf_0 : npdf 0 = / sqrt (2 * PI).
Proof. unfold npdf. replace (- 0 ^ 2 / 2) with 0 by field. rewrite exp_0. field. apply Rgt_not_eq, sqrt2PI_pos. Qed.
Lemma npdf_incr x y : x < y -> y <= 0 -> npdf x < npdf y.
Proof.
  intros. unfold npdf, Rdiv. apply Rmult_lt_compat_r.
  - apply Rinv_0_lt_compat, sqrt2PI_pos.
  - apply exp_increasing. nra.
Qed.
Lemma npdf_decr x y : 0 <= x -> x < y -> npdf y < npdf x.
Proof. intros. rewrite <- (npdf_even x), <- (npdf_even y). apply npdf_incr; lra. Qed.
Lemma npdf_le_0 x : npdf x <= npdf 0.
Proof.
  destruct (Rtotal_order x 0) as [H|[H|H]].
  - left; apply npdf_incr; lra.
  - subst; lra.
  - left; apply npdf_decr; lra.
Qed.

(** The jump at 0: the polynomial gives slightly less than one half. *)
Lemma sqrt2PI_lb : 2 * Pk 1 < sqrt (2 * PI).
Proof.
  rewrite Pk_1. rewrite <- (sqrt_pow2 (2 * 1.253314136)) by lra.
  apply sqrt_lt_1; generalize PI_lb; simpl; lra.
Qed.
Lemma jump0 : npdf 0 * Pk 1 < 1 / 2.
Proof.
  rewrite npdf_0. generalize sqrt2PI_lb sqrt2PI_pos; intros L P.
  apply (Rmult_lt_reg_l (sqrt (2 * PI))); [easy|]. field_simplify; lra.
Qed.

(* ------------------------------------------------------------------ *)
(** * Distribution-function properties *)

Lemma tail_lt_half x : npdf x * Pk (Kx x) < 1 / 2.
Proof.
  apply Rle_lt_trans with (npdf 0 * Pk 1); [|apply jump0].
  apply Rmult_le_compat.
  - left; apply npdf_pos.
  - left; apply Pk_pos, Kx_range.
  - apply npdf_le_0.
  - destruct (Kx_range x) as [A [B|B]].
    + left. apply Pk_incr; lra.
    + rewrite B; lra.
Qed.
Lemma tail_pos x : 0 < npdf x * Pk (Kx x).
Proof. apply Rmult_lt_0_compat; [apply npdf_pos | apply Pk_pos, Kx_range]. Qed.

Lemma cnd_neg_half x : x < 0 -> cnd x < 1 / 2.
Proof. intros; rewrite cnd_neg_form by lra; apply tail_lt_half. Qed.
Lemma cnd_pos_half x : 0 < x -> 1 / 2 < cnd x.
Proof. intros; rewrite cnd_pos_form by lra; generalize (tail_lt_half x); lra. Qed.

Lemma cnd_range x : 0 < cnd x < 1.
Proof.
  destruct (Rtotal_order x 0) as [H|[H|H]].
  - rewrite cnd_neg_form by lra. generalize (tail_lt_half x) (tail_pos x); lra.
  - subst; rewrite cnd_0; lra.
  - rewrite cnd_pos_form by lra. generalize (tail_lt_half x) (tail_pos x); lra.
Qed.

Lemma tail_incr x y : x < y -> y <= 0 -> npdf x * Pk (Kx x) < npdf y * Pk (Kx y).
Proof.
  intros. apply Rmult_gt_0_lt_compat.
  - apply Pk_pos, Kx_range.
  - apply npdf_pos.
  - now apply npdf_incr.
  - apply Pk_incr; [left; apply Kx_range | now apply Kx_incr | apply Kx_range].
Qed.

Lemma cnd_incr x y : x < y -> cnd x < cnd y.
Proof.
  intros H.
  destruct (Rtotal_order x 0) as [X|[X|X]]; destruct (Rtotal_order y 0) as [Y|[Y|Y]]; try lra.
  - rewrite !cnd_neg_form by lra. apply tail_incr; lra.
  - subst y. rewrite cnd_0. now apply cnd_neg_half.
  - generalize (cnd_neg_half x X) (cnd_pos_half y Y); lra.
  - subst x. rewrite cnd_0. now apply cnd_pos_half.
  - generalize (tail_incr (- y) (- x)). rewrite !npdf_even, !Kx_even.
    rewrite !cnd_pos_form by lra. intro G. specialize (G ltac:(lra) ltac:(lra)). lra.
Qed.

(** Mills-type ratio F(x) / phi(x): strictly increasing. *)
Definition mills (x : R) : R := cnd x / npdf x.

Lemma mills_neg x : x < 0 -> mills x = Pk (Kx x).
Proof. intros; unfold mills; rewrite cnd_neg_form by lra. field. apply Rgt_not_eq, npdf_pos. Qed.
Lemma mills_pos x : 0 < x -> mills x = / npdf x - Pk (Kx x).
Proof. intros; unfold mills; rewrite cnd_pos_form by lra. field. apply Rgt_not_eq, npdf_pos. Qed.
Lemma mills_0 : mills 0 = sqrt (2 * PI) / 2.
Proof. unfold mills; rewrite cnd_0, npdf_0. field. apply Rgt_not_eq, sqrt2PI_pos. Qed.

Lemma Kx_lt1 x : x <> 0 -> Kx x < 1.
Proof.
  intros. destruct (Rtotal_order x 0) as [X|[X|X]]; try lra.
  - rewrite <- Kx_0. apply Kx_incr; lra.
  - rewrite <- Kx_0. apply Kx_decr; lra.
Qed.
Lemma Pk_Kx_lt x : x <> 0 -> Pk (Kx x) < Pk 1.
Proof. intros. apply Pk_incr; [left; apply Kx_range | now apply Kx_lt1 | lra]. Qed.

Lemma mills_neg_lt x : x < 0 -> mills x < mills 0.
Proof.
  intros. rewrite mills_neg, mills_0 by lra.
  generalize (Pk_Kx_lt x) sqrt2PI_lb; intros. lra.
Qed.
Lemma mills_pos_gt x : 0 < x -> mills 0 < mills x.
Proof.
  intros. rewrite mills_0, mills_pos by lra.
  generalize (Pk_Kx_lt x) sqrt2PI_lb; intros.
  assert (sqrt (2 * PI) <= / npdf x).
  { replace (sqrt (2 * PI)) with (/ npdf 0).
    - apply Rinv_le_contravar; [apply npdf_pos | apply npdf_le_0].
    - rewrite npdf_0. apply Rinv_inv. }
  lra.
Qed.

Lemma mills_incr x y : x < y -> mills x < mills y.
Proof.
  intros H.
  destruct (Rtotal_order x 0) as [X|[X|X]]; destruct (Rtotal_order y 0) as [Y|[Y|Y]]; try lra.
  - rewrite !mills_neg by lra. apply Pk_incr; [left; apply Kx_range | apply Kx_incr; lra | apply Kx_range].
  - subst. now apply mills_neg_lt.
  - generalize (mills_neg_lt x X) (mills_pos_gt y Y); lra.
  - subst. now apply mills_pos_gt.
  - rewrite !mills_pos by lra.
    assert (Pk (Kx y) < Pk (Kx x))
      by (apply Pk_incr; [left; apply Kx_range | apply Kx_decr; lra | apply Kx_range]).
    assert (/ npdf x < / npdf y).
    { apply Rinv_lt_contravar; [apply Rmult_lt_0_compat; apply npdf_pos | apply npdf_decr; lra]. }
    lra.
Qed.

