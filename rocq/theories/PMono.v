(** Strike and spot monotonicity of the Black-Scholes prices with the code's distribution function. *)
From Coq Require Import Reals QArith Qreals ZArith Bool List Lra Lia Psatz.
From Coquelicot Require Import Coquelicot.
From Interval Require Import Tactic.
From Verif Require Import Num Py MBase MVanilla PCnd PCnd2 PBlack PGauss PGbs PGbs2.
Open Scope R_scope.

(* ------------------------------------------------------------------ *)
(** * Slope of hx *)

Definition kr (x : R) : R := / (1 + c0 * x).
Definition hr (x : R) : R := x * Pk (kr x) + c0 * Qk (kr x).
Definition Qk' (k : R) : R := 2 * k * Pk' k + k ^ 2 * Pk'' k.
Definition hr' (x : R) : R :=
  let k := kr x in Pk k - (1 - k) * k * Pk' k - c0 ^ 2 * k ^ 2 * Qk' k.

Lemma hx_hr x : 0 <= x -> hx x = hr x.
Proof. intros. unfold hx, hr, Kx, kr. now rewrite Rabs_pos_eq. Qed.

Lemma kr_derive x : 0 <= x -> is_derive kr x (- c0 * kr x ^ 2).
Proof.
  intros Hx. assert (D : 0 < 1 + c0 * x) by (generalize c0_pos; nra).
  unfold kr. auto_derive; [lra|]. generalize c0 D. intros c Dc. field. lra.
Qed.
Lemma Qk_derive k : is_derive Qk k (Qk' k).
Proof.
  unfold Qk, Qk'. evar_last.
  { apply (is_derive_mult (fun k => k ^ 2) Pk'). auto_derive; reflexivity. apply Pk'_derive. intros; hier; ring. }
  hier. ring.
Qed.

Lemma hr_derive x : 0 <= x -> is_derive hr x (hr' x).
Proof.
  intros Hx. assert (D : 0 < 1 + c0 * x) by (generalize c0_pos; nra).
  unfold hr. evar_last.
  { apply (is_derive_plus (fun x => x * Pk (kr x)) (fun x => c0 * Qk (kr x))).
    - apply (is_derive_mult (fun x => x) (fun x => Pk (kr x))).
      + apply is_derive_id.
      + apply (is_derive_comp Pk kr). apply Pk_derive. now apply kr_derive.
      + intros; hier; ring.
    - apply (is_derive_scal (fun x => Qk (kr x)) x c0).
      apply (is_derive_comp Qk kr). apply Qk_derive. now apply kr_derive. }
  hier. unfold hr'. cbv zeta.
  assert (E : 1 - kr x = c0 * x * kr x).
  { unfold kr. revert D. generalize c0. intros c D. field. lra. }
  rewrite E. generalize (Pk (kr x)) (Pk' (kr x)) (Qk' (kr x)) (kr x) c0. intros. ring.
Qed.

Lemma slope_a k : 0 < k <= 1 -> (1 - k) * k * Pk' k + c0 ^ 2 * k ^ 2 * Qk' k < 2 * Pk k.
Proof.
  intros Hk.
  assert (G : (1 - k) * Pk' k + c0 ^ 2 * k * Qk' k
    < 2 * (0.319381530 - 0.356563782 * k + 1.781477937 * k ^ 2 - 1.821255978 * k ^ 3 + 1.330274429 * k ^ 4)).
  { unfold Qk', Pk', Pk'', c0. 
    match goal with |- ?a < ?b => cut (0 < b - a); [lra|] end.
    interval with (i_bisect k, i_taylor k, i_prec 60). }
  replace (2 * Pk k) with (k * (2 * (0.319381530 - 0.356563782 * k + 1.781477937 * k ^ 2 - 1.821255978 * k ^ 3 + 1.330274429 * k ^ 4)))
    by (unfold Pk; ring).
  replace ((1 - k) * k * Pk' k + c0 ^ 2 * k ^ 2 * Qk' k) with (k * ((1 - k) * Pk' k + c0 ^ 2 * k * Qk' k)) by ring.
  apply Rmult_lt_compat_l; lra.
Qed.

Lemma slope_b k : 0 < k <= 1 -> (1 - k) * k * Pk' k + c0 ^ 2 * k ^ 2 * Qk' k - Pk k < 1.25.
Proof.
  intros Hk. unfold Qk', Pk, Pk', Pk'', c0. interval with (i_bisect k, i_taylor k, i_prec 60).
Qed.

Lemma kr_range x : 0 <= x -> 0 < kr x <= 1.
Proof.
  intros. generalize (Kx_range x). unfold Kx, kr. now rewrite Rabs_pos_eq.
Qed.
Lemma kr_decr x y : 0 <= x -> x <= y -> kr y <= kr x.
Proof.
  intros. unfold kr. apply Rinv_le_contravar; generalize c0_pos; nra.
Qed.
Lemma Pk_le a b : 0 < a -> a <= b -> b <= 1 -> Pk a <= Pk b.
Proof. intros. destruct (Req_dec a b); [subst; lra|]. left. apply Pk_incr; lra. Qed.

Lemma hr_drop a b M : 0 <= a -> a < b -> (forall u, a <= u <= b -> - hr' u < M) -> hr a - hr b < (b - a) * M.
Proof.
  intros Ha Hb HM.
  assert (G : hr a + M * a < hr b + M * b).
  { apply (incr_of_derive (fun u => hr u + M * u) (fun u => hr' u + M)); auto.
    - intros z Hz. evar_last.
      { apply (is_derive_plus hr (fun u => M * u)). apply hr_derive; lra. auto_derive; reflexivity. }
      hier. ring.
    - intros z Hz. specialize (HM z). lra. }
  lra.
Qed.

Lemma hr_drop_a a b : 0 <= a -> a < b -> hr a - hr b < (b - a) * Pk (kr a).
Proof.
  intros. apply hr_drop; auto. intros u Hu. unfold hr'. cbv zeta.
  assert (R := kr_range u ltac:(lra)). generalize (slope_a (kr u) R).
  generalize (Pk_le (kr u) (kr a) (proj1 R) (kr_decr a u ltac:(lra) ltac:(lra)) (proj2 (kr_range a ltac:(lra)))). lra.
Qed.
Lemma hr_drop_b a b : 0 <= a -> a < b -> hr a - hr b < (b - a) * 1.25.
Proof.
  intros. apply hr_drop; auto. intros u Hu. unfold hr'. cbv zeta.
  assert (R := kr_range u ltac:(lra)). generalize (slope_b (kr u) R). lra.
Qed.

(** x < 0 *)
Lemma drop_neg x y : x < 0 -> x < y -> hx x - hx y < (y - x) * mills x.
Proof.
  intros Hx Hy. rewrite mills_neg by easy.
  assert (Px : 0 < Pk (Kx x)) by apply Pk_pos, Kx_range.
  assert (NP : forall z, x < z -> z <= 0 -> hx x - hx z < (z - x) * Pk (Kx x)).
  { intros z Z1 Z2. unfold hx. rewrite (Rabs_left x), (Rabs_left1 z) by lra.
    assert (Kx x < Kx z) by (apply Kx_incr; lra).
    assert (Pk (Kx x) < Pk (Kx z)) by (apply Pk_incr; [left; apply Kx_range| easy| apply Kx_range]).
    assert (Qk (Kx x) < Qk (Kx z)) by (apply Qk_incr; [left; apply Kx_range| easy| apply Kx_range]).
    generalize c0_pos; intros. nra. }
  destruct (Rle_dec y 0) as [Y|Y]; [now apply NP|].
  destruct (Rtotal_order y (- x)) as [L|[L|L]].
  - rewrite <- (hx_even y). generalize (NP (- y) ltac:(lra) ltac:(lra)). nra.
  - subst y. rewrite hx_even. nra.
  - rewrite <- (hx_even x), !hx_hr by lra.
    generalize (hr_drop_a (- x) y ltac:(lra) L).
    replace (kr (- x)) with (Kx x) by (unfold Kx, kr; now rewrite Rabs_left). nra.
Qed.

(** ratio for the smoothed function *)
Definition mc (x : R) : R := cndc x / npdf x.

Lemma mc_neg x : x < 0 -> mills x < mc x.
Proof.
  intros. unfold mills, mc, cndc. rewrite Rsgn_neg by lra. apply Rmult_lt_compat_r.
  apply Rinv_0_lt_compat, npdf_pos. generalize jump_pos; lra.
Qed.
Lemma cndc_incr x y : x < y -> cndc x < cndc y.
Proof.
  intros. apply incr_of_derive with (f' := fun x => npdf x * hx x); auto.
  - intros; apply cndc_derive. - intros; apply Rmult_lt_0_compat; [apply npdf_pos|apply hx_pos].
Qed.
Lemma mc_ge x : 0 <= x -> 1.25 < mc x.
Proof.
  intros Hx. assert (C : 1 / 2 <= cndc x).
  { replace (1 / 2) with (cndc 0) by (unfold cndc; rewrite cnd_0, Rsgn_0; field).
    destruct Hx as [Hx|Hx]; [left; now apply cndc_incr|subst; lra]. }
  unfold mc. assert (N : 0 < npdf x <= npdf 0) by (split; [apply npdf_pos|apply npdf_le_0]).
  assert (I : / npdf 0 <= / npdf x) by (apply Rinv_le_contravar; lra).
  rewrite npdf_0, Rinv_inv in I.
  assert (2.5 < sqrt (2 * PI)) by interval with (i_prec 60).
  unfold Rdiv. nra.
Qed.
Lemma drop_pos x y : 0 <= x -> x < y -> hx x - hx y < (y - x) * mc x.
Proof.
  intros Hx Hy. rewrite !hx_hr by lra. generalize (hr_drop_b x y Hx Hy) (mc_ge x Hx). nra.
Qed.

(* ------------------------------------------------------------------ *)
(** * The smooth part as a function of the strike value B *)

Definition dB (A B v : R) : R :=
  - cndc (bd2 A B v) + npdf (bd2 A B v) * (hx (bd2 A B v) - hx (bd1 A B v)) / v.

Lemma bsmooth_derive_B A B v : 0 < A -> 0 < B -> 0 < v ->
  is_derive (fun B => bsmooth A B v) B (dB A B v).
Proof.
  intros HA HB Hv. unfold bsmooth.
  assert (D : 0 < A / B) by now apply Rdiv_lt_0_compat.
  evar_last.
  { apply (is_derive_minus (fun B => A * cndc (bd1 A B v)) (fun B => B * cndc (bd2 A B v))).
    - apply (is_derive_scal (fun B => cndc (bd1 A B v)) B A).
      apply (is_derive_comp cndc (fun B => bd1 A B v)).
      + apply cndc_derive.
      + unfold bd1. auto_derive; [lra|reflexivity].
    - apply (is_derive_mult (fun B => B) (fun B => cndc (bd2 A B v))).
      + apply is_derive_id.
      + apply (is_derive_comp cndc (fun B => bd2 A B v)).
        * apply cndc_derive.
        * unfold bd2. auto_derive; [lra|reflexivity].
      + intros; hier; ring. }
  hier. unfold dB.
  assert (E := b_density A B v HA HB Hv).
  match goal with |- ?L = _ =>
    replace L with (- (A * npdf (bd1 A B v)) * hx (bd1 A B v) / (B * v) - cndc (bd2 A B v)
                     + B * npdf (bd2 A B v) * hx (bd2 A B v) / (B * v)) by (field; lra) end.
  rewrite E. field. lra.
Qed.


Lemma dB_neg A B v : 0 < v -> dB A B v < 0.
Proof.
  intros Hv. unfold dB. set (x := bd2 A B v). set (y := bd1 A B v).
  assert (Y : y - x = v) by (unfold x, y; rewrite bd12; ring).
  assert (N := npdf_pos x).
  assert (G : hx x - hx y < v * mc x).
  { rewrite <- Y. destruct (Rle_dec 0 x).
    - apply drop_pos; lra.
    - eapply Rlt_trans; [apply drop_neg; lra|]. apply Rmult_lt_compat_l; [lra|apply mc_neg; lra]. }
  assert ((hx x - hx y) / v < mc x).
  { apply Rmult_lt_reg_l with v; auto. replace (v * ((hx x - hx y) / v)) with (hx x - hx y) by (field; lra). lra. }
  replace (cndc x) with (npdf x * mc x) by (unfold mc; field; lra).
  unfold Rdiv in *. nra.
Qed.
(** left of the discontinuity the slope of the full price is negative too *)
Lemma dB_neg_l A B v : 0 < v -> bd2 A B v < 0 -> dB A B v + jump < 0.
Proof.
  intros Hv Hd. unfold dB. set (x := bd2 A B v) in *. set (y := bd1 A B v).
  assert (Y : y - x = v) by (unfold x, y; rewrite bd12; ring).
  assert (N := npdf_pos x).
  assert (G : hx x - hx y < v * mills x) by (rewrite <- Y; apply drop_neg; lra).
  assert ((hx x - hx y) / v < mills x).
  { apply Rmult_lt_reg_l with v; auto. replace (v * ((hx x - hx y) / v)) with (hx x - hx y) by (field; lra). lra. }
  replace (cndc x) with (npdf x * mills x + jump) by (unfold mills, cndc; rewrite Rsgn_neg by lra; field; lra).
  unfold Rdiv in *. nra.
Qed.

Lemma cndc_opp x : cndc (- x) = 1 - cndc x.
Proof. unfold cndc. rewrite cnd_opp, Rsgn_opp. ring. Qed.
Lemma mc_0 : mc 0 = mills 0.
Proof. unfold mc, mills, cndc. rewrite Rsgn_0. f_equal. ring. Qed.
Lemma mc_incr x y : 0 <= x -> x < y -> mc x < mc y.
Proof.
  intros Hx Hy. unfold mc, Rdiv.
  assert (cndc x < cndc y) by now apply cndc_incr.
  assert (0 < cndc x).
  { assert (1 / 2 <= cndc x); [|lra]. replace (1 / 2) with (cndc 0) by (unfold cndc; rewrite cnd_0, Rsgn_0; field).
    destruct Hx as [Hx|Hx]; [left; now apply cndc_incr|subst; lra]. }
  assert (/ npdf x < / npdf y).
  { apply Rinv_lt_contravar; [apply Rmult_lt_0_compat; apply npdf_pos | apply npdf_decr; lra]. }
  assert (0 < / npdf x) by apply Rinv_0_lt_compat, npdf_pos. nra.
Qed.

(** upper slopes: for X < Y *)
Lemma drop_up x y : x < y -> (0 <= y -> hx x - hx y < (y - x) * mc y) /\ (y < 0 -> hx x - hx y < (y - x) * mills y).
Proof.
  intros H. split; intros Hy.
  - destruct (Rle_dec 0 x) as [X|X].
    + eapply Rlt_trans; [apply drop_pos; lra|]. apply Rmult_lt_compat_l; [lra|apply mc_incr; lra].
    + eapply Rlt_le_trans; [apply drop_neg; lra|]. apply Rmult_le_compat_l; [lra|].
      apply Rle_trans with (mills 0). left; apply mills_incr; lra.
      rewrite <- mc_0. destruct Hy as [Hy|Hy]; [left; apply mc_incr; lra|subst; lra].
  - eapply Rlt_trans; [apply drop_neg; lra|]. apply Rmult_lt_compat_l; [lra|apply mills_incr; lra].
Qed.

Lemma div_lt a v m : 0 < v -> a < v * m -> a / v < m.
Proof.
  intros. apply Rmult_lt_reg_l with v; auto. replace (v * (a / v)) with a by (field; lra). lra.
Qed.

Lemma dB_gt A B v : 0 < v -> 0 < 1 + dB A B v.
Proof.
  intros Hv. unfold dB. set (x := bd2 A B v). set (y := bd1 A B v).
  assert (Y : y - x = v) by (unfold x, y; rewrite bd12; ring).
  assert (N := npdf_pos x).
  replace (1 + (- cndc x + npdf x * (hx x - hx y) / v)) with (cndc (- x) - npdf x * ((hx (- y) - hx (- x)) / v))
    by (rewrite cndc_opp, !hx_even; field; lra).
  assert (C : cndc (- x) = npdf x * mc (- x)) by (unfold mc; rewrite npdf_even; field; lra).
  assert (M : cnd (- x) = npdf x * mills (- x)) by (unfold mills; rewrite npdf_even; field; lra).
  destruct (drop_up (- y) (- x)) as [G1 G2]; [lra|].
  destruct (Rle_dec 0 (- x)) as [Z|Z].
  - specialize (G1 Z). replace (- x - - y) with v in G1 by lra. apply div_lt in G1; auto. rewrite C. nra.
  - specialize (G2 ltac:(lra)). replace (- x - - y) with v in G2 by lra. apply div_lt in G2; auto.
    assert (cndc (- x) = cnd (- x) + jump) by (unfold cndc; rewrite Rsgn_neg by lra; ring).
    generalize jump_pos. nra.
Qed.
Lemma dB_gt_r A B v : 0 < v -> 0 < bd2 A B v -> 0 < 1 + dB A B v - jump.
Proof.
  intros Hv Hx. unfold dB. set (x := bd2 A B v) in *. set (y := bd1 A B v).
  assert (Y : y - x = v) by (unfold x, y; rewrite bd12; ring).
  assert (N := npdf_pos x).
  replace (1 + (- cndc x + npdf x * (hx x - hx y) / v) - jump) with (cndc (- x) - jump - npdf x * ((hx (- y) - hx (- x)) / v))
    by (rewrite cndc_opp, !hx_even; field; lra).
  assert (M : cnd (- x) = npdf x * mills (- x)) by (unfold mills; rewrite npdf_even; field; lra).
  destruct (drop_up (- y) (- x)) as [_ G2]; [lra|].
  specialize (G2 ltac:(lra)). replace (- x - - y) with v in G2 by lra. apply div_lt in G2; auto.
  assert (cndc (- x) = cnd (- x) + jump) by (unfold cndc; rewrite Rsgn_neg by lra; ring).
  nra.
Qed.

(* ------------------------------------------------------------------ *)
(** * Prices as functions of the strike value *)

Definition Bs (A v : R) : R := A * exp (- (v ^ 2) / 2).

Lemma Bs_pos A v : 0 < A -> 0 < Bs A v.
Proof. intros; apply Rmult_lt_0_compat; [easy|apply exp_pos]. Qed.

Lemma bd2_Bs A v : 0 < A -> 0 < v -> bd2 A (Bs A v) v = 0.
Proof.
  intros. unfold bd2, Bs. replace (A / (A * exp (- v ^ 2 / 2))) with (exp (v ^ 2 / 2)).
  - rewrite ln_exp. field. lra.
  - replace (- v ^ 2 / 2) with (- (v ^ 2 / 2)) by field. rewrite exp_Ropp. field.
    split; [|lra]; apply Rgt_not_eq, exp_pos.
Qed.
Lemma bd2_decr A B1 B2 v : 0 < A -> 0 < B1 -> B1 < B2 -> 0 < v -> bd2 A B2 v < bd2 A B1 v.
Proof.
  intros. unfold bd2. assert (ln (A / B2) < ln (A / B1)).
  { apply ln_increasing. apply Rdiv_lt_0_compat; lra. apply Rmult_lt_compat_l; [lra|].
    apply Rinv_lt_contravar; [apply Rmult_lt_0_compat; lra|easy]. }
  assert (ln (A / B2) / v < ln (A / B1) / v).
  { apply Rmult_lt_compat_r; [apply Rinv_0_lt_compat|]; easy. }
  lra.
Qed.
Lemma bd1_decr A B1 B2 v : 0 < A -> 0 < B1 -> B1 < B2 -> 0 < v -> bd1 A B2 v < bd1 A B1 v.
Proof. intros. generalize (bd2_decr A B1 B2 v). rewrite !bd12. lra. Qed.

Lemma bd2_pos_iff A B v : 0 < A -> 0 < B -> 0 < v -> (0 < bd2 A B v <-> B < Bs A v).
Proof.
  intros HA HB Hv. assert (P := Bs_pos A v HA). assert (Z := bd2_Bs A v HA Hv).
  destruct (Rtotal_order B (Bs A v)) as [L|[L|L]].
  - generalize (bd2_decr A B (Bs A v) v). lra.
  - subst B. lra.
  - generalize (bd2_decr A (Bs A v) B v). lra.
Qed.
Lemma bd2_neg_iff A B v : 0 < A -> 0 < B -> 0 < v -> (bd2 A B v < 0 <-> Bs A v < B).
Proof.
  intros HA HB Hv. assert (P := Bs_pos A v HA). assert (Z := bd2_Bs A v HA Hv).
  destruct (Rtotal_order B (Bs A v)) as [L|[L|L]].
  - generalize (bd2_decr A B (Bs A v) v). lra.
  - subst B. lra.
  - generalize (bd2_decr A (Bs A v) B v). lra.
Qed.

Lemma bsm_decr A B1 B2 v : 0 < A -> 0 < B1 -> B1 < B2 -> 0 < v -> bsmooth A B2 v < bsmooth A B1 v.
Proof.
  intros HA H1 H2 Hv.
  cut (- bsmooth A B1 v < - bsmooth A B2 v); [lra|].
  apply (incr_of_derive (fun B => - bsmooth A B v) (fun B => - dB A B v)); auto.
  - intros x Hx. apply (is_derive_opp (fun B => bsmooth A B v)). apply bsmooth_derive_B; lra.
  - intros x Hx. generalize (dB_neg A x v Hv). lra.
Qed.
Lemma bsm_decr_l A B1 B2 v : 0 < A -> Bs A v <= B1 -> B1 < B2 -> 0 < v ->
  bsmooth A B2 v + jump * B2 < bsmooth A B1 v + jump * B1.
Proof.
  intros HA H1 H2 Hv. assert (P := Bs_pos A v HA).
  cut (- bsmooth A B1 v - jump * B1 < - bsmooth A B2 v - jump * B2); [lra|].
  apply (incr_of_derive (fun B => - bsmooth A B v - jump * B) (fun B => - dB A B v - jump)); auto.
  - intros x Hx. evar_last.
    { apply (is_derive_minus (fun B => - bsmooth A B v) (fun B => jump * B)).
      + apply (is_derive_opp (fun B => bsmooth A B v)). apply bsmooth_derive_B; lra.
      + auto_derive; reflexivity. }
    hier. ring.
  - intros x Hx. generalize (dB_neg_l A x v Hv (proj2 (bd2_neg_iff A x v HA ltac:(lra) Hv) ltac:(lra))). lra.
Qed.
Lemma psm_incr A B1 B2 v : 0 < A -> 0 < B1 -> B1 < B2 -> 0 < v -> bsmooth A B1 v + B1 < bsmooth A B2 v + B2.
Proof.
  intros HA H1 H2 Hv.
  apply (incr_of_derive (fun B => bsmooth A B v + B) (fun B => dB A B v + 1)); auto.
  - intros x Hx. apply (is_derive_plus (fun B => bsmooth A B v) (fun B => B)).
    apply bsmooth_derive_B; lra. auto_derive; [easy|ring].
  - intros x Hx. generalize (dB_gt A x v Hv). lra.
Qed.
Lemma psm_incr_r A B1 B2 v : 0 < A -> 0 < B1 -> B1 < B2 -> B2 <= Bs A v -> 0 < v ->
  bsmooth A B1 v + (1 - jump) * B1 < bsmooth A B2 v + (1 - jump) * B2.
Proof.
  intros HA H1 H2 H3 Hv.
  apply (incr_of_derive (fun B => bsmooth A B v + (1 - jump) * B) (fun B => dB A B v + (1 - jump))); auto.
  - intros x Hx. evar_last.
    { apply (is_derive_plus (fun B => bsmooth A B v) (fun B => (1 - jump) * B)).
      apply bsmooth_derive_B; lra. auto_derive; reflexivity. }
    hier. ring.
  - intros x Hx. generalize (dB_gt_r A x v Hv (proj2 (bd2_pos_iff A x v HA ltac:(lra) Hv) ltac:(lra))). lra.
Qed.

Lemma Rsgn_bnd x : -1 <= Rsgn x <= 1.
Proof. unfold Rsgn. destruct (Rlt_dec 0 x), (Rlt_dec x 0); lra. Qed.

(** call: strictly decreasing on either side of d2 = 0 *)
Lemma call_B_side A B1 B2 v : 0 < A -> 0 < B1 -> B1 < B2 -> 0 < v ->
  0 < bd2 A B2 v \/ bd2 A B1 v < 0 -> bcall cnd A B2 v < bcall cnd A B1 v.
Proof.
  intros HA H1 H2 Hv H. rewrite !bcall_split.
  assert (G1 := bd1_decr A B1 B2 v HA H1 H2 Hv). assert (G2 := bd2_decr A B1 B2 v HA H1 H2 Hv).
  assert (J := jump_pos).
  assert (L1 : Rsgn (bd1 A B2 v) <= Rsgn (bd1 A B1 v)) by (apply Rsgn_le; lra).
  assert (L2 : jump * (A * Rsgn (bd1 A B2 v)) <= jump * (A * Rsgn (bd1 A B1 v))).
  { apply Rmult_le_compat_l; [lra|]. apply Rmult_le_compat_l; lra. }
  destruct H as [H|H].
  - rewrite (Rsgn_pos (bd2 A B2 v)), (Rsgn_pos (bd2 A B1 v)) by lra.
    assert (S := bsm_decr A B1 B2 v HA H1 H2 Hv). nra.
  - rewrite (Rsgn_neg (bd2 A B2 v)), (Rsgn_neg (bd2 A B1 v)) by lra.
    assert (X : Bs A v <= B1) by (left; apply bd2_neg_iff; auto).
    assert (S := bsm_decr_l A B1 B2 v HA X H2 Hv). nra.
Qed.
(** in general: up to twice the jump *)
Lemma call_B_gen A B1 B2 v : 0 < A -> 0 < B1 -> B1 < B2 -> 0 < v ->
  bcall cnd A B2 v < bcall cnd A B1 v + 2 * jump * B2.
Proof.
  intros HA H1 H2 Hv. assert (J := jump_pos). assert (P := Bs_pos A v HA).
  destruct (Rlt_dec 0 (bd2 A B2 v)) as [X|X].
  { generalize (call_B_side A B1 B2 v HA H1 H2 Hv (or_introl X)). nra. }
  destruct (Rlt_dec (bd2 A B1 v) 0) as [Y|Y].
  { generalize (call_B_side A B1 B2 v HA H1 H2 Hv (or_intror Y)). nra. }
  assert (Z1 : Bs A v <= B2).
  { destruct (Rle_dec (Bs A v) B2); auto. exfalso. apply X. apply bd2_pos_iff; auto; lra. }
  assert (Z2 : B1 <= Bs A v).
  { destruct (Rle_dec B1 (Bs A v)); auto. exfalso. apply Y. apply bd2_neg_iff; auto; lra. }
  rewrite !bcall_split.
  assert (G1 := bd1_decr A B1 B2 v HA H1 H2 Hv).
  assert (L1 : Rsgn (bd1 A B2 v) <= Rsgn (bd1 A B1 v)) by (apply Rsgn_le; lra).
  assert (L2 : jump * (A * Rsgn (bd1 A B2 v)) <= jump * (A * Rsgn (bd1 A B1 v))).
  { apply Rmult_le_compat_l; [lra|]. apply Rmult_le_compat_l; lra. }
  assert (U1 := Rsgn_bnd (bd2 A B1 v)). assert (U2 := Rsgn_bnd (bd2 A B2 v)).
  assert (S := bsm_decr A B1 B2 v HA H1 H2 Hv).
  assert (- (B2 * Rsgn (bd2 A B2 v)) <= B2) by nra.
  assert (- (B1 * Rsgn (bd2 A B1 v)) >= - B1) by nra.
  nra.
Qed.

(** put: strictly increasing on either side of d1 = 0 *)
Lemma put_B_side A B1 B2 v : 0 < A -> 0 < B1 -> B1 < B2 -> 0 < v ->
  Rsgn (bd1 A B2 v) = Rsgn (bd1 A B1 v) -> bcall cnd A B1 v + B1 < bcall cnd A B2 v + B2.
Proof.
  intros HA H1 H2 Hv H. rewrite !bcall_split, H.
  assert (G2 := bd2_decr A B1 B2 v HA H1 H2 Hv). assert (J := jump_pos).
  assert (S := psm_incr A B1 B2 v HA H1 H2 Hv).
  destruct (Rlt_dec 0 (bd2 A B2 v)) as [X|X].
  - assert (B2 <= Bs A v) by (left; apply bd2_pos_iff; auto; lra).
    assert (S' := psm_incr_r A B1 B2 v HA H1 H2 ltac:(lra) Hv).
    rewrite (Rsgn_pos (bd2 A B2 v)), (Rsgn_pos (bd2 A B1 v)) by lra. lra.
  - assert (U2 : Rsgn (bd2 A B2 v) <= 0) by (rewrite <- Rsgn_0; apply Rsgn_le; lra).
    destruct (Rlt_dec (bd2 A B1 v) 0) as [Y|Y].
    + rewrite (Rsgn_neg (bd2 A B2 v)), (Rsgn_neg (bd2 A B1 v)) by lra. nra.
    + assert (0 <= Rsgn (bd2 A B1 v)) by (rewrite <- Rsgn_0; apply Rsgn_le; lra).
      assert (0 <= - (B2 * Rsgn (bd2 A B2 v))) by nra.
      assert (- (B1 * Rsgn (bd2 A B1 v)) <= 0) by nra. nra.
Qed.
Lemma put_B_gen A B1 B2 v : 0 < A -> 0 < B1 -> B1 < B2 -> 0 < v ->
  bcall cnd A B1 v + B1 < bcall cnd A B2 v + B2 + 2 * jump * A.
Proof.
  intros HA H1 H2 Hv.
  set (d := Rsgn (bd1 A B1 v) - Rsgn (bd1 A B2 v)).
  assert (D : d <= 2) by (unfold d; generalize (Rsgn_bnd (bd1 A B1 v)) (Rsgn_bnd (bd1 A B2 v)); lra).
  assert (J := jump_pos).
  assert (G : bsmooth A B1 v + jump * (- (B1 * Rsgn (bd2 A B1 v))) + B1 <
              bsmooth A B2 v + jump * (- (B2 * Rsgn (bd2 A B2 v))) + B2).
  { assert (G2 := bd2_decr A B1 B2 v HA H1 H2 Hv).
    assert (S := psm_incr A B1 B2 v HA H1 H2 Hv).
    destruct (Rlt_dec 0 (bd2 A B2 v)) as [X|X].
    - assert (B2 <= Bs A v) by (left; apply bd2_pos_iff; auto; lra).
      assert (S' := psm_incr_r A B1 B2 v HA H1 H2 ltac:(lra) Hv).
      rewrite (Rsgn_pos (bd2 A B2 v)), (Rsgn_pos (bd2 A B1 v)) by lra. lra.
    - assert (U2 : Rsgn (bd2 A B2 v) <= 0) by (rewrite <- Rsgn_0; apply Rsgn_le; lra).
      destruct (Rlt_dec (bd2 A B1 v) 0) as [Y|Y].
      + rewrite (Rsgn_neg (bd2 A B2 v)), (Rsgn_neg (bd2 A B1 v)) by lra. nra.
      + assert (0 <= Rsgn (bd2 A B1 v)) by (rewrite <- Rsgn_0; apply Rsgn_le; lra).
        assert (0 <= - (B2 * Rsgn (bd2 A B2 v))) by nra.
        assert (- (B1 * Rsgn (bd2 A B1 v)) <= 0) by nra. nra. }
  rewrite !bcall_split.
  replace (jump * (A * Rsgn (bd1 A B1 v) - B1 * Rsgn (bd2 A B1 v)))
    with (jump * A * d + jump * A * Rsgn (bd1 A B2 v) + jump * (- (B1 * Rsgn (bd2 A B1 v)))) by (unfold d; ring).
  assert (jump * A * d <= jump * A * 2) by (apply Rmult_le_compat_l; [nra|lra]).
  lra.
Qed.

Lemma jump_small : 2 * jump <= 11 / 10 ^ 10.
Proof. unfold jump, npdf, Pk. interval with (i_prec 60). Qed.

(* ------------------------------------------------------------------ *)
(** * The option objects *)

Definition eps_mono : R := 11 / 10 ^ 10.

Lemma d2_sign S K t r b s : 0 < S -> 0 < K -> 0 < t -> 0 < s ->
  bd2 (S * exp ((b - r) * t)) (K * exp (- r * t)) (s * sqrt t) * (s * sqrt t) = ln (S / K) + (b - s ^ 2 / 2) * t.
Proof.
  intros HS HK Ht Hs. assert (P := sqrt_t_pos t Ht). assert (Q := sqrt_t t Ht).
  assert (0 < s * sqrt t) by now apply Rmult_lt_0_compat.
  unfold bd2. rewrite ln_fwd by easy.
  replace ((b - s ^ 2 / 2) * t) with (b * t - s ^ 2 / 2 * (sqrt t * sqrt t)) by (rewrite Q; ring).
  field. lra.
Qed.
Lemma d1_sign S K t r b s : 0 < S -> 0 < K -> 0 < t -> 0 < s ->
  bd1 (S * exp ((b - r) * t)) (K * exp (- r * t)) (s * sqrt t) * (s * sqrt t) = ln (S / K) + (b + s ^ 2 / 2) * t.
Proof.
  intros HS HK Ht Hs. assert (P := sqrt_t_pos t Ht). assert (Q := sqrt_t t Ht).
  assert (0 < s * sqrt t) by now apply Rmult_lt_0_compat.
  unfold bd1. rewrite ln_fwd by easy.
  replace ((b + s ^ 2 / 2) * t) with (b * t + s ^ 2 / 2 * (sqrt t * sqrt t)) by (rewrite Q; ring).
  field. lra.
Qed.

Lemma sgn_of_mul x v m : 0 < v -> x * v = m -> (0 < m -> 0 < x) /\ (m < 0 -> x < 0).
Proof. intros. split; intros; nra. Qed.

Lemma gbs_strike_mono S K1 K2 t r b s : 0 < S -> 0 < K1 -> K1 < K2 -> 0 < t -> 0 < s ->
  exists c1 c2 p1 p2,
    gbs_call (GBSOption S K1 t r b (Some s)) = Ok c1 /\ gbs_call (GBSOption S K2 t r b (Some s)) = Ok c2 /\
    gbs_put (GBSOption S K1 t r b (Some s)) = Ok p1 /\ gbs_put (GBSOption S K2 t r b (Some s)) = Ok p2 /\
    c2 < c1 + eps_mono * (K2 * exp (- r * t)) /\
    c1 - c2 < (K2 - K1) * exp (- r * t) + eps_mono * (S * exp ((b - r) * t)) /\
    p1 < p2 + eps_mono * (S * exp ((b - r) * t)) /\
    p2 - p1 < (K2 - K1) * exp (- r * t) + eps_mono * (K2 * exp (- r * t)) /\
    (0 < ln (S / K2) + (b - s ^ 2 / 2) * t \/ ln (S / K1) + (b - s ^ 2 / 2) * t < 0 -> c2 < c1) /\
    (0 < ln (S / K2) + (b + s ^ 2 / 2) * t \/ ln (S / K1) + (b + s ^ 2 / 2) * t < 0 -> p1 < p2).
Proof.
  intros HS H1 H2 Ht Hs.
  set (A := S * exp ((b - r) * t)). set (B1 := K1 * exp (- r * t)). set (B2 := K2 * exp (- r * t)).
  set (v := s * sqrt t).
  assert (PA : 0 < A) by now apply fwd_pos. assert (P1 : 0 < B1) by now apply strk_pos.
  assert (L : B1 < B2) by (apply Rmult_lt_compat_r; [apply exp_pos|easy]).
  assert (Hv : 0 < v) by now apply v_pos.
  exists (bcall cnd A B1 v), (bcall cnd A B2 v), (bput cnd A B1 v), (bput cnd A B2 v).
  split; [apply call_link; lra|]. split; [apply call_link; lra|].
  split; [apply put_link; lra|]. split; [apply put_link; lra|].
  assert (Q1 := b_parity cnd A B1 v cnd_sym). assert (Q2 := b_parity cnd A B2 v cnd_sym).
  assert (C := call_B_gen A B1 B2 v PA P1 L Hv). assert (P := put_B_gen A B1 B2 v PA P1 L Hv).
  assert (J := jump_small). unfold eps_mono. rewrite !(Rmult_minus_distr_r K2 K1). fold B1 B2.
  assert (2 * jump * B2 <= 11 / 10 ^ 10 * B2) by (apply Rmult_le_compat_r; lra).
  assert (2 * jump * A <= 11 / 10 ^ 10 * A) by (apply Rmult_le_compat_r; lra).
  repeat split; try lra.
  - intros H'. apply call_B_side; auto.
    assert (D1 := d2_sign S K1 t r b s HS H1 Ht Hs). assert (D2 := d2_sign S K2 t r b s HS ltac:(lra) Ht Hs).
    fold A B1 B2 v in D1, D2. apply sgn_of_mul in D1; auto. apply sgn_of_mul in D2; auto. tauto.
  - intros H'. assert (bcall cnd A B1 v + B1 < bcall cnd A B2 v + B2); [|lra].
    apply put_B_side; auto.
    assert (D1 := d1_sign S K1 t r b s HS H1 Ht Hs). assert (D2 := d1_sign S K2 t r b s HS ltac:(lra) Ht Hs).
    fold A B1 B2 v in D1, D2. apply sgn_of_mul in D1; auto. apply sgn_of_mul in D2; auto.
    assert (G1 := bd1_decr A B1 B2 v PA P1 L Hv).
    destruct H' as [X|X].
    + apply D2 in X. rewrite !Rsgn_pos by lra. reflexivity.
    + apply D1 in X. rewrite !Rsgn_neg by lra. reflexivity.
Qed.

Lemma gbs_spot_mono S1 S2 K t r b s : 0 < S1 -> S1 < S2 -> 0 < K -> 0 < t -> 0 < s ->
  exists c1 c2 p1 p2,
    gbs_call (GBSOption S1 K t r b (Some s)) = Ok c1 /\ gbs_call (GBSOption S2 K t r b (Some s)) = Ok c2 /\
    gbs_put (GBSOption S1 K t r b (Some s)) = Ok p1 /\ gbs_put (GBSOption S2 K t r b (Some s)) = Ok p2 /\
    c1 < c2 + eps_mono * (K * exp (- r * t)) /\
    c2 - c1 < (S2 - S1) * exp ((b - r) * t) + eps_mono * (S2 * exp ((b - r) * t)) /\
    p2 < p1 + eps_mono * (S2 * exp ((b - r) * t)) /\
    p1 - p2 < (S2 - S1) * exp ((b - r) * t) + eps_mono * (K * exp (- r * t)) /\
    (0 < ln (S1 / K) + (b - s ^ 2 / 2) * t \/ ln (S2 / K) + (b - s ^ 2 / 2) * t < 0 -> c1 < c2) /\
    (0 < ln (S1 / K) + (b + s ^ 2 / 2) * t \/ ln (S2 / K) + (b + s ^ 2 / 2) * t < 0 -> p2 < p1).
Proof.
  intros H1 H2 HK Ht Hs.
  set (A1 := S1 * exp ((b - r) * t)). set (A2 := S2 * exp ((b - r) * t)). set (B := K * exp (- r * t)).
  set (v := s * sqrt t).
  assert (PA : 0 < A1) by now apply fwd_pos. assert (PB : 0 < B) by now apply strk_pos.
  assert (L : A1 < A2) by (apply Rmult_lt_compat_r; [apply exp_pos|easy]).
  assert (Hv : 0 < v) by now apply v_pos.
  exists (bcall cnd A1 B v), (bcall cnd A2 B v), (bput cnd A1 B v), (bput cnd A2 B v).
  split; [apply call_link; lra|]. split; [apply call_link; lra|].
  split; [apply put_link; lra|]. split; [apply put_link; lra|].
  rewrite <- !(bcall_dual cnd B) by lra. rewrite !(bcall_dual cnd _ B) by lra.
  assert (Q1 := b_parity cnd B A1 v cnd_sym). assert (Q2 := b_parity cnd B A2 v cnd_sym).
  assert (C := call_B_gen B A1 A2 v PB PA L Hv). assert (P := put_B_gen B A1 A2 v PB PA L Hv).
  assert (J := jump_small). unfold eps_mono. rewrite !(Rmult_minus_distr_r S2 S1). fold A1 A2.
  assert (2 * jump * A2 <= 11 / 10 ^ 10 * A2) by (apply Rmult_le_compat_r; lra).
  assert (2 * jump * B <= 11 / 10 ^ 10 * B) by (apply Rmult_le_compat_r; lra).
  repeat split; try lra.
  - intros H'. assert (bcall cnd B A1 v + A1 < bcall cnd B A2 v + A2); [|lra].
    apply put_B_side; auto.
    assert (D1 := d2_sign S1 K t r b s H1 HK Ht Hs). assert (D2 := d2_sign S2 K t r b s ltac:(lra) HK Ht Hs).
    fold A1 A2 B v in D1, D2. apply sgn_of_mul in D1; auto. apply sgn_of_mul in D2; auto.
    assert (G1 := bd1_decr B A1 A2 v PB PA L Hv).
    rewrite (bd_swap A2 B), (bd_swap A1 B) in * by lra.
    destruct H' as [X|X].
    + apply D1 in X. rewrite !Rsgn_neg by lra. reflexivity.
    + apply D2 in X. rewrite !Rsgn_pos by lra. reflexivity.
  - intros H'. apply call_B_side; auto.
    assert (D1 := d1_sign S1 K t r b s H1 HK Ht Hs). assert (D2 := d1_sign S2 K t r b s ltac:(lra) HK Ht Hs).
    fold A1 A2 B v in D1, D2. apply sgn_of_mul in D1; auto. apply sgn_of_mul in D2; auto.
    rewrite (bd_swap2 A2 B), (bd_swap2 A1 B) by lra.
    destruct H' as [X|X]; [right; apply D1 in X; lra|left; apply D2 in X; lra].
Qed.

(** the exact claim fails: at S=K=100, t=1, r=b=2%, sigma=20% the call gets dearer when the strike
    is raised by 1e-8 *)
Lemma gbs_strike_mono_refuted : exists c1 c2,
  gbs_call (GBSOption 100 100 1 (1/50) (1/50) (Some (1/5))) = Ok c1 /\
  gbs_call (GBSOption 100 (100 + / 10 ^ 8) 1 (1/50) (1/50) (Some (1/5))) = Ok c2 /\ c1 < c2.
Proof.
  set (A := 100 * exp ((1/50 - 1/50) * 1)). set (B1 := 100 * exp (- (1/50) * 1)).
  set (B2 := (100 + / 10 ^ 8) * exp (- (1/50) * 1)). set (v := 1/5 * sqrt 1).
  assert (I : 0 < / 10 ^ 8) by (apply Rinv_0_lt_compat; lra).
  exists (bcall cnd A B1 v), (bcall cnd A B2 v).
  split; [apply call_link; lra|]. split; [apply call_link; lra|].
  assert (V : v = 1 / 5) by (unfold v; rewrite sqrt_1; ring).
  assert (EA : A = 100) by (unfold A; replace ((1/50 - 1/50) * 1) with 0 by ring; rewrite exp_0; ring).
  assert (PB : 0 < B1) by (apply strk_pos; lra).
  assert (L : B1 < B2) by (apply Rmult_lt_compat_r; [apply exp_pos|lra]).
  assert (Z : B1 = Bs A v).
  { unfold B1, Bs. rewrite EA, V. f_equal. f_equal. field. }
  assert (D1 : bd2 A B1 v = 0) by (rewrite Z; apply bd2_Bs; lra).
  assert (D2 : bd2 A B2 v < 0) by (apply bd2_neg_iff; lra).
  assert (T1 : 0 < bd1 A B1 v) by (generalize (bd12 A B1 v); lra).
  assert (T2 : 0 < bd1 A B2 v).
  { assert (0 < ln (A / B2) / v); [|unfold bd1; lra].
    apply Rdiv_lt_0_compat; [|lra]. rewrite <- ln_1. apply ln_increasing; [lra|].
    apply Rmult_lt_reg_r with B2; [lra|]. replace (A / B2 * B2) with A by (field; lra). rewrite EA.
    unfold B2. interval with (i_prec 60). }
  rewrite !bcall_split, D1, Rsgn_0, (Rsgn_neg (bd2 A B2 v)), !Rsgn_pos by lra.
  assert (S := psm_incr A B1 B2 v ltac:(lra) PB L ltac:(lra)).
  assert (J : 5 / 10 ^ 10 <= jump) by (unfold jump, npdf, Pk; interval with (i_prec 60)).
  assert (E : B2 - B1 = / 10 ^ 8 * exp (- (1/50) * 1)) by (unfold B1, B2; ring).
  assert (X : / 10 ^ 8 * exp (- (1/50) * 1) < jump * B2); [|lra].
  unfold B2. assert (P := exp_pos (- (1/50) * 1)). rewrite <- Rmult_assoc. apply Rmult_lt_compat_r; [easy|].
  apply Rlt_le_trans with (5 / 10 ^ 10 * 100); [|nra].
  apply Rmult_lt_reg_r with (10 ^ 8); [lra|]. rewrite Rinv_l by lra. lra.
Qed.
