(** The common core of the closed forms: with forward value [A], discounted strike [B] and total
    volatility [v], call = A F(d1) - B F(d2) and put = B F(-d2) - A F(-d1). *)
From Coq Require Import Reals QArith Qreals ZArith Bool Lra Lia Psatz.
From Coquelicot Require Import Coquelicot.
From Verif Require Import Num MBase PCnd PCnd2.
Open Scope R_scope.

Definition bd1 (A B v : R) : R := ln (A / B) / v + v / 2.
Definition bd2 (A B v : R) : R := ln (A / B) / v - v / 2.
Definition bcall (F : R -> R) (A B v : R) : R := A * F (bd1 A B v) - B * F (bd2 A B v).
Definition bput (F : R -> R) (A B v : R) : R := B * F (- bd2 A B v) - A * F (- bd1 A B v).

Lemma bd12 A B v : bd2 A B v = bd1 A B v - v.
Proof. unfold bd1, bd2; lra. Qed.

Lemma ln_div_swap A B : 0 < A -> 0 < B -> ln (B / A) = - ln (A / B).
Proof.
  intros. rewrite <- ln_Rinv by (apply Rdiv_lt_0_compat; lra). f_equal. field; lra.
Qed.
Lemma bd_swap A B v : 0 < A -> 0 < B -> bd1 B A v = - bd2 A B v.
Proof. intros. unfold bd1, bd2. rewrite (ln_div_swap A B) by lra. unfold Rdiv. ring. Qed.
Lemma bd_swap2 A B v : 0 < A -> 0 < B -> bd2 B A v = - bd1 A B v.
Proof. intros. unfold bd1, bd2. rewrite (ln_div_swap A B) by lra. unfold Rdiv. ring. Qed.

(** duality: holds for any F *)
Lemma bcall_dual F A B v : 0 < A -> 0 < B -> bcall F A B v = bput F B A v.
Proof.
  intros. unfold bcall, bput. rewrite (bd_swap A B), (bd_swap2 A B) by lra.
  now rewrite !Ropp_involutive.
Qed.

Lemma bcall_scale F A B v c : 0 < c -> 0 < A -> 0 < B -> bcall F (c * A) (c * B) v = c * bcall F A B v.
Proof.
  intros. unfold bcall, bd1, bd2. replace (c * A / (c * B)) with (A / B) by (field; lra). ring.
Qed.
Lemma bput_scale F A B v c : 0 < c -> 0 < A -> 0 < B -> bput F (c * A) (c * B) v = c * bput F A B v.
Proof.
  intros. unfold bput, bd1, bd2. replace (c * A / (c * B)) with (A / B) by (field; lra). ring.
Qed.

(** parity: uses only F(x) + F(-x) = 1 *)
Lemma b_parity F A B v : (forall x, F x + F (- x) = 1) -> bcall F A B v - bput F A B v = A - B.
Proof.
  intros H. unfold bcall, bput.
  generalize (H (bd1 A B v)) (H (bd2 A B v)); intros. 
  replace (F (- bd1 A B v)) with (1 - F (bd1 A B v)) by lra.
  replace (F (- bd2 A B v)) with (1 - F (bd2 A B v)) by lra. ring.
Qed.

(** The two density terms agree. *)
Lemma b_density A B v : 0 < A -> 0 < B -> 0 < v -> A * npdf (bd1 A B v) = B * npdf (bd2 A B v).
Proof.
  intros. unfold npdf.
  assert (E : - bd1 A B v ^ 2 / 2 = ln (B / A) + - bd2 A B v ^ 2 / 2).
  { rewrite (ln_div_swap A B) by lra. unfold bd1, bd2. field. lra. }
  rewrite E, exp_plus, exp_ln by (apply Rdiv_lt_0_compat; lra).
  field. split; [apply Rgt_not_eq, sqrt2PI_pos | lra].
Qed.

Lemma cnd_mills x : cnd x = npdf x * mills x.
Proof. unfold mills. field. apply Rgt_not_eq, npdf_pos. Qed.

Lemma bcall_mills A B v : 0 < A -> 0 < B -> 0 < v ->
  bcall cnd A B v = B * npdf (bd2 A B v) * (mills (bd1 A B v) - mills (bd2 A B v)).
Proof.
  intros. unfold bcall. rewrite !cnd_mills.
  generalize (b_density A B v); intros E. rewrite Rmult_minus_distr_l, <- E at 1 by lra.
  rewrite <- !Rmult_assoc. rewrite E by lra. ring.
Qed.

Lemma bcall_pos A B v : 0 < A -> 0 < B -> 0 < v -> 0 < bcall cnd A B v.
Proof.
  intros. rewrite bcall_mills by lra.
  assert (mills (bd2 A B v) < mills (bd1 A B v)) by (apply mills_incr; rewrite bd12; lra).
  apply Rmult_lt_0_compat; [|lra]. apply Rmult_lt_0_compat; [lra | apply npdf_pos].
Qed.
Lemma bput_pos A B v : 0 < A -> 0 < B -> 0 < v -> 0 < bput cnd A B v.
Proof. intros. rewrite <- bcall_dual by lra. now apply bcall_pos. Qed.
Lemma bcall_ub A B v : 0 < A -> 0 < B -> bcall cnd A B v < A.
Proof.
  intros. unfold bcall. generalize (cnd_range (bd1 A B v)) (cnd_range (bd2 A B v)). nra.
Qed.
Lemma bput_ub A B v : 0 < A -> 0 < B -> bput cnd A B v < B.
Proof. intros. rewrite <- bcall_dual by lra. now apply bcall_ub. Qed.
Lemma bcall_lb A B v : 0 < A -> 0 < B -> 0 < v -> A - B < bcall cnd A B v.
Proof.
  intros. generalize (b_parity cnd A B v cnd_sym) (bput_pos A B v). lra.
Qed.
Lemma bput_lb A B v : 0 < A -> 0 < B -> 0 < v -> B - A < bput cnd A B v.
Proof.
  intros. generalize (b_parity cnd A B v cnd_sym) (bcall_pos A B v). lra.
Qed.

(** negative total volatility: call(-v) = -put(v) *)
Lemma bd1_opp A B v : bd1 A B (- v) = - bd1 A B v.
Proof.
  unfold bd1. destruct (Req_dec v 0) as [->|Hv].
  - unfold Rdiv. rewrite Ropp_0, Rinv_0. ring.
  - field; lra.
Qed.
Lemma bd2_opp A B v : bd2 A B (- v) = - bd2 A B v.
Proof.
  unfold bd2. destruct (Req_dec v 0) as [->|Hv].
  - unfold Rdiv. rewrite Ropp_0, Rinv_0. ring.
  - field; lra.
Qed.
Lemma bcall_opp F A B v : bcall F A B (- v) = - bput F A B v.
Proof. unfold bcall, bput. rewrite bd1_opp, bd2_opp. ring. Qed.

(* ------------------------------------------------------------------ *)
(** * Monotone in total volatility *)

Definition bsmooth (A B v : R) : R := A * cndc (bd1 A B v) - B * cndc (bd2 A B v).

Lemma bcall_split A B v :
  bcall cnd A B v = bsmooth A B v + jump * (A * Rsgn (bd1 A B v) - B * Rsgn (bd2 A B v)).
Proof. unfold bcall, bsmooth, cndc. ring. Qed.

Lemma bsmooth_derive A B v : 0 < A -> 0 < B -> 0 < v ->
  is_derive (fun v => bsmooth A B v) v
    (A * npdf (bd1 A B v) / v * (bd1 A B v * hx (bd2 A B v) - bd2 A B v * hx (bd1 A B v))).
Proof.
  intros HA HB Hv. unfold bsmooth. evar_last.
  { apply (is_derive_minus (fun v => A * cndc (bd1 A B v)) (fun v => B * cndc (bd2 A B v))).
    - apply (is_derive_scal (fun v => cndc (bd1 A B v)) v A).
      apply (is_derive_comp cndc (fun v => bd1 A B v)).
      + apply cndc_derive.
      + unfold bd1. auto_derive; [lra|reflexivity].
    - apply (is_derive_scal (fun v => cndc (bd2 A B v)) v B).
      apply (is_derive_comp cndc (fun v => bd2 A B v)).
      + apply cndc_derive.
      + unfold bd2. auto_derive; [lra|reflexivity]. }
  hier.
  assert (E1 : ln (A / B) * (- (1) * / (v * v)) + 1 * / 2 = - bd2 A B v / v)
    by (unfold bd2; field; lra).
  assert (E2 : ln (A / B) * (- (1) * / (v * v)) + - (1 * / 2) = - bd1 A B v / v)
    by (unfold bd1; field; lra).
  match goal with |- ?L = _ => 
    replace L with (- bd2 A B v / v * hx (bd1 A B v) * (A * npdf (bd1 A B v))
                    - (- bd1 A B v / v) * hx (bd2 A B v) * (B * npdf (bd2 A B v))) end.
  - rewrite <- (b_density A B v) by lra. field. lra.
  - rewrite <- E1, <- E2. ring.
Qed.

Lemma bsmooth_incr A B v w : 0 < A -> 0 < B -> 0 < v -> v < w -> bsmooth A B v < bsmooth A B w.
Proof.
  intros. apply incr_of_derive with
    (f' := fun v => A * npdf (bd1 A B v) / v * (bd1 A B v * hx (bd2 A B v) - bd2 A B v * hx (bd1 A B v)));
    auto.
  - intros; apply bsmooth_derive; lra.
  - intros x Hx. apply Rmult_lt_0_compat.
    + apply Rdiv_lt_0_compat; [|lra]. apply Rmult_lt_0_compat; [lra|apply npdf_pos].
    + generalize (hx_ratio (bd2 A B x) (bd1 A B x)). rewrite bd12 at 1. lra.
Qed.

Lemma Rsgn_le x y : x <= y -> Rsgn x <= Rsgn y.
Proof.
  intros. unfold Rsgn.
  destruct (Rlt_dec 0 x), (Rlt_dec 0 y), (Rlt_dec x 0), (Rlt_dec y 0); lra.
Qed.
Lemma Rsgn_scale c x : 0 < c -> Rsgn (c * x) = Rsgn x.
Proof.
  intros. destruct (Rtotal_order x 0) as [X|[X|X]].
  - rewrite !Rsgn_neg; nra.
  - subst; now rewrite Rmult_0_r.
  - rewrite !Rsgn_pos; nra.
Qed.

Lemma bcall_incr_v A B v w : 0 < A -> 0 < B -> 0 < v -> v < w -> bcall cnd A B v < bcall cnd A B w.
Proof.
  intros. rewrite !bcall_split.
  assert (bsmooth A B v < bsmooth A B w) by now apply bsmooth_incr.
  assert (Rsgn (bd1 A B v) <= Rsgn (bd1 A B w)).
  { rewrite <- (Rsgn_scale v (bd1 A B v)), <- (Rsgn_scale w (bd1 A B w)) by lra.
    apply Rsgn_le. unfold bd1.
    replace (v * (ln (A / B) / v + v / 2)) with (ln (A / B) + v * v / 2) by (field; lra).
    replace (w * (ln (A / B) / w + w / 2)) with (ln (A / B) + w * w / 2) by (field; lra).
    nra. }
  assert (Rsgn (bd2 A B w) <= Rsgn (bd2 A B v)).
  { rewrite <- (Rsgn_scale v (bd2 A B v)), <- (Rsgn_scale w (bd2 A B w)) by lra.
    apply Rsgn_le. unfold bd2.
    replace (v * (ln (A / B) / v - v / 2)) with (ln (A / B) - v * v / 2) by (field; lra).
    replace (w * (ln (A / B) / w - w / 2)) with (ln (A / B) - w * w / 2) by (field; lra).
    nra. }
  generalize jump_pos; intro.
  assert (jump * (A * Rsgn (bd1 A B v) - B * Rsgn (bd2 A B v)) <= jump * (A * Rsgn (bd1 A B w) - B * Rsgn (bd2 A B w))).
  { apply Rmult_le_compat_l; [lra|]. nra. }
  lra.
Qed.
Lemma bput_incr_v A B v w : 0 < A -> 0 < B -> 0 < v -> v < w -> bput cnd A B v < bput cnd A B w.
Proof. intros. rewrite <- !bcall_dual by lra. now apply bcall_incr_v. Qed.
