(** Proofs about GBSOption over the reals. *)
From Coq Require Import Reals QArith Qreals ZArith Bool List Lra Lia Psatz.
From Coquelicot Require Import Coquelicot.
From Verif Require Import Num Py MBase MVanilla PCnd PCnd2 PBlack PGauss.
Import ListNotations.
Open Scope R_scope.

Section Link.
Variables S K t r b s : R.
Hypothesis HS : 0 < S.
Hypothesis HK : 0 < K.
Hypothesis Ht : 0 < t.

Notation o := (GBSOption S K t r b (Some s)).
Notation A := (S * exp ((b - r) * t)).
Notation B := (K * exp (- r * t)).
Notation v := (s * sqrt t).

Lemma fwd_pos : 0 < A. Proof. apply Rmult_lt_0_compat; [easy|apply exp_pos]. Qed.
Lemma strk_pos : 0 < B. Proof. apply Rmult_lt_0_compat; [easy|apply exp_pos]. Qed.

Lemma ln_fwd : ln (A / B) = ln (S / K) + b * t.
Proof.
  replace (A / B) with (S / K * exp (b * t)).
  - rewrite ln_mult, ln_exp; auto. apply Rdiv_lt_0_compat; lra. apply exp_pos.
  - replace (b * t) with ((b - r) * t + - (- r * t)) by ring.
    rewrite exp_plus, (exp_Ropp (- r * t)). field. split; [apply Rgt_not_eq, exp_pos | lra].
Qed.

Lemma sqrt_t : sqrt t * sqrt t = t. Proof. apply sqrt_sqrt; lra. Qed.
Lemma sqrt_t_pos : 0 < sqrt t. Proof. now apply sqrt_lt_R0. Qed.

Lemma d1_link : s <> 0 -> gbs_d1 S K t b s = bd1 A B v.
Proof.
  intros Hs. unfold gbs_d1, bd1. rewrite ln_fwd. toR.
  assert (Q := sqrt_t). assert (P := sqrt_t_pos).
  transitivity ((ln (S / K) + b * t) / (s * sqrt t) + s * s / 2 * (sqrt t * sqrt t) / (s * sqrt t)).
  - rewrite Q. field. split; lra.
  - field. split; lra.
Qed.
Lemma d2_link : s <> 0 -> gbs_d2 S K t b s = bd2 A B v.
Proof. intros. unfold gbs_d2. rewrite d1_link, bd12 by easy. toR. reflexivity. Qed.

Lemma call_link F : s <> 0 -> gbs_call_F F o = Ok (bcall F A B v).
Proof.
  intros. unfold gbs_call_F, with_d, GBSOption. cbn [g_sigma g_d1 g_d2 g_S g_K g_t g_r g_b].
  rewrite d1_link, d2_link by easy. reflexivity.
Qed.
Lemma put_link F : s <> 0 -> gbs_put_F F o = Ok (bput F A B v).
Proof.
  intros. unfold gbs_put_F, with_d, GBSOption. cbn [g_sigma g_d1 g_d2 g_S g_K g_t g_r g_b].
  rewrite d1_link, d2_link by easy. reflexivity.
Qed.
End Link.

(** Greeks, with the model's [with_d] evaluated. *)
Ltac gbs_open :=
  unfold gbs_call, gbs_put, gbs_delta, gbs_theta, gbs_vega, gbs_rho, gbs_lamb, gbs_gamma, gbs_cofc,
    gbs_call_F, gbs_put_F, gbs_delta_F, gbs_theta_F, gbs_vega_F, gbs_rho_F, gbs_lamb_F,
    gbs_gamma_F, gbs_cofc_F, with_d, GBSOption, bind;
  cbn [g_sigma g_d1 g_d2 g_S g_K g_t g_r g_b]; toR.

(* ------------------------------------------------------------------ *)
(** * Derivatives of the Black core *)

(** If F' = npdf, the chain-rule terms through d1 and d2 collapse to A npdf(d1) v'. *)
Lemma bcall_derive F (A B v : R -> R) (A' B' v' p : R) :
  (forall x, is_derive F x (npdf x)) ->
  is_derive A p A' -> is_derive B p B' -> is_derive v p v' ->
  0 < A p -> 0 < B p -> 0 < v p ->
  is_derive (fun p => bcall F (A p) (B p) (v p)) p
    (A' * F (bd1 (A p) (B p) (v p)) - B' * F (bd2 (A p) (B p) (v p))
     + A p * npdf (bd1 (A p) (B p) (v p)) * v').
Proof.
  intros HF DA DB Dv PA PB Pv.
  set (x1 := bd1 (A p) (B p) (v p)). set (x2 := bd2 (A p) (B p) (v p)).
  assert (EA : ex_derive A p) by (now exists A').
  assert (EB : ex_derive B p) by (now exists B').
  assert (Ev : ex_derive v p) by (now exists v').
  set (L := fun p => ln (A p / B p) / v p).
  set (L' := (A' / A p - B' / B p) / v p - ln (A p / B p) * v' / (v p) ^ 2).
  assert (DL : is_derive L p L').
  { unfold L. auto_derive.
    - repeat split; auto; try lra. apply Rdiv_lt_0_compat; lra.
    - change (Derive (fun x => A x) p) with (Derive A p). change (Derive (fun x => B x) p) with (Derive B p).
      change (Derive (fun x => v x) p) with (Derive v p).
      rewrite (is_derive_unique A p A' DA), (is_derive_unique B p B' DB), (is_derive_unique v p v' Dv).
      unfold L', Rdiv. field. lra. }
  assert (D1 : is_derive (fun p => bd1 (A p) (B p) (v p)) p (L' + v' / 2)).
  { unfold bd1. apply (is_derive_plus L (fun p => v p / 2)); auto.
    unfold Rdiv. evar_last. { apply (is_derive_scal_l v p v' (/ 2) Dv). } hier. ring. }
  assert (D2 : is_derive (fun p => bd2 (A p) (B p) (v p)) p (L' - v' / 2)).
  { unfold bd2. apply (is_derive_minus L (fun p => v p / 2)); auto.
    unfold Rdiv. evar_last. { apply (is_derive_scal_l v p v' (/ 2) Dv). } hier. ring. }
  unfold bcall. evar_last.
  { apply (is_derive_minus (fun p => A p * F (bd1 (A p) (B p) (v p)))
             (fun p => B p * F (bd2 (A p) (B p) (v p)))).
    - apply (is_derive_mult A (fun p => F (bd1 (A p) (B p) (v p)))); [exact DA| |intros; apply Rmult_comm].
      apply (is_derive_comp F (fun p => bd1 (A p) (B p) (v p))); [apply HF|exact D1].
    - apply (is_derive_mult B (fun p => F (bd2 (A p) (B p) (v p)))); [exact DB| |intros; apply Rmult_comm].
      apply (is_derive_comp F (fun p => bd2 (A p) (B p) (v p))); [apply HF|exact D2]. }
  hier. fold x1 x2.
  assert (E : A p * npdf x1 = B p * npdf x2) by now apply b_density.
  replace (A' * F x1 + A p * ((L' + v' / 2) * npdf x1) +
           - (B' * F x2 + B p * ((L' - v' / 2) * npdf x2)))
    with (A' * F x1 - B' * F x2 + ((L' + v' / 2) * (A p * npdf x1) - (L' - v' / 2) * (B p * npdf x2)))
    by ring.
  rewrite <- E. field.
Qed.

Lemma bput_derive F (A B v : R -> R) (A' B' v' p : R) :
  (forall x, is_derive F x (npdf x)) ->
  is_derive A p A' -> is_derive B p B' -> is_derive v p v' ->
  0 < A p -> 0 < B p -> 0 < v p ->
  (exists e : posreal, forall q, Rabs (q - p) < e -> 0 < A q /\ 0 < B q) ->
  is_derive (fun p => bput F (A p) (B p) (v p)) p
    (B' * F (- bd2 (A p) (B p) (v p)) - A' * F (- bd1 (A p) (B p) (v p))
     + A p * npdf (bd1 (A p) (B p) (v p)) * v').
Proof.
  intros HF DA DB Dv PA PB Pv [e He].
  apply is_derive_ext_loc with (fun p => bcall F (B p) (A p) (v p)).
  - exists e. intros q Hq. destruct (He q Hq). now apply bcall_dual.
  - evar_last. { apply (bcall_derive F B A v B' A' v' p); auto. }
    rewrite (bd_swap (A p) (B p)), (bd_swap2 (A p) (B p)) by easy. rewrite npdf_even, <- b_density by easy. reflexivity.
Qed.
