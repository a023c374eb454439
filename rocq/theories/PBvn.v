(** The five-point rule used by the bivariate normal routine of base.py, in one variable: the error of the rule
    for the half-line integral of exp(-y^2 - c y), scaled by exp(-c^2/4), for every c >= 0.
    The numeric bounds are interval computations checked by the kernel (coq-interval). *)
From Coq Require Import Reals QArith Qreals ZArith Bool List Lra Lia Psatz.
From Coquelicot Require Import Coquelicot.
From Interval Require Import Tactic.
From Verif Require Import Num Py MBase PCnd PGauss.
Open Scope R_scope.

(** ** The rule over a list of weights and nodes *)
Definition rule : list (R * R) :=
  (24840615 / 10 ^ 8, 10024215 / 10 ^ 8) :: (39233107 / 10 ^ 8, 48281397 / 10 ^ 8) :: (21141819 / 10 ^ 8, 10609498 / 10 ^ 7) ::
  (3324666 / 10 ^ 8, 17797294 / 10 ^ 7) :: (82485334 / 10 ^ 11, 26697604 / 10 ^ 7) :: nil.
Fixpoint wsum (f : R -> R) (l : list (R * R)) : R := match l with nil => 0 | (w, y) :: l => w * f y + wsum f l end.
Lemma rule_eq : combine cbnd_X cbnd_y = rule.
Proof. unfold cbnd_X, cbnd_y, rule. cbn [combine]. toR. cbn. repeat (f_equal; try lra). Qed.
Lemma rule_pos w y : In (w, y) rule -> 0 < w /\ 0 < y.
Proof. unfold rule. cbn [In]. intros H. repeat destruct H as [H|H]; try contradiction; injection H as <- <-; lra. Qed.

Lemma wsum_ext f g l : (forall w y, In (w, y) l -> f y = g y) -> wsum f l = wsum g l.
Proof. induction l as [|(w, y) l IH]; cbn; intro H; [reflexivity|]. rewrite (H w y) by now left. rewrite IH; [reflexivity|]. intros; eapply H; right; eassumption. Qed.
Lemma wsum_lin f g l p q : wsum (fun y => p * f y + q * g y) l = p * wsum f l + q * wsum g l.
Proof. induction l as [|(w, y) l IH]; cbn; [ring|]. rewrite IH. ring. Qed.
Lemma wsum_abs f g l : (forall w y, In (w, y) l -> 0 < w /\ Rabs (f y) <= g y) -> Rabs (wsum f l) <= wsum g l.
Proof.
  induction l as [|(w, y) l IH]; cbn; intro H; [rewrite Rabs_R0; lra|]. destruct (H w y) as [H1 H2]; [now left|].
  eapply Rle_trans; [apply Rabs_triang|]. rewrite Rabs_mult, (Rabs_pos_eq w) by lra. apply Rplus_le_compat; [apply Rmult_le_compat_l; lra|]. apply IH. intros; apply H; now right.
Qed.

(** ** The error of the rule *)
Definition gk1 (c : R) : R := sqrt PI * Phi (- (c / sqrt 2)) - wsum (fun y => exp (- (c ^ 2 / 4) - c * y)) rule.
Definition hk1 (c : R) : R := wsum (fun y => (y + c / 2) * exp (- (c * y))) rule - 1 / 2.

Lemma Phi_form c : sqrt PI * Phi (- (c / sqrt 2)) = sqrt PI / 2 - gI (c / 2).
Proof.
  rewrite Phi_opp, Phi_gI. assert (Q : sqrt 2 * sqrt 2 = 2) by (apply sqrt_sqrt; lra). assert (0 < sqrt 2) by (apply sqrt_lt_R0; lra).
  assert (0 < sqrt PI) by (apply sqrt_lt_R0, PI_RGT_0). replace (c / sqrt 2 / sqrt 2) with (c / 2); [field; lra|]. replace (c / 2) with (c / (sqrt 2 * sqrt 2)) by now rewrite Q. field. lra.
Qed.
Lemma gk1_derive c : is_derive gk1 c (exp (- (c ^ 2 / 4)) * hk1 c).
Proof.
  apply (is_derive_ext (fun c => sqrt PI / 2 - gI (c / 2) - wsum (fun y => exp (- (c ^ 2 / 4) - c * y)) rule)).
  { intro x. unfold gk1. now rewrite Phi_form. }
  assert (H1 : is_derive (fun c => gI (c / 2)) c (exp (- (c / 2) ^ 2) * (1 / 2))).
  { evar_last; [apply (is_derive_comp gI (fun c => c / 2)); [apply gI_derive|auto_derive; [exact Coq.Init.Logic.I|reflexivity]]|]. unfold scal. cbn. unfold mult. cbn. field. }
  assert (H2 : forall l, is_derive (fun c => wsum (fun y => exp (- (c ^ 2 / 4) - c * y)) l) c (- (exp (- (c ^ 2 / 4)) * wsum (fun y => (y + c / 2) * exp (- (c * y))) l))).
  { induction l as [|(w, y) l IH]; cbn [wsum]; [evar_last; [apply (is_derive_const (V := R_NormedModule))|]; unfold zero; cbn; ring|].
    evar_last; [apply (is_derive_plus (fun c => w * exp (- (c ^ 2 / 4) - c * y))); [auto_derive; [exact Coq.Init.Logic.I|reflexivity]|exact IH]|].
    unfold plus. cbn. replace (exp (- (c * (c * 1) * / 4) + - (c * y))) with (exp (- (c * (c * 1) / 4)) * exp (- (c * y))) by (rewrite <- exp_plus; f_equal; field). field. }
  evar_last; [apply (is_derive_minus (fun c => sqrt PI / 2 - gI (c / 2))); [apply (is_derive_minus (fun _ => sqrt PI / 2)); [apply is_derive_const|exact H1]|apply H2]|].
  unfold minus, plus, opp, zero. cbn. unfold hk1. replace (- (c * / 2 * (c * / 2 * 1))) with (- (c * (c * 1) / 4)) by field.
  replace (- (c / 2 * (c / 2 * 1))) with (- (c * (c * 1) / 4)) by field. cbn. field.
Qed.
Lemma gk1_mvt a b : a <= b -> exists z, a <= z <= b /\ gk1 b - gk1 a = exp (- (z ^ 2 / 4)) * hk1 z * (b - a).
Proof.
  intro H. destruct (MVT_gen gk1 a b (fun z => exp (- (z ^ 2 / 4)) * hk1 z)) as (z & Hz & E).
  - intros; apply gk1_derive.
  - intros y _. apply continuity_pt_filterlim. apply (ex_derive_continuous gk1). eexists; apply gk1_derive.
  - rewrite Rmin_left, Rmax_right in Hz by lra. exists z. split; [exact Hz|exact E].
Qed.
Lemma exp_neg_1 x : 0 <= x -> 0 < exp (- x) <= 1.
Proof. intro H. split; [apply exp_pos|]. destruct (Req_dec x 0) as [->|N]; [rewrite Ropp_0, exp_0; lra|]. left. rewrite <- exp_0. apply exp_increasing. lra. Qed.

(** ** The sign of the derivative *)
Ltac hk := unfold hk1, rule; cbn [wsum].
Lemma hk_a c : 0 <= c <= 1 -> Rabs (hk1 c) <= 2 / 10 ^ 8.
Proof. intro H. hk. interval with (i_bisect c, i_taylor c, i_degree 10, i_prec 70). Qed.
Lemma hk_b c : 1 <= c <= 355 / 100 -> 0 <= hk1 c.
Proof. intro H. hk. interval with (i_bisect c, i_taylor c, i_degree 12, i_prec 70, i_depth 20). Qed.
Lemma hk_c c : 355 / 100 <= c <= 36 / 10 -> Rabs (hk1 c) <= 2 / 10 ^ 6.
Proof. intro H. hk. interval with (i_bisect c, i_taylor c, i_degree 10, i_prec 70). Qed.
Lemma hk_d c : 36 / 10 <= c <= 10 -> hk1 c <= 0.
Proof. intro H. hk. interval with (i_bisect c, i_taylor c, i_degree 10, i_prec 70, i_depth 20). Qed.
Lemma term_dec y c : 1 / 2 <= y ^ 2 + y * 5 -> 0 < y -> 10 <= c -> (y + c / 2) * exp (- (c * y)) <= (y + 10 / 2) * exp (- (10 * y)).
Proof.
  intros Hy Y Hc. replace (- (c * y)) with (- (10 * y) + - ((c - 10) * y)) by ring. rewrite exp_plus.
  assert (A : (y + c / 2) * exp (- ((c - 10) * y)) <= y + 10 / 2).
  { rewrite exp_Ropp. apply Rmult_le_reg_r with (exp ((c - 10) * y)); [apply exp_pos|]. rewrite Rmult_assoc, Rinv_l by (apply Rgt_not_eq, exp_pos). 
    assert (1 + (c - 10) * y <= exp ((c - 10) * y)) by apply exp_ineq1_le. 
    apply Rle_trans with ((y + 10 / 2) * (1 + (c - 10) * y)); [|apply Rmult_le_compat_l; lra].
    assert (0 <= (c - 10) * (y ^ 2 + y * 5 - 1 / 2)) by (apply Rmult_le_pos; lra). lra. }
  pose proof (exp_pos (- (10 * y))). rewrite (Rmult_comm (exp _)), <- Rmult_assoc. apply Rmult_le_compat_r; lra.
Qed.
Lemma hk_e c : 10 <= c -> hk1 c <= 0.
Proof.
  intro H. apply Rle_trans with (hk1 10); [|apply hk_d; lra]. unfold hk1. apply Rplus_le_compat_r. unfold rule. cbn [wsum].
  repeat (apply Rplus_le_compat; [apply Rmult_le_compat_l; [lra|apply term_dec; lra]|]). lra.
Qed.

(** ** Values *)
Lemma gk1_num c : gk1 c = sqrt PI / 2 - RInt (fun t => exp (- t ^ 2)) 0 (c / 2) - wsum (fun y => exp (- (c ^ 2 / 4) - c * y)) rule.
Proof. unfold gk1. now rewrite Phi_form. Qed.
Lemma gk_0 : Rabs (gk1 0) <= 1 / 10 ^ 8.
Proof. unfold gk1. unfold Rdiv at 1. rewrite Rmult_0_l, Ropp_0, Phi_0. unfold rule. cbn [wsum]. interval with (i_prec 60). Qed.
Lemma gk_1 : gk1 (355 / 100) <= 1055 / 10 ^ 9.
Proof. rewrite gk1_num. unfold rule. cbn [wsum]. integral with (i_prec 70). Qed.

Definition e1 : R := 106 / 10 ^ 8.
Lemma gk_tail c : 8 <= c -> - e1 <= gk1 c.
Proof.
  intro H. unfold gk1. assert (P := Phi_gt_0 (- (c / sqrt 2))). assert (0 < sqrt PI) by (apply sqrt_lt_R0, PI_RGT_0).
  assert (0 < sqrt PI * Phi (- (c / sqrt 2))) by now apply Rmult_lt_0_compat.
  assert (W : wsum (fun y => exp (- (c ^ 2 / 4) - c * y)) rule <= wsum (fun _ => exp (-16)) rule).
  { unfold rule. cbn [wsum]. repeat (apply Rplus_le_compat; [apply Rmult_le_compat_l; [lra|]|]); try lra;
    match goal with |- exp ?u <= exp ?v => assert (L : u <= v) by nra; destruct L as [L|L]; [left; now apply exp_increasing|rewrite L; lra] end. }
  assert (V : wsum (fun _ => exp (-16)) rule <= e1) by (unfold rule, e1; cbn [wsum]; interval with (i_prec 60)). lra.
Qed.
Lemma gk_bound c : 0 <= c -> Rabs (gk1 c) <= e1.
Proof.
  intro Hc. assert (E0 := gk_0). apply Rabs_le_between in E0. assert (E1 := gk_1).
  assert (A : forall c, 0 <= c <= 1 -> Rabs (gk1 c) <= 3 / 10 ^ 8).
  { intros x Hx. destruct (gk1_mvt 0 x ltac:(lra)) as (z & Hz & E). assert (B := hk_a z ltac:(lra)). destruct (exp_neg_1 (z ^ 2 / 4)) as [F1 F2]; [nra|].
    assert (G : Rabs (gk1 x - gk1 0) <= 1 * (2 / 10 ^ 8) * 1).
    { rewrite E, !Rabs_mult, (Rabs_pos_eq (exp _)), (Rabs_pos_eq (x - 0)) by lra. apply Rmult_le_compat; try lra; [apply Rmult_le_pos; [lra|apply Rabs_pos]|]. apply Rmult_le_compat; try lra. apply Rabs_pos. }
    apply Rabs_le_between in G. apply Rabs_le. lra. }
  assert (B : forall c, 1 <= c <= 355 / 100 -> - (3 / 10 ^ 8) <= gk1 c <= 1055 / 10 ^ 9).
  { intros x Hx. assert (A1 := A 1 ltac:(lra)). apply Rabs_le_between in A1. split.
    - destruct (gk1_mvt 1 x ltac:(lra)) as (z & Hz & E). assert (B := hk_b z ltac:(lra)). destruct (exp_neg_1 (z ^ 2 / 4)) as [F1 F2]; [nra|].
      assert (0 <= exp (- (z ^ 2 / 4)) * hk1 z * (x - 1)) by (repeat apply Rmult_le_pos; lra). lra.
    - destruct (gk1_mvt x (355 / 100) ltac:(lra)) as (z & Hz & E). assert (B := hk_b z ltac:(lra)). destruct (exp_neg_1 (z ^ 2 / 4)) as [F1 F2]; [nra|].
      assert (0 <= exp (- (z ^ 2 / 4)) * hk1 z * (355 / 100 - x)) by (repeat apply Rmult_le_pos; lra). lra. }
  assert (C : forall c, 355 / 100 <= c <= 36 / 10 -> - e1 <= gk1 c <= e1).
  { intros x Hx. assert (B1 := B (355 / 100) ltac:(lra)). destruct (gk1_mvt (355 / 100) x ltac:(lra)) as (z & Hz & E). assert (H := hk_c z ltac:(lra)).
    assert (F : 0 < exp (- (z ^ 2 / 4)) <= 1 / 20) by (assert (Hz' : 355 / 100 <= z <= 36 / 10) by lra; split; [apply exp_pos|]; clear - Hz'; interval with (i_bisect z, i_prec 40)).
    assert (G : Rabs (gk1 x - gk1 (355 / 100)) <= 1 / 20 * (2 / 10 ^ 6) * (1 / 20)).
    { rewrite E, !Rabs_mult, (Rabs_pos_eq (exp _)), (Rabs_pos_eq (x - _)) by lra. apply Rmult_le_compat; try lra; [apply Rmult_le_pos; [lra|apply Rabs_pos]|]. apply Rmult_le_compat; try lra. apply Rabs_pos. }
    apply Rabs_le_between in G. unfold e1. lra. }
  assert (D : forall x y, 36 / 10 <= x <= y -> gk1 y <= gk1 x).
  { intros x y Hx. destruct (gk1_mvt x y ltac:(lra)) as (z & Hz & E). assert (H : hk1 z <= 0) by (destruct (Rle_dec z 10); [apply hk_d|apply hk_e]; lra).
    destruct (exp_neg_1 (z ^ 2 / 4)) as [F1 F2]; [nra|]. assert (0 <= exp (- (z ^ 2 / 4)) * - hk1 z * (y - x)) by (repeat apply Rmult_le_pos; lra). lra. }
  destruct (Rle_dec c 1); [assert (X := A c ltac:(lra)); unfold e1; lra|]. apply Rabs_le.
  destruct (Rle_dec c (355 / 100)); [assert (X := B c ltac:(lra)); unfold e1; lra|].
  destruct (Rle_dec c (36 / 10)); [apply C; lra|]. split.
  - destruct (Rle_dec c 8); [apply Rle_trans with (gk1 8); [apply gk_tail; lra|apply D; lra]|apply gk_tail; lra].
  - apply Rle_trans with (gk1 (36 / 10)); [apply D; lra|apply C; lra].
Qed.

(** the weights seen from one side of the square *)
Lemma rule_weight s : 0 <= s <= 1 -> s * wsum (fun y => exp ((1 - s ^ 2) * y ^ 2)) rule <= 89 / 100.
Proof. intro H. unfold rule. cbn [wsum]. interval with (i_bisect s, i_taylor s, i_degree 6, i_prec 40, i_depth 25). Qed.
