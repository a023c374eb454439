(** The exact normal distribution function. *)
From Coq Require Import Reals ZArith Bool Lra Lia Psatz.
From Coquelicot Require Import Coquelicot.
From Verif Require Import Num MBase PCnd PCnd2.
Open Scope R_scope.

Ltac eqR := match goal with |- @eq _ ?a ?b => change (@eq R a b) end.

(** Standard normal distribution function, as 1/2 plus the integral of the density from 0.
    [Phi_lim] below shows that it tends to 1, so it is the integral from -infinity. *)
Definition Phi (x : R) : R := 1 / 2 + RInt npdf 0 x.

Lemma npdf_cont x : continuous npdf x.
Proof. apply (ex_derive_continuous npdf x). eexists. apply npdf_derive. Qed.
Lemma npdf_int a b : ex_RInt npdf a b.
Proof. apply (ex_RInt_continuous npdf). intros; apply npdf_cont. Qed.

Lemma Phi_derive x : is_derive Phi x (npdf x).
Proof.
  unfold Phi. evar_last.
  { apply (is_derive_plus (fun _ => 1 / 2) (fun x => RInt npdf 0 x)).
    - apply is_derive_const.
    - apply (is_derive_RInt npdf (fun x => RInt npdf 0 x) 0 x).
      + exists (mkposreal 1 Rlt_0_1). intros y _. apply (RInt_correct npdf). apply npdf_int.
      + apply npdf_cont. }
  hier. ring.
Qed.

Lemma Phi_0 : Phi 0 = 1 / 2.
Proof. unfold Phi. rewrite RInt_point. hier. ring. Qed.

Lemma const_of_derive (f : R -> R) x y : (forall z, is_derive f z 0) -> f x = f y.
Proof.
  intros D. destruct (MVT_gen f y x (fun _ => 0)) as [c [_ E]].
  - intros; apply D.
  - intros z _. apply continuity_pt_filterlim. apply (ex_derive_continuous f). eexists; apply D.
  - lra.
Qed.

Lemma Phi_sym x : Phi x + Phi (- x) = 1.
Proof.
  replace 1 with (Phi 0 + Phi (- 0)) by (rewrite Ropp_0, Phi_0; field).
  apply (const_of_derive (fun x => Phi x + Phi (- x))). intros z.
  evar_last.
  { apply (is_derive_plus Phi (fun x => Phi (- x))).
    - apply Phi_derive.
    - apply (is_derive_comp Phi (fun x => - x)). apply Phi_derive. auto_derive; reflexivity. }
  hier. rewrite npdf_even. ring.
Qed.
Lemma Phi_opp x : Phi (- x) = 1 - Phi x.
Proof. generalize (Phi_sym x); lra. Qed.

Lemma Phi_incr x y : x < y -> Phi x < Phi y.
Proof.
  intros. apply incr_of_derive with (f' := npdf); auto.
  - intros; apply Phi_derive.
  - intros; apply npdf_pos.
Qed.

(* ------------------------------------------------------------------ *)
(** * The Gaussian integral: Phi tends to 1 *)

Definition gI (x : R) : R := RInt (fun t => exp (- t ^ 2)) 0 x.
Definition gk (x t : R) : R := exp (- x ^ 2 * (1 + t ^ 2)) / (1 + t ^ 2).
Definition gJ (x : R) : R := RInt (gk x) 0 1.

Lemma gexp_cont x : continuous (fun t => exp (- t ^ 2)) x.
Proof. apply (ex_derive_continuous (fun t => exp (- t ^ 2))). auto_derive. easy. Qed.

Lemma gI_derive x : is_derive gI x (exp (- x ^ 2)).
Proof.
  unfold gI. apply (is_derive_RInt (fun t => exp (- t ^ 2)) _ 0 x).
  - exists (mkposreal 1 Rlt_0_1). intros y _. apply (RInt_correct (fun t => exp (- t ^ 2))).
    apply (ex_RInt_continuous (fun t => exp (- t ^ 2))). intros; apply gexp_cont.
  - apply gexp_cont.
Qed.

Lemma gk_pos t : 0 < 1 + t ^ 2. Proof. nra. Qed.

Lemma gk_derive x t : is_derive (fun u => gk u t) x (-2 * x * exp (- x ^ 2 * (1 + t ^ 2))).
Proof.
  unfold gk. auto_derive; [easy|]. simpl. unfold Rdiv. field.
  generalize (gk_pos t); simpl; lra.
Qed.

Lemma gk_ex x : ex_RInt (gk x) 0 1.
Proof.
  apply (ex_RInt_continuous (gk x)). intros t _.
  apply (ex_derive_continuous (gk x)). unfold gk. auto_derive.
  generalize (gk_pos t); lra.
Qed.

(** continuity of the partial derivative in both variables *)
Lemma gkd_cont x t : continuity_2d_pt (fun u v => -2 * u * exp (- u ^ 2 * (1 + v ^ 2))) x t.
Proof.
  apply continuity_2d_pt_mult.
  - apply continuity_2d_pt_mult. apply continuity_2d_pt_const. apply continuity_2d_pt_id1.
  - apply (continuity_1d_2d_pt_comp exp (fun u v => - u ^ 2 * (1 + v ^ 2))).
    + apply derivable_continuous_pt, derivable_pt_exp.
    + apply continuity_2d_pt_mult.
      * apply continuity_2d_pt_opp. simpl.
        apply continuity_2d_pt_mult. apply continuity_2d_pt_id1.
        apply continuity_2d_pt_mult. apply continuity_2d_pt_id1. apply continuity_2d_pt_const.
      * apply continuity_2d_pt_plus. apply continuity_2d_pt_const. simpl.
        apply continuity_2d_pt_mult. apply continuity_2d_pt_id2.
        apply continuity_2d_pt_mult. apply continuity_2d_pt_id2. apply continuity_2d_pt_const.
Qed.

Lemma gJ_derive x : is_derive gJ x (RInt (fun t => -2 * x * exp (- x ^ 2 * (1 + t ^ 2))) 0 1).
Proof.
  unfold gJ.
  rewrite (RInt_ext _ (fun t => Derive (fun u => gk u t) x)).
  - apply (is_derive_RInt_param gk 0 1 x).
    + exists (mkposreal 1 Rlt_0_1). intros y _ t _. eexists. apply gk_derive.
    + intros t _. apply continuity_2d_pt_ext with (fun u v => -2 * u * exp (- u ^ 2 * (1 + v ^ 2))).
      * intros u v. symmetry. apply is_derive_unique, gk_derive.
      * apply gkd_cont.
    + exists (mkposreal 1 Rlt_0_1). intros y _. apply gk_ex.
  - intros t _. symmetry. apply is_derive_unique, gk_derive.
Qed.

Lemma gI_correct x : is_RInt (fun t => exp (- t ^ 2)) 0 x (gI x).
Proof.
  apply (RInt_correct (fun t => exp (- t ^ 2))).
  apply (ex_RInt_continuous (fun t => exp (- t ^ 2))). intros; apply gexp_cont.
Qed.

Lemma gI_lin x a : is_RInt (fun t => a * exp (- (a * t) ^ 2)) 0 x (gI (a * x)).
Proof.
  apply (is_RInt_ext (fun t => a * exp (- (a * t + 0) ^ 2))).
  - intros t _. now rewrite Rplus_0_r.
  - apply (is_RInt_comp_lin (fun t => exp (- t ^ 2)) a 0 0 x).
    rewrite Rmult_0_r, !Rplus_0_r. apply gI_correct.
Qed.

Lemma gJ_derive' x : is_derive gJ x (-2 * exp (- x ^ 2) * gI x).
Proof.
  evar_last. { apply gJ_derive. }
  apply is_RInt_unique.
  apply (is_RInt_ext (fun t => (-2 * exp (- x ^ 2)) * (x * exp (- (x * t) ^ 2)))).
  - intros t _.
    replace (- x ^ 2 * (1 + t ^ 2)) with (- x ^ 2 + - (x * t) ^ 2) by ring.
    rewrite exp_plus. eqR. ring.
  - apply (is_RInt_scal (fun t => x * exp (- (x * t) ^ 2)) 0 1 (-2 * exp (- x ^ 2)) (gI x)).
    replace (gI x) with (gI (x * 1)) by (now rewrite Rmult_1_r). apply gI_lin.
Qed.

Lemma gI_0 : gI 0 = 0. Proof. unfold gI. now rewrite RInt_point. Qed.

Lemma gJ_0 : gJ 0 = PI / 4.
Proof.
  unfold gJ.
  rewrite (RInt_ext _ (fun t => / (1 + t ^ 2))).
  - rewrite <- atan_1. apply is_RInt_unique. replace (atan 1) with (minus (atan 1) (atan 0)).
    + apply (is_RInt_derive atan (fun t => / (1 + t ^ 2))).
      * intros t _. apply is_derive_Reals.
        replace (/ (1 + t ^ 2)) with (/ (1 + t ^ 2) * 1) by ring.
        evar_last. { apply derivable_pt_lim_atan. } unfold Rsqr. simpl. f_equal; ring.
      * intros t _. apply (ex_derive_continuous (fun t => / (1 + t ^ 2))). auto_derive.
        generalize (gk_pos t); lra.
    + rewrite atan_0. hier. ring.
  - intros t _. unfold gk. replace (- 0 ^ 2 * (1 + t ^ 2)) with 0 by ring. rewrite exp_0. eqR. field.
    generalize (gk_pos t); lra.
Qed.

Lemma g_const x : gI x ^ 2 + gJ x = PI / 4.
Proof.
  assert (D : forall y, is_derive (fun y => gI y ^ 2 + gJ y) y 0).
  { intros y. evar_last.
    { apply (is_derive_plus (fun y => gI y ^ 2) gJ).
      - apply (is_derive_pow gI 2 y). apply gI_derive.
      - apply gJ_derive'. }
    hier. ring. }
  assert (E : gI x ^ 2 + gJ x = gI 0 ^ 2 + gJ 0)
    by (apply (const_of_derive (fun y => gI y ^ 2 + gJ y)); apply D).
  rewrite E, gI_0, gJ_0. ring.
Qed.

Lemma gJ_bound x : 0 <= gJ x <= exp (- x ^ 2).
Proof.
  unfold gJ. split.
  - apply RInt_ge_0; [lra|apply gk_ex|]. intros t _. unfold gk.
    left. apply Rdiv_lt_0_compat; [apply exp_pos | apply gk_pos].
  - rewrite <- (Rmult_1_l (exp (- x ^ 2))).
    replace (1 * exp (- x ^ 2)) with (RInt (fun _ => exp (- x ^ 2)) 0 1).
    + apply RInt_le; [lra|apply gk_ex| apply ex_RInt_const|].
      intros t _. unfold gk. rewrite <- (Rmult_1_r (exp (- x ^ 2))). unfold Rdiv.
      apply Rmult_le_compat.
      * left; apply exp_pos.
      * left; apply Rinv_0_lt_compat, gk_pos.
      * destruct (Req_dec (- x ^ 2 * (1 + t ^ 2)) (- x ^ 2)) as [->|N]; [lra|].
        left; apply exp_increasing. nra.
      * rewrite <- Rinv_1. apply Rinv_le_contravar; nra.
    + rewrite RInt_const. hier. ring.
Qed.

(** RInt npdf 0 x in terms of gI *)
Lemma Phi_gI x : Phi x = 1 / 2 + / sqrt PI * gI (x / sqrt 2).
Proof.
  unfold Phi. f_equal.
  assert (S2 : 0 < sqrt 2) by (apply sqrt_lt_R0; lra).
  assert (SP : 0 < sqrt PI) by (apply sqrt_lt_R0; generalize PI_lb; lra).
  apply is_RInt_unique.
  apply (is_RInt_ext (fun t => / sqrt PI * (/ sqrt 2 * exp (- (/ sqrt 2 * t) ^ 2)))).
  - intros y _. unfold npdf. rewrite sqrt_mult by (generalize PI_lb; lra).
    replace (- y ^ 2 / 2) with (- (/ sqrt 2 * y) ^ 2).
    + eqR. field. lra.
    + rewrite Rpow_mult_distr, pow_inv.
      rewrite <- (Rsqr_pow2 (sqrt 2)), Rsqr_sqrt by lra. field.
  - apply (is_RInt_scal (fun t => / sqrt 2 * exp (- (/ sqrt 2 * t) ^ 2)) 0 x (/ sqrt PI)).
    replace (x / sqrt 2) with (/ sqrt 2 * x) by (unfold Rdiv; ring). apply gI_lin.
Qed.

Lemma gI_pos x : 0 < x -> 0 < gI x.
Proof.
  intros. rewrite <- gI_0. apply incr_of_derive with (f' := fun x => exp (- x ^ 2)); auto.
  - intros; apply gI_derive. - intros; apply exp_pos.
Qed.

(** 1 - Phi x is nonnegative and at most exp(-x^2/2) *)
Lemma Phi_tail x : 0 < x -> 0 <= 1 - Phi x <= exp (- (x ^ 2) / 2).
Proof.
  intros Hx. rewrite Phi_gI.
  assert (S2 : 0 < sqrt 2) by (apply sqrt_lt_R0; lra).
  assert (SP : 0 < sqrt PI) by (apply sqrt_lt_R0; generalize PI_lb; lra).
  set (y := x / sqrt 2).
  assert (Hy : 0 < y) by (apply Rdiv_lt_0_compat; lra).
  generalize (g_const y) (gJ_bound y) (gI_pos y Hy); intros E [J1 J2] G.
  assert (Q : sqrt PI * sqrt PI = PI) by (apply sqrt_sqrt; generalize PI_lb; lra).
  assert (Y : - y ^ 2 = - x ^ 2 / 2).
  { unfold y. field_simplify; [|lra]. rewrite <- (Rsqr_pow2 (sqrt 2)), Rsqr_sqrt by lra. field. }
  set (g := / sqrt PI * gI y). 
  assert (g1 : 0 < g) by (apply Rmult_lt_0_compat; [apply Rinv_0_lt_compat|]; easy).
  assert (g2 : g ^ 2 = 1 / 4 - gJ y / PI).
  { unfold g. rewrite Rpow_mult_distr. replace (gI y ^ 2) with (PI / 4 - gJ y) by lra.
    rewrite pow_inv, <- (Rsqr_pow2 (sqrt PI)). unfold Rsqr. rewrite Q. field. generalize PI_lb; lra. }
  assert (P : 3 < PI) by (generalize PI_lb; lra).
  assert (gJ y / PI >= 0) by (apply Rle_ge, Rdiv_le_0_compat; lra).
  assert (gJ y / PI <= exp (- y ^ 2) / 3).
  { apply Rle_trans with (gJ y / 3).
    - unfold Rdiv. apply Rmult_le_compat_l; [lra|]. apply Rinv_le_contravar; lra.
    - lra. }
  rewrite <- Y. generalize (exp_pos (- y ^ 2)). intro. split; nra.
Qed.

Lemma Phi_lt_1 x : Phi x < 1.
Proof.
  destruct (Rle_dec x 0).
  - destruct (Req_dec x 0). subst; rewrite Phi_0; lra.
    generalize (Phi_incr x 0). rewrite Phi_0. lra.
  - generalize (Phi_incr x (x + 1)) (Phi_tail (x + 1)). lra.
Qed.
Lemma Phi_gt_0 x : 0 < Phi x.
Proof. generalize (Phi_lt_1 (- x)). rewrite Phi_opp. lra. Qed.
