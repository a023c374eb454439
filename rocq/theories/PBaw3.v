(** Barone-Adesi-Whaley prices dominate exercise and the European price (C43). *)
From Coq Require Import Reals ZArith QArith Qreals List Bool Lra Lia.
From Coquelicot Require Import Coquelicot.
From Verif Require Import Num Py MBase MVanilla MAmerican PCnd PCnd2 PBlack PGauss PGbs PCndAcc PVanilla SAmerican PBaw.
Open Scope R_scope.

Lemma exp_le_le x y : x <= y -> exp x <= exp y.
Proof. intros [H| ->]; [left; now apply exp_increasing|lra]. Qed.

(** Bernoulli's inequality, exponents above 1 and below 0 *)
Lemma bernoulli_hi y q : 1 <= q -> 0 < y -> 1 + q * (y - 1) <= Rpower y q.
Proof.
  intros Hq Hy.
  assert (D : forall c, 0 < c -> derivable_pt_lim (fun z => Rpower z q - q * z) c (q * Rpower c (q - 1) - q)).
  { intros c Hc. apply is_derive_Reals. unfold Rpower. auto_derive; [exact Hc|].
    replace ((q - 1) * ln c) with (q * ln c + - ln c) by ring. rewrite exp_plus, exp_Ropp, exp_ln by easy. field. lra. }
  assert (M : forall z, 0 < z -> z <= 1 -> Rpower z (q - 1) <= 1).
  { intros z Hz H1. unfold Rpower. apply Rle_trans with (exp 0); [|rewrite exp_0; lra]. apply exp_le_le.
    assert (ln z <= 0) by (rewrite <- ln_1; destruct H1 as [H1|H1]; [left; apply ln_increasing; lra|rewrite H1; lra]). nra. }
  assert (M' : forall z, 1 <= z -> 1 <= Rpower z (q - 1)).
  { intros z H1. unfold Rpower. apply Rle_trans with (exp 0); [rewrite exp_0; lra|]. apply exp_le_le.
    assert (0 <= ln z) by (rewrite <- ln_1; destruct H1 as [H1|H1]; [left; apply ln_increasing; lra|rewrite <- H1; lra]). nra. }
  assert (O : Rpower 1 q = 1) by (unfold Rpower; rewrite ln_1, Rmult_0_r; apply exp_0).
  destruct (Rtotal_order y 1) as [L|[->|L]]; [|lra|].
  - destruct (MVT_cor2 _ _ y 1 L (fun c Hc => D c ltac:(lra))) as (c & E & Hc). rewrite O in E.
    specialize (M c ltac:(lra) ltac:(lra)). assert (0 <= (q - q * Rpower c (q - 1)) * (1 - y)) by (apply Rmult_le_pos; nra). lra.
  - destruct (MVT_cor2 _ _ 1 y L (fun c Hc => D c ltac:(lra))) as (c & E & Hc). rewrite O in E.
    specialize (M' c ltac:(lra)). assert (0 <= (q * Rpower c (q - 1) - q) * (y - 1)) by (apply Rmult_le_pos; nra). lra.
Qed.
Lemma bernoulli_neg y q : q <= 0 -> 1 <= y -> 1 + q * (y - 1) <= Rpower y q.
Proof.
  intros Hq Hy. unfold Rpower.
  assert (L : ln y <= y - 1) by (assert (X := exp_ineq1_le (ln y)); rewrite exp_ln in X by lra; lra).
  assert (X := exp_ineq1_le (q * ln y)). nra.
Qed.

Section Core.
Variables e kb v : R.
Hypothesis He : 0 < e.
Hypothesis Hk : 0 < kb.
Hypothesis Hv : 0 < v.
Definition dd (x : R) : R := bd1 (x * e) kb v.
Definition cP (F : R -> R) (x : R) : R := bcall F (x * e) kb v.
Definition pP (F : R -> R) (x : R) : R := bput F (x * e) kb v.
Definition err (x : R) : R := 75 / 10 ^ 9 * (x * e + kb).

Lemma xe_pos x : 0 < x -> 0 < x * e. Proof. intro. now apply Rmult_lt_0_compat. Qed.
Lemma c_err x : 0 < x -> Rabs (cP cnd x - cP Phi x) <= err x.
Proof.
  intro H. unfold cP, err. rewrite (Rmult_comm (75 / 10 ^ 9)). apply diff2; try (generalize (xe_pos x H); lra). apply cnd_accuracy.
Qed.
Lemma p_err x : 0 < x -> Rabs (pP cnd x - pP Phi x) <= err x.
Proof.
  intro H. unfold pP, err. rewrite (Rmult_comm (75 / 10 ^ 9)), (Rplus_comm _ kb). apply diff2; try (generalize (xe_pos x H); lra). apply cnd_accuracy.
Qed.
Lemma dd_derive x : 0 < x -> is_derive dd x (/ (x * v)).
Proof.
  intro H. unfold dd, bd1. auto_derive.
  - apply Rdiv_lt_0_compat; [now apply xe_pos|easy].
  - field. repeat split; apply Rgt_not_eq; assumption.
Qed.
Lemma dd_incr x y : 0 < x -> x < y -> dd x < dd y.
Proof.
  intros H L. unfold dd, bd1. apply Rplus_lt_compat_r. apply Rmult_lt_compat_r; [now apply Rinv_0_lt_compat|].
  apply ln_increasing; [apply Rdiv_lt_0_compat; [now apply xe_pos|easy]|].
  apply Rmult_lt_compat_r; [now apply Rinv_0_lt_compat|]. now apply Rmult_lt_compat_r.
Qed.
Lemma dd_le x y : 0 < x -> x <= y -> dd x <= dd y.
Proof. intros H [L| ->]; [left; now apply dd_incr|lra]. Qed.
Lemma Phi_le x y : x <= y -> Phi x <= Phi y.
Proof. intros [L| ->]; [left; now apply Phi_incr|lra]. Qed.
Lemma c_derive x : 0 < x -> is_derive (cP Phi) x (e * Phi (dd x)).
Proof.
  intro H. evar_last.
  - apply (bcall_derive Phi (fun x => x * e) (fun _ => kb) (fun _ => v) e 0 0); auto using Phi_derive.
    + auto_derive; [easy|ring].
    + auto_derive; [easy|ring].
    + auto_derive; [easy|ring].
    + now apply xe_pos.
  - cbv beta. unfold dd. ring.
Qed.
Lemma parity x : cP Phi x - pP Phi x = x * e - kb.
Proof. unfold cP, pP. apply b_parity. intro. apply Phi_sym. Qed.
Lemma p_derive x : 0 < x -> is_derive (pP Phi) x (- (e * Phi (- dd x))).
Proof.
  intro H. apply is_derive_ext with (fun x => cP Phi x - (x * e - kb)). { intro y. generalize (parity y). intros. change (cP Phi y - (y * e - kb) = pP Phi y). lra. }
  evar_last. { apply (is_derive_minus (cP Phi) (fun x => x * e - kb)); [now apply c_derive|]. auto_derive; [easy|reflexivity]. }
  change (e * Phi (dd x) - 1 * e = - (e * Phi (- dd x))). generalize (Phi_sym (dd x)). intros. replace (Phi (- dd x)) with (1 - Phi (dd x)) by lra. ring.
Qed.

(** tangents *)
Lemma c_tangent x y : 0 < x -> 0 < y -> cP Phi y + e * Phi (dd y) * (x - y) <= cP Phi x.
Proof.
  intros Hx Hy. destruct (Rtotal_order x y) as [L|[->|L]]; [|lra|].
  - destruct (MVT_cor2 (cP Phi) _ x y L (fun c Hc => proj1 (is_derive_Reals _ _ _) (c_derive c ltac:(lra)))) as (c & E & Hc).
    assert (Phi (dd c) <= Phi (dd y)) by (apply Phi_le, dd_le; lra).
    assert (0 <= e * (Phi (dd y) - Phi (dd c)) * (y - x)) by (apply Rmult_le_pos; [apply Rmult_le_pos|]; lra). lra.
  - destruct (MVT_cor2 (cP Phi) _ y x L (fun c Hc => proj1 (is_derive_Reals _ _ _) (c_derive c ltac:(lra)))) as (c & E & Hc).
    assert (Phi (dd y) <= Phi (dd c)) by (apply Phi_le, dd_le; lra).
    assert (0 <= e * (Phi (dd c) - Phi (dd y)) * (x - y)) by (apply Rmult_le_pos; [apply Rmult_le_pos|]; lra). lra.
Qed.
Lemma p_tangent x y : 0 < x -> 0 < y -> pP Phi y - e * Phi (- dd y) * (x - y) <= pP Phi x.
Proof.
  intros Hx Hy. generalize (c_tangent x y Hx Hy) (parity x) (parity y) (Phi_sym (dd y)). intros.
  replace (Phi (- dd y)) with (1 - Phi (dd y)) by lra. lra.
Qed.
(** the call per unit of spot grows *)
Lemma c_ratio x y : 0 < x -> x <= y -> cP Phi x <= x / y * cP Phi y.
Proof.
  intros Hx L. assert (T := c_tangent y x ltac:(lra) Hx).
  assert (U : cP Phi x <= x * (e * Phi (dd x))).
  { unfold cP, bcall. fold (dd x). assert (0 < Phi (bd2 (x * e) kb v)) by (apply Phi_gt_0).
    assert (0 < kb * Phi (bd2 (x * e) kb v)) by now apply Rmult_lt_0_compat. lra. }
  apply Rmult_le_reg_l with y; [lra|]. replace (y * (x / y * cP Phi y)) with (x * cP Phi y) by (field; lra).
  assert (x * (cP Phi x + e * Phi (dd x) * (y - x)) <= x * cP Phi y) by (apply Rmult_le_compat_l; lra).
  assert (cP Phi x * (y - x) <= x * (e * Phi (dd x)) * (y - x)) by (apply Rmult_le_compat_r; lra). lra.
Qed.

Section Call.
Variables K q tau Sk : R.
Hypothesis Hq : 1 < q.
Hypothesis He1 : e < 1.
Hypothesis HSk : 0 < Sk.
Definition Gc (F : R -> R) (x : R) : R := cP F x + x / q * (1 - e * F (dd x)) - (x - K).
Definition Gc' (x : R) : R := - ((1 - e * Phi (dd x)) * (1 - / q) + e * npdf (dd x) / (v * q)).
Lemma Gc_derive x : 0 < x -> is_derive (Gc Phi) x (Gc' x).
Proof.
  intro H. unfold Gc. evar_last.
  - apply (is_derive_minus (fun x => cP Phi x + x / q * (1 - e * Phi (dd x))) (fun x => x - K)); [|auto_derive; [easy|reflexivity]].
    apply (is_derive_plus (cP Phi) (fun x => x / q * (1 - e * Phi (dd x)))); [now apply c_derive|].
    apply (is_derive_mult (fun x => x / q) (fun x => 1 - e * Phi (dd x))); [auto_derive; [easy|reflexivity]| |intros; apply Rmult_comm].
    apply (is_derive_minus (fun _ => 1) (fun x => e * Phi (dd x))); [auto_derive; [easy|reflexivity]|].
    apply (is_derive_scal (fun x => Phi (dd x))). apply (is_derive_comp Phi dd); [apply Phi_derive|now apply dd_derive].
  - unfold Gc', minus, plus, opp, mult, scal. simpl. unfold mult. simpl. unfold Hierarchy.opp. simpl. field. repeat split; lra.
Qed.
Lemma eF x : 0 < 1 - e * Phi x.
Proof. assert (e * Phi x < 1); [|lra]. generalize (Phi_gt_0 x) (Phi_lt_1 x). intros. nra. Qed.
Lemma q1 : 0 < 1 - / q.
Proof. assert (/ q < 1); [|lra]. rewrite <- Rinv_1. apply Rinv_lt_contravar; lra. Qed.
Lemma Gc'_neg x : Gc' x < 0.
Proof.
  unfold Gc'. assert (0 < (1 - e * Phi (dd x)) * (1 - / q)) by (apply Rmult_lt_0_compat; [apply eF|apply q1]).
  assert (0 < e * npdf (dd x) / (v * q)); [|lra]. apply Rdiv_lt_0_compat; apply Rmult_lt_0_compat; try lra. apply npdf_pos.
Qed.
Lemma Gc_decr x y : 0 < x -> x < y -> Gc Phi y < Gc Phi x.
Proof.
  intros H L. destruct (MVT_cor2 (Gc Phi) _ x y L (fun c Hc => proj1 (is_derive_Reals _ _ _) (Gc_derive c ltac:(lra)))) as (c & E & Hc).
  generalize (Gc'_neg c). nra.
Qed.
Lemma Gc_err x : 0 < x -> Rabs (Gc cnd x - Gc Phi x) <= err x.
Proof.
  intro H. unfold Gc, cP, bcall. fold (dd x).
  match goal with |- Rabs ?a <= _ => replace a with
    ((x * e * (1 - / q) * cnd (dd x) - kb * cnd (bd2 (x * e) kb v)) - (x * e * (1 - / q) * Phi (dd x) - kb * Phi (bd2 (x * e) kb v))) by (field; lra) end.
  assert (P := xe_pos x H). assert (Q := q1). assert (0 <= x * e * (1 - / q)) by (apply Rmult_le_pos; lra).
  eapply Rle_trans; [apply diff2; [lra|lra|apply cnd_accuracy]|]. unfold err. rewrite (Rmult_comm _ (75 / 10 ^ 9)). apply Rmult_le_compat_l; [lra|].
  assert (0 < / q) by (apply Rinv_0_lt_compat; lra). assert (0 < x * e * / q) by now apply Rmult_lt_0_compat. lra.
Qed.

Hypothesis Hstop : Rabs (Gc cnd Sk) <= tau.
Let A := Sk / q * (1 - e * cnd (dd Sk)).

Lemma call_beyond x : Sk <= x -> cP cnd x <= x - K + tau + err Sk + err x.
Proof.
  intro H. assert (G : Gc Phi x <= Gc Phi Sk) by (destruct H as [H| ->]; [left; apply Gc_decr; lra|lra]).
  generalize (Gc_err Sk HSk) (c_err x ltac:(lra)). intros H1 H2. apply Rabs_le_between in H1. apply Rabs_le_between in H2.
  apply Rabs_le_between in Hstop as H3. assert (0 < x / q * (1 - e * Phi (dd x))).
  { apply Rmult_lt_0_compat; [apply Rdiv_lt_0_compat; lra|apply eF]. }
  unfold Gc in G at 1. lra.
Qed.
Lemma call_before x : 0 < x -> x <= Sk -> x - K - tau - 2 * err Sk <= cP cnd x + A * Rpower (x / Sk) q.
Proof.
  intros Hx L. assert (T := c_tangent x Sk Hx HSk).
  assert (HA : 0 < A). { unfold A. apply Rmult_lt_0_compat; [apply Rdiv_lt_0_compat; lra|]. generalize (cnd_range (dd Sk)). intros. nra. }
  assert (B := bernoulli_hi (x / Sk) q ltac:(lra) ltac:(apply Rdiv_lt_0_compat; lra)).
  assert (B' : A * (1 + q * (x / Sk - 1)) <= A * Rpower (x / Sk) q) by (apply Rmult_le_compat_l; lra).
  assert (EA : A * (1 + q * (x / Sk - 1)) = A - (1 - e * cnd (dd Sk)) * (Sk - x)) by (unfold A; field; lra).
  generalize (c_err Sk HSk) (c_err x Hx) (cnd_accuracy (dd Sk)). intros H1 H2 H4.
  apply Rabs_le_between in H1. apply Rabs_le_between in H2. apply Rabs_le_between in H4.
  apply Rabs_le_between in Hstop as H3. unfold Gc in H3. fold A in H3.
  assert (H5 : e * (Phi (dd Sk) - cnd (dd Sk)) * (Sk - x) <= 75 / 10 ^ 9 * e * (Sk - x)).
  { apply Rmult_le_compat_r; [lra|]. rewrite (Rmult_comm (75 / 10 ^ 9)). apply Rmult_le_compat_l; lra. }
  assert (H6 : err x + 75 / 10 ^ 9 * e * (Sk - x) = err Sk) by (unfold err; ring). lra.
Qed.
Lemma call_upper x : 0 < K -> tau <= K -> 0 < x -> x <= Sk -> cP cnd x + A * Rpower (x / Sk) q <= x + 2 * err x.
Proof.
  intros HK HT Hx L. assert (R1 := c_ratio x Sk Hx L).
  assert (HA : 0 < A). { unfold A. apply Rmult_lt_0_compat; [apply Rdiv_lt_0_compat; lra|]. generalize (cnd_range (dd Sk)). intros. nra. }
  assert (Y : 0 < x / Sk <= 1).
  { split; [apply Rdiv_lt_0_compat; lra|]. apply Rmult_le_reg_r with Sk; [lra|]. unfold Rdiv. rewrite Rmult_assoc, Rinv_l by lra. lra. }
  set (y := x / Sk) in *.
  assert (PW : Rpower y q <= y).
  { rewrite <- (Rpower_1 y) at 2 by lra. unfold Rpower. apply exp_le_le.
    assert (ln y <= 0) by (rewrite <- ln_1; destruct Y as [Y [Y1|Y1]]; [left; apply ln_increasing; lra|rewrite Y1; lra]). nra. }
  assert (A * Rpower y q <= A * y) by (apply Rmult_le_compat_l; lra).
  generalize (c_err Sk HSk) (c_err x Hx). intros H1 H2. apply Rabs_le_between in H1. apply Rabs_le_between in H2.
  apply Rabs_le_between in Hstop as H3. unfold Gc in H3. fold A in H3.
  assert (U : cP Phi Sk + A <= Sk - K + tau + err Sk) by lra.
  assert (U' : y * (cP Phi Sk + A) <= y * (Sk + err Sk)) by (apply Rmult_le_compat_l; lra).
  assert (E1 : y * Sk = x) by (unfold y; field; lra).
  assert (E2 : y * err Sk <= err x).
  { unfold err. replace (y * (75 / 10 ^ 9 * (Sk * e + kb))) with (75 / 10 ^ 9 * ((y * Sk) * e + y * kb)) by ring. rewrite E1.
    apply Rmult_le_compat_l; [lra|]. assert (y * kb <= 1 * kb) by (apply Rmult_le_compat_r; lra). lra. }
  lra.
Qed.
End Call.

Section Put.
Variables K q tau Sk : R.
Hypothesis Hq : q < 0.
Hypothesis He1 : e <= 1.
Hypothesis HSk : 0 < Sk.
Definition Gp (F : R -> R) (x : R) : R := pP F x + - (x / q) * (1 - e * F (- dd x)) - (K - x).
Definition Gp' (x : R) : R := (1 - e * Phi (- dd x)) * (1 - / q) - e * npdf (dd x) / (v * q).
Lemma Gp_derive x : 0 < x -> is_derive (Gp Phi) x (Gp' x).
Proof.
  intro H. unfold Gp. evar_last.
  - apply (is_derive_minus (fun x => pP Phi x + - (x / q) * (1 - e * Phi (- dd x))) (fun x => K - x)); [|auto_derive; [easy|reflexivity]].
    apply (is_derive_plus (pP Phi) (fun x => - (x / q) * (1 - e * Phi (- dd x)))); [now apply p_derive|].
    apply (is_derive_mult (fun x => - (x / q)) (fun x => 1 - e * Phi (- dd x))); [auto_derive; [easy|reflexivity]| |intros; apply Rmult_comm].
    apply (is_derive_minus (fun _ => 1) (fun x => e * Phi (- dd x))); [auto_derive; [easy|reflexivity]|].
    apply (is_derive_scal (fun x => Phi (- dd x))). apply (is_derive_comp Phi (fun x => - dd x)); [apply Phi_derive|].
    apply (is_derive_opp dd). now apply dd_derive.
  - unfold Gp', minus, plus, opp, mult, scal. simpl. unfold mult, Hierarchy.opp. simpl.
    replace (npdf (- dd x)) with (npdf (dd x)) by (unfold npdf; do 2 f_equal; field). field. repeat split; lra.
Qed.
Lemma eFp x : 0 < 1 - e * Phi x.
Proof. assert (e * Phi x < 1); [|lra]. generalize (Phi_gt_0 x) (Phi_lt_1 x). intros. nra. Qed.
Lemma q1p : 1 < 1 - / q.
Proof. generalize (Rinv_lt_0_compat q Hq). lra. Qed.
Definition errp (x : R) : R := err x + 75 / 10 ^ 9 * (x * e * - / q).
Lemma Gp_err x : 0 < x -> Rabs (Gp cnd x - Gp Phi x) <= errp x.
Proof.
  intro H. unfold Gp, pP, bput. fold (dd x).
  match goal with |- Rabs ?a <= _ => replace a with
    ((kb * cnd (- bd2 (x * e) kb v) - x * e * (1 - / q) * cnd (- dd x)) - (kb * Phi (- bd2 (x * e) kb v) - x * e * (1 - / q) * Phi (- dd x))) by (field; lra) end.
  assert (P := xe_pos x H). assert (Q := q1p). assert (0 <= x * e * (1 - / q)) by (apply Rmult_le_pos; lra).
  eapply Rle_trans; [apply diff2; [lra|lra|apply cnd_accuracy]|]. unfold errp, err. right. ring.
Qed.

Hypothesis Hstop : Rabs (Gp cnd Sk) <= tau.
Let A := - (Sk / q) * (1 - e * cnd (- dd Sk)).
Lemma put_A : 0 < A.
Proof.
  unfold A. apply Rmult_lt_0_compat.
  - replace (- (Sk / q)) with (Sk / - q) by (field; lra). apply Rdiv_lt_0_compat; lra.
  - generalize (cnd_range (- dd Sk)). intros. nra.
Qed.
Lemma put_beyond x : 0 < x -> x <= Sk -> pP cnd x <= K - x + tau + err Sk + err x.
Proof.
  intros Hx H. assert (T := p_tangent Sk x HSk Hx). assert (HA := put_A).
  assert (U : e * Phi (- dd x) * (Sk - x) <= 1 * (Sk - x)) by (apply Rmult_le_compat_r; [lra|generalize (eFp (- dd x)); lra]).
  generalize (p_err Sk HSk) (p_err x ltac:(lra)). intros H1 H2. apply Rabs_le_between in H1. apply Rabs_le_between in H2.
  apply Rabs_le_between in Hstop as H3. unfold Gp in H3. fold A in H3. lra.
Qed.
Lemma put_before x : Sk <= x -> K - x - tau - 2 * err x <= pP cnd x + A * Rpower (x / Sk) q.
Proof.
  intros L. assert (T := p_tangent x Sk ltac:(lra) HSk). assert (HA := put_A).
  assert (Y : 1 <= x / Sk). { apply Rmult_le_reg_r with Sk; [lra|]. unfold Rdiv. rewrite Rmult_assoc, Rinv_l by lra. lra. }
  assert (B := bernoulli_neg (x / Sk) q ltac:(lra) Y).
  assert (B' : A * (1 + q * (x / Sk - 1)) <= A * Rpower (x / Sk) q) by (apply Rmult_le_compat_l; lra).
  assert (EA : A * (1 + q * (x / Sk - 1)) = A - (1 - e * cnd (- dd Sk)) * (x - Sk)) by (unfold A; field; lra).
  generalize (p_err Sk HSk) (p_err x ltac:(lra)) (cnd_accuracy (- dd Sk)). intros H1 H2 H4.
  apply Rabs_le_between in H1. apply Rabs_le_between in H2. apply Rabs_le_between in H4.
  apply Rabs_le_between in Hstop as H3. unfold Gp in H3. fold A in H3.
  assert (H5 : e * (Phi (- dd Sk) - cnd (- dd Sk)) * (x - Sk) <= 75 / 10 ^ 9 * e * (x - Sk)).
  { apply Rmult_le_compat_r; [lra|]. rewrite (Rmult_comm (75 / 10 ^ 9)). apply Rmult_le_compat_l; lra. }
  assert (H6 : err Sk + 75 / 10 ^ 9 * e * (x - Sk) = err x) by (unfold err; ring). lra.
Qed.
Lemma put_upper x : tau <= K -> Sk <= x -> pP cnd x + A * Rpower (x / Sk) q <= K - Sk + tau + 2 * err x.
Proof.
  intros HT L. assert (HA := put_A).
  assert (Y : 1 <= x / Sk). { apply Rmult_le_reg_r with Sk; [lra|]. unfold Rdiv. rewrite Rmult_assoc, Rinv_l by lra. lra. }
  set (y := x / Sk) in *.
  assert (PW : Rpower y q <= 1).
  { unfold Rpower. apply Rle_trans with (exp 0); [|rewrite exp_0; lra]. apply exp_le_le.
    assert (0 <= ln y) by (rewrite <- ln_1; destruct Y as [Y1|Y1]; [left; apply ln_increasing; lra|rewrite <- Y1; lra]). nra. }
  assert (A * Rpower y q <= A * 1) by (apply Rmult_le_compat_l; lra).
  assert (M : pP Phi x <= pP Phi Sk).
  { assert (T := p_tangent Sk x HSk ltac:(lra)). assert (0 <= e * Phi (- dd x) * (x - Sk)); [|lra].
    apply Rmult_le_pos; [apply Rmult_le_pos|]; try lra. left. apply Phi_gt_0. }
  generalize (p_err Sk HSk) (p_err x ltac:(lra)). intros H1 H2. apply Rabs_le_between in H1. apply Rabs_le_between in H2.
  apply Rabs_le_between in Hstop as H3. unfold Gp in H3. fold A in H3.
  assert (err Sk <= err x). { unfold err. apply Rmult_le_compat_l; [lra|]. assert (Sk * e <= x * e) by (apply Rmult_le_compat_r; lra). lra. }
  lra.
Qed.
End Put.
End Core.

(** ** The search keeps positive prices *)
Section Pos.
Variables K t r b s S0 : R.
Hypothesis HK : 0 < K.
Hypothesis Ht : 0 < t.
Hypothesis Hs : 0 < s.
Hypothesis Hr : 0 < r.
Let o := mkAmer S0 K t r b (Some s).
Let e := bcarry t r b.
Let kb := K * exp (- r * t).
Let v := s * sqrt t.
Let Hr0 : r <> 0. Proof. lra. Qed.
Lemma v_pos' : 0 < v. Proof. apply Rmult_lt_0_compat; [lra|now apply sqrt_lt_R0]. Qed.
Lemma kb_pos : 0 < kb < K.
Proof.
  unfold kb. assert (exp (- r * t) < 1). { apply Rlt_le_trans with (exp 0); [|rewrite exp_0; lra]. apply exp_increasing. nra. }
  assert (0 < exp (- r * t)) by apply exp_pos. split; [now apply Rmult_lt_0_compat|]. nra.
Qed.
Lemma e_pos : 0 < e. Proof. apply exp_pos. Qed.
Lemma e_lt : b < r -> e < 1.
Proof. intro. unfold e, bcarry. apply Rlt_le_trans with (exp 0); [|rewrite exp_0; lra]. apply exp_increasing. nra. Qed.
Lemma e_le : b <= r -> e <= 1.
Proof. intros [H| ->]; [left; now apply e_lt|]. unfold e, bcarry. right. replace ((r - r) * t) with 0 by ring. apply exp_0. Qed.
Lemma dd_eq x : 0 < x -> dd e kb v x = bd1' K t b s x.
Proof. intro H. unfold dd. rewrite <- d1_gbs. symmetry. apply d1_link; lra. Qed.
Lemma Gc_eq x : 0 < x -> Gc e kb v K (bq2 t r b s) cnd x = ccall K t r b s x + prem2 K t r b s x - (x - K).
Proof. intro H. unfold Gc, prem2. rewrite dd_eq by easy. reflexivity. Qed.
Lemma Gp_eq x : 0 < x -> Gp e kb v K (bq1 t r b s) cnd x = cput K t r b s x + prem1 K t r b s x - (K - x).
Proof. intro H. unfold Gp, prem1. rewrite dd_eq by easy. reflexivity. Qed.

(** the step of the call search *)
Definition pc (x : R) := e * cnd (bd1' K t b s x).
Lemma bi_c_eq x : 1 - baw_bi_c o s x = (1 - pc x) * (1 - / bq2 t r b s) + pc x / (v * bq2 t r b s).
Proof.
  unfold baw_bi_c, o. rewrite (Q2_eq K), (d1_eq K), (carry_eq K). fold e. unfold pc. cbn [y_t]. toR. fold v.
  destruct (bq_spec t r b s Ht Hs Hr0) as (H1 & _). generalize v_pos'. intros. field. split; lra.
Qed.
Lemma step_c x : 0 < x -> 1 - baw_bi_c o s x <> 0 ->
  (K + (ccall K t r b s x + prem2 K t r b s x) - baw_bi_c o s x * x) / (1 - baw_bi_c o s x)
  = x + (ccall K t r b s x + prem2 K t r b s x - (x - K)) / (1 - baw_bi_c o s x).
Proof. intros. field. lra. Qed.
Lemma step_c_pos x : b < r -> 0 < x -> 0 < 1 - baw_bi_c o s x /\
  0 < K + (ccall K t r b s x + prem2 K t r b s x) - baw_bi_c o s x * x.
Proof.
  intros Hb Hx. destruct (bq_spec t r b s Ht Hs Hr0) as (_ & _ & _ & _ & H1). specialize (H1 Hb).
  assert (P : 0 < pc x < 1). { unfold pc. generalize (cnd_range (bd1' K t b s x)) e_pos (e_lt Hb). intros. nra. }
  assert (V := v_pos'). assert (Q : 0 < / bq2 t r b s < 1).
  { split; [apply Rinv_0_lt_compat; lra|]. rewrite <- Rinv_1. apply Rinv_lt_contravar; lra. }
  assert (D : 0 < pc x / (v * bq2 t r b s)) by (apply Rdiv_lt_0_compat; [lra|apply Rmult_lt_0_compat; lra]).
  assert (B := bi_c_eq x). split.
  - rewrite B. assert (0 < (1 - pc x) * (1 - / bq2 t r b s)) by (apply Rmult_lt_0_compat; lra). lra.
  - replace (K + (ccall K t r b s x + prem2 K t r b s x) - baw_bi_c o s x * x)
      with (K - x + (ccall K t r b s x + prem2 K t r b s x) + (1 - baw_bi_c o s x) * x) by ring.
    rewrite B. unfold prem2. fold e. fold (pc x).
    assert (C : ccall K t r b s x = x * pc x - kb * cnd (bd2 (x * e) kb v)).
    { unfold ccall, bcall, pc. rewrite <- dd_eq by easy. unfold dd. fold v kb. unfold e, bcarry. ring. }
    rewrite C. assert (0 < x * (pc x / (v * bq2 t r b s))) by now apply Rmult_lt_0_compat.
    assert (kb * cnd (bd2 (x * e) kb v) < K). { generalize kb_pos (cnd_range (bd2 (x * e) kb v)). intros. nra. }
    set (w := cnd (bd2 (x * e) kb v)) in *. set (z := pc x / (v * bq2 t r b s)) in *.
    replace (K - x + (x * pc x - kb * w + x / bq2 t r b s * (1 - pc x)) + ((1 - pc x) * (1 - / bq2 t r b s) + z) * x)
      with (K - kb * w + x * z) by (field; lra). lra.
Qed.
Lemma Kc_pos fuel Sk : b < r -> 0 < baw_seed_c o s -> baw_Kc fuel o s = Ok Sk -> 0 < Sk.
Proof.
  intros Hb H0 H. unfold baw_Kc in H. destruct (rhs_c_ok K t r b s S0 (baw_seed_c o s)) as (c & Hc). fold o in Hc. rewrite Hc in H. cbn [bind] in H.
  destruct (while_ _ _ _ _) as [[[[Si LHS] RHS] bi]|] eqn:E; [|discriminate]. cbn in H. injection H as ->.
  apply while_exit with (Inv := fun st => let '(Si, LHS, RHS, bi) := st in 0 < Si /\ baw_rhs_c o s Si = Ok RHS /\ bi = baw_bi_c o s Si) in E.
  - tauto.
  - intros [[[S1 L1] R1] b1] y (HS1 & HR1 & ->) HB.
    unfold o in HR1. rewrite rhs_c_eq in HR1 by assumption. injection HR1 as <-.
    destruct (step_c_pos S1 Hb HS1) as [P1 P2].
    match goal with HB : bind (baw_rhs_c o s ?a) _ = _ |- _ => set (S2 := a) in *; assert (Q : 0 < S2) end.
    { unfold S2, o. cbn [y_K add sub mul div RNum]. change (lit 1) with (Q2R 1). replace (Q2R 1) with 1 by (unfold Q2R; cbn; lra).
      apply Rdiv_lt_0_compat; [exact P2|exact P1]. }
    destruct (rhs_c_ok K t r b s S0 S2) as (c' & Hc'). fold o in Hc'. rewrite Hc' in HB. cbn [bind] in HB. injection HB as <-. auto.
  - auto.
Qed.

(** and of the put search *)
Definition pp (x : R) := e * cnd (- bd1' K t b s x).
Lemma bi_p_eq x : 1 + baw_bi_p o s x = (1 - pp x) * (1 - / bq1 t r b s) - pp x / (v * bq1 t r b s).
Proof.
  unfold baw_bi_p, o. rewrite (Q1_eq K), (d1_eq K), (carry_eq K). fold e. unfold pp. cbn [y_t]. toR. fold v.
  destruct (bq_spec t r b s Ht Hs Hr0) as (_ & H1 & _). generalize v_pos'. intros. field. split; lra.
Qed.
Lemma step_p_pos x : b <= r -> 0 < x -> 0 < 1 + baw_bi_p o s x /\
  0 < K - (cput K t r b s x + prem1 K t r b s x) + baw_bi_p o s x * x.
Proof.
  intros Hb Hx. destruct (bq_spec t r b s Ht Hs Hr0) as (_ & H1 & _).
  assert (P : 0 < pp x < 1). { unfold pp. generalize (cnd_range (- bd1' K t b s x)) e_pos (e_le Hb). intros. nra. }
  assert (V := v_pos'). assert (Q := Rinv_lt_0_compat _ H1).
  assert (D : 0 < pp x / (v * - bq1 t r b s)) by (apply Rdiv_lt_0_compat; [lra|apply Rmult_lt_0_compat; lra]).
  assert (D' : pp x / (v * bq1 t r b s) = - (pp x / (v * - bq1 t r b s))) by (field; lra).
  assert (B := bi_p_eq x). rewrite D' in B. split.
  - rewrite B. assert (0 < (1 - pp x) * (1 - / bq1 t r b s)) by (apply Rmult_lt_0_compat; lra). lra.
  - replace (K - (cput K t r b s x + prem1 K t r b s x) + baw_bi_p o s x * x)
      with (K - x - (cput K t r b s x + prem1 K t r b s x) + (1 + baw_bi_p o s x) * x) by ring.
    rewrite B. unfold prem1. fold e. fold (pp x).
    assert (C : cput K t r b s x = kb * cnd (- bd2 (x * e) kb v) - x * pp x).
    { unfold cput, bput, pp. rewrite <- dd_eq by easy. unfold dd. fold v kb. unfold e, bcarry. ring. }
    rewrite C. set (z := pp x / (v * - bq1 t r b s)) in *. assert (0 < x * z) by now apply Rmult_lt_0_compat.
    assert (kb * cnd (- bd2 (x * e) kb v) < K). { generalize kb_pos (cnd_range (- bd2 (x * e) kb v)). intros. nra. }
    set (w := cnd (- bd2 (x * e) kb v)) in *.
    replace (K - x - (kb * w - x * pp x + - (x / bq1 t r b s) * (1 - pp x)) + ((1 - pp x) * (1 - / bq1 t r b s) - - z) * x)
      with (K - kb * w + x * z) by (field; lra). lra.
Qed.
Lemma Kp_pos fuel Sk : b <= r -> 0 < baw_seed_p o s -> baw_Kp fuel o s = Ok Sk -> 0 < Sk.
Proof.
  intros Hb H0 H. unfold baw_Kp in H. destruct (rhs_p_ok K t r b s S0 (baw_seed_p o s)) as (c & Hc). fold o in Hc. rewrite Hc in H. cbn [bind] in H.
  destruct (while_ _ _ _ _) as [[[[Si LHS] RHS] bi]|] eqn:E; [|discriminate]. cbn in H. injection H as ->.
  apply while_exit with (Inv := fun st => let '(Si, LHS, RHS, bi) := st in 0 < Si /\ baw_rhs_p o s Si = Ok RHS /\ bi = baw_bi_p o s Si) in E.
  - tauto.
  - intros [[[S1 L1] R1] b1] y (HS1 & HR1 & ->) HB.
    unfold o in HR1. rewrite rhs_p_eq in HR1 by assumption. injection HR1 as <-.
    destruct (step_p_pos S1 Hb HS1) as [P1 P2].
    match goal with HB : bind (baw_rhs_p o s ?a) _ = _ |- _ => set (S2 := a) in *; assert (Q : 0 < S2) end.
    { unfold S2, o. cbn [y_K add sub mul div RNum]. change (lit 1) with (Q2R 1). replace (Q2R 1) with 1 by (unfold Q2R; cbn; lra).
      apply Rdiv_lt_0_compat; [exact P2|exact P1]. }
    destruct (rhs_p_ok K t r b s S0 S2) as (c' & Hc'). fold o in Hc'. rewrite Hc' in HB. cbn [bind] in HB. injection HB as <-. auto.
  - auto.
Qed.

(** the seeds *)
Lemma m_pos : 0 < 2 * r / s ^ 2. Proof. apply Rdiv_lt_0_compat; [lra|apply pow_lt, Hs]. Qed.
Definition qu := (- (2 * b / s ^ 2 - 1) + sqrt ((2 * b / s ^ 2 - 1) ^ 2 + 4 * (2 * r / s ^ 2))) / 2.
Definition qd := (- (2 * b / s ^ 2 - 1) - sqrt ((2 * b / s ^ 2 - 1) ^ 2 + 4 * (2 * r / s ^ 2))) / 2.
Lemma qu_spec : b < r -> 1 < qu /\ qu ^ 2 + (2 * b / s ^ 2 - 1) * qu = 2 * r / s ^ 2.
Proof.
  intro Hb. destruct (quad_root (2 * b / s ^ 2) (2 * r / s ^ 2) m_pos) as (_ & _ & H & _ & H5). split; [|exact H].
  apply H5. apply Rmult_lt_compat_r; [apply Rinv_0_lt_compat, pow_lt, Hs|lra].
Qed.
Lemma qd_spec : qd < 0.
Proof. destruct (quad_root (2 * b / s ^ 2) (2 * r / s ^ 2) m_pos) as (_ & H & _). exact H. Qed.
Lemma seed_c_eq : b < r -> baw_seed_c o s = K + K / (qu - 1) * (1 - exp (- (b * t + 2 * s * sqrt t) * (qu - 1))).
Proof.
  intro Hb. destruct (qu_spec Hb) as [H _]. unfold baw_seed_c, baw_n, o. cbn [y_b y_r y_t y_K]. toR. fold qu.
  replace (K / (1 - 1 / qu) - K) with (K / (qu - 1)) by (field; lra). do 4 f_equal. field. lra.
Qed.
Lemma seed_c_pos : b < r -> 0 <= b * t + 2 * s * sqrt t -> K <= baw_seed_c o s < K * (qu / (qu - 1)).
Proof.
  intros Hb H. rewrite seed_c_eq by easy. destruct (qu_spec Hb) as [H1 _].
  assert (X : exp (- (b * t + 2 * s * sqrt t) * (qu - 1)) <= 1).
  { apply Rle_trans with (exp 0); [|rewrite exp_0; lra]. apply exp_le_le. nra. }
  assert (Y := exp_pos (- (b * t + 2 * s * sqrt t) * (qu - 1))). set (z := exp _) in *.
  assert (0 < K / (qu - 1)) by (apply Rdiv_lt_0_compat; lra). replace (K * (qu / (qu - 1))) with (K + K / (qu - 1)) by (field; lra).
  split; nra.
Qed.
Lemma seed_p_pos : 0 < baw_seed_p o s.
Proof.
  unfold baw_seed_p, baw_n, o. cbn [y_b y_r y_t y_K]. toR. fold qd. assert (H := qd_spec).
  assert (I := Rinv_lt_0_compat _ H). set (h := exp _). assert (0 < h) by apply exp_pos. clearbody h. unfold Rdiv. rewrite ?Rmult_1_l.
  assert (W : 0 < / (1 - / qd) < 1). { split; [apply Rinv_0_lt_compat; lra|]. rewrite <- Rinv_1 at 2. apply Rinv_lt_contravar; lra. }
  revert W. generalize (/ (1 - / qd)). intros w [W1 W2].
  assert (0 < K * w) by (apply Rmult_lt_0_compat; assumption).
  assert (0 < K * (1 - w)) by (apply Rmult_lt_0_compat; [assumption|lra]).
  assert (0 < (K - K * w) * h) by (apply Rmult_lt_0_compat; lra). lra.
Qed.
End Pos.

Lemma call_value' K t r b s fuel Sk : 0 < K -> 0 < t -> 0 < s -> r <> 0 -> b < r -> baw_Kc fuel (mkAmer 1 K t r b (Some s)) s = Ok Sk ->
  forall S0, 0 < S0 -> baw_call fuel (mkAmer S0 K t r b (Some s)) =
    Ok (if Rlt_dec S0 Sk then ccall K t r b s S0 + prem2 K t r b s Sk * Rpower (S0 / Sk) (bq2 t r b s) else S0 - K).
Proof.
  intros HK Ht Hs Hr Hb E S0 HS. unfold baw_call.
  cbn [y_b y_r leb RNum]. rewrite (proj2 (Rleb_false r b)) by lra. cbn [need of_opt y_sigma bind].
  rewrite (Kc_indep K t r b s fuel S0 1), E. cbn [bind]. rewrite (Q2_eq K), (d1_eq K), (carry_eq K). cbn [y_S y_K y_t ltb RNum].
  destruct (Rlt_dec S0 Sk) as [H|H].
  - rewrite (proj2 (Rltb_true _ _) H). unfold gbs_c, gbs_call. rewrite call_link by lra. cbn [bind].
    cbn [add sub mul div lit powr RNum]. rewrite Q2R_int. reflexivity.
  - rewrite (proj2 (Rltb_false _ _)) by lra. reflexivity.
Qed.
Lemma call_err K t r b s fuel e : 0 < K -> 0 < t -> 0 < s -> r <> 0 -> b < r -> baw_Kc fuel (mkAmer 1 K t r b (Some s)) s = Err e ->
  forall S0, baw_call fuel (mkAmer S0 K t r b (Some s)) = Err NoConvergence.
Proof.
  intros HK Ht Hs Hr Hb E S0. unfold baw_call. cbn [y_b y_r leb RNum]. rewrite (proj2 (Rleb_false r b)) by lra.
  cbn [need of_opt y_sigma bind]. rewrite (Kc_indep K t r b s fuel S0 1), E. cbn [bind]. f_equal. now apply (Kc_err K t r b s 1 fuel).
Qed.
Lemma put_value' K t r b s fuel Sk : 0 < K -> 0 < t -> 0 < s -> r <> 0 -> baw_Kp fuel (mkAmer 1 K t r b (Some s)) s = Ok Sk ->
  forall S0, 0 < S0 -> baw_put fuel (mkAmer S0 K t r b (Some s)) =
    Ok (if Rlt_dec Sk S0 then cput K t r b s S0 + prem1 K t r b s Sk * Rpower (S0 / Sk) (bq1 t r b s) else K - S0).
Proof.
  intros HK Ht Hs Hr E S0 HS. unfold baw_put.
  cbn [need of_opt y_sigma bind].
  rewrite (Kp_indep K t r b s fuel S0 1), E. cbn [bind]. rewrite (Q1_eq K), (d1_eq K), (carry_eq K). cbn [y_S y_K y_t y_r y_b ltb RNum].
  destruct (Rlt_dec Sk S0) as [H|H].
  - rewrite (proj2 (Rltb_true _ _) H). unfold gbs_p, gbs_put. rewrite put_link by lra. cbn [bind].
    cbn [add sub mul div opp lit powr RNum]. rewrite Q2R_int. reflexivity.
  - rewrite (proj2 (Rltb_false _ _)) by lra. reflexivity.
Qed.
Lemma put_err K t r b s fuel e : 0 < K -> 0 < t -> 0 < s -> r <> 0 -> baw_Kp fuel (mkAmer 1 K t r b (Some s)) s = Err e ->
  forall S0, baw_put fuel (mkAmer S0 K t r b (Some s)) = Err NoConvergence.
Proof.
  intros HK Ht Hs Hr E S0. unfold baw_put.
  cbn [need of_opt y_sigma bind]. rewrite (Kp_indep K t r b s fuel S0 1), E. cbn [bind]. f_equal. now apply (Kp_err K t r b s 1 fuel).
Qed.

(*@ C43_call_dominates | With a positive interest rate, b < r and b t + 2 sigma sqrt t >= 0 (compare C43_negative_refuted), a BAW call is worth at least S - K, at least the Black-Scholes call, and at most S, for every spot and iteration budget for which the search ends; up to 1e-6 K and the error of the distribution function. *)
Lemma baw_call_dominates : forall (K t r b s : R) (fuel : nat), 0 < K -> 0 < t -> 0 < s -> 0 < r -> b < r -> 0 <= b * t + 2 * s * sqrt t ->
  (forall S, 0 < S -> baw_call fuel (mkAmer S K t r b (Some s)) = Err NoConvergence) \/
  exists Sk, 0 < Sk /\ forall S, 0 < S -> exists v c,
    baw_call fuel (mkAmer S K t r b (Some s)) = Ok v /\ gbs_call (GBSOption S K t r b (Some s)) = Ok c /\
    (S < Sk -> c < v) /\ (Sk <= S -> v = S - K) /\
    let err := / 10 ^ 6 * K + 15 / 10 ^ 8 * (Rmax S Sk * exp ((b - r) * t) + K * exp (- r * t)) in
    S - K - err <= v /\ c - err <= v /\ v <= S + err.
Proof.
  intros K t r b s fuel HK Ht Hs Hr Hb Hd.
  assert (Hr0 : r <> 0) by lra.
  destruct (baw_Kc fuel (mkAmer 1 K t r b (Some s)) s) as [Sk|er] eqn:EK; [right|left; intros; eapply call_err; eauto].
  assert (PS : 0 < Sk).
  { apply (Kc_pos K t r b s 1 HK Ht Hs Hr fuel); auto. generalize (seed_c_pos K t r b s 1 HK Hs Hr Hb Hd). lra. }
  exists Sk. split; [exact PS|]. intros S HS.
  assert (EX := Kc_exit K t r b s HK Ht Hs Hr0 1 fuel Sk EK PS).
  set (e := bcarry t r b). set (kb := K * exp (- r * t)). set (v := s * sqrt t).
  assert (He := e_pos t r b). assert (He1 := e_lt t r b Ht Hr Hb). assert (Hk := kb_pos K t r HK Ht Hr). assert (Hv := v_pos' t s Ht Hs).
  fold e in He, He1. fold kb in Hk. fold v in Hv.
  destruct (bq_spec t r b s Ht Hs Hr0) as (_ & _ & _ & _ & H1). specialize (H1 Hb).
  assert (ST : Rabs (Gc e kb v K (bq2 t r b s) cnd Sk) <= / 10 ^ 6 * K).
  { unfold e, kb, v. rewrite (Gc_eq K t r b s) by assumption. rewrite Rabs_minus_sym. exact EX. }
  assert (EP : prem2 K t r b s Sk = Sk / bq2 t r b s * (1 - e * cnd (dd e kb v Sk))).
  { unfold prem2, e, kb, v. now rewrite (dd_eq K t r b s) by assumption. }
  assert (PP := prem2_pos K t r b s Ht Hs Hr0 Sk Hb PS).
  do 2 eexists. split; [apply (call_value' K t r b s fuel Sk); auto|]. split; [unfold gbs_call; apply call_link; lra|].
  fold (ccall K t r b s S). change (ccall K t r b s S) with (cP e kb v cnd S).
  change (exp ((b - r) * t)) with e. fold kb.
  assert (T6 : / 10 ^ 6 * K <= K) by (assert (/ 10 ^ 6 <= 1) by lra; nra).
  assert (EE : forall x, 2 * err e kb x = 15 / 10 ^ 8 * (x * e + kb)) by (intro; unfold err; field).
  destruct (Rlt_dec S Sk) as [L|L].
  - assert (0 < prem2 K t r b s Sk * Rpower (S / Sk) (bq2 t r b s)) by (apply Rmult_lt_0_compat; [exact PP|apply exp_pos]).
    split; [intros _; lra|]. split; [lra|]. cbv zeta. rewrite Rmax_right by lra. rewrite EP in *.
    assert (B1 := call_before e kb v He ltac:(lra) Hv K (bq2 t r b s) _ Sk H1 He1 PS ST S HS ltac:(lra)).
    assert (B2 := call_upper e kb v He ltac:(lra) Hv K (bq2 t r b s) _ Sk H1 He1 PS ST S HK T6 HS ltac:(lra)).
    rewrite EE in B1, B2. assert (S * e <= Sk * e) by (apply Rmult_le_compat_r; lra). assert (0 < Sk * e) by now apply Rmult_lt_0_compat.
    repeat split; nra.
  - split; [lra|]. split; [reflexivity|]. cbv zeta. rewrite Rmax_left by lra.
    assert (B1 := call_beyond e kb v He ltac:(lra) Hv K (bq2 t r b s) _ Sk H1 He1 PS ST S ltac:(lra)).
    assert (err e kb Sk <= err e kb S). { unfold err. apply Rmult_le_compat_l; [lra|]. assert (Sk * e <= S * e) by (apply Rmult_le_compat_r; lra). lra. }
    specialize (EE S). assert (0 < S * e) by now apply Rmult_lt_0_compat. repeat split; nra.
Qed.

(*@ C43_put_dominates | With a positive interest rate and b <= r a BAW put is worth at least K - S, at least the Black-Scholes put, and at most K, for every spot and iteration budget for which the search ends; up to 1e-6 K and the error of the distribution function. *)
Lemma baw_put_dominates : forall (K t r b s : R) (fuel : nat), 0 < K -> 0 < t -> 0 < s -> 0 < r -> b <= r ->
  (forall S, 0 < S -> baw_put fuel (mkAmer S K t r b (Some s)) = Err NoConvergence) \/
  exists Sk, 0 < Sk /\ forall S, 0 < S -> exists v p,
    baw_put fuel (mkAmer S K t r b (Some s)) = Ok v /\ gbs_put (GBSOption S K t r b (Some s)) = Ok p /\
    (Sk < S -> p < v) /\ (S <= Sk -> v = K - S) /\
    let err := / 10 ^ 6 * K + 15 / 10 ^ 8 * (Rmax S Sk * exp ((b - r) * t) + K * exp (- r * t)) in
    K - S - err <= v /\ p - err <= v /\ v <= K + err.
Proof.
  intros K t r b s fuel HK Ht Hs Hr Hb.
  assert (Hr0 : r <> 0) by lra.
  destruct (baw_Kp fuel (mkAmer 1 K t r b (Some s)) s) as [Sk|er] eqn:EK; [right|left; intros; eapply put_err; eauto].
  assert (PS : 0 < Sk).
  { apply (Kp_pos K t r b s 1 HK Ht Hs Hr fuel); auto. apply (seed_p_pos K t r b s 1 HK Hs Hr). }
  exists Sk. split; [exact PS|]. intros S HS.
  assert (EX := Kp_exit K t r b s HK Ht Hs Hr0 1 fuel Sk EK PS).
  set (e := bcarry t r b). set (kb := K * exp (- r * t)). set (v := s * sqrt t).
  assert (He := e_pos t r b). assert (He1 := e_le K t r b s 1 Ht Hr Hb). assert (Hk := kb_pos K t r HK Ht Hr). assert (Hv := v_pos' t s Ht Hs).
  fold e in He, He1. fold kb in Hk. fold v in Hv.
  destruct (bq_spec t r b s Ht Hs Hr0) as (_ & H1 & _).
  assert (ST : Rabs (Gp e kb v K (bq1 t r b s) cnd Sk) <= / 10 ^ 6 * K).
  { unfold e, kb, v. rewrite (Gp_eq K t r b s) by assumption. rewrite Rabs_minus_sym. exact EX. }
  assert (EP : prem1 K t r b s Sk = - (Sk / bq1 t r b s) * (1 - e * cnd (- dd e kb v Sk))).
  { unfold prem1, e, kb, v. now rewrite (dd_eq K t r b s) by assumption. }
  assert (PP := prem1_pos K t r b s Ht Hs Hr0 Sk Hb PS).
  do 2 eexists. split; [apply (put_value' K t r b s fuel Sk); auto|]. split; [unfold gbs_put; apply put_link; lra|].
  fold (cput K t r b s S). change (cput K t r b s S) with (pP e kb v cnd S).
  change (exp ((b - r) * t)) with e. fold kb.
  assert (T6 : / 10 ^ 6 * K <= K) by (assert (/ 10 ^ 6 <= 1) by lra; nra).
  assert (EE : forall x, 2 * err e kb x = 15 / 10 ^ 8 * (x * e + kb)) by (intro; unfold err; field).
  destruct (Rlt_dec Sk S) as [L|L].
  - assert (0 < prem1 K t r b s Sk * Rpower (S / Sk) (bq1 t r b s)) by (apply Rmult_lt_0_compat; [exact PP|apply exp_pos]).
    split; [intros _; lra|]. split; [lra|]. cbv zeta. rewrite Rmax_left by lra. rewrite EP in *.
    assert (B1 := put_before e kb v He ltac:(lra) Hv K (bq1 t r b s) _ Sk H1 He1 PS ST S ltac:(lra)).
    assert (B2 := put_upper e kb v He ltac:(lra) Hv K (bq1 t r b s) _ Sk H1 He1 PS ST S T6 ltac:(lra)).
    rewrite EE in B1, B2. assert (0 < S * e) by now apply Rmult_lt_0_compat.
    repeat split; nra.
  - split; [lra|]. split; [reflexivity|]. cbv zeta. rewrite Rmax_right by lra.
    assert (B1 := put_beyond e kb v He ltac:(lra) Hv K (bq1 t r b s) _ Sk H1 He1 PS ST S HS ltac:(lra)).
    assert (err e kb S <= err e kb Sk). { unfold err. apply Rmult_le_compat_l; [lra|]. assert (S * e <= Sk * e) by (apply Rmult_le_compat_r; lra). lra. }
    specialize (EE Sk). assert (0 < Sk * e) by now apply Rmult_lt_0_compat. repeat split; nra.
Qed.
