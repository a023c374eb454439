(** Accuracy of the distribution function of base.py against the Gaussian integral.
    The numeric bounds are interval computations checked by the kernel (coq-interval). *)
From Coq Require Import Reals QArith Qreals ZArith Bool List Lra Lia Psatz.
From Coquelicot Require Import Coquelicot.
From Interval Require Import Tactic.
From Verif Require Import Num Py MBase PCnd PCnd2 PGauss.
Open Scope R_scope.

(** error for x >= 0 (value at 0 is the right limit) *)
Definition Ecnd (x : R) : R := 1 - npdf x * Pk (/ (1 + c0 * x)) - Phi x.

Lemma Ecnd_cndc x : Ecnd x = cndc_r x + jump - Phi x.
Proof. unfold Ecnd, cndc_r. ring. Qed.

Definition Ecnd' (x : R) : R :=
  npdf x * (x * Pk (/ (1 + c0 * x)) + c0 * Qk (/ (1 + c0 * x)) - 1).

Lemma Ecnd_derive x : 0 <= x -> is_derive Ecnd x (Ecnd' x).
Proof.
  intros Hx. apply (is_derive_ext (fun x => cndc_r x + jump - Phi x)).
  { intros; symmetry; apply Ecnd_cndc. }
  evar_last.
  { apply (is_derive_minus (fun x => cndc_r x + jump) Phi).
    - apply (is_derive_plus cndc_r (fun _ => jump)). now apply cndc_r_derive. apply is_derive_const.
    - apply Phi_derive. }
  hier. unfold Ecnd', hx, Kx. rewrite Rabs_pos_eq by lra. ring.
Qed.

Lemma acc_piece m w e M : 0 <= m - w /\ 0 <= w -> Rabs (Ecnd m) <= e ->
  (forall x, m - w <= x <= m + w -> Rabs (Ecnd' x) <= M) -> e + M * w <= 75 / 10 ^ 9 ->
  forall x, m - w <= x <= m + w -> Rabs (Ecnd x) <= 75 / 10 ^ 9.
Proof.
  intros [Hm Hw] He HM Hs x Hx.
  destruct (MVT_gen Ecnd m x Ecnd') as [z [Hz E]].
  - intros y Hy. apply Ecnd_derive. unfold Rmin in Hy. destruct (Rle_dec m x); lra.
  - intros y Hy. apply continuity_pt_filterlim. apply (ex_derive_continuous Ecnd).
    eexists; apply Ecnd_derive. unfold Rmin in Hy. destruct (Rle_dec m x); lra.
  - assert (Z : m - w <= z <= m + w).
    { unfold Rmin, Rmax in Hz. destruct (Rle_dec m x); lra. }
    specialize (HM z Z).
    replace (Ecnd x) with (Ecnd m + Ecnd' z * (x - m)) by lra.
    eapply Rle_trans; [apply Rabs_triang|]. rewrite Rabs_mult.
    assert (Rabs (x - m) <= w) by (apply Rabs_le; lra).
    assert (Rabs (Ecnd' z) * Rabs (x - m) <= M * w).
    { apply Rmult_le_compat; auto using Rabs_pos. }
    lra.
Qed.

Ltac acc_E := unfold Ecnd, Phi, npdf, Pk, c0; integral with (i_prec 60).
Ltac acc_g :=
  let y := fresh "y" in let Hy := fresh "Hy" in
  intros y Hy; unfold Ecnd', npdf, Qk, Pk, Pk', c0;
  match type of Hy with ?l <= _ <= ?u =>
    let H := fresh in
    assert (H : l <= y <= u) by exact Hy; clear Hy;
    interval with (i_bisect y, i_taylor y, i_degree 8, i_prec 60)
  end.

Lemma acc_0 x : 0 <= x <= 3/128 -> Rabs (Ecnd x) <= 75 / 10 ^ 9.
Proof. intros H; apply (acc_piece (3/256) (3/256) (2670100 / 10^14) (261404934 / 10^14)); [lra|acc_E|acc_g|lra|lra]. Qed.

Lemma acc_1 x : 0 <= x <= 9/256 -> Rabs (Ecnd x) <= 75 / 10 ^ 9.
Proof. intros H; destruct (Rle_dec x (3/128)) as [L|L]; [apply acc_0; lra|apply (acc_piece (15/512) (3/512) (5306074 / 10^14) (138794195 / 10^14)); [lra|acc_E|acc_g|lra|lra]]. Qed.

Lemma acc_2 x : 0 <= x <= 3/64 -> Rabs (Ecnd x) <= 75 / 10 ^ 9.
Proof. intros H; destruct (Rle_dec x (9/256)) as [L|L]; [apply acc_1; lra|apply (acc_piece (21/512) (3/512) (6347286 / 10^14) (90325593 / 10^14)); [lra|acc_E|acc_g|lra|lra]]. Qed.

Lemma acc_3 x : 0 <= x <= 15/256 -> Rabs (Ecnd x) <= 75 / 10 ^ 9.
Proof. intros H; destruct (Rle_dec x (3/64)) as [L|L]; [apply acc_2; lra|apply (acc_piece (27/512) (3/512) (6917231 / 10^14) (49337277 / 10^14)); [lra|acc_E|acc_g|lra|lra]]. Qed.

Lemma acc_4 x : 0 <= x <= 9/128 -> Rabs (Ecnd x) <= 75 / 10 ^ 9.
Proof. intros H; destruct (Rle_dec x (15/256)) as [L|L]; [apply acc_3; lra|apply (acc_piece (33/512) (3/512) (7093380 / 10^14) (15089972 / 10^14)); [lra|acc_E|acc_g|lra|lra]]. Qed.

Lemma acc_5 x : 0 <= x <= 3/32 -> Rabs (Ecnd x) <= 75 / 10 ^ 9.
Proof. intros H; destruct (Rle_dec x (9/128)) as [L|L]; [apply acc_4; lra|apply (acc_piece (21/256) (3/256) (6769409 / 10^14) (53856916 / 10^14)); [lra|acc_E|acc_g|lra|lra]]. Qed.

Lemma acc_6 x : 0 <= x <= 3/16 -> Rabs (Ecnd x) <= 75 / 10 ^ 9.
Proof. intros H; destruct (Rle_dec x (3/32)) as [L|L]; [apply acc_5; lra|apply (acc_piece (9/64) (3/64) (2792437 / 10^14) (89020194 / 10^14)); [lra|acc_E|acc_g|lra|lra]]. Qed.

Lemma acc_7 x : 0 <= x <= 15/64 -> Rabs (Ecnd x) <= 75 / 10 ^ 9.
Proof. intros H; destruct (Rle_dec x (3/16)) as [L|L]; [apply acc_6; lra|apply (acc_piece (27/128) (3/128) (2946726 / 10^14) (81297885 / 10^14)); [lra|acc_E|acc_g|lra|lra]]. Qed.

Lemma acc_8 x : 0 <= x <= 9/32 -> Rabs (Ecnd x) <= 75 / 10 ^ 9.
Proof. intros H; destruct (Rle_dec x (15/64)) as [L|L]; [apply acc_7; lra|apply (acc_piece (33/128) (3/128) (5450164 / 10^14) (54739060 / 10^14)); [lra|acc_E|acc_g|lra|lra]]. Qed.

Lemma acc_9 x : 0 <= x <= 21/64 -> Rabs (Ecnd x) <= 75 / 10 ^ 9.
Proof. intros H; destruct (Rle_dec x (9/32)) as [L|L]; [apply acc_8; lra|apply (acc_piece (39/128) (3/128) (6452266 / 10^14) (21718888 / 10^14)); [lra|acc_E|acc_g|lra|lra]]. Qed.

Lemma acc_10 x : 0 <= x <= 3/8 -> Rabs (Ecnd x) <= 75 / 10 ^ 9.
Proof. intros H; destruct (Rle_dec x (21/64)) as [L|L]; [apply acc_9; lra|apply (acc_piece (45/128) (3/128) (6040408 / 10^14) (33436829 / 10^14)); [lra|acc_E|acc_g|lra|lra]]. Qed.

Lemma acc_11 x : 0 <= x <= 9/16 -> Rabs (Ecnd x) <= 75 / 10 ^ 9.
Proof. intros H; destruct (Rle_dec x (3/8)) as [L|L]; [apply acc_10; lra|apply (acc_piece (15/32) (3/32) (1047573 / 10^14) (55542726 / 10^14)); [lra|acc_E|acc_g|lra|lra]]. Qed.

Lemma acc_12 x : 0 <= x <= 39/64 -> Rabs (Ecnd x) <= 75 / 10 ^ 9.
Proof. intros H; destruct (Rle_dec x (9/16)) as [L|L]; [apply acc_11; lra|apply (acc_piece (75/128) (3/128) (4789897 / 10^14) (45952875 / 10^14)); [lra|acc_E|acc_g|lra|lra]]. Qed.

Lemma acc_13 x : 0 <= x <= 21/32 -> Rabs (Ecnd x) <= 75 / 10 ^ 9.
Proof. intros H; destruct (Rle_dec x (39/64)) as [L|L]; [apply acc_12; lra|apply (acc_piece (81/128) (3/128) (6342180 / 10^14) (33885182 / 10^14)); [lra|acc_E|acc_g|lra|lra]]. Qed.

Lemma acc_14 x : 0 <= x <= 87/128 -> Rabs (Ecnd x) <= 75 / 10 ^ 9.
Proof. intros H; destruct (Rle_dec x (21/32)) as [L|L]; [apply acc_13; lra|apply (acc_piece (171/256) (3/256) (7076478 / 10^14) (19463949 / 10^14)); [lra|acc_E|acc_g|lra|lra]]. Qed.

Lemma acc_15 x : 0 <= x <= 45/64 -> Rabs (Ecnd x) <= 75 / 10 ^ 9.
Proof. intros H; destruct (Rle_dec x (87/128)) as [L|L]; [apply acc_14; lra|apply (acc_piece (177/256) (3/256) (7350471 / 10^14) (11932002 / 10^14)); [lra|acc_E|acc_g|lra|lra]]. Qed.

Lemma acc_16 x : 0 <= x <= 183/256 -> Rabs (Ecnd x) <= 75 / 10 ^ 9.
Proof. intros H; destruct (Rle_dec x (45/64)) as [L|L]; [apply acc_15; lra|apply (acc_piece (363/512) (3/512) (7443046 / 10^14) (4450804 / 10^14)); [lra|acc_E|acc_g|lra|lra]]. Qed.

Lemma acc_17 x : 0 <= x <= 93/128 -> Rabs (Ecnd x) <= 75 / 10 ^ 9.
Proof. intros H; destruct (Rle_dec x (183/256)) as [L|L]; [apply acc_16; lra|apply (acc_piece (369/512) (3/512) (7451977 / 10^14) (2826701 / 10^14)); [lra|acc_E|acc_g|lra|lra]]. Qed.

Lemma acc_18 x : 0 <= x <= 189/256 -> Rabs (Ecnd x) <= 75 / 10 ^ 9.
Proof. intros H; destruct (Rle_dec x (93/128)) as [L|L]; [apply acc_17; lra|apply (acc_piece (375/512) (3/512) (7419661 / 10^14) (6323593 / 10^14)); [lra|acc_E|acc_g|lra|lra]]. Qed.

Lemma acc_19 x : 0 <= x <= 3/4 -> Rabs (Ecnd x) <= 75 / 10 ^ 9.
Proof. intros H; destruct (Rle_dec x (189/256)) as [L|L]; [apply acc_18; lra|apply (acc_piece (381/512) (3/512) (7347177 / 10^14) (9709841 / 10^14)); [lra|acc_E|acc_g|lra|lra]]. Qed.

Lemma acc_20 x : 0 <= x <= 99/128 -> Rabs (Ecnd x) <= 75 / 10 ^ 9.
Proof. intros H; destruct (Rle_dec x (3/4)) as [L|L]; [apply acc_19; lra|apply (acc_piece (195/256) (3/256) (7165965 / 10^14) (16090810 / 10^14)); [lra|acc_E|acc_g|lra|lra]]. Qed.

Lemma acc_21 x : 0 <= x <= 51/64 -> Rabs (Ecnd x) <= 75 / 10 ^ 9.
Proof. intros H; destruct (Rle_dec x (99/128)) as [L|L]; [apply acc_20; lra|apply (acc_piece (201/256) (3/256) (6797044 / 10^14) (21864690 / 10^14)); [lra|acc_E|acc_g|lra|lra]]. Qed.

Lemma acc_22 x : 0 <= x <= 27/32 -> Rabs (Ecnd x) <= 75 / 10 ^ 9.
Proof. intros H; destruct (Rle_dec x (51/64)) as [L|L]; [apply acc_21; lra|apply (acc_piece (105/128) (3/128) (5999935 / 10^14) (31282872 / 10^14)); [lra|acc_E|acc_g|lra|lra]]. Qed.

Lemma acc_23 x : 0 <= x <= 15/16 -> Rabs (Ecnd x) <= 75 / 10 ^ 9.
Proof. intros H; destruct (Rle_dec x (27/32)) as [L|L]; [apply acc_22; lra|apply (acc_piece (57/64) (3/64) (3735889 / 10^14) (40581675 / 10^14)); [lra|acc_E|acc_g|lra|lra]]. Qed.

Lemma acc_24 x : 0 <= x <= 9/8 -> Rabs (Ecnd x) <= 75 / 10 ^ 9.
Proof. intros H; destruct (Rle_dec x (15/16)) as [L|L]; [apply acc_23; lra|apply (acc_piece (33/32) (3/32) (1755040 / 10^14) (40914999 / 10^14)); [lra|acc_E|acc_g|lra|lra]]. Qed.

Lemma acc_25 x : 0 <= x <= 39/32 -> Rabs (Ecnd x) <= 75 / 10 ^ 9.
Proof. intros H; destruct (Rle_dec x (9/8)) as [L|L]; [apply acc_24; lra|apply (acc_piece (75/64) (3/64) (5719583 / 10^14) (25700663 / 10^14)); [lra|acc_E|acc_g|lra|lra]]. Qed.

Lemma acc_26 x : 0 <= x <= 21/16 -> Rabs (Ecnd x) <= 75 / 10 ^ 9.
Proof. intros H; destruct (Rle_dec x (39/32)) as [L|L]; [apply acc_25; lra|apply (acc_piece (81/64) (3/64) (6562742 / 10^14) (9185418 / 10^14)); [lra|acc_E|acc_g|lra|lra]]. Qed.

Lemma acc_27 x : 0 <= x <= 45/32 -> Rabs (Ecnd x) <= 75 / 10 ^ 9.
Proof. intros H; destruct (Rle_dec x (21/16)) as [L|L]; [apply acc_26; lra|apply (acc_piece (87/64) (3/64) (5890205 / 10^14) (20794139 / 10^14)); [lra|acc_E|acc_g|lra|lra]]. Qed.

Lemma acc_28 x : 0 <= x <= 3/2 -> Rabs (Ecnd x) <= 75 / 10 ^ 9.
Proof. intros H; destruct (Rle_dec x (45/32)) as [L|L]; [apply acc_27; lra|apply (acc_piece (93/64) (3/64) (4000679 / 10^14) (28796299 / 10^14)); [lra|acc_E|acc_g|lra|lra]]. Qed.

Lemma acc_29 x : 0 <= x <= 27/16 -> Rabs (Ecnd x) <= 75 / 10 ^ 9.
Proof. intros H; destruct (Rle_dec x (3/2)) as [L|L]; [apply acc_28; lra|apply (acc_piece (51/32) (3/32) (43368 / 10^14) (30942872 / 10^14)); [lra|acc_E|acc_g|lra|lra]]. Qed.

Lemma acc_30 x : 0 <= x <= 57/32 -> Rabs (Ecnd x) <= 75 / 10 ^ 9.
Proof. intros H; destruct (Rle_dec x (27/16)) as [L|L]; [apply acc_29; lra|apply (acc_piece (111/64) (3/64) (3970744 / 10^14) (27666725 / 10^14)); [lra|acc_E|acc_g|lra|lra]]. Qed.

Lemma acc_31 x : 0 <= x <= 15/8 -> Rabs (Ecnd x) <= 75 / 10 ^ 9.
Proof. intros H; destruct (Rle_dec x (57/32)) as [L|L]; [apply acc_30; lra|apply (acc_piece (117/64) (3/64) (5843085 / 10^14) (20475054 / 10^14)); [lra|acc_E|acc_g|lra|lra]]. Qed.

Lemma acc_32 x : 0 <= x <= 63/32 -> Rabs (Ecnd x) <= 75 / 10 ^ 9.
Proof. intros H; destruct (Rle_dec x (15/8)) as [L|L]; [apply acc_31; lra|apply (acc_piece (123/64) (3/64) (6853557 / 10^14) (11026280 / 10^14)); [lra|acc_E|acc_g|lra|lra]]. Qed.

Lemma acc_33 x : 0 <= x <= 33/16 -> Rabs (Ecnd x) <= 75 / 10 ^ 9.
Proof. intros H; destruct (Rle_dec x (63/32)) as [L|L]; [apply acc_32; lra|apply (acc_piece (129/64) (3/64) (6949948 / 10^14) (8129444 / 10^14)); [lra|acc_E|acc_g|lra|lra]]. Qed.

Lemma acc_34 x : 0 <= x <= 9/4 -> Rabs (Ecnd x) <= 75 / 10 ^ 9.
Proof. intros H; destruct (Rle_dec x (33/16)) as [L|L]; [apply acc_33; lra|apply (acc_piece (69/32) (3/32) (5579560 / 10^14) (20172084 / 10^14)); [lra|acc_E|acc_g|lra|lra]]. Qed.

Lemma acc_35 x : 0 <= x <= 21/8 -> Rabs (Ecnd x) <= 75 / 10 ^ 9.
Proof. intros H; destruct (Rle_dec x (9/4)) as [L|L]; [apply acc_34; lra|apply (acc_piece (39/16) (3/16) (121490 / 10^14) (22622319 / 10^14)); [lra|acc_E|acc_g|lra|lra]]. Qed.

Lemma acc_36 x : 0 <= x <= 45/16 -> Rabs (Ecnd x) <= 75 / 10 ^ 9.
Proof. intros H; destruct (Rle_dec x (21/8)) as [L|L]; [apply acc_35; lra|apply (acc_piece (87/32) (3/32) (5168932 / 10^14) (16893280 / 10^14)); [lra|acc_E|acc_g|lra|lra]]. Qed.

Lemma acc_37 x : 0 <= x <= 93/32 -> Rabs (Ecnd x) <= 75 / 10 ^ 9.
Proof. intros H; destruct (Rle_dec x (45/16)) as [L|L]; [apply acc_36; lra|apply (acc_piece (183/64) (3/64) (6473837 / 10^14) (8373601 / 10^14)); [lra|acc_E|acc_g|lra|lra]]. Qed.

Lemma acc_38 x : 0 <= x <= 3 -> Rabs (Ecnd x) <= 75 / 10 ^ 9.
Proof. intros H; destruct (Rle_dec x (93/32)) as [L|L]; [apply acc_37; lra|apply (acc_piece (189/64) (3/64) (6859173 / 10^14) (4181484 / 10^14)); [lra|acc_E|acc_g|lra|lra]]. Qed.

Lemma acc_39 x : 0 <= x <= 51/16 -> Rabs (Ecnd x) <= 75 / 10 ^ 9.
Proof. intros H; destruct (Rle_dec x (3)) as [L|L]; [apply acc_38; lra|apply (acc_piece (99/32) (3/32) (6820294 / 10^14) (4816272 / 10^14)); [lra|acc_E|acc_g|lra|lra]]. Qed.

Lemma acc_40 x : 0 <= x <= 27/8 -> Rabs (Ecnd x) <= 75 / 10 ^ 9.
Proof. intros H; destruct (Rle_dec x (51/16)) as [L|L]; [apply acc_39; lra|apply (acc_piece (105/32) (3/32) (5959686 / 10^14) (7176808 / 10^14)); [lra|acc_E|acc_g|lra|lra]]. Qed.

Lemma acc_41 x : 0 <= x <= 15/4 -> Rabs (Ecnd x) <= 75 / 10 ^ 9.
Proof. intros H; destruct (Rle_dec x (27/8)) as [L|L]; [apply acc_40; lra|apply (acc_piece (57/16) (3/16) (3979538 / 10^14) (7458234 / 10^14)); [lra|acc_E|acc_g|lra|lra]]. Qed.

Lemma acc_42 x : 0 <= x <= 33/8 -> Rabs (Ecnd x) <= 75 / 10 ^ 9.
Proof. intros H; destruct (Rle_dec x (15/4)) as [L|L]; [apply acc_41; lra|apply (acc_piece (63/16) (3/16) (1745467 / 10^14) (6156789 / 10^14)); [lra|acc_E|acc_g|lra|lra]]. Qed.

Lemma acc_43 x : 0 <= x <= 9/2 -> Rabs (Ecnd x) <= 75 / 10 ^ 9.
Proof. intros H; destruct (Rle_dec x (33/8)) as [L|L]; [apply acc_42; lra|apply (acc_piece (69/16) (3/16) (589572 / 10^14) (3099648 / 10^14)); [lra|acc_E|acc_g|lra|lra]]. Qed.

Lemma acc_44 x : 0 <= x <= 39/8 -> Rabs (Ecnd x) <= 75 / 10 ^ 9.
Proof. intros H; destruct (Rle_dec x (9/2)) as [L|L]; [apply acc_43; lra|apply (acc_piece (75/16) (3/16) (160132 / 10^14) (1128221 / 10^14)); [lra|acc_E|acc_g|lra|lra]]. Qed.

Lemma acc_45 x : 0 <= x <= 21/4 -> Rabs (Ecnd x) <= 75 / 10 ^ 9.
Proof. intros H; destruct (Rle_dec x (39/8)) as [L|L]; [apply acc_44; lra|apply (acc_piece (81/16) (3/16) (36757 / 10^14) (323136 / 10^14)); [lra|acc_E|acc_g|lra|lra]]. Qed.

Lemma acc_46 x : 0 <= x <= 45/8 -> Rabs (Ecnd x) <= 75 / 10 ^ 9.
Proof. intros H; destruct (Rle_dec x (21/4)) as [L|L]; [apply acc_45; lra|apply (acc_piece (87/16) (3/16) (8331 / 10^14) (80310 / 10^14)); [lra|acc_E|acc_g|lra|lra]]. Qed.

Lemma acc_47 x : 0 <= x <= 6 -> Rabs (Ecnd x) <= 75 / 10 ^ 9.
Proof. intros H; destruct (Rle_dec x (45/8)) as [L|L]; [apply acc_46; lra|apply (acc_piece (93/16) (3/16) (2966 / 10^14) (22926 / 10^14)); [lra|acc_E|acc_g|lra|lra]]. Qed.

Lemma Ecnd_tail x : 6 <= x -> Rabs (Ecnd x) <= 75 / 10 ^ 9.
Proof.
  intros Hx. destruct (Phi_tail x) as [T1 T2]; [lra|].
  assert (X : exp (- (x ^ 2) / 2) <= exp (-18)).
  { assert (L : - (x ^ 2) / 2 <= -18) by nra. destruct L as [L|L]; [left; now apply exp_increasing|rewrite L; lra]. }
  assert (Y : exp (-18) <= 16 / 10 ^ 9) by (interval with (i_prec 60)).
  assert (0 < npdf x * Pk (/ (1 + c0 * x)) <= 16 / 10 ^ 9).
  { assert (K : Kx x = / (1 + c0 * x)) by (unfold Kx; rewrite Rabs_pos_eq by lra; reflexivity).
    rewrite <- K. assert (P := Pk_pos _ (Kx_range x)).
    assert (Pk (Kx x) < Pk 1) by (apply Pk_Kx_lt; lra).
    assert (Pk 1 < 2) by (unfold Pk; lra).
    assert (0 < npdf x) by apply npdf_pos.
    split; [now apply Rmult_lt_0_compat|].
    assert (npdf x <= exp (-18) / 2).
    { unfold npdf, Rdiv. apply Rmult_le_compat; auto.
      left; apply exp_pos. left; apply Rinv_0_lt_compat, sqrt2PI_pos.
      apply Rinv_le_contravar; [lra|]. interval with (i_prec 60). }
    nra. }
  unfold Ecnd. apply Rabs_le. lra.
Qed.

Lemma Ecnd_bound x : 0 <= x -> Rabs (Ecnd x) <= 75 / 10 ^ 9.
Proof.
  intros Hx. destruct (Rle_dec x 6); [apply acc_47; lra|apply Ecnd_tail; lra].
Qed.

Lemma cnd_accuracy x : Rabs (cnd x - Phi x) <= 75 / 10 ^ 9.
Proof.
  assert (Pos : forall x, 0 < x -> cnd x - Phi x = Ecnd x).
  { intros y Hy. rewrite cnd_pos_form by lra. unfold Ecnd, Kx. rewrite Rabs_pos_eq by lra. reflexivity. }
  destruct (Rtotal_order x 0) as [H|[H|H]].
  - replace (cnd x - Phi x) with (- (cnd (- x) - Phi (- x))) by (rewrite cnd_opp, Phi_opp; ring).
    rewrite Rabs_Ropp, Pos by lra. apply Ecnd_bound; lra.
  - subst. rewrite cnd_0, Phi_0, Rminus_diag_eq, Rabs_R0 by reflexivity. lra.
  - rewrite Pos by lra. apply Ecnd_bound; lra.
Qed.
