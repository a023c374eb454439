(** Stability of binomial trees in floating-point arithmetic (C72): the whole tree. *)
From Coq Require Import Reals QArith Qreals ZArith String List Arith Lra Lia Psatz.
From Verif Require Import Num Py Arr MTrees STrees MFloat SFloat PTrees PTrees2 PTrees3 PTrees4 PSpread3 PFloat PFloat2 PFloat6.
Import ListNotations.
Open Scope R_scope.

Lemma exp_small x : 0 <= x <= / 10 -> exp x <= / (1 - x).
Proof.
  intro H. pose proof (exp_ineq1_le (- x)) as E. rewrite exp_Ropp in E. pose proof (exp_pos x). rewrite <- (Rinv_inv (exp x)). apply Rinv_le_contravar; lra.
Qed.

Section Tr.
Variables (A : fp) (u eta : R).
Hypothesis HA : accurate_fp A u eta.
Notation rd := (rnd A).
Variables (S K U D p Df L w ft fd fp1 fD : R) (n : nat) (call am : bool).
Hypothesis HS : 0 < S.
Hypothesis HK : 0 < K.
Hypothesis Hn : n <> 0%nat.
Hypothesis HU : 0 < U <= 3.
Hypothesis HD : 0 < D <= 3.
Hypothesis Hp : 0 <= p <= 1.
Hypothesis HDf : 0 < Df.
Hypothesis HL : 1 <= L.
Hypothesis HL1 : Df <= L.
Hypothesis HL2 : Df * (p * U + (1 - p) * D) <= L.
Hypothesis Hw : u <= w.
Hypothesis Hnw : INR n * w <= / 1000.
Hypothesis E1 : forall i, (i <= n)%nat -> eta <= w * U ^ i /\ eta <= w * D ^ i /\ eta <= w * (S * U ^ i).
Hypothesis EK : eta <= w * K.
Hypothesis E2 : eta <= w.
Hypothesis Cu : Rabs (ft - U) <= w * U.
Hypothesis Cd : Rabs (fd - D) <= w * D.
Hypothesis Cp : Rabs (fp1 - p) <= w.
Hypothesis CD : Rabs (fD - Df) <= w * Df.
Notation fx j i := (fex A call S K (f_powi A ft i) (f_powi A fd (j - i))).
Notation ex j i := (zof call * (S * U ^ i * D ^ (j - i) - K)).

Lemma tree_close :
  Rabs (bnode n (fun i => fclip A (fx n i)) (fun j i vu vd => let c := fcont A fp1 (rd (rd 1 - fp1)) fD vu vd in if am then Rmax (fx j i) c else c) n 0
      - bnode n (fun i => Rmax (ex n i) 0) (fun j i wu wd => let c := (p * wu + (1 - p) * wd) * Df in if am then Rmax (ex j i) c else c) n 0)
  <= 40 * (INR n * w) * L ^ n * (S + K).
Proof.
  pose proof (u_range A u eta HA) as Hu. assert (N1 : 1 <= INR n) by (apply (le_INR 1); lia). assert (Hw0 : 0 <= w) by lra. assert (Hwn : w <= INR n * w) by (rewrite <- (Rmult_1_l w) at 1; apply Rmult_le_compat_r; lra). set (y := INR n * w) in *. assert (Hw3 : w <= / 1000) by lra.
  pose (g := fun j i => S * U ^ i * D ^ (j - i) + K).
  assert (PX : forall i j, 0 < S * U ^ i * D ^ j) by (intros i j; repeat apply Rmult_lt_0_compat; try apply pow_lt; lra).
  assert (C0 : Rabs (rd (rd 1 - fp1) - (1 - p)) <= 31 / 10 * w).
  { rewrite (a_1 A u eta HA). eapply Rle_trans; [apply (rd_close A u eta HA _ (1 - p) w 1 w 1 Hw); [replace (1 - fp1 - (1 - p)) with (- (fp1 - p)) by ring; now rewrite Rabs_Ropp|rewrite Rabs_pos_eq; lra|lra]|]. assert (w * w <= / 1000 * w) by (apply Rmult_le_compat_r; lra). lra. }
  assert (NC : forall j i, (i <= j)%nat -> (j <= n)%nat -> Rabs (fx j i - ex j i) <= 122 / 10 * y * g j i /\ Rabs (fclip A (fx j i) - Rmax (ex j i) 0) <= 16 * y * g j i).
  { intros j i Hij Hj. destruct (E1 i ltac:(lia)) as (A1 & _ & A3). destruct (E1 (j - i)%nat ltac:(lia)) as (_ & A2 & _).
    apply (node_close A u eta HA call S K (f_powi A ft i) (f_powi A fd (j - i)) (U ^ i) (D ^ (j - i)) y w); try assumption; try (apply pow_lt; lra); try lra.
    - apply (powi_close A u eta HA); try lia; try assumption; lra.
    - apply (powi_close A u eta HA); try lia; try assumption; lra. }
  assert (BX : forall j i, Rabs (ex j i) <= g j i) by (intros j i; pose proof (PX i (j - i)%nat); unfold g; destruct call; cbn [zof]; apply abs_le; lra).
  assert (Hg : forall j i, 0 <= g j i) by (intros j i; pose proof (PX i (j - i)%nat); unfold g; lra).
  set (t1 := fun i => fclip A (fx n i)). set (t2 := fun i => Rmax (ex n i) 0). set (f1 := fun j i vu vd => _). set (f2 := fun j i wu wd => _).
  assert (X := bnode_close n t1 t2 f1 f2 g L (21 * w) (16 * y) HL ltac:(lra) ltac:(lra) Hg).
  destruct X with (m := n) (i := 0%nat) as [R1 _]; try lia.
  - intros i Hi. destruct (NC n i Hi (le_n n)) as [_ B]. split; [exact B|]. unfold t2. specialize (BX n i). apply le_abs in BX. rewrite Rabs_pos_eq by apply Rmax_r. apply Rmax_lub; [lra|apply Hg].
  - intros j i vu vd wu wd E G Hij Hj HE HG Vu Wu Vd Wd. destruct (NC j i Hij ltac:(lia)) as [NX _]. specialize (BX j i). 
    assert (Gu : g (j + 1)%nat (i + 1)%nat = S * U ^ i * D ^ (j - i) * U + K) by (unfold g; replace (j + 1 - (i + 1))%nat with (j - i)%nat by lia; rewrite pow_add; ring).
    assert (Gd : g (j + 1)%nat i = S * U ^ i * D ^ (j - i) * D + K) by (unfold g; replace (j + 1 - i)%nat with (Datatypes.S (j - i)) by lia; cbn [pow]; ring).
    pose proof (PX i (j - i)%nat) as Px. assert (Gj : g j i = S * U ^ i * D ^ (j - i) + K) by reflexivity. set (x := S * U ^ i * D ^ (j - i)) in *. set (gg := g j i) in *. set (gu := g (j + 1)%nat (i + 1)%nat) in *. set (gd := g (j + 1)%nat i) in *.
    assert (xU : 0 <= x * U <= x * 3) by (split; [apply Rmult_le_pos; lra|apply Rmult_le_compat_l; lra]). assert (xD : 0 <= x * D <= x * 3) by (split; [apply Rmult_le_pos; lra|apply Rmult_le_compat_l; lra]).
    assert (Mean : Df * (p * gu + (1 - p) * gd) <= L * gg).
    { rewrite Gu, Gd, Gj. replace (Df * (p * (x * U + K) + (1 - p) * (x * D + K))) with (Df * (p * U + (1 - p) * D) * x + Df * K) by ring. rewrite (Rmult_plus_distr_l L x K). apply Rplus_le_compat; apply Rmult_le_compat_r; lra. }
    assert (Inv : forall a b, Df * a <= b -> a <= b / Df). { intros a b Hab. apply (Rmult_le_reg_l Df); [exact HDf|]. replace (Df * (b / Df)) with b by (field; lra). exact Hab. }
    destruct (step_close A u eta HA w p fp1 (rd (rd 1 - fp1)) Df fD gg gu gd (L * gg / Df) L vu vd wu wd E G) as [S1 S2]; try assumption; try lra.
    + eapply Rle_trans; [exact EK|]. apply Rmult_le_compat_l; lra.
    + now apply Inv.
    + apply Inv, Rmult_le_compat_r; lra.
    + field. lra.
    + unfold f1, f2. cbv zeta. set (c1 := fcont A _ _ _ _ _) in *. set (c2 := (p * wu + (1 - p) * wd) * Df) in *. set (bound := L * (1 + 21 * w) * E + L * (21 * w) * G) in *.
      assert (Q : bound * gg <= Rmax (16 * y) bound * gg) by (apply Rmult_le_compat_r; [lra|apply Rmax_r]). assert (Q2 : 122 / 10 * y * gg <= Rmax (16 * y) bound * gg) by (apply Rmult_le_compat_r; [lra|eapply Rle_trans; [|apply Rmax_l]; lra]).
      destruct am; [|split; [lra|exact S2]]. split.
      * apply le_abs in NX, S1. set (B := Rmax (16 * y) bound * gg) in *. change (S * U ^ i * D ^ (j - i)) with x. set (e1 := fx j i) in *. set (e2 := zof call * (x - K)) in *. pose proof (Rmax_l e1 c1). pose proof (Rmax_r e1 c1). pose proof (Rmax_l e2 c2). pose proof (Rmax_r e2 c2).
        assert (Rmax e2 c2 <= Rmax e1 c1 + B) by (apply Rmax_lub; lra). assert (Rmax e1 c1 <= Rmax e2 c2 + B) by (apply Rmax_lub; lra). apply abs_le. lra.
      * apply le_abs in BX, S2. assert (gg <= L * G * gg). { assert (1 * 1 <= L * G) by (apply Rmult_le_compat; lra). rewrite <- (Rmult_1_l gg) at 1. apply Rmult_le_compat_r; lra. }
        change (S * U ^ i * D ^ (j - i)) with x. set (e2 := zof call * (x - K)) in *. pose proof (Rmax_l e2 c2). pose proof (Rmax_r e2 c2). assert (Rmax e2 c2 <= L * G * gg) by (apply Rmax_lub; lra). apply abs_le. lra.
  - rewrite Nat.sub_diag in R1. unfold g in R1. cbn [pow Nat.sub] in R1. rewrite !Rmult_1_r in R1. eapply Rle_trans; [exact R1|]. apply Rmult_le_compat_r; [lra|].
    rewrite Rpow_mult_distr. assert (P1 : (1 + 21 * w) ^ n <= 1022 / 1000).
    { apply Rle_trans with (exp (21 * y)). { replace (21 * y) with (INR n * (21 * w)) by (unfold y; ring). rewrite <- exp_pow. apply pow_incr. split; [lra|]. apply exp_ineq1_le. }
      eapply Rle_trans; [apply exp_small; lra|]. rewrite <- (Rinv_inv (1022 / 1000)). apply Rinv_le_contravar; [lra|]. lra. }
    assert (P2 : 1 <= L ^ n) by now apply pow_R1_Rle. replace (16 * y + INR n * (21 * w)) with (37 * y) by (unfold y; ring). assert (P3 : 0 <= (1 + 21 * w) ^ n) by (apply pow_le; lra).
    replace (40 * y * L ^ n) with (L ^ n * (1022 / 1000) * (40 * 1000 / 1022 * y)) by field. apply Rmult_le_compat; try lra; [apply Rmult_le_pos; lra|apply Rmult_le_compat_l; lra].
Qed.
End Tr.
