(** Concrete searches that end (C43). *)
From Coq Require Import Reals ZArith QArith Qreals List Bool Lra Lia.
From Interval Require Import Tactic.
From Verif Require Import Num Py MBase MVanilla MAmerican PCnd PBlack PGbs PVanilla PBaw PBaw3 PBaw4.
Open Scope R_scope.

Lemma cnd_pos_bounds x : 0 < x -> cnd x = 1 - exp (- (x ^ 2) / 2) / sqrt (2 * PI) * Pk (/ (1 + c0 * x)).
Proof. intro H. rewrite cnd_pos_form by easy. unfold Kx. rewrite Rabs_right by lra. reflexivity. Qed.

(** a one-year call on a future *)
Example baw_call_ends : exists N, forall S, 0 < S -> exists v, forall fuel, (N <= fuel)%nat ->
  baw_call fuel (mkAmer S 100 1 (1/10) 0 (Some (1/5))) = Ok v.
Proof.
  destruct (bq_spec 1 (1/10) 0 (1/5) ltac:(lra) ltac:(lra) ltac:(lra)) as (_ & _ & H3 & _ & H5). specialize (H5 ltac:(lra)).
  assert (D := disc_pos 1 (1/10) ltac:(lra) ltac:(lra)).
  eapply baw_call_terminates with (B := 500) (q := bq2 1 (1/10) 0 (1/5)); try lra.
  - rewrite sqrt_1. lra.
  - apply Rmult_eq_reg_l with (2 / (1/5) ^ 2); [|lra].
    transitivity (bq2 1 (1/10) 0 (1/5) ^ 2 + (2 * 0 / (1/5) ^ 2 - 1) * bq2 1 (1/10) 0 (1/5)); [field|]. rewrite H3. field. lra.
  - unfold gbs_call. apply call_link; lra.
  - apply delta_link; lra.
  - assert (Q : 7 < bq2 1 (1/10) 0 (1/5)) by (unfold bq2; interval).
    rewrite <- (dd_eq 100 1 (1/10) 0 (1/5)) by lra. unfold dd, bcall. fold (bcarry 1 (1/10) 0).
    set (x := bd1 _ _ _). set (y := bd2 _ _ _). assert (X : 8 < x) by (unfold x, bd1, bcarry; interval). assert (Y : 7 < y) by (unfold y, bd2, bcarry; interval).
    assert (X1 := cnd_range x). assert (X2 : cnd 8 < cnd x) by now apply cnd_incr. assert (Y2 : cnd 7 < cnd y) by now apply cnd_incr. assert (Y1 := cnd_range y).
    rewrite cnd_pos_bounds in X2, Y2 by lra. unfold Pk, c0 in X2, Y2.
    set (cx := cnd x) in *. set (cy := cnd y) in *. clearbody cx cy.
    assert (CX : 0.999999 < cx). { eapply Rlt_trans; [|exact X2]. interval. } assert (CY : 0.999999 < cy). { eapply Rlt_trans; [|exact Y2]. interval. }
    unfold bcarry. set (q := bq2 1 (1/10) 0 (1/5)) in *. clearbody q.
    assert (0 < / q < / 7). { split; [apply Rinv_0_lt_compat; lra|apply Rinv_lt_contravar; lra]. }
    unfold Rdiv at 4. set (iq := / q) in *. clearbody iq.
    interval.
Qed.

(** a three-month put on a stock *)
Example baw_put_ends : exists N, forall S, 0 < S -> exists v, forall fuel, (N <= fuel)%nat ->
  baw_put fuel (mkAmer S 100 (1/4) (1/10) (1/10) (Some (1/4))) = Ok v.
Proof.
  destruct (bq_spec (1/4) (1/10) (1/10) (1/4) ltac:(lra) ltac:(lra) ltac:(lra)) as (_ & Q0 & _ & H3 & _).
  assert (D := disc_pos (1/4) (1/10) ltac:(lra) ltac:(lra)).
  assert (Q : -12.6 < bq1 (1/4) (1/10) (1/10) (1/4) < -12.5) by (unfold bq1; split; interval with (i_prec 60)).
  assert (SQ : sqrt (1/4) = 1/2). { replace (1/4) with ((1/2) * (1/2)) by field. apply sqrt_square. lra. }
  set (q := bq1 (1/4) (1/10) (1/10) (1/4)) in *.
  set (S0 := 100 * (1 - (1 - exp ((1/10 * (1/4) - 2 * (1/4) * sqrt (1/4)) * (1 - - 16/5))) / (1 - - 16/5))).
  assert (HS : 85.4 < S0 < 85.5) by (unfold S0; rewrite SQ; split; interval).
  eapply baw_put_terminates with (q := q) (h := - 16/5) (S0 := S0); try lra.
  - apply Rmult_eq_reg_l with (2 / (1/4) ^ 2); [|lra].
    transitivity (q ^ 2 + (2 * (1/10) / (1/4) ^ 2 - 1) * q); [field|]. rewrite H3. field. lra.
  - rewrite SQ. lra.
  - reflexivity.
  - unfold gbs_put. apply put_link; lra.
  - apply delta_put_link; lra.
  - apply Rle_trans with 85.5; [lra|]. interval.
  - right. rewrite <- (dd_eq 100 (1/4) (1/10) (1/10) (1/4)) by lra. unfold dd, bput. fold (bcarry (1/4) (1/10) (1/10)).
    set (x := bd1 _ _ _). set (y := bd2 _ _ _). clearbody S0. clear H3.
    assert (X : 0.99 < - x < 1.001) by (unfold x, bd1, bcarry; rewrite SQ; split; interval).
    assert (Y : 1.115 < - y < 1.13) by (unfold y, bd2, bcarry; rewrite SQ; split; interval).
    assert (X2 : cnd (- x) < cnd 1.001) by (apply cnd_incr; lra). assert (Y2 : cnd 1.115 < cnd (- y)) by (apply cnd_incr; lra).
    rewrite (cnd_pos_bounds 1.001) in X2 by lra. rewrite (cnd_pos_bounds 1.115) in Y2 by lra. unfold Pk, c0 in X2, Y2.
    assert (CX : cnd (- x) < 0.8417). { eapply Rlt_trans; [exact X2|]. interval. } assert (CY : 0.8675 < cnd (- y)). { eapply Rlt_trans; [|exact Y2]. interval. }
    assert (X1 := cnd_range (- x)). assert (Y1 := cnd_range (- y)).
    set (cx := cnd (- x)) in *. set (cy := cnd (- y)) in *. clearbody cx cy q.
    assert (IQ : / 12.6  < / - q < / 12.5) by (split; apply Rinv_lt_contravar; lra).
    unfold bcarry. replace (/ q) with (- / - q) by (field; lra). set (iq := / - q) in *. clearbody iq.
    apply Rle_trans with (100 - 100 * exp (- (1/10) * (1/4)) * cy + / 10 ^ 6 * (100 + 100 * exp (- (1/10 + (1/4) ^ 2 / 2) * (1/4)) * (1 - - iq))); [right; ring|].
    apply Rminus_le. interval.
Qed.
