(** Concrete cases for the American approximations. *)
From Coq Require Import Reals ZArith QArith Qreals List Bool Lra Lia.
From Interval Require Import Tactic.
From Verif Require Import Num Py MBase MVanilla MAmerican PCnd PCnd2 PBlack PGbs PVanilla SAmerican PBaw.
Open Scope R_scope.

(** a search that converges (at once: the seed of a nearly perpetual option is already accurate) *)
Example baw_call_converges : exists v, baw_call 0 (mkAmer 100 100 1000 (1/10) 0 (Some (1/5))) = Ok v.
Proof.
  destruct (call_value 100 1000 (1/10) 0 (1/5) ltac:(lra) ltac:(lra) ltac:(lra) ltac:(lra) 0 ltac:(lra)) as [H|(Sk & _ & H)];
    [|eexists; apply H; lra].
  exfalso. specialize (H 100 ltac:(lra)). unfold baw_call in H. cbn [y_b y_r leb RNum] in H.
  rewrite (proj2 (Rleb_false _ _)) in H by lra. cbn [need of_opt y_sigma bind] in H.
  unfold baw_Kc in H.
  set (o := mkAmer 100 100 1000 (1/10) 0 (Some (1/5))) in H.
  assert (Hsi : 155 < baw_seed_c o (1/5) < 157 /\ Rabs (baw_seed_c o (1/5) - 100 - baw_seed_c o (1/5) / bq2 1000 (1/10) 0 (1/5)) <= / 10 ^ 8).
  { unfold baw_seed_c, baw_n, bq2, o. cbn [y_b y_r y_t y_K]. toR. repeat split; interval. }
  assert (Hq : 2 < bq2 1000 (1/10) 0 (1/5)) by (unfold bq2; interval).
  set (si := baw_seed_c o (1/5)) in *. destruct Hsi as [Hsi Hb]. unfold o in H. rewrite rhs_c_eq in H by lra. fold o in H. cbn [bind while_] in H.
  assert (Hc : 0 <= ccall 100 1000 (1/10) 0 (1/5) si <= / 10 ^ 8).
  { unfold ccall. assert (E1 : 0 < exp ((0 - 1/10) * 1000) <= / 10 ^ 11) by (split; [apply exp_pos|interval]).
    assert (E2 : 0 < 100 * exp (- (1/10) * 1000)) by (apply Rmult_lt_0_compat; [lra|apply exp_pos]).
    set (e1 := exp ((0 - 1/10) * 1000)) in *.
    assert (E3 : 0 < si * e1 <= / 10 ^ 8) by nra.
    assert (0 < 1/5 * sqrt 1000) by interval.
    pose proof (bcall_pos (si * e1) (100 * exp (- (1/10) * 1000)) (1/5 * sqrt 1000)).
    pose proof (bcall_ub (si * e1) (100 * exp (- (1/10) * 1000)) (1/5 * sqrt 1000)). lra. }
  assert (Hp : Rabs (prem2 100 1000 (1/10) 0 (1/5) si - si / bq2 1000 (1/10) 0 (1/5)) <= / 10 ^ 8).
  { unfold prem2, bcarry. set (c := cnd _). assert (0 <= c <= 1) by (unfold c; generalize (cnd_range (bd1' 100 1000 0 (1/5) si)); lra).
    set (q := bq2 _ _ _ _) in *. set (e1 := exp _). assert (E1 : 0 < e1 <= / 10 ^ 11) by (split; [apply exp_pos|unfold e1; interval]).
    assert (0 < si / q <= 100).
    { split; [apply Rdiv_lt_0_compat; lra|]. apply Rmult_le_reg_r with q; [lra|]. unfold Rdiv. rewrite Rmult_assoc, Rinv_l by lra. lra. }
    set (u := si / q) in *. assert (0 <= e1 * c <= / 10 ^ 11) by nra. set (w := e1 * c) in *. apply Rabs_le. nra. }
  cbn [ltb div absn sub RNum y_K o] in H. 
  rewrite (proj2 (Rltb_false _ _)) in H.
  - cbn [bind] in H. destruct (Rltb (y_S o) si) in H; [|discriminate]. unfold gbs_c, gbs_call, o in H. cbn [y_S y_t] in H. rewrite call_link in H by lra. discriminate.
  - unfold baw_E. cbn [lit RNum]. unfold Q2R. cbn [Qnum Qden]. apply Rmult_le_reg_r with 100; [lra|].
    unfold Rdiv. rewrite Rmult_assoc, Rinv_l, Rmult_1_r by lra. 
    revert Hb Hp Hc. unfold Rabs. repeat destruct Rcase_abs; lra.
Qed.

Example rgw_case_never : rgw_is_call_optimal (mkRgw 80 82 (1/3) (1/4) (6/100) 0 (Some (30/100))) = false.
Proof.
  unfold rgw_is_call_optimal, rgw_never. cbn [w_D w_K w_r w_t w_td]. toR. rewrite (proj2 (Rleb_true _ _)); [reflexivity|]. interval.
Qed.
Example rgw_case_optimal : rgw_is_call_optimal (mkRgw 80 82 (1/3) (1/4) (6/100) 4 (Some (30/100))) = true.
Proof.
  unfold rgw_is_call_optimal, rgw_never. cbn [w_D w_K w_r w_t w_td]. toR. rewrite (proj2 (Rleb_false _ _)); [reflexivity|]. interval.
Qed.
Example bs_case_neg : 2 * (1/10) < 8/100 * sqrt 9.
Proof. interval. Qed.
Example bs_case_pos : 0 < -4/100 * 1 + 2 * (35/100) * sqrt 1.
Proof. rewrite sqrt_1. lra. Qed.

(** parameters for C43: [ln q < -(b t + 2 s sqrt t) (q - 1)] *)
Example baw_case_neg : ln (406/5) < - (- (1/10) * 4 + 2 * (1/20) * sqrt 4) * (406/5 - 1).
Proof. interval. Qed.
Example baw_case_dom : 0 <= 0 * 1000 + 2 * (1/5) * sqrt 1000.
Proof. interval. Qed.
