(** Barone-Adesi-Whaley call with a strongly negative cost of carry: the seed of the search is negative (C43). *)
From Coq Require Import Reals ZArith QArith Qreals List Bool Lra Lia.
From Verif Require Import Num Py MBase MVanilla MAmerican PBlack PGbs PBaw PDegen.
Open Scope R_scope.

Section Neg.
Variables S0 K t r b s q : R.
Hypothesis HS : 0 < S0.
Hypothesis HK : 0 < K.
Hypothesis Ht : 0 < t.
Hypothesis Hs : 0 < s.
Hypothesis Hr : 0 < r.
Hypothesis Hq : 1 < q.
Hypothesis Eq : s ^ 2 / 2 * q * (q - 1) + b * q = r.
Hypothesis Hl : ln q < - (b * t + 2 * s * sqrt t) * (q - 1).
Let o := mkAmer (Fin S0) (Fin K) (Fin t) (Fin r) (Fin b) (Some (Fin s)).
Let Hs2 : s ^ 2 <> 0. Proof. apply Rgt_not_eq, pow_lt, Hs. Qed.

(** the positive root of the quadratic is q *)
Lemma root_q : (- (2 * b / s ^ 2 - 1) + sqrt ((2 * b / s ^ 2 - 1) ^ 2 + 4 * (2 * r / s ^ 2))) / 2 = q.
Proof.
  assert (P : 0 < s ^ 2) by (apply pow_lt, Hs).
  replace ((2 * b / s ^ 2 - 1) ^ 2 + 4 * (2 * r / s ^ 2)) with ((2 * q + (2 * b / s ^ 2 - 1)) ^ 2).
  2:{ rewrite <- Eq. field. lra. }
  assert (N : 0 <= 2 * q + (2 * b / s ^ 2 - 1)).
  { assert (E : 2 * b / s ^ 2 = 2 * r / (s ^ 2 * q) - (q - 1)) by (rewrite <- Eq; field; lra).
    assert (0 < 2 * r / (s ^ 2 * q)) by (apply Rdiv_lt_0_compat; [lra|apply Rmult_lt_0_compat; lra]). lra. }
  replace ((2 * q + (2 * b / s ^ 2 - 1)) ^ 2) with (Rsqr (2 * q + (2 * b / s ^ 2 - 1))) by (unfold Rsqr; ring).
  rewrite sqrt_Rsqr by exact N. field. lra.
Qed.
Definition seedv := K + K / (q - 1) * (1 - exp (- (b * t + 2 * s * sqrt t) * (q - 1))).
Lemma seed_neg : seedv < 0.
Proof.
  unfold seedv. assert (E : q < exp (- (b * t + 2 * s * sqrt t) * (q - 1))).
  { rewrite <- (exp_ln q) at 1 by lra. now apply exp_increasing. }
  set (e := exp _) in *. replace (K + K / (q - 1) * (1 - e)) with (- (K / (q - 1) * (e - q))) by (field; lra).
  assert (0 < K / (q - 1) * (e - q)); [|lra]. apply Rmult_lt_0_compat; [apply Rdiv_lt_0_compat; lra|lra].
Qed.
Lemma seed_x : baw_seed_c o (Fin s) = Fin seedv.
Proof.
  assert (D1 : div (mul (lit 2) (Fin b)) (powi (Fin s) 2) = Fin (2 * b / s ^ 2)).
  { xcbn. change (s * (s * 1)) with (s ^ 2). destruct (Req_EM_T (s ^ 2) 0); [contradiction|]. f_equal. f_equal. f_equal. apply q2. }
  assert (D2 : div (mul (lit 2) (Fin r)) (powi (Fin s) 2) = Fin (2 * r / s ^ 2)).
  { xcbn. change (s * (s * 1)) with (s ^ 2). destruct (Req_EM_T (s ^ 2) 0); [contradiction|]. f_equal. f_equal. f_equal. apply q2. }
  unfold baw_seed_c, baw_n, o. cbn [y_b y_r y_t y_K]. rewrite D1, D2.
  set (n := 2 * b / s ^ 2). set (m := 2 * r / s ^ 2).
  assert (Pm : 0 < m) by (apply Rdiv_lt_0_compat; [lra|apply pow_lt, Hs]).
  assert (Q : div (add (opp (sub (Fin n) (lit 1))) (sqrn (add (powi (sub (Fin n) (lit 1)) 2) (mul (lit 4) (Fin m))))) (lit 2) = Fin q).
  { xcbn. change 1%Q with (inject_Z 1). change 2%Q with (inject_Z 2). change 4%Q with (inject_Z 4). rewrite !q2.
    change (n + -1) with (n - 1). assert (0 <= (n - 1) ^ 2) by apply pow2_ge_0.
    change ((n - 1) * ((n - 1) * 1)) with ((n - 1) ^ 2). destruct (Rlt_dec _ 0); [lra|]. xcbn.
    destruct (Req_EM_T 2 0); [lra|]. f_equal. exact root_q. }
  rewrite Q. cbv zeta.
  xcbn. change 1%Q with (inject_Z 1). change 2%Q with (inject_Z 2). rewrite !q2.
  destruct (Req_EM_T q 0); [lra|]. xcbn. assert (0 < 1 + - (1 / q)).
  { replace (1 + - (1 / q)) with ((q - 1) / q) by (field; lra). apply Rdiv_lt_0_compat; lra. }
  destruct (Req_EM_T (1 + - (1 / q)) 0); [lra|]. xcbn. destruct (Rlt_dec t 0); [lra|]. xcbn.
  assert (E : K / (1 + - (1 / q)) + - K = K / (q - 1)) by (field; lra).
  rewrite E. assert (0 < K / (q - 1)) by (apply Rdiv_lt_0_compat; lra).
  destruct (Req_EM_T (K / (q - 1)) 0); [lra|]. xcbn. f_equal. unfold seedv. do 2 f_equal. unfold Rminus. do 2 f_equal. f_equal.
  field. lra.
Qed.
Lemma log_neg : logn (div (Fin seedv) (Fin K)) = NaN.
Proof.
  xcbn. destruct (Req_EM_T K 0); [lra|]. xcbn. assert (seedv / K < 0).
  { generalize seed_neg. intros. apply Ropp_lt_cancel. rewrite Ropp_0. replace (- (seedv / K)) with ((- seedv) / K) by (field; lra).
    apply Rdiv_lt_0_compat; lra. }
  destruct (Rlt_dec 0 (seedv / K)); [lra|]. destruct (Rlt_dec (seedv / K) 0); [reflexivity|contradiction].
Qed.
Lemma mulN_r (x : X) : Xmul x NaN = NaN. Proof. now destruct x. Qed.
Lemma Kc_neg fuel : baw_Kc fuel o (Fin s) = Ok (Fin seedv).
Proof.
  unfold baw_Kc. rewrite seed_x.
  assert (D : gbs_d1 (Fin seedv) (Fin K) (Fin t) (Fin b) (Fin s) = NaN).
  { unfold gbs_d1. rewrite log_neg. reflexivity. }
  assert (E : baw_rhs_c o (Fin s) (Fin seedv) = Ok NaN).
  { unfold baw_rhs_c, gbs_c, gbs_call, gbs_call_F, with_d, GBSOption, o. cbn [y_K y_t y_r y_b g_sigma g_d1 g_d2 g_S g_K g_t g_r g_b].
    rewrite D, cnd_nan. cbn [bind]. cbn [add sub mul XNum]. rewrite mulN_r. reflexivity. }
  rewrite E. cbn [bind]. destruct fuel; cbn [while_]; reflexivity.
Qed.
Lemma call_neg fuel : baw_call fuel o = Ok (Fin (S0 - K)).
Proof.
  unfold baw_call. unfold o at 1 2. cbn [y_b y_r].
  assert (Hb : b < r).
  { rewrite <- Eq. assert (P : 0 < s ^ 2) by (apply pow_lt, Hs). destruct (Rle_dec 0 b).
    - assert (0 <= b * (q - 1)) by (apply Rmult_le_pos; lra).
      assert (0 < s ^ 2 / 2 * q * (q - 1)) by (apply Rmult_lt_0_compat; [apply Rmult_lt_0_compat|]; lra). lra.
    - lra. }
  assert (G : leb (Fin r) (Fin b) = false).
  { cbn [leb XNum]. unfold Xleb. cbn [Xltb Xeqb]. rewrite (proj2 (Rltb_false _ _)) by lra. rewrite (proj2 (Reqb_false _ _)) by lra. reflexivity. }
  rewrite G.
  unfold o at 1. cbn [y_sigma need of_opt bind]. rewrite Kc_neg. cbn [bind].
  unfold o. cbn [y_S y_K]. cbn [ltb XNum Xltb]. rewrite (proj2 (Rltb_false _ _)); [reflexivity|]. generalize seed_neg. lra.
Qed.
End Neg.

(*@ C43_negative_refuted | Finding: with a strongly negative cost of carry every call is priced S - K, a negative number out of the money, whatever the iteration budget. With q > 1 the root of sigma^2/2 q (q - 1) + b q = r, it happens as soon as -(b t + 2 sigma sqrt t) (q - 1) > ln q, and so always when -b t >= 1 + 2 sigma sqrt t: the seed of the search is then negative, its logarithm is nan, and the comparison with nan ends the search at the seed. *)
Lemma baw_negative : forall (S K t r b s q : R) (fuel : nat), 0 < S -> 0 < K -> 0 < t -> 0 < s -> 0 < r ->
  1 < q -> s ^ 2 / 2 * q * (q - 1) + b * q = r ->
  ln q < - (b * t + 2 * s * sqrt t) * (q - 1) \/ 1 <= - (b * t + 2 * s * sqrt t) ->
  baw_call fuel (mkAmer (Fin S) (Fin K) (Fin t) (Fin r) (Fin b) (Some (Fin s))) = Ok (Fin (S - K)) /\
  exists c, gbs_call (GBSOption S K t r b (Some s)) = Ok c /\ 0 < c /\ (S <= K -> S - K < c).
Proof.
  intros S K t r b s q fuel HS HK Ht Hs Hr Hq Eq H. split.
  - apply (call_neg S K t r b s q); try assumption. destruct H as [H|H]; [exact H|].
    assert (L : ln q < q - 1).
    { assert (X := exp_ineq1 (ln q)). rewrite exp_ln in X by lra. assert (ln q <> 0); [|specialize (X H0); lra].
      apply Rgt_not_eq. rewrite <- ln_1. apply ln_increasing; lra. }
    assert (1 * (q - 1) <= - (b * t + 2 * s * sqrt t) * (q - 1)) by (apply Rmult_le_compat_r; lra). lra.
  - eexists. split; [apply call_link; lra|].
    assert (P : 0 < bcall cnd (S * exp ((b - r) * t)) (K * exp (- r * t)) (s * sqrt t)).
    { apply bcall_pos; [apply Rmult_lt_0_compat; [lra|apply exp_pos]|apply Rmult_lt_0_compat; [lra|apply exp_pos]|].
      apply Rmult_lt_0_compat; [lra|now apply sqrt_lt_R0]. }
    split; [exact P|]. lra.
Qed.
