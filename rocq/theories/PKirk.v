(** Kirk's spread approximation (C40). *)
From Coq Require Import Reals ZArith QArith Qreals List Lra Lia.
From Verif Require Import Num Py MBase MVanilla MSpread PCnd PBlack PGbs.
Open Scope R_scope.

Definition kirk_var (s1 s2 rho F : R) : R := s1 ^ 2 + (s2 * F) ^ 2 - 2 * rho * s1 * s2 * F.

Section K.
Variables (S1 S2 K t r b1 b2 s1 s2 rho Q1 Q2 : R).
Let A := Q1 * S1 * exp ((b1 - r) * t).
Let B2 := Q2 * S2 * exp ((b2 - r) * t).
Let B := B2 + K * exp (- r * t).
Let o := KirkOption S1 S2 K t r b1 b2 s1 s2 rho Q1 Q2.
Let sg := sqrt (kirk_var s1 s2 rho (B2 / B)).
Let v := sg * sqrt t.

Lemma kirk_S_eq : k_S o = A / B.
Proof. reflexivity. Qed.
Lemma kirk_sigma_eq : k_sigma o = sg.
Proof.
  unfold o, KirkOption. cbn [k_sigma]. unfold sg, kirk_var. toR. reflexivity.
Qed.

Lemma kirk_parity0 : B <> 0 -> kirk_call o - kirk_put o = A - B.
Proof.
  intro HB. unfold kirk_call, kirk_put. rewrite kirk_S_eq. cbn [k_Q2 k_S2 k_e2 k_K k_r k_t o KirkOption]. toR.
  change (Q2 * S2 * exp ((b2 - r) * t) + K * exp (- r * t)) with B.
  set (d1 := k_d1 o). set (d2 := k_d2 o). rewrite (cnd_opp d1), (cnd_opp d2). field. exact HB.
Qed.

Hypothesis HA : 0 < A.
Hypothesis HB : 0 < B.
Hypothesis Hv : sg <> 0.
Hypothesis Ht : 0 < t.
Lemma kirk_d1_eq : k_d1 o = bd1 A B v.
Proof.
  transitivity ((ln (k_S o) + 5 / 10 * k_sigma o ^ 2 * t) / (k_sigma o * sqrt t)).
  { unfold o, KirkOption. cbn [k_d1 k_S k_sigma]. toR. reflexivity. }
  rewrite kirk_S_eq, kirk_sigma_eq. unfold bd1, v. pose proof (sqrt_lt_R0 t Ht).
  assert (E : t = sqrt t * sqrt t) by (symmetry; apply sqrt_sqrt; lra).
  rewrite E at 1. field. split; lra.
Qed.
Lemma kirk_d2_eq : k_d2 o = bd2 A B v.
Proof.
  transitivity (k_d1 o - k_sigma o * sqrt t); [reflexivity|]. rewrite kirk_d1_eq, kirk_sigma_eq, bd12. reflexivity.
Qed.
Lemma kirk_call_eq : kirk_call o = bcall cnd A B v.
Proof.
  unfold kirk_call. rewrite kirk_S_eq, kirk_d1_eq, kirk_d2_eq. cbn [k_Q2 k_S2 k_e2 k_K k_r k_t o KirkOption]. toR.
  change (Q2 * S2 * exp ((b2 - r) * t) + K * exp (- r * t)) with B. unfold bcall. field. lra.
Qed.
Lemma kirk_put_eq : kirk_put o = bput cnd A B v.
Proof.
  unfold kirk_put. rewrite kirk_S_eq, kirk_d1_eq, kirk_d2_eq. cbn [k_Q2 k_S2 k_e2 k_K k_r k_t o KirkOption]. toR.
  change (Q2 * S2 * exp ((b2 - r) * t) + K * exp (- r * t)) with B. unfold bput. field. lra.
Qed.
End K.

Lemma kirk_var_nonneg s1 s2 rho F : -1 <= rho <= 1 -> 0 <= kirk_var s1 s2 rho F.
Proof.
  intro. unfold kirk_var. replace (s1 ^ 2 + (s2 * F) ^ 2 - 2 * rho * s1 * s2 * F)
    with ((s1 - rho * (s2 * F)) ^ 2 + (1 - rho ^ 2) * (s2 * F) ^ 2) by ring.
  assert (0 <= (1 - rho) * (1 + rho)) by (apply Rmult_le_pos; lra).
  apply Rplus_le_le_0_compat; [apply pow2_ge_0|]. apply Rmult_le_pos; [lra|apply pow2_ge_0].
Qed.
Lemma kirk_var_pos s1 s2 rho F : -1 < rho < 1 -> s1 <> 0 -> 0 < kirk_var s1 s2 rho F.
Proof.
  intros. unfold kirk_var. replace (s1 ^ 2 + (s2 * F) ^ 2 - 2 * rho * s1 * s2 * F)
    with ((s2 * F - rho * s1) ^ 2 + (1 - rho ^ 2) * s1 ^ 2) by ring.
  assert (0 < (1 - rho) * (1 + rho)) by (apply Rmult_lt_0_compat; lra).
  apply Rplus_le_lt_0_compat; [apply pow2_ge_0|]. apply Rmult_lt_0_compat; [lra|nra].
Qed.

(*@ C40_parity | Call minus put is Q1 S1 e^{(b1-r)t} - Q2 S2 e^{(b2-r)t} - K e^{-rt}, for all parameters with a nonzero denominator. *)
Lemma c40_parity : forall S1 S2 K t r b1 b2 s1 s2 rho Q1 Q2,
  Q2 * S2 * exp ((b2 - r) * t) + K * exp (- r * t) <> 0 ->
  let o := KirkOption S1 S2 K t r b1 b2 s1 s2 rho Q1 Q2 in
  kirk_call o - kirk_put o = Q1 * S1 * exp ((b1 - r) * t) - Q2 * S2 * exp ((b2 - r) * t) - K * exp (- r * t).
Proof. intros * H. cbv zeta. rewrite kirk_parity0 by exact H. ring. Qed.

(*@ C40_bounds | For positive spots and weights, K >= 0, |rho| < 1 and nonzero volatility of asset 1, calls and puts lie strictly between their no-arbitrage bounds. *)
Lemma c40_bounds : forall S1 S2 K t r b1 b2 s1 s2 rho Q1 Q2,
  0 < S1 -> 0 < S2 -> 0 <= K -> 0 < t -> 0 < Q1 -> 0 < Q2 -> -1 < rho < 1 -> s1 <> 0 ->
  let o := KirkOption S1 S2 K t r b1 b2 s1 s2 rho Q1 Q2 in
  let A := Q1 * S1 * exp ((b1 - r) * t) in let B := Q2 * S2 * exp ((b2 - r) * t) + K * exp (- r * t) in
  Rmax 0 (A - B) < kirk_call o < A /\ Rmax 0 (B - A) < kirk_put o < B.
Proof.
  intros * H1 H2 HK Ht HQ1 HQ2 Hr Hs. cbv zeta.
  set (A := Q1 * S1 * exp ((b1 - r) * t)). set (B := Q2 * S2 * exp ((b2 - r) * t) + K * exp (- r * t)).
  assert (HA : 0 < A). { unfold A. repeat apply Rmult_lt_0_compat; auto using exp_pos. }
  assert (HB : 0 < B). { unfold B. pose proof (exp_pos (- r * t)).
    assert (0 < Q2 * S2 * exp ((b2 - r) * t)) by (repeat apply Rmult_lt_0_compat; auto using exp_pos). nra. }
  pose proof (kirk_var_pos s1 s2 rho (Q2 * S2 * exp ((b2 - r) * t) / B) Hr Hs) as Hv.
  apply sqrt_lt_R0 in Hv. pose proof (sqrt_lt_R0 t Ht).
  rewrite kirk_call_eq, kirk_put_eq by (auto; unfold B in *; lra).
  fold A B. set (v := _ * sqrt t). assert (0 < v) by (apply Rmult_lt_0_compat; auto).
  repeat split; try apply Rmax_lub_lt; auto using bcall_pos, bcall_lb, bcall_ub, bput_pos, bput_lb, bput_ub.
Qed.

(*@ C40_variance | The quantity under the square root is never negative when |rho| <= 1, whatever the strike, spots and weights: the volatility is a genuine square root. *)
Lemma c40_variance : forall S1 S2 K t r b1 b2 s1 s2 rho Q1 Q2, -1 <= rho <= 1 ->
  let o := KirkOption S1 S2 K t r b1 b2 s1 s2 rho Q1 Q2 in
  let F := Q2 * S2 * exp ((b2 - r) * t) / (Q2 * S2 * exp ((b2 - r) * t) + K * exp (- r * t)) in
  k_sigma o ^ 2 = s1 ^ 2 + (s2 * F) ^ 2 - 2 * rho * s1 * s2 * F.
Proof.
  intros * Hr. cbv zeta. rewrite kirk_sigma_eq. rewrite pow2_sqrt by (now apply kirk_var_nonneg). reflexivity.
Qed.

(*@ C40_margrabe | With strike 0 the price is Margrabe's exchange price, i.e. exactly what GBSOption returns with underlying Q1 S1, strike Q2 S2, rate r-b2, carry b1-b2 and volatility sqrt(s1^2+s2^2-2 rho s1 s2). *)
Lemma c40_margrabe : forall S1 S2 t r b1 b2 s1 s2 rho Q1 Q2,
  0 < S1 -> 0 < S2 -> 0 < t -> 0 < Q1 -> 0 < Q2 -> 0 < s1 ^ 2 + s2 ^ 2 - 2 * rho * s1 * s2 ->
  let o := KirkOption S1 S2 0 t r b1 b2 s1 s2 rho Q1 Q2 in
  let g := GBSOption (Q1 * S1) (Q2 * S2) t (r - b2) (b1 - b2) (Some (sqrt (s1 ^ 2 + s2 ^ 2 - 2 * rho * s1 * s2))) in
  gbs_call g = Ok (kirk_call o) /\ gbs_put g = Ok (kirk_put o).
Proof.
  intros * H1 H2 Ht HQ1 HQ2 Hv. cbv zeta.
  assert (P : 0 < Q2 * S2 * exp ((b2 - r) * t)) by (repeat apply Rmult_lt_0_compat; auto using exp_pos).
  assert (PA : 0 < Q1 * S1 * exp ((b1 - r) * t)) by (repeat apply Rmult_lt_0_compat; auto using exp_pos).
  assert (EF : kirk_var s1 s2 rho (Q2 * S2 * exp ((b2 - r) * t) / (Q2 * S2 * exp ((b2 - r) * t) + 0 * exp (- r * t)))
    = s1 ^ 2 + s2 ^ 2 - 2 * rho * s1 * s2).
  { unfold kirk_var. rewrite Rmult_0_l, Rplus_0_r. unfold Rdiv. rewrite Rinv_r by lra. ring. }
  pose proof (sqrt_lt_R0 _ Hv) as Hs.
  rewrite kirk_call_eq, kirk_put_eq by (rewrite ?EF; lra). rewrite EF.
  unfold gbs_call, gbs_put. rewrite call_link, put_link by (try apply Rmult_lt_0_compat; lra).
  assert (EA : Q1 * S1 * exp ((b1 - b2 - (r - b2)) * t) = Q1 * S1 * exp ((b1 - r) * t)) by (do 2 f_equal; ring).
  assert (EB : Q2 * S2 * exp (- (r - b2) * t) = Q2 * S2 * exp ((b2 - r) * t) + 0 * exp (- r * t)).
  { rewrite Rmult_0_l, Rplus_0_r. do 2 f_equal. ring. }
  rewrite EA, EB. auto.
Qed.

(*@ C40_single_asset | With Q2 = 0 (or S2 = 0) the price is the plain GBSOption price on Q1 S1 with volatility sigma1. *)
Lemma c40_single : forall S1 S2 K t r b1 b2 s1 s2 rho Q1 Q2,
  0 < S1 -> 0 < K -> 0 < t -> 0 < Q1 -> 0 < s1 -> Q2 * S2 = 0 ->
  let o := KirkOption S1 S2 K t r b1 b2 s1 s2 rho Q1 Q2 in
  let g := GBSOption (Q1 * S1) K t r b1 (Some s1) in
  gbs_call g = Ok (kirk_call o) /\ gbs_put g = Ok (kirk_put o).
Proof.
  intros * H1 HK Ht HQ1 Hs HQ. cbv zeta.
  assert (P : 0 < K * exp (- r * t)) by (repeat apply Rmult_lt_0_compat; auto using exp_pos).
  assert (PA : 0 < Q1 * S1 * exp ((b1 - r) * t)) by (repeat apply Rmult_lt_0_compat; auto using exp_pos).
  assert (E0 : Q2 * S2 * exp ((b2 - r) * t) = 0) by (rewrite HQ; ring).
  assert (EF : sqrt (kirk_var s1 s2 rho (Q2 * S2 * exp ((b2 - r) * t) / (Q2 * S2 * exp ((b2 - r) * t) + K * exp (- r * t)))) = s1).
  { unfold kirk_var. rewrite E0. unfold Rdiv. rewrite Rmult_0_l.
    replace (_ - _) with (s1 ^ 2) by ring. apply sqrt_pow2. lra. }
  rewrite kirk_call_eq, kirk_put_eq by (rewrite ?EF, ?E0; lra). rewrite EF, E0, Rplus_0_l.
  unfold gbs_call, gbs_put. rewrite call_link, put_link by (try apply Rmult_lt_0_compat; lra). auto.
Qed.

(*@ C40_exchange_symmetry | With strike 0, the call on asset 1 against asset 2 is the put on asset 2 against asset 1. *)
Lemma c40_exchange : forall S1 S2 t r b1 b2 s1 s2 rho Q1 Q2,
  0 < S1 -> 0 < S2 -> 0 < t -> 0 < Q1 -> 0 < Q2 -> 0 < s1 ^ 2 + s2 ^ 2 - 2 * rho * s1 * s2 ->
  kirk_call (KirkOption S1 S2 0 t r b1 b2 s1 s2 rho Q1 Q2) = kirk_put (KirkOption S2 S1 0 t r b2 b1 s2 s1 rho Q2 Q1).
Proof.
  intros * H1 H2 Ht HQ1 HQ2 Hv.
  assert (P : 0 < Q2 * S2 * exp ((b2 - r) * t)) by (repeat apply Rmult_lt_0_compat; auto using exp_pos).
  assert (PA : 0 < Q1 * S1 * exp ((b1 - r) * t)) by (repeat apply Rmult_lt_0_compat; auto using exp_pos).
  assert (EF : forall X, 0 < X -> X / (X + 0 * exp (- r * t)) = 1) by (intros; field; lra).
  pose proof (sqrt_lt_R0 _ Hv) as Hs.
  assert (E1 : kirk_var s1 s2 rho 1 = s1 ^ 2 + s2 ^ 2 - 2 * rho * s1 * s2) by (unfold kirk_var; ring).
  assert (E2 : kirk_var s2 s1 rho 1 = s1 ^ 2 + s2 ^ 2 - 2 * rho * s1 * s2) by (unfold kirk_var; ring).
  rewrite kirk_call_eq, kirk_put_eq by (rewrite ?EF, ?E1, ?E2 by lra; lra).
  rewrite !EF, E1, E2 by lra. rewrite Rmult_0_l, !Rplus_0_r. apply bcall_dual; lra.
Qed.

(*@ C40_homogeneous | Scaling both spots and the strike by c > 0 scales call and put by c. *)
Lemma c40_homog : forall S1 S2 K t r b1 b2 s1 s2 rho Q1 Q2 c,
  0 < S1 -> 0 < S2 -> 0 <= K -> 0 < t -> 0 < Q1 -> 0 < Q2 -> -1 < rho < 1 -> s1 <> 0 -> 0 < c ->
  let o := KirkOption S1 S2 K t r b1 b2 s1 s2 rho Q1 Q2 in
  let o' := KirkOption (c * S1) (c * S2) (c * K) t r b1 b2 s1 s2 rho Q1 Q2 in
  kirk_call o' = c * kirk_call o /\ kirk_put o' = c * kirk_put o.
Proof.
  intros * H1 H2 HK Ht HQ1 HQ2 Hr Hs Hc. cbv zeta.
  set (A := Q1 * S1 * exp ((b1 - r) * t)). set (B2 := Q2 * S2 * exp ((b2 - r) * t)). set (B := B2 + K * exp (- r * t)).
  assert (HA : 0 < A). { unfold A. repeat apply Rmult_lt_0_compat; auto using exp_pos. }
  assert (HB2 : 0 < B2) by (unfold B2; repeat apply Rmult_lt_0_compat; auto using exp_pos).
  assert (HB : 0 < B). { unfold B. pose proof (exp_pos (- r * t)). nra. }
  assert (EA : Q1 * (c * S1) * exp ((b1 - r) * t) = c * A) by (unfold A; ring).
  assert (EB2 : Q2 * (c * S2) * exp ((b2 - r) * t) = c * B2) by (unfold B2; ring).
  assert (EB : c * B2 + c * K * exp (- r * t) = c * B) by (unfold B; ring).
  pose proof (kirk_var_pos s1 s2 rho (B2 / B) Hr Hs) as Hv.
  apply sqrt_lt_R0 in Hv.
  assert (EF : c * B2 / (c * B) = B2 / B) by (field; lra).
  rewrite !kirk_call_eq, !kirk_put_eq; rewrite ?EA, ?EB2, ?EB, ?EF; fold A B2 B; try nra.
  rewrite bcall_scale, bput_scale by auto. auto.
Qed.
