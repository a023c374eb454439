(** Kirk's approximation against correlation and volatilities (C78). *)
From Coq Require Import Reals ZArith QArith Qreals List Lra Lia.
From Verif Require Import Num Py MBase MVanilla MSpread PCnd PBlack PGbs PKirk.
Open Scope R_scope.

Lemma kirk_order S1 S2 K t r b1 b2 Q1 Q2 s1 s2 rho s1' s2' rho' :
  let B2 := Q2 * S2 * exp ((b2 - r) * t) in let F := B2 / (B2 + K * exp (- r * t)) in
  0 < Q1 * S1 * exp ((b1 - r) * t) -> 0 < B2 + K * exp (- r * t) -> 0 < t ->
  0 < kirk_var s1 s2 rho F -> kirk_var s1 s2 rho F < kirk_var s1' s2' rho' F ->
  let o := KirkOption S1 S2 K t r b1 b2 s1 s2 rho Q1 Q2 in
  let o' := KirkOption S1 S2 K t r b1 b2 s1' s2' rho' Q1 Q2 in
  kirk_call o < kirk_call o' /\ kirk_put o < kirk_put o'.
Proof.
  cbv zeta. intros HA HB Ht Hv Hvv.
  pose proof (sqrt_lt_R0 _ Hv) as Hs. pose proof (sqrt_lt_1_alt _ _ (conj (Rlt_le _ _ Hv) Hvv)) as Hss. pose proof (sqrt_lt_R0 t Ht) as Hq.
  rewrite !kirk_call_eq, !kirk_put_eq by lra.
  split; [apply bcall_incr_v|apply bput_incr_v]; auto; try (now apply Rmult_lt_0_compat); now apply Rmult_lt_compat_r.
Qed.

Lemma kirk_setting S1 S2 K t r b1 b2 Q1 Q2 : 0 < S1 -> 0 < S2 -> 0 <= K -> 0 < Q1 -> 0 < Q2 ->
  0 < Q1 * S1 * exp ((b1 - r) * t) /\ 0 < Q2 * S2 * exp ((b2 - r) * t) /\ 0 < Q2 * S2 * exp ((b2 - r) * t) + K * exp (- r * t) /\
  0 < Q2 * S2 * exp ((b2 - r) * t) / (Q2 * S2 * exp ((b2 - r) * t) + K * exp (- r * t)) <= 1.
Proof.
  intros H1 H2 HK HQ1 HQ2.
  assert (A : 0 < Q1 * S1 * exp ((b1 - r) * t)) by (repeat apply Rmult_lt_0_compat; auto using exp_pos).
  assert (B2 : 0 < Q2 * S2 * exp ((b2 - r) * t)) by (repeat apply Rmult_lt_0_compat; auto using exp_pos).
  assert (X : 0 <= K * exp (- r * t)) by (apply Rmult_le_pos; [auto|left; apply exp_pos]).
  assert (B : 0 < Q2 * S2 * exp ((b2 - r) * t) + K * exp (- r * t)) by lra.
  repeat split; auto.
  - now apply Rdiv_lt_0_compat.
  - apply Rmult_le_reg_r with (Q2 * S2 * exp ((b2 - r) * t) + K * exp (- r * t)); auto.
    unfold Rdiv. rewrite Rmult_assoc, Rinv_l by lra. lra.
Qed.

(*@ C78_correlation | Kirk's call and put both fall strictly when the correlation of the two assets rises (positive volatilities); hence a market price determines the correlation. *)
Lemma c78_correlation : forall S1 S2 K t r b1 b2 s1 s2 rho rho' Q1 Q2,
  0 < S1 -> 0 < S2 -> 0 <= K -> 0 < t -> 0 < Q1 -> 0 < Q2 -> 0 < s1 -> 0 < s2 -> -1 <= rho -> rho < rho' -> rho' < 1 ->
  let o := KirkOption S1 S2 K t r b1 b2 s1 s2 rho Q1 Q2 in
  let o' := KirkOption S1 S2 K t r b1 b2 s1 s2 rho' Q1 Q2 in
  kirk_call o' < kirk_call o /\ kirk_put o' < kirk_put o.
Proof.
  intros S1 S2 K t r b1 b2 s1 s2 rho rho' Q1 Q2 H1 H2 HK Ht HQ1 HQ2 Hs1 Hs2 Hr Hrr Hr'. cbv zeta.
  destruct (kirk_setting S1 S2 K t r b1 b2 Q1 Q2 H1 H2 HK HQ1 HQ2) as (A & B2 & B & F).
  apply kirk_order; auto.
  - apply kirk_var_pos; lra.
  - unfold kirk_var. set (f := _ / _) in *. assert (0 < s1 * s2 * f) by (apply Rmult_lt_0_compat; [apply Rmult_lt_0_compat|]; lra).
    assert (0 < (rho' - rho) * (s1 * s2 * f)) by (apply Rmult_lt_0_compat; lra). lra.
Qed.

(*@ C78_volatility | Let F be the share of asset 2 in the discounted exercise amount. Raising the volatility of asset 1 raises call and put when it is at least rho s2 F, and lowers both as long as it stays below that; likewise for asset 2 with s2 F against rho s1. In particular, with a correlation that is not positive both volatilities always raise the price. *)
Lemma c78_volatility : forall S1 S2 K t r b1 b2 s1 s2 rho Q1 Q2,
  0 < S1 -> 0 < S2 -> 0 <= K -> 0 < t -> 0 < Q1 -> 0 < Q2 -> 0 < s1 -> 0 < s2 -> -1 < rho < 1 ->
  let F := Q2 * S2 * exp ((b2 - r) * t) / (Q2 * S2 * exp ((b2 - r) * t) + K * exp (- r * t)) in
  let call s1 s2 := kirk_call (KirkOption S1 S2 K t r b1 b2 s1 s2 rho Q1 Q2) in
  let put s1 s2 := kirk_put (KirkOption S1 S2 K t r b1 b2 s1 s2 rho Q1 Q2) in
  (forall s, s1 < s -> rho * s2 * F <= s1 -> call s1 s2 < call s s2 /\ put s1 s2 < put s s2) /\
  (forall s, s1 < s -> s <= rho * s2 * F -> call s s2 < call s1 s2 /\ put s s2 < put s1 s2) /\
  (forall s, s2 < s -> rho * s1 <= s2 * F -> call s1 s2 < call s1 s /\ put s1 s2 < put s1 s) /\
  (forall s, s2 < s -> s * F <= rho * s1 -> call s1 s < call s1 s2 /\ put s1 s < put s1 s2).
Proof.
  intros S1 S2 K t r b1 b2 s1 s2 rho Q1 Q2 H1 H2 HK Ht HQ1 HQ2 Hs1 Hs2 Hr. cbv zeta.
  destruct (kirk_setting S1 S2 K t r b1 b2 Q1 Q2 H1 H2 HK HQ1 HQ2) as (A & B2 & B & F).
  assert (P : forall s s', s <> 0 -> 0 < kirk_var s s' rho (Q2 * S2 * exp ((b2 - r) * t) / (Q2 * S2 * exp ((b2 - r) * t) + K * exp (- r * t)))).
  { intros. now apply kirk_var_pos. }
  assert (X1 : forall s f, s1 < s -> kirk_var s s2 rho f - kirk_var s1 s2 rho f = (s - s1) * ((s - rho * s2 * f) + (s1 - rho * s2 * f))) by (intros; unfold kirk_var; ring).
  assert (X2 : forall s f, s2 < s -> kirk_var s1 s rho f - kirk_var s1 s2 rho f = (s - s2) * f * ((s * f - rho * s1) + (s2 * f - rho * s1))) by (intros; unfold kirk_var; ring).
  set (f := Q2 * S2 * exp ((b2 - r) * t) / (Q2 * S2 * exp ((b2 - r) * t) + K * exp (- r * t))) in *.
  assert (D1 : forall s, s1 < s -> rho * s2 * f <= s1 -> kirk_var s1 s2 rho f < kirk_var s s2 rho f).
  { intros s Hs H. assert (0 < (s - s1) * ((s - rho * s2 * f) + (s1 - rho * s2 * f))) by (apply Rmult_lt_0_compat; lra). specialize (X1 s f Hs). lra. }
  assert (D2 : forall s, s1 < s -> s <= rho * s2 * f -> kirk_var s s2 rho f < kirk_var s1 s2 rho f).
  { intros s Hs H. assert (0 < (s - s1) * ((rho * s2 * f - s) + (rho * s2 * f - s1))) by (apply Rmult_lt_0_compat; lra). specialize (X1 s f Hs). lra. }
  assert (D3 : forall s, s2 < s -> rho * s1 <= s2 * f -> kirk_var s1 s2 rho f < kirk_var s1 s rho f).
  { intros s Hs H. assert (s2 * f < s * f) by (apply Rmult_lt_compat_r; lra).
    assert (0 < (s - s2) * f * ((s * f - rho * s1) + (s2 * f - rho * s1))) by (apply Rmult_lt_0_compat; [apply Rmult_lt_0_compat|]; lra). specialize (X2 s f Hs). lra. }
  assert (D4 : forall s, s2 < s -> s * f <= rho * s1 -> kirk_var s1 s rho f < kirk_var s1 s2 rho f).
  { intros s Hs H. assert (s2 * f < s * f) by (apply Rmult_lt_compat_r; lra).
    assert (0 < (s - s2) * f * ((rho * s1 - s * f) + (rho * s1 - s2 * f))) by (apply Rmult_lt_0_compat; [apply Rmult_lt_0_compat|]; lra). specialize (X2 s f Hs). lra. }
  split; [|split; [|split]]; intros s Hs H; (apply kirk_order; [assumption|assumption|assumption|apply P; lra|]); auto.
Qed.
