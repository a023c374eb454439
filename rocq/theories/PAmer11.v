(** The American approximations against the American value (C67). *)
From Coq Require Import QArith Reals String List Arith Lra Lia Psatz.
From Coquelicot Require Import Coquelicot.
From Verif Require Import Num Py MBase MVanilla MTrees MAmerican STrees SHeston SMonte SSpread2 SAmer PCnd PCnd2 PBlack PGbs PGbs2 PVanilla PGauss PBaw PBs PAmer6 PAmer7.
Import ListNotations.
Open Scope R_scope.

(*@ C67_carry | When carry covers a nonnegative interest rate (b >= r >= 0), the Barone-Adesi-Whaley and the Bjerksund-Stensland call both equal the American value, up to the accuracy 7.5e-8 of the normal distribution function of the library times the discounted forward and strike. *)
Lemma c67_carry : forall (S K t r b sigma : R) fuel v, 0 < S -> 0 < K -> 0 < t -> 0 < sigma -> 0 <= r -> r <= b ->
  american_value (call_put true K) r b sigma t S v ->
  exists c, baw_call fuel (mkAmer S K t r b (Some sigma)) = Ok c /\ bs_call (mkAmer S K t r b (Some sigma)) = Ok (c, None) /\
    Rabs (c - v) <= (S * exp ((b - r) * t) + K * exp (- r * t)) * (75 / 10 ^ 9).
Proof.
  intros S K t r b s fuel v HS HK Ht Hs Hr Hb HA. destruct (c63_no_early_call (Bi CRR) S K t r b s HS HK Ht Hs Hr Hb) as (w & _ & E & HA' & _). rewrite (american_unique _ _ _ _ _ _ _ _ HS HA HA').
  destruct (gbs_price_accuracy S K t r b s true HS HK Ht ltac:(lra)) as (c & x & E1 & E2 & X). cbn iota in E1, E2. rewrite E in E2. injection E2 as <-.
  assert (L : @leb R RNum r b = true) by (toR; now apply Rleb_true). exists c. split; [|split; [|exact X]].
  - rewrite (baw_carry_call R RNum fuel S K t r b (Some s) L). exact E1.
  - exact (bs_carry_call R RNum S K t r b (Some s) c L E1).
Qed.

(*@ C67_put | When r <= 0 and b <= r, the Bjerksund-Stensland put equals the American value up to the accuracy of the normal distribution function. *)
Lemma c67_put : forall (S K t r b sigma : R) v, 0 < S -> 0 < K -> 0 < t -> 0 < sigma -> r <= 0 -> b <= r ->
  american_value (call_put false K) r b sigma t S v ->
  exists p, bs_put (mkAmer S K t r b (Some sigma)) = Ok (p, None) /\
    Rabs (p - v) <= (S * exp ((b - r) * t) + K * exp (- r * t)) * (75 / 10 ^ 9).
Proof.
  intros S K t r b s v HS HK Ht Hs Hr Hb HA. destruct (c63_no_early_put (Bi CRR) S K t r b s HS HK Ht Hs Hr Hb) as (w & _ & E & HA' & _). rewrite (american_unique _ _ _ _ _ _ _ _ HS HA HA').
  destruct (gbs_price_accuracy S K t r b s false HS HK Ht ltac:(lra)) as (c & x & E1 & E2 & X). cbn iota in E1, E2. rewrite E in E2. injection E2 as <-.
  destruct (bs_put_nonpos S K t r b s HS HK Ht Hs Hr) as (p & P1 & P2). rewrite E1 in P1. injection P1 as <-. exists c. auto.
Qed.

(*@ C67_negative_rate_refuted | Finding: with a negative interest rate and b = r both approximations return the European call, although early exercise then pays: for every strike, maturity and volatility, all high enough spots get an American call below the payoff of immediate exercise, hence below the American value. *)
Lemma c67_negative : forall K t r sigma : R, 0 < K -> 0 < t -> 0 < sigma -> r < 0 ->
  exists S0, 0 < S0 /\ forall S fuel v, S0 <= S -> american_value (call_put true K) r r sigma t S v ->
    exists c, baw_call fuel (mkAmer S K t r r (Some sigma)) = Ok c /\ bs_call (mkAmer S K t r r (Some sigma)) = Ok (c, None) /\ c < S - K /\ S - K <= v.
Proof.
  intros K t r s HK Ht Hs Hr. assert (HB : 0 < K * exp (- r * t)) by now apply strk_pos. set (B := K * exp (- r * t)) in *.
  assert (HBK : K < B) by (unfold B; rewrite <- (Rmult_1_r K) at 1; apply Rmult_lt_compat_l; [lra|]; rewrite <- exp_0; apply exp_increasing; nra).
  destruct (cnd_lim_neg ((B - K) / B) ltac:(apply Rdiv_lt_0_compat; lra)) as (M & _ & HM). assert (HV : 0 < s * sqrt t) by now apply v_pos. set (w := s * sqrt t) in *.
  exists (B * exp ((- M + w) * w)). split; [apply Rmult_lt_0_compat; [lra|apply exp_pos]|].
  intros S fuel v HS HA. assert (P0 : 0 < B * exp ((- M + w) * w)) by (apply Rmult_lt_0_compat; [lra|apply exp_pos]). assert (HS' : 0 < S) by lra.
  assert (L : @leb R RNum r r = true) by (toR; apply Rleb_true; lra).
  assert (E1 : gbs_call (GBSOption S K t r r (Some s)) = Ok (bcall cnd (S * exp ((r - r) * t)) B w)) by (apply call_link; lra).
  exists (bcall cnd (S * exp ((r - r) * t)) B w). split; [rewrite (baw_carry_call R RNum fuel S K t r r (Some s) L); exact E1|]. split; [exact (bs_carry_call R RNum S K t r r (Some s) _ L E1)|].
  replace (S * exp ((r - r) * t)) with S by (replace ((r - r) * t) with 0 by ring; rewrite exp_0; ring). split.
  - pose proof (b_parity cnd S B w cnd_sym) as PR. assert (PU : bput cnd S B w < B - K).
    { unfold bput. assert (X : cnd (- bd2 S B w) < (B - K) / B).
      { apply HM. unfold bd2. assert (X : (- M + w) * w <= ln (S / B)).
        { rewrite <- (ln_exp ((- M + w) * w)). apply ln_le; [apply exp_pos|]. apply (Rmult_le_reg_l B); [lra|]. replace (B * (S / B)) with S by (field; lra). exact HS. }
        assert (Y : - M + w <= ln (S / B) / w) by (apply (Rmult_le_reg_r w); [exact HV|]; replace (ln (S / B) / w * w) with (ln (S / B)) by (field; lra); exact X). lra. }
      pose proof (cnd_range (- bd1 S B w)). apply (Rmult_lt_compat_l B) in X; [|lra]. replace (B * ((B - K) / B)) with (B - K) in X by (field; lra). nra. }
    lra.
  - pose proof (proj1 (c63_bounds S K t r r s true v HS' HA)) as X. cbn [call_put] in X. unfold call_put in X. pose proof (Rmax_l (S - K) 0). lra.
Qed.

(*@ C67_put_refuted | Finding: with a zero interest rate and a positive cost of carry the Bjerksund-Stensland put is the European put: for every strike, maturity and volatility, all low enough spots get an American put below the payoff of immediate exercise, hence below the American value. *)
Lemma c67_put_refuted : forall K t b sigma : R, 0 < K -> 0 < t -> 0 < sigma -> 0 < b ->
  exists S0, 0 < S0 /\ forall S v, 0 < S <= S0 -> american_value (call_put false K) 0 b sigma t S v ->
    exists p, bs_put (mkAmer S K t 0 b (Some sigma)) = Ok (p, None) /\ p < K - S /\ K - S <= v.
Proof.
  intros K t b s HK Ht Hs Hb. set (e := exp ((b - 0) * t)). assert (He : 1 < e) by (unfold e; rewrite <- exp_0; apply exp_increasing; nra).
  destruct (cnd_lim_neg ((e - 1) / e) ltac:(apply Rdiv_lt_0_compat; lra)) as (M & _ & HM). assert (HV : 0 < s * sqrt t) by now apply v_pos. set (w := s * sqrt t) in *.
  exists (K / e * exp ((M - w) * w)). assert (P0 : 0 < K / e * exp ((M - w) * w)) by (apply Rmult_lt_0_compat; [apply Rdiv_lt_0_compat; lra|apply exp_pos]). split; [exact P0|].
  intros S v [HS HS0] HA. destruct (bs_put_nonpos S K t 0 b s HS HK Ht Hs ltac:(lra)) as (p & P1 & P2). exists p. split; [exact P2|].
  assert (E : gbs_put (GBSOption S K t 0 b (Some s)) = Ok (bput cnd (S * e) (K * exp (- 0 * t)) w)) by (apply put_link; lra). rewrite E in P1. injection P1 as <-.
  replace (K * exp (- 0 * t)) with K by (replace (- 0 * t) with 0 by ring; rewrite exp_0; ring). split.
  - pose proof (b_parity cnd (S * e) K w cnd_sym) as PR. assert (PU : bcall cnd (S * e) K w < S * e - S).
    { unfold bcall. assert (X : cnd (bd1 (S * e) K w) < (e - 1) / e).
      { apply HM. unfold bd1. assert (HSe : 0 < S * e / K) by (apply Rdiv_lt_0_compat; nra). assert (X : ln (S * e / K) <= (M - w) * w).
        { rewrite <- (ln_exp ((M - w) * w)). apply ln_le; [exact HSe|]. apply (Rmult_le_reg_l (K / e)); [apply Rdiv_lt_0_compat; lra|]. replace (K / e * (S * e / K)) with S by (field; lra). exact HS0. }
        assert (Y : ln (S * e / K) / w <= M - w) by (apply (Rmult_le_reg_r w); [exact HV|]; replace (ln (S * e / K) / w * w) with (ln (S * e / K)) by (field; lra); exact X). lra. }
      pose proof (cnd_range (bd2 (S * e) K w)). apply (Rmult_lt_compat_l (S * e)) in X; [|nra]. replace (S * e * ((e - 1) / e)) with (S * e - S) in X by (field; lra). nra. }
    lra.
  - pose proof (proj1 (c63_bounds S K t 0 b s false v HS HA)) as X. unfold call_put in X. pose proof (Rmax_l (K - S) 0). lra.
Qed.
