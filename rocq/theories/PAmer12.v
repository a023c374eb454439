(** The American value against volatility and interest rates (C66). *)
From Coq Require Import Reals String List Arith Lra Lia Psatz.
From Coquelicot Require Import Coquelicot.
From Verif Require Import Num Py MBase MVanilla MTrees STrees SHeston SMonte SSpread2 SAmer PCnd PGauss PHeston PTrees2 PStop PTrees3 PTrees4 PTreeVol2 PConv PConv3 PConv4 PExpect PExpect2 PClt PTwoAsset PAmer1 PAmer2 PAmer3 PAmer4 PAmer6 PAmer7 PAmer10.
Import ListNotations.
Open Scope R_scope.

Lemma crr_weights2 b1 b2 s t : 0 < s -> 0 < t ->
  exists N, forall n, (N <= n)%nat -> (0 < n)%nat /\ weights_ok (Bi CRR) b1 s (t / INR n) /\ weights_ok (Bi CRR) b2 s (t / INR n).
Proof.
  intros Hs Ht. destruct (crr_weights b1 s t Hs Ht) as (N1 & H1). destruct (crr_weights b2 s t Hs Ht) as (N2 & H2).
  exists (N1 + N2)%nat. intros n Hn. specialize (H1 n ltac:(lia)). specialize (H2 n ltac:(lia)). tauto.
Qed.

(*@ C66_volatility | The American value does not decrease with the volatility, for calls and puts. *)
Lemma c66_volatility : forall S K t r b s1 s2 (call : bool) v1 v2, 0 < S -> 0 < K -> 0 < t -> 0 < s1 -> s1 <= s2 ->
  american_value (call_put call K) r b s1 t S v1 -> american_value (call_put call K) r b s2 t S v2 -> v1 <= v2.
Proof.
  intros S K t r b s1 s2 call v1 v2 HS HK Ht Hs1 Hs HA1 HA2.
  destruct (value_tree S K t r b s1 call v1 HS HK Ht Hs1 HA1) as (p1 & P1 & L1). destruct (value_tree S K t r b s2 call v2 HS HK Ht ltac:(lra) HA2) as (p2 & P2 & L2).
  refine (lim_le p1 p2 v1 v2 _ (crr_weights b s1 t Hs1 Ht) L1 L2 _). intros n [Hn HW]. assert (H0 : n <> 0%nat) by lia.
  destruct (c76_volatility (Bi CRR) S K t r b s1 s2 n true call H0 HS Ht Hs1 Hs ltac:(discriminate) HW ltac:(discriminate)) as (y1 & y2 & E1 & E2 & X).
  specialize (P1 n H0). specialize (P2 n H0). change (the_type true) with "american"%string in *. eqp P1 E1. eqp P2 E2. subst. exact X.
Qed.

(*@ C66_rates | Dependence of the American value on the rates. With the carry fixed it does not increase with the interest rate. With the interest rate fixed calls do not decrease and puts do not increase with the carry. With a fixed dividend yield q (b = r - q) calls do not decrease and puts do not increase with the interest rate. *)
Lemma c66_rates : forall S K t sigma (call : bool), 0 < S -> 0 < K -> 0 < t -> 0 < sigma ->
  (forall r1 r2 b v1 v2, r1 <= r2 -> american_value (call_put call K) r1 b sigma t S v1 -> american_value (call_put call K) r2 b sigma t S v2 -> v2 <= v1) /\
  (forall r b1 b2 v1 v2, b1 <= b2 -> american_value (call_put call K) r b1 sigma t S v1 -> american_value (call_put call K) r b2 sigma t S v2 -> if call then v1 <= v2 else v2 <= v1) /\
  (forall q r1 r2 v1 v2, r1 <= r2 -> american_value (call_put call K) r1 (r1 - q) sigma t S v1 -> american_value (call_put call K) r2 (r2 - q) sigma t S v2 -> if call then v1 <= v2 else v2 <= v1).
Proof.
  intros S K t s call HS HK Ht Hs. split; [|split].
  - intros r1 r2 b v1 v2 Hr HA1 HA2.
    destruct (value_tree S K t r1 b s call v1 HS HK Ht Hs HA1) as (p1 & P1 & L1). destruct (value_tree S K t r2 b s call v2 HS HK Ht Hs HA2) as (p2 & P2 & L2).
    refine (lim_le p2 p1 v2 v1 _ (crr_weights b s t Hs Ht) L2 L1 _). intros n [Hn HW]. assert (H0 : n <> 0%nat) by lia.
    destruct (c77_interest (Bi CRR) S K t r1 r2 b s n true call H0 HS Ht Hs Hr HW) as (y1 & y2 & E1 & E2 & X).
    specialize (P1 n H0). specialize (P2 n H0). change (the_type true) with "american"%string in *. eqp P1 E1. eqp P2 E2. subst. exact X.
  - intros r b1 b2 v1 v2 Hb HA1 HA2.
    destruct (value_tree S K t r b1 s call v1 HS HK Ht Hs HA1) as (p1 & P1 & L1). destruct (value_tree S K t r b2 s call v2 HS HK Ht Hs HA2) as (p2 & P2 & L2).
    pose proof (crr_weights2 b1 b2 s t Hs Ht) as W.
    assert (M : forall n, (0 < n)%nat /\ weights_ok (Bi CRR) b1 s (t / INR n) /\ weights_ok (Bi CRR) b2 s (t / INR n) -> if call then p1 n <= p2 n else p2 n <= p1 n).
    { intros n (Hn & W1 & W2). assert (H0 : n <> 0%nat) by lia.
      destruct (c77_carry (Bi CRR) S K t r b1 b2 s n true H0 HS Ht Hs Hb W1 W2) as (c1 & c2 & q1 & q2 & E1 & E2 & E3 & E4 & X1 & X2).
      specialize (P1 n H0). specialize (P2 n H0). change (the_type true) with "american"%string in *. destruct call; [eqp P1 E1; eqp P2 E2|eqp P1 E3; eqp P2 E4]; subst; assumption. }
    destruct call; [exact (lim_le p1 p2 v1 v2 _ W L1 L2 M)|exact (lim_le p2 p1 v2 v1 _ W L2 L1 M)].
  - intros q r1 r2 v1 v2 Hr HA1 HA2.
    destruct (value_tree S K t r1 (r1 - q) s call v1 HS HK Ht Hs HA1) as (p1 & P1 & L1). destruct (value_tree S K t r2 (r2 - q) s call v2 HS HK Ht Hs HA2) as (p2 & P2 & L2).
    pose proof (crr_weights2 (r1 - q) (r2 - q) s t Hs Ht) as W.
    assert (M : forall n, (0 < n)%nat /\ weights_ok (Bi CRR) (r1 - q) s (t / INR n) /\ weights_ok (Bi CRR) (r2 - q) s (t / INR n) -> if call then p1 n <= p2 n else p2 n <= p1 n).
    { intros n (Hn & W1 & W2). assert (H0 : n <> 0%nat) by lia.
      destruct (c77_yield (Bi CRR) S K t r1 r2 q s n true H0 HS ltac:(lra) Ht Hs Hr W1 W2) as (c1 & c2 & q1 & q2 & E1 & E2 & E3 & E4 & X1 & X2).
      specialize (P1 n H0). specialize (P2 n H0). change (the_type true) with "american"%string in *. destruct call; [eqp P1 E1; eqp P2 E2|eqp P1 E3; eqp P2 E4]; subst; assumption. }
    destruct call; [exact (lim_le p1 p2 v1 v2 _ W L1 L2 M)|exact (lim_le p2 p1 v2 v1 _ W L2 L1 M)].
Qed.
