(** Black-Scholes prices against interest rate, carry and maturity (C79). *)
From Coq Require Import Reals QArith String List Arith Lra Lia Psatz.
From Coquelicot Require Import Coquelicot.
From Verif Require Import Num Py MBase MVanilla MTrees STrees SHeston SMonte SSpread2 SAmer PCnd PCnd2 PBlack PGbs PGbs2 PVanilla PGauss PHeston PTrees2 PStop PTrees3 PTrees4 PTreeVol2 PConv PConv3 PConv4 PExpect PExpect2 PClt PTwoAsset PAmer1 PAmer2 PAmer3 PAmer4 PAmer6 PAmer7 PAmer10 PAmer12.
Import List ListNotations.
Open Scope R_scope.

(*@ C79_interest | With the cost of carry fixed, raising the interest rate multiplies the price by the additional discount factor: exactly, for calls and puts. *)
Lemma c79_interest : forall S K t r1 r2 b sigma (call : bool), 0 < S -> 0 < K -> 0 < t -> 0 < sigma ->
  exists v, (if call then gbs_call else gbs_put) (GBSOption S K t r1 b (Some sigma)) = Ok v /\
    (if call then gbs_call else gbs_put) (GBSOption S K t r2 b (Some sigma)) = Ok (exp (- (r2 - r1) * t) * v).
Proof.
  intros S K t r1 r2 b s call HS HK Ht Hs. pose proof (exp_pos (- (r2 - r1) * t)) as HE.
  assert (EA : S * exp ((b - r2) * t) = exp (- (r2 - r1) * t) * (S * exp ((b - r1) * t))).
  { rewrite <- Rmult_assoc, (Rmult_comm _ S), Rmult_assoc, <- exp_plus. do 2 f_equal. ring. }
  assert (EB : K * exp (- r2 * t) = exp (- (r2 - r1) * t) * (K * exp (- r1 * t))).
  { rewrite <- Rmult_assoc, (Rmult_comm _ K), Rmult_assoc, <- exp_plus. do 2 f_equal. ring. }
  pose proof (Rmult_lt_0_compat _ _ HS (exp_pos ((b - r1) * t))) as HA. pose proof (Rmult_lt_0_compat _ _ HK (exp_pos (- r1 * t))) as HB.
  destruct call; eexists; split.
  - apply (call_link S K t r1 b s HS HK Ht cnd ltac:(lra)).
  - transitivity (Ok (bcall cnd (S * exp ((b - r2) * t)) (K * exp (- r2 * t)) (s * sqrt t))); [apply (call_link S K t r2 b s HS HK Ht cnd ltac:(lra))|].
    rewrite EA, EB, bcall_scale by auto. reflexivity.
  - apply (put_link S K t r1 b s HS HK Ht cnd ltac:(lra)).
  - transitivity (Ok (bput cnd (S * exp ((b - r2) * t)) (K * exp (- r2 * t)) (s * sqrt t))); [apply (put_link S K t r2 b s HS HK Ht cnd ltac:(lra))|].
    rewrite EA, EB, bput_scale by auto. reflexivity.
Qed.

(** the exact Black-Scholes values are limits of tree prices *)
Lemma exact_le S K t r1 r2 b1 b2 s (call : bool) v1 v2 : 0 < S -> 0 < K -> 0 < t -> 0 < s ->
  (if call then gbs_call_F Phi else gbs_put_F Phi) (GBSOption S K t r1 b1 (Some s)) = Ok v1 ->
  (if call then gbs_call_F Phi else gbs_put_F Phi) (GBSOption S K t r2 b2 (Some s)) = Ok v2 ->
  (forall n x1 x2, n <> 0%nat -> weights_ok (Bi CRR) b1 s (t / INR n) -> weights_ok (Bi CRR) b2 s (t / INR n) ->
     tree_price (Bi CRR) (mkTree S K t r1 b1 s "european" n) call false = Ok (Price x1) ->
     tree_price (Bi CRR) (mkTree S K t r2 b2 s "european" n) call false = Ok (Price x2) -> x1 <= x2) -> v1 <= v2.
Proof.
  intros HS HK Ht Hs E1 E2 H.
  destruct (tree_converges (Bi CRR) S K t r1 b1 s call HS HK Ht Hs) as (w1 & p1 & F1 & P1 & L1). rewrite E1 in F1. injection F1 as <-.
  destruct (tree_converges (Bi CRR) S K t r2 b2 s call HS HK Ht Hs) as (w2 & p2 & F2 & P2 & L2). rewrite E2 in F2. injection F2 as <-.
  refine (lim_le p1 p2 v1 v2 _ (crr_weights2 b1 b2 s t Hs Ht) L1 L2 _). intros n (Hn & W1 & W2). assert (H0 : n <> 0%nat) by lia.
  exact (H n _ _ H0 W1 W2 (P1 n H0) (P2 n H0)).
Qed.

(*@ C79_carry | With the interest rate fixed, the call does not fall and the put does not rise with the cost of carry, up to the error 7.5e-8 of the distribution function times forward and strike values of both options; with the exact distribution function without any slack. *)
Lemma c79_carry : forall S K t r b1 b2 sigma (call : bool), 0 < S -> 0 < K -> 0 < t -> 0 < sigma -> b1 <= b2 ->
  exists v1 v2 x1 x2,
    (if call then gbs_call else gbs_put) (GBSOption S K t r b1 (Some sigma)) = Ok v1 /\
    (if call then gbs_call else gbs_put) (GBSOption S K t r b2 (Some sigma)) = Ok v2 /\
    (if call then gbs_call_F Phi else gbs_put_F Phi) (GBSOption S K t r b1 (Some sigma)) = Ok x1 /\
    (if call then gbs_call_F Phi else gbs_put_F Phi) (GBSOption S K t r b2 (Some sigma)) = Ok x2 /\
    (let lo := if call then x1 else x2 in let hi := if call then x2 else x1 in lo <= hi) /\
    (let lo := if call then v1 else v2 in let hi := if call then v2 else v1 in
     lo <= hi + (S * exp ((b1 - r) * t) + S * exp ((b2 - r) * t) + 2 * K * exp (- r * t)) * (75 / 10 ^ 9)).
Proof.
  intros S K t r b1 b2 s call HS HK Ht Hs Hb.
  destruct (gbs_price_accuracy S K t r b1 s call HS HK Ht ltac:(lra)) as (v1 & x1 & E1 & F1 & X1).
  destruct (gbs_price_accuracy S K t r b2 s call HS HK Ht ltac:(lra)) as (v2 & x2 & E2 & F2 & X2).
  exists v1, v2, x1, x2. do 4 (split; [assumption|]). cbv zeta.
  assert (H : if call then x1 <= x2 else x2 <= x1).
  { destruct call.
    - apply (exact_le S K t r r b1 b2 s true x1 x2 HS HK Ht Hs F1 F2). intros n y1 y2 H0 W1 W2 Y1 Y2.
      destruct (c77_carry (Bi CRR) S K t r b1 b2 s n false H0 HS Ht Hs Hb W1 W2) as (c1 & c2 & q1 & q2 & A1 & A2 & _ & _ & X & _).
      change (the_type false) with "european"%string in *. eqp Y1 A1. eqp Y2 A2. subst. exact X.
    - apply (exact_le S K t r r b2 b1 s false x2 x1 HS HK Ht Hs F2 F1). intros n y2 y1 H0 W2 W1 Y2 Y1.
      destruct (c77_carry (Bi CRR) S K t r b1 b2 s n false H0 HS Ht Hs Hb W1 W2) as (c1 & c2 & q1 & q2 & _ & _ & A1 & A2 & _ & X).
      change (the_type false) with "european"%string in *. eqp Y1 A1. eqp Y2 A2. subst. exact X. }
  split; [destruct call; exact H|].
  apply Rabs_le_between in X1, X2. destruct call; lra.
Qed.

(*@ C79_yield | For a stock with dividend yield q (b = r - q), the call does not fall and the put does not rise with the interest rate, up to the error 7.5e-8 of the distribution function; with the exact distribution function without any slack. *)
Lemma c79_yield : forall S K t r1 r2 q sigma (call : bool), 0 < S -> 0 < K -> 0 < t -> 0 < sigma -> r1 <= r2 ->
  exists v1 v2 x1 x2,
    (if call then gbs_call else gbs_put) (GBSOption S K t r1 (r1 - q) (Some sigma)) = Ok v1 /\
    (if call then gbs_call else gbs_put) (GBSOption S K t r2 (r2 - q) (Some sigma)) = Ok v2 /\
    (if call then gbs_call_F Phi else gbs_put_F Phi) (GBSOption S K t r1 (r1 - q) (Some sigma)) = Ok x1 /\
    (if call then gbs_call_F Phi else gbs_put_F Phi) (GBSOption S K t r2 (r2 - q) (Some sigma)) = Ok x2 /\
    (let lo := if call then x1 else x2 in let hi := if call then x2 else x1 in lo <= hi) /\
    (let lo := if call then v1 else v2 in let hi := if call then v2 else v1 in
     lo <= hi + (2 * S * exp (- q * t) + K * exp (- r1 * t) + K * exp (- r2 * t)) * (75 / 10 ^ 9)).
Proof.
  intros S K t r1 r2 q s call HS HK Ht Hs Hb.
  destruct (gbs_price_accuracy S K t r1 (r1 - q) s call HS HK Ht ltac:(lra)) as (v1 & x1 & E1 & F1 & X1).
  destruct (gbs_price_accuracy S K t r2 (r2 - q) s call HS HK Ht ltac:(lra)) as (v2 & x2 & E2 & F2 & X2).
  exists v1, v2, x1, x2. do 4 (split; [assumption|]). cbv zeta.
  assert (H : if call then x1 <= x2 else x2 <= x1).
  { destruct call.
    - apply (exact_le S K t r1 r2 (r1 - q) (r2 - q) s true x1 x2 HS HK Ht Hs F1 F2). intros n y1 y2 H0 W1 W2 Y1 Y2.
      destruct (c77_yield (Bi CRR) S K t r1 r2 q s n false H0 HS ltac:(lra) Ht Hs Hb W1 W2) as (c1 & c2 & q1 & q2 & A1 & A2 & _ & _ & X & _).
      change (the_type false) with "european"%string in *. eqp Y1 A1. eqp Y2 A2. subst. exact X.
    - apply (exact_le S K t r2 r1 (r2 - q) (r1 - q) s false x2 x1 HS HK Ht Hs F2 F1). intros n y2 y1 H0 W2 W1 Y2 Y1.
      destruct (c77_yield (Bi CRR) S K t r1 r2 q s n false H0 HS ltac:(lra) Ht Hs Hb W1 W2) as (c1 & c2 & q1 & q2 & _ & _ & A1 & A2 & _ & X).
      change (the_type false) with "european"%string in *. eqp Y1 A1. eqp Y2 A2. subst. exact X. }
  split; [destruct call; exact H|].
  replace ((r1 - q - r1) * t) with (- q * t) in X1 by ring. replace ((r2 - q - r2) * t) with (- q * t) in X2 by ring.
  apply Rabs_le_between in X1, X2. destruct call; lra.
Qed.

(*@ C79_maturity | A European call with b >= r >= 0, and a European put with b <= r <= 0, do not fall when the time to maturity is extended, up to the error 7.5e-8 of the distribution function; with the exact distribution function without any slack. *)
Lemma c79_maturity : forall S K t1 t2 r b sigma (call : bool), 0 < S -> 0 < K -> 0 < t1 -> t1 <= t2 -> 0 < sigma ->
  (if call then 0 <= r /\ r <= b else r <= 0 /\ b <= r) ->
  exists v1 v2 x1 x2,
    (if call then gbs_call else gbs_put) (GBSOption S K t1 r b (Some sigma)) = Ok v1 /\
    (if call then gbs_call else gbs_put) (GBSOption S K t2 r b (Some sigma)) = Ok v2 /\
    (if call then gbs_call_F Phi else gbs_put_F Phi) (GBSOption S K t1 r b (Some sigma)) = Ok x1 /\
    (if call then gbs_call_F Phi else gbs_put_F Phi) (GBSOption S K t2 r b (Some sigma)) = Ok x2 /\
    x1 <= x2 /\
    v1 <= v2 + (S * exp ((b - r) * t1) + K * exp (- r * t1) + S * exp ((b - r) * t2) + K * exp (- r * t2)) * (75 / 10 ^ 9).
Proof.
  intros S K t1 t2 r b s call HS HK Ht Htt Hs Hr. assert (Ht2 : 0 < t2) by lra.
  destruct (gbs_price_accuracy S K t1 r b s call HS HK Ht ltac:(lra)) as (v1 & x1 & E1 & F1 & X1).
  destruct (gbs_price_accuracy S K t2 r b s call HS HK Ht2 ltac:(lra)) as (v2 & x2 & E2 & F2 & X2).
  exists v1, v2, x1, x2. do 4 (split; [assumption|]).
  assert (H : x1 <= x2).
  { destruct call; destruct Hr as [R1 R2].
    - destruct (c63_no_early_call (Bi CRR) S K t1 r b s HS HK Ht Hs R1 R2) as (w1 & _ & G1 & A1 & _).
      destruct (c63_no_early_call (Bi CRR) S K t2 r b s HS HK Ht2 Hs R1 R2) as (w2 & _ & G2 & A2 & _).
      rewrite F1 in G1. injection G1 as <-. rewrite F2 in G2. injection G2 as <-.
      exact (c66_maturity S K t1 t2 r b s true x1 x2 HS HK Ht Htt Hs A1 A2).
    - destruct (c63_no_early_put (Bi CRR) S K t1 r b s HS HK Ht Hs R1 R2) as (w1 & _ & G1 & A1 & _).
      destruct (c63_no_early_put (Bi CRR) S K t2 r b s HS HK Ht2 Hs R1 R2) as (w2 & _ & G2 & A2 & _).
      rewrite F1 in G1. injection G1 as <-. rewrite F2 in G2. injection G2 as <-.
      exact (c66_maturity S K t1 t2 r b s false x1 x2 HS HK Ht Htt Hs A1 A2). }
  split; [exact H|]. apply Rabs_le_between in X1, X2. lra.
Qed.
