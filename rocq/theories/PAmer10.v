(** Properties of the American value, hence of the limits of American tree prices (C66). *)
From Coq Require Import Reals String List Arith Lra Lia Psatz.
From Coquelicot Require Import Coquelicot.
From Verif Require Import Num Py MBase MVanilla MTrees STrees SHeston SMonte SSpread2 SAmer PCnd PGauss PHeston PTrees2 PStop PTrees3 PTrees4 PConv PConv3 PConv4 PExpect PExpect2 PClt PTwoAsset PAmer1 PAmer2 PAmer3 PAmer4 PAmer6 PAmer7.
Import ListNotations.
Open Scope R_scope.

(*@ C66_any_dates | The American value is at least the value with any number of equally spaced exercise dates, whatever their distance, as long as the last one is not after expiry. *)
Lemma c66_any_dates : forall S K t r b sigma (call : bool) v k dt w, 0 < S -> 0 < K -> 0 < t -> 0 < sigma -> 0 < dt ->
  american_value (call_put call K) r b sigma t S v -> INR k * dt <= t -> bermudan (call_put call K) r b sigma dt k S w -> w <= v.
Proof.
  intros S K t r b s call v k dt w HS HK Ht Hs Hdt HA Hk HB.
  destruct (seqs t b s Ht Hs CRR) as (a & m & th & Th & N0 & HTh & Ha0 & Hth & La & Lm & E).
  destruct (binomial_american 1 r (b - s ^ 2 / 2) s t Th a m th ltac:(lra) Ht ltac:(lra) Ha0 HTh La Lm Hth (fun w => call_put call K (S * exp w)) (S + K) ltac:(lra) (pay_lip S K call HS HK) 0) as (v' & H1 & H2 & H3).
  destruct (american_of S K t r b s call HS HK Ht Hs _ v' H1 H2 H3) as [HA' _]. rewrite (american_unique _ _ _ _ _ _ _ _ HS HA HA').
  pose proof (BV_bermudan S r b s dt (call_put call K) (S + K) HS ltac:(lra) Hdt ltac:(lra) (pay_lip S K call HS HK) 1 k ltac:(lia) 0) as HB'. replace (dt / INR 1) with dt in HB' by (cbn; field). rewrite exp_0, Rmult_1_r in HB'.
  rewrite (bermudan_unique _ _ _ _ _ _ _ _ _ HS HB HB').
  apply (binomial_any_dates 1 r (b - s ^ 2 / 2) s t Th a m th ltac:(lra) Ht ltac:(lra) Ha0 HTh La Lm Hth (fun w => call_put call K (S * exp w)) (S + K) 0 v' ltac:(lra) (pay_lip S K call HS HK) H1); lra.
Qed.

(*@ C66_maturity | The American value does not decrease with the time to maturity. *)
Lemma c66_maturity : forall S K t t' r b sigma (call : bool) v v', 0 < S -> 0 < K -> 0 < t -> t <= t' -> 0 < sigma ->
  american_value (call_put call K) r b sigma t S v -> american_value (call_put call K) r b sigma t' S v' -> v <= v'.
Proof.
  intros S K t t' r b s call v v' HS HK Ht Htt Hs (B & HB & LB) HA'. refine (is_lim_seq_le_loc B (fun _ => v') v v' _ LB (is_lim_seq_const v')). exists 1%nat. intros n Hn. destruct (HB n Hn) as [Hb _].
  assert (HI : 0 < INR n) by now apply lt_0_INR. apply (c66_any_dates S K t' r b s call v' n (t / INR n) (B n)); try assumption; try lra; [now apply Rdiv_lt_0_compat|].
  replace (INR n * (t / INR n)) with t by (field; lra). exact Htt.
Qed.

(** ** transfer from the trees *)
Lemma value_tree S K t r b s call v : 0 < S -> 0 < K -> 0 < t -> 0 < s -> american_value (call_put call K) r b s t S v ->
  exists price, (forall n, n <> 0%nat -> tree_price (Bi CRR) (mkTree S K t r b s "american" n) call false = Ok (Price (price n))) /\ is_lim_seq price v.
Proof.
  intros HS HK Ht Hs HA. destruct (c63_limit (Bi CRR) S K t r b s call HS HK Ht Hs) as (v' & price & HA' & HP & L). rewrite (american_unique _ _ _ _ _ _ _ _ HS HA HA'). now exists price.
Qed.
Lemma lim_le u v (a b : R) (P : nat -> Prop) : (exists N, forall n, (N <= n)%nat -> P n) -> is_lim_seq u a -> is_lim_seq v b -> (forall n, P n -> u n <= v n) -> a <= b.
Proof. intros (N & HN) Hu Hv H. refine (is_lim_seq_le_loc u v a b _ Hu Hv). exists N. auto. Qed.
Ltac eqp H1 H2 := rewrite H1 in H2; injection H2; clear H2; intro H2.

(*@ C66_homogeneous | The American value scales with spot and strike. *)
Lemma c66_homogeneous : forall S K t r b sigma (call : bool) q v, 0 < S -> 0 < K -> 0 < t -> 0 < sigma -> 0 < q ->
  american_value (call_put call K) r b sigma t S v -> american_value (call_put call (q * K)) r b sigma t (q * S) (q * v).
Proof.
  intros S K t r b s call q v HS HK Ht Hs Hq HA. destruct (value_tree S K t r b s call v HS HK Ht Hs HA) as (p & HP & L).
  assert (HS' : 0 < q * S) by now apply Rmult_lt_0_compat. assert (HK' : 0 < q * K) by now apply Rmult_lt_0_compat.
  destruct (c63_limit (Bi CRR) (q * S) (q * K) t r b s call HS' HK' Ht Hs) as (v' & p' & HA' & HP' & L').
  assert (E : Lim_seq p' = Lim_seq (fun n => q * p n)).
  { apply Lim_seq_ext_loc. exists 1%nat. intros n Hn. assert (H0 : n <> 0%nat) by lia. destruct (tree_homogeneous (Bi CRR) S K t r b s n true call q H0 Ht ltac:(lra) ltac:(lra)) as (y & Y1 & Y2).
    specialize (HP n H0). specialize (HP' n H0). change (the_type true) with "american"%string in *. eqp HP Y1. eqp HP' Y2. congruence. }
  rewrite (is_lim_seq_unique _ _ L') in E. rewrite (is_lim_seq_unique _ _ (is_lim_seq_scal_l _ q _ L)) in E. cbn in E. injection E as E. subst v'. exact HA'.
Qed.

(*@ C66_duality | The American call is the American put with spot and strike exchanged, r - b for r and -b for b. *)
Lemma c66_duality : forall S K t r b sigma v, 0 < S -> 0 < K -> 0 < t -> 0 < sigma ->
  american_value (call_put true K) r b sigma t S v -> american_value (call_put false S) (r - b) (- b) sigma t K v.
Proof.
  intros S K t r b s v HS HK Ht Hs HA. destruct (value_tree S K t r b s true v HS HK Ht Hs HA) as (p & HP & L).
  destruct (c63_limit (Bi CRR) K S t (r - b) (- b) s false HK HS Ht Hs) as (v' & p' & HA' & HP' & L').
  assert (E : Lim_seq p' = Lim_seq p).
  { apply Lim_seq_ext_loc. exists 1%nat. intros n Hn. assert (H0 : n <> 0%nat) by lia. destruct (tree_duality (Bi CRR) S K t r b s n true H0 Ht ltac:(lra) (or_introl eq_refl)) as (y & Y1 & Y2).
    specialize (HP n H0). specialize (HP' n H0). change (the_type true) with "american"%string in *. eqp HP Y1. eqp HP' Y2. congruence. }
  rewrite (is_lim_seq_unique _ _ L'), (is_lim_seq_unique _ _ L) in E. injection E as E. subst v'. exact HA'.
Qed.

(*@ C66_strike | The American call does not increase and the American put does not decrease with the strike; if r >= 0 the change is at most the change of strike. *)
Lemma c66_strike : forall S K1 K2 t r b sigma (call : bool) v1 v2, 0 < S -> 0 < K1 -> K1 <= K2 -> 0 < t -> 0 < sigma ->
  american_value (call_put call K1) r b sigma t S v1 -> american_value (call_put call K2) r b sigma t S v2 ->
  (if call then v2 <= v1 else v1 <= v2) /\ (0 <= r -> Rabs (v2 - v1) <= K2 - K1).
Proof.
  intros S K1 K2 t r b s call v1 v2 HS HK1 HK Ht Hs HA1 HA2. assert (HK2 : 0 < K2) by lra. destruct (value_tree S K1 t r b s call v1 HS HK1 Ht Hs HA1) as (p1 & P1 & L1). destruct (value_tree S K2 t r b s call v2 HS HK2 Ht Hs HA2) as (p2 & P2 & L2).
  pose proof (crr_weights b s t Hs Ht) as W. split.
  - assert (M : forall n, (0 < n)%nat /\ weights_ok (Bi CRR) b s (t / INR n) -> if call then p2 n <= p1 n else p1 n <= p2 n).
    { intros n [Hn HW]. assert (H0 : n <> 0%nat) by lia. destruct (tree_strike_monotone (Bi CRR) S K1 K2 t r b s n true H0 Ht ltac:(lra) HW HK) as (c1 & c2 & q1 & q2 & E1 & E2 & E3 & E4 & X1 & X2).
      specialize (P1 n H0). specialize (P2 n H0). change (the_type true) with "american"%string in *. destruct call; [eqp P1 E1; eqp P2 E2|eqp P1 E3; eqp P2 E4]; subst; assumption. }
    destruct call; [exact (lim_le p2 p1 v2 v1 _ W L2 L1 M)|exact (lim_le p1 p2 v1 v2 _ W L1 L2 M)].
  - intro Hr. assert (L : is_lim_seq (fun n => Rabs (p2 n - p1 n)) (Rabs (v2 - v1))) by (apply (is_lim_seq_abs _ (Finite (v2 - v1))); now apply is_lim_seq_minus').
    refine (lim_le _ (fun _ => K2 - K1) _ _ _ W L (is_lim_seq_const _) _). intros n [Hn HW]. assert (H0 : n <> 0%nat) by lia.
    destruct (tree_strike_lipschitz (Bi CRR) S K1 K2 t r b s n call H0 Ht ltac:(lra) HW) as (e1 & e2 & a1 & a2 & _ & _ & E3 & E4 & _ & X). specialize (P1 n H0). specialize (P2 n H0). eqp P1 E3. eqp P2 E4. subst. specialize (X Hr). rewrite (Rabs_pos_eq (K2 - K1)) in X by lra. exact X.
Qed.

(*@ C66_spot | The American call does not decrease and the American put does not increase with the spot. *)
Lemma c66_spot : forall S1 S2 K t r b sigma (call : bool) v1 v2, 0 < S1 -> S1 <= S2 -> 0 < K -> 0 < t -> 0 < sigma ->
  american_value (call_put call K) r b sigma t S1 v1 -> american_value (call_put call K) r b sigma t S2 v2 ->
  if call then v1 <= v2 else v2 <= v1.
Proof.
  intros S1 S2 K t r b s call v1 v2 HS1 HS HK Ht Hs HA1 HA2. assert (HS2 : 0 < S2) by lra. destruct (value_tree S1 K t r b s call v1 HS1 HK Ht Hs HA1) as (p1 & P1 & L1). destruct (value_tree S2 K t r b s call v2 HS2 HK Ht Hs HA2) as (p2 & P2 & L2).
  pose proof (crr_weights b s t Hs Ht) as W.
  assert (M : forall n, (0 < n)%nat /\ weights_ok (Bi CRR) b s (t / INR n) -> if call then p1 n <= p2 n else p2 n <= p1 n).
  { intros n [Hn HW]. assert (H0 : n <> 0%nat) by lia. destruct (tree_spot_monotone (Bi CRR) S1 S2 K t r b s n true H0 Ht ltac:(lra) HW HS) as (c1 & c2 & q1 & q2 & E1 & E2 & E3 & E4 & X1 & X2).
    specialize (P1 n H0). specialize (P2 n H0). change (the_type true) with "american"%string in *. destruct call; [eqp P1 E1; eqp P2 E2|eqp P1 E3; eqp P2 E4]; subst; assumption. }
  destruct call; [exact (lim_le p1 p2 v1 v2 _ W L1 L2 M)|exact (lim_le p2 p1 v2 v1 _ W L2 L1 M)].
Qed.

(*@ C66_convex | The American value is jointly convex in spot and strike. *)
Lemma c66_convex : forall S1 S2 K1 K2 t r b sigma (call : bool) l v1 v2 v, 0 < S1 -> 0 < S2 -> 0 < K1 -> 0 < K2 -> 0 < t -> 0 < sigma -> 0 <= l <= 1 ->
  american_value (call_put call K1) r b sigma t S1 v1 -> american_value (call_put call K2) r b sigma t S2 v2 ->
  american_value (call_put call (l * K1 + (1 - l) * K2)) r b sigma t (l * S1 + (1 - l) * S2) v -> v <= l * v1 + (1 - l) * v2.
Proof.
  intros S1 S2 K1 K2 t r b s call l v1 v2 v HS1 HS2 HK1 HK2 Ht Hs Hl HA1 HA2 HA. assert (HS : 0 < l * S1 + (1 - l) * S2) by (destruct (Req_dec l 0); nra). assert (HK : 0 < l * K1 + (1 - l) * K2) by (destruct (Req_dec l 0); nra).
  destruct (value_tree S1 K1 t r b s call v1 HS1 HK1 Ht Hs HA1) as (p1 & P1 & L1). destruct (value_tree S2 K2 t r b s call v2 HS2 HK2 Ht Hs HA2) as (p2 & P2 & L2). destruct (value_tree _ _ t r b s call v HS HK Ht Hs HA) as (p & P & L).
  assert (LL : is_lim_seq (fun n => l * p1 n + (1 - l) * p2 n) (l * v1 + (1 - l) * v2)) by (apply is_lim_seq_plus'; [exact (is_lim_seq_scal_l _ l _ L1)|exact (is_lim_seq_scal_l _ (1 - l) _ L2)]).
  refine (lim_le p _ v _ _ (crr_weights b s t Hs Ht) L LL _). intros n [Hn HW]. assert (H0 : n <> 0%nat) by lia.
  destruct (tree_convex (Bi CRR) S1 S2 K1 K2 t r b s n true call l H0 Ht ltac:(lra) HW Hl) as (y1 & y2 & y & E1 & E2 & E & X). specialize (P1 n H0). specialize (P2 n H0). specialize (P n H0). change (the_type true) with "american"%string in *.
  eqp P1 E1. eqp P2 E2. eqp P E. subst. exact X.
Qed.

(*@ C66_upper_bounds | The American call with b <= r is worth at most the spot, the American put with r >= 0 at most the strike. *)
Lemma c66_upper : forall S K t r b sigma vc vp, 0 < S -> 0 < K -> 0 < t -> 0 < sigma ->
  american_value (call_put true K) r b sigma t S vc -> american_value (call_put false K) r b sigma t S vp -> (b <= r -> vc <= S) /\ (0 <= r -> vp <= K).
Proof.
  intros S K t r b s vc vp HS HK Ht Hs HAc HAp. destruct (value_tree S K t r b s true vc HS HK Ht Hs HAc) as (pc & Pc & Lc). destruct (value_tree S K t r b s false vp HS HK Ht Hs HAp) as (pp & Pp & Lp). pose proof (crr_weights b s t Hs Ht) as W.
  assert (M : forall n, (0 < n)%nat /\ weights_ok (Bi CRR) b s (t / INR n) -> (b <= r -> pc n <= S) /\ (0 <= r -> pp n <= K)).
  { intros n [Hn HW]. assert (H0 : n <> 0%nat) by lia. destruct (tree_upper_bounds (Bi CRR) S K t r b s n true H0 Ht ltac:(lra) ltac:(discriminate) HW ltac:(lra) ltac:(lra)) as (y1 & y2 & E1 & E2 & X). specialize (Pc n H0). specialize (Pp n H0). change (the_type true) with "american"%string in *. eqp Pc E1. eqp Pp E2. subst. exact X. }
  split; intro H; [refine (lim_le pc (fun _ => S) _ _ _ W Lc (is_lim_seq_const _) _)|refine (lim_le pp (fun _ => K) _ _ _ W Lp (is_lim_seq_const _) _)]; intros n Hn; now apply M.
Qed.

(*@ C66_put_call | For b = r >= 0 the American put-call inequality S - K <= C - P <= S - K exp(-rt) holds for the American values. *)
Lemma c66_put_call : forall S K t r sigma vc vp, 0 < S -> 0 < K -> 0 < t -> 0 < sigma -> 0 <= r ->
  american_value (call_put true K) r r sigma t S vc -> american_value (call_put false K) r r sigma t S vp -> S - K <= vc - vp <= S - K * exp (- r * t).
Proof.
  intros S K t r s vc vp HS HK Ht Hs Hr HAc HAp. destruct (value_tree S K t r r s true vc HS HK Ht Hs HAc) as (pc & Pc & Lc). destruct (value_tree S K t r r s false vp HS HK Ht Hs HAp) as (pp & Pp & Lp). pose proof (crr_weights r s t Hs Ht) as W.
  assert (M : forall n, (0 < n)%nat /\ weights_ok (Bi CRR) r s (t / INR n) -> S - K <= pc n - pp n <= S - K * exp (- r * t)).
  { intros n [Hn HW]. assert (H0 : n <> 0%nat) by lia. destruct (tree_american_put_call (Bi CRR) S K t r s n H0 Ht ltac:(lra) ltac:(discriminate) HW ltac:(lra) ltac:(lra) Hr) as (y1 & y2 & E1 & E2 & X). specialize (Pc n H0). specialize (Pp n H0). eqp Pc E1. eqp Pp E2. subst. exact X. }
  assert (L : is_lim_seq (fun n => pc n - pp n) (vc - vp)) by now apply is_lim_seq_minus'.
  split; [refine (lim_le (fun _ => S - K) _ _ _ _ W (is_lim_seq_const _) L _)|refine (lim_le _ (fun _ => S - K * exp (- r * t)) _ _ _ W L (is_lim_seq_const _) _)]; intros n Hn; now apply M.
Qed.
