(** Property theorems C68-C70, C72: prices in floating-point arithmetic. *)
From Coquelicot Require Import Coquelicot.
From Coq Require Import QArith Qreals Reals String List Arith ZArith Lra Lia.
From Verif Require Import Num Py MBase MVanilla MTrees MSpread STrees PCnd PGauss MFloat SFloat PFloat PFloat2 PFloat3 PFloat4 PTrees3 PFloat5 PFloat8 PFloat9 PFloat11 PFloat14.
Import List ListNotations.
Open Scope R_scope.

(* ---------------------------------------------------------------- C68 *)
(** In floating-point arithmetic, whatever the rounding, an American tree price is at least the European one, at least the computed payoff of immediate exercise, and neither is negative. *)
Theorem C68_american : forall A, monotone_fp A -> forall c S K t r b sigma n (call : bool), n <> 0%nat -> 0 <= t -> is_float A S -> is_float A K ->
  float_weights A c t b sigma n ->
  exists e a, @tree_price R (FNum A) c (mkTree S K t r b sigma "european" n) call false = Ok (Price e) /\
    @tree_price R (FNum A) c (mkTree S K t r b sigma "american" n) call false = Ok (Price a) /\
    0 <= e <= a /\ rnd A (if call then S - K else K - S) <= a.
Proof. exact c68_american. Qed.
Print Assumptions C68_american.
Example C68_american_case : exists e a, @tree_price R (FNum binary64) (Bi JR) (mkTree 100 95 1 (5/100) (2/100) (1/4) "european" 4) true false = Ok (Price e) /\
  @tree_price R (FNum binary64) (Bi JR) (mkTree 100 95 1 (5/100) (2/100) (1/4) "american" 4) true false = Ok (Price a) /\ 0 <= e <= a /\ 5 <= a.
Proof.
  destruct (C68_american binary64 binary64_monotone (Bi JR) 100 95 1 (5/100) (2/100) (1/4) 4 true ltac:(lia) ltac:(lra) (rnd64_int 100 ltac:(cbn; lia)) (rnd64_int 95 ltac:(cbn; lia))) as (e & a & A & B & C & D).
  { apply c68_weights; [exact binary64_monotone|lra]. }
  exists e, a. split; [exact A|]. split; [exact B|]. split; [exact C|]. change (rnd binary64 (100 - 95)) with (rnd64 (100 - 95)) in D. replace (100 - 95) with 5 in D by ring. rewrite (rnd64_int 5 ltac:(cbn; lia)) in D. exact D.
Qed.

(** In floating-point arithmetic tree prices are monotone in the strike: calls do not increase, puts do not decrease. *)
Theorem C68_strike : forall A, monotone_fp A -> forall c S K1 K2 t r b sigma n (call am : bool), n <> 0%nat -> 0 <= t -> K1 <= K2 ->
  float_weights A c t b sigma n ->
  exists v1 v2, @tree_price R (FNum A) c (mkTree S K1 t r b sigma (the_type am) n) call false = Ok (Price v1) /\
    @tree_price R (FNum A) c (mkTree S K2 t r b sigma (the_type am) n) call false = Ok (Price v2) /\
    if call then v2 <= v1 else v1 <= v2.
Proof. exact c68_strike. Qed.
Print Assumptions C68_strike.
Example C68_strike_case : exists v1 v2, @tree_price R (FNum binary64) (Bi JR) (mkTree 100 95 1 (5/100) (2/100) (1/4) "american" 50) false false = Ok (Price v1) /\
  @tree_price R (FNum binary64) (Bi JR) (mkTree 100 (95 + 1/10) 1 (5/100) (2/100) (1/4) "american" 50) false false = Ok (Price v2) /\ v1 <= v2.
Proof. apply (C68_strike binary64 binary64_monotone (Bi JR) 100 95 (95 + 1/10) 1 (5/100) (2/100) (1/4) 50 false true); [lia|lra|lra|]. apply c68_weights; [exact binary64_monotone|lra]. Qed.

(** In floating-point arithmetic tree prices are monotone in the spot: calls do not decrease, puts do not increase. *)
Theorem C68_spot : forall A, monotone_fp A -> forall c S1 S2 K t r b sigma n (call am : bool), n <> 0%nat -> 0 <= t -> S1 <= S2 ->
  float_weights A c t b sigma n ->
  exists v1 v2, @tree_price R (FNum A) c (mkTree S1 K t r b sigma (the_type am) n) call false = Ok (Price v1) /\
    @tree_price R (FNum A) c (mkTree S2 K t r b sigma (the_type am) n) call false = Ok (Price v2) /\
    if call then v1 <= v2 else v2 <= v1.
Proof. exact c68_spot. Qed.
Print Assumptions C68_spot.
Example C68_spot_case : exists v1 v2, @tree_price R (FNum binary64) (Bi JR) (mkTree 100 95 1 (5/100) (2/100) (1/4) "american" 50) true false = Ok (Price v1) /\
  @tree_price R (FNum binary64) (Bi JR) (mkTree (100 + / 1000) 95 1 (5/100) (2/100) (1/4) "american" 50) true false = Ok (Price v2) /\ v1 <= v2.
Proof. apply (C68_spot binary64 binary64_monotone (Bi JR) 100 (100 + / 1000) 95 1 (5/100) (2/100) (1/4) 50 true true); [lia|lra|lra|]. apply c68_weights; [exact binary64_monotone|lra]. Qed.

(** In floating-point arithmetic, with the cost of carry fixed, tree prices do not increase with the interest rate. *)
Theorem C68_rate : forall A, monotone_fp A -> forall c S K t r1 r2 b sigma n (call am : bool), n <> 0%nat -> 0 <= t -> r1 <= r2 ->
  float_weights A c t b sigma n ->
  exists v1 v2, @tree_price R (FNum A) c (mkTree S K t r1 b sigma (the_type am) n) call false = Ok (Price v1) /\
    @tree_price R (FNum A) c (mkTree S K t r2 b sigma (the_type am) n) call false = Ok (Price v2) /\ v2 <= v1.
Proof. exact c68_rate. Qed.
Print Assumptions C68_rate.
Example C68_rate_case : exists v1 v2, @tree_price R (FNum binary64) (Bi JR) (mkTree 100 95 1 (5/100) (2/100) (1/4) "american" 50) true false = Ok (Price v1) /\
  @tree_price R (FNum binary64) (Bi JR) (mkTree 100 95 1 (6/100) (2/100) (1/4) "american" 50) true false = Ok (Price v2) /\ v2 <= v1.
Proof. apply (C68_rate binary64 binary64_monotone (Bi JR) 100 95 1 (5/100) (6/100) (2/100) (1/4) 50 true true); [lia|lra|lra|]. apply c68_weights; [exact binary64_monotone|lra]. Qed.

(** The weights the code computes are valid for every JR tree, and for CRR trees when b >= 0, the computed drift per step is at most the computed volatility per step, and the computed up move is greater than 1. *)
Theorem C68_weights : forall A, monotone_fp A -> forall t b sigma n, 0 <= t ->
  let dt := rnd A (t / rnd A (INR n)) in let h := rnd A (sigma * f_sqrt A dt) in
  float_weights A (Bi JR) t b sigma n /\ (0 <= b -> rnd A (b * dt) <= h -> 1 < f_exp A h -> float_weights A (Bi CRR) t b sigma n).
Proof. exact c68_weights. Qed.
Print Assumptions C68_weights.
Example C68_weights_case : float_weights binary64 (Bi JR) 1 (2/100) (1/4) 4 /\ float_weights binary64 (Bi CRR) 1 (2/100) (1/4) 4.
Proof.
  destruct (C68_weights binary64 binary64_monotone 1 (2/100) (1/4) 4%nat ltac:(lra)) as [J C]. split; [exact J|].
  assert (E : forall x, Rabs (rnd64 x - x) <= / 1000 * Rabs x + / 1000).
  { intro x. eapply Rle_trans; [apply rnd64_error|]. assert (P : forall n, (10 <= n)%nat -> / 2 ^ n <= / 1000). { intros n Hn. assert (1000 <= 2 ^ n) by (apply Rle_trans with (2 ^ 10); [cbn; lra|apply Rle_pow; [lra|exact Hn]]). apply Rinv_le_contravar; lra. } pose proof (P 53%nat ltac:(lia)). pose proof (P 1075%nat ltac:(lia)). pose proof (Rabs_pos x). apply Rplus_le_compat; [apply Rmult_le_compat_r; assumption|assumption]. }
  assert (B : forall x, 0 <= x -> 999 / 1000 * x - / 1000 <= rnd64 x <= 1001 / 1000 * x + / 1000) by (intros x Hx; specialize (E x); rewrite (Rabs_pos_eq x) in E by exact Hx; apply le_abs in E; lra).
  cbn [binary64 rnd f_exp f_sqrt] in C. pose proof (B (INR 4) (pos_INR 4)) as B4. set (n4 := rnd64 (INR 4)) in *. cbn [INR] in B4.
  assert (D : 24 / 100 <= 1 / n4 <= 26 / 100) by (split; apply (Rmult_le_reg_r n4); try lra; replace (1 / n4 * n4) with 1 by (field; lra); lra).
  pose proof (B (1 / n4) ltac:(lra)) as Bd. set (dt := rnd64 (1 / n4)) in *. assert (Q : 47 / 100 <= sqrt dt) by (rewrite <- (sqrt_pow2 (47 / 100)) by lra; apply sqrt_le_1_alt; lra).
  pose proof (B (sqrt dt) ltac:(lra)) as Bq. set (q := rnd64 (sqrt dt)) in *. pose proof (B (1 / 4 * q) ltac:(lra)) as Bh. set (h := rnd64 (1 / 4 * q)) in *. apply C; [lra| |].
  - pose proof (B (2 / 100 * dt) ltac:(lra)). lra.
  - pose proof (exp_ineq1_le h). pose proof (B (exp h) ltac:(pose proof (exp_pos h); lra)). lra.
Qed.

(** In floating-point arithmetic the American price of the two-asset tree is at least the European one, and neither is negative, for every payoff code. *)
Theorem C68_two_asset : forall A, monotone_fp A -> forall (call : bool) code S1 S2 t r b1 b2 s1 s2 rho K K2 Q1 Q2 n, (1 <= code <= 9)%Z -> n <> 0%nat ->
  exists e a, @all_types R (FNum A) call false code S1 S2 t r b1 b2 s1 s2 rho (Some K) (Some K2) Q1 Q2 "european" n = Ok (Price e) /\
    @all_types R (FNum A) call false code S1 S2 t r b1 b2 s1 s2 rho (Some K) (Some K2) Q1 Q2 "american" n = Ok (Price a) /\ 0 <= e <= a.
Proof. exact c68_two_asset. Qed.
Print Assumptions C68_two_asset.
Example C68_two_asset_case : exists e a, @all_types R (FNum binary64) true false 1 100 90 1 (5/100) (2/100) (1/100) (1/4) (1/3) (1/2) (Some 5) (Some 0) 1 1 "european" 10 = Ok (Price e) /\
  @all_types R (FNum binary64) true false 1 100 90 1 (5/100) (2/100) (1/100) (1/4) (1/3) (1/2) (Some 5) (Some 0) 1 1 "american" 10 = Ok (Price a) /\ 0 <= e <= a.
Proof. apply (C68_two_asset binary64 binary64_monotone); [lia|lia]. Qed.

(** In an arithmetic that is also accurate, the computed weights of CRR and trinomial trees are valid when the computed volatility per step is between 100 u and 1 and the computed drift per step is at most half of it in size. *)
Theorem C68_weights_ordinary : forall A u eta, monotone_fp A -> accurate_fp A u eta -> eta <= u * u -> forall t b sigma n,
  let dt := rnd A (t / rnd A (INR n)) in
  (let h := rnd A (sigma * f_sqrt A dt) in 0 < h -> 100 * u <= h <= 1 -> Rabs (rnd A (b * dt)) <= h / 2 -> float_weights A (Bi CRR) t b sigma n) /\
  (let h := rnd A (sigma * f_sqrt A (rnd A (dt / 2))) in 0 < h -> 100 * u <= h <= 1 -> Rabs (rnd A (rnd A (b * dt) / 2)) <= h / 2 -> float_weights A Tri t b sigma n).
Proof. exact c68_weights_ordinary. Qed.
Print Assumptions C68_weights_ordinary.
Example C68_weights_ordinary_case : float_weights binary64 (Bi CRR) 1 (-2/100) (1/4) 4 /\ float_weights binary64 Tri 1 (-2/100) (1/4) 4.
Proof.
  assert (E : forall x, Rabs (rnd64 x - x) <= / 1000 * Rabs x + / 1000).
  { intro x. eapply Rle_trans; [apply rnd64_error|]. assert (P : forall n, (10 <= n)%nat -> / 2 ^ n <= / 1000). { intros n Hn. assert (1000 <= 2 ^ n) by (apply Rle_trans with (2 ^ 10); [cbn; lra|apply Rle_pow; [lra|exact Hn]]). apply Rinv_le_contravar; lra. } pose proof (P 53%nat ltac:(lia)). pose proof (P 1075%nat ltac:(lia)). pose proof (Rabs_pos x). apply Rplus_le_compat; [apply Rmult_le_compat_r; assumption|assumption]. }
  assert (B : forall x, 0 <= x -> 999 / 1000 * x - / 1000 <= rnd64 x <= 1001 / 1000 * x + / 1000) by (intros x Hx; specialize (E x); rewrite (Rabs_pos_eq x) in E by exact Hx; apply le_abs in E; lra).
  assert (U : 0 <= / 2 ^ 53 <= / 10000) by (split; [apply Rlt_le, Rinv_0_lt_compat, pow_lt; lra|apply Rinv_le_contravar; cbn; lra]).
  assert (HE : / 2 ^ 1075 <= / 2 ^ 53 * / 2 ^ 53) by (rewrite <- Rinv_mult, <- pow_add; apply Rinv_le_contravar; [apply pow_lt; lra|apply Rle_pow; [lra|lia]]).
  destruct (C68_weights_ordinary binary64 (/ 2 ^ 53) (/ 2 ^ 1075) binary64_monotone binary64_accurate HE 1 (-2/100) (1/4) 4) as [C1 C2]. cbn [binary64 rnd f_exp f_sqrt] in C1, C2.
  pose proof (B (INR 4) (pos_INR 4)) as B4. set (n4 := rnd64 (INR 4)) in *. cbn [INR] in B4.
  assert (D : 24 / 100 <= 1 / n4 <= 26 / 100) by (split; apply (Rmult_le_reg_r n4); try lra; replace (1 / n4 * n4) with 1 by (field; lra); lra).
  pose proof (B (1 / n4) ltac:(lra)) as Bd. set (dt := rnd64 (1 / n4)) in *.
  assert (Bm : -1 / 100 <= rnd64 (-2 / 100 * dt) <= 0) by (replace (-2 / 100 * dt) with (- (2 / 100 * dt)) by field; rewrite rnd64_opp; pose proof (B (2 / 100 * dt) ltac:(lra)); pose proof (rnd64_mono 0 (2 / 100 * dt) ltac:(lra)); rewrite rnd64_0 in *; lra). set (a := rnd64 (-2 / 100 * dt)) in *.
  split; [apply C1|apply C2].
  1-3: assert (Q : 47 / 100 <= sqrt dt <= 1) by (split; [rewrite <- (sqrt_pow2 (47 / 100)) by lra|rewrite <- sqrt_1]; apply sqrt_le_1_alt; lra); pose proof (B (sqrt dt) ltac:(lra)) as Bq; set (q := rnd64 (sqrt dt)) in *; pose proof (B (1 / 4 * q) ltac:(lra)) as Bh; set (h := rnd64 (1 / 4 * q)) in *; try apply abs_le; lra.
  all: pose proof (B (dt / 2) ltac:(lra)) as Bd2; set (d2 := rnd64 (dt / 2)) in *; assert (Q : 3 / 10 <= sqrt d2 <= 1) by (split; [rewrite <- (sqrt_pow2 (3 / 10)) by lra|rewrite <- sqrt_1]; apply sqrt_le_1_alt; lra); pose proof (B (sqrt d2) ltac:(lra)) as Bq; set (q := rnd64 (sqrt d2)) in *; pose proof (B (1 / 4 * q) ltac:(lra)) as Bh; set (h := rnd64 (1 / 4 * q)) in *; try lra.
  replace (a / 2) with (- (- a / 2)) by field. rewrite rnd64_opp, Rabs_Ropp. pose proof (B (- a / 2) ltac:(lra)) as Ba. apply abs_le. lra.
Qed.


(* ---------------------------------------------------------------- C69 *)
(** Put-call parity in floating-point arithmetic: with F and X the discounted forward and strike as the code computes them, call minus put differs from F - X by at most 40 u (F + X) plus an underflow term, u being the relative error of one operation (2^-53 in double precision). *)
Theorem C69_parity : forall A u eta, accurate_fp A u eta -> forall S K t r b sigma,
  let F := rnd A (S * f_exp A (rnd A (rnd A (b - r) * t))) in let X := rnd A (K * f_exp A (rnd A (- r * t))) in 0 <= F -> 0 <= X ->
  exists c p, @gbs_call R (FNum A) (@GBSOption R (FNum A) S K t r b (Some sigma)) = Ok c /\ @gbs_put R (FNum A) (@GBSOption R (FNum A) S K t r b (Some sigma)) = Ok p /\
    Rabs ((c - p) - (F - X)) <= 40 * u * (F + X) + (4 * (F + X) + 7) * eta.
Proof. exact c69_parity. Qed.
Print Assumptions C69_parity.
Example C69_parity_case : let A := binary64 in let F := rnd A (100 * f_exp A (rnd A (rnd A (2/100 - 5/100) * (1/2)))) in let X := rnd A (95 * f_exp A (rnd A (- (5/100) * (1/2)))) in
  exists c p, @gbs_call R (FNum A) (@GBSOption R (FNum A) 100 95 (1/2) (5/100) (2/100) (Some (1/5))) = Ok c /\ @gbs_put R (FNum A) (@GBSOption R (FNum A) 100 95 (1/2) (5/100) (2/100) (Some (1/5))) = Ok p /\
    Rabs ((c - p) - (F - X)) <= 40 * (/ 2 ^ 53) * (F + X) + (4 * (F + X) + 7) * (/ 2 ^ 1075).
Proof.
  assert (P : forall x, 0 <= x -> 0 <= rnd64 x) by (intros x Hx; rewrite <- rnd64_0; now apply rnd64_mono).
  intros A F X. apply (C69_parity A _ _ binary64_accurate); (apply P, Rmult_le_pos; [lra|]; apply P, Rlt_le, exp_pos).
Qed.


(* ---------------------------------------------------------------- C70 *)
(** The distribution function as computed in floating-point arithmetic is within 7.5e-8 + 276 u of the Gaussian distribution function at every number. *)
Theorem C70_distribution : forall A u eta, accurate_fp A u eta -> eta <= u -> forall x, Rabs (@cnd R (FNum A) x - Phi x) <= 75 / 10 ^ 9 + 276 * u.
Proof. exact c70_distribution. Qed.
Print Assumptions C70_distribution.
Example C70_distribution_case : Rabs (@cnd R (FNum binary64) (1/10) - Phi (1/10)) <= 76 / 10 ^ 9.
Proof.
  pose proof (C70_distribution _ _ _ binary64_accurate ltac:(apply Rinv_le_contravar; [apply pow_lt; lra|apply Rle_pow; [lra|lia]]) (1/10)) as H. assert (/ 2 ^ 53 <= / 10 ^ 15) by (apply Rinv_le_contravar; cbn; lra). cbn [pow] in *. lra.
Qed.

(** The call and put prices computed by GBSOption in floating-point arithmetic are within (F + X) (7.5e-8 + 180 u W) of the exact Black-Scholes values, up to an underflow term; F and X are the discounted forward and strike and W measures how extreme the inputs are. *)
Theorem C70_price : forall A u eta, accurate_fp A u eta -> forall S K t r b sigma, 0 < S -> 0 < K -> 0 < t -> 0 < sigma ->
  let v := sigma * sqrt t in eta <= u -> eta <= u * (S / K) -> eta <= u * sqrt t -> eta <= u * v ->
  let W := 2 + 2 * t + (Rabs b + Rabs r) * t + v + (1 + Rabs (ln (S / K)) + (Rabs b + sigma ^ 2) * t) / v in u * W <= / 100 ->
  let d1 := (ln (S / K) + (b + sigma ^ 2 / 2) * t) / v in let d2 := d1 - v in let F := S * exp ((b - r) * t) in let X := K * exp (- r * t) in
  exists c p, @gbs_call R (FNum A) (@GBSOption R (FNum A) S K t r b (Some sigma)) = Ok c /\ @gbs_put R (FNum A) (@GBSOption R (FNum A) S K t r b (Some sigma)) = Ok p /\
    Rabs (c - (F * Phi d1 - X * Phi d2)) <= (F + X) * (75 / 10 ^ 9 + 180 * u * W) + 7 * (S + K + 3) * eta /\
    Rabs (p - (X * Phi (- d2) - F * Phi (- d1))) <= (F + X) * (75 / 10 ^ 9 + 180 * u * W) + 7 * (S + K + 3) * eta.
Proof. exact c70_price. Qed.
Print Assumptions C70_price.
Lemma C70_u : / 2 ^ 53 <= / 10 ^ 15. Proof. apply Rinv_le_contravar; cbn; lra. Qed.
Lemma C70_eta x : / 2 ^ 10 <= x -> / 2 ^ 1075 <= / 2 ^ 53 * x.
Proof.
  intro H. apply Rle_trans with (/ 2 ^ 53 * / 2 ^ 10); [|apply Rmult_le_compat_l; [apply Rlt_le, Rinv_0_lt_compat, pow_lt; lra|exact H]].
  rewrite <- Rinv_mult, <- pow_add. apply Rinv_le_contravar; [apply pow_lt; lra|apply Rle_pow; [lra|lia]].
Qed.
Example C70_price_case :
  exists c p, @gbs_call R (FNum binary64) (@GBSOption R (FNum binary64) 100 100 1 0 0 (Some (1/5))) = Ok c /\ @gbs_put R (FNum binary64) (@GBSOption R (FNum binary64) 100 100 1 0 0 (Some (1/5))) = Ok p /\
    Rabs (c - 100 * (Phi (1/10) - Phi (- (1/10)))) <= 16 / 10 ^ 6.
Proof.
  assert (T : / 2 ^ 10 <= 1/5) by (cbn; lra). pose proof C70_u as HU. assert (U0 : 0 < / 2 ^ 53) by (apply Rinv_0_lt_compat, pow_lt; lra).
  assert (L0 : ln (100 / 100) = 0) by (replace (100 / 100) with 1 by field; apply ln_1).
  assert (Z0 : Rabs 0 = 0) by apply Rabs_R0.
  destruct (C70_price _ _ _ binary64_accurate 100 100 1 0 0 (1/5) ltac:(lra) ltac:(lra) ltac:(lra) ltac:(lra)) as (c & p & A & B & C & _).
  - rewrite <- (Rmult_1_r (/ 2 ^ 53)). apply C70_eta. lra.
  - apply C70_eta. lra.
  - apply C70_eta. rewrite sqrt_1. lra.
  - apply C70_eta. rewrite sqrt_1. lra.
  - rewrite L0, Z0, sqrt_1. set (u := / 2 ^ 53) in *. assert (u <= / 1000000) by (cbn [pow] in HU; lra). lra.
  - exists c, p. split; [exact A|]. split; [exact B|]. rewrite L0, sqrt_1 in C. rewrite !Z0 in C. replace ((0 - 0) * 1) with 0 in C by ring. replace (- 0 * 1) with 0 in C by ring. rewrite exp_0 in C.
    replace ((0 + (0 + (1 / 5) ^ 2 / 2) * 1) / (1 / 5 * 1)) with (1 / 10) in C by field. replace (1 / 10 - 1 / 5 * 1) with (- (1 / 10)) in C by field.
    replace (100 * (Phi (1 / 10) - Phi (- (1 / 10)))) with (100 * 1 * Phi (1 / 10) - 100 * 1 * Phi (- (1 / 10))) by ring. eapply Rle_trans; [exact C|].
    assert (He : / 2 ^ 1075 <= / 2 ^ 53 * 1) by (apply C70_eta; lra). set (u := / 2 ^ 53) in *. set (eta := / 2 ^ 1075) in *. cbn [pow] in HU |- *. lra.
Qed.


(* ---------------------------------------------------------------- C72 *)
(** Rounding errors in binomial trees: if the moves, the weight and the discount factor of one step are computed with error at most delta and without division by zero, the computed price of a European or American option differs from the price in exact arithmetic by at most 40 n delta exp((|r| + |b|) t) (S + K). *)
Theorem C72_stability : forall A u eta, accurate_fp A u eta -> forall k S K t r b sigma n delta (call am : bool), 0 < S -> 0 < K -> 0 < t -> 0 < sigma -> n <> 0%nat ->
  let dt := t / INR n in let fdt := rnd A (t / rnd A (INR n)) in let U := step_u k b sigma dt in let D := step_d k b sigma dt in let p := step_p k b sigma dt in
  0 <= p <= 1 -> U <= 3 -> u <= delta -> INR n * delta <= / 1000 -> eta <= delta * K -> eta <= delta * (Rmin 1 S * Rmin 1 D ^ n) ->
  (let '(fu, fd) := float_moves A k b sigma fdt in (k <> JR -> rnd A (fu - fd) <> 0) /\ Rabs (fu - U) <= delta * U /\ Rabs (fd - D) <= delta * D) ->
  Rabs (float_prob A k b sigma fdt - p) <= delta -> Rabs (f_exp A (rnd A (- r * fdt)) - exp (- r * dt)) <= delta * exp (- r * dt) ->
  exists x v, @tree_price R (FNum A) (Bi k) (mkTree S K t r b sigma (the_type am) n) call false = Ok (Price x) /\
    tree_price (Bi k) (mkTree S K t r b sigma (the_type am) n) call false = Ok (Price v) /\
    Rabs (x - v) <= 40 * (INR n * delta) * exp ((Rabs r + Rabs b) * t) * (S + K).
Proof. exact c72_stability. Qed.
Print Assumptions C72_stability.
Lemma C72_small : 0 < / 2 ^ 53 <= / 10 ^ 15 /\ / 2 ^ 1075 <= / 2 ^ 53 * / 2 ^ 53 /\ / 2 ^ 1075 <= / 2 ^ 53 * / 2 ^ 10.
Proof.
  split; [split; [apply Rinv_0_lt_compat, pow_lt; lra|apply C70_u]|]. split; [|apply C70_eta, Rle_refl].
  rewrite <- Rinv_mult, <- pow_add. apply Rinv_le_contravar; [apply pow_lt; lra|apply Rle_pow; [lra|lia]].
Qed.
Lemma C72_quarter : 1 / INR 4 = / 4 /\ sqrt (/ 4) = / 2 /\ sqrt (1 * INR 4) = 2.
Proof.
  cbn [INR]. replace (1 + 1 + 1 + 1) with 4 by ring. split; [lra|]. split; [rewrite <- (sqrt_pow2 (/ 2)) by lra; f_equal; lra|]. rewrite <- (sqrt_pow2 2) by lra. f_equal. lra.
Qed.
Lemma C72_exp : / 2 ^ 10 <= exp (- (3 / 2)) /\ exp (/ 5) <= 3.
Proof.
  assert (E : exp (3 / 2) <= 9). { apply Rle_trans with (exp (1 + 1)); [left; apply exp_increasing; lra|]. rewrite exp_plus. pose proof exp_le_3. pose proof (exp_pos 1). nra. }
  split; [rewrite exp_Ropp; apply Rinv_le_contravar; [apply exp_pos|cbn; lra]|]. apply Rle_trans with (exp 1); [left; apply exp_increasing; lra|apply exp_le_3].
Qed.
Example C72_stability_case call am : exists x v,
  @tree_price R (FNum binary64) (Bi JR) (mkTree 100 100 1 (1/10) (1/10) (1/4) (the_type am) 4) call false = Ok (Price x) /\
  tree_price (Bi JR) (mkTree 100 100 1 (1/10) (1/10) (1/4) (the_type am) 4) call false = Ok (Price v) /\ Rabs (x - v) <= / 10 ^ 8.
Proof.
  destruct C72_small as ((U0 & U1) & E1 & E2). destruct C72_quarter as (Q1 & Q2 & Q3). destruct C72_exp as (X1 & X2).
  assert (U2 : / 2 ^ 53 <= / 10 ^ 5) by (apply Rle_trans with (1 := U1); apply Rinv_le_contravar; cbn; lra). assert (N4 : INR 4 = 4) by (cbn; lra).
  pose proof binary64_accurate as HA. set (u := / 2 ^ 53) in *. set (eta := / 2 ^ 1075) in *. set (A := binary64) in *. assert (U5 : u <= / 100000) by (cbn [pow] in U2; lra).
  destruct (jr_moves A u eta HA E1 1 4 ltac:(lra) ltac:(lia) ltac:(rewrite Q1; lra) ltac:(rewrite Q1; lra) (1/10) (1/4) ltac:(lra)) as (M1 & M2 & M3); [rewrite Q1, Q2, Rabs_pos_eq; lra|].
  destruct (C72_stability A u eta HA JR 100 100 1 (1/10) (1/10) (1/4) 4 (12 * u) call am) as (x & v & P1 & P2 & P3); try lra; try lia.
  - cbn [step_p]. lra.
  - rewrite N4. lra.
  - apply Rle_trans with (1 := E2). pose proof (step_d_low JR (1/10) (1/4) (1 / INR 4) ltac:(lra) ltac:(rewrite Q1; lra)) as D. cbv zeta in D. rewrite Q1, Q2 in D. specialize (D ltac:(lra) ltac:(rewrite Rabs_pos_eq; lra)). rewrite Q1.
    rewrite Rmin_left by lra. rewrite Rmult_1_l. apply Rle_trans with (u * exp (- (3 / 2))); [apply Rmult_le_compat_l; lra|]. apply Rmult_le_compat; try lra; try (apply Rlt_le, exp_pos).
    replace (exp (- (3 / 2))) with (exp (- (3 * (1 / 4 * / 2))) ^ 4) by (rewrite exp_pow; f_equal; rewrite N4; field). apply pow_incr. split; [apply Rlt_le, exp_pos|]. apply Rmin_glb; [apply Rle_trans with (exp 0); [left; apply exp_increasing; lra|rewrite exp_0; lra]|exact D].
  - split; [easy|]. split; assumption.
  - unfold float_prob. destruct (float_moves A JR (1/10) (1/4) _). cbn [step_p]. rewrite (a_1 A u eta HA), (a_2 A u eta HA). pose proof (a_err A u eta HA (1 / 2)) as Er. rewrite (Rabs_pos_eq (1 / 2)) in Er by lra. apply Rle_trans with (1 := Er). assert (u * u <= 1 * u) by (apply Rmult_le_compat_r; lra). lra.
  - apply Rle_trans with (1 := disc_close A u eta HA E1 1 4 ltac:(lra) ltac:(lia) ltac:(rewrite Q1; lra) (1/10) ltac:(rewrite Q1, Rabs_pos_eq; lra)). apply Rmult_le_compat_r; [apply Rlt_le, exp_pos|lra].
  - exists x, v. split; [exact P1|]. split; [exact P2|]. apply Rle_trans with (1 := P3). rewrite N4. rewrite !(Rabs_pos_eq (1/10)) by lra. replace ((1 / 10 + 1 / 10) * 1) with (/ 5) by field.
    apply Rle_trans with (40 * (4 * (12 * u)) * 3 * (100 + 100)); [apply Rmult_le_compat_r; [lra|]; apply Rmult_le_compat_l; lra|]. cbn [pow] in U1 |- *. lra.
Qed.

(** Rounding errors in CRR, JR and TIAN trees with ordinary steps: the computed price differs from the price in exact arithmetic by at most 480 n u for JR, 2000 n u / h for CRR and 8000 n u / h^2 for TIAN, h being the volatility per step, times exp((|r| + |b|) t) (S + K). *)
Theorem C72_models : forall A u eta, accurate_fp A u eta -> eta <= u * u -> forall k S K t r b sigma n (call am : bool), 0 < S -> 0 < K -> 0 < t -> 0 < sigma -> n <> 0%nat ->
  let dt := t / INR n in let h := sigma * sqrt dt in let delta := match k with JR => 12 * u | CRR => 50 * u / h | TIAN => 200 * u / h ^ 2 end in
  u <= dt -> u * dt <= 1 -> 1000 * u <= h ^ 2 -> h <= / 4 -> Rabs b * dt <= h / 2 -> Rabs r * dt <= 1 ->
  INR n * delta <= / 1000 -> eta <= u * K -> eta <= u * (Rmin 1 S * exp (- (3 * sigma * sqrt (t * INR n)))) ->
  exists x v, @tree_price R (FNum A) (Bi k) (mkTree S K t r b sigma (the_type am) n) call false = Ok (Price x) /\
    tree_price (Bi k) (mkTree S K t r b sigma (the_type am) n) call false = Ok (Price v) /\
    Rabs (x - v) <= 40 * (INR n * delta) * exp ((Rabs r + Rabs b) * t) * (S + K).
Proof. exact c72_models. Qed.
Print Assumptions C72_models.
Example C72_models_case k call am : exists x v,
  @tree_price R (FNum binary64) (Bi k) (mkTree 100 100 1 (1/10) (1/10) (1/4) (the_type am) 4) call false = Ok (Price x) /\
  tree_price (Bi k) (mkTree 100 100 1 (1/10) (1/10) (1/4) (the_type am) 4) call false = Ok (Price v) /\ Rabs (x - v) <= / 10 ^ 5.
Proof.
  destruct C72_small as ((U0 & U1) & E1 & E2). destruct C72_quarter as (Q1 & Q2 & Q3). destruct C72_exp as (X1 & X2). assert (N4 : INR 4 = 4) by (cbn; lra).
  pose proof binary64_accurate as HA. set (u := / 2 ^ 53) in *. set (eta := / 2 ^ 1075) in *. assert (U5 : u <= / 1000000000000000) by (cbn [pow] in U1; lra).
  assert (D : 4 * match k with JR => 12 * u | CRR => 50 * u / (1 / 4 * / 2) | TIAN => 200 * u / (1 / 4 * / 2) ^ 2 end <= 51200 * u) by (destruct k; lra).
  destruct (C72_models binary64 u eta HA E1 k 100 100 1 (1/10) (1/10) (1/4) 4 call am) as (x & v & P1 & P2 & P3); rewrite ?Q1, ?Q2, ?Q3, ?N4 in *; try lra; try lia.
  - rewrite Rabs_pos_eq; lra.
  - rewrite Rabs_pos_eq; lra.
  - apply Rle_trans with (1 := E2). rewrite Rmin_left by lra. apply Rmult_le_compat_l; [lra|]. replace (- (3 * (1 / 4) * 2)) with (- (3 / 2)) by field. lra.
  - exists x, v. split; [exact P1|]. split; [exact P2|]. apply Rle_trans with (1 := P3). rewrite !(Rabs_pos_eq (1/10)) by lra. replace ((1 / 10 + 1 / 10) * 1) with (/ 5) by field.
    apply Rle_trans with (40 * (51200 * u) * 3 * (100 + 100)); [|cbn [pow]; lra]. apply Rmult_le_compat_r; [lra|]. apply Rmult_le_compat; try lra; try (apply Rlt_le, exp_pos). destruct k; lra.
Qed.

(** The total error of the price a CRR, JR or TIAN tree computes in floating-point arithmetic against the exact Black-Scholes price: there is a constant with |x - v| <= C (S + K) (1 / sqrt n + u n^a), a = 1 for JR, 3/2 for CRR and 2 for TIAN, for all large n with C u n^a <= 1, all spots and strikes away from underflow. *)
Theorem C72_total : forall k t r b sigma, 0 < t -> 0 < sigma -> exists C N, 0 < C /\ forall A u eta, accurate_fp A u eta -> eta <= u * u ->
  forall S K (call : bool) n, 0 < S -> 0 < K -> (N <= n)%nat -> let cost := match k with JR => INR n | CRR => INR n * sqrt (INR n) | TIAN => INR n ^ 2 end in
  C * (u * cost) <= 1 -> eta <= u * K -> eta <= u * (Rmin 1 S * exp (- (3 * sigma * sqrt (t * INR n)))) ->
  exists x v, @tree_price R (FNum A) (Bi k) (mkTree S K t r b sigma "european" n) call false = Ok (Price x) /\
    (if call then gbs_call_F Phi else gbs_put_F Phi) (GBSOption S K t r b (Some sigma)) = Ok v /\
    Rabs (x - v) <= C * (S + K) * (/ sqrt (INR n) + u * cost).
Proof. exact c72_total. Qed.
Print Assumptions C72_total.
Example C72_total_case k eps call : 0 < eps -> exists n p x v,
  @tree_price R (FNum (precision p)) (Bi k) (mkTree 100 90 1 (1/10) (1/20) (1/4) "european" n) call false = Ok (Price x) /\
  (if call then gbs_call_F Phi else gbs_put_F Phi) (GBSOption 100 90 1 (1/10) (1/20) (Some (1/4))) = Ok v /\ Rabs (x - v) <= eps.
Proof.
  intro He. destruct (C72_total k 1 (1/10) (1/20) (1/4) ltac:(lra) ltac:(lra)) as (C & N & HC & H). assert (Ce : 0 < C * 380 / eps) by (apply Rdiv_lt_0_compat; lra).
  destruct (sqrt_large (C * 380 / eps)) as [N1 H1]. set (n := Nat.max N N1). specialize (H1 n ltac:(lia)). set (q := sqrt (INR n)) in *.
  set (cost := match k with JR => INR n | CRR => INR n * sqrt (INR n) | TIAN => INR n ^ 2 end). assert (C0 : 0 <= cost) by (unfold cost; pose proof (pos_INR n); pose proof (sqrt_pos (INR n)); destruct k; try lra; [apply Rmult_le_pos; lra|apply pow_le; lra]).
  destruct (nfloor_ex (C * cost + C * 380 / eps * cost) ltac:(repeat apply Rplus_le_le_0_compat; apply Rmult_le_pos; lra)) as [m [_ Hm]]. set (p := Pos.of_nat (m + 10)). assert (Ep : Pos.to_nat p = (m + 10)%nat) by (unfold p; rewrite Nat2Pos.id; lia).
  assert (B : INR m + 1 <= 2 ^ Pos.to_nat p). { pose proof (poly (m + 10) 1 ltac:(lra)) as Y. rewrite Ep. replace (1 + 1) with 2 in Y by ring. rewrite plus_INR, Rmult_1_r in Y. replace (INR 10) with 10 in Y by (cbn; lra). lra. }
  set (u := / 2 ^ Pos.to_nat p) in *. assert (Pu : 0 < u) by (unfold u; apply Rinv_0_lt_compat, pow_lt; lra). assert (Bu : u * (C * cost + C * 380 / eps * cost) <= 1). { apply Rle_trans with (u * 2 ^ Pos.to_nat p); [apply Rmult_le_compat_l; lra|]. right. unfold u. apply Rinv_l. apply pow_nonzero. lra. }
  assert (B1 : 0 <= u * (C * cost)) by (repeat apply Rmult_le_pos; lra). assert (B2 : 0 <= u * (C * 380 / eps * cost)) by (apply Rmult_le_pos; [lra|apply Rmult_le_pos; lra]).
  destruct (H (precision p) u 0 (precision_accurate p ltac:(lia)) ltac:(apply Rmult_le_pos; lra) 100 90 call n ltac:(lra) ltac:(lra) ltac:(lia)) as (x & v & P1 & P2 & P3).
  - fold cost. lra.
  - lra.
  - rewrite Rmin_left by lra. apply Rmult_le_pos; [lra|]. apply Rmult_le_pos; [lra|apply Rlt_le, exp_pos].
  - exists n, p, x, v. split; [exact P1|]. split; [exact P2|]. apply Rle_trans with (1 := P3). fold q cost. assert (Pq : 0 < q) by lra.
    assert (T1 : C * 190 * / q <= eps / 2). { apply (Rmult_le_reg_r q); [lra|]. rewrite Rmult_assoc, Rinv_l by lra. apply (Rmult_le_compat_l (eps / 2)) in H1; [|lra]. replace (eps / 2 * (C * 380 / eps)) with (C * 190) in H1 by (field; lra). lra. }
    assert (T2 : C * 190 * (u * cost) <= eps / 2). { replace (C * 190 * (u * cost)) with (eps / 2 * (u * (C * 380 / eps * cost))) by (field; lra). rewrite <- (Rmult_1_r (eps / 2)) at 2. apply Rmult_le_compat_l; [lra|]. rewrite Rmult_plus_distr_l in Bu. lra. }
    apply Rle_trans with (C * 190 * / q + C * 190 * (u * cost)); [right; change (C * (100 + 90) * (/ q + u * cost) = C * 190 * / q + C * 190 * (u * cost)); ring|lra].
Qed.

(** Rounding errors in trinomial trees: with h = sigma sqrt(dt / 2) the volatility of half a step, the computed price of a European or American option differs from the price in exact arithmetic by at most 60 n delta exp((|r| + |b|) t) (S + K), delta = 32 u / h. *)
Theorem C72_trinomial : forall A u eta, accurate_fp A u eta -> eta <= u * u -> forall S K t r b sigma n (call am : bool), 0 < S -> 0 < K -> 0 < t -> 0 < sigma -> n <> 0%nat ->
  let dt := t / INR n in let h := sigma * sqrt (dt / 2) in let delta := 32 * u / h in
  u <= dt -> 100 * u <= h <= / 4 -> Rabs b * dt <= h -> Rabs r * dt <= 1 ->
  INR n * delta <= / 1000 -> eta <= u * K -> eta <= u * (Rmin 1 S * exp (- (sigma * sqrt (2 * (t * INR n))))) ->
  exists x v, @tree_price R (FNum A) Tri (mkTree S K t r b sigma (the_type am) n) call false = Ok (Price x) /\
    tree_price Tri (mkTree S K t r b sigma (the_type am) n) call false = Ok (Price v) /\
    Rabs (x - v) <= 60 * (INR n * delta) * exp ((Rabs r + Rabs b) * t) * (S + K).
Proof. exact c72_trinomial. Qed.
Print Assumptions C72_trinomial.
Example C72_trinomial_case call am : exists x v,
  @tree_price R (FNum binary64) Tri (mkTree 100 100 2 (1/10) (1/10) (1/2) (the_type am) 16) call false = Ok (Price x) /\
  tree_price Tri (mkTree 100 100 2 (1/10) (1/10) (1/2) (the_type am) 16) call false = Ok (Price v) /\ Rabs (x - v) <= / 10 ^ 6.
Proof.
  destruct C72_small as ((U0 & U1) & E1 & E2). assert (N16 : INR 16 = 16) by (cbn; lra). assert (Q1 : 2 / INR 16 / 2 = / 4 * / 4) by (rewrite N16; field). assert (Q2 : 2 * (2 * INR 16) = 8 * 8) by (rewrite N16; ring).
  assert (X1 : / 2 ^ 10 <= exp (- (1 / 2 * 8))). { replace (- (1 / 2 * 8)) with (INR 4 * - 1) by (cbn; field). rewrite <- exp_pow. pose proof exp_le_3 as E3. assert (X : / 3 <= exp (- 1)) by (replace (- 1) with (Ropp 1) by ring; rewrite exp_Ropp; apply Rinv_le_contravar; [apply exp_pos|exact E3]). apply Rle_trans with ((/ 3) ^ 4); [cbn [pow]; lra|apply pow_incr; lra]. }
  assert (X2 : exp (1 / 10 * 2 + 1 / 10 * 2) <= 3) by (apply Rle_trans with (2 := exp_le_3); apply exp_mono; lra).
  pose proof binary64_accurate as HA. set (u := / 2 ^ 53) in *. set (eta := / 2 ^ 1075) in *. assert (U5 : u <= / 1000000000000000) by (cbn [pow] in U1; lra).
  destruct (C72_trinomial binary64 u eta HA E1 100 100 2 (1/10) (1/10) (1/2) 16 call am) as (x & v & P1 & P2 & P3); rewrite ?Q1, ?Q2, ?sqrt_square in * by lra; rewrite ?N16 in *; try lra; try lia.
  - rewrite Rabs_pos_eq; lra.
  - rewrite Rabs_pos_eq; lra.
  - apply Rle_trans with (1 := E2). rewrite Rmin_left by lra. apply Rmult_le_compat_l; lra.
  - exists x, v. split; [exact P1|]. split; [exact P2|]. apply Rle_trans with (1 := P3). rewrite !(Rabs_pos_eq (1/10)) by lra. rewrite Rmult_plus_distr_r.
    apply Rle_trans with (60 * (4096 * u) * 3 * (100 + 100)); [|cbn [pow]; lra]. apply Rmult_le_compat_r; [lra|]. apply Rmult_le_compat; try lra. apply Rlt_le, exp_pos.
Qed.

(** The total error of the price a trinomial tree computes in floating-point arithmetic against the exact Black-Scholes price: there is a constant with |x - v| <= C (S + K) (1 / sqrt n + u n sqrt n) for all large n with C u n sqrt n <= 1, all spots and strikes away from underflow. *)
Theorem C72_trinomial_total : forall t r b sigma, 0 < t -> 0 < sigma -> exists C N, 0 < C /\ forall A u eta, accurate_fp A u eta -> eta <= u * u ->
  forall S K (call : bool) n, 0 < S -> 0 < K -> (N <= n)%nat -> let cost := INR n * sqrt (INR n) in
  C * (u * cost) <= 1 -> eta <= u * K -> eta <= u * (Rmin 1 S * exp (- (sigma * sqrt (2 * (t * INR n))))) ->
  exists x v, @tree_price R (FNum A) Tri (mkTree S K t r b sigma "european" n) call false = Ok (Price x) /\
    (if call then gbs_call_F Phi else gbs_put_F Phi) (GBSOption S K t r b (Some sigma)) = Ok v /\
    Rabs (x - v) <= C * (S + K) * (/ sqrt (INR n) + u * cost).
Proof. exact c72_trinomial_total. Qed.
Print Assumptions C72_trinomial_total.
Example C72_trinomial_total_case eps call : 0 < eps -> exists n p x v,
  @tree_price R (FNum (precision p)) Tri (mkTree 100 90 1 (1/10) (1/20) (1/4) "european" n) call false = Ok (Price x) /\
  (if call then gbs_call_F Phi else gbs_put_F Phi) (GBSOption 100 90 1 (1/10) (1/20) (Some (1/4))) = Ok v /\ Rabs (x - v) <= eps.
Proof.
  intro He. destruct (C72_trinomial_total 1 (1/10) (1/20) (1/4) ltac:(lra) ltac:(lra)) as (C & N & HC & H). assert (Ce : 0 < C * 380 / eps) by (apply Rdiv_lt_0_compat; lra).
  destruct (sqrt_large (C * 380 / eps)) as [N1 H1]. set (n := Nat.max N N1). specialize (H1 n ltac:(lia)). set (q := sqrt (INR n)) in *.
  set (cost := INR n * sqrt (INR n)). assert (C0 : 0 <= cost) by (unfold cost; pose proof (pos_INR n); pose proof (sqrt_pos (INR n)); apply Rmult_le_pos; lra).
  destruct (nfloor_ex (C * cost + C * 380 / eps * cost) ltac:(repeat apply Rplus_le_le_0_compat; apply Rmult_le_pos; lra)) as [m [_ Hm]]. set (p := Pos.of_nat (m + 10)). assert (Ep : Pos.to_nat p = (m + 10)%nat) by (unfold p; rewrite Nat2Pos.id; lia).
  assert (B : INR m + 1 <= 2 ^ Pos.to_nat p). { pose proof (poly (m + 10) 1 ltac:(lra)) as Y. rewrite Ep. replace (1 + 1) with 2 in Y by ring. rewrite plus_INR, Rmult_1_r in Y. replace (INR 10) with 10 in Y by (cbn; lra). lra. }
  set (u := / 2 ^ Pos.to_nat p) in *. assert (Pu : 0 < u) by (unfold u; apply Rinv_0_lt_compat, pow_lt; lra). assert (Bu : u * (C * cost + C * 380 / eps * cost) <= 1). { apply Rle_trans with (u * 2 ^ Pos.to_nat p); [apply Rmult_le_compat_l; lra|]. right. unfold u. apply Rinv_l. apply pow_nonzero. lra. }
  assert (B1 : 0 <= u * (C * cost)) by (apply Rmult_le_pos; [lra|apply Rmult_le_pos; lra]). assert (B2 : 0 <= u * (C * 380 / eps * cost)) by (apply Rmult_le_pos; [lra|apply Rmult_le_pos; lra]).
  destruct (H (precision p) u 0 (precision_accurate p ltac:(lia)) ltac:(apply Rmult_le_pos; lra) 100 90 call n ltac:(lra) ltac:(lra) ltac:(lia)) as (x & v & P1 & P2 & P3).
  - fold cost. lra.
  - lra.
  - rewrite Rmin_left by lra. apply Rmult_le_pos; [lra|]. apply Rmult_le_pos; [lra|apply Rlt_le, exp_pos].
  - exists n, p, x, v. split; [exact P1|]. split; [exact P2|]. apply Rle_trans with (1 := P3). fold q cost. assert (Pq : 0 < q) by lra.
    assert (T1 : C * 190 * / q <= eps / 2). { apply (Rmult_le_reg_r q); [lra|]. rewrite Rmult_assoc, Rinv_l by lra. apply (Rmult_le_compat_l (eps / 2)) in H1; [|lra]. replace (eps / 2 * (C * 380 / eps)) with (C * 190) in H1 by (field; lra). lra. }
    assert (T2 : C * 190 * (u * cost) <= eps / 2). { replace (C * 190 * (u * cost)) with (eps / 2 * (u * (C * 380 / eps * cost))) by (field; lra). rewrite <- (Rmult_1_r (eps / 2)) at 2. apply Rmult_le_compat_l; [lra|]. rewrite Rmult_plus_distr_l in Bu. lra. }
    apply Rle_trans with (C * 190 * / q + C * 190 * (u * cost)); [right; change (C * (100 + 90) * (/ q + u * cost) = C * 190 * / q + C * 190 * (u * cost)); ring|lra].
Qed.

