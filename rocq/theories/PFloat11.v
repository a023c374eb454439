(** Stability of binomial trees in floating-point arithmetic (C72): the three models, and the total error. *)
From Coq Require Import Reals QArith Qreals ZArith String List Arith Lra Lia Psatz.
From Coquelicot Require Import Coquelicot.
From Verif Require Import Num Py Arr MBase MVanilla MTrees STrees MFloat SFloat PTrees PTrees3 PTrees4 PGauss PLattice PFloat PFloat2 PFloat5 PFloat6 PFloat7 PFloat8 PFloat9 PFloat10 PRate3.
Import ListNotations.
Open Scope R_scope.

(** the down move is not too small *)
Lemma step_d_low k b s dt : 0 < s -> 0 < dt -> let h := s * sqrt dt in h <= / 4 -> Rabs b * dt <= h / 2 -> exp (- (3 * h)) <= step_d k b s dt.
Proof.
  intros Hs Hdt h Hh Hb. assert (Ph : 0 < h) by (apply Rmult_lt_0_compat; [exact Hs|now apply sqrt_lt_R0]). assert (Eh : s ^ 2 * dt = h ^ 2) by (unfold h; rewrite Rpow_mult_distr, pow2_sqrt by lra; reflexivity).
  assert (H2 : 0 < h ^ 2 <= / 4 * h) by (replace (h ^ 2) with (h * h) by ring; split; [nra|apply Rmult_le_compat_r; lra]). assert (Bb : Rabs (b * dt) <= h / 2) by (rewrite Rabs_mult, (Rabs_pos_eq dt) by lra; exact Hb). apply le_abs in Bb.
  destruct k; cbn [step_d]; fold h.
  - apply exp_mono. lra.
  - apply exp_mono. replace ((b - s ^ 2 / 2) * dt) with (b * dt - s ^ 2 * dt / 2) by field. rewrite Eh. lra.
  - cbv zeta. rewrite Eh. set (V := exp (h ^ 2)). set (M := exp (b * dt)). assert (V1 : 1 <= V) by (unfold V; rewrite <- exp_0 at 1; apply exp_mono; lra). assert (V2 : V - 1 <= 107 / 100 * h ^ 2).
    { assert (X : V <= / (1 - h ^ 2)) by (apply exp_small; lra). assert (Y : / (1 - h ^ 2) <= 1 + 107 / 100 * h ^ 2). { apply (Rmult_le_reg_l (1 - h ^ 2)); [lra|]. rewrite Rinv_r by lra. assert (h ^ 2 * h ^ 2 <= / 16 * h ^ 2) by (apply Rmult_le_compat_r; lra). lra. } lra. }
    assert (Q : V ^ 2 + 2 * V - 3 <= (22 / 10 * h) ^ 2). { replace (V ^ 2 + 2 * V - 3) with ((V + 3) * (V - 1)) by ring. apply Rle_trans with (41 / 10 * (107 / 100 * h ^ 2)); [apply Rmult_le_compat; lra|]. replace ((22 / 10 * h) ^ 2) with (484 / 100 * h ^ 2) by field. lra. }
    apply sqrt_le_1_alt in Q. rewrite sqrt_pow2 in Q by lra. set (q := sqrt (V ^ 2 + 2 * V - 3)) in *.
    assert (M1 : exp (- (h / 2)) <= M) by (apply exp_mono; lra). assert (M0 : 0 < exp (- (h / 2))) by apply exp_pos. set (x := 11 / 10 * h). assert (X : exp (- (2 * x)) <= 1 - x).
    { rewrite exp_Ropp. apply Rle_trans with (/ (1 + 2 * x)); [apply Rinv_le_contravar; [unfold x; lra|apply exp_ineq1_le]|]. apply (Rmult_le_reg_l (1 + 2 * x)); [unfold x; lra|]. rewrite Rinv_r by (unfold x; lra). unfold x. nra. }
    apply Rle_trans with (exp (- (h / 2)) * exp (- (2 * x))); [rewrite <- exp_plus; apply exp_mono; unfold x; lra|]. apply Rle_trans with (M * (1 - x)); [apply Rmult_le_compat; try lra; apply Rlt_le, exp_pos|].
    replace (M * V / 2 * (V + 1 - q)) with (M * (V * ((V + 1 - q) / 2))) by field. apply Rmult_le_compat_l; [lra|]. rewrite <- (Rmult_1_l (1 - x)). apply Rmult_le_compat; unfold x; lra.
Qed.

(*@ C72_models | Rounding errors in CRR, JR and TIAN trees with ordinary steps: the computed price differs from the price in exact arithmetic by at most 480 n u for JR, 2000 n u / h for CRR and 8000 n u / h^2 for TIAN, h being the volatility per step, times exp((|r| + |b|) t) (S + K). *)
Lemma c72_models : forall A u eta, accurate_fp A u eta -> eta <= u * u -> forall k S K t r b sigma n (call am : bool), 0 < S -> 0 < K -> 0 < t -> 0 < sigma -> n <> 0%nat ->
  let dt := t / INR n in let h := sigma * sqrt dt in let delta := match k with JR => 12 * u | CRR => 50 * u / h | TIAN => 200 * u / h ^ 2 end in
  u <= dt -> u * dt <= 1 -> 1000 * u <= h ^ 2 -> h <= / 4 -> Rabs b * dt <= h / 2 -> Rabs r * dt <= 1 ->
  INR n * delta <= / 1000 -> eta <= u * K -> eta <= u * (Rmin 1 S * exp (- (3 * sigma * sqrt (t * INR n)))) ->
  exists x v, @tree_price R (FNum A) (Bi k) (mkTree S K t r b sigma (the_type am) n) call false = Ok (Price x) /\
    tree_price (Bi k) (mkTree S K t r b sigma (the_type am) n) call false = Ok (Price v) /\
    Rabs (x - v) <= 40 * (INR n * delta) * exp ((Rabs r + Rabs b) * t) * (S + K).
Proof.
  intros A u eta HA Heu k S K t r b s n call am HS HK Ht Hs Hn dt h delta Hd1 Hd2 Hh1 Hh2 Hb Hr Hnd EK ES.
  pose proof (u_range A u eta HA) as Hu. assert (HN : 0 < INR n) by (apply lt_0_INR; lia). assert (Hdt : 0 < dt) by now apply Rdiv_lt_0_compat. assert (Ph : 0 < h) by (apply Rmult_lt_0_compat; [exact Hs|now apply sqrt_lt_R0]). assert (Hs0 : s <> 0) by lra.
  assert (Eh : s ^ 2 * dt = h ^ 2) by (unfold h; rewrite Rpow_mult_distr, pow2_sqrt by lra; reflexivity). assert (H2 : h ^ 2 <= / 4 * h) by (replace (h ^ 2) with (h * h) by ring; apply Rmult_le_compat_r; lra). assert (P2 : 0 < h ^ 2) by now apply pow_lt.
  assert (Huh : u / h <= / 1000). { apply (Rmult_le_reg_r h); [lra|]. replace (u / h * h) with u by (field; lra). lra. }
  assert (L1 : u <= u / h). { apply (Rmult_le_reg_r h); [lra|]. replace (u / h * h) with u by (field; lra). rewrite <- (Rmult_1_r u) at 2. apply Rmult_le_compat_l; lra. }
  assert (L2 : 4 * (u / h) <= u / h ^ 2). { replace (u / h ^ 2) with (u / h / h) by (field; lra). apply (Rmult_le_reg_r h); [lra|]. replace (u / h / h * h) with (u / h) by (field; lra). assert (0 <= u / h) by lra. assert (u / h * (4 * h) <= u / h * 1) by (apply Rmult_le_compat_l; lra). lra. }
  assert (Hdelta : 12 * u <= delta /\ (k <> JR -> 50 * (u / h) <= delta)) by (unfold delta, Rdiv in *; destruct k; split; try (intro; congruence); try intros _; lra).
  apply (c72_stability A u eta HA k S K t r b s n delta call am); try assumption; fold dt.
  - destruct k.
    + pose proof (crr_moves A u eta HA Heu t n Ht Hn Hd1 b s Hs ltac:(fold dt; fold h; lra) Hb) as C. destruct (float_moves A CRR b s _) as [fu fd]. apply C.
    + cbn [step_p]. lra.
    + pose proof (tian_p_01 1 1 t 0 b s "" n Hn Ht Hs0) as TP. rewrite link_p in TP by (auto; lra). fold dt in TP. lra.
  - destruct k.
    + pose proof (crr_moves A u eta HA Heu t n Ht Hn Hd1 b s Hs ltac:(fold dt; fold h; lra) Hb) as C. destruct (float_moves A CRR b s _) as [fu fd]. apply C.
    + pose proof (jr_moves A u eta HA Heu t n Ht Hn Hd1 Hd2 b s Hs ltac:(fold dt; fold h; rewrite Rmult_plus_distr_r, Eh; lra)) as C. destruct (float_moves A JR b s _) as [fu fd]. apply C.
    + pose proof (tian_moves A u eta HA Heu t n Ht Hn Hd1 Hd2 b s Hs Hh1 Hh2 Hb) as C. destruct (float_moves A TIAN b s _) as [fu fd]. apply C.
  - lra.
  - apply Rle_trans with (1 := EK). apply Rmult_le_compat_r; lra.
  - apply Rle_trans with (1 := ES). assert (M1 : 0 < Rmin 1 S) by (apply Rmin_glb_lt; lra). apply Rmult_le_compat; try lra; [apply Rmult_le_pos; [lra|apply Rlt_le, exp_pos]|]. apply Rmult_le_compat_l; [lra|].
    replace (exp (- (3 * s * sqrt (t * INR n)))) with (exp (- (3 * h)) ^ n).
    { apply pow_incr. split; [apply Rlt_le, exp_pos|]. apply Rmin_glb; [rewrite <- exp_0; apply exp_mono; lra|now apply step_d_low]. }
    rewrite exp_pow. f_equal. unfold h. replace (sqrt (t * INR n)) with (INR n * sqrt dt); [ring|]. rewrite <- (sqrt_square (INR n)) at 1 by lra. rewrite <- sqrt_mult by first [lra|apply Rmult_le_pos; lra]. f_equal. unfold dt. field. lra.
  - destruct (step_ud_pos 1 1 t 0 b s n Hn Ht Hs0 k) as [PU PD]. fold dt in PU, PD. destruct k.
    + pose proof (crr_moves A u eta HA Heu t n Ht Hn Hd1 b s Hs ltac:(fold dt; fold h; lra) Hb) as C. fold dt in C. destruct (float_moves A CRR b s _) as [fu fd]. destruct C as (C0 & C1 & C2 & _). split; [intros _; exact C0|].
      split; (eapply Rle_trans; [first [exact C1|exact C2]|]; apply Rmult_le_compat_r; [lra|]; destruct Hdelta as [D1 D2]; specialize (D2 ltac:(discriminate)); lra).
    + pose proof (jr_moves A u eta HA Heu t n Ht Hn Hd1 Hd2 b s Hs ltac:(fold dt; fold h; rewrite Rmult_plus_distr_r, Eh; lra)) as C. fold dt in C. destruct (float_moves A JR b s _) as [fu fd]. destruct C as (C1 & C2 & _). split; [easy|]. split; assumption.
    + pose proof (tian_moves A u eta HA Heu t n Ht Hn Hd1 Hd2 b s Hs Hh1 Hh2 Hb) as C. fold dt in C. fold h in C. destruct (float_moves A TIAN b s _) as [fu fd]. destruct C as (C0 & C1 & C2 & _). split; [intros _; exact C0|].
      assert (X : 100 * u / h <= delta) by (unfold delta, Rdiv in *; lra). split; (eapply Rle_trans; [first [exact C1|exact C2]|]; apply Rmult_le_compat_r; lra).
  - destruct k.
    + pose proof (crr_moves A u eta HA Heu t n Ht Hn Hd1 b s Hs ltac:(fold dt; fold h; lra) Hb) as C. destruct (float_moves A CRR b s _) as [fu fd]. apply C.
    + unfold float_prob. destruct (float_moves A JR b s _). rewrite (a_1 A u eta HA), (a_2 A u eta HA). cbn [step_p]. pose proof (a_err A u eta HA (1 / 2)) as E. rewrite (Rabs_pos_eq (1 / 2)) in E by lra. assert (u * u <= / 1000 * u) by (apply Rmult_le_compat_r; lra). lra.
    + pose proof (tian_moves A u eta HA Heu t n Ht Hn Hd1 Hd2 b s Hs Hh1 Hh2 Hb) as C. destruct (float_moves A TIAN b s _) as [fu fd]. apply C.
  - eapply Rle_trans; [apply (disc_close A u eta HA Heu t n Ht Hn Hd1 r Hr)|]. fold dt. apply Rmult_le_compat_r; [apply Rlt_le, exp_pos|lra].
Qed.

Lemma sqrt_large X : exists N, forall n, (N <= n)%nat -> X <= sqrt (INR n).
Proof.
  destruct (Rle_dec X 0) as [H|H]; [exists 0%nat; intros n _; pose proof (sqrt_pos (INR n)); lra|]. destruct (nfloor_ex (X * X) ltac:(nra)) as [m [_ Hm]]. exists (Datatypes.S m). intros n Hn. rewrite <- (sqrt_square X) by lra. apply sqrt_le_1_alt. apply le_INR in Hn. rewrite S_INR in Hn. lra.
Qed.

(*@ C72_total | The total error of the price a CRR, JR or TIAN tree computes in floating-point arithmetic against the exact Black-Scholes price: there is a constant with |x - v| <= C (S + K) (1 / sqrt n + u n^a), a = 1 for JR, 3/2 for CRR and 2 for TIAN, for all large n with C u n^a <= 1, all spots and strikes away from underflow. *)
Lemma c72_total : forall k t r b sigma, 0 < t -> 0 < sigma -> exists C N, 0 < C /\ forall A u eta, accurate_fp A u eta -> eta <= u * u ->
  forall S K (call : bool) n, 0 < S -> 0 < K -> (N <= n)%nat -> let cost := match k with JR => INR n | CRR => INR n * sqrt (INR n) | TIAN => INR n ^ 2 end in
  C * (u * cost) <= 1 -> eta <= u * K -> eta <= u * (Rmin 1 S * exp (- (3 * sigma * sqrt (t * INR n)))) ->
  exists x v, @tree_price R (FNum A) (Bi k) (mkTree S K t r b sigma "european" n) call false = Ok (Price x) /\
    (if call then gbs_call_F Phi else gbs_put_F Phi) (GBSOption S K t r b (Some sigma)) = Ok v /\
    Rabs (x - v) <= C * (S + K) * (/ sqrt (INR n) + u * cost).
Proof.
  intros k t r b s Ht Hs. destruct (c71_rate (Bi k) t r b s Ht Hs) as (C0 & N0 & H0).
  set (a := s * sqrt t). assert (Pa : 0 < a) by (apply Rmult_lt_0_compat; [exact Hs|now apply sqrt_lt_R0]). set (ka := 12 + 50 / a + 200 / a ^ 2). assert (P1 : 0 < 50 / a) by (apply Rdiv_lt_0_compat; lra). assert (P2 : 0 < 200 / a ^ 2) by (apply Rdiv_lt_0_compat; [lra|now apply pow_lt]).
  assert (P3 : 0 < 1000 / a ^ 2) by (apply Rdiv_lt_0_compat; [lra|now apply pow_lt]). assert (P4 : 0 < / t) by now apply Rinv_0_lt_compat. set (ex := exp ((Rabs r + Rabs b) * t)). assert (Pe : 0 < ex) by apply exp_pos. assert (Pka : 12 < ka) by (unfold ka; lra).
  assert (Pke : 0 < ka * ex) by (apply Rmult_lt_0_compat; lra). pose proof (Rabs_pos C0) as PC0.
  set (X := 4 * a + 2 * (Rabs b * t) / a + Rabs r * t + t + 1). assert (X1 : 0 <= 2 * (Rabs b * t) / a) by (apply Rmult_le_pos; [apply Rmult_le_pos; [lra|apply Rmult_le_pos; [apply Rabs_pos|lra]]|apply Rlt_le, Rinv_0_lt_compat; lra]). assert (X2 : 0 <= Rabs r * t) by (apply Rmult_le_pos; [apply Rabs_pos|lra]).
  destruct (sqrt_large X) as [N1 HN1]. exists (Rabs C0 + 40 * (ka * ex) + 1000 * ka + 1000 / a ^ 2 + / t), (Nat.max (Nat.max N0 N1) 1). split; [lra|].
  intros A u eta HA Heu S K call n HS HK Hn cost Hc EK ES. destruct (H0 S K call n HS HK ltac:(lia)) as (v & x & G1 & G2 & G3). specialize (HN1 n ltac:(lia)).
  assert (n0 : n <> 0%nat) by lia. assert (HN : 0 < INR n) by (apply lt_0_INR; lia). set (q := sqrt (INR n)) in *. assert (Eq : q * q = INR n) by (apply sqrt_sqrt; lra). assert (q1 : 1 <= q) by (unfold X in HN1; lra).
  pose proof (u_range A u eta HA) as Hu. set (C := Rabs C0 + _ + _ + _ + _) in *. 
  assert (Ecost : INR n <= cost). { unfold cost. rewrite <- Eq. destruct k; [nra|lra|]. replace ((q * q) ^ 2) with ((q * q) * (q * q)) by ring. assert (1 <= q * q) by nra. nra. } assert (uc : 0 <= u * cost) by (apply Rmult_le_pos; lra).
  assert (un : u * INR n <= u * cost) by (apply Rmult_le_compat_l; lra). assert (un0 : 0 <= u * INR n) by (apply Rmult_le_pos; lra).
  assert (Cun : forall c, 0 <= c <= C -> c * (u * INR n) <= 1) by (intros c Hcc; apply Rle_trans with (C * (u * cost)); [apply Rmult_le_compat; lra|exact Hc]).
  set (dt := t / INR n). assert (Edt : dt * INR n = t) by (unfold dt; field; lra). assert (Hdt : 0 < dt) by now apply Rdiv_lt_0_compat.
  assert (Eh : s * sqrt dt = a / q). { unfold dt, a, q. rewrite sqrt_div by lra. field. pose proof (sqrt_lt_R0 _ HN). lra. }
  assert (qX : forall c, c <= X -> c <= q) by (intros; lra). assert (Hnq : forall c, 0 <= c -> c <= q -> c * dt <= c * t / q * / q). { intros c C1 C2. right. unfold dt. rewrite <- Eq. field. lra. }
  assert (I1 : / q <= 1) by (rewrite <- Rinv_1; apply Rinv_le_contravar; lra). assert (I0 : 0 < / q) by (apply Rinv_0_lt_compat; lra). assert (Ed : dt = t * / q * / q) by (unfold dt; rewrite <- Eq; field; lra).
  assert (S1 : u <= dt). { apply (Rmult_le_reg_r (INR n)); [exact HN|]. rewrite Edt. assert (Y : / t * (u * INR n) <= 1) by (apply Cun; unfold C; lra). apply (Rmult_le_compat_l t) in Y; [|lra]. replace (t * (/ t * (u * INR n))) with (u * INR n) in Y by (field; lra). lra. }
  assert (tq : t * / q <= 1). { apply (Rmult_le_reg_r q); [lra|]. rewrite Rmult_assoc, Rinv_l by lra. unfold X in HN1. lra. } assert (tq0 : 0 <= t * / q) by (apply Rmult_le_pos; lra).
  assert (d1 : dt <= 1). { rewrite Ed. apply Rle_trans with (1 * 1); [apply Rmult_le_compat; lra|lra]. }
  assert (S2 : u * dt <= 1) by (apply Rle_trans with (1 * 1); [apply Rmult_le_compat; lra|lra]).
  set (h := s * sqrt dt) in *. assert (S3 : 1000 * u <= h ^ 2). { rewrite Eh. apply (Rmult_le_reg_r (INR n)); [exact HN|]. replace ((a / q) ^ 2 * INR n) with (a ^ 2) by (rewrite <- Eq; field; lra). assert (Y : 1000 / a ^ 2 * (u * INR n) <= 1) by (apply Cun; unfold C; lra). assert (Pa2 : 0 < a ^ 2) by now apply pow_lt. apply (Rmult_le_compat_l (a ^ 2)) in Y; [|lra]. replace (a ^ 2 * (1000 / a ^ 2 * (u * INR n))) with (1000 * (u * INR n)) in Y by (field; lra). lra. }
  assert (S4 : h <= / 4). { rewrite Eh. apply (Rmult_le_reg_r q); [lra|]. replace (a / q * q) with a by (field; lra). unfold X in HN1. lra. }
  assert (S5 : Rabs b * dt <= h / 2). { rewrite Eh, Ed. apply (Rmult_le_reg_r (2 * q)); [lra|]. replace (a / q / 2 * (2 * q)) with a by (field; lra). replace (Rabs b * (t * / q * / q) * (2 * q)) with (2 * (Rabs b * t) * / q) by (field; lra). apply (Rmult_le_reg_r q); [lra|]. rewrite Rmult_assoc, Rinv_l, Rmult_1_r by lra. assert (Y : 2 * (Rabs b * t) / a <= q) by (unfold X in HN1; lra). apply (Rmult_le_compat_l a) in Y; [|lra]. replace (a * (2 * (Rabs b * t) / a)) with (2 * (Rabs b * t)) in Y by (field; lra). lra. }
  assert (S6 : Rabs r * dt <= 1). { rewrite Ed. replace (Rabs r * (t * / q * / q)) with (Rabs r * t * / q * / q) by ring. assert (Y : Rabs r * t * / q <= 1) by (apply (Rmult_le_reg_r q); [lra|]; rewrite Rmult_assoc, Rinv_l by lra; unfold X in HN1; lra). apply Rle_trans with (1 * 1); [apply Rmult_le_compat; try lra; apply Rmult_le_pos; lra|lra]. }
  set (delta := match k with JR => 12 * u | CRR => 50 * u / h | TIAN => 200 * u / h ^ 2 end).
  assert (S7 : INR n * delta <= ka * (u * cost)).
  { assert (Y : forall c, 0 <= c -> c <= ka -> INR n * delta = c * (u * cost) -> INR n * delta <= ka * (u * cost)) by (intros c _ Hcc ->; apply Rmult_le_compat_r; lra).
    unfold delta, cost in *. destruct k; [apply (Y (50 / a))|apply (Y 12)|apply (Y (200 / a ^ 2))]; try (unfold ka; lra); try lra.
    - rewrite Eh. field. lra.
    - rewrite Eh. rewrite <- Eq. field. lra. }
  assert (S8 : INR n * delta <= / 1000). { assert (Y : 1000 * ka * (u * cost) <= 1) by (apply Rle_trans with (C * (u * cost)); [apply Rmult_le_compat_r; [lra|unfold C; lra]|exact Hc]). lra. }
  destruct (c72_models A u eta HA Heu k S K t r b s n call false HS HK Ht Hs n0 S1 S2 S3 S4 S5 S6 S8 EK ES) as (y & x' & R1 & R2 & R3). change (the_type false) with "european"%string in R1, R2. rewrite G2 in R2. injection R2 as <-.
  exists y, v. split; [exact R1|]. split; [exact G1|]. replace (y - v) with ((y - x) + (x - v)) by ring. eapply Rle_trans; [apply Rabs_triang|].
  assert (T1 : C0 * (S + K) / q <= Rabs C0 * ((S + K) * / q)). { unfold Rdiv. rewrite Rmult_assoc. apply Rmult_le_compat_r; [apply Rmult_le_pos; lra|apply RRle_abs]. }
  assert (T2 : 40 * (INR n * delta) * ex * (S + K) <= 40 * (ka * ex) * ((S + K) * (u * cost))). { replace (40 * (INR n * delta) * ex * (S + K)) with (INR n * delta * (40 * ex * (S + K))) by ring. replace (40 * (ka * ex) * ((S + K) * (u * cost))) with (ka * (u * cost) * (40 * ex * (S + K))) by ring. apply Rmult_le_compat_r; [repeat apply Rmult_le_pos; lra|exact S7]. }
  change (40 * (INR n * match k with CRR => 50 * u / h | JR => 12 * u | TIAN => 200 * u / h ^ 2 end) * exp ((Rabs r + Rabs b) * t) * (S + K)) with (40 * (INR n * delta) * ex * (S + K)) in R3.
  assert (Q1 : 0 <= (S + K) * / q) by (apply Rmult_le_pos; lra). assert (Q2 : 0 <= (S + K) * (u * cost)) by (apply Rmult_le_pos; lra).
  assert (T3 : Rabs C0 * ((S + K) * / q) <= C * ((S + K) * / q)) by (apply Rmult_le_compat_r; [exact Q1|unfold C; lra]). assert (T4 : 40 * (ka * ex) * ((S + K) * (u * cost)) <= C * ((S + K) * (u * cost))) by (apply Rmult_le_compat_r; [exact Q2|unfold C; lra]).
  replace (C * (S + K) * (/ q + u * cost)) with (C * ((S + K) * / q) + C * ((S + K) * (u * cost))) by ring. apply Rle_trans with (C0 * (S + K) / q + 40 * (INR n * delta) * ex * (S + K)); [rewrite Rplus_comm; apply Rplus_le_compat; [exact G3|exact R3]|]. lra.
Qed.
