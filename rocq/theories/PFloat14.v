(** Trinomial trees in floating-point arithmetic against exact arithmetic and the Black-Scholes formula (C72). *)
From Coq Require Import Reals QArith Qreals ZArith String List Arith Lra Lia Psatz.
From Coquelicot Require Import Coquelicot.
From Verif Require Import Num Py Arr MBase MVanilla MTrees STrees MFloat SFloat PTrees PTrees2 PTrees3 PTrees4 PGauss PLattice PFloat PFloat2 PFloat5 PFloat6 PFloat7 PFloat8 PFloat9 PFloat10 PFloat11 PFloat12 PFloat13 PRate3.
Import ListNotations.
Open Scope R_scope.

(*@ C72_trinomial | Rounding errors in trinomial trees: with h = sigma sqrt(dt / 2) the volatility of half a step, the computed price of a European or American option differs from the price in exact arithmetic by at most 60 n delta exp((|r| + |b|) t) (S + K), delta = 32 u / h. *)
Lemma c72_trinomial : forall A u eta, accurate_fp A u eta -> eta <= u * u -> forall S K t r b sigma n (call am : bool), 0 < S -> 0 < K -> 0 < t -> 0 < sigma -> n <> 0%nat ->
  let dt := t / INR n in let h := sigma * sqrt (dt / 2) in let delta := 32 * u / h in
  u <= dt -> 100 * u <= h <= / 4 -> Rabs b * dt <= h -> Rabs r * dt <= 1 ->
  INR n * delta <= / 1000 -> eta <= u * K -> eta <= u * (Rmin 1 S * exp (- (sigma * sqrt (2 * (t * INR n))))) ->
  exists x v, @tree_price R (FNum A) Tri (mkTree S K t r b sigma (the_type am) n) call false = Ok (Price x) /\
    tree_price Tri (mkTree S K t r b sigma (the_type am) n) call false = Ok (Price v) /\
    Rabs (x - v) <= 60 * (INR n * delta) * exp ((Rabs r + Rabs b) * t) * (S + K).
Proof.
  intros A u eta HA Heu S K t r b s n call am HS HK Ht Hs Hn dt h w Hd1 Hh Hb Hr Hnw EK ES.
  do 2 eexists. split; [exact (tri_float_value A u eta HA S K t r b s n call am Hn)|]. split; [exact (tri_exact_value S K t r b s n call am Hn Ht Hs)|].
  pose proof (tri_moves A u eta HA Heu t n Ht Hn Hd1 b s Hs Hh Hb) as TM. pose proof (disc_close A u eta HA Heu t n Ht Hn Hd1 r Hr) as CD. fold dt in TM, CD |- *. fold h in TM |- *. set (p := step_p CRR b s (dt / 2)) in *. set (fdt := rnd A (t / rnd A (INR n))) in *. destruct TM as (_ & Cu & Cd & Hp & C2 & C0). fold w in C2, C0.
  assert (Hs0 : s <> 0) by lra. assert (HN : 0 < INR n) by (apply lt_0_INR; lia). assert (Hdt : 0 < dt) by now apply Rdiv_lt_0_compat. pose proof (u_range A u eta HA) as Hu. assert (Ph : 0 < h) by (apply Rmult_lt_0_compat; [exact Hs|apply sqrt_lt_R0; lra]).
  assert (Hw : 128 * u <= w). { unfold w. apply (Rmult_le_reg_r h); [exact Ph|]. replace (32 * u / h * h) with (32 * u) by (field; lra). assert (u * h <= u * / 4) by (apply Rmult_le_compat_l; lra). lra. }
  set (U := exp (2 * h)) in *. set (D := exp (- (2 * h))) in *. assert (PU : 0 < U) by apply exp_pos. assert (PD : 0 < D) by apply exp_pos. assert (UD : U * D = 1) by (unfold U, D; rewrite <- exp_plus, Rplus_opp_r; apply exp_0).
  assert (U3 : U <= 3) by (apply Rle_trans with (2 := exp_le_3); apply exp_mono; lra). assert (D1 : D <= 1) by (rewrite <- exp_0; apply exp_mono; lra). assert (U1 : 1 <= U) by (rewrite <- exp_0; apply exp_mono; lra).
  set (L := exp ((Rabs r + Rabs b) * dt)). assert (EL : exp ((Rabs r + Rabs b) * t) = L ^ n). { unfold L. rewrite exp_pow. f_equal. unfold dt. field. lra. } rewrite EL.
  pose proof (Rabs_pos r) as Rr. pose proof (Rabs_pos b) as Rb. pose proof (RRle_abs b) as Ab. pose proof (RRle_abs (- r)) as Ar. rewrite Rabs_Ropp in Ar.
  assert (rdt : 0 <= Rabs r * dt) by (apply Rmult_le_pos; lra). assert (bdt : 0 <= Rabs b * dt) by (apply Rmult_le_pos; lra). assert (rdt' : - r * dt <= Rabs r * dt) by (apply Rmult_le_compat_r; lra). assert (bdt' : b * dt <= Rabs b * dt) by (apply Rmult_le_compat_r; lra).
  assert (HmS : 0 < Rmin 1 S <= S /\ Rmin 1 S <= 1) by (split; [split; [apply Rmin_glb_lt; lra|apply Rmin_r]|apply Rmin_l]).
  assert (EDn : exp (- (s * sqrt (2 * (t * INR n)))) = D ^ n).
  { unfold D. rewrite exp_pow. f_equal. unfold h. rewrite <- Ropp_mult_distr_r. f_equal. replace (2 * (t * INR n)) with (2 * dt * (INR n * INR n)) by (unfold dt; field; lra). rewrite sqrt_mult by nra. rewrite sqrt_square by lra. unfold dt. rewrite (sqrt_2dt t n Hn Ht). ring. }
  rewrite EDn in ES. assert (EM : Rmin 1 D = D) by (apply Rmin_right; lra).
  assert (Wm : forall z, 0 <= z -> u * z <= w * z) by (intros z Hz; apply Rmult_le_compat_r; lra). assert (PDn : 0 < D ^ n) by now apply pow_lt.
  assert (MS : 0 <= Rmin 1 S * D ^ n) by (apply Rmult_le_pos; lra). assert (Dn1 : D ^ n <= 1) by (apply Rle_trans with (1 ^ n); [apply pow_incr; lra|rewrite pow1; lra]).
  apply (tri_close A u eta HA S K U D (p ^ 2) (2 * p * (1 - p)) ((1 - p) ^ 2) (exp (- r * dt)) L w (tri_fu A s fdt) (tri_fd A s fdt) (tri_fpu A b s fdt) (tri_fpd A b s fdt) _ n call am); try assumption; try lra.
  - apply pow2_ge_0.
  - apply Rmult_le_pos; lra.
  - apply pow2_ge_0.
  - apply exp_pos.
  - unfold L. rewrite <- exp_0. apply exp_mono. lra.
  - apply exp_mono. lra.
  - pose proof (moves_forward 1 1 t 0 b s n Hn Ht Hs0 Tri ltac:(discriminate)) as M. fold dt in M. cbn [moves map fst snd sumR fold_right] in M. fold h in M. fold p in M.
    unfold L. replace (p ^ 2 * U + 2 * p * (1 - p) + (1 - p) ^ 2 * D) with (exp (b * dt)) by (rewrite <- M; unfold U, D; ring). rewrite <- exp_plus. apply exp_mono. lra.
  - intros i Hi. destruct (min_pow D n i PD Hi) as [[M0 M1] M2]. rewrite EM in M0, M1, M2. assert (MU : 1 <= U ^ i) by now apply pow_R1_Rle.
    assert (X1 : Rmin 1 S * D ^ n <= 1 * D ^ n) by (apply Rmult_le_compat_r; lra). assert (X2 : Rmin 1 S * D ^ n <= S * U ^ i) by (apply Rmult_le_compat; lra).
    repeat split; (eapply Rle_trans; [exact ES|]; eapply Rle_trans; [apply Wm, MS|]; apply Rmult_le_compat_l; lra).
  - eapply Rle_trans; [exact EK|]. apply Wm. lra.
  - eapply Rle_trans; [exact ES|]. eapply Rle_trans; [apply Wm, MS|]. rewrite <- (Rmult_1_r w) at 2. apply Rmult_le_compat_l; [lra|]. apply Rle_trans with (1 * 1); [apply Rmult_le_compat; lra|lra].
  - eapply Rle_trans; [exact Cu|]. apply Rmult_le_compat_r; lra.
  - eapply Rle_trans; [exact Cd|]. apply Rmult_le_compat_r; lra.
  - eapply Rle_trans; [exact CD|]. apply Rmult_le_compat_r; [apply Rlt_le, exp_pos|lra].
Qed.

(*@ C72_trinomial_total | The total error of the price a trinomial tree computes in floating-point arithmetic against the exact Black-Scholes price: there is a constant with |x - v| <= C (S + K) (1 / sqrt n + u n sqrt n) for all large n with C u n sqrt n <= 1, all spots and strikes away from underflow. *)
Lemma c72_trinomial_total : forall t r b sigma, 0 < t -> 0 < sigma -> exists C N, 0 < C /\ forall A u eta, accurate_fp A u eta -> eta <= u * u ->
  forall S K (call : bool) n, 0 < S -> 0 < K -> (N <= n)%nat -> let cost := INR n * sqrt (INR n) in
  C * (u * cost) <= 1 -> eta <= u * K -> eta <= u * (Rmin 1 S * exp (- (sigma * sqrt (2 * (t * INR n))))) ->
  exists x v, @tree_price R (FNum A) Tri (mkTree S K t r b sigma "european" n) call false = Ok (Price x) /\
    (if call then gbs_call_F Phi else gbs_put_F Phi) (GBSOption S K t r b (Some sigma)) = Ok v /\
    Rabs (x - v) <= C * (S + K) * (/ sqrt (INR n) + u * cost).
Proof.
  intros t r b s Ht Hs. destruct (c71_rate Tri t r b s Ht Hs) as (C0 & N0 & H0).
  set (a := s * sqrt (t / 2)). assert (Pa : 0 < a) by (apply Rmult_lt_0_compat; [exact Hs|apply sqrt_lt_R0; lra]). set (ka := 32 / a). assert (P1 : 0 < ka) by (apply Rdiv_lt_0_compat; lra).
  assert (P4 : 0 < / t) by now apply Rinv_0_lt_compat. set (ex := exp ((Rabs r + Rabs b) * t)). assert (Pe : 0 < ex) by apply exp_pos.
  assert (Pke : 0 < ka * ex) by (apply Rmult_lt_0_compat; lra). pose proof (Rabs_pos C0) as PC0.
  set (X := 4 * a + (Rabs b * t) / a + Rabs r * t + t + 1). assert (X1 : 0 <= (Rabs b * t) / a) by (apply Rmult_le_pos; [apply Rmult_le_pos; [apply Rabs_pos|lra]|apply Rlt_le, Rinv_0_lt_compat; lra]). assert (X2 : 0 <= Rabs r * t) by (apply Rmult_le_pos; [apply Rabs_pos|lra]).
  destruct (sqrt_large X) as [N1 HN1]. exists (Rabs C0 + 60 * (ka * ex) + 1000 * ka + / t), (Nat.max (Nat.max N0 N1) 1). split; [lra|].
  intros A u eta HA Heu S K call n HS HK Hn cost Hc EK ES. destruct (H0 S K call n HS HK ltac:(lia)) as (v & x & G1 & G2 & G3). specialize (HN1 n ltac:(lia)).
  assert (n0 : n <> 0%nat) by lia. assert (HN : 0 < INR n) by (apply lt_0_INR; lia). set (q := sqrt (INR n)) in *. assert (Eq : q * q = INR n) by (apply sqrt_sqrt; lra). assert (q1 : 1 <= q) by (unfold X in HN1; lra).
  pose proof (u_range A u eta HA) as Hu. set (C := Rabs C0 + _ + _ + _) in *.
  assert (Ecost : INR n <= cost) by (unfold cost; nra). assert (uc : 0 <= u * cost) by (apply Rmult_le_pos; lra).
  assert (un : u * INR n <= u * cost) by (apply Rmult_le_compat_l; lra). assert (un0 : 0 <= u * INR n) by (apply Rmult_le_pos; lra).
  assert (Cun : forall c, 0 <= c <= C -> c * (u * INR n) <= 1) by (intros c Hcc; apply Rle_trans with (C * (u * cost)); [apply Rmult_le_compat; lra|exact Hc]).
  set (dt := t / INR n). assert (Edt : dt * INR n = t) by (unfold dt; field; lra). assert (Hdt : 0 < dt) by now apply Rdiv_lt_0_compat.
  assert (Eh : s * sqrt (dt / 2) = a / q). { unfold dt, a, q. replace (t / INR n / 2) with (t / 2 / INR n) by (field; lra). rewrite sqrt_div by lra. field. pose proof (sqrt_lt_R0 _ HN). lra. }
  assert (I1 : / q <= 1) by (rewrite <- Rinv_1; apply Rinv_le_contravar; lra). assert (I0 : 0 < / q) by (apply Rinv_0_lt_compat; lra). assert (Ed : dt = t * / q * / q) by (unfold dt; rewrite <- Eq; field; lra).
  assert (S1 : u <= dt). { apply (Rmult_le_reg_r (INR n)); [exact HN|]. rewrite Edt. assert (Y : / t * (u * INR n) <= 1) by (apply Cun; unfold C; lra). apply (Rmult_le_compat_l t) in Y; [|lra]. replace (t * (/ t * (u * INR n))) with (u * INR n) in Y by (field; lra). lra. }
  set (h := s * sqrt (dt / 2)) in *. assert (Pq : 0 < q) by lra. assert (S3 : 100 * u <= h). { rewrite Eh. apply (Rmult_le_reg_r q); [lra|]. replace (a / q * q) with a by (field; lra). assert (Y : 1000 * ka * (u * cost) <= 1) by (apply Rle_trans with (C * (u * cost)); [apply Rmult_le_compat_r; [lra|unfold C; lra]|exact Hc]). apply (Rmult_le_compat_l a) in Y; [|lra]. replace (a * (1000 * ka * (u * cost))) with (32000 * (u * cost)) in Y by (unfold ka; field; lra). assert (u * q <= u * cost) by (apply Rmult_le_compat_l; [lra|unfold cost; rewrite <- Eq; nra]). lra. }
  assert (S4 : h <= / 4). { rewrite Eh. apply (Rmult_le_reg_r q); [lra|]. replace (a / q * q) with a by (field; lra). unfold X in HN1. lra. }
  assert (S5 : Rabs b * dt <= h). { rewrite Eh, Ed. apply (Rmult_le_reg_r q); [lra|]. replace (a / q * q) with a by (field; lra). replace (Rabs b * (t * / q * / q) * q) with (Rabs b * t * / q) by (field; lra). apply (Rmult_le_reg_r q); [lra|]. rewrite Rmult_assoc, Rinv_l, Rmult_1_r by lra. assert (Y : (Rabs b * t) / a <= q) by (unfold X in HN1; lra). apply (Rmult_le_compat_l a) in Y; [|lra]. replace (a * (Rabs b * t / a)) with (Rabs b * t) in Y by (field; lra). lra. }
  assert (S6 : Rabs r * dt <= 1). { rewrite Ed. replace (Rabs r * (t * / q * / q)) with (Rabs r * t * / q * / q) by ring. assert (Y : Rabs r * t * / q <= 1) by (apply (Rmult_le_reg_r q); [lra|]; rewrite Rmult_assoc, Rinv_l by lra; unfold X in HN1; lra). apply Rle_trans with (1 * 1); [apply Rmult_le_compat; try lra; apply Rmult_le_pos; lra|lra]. }
  set (delta := 32 * u / h).
  assert (S7 : INR n * delta = ka * (u * cost)) by (unfold delta, ka, cost; rewrite Eh; field; lra).
  assert (S8 : INR n * delta <= / 1000). { assert (Y : 1000 * ka * (u * cost) <= 1) by (apply Rle_trans with (C * (u * cost)); [apply Rmult_le_compat_r; [lra|unfold C; lra]|exact Hc]). lra. }
  destruct (c72_trinomial A u eta HA Heu S K t r b s n call false HS HK Ht Hs n0 S1 (conj S3 S4) S5 S6 S8 EK ES) as (y & x' & R1 & R2 & R3). change (the_type false) with "european"%string in R1, R2. rewrite G2 in R2. injection R2 as <-.
  exists y, v. split; [exact R1|]. split; [exact G1|]. replace (y - v) with ((y - x) + (x - v)) by ring. eapply Rle_trans; [apply Rabs_triang|]. fold dt in R3. fold h in R3. fold delta in R3. fold ex in R3. rewrite S7 in R3.
  assert (T1 : C0 * (S + K) / q <= Rabs C0 * ((S + K) * / q)). { unfold Rdiv. rewrite Rmult_assoc. apply Rmult_le_compat_r; [apply Rmult_le_pos; lra|apply RRle_abs]. }
  assert (Q1 : 0 <= (S + K) * / q) by (apply Rmult_le_pos; lra). assert (Q2 : 0 <= (S + K) * (u * cost)) by (apply Rmult_le_pos; lra).
  assert (T3 : Rabs C0 * ((S + K) * / q) <= C * ((S + K) * / q)) by (apply Rmult_le_compat_r; [exact Q1|unfold C; lra]). assert (T4 : 60 * (ka * ex) * ((S + K) * (u * cost)) <= C * ((S + K) * (u * cost))) by (apply Rmult_le_compat_r; [exact Q2|unfold C; lra]).
  replace (C * (S + K) * (/ q + u * cost)) with (C * ((S + K) * / q) + C * ((S + K) * (u * cost))) by ring. lra.
Qed.
