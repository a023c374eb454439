(** Bjerksund-Stensland: accuracy of the code's price, and its comparison with the European price (C80). *)
From Coq Require Import Reals ZArith QArith Qreals String List Bool Lra Lia.
From Coquelicot Require Import Coquelicot.
From Interval Require Import Tactic.
From Verif Require Import Num Py MBase MVanilla MTrees MAmerican PTrees2 PGauss PCnd PCnd2 PCndAcc PBlack PGbs PVanilla SAmerican PBs.
Open Scope R_scope.

Definition eN : R := 75 / 10 ^ 9.
Lemma eN_pos : 0 < eN. Proof. unfold eN. lra. Qed.

Section Acc.
Variables X t r b s : R.
Hypothesis HX : 0 < X.
Hypothesis Ht : 0 < t.
Hypothesis Hs : 0 < s.
Definition wt (S I0 g : R) : R := exp ((- r + g * b + g * (g - 1) / 2 * s ^ 2) * t) * Rpower S g * (1 + Rpower (I0 / S) (2 * b / s ^ 2 + 2 * g - 1)).
Lemma wt_pos S I0 g : 0 < wt S I0 g.
Proof. unfold wt, Rpower. pose proof (exp_pos (g * ln S)). pose proof (exp_pos ((2 * b / s ^ 2 + 2 * g - 1) * ln (I0 / S))). pose proof (exp_pos ((- r + g * b + g * (g - 1) / 2 * s ^ 2) * t)).
  apply Rmult_lt_0_compat; [apply Rmult_lt_0_compat|]; lra. Qed.
Lemma phi_acc S g H I0 : 0 < S -> 0 < H -> 0 < I0 -> Rabs (bs_phi_F cnd S t g H I0 r b s - bs_phi_F Phi S t g H I0 r b s) <= wt S I0 g * eN.
Proof.
  intros HS HH HI. rewrite !phi_eq by assumption.
  set (a := exp ((- r + g * b + 1 / 2 * g * (g - 1) * s ^ 2) * t) * exp (g * ln S)).
  set (q := exp (phi_l S I0 * (2 * b / s ^ 2 + (2 * g - 1)))).
  assert (Ea : exp ((- r + g * b + g * (g - 1) / 2 * s ^ 2) * t) * Rpower S g = a) by (unfold a, Rpower; do 2 f_equal; field).
  assert (Eq : Rpower (I0 / S) (2 * b / s ^ 2 + 2 * g - 1) = q).
  { unfold q, Rpower. rewrite ln_div by assumption. unfold phi_l. f_equal. ring. }
  unfold wt. rewrite Ea, Eq. assert (0 < a) by (unfold a; apply Rmult_lt_0_compat; apply exp_pos). assert (0 < q) by apply exp_pos.
  rewrite <- Rmult_minus_distr_l, Rabs_mult, (Rabs_pos_eq a) by lra. rewrite Rmult_assoc. apply Rmult_le_compat_l; [lra|].
  set (x := phi_z t b s S H - g * (s * sqrt t)). set (y := x - 2 * phi_l S I0 / (s * sqrt t)). generalize (diff2 cnd Phi 1 q x y eN ltac:(lra) ltac:(lra) cnd_accuracy). rewrite !Rmult_1_l. easy.
Qed.
End Acc.

(*@ C80_accuracy | The code's Bjerksund-Stensland call (b < r, b t + 2 sigma sqrt t > 0) and the same formula with the exact normal distribution function report the same trigger, agree from the trigger on, and below it differ by at most 7.5e-8 times the sum of the weights of the six terms of the formula. *)
Lemma c80_accuracy : forall S K t r b s, 0 < S -> 0 < K -> 0 < t -> 0 < s -> b < r -> 0 < b * t + 2 * s * sqrt t ->
  exists y x I0 beta, bs_call (mkAmer S K t r b (Some s)) = Ok (y, Some I0) /\ bs_call_F Phi (mkAmer S K t r b (Some s)) = Ok (x, Some I0) /\
    K < I0 /\ 1 < beta /\ 1 / 2 * s ^ 2 * beta * (beta - 1) + b * beta - r = 0 /\
    (I0 <= S -> y = x) /\
    let w g := exp ((- r + g * b + g * (g - 1) / 2 * s ^ 2) * t) * Rpower S g * (1 + Rpower (I0 / S) (2 * b / s ^ 2 + 2 * g - 1)) in
    Rabs (y - x) <= ((I0 - K) * Rpower I0 (- beta) * w beta + 2 * w 1 + 2 * K * w 0) * (75 / 10 ^ 9).
Proof.
  intros S K t r b s HS HK Ht Hs Hb H.
  pose proof (trig_bounds K t r b s HK Hs Hb H) as T. pose proof (B0_bounds K r b s HK Hs Hb) as B. destruct (beta_spec r b s Hs Hb) as [E1 E2].
  do 2 eexists. exists (trig K t r b s), (beta r b s). split; [apply call_eq; assumption|]. split; [apply call_eq; assumption|].
  split; [lra|]. split; [exact E1|]. split; [exact E2|]. split; [intro X; now destruct (Rle_dec _ S)|].
  cbv beta zeta. set (I0 := trig K t r b s) in *. set (be := beta r b s) in *. fold (wt t r b s S I0 be) (wt t r b s S I0 1) (wt t r b s S I0 0). fold eN.
  pose proof eN_pos. pose proof (wt_pos t r b s S I0 be) as W1. pose proof (wt_pos t r b s S I0 1) as W2. pose proof (wt_pos t r b s S I0 0) as W3.
  set (al := (I0 - K) * Rpower I0 (- be)). assert (Ha : 0 < al) by (unfold al; apply Rmult_lt_0_compat; [lra|apply exp_pos]).
  assert (A1 : 0 < al * wt t r b s S I0 be) by now apply Rmult_lt_0_compat. assert (A3 : 0 < K * wt t r b s S I0 0) by now apply Rmult_lt_0_compat.
  destruct (Rle_dec I0 S) as [X|X].
  - rewrite Rminus_diag_eq, Rabs_R0 by reflexivity. apply Rmult_le_pos; lra.
  - unfold lower. cbv zeta. fold be. fold al.
    pose proof (phi_acc t r b s Ht Hs S be I0 I0 HS ltac:(lra) ltac:(lra)) as P1.
    pose proof (phi_acc t r b s Ht Hs S 1 I0 I0 HS ltac:(lra) ltac:(lra)) as P2. pose proof (phi_acc t r b s Ht Hs S 1 K I0 HS ltac:(lra) ltac:(lra)) as P3.
    pose proof (phi_acc t r b s Ht Hs S 0 I0 I0 HS ltac:(lra) ltac:(lra)) as P4. pose proof (phi_acc t r b s Ht Hs S 0 K I0 HS ltac:(lra) ltac:(lra)) as P5.
    revert P1 P2 P3 P4 P5. generalize (bs_phi_F cnd S t be I0 I0 r b s) (bs_phi_F Phi S t be I0 I0 r b s) (bs_phi_F cnd S t 1 I0 I0 r b s) (bs_phi_F Phi S t 1 I0 I0 r b s)
      (bs_phi_F cnd S t 1 K I0 r b s) (bs_phi_F Phi S t 1 K I0 r b s) (bs_phi_F cnd S t 0 I0 I0 r b s) (bs_phi_F Phi S t 0 I0 I0 r b s) (bs_phi_F cnd S t 0 K I0 r b s) (bs_phi_F Phi S t 0 K I0 r b s).
    intros a1 a2 b1 b2 c1 c2 d1 d2 e1 e2 P1 P2 P3 P4 P5. apply Rabs_le_between in P1, P2, P3, P4, P5. apply Rabs_le_between.
    assert (Q1 : al * (a1 - a2) <= al * (wt t r b s S I0 be * eN)) by (apply Rmult_le_compat_l; lra).
    assert (Q1' : al * - (wt t r b s S I0 be * eN) <= al * (a1 - a2)) by (apply Rmult_le_compat_l; lra).
    assert (Q4 : K * (d1 - d2) <= K * (wt t r b s S I0 0 * eN)) by (apply Rmult_le_compat_l; lra).
    assert (Q4' : K * - (wt t r b s S I0 0 * eN) <= K * (d1 - d2)) by (apply Rmult_le_compat_l; lra).
    assert (Q5 : K * (e1 - e2) <= K * (wt t r b s S I0 0 * eN)) by (apply Rmult_le_compat_l; lra).
    assert (Q5' : K * - (wt t r b s S I0 0 * eN) <= K * (e1 - e2)) by (apply Rmult_le_compat_l; lra).
    split; lra.
Qed.

(** ** the European price at two standard deviations *)
Definition hN (d : R) : R := npdf d - 2 * Phi (- d).
Lemma hN_derive d : is_derive hN d ((2 - d) * npdf d).
Proof.
  unfold hN. apply is_derive_ext with (f := fun d => npdf d - 2 * (1 - Phi d)); [intro; now rewrite Phi_opp|].
  evar_last. { apply @is_derive_minus; [apply npdf_derive|]. apply is_derive_scal. apply @is_derive_minus; [apply is_derive_const|apply Phi_derive]. }
  unfold minus, plus, opp, zero; cbn. ring.
Qed.
Lemma hN_incr x y : x <= y -> y <= 2 -> hN x <= hN y.
Proof.
  intros H1 H2. destruct (MVT_gen hN x y (fun d => (2 - d) * npdf d)) as (c & Hc & E).
  - intros; apply hN_derive.
  - intros z _. apply continuity_pt_filterlim. apply (ex_derive_continuous hN). eexists. apply hN_derive.
  - rewrite Rmin_left, Rmax_right in Hc by lra. pose proof (npdf_pos c). assert (0 <= (2 - c) * npdf c * (y - x)); [|lra].
    apply Rmult_le_pos; [apply Rmult_le_pos|]; lra.
Qed.
Lemma hN_18 : 7 / 1000 <= hN (18 / 10).
Proof.
  unfold hN. pose proof (cnd_accuracy (- (18 / 10))) as A. apply Rabs_le_between in A. rewrite cnd_neg_form in A by lra.
  assert (npdf (- (18 / 10)) * Pk (Kx (- (18 / 10))) <= 359305 / 10000000).
  { unfold npdf, Pk, Kx. rewrite Rabs_Ropp, Rabs_pos_eq by lra. interval. }
  assert (78950 / 1000000 <= npdf (18 / 10)) by (unfold npdf; interval). lra.
Qed.
Lemma Phi_gap x y : 0 <= x -> x <= y -> (y - x) * npdf y <= Phi y - Phi x.
Proof.
  intros H0 H1. destruct (MVT_gen Phi x y npdf) as (c & Hc & E).
  - intros; apply Phi_derive.
  - intros z _. apply continuity_pt_filterlim. apply (ex_derive_continuous Phi). eexists. apply Phi_derive.
  - rewrite Rmin_left, Rmax_right in Hc by lra. rewrite E. rewrite Rmult_comm. apply Rmult_le_compat_r; [lra|].
    destruct (Req_dec c y) as [L|L]; [rewrite L; lra|]. apply Rlt_le, npdf_decr; lra.
Qed.

Lemma ln_lo v : 0 <= v -> 2 * v - 2 * v ^ 2 <= ln (1 + 2 * v).
Proof.
  intro H. destruct (MVT_gen (fun v => ln (1 + 2 * v) - 2 * v + 2 * v ^ 2) 0 v (fun v => 8 * v ^ 2 / (1 + 2 * v))) as (c & Hc & E).
  - intros x Hx. rewrite Rmin_left, Rmax_right in Hx by lra. auto_derive; [lra|field; lra].
  - intros x Hx. rewrite Rmin_left, Rmax_right in Hx by lra. apply continuity_pt_filterlim. apply (ex_derive_continuous (fun v => ln (1 + 2 * v) - 2 * v + 2 * v ^ 2)). auto_derive. lra.
  - rewrite Rmin_left, Rmax_right in Hc by lra. replace (1 + 2 * 0) with 1 in E by ring. rewrite ln_1 in E.
    assert (0 <= 8 * c ^ 2 / (1 + 2 * c) * (v - 0)); [|lra]. apply Rmult_le_pos; [|lra]. apply Rmult_le_pos; [pose proof (pow2_ge_0 c); lra|apply Rlt_le, Rinv_0_lt_compat; lra].
Qed.
Lemma ln_hi v : 0 <= v -> v <= 1 -> ln (1 + 2 * v) <= 2 * v - v ^ 2 / 2.
Proof.
  intros H H1. destruct (MVT_gen (fun v => 2 * v - v ^ 2 / 2 - ln (1 + 2 * v)) 0 v (fun v => v * (3 - 2 * v) / (1 + 2 * v))) as (c & Hc & E).
  - intros x Hx. rewrite Rmin_left, Rmax_right in Hx by lra. auto_derive; [lra|field; lra].
  - intros x Hx. rewrite Rmin_left, Rmax_right in Hx by lra. apply continuity_pt_filterlim. apply (ex_derive_continuous (fun v => 2 * v - v ^ 2 / 2 - ln (1 + 2 * v))). auto_derive. lra.
  - rewrite Rmin_left, Rmax_right in Hc by lra. replace (1 + 2 * 0) with 1 in E by ring. rewrite ln_1 in E.
    assert (0 <= c * (3 - 2 * c) / (1 + 2 * c) * (v - 0)); [|lra]. apply Rmult_le_pos; [|lra]. apply Rmult_le_pos; [apply Rmult_le_pos; lra|apply Rlt_le, Rinv_0_lt_compat; lra].
Qed.

Lemma put_lo B v : 0 < B -> 0 < v <= 2 / 15 -> 7 / 1000 * v * B <= bput Phi (B * (1 + 2 * v)) B v.
Proof.
  intros HB Hv. unfold bput. rewrite bd12. set (d := bd1 (B * (1 + 2 * v)) B v).
  assert (D : 18 / 10 <= d <= 2).
  { unfold d, bd1. replace (B * (1 + 2 * v) / B) with (1 + 2 * v) by (field; lra). pose proof (ln_lo v ltac:(lra)). pose proof (ln_hi v ltac:(lra) ltac:(lra)).
    assert ((2 * v - 2 * v ^ 2) / v = 2 - 2 * v) by (field; lra). assert ((2 * v - v ^ 2 / 2) / v = 2 - v / 2) by (field; lra).
    assert (0 < / v) by (apply Rinv_0_lt_compat; lra).
    assert ((2 * v - 2 * v ^ 2) / v <= ln (1 + 2 * v) / v) by (apply Rmult_le_compat_r; lra).
    assert (ln (1 + 2 * v) / v <= (2 * v - v ^ 2 / 2) / v) by (apply Rmult_le_compat_r; lra). lra. }
  pose proof (Phi_gap (d - v) d ltac:(lra) ltac:(lra)) as G. replace (d - (d - v)) with v in G by ring.
  pose proof (hN_incr (18 / 10) d ltac:(lra) ltac:(lra)) as Hh. pose proof hN_18. unfold hN at 2 in Hh.
  rewrite (Phi_opp (d - v)). rewrite (Phi_opp d) in *.
  replace (B * (1 - Phi (d - v)) - B * (1 + 2 * v) * (1 - Phi d)) with (B * (Phi d - Phi (d - v) - v * (2 * (1 - Phi d)))) by ring.
  rewrite Rmult_comm. apply Rmult_le_compat_l; [lra|]. 
  assert (v * (7 / 1000) <= v * (npdf d - 2 * (1 - Phi d))) by (apply Rmult_le_compat_l; lra). lra.
Qed.

Lemma trig_b0 K t r s : 0 < K -> 0 < t -> 0 < s -> 0 < r -> trig K t r 0 s <= K * (1 + 2 * (s * sqrt t)).
Proof.
  intros HK Ht Hs Hr. assert (E : B0 K r 0 = K). { unfold B0. apply Rmax_left. right. field. lra. }
  destruct (B0_bounds K r 0 s HK Hs Hr) as [_ B]. unfold trig. pose proof (exp_ineq1_le (htT K t r 0 s)) as X.
  assert (Y : (BInf K r 0 s - B0 K r 0) * (1 - exp (htT K t r 0 s)) <= (BInf K r 0 s - B0 K r 0) * (- htT K t r 0 s)) by (apply Rmult_le_compat_l; lra).
  replace ((BInf K r 0 s - B0 K r 0) * (- htT K t r 0 s)) with (2 * s * sqrt t * B0 K r 0) in Y by (unfold htT; field; lra). rewrite E in *. lra.
Qed.

(*@ C80_below_european_refuted | Finding: the American price can be below the European price. For every call on a futures contract (b = 0) with 0.001 <= sigma sqrt t <= 2/15 and 0 < r t <= 0.003 and spot K (1 + 2 sigma sqrt t), the code's Bjerksund-Stensland call is exactly S - K although the code's Black-Scholes call is worth more. *)
Lemma c80_below : forall K t r s, 0 < K -> 0 < t -> 0 < s -> 0 < r -> r * t <= 3 / 1000 -> 1 / 1000 <= s * sqrt t <= 2 / 15 ->
  let S := K * (1 + 2 * (s * sqrt t)) in
  exists I0 e, bs_call (mkAmer S K t r 0 (Some s)) = Ok (S - K, Some I0) /\ gbs_call (GBSOption S K t r 0 (Some s)) = Ok e /\ S - K < e.
Proof.
  intros K t r s HK Ht Hs Hr Hrt Hv S. set (v := s * sqrt t) in *. assert (HS : 0 < S) by (unfold S; apply Rmult_lt_0_compat; lra).
  destruct (gbs_price_accuracy S K t r 0 s true HS HK Ht ltac:(lra)) as (e & x & E1 & E2 & E3). exists (trig K t r 0 s), e.
  split; [|split; [exact E1|]].
  - unfold bs_call. rewrite call_eq by assumption. pose proof (trig_b0 K t r s HK Ht Hs Hr). fold v in H. fold S in H. now destruct (Rle_dec _ S).
  - cbn iota in E2. rewrite call_link in E2 by lra. injection E2 as E2. fold v in E2. replace (0 - r) with (- r) in * by ring.
    set (D := exp (- r * t)) in *. assert (HD : 997 / 1000 <= D < 1).
    { unfold D. pose proof (exp_ineq1_le (- r * t)). assert (0 < r * t) by now apply Rmult_lt_0_compat. split; [lra|]. rewrite <- exp_0. apply exp_increasing. lra. }
    pose proof (b_parity Phi (S * D) (K * D) v Phi_sym) as P. pose proof (put_lo (K * D) v ltac:(apply Rmult_lt_0_compat; lra) ltac:(lra)) as Q.
    replace (K * D * (1 + 2 * v)) with (S * D) in Q by (unfold S; ring). apply Rabs_le_between in E3.
    assert (Kv : 0 < K * v) by (apply Rmult_lt_0_compat; lra).
    assert (L1 : K * v * (2007 / 1000) * (997 / 1000) <= K * v * (2007 / 1000) * D) by (apply Rmult_le_compat_l; lra).
    assert (L2 : (S * D + K * D) * (75 / 10 ^ 9) <= K * (227 / 100) * (75 / 10 ^ 9)).
    { apply Rmult_le_compat_r; [lra|]. replace (S * D + K * D) with (K * ((2 + 2 * v) * D)) by (unfold S; ring). apply Rmult_le_compat_l; [lra|].
      apply Rle_trans with ((2 + 2 * v) * 1); [apply Rmult_le_compat_l; lra|lra]. }
    assert (L3 : K * (1 / 1000) <= K * v) by (apply Rmult_le_compat_l; lra).
    assert (S * D - K * D = 2 * (K * v) * D) by (unfold S; ring). assert (S - K = 2 * (K * v)) by (unfold S; ring). lra.
Qed.
