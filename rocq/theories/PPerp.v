(** The American value for long maturities (C82). *)
From Coq Require Import Reals ZArith QArith Qreals String List Bool Lra Lia.
From Coquelicot Require Import Coquelicot.
From Verif Require Import Num Py MBase MVanilla MTrees MAmerican SMonte SHeston SSpread2 SAmer PTrees2 PGauss PCnd PCnd2 PBlack PGbs PVanilla SAmerican PBs PHeston PHeston2 PExpect PExpect2 PClt PMargrabe PMonte6 PTrees3 PTrees4 PConv PConv3 PBs2 STrees PAmer6 PAmer7 PAmer10 PBs3 PMs2 PBaw3 PBvn2 PBs6.
Open Scope R_scope.

(** ** the power claim bounds every exercise strategy *)
Section Upper.
Variables K r b s : R.
Hypothesis HK : 0 < K.
Hypothesis Hs : 0 < s.
Hypothesis Hb : b < r.
Let be := beta r b s.
Let BI := BInf K r b s.
Definition pw (x : R) : R := (BI - K) * Rpower (x / BI) be.
Let H1 : 1 < be. Proof. exact (proj1 (beta_spec r b s Hs Hb)). Qed.
Let HB : K < BI. Proof. unfold BI. pose proof (B0_bounds K r b s HK Hs Hb). lra. Qed.
Lemma pw_payoff x : 0 < x -> call_put true K x <= pw x.
Proof.
  intro Hx. pose proof HB. pose proof H1. assert (0 < pw x) by (unfold pw; apply Rmult_lt_0_compat; [lra|apply exp_pos]). unfold call_put. apply Rmax_lub; [|lra].
  unfold pw. assert (Hxb : 0 < x / BI) by (apply Rdiv_lt_0_compat; lra). pose proof (bernoulli_hi (x / BI) be ltac:(lra) Hxb) as Q. apply (Rmult_le_compat_l (BI - K)) in Q; [|lra].
  eapply Rle_trans; [|exact Q]. right. unfold BI, BInf. fold be. field. split; [lra|]. split; lra.
Qed.
Lemma pw_mean x dt : 0 < x -> 0 < dt -> is_mean (fun z => exp (- r * dt) * pw (lognormal1 x b s dt z)) (pw x).
Proof.
  intros Hx Hd. pose proof HB. destruct (beta_spec r b s Hs Hb) as (_ & E). fold be in E.
  assert (Q := mean_disc (pw x * exp (- ((be * (s * sqrt dt)) ^ 2 / 2))) (be * (s * sqrt dt))). rewrite Rmult_assoc, <- exp_plus in Q. replace (- ((be * (s * sqrt dt)) ^ 2 / 2) + (be * (s * sqrt dt)) ^ 2 / 2) with 0 in Q by ring. rewrite exp_0, Rmult_1_r in Q.
  eapply is_mean_ext; [|exact Q]. intro z. cbv beta. unfold pw, lognormal1, Rpower. set (m := (b - s ^ 2 / 2) * dt + s * (sqrt dt * z)).
  replace (x * exp m / BI) with (x / BI * exp m) by (unfold Rdiv; ring). rewrite ln_mult, ln_exp by (apply exp_pos || (apply Rdiv_lt_0_compat; lra)).
  replace (be * (ln (x / BI) + m)) with (be * ln (x / BI) + be * m) by ring. rewrite exp_plus.
  transitivity ((BI - K) * exp (be * ln (x / BI)) * (exp (- ((be * (s * sqrt dt)) ^ 2 / 2)) * exp (be * (s * sqrt dt) * z))); [ring|].
  transitivity ((BI - K) * exp (be * ln (x / BI)) * (exp (- r * dt) * exp (be * m))); [|ring]. f_equal. rewrite <- !exp_plus. f_equal. unfold m.
  replace ((be * (s * sqrt dt)) ^ 2) with (be ^ 2 * s ^ 2 * (sqrt dt) ^ 2) by ring. rewrite pow2_sqrt by lra. replace r with (1 / 2 * s ^ 2 * be * (be - 1) + b * be) by lra. field.
Qed.
Lemma pw_bermudan dt k : 0 < dt -> forall x v, 0 < x -> bermudan (call_put true K) r b s dt k x v -> v <= pw x.
Proof.
  intro Hd. induction k as [|k IH]; intros x v Hx; cbn [bermudan]; [intros ->; now apply pw_payoff|]. intros (f & c & Hf & Hc & ->). apply Rmax_lub; [now apply pw_payoff|].
  eapply is_mean_le; [|exact Hc|exact (pw_mean x dt Hx Hd)]. intro z. cbv beta. apply Rmult_le_compat_l; [left; apply exp_pos|].
  assert (P : 0 < lognormal1 x b s dt z) by (unfold lognormal1; apply Rmult_lt_0_compat; [exact Hx|apply exp_pos]). exact (IH _ _ P (Hf _ P)).
Qed.
Lemma pw_american t x v : 0 < t -> 0 < x -> american_value (call_put true K) r b s t x v -> v <= pw x.
Proof.
  intros Ht Hx (B & HBm & L). apply (is_lim_seq_le_loc B (fun _ => pw x) v (pw x)); [|exact L|apply is_lim_seq_const]. exists 1%nat. intros m Hm.
  destruct (HBm m ltac:(lia)) as (Q & _). apply (pw_bermudan (t / INR m) m); auto. apply Rdiv_lt_0_compat; [exact Ht|apply lt_0_INR; lia].
Qed.
End Upper.
Lemma perp_upper S K t r b s v : 0 < S -> 0 < K -> 0 < t -> 0 < s -> 0 <= r -> b < r -> american_value (call_put true K) r b s t S v -> v <= perp S K r b s.
Proof.
  intros HS HK Ht Hs Hr Hb A. unfold perp. cbv zeta. pose proof (B0_bounds K r b s HK Hs Hb). destruct (Rlt_dec S (BInf K r b s)) as [H'|H'].
  - exact (pw_american K r b s HK Hs Hb t S v Ht HS A).
  - set (K' := K * (S / BInf K r b s)). assert (HR : 1 <= S / BInf K r b s) by (apply Rle_div_r; lra). assert (HK' : K <= K') by (unfold K'; rewrite <- (Rmult_1_r K) at 1; apply Rmult_le_compat_l; lra).
    assert (EB : BInf K' r b s = S). { destruct (beta_spec r b s Hs Hb) as (B1 & _). unfold K', BInf. field. repeat split; lra. }
    destruct (c63_limit (Bi CRR) S K' t r b s true HS ltac:(lra) Ht Hs) as (v' & _ & A' & _).
    pose proof (pw_american K' r b s ltac:(lra) Hs Hb t S v' Ht HS A') as Q. unfold pw in Q. rewrite EB in Q. unfold Rdiv in Q. rewrite Rinv_r in Q by lra. unfold Rpower in Q. rewrite ln_1, Rmult_0_r, exp_0, Rmult_1_r in Q.
    destruct (c66_strike S K K' t r b s true v v' HS HK HK' Ht Hs A A') as (_ & L). specialize (L Hr). apply Rabs_le_between in L. lra.
Qed.

(** ** exercise at the perpetual exercise price *)
Section Lower.
Variables X r b s : R.
Hypothesis HX : 0 < X.
Hypothesis Hs : 0 < s.
Hypothesis Hb : b < r.
Hypothesis Hr : 0 <= r.
Variables S0 I0 : R.
Hypothesis HS : 0 < S0.
Hypothesis HI : S0 < I0.
Hypothesis HXI : X < I0.
Let be := beta r b s.
Let L := ln I0 - ln S0.
Let HL : 0 < L. Proof. unfold L. assert (ln S0 < ln I0) by (apply ln_increasing; lra). lra. Qed.
Lemma inv_sqrt c : is_lim (fun t => c / sqrt t) p_infty 0.
Proof. replace 0 with (c * 0) by ring. apply (is_lim_scal_l _ c p_infty 0). apply (is_lim_inv sqrt p_infty p_infty); [apply sqrt_inf|discriminate]. Qed.
Lemma phi_diff g : - r + g * b + 1 / 2 * g * (g - 1) * s ^ 2 <= 0 ->
  is_lim (fun t => bs_phi_F Phi S0 t g I0 I0 r b s - bs_phi_F Phi S0 t g X I0 r b s) p_infty 0.
Proof.
  intro Hg. set (w := exp (phi_l S0 I0 * (2 * b / s ^ 2 + (2 * g - 1)))). assert (Hw : 0 < w) by apply exp_pos. set (d := ln I0 - ln X). assert (Hd : 0 < d) by (unfold d; assert (ln X < ln I0) by (apply ln_increasing; lra); lra).
  apply (squeeze0 1 _ (fun t => exp (g * ln S0) * (1 + w) * d / s / sqrt t)); [|apply inv_sqrt].
  intros t Ht. assert (Hq : 0 < sqrt t) by (apply sqrt_lt_R0; lra). rewrite !phi_eq by lra. fold w.
  set (E := exp ((- r + g * b + 1 / 2 * g * (g - 1) * s ^ 2) * t)). assert (HE : 0 < E <= 1). { split; [apply exp_pos|]. unfold E. apply Rle_trans with (exp 0); [|rewrite exp_0; lra]. apply exp_le0. rewrite <- (Rmult_0_l t). apply Rmult_le_compat_r; lra. }
  set (p := phi_z t b s S0 I0 - g * (s * sqrt t)). set (q := phi_z t b s S0 X - g * (s * sqrt t)). assert (Z : p - q = d / (s * sqrt t)) by (unfold p, q, phi_z, d; field; split; lra).
  set (l := 2 * phi_l S0 I0 / (s * sqrt t)). pose proof (Phi_lip p q) as P1. pose proof (Phi_lip (p - l) (q - l)) as P2. replace (p - l - (q - l)) with (p - q) in P2 by ring.
  assert (HZ : 0 < d / (s * sqrt t)) by (apply Rdiv_lt_0_compat; [lra|now apply Rmult_lt_0_compat]). rewrite Z, (Rabs_pos_eq (d / _)) in P1, P2 by lra. set (G := exp (g * ln S0)). assert (HG : 0 < G) by apply exp_pos.
  replace (E * G * (Phi p - w * Phi (p - l)) - E * G * (Phi q - w * Phi (q - l))) with (E * (G * ((Phi p - Phi q) - w * (Phi (p - l) - Phi (q - l))))) by ring.
  assert (Q : Rabs ((Phi p - Phi q) - w * (Phi (p - l) - Phi (q - l))) <= (1 + w) * (d / (s * sqrt t))).
  { apply Rabs_le_between in P1. apply Rabs_le_between in P2. apply Rabs_le. nra. }
  rewrite Rabs_mult, (Rabs_mult G), (Rabs_pos_eq E), (Rabs_pos_eq G) by lra. replace (G * (1 + w) * d / s / sqrt t) with (1 * (G * ((1 + w) * (d / (s * sqrt t))))) by (field; split; lra).
  apply Rmult_le_compat; [lra|apply Rmult_le_pos; [lra|apply Rabs_pos]|lra|]. apply Rmult_le_compat_l; [lra|exact Q].
Qed.
Lemma phi_beta_const : is_lim (fun t => bs_phi_F Phi S0 t be I0 I0 r b s) p_infty 0.
Proof.
  destruct (beta_spec r b s Hs Hb) as (B1 & B2). fold be in B1, B2. assert (Hs2 : 0 < s ^ 2) by now apply pow_lt.
  set (k := (b - s ^ 2 / 2 + be * s ^ 2) / s). assert (Hk : 0 < k). { unfold k. apply Rdiv_lt_0_compat; [|exact Hs]. nra. }
  set (w := exp (phi_l S0 I0 * (2 * b / s ^ 2 + (2 * be - 1)))). assert (Hw : 0 < w) by apply exp_pos.
  apply is_lim_spec. intros eps. set (e' := eps / (exp (be * ln S0) * (1 + w))). assert (HG : 0 < exp (be * ln S0)) by apply exp_pos.
  assert (He' : 0 < e') by (unfold e'; apply Rdiv_lt_0_compat; [apply cond_pos|apply Rmult_lt_0_compat; lra]).
  destruct (Phi_small e' He') as (M & HM). set (N := (Rabs (L / s) + Rabs M + 1) / k). assert (P : 0 < N) by (pose proof (Rabs_pos (L / s)); pose proof (Rabs_pos M); apply Rdiv_lt_0_compat; lra).
  exists (Rmax 1 (N ^ 2)). intros t Ht. pose proof (Rmax_l 1 (N ^ 2)). pose proof (Rmax_r 1 (N ^ 2)). assert (Q1 : 1 <= sqrt t) by (rewrite <- sqrt_1; apply sqrt_le_1; lra).
  assert (K1 : N < sqrt t) by (rewrite <- (sqrt_pow2 N) by lra; apply sqrt_lt_1; [apply pow2_ge_0|lra|lra]). unfold N in K1. apply Rlt_div_l in K1; [|exact Hk].
  rewrite phi_eq by lra. fold w. replace (- r + be * b + 1 / 2 * be * (be - 1) * s ^ 2) with 0 by lra. rewrite Rmult_0_l, exp_0, Rmult_1_l, Rminus_0_r.
  set (a := phi_z t b s S0 I0 - be * (s * sqrt t)). assert (E : a = L / s / sqrt t - k * sqrt t).
  { unfold a, phi_z, k, L. assert (E : sqrt t * sqrt t = t) by (apply sqrt_sqrt; lra). apply Rmult_eq_reg_r with (s * sqrt t); [|apply Rgt_not_eq; nra].
    transitivity (ln I0 - ln S0 - (b - s ^ 2 / 2) * t - be * s ^ 2 * (sqrt t * sqrt t)); [field; split; lra|]. transitivity (ln I0 - ln S0 - (b - s ^ 2 / 2 + be * s ^ 2) * (sqrt t * sqrt t)); [rewrite E; ring|field; split; lra]. }
  pose proof HL as HL'. assert (0 < L / s) by (apply Rdiv_lt_0_compat; lra). assert (a <= L / s - k * sqrt t). { rewrite E. apply Rplus_le_compat_r. apply Rle_div_l; [lra|]. nra. }
  pose proof (Rle_abs (L / s)). pose proof (Rle_abs (- M)) as R1. rewrite Rabs_Ropp in R1. assert (A1 : a < M) by lra.
  assert (0 <= 2 * phi_l S0 I0 / (s * sqrt t)) by (unfold phi_l; fold L; apply Rdiv_le_0_compat; nra).
  pose proof (HM a A1). pose proof (HM (a - 2 * phi_l S0 I0 / (s * sqrt t)) ltac:(lra)). pose proof (Phi_gt_0 a). pose proof (Phi_gt_0 (a - 2 * phi_l S0 I0 / (s * sqrt t))).
  set (f1 := Phi a) in *. set (f2 := Phi (a - 2 * phi_l S0 I0 / (s * sqrt t))) in *.
  rewrite Rabs_mult, Rabs_pos_eq by lra. apply Rlt_le_trans with (exp (be * ln S0) * ((1 + w) * e')).
  - apply Rmult_lt_compat_l; [exact HG|]. apply Rabs_def1; nra.
  - right. unfold e'. field. split; lra.
Qed.
Lemma lower_const : is_lim (fun t => lower X t r b s Phi I0 S0) p_infty ((I0 - X) * Rpower (S0 / I0) be).
Proof.
  set (al := (I0 - X) * Rpower I0 (- be)). assert (P1 := phi_diff 1 ltac:(lra)). assert (P0 := phi_diff 0 ltac:(lra)).
  replace ((I0 - X) * Rpower (S0 / I0) be) with (al * Rpower S0 be - al * 0 + 0 - X * 0).
  - apply (is_lim_ext (fun t => al * Rpower S0 be - al * bs_phi_F Phi S0 t be I0 I0 r b s + (bs_phi_F Phi S0 t 1 I0 I0 r b s - bs_phi_F Phi S0 t 1 X I0 r b s) - X * (bs_phi_F Phi S0 t 0 I0 I0 r b s - bs_phi_F Phi S0 t 0 X I0 r b s))).
    { intro t. unfold lower. fold be. fold al. ring. }
    apply lim_minus; [|apply (is_lim_scal_l _ X p_infty 0); exact P0]. apply lim_plus; [|exact P1]. apply lim_minus; [apply is_lim_const|apply (is_lim_scal_l _ al p_infty 0); exact phi_beta_const].
  - unfold al, Rpower. rewrite ln_div by lra. replace (be * (ln S0 - ln I0)) with (- be * ln I0 + be * ln S0) by ring. rewrite exp_plus. ring.
Qed.
End Lower.
Lemma perp_limit S K r b s : 0 < S -> 0 < K -> 0 < s -> 0 <= r -> b < r -> forall eps, 0 < eps ->
  exists T, 0 <= T /\ forall t v, T < t -> american_value (call_put true K) r b s t S v -> Rabs (v - perp S K r b s) < eps.
Proof.
  intros HS HK Hs Hr Hb eps He. pose proof (B0_bounds K r b s HK Hs Hb). assert (U : forall t v, 0 < t -> american_value (call_put true K) r b s t S v -> v <= perp S K r b s) by (intros; eapply perp_upper; eassumption).
  destruct (Rlt_dec S (BInf K r b s)) as [H'|H'].
  - assert (Q := lower_const K r b s HK Hs Hb Hr S (BInf K r b s) HS H' ltac:(lra)). apply is_lim_spec in Q. destruct (Q (mkposreal eps He)) as (T & HT). cbn [pos] in HT. exists (Rmax 0 T). split; [apply Rmax_l|].
    intros t v Ht A. pose proof (Rmax_l 0 T). pose proof (Rmax_r 0 T). specialize (HT t ltac:(lra)). specialize (U t v ltac:(lra) A). pose proof (bs_le S K t r b s (BInf K r b s) v HS HK ltac:(lra) Hs Hb ltac:(lra) H' A).
    assert (E : perp S K r b s = (BInf K r b s - K) * Rpower (S / BInf K r b s) (beta r b s)) by (unfold perp; cbv zeta; destruct (Rlt_dec _ _); [reflexivity|lra]). rewrite E in *. apply Rabs_lt_between in HT. apply Rabs_def1; lra.
  - exists 0. split; [lra|]. intros t v Ht A. specialize (U t v Ht A). destruct (c63_bounds S K t r b s true v HS A) as (Y & _). unfold call_put in Y. pose proof (Rmax_l (S - K) 0).
    assert (E : perp S K r b s = S - K) by (unfold perp; cbv zeta; destruct (Rlt_dec _ _); [lra|reflexivity]). rewrite E in *. apply Rabs_def1; lra.
Qed.

(*@ C82_call_bound | With b < r and r >= 0 the American call, the common limit of American tree prices, is for every maturity at most the perpetual call, (B - K) (S/B)^beta, below the exercise price B = beta/(beta-1) K, and from B on it is worth exactly S - K: exercising at once is right. *)
Lemma c82_call_bound : forall S K t r b s v, 0 < S -> 0 < K -> 0 < t -> 0 < s -> 0 <= r -> b < r -> american_value (call_put true K) r b s t S v ->
  exists beta, 1 < beta /\ 1 / 2 * s ^ 2 * beta * (beta - 1) + b * beta - r = 0 /\
    let B := beta / (beta - 1) * K in (S < B -> v <= (B - K) * Rpower (S / B) beta) /\ (B <= S -> v = S - K).
Proof.
  intros S K t r b s v HS HK Ht Hs Hr Hb A. destruct (beta_spec r b s Hs Hb) as (B1 & B2). exists (beta r b s). split; [exact B1|]. split; [exact B2|]. cbv zeta. fold (BInf K r b s).
  pose proof (perp_upper S K t r b s v HS HK Ht Hs Hr Hb A) as U. unfold perp in U. cbv zeta in U. split; intro H; destruct (Rlt_dec S (BInf K r b s)); try lra.
  destruct (c63_bounds S K t r b s true v HS A) as (Y & _). unfold call_put in Y. pose proof (Rmax_l (S - K) 0). lra.
Qed.

(*@ C82_call_limit | With b < r and r >= 0 the American call tends to the perpetual call as the maturity grows. *)
Lemma c82_call_limit : forall S K r b s, 0 < S -> 0 < K -> 0 < s -> 0 <= r -> b < r ->
  exists beta, 1 < beta /\ 1 / 2 * s ^ 2 * beta * (beta - 1) + b * beta - r = 0 /\
    let B := beta / (beta - 1) * K in
    forall eps, 0 < eps -> exists T, 0 <= T /\ forall t v, T < t -> american_value (call_put true K) r b s t S v ->
      Rabs (v - (if Rlt_dec S B then (B - K) * Rpower (S / B) beta else S - K)) < eps.
Proof.
  intros S K r b s HS HK Hs Hr Hb. destruct (beta_spec r b s Hs Hb) as (B1 & B2). exists (beta r b s). split; [exact B1|]. split; [exact B2|]. exact (perp_limit S K r b s HS HK Hs Hr Hb).
Qed.

Lemma perp_put S K r b s : 0 < S -> 0 < K -> 0 < s -> 0 < r ->
  exists ga, ga < 0 /\ 1 / 2 * s ^ 2 * ga * (ga - 1) + b * ga - r = 0 /\ let B := ga / (ga - 1) * K in 0 < B < K /\
    perp K S (r - b) (- b) s = if Rlt_dec B S then (K - B) * Rpower (S / B) ga else K - S.
Proof.
  intros HS HK Hs Hr. destruct (beta_spec (r - b) (- b) s Hs ltac:(lra)) as (B1 & B2). set (be := beta (r - b) (- b) s) in *. exists (1 - be). split; [lra|]. split; [replace r with (1 / 2 * s ^ 2 * be * (be - 1) + - b * be + b) by lra; field|]. cbv zeta.
  set (B := (1 - be) / (1 - be - 1) * K). assert (EB : B = (be - 1) / be * K) by (unfold B; field; lra). assert (HB : 0 < B) by (rewrite EB; apply Rmult_lt_0_compat; [apply Rdiv_lt_0_compat; lra|exact HK]).
  assert (EK : K = be / (be - 1) * B) by (rewrite EB; field; lra). assert (HBK : B < K). { rewrite EB. rewrite <- (Rmult_1_l K) at 2. apply Rmult_lt_compat_r; [exact HK|]. apply Rlt_div_l; lra. }
  split; [lra|]. unfold perp, BInf. fold be. cbv zeta.
  assert (Hq : 0 < be / (be - 1)) by (apply Rdiv_lt_0_compat; lra).
  destruct (Rlt_dec K (be / (be - 1) * S)) as [X|X], (Rlt_dec B S) as [Y|Y].
  - replace (K / (be / (be - 1) * S)) with (B / S) by (rewrite EK; field; repeat split; lra). unfold Rpower. rewrite !ln_div by lra. replace ((1 - be) * (ln S - ln B)) with (ln S - ln B + be * (ln B - ln S)) by ring.
    rewrite exp_plus. replace (exp (ln S - ln B)) with (S / B) by (unfold Rminus; rewrite exp_plus, exp_Ropp, !exp_ln by assumption; reflexivity). rewrite EK. field. split; lra.
  - exfalso. apply Y. apply Rmult_lt_reg_l with (be / (be - 1)); [exact Hq|]. lra.
  - exfalso. apply X. rewrite EK at 1. now apply Rmult_lt_compat_l.
  - reflexivity.
Qed.
Lemma dual_call S K t r b s v : 0 < S -> 0 < K -> 0 < t -> 0 < s -> american_value (call_put false K) r b s t S v -> american_value (call_put true S) (r - b) (- b) s t K v.
Proof.
  intros HS HK Ht Hs A. destruct (c63_limit (Bi CRR) K S t (r - b) (- b) s true HK HS Ht Hs) as (v' & _ & A' & _). pose proof (c66_duality K S t (r - b) (- b) s v' HK HS Ht Hs A') as D.
  replace (r - b - - b) with r in D by ring. replace (- - b) with b in D by ring. now rewrite (c63_unique _ _ _ _ _ _ _ _ HS A D).
Qed.

(*@ C82_put_bound | With r > 0 and b <= r (a stock or a futures contract) the American put is for every maturity at most the perpetual put, (K - B) (S/B)^gamma, above the exercise price B = gamma/(gamma-1) K, and up to B it is worth exactly K - S. *)
Lemma c82_put_bound : forall S K t r b s v, 0 < S -> 0 < K -> 0 < t -> 0 < s -> 0 < r -> b <= r -> american_value (call_put false K) r b s t S v ->
  exists gamma, gamma < 0 /\ 1 / 2 * s ^ 2 * gamma * (gamma - 1) + b * gamma - r = 0 /\
    let B := gamma / (gamma - 1) * K in 0 < B < K /\ (B < S -> v <= (K - B) * Rpower (S / B) gamma) /\ (S <= B -> v = K - S).
Proof.
  intros S K t r b s v HS HK Ht Hs Hr Hb A. destruct (perp_put S K r b s HS HK Hs Hr) as (ga & G1 & G2 & HB & E). cbv zeta in *. exists ga. split; [exact G1|]. split; [exact G2|]. split; [exact HB|].
  pose proof (perp_upper K S t (r - b) (- b) s v HK HS Ht Hs ltac:(lra) ltac:(lra) (dual_call S K t r b s v HS HK Ht Hs A)) as U. rewrite E in U.
  split; intro H; destruct (Rlt_dec _ S); try lra. destruct (c63_bounds S K t r b s false v HS A) as (Y & _). unfold call_put in Y. pose proof (Rmax_l (K - S) 0). lra.
Qed.

(*@ C82_put_limit | With r > 0 and b <= r the American put tends to the perpetual put as the maturity grows. *)
Lemma c82_put_limit : forall S K r b s, 0 < S -> 0 < K -> 0 < s -> 0 < r -> b <= r ->
  exists gamma, gamma < 0 /\ 1 / 2 * s ^ 2 * gamma * (gamma - 1) + b * gamma - r = 0 /\
    let B := gamma / (gamma - 1) * K in
    forall eps, 0 < eps -> exists T, 0 <= T /\ forall t v, T < t -> american_value (call_put false K) r b s t S v ->
      Rabs (v - (if Rlt_dec B S then (K - B) * Rpower (S / B) gamma else K - S)) < eps.
Proof.
  intros S K r b s HS HK Hs Hr Hb. destruct (perp_put S K r b s HS HK Hs Hr) as (ga & G1 & G2 & HB & E). cbv zeta in *. exists ga. split; [exact G1|]. split; [exact G2|]. intros eps He.
  destruct (perp_limit K S (r - b) (- b) s HK HS Hs ltac:(lra) ltac:(lra) eps He) as (T & HT & Q). exists T. split; [exact HT|]. intros t v Ht A. rewrite <- E. apply (Q t v Ht). apply dual_call; auto. lra.
Qed.

(*@ C82_bs_long | The code's Bjerksund-Stensland call (0 <= b < r) and the American value agree for long maturities: their difference tends to 0. *)
Lemma c82_bs_long : forall S K r b s eps, 0 < S -> 0 < K -> 0 < s -> 0 <= b < r -> 0 < eps ->
  exists T, 0 <= T /\ forall t v, T < t -> american_value (call_put true K) r b s t S v ->
    exists x I0, bs_call (mkAmer S K t r b (Some s)) = Ok (x, Some I0) /\ Rabs (x - v) < eps.
Proof.
  intros S K r b s eps HS HK Hs Hb He. destruct (perp_limit S K r b s HS HK Hs ltac:(lra) (proj2 Hb) (eps / 2) ltac:(lra)) as (T1 & HT1 & Q1). destruct (bs_perp cnd S K r b s (or_introl eq_refl) HS HK Hs Hb (eps / 2) ltac:(lra)) as (T2 & Q2).
  exists (Rmax T1 T2). pose proof (Rmax_l T1 T2). pose proof (Rmax_r T1 T2). split; [lra|]. intros t v Ht A. destruct (Q2 t ltac:(lra)) as (x & I0 & E & D2). pose proof (Q1 t v ltac:(lra) A) as D1. exists x, I0. split; [exact E|].
  apply Rabs_lt_between in D1. apply Rabs_lt_between in D2. apply Rabs_def1; lra.
Qed.

(*@ C82_bs_put_long | The same for the code's Bjerksund-Stensland put with b <= 0 and r > 0. *)
Lemma c82_bs_put_long : forall S K r b s eps, 0 < S -> 0 < K -> 0 < s -> b <= 0 -> 0 < r -> 0 < eps ->
  exists T, 0 <= T /\ forall t v, T < t -> american_value (call_put false K) r b s t S v ->
    exists x I0, bs_put (mkAmer S K t r b (Some s)) = Ok (x, Some I0) /\ Rabs (x - v) < eps.
Proof.
  intros S K r b s eps HS HK Hs Hb Hr He. destruct (c82_bs_long K S (r - b) (- b) s eps HK HS Hs ltac:(lra) He) as (T & HT & Q). exists T. split; [exact HT|]. intros t v Ht A.
  exact (Q t v Ht (dual_call S K t r b s v HS HK ltac:(lra) Hs A)).
Qed.
