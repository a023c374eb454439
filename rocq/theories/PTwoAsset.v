(** Two-asset tree limits and closed-form lognormal means: theorems about the code (C60, C61). *)
From Coq Require Import Reals String List Arith ZArith Lra Lia.
From Coquelicot Require Import Coquelicot.
From Verif Require Import Num Py Arr MBase MVanilla MTrees MSpread MMonte STrees SLattice SSpread SSpread2 PGen PSpread3 PKirk PBlack PGbs PVanilla PTrees3 SMonte SMonte2  PCnd PGauss PCnd2 SHeston PHeston PHeston2 PExpect PExpect2 PConv4 PClt PClt2 PMargrabe PCndAcc PMonte6.
Import List ListNotations.
Open Scope R_scope.

(*@ C60_european_limit | European prices of the two-asset tree (codes 1-6, 9 and the exchange option's call) converge, as the number of steps grows, to the discounted mean of the documented payoff over two correlated lognormal prices: for every tolerance all trees with enough steps are within it. The mean always exists. *)
Lemma c60_limit : forall S1 S2 t r b1 b2 s1 s2 rho K K2 Q1 Q2 code call otype g,
  0 < t -> -1 <= rho <= 1 -> code <> 8%Z -> (code = 7%Z -> call = true) -> otype <> "american"%string ->
  (forall x, doc_payoff code call Q1 Q2 K K2 (fst x) (snd x) = Some (g x)) ->
  exists v, two_asset_value S1 S2 t r b1 b2 s1 s2 rho g v /\
    forall eps, 0 < eps -> exists N, forall n, (N <= n)%nat -> n <> 0%nat -> exists p,
      all_types call false code S1 S2 t r b1 b2 s1 s2 rho (Some K) (Some K2) Q1 Q2 otype n = Ok (Price p) /\ Rabs (p - v) < eps.
Proof.
  intros * Ht Hr H8 H7 Ho Hg. assert (HL := doc_L2 S1 S2 b1 b2 s1 s2 rho t code call Q1 Q2 K K2 g Hr H8 Hg).
  destruct (lattice_limit S1 S2 b1 b2 s1 s2 rho r t g (Rabs s1 + Rabs s2)) as (v & Hv & HN); [pose proof (Rabs_pos s1); pose proof (Rabs_pos s2); lra|exact Ht|exact HL|].
  exists v. split; [exact Hv|]. intros eps He. destruct (HN eps He) as (N & H). exists N. intros n Hn H0.
  exists (lattice_expect b1 b2 s1 s2 rho r t n g (S1, S2)). split; [now apply c35_euro|now apply H].
Qed.

Lemma ln1_X1 S b s t z : 0 < t -> lognormal1 S b s t z = X1 (S * exp (b * t)) (s * sqrt t) z.
Proof. intro Ht. unfold lognormal1, X1. rewrite Rmult_assoc, <- exp_plus. do 2 f_equal. rewrite Rpow_mult_distr, pow2_sqrt by lra. field. Qed.
Lemma ln2_X2 S b s rho t z1 z2 : 0 < t -> -1 <= rho <= 1 -> lognormal2 S b s rho t z1 z2 = X2 (S * exp (b * t)) (s * sqrt t * rho) (s * sqrt t * sqrt (1 - rho ^ 2)) z1 z2.
Proof.
  intros Ht Hr. unfold lognormal2, X2. rewrite Rmult_assoc, <- exp_plus. do 2 f_equal. rewrite !Rpow_mult_distr, (pow2_sqrt t), (pow2_sqrt (1 - rho ^ 2)) by nra. field.
Qed.

(*@ C60_forwards | The forward prices implied by the tree, which are below the continuous-time ones for every number of steps, converge to S exp(bt), so put-call parity with the continuous-time forwards holds in the limit. *)
Lemma c60_forwards : forall S1 S2 t b1 b2 s1 s2 rho, 0 < t -> -1 <= rho <= 1 ->
  is_lim_seq (fun n => lattice_fwd1 S1 t b1 s1 n) (S1 * exp (b1 * t)) /\
  is_lim_seq (fun n => lattice_fwd2 S2 t b2 s2 rho n) (S2 * exp (b2 * t)).
Proof.
  intros * Ht Hr. set (q := Rabs s1 + Rabs s2). pose proof (Rabs_pos s1). pose proof (Rabs_pos s2). assert (Hq : 0 <= q) by (unfold q; lra).
  assert (G : forall g v F, L2 q (fun x y => g (XX S1 S2 b1 b2 s1 s2 rho t x y)) -> two_asset_value S1 S2 t 0 b1 b2 s1 s2 rho g v -> (forall n, n <> 0%nat -> lattice_expect b1 b2 s1 s2 rho 0 t n g (S1, S2) = F n) -> is_lim_seq F v).
  { intros g v F HL Hv HF. destruct (lattice_limit S1 S2 b1 b2 s1 s2 rho 0 t g q Hq Ht HL) as (v' & Hv' & HN). assert (E := is_expect_unique _ _ _ _ Hv Hv'). subst v'.
    apply is_lim_seq_spec. intros [eps He]. cbn. destruct (HN eps He) as (N & HN'). exists (S N). intros n Hn. rewrite <- HF by lia. apply HN'; lia. }
  assert (Hr1 : Rabs rho <= 1) by (apply Rabs_le; lra). assert (Hr2 : sqrt (1 - rho ^ 2) <= 1) by (rewrite <- sqrt_1 at 2; apply sqrt_le_1_alt; pose proof (pow2_ge_0 rho); lra).
  assert (Hr3 := sqrt_pos (1 - rho ^ 2)). assert (B2 : Rabs (s2 * rho) <= Rabs s2) by (rewrite Rabs_mult; pose proof (Rabs_pos rho); nra).
  assert (B3 : Rabs (s2 * sqrt (1 - rho ^ 2)) <= Rabs s2) by (rewrite Rabs_mult, (Rabs_pos_eq (sqrt _)) by exact Hr3; nra). split.
  - apply (G fst).
    + apply L2_exp; unfold q; [lra|rewrite Rabs_R0; lra].
    + eapply is_expect_ext; [|apply (X1_mean (S1 * exp (b1 * t)) (s1 * sqrt t))]. intros zs _. cbv beta zeta. cbn [fst]. rewrite Ropp_0, Rmult_0_l, exp_0, Rmult_1_l. symmetry. now apply ln1_X1.
    + intros n Hn. unfold lattice_expect. rewrite <- GV_expect, fwd1. cbn [fst]. rewrite Ropp_0, Rmult_0_l, exp_0, pow1. unfold lattice_fwd1, m1. ring.
  - apply (G snd).
    + apply L2_exp; unfold q; lra.
    + eapply is_expect_ext; [|apply (X2_mean (S2 * exp (b2 * t)) (s2 * sqrt t * rho) (s2 * sqrt t * sqrt (1 - rho ^ 2)))]. intros zs _. cbv beta zeta. cbn [snd]. rewrite Ropp_0, Rmult_0_l, exp_0, Rmult_1_l. symmetry. now apply ln2_X2.
    + intros n Hn. unfold lattice_expect. rewrite <- GV_expect, fwd2. cbn [snd]. rewrite Ropp_0, Rmult_0_l, exp_0, pow1. unfold lattice_fwd2, m2. ring.
Qed.

Lemma margrabe_bcall S1 S2 t r b1 b2 s1 s2 rho Q1 Q2 : margrabe S1 S2 t r b1 b2 s1 s2 rho Q1 Q2 =
  bcall Phi (Q1 * S1 * exp ((b1 - r) * t)) (Q2 * S2 * exp ((b2 - r) * t)) (sqrt (s1 ^ 2 + s2 ^ 2 - 2 * rho * s1 * s2) * sqrt t).
Proof. unfold margrabe, bcall. cbv zeta. rewrite bd12. reflexivity. Qed.
Lemma var_eq s1 s2 rho t : 0 < t -> -1 <= rho <= 1 -> (s2 * sqrt t * sqrt (1 - rho ^ 2)) ^ 2 + (s2 * sqrt t * rho - s1 * sqrt t) ^ 2 = (s1 ^ 2 + s2 ^ 2 - 2 * rho * s1 * s2) * t.
Proof.
  intros Ht Hr. rewrite !Rpow_mult_distr, (pow2_sqrt (1 - rho ^ 2)), (pow2_sqrt t) by nra. replace ((s2 * sqrt t * rho - s1 * sqrt t) ^ 2) with ((s2 * rho - s1) ^ 2 * (sqrt t) ^ 2) by ring. rewrite pow2_sqrt by lra. ring.
Qed.
(** receiving asset 2 for asset 1 *)
Lemma value_21 S1 S2 t r b1 b2 s1 s2 rho Q1 Q2 : 0 < S1 -> 0 < S2 -> 0 < Q1 -> 0 < Q2 -> 0 < t -> -1 < rho < 1 -> 0 < s2 ->
  two_asset_value S1 S2 t r b1 b2 s1 s2 rho (fun x => Rmax 0 (Q2 * snd x - Q1 * fst x)) (margrabe S2 S1 t r b2 b1 s2 s1 rho Q2 Q1).
Proof.
  intros H1 H2 HQ1 HQ2 Ht Hr Hs. assert (Hrr : -1 <= rho <= 1) by lra. set (al := s1 * sqrt t). set (be := s2 * sqrt t * rho). set (ga := s2 * sqrt t * sqrt (1 - rho ^ 2)).
  assert (Hsq : 0 < sqrt t) by now apply sqrt_lt_R0. assert (Hg : 0 < ga) by (unfold ga; repeat apply Rmult_lt_0_compat; [assumption|assumption|apply sqrt_lt_R0; nra]).
  set (A1 := Q1 * (S1 * exp (b1 * t))). set (A2 := Q2 * (S2 * exp (b2 * t))).
  assert (HA1 : 0 < A1) by (unfold A1; pose proof (exp_pos (b1 * t)); repeat apply Rmult_lt_0_compat; assumption). assert (HA2 : 0 < A2) by (unfold A2; pose proof (exp_pos (b2 * t)); repeat apply Rmult_lt_0_compat; assumption).
  assert (E : margrabe S2 S1 t r b2 b1 s2 s1 rho Q2 Q1 = exp (- r * t) * bcall Phi A2 A1 (sqrt (ga ^ 2 + (be - al) ^ 2))).
  { rewrite margrabe_bcall, <- bcall_scale by (try assumption; apply exp_pos). unfold ga, be, al. rewrite var_eq by assumption.
    replace (s2 ^ 2 + s1 ^ 2 - 2 * rho * s2 * s1) with (s1 ^ 2 + s2 ^ 2 - 2 * rho * s1 * s2) by ring.
    assert (HV : 0 <= s1 ^ 2 + s2 ^ 2 - 2 * rho * s1 * s2) by (replace (s1 ^ 2 + s2 ^ 2 - 2 * rho * s1 * s2) with ((s1 - rho * s2) ^ 2 + (1 - rho ^ 2) * s2 ^ 2) by ring; pose proof (pow2_ge_0 (s1 - rho * s2)); assert (0 <= (1 - rho ^ 2) * s2 ^ 2) by (apply Rmult_le_pos; nra); lra).
    rewrite sqrt_mult by lra. f_equal.
    - unfold A2. replace ((b2 - r) * t) with (- r * t + b2 * t) by ring. rewrite exp_plus. ring.
    - unfold A1. replace ((b1 - r) * t) with (- r * t + b1 * t) by ring. rewrite exp_plus. ring. }
  rewrite E. assert (P := exchange_mean A1 A2 al be ga HA1 HA2 Hg). assert (P' := is_expect_lin _ _ _ _ _ (exp (- r * t)) 0 P P). rewrite Rmult_0_l, Rplus_0_r in P'.
  unfold two_asset_value. eapply is_expect_ext; [|exact P']. intros zs _. cbv beta zeta. cbn [fst snd]. rewrite Rmult_0_l, Rplus_0_r. rewrite ln1_X1, ln2_X2 by assumption. fold al be ga.
  do 3 f_equal; unfold X1, X2, A1, A2; ring.
Qed.
(** receiving asset 1 for asset 2 *)
Lemma value_12 S1 S2 t r b1 b2 s1 s2 rho Q1 Q2 : 0 < S1 -> 0 < S2 -> 0 < Q1 -> 0 < Q2 -> 0 < t -> -1 < rho < 1 -> 0 < s2 ->
  two_asset_value S1 S2 t r b1 b2 s1 s2 rho (fun x => Rmax 0 (Q1 * fst x - Q2 * snd x)) (margrabe S1 S2 t r b1 b2 s1 s2 rho Q1 Q2).
Proof.
  intros H1 H2 HQ1 HQ2 Ht Hr Hs. assert (P := value_21 S1 S2 t r b1 b2 s1 s2 rho Q1 Q2 H1 H2 HQ1 HQ2 Ht Hr Hs).
  assert (M1 := X1_mean (S1 * exp (b1 * t)) (s1 * sqrt t)). assert (M2 := X2_mean (S2 * exp (b2 * t)) (s2 * sqrt t * rho) (s2 * sqrt t * sqrt (1 - rho ^ 2))).
  assert (Q := is_expect_lin _ _ _ _ _ 1 1 P (is_expect_lin _ _ _ _ _ (exp (- r * t) * Q1) (- (exp (- r * t) * Q2)) M1 M2)). cbv beta zeta in Q.
  assert (E : margrabe S1 S2 t r b1 b2 s1 s2 rho Q1 Q2 = 1 * margrabe S2 S1 t r b2 b1 s2 s1 rho Q2 Q1 + 1 * (exp (- r * t) * Q1 * (S1 * exp (b1 * t)) + - (exp (- r * t) * Q2) * (S2 * exp (b2 * t)))).
  { rewrite !margrabe_bcall. replace (s2 ^ 2 + s1 ^ 2 - 2 * rho * s2 * s1) with (s1 ^ 2 + s2 ^ 2 - 2 * rho * s1 * s2) by ring.
    set (A := Q1 * S1 * exp ((b1 - r) * t)). set (B := Q2 * S2 * exp ((b2 - r) * t)). assert (HA : 0 < A) by (unfold A; pose proof (exp_pos ((b1 - r) * t)); repeat apply Rmult_lt_0_compat; assumption). assert (HB : 0 < B) by (unfold B; pose proof (exp_pos ((b2 - r) * t)); repeat apply Rmult_lt_0_compat; assumption).
    rewrite (bcall_dual Phi B A) by assumption. assert (Par := b_parity Phi A B (sqrt (s1 ^ 2 + s2 ^ 2 - 2 * rho * s1 * s2) * sqrt t) Phi_sym).
    replace (exp (- r * t) * Q1 * (S1 * exp (b1 * t))) with A by (unfold A; replace ((b1 - r) * t) with (- r * t + b1 * t) by ring; rewrite exp_plus; ring).
    replace (- (exp (- r * t) * Q2) * (S2 * exp (b2 * t))) with (- B) by (unfold B; replace ((b2 - r) * t) with (- r * t + b2 * t) by ring; rewrite exp_plus; ring). lra. }
  rewrite E. unfold two_asset_value. eapply is_expect_ext; [|exact Q]. intros zs _. cbv beta zeta. cbn [fst snd]. rewrite <- ln1_X1, <- ln2_X2 by lra.
  set (u := lognormal1 _ _ _ _ _). set (w := lognormal2 _ _ _ _ _ _ _). rewrite !Rmult_1_l.
  assert (E2 : Rmax 0 (Q1 * u - Q2 * w) = Rmax 0 (Q2 * w - Q1 * u) + (Q1 * u - Q2 * w)) by (unfold Rmax; destruct (Rle_dec 0 (Q2 * w - Q1 * u)), (Rle_dec 0 (Q1 * u - Q2 * w)); lra).
  rewrite E2. ring.
Qed.

(*@ C60_exchange | The exchange option's call (code 7) converges to Margrabe's formula with the exact normal distribution function, which is the discounted mean payoff. *)
Lemma c60_exchange : forall S1 S2 t r b1 b2 s1 s2 rho K K2 Q1 Q2 otype,
  0 < S1 -> 0 < S2 -> 0 < Q1 -> 0 < Q2 -> 0 < t -> -1 < rho < 1 -> 0 < s2 -> otype <> "american"%string ->
  let v := margrabe S2 S1 t r b2 b1 s2 s1 rho Q2 Q1 in
  two_asset_value S1 S2 t r b1 b2 s1 s2 rho (fun x => Rmax 0 (Q2 * snd x - Q1 * fst x)) v /\
  forall eps, 0 < eps -> exists N, forall n, (N <= n)%nat -> n <> 0%nat -> exists p,
    all_types true false 7 S1 S2 t r b1 b2 s1 s2 rho (Some K) (Some K2) Q1 Q2 otype n = Ok (Price p) /\ Rabs (p - v) < eps.
Proof.
  intros * H1 H2 HQ1 HQ2 Ht Hr Hs Ho v. assert (P := value_21 S1 S2 t r b1 b2 s1 s2 rho Q1 Q2 H1 H2 HQ1 HQ2 Ht Hr Hs). split; [exact P|].
  destruct (c60_limit S1 S2 t r b1 b2 s1 s2 rho K K2 Q1 Q2 7 true otype (fun x => Rmax 0 (Q2 * snd x - Q1 * fst x)) Ht ltac:(lra) ltac:(lia) ltac:(reflexivity) Ho ltac:(reflexivity)) as (w & Hw & HN).
  assert (E := is_expect_unique _ _ _ _ P Hw). fold v in E. rewrite E. exact HN.
Qed.

(*@ C61_kirk | With strike 0 Kirk's approximation is not one: call and put are, up to the 7.5e-8 error of the distribution function, the discounted mean payoffs of the two correlated lognormal assets. *)
Lemma c61_kirk : forall S1 S2 t r b1 b2 s1 s2 rho Q1 Q2,
  0 < S1 -> 0 < S2 -> 0 < Q1 -> 0 < Q2 -> 0 < t -> -1 < rho < 1 -> 0 < s2 ->
  let o := KirkOption S1 S2 0 t r b1 b2 s1 s2 rho Q1 Q2 in
  let tol := (Q1 * S1 * exp ((b1 - r) * t) + Q2 * S2 * exp ((b2 - r) * t)) * (75 / 10 ^ 9) in
  (exists v, two_asset_value S1 S2 t r b1 b2 s1 s2 rho (fun x => Rmax 0 (Q1 * fst x - Q2 * snd x)) v /\ Rabs (kirk_call o - v) <= tol) /\
  (exists v, two_asset_value S1 S2 t r b1 b2 s1 s2 rho (fun x => Rmax 0 (Q2 * snd x - Q1 * fst x)) v /\ Rabs (kirk_put o - v) <= tol).
Proof.
  intros * H1 H2 HQ1 HQ2 Ht Hr Hs o tol. set (A := Q1 * S1 * exp ((b1 - r) * t)) in *. set (B := Q2 * S2 * exp ((b2 - r) * t)) in *.
  assert (HA : 0 < A) by (unfold A; pose proof (exp_pos ((b1 - r) * t)); repeat apply Rmult_lt_0_compat; assumption). assert (HB : 0 < B) by (unfold B; pose proof (exp_pos ((b2 - r) * t)); repeat apply Rmult_lt_0_compat; assumption).
  assert (HB0 : B + 0 * exp (- r * t) = B) by ring.
  assert (HV : 0 < s1 ^ 2 + s2 ^ 2 - 2 * rho * s1 * s2) by (replace (s1 ^ 2 + s2 ^ 2 - 2 * rho * s1 * s2) with ((s1 - rho * s2) ^ 2 + (1 - rho ^ 2) * s2 ^ 2) by ring; pose proof (pow2_ge_0 (s1 - rho * s2)); assert (0 < (1 - rho ^ 2) * s2 ^ 2) by (apply Rmult_lt_0_compat; nra); lra).
  set (v := sqrt (s1 ^ 2 + s2 ^ 2 - 2 * rho * s1 * s2) * sqrt t).
  assert (EV : kirk_var s1 s2 rho (B / (B + 0 * exp (- r * t))) = s1 ^ 2 + s2 ^ 2 - 2 * rho * s1 * s2) by (unfold kirk_var; rewrite HB0; field; lra).
  assert (HS : sqrt (kirk_var s1 s2 rho (B / (B + 0 * exp (- r * t)))) <> 0) by (rewrite EV; apply Rgt_not_eq, sqrt_lt_R0, HV).
  assert (HB1 : 0 < B + 0 * exp (- r * t)) by lra.
  assert (EC := kirk_call_eq S1 S2 0 t r b1 b2 s1 s2 rho Q1 Q2 HB1 HS Ht). assert (EP := kirk_put_eq S1 S2 0 t r b1 b2 s1 s2 rho Q1 Q2 HB1 HS Ht).
  fold o A B in EC, EP. rewrite EV, HB0 in EC, EP. fold v in EC, EP.
  split.
  - eexists. split; [now apply value_12|]. rewrite margrabe_bcall. fold A B v. rewrite EC. unfold bcall, tol. apply diff2; try lra. apply cnd_accuracy.
  - eexists. split; [now apply value_21|]. rewrite margrabe_bcall. fold A B. replace (s2 ^ 2 + s1 ^ 2 - 2 * rho * s2 * s1) with (s1 ^ 2 + s2 ^ 2 - 2 * rho * s1 * s2) by ring. fold v.
    rewrite (bcall_dual Phi B A) by assumption. rewrite EP. unfold bput, tol. rewrite (Rplus_comm A). apply diff2; try lra. apply cnd_accuracy.
Qed.

Lemma steps_call n S K t r b s : 0 < S -> 0 < K -> 0 < t -> 0 < s ->
  is_expect (Datatypes.S n) (fun zs => discounted true K t r (gbm S b s (t / INR (Datatypes.S n)) zs)) (bcall Phi (S * exp ((b - r) * t)) (K * exp (- r * t)) (s * sqrt t)).
Proof.
  intros HS HK Ht Hs. set (N := INR (Datatypes.S n)). assert (HN : 0 < N) by (apply lt_0_INR; lia). set (g := s * sqrt (t / N)).
  assert (Hd : 0 < t / N) by now apply Rdiv_lt_0_compat. assert (Hg : 0 < g) by (apply Rmult_lt_0_compat; [assumption|now apply sqrt_lt_R0]).
  assert (Hg2 : N * g ^ 2 = s ^ 2 * t) by (unfold g; rewrite Rpow_mult_distr, pow2_sqrt by lra; field; lra).
  assert (HA : 0 < S * exp (b * t)) by (pose proof (exp_pos (b * t)); now apply Rmult_lt_0_compat).
  assert (P := black_steps n (S * exp (b * t)) K g HA HK Hg). fold N in P.
  assert (Eg : g * sqrt N = s * sqrt t) by (unfold g; rewrite Rmult_assoc, <- sqrt_mult by lra; do 2 f_equal; field; lra). rewrite Eg in P.
  assert (P' := is_expect_lin _ _ _ _ _ (exp (- r * t)) 0 P P). rewrite Rmult_0_l, Rplus_0_r in P'. rewrite <- bcall_scale in P' by (try assumption; apply exp_pos).
  replace (S * exp ((b - r) * t)) with (exp (- r * t) * (S * exp (b * t))) by (replace ((b - r) * t) with (- r * t + b * t) by ring; rewrite exp_plus; ring). rewrite (Rmult_comm K).
  eapply is_expect_ext; [|exact P']. intros zs Hz. cbv beta. rewrite Rmult_0_l, Rplus_0_r. unfold discounted, gbm. rewrite Hz. fold N g. rewrite (Rmult_assoc S), <- exp_plus.
  replace (b * t + (g * total zs - N * g ^ 2 / 2)) with ((b - s ^ 2 / 2) * (N * (t / N)) + g * total zs); [reflexivity|]. rewrite Hg2. field. lra.
Qed.
Lemma steps_fwd n S t b s : 0 < t -> is_expect (Datatypes.S n) (fun zs => gbm S b s (t / INR (Datatypes.S n)) zs) (S * exp (b * t)).
Proof.
  intros Ht. set (N := INR (Datatypes.S n)). assert (HN : 0 < N) by (apply lt_0_INR; lia). set (g := s * sqrt (t / N)).
  assert (Hd : 0 < t / N) by now apply Rdiv_lt_0_compat.
  assert (Hg2 : N * g ^ 2 = s ^ 2 * t) by (unfold g; rewrite Rpow_mult_distr, pow2_sqrt by lra; field; lra).
  eapply is_expect_ext; [|apply (gbm_steps_mean (Datatypes.S n) (S * exp (b * t)) g)]. intros zs Hz. cbv beta. unfold gbm. rewrite Hz. fold N g. rewrite (Rmult_assoc S), <- exp_plus.
  replace (b * t + (g * total zs - N * g ^ 2 / 2)) with ((b - s ^ 2 / 2) * (N * (t / N)) + g * total zs); [reflexivity|]. rewrite Hg2. field. lra.
Qed.
Definition bvalue (call : bool) (S K t r b s : R) : R := (if call then bcall else bput) Phi (S * exp ((b - r) * t)) (K * exp (- r * t)) (s * sqrt t).
Lemma is_expect_const1 n c : is_expect n (fun _ => c) c.
Proof.
  induction n as [|n IH]; [reflexivity|]. exists (fun _ => c). split; [intro; exact IH|apply mean_const].
Qed.
Lemma steps_value n (call : bool) S K t r b s : 0 < S -> 0 < K -> 0 < t -> 0 < s ->
  is_expect (Datatypes.S n) (fun zs => discounted call K t r (gbm S b s (t / INR (Datatypes.S n)) zs)) (bvalue call S K t r b s).
Proof.
  intros HS HK Ht Hs. assert (P := steps_call n S K t r b s HS HK Ht Hs). destruct call; [exact P|]. assert (F := steps_fwd n S t b s Ht).
  assert (Q := is_expect_lin _ _ _ _ _ 1 1 P (is_expect_lin _ _ _ _ _ (- exp (- r * t)) (exp (- r * t) * K) F (is_expect_const1 _ 1))). cbv beta in Q.
  assert (Par := b_parity Phi (S * exp ((b - r) * t)) (K * exp (- r * t)) (s * sqrt t) Phi_sym). unfold bvalue.
  assert (E : bput Phi (S * exp ((b - r) * t)) (K * exp (- r * t)) (s * sqrt t) = 1 * bcall Phi (S * exp ((b - r) * t)) (K * exp (- r * t)) (s * sqrt t) + 1 * (- exp (- r * t) * (S * exp (b * t)) + exp (- r * t) * K * 1)).
  { replace (- exp (- r * t) * (S * exp (b * t))) with (- (S * exp ((b - r) * t))) by (replace ((b - r) * t) with (- r * t + b * t) by ring; rewrite exp_plus; ring). lra. }
  rewrite E. eapply is_expect_ext; [|exact Q]. intros zs _. cbv beta. unfold discounted. set (u := gbm _ _ _ _ _).
  assert (E2 : Rmax 0 (K - u) = Rmax 0 (u - K) + (K - u)) by (unfold Rmax; destruct (Rle_dec 0 (u - K)), (Rle_dec 0 (K - u)); lra). rewrite E2. ring.
Qed.
Lemma bvalue_mean (call : bool) S K t r b s : 0 < S -> 0 < K -> 0 < t -> 0 < s -> lognormal_value call S K t r b s (bvalue call S K t r b s).
Proof.
  intros HS HK Ht Hs. destruct (steps_value 0 call S K t r b s HS HK Ht Hs) as (g & Hg & M). unfold lognormal_value. eapply is_mean_ext; [|exact M].
  intro z. rewrite <- (Hg z). unfold gbm, lognormal1. cbn [length INR total fold_right]. rewrite Rdiv_1, Rplus_0_r, Rmult_1_l, (Rmult_assoc s). reflexivity.
Qed.

(*@ C61_gbs | Generalised Black-Scholes prices are, up to the 7.5e-8 error of the distribution function, the discounted mean payoff of a lognormal asset; with the exact distribution function they are exactly it. *)
Lemma c61_gbs : forall (S K t r b s : R) (call : bool), 0 < S -> 0 < K -> 0 < t -> 0 < s -> exists price v : R,
  (if call then gbs_call else gbs_put) (GBSOption S K t r b (Some s)) = Ok price /\
  lognormal_value call S K t r b s v /\ Rabs (price - v) <= (S * exp ((b - r) * t) + K * exp (- r * t)) * (75 / 10 ^ 9) /\
  (if call then gbs_call_F Phi else gbs_put_F Phi) (GBSOption S K t r b (Some s)) = Ok v.
Proof.
  intros * HS HK Ht Hs. destruct (gbs_price_accuracy S K t r b s call HS HK Ht ltac:(lra)) as (p & v & H1 & H2 & H3).
  exists p, v. split; [exact H1|]. split; [|now split]. replace v with (bvalue call S K t r b s); [now apply bvalue_mean|].
  destruct call; [rewrite call_link in H2 by lra|rewrite put_link in H2 by lra]; now apply Ok_inj in H2.
Qed.

(*@ C61_tree | Prices of European options in every binomial tree and the trinomial tree converge to the discounted mean payoff of a lognormal asset. *)
Lemma c61_tree : forall c (S K t r b s : R) (call : bool), 0 < S -> 0 < K -> 0 < t -> 0 < s -> exists (price : nat -> R) (v : R),
  lognormal_value call S K t r b s v /\
  (forall n, n <> 0%nat -> tree_price c (mkTree S K t r b s "european" n) call false = Ok (Price (price n))) /\ is_lim_seq price v.
Proof.
  intros * HS HK Ht Hs. destruct (tree_converges c S K t r b s call HS HK Ht Hs) as (v & price & H1 & H2 & H3). destruct (c61_gbs S K t r b s call HS HK Ht Hs) as (p & v' & _ & M & _ & H1').
  exists price, v. split; [|now split]. replace v with v'; [exact M|]. rewrite H1 in H1'. now apply Ok_inj in H1'.
Qed.

(*@ C61_monte_carlo | However many steps the paths have, the mean price of the Monte Carlo option with the vanilla payoff is that same mean, plain or antithetic: averaging the code's price array over independent standard normal innovations gives the Black-Scholes value without any discretisation error. *)
Lemma c61_monte_carlo : forall (trace anti call : bool) (loops len paths : nat) (S K t r b s : R),
  0 < S -> 0 < K -> 0 < t -> 0 < s -> (1 <= loops)%nat -> (1 <= len)%nat -> (1 <= paths)%nat -> exists value v,
    (forall M, shaped len M -> length M = (loops * paths)%nat -> exists o prices tr,
      MonteCarloOption loops len paths S K t r b (Some s) from_stream wiener_path vanilla_payoff trace anti false = Ok o /\
      mc_price call o M = Ok (MArray prices, tr, []) /\ length prices = loops /\ value M = average prices) /\
    lognormal_value call S K t r b s v /\ is_matrix_expect (loops * paths) len value v.
Proof.
  intros * HS HK Ht Hs Hl Hlen Hp. destruct (mc_error trace anti false call loops len paths S K t r b s HS Ht Hs Hl Hlen Hp) as (value & v & V & w & H1 & H2 & _ & H3 & _).
  exists value, v. split; [exact H1|]. split; [|exact H3]. replace v with (bvalue call S K t r b s); [now apply bvalue_mean|].
  destruct len as [|n]; [lia|]. eapply is_expect_unique; [|exact H2]. now apply steps_value.
Qed.
