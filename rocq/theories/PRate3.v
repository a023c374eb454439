(** The rate of convergence of European tree prices (C71). *)
From Coq Require Import Reals String List Arith Lra Lia Psatz.
From Coquelicot Require Import Coquelicot.
From Verif Require Import Num Py MBase MVanilla MTrees STrees PCnd PCnd2 PBlack PGauss PGbs PGbs2 PGbs3 PVanilla
  PTrees2 PStop PTrees3 PLattice PTrees4 PConv PConv2 PConv3 PConv4 PRate PRate2.
Open Scope R_scope.

Lemma bsum_scale u d p K n x : 0 < K -> bsum u d p (pay K) n x = K * bsum u d p (pay 1) n (x / K).
Proof.
  intros HK. revert x. induction n; intros x.
  - rewrite !bsum_0. unfold pay. rewrite <- RmaxRmult by lra. f_equal; field. lra.
  - rewrite !bsum_S, !IHn. replace (x / K * u) with (x * u / K) by (field; lra). replace (x / K * d) with (x * d / K) by (field; lra). ring.
Qed.

Lemma Pv_scale K b s t x : 0 < K -> 0 < x -> Pv K b s t x = K * Pv 1 b s t (x / K).
Proof.
  intros HK Hx. unfold Pv. rewrite <- bput_scale; auto; try lra.
  - f_equal; field; lra.
  - apply Rmult_lt_0_compat; [apply Rdiv_lt_0_compat; auto|apply exp_pos].
Qed.

Lemma bi_rate k t r b sigma : 0 < t -> 0 < sigma -> exists C N, 0 <= C /\ (0 < N)%nat /\ forall S K (call : bool) n,
  0 < S -> 0 < K -> (N <= n)%nat -> exists v x,
    (if call then gbs_call_F Phi else gbs_put_F Phi) (GBSOption S K t r b (Some sigma)) = Ok v /\
    tree_price (Bi k) (mkTree S K t r b sigma "european" n) call false = Ok (Price x) /\
    Rabs (x - v) <= C * (S + K) / sqrt (INR n).
Proof.
  intros Ht Hs.
  destruct (put_rate_tree k b sigma Hs t Ht 1 Rlt_0_1) as (C1 & N1 & HC1 & HN1 & H1).
  destruct (forward_rate k b sigma Hs t Ht) as (C2 & N2 & HC2 & HN2 & H2).
  pose proof (exp_pos (- r * t)) as ED.
  exists (exp (- r * t) * (C1 + C2)), (Nat.max N1 N2). split; [apply Rmult_le_pos; lra|]. split; [lia|].
  intros S K call n HS HK Hn. assert (n0 : n <> 0%nat) by lia.
  assert (F1 : S * exp ((b - r) * t) = exp (- r * t) * (S * exp (b * t))).
  { replace ((b - r) * t) with (- r * t + b * t) by ring. rewrite exp_plus. ring. }
  assert (F2 : K * exp (- r * t) = exp (- r * t) * K) by ring.
  set (h := t / INR n).
  exists (exp (- r * t) * (if call then Pv K b sigma t S + (S * exp (b * t) - K) else Pv K b sigma t S)).
  exists (WM false (moves (Bi k) b sigma h) (exp (- r * h)) (zof call) K n S).
  split; [|split].
  - pose proof (exp_pos (b * t)).
    destruct call.
    + rewrite call_link by (auto; lra). apply f_equal. rewrite F1, F2, bcall_scale by (auto; apply Rmult_lt_0_compat; auto).
      f_equal. unfold Pv. generalize (b_parity Phi (S * exp (b * t)) K (sigma * sqrt t) Phi_sym). lra.
    + rewrite put_link by (auto; lra). apply f_equal. rewrite F1, F2, bput_scale by (auto; apply Rmult_lt_0_compat; auto). reflexivity.
  - change "european"%string with (the_type false). rewrite price_WM by (auto; lra). reflexivity.
  - assert (E : WM false (moves (Bi k) b sigma h) (exp (- r * h)) (zof call) K n S
      = exp (- r * t) * bsum (step_u k b sigma h) (step_d k b sigma h) (step_p k b sigma h) (fun y => Rmax (zof call * (y - K)) 0) n S).
    { unfold WM, moves. rewrite <- W_WGe, euro_bsum. rewrite <- (Df_pow t r n) by auto. reflexivity. }
    rewrite E, <- Rmult_minus_distr_l, Rabs_mult, (Rabs_right (exp (- r * t))) by lra.
    unfold Rdiv. rewrite !Rmult_assoc. apply Rmult_le_compat_l; [lra|]. rewrite <- (Rmult_assoc (C1 + C2)).
    assert (SN : 0 < sqrt (INR n)) by (apply sqrt_lt_R0, lt_0_INR; lia).
    assert (IS : 0 < / sqrt (INR n)) by now apply Rinv_0_lt_compat.
    assert (PP : Rabs (bsum (step_u k b sigma h) (step_d k b sigma h) (step_p k b sigma h) (pay K) n S - Pv K b sigma t S) <= K * C1 * / sqrt (INR n)).
    { rewrite bsum_scale, Pv_scale, <- Rmult_minus_distr_l, Rabs_mult, (Rabs_right K), Rmult_assoc by lra.
      apply Rmult_le_compat_l; [lra|]. apply (H1 n (S / K)); [lia|apply Rdiv_lt_0_compat; auto]. }
    assert (FF := H2 n ltac:(lia)). fold h in FF. unfold Rdiv in FF.
    set (i := / sqrt (INR n)) in *.
    assert (0 <= C1 * i) by nra. assert (0 <= C2 * i) by nra.
    destruct call.
    + assert (EP := euro_parity (step_u k b sigma h) (step_d k b sigma h) (step_p k b sigma h) 1 K n S).
      rewrite !euro_bsum, pow1 in EP. unfold pay in PP. unfold zof.
      set (fw := (step_p k b sigma h * step_u k b sigma h + (1 - step_p k b sigma h) * step_d k b sigma h) ^ n) in *.
      set (bc := bsum _ _ _ (fun y => Rmax (1 * (y - K)) 0) n S) in *. set (bp := bsum _ _ _ (fun y => Rmax (-1 * (y - K)) 0) n S) in *.
      assert (FS : Rabs (S * (fw - exp (b * t))) <= S * (C2 * i)).
      { rewrite Rabs_mult, (Rabs_right S) by lra. apply Rmult_le_compat_l; lra. }
      replace (bc - (Pv K b sigma t S + (S * exp (b * t) - K))) with ((bp - Pv K b sigma t S) + S * (fw - exp (b * t))) by lra.
      eapply Rle_trans; [apply Rabs_triang|].
      assert (0 <= S * (C1 * i)) by nra. assert (0 <= K * (C2 * i)) by nra. lra.
    + unfold zof. eapply Rle_trans; [exact PP|].
      assert (0 <= S * (C1 * i)) by nra. assert (0 <= K * (C2 * i)) by nra. assert (0 <= S * (C2 * i)) by nra. lra.
Qed.

(*@ C71_rate | For all four classes the error of the European tree price with n steps is at most a constant times (S + K) / sqrt n; the constant and the number of steps from which it holds depend on time, rates and volatility only. *)
Lemma c71_rate : forall c t r b sigma, 0 < t -> 0 < sigma -> exists C N, forall S K (call : bool) n,
  0 < S -> 0 < K -> (N <= n)%nat -> exists v x,
    (if call then gbs_call_F Phi else gbs_put_F Phi) (GBSOption S K t r b (Some sigma)) = Ok v /\
    tree_price c (mkTree S K t r b sigma "european" n) call false = Ok (Price x) /\
    Rabs (x - v) <= C * (S + K) / sqrt (INR n).
Proof.
  intros c t r b sigma Ht Hs. destruct c as [k|].
  - destruct (bi_rate k t r b sigma Ht Hs) as (C & N & _ & _ & H). now exists C, N.
  - destruct (bi_rate CRR t r b sigma Ht Hs) as (C & N & HC & HN & H). exists C, N.
    intros S K call n HS HK Hn. destruct (H S K call (2 * n)%nat HS HK ltac:(lia)) as (v & x & A1 & A2 & A3).
    exists v, x. split; auto.
    destruct (trinomial_two_binomial S K t r b sigma n call ltac:(lia) Ht ltac:(lra)) as (w & _ & _ & E1 & E2 & _).
    split; [rewrite E1, <- E2; auto|]. eapply Rle_trans; [exact A3|].
    unfold Rdiv. apply Rmult_le_compat_l; [apply Rmult_le_pos; lra|]. assert (0 < INR n) by (apply lt_0_INR; lia).
    apply Rinv_le_contravar; [now apply sqrt_lt_R0|]. apply sqrt_le_1_alt, le_INR. lia.
Qed.

(*@ C71_every_n | For one option the bound holds for every number of steps: the error is at most a constant over sqrt n. *)
Lemma c71_every_n : forall c S K t r b sigma (call : bool), 0 < S -> 0 < K -> 0 < t -> 0 < sigma -> exists v C,
  (if call then gbs_call_F Phi else gbs_put_F Phi) (GBSOption S K t r b (Some sigma)) = Ok v /\
  forall n, n <> 0%nat -> exists x, tree_price c (mkTree S K t r b sigma "european" n) call false = Ok (Price x) /\
    Rabs (x - v) <= C / sqrt (INR n).
Proof.
  intros c S K t r b sigma call HS HK Ht Hs.
  destruct (tree_converges c S K t r b sigma call HS HK Ht Hs) as (v & price & H1 & H2 & _).
  destruct (c71_rate c t r b sigma Ht Hs) as (C & N & H).
  assert (HB : forall n, (N <= n)%nat -> n <> 0%nat -> Rabs (price n - v) <= C * (S + K) / sqrt (INR n)).
  { intros n Hn n0. destruct (H S K call n HS HK Hn) as (v' & x & A1 & A2 & A3).
    rewrite A1 in H1. injection H1 as ->. rewrite (H2 n n0) in A2. injection A2 as ->. auto. }
  assert (G : forall m, exists C', forall n, n <> 0%nat -> (n < m)%nat -> Rabs (price n - v) <= C' / sqrt (INR n)).
  { induction m as [|m [C' IH]]. { exists 0. intros. lia. }
    exists (Rmax C' (Rabs (price m - v) * sqrt (INR m))). intros n n0 Hn.
    assert (SN : 0 < sqrt (INR n)) by (apply sqrt_lt_R0, lt_0_INR; lia).
    assert (IS : 0 < / sqrt (INR n)) by now apply Rinv_0_lt_compat.
    destruct (Nat.eq_dec n m) as [->|Hne].
    - apply Rle_trans with (Rabs (price m - v) * sqrt (INR m) / sqrt (INR m)). right; field; lra.
      apply Rmult_le_compat_r; [lra|apply Rmax_r].
    - eapply Rle_trans; [apply IH; lia|]. apply Rmult_le_compat_r; [lra|apply Rmax_l]. }
  destruct (G N) as [C' HC']. exists v, (Rmax C' (C * (S + K))). split; auto.
  intros n n0. exists (price n). split; auto.
  assert (SN : 0 < sqrt (INR n)) by (apply sqrt_lt_R0, lt_0_INR; lia).
  assert (IS : 0 < / sqrt (INR n)) by now apply Rinv_0_lt_compat.
  destruct (lt_dec n N) as [L|L].
  - eapply Rle_trans; [apply HC'; auto|]. apply Rmult_le_compat_r; [lra|apply Rmax_l].
  - eapply Rle_trans; [apply HB; auto; lia|]. apply Rmult_le_compat_r; [lra|apply Rmax_r].
Qed.

(*@ C71_code | Against the price GBSOption itself returns the tree is within 7.5e-8 of the forward and strike values plus that constant times (S + K) / sqrt n. *)
Lemma c71_code : forall c t r b sigma, 0 < t -> 0 < sigma -> exists C N, forall S K (call : bool) n,
  0 < S -> 0 < K -> (N <= n)%nat -> exists w x,
    (if call then gbs_call else gbs_put) (GBSOption S K t r b (Some sigma)) = Ok w /\
    tree_price c (mkTree S K t r b sigma "european" n) call false = Ok (Price x) /\
    Rabs (x - w) <= (S * exp ((b - r) * t) + K * exp (- r * t)) * (75 / 10 ^ 9) + C * (S + K) / sqrt (INR n).
Proof.
  intros c t r b sigma Ht Hs. destruct (c71_rate c t r b sigma Ht Hs) as (C & N & H). exists C, N.
  intros S K call n HS HK Hn. destruct (H S K call n HS HK Hn) as (v & x & A1 & A2 & A3).
  destruct (gbs_price_accuracy S K t r b sigma call HS HK Ht ltac:(lra)) as (w & v' & W1 & W2 & W3).
  rewrite A1 in W2. injection W2 as <-. exists w, x. repeat split; auto.
  rewrite Rabs_minus_sym in W3. replace (x - w) with ((v - w) + (x - v)) by ring.
  eapply Rle_trans; [apply Rabs_triang|]. lra.
Qed.
