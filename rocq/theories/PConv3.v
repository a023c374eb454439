(** Lattice prices converge to the Black-Scholes price as the number of steps grows (C34). *)
From Coq Require Import Reals Lra Lia Psatz.
From Coquelicot Require Import Coquelicot.
From Verif Require Import Num MBase PCnd PCnd2 PBlack PGauss PTrees2 PConv PConv2.
Open Scope R_scope.

Lemma Phi_tail_inv d : 0 < d -> 0 <= 1 - Phi d <= / d.
Proof.
  intros H. destruct (Phi_tail d H) as [A B]. split; auto. eapply Rle_trans; [exact B|].
  replace (- d ^ 2 / 2) with (- (d ^ 2 / 2)) by field. rewrite exp_Ropp. apply Rinv_le_contravar; auto.
  pose proof (exp_lb (d ^ 2 / 2)). pose proof (pow2_ge_0 (d - 1)). nra.
Qed.

Lemma exp_m1 y : Rabs (exp y - 1) <= Rabs y * exp (Rabs y).
Proof.
  destruct (mvt exp exp 0 y) as (c & Hc & E). { intros. apply is_derive_exp. }
  rewrite exp_0 in E. rewrite E, Rminus_0_r, Rabs_mult, Rmult_comm. apply Rmult_le_compat_l; [apply Rabs_pos|].
  rewrite Rabs_right by (left; apply exp_pos). assert (B := between0 _ _ Hc).
  assert (c <= Rabs y) by (apply Rabs_le_between in B; lra).
  destruct H as [H| ->]; [left; now apply exp_increasing|lra].
Qed.

Lemma Phi_lip x y : Rabs (Phi x - Phi y) <= Rabs (x - y).
Proof.
  destruct (mvt Phi npdf y x) as (c & _ & E). { intros. apply Phi_derive. }
  rewrite E, Rabs_mult. pose proof (npdf_pos c). destruct (npdf_bounds c) as [B _].
  rewrite (Rabs_right (npdf c)) by lra. pose proof (Rabs_pos (x - y)). nra.
Qed.

Section BS.
Variables (K b s : R).
Hypothesis HK : 0 < K.
Hypothesis Hs : 0 < s.
Notation dx := (dx K b s).
Notation Pv := (Pv K b s).
Notation Av := (Av K b s).
Notation modulus := (modulus K b s).

Definition pay (x : R) : R := Rmax (-1 * (x - K)) 0.

Lemma small_exp tau : 0 < tau <= 1 -> Rabs (exp (b * tau) - 1) <= Rabs b * exp (Rabs b) * sqrt tau.
Proof.
  intros H. eapply Rle_trans; [apply exp_m1|]. rewrite Rabs_mult, (Rabs_right tau) by lra.
  pose proof (Rabs_pos b). pose proof (exp_pos (Rabs b)).
  assert (exp (Rabs b * tau) <= exp (Rabs b)).
  { destruct (Req_dec (Rabs b * tau) (Rabs b)) as [->|]; [lra|]. left. apply exp_increasing. nra. }
  assert (tau <= sqrt tau).
  { rewrite <- (sqrt_sqrt tau) at 1 by lra. assert (sqrt tau <= 1) by (rewrite <- sqrt_1; apply sqrt_le_1_alt; lra).
    assert (0 < sqrt tau) by (apply sqrt_lt_R0; lra). nra. }
  pose proof (exp_pos (Rabs b * tau)).
  apply Rle_trans with (Rabs b * sqrt tau * exp (Rabs b)); [|lra].
  apply Rmult_le_compat; nra.
Qed.

(** at expiry the price tends to the payoff *)
Lemma expiry_rate x : 0 < x -> exists C t0, 0 < t0 <= 1 /\ 0 <= C /\ forall tau, 0 < tau <= t0 -> Rabs (Pv tau x - pay x) <= C * sqrt tau.
Proof.
  intros Hx. set (L := ln x - ln K). set (B := Rabs b * exp (Rabs b)).
  assert (HB : 0 <= B) by (unfold B; apply Rmult_le_pos; [apply Rabs_pos|left; apply exp_pos]).
  assert (EB : forall tau, 0 < tau <= 1 -> exp (b * tau) <= 1 + B).
  { intros tau Ht. generalize (small_exp tau Ht); fold B; intros H. apply Rabs_le_between in H.
    assert (sqrt tau <= 1) by (rewrite <- sqrt_1; apply sqrt_le_1_alt; lra).
    pose proof (sqrt_pos tau). nra. }
  destruct (Rtotal_order x K) as [Lt|[Eq|Gt]].
  - assert (HL : L < 0) by (unfold L; assert (ln x < ln K) by (apply ln_increasing; lra); lra).
    set (c := Rabs b + s ^ 2). assert (Hc : 0 < c) by (unfold c; pose proof (Rabs_pos b); nra).
    set (a := 2 * s / - L). assert (Ha : 0 < a) by (apply Rdiv_lt_0_compat; lra).
    exists (K * a + x * (1 + B) * a + x * B), (Rmin 1 (- L / (2 * c))).
    assert (T0 : 0 < Rmin 1 (- L / (2 * c)) <= 1).
    { split; [|apply Rmin_l]. apply Rmin_glb_lt; [lra|]. apply Rdiv_lt_0_compat; lra. }
    split; auto. split. { assert (0 <= x * (1 + B)) by nra. nra. }
    intros tau [Ht1 Ht2]. assert (Ht3 : tau <= 1) by (eapply Rle_trans; [exact Ht2|lra]).
    assert (Ht4 : c * tau <= - L / 2).
    { assert (tau <= - L / (2 * c)) by (eapply Rle_trans; [exact Ht2|apply Rmin_r]).
      apply Rle_trans with (c * (- L / (2 * c))); [apply Rmult_le_compat_l; lra|]. right. field. lra. }
    pose proof (sq_pos tau Ht1) as SQ.
    assert (D1' : / a * / sqrt tau <= - (dx tau x + s * sqrt tau)).
    { unfold PConv.dx. fold L. 
      replace (- ((L + b * tau) / (s * sqrt tau) - s * sqrt tau / 2 + s * sqrt tau))
        with ((- L - b * tau - s ^ 2 / 2 * (sqrt tau * sqrt tau)) / (s * sqrt tau)) by (field; lra).
      rewrite sqrt_sqrt by lra.
      replace (/ a * / sqrt tau) with ((- L / 2) / (s * sqrt tau)) by (unfold a; field; repeat split; lra).
      apply Rmult_le_compat_r. left; apply Rinv_0_lt_compat; apply Rmult_lt_0_compat; lra.
      unfold c in Ht4. pose proof (Rle_abs b). nra. }
    assert (P1 : 0 < / a * / sqrt tau) by (apply Rmult_lt_0_compat; apply Rinv_0_lt_compat; lra).
    assert (Tail : forall d, / a * / sqrt tau <= d -> 0 <= 1 - Phi d <= a * sqrt tau).
    { intros d Hd. destruct (Phi_tail_inv d ltac:(lra)) as [T1 T2]. split; auto. eapply Rle_trans; [exact T2|].
      replace (a * sqrt tau) with (/ (/ a * / sqrt tau)) by (field; lra). apply Rinv_le_contravar; lra. }
    assert (T1 := Tail _ D1'). assert (T2 := Tail (- dx tau x) ltac:(assert (0 < s * sqrt tau) by (apply Rmult_lt_0_compat; lra); lra)).
    rewrite Pv_eq by auto. unfold PConv.Av. set (p1 := Phi (- (dx tau x + s * sqrt tau))) in *. set (p2 := Phi (- dx tau x)) in *.
    unfold pay. rewrite Rmax_left by lra.
    assert (E1 := small_exp tau ltac:(lra)). fold B in E1. assert (E2 := EB tau ltac:(lra)). pose proof (exp_pos (b * tau)) as E3.
    set (e := exp (b * tau)) in *.
    replace (K * p2 - x * e * p1 - -1 * (x - K)) with (- (K * (1 - p2)) + x * e * (1 - p1) - x * (e - 1)) by ring.
    assert (U1 : 0 <= K * (1 - p2) <= K * (a * sqrt tau)) by nra.
    assert (U2 : 0 <= x * e * (1 - p1) <= x * (1 + B) * (a * sqrt tau)).
    { assert (0 <= x * e) by nra. split; [apply Rmult_le_pos; lra|]. apply Rmult_le_compat; try lra. nra. }
    assert (U3 : - (x * (B * sqrt tau)) <= x * (e - 1) <= x * (B * sqrt tau)).
    { apply Rabs_le_between in E1. nra. }
    apply Rabs_le. lra.
  - subst x. set (d0 := Rabs (b / s) + s). 
    exists (K * s + K * B), 1. split; [lra|]. split; [nra|]. intros tau Ht.
    rewrite Pv_eq by auto. unfold PConv.Av, pay. rewrite Rmax_left by lra.
    assert (E1 := small_exp tau Ht). fold B in E1.
    set (d := dx tau K). pose proof (sqrt_pos tau).
    assert (P := Phi_lip (- d) (- (d + s * sqrt tau))). replace (- d - - (d + s * sqrt tau)) with (s * sqrt tau) in P by ring.
    rewrite (Rabs_right (s * sqrt tau)) in P by nra.
    pose proof (Phi_gt_0 (- (d + s * sqrt tau))). pose proof (Phi_lt_1 (- (d + s * sqrt tau))).
    set (p1 := Phi (- (d + s * sqrt tau))) in *. set (p2 := Phi (- d)) in *. set (e := exp (b * tau)) in *.
    replace (K * p2 - K * e * p1 - -1 * (K - K)) with (K * (p2 - p1) - K * ((e - 1) * p1)) by ring.
    assert (Rabs ((e - 1) * p1) <= B * sqrt tau * 1) by (apply Rabs_mul_le; auto; rewrite Rabs_right; lra).
    apply Rabs_le_between in P, H2. apply Rabs_le. nra.
  - assert (HL : 0 < L) by (unfold L; assert (ln K < ln x) by (apply ln_increasing; lra); lra).
    set (c := Rabs b + s ^ 2). assert (Hc : 0 < c) by (unfold c; pose proof (Rabs_pos b); nra).
    set (a := 2 * s / L). assert (Ha : 0 < a) by (apply Rdiv_lt_0_compat; lra).
    exists (K * a + x * (1 + B) * a), (Rmin 1 (L / (2 * c))).
    assert (T0 : 0 < Rmin 1 (L / (2 * c)) <= 1).
    { split; [|apply Rmin_l]. apply Rmin_glb_lt; [lra|]. apply Rdiv_lt_0_compat; lra. }
    split; auto. split. { assert (0 <= x * (1 + B)) by nra. nra. }
    intros tau [Ht1 Ht2]. assert (Ht3 : tau <= 1) by (eapply Rle_trans; [exact Ht2|lra]).
    assert (Ht4 : c * tau <= L / 2).
    { assert (tau <= L / (2 * c)) by (eapply Rle_trans; [exact Ht2|apply Rmin_r]).
      apply Rle_trans with (c * (L / (2 * c))); [apply Rmult_le_compat_l; lra|]. right. field. lra. }
    pose proof (sq_pos tau Ht1) as SQ.
    assert (D1' : / a * / sqrt tau <= dx tau x).
    { unfold PConv.dx. fold L. 
      replace ((L + b * tau) / (s * sqrt tau) - s * sqrt tau / 2)
        with ((L + b * tau - s ^ 2 / 2 * (sqrt tau * sqrt tau)) / (s * sqrt tau)) by (field; lra).
      rewrite sqrt_sqrt by lra.
      replace (/ a * / sqrt tau) with ((L / 2) / (s * sqrt tau)) by (unfold a; field; repeat split; lra).
      apply Rmult_le_compat_r. left; apply Rinv_0_lt_compat; apply Rmult_lt_0_compat; lra.
      unfold c in Ht4. pose proof (Rabs_maj2 b). nra. }
    assert (P1 : 0 < / a * / sqrt tau) by (apply Rmult_lt_0_compat; apply Rinv_0_lt_compat; lra).
    assert (Tail : forall d, / a * / sqrt tau <= d -> 0 <= Phi (- d) <= a * sqrt tau).
    { intros d Hd. rewrite Phi_opp. destruct (Phi_tail_inv d ltac:(lra)) as [T1 T2]. split; auto. eapply Rle_trans; [exact T2|].
      replace (a * sqrt tau) with (/ (/ a * / sqrt tau)) by (field; lra). apply Rinv_le_contravar; lra. }
    assert (T2 := Tail _ D1'). assert (T1 := Tail (dx tau x + s * sqrt tau) ltac:(assert (0 < s * sqrt tau) by (apply Rmult_lt_0_compat; lra); lra)).
    rewrite Pv_eq by auto. unfold PConv.Av. set (p1 := Phi (- (dx tau x + s * sqrt tau))) in *. set (p2 := Phi (- dx tau x)) in *.
    unfold pay. rewrite Rmax_right by lra.
    assert (E2 := EB tau ltac:(lra)). pose proof (exp_pos (b * tau)) as E3.
    set (e := exp (b * tau)) in *.
    assert (U1 : 0 <= K * p2 <= K * (a * sqrt tau)) by nra.
    assert (U2 : 0 <= x * e * p1 <= x * (1 + B) * (a * sqrt tau)).
    { assert (0 <= x * e) by nra. split; [apply Rmult_le_pos; lra|]. apply Rmult_le_compat; try lra. nra. }
    apply Rabs_le. lra.
Qed.

Lemma modulus_pos t : 0 <= t -> 0 <= modulus t.
Proof.
  intros. unfold PConv2.modulus. pose proof (Rabs_pos b). pose proof (sqrt_pos t).
  assert (0 <= Rabs b * K) by nra. assert (0 <= s * K) by nra. nra.
Qed.

Lemma expiry_close eps x : 0 < eps -> 0 < x -> Rabs (Pv eps x - pay x) <= modulus eps.
Proof.
  intros He Hx. apply le_epsilon. intros eta Heta.
  destruct (expiry_rate x Hx) as (C & t0 & Ht0 & HC & H).
  set (z := eta / (C + 1)). assert (Hz : 0 < z) by (apply Rdiv_lt_0_compat; lra).
  set (d := Rmin (Rmin eps t0) (z * z)).
  assert (Hd : 0 < d) by (unfold d; repeat apply Rmin_glb_lt; try lra; nra).
  assert (d <= eps) by (unfold d; eapply Rle_trans; [apply Rmin_l|apply Rmin_l]).
  assert (d <= t0) by (unfold d; eapply Rle_trans; [apply Rmin_l|apply Rmin_r]).
  assert (Hq : sqrt d <= z).
  { rewrite <- (sqrt_square z) by lra. apply sqrt_le_1_alt. apply Rmin_r. }
  assert (H2 := H d ltac:(lra)).
  assert (H3 := time_close K b s HK Hs x d eps Hx ltac:(lra)).
  assert (H4 := modulus_pos d ltac:(lra)).
  assert (C * sqrt d <= eta).
  { apply Rle_trans with (C * z); [apply Rmult_le_compat_l; lra|].
    apply Rle_trans with ((C + 1) * z); [|right; unfold z; field; lra].
    apply Rmult_le_compat_r; lra. }
  replace (Pv eps x - pay x) with ((Pv eps x - Pv d x) + (Pv d x - pay x)) by ring.
  eapply Rle_trans; [apply Rabs_triang|]. lra.
Qed.

Lemma modulus_sub t e : 0 <= t -> 0 <= e -> modulus (t + e) - modulus t <= modulus e.
Proof.
  intros. unfold PConv2.modulus.
  assert (sqrt (t + e) <= sqrt t + sqrt e).
  { pose proof (sqrt_pos t). pose proof (sqrt_pos e).
    rewrite <- (sqrt_square (sqrt t + sqrt e)) by lra. apply sqrt_le_1_alt.
    replace ((sqrt t + sqrt e) * (sqrt t + sqrt e)) with (sqrt t * sqrt t + sqrt e * sqrt e + 2 * (sqrt t * sqrt e)) by ring.
    rewrite !sqrt_sqrt by lra. assert (0 <= sqrt t * sqrt e) by nra. lra. }
  assert (0 <= s * K) by nra. nra.
Qed.

Lemma modulus_small eta : 0 < eta -> exists e, 0 < e /\ modulus e < eta.
Proof.
  intros. set (c := Rabs b * K + s * K).
  assert (Hc : 0 < c).
  { unfold c. assert (0 <= Rabs b * K) by (apply Rmult_le_pos; [apply Rabs_pos|lra]). assert (0 < s * K) by (apply Rmult_lt_0_compat; lra). lra. }
  set (z := Rmin 1 (eta / (2 * c))). assert (Hz : 0 < z) by (apply Rmin_glb_lt; [lra|apply Rdiv_lt_0_compat; lra]).
  exists (z * z). split; [nra|]. unfold PConv2.modulus. rewrite sqrt_square by lra.
  assert (z <= 1) by apply Rmin_l. assert (z <= eta / (2 * c)) by apply Rmin_r.
  assert (0 <= Rabs b * K) by (pose proof (Rabs_pos b); nra).
  apply Rle_lt_trans with (c * z).
  { unfold c. rewrite Rmult_plus_distr_r. apply Rplus_le_compat_r. apply Rmult_le_compat_l; auto. clearbody z. nra. }
  apply Rle_lt_trans with (c * (eta / (2 * c))); [apply Rmult_le_compat_l; lra|].
  replace (c * (eta / (2 * c))) with (eta / 2) by (field; lra). lra.
Qed.

Variables (u d p : nat -> R) (t : R).
Hypothesis Ht : 0 < t.
Notation dt n := (t / INR n).
Notation Ey n := (p n * (u n - 1) + (1 - p n) * (d n - 1)).
Notation Ey2 n := (p n * (u n - 1) ^ 2 + (1 - p n) * (d n - 1) ^ 2).
Hypothesis Hp : eventually (fun n => 0 <= p n <= 1).
Hypothesis Hu : is_lim_seq u 1.
Hypothesis Hd : is_lim_seq d 1.
Hypothesis H1 : is_lim_seq (fun n => Ey n / dt n) b.
Hypothesis H2 : is_lim_seq (fun n => Ey2 n / dt n) (s ^ 2).

Lemma dt_lim : is_lim_seq (fun n => dt n) 0.
Proof.
  replace (Finite 0) with (Rbar_mult t 0) by (simpl; apply f_equal; ring).
  apply (is_lim_seq_scal_l (fun n => / INR n) t 0). replace (Finite 0) with (Rbar_inv p_infty) by reflexivity.
  apply is_lim_seq_inv. apply is_lim_seq_INR. discriminate.
Qed.

Lemma Rabs_lim (f : nat -> R) (l : R) : is_lim_seq f l -> is_lim_seq (fun n => Rabs (f n - l)) 0.
Proof.
  intros H. replace (Finite 0) with (Rbar_abs 0) by (simpl; rewrite Rabs_R0; reflexivity).
  apply is_lim_seq_abs. replace 0 with (l - l) by ring. apply is_lim_seq_minus'; auto. apply is_lim_seq_const.
Qed.

Theorem put_converges x : 0 < x ->
  is_lim_seq (fun n => bsum (u n) (d n) (p n) pay n x) (Pv t x).
Proof.
  intros Hx. apply is_lim_seq_spec. intros eta.
  destruct (modulus_small (eta / 4) ltac:(pose proof (cond_pos eta); lra)) as (eps & He & Hm).
  destruct (one_step K b s HK Hs eps He) as (C & HC & H).
  set (err := fun n => Rabs (Ey n / dt n - b) + Rabs (Ey2 n / dt n - s ^ 2)
      + (Rabs (u n - 1) + Rabs (d n - 1)) * (Ey2 n / dt n) + dt n).
  assert (L : is_lim_seq (fun n => C * t * err n) (C * t * ((0 + 0 + (0 + 0) * s ^ 2 + 0)))).
  { apply (is_lim_seq_scal_l err (C * t) (0 + 0 + (0 + 0) * s ^ 2 + 0)). unfold err.
    apply is_lim_seq_plus'; [apply is_lim_seq_plus'; [apply is_lim_seq_plus'|apply is_lim_seq_mult'; auto; apply is_lim_seq_plus']|];
      auto using Rabs_lim, dt_lim. }
  replace (C * t * (0 + 0 + (0 + 0) * s ^ 2 + 0)) with 0 in L by ring.
  assert (E1 : eventually (fun n => Rabs (C * t * err n - 0) < eta / 4)).
  { apply is_lim_seq_spec in L. apply (L (mkposreal (eta / 4) ltac:(pose proof (cond_pos eta); lra))). }
  assert (E2 : eventually (fun n => Rabs (u n - 1) < 1 / 2)).
  { apply is_lim_seq_spec in Hu. apply (Hu (mkposreal (1 / 2) ltac:(lra))). }
  assert (E3 : eventually (fun n => Rabs (d n - 1) < 1 / 2)).
  { apply is_lim_seq_spec in Hd. apply (Hd (mkposreal (1 / 2) ltac:(lra))). }
  assert (E4 : eventually (fun n => (0 < n)%nat)) by (exists 1%nat; intros; lia).
  generalize (filter_and _ _ (filter_and _ _ E1 E2) (filter_and _ _ (filter_and _ _ E3 E4) Hp)).
  apply filter_imp. intros n ((Z1 & Z2) & ((Z3 & Z4) & Z5)).
  assert (Hn : 0 < INR n) by now apply lt_0_INR.
  assert (Hdt : 0 < dt n) by now apply Rdiv_lt_0_compat.
  assert (Un : 0 < u n) by (apply Rabs_lt_between in Z2; lra).
  assert (Dn : 0 < d n) by (apply Rabs_lt_between in Z3; lra).
  assert (A1 : forall tau y, eps <= tau -> 0 < y ->
    Rabs (p n * Pv tau (y * u n) + (1 - p n) * Pv tau (y * d n) - Pv (tau + dt n) y) <= C * (dt n * err n)).
  { intros tau y Htau Hy. 
    assert (Q := H tau y (p n) (u n - 1) (d n - 1) (dt n) Htau Hy Z5 (Rlt_le _ _ Z2) (Rlt_le _ _ Z3) Hdt).
    replace (1 + (u n - 1)) with (u n) in Q by ring. replace (1 + (d n - 1)) with (d n) in Q by ring.
    eapply Rle_trans; [exact Q|]. apply Rmult_le_compat_l; auto.
    assert (R1 : Rabs (Ey n - b * dt n) = dt n * Rabs (Ey n / dt n - b)).
    { rewrite <- (Rabs_right (dt n)) at 2 by lra. rewrite <- Rabs_mult. f_equal. field. lra. }
    assert (R2 : Rabs (Ey2 n - s ^ 2 * dt n) = dt n * Rabs (Ey2 n / dt n - s ^ 2)).
    { rewrite <- (Rabs_right (dt n)) at 2 by lra. rewrite <- Rabs_mult. f_equal. field. lra. }
    rewrite R1, R2. unfold err.
    assert (R3 : p n * Rabs (u n - 1) ^ 3 + (1 - p n) * Rabs (d n - 1) ^ 3
      <= dt n * ((Rabs (u n - 1) + Rabs (d n - 1)) * (Ey2 n / dt n))).
    { replace (dt n * ((Rabs (u n - 1) + Rabs (d n - 1)) * (Ey2 n / dt n))) with ((Rabs (u n - 1) + Rabs (d n - 1)) * Ey2 n) by (field; lra).
      rewrite <- (pow2_abs (u n - 1)), <- (pow2_abs (d n - 1)).
      pose proof (Rabs_pos (u n - 1)). pose proof (Rabs_pos (d n - 1)).
      set (a := Rabs (u n - 1)) in *. set (c := Rabs (d n - 1)) in *.
      replace ((a + c) * (p n * a ^ 2 + (1 - p n) * c ^ 2)) with
        (p n * a ^ 3 + (1 - p n) * c ^ 3 + (p n * (c * a ^ 2) + (1 - p n) * (a * c ^ 2))) by ring.
      assert (0 <= c * a ^ 2) by (apply Rmult_le_pos; [lra|apply pow2_ge_0]).
      assert (0 <= a * c ^ 2) by (apply Rmult_le_pos; [lra|apply pow2_ge_0]). nra. }
    simpl (dt n ^ 2). rewrite Rmult_1_r, !Rmult_plus_distr_l. lra. }
  assert (A2 := recursion_close K b s (u n) (d n) (p n) (dt n) _ eps Un Dn Z5 Hdt He A1 n x Hx).
  replace (INR n * dt n) with t in A2 by (field; lra).
  replace (INR n * (C * (dt n * err n))) with (C * t * err n) in A2 by (field; lra).
  assert (A3 := bsum_close (u n) (d n) (p n) pay (Pv eps) (modulus eps) Un Dn Z5
    ltac:(intros y Hy; rewrite Rabs_minus_sym; apply expiry_close; auto) n x Hx).
  assert (A4 := time_close K b s HK Hs x t (eps + t) Hx ltac:(lra)).
  assert (A5 := modulus_sub t eps ltac:(lra) ltac:(lra)). replace (t + eps) with (eps + t) in A5 by ring.
  rewrite Rminus_0_r in Z1. assert (Z1' := Rle_abs (C * t * err n)).
  set (w := bsum (u n) (d n) (p n) pay n x) in *. set (w' := bsum (u n) (d n) (p n) (Pv eps) n x) in *.
  replace (w - Pv t x) with ((w - w') + (w' - Pv (eps + t) x) + (Pv (eps + t) x - Pv t x)) by ring.
  eapply Rle_lt_trans; [apply Rabs_triang|]. eapply Rle_lt_trans; [apply Rplus_le_compat_r, Rabs_triang|]. pose proof (cond_pos eta). lra.
Qed.
End BS.
