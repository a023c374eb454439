(** Binomial steps as tilted symmetric walks: a block of steps against a Gaussian average. *)
From Coq Require Import Reals Arith Lra Lia.
From Coquelicot Require Import Coquelicot.
From Verif Require Import Num Py SMonte PCnd PGauss SHeston PHeston PHeston2 PExpect PExpect2 PTrees3 PSpread3 PClt PAmer1 PAmer2.
Open Scope R_scope.

Lemma rw_shift k a F v x : rw k a F (v + x) = rw k a (fun u => F (v + u)) x.
Proof.
  revert x. induction k as [|k IH]; intro x; cbn; [reflexivity|]. replace (v + x + a) with (v + (x + a)) by ring. replace (v + x - a) with (v + (x - a)) by ring. now rewrite !IH.
Qed.
Lemma rw_scal k a F y x : rw k a (fun u => y * F u) x = y * rw k a F x.
Proof. rewrite (rw_ext k a _ (fun u => y * F u + 0 * F u)) by (intro; ring). rewrite rw_lin. ring. Qed.

(** one discounted step of the logarithm of the price *)
Definition bstep (D p m a : R) (f : R -> R) (w : R) : R := D * (p * f (w + m + a) + (1 - p) * f (w + m - a)).
Definition tp (th a : R) : R := exp (th * a) / (2 * ch (th * a)).
Lemma tp_range th a : 0 < tp th a < 1.
Proof.
  unfold tp, ch. pose proof (exp_pos (th * a)). pose proof (exp_pos (- (th * a))). replace (2 * ((exp (th * a) + exp (- (th * a))) / 2)) with (exp (th * a) + exp (- (th * a))) by field.
  split; [apply Rdiv_lt_0_compat; lra|]. apply Rmult_lt_reg_r with (exp (th * a) + exp (- (th * a))); [lra|]. unfold Rdiv. rewrite Rmult_assoc, Rinv_l by lra. lra.
Qed.
Lemma tp_compl th a : 1 - tp th a = exp (- (th * a)) / (2 * ch (th * a)).
Proof. unfold tp, ch. pose proof (exp_pos (th * a)). pose proof (exp_pos (- (th * a))). field. lra. Qed.
Lemma bstep_mono D p m a : 0 <= D -> 0 <= p <= 1 -> mono (bstep D p m a).
Proof. intros HD Hp f h H w. unfold bstep. apply Rmult_le_compat_l; [exact HD|]. pose proof (H (w + m + a)). pose proof (H (w + m - a)). nra. Qed.
Lemma bstep_lin D p m a : linear (bstep D p m a).
Proof. intros f h u v w. unfold bstep. ring. Qed.

Lemma it_tilt D th m a f k : forall w,
  it k (bstep D (tp th a) m a) f w = (D / ch (th * a)) ^ k * rw k a (fun u => exp (th * u) * f (w + INR k * m + u)) 0.
Proof.
  assert (Hc : ch (th * a) <> 0) by (pose proof (ch_ge_1 (th * a)); lra).
  induction k as [|k IH]; intro w.
  - cbn [it pow rw INR]. rewrite !Rmult_0_r, Rmult_0_l, exp_0, !Rplus_0_r. ring.
  - cbn [it]. unfold bstep at 1. rewrite !IH. cbn [rw pow].
    replace (0 + a) with (a + 0) by ring. replace (0 - a) with (- a + 0) by ring. rewrite !rw_shift.
    rewrite (rw_ext k a (fun u => exp (th * (a + u)) * f (w + INR (S k) * m + (a + u))) (fun u => exp (th * a) * (exp (th * u) * f (w + m + a + INR k * m + u)))).
    2:{ intro u. rewrite Rmult_plus_distr_l, exp_plus, Rmult_assoc. do 3 f_equal. rewrite S_INR. ring. }
    rewrite (rw_ext k a (fun u => exp (th * (- a + u)) * f (w + INR (S k) * m + (- a + u))) (fun u => exp (- (th * a)) * (exp (th * u) * f (w + m - a + INR k * m + u)))).
    2:{ intro u. replace (th * (- a + u)) with (- (th * a) + th * u) by ring. rewrite exp_plus, Rmult_assoc. do 3 f_equal. rewrite S_INR. ring. }
    rewrite !rw_scal, tp_compl. unfold tp. field. exact Hc.
Qed.

Lemma exp_mix q T u u' : 0 <= q -> 0 <= T -> exp (T * Rabs u) * exp (q * Rabs u') <= exp ((q + T) * Rabs u) + exp ((q + T) * Rabs u').
Proof.
  intros Hq HT. rewrite <- exp_plus. pose proof (exp_pos ((q + T) * Rabs u)). pose proof (exp_pos ((q + T) * Rabs u')). pose proof (Rabs_pos u). pose proof (Rabs_pos u').
  destruct (Rle_dec (Rabs u) (Rabs u')) as [H3|H3].
  - assert (exp (T * Rabs u + q * Rabs u') <= exp ((q + T) * Rabs u')); [apply exp_le; nra|lra].
  - assert (exp (T * Rabs u + q * Rabs u') <= exp ((q + T) * Rabs u)); [apply exp_le; nra|lra].
Qed.
Lemma lip_tilt c q f w0 th T : 0 <= c -> 0 <= q -> Rabs th <= T -> lip c q f -> lip (c * exp (q * Rabs w0) * (2 + 2 * T)) (q + T) (fun u => exp (th * u) * f (w0 + u)).
Proof.
  intros Hc Hq Hth [A L]. assert (HT : 0 <= T) by (pose proof (Rabs_pos th); lra). set (E := exp (q * Rabs w0)). assert (HE : 0 < E) by apply exp_pos. assert (HcE : 0 <= c * E) by nra.
  assert (Et : forall u, exp (th * u) <= exp (T * Rabs u)).
  { intro u. apply exp_le. pose proof (Rle_abs (th * u)) as P. rewrite Rabs_mult in P. pose proof (Rabs_pos u). nra. }
  assert (Eq : forall u, exp (q * Rabs (w0 + u)) <= E * exp (q * Rabs u)).
  { intro u. unfold E. rewrite <- exp_plus. apply exp_le. pose proof (Rabs_triang w0 u). nra. }
  assert (Es : forall u, exp (T * Rabs u) * exp (q * Rabs u) = exp ((q + T) * Rabs u)) by (intro u; rewrite <- exp_plus; f_equal; ring).
  split.
  - intro u. rewrite Rabs_mult, (Rabs_pos_eq (exp (th * u))) by (apply Rlt_le, exp_pos). apply Rle_trans with (exp (T * Rabs u) * (c * (E * exp (q * Rabs u)))).
    + apply Rmult_le_compat; [apply Rlt_le, exp_pos|apply Rabs_pos|apply Et|]. eapply Rle_trans; [apply A|]. apply Rmult_le_compat_l; [exact Hc|apply Eq].
    + rewrite <- Es. pose proof (exp_pos (T * Rabs u)). pose proof (exp_pos (q * Rabs u)). set (x := exp (T * Rabs u)) in *. set (y := exp (q * Rabs u)) in *.
      replace (x * (c * (E * y))) with (c * E * (x * y)) by ring. assert (0 <= c * E * (x * y)) by (apply Rmult_le_pos; nra).
      replace (c * E * (2 + 2 * T) * (x * y)) with (c * E * (x * y) * (2 + 2 * T)) by ring. nra.
  - intros u u'. replace (exp (th * u) * f (w0 + u) - exp (th * u') * f (w0 + u')) with (exp (th * u) * (f (w0 + u) - f (w0 + u')) + f (w0 + u') * (exp (th * u) - exp (th * u'))) by ring.
    eapply Rle_trans; [apply Rabs_triang|]. rewrite !Rabs_mult, (Rabs_pos_eq (exp (th * u))) by (apply Rlt_le, exp_pos).
    set (d := Rabs (u - u')). assert (Hd : 0 <= d) by apply Rabs_pos.
    set (a1 := exp ((q + T) * Rabs u)). set (a2 := exp ((q + T) * Rabs u')). set (x := exp (T * Rabs u)). set (x' := exp (T * Rabs u')). set (y := exp (q * Rabs u)). set (y' := exp (q * Rabs u')).
    assert (X1 : x * y = a1) by apply Es. assert (X2 : x' * y' = a2) by apply Es. assert (X3 : x * y' <= a1 + a2) by (apply exp_mix; assumption).
    assert (0 < x) by apply exp_pos. assert (0 < x') by apply exp_pos. assert (0 < y) by apply exp_pos. assert (0 < y') by apply exp_pos. assert (0 < a1) by apply exp_pos. assert (0 < a2) by apply exp_pos.
    assert (P1 : exp (th * u) * Rabs (f (w0 + u) - f (w0 + u')) <= c * E * d * (2 * a1 + a2)).
    { apply Rle_trans with (x * (c * d * (E * y + E * y'))).
      - apply Rmult_le_compat; [apply Rlt_le, exp_pos|apply Rabs_pos|apply Et|]. eapply Rle_trans; [apply L|]. replace (w0 + u - (w0 + u')) with (u - u') by ring. fold d.
        apply Rmult_le_compat_l; [nra|]. pose proof (Eq u). pose proof (Eq u'). unfold y, y'. lra.
      - replace (x * (c * d * (E * y + E * y'))) with (c * E * d * (x * y + x * y')) by ring. apply Rmult_le_compat_l; [nra|]. lra. }
    assert (P2 : Rabs (f (w0 + u')) * Rabs (exp (th * u) - exp (th * u')) <= c * E * d * (T * (a1 + 2 * a2))).
    { apply Rle_trans with (c * (E * y') * (T * d * (x + x'))).
      - apply Rmult_le_compat; [apply Rabs_pos|apply Rabs_pos| |].
        + eapply Rle_trans; [apply A|]. apply Rmult_le_compat_l; [exact Hc|apply Eq].
        + eapply Rle_trans; [apply exp_lip|]. rewrite <- Rmult_minus_distr_l, Rabs_mult. fold d. pose proof (Et u). pose proof (Et u'). fold x in H5. fold x' in H6. pose proof (exp_pos (th * u)). pose proof (exp_pos (th * u')).
          pose proof (Rabs_pos th). apply Rmult_le_compat; [nra|lra|nra|lra].
      - replace (c * (E * y') * (T * d * (x + x'))) with (c * E * d * (T * (x * y' + x' * y'))) by ring. apply Rmult_le_compat_l; [nra|]. apply Rmult_le_compat_l; lra. }
    eapply Rle_trans; [apply Rplus_le_compat; [exact P1|exact P2]|]. replace (c * E * (2 + 2 * T) * d * (a1 + a2)) with (c * E * d * ((2 + 2 * T) * (a1 + a2))) by ring. rewrite <- Rmult_plus_distr_l.
    apply Rmult_le_compat_l; [nra|]. assert (0 <= T * a1) by nra. assert (0 <= T * a2) by nra. lra.
Qed.

Lemma Gs_tilt c q f o w0 th : 0 <= c -> 0 <= q -> 0 <= o -> lip c q f -> Gs o (fun u => exp (th * u) * f (w0 + u)) 0 = exp (th ^ 2 * o ^ 2 / 2) * Gs o f (w0 + th * o ^ 2).
Proof.
  intros Hc Hq Ho Hf. unfold Gs at 1. apply Tm_val.
  assert (P := mean_scal _ _ (exp (th ^ 2 * o ^ 2 / 2)) (mean_shift _ _ (th * o) (Gs_mean c q f o (w0 + th * o ^ 2) Hc Hq Ho Hf))). eapply is_mean_ext; [|exact P]. intro z. cbv beta.
  replace (w0 + th * o ^ 2 + o * (z - th * o)) with (w0 + (0 + o * z)) by ring. rewrite Rmult_comm, Rmult_assoc, <- exp_plus, Rmult_comm. f_equal. f_equal. field.
Qed.

Lemma Gs_bound c q f o w BB M : 0 <= c -> 0 <= q -> 0 <= o <= BB -> lip c q f -> is_mean (fun z => exp ((q * BB + 1) * Rabs z)) M -> Rabs (Gs o f w) <= c * exp (q * Rabs w) * M.
Proof.
  intros Hc Hq Ho Hf HM. eapply mean_abs; [|exact (Gs_mean c q f o w Hc Hq (proj1 Ho) Hf)|exact (mean_scal _ _ _ HM)]. intro z. cbv beta. destruct Hf as [A _]. eapply Rle_trans; [apply A|].
  rewrite Rmult_assoc. apply Rmult_le_compat_l; [exact Hc|]. eapply Rle_trans; [apply exp_abs_sum; lra|]. apply Rmult_le_compat_l; [apply Rlt_le, exp_pos|]. apply exp_le. pose proof (Rabs_pos z). apply Rmult_le_compat_r; [assumption|]. assert (q * o <= q * BB) by (apply Rmult_le_compat_l; lra). lra.
Qed.
Lemma Gs_lip_loc c q f o w w' BB M : 0 <= c -> 0 <= q -> 0 <= o <= BB -> lip c q f -> is_mean (fun z => exp ((q * BB + 1) * Rabs z)) M ->
  Rabs (Gs o f w - Gs o f w') <= c * Rabs (w - w') * (exp (q * Rabs w) + exp (q * Rabs w')) * M.
Proof.
  intros Hc Hq Ho Hf HM. assert (P := is_mean_lin _ _ _ _ 1 (-1) (Gs_mean c q f o w Hc Hq (proj1 Ho) Hf) (Gs_mean c q f o w' Hc Hq (proj1 Ho) Hf)).
  replace (Gs o f w - Gs o f w') with (1 * Gs o f w + -1 * Gs o f w') by ring. eapply mean_abs; [|exact P|exact (mean_scal _ _ _ HM)]. intro z. cbv beta. destruct Hf as [_ L].
  replace (1 * f (w + o * z) + -1 * f (w' + o * z)) with (f (w + o * z) - f (w' + o * z)) by ring. eapply Rle_trans; [apply L|]. replace (w + o * z - (w' + o * z)) with (w - w') by ring.
  rewrite (Rmult_assoc (c * Rabs (w - w'))). apply Rmult_le_compat_l; [pose proof (Rabs_pos (w - w')); nra|].
  assert (E : forall v, exp (q * Rabs (v + o * z)) <= exp (q * Rabs v) * exp ((q * BB + 1) * Rabs z)).
  { intro v. eapply Rle_trans; [apply exp_abs_sum; lra|]. apply Rmult_le_compat_l; [apply Rlt_le, exp_pos|]. apply exp_le. pose proof (Rabs_pos z). apply Rmult_le_compat_r; [assumption|]. assert (q * o <= q * BB) by (apply Rmult_le_compat_l; lra). lra. }
  pose proof (E w). pose proof (E w'). lra.
Qed.

(** exp (x^2/2) / cosh x is close to one *)
Lemma exp_over_ch x : Rabs x <= 1 -> 1 <= exp (x ^ 2 / 2) / ch x <= exp (x ^ 4 / 2).
Proof.
  intro Hx. pose proof (ch_ge_1 x) as C1. destruct (ch_m2 x) as [C2 _]. split.
  - apply Rmult_le_reg_r with (ch x); [lra|]. unfold Rdiv. rewrite Rmult_assoc, Rinv_l by lra. pose proof (cosh_le x). unfold ch. lra.
  - assert (X2 : x ^ 2 <= 1). { rewrite <- (pow2_abs x). pose proof (Rabs_pos x). nra. } pose proof (pow2_ge_0 x).
    set (y := x ^ 2 / 2) in *. assert (Hy : 0 <= y <= 1 / 2) by (unfold y; lra). replace (x ^ 4 / 2) with (2 * y ^ 2) by (unfold y; field).
    assert (U1 : exp y * (1 - y) <= 1). { pose proof (exp_ineq1_le (- y)). rewrite exp_Ropp in H0. pose proof (exp_pos y). apply (Rmult_le_compat_l (exp y)) in H0; [|lra]. rewrite Rinv_r in H0 by lra. lra. }
    set (s := y ^ 2) in *. assert (Hs : 0 <= s <= 1 / 4) by (unfold s; nra). assert (U2 : 1 <= exp (2 * s) * (1 - s)). { pose proof (exp_ineq1_le (2 * s)). nra. }
    apply Rmult_le_reg_r with (ch x); [lra|]. unfold Rdiv. rewrite Rmult_assoc, Rinv_l, Rmult_1_r by lra.
    apply Rle_trans with (exp (2 * s) * (1 + y)); [|apply Rmult_le_compat_l; [apply Rlt_le, exp_pos|unfold y in *; lra]].
    apply Rmult_le_reg_r with (1 - y); [lra|]. replace (exp (2 * s) * (1 + y) * (1 - y)) with (exp (2 * s) * (1 - s)) by (unfold s; ring). lra.
Qed.
