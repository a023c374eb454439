(** The trigger of Bjerksund-Stensland calls for short and long maturities, and the perpetual limit of the price (C44). *)
From Coq Require Import Reals ZArith QArith Qreals List Bool Lra Lia.
From Coquelicot Require Import Coquelicot.
From Verif Require Import Num Py MBase MVanilla MTrees MAmerican PTrees2 PGauss PCnd PCnd2 PBlack PGbs PVanilla SAmerican PBs PBvn2.
Open Scope R_scope.

Lemma exp_le0 x y : x <= y -> exp x <= exp y.
Proof. intros [H|H]; [left; now apply exp_increasing|now rewrite H; right]. Qed.
Lemma lim_mult f g (a b : R) : is_lim f p_infty a -> is_lim g p_infty b -> is_lim (fun t => f t * g t) p_infty (a * b).
Proof. intros H1 H2. exact (is_lim_mult f g p_infty a b H1 H2 Coq.Init.Logic.I). Qed.
Lemma lim_plus f g (a b : R) : is_lim f p_infty a -> is_lim g p_infty b -> is_lim (fun t => f t + g t) p_infty (a + b).
Proof. intros H1 H2. exact (is_lim_plus f g p_infty a b (a + b) H1 H2 eq_refl). Qed.
Lemma lim_minus f g (a b : R) : is_lim f p_infty a -> is_lim g p_infty b -> is_lim (fun t => f t - g t) p_infty (a - b).
Proof. intros H1 H2. exact (is_lim_minus f g p_infty a b (a - b) H1 H2 eq_refl). Qed.
Section Long.
Variables X r b s : R.
Hypothesis HX : 0 < X.
Hypothesis Hs : 0 < s.
Hypothesis Hb : b < r.
Let D := BInf X r b s - B0 X r b.
Let c := B0 X r b / D.
Let HD : 0 < D. Proof. unfold D. pose proof (B0_bounds X r b s HX Hs Hb). lra. Qed.
Let Hc : 0 < c. Proof. unfold c. pose proof (B0_bounds X r b s HX Hs Hb). apply Rdiv_lt_0_compat; [lra|exact HD]. Qed.
Lemma trig_form t : trig X t r b s = B0 X r b + D * (1 - exp (- ((b * t + 2 * s * sqrt t) * c))).
Proof. unfold trig, htT. fold D. do 4 f_equal. unfold c. field. pose proof HD. lra. Qed.
Lemma trig_short : forall eps, 0 < eps -> exists d, 0 < d /\ forall t, 0 < t < d -> Rabs ((trig X t r b s - B0 X r b) / sqrt t - 2 * s * B0 X r b) < eps.
Proof.
  intros eps He. set (f := fun u => D * (1 - exp (- ((b * u ^ 2 + 2 * s * u) * c)))).
  assert (H : is_derive f 0 (2 * s * B0 X r b)).
  { unfold f. auto_derive; [exact Coq.Init.Logic.I|]. replace (- ((b * (0 * (0 * 1)) + 2 * s * 0) * c)) with 0 by ring. rewrite exp_0. unfold c. field. pose proof HD. lra. }
  apply is_derive_Reals in H. destruct (H eps He) as (d & Hd). exists (d ^ 2). split; [apply pow_lt, cond_pos|]. intros t Ht.
  assert (Hu : 0 < sqrt t) by (apply sqrt_lt_R0; lra). assert (sqrt t < d). { rewrite <- (sqrt_pow2 d) by (pose proof (cond_pos d); lra). apply sqrt_lt_1; lra. }
  specialize (Hd (sqrt t) ltac:(lra) ltac:(rewrite Rabs_pos_eq; lra)). rewrite Rplus_0_l in Hd. replace (f 0) with 0 in Hd.
  - rewrite Rminus_0_r in Hd. replace (trig X t r b s - B0 X r b) with (f (sqrt t)); [exact Hd|]. rewrite trig_form. unfold f. rewrite pow2_sqrt by lra. ring.
  - unfold f. replace (- ((b * 0 ^ 2 + 2 * s * 0) * c)) with 0 by ring. rewrite exp_0. ring.
Qed.
Hypothesis Hb0 : 0 <= b.
Lemma trig_mono t1 t2 : 0 < t1 -> t1 < t2 -> trig X t1 r b s < trig X t2 r b s.
Proof.
  intros H1 H2. rewrite !trig_form. pose proof HD. pose proof Hc. assert (Q : sqrt t1 < sqrt t2) by (apply sqrt_lt_1; lra).
  assert (exp (- ((b * t2 + 2 * s * sqrt t2) * c)) < exp (- ((b * t1 + 2 * s * sqrt t1) * c))).
  { apply exp_increasing. apply Ropp_lt_contravar. apply Rmult_lt_compat_r; [lra|]. nra. }
  nra.
Qed.
Lemma sqrt_inf : is_lim sqrt p_infty p_infty.
Proof. apply (is_lim_sqrt_p (fun x => x)). apply is_lim_id. Qed.
Lemma squeeze0 T0 f g : (forall t, T0 <= t -> Rabs (f t) <= g t) -> is_lim g p_infty 0 -> is_lim f p_infty 0.
Proof.
  intros H L. assert (L' := is_lim_opp _ _ _ L). cbn in L'. replace (- 0) with 0 in L' by ring.
  apply (is_lim_le_le_loc (fun t => - g t) g); [|exact L'|exact L]. exists T0. intros t Ht. specialize (H t ltac:(lra)). apply Rabs_le_between in H. lra.
Qed.
Lemma exp_decay k : 0 < k -> is_lim (fun t => exp (- (k * sqrt t))) p_infty 0.
Proof.
  intro Hk. apply (is_lim_comp exp (fun t => - (k * sqrt t)) p_infty 0 m_infty); [apply is_lim_exp_m| |exists 0; intros; discriminate].
  evar_last; [apply is_lim_opp; apply (is_lim_scal_l sqrt k); apply sqrt_inf|]. cbn. destruct (Rle_dec 0 k); [|lra]. destruct (Rle_lt_or_eq_dec 0 k r0); [reflexivity|lra].
Qed.
Lemma trig_long : is_lim (fun t => trig X t r b s) p_infty (BInf X r b s).
Proof.
  pose proof HD. pose proof Hc. assert (E : is_lim (fun t => trig X t r b s - BInf X r b s) p_infty 0).
  { apply (squeeze0 1 _ (fun t => D * exp (- (2 * s * c * sqrt t)))).
    - intros t Ht. rewrite trig_form. replace (B0 X r b + D * (1 - exp (- ((b * t + 2 * s * sqrt t) * c))) - BInf X r b s) with (- (D * exp (- ((b * t + 2 * s * sqrt t) * c)))) by (unfold D; ring).
      rewrite Rabs_Ropp, Rabs_pos_eq by (apply Rmult_le_pos; [lra|left; apply exp_pos]). apply Rmult_le_compat_l; [lra|]. apply exp_le0. assert (0 <= b * t * c) by (apply Rmult_le_pos; [apply Rmult_le_pos|]; lra). nra.
    - replace 0 with (D * 0) by ring. apply (is_lim_scal_l _ D p_infty 0). apply exp_decay. nra. }
  apply (is_lim_ext (fun t => (trig X t r b s - BInf X r b s) + BInf X r b s)); [intro; ring|]. evar_last; [eapply is_lim_plus; [exact E|apply is_lim_const|reflexivity]|]. cbn. f_equal. ring.
Qed.

Variable F : R -> R.
Hypothesis HF : forall x, 0 <= F x <= 1.
Hypothesis HF0 : forall eps, 0 < eps -> exists M, forall x, x < M -> F x < eps.
Variable S0 : R.
Hypothesis HS : 0 < S0.
Let I0 t := trig X t r b s.
Let BI := BInf X r b s.
Variable T0 : R.
Hypothesis HT : 1 <= T0.
Hypothesis HI : forall t, T0 <= t -> S0 <= I0 t.
Let HBI : X < BI. Proof. unfold BI. pose proof (B0_bounds X r b s HX Hs Hb). lra. Qed.
Lemma I0_bd t : 0 < t -> X < I0 t < BI.
Proof. intro Ht. pose proof (B0_bounds X r b s HX Hs Hb). assert (0 < sqrt t) by now apply sqrt_lt_R0. pose proof (trig_bounds X t r b s HX Hs Hb ltac:(nra)). unfold I0, BI. lra. Qed.
Lemma lim_cont (f : R -> R) : continuous f BI -> is_lim (fun t => f (I0 t)) p_infty (f BI).
Proof. intro H. apply is_lim_comp_continuous; [apply trig_long|exact H]. Qed.
Lemma phi_bd t g H : T0 <= t -> 0 < H -> - r + g * b + 1 / 2 * g * (g - 1) * s ^ 2 < 0 ->
  Rabs (bs_phi_F F S0 t g H (I0 t) r b s) <= exp ((- r + g * b + 1 / 2 * g * (g - 1) * s ^ 2) * t) * (exp (g * ln S0) * (1 + exp ((ln (I0 t) - ln S0) * (2 * b / s ^ 2 + (2 * g - 1))))).
Proof.
  intros Ht HH HL. specialize (HI t Ht). pose proof (I0_bd t ltac:(lra)). rewrite phi_eq; try lra. rewrite Rabs_mult, (Rabs_pos_eq (_ * _)) by (left; apply Rmult_lt_0_compat; apply exp_pos).
  match goal with |- ?A * ?B * ?C <= ?A * (?B * ?D) => rewrite <- (Rmult_assoc A B D) end. apply Rmult_le_compat_l; [left; apply Rmult_lt_0_compat; apply exp_pos|]. unfold phi_l. set (w := exp _). assert (0 < w) by apply exp_pos.
  set (a := phi_z _ _ _ _ _ - _). pose proof (HF a). match goal with |- Rabs (_ - _ * F ?y) <= _ => pose proof (HF y) as Q; set (q := F y) in * end. apply Rabs_le. nra.
Qed.
Lemma phi_van g (H : R -> R) : (forall t, T0 <= t -> 0 < H t) -> - r + g * b + 1 / 2 * g * (g - 1) * s ^ 2 < 0 ->
  is_lim (fun t => bs_phi_F F S0 t g (H t) (I0 t) r b s) p_infty 0.
Proof.
  intros HH HL. set (lam := - r + g * b + 1 / 2 * g * (g - 1) * s ^ 2) in *.
  apply (squeeze0 T0 _ (fun t => exp (lam * t) * (exp (g * ln S0) * (1 + exp ((ln (I0 t) - ln S0) * (2 * b / s ^ 2 + (2 * g - 1))))))).
  - intros t Ht. apply phi_bd; auto.
  - replace 0 with (0 * (exp (g * ln S0) * (1 + exp ((ln BI - ln S0) * (2 * b / s ^ 2 + (2 * g - 1)))))) by ring. apply (lim_mult (fun t => exp (lam * t))).
    + apply (is_lim_comp exp (fun t => lam * t) p_infty 0 m_infty); [apply is_lim_exp_m| |exists 0; intros; discriminate].
      evar_last; [apply (is_lim_scal_l (fun t => t) lam); apply is_lim_id|]. cbn. destruct (Rle_dec 0 lam) as [r0|r0]; [exfalso; exact (Rlt_not_le _ _ HL r0)|reflexivity].
    + apply (lim_cont (fun y => exp (g * ln S0) * (1 + exp ((ln y - ln S0) * (2 * b / s ^ 2 + (2 * g - 1)))))). apply (ex_derive_continuous (fun y => exp (g * ln S0) * (1 + exp ((ln y - ln S0) * (2 * b / s ^ 2 + (2 * g - 1)))))). pose proof HBI. auto_derive. lra.
Qed.
Let be := beta r b s.
Lemma phi_beta : is_lim (fun t => bs_phi_F F S0 t be (I0 t) (I0 t) r b s) p_infty 0.
Proof.
  destruct (beta_spec r b s Hs Hb) as (B1 & B2). fold be in B1, B2.
  set (L := ln BI - ln S0). set (k := (b - s ^ 2 / 2 + be * s ^ 2) / s). assert (Hs2 : 0 < s ^ 2) by now apply pow_lt.
  assert (Hk : 0 < k). { unfold k. apply Rdiv_lt_0_compat; [|exact Hs]. nra. }
  set (w := fun t => exp ((ln (I0 t) - ln S0) * (2 * b / s ^ 2 + (2 * be - 1)))).
  assert (Hw : is_lim w p_infty (exp (L * (2 * b / s ^ 2 + (2 * be - 1))))).
  { unfold w, L. apply (lim_cont (fun y => exp ((ln y - ln S0) * (2 * b / s ^ 2 + (2 * be - 1))))). apply (ex_derive_continuous (fun y => exp ((ln y - ln S0) * (2 * b / s ^ 2 + (2 * be - 1))))). pose proof HBI. auto_derive. lra. }
  set (a := fun t => phi_z t b s S0 (I0 t) - be * (s * sqrt t)).
  assert (Ha : forall t, T0 <= t -> a t <= L / s - k * sqrt t /\ 0 <= phi_l S0 (I0 t)).
  { intros t Ht. assert (Q1 : 1 <= sqrt t) by (rewrite <- sqrt_1; apply sqrt_le_1; lra). pose proof (HI t Ht). pose proof (I0_bd t ltac:(lra)). pose proof (HBI).
    assert (L1 : ln S0 <= ln (I0 t)) by (destruct (Req_dec S0 (I0 t)) as [->|]; [lra|left; apply ln_increasing; lra]). assert (L2 : ln (I0 t) <= ln BI) by (left; apply ln_increasing; lra).
    split; [|unfold phi_l; lra]. assert (E : a t = (ln (I0 t) - ln S0) / s / sqrt t - k * sqrt t).
    { unfold a, phi_z, k. assert (E : sqrt t * sqrt t = t) by (apply sqrt_sqrt; lra). apply Rmult_eq_reg_r with (s * sqrt t); [|apply Rgt_not_eq; nra]. 
      transitivity (ln (I0 t) - ln S0 - (b - s ^ 2 / 2) * t - be * s ^ 2 * (sqrt t * sqrt t)); [field; split; lra|]. transitivity (ln (I0 t) - ln S0 - (b - s ^ 2 / 2 + be * s ^ 2) * (sqrt t * sqrt t)); [rewrite E; ring|field; split; lra]. }
    rewrite E. apply Rplus_le_compat_r. apply Rle_trans with ((ln (I0 t) - ln S0) / s).
    - assert (0 <= (ln (I0 t) - ln S0) / s) by (apply Rdiv_le_0_compat; lra). apply Rle_div_l; [lra|]. nra.
    - unfold L, Rdiv. apply Rmult_le_compat_r; [left; now apply Rinv_0_lt_compat|lra]. }
  assert (Hsm : forall eps, 0 < eps -> exists T, forall t, T < t -> T0 <= t -> forall y, y <= a t -> F y <= eps).
  { intros eps He. destruct (HF0 eps He) as (M & HM). exists (((Rabs (L / s) + Rabs M + 1) / k) ^ 2). intros t H1 H2 y Hy. left. apply HM. destruct (Ha t H2) as (Q & _).
    assert (P : 0 < (Rabs (L / s) + Rabs M + 1) / k) by (pose proof (Rabs_pos (L / s)); pose proof (Rabs_pos M); apply Rdiv_lt_0_compat; lra).
    assert (K1 : (Rabs (L / s) + Rabs M + 1) / k < sqrt t) by (rewrite <- (sqrt_pow2 ((Rabs (L / s) + Rabs M + 1) / k)) by lra; apply sqrt_lt_1; [apply pow2_ge_0|lra|lra]).
    apply Rlt_div_l in K1; [|exact Hk]. pose proof (Rle_abs (L / s)). pose proof (Rle_abs (- M)) as R1. rewrite Rabs_Ropp in R1. lra. }
  assert (Hform : forall t, T0 <= t -> Rabs (bs_phi_F F S0 t be (I0 t) (I0 t) r b s) <= exp (be * ln S0) * (F (a t) + w t * F (a t - 2 * phi_l S0 (I0 t) / (s * sqrt t)))).
  { intros t Ht. pose proof (I0_bd t ltac:(lra)). rewrite phi_eq; try lra. replace (- r + be * b + 1 / 2 * be * (be - 1) * s ^ 2) with 0 by lra. rewrite Rmult_0_l, exp_0, Rmult_1_l.
    fold (a t). change (exp (phi_l S0 (I0 t) * (2 * b / s ^ 2 + (2 * be - 1)))) with (w t).
    rewrite Rabs_mult, (Rabs_pos_eq (exp _)) by (left; apply exp_pos). apply Rmult_le_compat_l; [left; apply exp_pos|].
    assert (0 < w t) by apply exp_pos. pose proof (HF (a t)). pose proof (HF (a t - 2 * phi_l S0 (I0 t) / (s * sqrt t))). apply Rabs_le. nra. }
  assert (HF1 : is_lim (fun t => F (a t)) p_infty 0 /\ is_lim (fun t => F (a t - 2 * phi_l S0 (I0 t) / (s * sqrt t))) p_infty 0).
  { split; apply is_lim_spec; intros eps; destruct (Hsm (eps / 2) ltac:(pose proof (cond_pos eps); lra)) as (T & HT'); exists (Rmax T T0); intros t Ht; pose proof (Rmax_l T T0); pose proof (Rmax_r T T0).
    - specialize (HT' t ltac:(lra) ltac:(lra) (a t) ltac:(lra)). pose proof (HF (a t)). pose proof (cond_pos eps). rewrite Rminus_0_r, Rabs_pos_eq; lra.
    - destruct (Ha t ltac:(lra)) as (_ & Q). assert (0 < sqrt t) by (apply sqrt_lt_R0; lra). assert (0 <= 2 * phi_l S0 (I0 t) / (s * sqrt t)) by (apply Rdiv_le_0_compat; nra).
      specialize (HT' t ltac:(lra) ltac:(lra) (a t - 2 * phi_l S0 (I0 t) / (s * sqrt t)) ltac:(lra)). pose proof (HF (a t - 2 * phi_l S0 (I0 t) / (s * sqrt t))). pose proof (cond_pos eps). rewrite Rminus_0_r, Rabs_pos_eq; lra. }
  destruct HF1 as (L1 & L2). eapply (squeeze0 T0); [exact Hform|]. replace 0 with (exp (be * ln S0) * (0 + exp (L * (2 * b / s ^ 2 + (2 * be - 1))) * 0)) by ring.
  apply (is_lim_scal_l _ (exp (be * ln S0)) p_infty (0 + exp (L * (2 * b / s ^ 2 + (2 * be - 1))) * 0)). apply lim_plus; [exact L1|]. apply lim_mult; [exact Hw|exact L2].
Qed.
Lemma lower_long : is_lim (fun t => lower X t r b s F (I0 t) S0) p_infty ((BI - X) * Rpower (S0 / BI) be).
Proof.
  pose proof HBI. destruct (beta_spec r b s Hs Hb) as (B1 & B2). fold be in B1, B2. set (al := fun y => (y - X) * Rpower y (- be)).
  assert (La : is_lim (fun t => al (I0 t)) p_infty (al BI)). { apply (lim_cont al). apply (ex_derive_continuous al). unfold al, Rpower. auto_derive. lra. }
  assert (P1 := phi_van 1 (fun t => I0 t)). assert (P2 := phi_van 1 (fun _ => X)). assert (P3 := phi_van 0 (fun t => I0 t)). assert (P4 := phi_van 0 (fun _ => X)). cbv beta in *.
  assert (N1 : - r + 1 * b + 1 / 2 * 1 * (1 - 1) * s ^ 2 < 0) by lra. assert (N0 : - r + 0 * b + 1 / 2 * 0 * (0 - 1) * s ^ 2 < 0) by lra.
  assert (Q : forall t, T0 <= t -> 0 < I0 t) by (intros t Ht; pose proof (I0_bd t ltac:(lra)); lra).
  specialize (P1 Q N1). specialize (P2 (fun _ _ => HX) N1). specialize (P3 Q N0). specialize (P4 (fun _ _ => HX) N0).
  replace ((BI - X) * Rpower (S0 / BI) be) with (al BI * Rpower S0 be - al BI * 0 + 0 - 0 - X * 0 + X * 0).
  - unfold lower. fold be. change (is_lim (fun t => al (I0 t) * Rpower S0 be - al (I0 t) * bs_phi_F F S0 t be (I0 t) (I0 t) r b s + bs_phi_F F S0 t 1 (I0 t) (I0 t) r b s - bs_phi_F F S0 t 1 X (I0 t) r b s - X * bs_phi_F F S0 t 0 (I0 t) (I0 t) r b s + X * bs_phi_F F S0 t 0 X (I0 t) r b s) p_infty (al BI * Rpower S0 be - al BI * 0 + 0 - 0 - X * 0 + X * 0)).
    apply lim_plus; [|apply (is_lim_scal_l _ X p_infty 0); exact P4]. apply lim_minus; [|apply (is_lim_scal_l _ X p_infty 0); exact P3]. apply lim_minus; [|exact P2]. apply lim_plus; [|exact P1].
    apply lim_minus; [apply (is_lim_scal_r _ (Rpower S0 be) p_infty (al BI)); exact La|apply lim_mult; [exact La|exact phi_beta]].
  - unfold al, Rpower. rewrite ln_div by lra. replace (be * (ln S0 - ln BI)) with (- be * ln BI + be * ln S0) by ring. rewrite exp_plus. ring.
Qed.
End Long.

(*@ C44_trigger_maturity | BS call with 0 <= b < r: the reported trigger rises strictly with the maturity. For short maturities it starts at max(K, r/(r-b) K) and lies about two standard deviations above it (the excess divided by sqrt t tends to 2 sigma times that price); for long maturities it tends to the exercise price of the perpetual call. *)
Lemma bs_trigger_maturity : forall K r b s, 0 < K -> 0 < s -> 0 <= b < r ->
  exists I0 beta, (forall S t, 0 < t -> exists v, bs_call (mkAmer S K t r b (Some s)) = Ok (v, Some (I0 t))) /\
    (forall t1 t2, 0 < t1 -> t1 < t2 -> I0 t1 < I0 t2) /\
    (let B := Rmax K (r / (r - b) * K) in forall eps, 0 < eps -> exists d, 0 < d /\ forall t, 0 < t < d -> Rabs ((I0 t - B) / sqrt t - 2 * s * B) < eps) /\
    1 < beta /\ 1 / 2 * s ^ 2 * beta * (beta - 1) + b * beta - r = 0 /\
    forall eps, 0 < eps -> exists T, forall t, T < t -> Rabs (I0 t - beta / (beta - 1) * K) < eps.
Proof.
  intros K r b s HK Hs Hb. exists (fun t => trig K t r b s), (beta r b s). destruct (beta_spec r b s Hs (proj2 Hb)) as (B1 & B2).
  split; [|split; [|split; [|split; [|split]]]]; [|intros; apply trig_mono; lra|apply trig_short; lra|exact B1|exact B2|].
  - intros S t Ht. eexists. apply call_eq; lra.
  - intros eps He. assert (H := trig_long K r b s HK Hs (proj2 Hb) (proj1 Hb)). apply is_lim_spec in H. exact (H (mkposreal eps He)).
Qed.

Definition perp (S K r b s : R) : R := let B := BInf K r b s in if Rlt_dec S B then (B - K) * Rpower (S / B) (beta r b s) else S - K.
Lemma bs_perp F S K r b s : F = cnd \/ F = Phi -> 0 < S -> 0 < K -> 0 < s -> 0 <= b < r -> forall eps, 0 < eps -> exists T, forall t, T < t ->
  exists v I0, bs_call_F F (mkAmer S K t r b (Some s)) = Ok (v, Some I0) /\ Rabs (v - perp S K r b s) < eps.
Proof.
  intros HF HS HK Hs Hb. destruct (beta_spec r b s Hs (proj2 Hb)) as (B1 & B2). unfold perp.
  assert (F1 : forall x, 0 <= F x <= 1). { intro x. destruct HF as [-> | ->]; [pose proof (cnd_range x); lra|pose proof (Phi_gt_0 x); pose proof (Phi_lt_1 x); lra]. }
  assert (F2 : forall eps, 0 < eps -> exists M, forall x, x < M -> F x < eps). { intros eps He. destruct HF as [-> | ->]; [destruct (cnd_lim_neg eps He) as (A & _ & HA); exists A; exact HA|now apply Phi_small]. }
  cbv zeta. intros eps He. assert (L := trig_long K r b s HK Hs (proj2 Hb) (proj1 Hb)). destruct (Rlt_dec S (BInf K r b s)) as [H|H].
  - apply is_lim_spec in L. destruct (L (mkposreal (BInf K r b s - S) ltac:(lra))) as (T1 & HT1). cbn [pos] in HT1. set (T0 := Rmax 1 (T1 + 1)). assert (HT0 : 1 <= T0) by apply Rmax_l. assert (HT0' : T1 + 1 <= T0) by apply Rmax_r.
    assert (HI : forall t, T0 <= t -> S < trig K t r b s) by (intros t Ht; specialize (HT1 t ltac:(lra)); apply Rabs_lt_between in HT1; lra).
    assert (Q := lower_long K r b s HK Hs (proj2 Hb) (proj1 Hb) F F1 F2 S HS T0 HT0 ltac:(intros t Ht; left; now apply HI)). apply is_lim_spec in Q. destruct (Q (mkposreal eps He)) as (T2 & HT2). cbn [pos] in HT2.
    exists (Rmax T0 T2). intros t Ht. pose proof (Rmax_l T0 T2). pose proof (Rmax_r T0 T2). do 2 eexists. split; [apply call_eq; lra|]. specialize (HI t ltac:(lra)). destruct (Rle_dec _ S); [lra|]. apply HT2. lra.
  - exists 1. intros t Ht. do 2 eexists. split; [apply call_eq; lra|]. pose proof (I0_bd K r b s HK Hs (proj2 Hb) (proj1 Hb) t ltac:(lra)). destruct (Rle_dec _ S); [|lra]. rewrite Rminus_eq_0, Rabs_R0. exact He.
Qed.

(*@ C44_perpetual | BS call with 0 <= b < r: as the maturity grows the price tends to the value of the perpetual American call, (B - K) (S/B)^beta below its exercise price B = beta/(beta-1) K and S - K from there on; with the distribution function of the code as well as with the exact one. *)
Lemma bs_perpetual : forall F S K r b s, F = cnd \/ F = Phi -> 0 < S -> 0 < K -> 0 < s -> 0 <= b < r ->
  exists beta, 1 < beta /\ 1 / 2 * s ^ 2 * beta * (beta - 1) + b * beta - r = 0 /\
    let B := beta / (beta - 1) * K in
    forall eps, 0 < eps -> exists T, forall t, T < t -> exists v I0, bs_call_F F (mkAmer S K t r b (Some s)) = Ok (v, Some I0) /\
      Rabs (v - (if Rlt_dec S B then (B - K) * Rpower (S / B) beta else S - K)) < eps.
Proof.
  intros F S K r b s HF HS HK Hs Hb. exists (beta r b s). destruct (beta_spec r b s Hs (proj2 Hb)) as (B1 & B2). split; [exact B1|]. split; [exact B2|]. exact (bs_perp F S K r b s HF HS HK Hs Hb).
Qed.

Lemma trig_rate K r b s : 0 < K -> 0 < s -> b < r ->
  is_lim (fun t => ln (BInf K r b s - trig K t r b s) / t) p_infty (- (b * (B0 K r b / (BInf K r b s - B0 K r b)))).
Proof.
  intros HK Hs Hb. pose proof (B0_bounds K r b s HK Hs Hb) as HB. set (D := BInf K r b s - B0 K r b). set (c := B0 K r b / D). assert (HD : 0 < D) by (unfold D; lra).
  apply (is_lim_ext_loc (fun t => ln D * / t - b * c - 2 * s * c * / sqrt t)).
  - exists 1. intros t Ht. assert (Hq : 0 < sqrt t) by (apply sqrt_lt_R0; lra). assert (E2 : t = sqrt t * sqrt t) by (symmetry; apply sqrt_sqrt; lra).
    replace (BInf K r b s - trig K t r b s) with (D * exp (- ((b * t + 2 * s * sqrt t) * c))) by (rewrite trig_form by assumption; fold D; fold c; unfold D; ring).
    rewrite ln_mult, ln_exp by (exact HD || apply exp_pos). set (q := sqrt t) in *. rewrite E2. generalize (ln D). intro l. field. lra.
  - replace (- (b * c)) with (ln D * 0 - b * c - 2 * s * c * 0) by ring. apply lim_minus; [apply lim_minus; [|apply is_lim_const]|].
    + apply (is_lim_scal_l _ (ln D) p_infty 0). apply (is_lim_inv (fun t => t) p_infty p_infty); [apply is_lim_id|discriminate].
    + apply (is_lim_scal_l _ (2 * s * c) p_infty 0). apply (is_lim_inv sqrt p_infty p_infty); [apply sqrt_inf|discriminate].
Qed.

(*@ C44_trigger_rate | BS call with b < r: the speed at which the reported trigger approaches the exercise price Binf of the perpetual call as the maturity grows: ln (Binf - trigger) / t tends to -b B/(Binf - B), where B = max(K, r/(r-b) K). For b < 0 the trigger moves away from Binf at that rate, instead of approaching it. *)
Lemma bs_trigger_rate : forall K r b s, 0 < K -> 0 < s -> b < r ->
  exists I0 beta, (forall S t, 0 < t -> exists v, bs_call (mkAmer S K t r b (Some s)) = Ok (v, Some (I0 t))) /\
    1 < beta /\ 1 / 2 * s ^ 2 * beta * (beta - 1) + b * beta - r = 0 /\
    let B := Rmax K (r / (r - b) * K) in let Binf := beta / (beta - 1) * K in
    B < Binf /\ (forall t, 0 < t -> I0 t < Binf) /\
    forall eps, 0 < eps -> exists T, forall t, T < t -> Rabs (ln (Binf - I0 t) / t + b * (B / (Binf - B))) < eps.
Proof.
  intros K r b s HK Hs Hb. exists (fun t => trig K t r b s), (beta r b s). destruct (beta_spec r b s Hs Hb) as (B1 & B2). pose proof (B0_bounds K r b s HK Hs Hb) as HB.
  split; [intros S t Ht; eexists; apply call_eq; lra|]. split; [exact B1|]. split; [exact B2|]. cbv zeta. fold (BInf K r b s). fold (B0 K r b). split; [lra|]. split.
  - intros t Ht. unfold trig. pose proof (exp_pos (htT K t r b s)). nra.
  - intros eps He. pose proof (trig_rate K r b s HK Hs Hb) as H. apply is_lim_spec in H. destruct (H (mkposreal eps He)) as (T & HT). exists T. intros t Ht. specialize (HT t Ht). cbn [pos] in HT.
    match goal with |- Rabs ?x < _ => match type of HT with Rabs ?y < _ => replace x with y by ring end end. exact HT.
Qed.
