(** Bjerksund-Stensland (C44). *)
From Coq Require Import Reals ZArith QArith Qreals List Bool Lra Lia.
From Coquelicot Require Import Coquelicot.
From Verif Require Import Num Py MBase MVanilla MTrees MAmerican PTrees2 PGauss PCnd PCnd2 PBlack PGbs PVanilla SAmerican.
Open Scope R_scope.

(*@ C44_carry | BS call: with a cost of carry of at least the interest rate it is the Black-Scholes call, and no trigger price is reported. *)
Lemma bs_carry_call : forall (T : Type) (N : Num T) (S K t r b : T) (s : option T) c,
  leb r b = true -> gbs_call (GBSOption S K t r b s) = Ok c -> bs_call (mkAmer S K t r b s) = Ok (c, None).
Proof.
  intros * H Hc. unfold bs_call, bs_call_F, bs_approx_F. cbn [y_b y_r y_S y_K y_t y_sigma]. rewrite H.
  unfold gbs_call in Hc. rewrite Hc. reflexivity.
Qed.

(*@ C44_put_no_rate | BS put with a nonpositive interest rate is the Black-Scholes put. *)
Lemma bs_put_nonpos : forall S K t r b s : R, 0 < S -> 0 < K -> 0 < t -> 0 < s -> r <= 0 ->
  exists p, gbs_put (GBSOption S K t r b (Some s)) = Ok p /\ bs_put (mkAmer S K t r b (Some s)) = Ok (p, None).
Proof.
  intros S K t r b s HS HK Ht Hs Hr. eexists. split; [apply put_link; lra|].
  unfold bs_put, bs_put_F, bs_approx_F. cbn [y_b y_r y_S y_K y_t y_sigma]. toR. rewrite (proj2 (Rleb_true _ _)) by lra.
  rewrite call_link by lra. cbn [bind]. do 2 f_equal.
  rewrite <- bcall_dual. replace (- b - (r - b)) with (- r) by ring. replace (- (r - b)) with (b - r) by ring. reflexivity.
  all: apply Rmult_lt_0_compat; try apply exp_pos; lra.
Qed.

(*@ C44_put_dual | BS put is the BS call with spot and strike exchanged, interest rate r - b and cost of carry -b (put-call transformation). *)
Lemma bs_put_dual : forall (T : Type) (N : Num T) (S K t r b : T) (s : option T),
  bs_put (mkAmer S K t r b s) = bs_call (mkAmer K S t (sub r b) (opp b) s).
Proof. reflexivity. Qed.

(** ** Beta, the trigger price *)
Section Trigger.
Variables X t r b s : R.
Hypothesis HX : 0 < X.
Hypothesis Ht : 0 < t.
Hypothesis Hs : 0 < s.
Hypothesis Hb : b < r.
Definition beta := (1 / 2 - b / s ^ 2) + sqrt ((b / s ^ 2 - 1 / 2) ^ 2 + 2 * r / s ^ 2).
Lemma Beta_eq : bs_Beta r b s = beta.
Proof. unfold bs_Beta, beta. toR. reflexivity. Qed.
Lemma beta_spec : 1 < beta /\ 1 / 2 * s ^ 2 * beta * (beta - 1) + b * beta - r = 0.
Proof.
  assert (H2 : 0 < s ^ 2) by (apply pow_lt, Hs). unfold beta.
  set (v := b / s ^ 2). set (u := 2 * r / s ^ 2).
  assert (Hu : 2 * v < u). { unfold u, v. apply Rmult_lt_reg_r with (s ^ 2); [exact H2|]. field_simplify; lra. }
  assert (Hp : 0 <= (v - 1 / 2) ^ 2 + u) by (generalize (pow2_ge_0 (v + 1 / 2)); lra).
  set (w := sqrt ((v - 1 / 2) ^ 2 + u)).
  assert (Hw : w * w = (v - 1 / 2) ^ 2 + u) by (apply sqrt_sqrt, Hp).
  assert (Hw0 : 0 <= w) by apply sqrt_pos.
  assert (Hw1 : v + 1 / 2 < w).
  { destruct (Rlt_dec (v + 1 / 2) 0); [lra|]. apply Rsqr_incrst_0; try lra. unfold Rsqr. lra. }
  split; [lra|]. replace b with (v * s ^ 2) by (unfold v; field; lra). replace r with (u / 2 * s ^ 2) by (unfold u; field; lra).
  set (q := s ^ 2) in *. replace (1 / 2 * q * (1 / 2 - v + w) * (1 / 2 - v + w - 1) + v * q * (1 / 2 - v + w) - u / 2 * q)
    with (q / 2 * (w * w - ((v - 1 / 2) ^ 2 + u))) by field. rewrite Hw. ring.
Qed.
Definition B0 := Rmax X (r / (r - b) * X).
Definition BInf := beta / (beta - 1) * X.
Definition htT := (- (b * t + 2 * s * sqrt t)) * B0 / (BInf - B0).
Definition trig := B0 + (BInf - B0) * (1 - exp htT).
Lemma trigger_eq : bs_trigger X t r b s = trig.
Proof.
  unfold bs_trigger. rewrite Beta_eq. rewrite pymax_Rmax. unfold trig, htT, BInf, B0. toR. reflexivity.
Qed.
Lemma B0_bounds : X <= B0 < BInf.
Proof.
  destruct beta_spec as [H1 H2]. split; [apply Rmax_l|].
  assert (Hq : 0 < s ^ 2) by (apply pow_lt, Hs).
  assert (beta * b < r). { assert (0 < 1 / 2 * s ^ 2 * beta * (beta - 1)); [|lra]. repeat apply Rmult_lt_0_compat; lra. }
  unfold B0, BInf. apply Rmax_lub_lt.
  - rewrite <- (Rmult_1_l X) at 1. apply Rmult_lt_compat_r; [exact HX|]. apply Rmult_lt_reg_r with (beta - 1); [lra|].
    unfold Rdiv. rewrite Rmult_assoc, Rinv_l; lra.
  - apply Rmult_lt_compat_r; [exact HX|]. apply Rmult_lt_reg_r with ((beta - 1) * (r - b)); [apply Rmult_lt_0_compat; lra|].
    field_simplify; lra.
Qed.
Lemma trig_bounds : 0 < b * t + 2 * s * sqrt t -> B0 < trig < BInf.
Proof.
  intro H. destruct B0_bounds as [H1 H2]. unfold trig.
  assert (htT < 0).
  { unfold htT. apply Rmult_lt_reg_r with (BInf - B0); [lra|]. unfold Rdiv. rewrite Rmult_assoc, Rinv_l by lra. nra. }
  assert (exp htT < 1) by (rewrite <- exp_0; now apply exp_increasing). pose proof (exp_pos htT). nra.
Qed.
Lemma trig_bad : b * t + 2 * s * sqrt t < 0 -> trig < B0.
Proof.
  intro H. destruct B0_bounds as [H1 H2]. unfold trig.
  assert (0 < htT).
  { unfold htT. apply Rmult_lt_reg_r with (BInf - B0); [lra|]. unfold Rdiv. rewrite Rmult_assoc, Rinv_l by lra. nra. }
  assert (1 < exp htT) by (rewrite <- exp_0 at 1; now apply exp_increasing). nra.
Qed.
End Trigger.

(*@ C44_trigger | BS call with b < r: the reported trigger does not depend on the spot; from the trigger on the price is exactly S - K; if b t + 2 sigma sqrt t > 0 the trigger is above the strike and above r/(r-b) K and below the exercise price of the perpetual call, beta/(beta-1) K, where beta > 1 solves sigma^2/2 beta(beta-1) + b beta = r. *)
Lemma bs_trigger_thm : forall K t r b s : R, 0 < K -> 0 < t -> 0 < s -> b < r ->
  exists I0, (forall S, I0 <= S -> bs_call (mkAmer S K t r b (Some s)) = Ok (S - K, Some I0)) /\
    (forall S, S < I0 -> exists v, bs_call (mkAmer S K t r b (Some s)) = Ok (v, Some I0)) /\
    (0 < b * t + 2 * s * sqrt t -> K < I0 /\ r / (r - b) * K < I0 /\
       exists beta, 1 < beta /\ 1 / 2 * s ^ 2 * beta * (beta - 1) + b * beta - r = 0 /\ I0 < beta / (beta - 1) * K).
Proof.
  intros K t r b s HK Ht Hs Hb. exists (trig K t r b s). split; [|split].
  - intros S H. unfold bs_call, bs_call_F, bs_approx_F. cbn [y_b y_r y_S y_K y_t y_sigma leb RNum].
    rewrite (proj2 (Rleb_false r b)) by lra. cbn [need of_opt bind]. rewrite trigger_eq by assumption.
    rewrite (proj2 (Rleb_true _ _)) by lra. reflexivity.
  - intros S H. unfold bs_call, bs_call_F, bs_approx_F. cbn [y_b y_r y_S y_K y_t y_sigma leb RNum].
    rewrite (proj2 (Rleb_false r b)) by lra. cbn [need of_opt bind]. rewrite trigger_eq by assumption.
    rewrite (proj2 (Rleb_false _ _)) by lra. eexists. reflexivity.
  - intro H. destruct (trig_bounds K t r b s HK Hs Hb H) as [T1 T2]. pose proof (B0_bounds K r b s HK Hs Hb) as B.
    assert (r / (r - b) * K <= B0 K r b) by apply Rmax_r.
    split; [lra|]. split; [lra|]. exists (beta r b s). destruct (beta_spec r b s Hs Hb) as [E1 E2]. auto.
Qed.

(*@ C44_negative_refuted | Finding: the price can be negative. If b >= 0, r > 0 and b sqrt t > 2 sigma (so for a plain stock put, b = r, with low volatility) the put's trigger formula goes wrong: there is a price ratio g < 1 such that for all strikes g S <= K < S the put is K - S < 0. *)
Lemma bs_negative : forall S t r b s : R, 0 < S -> 0 < t -> 0 < s -> 0 < r -> 0 <= b -> 2 * s < b * sqrt t ->
  exists I0, I0 < S /\ forall K, I0 <= K -> K < S -> exists v, bs_put (mkAmer S K t r b (Some s)) = Ok (v, Some I0) /\ v = K - S /\ v < 0.
Proof.
  intros S t r b s HS Ht Hs Hr Hb H. 
  assert (Hst : 0 < sqrt t) by now apply sqrt_lt_R0.
  assert (Hneg : - b * t + 2 * s * sqrt t < 0). { rewrite <- (sqrt_sqrt t) at 1 by lra. nra. }
  assert (Hrb : - b < r - b) by lra.
  exists (trig S t (r - b) (- b) s). split.
  - pose proof (trig_bad S t (r - b) (- b) s HS Hs Hrb Hneg) as T.
    assert (B0 S (r - b) (- b) = S).
    { unfold B0. apply Rmax_left. rewrite <- (Rmult_1_l S) at 2. apply Rmult_le_compat_r; [lra|].
      apply Rmult_le_reg_r with (r - b - - b); [lra|]. unfold Rdiv. rewrite Rmult_assoc, Rinv_l; lra. }
    lra.
  - intros K HK HKS. eexists. split; [|split; [reflexivity|lra]].
    unfold bs_put, bs_put_F, bs_approx_F. cbn [y_b y_r y_S y_K y_t y_sigma leb RNum opp sub].
    rewrite (proj2 (Rleb_false _ _)) by lra. cbn [need of_opt bind]. rewrite trigger_eq by (assumption || lra).
    rewrite (proj2 (Rleb_true _ _)) by lra. reflexivity.
Qed.

(** ** The lower branch *)
Section Lower.
Variables X t r b s : R.
Hypothesis HX : 0 < X.
Hypothesis Ht : 0 < t.
Hypothesis Hs : 0 < s.
Hypothesis Hb : b < r.
Let v := s * sqrt t.
Let Hv : 0 < v. Proof. apply Rmult_lt_0_compat; [exact Hs|now apply sqrt_lt_R0]. Qed.
Let Hvv : v * v = s ^ 2 * t.
Proof. unfold v. replace (s * sqrt t * (s * sqrt t)) with (s ^ 2 * (sqrt t * sqrt t)) by ring. rewrite sqrt_sqrt; lra. Qed.

Definition phi_z (S0 H : R) := (ln H - ln S0 - (b - s ^ 2 / 2) * t) / v.
Definition phi_l (S0 I0 : R) := ln I0 - ln S0.
Lemma phi_eq F S0 g H I0 : 0 < S0 -> 0 < H -> 0 < I0 -> bs_phi_F F S0 t g H I0 r b s =
  exp ((- r + g * b + 1 / 2 * g * (g - 1) * s ^ 2) * t) * exp (g * ln S0) *
  (F (phi_z S0 H - g * v) - exp (phi_l S0 I0 * (2 * b / s ^ 2 + (2 * g - 1))) * F (phi_z S0 H - g * v - 2 * phi_l S0 I0 / v)).
Proof.
  intros HS HH HI. unfold bs_phi_F. toR. unfold Rpower.
  rewrite !ln_div by assumption. fold (phi_l S0 I0).
  assert (E : - (ln S0 - ln H + (b + (g - 5 * / 10) * s ^ 2) * t) / (s * sqrt t) = phi_z S0 H - g * v).
  { unfold phi_z. fold v. apply Rmult_eq_reg_r with v; [|lra].
    transitivity (- (ln S0 - ln H + (b + (g - 5 * / 10) * s ^ 2) * t)); [field; lra|].
    transitivity (ln H - ln S0 - (b - s ^ 2 / 2) * t - g * (v * v)); [rewrite Hvv; field|field; lra]. }
  rewrite E. fold v. rewrite (Rmult_comm (2 * b / s ^ 2 + (2 * g - 1))).
  replace (- r + g * b + 5 * / 10 * g * (g - 1) * s ^ 2) with (- r + g * b + 1 / 2 * g * (g - 1) * s ^ 2) by lra. reflexivity.
Qed.
Lemma phi_at F g H I0 : 0 < H -> 0 < I0 -> bs_phi_F F I0 t g H I0 r b s = 0.
Proof.
  intros HH HI. rewrite phi_eq by assumption. unfold phi_l. replace (ln I0 - ln I0) with 0 by ring.
  rewrite Rmult_0_l, exp_0. unfold Rdiv. rewrite Rmult_0_r, Rmult_0_l. replace (phi_z I0 H - g * v - 0) with (phi_z I0 H - g * v) by ring. ring.
Qed.
Definition lower (F : R -> R) (I0 S0 : R) : R :=
  let al := (I0 - X) * Rpower I0 (- beta r b s) in
  al * Rpower S0 (beta r b s) - al * bs_phi_F F S0 t (beta r b s) I0 I0 r b s
   + bs_phi_F F S0 t 1 I0 I0 r b s - bs_phi_F F S0 t 1 X I0 r b s
   - X * bs_phi_F F S0 t 0 I0 I0 r b s + X * bs_phi_F F S0 t 0 X I0 r b s.
Lemma call_eq F S0 : bs_call_F F (mkAmer S0 X t r b (Some s)) =
  Ok (if Rle_dec (trig X t r b s) S0 then S0 - X else lower F (trig X t r b s) S0, Some (trig X t r b s)).
Proof.
  unfold bs_call_F, bs_approx_F. cbn [y_b y_r y_S y_K y_t y_sigma leb RNum].
  rewrite (proj2 (Rleb_false r b)) by lra. cbn [need of_opt bind]. rewrite trigger_eq.
  destruct (Rle_dec (trig X t r b s) S0) as [H|H].
  - rewrite (proj2 (Rleb_true _ _)) by lra. reflexivity.
  - rewrite (proj2 (Rleb_false _ _)) by lra. rewrite Beta_eq. unfold lower. cbn [lit RNum powr add sub mul opp].
    rewrite !Q2R_int. reflexivity.
Qed.
Lemma lower_at F I0 : 0 < I0 -> lower F I0 I0 = I0 - X.
Proof.
  intro HI. unfold lower. rewrite !phi_at by assumption. rewrite !Rmult_0_r, Rmult_assoc, <- Rpower_plus.
  replace (- beta r b s + beta r b s) with 0 by ring. rewrite Rpower_O by exact HI. ring.
Qed.

Lemma phi_ex_derive S0 g H I0 : 0 < S0 -> 0 < H -> 0 < I0 -> ex_derive (fun S0 => bs_phi_F Phi S0 t g H I0 r b s) S0.
Proof.
  intros HS HH HI. unfold bs_phi_F. toR. unfold Rpower.
  assert (0 < S0 / H) by (now apply Rdiv_lt_0_compat). assert (0 < I0 / S0) by (now apply Rdiv_lt_0_compat).
  assert (forall x, ex_derive Phi x) by (intro; eexists; apply Phi_derive).
  auto_derive. repeat split; auto; lra.
Qed.
Lemma ex_lin (a k : R) (p f1 f2 f3 f4 f5 : R -> R) y : ex_derive p y -> ex_derive f1 y -> ex_derive f2 y -> ex_derive f3 y ->
  ex_derive f4 y -> ex_derive f5 y -> ex_derive (fun y => a * p y - a * f1 y + f2 y - f3 y - k * f4 y + k * f5 y) y.
Proof. intros. auto_derive. auto 10. Qed.
Lemma lower_cont I0 S0 : 0 < S0 -> 0 < I0 -> continuous (lower Phi I0) S0.
Proof.
  intros HS HI. apply (ex_derive_continuous (lower Phi I0)). unfold lower.
  assert (forall g H, 0 < H -> ex_derive (fun S0 => bs_phi_F Phi S0 t g H I0 r b s) S0) by (intros; now apply phi_ex_derive).
  assert (ex_derive (fun S0 => Rpower S0 (beta r b s)) S0) by (unfold Rpower; auto_derive; lra).
  refine (ex_lin _ _ (fun S0 => Rpower S0 (beta r b s)) (fun S0 => bs_phi_F Phi S0 t (beta r b s) I0 I0 r b s)
    (fun S0 => bs_phi_F Phi S0 t 1 I0 I0 r b s) (fun S0 => bs_phi_F Phi S0 t 1 X I0 r b s)
    (fun S0 => bs_phi_F Phi S0 t 0 I0 I0 r b s) (fun S0 => bs_phi_F Phi S0 t 0 X I0 r b s) S0 _ _ _ _ _ _); auto.
Qed.

(** density of the terminal price on paths that stay below the trigger, times v H *)
Definition dens (S0 I0 H : R) := npdf (phi_z S0 H) - exp (phi_l S0 I0 * (2 * b / s ^ 2 - 1)) * npdf (phi_z S0 H - 2 * phi_l S0 I0 / v).
Lemma npdf_shift z c : npdf (z - c) = npdf z * exp (c * z - c ^ 2 / 2).
Proof. unfold npdf. unfold Rdiv. rewrite (Rmult_comm (exp _ * _)), <- Rmult_assoc, <- exp_plus. do 2 f_equal. field. Qed.
Lemma phi_z_derive S0 H : 0 < H -> is_derive (phi_z S0) H (/ (H * v)).
Proof. intro HH. unfold phi_z. auto_derive; [repeat split; auto; lra|]. field. lra. Qed.
Lemma dens_nonneg S0 I0 H : 0 < S0 <= I0 -> 0 < H <= I0 -> 0 <= dens S0 I0 H.
Proof.
  intros [HS HSI] [HH HHI]. unfold dens. rewrite npdf_shift. set (l := phi_l S0 I0). set (z := phi_z S0 H).
  assert (Hl : 0 <= l). { unfold l, phi_l. destruct HSI as [HSI| ->]; [|lra]. assert (ln S0 < ln I0) by (apply ln_increasing; lra). lra. }
  assert (Hh : ln H <= ln I0). { destruct HHI as [HHI| ->]; [|lra]. left. apply ln_increasing; lra. }
  assert (E : l * (2 * b / s ^ 2 - 1) + (2 * l / v * z - (2 * l / v) ^ 2 / 2) = 2 * l * (ln H - ln I0) / (v * v)).
  { unfold z, phi_z. replace (2 * l / v * ((ln H - ln S0 - (b - s ^ 2 / 2) * t) / v)) with (2 * l * (ln H - ln S0 - (b - s ^ 2 / 2) * t) / (v * v)) by (field; lra).
    replace ((2 * l / v) ^ 2 / 2) with (2 * l * l / (v * v)) by (field; lra). rewrite Hvv. unfold l at 4, phi_l. field. lra. }
  rewrite (Rmult_comm (npdf z)), <- Rmult_assoc, <- exp_plus, E. pose proof (npdf_pos z).
  assert (exp (2 * l * (ln H - ln I0) / (v * v)) <= 1); [|nra].
  rewrite <- exp_0. assert (2 * l * (ln H - ln I0) / (v * v) <= 0) as [G|G].
  { assert (0 < v * v) by nra. apply Rmult_le_reg_r with (v * v); [lra|]. unfold Rdiv. rewrite Rmult_assoc, Rinv_l by lra. nra. }
  - left. now apply exp_increasing.
  - rewrite G. lra.
Qed.
Lemma phi_H_derive S0 I0 g H : 0 < S0 -> 0 < I0 -> 0 < H ->
  is_derive (fun H => bs_phi_F Phi S0 t g H I0 r b s) H (exp (- r * t) * exp (g * ln H) / (H * v) * dens S0 I0 H).
Proof.
  intros HS HI HH.
  apply is_derive_ext_loc with (fun H => exp ((- r + g * b + 1 / 2 * g * (g - 1) * s ^ 2) * t) * exp (g * ln S0) *
    (Phi (phi_z S0 H - g * v) - exp (phi_l S0 I0 * (2 * b / s ^ 2 + (2 * g - 1))) * Phi (phi_z S0 H - g * v - 2 * phi_l S0 I0 / v))).
  { exists (mkposreal H HH). intros y Hy. symmetry. apply phi_eq; auto. cbv [ball AbsRing_ball abs minus plus opp] in Hy. cbn in Hy.
    unfold AbsRing_ball, abs, minus, plus, opp in Hy. cbn in Hy. apply Rabs_def2 in Hy. lra. }
  set (c := exp ((- r + g * b + 1 / 2 * g * (g - 1) * s ^ 2) * t) * exp (g * ln S0)).
  set (k := exp (phi_l S0 I0 * (2 * b / s ^ 2 + (2 * g - 1)))). set (w := 2 * phi_l S0 I0 / v).
  evar_last.
  { apply is_derive_scal. apply (is_derive_minus (fun H => Phi (phi_z S0 H - g * v)) (fun H => k * Phi (phi_z S0 H - g * v - w))).
    - apply (is_derive_comp Phi (fun H => phi_z S0 H - g * v)); [apply Phi_derive|].
      apply (is_derive_minus (phi_z S0) (fun _ => g * v)); [now apply phi_z_derive|apply @is_derive_const].
    - apply is_derive_scal. apply (is_derive_comp Phi (fun H => phi_z S0 H - g * v - w)); [apply Phi_derive|].
      apply (is_derive_minus (fun H => phi_z S0 H - g * v) (fun _ => w)); [|apply @is_derive_const].
      apply (is_derive_minus (phi_z S0) (fun _ => g * v)); [now apply phi_z_derive|apply @is_derive_const]. }
  cbv [minus plus opp scal mult zero]. cbn. change mult with Rmult. change zero with 0.
  unfold dens. fold w. set (z := phi_z S0 H). assert (Hz : v * z = ln H - ln S0 - (b - s ^ 2 / 2) * t) by (unfold z, phi_z; field; lra).
  assert (E1 : c * npdf (z - g * v) = exp (- r * t) * exp (g * ln H) * npdf z).
  { rewrite npdf_shift. unfold c. rewrite (Rmult_comm (npdf z)), <- Rmult_assoc, <- !exp_plus. do 2 f_equal.
    replace (g * v * z) with (g * (v * z)) by ring. replace ((g * v) ^ 2 / 2) with (g ^ 2 / 2 * (v * v)) by field. rewrite Hz, Hvv. field. }
  assert (E2 : c * (k * npdf (z - g * v - w)) = exp (- r * t) * exp (g * ln H) * (exp (phi_l S0 I0 * (2 * b / s ^ 2 - 1)) * npdf (z - w))).
  { replace (z - g * v - w) with ((z - w) - g * v) by ring. rewrite npdf_shift. unfold c, k.
    rewrite (Rmult_comm (npdf (z - w)) (exp _)), <- !Rmult_assoc, <- !exp_plus. do 2 f_equal.
    replace (g * v * (z - w)) with (g * (v * z) - g * (2 * phi_l S0 I0)) by (unfold w; field; lra).
    replace ((g * v) ^ 2 / 2) with (g ^ 2 / 2 * (v * v)) by field. rewrite Hz, Hvv. field. lra. }
  transitivity (/ (H * v) * (c * npdf (z - g * v) - c * (k * npdf (z - g * v - w)))); [ring|].
  rewrite E1, E2. field. lra.
Qed.
Lemma band_nonneg S0 I0 : 0 < S0 <= I0 -> X <= I0 ->
  0 <= bs_phi_F Phi S0 t 1 I0 I0 r b s - bs_phi_F Phi S0 t 1 X I0 r b s - X * bs_phi_F Phi S0 t 0 I0 I0 r b s + X * bs_phi_F Phi S0 t 0 X I0 r b s.
Proof.
  intros HS HI. set (f := fun H => bs_phi_F Phi S0 t 1 H I0 r b s - X * bs_phi_F Phi S0 t 0 H I0 r b s).
  set (f' := fun H => exp (- r * t) * (H - X) / (H * v) * dens S0 I0 H).
  assert (D : forall H, 0 < H -> is_derive f H (f' H)).
  { intros H HH. unfold f, f'. evar_last.
    - apply (is_derive_minus (fun H => bs_phi_F Phi S0 t 1 H I0 r b s) (fun H => X * bs_phi_F Phi S0 t 0 H I0 r b s)).
      + apply phi_H_derive; lra.
      + apply is_derive_scal. apply phi_H_derive; lra.
    - cbv [minus plus opp]. cbn. rewrite Rmult_1_l, exp_ln, Rmult_0_l, exp_0 by exact HH. field. lra. }
  destruct HI as [HI| ->]; [|lra].
  destruct (MVT_gen f X I0 f') as (y & Hy & E).
  - intros y. rewrite Rmin_left, Rmax_right by lra. intro. apply D. lra.
  - intros y. rewrite Rmin_left, Rmax_right by lra. intro. apply derivable_continuous_pt. exists (f' y). apply is_derive_Reals, D. lra.
  - rewrite Rmin_left, Rmax_right in Hy by lra.
    assert (0 <= f I0 - f X); [|unfold f in *; lra]. rewrite E. apply Rmult_le_pos; [|lra]. unfold f'.
    apply Rmult_le_pos; [|apply dens_nonneg; lra]. apply Rmult_le_pos; [apply Rmult_le_pos; [left; apply exp_pos|lra]|].
    left. apply Rinv_0_lt_compat, Rmult_lt_0_compat; lra.
Qed.
Lemma lower_pos I0 S0 : 0 < S0 <= I0 -> X < I0 -> 0 < lower Phi I0 S0.
Proof.
  intros HS HI. pose proof (band_nonneg S0 I0 HS ltac:(lra)) as Hn. unfold lower.
  set (be := beta r b s). set (al := (I0 - X) * Rpower I0 (- be)).
  assert (Ha : 0 < al) by (apply Rmult_lt_0_compat; [lra|apply exp_pos]).
  assert (0 < al * Rpower S0 be - al * bs_phi_F Phi S0 t be I0 I0 r b s); [|lra].
  rewrite <- Rmult_minus_distr_l. apply Rmult_lt_0_compat; [exact Ha|].
  rewrite phi_eq by lra. destruct (beta_spec r b s Hs Hb) as [_ Hbe]. fold be in Hbe.
  replace ((- r + be * b + 1 / 2 * be * (be - 1) * s ^ 2) * t) with ((1 / 2 * s ^ 2 * be * (be - 1) + b * be - r) * t) by ring.
  rewrite Hbe, Rmult_0_l, exp_0, Rmult_1_l. unfold Rpower. pose proof (exp_pos (be * ln S0)) as Hp.
  set (d1 := phi_z S0 I0 - be * v). pose proof (Phi_lt_1 d1). set (k := exp (phi_l S0 I0 * _)). assert (0 < k) by apply exp_pos.
  pose proof (Phi_gt_0 (d1 - 2 * phi_l S0 I0 / v)) as Hq. set (q := Phi (d1 - _)) in *. assert (0 < k * q) by (now apply Rmult_lt_0_compat).
  nra.
Qed.
End Lower.

(*@ C44_trigger_continuity | With the exact normal distribution the price is continuous at the trigger: approaching the trigger from either side it tends to the exercise value (b < r, b t + 2 sigma sqrt t > 0). *)
Lemma bs_continuity : forall K t r b s eps : R, 0 < K -> 0 < t -> 0 < s -> b < r -> 0 < b * t + 2 * s * sqrt t -> 0 < eps ->
  exists I0 delta, K < I0 /\ 0 < delta /\ forall S, 0 < S -> Rabs (S - I0) < delta ->
    exists v, bs_call_F Phi (mkAmer S K t r b (Some s)) = Ok (v, Some I0) /\ Rabs (v - (I0 - K)) < eps.
Proof.
  intros K t r b s eps HK Ht Hs Hb H He. set (I0 := trig K t r b s).
  pose proof (trig_bounds K t r b s HK Hs Hb H) as T. pose proof (B0_bounds K r b s HK Hs Hb) as B. fold I0 in T.
  pose proof (lower_cont K t r b s HK I0 I0 ltac:(lra) ltac:(lra)) as C.
  assert (C1 : locally I0 (fun x => Rabs (lower K t r b s Phi I0 x - lower K t r b s Phi I0 I0) < eps)).
  { apply (C (fun y => Rabs (y - lower K t r b s Phi I0 I0) < eps)). exists (mkposreal eps He). intros y Hy. exact Hy. }
  destruct C1 as [[d Hd] C1]. cbn in C1. rewrite lower_at in C1 by lra.
  exists I0, (Rmin d eps). split; [lra|]. split; [now apply Rmin_pos|]. intros S HS HSI.
  eexists. split; [apply call_eq; assumption|]. fold I0. destruct (Rle_dec I0 S).
  - replace (S - K - (I0 - K)) with (S - I0) by ring. eapply Rlt_le_trans; [exact HSI|apply Rmin_r].
  - apply C1. eapply Rlt_le_trans; [exact HSI|apply Rmin_l].
Qed.

(*@ C44_value_matching | The formula used below the trigger gives exactly the exercise value at the trigger, whatever distribution function is used: near the trigger the price jumps only as much as the distribution function's implementation does. *)
Lemma bs_matching : forall (F : R -> R) (K t r b s : R), 0 < K -> 0 < t -> 0 < s -> b < r -> 0 < b * t + 2 * s * sqrt t ->
  exists I0 (low : R -> R), K < I0 /\ low I0 = I0 - K /\
    forall S, 0 < S < I0 -> bs_call_F F (mkAmer S K t r b (Some s)) = Ok (low S, Some I0).
Proof.
  intros F K t r b s HK Ht Hs Hb H. pose proof (trig_bounds K t r b s HK Hs Hb H) as T. pose proof (B0_bounds K r b s HK Hs Hb) as B.
  exists (trig K t r b s), (lower K t r b s F (trig K t r b s)). split; [lra|]. split; [apply lower_at; lra|].
  intros S HS. rewrite call_eq by assumption. destruct (Rle_dec _ S); [lra|reflexivity].
Qed.

(*@ C44_positive | With the exact normal distribution a BS call is worth a positive amount at every spot (b < r, b t + 2 sigma sqrt t > 0; compare the negative prices of C44_negative_refuted when that condition fails). *)
Lemma bs_positive : forall S K t r b s : R, 0 < S -> 0 < K -> 0 < t -> 0 < s -> b < r -> 0 < b * t + 2 * s * sqrt t ->
  exists v I0, bs_call_F Phi (mkAmer S K t r b (Some s)) = Ok (v, Some I0) /\ 0 < v.
Proof.
  intros S K t r b s HS HK Ht Hs Hb H. pose proof (trig_bounds K t r b s HK Hs Hb H) as T. pose proof (B0_bounds K r b s HK Hs Hb) as B.
  do 2 eexists. split; [apply call_eq; assumption|]. destruct (Rle_dec _ S); [lra|]. apply lower_pos; lra.
Qed.

Section Scale.
Variables a X t r b s : R.
Hypothesis Ha : 0 < a.
Hypothesis HX : 0 < X.
Lemma B0_scale : B0 (a * X) r b = a * B0 X r b.
Proof. unfold B0. rewrite <- RmaxRmult by lra. f_equal. ring. Qed.
Lemma trig_scale : trig (a * X) t r b s = a * trig X t r b s.
Proof.
  unfold trig, htT. rewrite B0_scale. unfold BInf. set (q := beta r b s / (beta r b s - 1)).
  replace (q * (a * X) - a * B0 X r b) with (a * (q * X - B0 X r b)) by ring.
  replace (- (b * t + 2 * s * sqrt t) * (a * B0 X r b) / (a * (q * X - B0 X r b))) with (- (b * t + 2 * s * sqrt t) * B0 X r b / (q * X - B0 X r b)); [ring|].
  destruct (Req_dec (q * X - B0 X r b) 0) as [E|E]; [rewrite E, Rmult_0_r; unfold Rdiv; now rewrite Rinv_0, !Rmult_0_r|]. field. lra.
Qed.
Lemma Rpower_scale x y : 0 < x -> Rpower (a * x) y = Rpower a y * Rpower x y.
Proof. intro. unfold Rpower. rewrite ln_mult, Rmult_plus_distr_l, exp_plus by lra. reflexivity. Qed.
Lemma phi_scale F S0 g H I0 : 0 < S0 -> 0 < H -> 0 < I0 ->
  bs_phi_F F (a * S0) t g (a * H) (a * I0) r b s = Rpower a g * bs_phi_F F S0 t g H I0 r b s.
Proof.
  intros. unfold bs_phi_F. cbn [powr RNum div]. rewrite Rpower_scale by assumption.
  replace (a * S0 / (a * H)) with (S0 / H) by (field; lra). replace (a * I0 / (a * S0)) with (I0 / S0) by (field; lra).
  toR. ring.
Qed.
Lemma lower_scale F I0 S0 : 0 < S0 -> 0 < I0 -> lower (a * X) t r b s F (a * I0) (a * S0) = a * lower X t r b s F I0 S0.
Proof.
  intros. unfold lower. rewrite !phi_scale, !Rpower_scale by assumption.
  assert (E : Rpower a (- beta r b s) * Rpower a (beta r b s) = 1) by (rewrite <- Rpower_plus; replace (- _ + _) with 0 by ring; now apply Rpower_O).
  rewrite Rpower_1, Rpower_O by exact Ha. set (p := Rpower a (beta r b s)) in *. set (q := Rpower a (- beta r b s)) in *.
  set (A := Rpower I0 _). set (B := Rpower S0 _). set (f := bs_phi_F F S0 t (beta r b s) I0 I0 r b s).
  replace ((a * I0 - a * X) * (q * A) * (p * B)) with (a * (I0 - X) * A * B * (q * p)) by ring.
  replace ((a * I0 - a * X) * (q * A) * (p * f)) with (a * (I0 - X) * A * f * (q * p)) by ring. rewrite E. ring.
Qed.
End Scale.

(*@ C44_homogeneous | Scaling spot and strike by the same positive factor scales the BS call and its trigger by that factor (b < r; any distribution function; trigger positive). *)
Lemma bs_homogeneous : forall (F : R -> R) (a S K t r b s v I0 : R), 0 < a -> 0 < S -> 0 < K -> b < r -> 0 < I0 ->
  bs_call_F F (mkAmer S K t r b (Some s)) = Ok (v, Some I0) ->
  bs_call_F F (mkAmer (a * S) (a * K) t r b (Some s)) = Ok (a * v, Some (a * I0)).
Proof.
  intros F a S K t r b s v I0 Ha HS HK Hb HI E. rewrite call_eq in * by assumption. injection E as Ev EI. rewrite trig_scale, EI in * by assumption.
  do 2 f_equal. destruct (Rle_dec I0 S), (Rle_dec (a * I0) (a * S)); subst v.
  - ring.
  - exfalso. apply n. now apply Rmult_le_compat_l; [lra|].
  - exfalso. apply n. now apply Rmult_le_reg_l in r0.
  - apply lower_scale; assumption.
Qed.
