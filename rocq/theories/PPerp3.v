(** Barone-Adesi-Whaley put prices for long maturities (C82). *)
From Coq Require Import Reals ZArith QArith Qreals String List Bool Lra Lia.
From Coquelicot Require Import Coquelicot.
From Verif Require Import Num Py MBase MVanilla MTrees MAmerican SMonte SHeston SSpread2 SAmer PTrees2 PGauss PCnd PCnd2 PBlack PGbs PVanilla SAmerican PBs PBaw PBaw3 PAmer6 PBs3 PMs2 PBs6 PPerp PPerp2.
Open Scope R_scope.

(** ** the power claim paying on the way down *)
Definition pwp (h S x : R) : R := S / (h - 1) * Rpower (x / S) h.
Lemma pow_lip h u w : 1 < h -> 0 < w <= u -> u <= 1 -> Rpower w h <= Rpower u h <= Rpower w h + h * (u - w).
Proof.
  intros Hh Hw Hu. set (z := w / u). assert (Hz : 0 < z <= 1) by (split; [apply Rdiv_lt_0_compat; lra|apply Rle_div_l; lra]).
  assert (E : Rpower w h = Rpower u h * Rpower z h). { unfold Rpower, z. rewrite ln_div, <- exp_plus by lra. f_equal. ring. }
  pose proof (pw_le1 z h Hh Hz) as P1. pose proof (pw_le1 u h Hh ltac:(lra)) as P3. pose proof (bernoulli_hi z h ltac:(lra) (proj1 Hz)) as P2. assert (P4 : 0 < Rpower u h) by apply exp_pos. rewrite E.
  assert (Ew : h * (u - w) = u * (h * (1 - z))) by (unfold z; field; lra). rewrite Ew. set (g := Rpower u h) in *. set (k := Rpower z h) in *.
  assert (0 <= h * (1 - z)) by (apply Rmult_le_pos; lra). split; [nra|]. assert (g * (1 - k) <= g * (h * (1 - z))) by (apply Rmult_le_compat_l; lra). assert (g * (h * (1 - z)) <= u * (h * (1 - z))) by (apply Rmult_le_compat_r; lra). lra.
Qed.
Lemma pwp_lip h S x y : 1 < h -> 0 < x -> x <= y -> y <= S -> pwp h S x <= pwp h S y <= pwp h S x + h / (h - 1) * (y - x).
Proof.
  intros Hh Hx Hy HS. destruct (pow_lip h (y / S) (x / S) Hh) as (P1 & P2); [split; [apply Rdiv_lt_0_compat; lra|apply Rmult_le_compat_r; [left; apply Rinv_0_lt_compat; lra|lra]]|apply Rle_div_l; lra|].
  assert (Q : 0 < S / (h - 1)) by (apply Rdiv_lt_0_compat; lra). apply (Rmult_le_compat_l (S / (h - 1))) in P1; [|lra]. apply (Rmult_le_compat_l (S / (h - 1))) in P2; [|lra]. unfold pwp. split; [exact P1|].
  eapply Rle_trans; [exact P2|]. right. field. lra.
Qed.
Lemma pwp_same h S : 1 < h -> 0 < S -> pwp h S S = h / (h - 1) * S - S.
Proof. intros Hh HS. unfold pwp. unfold Rdiv at 2. rewrite Rinv_r by lra. unfold Rpower. rewrite ln_1, Rmult_0_r, exp_0. field. lra. Qed.
Lemma pwp_tan h S x : 1 < h -> 0 < S -> 0 < x -> h / (h - 1) * x - S <= pwp h S x.
Proof.
  intros Hh HS Hx. unfold pwp. pose proof (bernoulli_hi (x / S) h ltac:(lra) ltac:(apply Rdiv_lt_0_compat; lra)) as W. apply (Rmult_le_compat_l (S / (h - 1))) in W; [|left; apply Rdiv_lt_0_compat; lra].
  eapply Rle_trans; [|exact W]. right. field. lra.
Qed.

(** ** what the stopping test of the search says about its result *)
Lemma exit_put K h e' x c m dl : 0 < K -> 1 < h -> 0 < x -> - (x * m) <= c <= K * e' -> 0 <= m <= 1 ->
  Rabs (K - x - (c + x / (h - 1) * (1 - m))) <= / 10 ^ 6 * K ->
  K * (1 - / 10 ^ 6 - e') <= h / (h - 1) * x /\ (m <= dl -> 0 < dl <= 1 / 2 -> h / (h - 1) * x <= K * (1 + / 10 ^ 6) * (1 + 2 * dl)).
Proof.
  intros HK Hh Hx Hc Hm H. apply Rabs_le_between in H. assert (Hg : 0 < x / (h - 1)) by (apply Rdiv_lt_0_compat; lra). assert (E : h / (h - 1) * x = x + x / (h - 1)) by (field; lra). rewrite E. set (g := x / (h - 1)) in *. clearbody g.
  split; [assert (0 <= g * m) by (apply Rmult_le_pos; lra); nra|]. intros D1 D2.
  assert (U : (x + g) * (1 - m) <= K * (1 + / 10 ^ 6)) by nra. assert (V : (x + g) * (1 - dl) <= K * (1 + / 10 ^ 6)) by (eapply Rle_trans; [|exact U]; apply Rmult_le_compat_l; lra).
  apply Rle_trans with ((x + g) * (1 - dl) * (1 + 2 * dl)); [|apply Rmult_le_compat_r; lra]. rewrite Rmult_assoc. rewrite <- (Rmult_1_r (x + g)) at 1. apply Rmult_le_compat_l; [lra|nra].
Qed.

Section Long.
Variables K r b s : R.
Hypothesis HK : 0 < K.
Hypothesis Hs : 0 < s.
Hypothesis Hb : b <= r.
Hypothesis Hr : 0 < r.
Let be := beta (r - b) (- b) s.
Let Hbb : - b < r - b. Proof. lra. Qed.
Let H1 : 1 < be. Proof. exact (proj1 (beta_spec (r - b) (- b) s Hs Hbb)). Qed.
Let B := (be - 1) / be * K.
Lemma h_lim : is_lim (fun t => 1 - bq1 t r b s) p_infty be.
Proof.
  assert (Q : 0 < s ^ 2) by now apply pow_lt. set (f := fun E => 1 - (- (2 * b / s ^ 2 - 1) - sqrt ((2 * b / s ^ 2 - 1) ^ 2 + 4 * (2 * r / (s ^ 2 * (1 - E))))) / 2).
  assert (P : 0 < 2 * r / s ^ 2) by (apply Rdiv_lt_0_compat; lra). pose proof (pow2_ge_0 (2 * b / s ^ 2 - 1)) as P2.
  assert (E0 : be = f 0). { unfold be, beta, f. rewrite Rminus_0_r, Rmult_1_r. replace ((2 * b / s ^ 2 - 1) ^ 2 + 4 * (2 * r / s ^ 2)) with (2 ^ 2 * ((- b / s ^ 2 - 1 / 2) ^ 2 + 2 * (r - b) / s ^ 2)) by (field; lra).
    rewrite sqrt_mult_alt by lra. rewrite sqrt_pow2 by lra. field. lra. }
  rewrite E0. apply (is_lim_ext (fun t => f (exp (- r * t)))); [reflexivity|]. apply (lim_at f); [now apply decay|].
  unfold f. auto_derive. repeat split; auto; try (rewrite Rminus_0_r, Rmult_1_r); try lra; try (apply Rgt_not_eq; lra).
  replace (_ + _) with ((2 * b / s ^ 2 - 1) ^ 2 + 4 * (2 * r / s ^ 2)) by (field; lra). lra.
Qed.
(** the weight of the share in the put vanishes *)
Lemma weight y0 : 0 < y0 -> forall dl, 0 < dl -> exists T, forall t y, T < t -> y0 <= y -> bcarry t r b * cnd (- bd1' K t b s y) <= dl.
Proof.
  intros Hy0 dl Hd. destruct (Rle_lt_or_eq_dec b r Hb) as [L|L].
  - destruct (ev (fun t => exp (- (r - b) * t)) 0 (decay (r - b) ltac:(lra)) dl Hd) as (T & HT). exists T. intros t y Ht _. specialize (HT t Ht). rewrite Rminus_0_r in HT. apply Rabs_lt_between in HT.
    replace (bcarry t r b) with (exp (- (r - b) * t)) by (unfold bcarry; f_equal; ring). pose proof (cnd_range (- bd1' K t b s y)). assert (0 < exp (- (r - b) * t)) by apply exp_pos. nra.
  - destruct (cnd_lim_neg dl Hd) as (A & _ & HA). set (k := (r + s ^ 2 / 2) / s). assert (Hs2 : 0 < s ^ 2) by now apply pow_lt. assert (Hk : 0 < k) by (apply Rdiv_lt_0_compat; lra).
    set (c := Rabs (ln (y0 / K)) / s). assert (Hc : 0 <= c) by (apply Rdiv_le_0_compat; [apply Rabs_pos|lra]). set (N := (c + Rabs A + 1) / k). assert (HN : 0 < N) by (pose proof (Rabs_pos A); apply Rdiv_lt_0_compat; lra).
    exists (Rmax 1 (N ^ 2)). intros t y Ht Hy. pose proof (Rmax_l 1 (N ^ 2)). pose proof (Rmax_r 1 (N ^ 2)). assert (Q1 : 1 <= sqrt t) by (rewrite <- sqrt_1; apply sqrt_le_1; lra).
    assert (K1 : N < sqrt t) by (rewrite <- (sqrt_pow2 N) by lra; apply sqrt_lt_1; [apply pow2_ge_0|lra|lra]). unfold N in K1. apply Rlt_div_l in K1; [|exact Hk].
    assert (E1 : bcarry t r b = 1) by (unfold bcarry; rewrite L; replace ((r - r) * t) with 0 by ring; apply exp_0). rewrite E1, Rmult_1_l. left. apply HA.
    assert (Dv : bd1' K t b s y >= k * sqrt t - c).
    { unfold bd1', k, c. rewrite L. assert (E : t = sqrt t * sqrt t) by (symmetry; apply sqrt_sqrt; lra).
      assert (LN : - Rabs (ln (y0 / K)) <= ln (y / K)). { apply Rle_trans with (ln (y0 / K)); [pose proof (Rle_abs (- ln (y0 / K))) as W; rewrite Rabs_Ropp in W; lra|].
        assert (Q9 : y0 / K <= y / K) by (apply Rmult_le_compat_r; [left; apply Rinv_0_lt_compat|]; lra). assert (0 < y0 / K) by (apply Rdiv_lt_0_compat; lra). destruct (Rle_lt_or_eq_dec _ _ Q9) as [W|W]; [left; now apply ln_increasing|rewrite W; lra]. }
      replace ((ln (y / K) + (r + s ^ 2 / 2) * t) / (s * sqrt t)) with (ln (y / K) / s / sqrt t + (r + s ^ 2 / 2) / s * sqrt t) by (rewrite E at 3; field; lra).
      set (l := ln (y / K)) in *. set (l0 := Rabs (ln (y0 / K))) in *. assert (0 <= l0) by apply Rabs_pos. assert (W : - (l0 / s) <= l / s / sqrt t); [|lra].
      apply Rle_div_r; [lra|]. assert (0 <= l0 / s) by (apply Rdiv_le_0_compat; lra). assert (- (l0 / s) <= l / s). { replace (- (l0 / s)) with (- l0 / s) by (field; lra). apply Rmult_le_compat_r; [left; apply Rinv_0_lt_compat; lra|exact LN]. } nra. }
    pose proof (Rle_abs (- A)) as R1. rewrite Rabs_Ropp in R1. lra.
Qed.

Lemma c_lim : is_lim (fun t => (1 - bq1 t r b s) / (1 - bq1 t r b s - 1)) p_infty (be / (be - 1)).
Proof. pose proof H1. apply (lim_at (fun h => h / (h - 1)) (fun t => 1 - bq1 t r b s)); [exact h_lim|]. auto_derive. lra. Qed.
Lemma pwp_lim S : 0 < S -> is_lim (fun t => pwp (1 - bq1 t r b s) S B) p_infty (pwp be S B).
Proof. intro HS. pose proof H1. apply (lim_at (fun h => pwp h S B) (fun t => 1 - bq1 t r b s)); [exact h_lim|]. unfold pwp, Rpower. auto_derive. lra. Qed.
Let HB : 0 < B < K.
Proof. pose proof H1. unfold B. assert (0 < (be - 1) / be < 1) by (split; [apply Rdiv_lt_0_compat; lra|apply Rlt_div_l; lra]). split; [apply Rmult_lt_0_compat; lra|]. rewrite <- (Rmult_1_l K) at 2. apply Rmult_lt_compat_r; lra. Qed.
Lemma B_c : be / (be - 1) * B = K.
Proof. pose proof H1. unfold B. field. lra. Qed.
Lemma perp_pwp S : 0 < S -> perp K S (r - b) (- b) s = if Rlt_dec B S then pwp be S B else K - S.
Proof.
  intro HS. pose proof H1. pose proof HB. unfold perp. cbv zeta. unfold BInf. fold be. set (c := be / (be - 1)). assert (Hc : 0 < c) by (apply Rdiv_lt_0_compat; lra). assert (EK : K = c * B) by (symmetry; apply B_c).
  destruct (Rlt_dec K (c * S)) as [X|X], (Rlt_dec B S) as [Y|Y]; [|exfalso; apply Y; apply Rmult_lt_reg_l with c; lra|exfalso; apply X; rewrite EK; now apply Rmult_lt_compat_l|reflexivity].
  unfold pwp. replace (K / (c * S)) with (B / S) by (rewrite EK; field; lra). f_equal. unfold c. field. lra.
Qed.
Lemma pwp_perp_bounds S : B < S -> K - S <= pwp be S B <= K - B.
Proof.
  intro HS. pose proof H1 as W. pose proof HB as V. pose proof B_c as C. split; [pose proof (pwp_tan be S B W ltac:(lra) ltac:(lra)); lra|].
  unfold pwp. assert (E : K - B = S / (be - 1) * (B / S)). { rewrite <- C at 1. field. lra. } rewrite E. apply Rmult_le_compat_l; [left; apply Rdiv_lt_0_compat; lra|]. apply pw_le1; [exact W|]. split; [apply Rdiv_lt_0_compat; lra|apply Rle_div_l; lra].
Qed.

Lemma baw_put_perp S : 0 < S -> forall eps, 0 < eps -> exists T, 0 <= T /\ forall t fuel p, T < t -> baw_put fuel (mkAmer S K t r b (Some s)) = Ok p ->
  Rabs (p - perp K S (r - b) (- b) s) < / 10 ^ 6 * K + eps.
Proof.
  intros HS eps He. pose proof H1 as W1. pose proof HB as HB'. pose proof B_c as BC. set (d := eps / 5). assert (Hd : 0 < d) by (unfold d; lra). set (C := be / (be - 1) + 1).
  assert (HC0 : 1 < be / (be - 1)) by (apply Rlt_div_r; lra). assert (HC : 1 < C) by (unfold C; lra). set (y0 := Rmin S (K / (2 * C))). assert (Hy0 : 0 < y0) by (unfold y0; apply Rmin_glb_lt; [exact HS|apply Rdiv_lt_0_compat; lra]).
  assert (HSC : 0 < S * C) by (apply Rmult_lt_0_compat; lra). set (dl := Rmin (1 / 2) (d / (4 * (K + S * C)))). assert (Hdl : 0 < dl <= 1 / 2) by (unfold dl; split; [apply Rmin_glb_lt; [lra|apply Rdiv_lt_0_compat; lra]|apply Rmin_l]).
  assert (Hdl2 : dl * (K + S * C) <= d / 4). { apply Rle_trans with (d / (4 * (K + S * C)) * (K + S * C)); [apply Rmult_le_compat_r; [lra|apply Rmin_r]|right; field; lra]. }
  destruct (ev _ _ (decay r Hr) (Rmin (1 / 4) (d / (4 * K)))) as (T1 & Q1); [apply Rmin_glb_lt; [lra|apply Rdiv_lt_0_compat; lra]|]. destruct (ev _ _ c_lim (Rmin 1 (d / B))) as (T2 & Q2); [apply Rmin_glb_lt; [lra|apply Rdiv_lt_0_compat; lra]|].
  destruct (ev _ _ (pwp_lim S HS) d Hd) as (T3 & Q3). destruct (weight y0 Hy0 dl (proj1 Hdl)) as (T4 & Q4).
  exists (Rmax 0 (Rmax (Rmax T1 T2) (Rmax T3 T4))). split; [apply Rmax_l|]. intros t fuel p Ht E.
  assert (HT : 0 < t /\ T1 < t /\ T2 < t /\ T3 < t /\ T4 < t).
  { apply Rmax_Rlt in Ht. destruct Ht as (? & Ht). repeat match goal with H : Rmax _ _ < _ |- _ => apply Rmax_Rlt in H; destruct H end. repeat split; assumption. }
  destruct HT as (Ht0 & G1 & G2 & G3 & G4). specialize (Q1 t G1). specialize (Q2 t G2). specialize (Q3 t G3).
  rewrite Rminus_0_r in Q1. apply Rabs_lt_between in Q1. apply Rabs_lt_between in Q2. apply Rabs_lt_between in Q3.
  assert (He' : 0 < exp (- r * t)) by apply exp_pos. set (e' := exp (- r * t)) in *. pose proof (Rmin_l (1 / 4) (d / (4 * K))) as M1. pose proof (Rmin_r (1 / 4) (d / (4 * K))) as M2. pose proof (Rmin_l 1 (d / B)) as M3. pose proof (Rmin_r 1 (d / B)) as M4.
  assert (Ke : K * e' < d / 4). { replace (d / 4) with (K * (d / (4 * K))) by (field; lra). apply Rmult_lt_compat_l; lra. }
  assert (Hr0 : r <> 0) by lra. destruct (baw_Kp fuel (mkAmer 1 K t r b (Some s)) s) as [x|er] eqn:EK; [|rewrite (put_err K t r b s fuel er HK Ht0 Hs Hr0 EK S) in E; discriminate E].
  assert (Px : 0 < x). { apply (Kp_pos K t r b s 1 HK Ht0 Hs Hr fuel); auto. apply (seed_p_pos K t r b s 1 HK Hs Hr). }
  assert (EX := Kp_exit K t r b s HK Ht0 Hs Hr0 1 fuel x EK Px). rewrite (put_value' K t r b s fuel x HK Ht0 Hs Hr0 EK S HS) in E. injection E as E.
  destruct (bq_spec t r b s Ht0 Hs Hr0) as (_ & Hq & _). set (q := bq1 t r b s) in *. set (h := 1 - q) in *. assert (Hh : 1 < h) by (unfold h; lra).
  set (c := h / (h - 1)) in *. assert (Hc1 : 1 < c) by (unfold c; apply Rlt_div_r; lra). assert (HcC : c < C) by (unfold C; lra).
  assert (cB : Rabs (c * B - K) < d). { rewrite <- BC. replace (c * B - be / (be - 1) * B) with ((c - be / (be - 1)) * B) by ring. rewrite Rabs_mult, (Rabs_pos_eq B) by lra. apply Rlt_le_trans with (d / B * B); [|right; field; lra]. apply Rmult_lt_compat_r; [lra|]. apply Rabs_def1; lra. }
  apply Rabs_lt_between in cB. set (e := bcarry t r b) in *. assert (He0 : 0 < e) by apply exp_pos. assert (He1 : e <= 1). { unfold e, bcarry. rewrite <- exp_0. apply exp_le0. assert (0 <= (r - b) * t) by (apply Rmult_le_pos; lra). lra. }
  assert (CB : forall y, 0 < y -> - (y * (e * cnd (- bd1' K t b s y))) <= cput K t r b s y <= K * e').
  { intros y Hy. unfold cput, bput. fold e'. change (exp ((b - r) * t)) with e. assert (Ed : bd1 (y * e) (K * e') (s * sqrt t) = bd1' K t b s y).
    { exact (dd_eq K t r b s HK Ht0 Hs Hr y Hy). } rewrite Ed.
    pose proof (cnd_range (- bd2 (y * e) (K * e') (s * sqrt t))). pose proof (cnd_range (- bd1' K t b s y)). assert (0 < K * e') by (apply Rmult_lt_0_compat; lra). assert (0 < y * e) by (apply Rmult_lt_0_compat; lra). nra. }
  set (m := e * cnd (- bd1' K t b s x)) in *. assert (Hm : 0 <= m <= 1) by (unfold m; pose proof (cnd_range (- bd1' K t b s x)); nra).
  assert (EP : prem1 K t r b s x = x / (h - 1) * (1 - m)). { unfold prem1. fold q e m. unfold h. replace (1 - q - 1) with (- q) by ring. field. lra. } rewrite EP in EX, E.
  destruct (exit_put K h e' x _ m dl HK Hh Px (CB x Px) Hm EX) as (XL & XU). fold c in XL, XU.
  assert (Xy : y0 <= x). { apply Rle_trans with (K / (2 * C)); [apply Rmin_r|]. apply Rle_div_l; [lra|]. assert (c * x <= C * x) by (apply Rmult_le_compat_r; lra). assert (K * / 2 <= K * (1 - / 10 ^ 6 - e')) by (apply Rmult_le_compat_l; lra). lra. }
  assert (Hmd : m <= dl) by (apply Q4; assumption). specialize (XU Hmd Hdl). assert (KD : 0 <= dl * (S * C) /\ 0 < dl * K) by (split; [apply Rmult_le_pos; lra|apply Rmult_lt_0_compat; lra]).
  assert (XA : - (/ 10 ^ 6 * K + d) <= c * x - K <= / 10 ^ 6 * K + d). { split; [nra|]. assert (K * (1 + / 10 ^ 6) * (1 + 2 * dl) <= K * (1 + / 10 ^ 6) + 4 * (dl * K)) by nra. lra. }
  assert (SC : c * S <= S * C) by (rewrite Rmult_comm; apply Rmult_le_compat_l; lra).
  assert (PV : x < S -> Rabs (p - pwp h S x) < d).
  { intro L. destruct (Rlt_dec x S) as [_|]; [|lra]. pose proof (CB S HS) as CS. assert (mS : e * cnd (- bd1' K t b s S) <= dl) by (apply Q4; [assumption|apply Rmin_l]).
    assert (S * (e * cnd (- bd1' K t b s S)) <= S * dl) by (apply Rmult_le_compat_l; lra). assert (S * dl <= dl * (S * C)) by nra.
    destruct (pwp_lip h S x S Hh Px ltac:(lra) ltac:(lra)) as (L1 & _). rewrite (pwp_same h S Hh HS) in L1. fold c in L1. assert (P0 : 0 < pwp h S x) by (unfold pwp; apply Rmult_lt_0_compat; [apply Rdiv_lt_0_compat; lra|apply exp_pos]).
    assert (Mb : 0 <= m * pwp h S x <= dl * (S * C)). { split; [apply Rmult_le_pos; lra|]. apply Rmult_le_compat; lra. }
    assert (Ep : p = cput K t r b s S - m * pwp h S x + pwp h S x).
    { rewrite <- E. assert (Z : x / (h - 1) * Rpower (S / x) q = pwp h S x). { unfold pwp, Rpower. rewrite !ln_div by lra. unfold h at 3. replace ((1 - q) * (ln x - ln S)) with (ln x - ln S + q * (ln S - ln x)) by ring. rewrite exp_plus. replace (exp (ln x - ln S)) with (x / S) by (unfold Rminus; rewrite exp_plus, exp_Ropp, !exp_ln by assumption; reflexivity). field. split; lra. }
      rewrite <- Z. ring. }
    apply Rabs_def1; lra. }
  rewrite (perp_pwp S HS). destruct (Rlt_dec B S) as [SB|SB]; destruct (Rlt_dec x S) as [Sx|Sx].
  - specialize (PV Sx). apply Rabs_lt_between in PV. destruct (Rle_lt_dec x B) as [D|D].
    + pose proof (pwp_lip h S x B Hh Px D ltac:(lra)) as (V1 & V2). fold c in V2. unfold d in *. apply Rabs_def1; lra.
    + pose proof (pwp_lip h S B x Hh ltac:(lra) ltac:(lra) ltac:(lra)) as (V1 & V2). fold c in V2. unfold d in *. apply Rabs_def1; lra.
  - pose proof (pwp_perp_bounds S SB) as V. assert (1 * (x - B) <= c * (x - B)) by (apply Rmult_le_compat_r; lra). unfold d in *. apply Rabs_def1; lra.
  - specialize (PV Sx). apply Rabs_lt_between in PV. destruct (pwp_lip h S x S Hh Px ltac:(lra) ltac:(lra)) as (L1 & _). rewrite (pwp_same h S Hh HS) in L1. fold c in L1. pose proof (pwp_tan h S x Hh HS Px) as L2. fold c in L2.
    assert (c * S <= c * B) by (apply Rmult_le_compat_l; lra). unfold d in *. apply Rabs_def1; lra.
  - rewrite <- E. rewrite Rminus_eq_0, Rabs_R0. lra.
Qed.
End Long.

(*@ C82_baw_put_long | The same for puts with r > 0 and b <= r, a stock without dividends (b = r) included: whenever the search ends, the code's Barone-Adesi-Whaley put is within 10^-6 K + eps of the American value from some maturity on. *)
Lemma c82_baw_put_long : forall S K r b s eps, 0 < S -> 0 < K -> 0 < s -> 0 < r -> b <= r -> 0 < eps ->
  exists T, 0 <= T /\
    forall t fuel x v, T < t -> baw_put fuel (mkAmer S K t r b (Some s)) = Ok x -> american_value (call_put false K) r b s t S v ->
      Rabs (x - v) < / 10 ^ 6 * K + eps.
Proof.
  intros S K r b s eps HS HK Hs Hr Hb He. destruct (perp_limit K S (r - b) (- b) s HK HS Hs ltac:(lra) ltac:(lra) (eps / 2) ltac:(lra)) as (T1 & HT1 & Q1). destruct (baw_put_perp K r b s HK Hs Hb Hr S HS (eps / 2) ltac:(lra)) as (T2 & HT2 & Q2).
  exists (Rmax T1 T2). pose proof (Rmax_l T1 T2). pose proof (Rmax_r T1 T2). split; [lra|]. intros t fuel x v Ht E A. pose proof (Q1 t v ltac:(lra) (dual_call S K t r b s v HS HK ltac:(lra) Hs A)) as D1. pose proof (Q2 t fuel x ltac:(lra) E) as D2.
  apply Rabs_lt_between in D1. apply Rabs_lt_between in D2. apply Rabs_def1; lra.
Qed.
