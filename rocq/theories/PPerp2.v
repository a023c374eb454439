(** Barone-Adesi-Whaley prices for long maturities (C82). *)
From Coq Require Import Reals ZArith QArith Qreals String List Bool Lra Lia.
From Coquelicot Require Import Coquelicot.
From Verif Require Import Num Py MBase MVanilla MTrees MAmerican SMonte SHeston SSpread2 SAmer PTrees2 PGauss PCnd PCnd2 PBlack PGbs PVanilla SAmerican PBs PBaw PBaw3 PAmer6 PBs3 PMs2 PBs6 PPerp.
Open Scope R_scope.

(** ** the power claim with trigger x and exponent q *)
Definition pwq (q S x : R) : R := x / q * Rpower (S / x) q.
Lemma pw_le1 u q : 1 < q -> 0 < u <= 1 -> Rpower u q <= u.
Proof.
  intros Hq (H0 & H1). unfold Rpower. rewrite <- (exp_ln u) at 2 by exact H0. apply exp_le0. assert (ln u <= 0) by (rewrite <- ln_1; destruct H1 as [H1| ->]; [left; now apply ln_increasing|lra]). nra.
Qed.
Lemma pwq_lip q S x y : 1 < q -> 0 < S -> S <= x -> x <= y -> pwq q S y <= pwq q S x <= pwq q S y + (y - x).
Proof.
  intros Hq HS Hx Hy. set (u := x / y). assert (Hu : 0 < u <= 1) by (split; [apply Rdiv_lt_0_compat; lra|apply Rle_div_l; lra]). set (w := Rpower (S / x) q). assert (Hw : 0 < w <= 1).
  { split; [apply exp_pos|]. assert (V : 0 < S / x <= 1) by (split; [apply Rdiv_lt_0_compat; lra|apply Rle_div_l; lra]). pose proof (pw_le1 (S / x) q Hq V). fold w in H. lra. }
  assert (E : pwq q S y = y / q * Rpower u q * w). { unfold pwq, w, Rpower, u. rewrite !ln_div by lra. rewrite Rmult_assoc, <- exp_plus. f_equal. f_equal. ring. }
  rewrite E. unfold pwq. fold w. pose proof (pw_le1 u q Hq Hu) as P1. pose proof (bernoulli_hi u q ltac:(lra) (proj1 Hu)) as P2.
  assert (Hyq : 0 < y / q) by (apply Rdiv_lt_0_compat; lra). assert (Ex : x / q = y / q * u) by (unfold u; field; lra).
  assert (A1 : y / q * Rpower u q <= x / q) by (rewrite Ex; apply Rmult_le_compat_l; lra).
  assert (A2 : x / q - y / q * Rpower u q <= y - x). { apply (Rmult_le_compat_l (y / q)) in P2; [|lra]. replace (y / q * (1 + q * (u - 1))) with (y / q + x - y) in P2 by (unfold u; field; lra). assert (x / q <= y / q) by (apply Rmult_le_compat_r; [left; apply Rinv_0_lt_compat; lra|lra]). lra. }
  split; [apply Rmult_le_compat_r; lra|]. nra.
Qed.

(** ** what the stopping test of the search says about its result *)
Lemma exit_eq K q e e' x c n : 0 < K -> 1 < q -> 0 <= e -> 0 < x -> Rabs c <= x * e + K * e' -> 0 <= n <= 1 ->
  Rabs (x - K - (c + x / q * (1 - e * n))) <= / 10 ^ 6 * K -> Rabs (x * (1 - / q) - K) <= / 10 ^ 6 * K + 2 * x * e + K * e'.
Proof.
  intros HK Hq He Hx Hc Hn H. apply Rabs_le_between in Hc. apply Rabs_le_between in H. assert (0 < / q < 1) by (split; [apply Rinv_0_lt_compat; lra|rewrite <- Rinv_1; apply Rinv_lt_contravar; lra]).
  assert (0 <= x / q * (e * n) <= x * e). { assert (0 <= e * n <= e) by nra. unfold Rdiv. split; [apply Rmult_le_pos; [|lra]; apply Rmult_le_pos; lra|]. apply Rle_trans with (x * / q * e); [apply Rmult_le_compat_l; [apply Rmult_le_pos; lra|lra]|]. assert (0 <= x * e) by (apply Rmult_le_pos; lra). nra. }
  replace (x - K - (c + x / q * (1 - e * n))) with (x * (1 - / q) - K - c + x / q * (e * n)) in H by (field; lra). apply Rabs_le. lra.
Qed.
Lemma bcall_abs A B v : 0 <= A -> 0 <= B -> Rabs (bcall cnd A B v) <= A + B.
Proof. intros HA HB. unfold bcall. pose proof (cnd_range (bd1 A B v)). pose proof (cnd_range (bd2 A B v)). apply Rabs_le. nra. Qed.

Section Long.
Variables K r b s : R.
Hypothesis HK : 0 < K.
Hypothesis Hs : 0 < s.
Hypothesis Hb : b < r.
Hypothesis Hr : 0 < r.
Let be := beta r b s.
Let BI := BInf K r b s.
Let H1 : 1 < be. Proof. exact (proj1 (beta_spec r b s Hs Hb)). Qed.
Let HB : K < BI. Proof. exact (Rle_lt_trans _ _ _ (proj1 (B0_bounds K r b s HK Hs Hb)) (proj2 (B0_bounds K r b s HK Hs Hb))). Qed.
Lemma decay k : 0 < k -> is_lim (fun t => exp (- k * t)) p_infty 0.
Proof.
  intro Hk. apply (is_lim_comp exp (fun t => - k * t) p_infty 0 m_infty); [apply is_lim_exp_m| |exists 0; intros; discriminate].
  evar_last; [apply (is_lim_scal_l (fun t => t) (- k)); apply is_lim_id|]. cbn. destruct (Rle_dec 0 (- k)) as [Hc|Hc]; [exfalso; clear - Hk Hc; lra|reflexivity].
Qed.
Lemma lim_at (f g : R -> R) (a : R) : is_lim g p_infty a -> ex_derive f a -> is_lim (fun t => f (g t)) p_infty (f a).
Proof. intros L C. apply is_lim_comp_continuous; [exact L|]. exact (ex_derive_continuous f a C). Qed.
Lemma q_lim : is_lim (fun t => bq2 t r b s) p_infty be.
Proof.
  assert (Q : 0 < s ^ 2) by now apply pow_lt. set (f := fun E => (- (2 * b / s ^ 2 - 1) + sqrt ((2 * b / s ^ 2 - 1) ^ 2 + 4 * (2 * r / (s ^ 2 * (1 - E))))) / 2).
  assert (P : 0 < 2 * r / s ^ 2) by (apply Rdiv_lt_0_compat; lra). pose proof (pow2_ge_0 (2 * b / s ^ 2 - 1)) as P2.
  assert (E0 : be = f 0). { unfold be, beta, f. rewrite Rminus_0_r, Rmult_1_r. replace ((2 * b / s ^ 2 - 1) ^ 2 + 4 * (2 * r / s ^ 2)) with (2 ^ 2 * ((b / s ^ 2 - 1 / 2) ^ 2 + 2 * r / s ^ 2)) by (field; lra).
    rewrite sqrt_mult_alt by lra. rewrite sqrt_pow2 by lra. field. lra. }
  rewrite E0. apply (is_lim_ext (fun t => f (exp (- r * t)))); [reflexivity|]. apply (lim_at f); [now apply decay|].
  unfold f. auto_derive. repeat split; auto; try (rewrite Rminus_0_r, Rmult_1_r); try lra; try (apply Rgt_not_eq; lra).
  replace (_ + _) with ((2 * b / s ^ 2 - 1) ^ 2 + 4 * (2 * r / s ^ 2)) by (field; lra). lra.
Qed.

Lemma BI_eq : BI = K / (1 - / be).
Proof. pose proof H1. unfold BI, BInf. fold be. field. repeat split; lra. Qed.
Lemma BI_be : BI - K = BI / be.
Proof. pose proof H1. unfold BI, BInf. fold be. field. repeat split; lra. Qed.
Let e (t : R) := bcarry t r b.
Let e' (t : R) := exp (- r * t).
Let a (t : R) := 1 - / bq2 t r b s.
Lemma e_lim : is_lim e p_infty 0.
Proof. apply (is_lim_ext (fun t => exp (- (r - b) * t))); [intro t; unfold e, bcarry; f_equal; ring|]. apply decay. lra. Qed.
Lemma a_lim : is_lim a p_infty (1 - / be).
Proof. pose proof H1. unfold a. apply (lim_at (fun q => 1 - / q)); [exact q_lim|]. auto_derive. lra. Qed.
Let hi (t : R) := K * (1 + / 10 ^ 6 + e' t) / (a t - 2 * e t).
Let lo (t : R) := K * (1 - / 10 ^ 6 - e' t) / (a t + 2 * e t).
Let ai : 0 < 1 - / be.
Proof. pose proof H1. assert (/ be < 1) by (rewrite <- Rinv_1; apply Rinv_lt_contravar; lra). lra. Qed.
Lemma den_lim c : is_lim (fun t => a t + c * e t) p_infty (1 - / be).
Proof. replace (1 - / be) with (1 - / be + c * 0) by ring. apply lim_plus; [exact a_lim|]. apply (is_lim_scal_l e c p_infty 0). exact e_lim. Qed.
Lemma quo_lim k c : is_lim (fun t => K * (1 + k + c * e' t) / (a t + - 2 * c * e t)) p_infty (BI * (1 + k)).
Proof.
  rewrite BI_eq. replace (K / (1 - / be) * (1 + k)) with (K * (1 + k + c * 0) * / (1 - / be)) by (pose proof ai; unfold Rdiv; ring).
  unfold Rdiv. apply lim_mult.
  - apply (lim_at (fun E => K * (1 + k + c * E)) e'); [apply decay; exact Hr|]. auto_derive. exact I.
  - apply (lim_at Rinv); [apply (den_lim (- 2 * c))|]. auto_derive. pose proof ai. lra.
Qed.
Lemma hi_lim : is_lim hi p_infty (BI * (1 + / 10 ^ 6)).
Proof. apply (is_lim_ext (fun t => K * (1 + / 10 ^ 6 + 1 * e' t) / (a t + - 2 * 1 * e t))); [|apply quo_lim]. intro t. unfold hi. f_equal; ring. Qed.
Lemma lo_lim : is_lim lo p_infty (BI * (1 + - / 10 ^ 6)).
Proof. apply (is_lim_ext (fun t => K * (1 + - / 10 ^ 6 + - 1 * e' t) / (a t + - 2 * - 1 * e t))); [|apply quo_lim]. intro t. unfold lo. f_equal; ring. Qed.
Lemma er_lim S : is_lim (fun t => S * e t + K * e' t + 2 * hi t * e t) p_infty 0.
Proof.
  replace 0 with (S * 0 + K * 0 + 2 * (BI * (1 + / 10 ^ 6)) * 0) by ring. apply lim_plus; [apply lim_plus|].
  - apply (is_lim_scal_l e S p_infty 0). exact e_lim.
  - apply (is_lim_scal_l e' K p_infty 0). apply decay. exact Hr.
  - apply lim_mult; [|exact e_lim]. apply (is_lim_scal_l hi 2 p_infty (BI * (1 + / 10 ^ 6))). exact hi_lim.
Qed.
Lemma H_lim S : 0 < S -> is_lim (fun t => pwq (bq2 t r b s) S BI) p_infty (pwq be S BI).
Proof. intro HS. pose proof H1. apply (lim_at (fun q => pwq q S BI)); [exact q_lim|]. unfold pwq, Rpower. auto_derive. lra. Qed.
Lemma ev (f : R -> R) (l : R) : is_lim f p_infty l -> forall eps, 0 < eps -> exists T, forall t, T < t -> Rabs (f t - l) < eps.
Proof. intros L eps He. apply is_lim_spec in L. destruct (L (mkposreal eps He)) as (T & HT). exists T. exact HT. Qed.

Lemma baw_perp S : 0 < S -> 0 <= b -> forall eps, 0 < eps -> exists T, 0 <= T /\ forall t fuel p, T < t -> baw_call fuel (mkAmer S K t r b (Some s)) = Ok p ->
  Rabs (p - perp S K r b s) < / 10 ^ 6 * BI + eps.
Proof.
  intros HS Hb0 eps He. set (d := eps / 4). assert (Hd : 0 < d) by (unfold d; lra).
  destruct (ev _ _ hi_lim d Hd) as (T1 & Q1). destruct (ev _ _ lo_lim d Hd) as (T2 & Q2). destruct (ev _ _ (er_lim S) d Hd) as (T3 & Q3). destruct (ev _ _ (H_lim S HS) d Hd) as (T4 & Q4).
  pose proof HB as HB'. pose proof ai as Hai. assert (Hd5 : 0 < d / BI) by (apply Rdiv_lt_0_compat; lra). destruct (ev _ _ a_lim (d / BI) Hd5) as (T5 & Q5). destruct (ev _ _ (den_lim (- 2)) (1 - / be) Hai) as (T6 & Q6).
  exists (Rmax 0 (Rmax (Rmax T1 T2) (Rmax (Rmax T3 T4) (Rmax T5 T6)))). split; [apply Rmax_l|]. intros t fuel p Ht E.
  assert (HT : 0 < t /\ T1 < t /\ T2 < t /\ T3 < t /\ T4 < t /\ T5 < t /\ T6 < t).
  { repeat (apply Rmax_Rlt in Ht; destruct Ht as (? & Ht)). repeat match goal with H : Rmax _ _ < _ |- _ => apply Rmax_Rlt in H; destruct H end. repeat split; assumption. }
  destruct HT as (Ht0 & G1 & G2 & G3 & G4 & G5 & G6). specialize (Q1 t G1). specialize (Q2 t G2). specialize (Q3 t G3). specialize (Q4 t G4). specialize (Q5 t G5). specialize (Q6 t G6).
  apply Rabs_lt_between in Q1. apply Rabs_lt_between in Q2. apply Rabs_lt_between in Q3. apply Rabs_lt_between in Q4. apply Rabs_lt_between in Q5. apply Rabs_lt_between in Q6.
  assert (Hr0 : r <> 0) by lra. destruct (baw_Kc fuel (mkAmer 1 K t r b (Some s)) s) as [x|er] eqn:EK; [|rewrite (call_err K t r b s fuel er HK Ht0 Hs Hr0 Hb EK S) in E; discriminate E].
  assert (Px : 0 < x). { assert (W : 0 <= b * t + 2 * s * sqrt t) by (pose proof (sqrt_pos t); assert (0 <= b * t) by (apply Rmult_le_pos; lra); assert (0 <= 2 * s * sqrt t) by (apply Rmult_le_pos; lra); lra).
    apply (Kc_pos K t r b s 1 HK Ht0 Hs Hr fuel); auto. generalize (seed_c_pos K t r b s 1 HK Hs Hr Hb W). lra. }
  assert (EX := Kc_exit K t r b s HK Ht0 Hs Hr0 1 fuel x EK Px). rewrite (call_value' K t r b s fuel x HK Ht0 Hs Hr0 Hb EK S HS) in E. injection E as E.
  destruct (bq_spec t r b s Ht0 Hs Hr0) as (_ & _ & _ & _ & Hq). specialize (Hq Hb). set (q := bq2 t r b s) in *.
  assert (He0 : 0 < e t) by apply exp_pos. assert (He'0 : 0 < e' t) by apply exp_pos.
  assert (CB : forall y, 0 < y -> Rabs (ccall K t r b s y) <= y * e t + K * e' t). { intros y Hy. apply bcall_abs; apply Rmult_le_pos; try lra; left; apply exp_pos. }
  set (n := cnd (bd1' K t b s x)). assert (Hn : 0 <= n <= 1) by (unfold n; pose proof (cnd_range (bd1' K t b s x)); lra).
  assert (EP : prem2 K t r b s x = x / q * (1 - e t * n)) by reflexivity. rewrite EP in EX, E.
  pose proof (exit_eq K q (e t) (e' t) x _ n HK Hq ltac:(lra) Px (CB x Px) Hn EX) as XA. fold (a t) in XA. change (1 - / q) with (a t) in XA. apply Rabs_le_between in XA.
  assert (Hden : 0 < a t - 2 * e t) by lra. assert (Xhi : x <= hi t) by (unfold hi; apply Rle_div_r; [exact Hden|nra]). assert (Xlo : lo t <= x) by (unfold lo; apply Rle_div_l; [lra|nra]).
  assert (DB : Rabs (x - BI) < / 10 ^ 6 * BI + d) by (apply Rabs_def1; lra). apply Rabs_lt_between in DB.
  assert (Ex : 0 < x * e t <= hi t * e t) by (split; [now apply Rmult_lt_0_compat|apply Rmult_le_compat_r; lra]).
  assert (Ba : BI * a t > K - d). { assert (W : BI * (a t - (1 - / be)) > BI * - (d / BI)) by (apply Rmult_gt_compat_l; lra). replace (BI * - (d / BI)) with (- d) in W by (field; lra). assert (BI * (1 - / be) = K) by (rewrite BI_eq; field; pose proof H1; split; lra). lra. }
  assert (PP : forall S', S' < x -> 0 < S' -> 0 <= Rpower (S' / x) q <= 1). { intros S' L1 L2. split; [left; apply exp_pos|]. pose proof (pw_le1 (S' / x) q Hq) as W. assert (V : 0 < S' / x <= 1) by (split; [apply Rdiv_lt_0_compat; lra|apply Rle_div_l; lra]). specialize (W V). lra. }
  assert (PV : S < x -> Rabs (p - pwq q S x) < d).
  { intro L. destruct (Rlt_dec S x) as [_|]; [|lra]. specialize (PP S L HS). pose proof (CB S HS) as CS. apply Rabs_le_between in CS.
    assert (iq : 0 < / q < 1) by (split; [apply Rinv_0_lt_compat; lra|rewrite <- Rinv_1; apply Rinv_lt_contravar; lra]).
    set (w := Rpower (S / x) q) in *. assert (M : 0 <= x * e t * (/ q * n * w) <= x * e t). { assert (0 <= / q * n <= 1) by nra. assert (0 <= / q * n * w <= 1) by nra. nra. }
    assert (Ep : p = ccall K t r b s S - x * e t * (/ q * n * w) + pwq q S x) by (rewrite <- E; unfold pwq; fold w; unfold Rdiv; ring). apply Rabs_def1; lra. }
  unfold perp. cbv zeta. fold BI. fold be. rewrite BI_be. change (BI / be * Rpower (S / BI) be) with (pwq be S BI).
  destruct (Rlt_dec S BI) as [SB|SB]; destruct (Rlt_dec S x) as [Sx|Sx].
  - specialize (PV Sx). apply Rabs_lt_between in PV. destruct (Rle_lt_dec x BI) as [C|C].
    + pose proof (pwq_lip q S x BI Hq HS ltac:(lra) C). unfold d in *. apply Rabs_def1; lra.
    + pose proof (pwq_lip q S BI x Hq HS ltac:(lra) ltac:(lra)). unfold d in *. apply Rabs_def1; lra.
  - assert (L1 : S - K <= pwq be S BI). { pose proof H1. pose proof (pw_payoff K r b s HK Hs Hb S HS) as W. unfold pw, call_put in W. fold BI be in W. rewrite BI_be in W. change (BI / be * Rpower (S / BI) be) with (pwq be S BI) in W. pose proof (Rmax_l (S - K) 0). lra. }
    assert (L2 : pwq be S BI <= BI - K). { rewrite BI_be. unfold pwq. pose proof H1 as B1. pose proof (pw_le1 (S / BI) be B1 ltac:(split; [apply Rdiv_lt_0_compat; lra|apply Rle_div_l; lra])). assert (S / BI <= 1) by (apply Rle_div_l; lra). assert (0 < BI / be) by (apply Rdiv_lt_0_compat; lra). nra. }
    unfold d in *. apply Rabs_def1; lra.
  - specialize (PV Sx). apply Rabs_lt_between in PV. pose proof (pwq_lip q S S x Hq HS ltac:(lra) ltac:(lra)) as (_ & W2). pose proof (pwq_lip q S S x Hq HS ltac:(lra) ltac:(lra)) as (W1 & _).
    assert (ES : pwq q S S = S - S * a t). { unfold pwq, a. fold q. unfold Rdiv at 2. rewrite Rinv_r by lra. unfold Rpower. rewrite ln_1, Rmult_0_r, exp_0. field. lra. }
    assert (Ea : 0 < a t) by lra. assert (SA : BI * a t <= S * a t) by (apply Rmult_le_compat_r; lra).
    assert (LB : S - x * a t <= pwq q S x). { unfold pwq. pose proof (bernoulli_hi (S / x) q ltac:(lra) ltac:(apply Rdiv_lt_0_compat; lra)) as W. apply (Rmult_le_compat_l (x / q)) in W; [|left; apply Rdiv_lt_0_compat; lra]. eapply Rle_trans; [|exact W]. right. unfold a. fold q. field. split; lra. }
    assert (KB : / 10 ^ 6 * K <= / 10 ^ 6 * BI) by (apply Rmult_le_compat_l; lra). unfold d in *. assert (0 < S * e t) by (now apply Rmult_lt_0_compat). apply Rabs_def1; lra.
  - rewrite <- E. rewrite Rminus_eq_0, Rabs_R0. assert (0 < / 10 ^ 6 * BI) by (apply Rmult_lt_0_compat; lra). lra.
Qed.
End Long.

(*@ C82_baw_long | Whenever the search of the code's Barone-Adesi-Whaley call (0 <= b < r) ends, its price and the American value agree for long maturities up to the tolerance of the search: for every eps their difference is at most 10^-6 B + eps from some maturity on, where B = beta/(beta-1) K is the perpetual exercise price. *)
Lemma c82_baw_long : forall S K r b s eps, 0 < S -> 0 < K -> 0 < s -> 0 <= b < r -> 0 < eps ->
  exists beta T, 1 < beta /\ 1 / 2 * s ^ 2 * beta * (beta - 1) + b * beta - r = 0 /\ 0 <= T /\
    forall t fuel x v, T < t -> baw_call fuel (mkAmer S K t r b (Some s)) = Ok x -> american_value (call_put true K) r b s t S v ->
      Rabs (x - v) < / 10 ^ 6 * (beta / (beta - 1) * K) + eps.
Proof.
  intros S K r b s eps HS HK Hs Hb He. destruct (beta_spec r b s Hs (proj2 Hb)) as (B1 & B2). destruct (perp_limit S K r b s HS HK Hs ltac:(lra) (proj2 Hb) (eps / 2) ltac:(lra)) as (T1 & HT1 & Q1). destruct (baw_perp K r b s HK Hs (proj2 Hb) ltac:(lra) S HS (proj1 Hb) (eps / 2) ltac:(lra)) as (T2 & HT2 & Q2).
  exists (beta r b s), (Rmax T1 T2). pose proof (Rmax_l T1 T2). pose proof (Rmax_r T1 T2). split; [exact B1|]. split; [exact B2|]. split; [lra|]. intros t fuel x v Ht E A. fold (BInf K r b s). pose proof (Q1 t v ltac:(lra) A) as D1. pose proof (Q2 t fuel x ltac:(lra) E) as D2.
  apply Rabs_lt_between in D1. apply Rabs_lt_between in D2. apply Rabs_def1; lra.
Qed.
