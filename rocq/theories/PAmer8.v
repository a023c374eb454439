(** Walks in two dimensions with small steps, uniformly in the number of steps, and the steps of the two-asset tree with early exercise. *)
From Coq Require Import Reals List Arith Lra Lia.
From Coquelicot Require Import Coquelicot.
From Verif Require Import Num Py SMonte PCnd PGauss SHeston PHeston PHeston2 PExpect PExpect2 PTrees3 PSpread3 PClt PClt2 PAmer1 PAmer2 PAmer3 PAmer4.
Import List ListNotations.
Open Scope R_scope.

Lemma lip2_Gs' c q h o B m : 0 <= c -> 0 <= q -> 0 <= o <= B -> lip2 c q h -> is_mean (fun z => exp (q * B * Rabs z)) m -> lip (c * m) q (fun u => Gs o (h u) 0).
Proof.
  intros Hc Hq Ho H Hm. destruct (mean_wt (q * o) ltac:(nra)) as (m' & Hm0 & Hm'). assert (L := lip2_Gs c q h o m' Hc Hq (proj1 Ho) H Hm'). refine (lip_weaken _ _ _ _ _ L).
  apply Rmult_le_compat_l; [exact Hc|]. refine (is_mean_le _ _ _ _ _ Hm' Hm). intro z. apply exp_le. pose proof (Rabs_pos z). apply Rmult_le_compat_r; [assumption|]. apply Rmult_le_compat_l; lra.
Qed.

Theorem clt2_gen q B0 : 0 <= q -> 0 <= B0 -> forall eps, 0 < eps -> exists d, 0 < d /\ forall n a, 0 <= a <= d -> INR n * a ^ 2 <= B0 ^ 2 -> forall c h, 0 <= c -> lip2 c q h ->
  Rabs (rw2 n a h 0 0 - Gs2 (sqrt (INR n * a ^ 2)) h) <= eps * c.
Proof.
  intros Hq HB eps He. destruct (mean_wt (q * B0) ltac:(nra)) as (m & Hm0 & Hm).
  set (X := exp (q ^ 2 * B0 ^ 2 / 2)). assert (HX : 0 < X) by apply exp_pos. set (D := 2 * X + m + 1). assert (HD : 0 < D) by (unfold D; lra).
  destruct (clt_gen q B0 Hq HB (eps / D)) as (d & Hd & HN); [now apply Rdiv_lt_0_compat|]. exists d. split; [exact Hd|]. intros n a Ha Hna c h Hc Hh. specialize (HN n a Ha Hna).
  set (o := sqrt (INR n * a ^ 2)) in *. assert (Ho : 0 <= o <= B0). { split; [apply sqrt_pos|]. unfold o. rewrite <- (sqrt_pow2 B0) by exact HB. now apply sqrt_le_1_alt. }
  assert (S1 : Rabs (rw n a (fun u => rw n a (h u) 0) 0 - rw n a (fun u => Gs o (h u) 0) 0) <= eps / D * c * (2 * X)).
  { replace (rw n a (fun u => rw n a (h u) 0) 0 - rw n a (fun u => Gs o (h u) 0) 0) with (1 * rw n a (fun u => rw n a (h u) 0) 0 + -1 * rw n a (fun u => Gs o (h u) 0) 0) by ring.
    rewrite <- rw_lin. eapply Rle_trans; [apply (rw_abs n a _ (fun u => eps / D * c * exp (q * Rabs u) + 0 * exp (q * Rabs u)))|].
    - intro u. assert (L := HN (c * exp (q * Rabs u)) (h u) ltac:(apply Rmult_le_pos; [exact Hc|apply Rlt_le, exp_pos]) (lip2_row _ _ _ u Hh)).
      replace (1 * rw n a (h u) 0 + -1 * Gs o (h u) 0) with (rw n a (h u) 0 - Gs o (h u) 0) by ring. lra.
    - rewrite rw_lin, Rmult_0_l, Rplus_0_r. apply Rmult_le_compat_l; [apply Rmult_le_pos; [apply Rlt_le, Rdiv_lt_0_compat; lra|exact Hc]|].
      eapply Rle_trans; [apply rw_weight; exact Hq|]. unfold vq. rewrite !Rmult_0_r, exp_0. pose proof (ch_pow_le' q a n B0 Hna) as L. fold X in L. lra. }
  assert (S2 := HN (c * m) _ ltac:(now apply Rmult_le_pos) (lip2_Gs' c q h o B0 m Hc Hq Ho Hh Hm)).
  assert (S3 : eps / D * c * (2 * X) + eps / D * (c * m) <= eps * c).
  { replace (eps / D * c * (2 * X) + eps / D * (c * m)) with (eps / D * (D - 1) * c) by (unfold D; ring). apply Rmult_le_compat_r; [exact Hc|]. apply Rle_trans with (eps / D * D); [|right; field; lra].
    apply Rmult_le_compat_l; [apply Rlt_le, Rdiv_lt_0_compat; lra|lra]. }
  unfold rw2, Gs2. apply Rabs_le_between in S1, S2. apply Rabs_le. split; lra.
Qed.

Lemma rw2_ext n a f g x y : (forall u v, f u v = g u v) -> rw2 n a f x y = rw2 n a g x y.
Proof. intro H. unfold rw2. apply rw_ext. intro u. apply rw_ext. intro v. apply H. Qed.
Lemma rw2_shift n a h v w x y : rw2 n a h (v + x) (w + y) = rw2 n a (fun p r => h (v + p) (w + r)) x y.
Proof. unfold rw2. rewrite rw_shift. apply rw_ext. intro u. now rewrite rw_shift. Qed.
Lemma exp_abs_split q x y : 0 <= q -> exp (q * Rabs (x + y)) <= exp (q * Rabs x) * exp (q * Rabs y).
Proof. intro Hq. rewrite <- exp_plus. apply exp_le. pose proof (Rabs_triang x y). nra. Qed.
Lemma exp_abs_scal q k x : exp (q * Rabs (k * x)) = exp (q * Rabs k * Rabs x).
Proof. rewrite Rabs_mult. f_equal. ring. Qed.
Lemma lip2_max c c' q f h : lip2 c q f -> lip2 c' q h -> lip2 (c + c') q (fun x y => Rmax (f x y) (h x y)).
Proof.
  intros (A & B & C) (A' & B' & C'). split; [|split].
  - intros x y. specialize (A x y). specialize (A' x y). assert (Rabs (Rmax (f x y) (h x y)) <= Rabs (f x y) + Rabs (h x y)); [|lra].
    unfold Rmax, Rabs. repeat match goal with |- context [Rle_dec ?a ?b] => destruct (Rle_dec a b) | |- context [Rcase_abs ?a] => destruct (Rcase_abs a) end; lra.
  - intros x x' y. specialize (B x x' y). specialize (B' x x' y). assert (Rabs (Rmax (f x y) (h x y) - Rmax (f x' y) (h x' y)) <= Rabs (f x y - f x' y) + Rabs (h x y - h x' y)); [|lra].
    unfold Rmax, Rabs. repeat match goal with |- context [Rle_dec ?a ?b] => destruct (Rle_dec a b) | |- context [Rcase_abs ?a] => destruct (Rcase_abs a) end; lra.
  - intros x y y'. specialize (C x y y'). specialize (C' x y y'). assert (Rabs (Rmax (f x y) (h x y) - Rmax (f x y') (h x y')) <= Rabs (f x y - f x y') + Rabs (h x y - h x y')); [|lra].
    unfold Rmax, Rabs. repeat match goal with |- context [Rle_dec ?a ?b] => destruct (Rle_dec a b) | |- context [Rcase_abs ?a] => destruct (Rcase_abs a) end; lra.
Qed.

Section Two.
Variables (q r t n1 n2 s1 al be : R).
Hypotheses (Hq : 0 <= q) (Ht : 0 < t).
Definition cls2 (c : R) (f : R * R -> R) : Prop := lip2 c q (fun x y => f (x, y)).
(** the logarithms of the prices after time [u] when the two drivers are at [p] and [v] *)
Definition Hs2 (f : R * R -> R) (w : R * R) (u p v : R) : R := f (fst w + n1 * u + s1 * p, snd w + n2 * u + al * p + be * v).
Definition T2 (n : nat) (f : R * R -> R) (w : R * R) : R :=
  let dt := t / INR n in let a := sqrt dt in
  exp (- r * dt) * ((Hs2 f w dt a a + Hs2 f w dt a (- a) + Hs2 f w dt (- a) a + Hs2 f w dt (- a) (- a)) / 4).
Definition G2 (u : R) (f : R * R -> R) (w : R * R) : R := exp (- r * u) * Gs2 (sqrt u) (Hs2 f w u).
Definition V2 (w : R * R) : R := vq q (fst w) * vq q (snd w).

Lemma T2_mono n : mono (T2 n).
Proof. intros f h H w. unfold T2, Hs2. apply Rmult_le_compat_l; [apply Rlt_le, exp_pos|]. repeat match goal with |- context [f ?x] => pose proof (H x); generalize dependent (f x); intros end. lra. Qed.
Lemma T2_lin n : linear (T2 n).
Proof. intros f h u v w. unfold T2, Hs2. field. Qed.

Lemma it_rw2 n k f : forall w, it k (T2 n) f w = exp (- r * (t / INR n)) ^ k * rw2 k (sqrt (t / INR n)) (Hs2 f w (INR k * (t / INR n))) 0 0.
Proof.
  set (dt := t / INR n). set (a := sqrt dt). induction k as [|k IH]; intro w.
  - cbn [it pow INR]. unfold rw2. cbn [rw]. unfold Hs2. rewrite !Rmult_0_l, !Rmult_0_r, !Rplus_0_r. destruct w. cbn. ring.
  - cbn [it]. unfold T2 at 1. fold dt a. unfold Hs2 at 1 2 3 4. rewrite !IH. rewrite rw2_S.
    assert (E : forall p v, rw2 k a (Hs2 f (fst w + n1 * dt + s1 * p, snd w + n2 * dt + al * p + be * v) (INR k * dt)) 0 0 = rw2 k a (Hs2 f w (INR (S k) * dt)) (p + 0) (v + 0)).
    { intros p v. rewrite rw2_shift. apply rw2_ext. intros x y. unfold Hs2. cbn [fst snd]. rewrite S_INR. f_equal. f_equal; ring. }
    rewrite !E. rewrite !Rplus_0_r. unfold Rminus. rewrite !Rplus_0_l. cbn [pow]. field.
Qed.

(** ** weights *)
Let L := (Rabs n1 + Rabs n2) * t.
Let EL := exp (q * L).
Let sg := Rabs s1 + Rabs al + Rabs be.
Lemma EL_1 : 1 <= EL.
Proof. unfold EL. rewrite <- exp_0. apply exp_le. unfold L. pose proof (Rabs_pos n1). pose proof (Rabs_pos n2). apply Rmult_le_pos; [exact Hq|]. apply Rmult_le_pos; lra. Qed.
Lemma sg_0 : 0 <= sg.
Proof. unfold sg. pose proof (Rabs_pos s1). pose proof (Rabs_pos al). pose proof (Rabs_pos be). lra. Qed.
Lemma drift_le nu u : Rabs nu <= Rabs n1 + Rabs n2 -> 0 <= u <= t -> exp (q * Rabs (nu * u)) <= EL.
Proof. intros H Hu. apply exp_le. apply Rmult_le_compat_l; [exact Hq|]. rewrite Rabs_mult, (Rabs_pos_eq u) by lra. unfold L. pose proof (Rabs_pos nu). apply Rmult_le_compat; lra. Qed.
Lemma W1 x u p : 0 <= u <= t -> exp (q * Rabs (x + n1 * u + s1 * p)) <= exp (q * Rabs x) * EL * exp (q * Rabs s1 * Rabs p).
Proof.
  intro Hu. eapply Rle_trans; [apply exp_abs_split; exact Hq|]. rewrite exp_abs_scal. apply Rmult_le_compat_r; [apply Rlt_le, exp_pos|].
  eapply Rle_trans; [apply exp_abs_split; exact Hq|]. apply Rmult_le_compat_l; [apply Rlt_le, exp_pos|]. apply drift_le; [pose proof (Rabs_pos n2); lra|exact Hu].
Qed.
Lemma W2 y u p v : 0 <= u <= t -> exp (q * Rabs (y + n2 * u + al * p + be * v)) <= exp (q * Rabs y) * EL * (exp (q * Rabs al * Rabs p) * exp (q * Rabs be * Rabs v)).
Proof.
  intro Hu. eapply Rle_trans; [apply exp_abs_split; exact Hq|]. rewrite exp_abs_scal, <- Rmult_assoc. apply Rmult_le_compat_r; [apply Rlt_le, exp_pos|].
  eapply Rle_trans; [apply exp_abs_split; exact Hq|]. rewrite exp_abs_scal. apply Rmult_le_compat_r; [apply Rlt_le, exp_pos|].
  eapply Rle_trans; [apply exp_abs_split; exact Hq|]. apply Rmult_le_compat_l; [apply Rlt_le, exp_pos|]. apply drift_le; [pose proof (Rabs_pos n1); lra|exact Hu].
Qed.

Definition E2 (w : R * R) : R := exp (q * Rabs (fst w)) * exp (q * Rabs (snd w)).
Lemma E2_pos w : 0 < E2 w. Proof. apply Rmult_lt_0_compat; apply exp_pos. Qed.
Lemma E2_V2 w : E2 w <= V2 w.
Proof. unfold E2, V2. apply Rmult_le_compat; try (apply Rlt_le, exp_pos); apply exp_abs_le; exact Hq. Qed.
Let q' := q * sg.
Lemma q'_0 : 0 <= q'. Proof. unfold q'. pose proof sg_0. nra. Qed.
(** weights of the two coordinates with the first driver at [p] and [p'] *)
Lemma WW w u p p' v : 0 <= u <= t ->
  exp (q * Rabs (fst w + n1 * u + s1 * p)) * exp (q * Rabs (snd w + n2 * u + al * p' + be * v)) <= E2 w * EL ^ 2 * ((exp (q * Rabs s1 * Rabs p) * exp (q * Rabs al * Rabs p')) * exp (q' * Rabs v)).
Proof.
  intro Hu. pose proof (W1 (fst w) u p Hu) as A. pose proof (W2 (snd w) u p' v Hu) as B. eapply Rle_trans; [apply Rmult_le_compat; [apply Rlt_le, exp_pos|apply Rlt_le, exp_pos|exact A|exact B]|].
  unfold E2. set (x := exp (q * Rabs (fst w))). set (y := exp (q * Rabs (snd w))). set (a := exp (q * Rabs s1 * Rabs p)). set (b := exp (q * Rabs al * Rabs p')).
  replace (x * EL * a * (y * EL * (b * exp (q * Rabs be * Rabs v)))) with (x * y * EL ^ 2 * (a * b) * exp (q * Rabs be * Rabs v)) by ring. replace (x * y * EL ^ 2 * (a * b * exp (q' * Rabs v))) with (x * y * EL ^ 2 * (a * b) * exp (q' * Rabs v)) by ring.
  apply Rmult_le_compat_l.
  - assert (0 < x) by apply exp_pos. assert (0 < y) by apply exp_pos. assert (0 < a) by apply exp_pos. assert (0 < b) by apply exp_pos. pose proof EL_1. apply Rmult_le_pos; [|nra]. apply Rmult_le_pos; nra.
  - apply exp_le. pose proof (Rabs_pos v). apply Rmult_le_compat_r; [assumption|]. unfold q', sg. pose proof (Rabs_pos s1). pose proof (Rabs_pos al). nra.
Qed.
Lemma mix p p' : exp (q * Rabs s1 * Rabs p) * exp (q * Rabs al * Rabs p') <= exp (q' * Rabs p) + exp (q' * Rabs p').
Proof.
  pose proof (Rabs_pos s1). pose proof (Rabs_pos al). pose proof (Rabs_pos be). eapply Rle_trans; [apply exp_mix; nra|].
  apply Rplus_le_compat; apply exp_le; (apply Rmult_le_compat_r; [apply Rabs_pos|]); unfold q', sg; nra.
Qed.
Lemma mix1 p : exp (q * Rabs s1 * Rabs p) * exp (q * Rabs al * Rabs p) <= exp (q' * Rabs p).
Proof. rewrite <- exp_plus. apply exp_le. pose proof (Rabs_pos s1). pose proof (Rabs_pos al). pose proof (Rabs_pos be). pose proof (Rabs_pos p). rewrite <- Rmult_plus_distr_r. apply Rmult_le_compat_r; [assumption|]. unfold q', sg. nra. Qed.

Let KH := EL ^ 2 * (1 + 4 * sg).
Lemma KH_pos : 0 < KH.
Proof. unfold KH. pose proof EL_1. pose proof sg_0. apply Rmult_lt_0_compat; [apply pow_lt; lra|lra]. Qed.
Lemma Hs2_lip c f w u : 0 <= c -> 0 <= u <= t -> cls2 c f -> lip2 (c * KH * E2 w) q' (Hs2 f w u).
Proof.
  intros Hc Hu (A & B & C). pose proof EL_1 as HE. pose proof sg_0 as Hsg. pose proof (E2_pos w) as Hw. set (Z := E2 w * EL ^ 2). assert (HZ : 0 < Z) by (unfold Z; apply Rmult_lt_0_compat; [exact Hw|apply pow_lt; lra]).
  assert (HZK : forall x, c * KH * E2 w * x = c * (1 + 4 * sg) * (Z * x)) by (intro; unfold Z, KH; ring). cbv beta in A, B, C.
  assert (P : forall p, 0 < exp (q' * Rabs p)) by (intro; apply exp_pos).
  split; [|split].
  - intros p v. unfold Hs2. eapply Rle_trans; [apply A|]. rewrite HZK. pose proof (WW w u p p v Hu) as X. fold Z in X. pose proof (mix1 p) as M. pose proof (P p). pose proof (P v).
    assert (Y : exp (q * Rabs (fst w + n1 * u + s1 * p)) * exp (q * Rabs (snd w + n2 * u + al * p + be * v)) <= Z * (exp (q' * Rabs p) * exp (q' * Rabs v))).
    { eapply Rle_trans; [exact X|]. apply Rmult_le_compat_l; [lra|]. apply Rmult_le_compat_r; lra. }
    apply Rle_trans with (c * (Z * (exp (q' * Rabs p) * exp (q' * Rabs v)))); [apply Rmult_le_compat_l; assumption|]. assert (0 <= c * (Z * (exp (q' * Rabs p) * exp (q' * Rabs v)))) by (apply Rmult_le_pos; [lra|]; apply Rmult_le_pos; nra). nra.
  - intros p p' v. unfold Hs2. set (X := fst w + n1 * u + s1 * p). set (X' := fst w + n1 * u + s1 * p'). set (Y := snd w + n2 * u + al * p + be * v). set (Y' := snd w + n2 * u + al * p' + be * v).
    replace (f (X, Y) - f (X', Y')) with ((f (X, Y) - f (X', Y)) + (f (X', Y) - f (X', Y'))) by ring. eapply Rle_trans; [apply Rabs_triang|].
    eapply Rle_trans; [apply Rplus_le_compat; [apply B|apply C]|]. set (d := Rabs (p - p')). assert (Hd : 0 <= d) by apply Rabs_pos.
    replace (Rabs (X - X')) with (Rabs s1 * d) by (unfold X, X', d; rewrite <- Rabs_mult; f_equal; ring). replace (Rabs (Y - Y')) with (Rabs al * d) by (unfold Y, Y', d; rewrite <- Rabs_mult; f_equal; ring).
    set (a := exp (q' * Rabs p)). set (a' := exp (q' * Rabs p')). set (b := exp (q' * Rabs v)). assert (Ha : 0 < a) by apply exp_pos. assert (Ha' : 0 < a') by apply exp_pos. assert (Hb : 0 < b) by apply exp_pos.
    assert (X1 : exp (q * Rabs X) * exp (q * Rabs Y) <= Z * ((a + a') * b)).
    { eapply Rle_trans; [apply (WW w u p p v Hu)|]. fold Z b. apply Rmult_le_compat_l; [lra|]. apply Rmult_le_compat_r; [lra|]. pose proof (mix1 p). unfold a, a' in *. lra. }
    assert (X2 : exp (q * Rabs X') * exp (q * Rabs Y) <= Z * ((a + a') * b)).
    { eapply Rle_trans; [apply (WW w u p' p v Hu)|]. fold Z b. apply Rmult_le_compat_l; [lra|]. apply Rmult_le_compat_r; [lra|]. pose proof (mix p' p). unfold a, a' in *. lra. }
    assert (X3 : exp (q * Rabs X') * exp (q * Rabs Y') <= Z * ((a + a') * b)).
    { eapply Rle_trans; [apply (WW w u p' p' v Hu)|]. fold Z b. apply Rmult_le_compat_l; [lra|]. apply Rmult_le_compat_r; [lra|]. pose proof (mix1 p'). unfold a, a' in *. lra. }
    set (M := Z * ((a + a') * b)) in *. assert (HM : 0 < M) by (unfold M; apply Rmult_lt_0_compat; [exact HZ|nra]).
    replace (c * KH * E2 w * d * ((a + a') * b)) with (c * d * ((1 + 4 * sg) * M)) by (unfold M, Z, KH; ring).
    pose proof (Rabs_pos s1). pose proof (Rabs_pos al). pose proof (Rabs_pos be).
    apply Rle_trans with (c * (Rabs s1 * d) * (M + M) + c * (Rabs al * d) * (M + M)).
    + apply Rplus_le_compat; (apply Rmult_le_compat_l; [apply Rmult_le_pos; [exact Hc|nra]|lra]).
    + replace (c * (Rabs s1 * d) * (M + M) + c * (Rabs al * d) * (M + M)) with (c * d * (2 * (Rabs s1 + Rabs al) * M)) by ring. apply Rmult_le_compat_l; [nra|]. apply Rmult_le_compat_r; [lra|]. unfold sg. lra.
  - intros p v v'. unfold Hs2. set (X := fst w + n1 * u + s1 * p). set (Y := snd w + n2 * u + al * p + be * v). set (Y' := snd w + n2 * u + al * p + be * v').
    eapply Rle_trans; [apply C|]. set (d := Rabs (v - v')). assert (Hd : 0 <= d) by apply Rabs_pos. replace (Rabs (Y - Y')) with (Rabs be * d) by (unfold Y, Y', d; rewrite <- Rabs_mult; f_equal; ring).
    set (a := exp (q' * Rabs p)). set (b := exp (q' * Rabs v)). set (b' := exp (q' * Rabs v')). assert (Ha : 0 < a) by apply exp_pos. assert (Hb : 0 < b) by apply exp_pos. assert (Hb' : 0 < b') by apply exp_pos.
    assert (X1 : exp (q * Rabs X) * exp (q * Rabs Y) <= Z * (a * b)).
    { eapply Rle_trans; [apply (WW w u p p v Hu)|]. fold Z b. apply Rmult_le_compat_l; [lra|]. apply Rmult_le_compat_r; [lra|]. apply mix1. }
    assert (X2 : exp (q * Rabs X) * exp (q * Rabs Y') <= Z * (a * b')).
    { eapply Rle_trans; [apply (WW w u p p v' Hu)|]. fold Z b'. apply Rmult_le_compat_l; [lra|]. apply Rmult_le_compat_r; [lra|]. apply mix1. }
    set (M := Z * (a * b)) in *. set (M' := Z * (a * b')) in *. assert (HM : 0 < M) by (unfold M; apply Rmult_lt_0_compat; [exact HZ|nra]). assert (HM' : 0 < M') by (unfold M'; apply Rmult_lt_0_compat; [exact HZ|nra]).
    replace (c * KH * E2 w * d * (a * (b + b'))) with (c * d * ((1 + 4 * sg) * (M + M'))) by (unfold M, M', Z, KH; ring).
    pose proof (Rabs_pos s1). pose proof (Rabs_pos al). pose proof (Rabs_pos be).
    apply Rle_trans with (c * (Rabs be * d) * (M + M')).
    + apply Rmult_le_compat_l; [apply Rmult_le_pos; [exact Hc|nra]|lra].
    + replace (c * (Rabs be * d) * (M + M')) with (c * d * (Rabs be * (M + M'))) by ring. apply Rmult_le_compat_l; [nra|]. apply Rmult_le_compat_r; [lra|]. unfold sg. lra.
Qed.

(** ** blocks of steps *)
Lemma disc_bound u : 0 <= u <= t -> 0 < exp (- r * u) <= exp (Rabs r * t).
Proof. intro Hu. split; [apply exp_pos|]. apply exp_le. pose proof (Rle_abs (- r)). rewrite Rabs_Ropp in H. pose proof (Rabs_pos r). nra. Qed.
Lemma walk_clt2 eps : 0 < eps -> exists N, forall n, (N <= n)%nat -> forall k, (k <= n)%nat -> forall c f, 0 <= c -> cls2 c f -> forall w,
  Rabs (it k (T2 n) f w - G2 (INR k * (t / INR n)) f w) <= eps * c * V2 w.
Proof.
  intro He. pose proof KH_pos as HK. set (DD := exp (Rabs r * t)). assert (HD : 0 < DD) by apply exp_pos. pose proof (sqrt_pos t) as Hst.
  destruct (clt2_gen q' (sqrt t) q'_0 Hst (eps / (DD * KH))) as (d & Hd & Cl); [apply Rdiv_lt_0_compat; nra|].
  destruct (small_step t Ht (d ^ 2)) as (N & HN); [nra|]. exists (S N). intros n Hn k Hk c f Hc Hf w. destruct (HN n ltac:(lia)) as [Hn0 Hnd]. assert (HI : 0 < INR n) by now apply lt_0_INR.
  assert (Hdt : 0 < t / INR n) by now apply Rdiv_lt_0_compat. set (dt := t / INR n) in *. set (a := sqrt dt). assert (Ha : 0 <= a <= d).
  { split; [apply sqrt_pos|]. unfold a. rewrite <- (sqrt_pow2 d) by lra. now apply sqrt_le_1_alt. }
  assert (Ha2 : a ^ 2 = dt) by (apply pow2_sqrt; lra). pose proof (kt t Ht n k Hk Hn0) as Hu. fold dt in Hu. set (u := INR k * dt) in *.
  assert (Hka : INR k * a ^ 2 = u) by (rewrite Ha2; reflexivity).
  assert (X := Cl k a Ha ltac:(rewrite Hka, pow2_sqrt; lra) _ _ ltac:(apply Rmult_le_pos; [apply Rmult_le_pos; [exact Hc|apply Rlt_le, KH_pos]|apply Rlt_le, E2_pos]) (Hs2_lip c f w u Hc Hu Hf)). rewrite Hka in X.
  rewrite it_rw2. fold dt a u. unfold G2. rewrite exp_pow. replace (INR k * (- r * dt)) with (- r * u) by (unfold u; ring). rewrite <- Rmult_minus_distr_l, Rabs_mult. destruct (disc_bound u Hu) as [D0 D1]. rewrite (Rabs_pos_eq (exp (- r * u))) by lra. fold DD in D1.
  pose proof (E2_V2 w) as HV. pose proof (E2_pos w) as HE. apply Rle_trans with (DD * (eps / (DD * KH) * (c * KH * E2 w))); [apply Rmult_le_compat; [lra|apply Rabs_pos|exact D1|exact X]|].
  replace (DD * (eps / (DD * KH) * (c * KH * E2 w))) with (eps * c * E2 w) by (field; lra). apply Rmult_le_compat_l; [nra|exact HV].
Qed.

Lemma Gs2_0 h : Gs2 0 h = h 0 0.
Proof. unfold Gs2. rewrite Gs_0. apply Gs_0. Qed.
Lemma G2_0 f w : G2 0 f w = f w.
Proof. unfold G2, Hs2. rewrite sqrt_0, Gs2_0, !Rmult_0_r, exp_0, !Rplus_0_r. destruct w. cbn. ring. Qed.

(** ** the limit operator *)
Definition at2 (w : R * R) (u : R) (zs : list R) : R * R :=
  (fst w + n1 * u + s1 * (sqrt u * nth 0 zs 0), snd w + n2 * u + al * (sqrt u * nth 0 zs 0) + be * (sqrt u * nth 1 zs 0)).
Lemma G2_expect c f w u : 0 <= c -> 0 <= u <= t -> cls2 c f -> is_expect 2 (fun zs => f (at2 w u zs)) (Gs2 (sqrt u) (Hs2 f w u)).
Proof.
  intros Hc Hu Hf. eapply is_expect_ext; [|apply (Gs2_expect (c * KH * E2 w) q' (Hs2 f w u) (sqrt u))].
  - intros zs _. cbv beta. reflexivity.
  - apply Rmult_le_pos; [apply Rmult_le_pos; [exact Hc|apply Rlt_le, KH_pos]|apply Rlt_le, E2_pos].
  - apply q'_0.
  - apply sqrt_pos.
  - now apply Hs2_lip.
Qed.
Let Q := 2 * q' * sqrt t + 1.
Lemma Q_pos : 0 < Q. Proof. unfold Q. pose proof q'_0. pose proof (sqrt_pos t). nra. Qed.
(** weights at the random point *)
Lemma A1 x y u zs : 0 <= u <= t -> List.length zs = 2%nat -> exp (q * Rabs (fst (at2 (x, y) u zs))) <= exp (q * Rabs x) * EL * exp (q' * sqrt t * Rabs (nth 0 zs 0)).
Proof.
  intros Hu _. unfold at2. cbn [fst]. eapply Rle_trans; [apply W1; exact Hu|]. apply Rmult_le_compat_l; [apply Rmult_le_pos; [apply Rlt_le, exp_pos|pose proof EL_1; lra]|]. apply exp_le.
  rewrite Rabs_mult, (Rabs_pos_eq (sqrt u)) by apply sqrt_pos. rewrite <- Rmult_assoc. apply Rmult_le_compat_r; [apply Rabs_pos|]. pose proof (sqrt_pos u). pose proof (Rabs_pos s1). assert (sqrt u <= sqrt t) by (apply sqrt_le_1_alt; lra).
  apply Rmult_le_compat; [nra|lra| |assumption]. unfold q', sg. pose proof (Rabs_pos al). pose proof (Rabs_pos be). nra.
Qed.
Lemma A2 x y u zs : 0 <= u <= t -> List.length zs = 2%nat -> exp (q * Rabs (snd (at2 (x, y) u zs))) <= exp (q * Rabs y) * EL * (exp (q' * sqrt t * Rabs (nth 0 zs 0)) * exp (q' * sqrt t * Rabs (nth 1 zs 0))).
Proof.
  intros Hu _. unfold at2. cbn [snd]. eapply Rle_trans; [apply W2; exact Hu|]. apply Rmult_le_compat_l; [apply Rmult_le_pos; [apply Rlt_le, exp_pos|pose proof EL_1; lra]|].
  pose proof (sqrt_pos u). pose proof (Rabs_pos s1). pose proof (Rabs_pos al). pose proof (Rabs_pos be). assert (sqrt u <= sqrt t) by (apply sqrt_le_1_alt; lra).
  apply Rmult_le_compat; try (apply Rlt_le, exp_pos); apply exp_le; rewrite Rabs_mult, (Rabs_pos_eq (sqrt u)) by apply sqrt_pos; rewrite <- Rmult_assoc; (apply Rmult_le_compat_r; [apply Rabs_pos|]); (apply Rmult_le_compat; [nra|lra| |assumption]); unfold q', sg; nra.
Qed.
Lemma wt2 g zs : List.length zs = 2%nat -> wt g zs = exp (g * Rabs (nth 0 zs 0)) * exp (g * Rabs (nth 1 zs 0)).
Proof. destruct zs as [|z1 [|z2 [|]]]; try discriminate. intros _. rewrite !wt_cons. unfold wt. cbn. rewrite Rmult_0_r, exp_0. ring. Qed.
(** product of weights, the coordinates possibly at different times and starting points *)
Lemma A12 x y x' y' u u' zs : 0 <= u <= t -> 0 <= u' <= t -> List.length zs = 2%nat ->
  exp (q * Rabs (fst (at2 (x, y') u zs))) * exp (q * Rabs (snd (at2 (x', y) u' zs))) * (exp (Rabs (nth 0 zs 0)) * exp (Rabs (nth 1 zs 0))) <= exp (q * Rabs x) * exp (q * Rabs y) * EL ^ 2 * wt Q zs.
Proof.
  intros Hu Hu' Hz. pose proof (A1 x y' u zs Hu Hz) as X1. pose proof (A2 x' y u' zs Hu' Hz) as X2. rewrite (wt2 Q zs Hz). set (z1 := Rabs (nth 0 zs 0)) in *. set (z2 := Rabs (nth 1 zs 0)) in *.
  assert (0 <= z1) by apply Rabs_pos. assert (0 <= z2) by apply Rabs_pos. set (k := q' * sqrt t) in *. assert (Hk : 0 <= k) by (unfold k; pose proof q'_0; pose proof (sqrt_pos t); nra).
  assert (E1 : exp (k * z1) * exp (k * z1) * exp z1 = exp (Q * z1)) by (rewrite <- !exp_plus; f_equal; unfold Q; fold k; replace (2 * q' * sqrt t) with (2 * k) by (unfold k; ring); ring).
  assert (E3 : exp (k * z2) * exp z2 <= exp (Q * z2)) by (rewrite <- exp_plus; apply exp_le; unfold Q; replace (2 * q' * sqrt t) with (2 * k) by (unfold k; ring); nra).
  pose proof (exp_pos (q * Rabs x)). pose proof (exp_pos (q * Rabs y)). pose proof EL_1. pose proof (exp_pos (k * z1)). pose proof (exp_pos (k * z2)). pose proof (exp_pos z1). pose proof (exp_pos z2).
  eapply Rle_trans; [apply Rmult_le_compat_r; [nra|apply Rmult_le_compat; [apply Rlt_le, exp_pos|apply Rlt_le, exp_pos|exact X1|exact X2]]|].
  replace (exp (q * Rabs x) * EL * exp (k * z1) * (exp (q * Rabs y) * EL * (exp (k * z1) * exp (k * z2))) * (exp z1 * exp z2)) with (exp (q * Rabs x) * exp (q * Rabs y) * EL ^ 2 * ((exp (k * z1) * exp (k * z1) * exp z1) * (exp (k * z2) * exp z2))) by ring.
  rewrite E1. apply Rmult_le_compat_l; [apply Rmult_le_pos; nra|]. apply Rmult_le_compat_l; [apply Rlt_le, exp_pos|exact E3].
Qed.
Lemma one_le z : 1 <= exp (Rabs z). Proof. rewrite <- exp_0. apply exp_le, Rabs_pos. Qed.
Lemma A12' x y x' y' u u' zs : 0 <= u <= t -> 0 <= u' <= t -> List.length zs = 2%nat ->
  exp (q * Rabs (fst (at2 (x, y') u zs))) * exp (q * Rabs (snd (at2 (x', y) u' zs))) <= exp (q * Rabs x) * exp (q * Rabs y) * EL ^ 2 * wt Q zs.
Proof.
  intros Hu Hu' Hz. eapply Rle_trans; [|apply (A12 x y x' y' u u' zs Hu Hu' Hz)]. pose proof (one_le (nth 0 zs 0)). pose proof (one_le (nth 1 zs 0)).
  set (A := exp (q * Rabs (fst (at2 (x, y') u zs))) * exp (q * Rabs (snd (at2 (x', y) u' zs)))). assert (0 < A) by (apply Rmult_lt_0_compat; apply exp_pos). assert (1 <= exp (Rabs (nth 0 zs 0)) * exp (Rabs (nth 1 zs 0))) by nra. nra.
Qed.

Lemma expect_scal n f v a : is_expect n f v -> is_expect n (fun zs => a * f zs) (a * v).
Proof. intro H. assert (X := is_expect_lin _ _ _ _ _ a 0 H H). replace (a * v) with (a * v + 0 * v) by ring. eapply is_expect_ext; [|exact X]. intros zs _. cbv beta. ring. Qed.
Lemma expect_diff n f g v w : is_expect n f v -> is_expect n g w -> is_expect n (fun zs => f zs - g zs) (v - w).
Proof. intros H H'. assert (X := is_expect_lin _ _ _ _ _ 1 (-1) H H'). replace (v - w) with (1 * v + -1 * w) by ring. eapply is_expect_ext; [|exact X]. intros zs _. cbv beta. ring. Qed.

Lemma G2_cls : exists CG, 0 <= CG /\ forall u, 0 <= u <= t -> forall c f, 0 <= c -> cls2 c f -> cls2 (CG * c) (G2 u f).
Proof.
  destruct (mean_wt Q (Rlt_le _ _ Q_pos)) as (m & Hm0 & Hm). assert (HW := expect_wt Q m 2 Hm). set (DD := exp (Rabs r * t)). assert (HDD : 0 < DD) by apply exp_pos. pose proof EL_1 as HE.
  assert (Hm2 : 0 <= m ^ 2) by now apply pow_le. exists (DD * (EL ^ 2 * m ^ 2)). split; [apply Rmult_le_pos; [lra|apply Rmult_le_pos; nra]|]. intros u Hu c f Hc Hf. destruct (disc_bound u Hu) as [D0 D1]. fold DD in D1.
  assert (GE := fun w => G2_expect c f w u Hc Hu Hf). destruct Hf as (A & B & C). cbv beta in A, B, C.
  assert (Disc : forall X Y, Rabs X <= Y -> Rabs (exp (- r * u) * X) <= DD * Y).
  { intros X Y H. rewrite Rabs_mult, (Rabs_pos_eq (exp (- r * u))) by lra. apply Rmult_le_compat; [lra|apply Rabs_pos|exact D1|exact H]. }
  split; [|split].
  - intros x y. unfold G2. replace (DD * (EL ^ 2 * m ^ 2) * c * (exp (q * Rabs x) * exp (q * Rabs y))) with (DD * (c * (exp (q * Rabs x) * exp (q * Rabs y) * EL ^ 2) * m ^ 2)) by ring. apply Disc.
    refine (expect_abs 2 _ _ _ _ _ (GE (x, y)) (expect_scal _ _ _ _ HW)). intros zs Hz. cbv beta. rewrite (surjective_pairing (at2 (x, y) u zs)). eapply Rle_trans; [apply A|]. rewrite Rmult_assoc. apply Rmult_le_compat_l; [exact Hc|]. now apply A12'.
  - intros x x' y. unfold G2. rewrite <- Rmult_minus_distr_l. set (d := Rabs (x - x')). assert (0 <= d) by apply Rabs_pos.
    replace (DD * (EL ^ 2 * m ^ 2) * c * d * ((exp (q * Rabs x) + exp (q * Rabs x')) * exp (q * Rabs y))) with (DD * (c * d * ((exp (q * Rabs x) + exp (q * Rabs x')) * exp (q * Rabs y) * EL ^ 2) * m ^ 2)) by ring. apply Disc.
    refine (expect_abs 2 _ _ _ _ _ (expect_diff _ _ _ _ _ (GE (x, y)) (GE (x', y))) (expect_scal _ _ _ _ HW)). intros zs Hz. cbv beta. rewrite (surjective_pairing (at2 (x, y) u zs)), (surjective_pairing (at2 (x', y) u zs)).
    replace (snd (at2 (x', y) u zs)) with (snd (at2 (x, y) u zs)) by reflexivity. eapply Rle_trans; [apply B|]. replace (Rabs (fst (at2 (x, y) u zs) - fst (at2 (x', y) u zs))) with d by (unfold d, at2; cbn [fst]; f_equal; ring).
    rewrite Rmult_assoc. rewrite (Rmult_assoc (c * d)). rewrite Rmult_assoc. apply Rmult_le_compat_l; [exact Hc|]. apply Rmult_le_compat_l; [assumption|].
    pose proof (A12' x y x y u u zs Hu Hu Hz). pose proof (A12' x' y x y u u zs Hu Hu Hz). lra.
  - intros x y y'. unfold G2. rewrite <- Rmult_minus_distr_l. set (d := Rabs (y - y')). assert (0 <= d) by apply Rabs_pos.
    replace (DD * (EL ^ 2 * m ^ 2) * c * d * (exp (q * Rabs x) * (exp (q * Rabs y) + exp (q * Rabs y')))) with (DD * (c * d * (exp (q * Rabs x) * (exp (q * Rabs y) + exp (q * Rabs y')) * EL ^ 2) * m ^ 2)) by ring. apply Disc.
    refine (expect_abs 2 _ _ _ _ _ (expect_diff _ _ _ _ _ (GE (x, y)) (GE (x, y'))) (expect_scal _ _ _ _ HW)). intros zs Hz. cbv beta. rewrite (surjective_pairing (at2 (x, y) u zs)), (surjective_pairing (at2 (x, y') u zs)).
    replace (fst (at2 (x, y') u zs)) with (fst (at2 (x, y) u zs)) by reflexivity. eapply Rle_trans; [apply C|]. replace (Rabs (snd (at2 (x, y) u zs) - snd (at2 (x, y') u zs))) with d by (unfold d, at2; cbn [snd]; f_equal; ring).
    rewrite Rmult_assoc. rewrite (Rmult_assoc (c * d)). rewrite Rmult_assoc. apply Rmult_le_compat_l; [exact Hc|]. apply Rmult_le_compat_l; [assumption|].
    pose proof (A12' x y x y u u zs Hu Hu Hz). pose proof (A12' x y' x y u u zs Hu Hu Hz). lra.
Qed.

Lemma G2_mod eps : 0 < eps -> exists d, 0 < d /\ forall u u', 0 <= u <= t -> 0 <= u' <= t -> Rabs (u - u') <= d -> forall c f, 0 <= c -> cls2 c f -> forall w,
  Rabs (G2 u f w - G2 u' f w) <= eps * c * V2 w.
Proof.
  intro He. destruct (mean_wt Q (Rlt_le _ _ Q_pos)) as (m & Hm0 & Hm). assert (HW := expect_wt Q m 2 Hm). assert (Hm2 : 0 <= m ^ 2) by now apply pow_le.
  set (DD := exp (Rabs r * t)). assert (HDD : 0 < DD) by apply exp_pos. pose proof EL_1 as HE. assert (HE2 : 0 < EL ^ 2) by (apply pow_lt; lra). pose proof sg_0 as Hsg. pose proof (Rabs_pos r) as Hr0. pose proof (Rabs_pos n1) as Hn1. pose proof (Rabs_pos n2) as Hn2. pose proof (Rabs_pos s1) as Hs1. pose proof (Rabs_pos al) as Hal. pose proof (Rabs_pos be) as Hbe.
  set (C0 := Rabs n1 + Rabs n2 + sg). assert (HC0 : 0 <= C0) by (unfold C0; lra).
  set (K := DD * EL ^ 2 * m ^ 2 * (2 * Rabs r + 4 * C0) + 1). assert (HK : 0 < K). { unfold K. assert (0 <= DD * EL ^ 2 * m ^ 2) by (apply Rmult_le_pos; [nra|exact Hm2]). assert (0 <= DD * EL ^ 2 * m ^ 2 * (2 * Rabs r + 4 * C0)) by (apply Rmult_le_pos; lra). lra. }
  set (e := Rmin 1 (eps / K)). assert (He1 : 0 < e) by (apply Rmin_glb_lt; [lra|now apply Rdiv_lt_0_compat]). assert (HeK : e * K <= eps). { apply Rle_trans with (eps / K * K); [apply Rmult_le_compat_r; [lra|apply Rmin_r]|right; field; lra]. } assert (He2 : e <= 1) by apply Rmin_l.
  exists (e ^ 2). split; [nra|]. intros u u' Hu Hu' Huu c f Hc Hf w. assert (Huu1 : Rabs (u - u') <= e) by nra. pose proof (sqrt_diff' u u' _ (proj1 Hu) (proj1 Hu') Huu) as Hsq. rewrite sqrt_pow2 in Hsq by lra.
  destruct (disc_bound u Hu) as [D0 D1]. destruct (disc_bound u' Hu') as [D0' D1']. fold DD in D1, D1'. assert (GE := G2_expect c f w u Hc Hu Hf). assert (GE' := G2_expect c f w u' Hc Hu' Hf).
  set (g := Gs2 (sqrt u) (Hs2 f w u)) in *. set (g' := Gs2 (sqrt u') (Hs2 f w u')) in *. set (EE := E2 w * EL ^ 2). pose proof (E2_pos w) as Hw. assert (HEE : 0 < EE) by (unfold EE; nra). destruct Hf as (A & B & C). cbv beta in A, B, C. destruct w as [x y].
  assert (EEq : exp (q * Rabs x) * exp (q * Rabs y) * EL ^ 2 = EE) by reflexivity.
  assert (R1 : Rabs g <= c * EE * m ^ 2).
  { refine (expect_abs 2 _ _ _ _ _ GE (expect_scal _ _ _ _ HW)). intros zs Hz. cbv beta. rewrite (surjective_pairing (at2 (x, y) u zs)). eapply Rle_trans; [apply A|]. rewrite Rmult_assoc. apply Rmult_le_compat_l; [exact Hc|]. rewrite <- EEq. now apply A12'. }
  assert (R2 : Rabs (g - g') <= c * (C0 * e) * (4 * EE) * m ^ 2).
  { refine (expect_abs 2 _ _ _ _ _ (expect_diff _ _ _ _ _ GE GE') (expect_scal _ _ _ _ HW)). intros zs Hz. cbv beta.
    pose proof (one_le (nth 0 zs 0)) as O1. pose proof (one_le (nth 1 zs 0)) as O2. pose proof (exp_ineq1_le (Rabs (nth 0 zs 0))) as I1. pose proof (exp_ineq1_le (Rabs (nth 1 zs 0))) as I2. pose proof (Rabs_pos (nth 0 zs 0)) as Z1. pose proof (Rabs_pos (nth 1 zs 0)) as Z2.
    pose proof (A12 x y x y u u zs Hu Hu Hz) as P1. pose proof (A12 x y x y u' u zs Hu' Hu Hz) as P2. pose proof (A12 x y x y u' u' zs Hu' Hu' Hz) as P3. rewrite EEq in P1, P2, P3.
    rewrite (surjective_pairing (at2 (x, y) u zs)), (surjective_pairing (at2 (x, y) u' zs)). 
    assert (DX : Rabs (fst (at2 (x, y) u zs) - fst (at2 (x, y) u' zs)) <= C0 * e * (exp (Rabs (nth 0 zs 0)) * exp (Rabs (nth 1 zs 0)))).
    { unfold at2. cbn [fst snd]. replace (x + n1 * u + s1 * (sqrt u * nth 0 zs 0) - (x + n1 * u' + s1 * (sqrt u' * nth 0 zs 0))) with (n1 * (u - u') + s1 * (sqrt u - sqrt u') * nth 0 zs 0) by ring. eapply Rle_trans; [apply Rabs_triang|]. rewrite !Rabs_mult.
      set (z1 := Rabs (nth 0 zs 0)) in *. set (z2 := Rabs (nth 1 zs 0)) in *. pose proof (Rabs_pos (u - u')). pose proof (Rabs_pos (sqrt u - sqrt u')).
      assert (Y1 : Rabs n1 * Rabs (u - u') <= Rabs n1 * e) by (apply Rmult_le_compat_l; lra). assert (Y2 : Rabs s1 * Rabs (sqrt u - sqrt u') <= Rabs s1 * e) by (apply Rmult_le_compat_l; lra).
      assert (Y3 : Rabs s1 * Rabs (sqrt u - sqrt u') * z1 <= Rabs s1 * e * z1) by (apply Rmult_le_compat_r; lra).
      assert (Y4 : 1 + z1 <= exp z1 * exp z2) by nra. assert (Y5 : Rabs n1 * e + Rabs s1 * e * z1 <= C0 * e * (1 + z1)). { assert (0 <= e * z1) by nra. unfold C0, sg. assert (0 <= Rabs n1 * (e * z1)) by nra. assert (0 <= Rabs n2 * (e * z1)) by nra. assert (0 <= Rabs al * (e * z1)) by nra. assert (0 <= Rabs be * (e * z1)) by nra. assert (0 <= Rabs s1 * e) by nra. assert (0 <= Rabs n2 * e) by nra. assert (0 <= Rabs al * e) by nra. assert (0 <= Rabs be * e) by nra. lra. }
      assert (0 <= C0 * e) by nra. apply Rle_trans with (C0 * e * (1 + z1)); [lra|]. apply Rmult_le_compat_l; lra. }
    assert (DY : Rabs (snd (at2 (x, y) u zs) - snd (at2 (x, y) u' zs)) <= C0 * e * (exp (Rabs (nth 0 zs 0)) * exp (Rabs (nth 1 zs 0)))).
    { unfold at2. cbn [fst snd]. replace (y + n2 * u + al * (sqrt u * nth 0 zs 0) + be * (sqrt u * nth 1 zs 0) - (y + n2 * u' + al * (sqrt u' * nth 0 zs 0) + be * (sqrt u' * nth 1 zs 0))) with (n2 * (u - u') + al * (sqrt u - sqrt u') * nth 0 zs 0 + be * (sqrt u - sqrt u') * nth 1 zs 0) by ring.
      eapply Rle_trans; [apply Rabs_triang|]. eapply Rle_trans; [apply Rplus_le_compat_r, Rabs_triang|]. rewrite !Rabs_mult.
      set (z1 := Rabs (nth 0 zs 0)) in *. set (z2 := Rabs (nth 1 zs 0)) in *. pose proof (Rabs_pos (u - u')). pose proof (Rabs_pos (sqrt u - sqrt u')).
      assert (Y1 : Rabs n2 * Rabs (u - u') <= Rabs n2 * e) by (apply Rmult_le_compat_l; lra). assert (Y2 : Rabs al * Rabs (sqrt u - sqrt u') <= Rabs al * e) by (apply Rmult_le_compat_l; lra). assert (Y2' : Rabs be * Rabs (sqrt u - sqrt u') <= Rabs be * e) by (apply Rmult_le_compat_l; lra).
      assert (Y3 : Rabs al * Rabs (sqrt u - sqrt u') * z1 <= Rabs al * e * z1) by (apply Rmult_le_compat_r; lra). assert (Y3' : Rabs be * Rabs (sqrt u - sqrt u') * z2 <= Rabs be * e * z2) by (apply Rmult_le_compat_r; lra).
      assert (Y4 : 1 + z1 + z2 <= exp z1 * exp z2) by nra. assert (Y5 : Rabs n2 * e + Rabs al * e * z1 + Rabs be * e * z2 <= C0 * e * (1 + z1 + z2)).
      { assert (0 <= e * z1) by nra. assert (0 <= e * z2) by nra. unfold C0, sg. assert (0 <= Rabs n1 * (e * z1)) by nra. assert (0 <= Rabs n2 * (e * z1)) by nra. assert (0 <= Rabs s1 * (e * z1)) by nra. assert (0 <= Rabs be * (e * z1)) by nra. assert (0 <= Rabs n1 * (e * z2)) by nra. assert (0 <= Rabs n2 * (e * z2)) by nra. assert (0 <= Rabs s1 * (e * z2)) by nra. assert (0 <= Rabs al * (e * z2)) by nra. assert (0 <= Rabs s1 * e) by nra. assert (0 <= Rabs n1 * e) by nra. assert (0 <= Rabs al * e) by nra. assert (0 <= Rabs be * e) by nra. lra. }
      assert (0 <= C0 * e) by nra. apply Rle_trans with (C0 * e * (1 + z1 + z2)); [lra|]. apply Rmult_le_compat_l; lra. }
    set (F := fst (at2 (x, y) u zs)) in *. set (F' := fst (at2 (x, y) u' zs)) in *. set (H := snd (at2 (x, y) u zs)) in *. set (H' := snd (at2 (x, y) u' zs)) in *.
    set (zz := exp (Rabs (nth 0 zs 0)) * exp (Rabs (nth 1 zs 0))) in *. assert (Hzz : 0 < zz) by (apply Rmult_lt_0_compat; apply exp_pos).
    replace (f (F, H) - f (F', H')) with ((f (F, H) - f (F', H)) + (f (F', H) - f (F', H'))) by ring. eapply Rle_trans; [apply Rabs_triang|]. eapply Rle_trans; [apply Rplus_le_compat; [apply B|apply C]|].
    set (a1 := exp (q * Rabs F)) in *. set (a2 := exp (q * Rabs F')) in *. set (h1 := exp (q * Rabs H)) in *. set (h2 := exp (q * Rabs H')) in *. assert (0 < a1) by apply exp_pos. assert (0 < a2) by apply exp_pos. assert (0 < h1) by apply exp_pos. assert (0 < h2) by apply exp_pos.
    set (W := EE * wt Q zs) in *. replace (c * (C0 * e) * (4 * EE) * wt Q zs) with (c * (C0 * e) * (W + W) + c * (C0 * e) * (W + W)) by (unfold W; ring).
    apply Rplus_le_compat.
    - apply Rle_trans with (c * (C0 * e * zz) * ((a1 + a2) * h1)); [apply Rmult_le_compat_r; [nra|]; apply Rmult_le_compat_l; assumption|]. replace (c * (C0 * e * zz) * ((a1 + a2) * h1)) with (c * (C0 * e) * (a1 * h1 * zz + a2 * h1 * zz)) by ring. apply Rmult_le_compat_l; [apply Rmult_le_pos; nra|lra].
    - apply Rle_trans with (c * (C0 * e * zz) * (a2 * (h1 + h2))); [apply Rmult_le_compat_r; [nra|]; apply Rmult_le_compat_l; assumption|]. replace (c * (C0 * e * zz) * (a2 * (h1 + h2))) with (c * (C0 * e) * (a2 * h1 * zz + a2 * h2 * zz)) by ring. apply Rmult_le_compat_l; [apply Rmult_le_pos; nra|lra]. }
  unfold G2. fold g g'. replace (exp (- r * u) * g - exp (- r * u') * g') with ((exp (- r * u) - exp (- r * u')) * g + exp (- r * u') * (g - g')) by ring.
  eapply Rle_trans; [apply Rabs_triang|]. rewrite !Rabs_mult. rewrite (Rabs_pos_eq (exp (- r * u'))) by lra.
  assert (R3 : Rabs (exp (- r * u) - exp (- r * u')) <= Rabs r * e * (2 * DD)).
  { eapply Rle_trans; [apply exp_lip|]. rewrite <- Rmult_minus_distr_l, Rabs_mult, Rabs_Ropp. pose proof (Rabs_pos (u - u')). apply Rmult_le_compat; [nra|lra| |lra]. apply Rmult_le_compat_l; lra. }
  eapply Rle_trans; [apply Rplus_le_compat; [apply Rmult_le_compat; [apply Rabs_pos|apply Rabs_pos|exact R3|exact R1]|apply Rmult_le_compat; [lra|apply Rabs_pos|exact D1'|exact R2]]|].
  pose proof (E2_V2 (x, y)) as HV. replace (Rabs r * e * (2 * DD) * (c * EE * m ^ 2) + DD * (c * (C0 * e) * (4 * EE) * m ^ 2)) with (e * (K - 1) * (c * E2 (x, y))) by (unfold K, EE; ring).
  replace (eps * c * V2 (x, y)) with (eps * (c * V2 (x, y))) by ring. assert (0 <= K - 1). { unfold K. assert (0 <= DD * EL ^ 2 * m ^ 2) by (apply Rmult_le_pos; [nra|exact Hm2]). assert (0 <= DD * EL ^ 2 * m ^ 2 * (2 * Rabs r + 4 * C0)) by (apply Rmult_le_pos; lra). lra. }
  apply Rmult_le_compat; [nra|nra|lra|]. apply Rmult_le_compat_l; lra.
Qed.

(** ** growth of the weight in one step *)
Let LA := Rabs r + q * (Rabs n1 + Rabs n2) + q ^ 2 * ((Rabs s1 + Rabs al) ^ 2 + be ^ 2) / 2.
Lemma LA_0 : 0 <= LA.
Proof.
  unfold LA. pose proof (Rabs_pos r). pose proof (Rabs_pos n1). pose proof (Rabs_pos n2). pose proof (pow2_ge_0 q). pose proof (pow2_ge_0 (Rabs s1 + Rabs al)). pose proof (pow2_ge_0 be).
  assert (0 <= q * (Rabs n1 + Rabs n2)) by (apply Rmult_le_pos; lra). assert (0 <= q ^ 2 * ((Rabs s1 + Rabs al) ^ 2 + be ^ 2)) by (apply Rmult_le_pos; lra). lra.
Qed.
Lemma lam_step n w : (0 < n)%nat -> T2 n V2 w <= exp (LA * (t / INR n)) * V2 w.
Proof.
  intro Hn. assert (HI : 0 < INR n) by now apply lt_0_INR. assert (Hdt : 0 < t / INR n) by now apply Rdiv_lt_0_compat. unfold T2. set (dt := t / INR n) in *. set (a := sqrt dt). assert (Ha : a ^ 2 = dt) by (apply pow2_sqrt; lra).
  assert (P : forall y y', Rabs y = q -> Rabs y' = q -> let F := fun w : R * R => exp (y * fst w) * exp (y' * snd w) in
    exp (- r * dt) * ((Hs2 F w dt a a + Hs2 F w dt a (- a) + Hs2 F w dt (- a) a + Hs2 F w dt (- a) (- a)) / 4) <= exp (LA * dt) * F w).
  { intros y y' Hy Hy' F.
    replace ((Hs2 F w dt a a + Hs2 F w dt a (- a) + Hs2 F w dt (- a) a + Hs2 F w dt (- a) (- a)) / 4) with (exp ((y * n1 + y' * n2) * dt) * ch ((y * s1 + y' * al) * a) * ch (y' * be * a) * F w).
    2:{ assert (G : forall p v, Hs2 F w dt p v = exp ((y * n1 + y' * n2) * dt) * F w * exp ((y * s1 + y' * al) * p) * exp (y' * be * v)) by (intros p v; unfold Hs2, F; cbn [fst snd]; rewrite <- !exp_plus; f_equal; ring).
        rewrite !G. unfold ch. replace ((y * s1 + y' * al) * - a) with (- ((y * s1 + y' * al) * a)) by ring. replace (y' * be * - a) with (- (y' * be * a)) by ring. field. }
    rewrite <- Rmult_assoc. apply Rmult_le_compat_r; [apply Rlt_le, Rmult_lt_0_compat; apply exp_pos|].
    apply Rle_trans with (exp (- r * dt) * (exp ((y * n1 + y' * n2) * dt) * exp (((y * s1 + y' * al) * a) ^ 2 / 2) * exp ((y' * be * a) ^ 2 / 2))).
    - apply Rmult_le_compat_l; [apply Rlt_le, exp_pos|]. pose proof (ch_ge_1 ((y * s1 + y' * al) * a)). pose proof (ch_ge_1 (y' * be * a)). pose proof (cosh_le ((y * s1 + y' * al) * a)) as C1. pose proof (cosh_le (y' * be * a)) as C2.
      apply Rmult_le_compat; [apply Rmult_le_pos; [apply Rlt_le, exp_pos|lra]|lra| |exact C2]. apply Rmult_le_compat_l; [apply Rlt_le, exp_pos|exact C1].
    - rewrite <- !exp_plus. apply exp_le. rewrite !Rpow_mult_distr, Ha.
      assert (B1 : - r <= Rabs r) by (pose proof (Rle_abs (- r)) as X; rewrite Rabs_Ropp in X; exact X).
      assert (B2 : y * n1 + y' * n2 <= q * (Rabs n1 + Rabs n2)) by (eapply Rle_trans; [apply Rle_abs|]; eapply Rle_trans; [apply Rabs_triang|]; rewrite !Rabs_mult, Hy, Hy'; lra).
      assert (B3 : (y * s1 + y' * al) ^ 2 <= (q * (Rabs s1 + Rabs al)) ^ 2). { rewrite <- (pow2_abs (y * s1 + y' * al)). apply pow_incr. split; [apply Rabs_pos|]. eapply Rle_trans; [apply Rabs_triang|]. rewrite !Rabs_mult, Hy, Hy'. lra. }
      assert (B4 : y' ^ 2 = q ^ 2) by (rewrite <- (pow2_abs y'), Hy'; reflexivity). rewrite B4.
      replace (LA * dt) with (Rabs r * dt + q * (Rabs n1 + Rabs n2) * dt + (q * (Rabs s1 + Rabs al)) ^ 2 * dt / 2 + q ^ 2 * be ^ 2 * dt / 2) by (unfold LA; field).
      assert (- r * dt <= Rabs r * dt) by (apply Rmult_le_compat_r; lra). assert ((y * n1 + y' * n2) * dt <= q * (Rabs n1 + Rabs n2) * dt) by (apply Rmult_le_compat_r; lra). assert ((y * s1 + y' * al) ^ 2 * dt <= (q * (Rabs s1 + Rabs al)) ^ 2 * dt) by (apply Rmult_le_compat_r; lra). lra. }
  pose proof (Rabs_pos_eq q Hq) as Q1. assert (Q2 : Rabs (- q) = q) by (rewrite Rabs_Ropp; exact Q1).
  pose proof (P q q Q1 Q1) as P1. pose proof (P q (- q) Q1 Q2) as P2. pose proof (P (- q) q Q2 Q1) as P3. pose proof (P (- q) (- q) Q2 Q2) as P4. cbv zeta in P1, P2, P3, P4. unfold Hs2, V2, vq in *. cbn [fst snd] in *. lra.
Qed.

Theorem two_american g cg : 0 <= cg -> cls2 cg g -> forall w, exists v, (forall eps, 0 < eps -> exists N, forall n, (N <= n)%nat -> Rabs (AV (T2 n) g n w - v) < eps) /\
  (forall k, (0 < k)%nat -> BV (G2 (t / INR k)) g k w <= v) /\ (forall eps, 0 < eps -> exists m0, forall k, (m0 <= k)%nat -> v - eps <= BV (G2 (t / INR k)) g k w).
Proof.
  intros Hcg Hg w. destruct G2_cls as (CG & HCG & Hcls). pose proof LA_0 as HL.
  apply (american_limit V2 cls2 T2 G2 (fun n => exp (LA * (t / INR n))) 1 (exp (LA * t)) CG t g cg); try assumption.
  - intro x. unfold V2. apply Rmult_le_pos; apply Rlt_le, vq_pos.
  - apply Rlt_le, exp_pos.
  - intros n _. apply T2_mono.
  - intros n _. apply T2_lin.
  - intros n Hn. assert (HI : 0 < INR n) by (apply lt_0_INR; lia). assert (Hdt : 0 < t / INR n) by now apply Rdiv_lt_0_compat. split; [rewrite <- exp_0; apply exp_le; nra|]. split.
    + rewrite exp_pow. right. f_equal. field. lra.
    + intro x. apply lam_step. lia.
  - intros eps He. apply (walk_clt2 eps He).
  - intros eps He. apply (G2_mod eps He).
  - intros c f _ x. apply G2_0.
  - intros c c' f h Hc Hc' Hf Hh. exact (lip2_max _ _ _ _ _ Hf Hh).
Qed.

Theorem two_any_dates g cg w v : 0 <= cg -> cls2 cg g -> (forall eps, 0 < eps -> exists N, forall n, (N <= n)%nat -> Rabs (AV (T2 n) g n w - v) < eps) ->
  forall k u, 0 <= u -> INR k * u <= t -> BV (G2 u) g k w <= v.
Proof.
  intros Hcg Hg. destruct G2_cls as (CG & HCG & Hcls). pose proof LA_0 as HL.
  apply (any_dates V2 cls2 T2 G2 (fun n => exp (LA * (t / INR n))) 1 (exp (LA * t)) CG t g cg); try assumption.
  - intro x. unfold V2. apply Rmult_le_pos; apply Rlt_le, vq_pos.
  - apply Rlt_le, exp_pos.
  - intros n _. apply T2_mono.
  - intros n _. apply T2_lin.
  - intros n Hn. assert (HI : 0 < INR n) by (apply lt_0_INR; lia). assert (Hdt : 0 < t / INR n) by now apply Rdiv_lt_0_compat. split; [rewrite <- exp_0; apply exp_le; nra|]. split.
    + rewrite exp_pow. right. f_equal. field. lra.
    + intro x. apply lam_step. lia.
  - intros eps He. apply (walk_clt2 eps He).
  - intros eps He. apply (G2_mod eps He).
  - intros c c' f h Hc Hc' Hf Hh'. exact (lip2_max _ _ _ _ _ Hf Hh').
Qed.

Theorem two_no_early g cg w v : 0 <= cg -> cls2 cg g -> (forall u, 0 <= u <= t -> forall y, g y <= G2 u g y) ->
  (forall k, (0 < k)%nat -> BV (G2 (t / INR k)) g k w <= v) -> (forall eps, 0 < eps -> exists m0, forall k, (m0 <= k)%nat -> v - eps <= BV (G2 (t / INR k)) g k w) -> v = G2 t g w.
Proof.
  intros Hcg Hg Hh H1 H2. destruct G2_cls as (CG & HCG & Hcls). pose proof LA_0 as HL.
  apply (no_early_value V2 cls2 T2 G2 (fun n => exp (LA * (t / INR n))) 1 (exp (LA * t)) CG t g cg); try assumption.
  - intro x. unfold V2. apply Rmult_le_pos; apply Rlt_le, vq_pos.
  - apply Rlt_le, exp_pos.
  - intros n _. apply T2_mono.
  - intros n _. apply T2_lin.
  - intros n Hn. assert (HI : 0 < INR n) by (apply lt_0_INR; lia). assert (Hdt : 0 < t / INR n) by now apply Rdiv_lt_0_compat. split; [rewrite <- exp_0; apply exp_le; nra|]. split.
    + rewrite exp_pow. right. f_equal. field. lra.
    + intro x. apply lam_step. lia.
  - intros eps He. apply (walk_clt2 eps He).
  - intros c f _ x. apply G2_0.
  - intros c c' f h Hc Hc' Hf Hh'. exact (lip2_max _ _ _ _ _ Hf Hh').
  - intros u c f c' h Hu Hc Hc' Hf Hh' Hle x. unfold G2. apply Rmult_le_compat_l; [apply Rlt_le, exp_pos|].
    eapply is_expect_le; [|exact (G2_expect c f x u Hc Hu Hf)|exact (G2_expect c' h x u Hc' Hu Hh')]. intros zs _. apply Hle.
Qed.
End Two.
