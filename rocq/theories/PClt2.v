(** The two-asset binomial tree converges to the bivariate lognormal value (bitree3d.py:152-225). *)
From Coq Require Import Reals String List Arith ZArith Lra Lia.
From Coquelicot Require Import Coquelicot.
From Verif Require Import Num Py Arr MBase MVanilla MTrees MSpread STrees SLattice SSpread SSpread2 PGen PSpread3 PTrees3 SMonte PCnd PGauss SHeston PHeston PHeston2 PExpect PExpect2 PClt.
Import List ListNotations.
Open Scope R_scope.

(** ** functions of two walks *)
Definition lip2 (c q : R) (h : R -> R -> R) : Prop :=
  (forall x y, Rabs (h x y) <= c * (exp (q * Rabs x) * exp (q * Rabs y))) /\
  (forall x x' y, Rabs (h x y - h x' y) <= c * Rabs (x - x') * ((exp (q * Rabs x) + exp (q * Rabs x')) * exp (q * Rabs y))) /\
  (forall x y y', Rabs (h x y - h x y') <= c * Rabs (y - y') * (exp (q * Rabs x) * (exp (q * Rabs y) + exp (q * Rabs y')))).
Definition rw2 (n : nat) (a : R) (h : R -> R -> R) (x y : R) : R := rw n a (fun u => rw n a (h u) y) x.
Definition Gs2 (o : R) (h : R -> R -> R) : R := Gs o (fun u => Gs o (h u) 0) 0.

Lemma lip2_row c q h x : lip2 c q h -> lip (c * exp (q * Rabs x)) q (h x).
Proof.
  intros (A & _ & B). split.
  - intro w. rewrite Rmult_assoc. apply A.
  - intros w w'. eapply Rle_trans; [apply B|]. right. ring.
Qed.
Lemma lip2_Gs c q h o m : 0 <= c -> 0 <= q -> 0 <= o -> lip2 c q h -> is_mean (fun z => exp (q * o * Rabs z)) m -> lip (c * m) q (fun u => Gs o (h u) 0).
Proof.
  intros Hc Hq Ho H Hm. assert (G : forall x, is_mean (fun z => h x (0 + o * z)) (Gs o (h x) 0)).
  { intro x. apply (Gs_mean (c * exp (q * Rabs x)) q); [apply Rmult_le_pos; [exact Hc|apply Rlt_le, exp_pos]|exact Hq|exact Ho|now apply lip2_row]. }
  assert (E : forall z, exp (q * Rabs (0 + o * z)) = exp (q * o * Rabs z)) by (intro z; rewrite Rplus_0_l, Rabs_mult, (Rabs_pos_eq o Ho); f_equal; ring).
  destruct H as (A & L & _). split.
  - intro w. replace (c * m * exp (q * Rabs w)) with (c * exp (q * Rabs w) * m) by ring. eapply mean_abs; [|apply G|exact (mean_scal _ _ _ Hm)].
    intro z. cbv beta. eapply Rle_trans; [apply A|]. rewrite E. right. ring.
  - intros w w'. replace (Gs o (h w) 0 - Gs o (h w') 0) with (1 * Gs o (h w) 0 + -1 * Gs o (h w') 0) by ring.
    replace (c * m * Rabs (w - w') * (exp (q * Rabs w) + exp (q * Rabs w'))) with (c * Rabs (w - w') * (exp (q * Rabs w) + exp (q * Rabs w')) * m) by ring.
    eapply mean_abs; [|exact (is_mean_lin _ _ _ _ 1 (-1) (G w) (G w'))|exact (mean_scal _ _ _ Hm)].
    intro z. cbv beta. replace (1 * h w (0 + o * z) + -1 * h w' (0 + o * z)) with (h w (0 + o * z) - h w' (0 + o * z)) by ring.
    eapply Rle_trans; [apply L|]. rewrite E. right. ring.
Qed.

Lemma clt2 q t c h : 0 <= q -> 0 < t -> 0 <= c -> lip2 c q h -> forall eps, 0 < eps -> exists N, forall n, (N <= n)%nat -> (0 < n)%nat ->
  Rabs (rw2 n (sqrt (t / INR n)) h 0 0 - Gs2 (sqrt t) h) <= eps.
Proof.
  intros Hq Ht Hc Hh eps He. set (o := sqrt t). assert (Ho : 0 <= o) by apply sqrt_pos. destruct (mean_wt (q * o) ltac:(nra)) as (m & Hm0 & Hm).
  set (X := exp (q ^ 2 * t / 2)). assert (HX : 0 < X) by apply exp_pos. set (D := 2 * c * X + c * m + 1). assert (HD : 0 < D) by (unfold D; nra).
  destruct (clt q t Hq Ht (eps / D)) as (N & HN); [now apply Rdiv_lt_0_compat|]. exists N. intros n Hn Hn0. specialize (HN n Hn Hn0). set (a := sqrt (t / INR n)) in *.
  assert (S1 : Rabs (rw n a (fun u => rw n a (h u) 0) 0 - rw n a (fun u => Gs o (h u) 0) 0) <= eps / D * c * (2 * X)).
  { replace (rw n a (fun u => rw n a (h u) 0) 0 - rw n a (fun u => Gs o (h u) 0) 0) with (1 * rw n a (fun u => rw n a (h u) 0) 0 + -1 * rw n a (fun u => Gs o (h u) 0) 0) by ring.
    rewrite <- rw_lin. eapply Rle_trans; [apply (rw_abs n a _ (fun u => eps / D * c * exp (q * Rabs u) + 0 * exp (q * Rabs u)))|].
    - intro u. assert (L := HN (c * exp (q * Rabs u)) (h u) ltac:(apply Rmult_le_pos; [exact Hc|apply Rlt_le, exp_pos]) (lip2_row _ _ _ u Hh)). fold o in L.
      replace (1 * rw n a (h u) 0 + -1 * Gs o (h u) 0) with (rw n a (h u) 0 - Gs o (h u) 0) by ring. lra.
    - rewrite rw_lin, Rmult_0_l, Rplus_0_r. apply Rmult_le_compat_l; [apply Rmult_le_pos; [apply Rlt_le, Rdiv_lt_0_compat; lra|exact Hc]|].
      eapply Rle_trans; [apply rw_weight; exact Hq|]. unfold vq. rewrite !Rmult_0_r, exp_0. pose proof (ch_pow_le q t n Hn0 (Rlt_le _ _ Ht)) as L. fold a X in L. lra. }
  assert (S2 := HN (c * m) _ ltac:(now apply Rmult_le_pos) (lip2_Gs c q h o m Hc Hq Ho Hh Hm)). fold o in S2.
  assert (S3 : eps / D * c * (2 * X) + eps / D * (c * m) <= eps).
  { replace (eps / D * c * (2 * X) + eps / D * (c * m)) with (eps / D * (D - 1)) by (unfold D; ring). apply Rle_trans with (eps / D * D); [|right; field; lra].
    apply Rmult_le_compat_l; [apply Rlt_le, Rdiv_lt_0_compat; lra|lra]. }
  unfold rw2, Gs2. apply Rabs_le_between in S1, S2. apply Rabs_le. split; lra.
Qed.

Lemma Gs2_expect c q h o : 0 <= c -> 0 <= q -> 0 <= o -> lip2 c q h -> is_expect 2 (fun zs => h (o * nth 0 zs 0) (o * nth 1 zs 0)) (Gs2 o h).
Proof.
  intros Hc Hq Ho Hh. destruct (mean_wt (q * o) ltac:(nra)) as (m & Hm0 & Hm). exists (fun z => Gs o (h (0 + o * z)) 0). split.
  - intro z1. exists (fun z2 => h (0 + o * z1) (0 + o * z2)). split.
    + intro z2. cbn. now rewrite !Rplus_0_l.
    + apply (Gs_mean (c * exp (q * Rabs (0 + o * z1))) q (h (0 + o * z1)) o 0); [apply Rmult_le_pos; [exact Hc|apply Rlt_le, exp_pos]|exact Hq|exact Ho|now apply lip2_row].
  - assert (L := lip2_Gs c q h o m Hc Hq Ho Hh Hm). exact (Gs_mean (c * m) q (fun u => Gs o (h u) 0) o 0 (Rmult_le_pos _ _ Hc Hm0) Hq Ho L).
Qed.

(** ** closure *)
Definition L2 (q : R) (h : R -> R -> R) : Prop := exists c, 0 <= c /\ lip2 c q h.
Lemma L2_ext q f g : (forall x y, f x y = g x y) -> L2 q f -> L2 q g.
Proof. intros E (c & Hc & A & B & C). exists c. split; [exact Hc|]. repeat split; intros; rewrite <- !E; auto. Qed.
Lemma L2_comb q f g h : L2 q f -> L2 q g -> (forall x y x' y', Rabs (h x y - h x' y') <= Rabs (f x y - f x' y') + Rabs (g x y - g x' y')) -> (forall x y, Rabs (h x y) <= Rabs (f x y) + Rabs (g x y)) -> L2 q h.
Proof.
  intros (c & Hc & A & B & C) (c' & Hc' & A' & B' & C') H1 H2. exists (c + c'). split; [lra|]. repeat split.
  - intros x y. eapply Rle_trans; [apply H2|]. specialize (A x y). specialize (A' x y). lra.
  - intros x x' y. eapply Rle_trans; [apply H1|]. specialize (B x x' y). specialize (B' x x' y). lra.
  - intros x y y'. eapply Rle_trans; [apply H1|]. specialize (C x y y'). specialize (C' x y y'). lra.
Qed.
Lemma L2_const q K : 0 <= q -> L2 q (fun _ _ => K).
Proof.
  intro Hq. exists (Rabs K). split; [apply Rabs_pos|]. assert (W : forall x, 1 <= exp (q * Rabs x)) by (intro x; rewrite <- exp_0; apply exp_le; pose proof (Rabs_pos x); nra).
  pose proof (Rabs_pos K). repeat split; intros; rewrite ?Rminus_eq_0, ?Rabs_R0.
  - pose proof (W x). pose proof (W y). assert (1 <= exp (q * Rabs x) * exp (q * Rabs y)) by nra. nra.
  - pose proof (W x). pose proof (W y). pose proof (W x'). pose proof (Rabs_pos (x - x')). apply Rmult_le_pos; nra.
  - pose proof (W x). pose proof (W y). pose proof (W y'). pose proof (Rabs_pos (y - y')). apply Rmult_le_pos; nra.
Qed.
Lemma L2_scal q a f : L2 q f -> L2 q (fun x y => a * f x y).
Proof.
  intros (c & Hc & A & B & C). exists (Rabs a * c). pose proof (Rabs_pos a). split; [nra|]. repeat split.
  - intros x y. rewrite Rabs_mult, Rmult_assoc. apply Rmult_le_compat_l; [assumption|]. apply A.
  - intros x x' y. rewrite <- Rmult_minus_distr_l, Rabs_mult. specialize (B x x' y). apply (Rmult_le_compat_l (Rabs a)) in B; [|assumption]. lra.
  - intros x y y'. rewrite <- Rmult_minus_distr_l, Rabs_mult. specialize (C x y y'). apply (Rmult_le_compat_l (Rabs a)) in C; [|assumption]. lra.
Qed.
Lemma L2_plus q f g : L2 q f -> L2 q g -> L2 q (fun x y => f x y + g x y).
Proof.
  intros Hf Hg. apply (L2_comb q f g _ Hf Hg); intros.
  - replace (f x y + g x y - (f x' y' + g x' y')) with ((f x y - f x' y') + (g x y - g x' y')) by ring. apply Rabs_triang.
  - apply Rabs_triang.
Qed.
Lemma L2_minus q f g : L2 q f -> L2 q g -> L2 q (fun x y => f x y - g x y).
Proof. intros Hf Hg. eapply L2_ext; [|apply (L2_plus q f (fun x y => -1 * g x y) Hf), L2_scal, Hg]. intros. cbv beta. ring. Qed.
Lemma L2_max q f g : L2 q f -> L2 q g -> L2 q (fun x y => Rmax (f x y) (g x y)).
Proof.
  intros Hf Hg. apply (L2_comb q f g _ Hf Hg); intros; unfold Rmax, Rabs; repeat match goal with |- context [Rle_dec ?a ?b] => destruct (Rle_dec a b) | |- context [Rcase_abs ?a] => destruct (Rcase_abs a) end; lra.
Qed.
Lemma L2_min q f g : L2 q f -> L2 q g -> L2 q (fun x y => Rmin (f x y) (g x y)).
Proof.
  intros Hf Hg. apply (L2_comb q f g _ Hf Hg); intros; unfold Rmin, Rabs; repeat match goal with |- context [Rle_dec ?a ?b] => destruct (Rle_dec a b) | |- context [Rcase_abs ?a] => destruct (Rcase_abs a) end; lra.
Qed.
Lemma exp_lin_le al q x : Rabs al <= q -> exp (al * x) <= exp (q * Rabs x).
Proof. intro H. apply exp_le. pose proof (Rle_abs (al * x)) as P. rewrite Rabs_mult in P. pose proof (Rabs_pos x). nra. Qed.
Lemma L2_exp q C A al be : Rabs al <= q -> Rabs be <= q -> L2 q (fun x y => C * exp (A + al * x + be * y)).
Proof.
  intros Ha Hb. assert (Hq : 0 <= q) by (pose proof (Rabs_pos al); lra). apply L2_scal. assert (P := exp_pos A).
  eapply L2_ext; [|apply (L2_scal q (exp A) (fun x y => exp (al * x) * exp (be * y)))]; [intros; cbv beta; rewrite <- !exp_plus; f_equal; ring|].
  assert (D : forall e u u', Rabs e <= q -> Rabs (exp (e * u) - exp (e * u')) <= (1 + q) * Rabs (u - u') * (exp (q * Rabs u) + exp (q * Rabs u'))).
  { intros e u u' H. eapply Rle_trans; [apply exp_lip|]. rewrite <- Rmult_minus_distr_l, Rabs_mult. pose proof (exp_lin_le e q u H). pose proof (exp_lin_le e q u' H).
    pose proof (exp_pos (e * u)). pose proof (exp_pos (e * u')). pose proof (Rabs_pos (u - u')). pose proof (Rabs_pos e). apply Rmult_le_compat; [nra|lra| |lra]. apply Rmult_le_compat_r; lra. }
  exists (1 + q). split; [lra|]. repeat split.
  - intros x y. rewrite Rabs_mult, !Rabs_pos_eq by (apply Rlt_le, exp_pos). pose proof (exp_lin_le al q x Ha). pose proof (exp_lin_le be q y Hb). pose proof (exp_pos (al * x)). pose proof (exp_pos (be * y)).
    assert (exp (al * x) * exp (be * y) <= exp (q * Rabs x) * exp (q * Rabs y)) by (apply Rmult_le_compat; lra). pose proof (exp_pos (q * Rabs x)). pose proof (exp_pos (q * Rabs y)). assert (0 < exp (q * Rabs x) * exp (q * Rabs y)) by nra. nra.
  - intros x x' y. rewrite <- Rmult_minus_distr_r, Rabs_mult, (Rabs_pos_eq (exp (be * y))) by (apply Rlt_le, exp_pos). rewrite <- Rmult_assoc. apply Rmult_le_compat; [apply Rabs_pos|apply Rlt_le, exp_pos|now apply D|now apply exp_lin_le].
  - intros x y y'. rewrite <- Rmult_minus_distr_l, Rabs_mult, (Rabs_pos_eq (exp (al * x))) by (apply Rlt_le, exp_pos).
    replace ((1 + q) * Rabs (y - y') * (exp (q * Rabs x) * (exp (q * Rabs y) + exp (q * Rabs y')))) with (exp (q * Rabs x) * ((1 + q) * Rabs (y - y') * (exp (q * Rabs y) + exp (q * Rabs y')))) by ring.
    apply Rmult_le_compat; [apply Rlt_le, exp_pos|apply Rabs_pos|now apply exp_lin_le|now apply D].
Qed.

(** ** the lattice is a function of two walks *)
Section Tree.
Variables (S1 S2 b1 b2 s1 s2 rho : R).
Definition XX (T u v : R) : R * R :=
  (S1 * exp ((b1 - s1 ^ 2 / 2) * T + s1 * u + 0 * v), S2 * exp ((b2 - s2 ^ 2 / 2) * T + s2 * rho * u + s2 * sqrt (1 - rho ^ 2) * v)).
Lemma step_XX dt m T u v : step2 b1 b2 s1 s2 rho dt m (XX T u v) = XX (T + dt) (u + sign (fst m) * sqrt dt) (v + sign (snd m) * sqrt dt).
Proof. unfold step2, XX, factor1, factor2. cbn [fst snd]. rewrite !Rmult_assoc, <- !exp_plus. f_equal; do 2 f_equal; ring. Qed.
Lemma rw2_S n a h x y : rw2 (S n) a h x y = (rw2 n a h (x + a) (y + a) + rw2 n a h (x + a) (y - a) + rw2 n a h (x - a) (y + a) + rw2 n a h (x - a) (y - a)) / 4.
Proof.
  unfold rw2. cbn [rw]. assert (E : forall w, rw n a (fun u => (rw n a (h u) (y + a) + rw n a (h u) (y - a)) / 2) w = (rw n a (fun u => rw n a (h u) (y + a)) w + rw n a (fun u => rw n a (h u) (y - a)) w) / 2).
  { intro w. rewrite (rw_ext n a _ (fun u => 1 / 2 * rw n a (h u) (y + a) + 1 / 2 * rw n a (h u) (y - a))) by (intro; field). rewrite rw_lin. field. }
  rewrite !E. field.
Qed.
Lemma GV_walk dt Df g m : forall T u v,
  GV quarter (step2 b1 b2 s1 s2 rho dt) two_moves Df false g m (XX T u v) = Df ^ m * rw2 m (sqrt dt) (fun x y => g (XX (T + INR m * dt) x y)) u v.
Proof.
  induction m as [|m IH]; intros T u v.
  - cbn [GV INR pow]. rewrite Rmult_0_l, Rplus_0_r. unfold rw2. cbn. ring.
  - cbn [GV two_moves map STrees.sumR fold_right]. unfold quarter. rewrite !step_XX, !IH. cbn [fst snd sign]. rewrite rw2_S.
    replace (T + INR (S m) * dt) with (T + dt + INR m * dt) by (rewrite S_INR; ring). replace (Df ^ S m) with (Df * Df ^ m) by reflexivity.
    replace (-1 * sqrt dt) with (- sqrt dt) by ring. rewrite !Rmult_1_l. unfold Rminus. field.
Qed.
Lemma lattice_walk r t n g : n <> 0%nat -> lattice_expect b1 b2 s1 s2 rho r t n g (S1, S2) = exp (- r * t) * rw2 n (sqrt (t / INR n)) (fun x y => g (XX t x y)) 0 0.
Proof.
  intro Hn. assert (HI : INR n <> 0) by now apply not_0_INR. unfold lattice_expect. rewrite <- GV_expect.
  replace (S1, S2) with (XX 0 0 0) by (unfold XX; rewrite !Rmult_0_r, !Rplus_0_r, exp_0, !Rmult_1_r; reflexivity). rewrite GV_walk, exp_pow.
  replace (INR n * (- r * (t / INR n))) with (- r * t) by (field; exact HI). replace (0 + INR n * (t / INR n)) with t by (field; exact HI). reflexivity.
Qed.
Lemma lattice_limit r t g q : 0 <= q -> 0 < t -> L2 q (fun x y => g (XX t x y)) ->
  exists v, two_asset_value S1 S2 t r b1 b2 s1 s2 rho g v /\
    forall eps, 0 < eps -> exists N, forall n, (N <= n)%nat -> n <> 0%nat -> Rabs (lattice_expect b1 b2 s1 s2 rho r t n g (S1, S2) - v) < eps.
Proof.
  intros Hq Ht H. apply (L2_scal q (exp (- r * t))) in H. destruct H as (c & Hc & H). exists (Gs2 (sqrt t) (fun x y => exp (- r * t) * g (XX t x y))). split.
  - unfold two_asset_value. eapply is_expect_ext; [|exact (Gs2_expect c q _ (sqrt t) Hc Hq (sqrt_pos t) H)]. intros zs _. cbv beta zeta. f_equal. f_equal. unfold XX, lognormal1, lognormal2. f_equal; do 2 f_equal; ring.
  - intros eps He. destruct (clt2 q t c _ Hq Ht Hc H (eps / 2)) as (N & HN); [lra|]. exists N. intros n Hn H0. rewrite lattice_walk by exact H0.
    specialize (HN n Hn ltac:(lia)). assert (E2 : eps / 2 < eps) by lra. eapply Rle_lt_trans; [|exact (Rle_lt_trans _ _ _ HN E2)]. right. f_equal. f_equal.
    set (a := sqrt (t / INR n)). unfold rw2. rewrite (rw_ext n a (fun u => rw n a (fun y => exp (- r * t) * g (XX t u y)) 0) (fun u => exp (- r * t) * rw n a (fun y => g (XX t u y)) 0 + 0 * 0)).
    + rewrite (rw_lin n a (fun u => rw n a (fun y => g (XX t u y)) 0) (fun _ => 0)). ring.
    + intro u. rewrite (rw_ext n a _ (fun y => exp (- r * t) * g (XX t u y) + 0 * 0)) by (intro; ring). rewrite (rw_lin n a (fun y => g (XX t u y)) (fun _ => 0)). ring.
Qed.
End Tree.

Lemma doc_L2 S1 S2 b1 b2 s1 s2 rho t code call Q1 Q2 K K2 g : -1 <= rho <= 1 -> code <> 8%Z ->
  (forall x, doc_payoff code call Q1 Q2 K K2 (fst x) (snd x) = Some (g x)) -> L2 (Rabs s1 + Rabs s2) (fun x y => g (XX S1 S2 b1 b2 s1 s2 rho t x y)).
Proof.
  intros Hr H8 Hg. set (q := Rabs s1 + Rabs s2). pose proof (Rabs_pos s1). pose proof (Rabs_pos s2). assert (Hq : 0 <= q) by (unfold q; lra).
  assert (Hr1 : Rabs rho <= 1) by (apply Rabs_le; lra). assert (Hr2 : sqrt (1 - rho ^ 2) <= 1) by (rewrite <- sqrt_1 at 2; apply sqrt_le_1_alt; pose proof (pow2_ge_0 rho); lra).
  assert (Hr3 := sqrt_pos (1 - rho ^ 2)). assert (B2 : Rabs (s2 * rho) <= Rabs s2) by (rewrite Rabs_mult; pose proof (Rabs_pos rho); nra).
  assert (B3 : Rabs (s2 * sqrt (1 - rho ^ 2)) <= Rabs s2) by (rewrite Rabs_mult, (Rabs_pos_eq (sqrt _)) by exact Hr3; nra).
  assert (X1 : L2 q (fun x y => fst (XX S1 S2 b1 b2 s1 s2 rho t x y))) by (apply L2_exp; unfold q; [lra|rewrite Rabs_R0; lra]).
  assert (X2 : L2 q (fun x y => snd (XX S1 S2 b1 b2 s1 s2 rho t x y))) by (apply L2_exp; unfold q; lra).
  assert (X3 : L2 q (fun x y => Q1 * fst (XX S1 S2 b1 b2 s1 s2 rho t x y) * Q2 * snd (XX S1 S2 b1 b2 s1 s2 rho t x y))).
  { eapply L2_ext; [|apply (L2_exp q (Q1 * S1 * Q2 * S2) ((b1 - s1 ^ 2 / 2) * t + (b2 - s2 ^ 2 / 2) * t) (s1 + s2 * rho) (s2 * sqrt (1 - rho ^ 2)))].
    - intros x y. unfold XX. cbn [fst snd]. set (A1 := (b1 - s1 ^ 2 / 2) * t + s1 * x + 0 * y). set (A2 := (b2 - s2 ^ 2 / 2) * t + s2 * rho * x + s2 * sqrt (1 - rho ^ 2) * y).
      replace ((b1 - s1 ^ 2 / 2) * t + (b2 - s2 ^ 2 / 2) * t + (s1 + s2 * rho) * x + s2 * sqrt (1 - rho ^ 2) * y) with (A1 + A2) by (unfold A1, A2; ring). rewrite exp_plus. ring.
    - eapply Rle_trans; [apply Rabs_triang|]. unfold q. lra.
    - unfold q. lra. }
  set (Z := XX S1 S2 b1 b2 s1 s2 rho t) in *.
  apply (L2_ext q (fun x y => match doc_payoff code call Q1 Q2 K K2 (fst (Z x y)) (snd (Z x y)) with Some v => v | None => 0 end)).
  { intros x y. now rewrite (Hg (Z x y)). }
  specialize (Hg (0, 0)). destruct code as [|p|p]; try discriminate.
  do 4 (try destruct p as [p|p|]); try discriminate; try (now destruct (H8 eq_refl));
    destruct call; cbn [doc_payoff]; repeat (first [exact X1|exact X2|exact X3|apply L2_max|apply L2_min|apply L2_minus|apply L2_plus|apply L2_scal|apply (L2_const q); exact Hq]).
Qed.
