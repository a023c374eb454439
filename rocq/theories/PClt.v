(** A quantitative central limit theorem for symmetric random walks: expectations over n steps of size sqrt (t / n)
    converge to the Gaussian mean, uniformly over functions of exponential growth that are Lipschitz with
    exponential weights.  Used for the limit of the two-asset tree (bitree3d.py). *)
From Coq Require Import Reals List Lra Lia.
From Coquelicot Require Import Coquelicot.
From Verif Require Import Num Py SMonte PCnd PGauss SHeston PHeston PHeston2 PExpect PExpect2 PTrees3 PSpread3.
Open Scope R_scope.

(** ** change of variable *)
Lemma gint_comp f v u k : 0 < u -> gint f v -> gint (fun z => u * f (u * z + k)) v.
Proof.
  intros Hu H eps He. destruct (H eps He) as (M & HM). exists ((Rabs M + Rabs k) / u). intros a b Ha Hb.
  pose proof (Rle_abs M). pose proof (Rle_abs k). pose proof (Rle_abs (- k)) as K. rewrite Rabs_Ropp in K.
  assert (E : u * ((Rabs M + Rabs k) / u) = Rabs M + Rabs k) by (field; lra). set (m := (Rabs M + Rabs k) / u) in *.
  destruct (HM (u * a + k) (u * b + k)) as (I0 & A & B); [nra|nra|]. exists I0. split; [|exact B].
  assert (X := is_RInt_comp_lin f u k a b I0 A). exact X.
Qed.
Lemma npdf_scale u z : npdf (u * z) = npdf z * exp (z ^ 2 * (1 - u ^ 2) / 2).
Proof. unfold npdf. replace (exp (- (u * z) ^ 2 / 2)) with (exp (- z ^ 2 / 2) * exp (z ^ 2 * (1 - u ^ 2) / 2)); [|rewrite <- exp_plus; f_equal; field]. unfold Rdiv. ring. Qed.
Lemma npdf_shift k z : npdf (z - k) = npdf z * exp (k * z - k ^ 2 / 2).
Proof. unfold npdf. replace (exp (- (z - k) ^ 2 / 2)) with (exp (- z ^ 2 / 2) * exp (k * z - k ^ 2 / 2)); [|rewrite <- exp_plus; f_equal; field]. unfold Rdiv. ring. Qed.
Lemma mean_scale f v u : 0 < u -> is_mean f v -> is_mean (fun z => u * f (u * z) * exp (z ^ 2 * (1 - u ^ 2) / 2)) v.
Proof.
  intros Hu H. apply is_mean_gint in H. apply is_mean_gint. assert (X := gint_comp _ v u 0 Hu H). eapply gint_ext; [|exact X].
  intro z. cbv beta. rewrite Rplus_0_r, npdf_scale. ring.
Qed.
Lemma mean_shift f v k : is_mean f v -> is_mean (fun z => f (z - k) * exp (k * z - k ^ 2 / 2)) v.
Proof.
  intro H. apply is_mean_gint in H. apply is_mean_gint. assert (X := gint_comp _ v 1 (- k) Rlt_0_1 H). eapply gint_ext; [|exact X].
  intro z. cbv beta. replace (1 * z + - k) with (z - k) by ring. rewrite npdf_shift. ring.
Qed.
Lemma mean_abs f g v w : (forall z, Rabs (f z) <= g z) -> is_mean f v -> is_mean g w -> Rabs v <= w.
Proof.
  intros H Hf Hg. apply Rabs_le. assert (HN := is_mean_lin _ _ _ _ (-1) 0 Hg Hg). split.
  - apply Rle_trans with (-1 * w + 0 * w); [lra|]. refine (is_mean_le _ _ _ _ _ HN Hf). intro z. cbv beta. specialize (H z). apply Rabs_le_between in H. lra.
  - refine (is_mean_le _ _ _ _ _ Hf Hg). intro z. specialize (H z). apply Rabs_le_between in H. lra.
Qed.
Lemma mean_scal f v a : is_mean f v -> is_mean (fun z => a * f z) (a * v).
Proof. intro H. replace (a * v) with (a * v + 0 * v) by ring. eapply is_mean_ext; [|exact (is_mean_lin _ _ _ _ a 0 H H)]. intro z. cbv beta. ring. Qed.

(** ** elementary estimates *)
Definition ch (x : R) : R := (exp x + exp (- x)) / 2.
Lemma ch_ge_1 x : 1 <= ch x.
Proof.
  unfold ch. pose proof (exp_ineq1_le x). pose proof (exp_ineq1_le (- x)). lra.
Qed.
Lemma exp_m1 x : 0 <= x -> 0 <= exp x - 1 <= x * exp x.
Proof.
  intro H. pose proof (exp_ineq1_le x). pose proof (exp_ineq1_le (- x)). pose proof (exp_pos x).
  assert (E : exp x * exp (- x) = 1) by (rewrite <- exp_plus, Rplus_opp_r; apply exp_0). split; [lra|]. nra.
Qed.
Lemma exp_m2 x : 0 <= x -> 0 <= exp x - 1 - x <= x ^ 2 * exp x.
Proof.
  intros [H|<-]; [|rewrite exp_0; lra]. pose proof (exp_ineq1_le x). split; [lra|].
  destruct (MVT_cor2 (fun y => exp y - y) (fun y => exp y - 1) 0 x H) as (c & E & Hc).
  - intros c Hc. apply is_derive_Reals. auto_derive; [exact Coq.Init.Logic.I|ring].
  - cbv beta in E. rewrite exp_0 in E. pose proof (exp_m1 c ltac:(lra)). pose proof (exp_le c x ltac:(lra)). pose proof (exp_pos c).
    assert (c * exp c <= x * exp x) by nra. nra.
Qed.
Definition sh (x : R) : R := (exp x - exp (- x)) / 2.
Lemma sh_bound x : 0 <= x -> 0 <= sh x <= x * exp x.
Proof.
  intro H. unfold sh. pose proof (exp_le (- x) x ltac:(lra)). split; [lra|].
  assert (E : exp (- x) = exp x * exp (- (2 * x))) by (rewrite <- exp_plus; f_equal; ring). pose proof (exp_ineq1_le (- (2 * x))). pose proof (exp_pos x). nra.
Qed.
Lemma ch_m1 x : 0 <= x -> 0 <= ch x - 1 <= x ^ 2 * exp x.
Proof.
  intros [H|<-]; [|unfold ch; rewrite Ropp_0, exp_0; lra]. pose proof (ch_ge_1 x). split; [lra|].
  destruct (MVT_cor2 ch sh 0 x H) as (c & E & Hc).
  - intros c Hc. apply is_derive_Reals. unfold ch, sh. auto_derive; [exact Coq.Init.Logic.I|field].
  - replace (ch 0) with 1 in E by (unfold ch; rewrite Ropp_0, exp_0; lra). pose proof (sh_bound c ltac:(lra)). pose proof (exp_le c x ltac:(lra)). pose proof (exp_pos c).
    assert (c * exp c <= x * exp x) by nra. nra.
Qed.
Lemma sh_m x : 0 <= x -> 0 <= sh x - x <= x ^ 3 * exp x.
Proof.
  intros [H|<-]; [|unfold sh; rewrite Ropp_0, exp_0; lra].
  destruct (MVT_cor2 (fun y => sh y - y) (fun y => ch y - 1) 0 x H) as (c & E & Hc).
  - intros c Hc. apply is_derive_Reals. unfold ch, sh. auto_derive; [exact Coq.Init.Logic.I|field].
  - cbv beta in E. replace (sh 0) with 0 in E by (unfold sh; rewrite Ropp_0, exp_0; lra). pose proof (ch_m1 c ltac:(lra)). pose proof (exp_le c x ltac:(lra)). pose proof (exp_pos c).
    assert (c ^ 2 * exp c <= x ^ 2 * exp x) by (apply Rmult_le_compat; [apply pow2_ge_0|lra|apply pow_incr; lra|lra]).
    split; [nra|]. replace (x ^ 3 * exp x) with (x ^ 2 * exp x * x) by ring. nra.
Qed.
Lemma ch_m2 x : 0 <= ch x - 1 - x ^ 2 / 2 <= x ^ 4 * exp (Rabs x).
Proof.
  assert (P : forall x, 0 <= x -> 0 <= ch x - 1 - x ^ 2 / 2 <= x ^ 4 * exp x).
  { clear. intros x [H|<-]; [|unfold ch; rewrite Ropp_0, exp_0; lra].
    destruct (MVT_cor2 (fun y => ch y - y ^ 2 / 2) (fun y => sh y - y) 0 x H) as (c & E & Hc).
    - intros c Hc. apply is_derive_Reals. unfold ch, sh. auto_derive; [exact Coq.Init.Logic.I|field].
    - cbv beta in E. replace (ch 0) with 1 in E by (unfold ch; rewrite Ropp_0, exp_0; lra). pose proof (sh_m c ltac:(lra)). pose proof (exp_le c x ltac:(lra)). pose proof (exp_pos c).
      assert (c ^ 3 * exp c <= x ^ 3 * exp x) by (apply Rmult_le_compat; [apply pow_le; lra|lra|apply pow_incr; lra|lra]).
      split; [nra|]. replace (x ^ 4 * exp x) with (x ^ 3 * exp x * x) by ring. nra. }
  unfold Rabs. destruct (Rcase_abs x) as [L|L]; [|apply P; lra].
  specialize (P (- x) ltac:(lra)). replace ((- x) ^ 2) with (x ^ 2) in P by ring. replace ((- x) ^ 4) with (x ^ 4) in P by ring.
  replace (ch (- x)) with (ch x) in P by (unfold ch; rewrite Ropp_involutive; lra). exact P.
Qed.

(** difference of the two one-step densities, relative to the standard normal one; [s] is the ratio of the step's variance *)
Definition kern (s z : R) : R := exp (- s / 2) * ch (sqrt s * z) - / sqrt (1 + s) * exp (z ^ 2 * (s / (1 + s)) / 2).
Lemma kern_bound s z : 0 <= s <= 1 / 2 -> Rabs (kern s z) <= 6 * s ^ 2 * (1 + z ^ 4) * exp (z ^ 2 / 6).
Proof.
  intro Hs. unfold kern. set (E := exp (z ^ 2 / 6)). set (Z := z ^ 2). assert (HZ : 0 <= Z) by apply pow2_ge_0. replace (z ^ 4) with (Z ^ 2) by (unfold Z; ring).
  assert (HE : 1 <= E) by (unfold E; rewrite <- exp_0; apply exp_le; fold Z; lra).
  (* exp (- s / 2) *)
  set (e := exp (- s / 2)). assert (He : e <= 1) by (unfold e; rewrite <- exp_0; apply exp_le; lra). assert (He0 : 0 < e) by apply exp_pos.
  assert (R1 : 0 <= e - 1 + s / 2 <= s ^ 2 / 4).
  { unfold e. pose proof (exp_ineq1_le (- s / 2)). split; [lra|]. pose proof (exp_ineq1_le (s / 2)).
    assert (X : exp (- s / 2) * exp (s / 2) = 1) by (rewrite <- exp_plus; replace (- s / 2 + s / 2) with 0 by field; apply exp_0). fold e in X |- *. nra. }
  (* cosh *)
  assert (R2 := ch_m2 (sqrt s * z)). set (c := ch (sqrt s * z)) in *.
  assert (S2 : (sqrt s * z) ^ 2 = s * Z) by (unfold Z; rewrite Rpow_mult_distr, pow2_sqrt by lra; reflexivity).
  replace ((sqrt s * z) ^ 4) with (s ^ 2 * Z ^ 2) in R2 by (replace ((sqrt s * z) ^ 4) with (((sqrt s * z) ^ 2) ^ 2) by ring; rewrite S2; ring). rewrite S2 in R2.
  assert (X2 : exp (Rabs (sqrt s * z)) <= 3 * E).
  { apply Rle_trans with (exp (1 + z ^ 2 / 6)).
    - apply exp_le. fold Z. apply Rsqr_incr_0_var; [|lra]. rewrite <- Rsqr_abs. rewrite Rsqr_pow2, S2, Rsqr_pow2. nra.
    - rewrite exp_plus. fold E. pose proof exp_le_3. nra. }
  (* sqrt *)
  set (l := / sqrt (1 + s)). assert (Hl2 : l ^ 2 * (1 + s) = 1) by (unfold l; rewrite pow_inv, pow2_sqrt by lra; field; lra).
  assert (Hl0 : 0 < l) by (unfold l; apply Rinv_0_lt_compat, sqrt_lt_R0; lra).
  assert (R3 : 0 <= l - 1 + s / 2 <= s ^ 2).
  { split.
    - assert ((1 - s / 2) <= l); [|lra]. apply Rsqr_incr_0_var; [|lra]. rewrite !Rsqr_pow2.
      apply Rmult_le_reg_r with (1 + s); [lra|]. rewrite Hl2. nra.
    - assert (l <= 1 - s / 2 + s ^ 2); [|lra]. apply Rsqr_incr_0_var; [|nra]. rewrite !Rsqr_pow2.
      apply Rmult_le_reg_r with (1 + s); [lra|]. rewrite Hl2. replace ((1 - s / 2 + s ^ 2) ^ 2 * (1 + s)) with (1 + (5 / 4 * s ^ 2 + 5 / 4 * s ^ 3 + s ^ 5)) by field.
      assert (0 <= s ^ 2) by (apply pow_le; lra). assert (0 <= s ^ 3) by (apply pow_le; lra). assert (0 <= s ^ 5) by (apply pow_le; lra). lra. }
  assert (Hl1 : l <= 1) by (destruct (Rle_or_lt l 1) as [?|L]; [assumption|exfalso; assert (1 < l ^ 2) by nra; nra]).
  (* exp y *)
  set (y := Z * (s / (1 + s)) / 2). assert (Hss : 0 <= s / (1 + s) <= s) by (split; [apply Rmult_le_pos; [lra|apply Rlt_le, Rinv_0_lt_compat; lra]|apply Rmult_le_reg_r with (1 + s); [lra|]; unfold Rdiv; rewrite Rmult_assoc, Rinv_l by lra; nra]).
  assert (Hs3 : s / (1 + s) <= 1 / 3) by (apply Rmult_le_reg_r with (1 + s); [lra|]; unfold Rdiv; rewrite Rmult_assoc, Rinv_l by lra; lra).
  assert (Hsd : 0 <= s - s / (1 + s) <= s ^ 2).
  { replace (s - s / (1 + s)) with (s * (s / (1 + s))) by (field; lra). nra. }
  set (k := s / (1 + s)) in *.
  assert (Hy : 0 <= y) by (unfold y; nra). assert (Hy6 : exp y <= E) by (unfold E, y; apply exp_le; fold Z; nra).
  assert (R4 := exp_m2 y Hy). set (ey := exp y) in *.
  assert (Hyb : y <= s * Z / 2) by (unfold y; nra). assert (Hys : y ^ 2 <= s ^ 2 * Z ^ 2 / 4) by (replace (s ^ 2 * Z ^ 2 / 4) with ((s * Z / 2) ^ 2) by field; apply pow_incr; lra).
  assert (Hyd : 0 <= s * Z / 2 - y <= s ^ 2 * Z / 2) by (unfold y; nra).
  assert (HZ1 : Z <= (1 + Z ^ 2) / 2) by (pose proof (pow2_ge_0 (Z - 1)) as Q; replace ((Z - 1) ^ 2) with (Z ^ 2 - 2 * Z + 1) in Q by ring; lra).
  set (P := s ^ 2 * (1 + Z ^ 2) * E). assert (Hs2 : 0 <= s ^ 2) by apply pow2_ge_0. assert (HZ2 : 0 <= Z ^ 2) by apply pow2_ge_0.
  assert (PA : s ^ 2 <= P) by (unfold P; assert (1 <= (1 + Z ^ 2) * E) by nra; nra).
  assert (PB : s ^ 2 * Z <= P / 2) by (unfold P; assert (Z <= (1 + Z ^ 2) / 2 * E) by nra; nra).
  assert (PC : s ^ 2 * Z ^ 2 * E <= P) by (unfold P; assert (0 <= s ^ 2 * E) by nra; nra).
  replace (6 * s ^ 2 * (1 + Z ^ 2) * E) with (6 * P) by (unfold P; ring).
  (* first part *)
  assert (A : - (P / 8) <= e * c - (1 - s / 2 + s * Z / 2) <= (1 / 4 + 1 / 32 + 3) * P).
  { replace (e * c - (1 - s / 2 + s * Z / 2)) with (- (s ^ 2 * Z / 4) + (e - 1 + s / 2) * (1 + s * Z / 2) + e * (c - 1 - s * Z / 2)) by field.
    set (r1 := e - 1 + s / 2) in *. set (r2 := c - 1 - s * Z / 2) in *.
    assert (B2 : 0 <= e * r2 <= 3 * P) by (split; [nra|]; apply Rle_trans with r2; [nra|]; apply Rle_trans with (s ^ 2 * Z ^ 2 * (3 * E)); [nra|nra]).
    assert (B1 : 0 <= r1 * (1 + s * Z / 2) <= s ^ 2 / 4 * (1 + s * Z / 2)) by (assert (0 <= s * Z) by nra; split; [nra|apply Rmult_le_compat_r; lra]).
    assert (B3 : s ^ 2 / 4 * (1 + s * Z / 2) <= s ^ 2 / 4 + s ^ 2 * Z / 16) by (assert (0 <= s ^ 2 * Z) by nra; nra).
    assert (0 <= s ^ 2 * Z) by nra. split; lra. }
  assert (B : - (P / 2) <= l * ey - (1 - s / 2 + s * Z / 2) <= (1 + 1 / 4) * P).
  { replace (l * ey - (1 - s / 2 + s * Z / 2)) with ((l - 1 + s / 2) - l * (s * Z / 2 - y) - (1 - l) * (s * Z / 2) + l * (ey - 1 - y)) by field.
    set (r3 := l - 1 + s / 2) in *. set (r4 := ey - 1 - y) in *.
    assert (B4 : 0 <= l * r4 <= P / 4).
    { split; [nra|]. apply Rle_trans with r4; [nra|]. apply Rle_trans with (s ^ 2 * Z ^ 2 / 4 * E); [|lra]. apply Rle_trans with (y ^ 2 * ey); [lra|].
      apply Rmult_le_compat; [apply pow2_ge_0|unfold ey; apply Rlt_le, exp_pos|lra|lra]. }
    assert (B5 : 0 <= l * (s * Z / 2 - y) <= s ^ 2 * Z / 2) by nra.
    assert (Hl' : 0 <= 1 - l <= s / 2) by (unfold r3 in R3; lra).
    assert (B6 : 0 <= (1 - l) * (s * Z / 2) <= s ^ 2 * Z / 4) by (assert (0 <= s * Z) by nra; split; [nra|replace (s ^ 2 * Z / 4) with (s / 2 * (s * Z / 2)) by field; apply Rmult_le_compat_r; lra]).
    split; lra. }
  apply Rabs_le. split; lra.
Qed.

(** ** the weight of the kernel has a mean *)
Lemma pow4_le x : x ^ 4 <= 256 * exp (Rabs x).
Proof.
  assert (H : Rabs x / 4 <= exp (Rabs x / 4)) by (pose proof (exp_ineq1_le (Rabs x / 4)); lra). pose proof (Rabs_pos x).
  assert (Q : (Rabs x / 4) ^ 4 <= exp (Rabs x / 4) ^ 4) by (apply pow_incr; lra).
  replace (exp (Rabs x / 4) ^ 4) with (exp (Rabs x)) in Q by (cbn; rewrite Rmult_1_r, <- !exp_plus; f_equal; field).
  replace (x ^ 4) with (Rabs x ^ 4); [|replace (Rabs x ^ 4) with ((Rabs x ^ 2) ^ 2) by ring; rewrite pow2_abs; ring]. replace ((Rabs x / 4) ^ 4) with (Rabs x ^ 4 / 256) in Q by field. lra.
Qed.
Lemma cont_exp_abs q : 0 <= q -> cont (fun z => exp (q * Rabs z)).
Proof.
  intro Hq. apply (lip_cont _ q q Hq). intros z z'. eapply Rle_trans; [apply exp_lip|]. apply Rmult_le_compat_r; [pose proof (exp_pos (q * Rabs z)); pose proof (exp_pos (q * Rabs z')); lra|].
  rewrite <- Rmult_minus_distr_l, Rabs_mult, (Rabs_pos_eq q Hq). apply Rmult_le_compat_l; [exact Hq|]. apply Rabs_triang_inv2.
Qed.
Lemma mean_kern q : 0 <= q -> exists M, 0 <= M /\ is_mean (fun z => exp (q * Rabs z) * (1 + z ^ 4) * exp (z ^ 2 / 6)) M.
Proof.
  intro Hq. set (u := sqrt (2 / 3)). assert (Hu : 0 < u) by (apply sqrt_lt_R0; lra). assert (Hu2 : u ^ 2 = 2 / 3) by (unfold u; rewrite pow2_sqrt; lra).
  destruct (mean_exists (fun y => exp (q / u * Rabs y) * (1 + (/ u * y) ^ 4)) 257 ((q + 1) / u)) as (v & Hv).
  - lra.
  - intro z. apply (continuous_mult (K := R_AbsRing) (fun y => exp (q / u * Rabs y)) (fun y => 1 + (/ u * y) ^ 4)).
    + apply cont_exp_abs. apply Rmult_le_pos; [exact Hq|apply Rlt_le, Rinv_0_lt_compat, Hu].
    + apply (ex_derive_continuous (fun y => 1 + (/ u * y) ^ 4)). auto_derive. exact Coq.Init.Logic.I.
  - intro z. assert (Hi : 0 < / u) by now apply Rinv_0_lt_compat. pose proof (exp_pos (q / u * Rabs z)) as He.
    assert (Hp : 0 <= (/ u * z) ^ 4) by (replace ((/ u * z) ^ 4) with (((/ u * z) ^ 2) ^ 2) by ring; apply pow2_ge_0).
    rewrite Rabs_pos_eq by nra. apply Rle_trans with (257 * exp ((q + 1) / u * Rabs z)).
    + replace ((q + 1) / u * Rabs z) with (q / u * Rabs z + Rabs (/ u * z)) by (rewrite Rabs_mult, (Rabs_pos_eq (/ u)) by lra; field; lra). rewrite exp_plus.
      pose proof (pow4_le (/ u * z)). pose proof (exp_ineq1_le (Rabs (/ u * z))). pose proof (Rabs_pos (/ u * z)). nra.
    + apply Rmult_le_compat_l; [lra|]. apply exp_abs_le. apply Rmult_le_pos; [lra|lra].
  - assert (X := mean_scal _ _ (/ u) (mean_scale _ _ u Hu Hv)). exists (/ u * v). split.
    + apply Rle_trans with (0 * 1 + 0 * 1); [lra|]. refine (is_mean_le _ _ _ _ _ (is_mean_lin _ _ _ _ 0 0 mean_1 mean_1) X). intro z. cbv beta.
      rewrite <- Rmult_assoc, <- Rmult_assoc, Rinv_l, Rmult_1_l by lra.
      assert (0 <= (/ u * (u * z)) ^ 4) by (replace ((/ u * (u * z)) ^ 4) with (((/ u * (u * z)) ^ 2) ^ 2) by ring; apply pow2_ge_0).
      pose proof (exp_pos (q / u * Rabs (u * z))). pose proof (exp_pos (z ^ 2 * (1 - u ^ 2) / 2)). assert (0 <= exp (q / u * Rabs (u * z)) * (1 + (/ u * (u * z)) ^ 4)) by nra. nra.
    + eapply is_mean_ext; [|exact X]. intro z. cbv beta. rewrite Hu2. replace (z ^ 2 * (1 - 2 / 3) / 2) with (z ^ 2 / 6) by field.
      replace (/ u * (u * z)) with z by (field; lra). rewrite Rabs_mult, (Rabs_pos_eq u) by lra. replace (q / u * (u * Rabs z)) with (q * Rabs z) by (field; lra). field. lra.
Qed.

(** ** Gaussian averages *)
Definition lip (c q : R) (h : R -> R) : Prop :=
  (forall w, Rabs (h w) <= c * exp (q * Rabs w)) /\
  (forall w w', Rabs (h w - h w') <= c * Rabs (w - w') * (exp (q * Rabs w) + exp (q * Rabs w'))).
Definition Gs (o : R) (h : R -> R) (w : R) : R := Tm (fun z => h (w + o * z)).
Lemma exp_abs_sum q w o z : 0 <= q -> 0 <= o -> exp (q * Rabs (w + o * z)) <= exp (q * Rabs w) * exp (q * o * Rabs z).
Proof.
  intros Hq Ho. rewrite <- exp_plus. apply exp_le. pose proof (Rabs_triang w (o * z)) as H. rewrite (Rabs_mult o), (Rabs_pos_eq o Ho) in H. nra.
Qed.
Lemma Gs_mean c q h o w : 0 <= c -> 0 <= q -> 0 <= o -> lip c q h -> is_mean (fun z => h (w + o * z)) (Gs o h w).
Proof.
  intros Hc Hq Ho [A B]. destruct (mean_exists (fun z => h (w + o * z)) (c * exp (q * Rabs w)) (q * o)) as (v & Hv).
  - apply Rmult_le_pos; [exact Hc|apply Rlt_le, exp_pos].
  - intro z. apply (continuous_comp (fun z => w + o * z) h).
    + apply (ex_derive_continuous (fun z => w + o * z)). auto_derive. exact Coq.Init.Logic.I.
    + apply (lip_cont h c q Hc B).
  - intro z. eapply Rle_trans; [apply A|]. rewrite Rmult_assoc. apply Rmult_le_compat_l; [exact Hc|]. eapply Rle_trans; [apply exp_abs_sum; assumption|].
    apply Rmult_le_compat_l; [apply Rlt_le, exp_pos|]. apply exp_abs_le. nra.
  - unfold Gs. now rewrite (Tm_val _ v Hv).
Qed.
Lemma Gs_0 h w : Gs 0 h w = h w.
Proof. unfold Gs. apply Tm_val. replace (h w) with (h w * 1) at 1 by ring. eapply is_mean_ext; [|exact (mean_scal _ _ (h w) mean_1)]. intro z. cbv beta. rewrite Rmult_0_l, Rplus_0_r. ring. Qed.

(** one step of the walk against one step of Gaussian averaging *)
Lemma one_step c q h o a w Q M : 0 <= c -> 0 <= q -> 0 < o -> 0 <= a -> a ^ 2 <= o ^ 2 / 2 -> q * o <= Q -> lip c q h ->
  is_mean (fun z => exp (Q * Rabs z) * (1 + z ^ 4) * exp (z ^ 2 / 6)) M ->
  Rabs ((Gs o h (w + a) + Gs o h (w - a)) / 2 - Gs (sqrt (o ^ 2 + a ^ 2)) h w) <= c * exp (q * Rabs w) * (6 * (a ^ 2 / o ^ 2) ^ 2) * M.
Proof.
  intros Hc Hq Ho Ha Hao HQ Hh HM. set (k := a / o). assert (Hk : 0 <= k) by (apply Rmult_le_pos; [exact Ha|apply Rlt_le, Rinv_0_lt_compat, Ho]).
  set (s := k ^ 2). assert (Hs : s = a ^ 2 / o ^ 2) by (unfold s, k; field; lra). assert (Ho2 : 0 < o ^ 2) by nra.
  assert (Hs2 : 0 <= s <= 1 / 2).
  { split; [apply pow2_ge_0|]. rewrite Hs. apply Rmult_le_reg_r with (o ^ 2); [exact Ho2|]. unfold Rdiv. rewrite Rmult_assoc, Rinv_l by lra. lra. }
  assert (Hks : sqrt s = k) by (unfold s; now apply sqrt_pow2).
  set (o' := sqrt (o ^ 2 + a ^ 2)). assert (Hpos : 0 < o ^ 2 + a ^ 2) by (pose proof (pow2_ge_0 a); lra).
  assert (Ho' : 0 < o') by now apply sqrt_lt_R0. assert (Ho'2 : o' ^ 2 = o ^ 2 + a ^ 2) by (unfold o'; rewrite pow2_sqrt; lra).
  set (l := / sqrt (1 + s)). assert (H1s : 0 < sqrt (1 + s)) by (apply sqrt_lt_R0; lra). assert (Hl : 0 < l) by now apply Rinv_0_lt_compat.
  assert (Hlo : o' = o * sqrt (1 + s)).
  { unfold o'. replace (o ^ 2 + a ^ 2) with (o ^ 2 * (1 + s)) by (rewrite Hs; field; lra). rewrite sqrt_mult by lra. rewrite sqrt_pow2 by lra. reflexivity. }
  assert (Hl2 : 1 - l ^ 2 = s / (1 + s)) by (unfold l; rewrite pow_inv, pow2_sqrt by lra; field; lra).
  assert (P1 := mean_shift _ _ k (Gs_mean c q h o (w + a) Hc Hq (Rlt_le _ _ Ho) Hh)).
  assert (P2 := mean_shift _ _ (- k) (Gs_mean c q h o (w - a) Hc Hq (Rlt_le _ _ Ho) Hh)).
  assert (P3 := mean_scale _ _ l Hl (Gs_mean c q h o' w Hc Hq (Rlt_le _ _ Ho') Hh)). cbv beta in P1, P2, P3.
  assert (P4 := is_mean_lin _ _ _ _ 1 (-1) (is_mean_lin _ _ _ _ (1 / 2) (1 / 2) P1 P2) P3). cbv beta in P4.
  assert (P5 : is_mean (fun z => h (w + o * z) * kern s z) ((Gs o h (w + a) + Gs o h (w - a)) / 2 - Gs o' h w)).
  { replace ((Gs o h (w + a) + Gs o h (w - a)) / 2 - Gs o' h w) with (1 * (1 / 2 * Gs o h (w + a) + 1 / 2 * Gs o h (w - a)) + -1 * Gs o' h w) by field.
    eapply is_mean_ext; [|exact P4]. intro z. cbv beta. unfold kern. rewrite Hks. fold l.
    replace (w + a + o * (z - k)) with (w + o * z) by (unfold k; field; lra). replace (w - a + o * (z - - k)) with (w + o * z) by (unfold k; field; lra).
    replace (o' * (l * z)) with (o * z) by (rewrite Hlo; unfold l; field; lra). rewrite Hl2.
    replace (exp (k * z - k ^ 2 / 2)) with (exp (- s / 2) * exp (k * z)) by (rewrite <- exp_plus; unfold s; f_equal; field).
    replace (exp (- k * z - (- k) ^ 2 / 2)) with (exp (- s / 2) * exp (- (k * z))) by (rewrite <- exp_plus; unfold s; f_equal; field). unfold ch. field. }
  rewrite <- Hs. eapply mean_abs; [|exact P5|exact (mean_scal _ _ (c * exp (q * Rabs w) * (6 * s ^ 2)) HM)]. intro z. cbv beta. rewrite Rabs_mult.
  destruct Hh as [A _]. pose proof (kern_bound s z Hs2) as KB.
  assert (AB : Rabs (h (w + o * z)) <= c * (exp (q * Rabs w) * exp (Q * Rabs z))).
  { eapply Rle_trans; [apply A|]. apply Rmult_le_compat_l; [exact Hc|]. eapply Rle_trans; [apply exp_abs_sum; lra|]. apply Rmult_le_compat_l; [apply Rlt_le, exp_pos|].
    apply exp_le. apply Rmult_le_compat_r; [apply Rabs_pos|exact HQ]. }
  eapply Rle_trans; [apply Rmult_le_compat; [apply Rabs_pos|apply Rabs_pos|exact AB|exact KB]|]. right. ring.
Qed.

(** dependence on the standard deviation *)
Lemma Gs_lip_sd c q h o o' w B M : 0 <= c -> 0 <= q -> 0 <= o <= B -> 0 <= o' <= B -> lip c q h -> is_mean (fun z => exp ((q * B + 1) * Rabs z)) M ->
  Rabs (Gs o h w - Gs o' h w) <= c * Rabs (o - o') * exp (q * Rabs w) * (2 * M).
Proof.
  intros Hc Hq Ho Ho' Hh HM. assert (P := is_mean_lin _ _ _ _ 1 (-1) (Gs_mean c q h o w Hc Hq (proj1 Ho) Hh) (Gs_mean c q h o' w Hc Hq (proj1 Ho') Hh)).
  replace (Gs o h w - Gs o' h w) with (1 * Gs o h w + -1 * Gs o' h w) by ring.
  replace (c * Rabs (o - o') * exp (q * Rabs w) * (2 * M)) with (c * Rabs (o - o') * exp (q * Rabs w) * 2 * M) by ring.
  eapply mean_abs; [|exact P|exact (mean_scal _ _ _ HM)]. intro z. cbv beta. destruct Hh as [_ L]. specialize (L (w + o * z) (w + o' * z)).
  replace (1 * h (w + o * z) + -1 * h (w + o' * z)) with (h (w + o * z) - h (w + o' * z)) by ring. eapply Rle_trans; [exact L|].
  replace (w + o * z - (w + o' * z)) with ((o - o') * z) by ring. rewrite Rabs_mult.
  assert (E : forall u, 0 <= u <= B -> exp (q * Rabs (w + u * z)) <= exp (q * Rabs w) * exp (q * B * Rabs z)).
  { intros u Hu. eapply Rle_trans; [apply exp_abs_sum; lra|]. apply Rmult_le_compat_l; [apply Rlt_le, exp_pos|]. apply exp_le. pose proof (Rabs_pos z). apply Rmult_le_compat_r; [assumption|]. apply Rmult_le_compat_l; lra. }
  pose proof (E o Ho). pose proof (E o' Ho'). pose proof (Rabs_pos (o - o')). pose proof (Rabs_pos z).
  replace ((q * B + 1) * Rabs z) with (q * B * Rabs z + Rabs z) by ring. rewrite exp_plus. pose proof (exp_ineq1_le (Rabs z)).
  set (W := exp (q * Rabs w)) in *. set (X := exp (q * B * Rabs z)) in *. assert (0 < W) by apply exp_pos. assert (0 < X) by apply exp_pos.
  apply Rle_trans with (c * (Rabs (o - o') * Rabs z) * (2 * (W * X))).
  - apply Rmult_le_compat_l; [|lra]. apply Rmult_le_pos; [exact Hc|nra].
  - replace (c * (Rabs (o - o') * Rabs z) * (2 * (W * X))) with (c * Rabs (o - o') * W * 2 * X * Rabs z) by ring.
    replace (c * Rabs (o - o') * W * 2 * (X * exp (Rabs z))) with (c * Rabs (o - o') * W * 2 * X * exp (Rabs z)) by ring.
    apply Rmult_le_compat_l; [|lra]. assert (0 <= c * Rabs (o - o')) by nra. assert (0 <= c * Rabs (o - o') * W) by nra. nra.
Qed.

(** ** the walk *)
Fixpoint rw (n : nat) (a : R) (h : R -> R) (w : R) : R :=
  match n with O => h w | S n' => (rw n' a h (w + a) + rw n' a h (w - a)) / 2 end.
Lemma rw_ext n a f g w : (forall x, f x = g x) -> rw n a f w = rw n a g w.
Proof. intro H. revert w. induction n as [|n IH]; intro w; cbn; [apply H|]. now rewrite !IH. Qed.
Lemma rw_lin n a f g x y w : rw n a (fun u => x * f u + y * g u) w = x * rw n a f w + y * rw n a g w.
Proof. revert w. induction n as [|n IH]; intro w; cbn; [reflexivity|]. rewrite !IH. field. Qed.
Lemma rw_le n a f g w : (forall x, f x <= g x) -> rw n a f w <= rw n a g w.
Proof. intro H. revert w. induction n as [|n IH]; intro w; cbn; [apply H|]. pose proof (IH (w + a)). pose proof (IH (w - a)). lra. Qed.
Lemma rw_abs n a f g w : (forall x, Rabs (f x) <= g x) -> Rabs (rw n a f w) <= rw n a g w.
Proof.
  intro H. apply Rabs_le. split.
  - replace (- rw n a g w) with (-1 * rw n a g w + 0 * rw n a g w) by ring. rewrite <- rw_lin. apply rw_le. intro x. specialize (H x). apply Rabs_le_between in H. lra.
  - apply rw_le. intro x. specialize (H x). apply Rabs_le_between in H. lra.
Qed.
Definition vq (q w : R) : R := exp (q * w) + exp (- q * w).
Lemma vq_pos q w : 0 < vq q w. Proof. unfold vq. pose proof (exp_pos (q * w)). pose proof (exp_pos (- q * w)). lra. Qed.
Lemma vq_step q a w : (vq q (w + a) + vq q (w - a)) / 2 = ch (q * a) * vq q w.
Proof.
  unfold vq, ch. replace (q * (w + a)) with (q * w + q * a) by ring. replace (- q * (w + a)) with (- q * w + - (q * a)) by ring.
  replace (q * (w - a)) with (q * w + - (q * a)) by ring. replace (- q * (w - a)) with (- q * w + q * a) by ring. rewrite !exp_plus. field.
Qed.
Lemma rw_vq n q a w : rw n a (vq q) w = ch (q * a) ^ n * vq q w.
Proof. revert w. induction n as [|n IH]; intro w; cbn [rw pow]; [ring|]. rewrite !IH. transitivity (ch (q * a) ^ n * ((vq q (w + a) + vq q (w - a)) / 2)); [field|]. rewrite vq_step. ring. Qed.
Lemma rw_weight n q a w : 0 <= q -> rw n a (fun x => exp (q * Rabs x)) w <= ch (q * a) ^ n * vq q w.
Proof. intro Hq. rewrite <- rw_vq. apply rw_le. intro x. now apply exp_abs_le. Qed.

Lemma telescope c q h o a B M k : 0 <= c -> 0 <= q -> 0 < o -> 0 <= a -> a ^ 2 <= o ^ 2 / 2 -> o ^ 2 + INR k * a ^ 2 <= B ^ 2 -> 0 <= B -> lip c q h -> 0 <= M ->
  is_mean (fun z => exp (q * B * Rabs z) * (1 + z ^ 4) * exp (z ^ 2 / 6)) M -> forall w,
  Rabs (rw k a (Gs o h) w - Gs (sqrt (o ^ 2 + INR k * a ^ 2)) h w) <= INR k * (c * (6 * (a ^ 2 / o ^ 2) ^ 2) * M) * (ch (q * a) ^ k * vq q w).
Proof.
  intros Hc Hq Ho Ha Hao HB HB0 Hh HM0 HM. set (D := c * (6 * (a ^ 2 / o ^ 2) ^ 2) * M).
  assert (HD : 0 <= D) by (unfold D; pose proof (pow2_ge_0 (a ^ 2 / o ^ 2)); apply Rmult_le_pos; [nra|exact HM0]).
  assert (Ha2 := pow2_ge_0 a). assert (Ho2 : 0 < o ^ 2) by nra.
  induction k as [|k IH]; intro w.
  - cbn [rw INR]. rewrite !Rmult_0_l, Rplus_0_r, sqrt_pow2 by lra. rewrite Rminus_eq_0, Rabs_R0. lra.
  - rewrite S_INR in HB |- *. assert (HB' : o ^ 2 + INR k * a ^ 2 <= B ^ 2) by (pose proof (pos_INR k); nra). specialize (IH HB').
    cbn [rw]. change (ch (q * a) ^ S k) with (ch (q * a) * ch (q * a) ^ k). set (ok := sqrt (o ^ 2 + INR k * a ^ 2)) in *. pose proof (pos_INR k) as Hk0. assert (Hka : 0 <= INR k * a ^ 2) by nra.
    assert (Hok2 : ok ^ 2 = o ^ 2 + INR k * a ^ 2) by (unfold ok; rewrite pow2_sqrt; lra). assert (Hok : 0 < ok) by (apply sqrt_lt_R0; lra).
    assert (HokB : ok <= B) by (apply Rsqr_incr_0_var; [rewrite !Rsqr_pow2; lra|exact HB0]).
    assert (Hoko : o ^ 2 <= ok ^ 2) by lra.
    assert (OS := one_step c q h ok a w (q * B) M Hc Hq Hok Ha ltac:(lra) ltac:(apply Rmult_le_compat_l; lra) Hh HM).
    replace (ok ^ 2 + a ^ 2) with (o ^ 2 + (INR k + 1) * a ^ 2) in OS by (rewrite Hok2; ring). set (o1 := sqrt (o ^ 2 + (INR k + 1) * a ^ 2)) in *.
    pose proof (IH (w + a)) as I1. pose proof (IH (w - a)) as I2. set (r1 := rw k a (Gs o h) (w + a)) in *. set (r2 := rw k a (Gs o h) (w - a)) in *.
    assert (OS' : Rabs ((Gs ok h (w + a) + Gs ok h (w - a)) / 2 - Gs o1 h w) <= D * (ch (q * a) * ch (q * a) ^ k * vq q w)).
    { eapply Rle_trans; [exact OS|]. apply Rle_trans with (D * vq q w).
      - unfold D. pose proof (exp_abs_le q w Hq) as W. fold (vq q w) in W. pose proof (exp_pos (q * Rabs w)).
        assert (F : (a ^ 2 / ok ^ 2) ^ 2 <= (a ^ 2 / o ^ 2) ^ 2).
        { apply pow_incr. split; [apply Rmult_le_pos; [exact Ha2|apply Rlt_le, Rinv_0_lt_compat; lra]|]. apply Rmult_le_compat_l; [exact Ha2|]. apply Rinv_le_contravar; lra. }
        pose proof (pow2_ge_0 (a ^ 2 / ok ^ 2)). set (f1 := (a ^ 2 / ok ^ 2) ^ 2) in *. set (f2 := (a ^ 2 / o ^ 2) ^ 2) in *.
        replace (c * exp (q * Rabs w) * (6 * f1) * M) with (c * 6 * M * (exp (q * Rabs w) * f1)) by ring. replace (c * (6 * f2) * M * vq q w) with (c * 6 * M * (vq q w * f2)) by ring.
        apply Rmult_le_compat_l; [apply Rmult_le_pos; [lra|exact HM0]|]. apply Rmult_le_compat; lra.
      - apply Rmult_le_compat_l; [exact HD|]. pose proof (vq_pos q w). assert (1 <= ch (q * a) * ch (q * a) ^ k) by (change (1 <= ch (q * a) ^ S k); apply pow_R1_Rle, ch_ge_1). nra. }
    assert (AV : Rabs ((r1 + r2) / 2 - (Gs ok h (w + a) + Gs ok h (w - a)) / 2) <= INR k * D * (ch (q * a) * ch (q * a) ^ k * vq q w)).
    { apply Rle_trans with (INR k * D * (ch (q * a) ^ k * vq q (w + a)) / 2 + INR k * D * (ch (q * a) ^ k * vq q (w - a)) / 2).
      - apply Rabs_le_between in I1, I2. apply Rabs_le. split; lra.
      - right. transitivity (INR k * D * ch (q * a) ^ k * ((vq q (w + a) + vq q (w - a)) / 2)); [field|]. rewrite vq_step. ring. }
    clear OS I1 I2 IH. set (Y := ch (q * a) * ch (q * a) ^ k * vq q w) in *. replace ((INR k + 1) * D * Y) with (INR k * D * Y + D * Y) by ring.
    set (Y1 := INR k * D * Y) in *. set (Y2 := D * Y) in *. apply Rabs_le_between in OS', AV. apply Rabs_le. split; lra.
Qed.

Lemma sqrt_diff t d : 0 <= t -> 0 <= d -> Rabs (sqrt (d ^ 2 + t) - sqrt t) <= d.
Proof.
  intros Ht Hd. pose proof (sqrt_pos t). assert (sqrt t <= sqrt (d ^ 2 + t)) by (apply sqrt_le_1_alt; pose proof (pow2_ge_0 d); lra).
  rewrite Rabs_pos_eq by lra. assert (sqrt (d ^ 2 + t) <= d + sqrt t); [|lra]. apply Rsqr_incr_0_var; [|lra]. rewrite !Rsqr_pow2, pow2_sqrt by (pose proof (pow2_ge_0 d); lra).
  replace ((d + sqrt t) ^ 2) with (d ^ 2 + 2 * d * sqrt t + sqrt t ^ 2) by ring. rewrite pow2_sqrt by lra. nra.
Qed.
Lemma ch_pow_le q t n : (0 < n)%nat -> 0 <= t -> ch (q * sqrt (t / INR n)) ^ n <= exp (q ^ 2 * t / 2).
Proof.
  intros Hn Ht. assert (0 < INR n) by now apply lt_0_INR. assert (Htn : 0 <= t / INR n) by (apply Rmult_le_pos; [exact Ht|apply Rlt_le, Rinv_0_lt_compat; lra]).
  apply Rle_trans with (exp (q ^ 2 * (t / INR n) / 2) ^ n).
  - apply pow_incr. split; [pose proof (ch_ge_1 (q * sqrt (t / INR n))); lra|]. eapply Rle_trans; [apply cosh_le|]. rewrite Rpow_mult_distr, pow2_sqrt by exact Htn. lra.
  - rewrite exp_pow. right. f_equal. field. lra.
Qed.

Theorem clt q t : 0 <= q -> 0 < t -> forall eps, 0 < eps -> exists N, forall n, (N <= n)%nat -> (0 < n)%nat -> forall c h, 0 <= c -> lip c q h ->
  Rabs (rw n (sqrt (t / INR n)) h 0 - Gs (sqrt t) h 0) <= eps * c.
Proof.
  intros Hq Ht eps He. set (B := sqrt (t + 1)). assert (HB0 : 0 <= B) by apply sqrt_pos. assert (HB2 : B ^ 2 = t + 1) by (unfold B; rewrite pow2_sqrt; lra).
  assert (HqB : 0 <= q * B) by nra.
  destruct (mean_kern (q * B) HqB) as (M & HM0 & HM). destruct (mean_wt (q * B + 1) ltac:(lra)) as (M1 & HM10 & HM1).
  set (X := exp (q ^ 2 * t / 2)). assert (HX : 1 <= X) by (unfold X; rewrite <- exp_0; apply exp_le; pose proof (pow2_ge_0 q); nra).
  set (C1 := 4 * M1 * X + 2 * M1 + 1). assert (HC1 : 0 < C1) by (unfold C1; assert (0 <= M1 * X) by nra; lra).
  set (o := Rmin 1 (eps / 2 / C1)). assert (Ho : 0 < o) by (apply Rmin_glb_lt; [lra|apply Rdiv_lt_0_compat; lra]).
  assert (Ho1 : o <= 1) by apply Rmin_l. assert (HoC : o * C1 <= eps / 2).
  { apply Rle_trans with (eps / 2 / C1 * C1); [apply Rmult_le_compat_r; [lra|apply Rmin_r]|]. right. field. lra. }
  assert (Ho2 : 0 < o ^ 2) by nra. assert (Ho21 : o ^ 2 <= 1) by nra.
  set (C2 := 12 * M * X * t * t / (o ^ 2) ^ 2). assert (HC2 : 0 <= C2).
  { unfold C2. apply Rmult_le_pos; [|apply Rlt_le, Rinv_0_lt_compat; nra]. assert (0 <= M * X) by nra. assert (0 <= M * X * t) by nra. assert (0 <= M * X * t * t) by nra. lra. }
  destruct (nfloor_ex (2 * t / o ^ 2 + 2 * C2 / eps)) as (N & HN1 & HN2).
  { assert (0 <= 2 * t / o ^ 2) by (apply Rmult_le_pos; [lra|apply Rlt_le, Rinv_0_lt_compat; lra]). assert (0 <= 2 * C2 / eps) by (apply Rmult_le_pos; [lra|apply Rlt_le, Rinv_0_lt_compat; lra]). lra. }
  exists (S N). intros n Hn Hn0 c h Hc Hh. assert (HI : INR N + 1 <= INR n) by (rewrite <- S_INR; now apply le_INR). assert (Hnp : 0 < INR n) by now apply lt_0_INR.
  assert (G1 : 2 * t / o ^ 2 <= INR n /\ 2 * C2 / eps <= INR n).
  { assert (0 <= 2 * t / o ^ 2) by (apply Rmult_le_pos; [lra|apply Rlt_le, Rinv_0_lt_compat; lra]). assert (0 <= 2 * C2 / eps) by (apply Rmult_le_pos; [lra|apply Rlt_le, Rinv_0_lt_compat; lra]). lra. }
  destruct G1 as [G1 G2]. set (a := sqrt (t / INR n)). assert (Htn : 0 < t / INR n) by now apply Rdiv_lt_0_compat. assert (Ha : 0 <= a) by apply sqrt_pos.
  assert (Ha2 : a ^ 2 = t / INR n) by (unfold a; rewrite pow2_sqrt; lra). assert (Hna : INR n * a ^ 2 = t) by (rewrite Ha2; field; lra).
  assert (Hao : a ^ 2 <= o ^ 2 / 2).
  { rewrite Ha2. apply Rmult_le_reg_r with (INR n); [exact Hnp|]. replace (t / INR n * INR n) with t by (field; lra).
    apply Rle_trans with (o ^ 2 / 2 * (2 * t / o ^ 2)); [right; field; lra|]. apply Rmult_le_compat_l; lra. }
  assert (HX' : ch (q * a) ^ n * vq q 0 <= 2 * X).
  { unfold vq. rewrite !Rmult_0_r, exp_0. pose proof (ch_pow_le q t n Hn0 (Rlt_le _ _ Ht)) as L. fold a X in L. lra. }
  assert (T := telescope c q h o a B M n Hc Hq Ho Ha Hao ltac:(rewrite Hna, HB2; lra) HB0 Hh HM0 HM 0). rewrite Hna in T.
  assert (HoB : o <= B) by (apply Rsqr_incr_0_var; [rewrite !Rsqr_pow2, HB2; lra|exact HB0]).
  assert (S1 : Rabs (rw n a h 0 - rw n a (Gs o h) 0) <= c * o * (2 * M1) * (2 * X)).
  { replace (rw n a h 0 - rw n a (Gs o h) 0) with (1 * rw n a h 0 + -1 * rw n a (Gs o h) 0) by ring. rewrite <- rw_lin.
    eapply Rle_trans; [apply (rw_abs n a _ (fun w => c * o * (2 * M1) * exp (q * Rabs w) + 0 * exp (q * Rabs w)))|].
    - intro w. pose proof (Gs_lip_sd c q h 0 o w B M1 Hc Hq ltac:(lra) ltac:(lra) Hh HM1) as L. rewrite Gs_0 in L. replace (Rabs (0 - o)) with o in L by (rewrite Rabs_left1 by lra; ring).
      replace (1 * h w + -1 * Gs o h w) with (h w - Gs o h w) by ring. lra.
    - rewrite rw_lin. rewrite Rmult_0_l, Rplus_0_r. apply Rmult_le_compat_l; [assert (0 <= c * o) by nra; nra|]. eapply Rle_trans; [apply rw_weight; exact Hq|exact HX']. }
  assert (S2 : Rabs (Gs (sqrt (o ^ 2 + t)) h 0 - Gs (sqrt t) h 0) <= c * o * (2 * M1)).
  { assert (L := Gs_lip_sd c q h (sqrt (o ^ 2 + t)) (sqrt t) 0 B M1 Hc Hq). eapply Rle_trans; [apply L; [| |exact Hh|exact HM1]|].
    - split; [apply sqrt_pos|]. apply sqrt_le_1_alt. lra.
    - split; [apply sqrt_pos|]. apply sqrt_le_1_alt. lra.
    - rewrite Rabs_R0, Rmult_0_r, exp_0, Rmult_1_r. apply Rmult_le_compat_r; [lra|]. apply Rmult_le_compat_l; [exact Hc|]. apply sqrt_diff; lra. }
  assert (S3 : INR n * (c * (6 * (a ^ 2 / o ^ 2) ^ 2) * M) * (ch (q * a) ^ n * vq q 0) <= c * (eps / 2)).
  { assert (F : INR n * (a ^ 2 / o ^ 2) ^ 2 = t * t / (o ^ 2) ^ 2 / INR n) by (rewrite Ha2; field; split; lra).
    apply Rle_trans with (INR n * (c * (6 * (a ^ 2 / o ^ 2) ^ 2) * M) * (2 * X)).
    - apply Rmult_le_compat_l; [|exact HX']. pose proof (pow2_ge_0 (a ^ 2 / o ^ 2)). apply Rmult_le_pos; [lra|]. apply Rmult_le_pos; [nra|exact HM0].
    - replace (INR n * (c * (6 * (a ^ 2 / o ^ 2) ^ 2) * M) * (2 * X)) with (c * (12 * M * X * (INR n * (a ^ 2 / o ^ 2) ^ 2))) by ring. rewrite F.
      replace (12 * M * X * (t * t / (o ^ 2) ^ 2 / INR n)) with (C2 / INR n) by (unfold C2; field; split; lra). apply Rmult_le_compat_l; [exact Hc|].
      apply Rmult_le_reg_r with (INR n); [exact Hnp|]. replace (C2 / INR n * INR n) with (eps / 2 * (2 * C2 / eps)) by (field; lra). apply Rmult_le_compat_l; lra. }
  assert (S4 : c * o * (2 * M1) * (2 * X) + c * o * (2 * M1) <= c * (eps / 2)).
  { replace (c * o * (2 * M1) * (2 * X) + c * o * (2 * M1)) with (c * (o * (4 * M1 * X + 2 * M1))) by ring. apply Rmult_le_compat_l; [exact Hc|]. unfold C1 in HoC. lra. }
  apply Rabs_le_between in S1, S2, T. apply Rabs_le. split; lra.
Qed.
