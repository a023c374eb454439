(** Existence of means over several independent normal variables, for functions of exponential growth that are
    Lipschitz with exponential weights. *)
From Coq Require Import Reals List Lra Lia.
From Coquelicot Require Import Coquelicot.
From Verif Require Import Num Py SMonte PCnd PGauss SHeston PHeston PHeston2 PExpect.
Import List ListNotations.
Open Scope R_scope.

Lemma mean_exists f c q : 0 <= c -> cont f -> (forall z, Rabs (f z) <= c * (exp (q * z) + exp (- q * z))) -> exists v, is_mean f v.
Proof.
  intros Hc Hf Hb. set (w := fun z => exp (q * z) + exp (- q * z)). assert (Hw : forall z, 0 < w z) by (intro z; unfold w; pose proof (exp_pos (q * z)); pose proof (exp_pos (- q * z)); lra).
  assert (Cw : cont w) by (intro z; apply (ex_derive_continuous w); unfold w; auto_derive; exact Coq.Init.Logic.I).
  assert (P : forall p, p = q \/ p = - q -> exists v, is_mean (fun z => f z * (exp (p * z) / w z)) v).
  { intros p Hp. eexists. apply (Tm_mean _ c (exp (q ^ 2 / 2)) p); [exact Hc|apply Rlt_le, exp_pos| |].
    - intro z. apply (continuous_mult (K := R_AbsRing)); [apply Hf|]. apply (continuous_mult (K := R_AbsRing)).
      + apply (ex_derive_continuous (fun z => exp (p * z))). auto_derive. exact Coq.Init.Logic.I.
      + apply (continuous_comp w Rinv); [apply Cw|]. apply (ex_derive_continuous Rinv). auto_derive. pose proof (Hw z). lra.
    - intro z. rewrite Rabs_mult. assert (E : Rabs (exp (p * z) / w z) = exp (p * z) / w z) by (apply Rabs_pos_eq, Rlt_le, Rdiv_lt_0_compat; [apply exp_pos|apply Hw]). rewrite E.
      apply Rle_trans with (c * w z * (exp (p * z) / w z)).
      + apply Rmult_le_compat_r; [apply Rlt_le, Rdiv_lt_0_compat; [apply exp_pos|apply Hw]|]. apply Hb.
      + replace (c * w z * (exp (p * z) / w z)) with (c * exp (p * z)) by (field; pose proof (Hw z); lra). apply Rmult_le_compat_l; [exact Hc|].
        rewrite <- exp_plus. replace (q ^ 2 / 2 + (p * z - p ^ 2 / 2)) with (p * z) by (destruct Hp; subst p; field). lra. }
  destruct (P q (or_introl eq_refl)) as (v1 & H1). destruct (P (- q) (or_intror eq_refl)) as (v2 & H2). exists (1 * v1 + 1 * v2).
  eapply is_mean_ext; [|exact (is_mean_lin _ _ _ _ 1 1 H1 H2)]. intro z. cbv beta. pose proof (Hw z). transitivity (f z * ((exp (q * z) + exp (- q * z)) / w z)); [field; lra|]. fold (w z). field. lra.
Qed.

Lemma Tm_val f v : is_mean f v -> Tm f = v.
Proof.
  intro H. apply is_mean_gint in H. unfold Tm. rewrite (is_lim_seq_unique _ v); [reflexivity|]. apply is_lim_seq_spec. intros [eps He]. destruct (H eps He) as (M & HM).
  destruct (archimed (Rabs M)) as [Ha _]. exists (Z.to_nat (up (Rabs M))). intros n Hn. assert (L : Rabs M < INR n).
  { eapply Rlt_le_trans; [exact Ha|]. rewrite INR_IZR_INZ. apply IZR_le. apply Z2Nat.inj_le in Hn || idtac. lia. }
  pose proof (Rle_abs M). pose proof (Rle_abs (- M)) as Q. rewrite Rabs_Ropp in Q. destruct (HM (- INR n) (INR n)) as (I0 & H1 & H2); try lra.
  rewrite (is_RInt_unique (V := R_CompleteNormedModule) _ _ _ _ H1). exact H2.
Qed.
Lemma exp_le x y : x <= y -> exp x <= exp y.
Proof. intros [H| ->]; [left; now apply exp_increasing|lra]. Qed.

Definition wt (q : R) (zs : list R) : R := exp (q * total (map Rabs zs)).
Lemma wt_pos q zs : 0 < wt q zs. Proof. apply exp_pos. Qed.
Lemma wt_cons q z zs : wt q (z :: zs) = exp (q * Rabs z) * wt q zs.
Proof. unfold wt. rewrite <- exp_plus. f_equal. cbn. unfold total. ring. Qed.
(** growth and Lipschitz continuity *)
Definition tame (n : nat) (c q : R) (f : list R -> R) : Prop :=
  (forall zs, length zs = n -> Rabs (f zs) <= c * wt q zs) /\
  (forall pre z z' post, length (pre ++ z :: post) = n -> Rabs (f (pre ++ z :: post) - f (pre ++ z' :: post)) <= c * Rabs (z - z') * (wt q (pre ++ z :: post) + wt q (pre ++ z' :: post))).
Lemma tame_cons n c q f z : tame (S n) c q f -> tame n (c * exp (q * Rabs z)) q (fun zs => f (z :: zs)).
Proof.
  intros [A B]. split.
  - intros zs Hz. rewrite Rmult_assoc, <- wt_cons. apply A. cbn. now rewrite Hz.
  - intros pre y y' post Hl. specialize (B (z :: pre) y y' post). cbn [app] in B. eapply Rle_trans; [apply B; cbn; now rewrite Hl|]. rewrite !wt_cons. right. ring.
Qed.
Lemma exp_abs_le q z : 0 <= q -> exp (q * Rabs z) <= exp (q * z) + exp (- q * z).
Proof.
  intro Hq. pose proof (exp_pos (q * z)). pose proof (exp_pos (- q * z)). unfold Rabs. destruct (Rcase_abs z); [|lra].
  replace (q * - z) with (- q * z) by ring. lra.
Qed.
Lemma lip_cont f c q : 0 <= c -> (forall z z', Rabs (f z - f z') <= c * Rabs (z - z') * (exp (q * Rabs z) + exp (q * Rabs z'))) -> cont f.
Proof.
  intros Hc H z0. apply filterlim_locally. intros [eps He]. set (B := exp (Rabs q * (Rabs z0 + 1))). assert (HB : 0 < B) by apply exp_pos.
  assert (Hd : 0 < Rmin 1 (eps / (2 * (c + 1) * B + 1))) by (apply Rmin_glb_lt; [lra|apply Rdiv_lt_0_compat; [exact He|nra]]).
  exists (mkposreal _ Hd). intros z Hz. change (Rabs (z - z0) < Rmin 1 (eps / (2 * (c + 1) * B + 1))) in Hz. change (Rabs (f z - f z0) < eps).
  pose proof (Rmin_l 1 (eps / (2 * (c + 1) * B + 1))). pose proof (Rmin_r 1 (eps / (2 * (c + 1) * B + 1))).
  assert (Q : forall y, Rabs y <= Rabs z0 + 1 -> exp (q * Rabs y) <= B).
  { intros y Hy. unfold B. apply exp_le. pose proof (Rle_abs q). pose proof (Rabs_pos q). pose proof (Rabs_pos y). nra. }
  assert (Hz1 : Rabs z <= Rabs z0 + 1) by (pose proof (Rabs_triang_inv z z0); lra).
  pose proof (Q z Hz1). pose proof (Q z0 ltac:(pose proof (Rabs_pos z0); lra)). pose proof (exp_pos (q * Rabs z)). pose proof (exp_pos (q * Rabs z0)). pose proof (Rabs_pos (z - z0)).
  eapply Rle_lt_trans; [apply H|]. apply Rle_lt_trans with (Rabs (z - z0) * (2 * (c + 1) * B)).
  { rewrite (Rmult_comm c), Rmult_assoc. apply Rmult_le_compat_l; [assumption|]. apply Rle_trans with (c * (2 * B)); [apply Rmult_le_compat_l; lra|nra]. }
  assert (Hk : 0 < 2 * (c + 1) * B) by nra. set (k := 2 * (c + 1) * B) in *. apply Rle_lt_trans with (eps / (k + 1) * k); [apply Rmult_le_compat_r; lra|].
  apply Rmult_lt_reg_r with (k + 1); [lra|]. replace (eps / (k + 1) * k * (k + 1)) with (eps * k) by (field; lra). nra.
Qed.
Lemma exp_lip x y : Rabs (exp x - exp y) <= Rabs (x - y) * (exp x + exp y).
Proof.
  assert (P : forall a b, a <= b -> exp b - exp a <= (b - a) * exp b).
  { intros a b L. assert (exp a = exp b * exp (a - b)) by (rewrite <- exp_plus; f_equal; ring). rewrite H. pose proof (exp_ineq1_le (a - b)). pose proof (exp_pos b). nra. }
  pose proof (exp_pos x). pose proof (exp_pos y). destruct (Rle_or_lt x y) as [L|L].
  - pose proof (P x y L). assert (exp x <= exp y) by now apply exp_le. rewrite (Rabs_left1 (exp x - exp y)), (Rabs_left1 (x - y)) by lra. nra.
  - pose proof (P y x ltac:(lra)). assert (exp y <= exp x) by (apply exp_le; lra). rewrite (Rabs_right (exp x - exp y)), (Rabs_right (x - y)) by lra. nra.
Qed.
Lemma mean_wt q : 0 <= q -> exists m, 0 <= m /\ is_mean (fun z => exp (q * Rabs z)) m.
Proof.
  intro Hq. destruct (mean_exists (fun z => exp (q * Rabs z)) 1 q) as (m & Hm); [lra| |intro z; rewrite Rabs_pos_eq by (apply Rlt_le, exp_pos); rewrite Rmult_1_l; now apply exp_abs_le|].
  - apply (lip_cont _ q q Hq). intros z z'. eapply Rle_trans; [apply exp_lip|]. apply Rmult_le_compat_r; [pose proof (exp_pos (q * Rabs z)); pose proof (exp_pos (q * Rabs z')); lra|].
    rewrite <- Rmult_minus_distr_l, Rabs_mult, (Rabs_pos_eq q Hq). apply Rmult_le_compat_l; [exact Hq|]. apply Rabs_triang_inv2.
  - exists m. split; [|exact Hm]. apply Rle_trans with (0 * 1 + 0 * 1); [lra|].
    refine (is_mean_le _ _ _ _ _ (is_mean_lin _ _ _ _ 0 0 mean_1 mean_1) Hm). intro z. cbv beta. pose proof (exp_pos (q * Rabs z)). lra.
Qed.
Lemma expect_wt q m n : is_mean (fun z => exp (q * Rabs z)) m -> is_expect n (wt q) (m ^ n).
Proof.
  intro Hm. induction n as [|n IH].
  - cbn. unfold wt, total. cbn. rewrite Rmult_0_r. apply exp_0.
  - exists (fun z => exp (q * Rabs z) * m ^ n). split.
    + intro z. assert (H := is_expect_lin _ _ _ _ _ (exp (q * Rabs z)) 0 IH IH). replace (exp (q * Rabs z) * m ^ n) with (exp (q * Rabs z) * m ^ n + 0 * m ^ n) by ring.
      eapply is_expect_ext; [|exact H]. intros zs _. cbv beta. rewrite wt_cons. ring.
    + assert (H := is_mean_lin _ _ _ _ (m ^ n) 0 Hm Hm). replace (m ^ S n) with (m ^ n * m + 0 * m) by (cbn; ring). eapply is_mean_ext; [|exact H]. intro z. cbv beta. ring.
Qed.
Lemma expect_abs n f g v w : (forall zs, length zs = n -> Rabs (f zs) <= g zs) -> is_expect n f v -> is_expect n g w -> Rabs v <= w.
Proof.
  intros H Hf Hg. apply Rabs_le. assert (HN := is_expect_lin _ _ _ _ _ (-1) 0 Hg Hg). split.
  - apply Rle_trans with (-1 * w + 0 * w); [lra|]. refine (is_expect_le n _ _ _ _ _ HN Hf). intros zs Hz. cbv beta. specialize (H zs Hz). apply Rabs_le_between in H. lra.
  - refine (is_expect_le n _ _ _ _ _ Hf Hg). intros zs Hz. specialize (H zs Hz). apply Rabs_le_between in H. lra.
Qed.
(** the iterated integral *)
Fixpoint En (n : nat) (f : list R -> R) : R := match n with O => f [] | S n' => Tm (fun z => En n' (fun zs => f (z :: zs))) end.
Lemma tame_expect n : forall c q f, 0 <= c -> 0 <= q -> tame n c q f -> is_expect n f (En n f).
Proof.
  induction n as [|n IH]; intros c q f Hc Hq Hf; [reflexivity|]. destruct (mean_wt q Hq) as (m & Hm0 & Hm). assert (HW := expect_wt q m n Hm).
  set (g := fun z => En n (fun zs => f (z :: zs))). assert (Hg : forall z, is_expect n (fun zs => f (z :: zs)) (g z)).
  { intro z. apply (IH (c * exp (q * Rabs z)) q); [apply Rmult_le_pos; [exact Hc|apply Rlt_le, exp_pos]|exact Hq|now apply tame_cons]. }
  assert (Hmn : 0 <= m ^ n) by now apply pow_le.
  destruct (mean_exists g (c * m ^ n) q) as (v & Hv); [now apply Rmult_le_pos| | |exists g; split; [exact Hg|]; cbn [En]; fold g; now rewrite (Tm_val g v Hv)].
  - apply (lip_cont _ (c * m ^ n) q); [now apply Rmult_le_pos|]. intros z z'. assert (HD := is_expect_lin _ _ _ _ _ 1 (-1) (Hg z) (Hg z')).
    assert (HB := is_expect_lin _ _ _ _ _ (c * Rabs (z - z') * (exp (q * Rabs z) + exp (q * Rabs z'))) 0 HW HW).
    replace (g z - g z') with (1 * g z + -1 * g z') by ring.
    replace (c * m ^ n * Rabs (z - z') * (exp (q * Rabs z) + exp (q * Rabs z'))) with (c * Rabs (z - z') * (exp (q * Rabs z) + exp (q * Rabs z')) * m ^ n + 0 * m ^ n) by ring.
    refine (expect_abs n _ _ _ _ _ HD HB). intros zs Hz. cbv beta. destruct Hf as [_ B]. specialize (B [] z z' zs). cbn [app] in B. rewrite !wt_cons in B.
    replace (1 * f (z :: zs) + -1 * f (z' :: zs)) with (f (z :: zs) - f (z' :: zs)) by ring. eapply Rle_trans; [apply B; cbn; now rewrite Hz|]. right. ring.
  - intro z. apply Rle_trans with (c * exp (q * Rabs z) * m ^ n + 0 * m ^ n).
    + refine (expect_abs n _ _ _ _ _ (Hg z) (is_expect_lin _ _ _ _ _ (c * exp (q * Rabs z)) 0 HW HW)). intros zs Hz. destruct Hf as [A _]. rewrite Rmult_0_l, Rplus_0_r, Rmult_assoc, <- wt_cons. apply A. cbn. now rewrite Hz.
    + pose proof (exp_abs_le q z Hq). rewrite Rmult_0_l, Rplus_0_r. replace (c * exp (q * Rabs z) * m ^ n) with (c * m ^ n * exp (q * Rabs z)) by ring. apply Rmult_le_compat_l; [now apply Rmult_le_pos|assumption].
Qed.

(** ** closure *)
Lemma wt_sq q zs : wt q zs * wt q zs = wt (2 * q) zs.
Proof. unfold wt. rewrite <- exp_plus. f_equal. ring. Qed.
Lemma tame_mult n c q c' f g : 0 <= c -> 0 <= c' -> tame n c q f -> tame n c' q g -> tame n (4 * (c * c')) (2 * q) (fun zs => f zs * g zs).
Proof.
  intros Hc Hc' [A B] [A' B']. assert (Hcc : 0 <= c * c') by now apply Rmult_le_pos. split.
  - intros zs Hz. rewrite Rabs_mult, <- wt_sq. pose proof (A zs Hz). pose proof (A' zs Hz). pose proof (Rabs_pos (f zs)). pose proof (Rabs_pos (g zs)). pose proof (wt_pos q zs).
    apply Rle_trans with ((c * wt q zs) * (c' * wt q zs)); [apply Rmult_le_compat; assumption|]. replace (4 * (c * c') * (wt q zs * wt q zs)) with (4 * ((c * wt q zs) * (c' * wt q zs))) by ring. 
    assert (0 <= (c * wt q zs) * (c' * wt q zs)) by (apply Rmult_le_pos; apply Rmult_le_pos; lra). lra.
  - intros pre z z' post Hl. set (x := pre ++ z :: post) in *. set (y := pre ++ z' :: post). assert (Hy : length y = n) by (unfold y; rewrite <- Hl; unfold x; rewrite !app_length; reflexivity).
    assert (Bf := B pre z z' post Hl). assert (Bg := B' pre z z' post Hl). fold x y in Bf, Bg. pose proof (A y Hy). pose proof (A' x Hl). pose proof (wt_pos q x). pose proof (wt_pos q y). pose proof (Rabs_pos (z - z')).
    replace (f x * g x - f y * g y) with ((f x - f y) * g x + f y * (g x - g y)) by ring. eapply Rle_trans; [apply Rabs_triang|]. rewrite !Rabs_mult.
    set (d := Rabs (z - z')) in *. set (u := wt q x) in *. set (w := wt q y) in *. rewrite <- !wt_sq. fold u w.
    apply Rle_trans with ((c * d * (u + w)) * (c' * u) + (c * w) * (c' * d * (u + w))).
    + apply Rplus_le_compat; apply Rmult_le_compat; try assumption; apply Rabs_pos.
    + replace (c * d * (u + w) * (c' * u) + c * w * (c' * d * (u + w))) with (c * c' * d * ((u + w) * (u + w))) by ring. replace (4 * (c * c') * d * (u * u + w * w)) with (c * c' * d * (4 * (u * u + w * w))) by ring.
      apply Rmult_le_compat_l; [now apply Rmult_le_pos|]. nra.
Qed.
Lemma abs_opp_map zs : map Rabs (map Ropp zs) = map Rabs zs.
Proof. rewrite map_map. apply map_ext. intro x. apply Rabs_Ropp. Qed.
Lemma tame_neg n c q f : tame n c q f -> tame n c q (fun zs => f (map Ropp zs)).
Proof.
  intros [A B]. split.
  - intros zs Hz. unfold wt. rewrite <- abs_opp_map. apply A. now rewrite map_length.
  - intros pre z z' post Hl. rewrite !map_app. cbn [map]. assert (X := B (map Ropp pre) (- z) (- z') (map Ropp post)). replace (Rabs (- z - - z')) with (Rabs (z - z')) in X by (replace (- z - - z') with (- (z - z')) by ring; now rewrite Rabs_Ropp).
    unfold wt in *. rewrite !map_app in *. cbn [map] in *. rewrite !abs_opp_map, !Rabs_Ropp in X. apply X. rewrite <- Hl, !app_length. cbn. now rewrite !map_length.
Qed.
Lemma tame_ext n c q f g : (forall zs, length zs = n -> f zs = g zs) -> tame n c q f -> tame n c q g.
Proof.
  intros E [A B]. split.
  - intros zs Hz. rewrite <- E by exact Hz. now apply A.
  - intros pre z z' post Hl. rewrite <- !E; [now apply B| |exact Hl]. rewrite <- Hl, !app_length. reflexivity.
Qed.
Lemma tame_plus n c c' q f g : tame n c q f -> tame n c' q g -> tame n (c + c') q (fun zs => f zs + g zs).
Proof.
  intros [A B] [A' B']. split.
  - intros zs Hz. eapply Rle_trans; [apply Rabs_triang|]. rewrite Rmult_plus_distr_r. apply Rplus_le_compat; auto.
  - intros pre z z' post Hl. set (x := pre ++ z :: post) in *. set (y := pre ++ z' :: post). replace (f x + g x - (f y + g y)) with ((f x - f y) + (g x - g y)) by ring.
    eapply Rle_trans; [apply Rabs_triang|]. specialize (B pre z z' post Hl). specialize (B' pre z z' post Hl). fold x y in B, B'. lra.
Qed.
Lemma tame_scal n c q a f : tame n c q f -> tame n (Rabs a * c) q (fun zs => a * f zs).
Proof.
  intros [A B]. split.
  - intros zs Hz. rewrite Rabs_mult, Rmult_assoc. apply Rmult_le_compat_l; [apply Rabs_pos|auto].
  - intros pre z z' post Hl. rewrite <- Rmult_minus_distr_l, Rabs_mult, !Rmult_assoc. apply Rmult_le_compat_l; [apply Rabs_pos|]. rewrite <- Rmult_assoc. auto.
Qed.
Lemma tame_pos_part n c q f : tame n c q f -> tame n c q (fun zs => Rmax 0 (f zs)).
Proof.
  assert (P : forall x, Rabs (Rmax 0 x) <= Rabs x) by (intro x; unfold Rmax; destruct (Rle_dec 0 x); [lra|rewrite Rabs_R0; apply Rabs_pos]).
  assert (L : forall x y, Rabs (Rmax 0 x - Rmax 0 y) <= Rabs (x - y)). { intros x y. unfold Rmax. destruct (Rle_dec 0 x), (Rle_dec 0 y); unfold Rabs; repeat destruct (Rcase_abs _); lra. }
  intros [A B]. split.
  - intros zs Hz. eapply Rle_trans; [apply P|]. auto.
  - intros pre z z' post Hl. eapply Rle_trans; [apply L|]. auto.
Qed.
Lemma total_abs_nonneg zs : 0 <= total (map Rabs zs).
Proof. unfold total. induction zs as [|z zs IH]; cbn; [lra|]. pose proof (Rabs_pos z). lra. Qed.
Lemma wt_ge_1 q zs : 0 <= q -> 1 <= wt q zs.
Proof. intro Hq. unfold wt. rewrite <- exp_0. apply exp_le. apply Rmult_le_pos; [exact Hq|apply total_abs_nonneg]. Qed.
Lemma tame_const n q K : 0 <= q -> tame n (Rabs K) q (fun _ => K).
Proof.
  intro Hq. split.
  - intros zs _. pose proof (wt_ge_1 q zs Hq). pose proof (Rabs_pos K). nra.
  - intros pre z z' post _. rewrite Rminus_eq_0, Rabs_R0. repeat apply Rmult_le_pos; try apply Rabs_pos. pose proof (wt_pos q (pre ++ z :: post)). pose proof (wt_pos q (pre ++ z' :: post)). lra.
Qed.
Lemma firstn_total_le k zs : total (firstn k zs) <= total (map Rabs zs).
Proof.
  revert k. induction zs as [|z zs IH]; intro k; [rewrite firstn_nil; cbn; lra|]. destruct k; [apply total_abs_nonneg|]. cbn. specialize (IH k). unfold total in *. pose proof (Rle_abs z). lra.
Qed.
Lemma firstn_total_lip k pre z z' post : Rabs (total (firstn k (pre ++ z :: post)) - total (firstn k (pre ++ z' :: post))) <= Rabs (z - z').
Proof.
  revert k. induction pre as [|y pre IH]; intros [|k]; cbn [app firstn total fold_right]; try (rewrite Rminus_eq_0, Rabs_R0; apply Rabs_pos).
  - right. f_equal. ring.
  - specialize (IH k). unfold total in IH. match goal with |- Rabs ?a <= _ => match type of IH with Rabs ?b <= _ => replace a with b by ring end end. exact IH.
Qed.
Lemma tame_exp n k S A v : 0 <= S -> 0 <= v -> tame n (S * exp A * (1 + v)) v (fun zs => S * exp (A + v * total (firstn k zs))).
Proof.
  intros HS Hv. assert (U : forall zs, exp (A + v * total (firstn k zs)) <= exp A * wt v zs).
  { intro zs. unfold wt. rewrite <- exp_plus. apply exp_le. pose proof (firstn_total_le k zs). nra. }
  pose proof (exp_pos A). assert (HSA : 0 <= S * exp A) by (apply Rmult_le_pos; lra). split.
  - intros zs _. specialize (U zs). pose proof (exp_pos (A + v * total (firstn k zs))). rewrite Rabs_pos_eq by (apply Rmult_le_pos; lra). pose proof (wt_pos v zs).
    apply Rle_trans with (S * (exp A * wt v zs)); [apply Rmult_le_compat_l; lra|]. replace (S * exp A * (1 + v) * wt v zs) with (S * (exp A * wt v zs) + S * exp A * wt v zs * v) by ring.
    assert (0 <= S * exp A * wt v zs * v) by (repeat apply Rmult_le_pos; lra). lra.
  - intros pre z z' post _. set (x := pre ++ z :: post). set (y := pre ++ z' :: post). rewrite <- Rmult_minus_distr_l, Rabs_mult, (Rabs_pos_eq S HS).
    pose proof (U x). pose proof (U y). pose proof (wt_pos v x). pose proof (wt_pos v y). pose proof (exp_pos (A + v * total (firstn k x))). pose proof (exp_pos (A + v * total (firstn k y))). pose proof (Rabs_pos (z - z')).
    apply Rle_trans with (S * (v * Rabs (z - z') * (exp A * (wt v x + wt v y)))).
    + apply Rmult_le_compat_l; [exact HS|]. eapply Rle_trans; [apply exp_lip|]. apply Rmult_le_compat; [apply Rabs_pos|lra| |lra].
      replace (A + v * total (firstn k x) - (A + v * total (firstn k y))) with (v * (total (firstn k x) - total (firstn k y))) by ring. rewrite Rabs_mult, (Rabs_pos_eq v Hv). apply Rmult_le_compat_l; [exact Hv|]. apply firstn_total_lip.
    + replace (S * (v * Rabs (z - z') * (exp A * (wt v x + wt v y)))) with (v * (S * exp A * Rabs (z - z') * (wt v x + wt v y))) by ring. replace (S * exp A * (1 + v) * Rabs (z - z') * (wt v x + wt v y)) with ((1 + v) * (S * exp A * Rabs (z - z') * (wt v x + wt v y))) by ring.
      apply Rmult_le_compat_r; [|lra]. repeat apply Rmult_le_pos; lra.
Qed.
Lemma tame_total {A} n q (f : A -> list R -> R) l : (forall a, In a l -> exists c, 0 <= c /\ tame n c q (f a)) -> 0 <= q -> exists c, 0 <= c /\ tame n c q (fun zs => total (map (fun a => f a zs) l)).
Proof.
  intros H Hq. induction l as [|a l IH].
  - exists (Rabs 0). split; [apply Rabs_pos|]. exact (tame_const n q 0 Hq).
  - destruct (H a (or_introl eq_refl)) as (c & Hc & T). destruct IH as (c' & Hc' & T'); [intros; apply H; now right|]. exists (c + c'). split; [lra|]. exact (tame_plus n c c' q _ _ T T').
Qed.
Lemma tame_gbm n k S b s dt : 0 < S -> 0 < s -> 0 < dt -> exists c, 0 <= c /\ tame n c (s * sqrt dt) (fun zs => gbm S b s dt (firstn k zs)).
Proof.
  intros HS Hs Hd. assert (Hv : 0 <= s * sqrt dt) by (apply Rmult_le_pos; [lra|apply sqrt_pos]). set (L := (b - s ^ 2 / 2) * (INR (Nat.min k n) * dt)).
  exists (S * exp L * (1 + s * sqrt dt)). split; [repeat apply Rmult_le_pos; try lra; apply Rlt_le, exp_pos|].
  eapply tame_ext; [|apply (tame_exp n k S L (s * sqrt dt)); lra]. intros zs Hz. unfold gbm, L. rewrite firstn_length, Hz. reflexivity.
Qed.
Lemma tame_underlying asian n S b s dt : 0 < S -> 0 < s -> 0 < dt -> exists c, 0 <= c /\ tame n c (s * sqrt dt) (underlying asian S b s dt).
Proof.
  intros HS Hs Hd. assert (Hv : 0 <= s * sqrt dt) by (apply Rmult_le_pos; [lra|apply sqrt_pos]). destruct asian.
  - destruct (tame_total n (s * sqrt dt) (fun k zs => gbm S b s dt (firstn k zs)) (seq 1 n)) as (c & Hc & T); [intros; now apply tame_gbm|exact Hv|].
    exists (Rabs (/ INR n) * c). split; [apply Rmult_le_pos; [apply Rabs_pos|exact Hc]|]. eapply tame_ext; [|exact (tame_scal _ _ _ (/ INR n) _ T)].
    intros zs Hz. cbn. unfold gbm_average, average. rewrite map_length, seq_length, Hz. unfold Rdiv. ring.
  - destruct (tame_gbm n n S b s dt HS Hs Hd) as (c & Hc & T). exists c. split; [exact Hc|]. eapply tame_ext; [|exact T]. intros zs Hz. cbn. now rewrite firstn_all2 by lia.
Qed.
Lemma tame_discounted asian (call : bool) n S K t r b s dt : 0 < S -> 0 < s -> 0 < dt -> exists c, 0 <= c /\ tame n c (s * sqrt dt) (fun zs => discounted call K t r (underlying asian S b s dt zs)).
Proof.
  intros HS Hs Hd. assert (Hv : 0 <= s * sqrt dt) by (apply Rmult_le_pos; [lra|apply sqrt_pos]). destruct (tame_underlying asian n S b s dt HS Hs Hd) as (c & Hc & T).
  set (a := if call then 1 else -1). exists (Rabs (exp (- r * t)) * (Rabs a * c + Rabs (- a * K))). pose proof (Rabs_pos a). pose proof (Rabs_pos (- a * K)). split; [apply Rmult_le_pos; [apply Rabs_pos|nra]|].
  unfold discounted. apply (tame_scal n _ _ (exp (- r * t)) (fun zs => Rmax 0 (if call then underlying asian S b s dt zs - K else K - underlying asian S b s dt zs))). apply tame_pos_part.
  eapply tame_ext; [|exact (tame_plus _ _ _ _ _ _ (tame_scal _ _ _ a _ T) (tame_const n _ (- a * K) Hv))]. intros zs _. cbv beta. unfold a. destruct call; ring.
Qed.
