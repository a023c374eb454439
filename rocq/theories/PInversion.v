(** Fourier inversion for the Heston-Nandi process: the half-line integrals of the pricing integrands. *)
From Coq Require Import Reals Lra Lia.
From Coquelicot Require Import Coquelicot.
From Coq Require Import List.
From Verif Require Import Py SMonte SHeston PCnd PCnd2 PGauss PMonte4 PHeston PHeston2 PExpect PDirichlet.
Import ListNotations.
Open Scope R_scope.

(* ------------------------------------------------------------------ *)
(** * The kernel [sin (phi x) / phi] *)
Definition kern (phi x : R) : R := sin (phi * x) / phi.
Lemma kern_le phi x : 0 < phi -> Rabs (kern phi x) <= / phi.
Proof. intro H. unfold kern, Rdiv. rewrite Rabs_mult, (Rabs_pos_eq (/ phi)) by (left; now apply Rinv_0_lt_compat). pose proof (SIN_bound (phi * x)). pose proof (Rinv_0_lt_compat _ H). assert (Rabs (sin (phi * x)) <= 1) by (apply Rabs_le; lra). nra. Qed.
Lemma sin_lip a b : Rabs (sin a - sin b) <= Rabs (a - b).
Proof.
  rewrite form4. replace (2 * cos ((a + b) / 2) * sin ((a - b) / 2)) with (cos ((a + b) / 2) * (2 * sin ((a - b) / 2))) by ring. rewrite Rabs_mult.
  pose proof (COS_bound ((a + b) / 2)). assert (Rabs (cos ((a + b) / 2)) <= 1) by (apply Rabs_le; lra).
  assert (Rabs (2 * sin ((a - b) / 2)) <= Rabs (a - b)). { rewrite Rabs_mult, (Rabs_pos_eq 2) by lra. pose proof (sin_bound ((a - b) / 2)) as Hs. unfold Rdiv in *. rewrite (Rabs_mult _ (/ 2)), (Rabs_pos_eq (/ 2)) in Hs by lra. lra. }
  pose proof (Rabs_pos (2 * sin ((a - b) / 2))). pose proof (Rabs_pos (cos ((a + b) / 2))). nra.
Qed.
Lemma kern_lip m xi x : 0 < m -> m / 2 <= xi -> Rabs (kern xi x - kern m x) <= Rabs (xi - m) * (2 / m * Rabs x + 2 / m ^ 2).
Proof.
  intros Hm Hx. unfold kern. replace (_ - _) with ((sin (xi * x) - sin (m * x)) / xi + sin (m * x) * ((m - xi) / (xi * m))) by (field; lra).
  eapply Rle_trans; [apply Rabs_triang|]. unfold Rdiv. rewrite !Rabs_mult, Rabs_inv, Rabs_inv, Rabs_mult, (Rabs_pos_eq xi), (Rabs_pos_eq m) by lra.
  pose proof (sin_lip (xi * x) (m * x)) as H1. replace (xi * x - m * x) with ((xi - m) * x) in H1 by ring. rewrite Rabs_mult in H1.
  assert (H2 : / xi <= 2 * / m). { replace (2 * / m) with (/ (m / 2)) by (field; lra). apply Rinv_le_contravar; lra. }
  pose proof (Rinv_0_lt_compat xi ltac:(lra)). pose proof (Rinv_0_lt_compat m Hm). pose proof (Rabs_pos (xi - m)). pose proof (Rabs_pos x).
  assert (Hs1 : Rabs (sin (m * x)) <= 1) by (pose proof (SIN_bound (m * x)); apply Rabs_le; lra).
  rewrite (Rabs_minus_sym m xi). rewrite Rmult_plus_distr_l. apply Rplus_le_compat.
  - apply Rle_trans with (Rabs (xi - m) * Rabs x * (2 * / m)); [|lra]. apply Rmult_le_compat; [apply Rabs_pos|lra|exact H1|exact H2].
  - rewrite Rinv_mult. replace (2 * / m ^ 2) with (2 * / m * / m) by (field; lra).
    apply Rle_trans with (1 * (Rabs (xi - m) * (2 * / m * / m))); [|lra]. pose proof (Rabs_pos (sin (m * x))).
    apply Rmult_le_compat; [assumption|repeat apply Rmult_le_pos; lra|assumption|]. apply Rmult_le_compat_l; [assumption|]. apply Rmult_le_compat_r; lra.
Qed.
Lemma Si_kern_derive x phi : 0 < phi -> is_derive (fun p => Si (p * x)) phi (kern phi x).
Proof.
  intro H. evar_last. { apply (is_derive_comp (K := R_AbsRing) (V := R_NormedModule) Si (fun p => p * x)); [apply Si_derive|]. auto_derive; [exact Coq.Init.Logic.I|reflexivity]. }
  unfold scal; cbn; unfold mult; cbn. unfold kern. rewrite <- sinc_mul. field. lra.
Qed.
Lemma Si_mvt x m e : 0 < m -> Rabs e <= m / 2 -> exists xi, Rabs (xi - m) <= Rabs e /\ Si ((m + e) * x) - Si (m * x) = e * kern xi x.
Proof.
  intros Hm He. apply Rabs_le_between in He as He'. destruct (MVT_gen (fun p => Si (p * x)) m (m + e) (fun p => kern p x)) as (xi & Hxi & E).
  - intros p Hp. apply Si_kern_derive. unfold Rmin, Rmax in Hp. destruct (Rle_dec m (m + e)) in Hp; lra.
  - intros p Hp. apply continuity_pt_filterlim. apply (ex_derive_continuous (V := R_NormedModule) (fun p => Si (p * x))). eexists. apply Si_kern_derive. unfold Rmin, Rmax in Hp. destruct (Rle_dec m (m + e)) in Hp; lra.
  - exists xi. split; [|rewrite E; ring]. unfold Rmin, Rmax in Hxi. unfold Rabs. destruct (Rle_dec m (m + e)) in Hxi; destruct (Rcase_abs (xi - m)), (Rcase_abs e); lra.
Qed.

(* ------------------------------------------------------------------ *)
(** * Integrals of the mean kernel *)
Lemma cont2_fst (f : R -> R) y q : continuous f y -> continuity_2d_pt (fun y _ => f y) y q.
Proof. intro H. apply continuity_2d_pt_filterlim. apply (continuous_comp (fun z : R * R => fst z) f); [apply continuous_fst|exact H]. Qed.
Lemma PI_gt1 : 1 < PI. Proof. generalize PI2_3_2. lra. Qed.

Section Inv.
Variables r omega alpha beta g : R.
Variable n : nat.
Variables y0 q0 k : R.
(** a weight of linear growth in the price *)
Section Wt.
Variable wt : R -> R.
Variable c : R.
Hypothesis Hc : 0 <= c.
Hypothesis Hwc : cont wt.
Hypothesis Hwb : forall y, Rabs (wt y) <= c * (1 + exp y).
Definition HM (m y : R) : R := wt y * Si (m * (y - k)) / PI.
Definition FM (m y : R) : R := wt y * kern m (y - k) / PI.
Lemma bound_pi a b M : 0 <= b -> Rabs a <= b -> forall y, Rabs (wt y) <= M -> Rabs (wt y * a / PI) <= M * b.
Proof.
  intros Hb Ha y Hy. unfold Rdiv. rewrite !Rabs_mult. pose proof PI_gt1. rewrite (Rabs_pos_eq (/ PI)) by (left; apply Rinv_0_lt_compat; lra).
  assert (/ PI <= 1) by (rewrite <- Rinv_1; apply Rinv_le_contravar; lra). pose proof (Rinv_0_lt_compat PI ltac:(lra)).
  pose proof (Rabs_pos (wt y)). pose proof (Rabs_pos a). assert (0 <= M * b) by (apply Rmult_le_pos; lra).
  apply Rle_trans with (Rabs (wt y) * Rabs a * 1); [apply Rmult_le_compat_l; [apply Rmult_le_pos; lra|lra]|]. rewrite Rmult_1_r. apply Rmult_le_compat; lra.
Qed.
Lemma cls_wt (f : R -> R) b : 0 <= b -> (forall y, continuous f y) -> (forall y, Rabs (f y) <= b) -> cls (c * b) (fun y _ => wt y * f y / PI).
Proof.
  intros Hb Hf Hfb. split; [now apply Rmult_le_pos|]. split.
  - intros y q. apply (cont2_fst (fun y => wt y * f y / PI)). unfold Rdiv. apply (continuous_mult (K := R_AbsRing) (fun y => wt y * f y) (fun _ => / PI)); [|apply continuous_const].
    apply (continuous_mult (K := R_AbsRing) wt f); [apply Hwc|apply Hf].
  - intros y _. eapply Rle_trans; [apply (bound_pi (f y) b (c * (1 + exp y))); auto|]. apply Req_le. ring.
Qed.
Lemma Si_lin_cont m y : continuous (fun y => Si (m * (y - k))) y.
Proof. apply (continuous_comp (fun y => m * (y - k)) Si); [|apply Si_cont]. apply (ex_derive_continuous (V := R_NormedModule)). auto_derive. exact Coq.Init.Logic.I. Qed.
Lemma kern_cont m y : continuous (fun y => kern m (y - k)) y.
Proof. apply (ex_derive_continuous (V := R_NormedModule)). unfold kern, Rdiv. auto_derive. exact Coq.Init.Logic.I. Qed.
Lemma HM_cls m : cls (c * 3) (fun y _ => HM m y).
Proof. apply (cls_wt (fun y => Si (m * (y - k)))); [lra|apply Si_lin_cont|intros; apply Si_bounded]. Qed.
Lemma FM_cls m : 0 < m -> cls (c * / m) (fun y _ => FM m y).
Proof. intro H. apply (cls_wt (fun y => kern m (y - k))); [left; now apply Rinv_0_lt_compat|apply kern_cont|intros; now apply kern_le]. Qed.
Definition J (m : R) : R := TN r omega alpha beta g n (fun y _ => HM m y) y0 q0.
Definition JF (m : R) : R := TN r omega alpha beta g n (fun y _ => FM m y) y0 q0.

Lemma wt_loc B : exists M, 0 <= M /\ forall y, Rabs y <= B -> Rabs (wt y) <= M.
Proof.
  exists (c * (1 + exp B)). pose proof (exp_pos B). split; [apply Rmult_le_pos; lra|]. intros y Hy. eapply Rle_trans; [apply Hwb|]. apply Rmult_le_compat_l; [exact Hc|]. apply Rplus_le_compat_l.
  apply Rabs_le_between in Hy. destruct (Req_dec y B) as [->|]; [lra|]. left. apply exp_increasing. lra.
Qed.
(** the derivative in the upper limit *)
Definition DM (m e y : R) : R := wt y * ((Si ((m + e) * (y - k)) - Si (m * (y - k))) / e - kern m (y - k)) / PI.
Lemma DM_small m e x : 0 < m -> Rabs e <= m / 2 -> e <> 0 -> Rabs ((Si ((m + e) * x) - Si (m * x)) / e - kern m x) <= Rabs e * (2 / m * Rabs x + 2 / m ^ 2).
Proof.
  intros Hm He Hn. destruct (Si_mvt x m e Hm He) as (xi & Hxi & E). rewrite E. replace (e * kern xi x / e) with (kern xi x) by (field; exact Hn).
  apply Rabs_le_between in He as He'. assert (Hx2 : m / 2 <= xi). { assert (Rabs (xi - m) <= m / 2) by lra. apply Rabs_le_between in H. lra. }
  eapply Rle_trans; [apply kern_lip; assumption|]. apply Rmult_le_compat_r; [|exact Hxi]. pose proof (Rabs_pos x). pose proof (Rinv_0_lt_compat m Hm). unfold Rdiv. assert (0 < / m ^ 2) by (apply Rinv_0_lt_compat; nra). nra.
Qed.
Lemma DM_cls m e : 0 < m -> Rabs e <= m / 2 -> e <> 0 -> cls (c * (3 * / m)) (fun y _ => DM m e y).
Proof.
  intros Hm He Hn. pose proof (Rinv_0_lt_compat m Hm). apply (cls_wt (fun y => (Si ((m + e) * (y - k)) - Si (m * (y - k))) / e - kern m (y - k))); [lra| |].
  - intro y. apply (continuous_minus (K := R_AbsRing) (V := R_NormedModule) (fun y => (Si ((m + e) * (y - k)) - Si (m * (y - k))) / e) (fun y => kern m (y - k))); [|apply kern_cont].
    unfold Rdiv. apply (continuous_mult (K := R_AbsRing) (fun y => Si ((m + e) * (y - k)) - Si (m * (y - k))) (fun _ => / e)); [|apply continuous_const].
    apply (continuous_minus (K := R_AbsRing) (V := R_NormedModule) (fun y => Si ((m + e) * (y - k)))); apply Si_lin_cont.
  - intro y. destruct (Si_mvt (y - k) m e Hm He) as (xi & Hxi & E). rewrite E. replace (e * kern xi (y - k) / e) with (kern xi (y - k)) by (field; exact Hn).
    assert (Hx2 : m / 2 <= xi). { assert (Hq : Rabs (xi - m) <= m / 2) by lra. apply Rabs_le_between in Hq. lra. }
    eapply Rle_trans; [apply Rabs_triang|]. rewrite Rabs_Ropp. pose proof (kern_le xi (y - k) ltac:(lra)). pose proof (kern_le m (y - k) Hm).
    assert (/ xi <= 2 * / m). { replace (2 * / m) with (/ (m / 2)) by (field; lra). apply Rinv_le_contravar; lra. } lra.
Qed.
Lemma J_derive m : 0 < m -> is_derive J m (JF m).
Proof.
  intro Hm. apply is_derive_Reals. intros eps He.
  assert (HL : filterlim (fun e => TN r omega alpha beta g n (fun y _ => DM m e y) y0 q0) (locally' 0) (locally 0)).
  { assert (HS : forall d, 0 < d -> locally' 0 (fun e => Rabs e <= d /\ e <> 0)).
    { intros d Hd. exists (mkposreal d Hd). intros e H1 H2. change (Rabs (e - 0) < d) in H1. rewrite Rminus_0_r in H1. split; [lra|exact H2]. }
    apply (TN_lim r omega alpha beta g (locally' 0) _ (fun e y _ => DM m e y) (c * (3 * / m))).
    - generalize (HS (m / 2) ltac:(lra)). apply filter_imp. intros e [H1 H2]. now apply DM_cls.
    - intros B eps' He'. destruct (wt_loc B) as (M & HM0 & HMb). set (L := 2 / m * (Rabs B + Rabs k) + 2 / m ^ 2).
      assert (HL : 0 < L). { unfold L, Rdiv. pose proof (Rinv_0_lt_compat m Hm). assert (0 < / m ^ 2) by (apply Rinv_0_lt_compat; nra). pose proof (Rabs_pos B). pose proof (Rabs_pos k). nra. }
      set (d := Rmin (m / 2) (eps' / ((M + 1) * L))). assert (Hd : 0 < d) by (apply Rmin_pos; [lra|]; apply Rdiv_lt_0_compat; [lra|]; apply Rmult_lt_0_compat; lra).
      generalize (HS d Hd). apply filter_imp. intros e [H1 H2] y q Hy Hq.
      assert (H3 : Rabs e <= m / 2) by (eapply Rle_trans; [exact H1|apply Rmin_l]). assert (H4 : Rabs e <= eps' / ((M + 1) * L)) by (eapply Rle_trans; [exact H1|apply Rmin_r]).
      apply Rle_trans with (M * (Rabs e * L)).
      + apply bound_pi; [apply Rmult_le_pos; [apply Rabs_pos|lra]| |now apply HMb]. eapply Rle_trans; [apply DM_small; assumption|]. apply Rmult_le_compat_l; [apply Rabs_pos|]. unfold L. apply Rplus_le_compat_r.
        apply Rmult_le_compat_l; [unfold Rdiv; pose proof (Rinv_0_lt_compat m Hm); lra|]. eapply Rle_trans; [apply Rabs_triang|]. rewrite Rabs_Ropp. pose proof (Rle_abs B). lra.
      + apply Rle_trans with (M * (eps' / ((M + 1) * L) * L)); [apply Rmult_le_compat_l; [lra|]; apply Rmult_le_compat_r; lra|].
        replace (M * (eps' / ((M + 1) * L) * L)) with (eps' * (M / (M + 1))) by (field; lra). assert (M / (M + 1) <= 1) by (apply Rmult_le_reg_r with (M + 1); [lra|]; unfold Rdiv; rewrite Rmult_assoc, Rinv_l; lra). nra. }
  specialize (HL (ball 0 (mkposreal eps He)) (locally_ball 0 (mkposreal eps He))). destruct HL as ([d Hd] & HL).
  assert (Hd2 : 0 < Rmin d (m / 2)) by (apply Rmin_pos; lra). exists (mkposreal _ Hd2). cbn. intros e Hn Hlt. pose proof (Rmin_l d (m / 2)). pose proof (Rmin_r d (m / 2)).
  specialize (HL e). assert (HB : ball 0 (mkposreal d Hd) e) by (change (Rabs (e - 0) < d); rewrite Rminus_0_r; lra). specialize (HL HB Hn).
  change (Rabs (TN r omega alpha beta g n (fun y _ => DM m e y) y0 q0 - 0) < eps) in HL. rewrite Rminus_0_r in HL.
  eapply Rle_lt_trans; [|exact HL]. apply Req_le. f_equal. unfold J, JF.
  assert (E1 := TN_lin r omega alpha beta g n _ _ _ _ (/ e) (- / e) (HM_cls (m + e)) (HM_cls m) y0 q0).
  assert (C2 := cls_lin _ _ _ _ (/ e) (- / e) (HM_cls (m + e)) (HM_cls m)).
  assert (E2 := TN_lin r omega alpha beta g n _ _ _ _ 1 (-1) C2 (FM_cls m Hm) y0 q0). cbn beta in E1, E2. rewrite E1 in E2.
  unfold Rdiv. replace ((TN r omega alpha beta g n (fun y _ => HM (m + e) y) y0 q0 - TN r omega alpha beta g n (fun y _ => HM m y) y0 q0) * / e - TN r omega alpha beta g n (fun y _ => FM m y) y0 q0)
    with (1 * (/ e * TN r omega alpha beta g n (fun y _ => HM (m + e) y) y0 q0 + - / e * TN r omega alpha beta g n (fun y _ => HM m y) y0 q0) + -1 * TN r omega alpha beta g n (fun y _ => FM m y) y0 q0) by ring.
  rewrite <- E2. apply TN_ext. intros y q. unfold DM, HM, FM. field. split; [exact Hn|]. generalize PI_gt1; lra.
Qed.
Lemma JF_cont m : 0 < m -> continuous JF m.
Proof.
  intro Hm. apply filterlim_locally. intros [eps He].
  assert (HS : forall d, 0 < d -> locally m (fun m' => Rabs (m' - m) <= d)).
  { intros d Hd. exists (mkposreal d Hd). intros x Hx. change (Rabs (x - m) < d) in Hx. lra. }
  assert (HL : filterlim (fun m' => TN r omega alpha beta g n (fun y _ => wt y * (kern m' (y - k) - kern m (y - k)) / PI) y0 q0) (locally m) (locally 0)).
  { apply (TN_lim r omega alpha beta g (locally m) _ (fun m' y _ => wt y * (kern m' (y - k) - kern m (y - k)) / PI) (c * (3 * / m))).
    - generalize (HS (m / 2) ltac:(lra)). apply filter_imp. intros m' H. pose proof (Rinv_0_lt_compat m Hm). apply (cls_wt (fun y => kern m' (y - k) - kern m (y - k))); [lra| |].
      + intro y. apply (continuous_minus (K := R_AbsRing) (V := R_NormedModule) (fun y => kern m' (y - k))); apply kern_cont.
      + intro y. assert (Hx2 : m / 2 <= m') by (apply Rabs_le_between in H; lra). eapply Rle_trans; [apply Rabs_triang|]. rewrite Rabs_Ropp. pose proof (kern_le m' (y - k) ltac:(lra)). pose proof (kern_le m (y - k) Hm).
        assert (/ m' <= 2 * / m). { replace (2 * / m) with (/ (m / 2)) by (field; lra). apply Rinv_le_contravar; lra. } lra.
    - intros B eps' He'. destruct (wt_loc B) as (M & HM0 & HMb). set (L := 2 / m * (Rabs B + Rabs k) + 2 / m ^ 2).
      assert (HL : 0 < L). { unfold L, Rdiv. pose proof (Rinv_0_lt_compat m Hm). assert (0 < / m ^ 2) by (apply Rinv_0_lt_compat; nra). pose proof (Rabs_pos B). pose proof (Rabs_pos k). nra. }
      set (d := Rmin (m / 2) (eps' / ((M + 1) * L))). assert (Hd : 0 < d) by (apply Rmin_pos; [lra|]; apply Rdiv_lt_0_compat; [lra|]; apply Rmult_lt_0_compat; lra).
      generalize (HS d Hd). apply filter_imp. intros e H1 y q Hy Hq.
      assert (H3 : Rabs (e - m) <= m / 2) by (eapply Rle_trans; [exact H1|apply Rmin_l]). assert (H4 : Rabs (e - m) <= eps' / ((M + 1) * L)) by (eapply Rle_trans; [exact H1|apply Rmin_r]).
      apply Rle_trans with (M * (Rabs (e - m) * L)).
      + apply bound_pi; [apply Rmult_le_pos; [apply Rabs_pos|lra]| |now apply HMb]. eapply Rle_trans; [apply kern_lip; [exact Hm|apply Rabs_le_between in H3; lra]|]. apply Rmult_le_compat_l; [apply Rabs_pos|]. unfold L. apply Rplus_le_compat_r.
        apply Rmult_le_compat_l; [unfold Rdiv; pose proof (Rinv_0_lt_compat m Hm); lra|]. eapply Rle_trans; [apply Rabs_triang|]. rewrite Rabs_Ropp. pose proof (Rle_abs B). lra.
      + apply Rle_trans with (M * (eps' / ((M + 1) * L) * L)); [apply Rmult_le_compat_l; [lra|]; apply Rmult_le_compat_r; lra|].
        replace (M * (eps' / ((M + 1) * L) * L)) with (eps' * (M / (M + 1))) by (field; lra). assert (M / (M + 1) <= 1) by (apply Rmult_le_reg_r with (M + 1); [lra|]; unfold Rdiv; rewrite Rmult_assoc, Rinv_l; lra). nra. }
  generalize (filter_and (F := locally m) _ _ (HS (m / 2) ltac:(lra)) (HL (ball 0 (mkposreal eps He)) (locally_ball 0 (mkposreal eps He)))). apply filter_imp. intros m' [H1 H2].
  change (Rabs (TN r omega alpha beta g n (fun y _ => wt y * (kern m' (y - k) - kern m (y - k)) / PI) y0 q0 - 0) < eps) in H2. rewrite Rminus_0_r in H2.
  change (Rabs (JF m' - JF m) < eps). eapply Rle_lt_trans; [|exact H2]. apply Req_le. f_equal. unfold JF. assert (Hm' : 0 < m') by (apply Rabs_le_between in H1; lra).
  assert (E := TN_lin r omega alpha beta g n _ _ _ _ 1 (-1) (FM_cls m' Hm') (FM_cls m Hm) y0 q0). cbn beta in E. 
  replace (_ - _) with (1 * TN r omega alpha beta g n (fun y _ => FM m' y) y0 q0 + -1 * TN r omega alpha beta g n (fun y _ => FM m y) y0 q0) by ring.
  rewrite <- E. apply TN_ext. intros y q. unfold FM, Rdiv. ring.
Qed.
Lemma J_zero : filterlim J (at_right 0) (locally 0).
Proof.
  assert (HS : forall d, 0 < d -> at_right 0 (fun m => 0 < m <= d)).
  { intros d Hd. exists (mkposreal d Hd). intros x Hx Hp. change (Rabs (x - 0) < d) in Hx. rewrite Rminus_0_r, Rabs_pos_eq in Hx by lra. lra. }
  apply (TN_lim r omega alpha beta g (at_right 0) _ (fun m y _ => HM m y) (c * 3)).
  - apply filter_forall. apply HM_cls.
  - intros B eps He. destruct (wt_loc B) as (M & HM0 & HMb). set (L := Rabs B + Rabs k + 1). pose proof (Rabs_pos B). pose proof (Rabs_pos k).
    generalize (HS (eps / ((M + 1) * L)) ltac:(apply Rdiv_lt_0_compat; [lra|]; apply Rmult_lt_0_compat; unfold L; lra)). apply filter_imp. intros m Hm y q Hy Hq.
    apply Rle_trans with (M * (m * L)).
    + apply bound_pi; [apply Rmult_le_pos; unfold L; lra| |now apply HMb]. eapply Rle_trans; [apply Si_lip|]. rewrite Rabs_mult, (Rabs_pos_eq m) by lra. apply Rmult_le_compat_l; [lra|].
      eapply Rle_trans; [apply Rabs_triang|]. rewrite Rabs_Ropp. pose proof (Rle_abs B). unfold L. lra.
    + assert (HL : 0 < L) by (unfold L; lra). apply Rle_trans with (M * (eps / ((M + 1) * L) * L)); [apply Rmult_le_compat_l; [lra|]; apply Rmult_le_compat_r; lra|].
      replace (M * (eps / ((M + 1) * L) * L)) with (eps * (M / (M + 1))) by (field; lra). assert (M / (M + 1) <= 1) by (apply Rmult_le_reg_r with (M + 1); [lra|]; unfold Rdiv; rewrite Rmult_assoc, Rinv_l; lra). nra.
Qed.
Lemma J_int a b : 0 < a -> 0 < b -> is_RInt JF a b (J b - J a).
Proof.
  intros Ha Hb. apply (is_RInt_derive (V := R_CompleteNormedModule) J).
  - intros x Hx. apply J_derive. unfold Rmin in Hx. destruct (Rle_dec a b) in Hx; lra.
  - intros x Hx. apply JF_cont. unfold Rmin in Hx. destruct (Rle_dec a b) in Hx; lra.
Qed.
Lemma half_line_lim L : filterlim J (Rbar_locally p_infty) (locally L) -> is_half_line JF L.
Proof.
  intros HL P [eps HP]. 
  assert (H1 := J_zero (ball 0 (pos_div_2 eps)) (locally_ball 0 (pos_div_2 eps))). assert (H2 := HL (ball L (pos_div_2 eps)) (locally_ball L (pos_div_2 eps))).
  assert (H3 : at_right 0 (fun a => 0 < a)). { exists (mkposreal 1 Rlt_0_1). intros; assumption. }
  assert (H4 : Rbar_locally p_infty (fun a => 0 < a)). { exists 0. intros; assumption. }
  apply (Filter_prod _ _ _ _ _ (filter_and (F := at_right 0) _ _ H1 H3) (filter_and (F := Rbar_locally p_infty) _ _ H2 H4)). intros a b [A1 A2] [B1 B2]. exists (J b - J a). split; [now apply J_int|]. apply HP.
  change (Rabs (J a - 0) < eps / 2) in A1. change (Rabs (J b - L) < eps / 2) in B1. change (Rabs (J b - J a - L) < eps).
  replace (J b - J a - L) with ((J b - L) - (J a - 0)) by ring. eapply Rle_lt_trans; [apply Rabs_triang|]. rewrite Rabs_Ropp. lra.
Qed.
Lemma half_line_ex C : (forall m, 1 <= m -> Rabs (JF m) <= C / m ^ 2) -> exists L, filterlim J (Rbar_locally p_infty) (locally L).
Proof.
  intro HB. assert (HC : 0 <= C). { specialize (HB 1 ltac:(lra)). pose proof (Rabs_pos (JF 1)). unfold Rdiv in HB. rewrite pow1, Rinv_1 in HB. lra. }
  assert (HD : forall a b, 1 <= a -> a <= b -> Rabs (J b - J a) <= C / a).
  { intros a b Ha Hab. assert (HI := J_int a b ltac:(lra) ltac:(lra)). rewrite <- (is_RInt_unique (V := R_CompleteNormedModule) _ _ _ _ HI).
    assert (HP : is_RInt (fun m => C / m ^ 2) a b (- C / b - - C / a)).
    { apply (is_RInt_derive (V := R_CompleteNormedModule) (fun m => - C / m)).
      - intros x Hx. rewrite Rmin_left in Hx by lra. evar_last. { auto_derive; [lra|reflexivity]. } field. lra.
      - intros x Hx. rewrite Rmin_left in Hx by lra. apply (ex_derive_continuous (V := R_NormedModule)). auto_derive. nra. }
    eapply Rle_trans; [apply abs_RInt_le; [exact Hab|eexists; exact HI]|]. apply Rle_trans with (- C / b - - C / a).
    - rewrite <- (is_RInt_unique (V := R_CompleteNormedModule) _ _ _ _ HP). apply RInt_le; [exact Hab| |eexists; exact HP|intros x Hx; apply HB; lra].
      apply (ex_RInt_continuous (V := R_CompleteNormedModule)). intros t Ht. rewrite Rmin_left in Ht by lra. apply (continuous_comp JF Rabs); [apply JF_cont; lra|apply (continuous_abs (K := R_AbsRing))].
    - unfold Rdiv. pose proof (Rinv_0_lt_compat b ltac:(lra)). nra. }
  assert (HX : exists L : R, filterlim J (Rbar_locally p_infty) (locally (L : R_CompleteSpace))).
  { apply (filterlim_locally_cauchy (F := Rbar_locally p_infty) J). intros [eps He]. exists (fun m => 1 + 2 * C / eps < m). split.
    - exists (1 + 2 * C / eps). intros; assumption.
    - intros u v Hu Hv. assert (Hq : 0 <= 2 * C / eps) by (apply Rmult_le_pos; [lra|left; now apply Rinv_0_lt_compat]).
      assert (HE : forall w, 1 + 2 * C / eps < w -> C / w < eps). { intros w Hw. apply Rmult_lt_reg_r with w; [lra|]. unfold Rdiv at 1. rewrite Rmult_assoc, Rinv_l by lra.
        assert (eps * (2 * C / eps) = 2 * C) by (field; lra). nra. }
      change (Rabs (J v - J u) < eps). destruct (Rle_dec u v) as [H|H].
      + eapply Rle_lt_trans; [apply HD; lra|]. now apply HE.
      + rewrite Rabs_minus_sym. eapply Rle_lt_trans; [apply HD; lra|]. now apply HE. }
  exact HX.
Qed.
End Wt.

(** for the weight [price - strike] the limit is half the mean distance to the strike *)
Lemma J_payoff : filterlim (J (fun y => exp y - exp k)) (Rbar_locally p_infty) (locally (TN r omega alpha beta g n (fun y _ => Rabs (exp y - exp k) / 2) y0 q0)).
Proof.
  set (wt := fun y => exp y - exp k). set (c := 1 + exp k). pose proof (exp_pos k) as Hek.
  assert (Hwc : cont wt). { intro y. apply (ex_derive_continuous (V := R_NormedModule)). unfold wt. auto_derive. exact Coq.Init.Logic.I. }
  assert (Hwb : forall y, Rabs (wt y) <= c * (1 + exp y)). { intro y. unfold wt, c. pose proof (exp_pos y). apply Rabs_le. nra. }
  assert (Hc : 0 <= c) by (unfold c; lra). pose proof PI_gt1 as Hpi.
  assert (CA : cls c (fun y _ => Rabs (exp y - exp k) / 2)).
  { split; [exact Hc|]. split.
    - intros y q. apply (cont2_fst (fun y => Rabs (wt y) / 2)). unfold Rdiv. apply (continuous_mult (K := R_AbsRing) (fun y => Rabs (wt y)) (fun _ => / 2)); [|apply continuous_const].
      apply (continuous_comp wt Rabs); [apply Hwc|apply (continuous_abs (K := R_AbsRing))].
    - intros y q. specialize (Hwb y). unfold wt in Hwb. pose proof (Rabs_pos (exp y - exp k)). rewrite Rabs_pos_eq by lra. lra. }
  assert (HL : filterlim (fun m => TN r omega alpha beta g n (fun y q => 1 * HM wt m y + -1 * (Rabs (exp y - exp k) / 2)) y0 q0) (Rbar_locally p_infty) (locally 0)).
  { apply (TN_lim r omega alpha beta g (Rbar_locally p_infty) _ (fun m y q => 1 * HM wt m y + -1 * (Rabs (exp y - exp k) / 2)) (Rabs 1 * (c * 3) + Rabs (-1) * c)).
    - apply filter_forall. intro m. exact (cls_lin _ _ _ _ 1 (-1) (HM_cls wt c Hc Hwc Hwb m) CA).
    - intros B eps He. set (L := exp k * exp (Rabs B + Rabs k)). assert (HL : 0 < L) by (apply Rmult_lt_0_compat; apply exp_pos).
      exists (L / eps). intros m Hm y q Hy Hq. assert (Hm0 : 0 < m) by (eapply Rlt_trans; [|exact Hm]; now apply Rdiv_lt_0_compat).
      apply Rle_trans with (L / m).
      2:{ apply Rmult_le_reg_r with m; [exact Hm0|]. unfold Rdiv. rewrite Rmult_assoc, Rinv_l by lra. assert (E : L / eps * eps = L) by (field; lra). nra. }
      set (x := y - k). assert (Ey : exp y = exp k * exp x) by (rewrite <- exp_plus; f_equal; unfold x; ring).
      assert (Hx : Rabs x <= Rabs B + Rabs k) by (unfold x; eapply Rle_trans; [apply Rabs_triang|]; rewrite Rabs_Ropp; pose proof (Rle_abs B); lra).
      assert (W : forall s, 0 < s -> Rabs (Si (m * s) / PI - 1 / 2) <= / (m * s)).
      { intros s Hs. assert (Hms : 0 < m * s) by now apply Rmult_lt_0_compat. pose proof (Si_limit (m * s) Hms) as H. replace (Si (m * s) / PI - 1 / 2) with ((Si (m * s) - PI / 2) * / PI) by (field; lra).
        rewrite Rabs_mult, (Rabs_pos_eq (/ PI)) by (left; apply Rinv_0_lt_compat; lra). assert (/ PI <= 1) by (rewrite <- Rinv_1; apply Rinv_le_contravar; lra). pose proof (Rinv_0_lt_compat PI ltac:(lra)).
        pose proof (Rabs_pos (Si (m * s) - PI / 2)). nra. }
      assert (Ex : exp x <= exp (Rabs B + Rabs k)). { pose proof (Rle_abs x). destruct (Req_dec x (Rabs B + Rabs k)) as [->|]; [lra|]. left. apply exp_increasing. lra. }
      unfold HM, wt. fold x. rewrite Ey. destruct (Rtotal_order x 0) as [Hn|[H0|Hp]].
      + assert (exp x < 1) by (rewrite <- exp_0; now apply exp_increasing). assert (H1 : 1 + x < exp x) by (apply exp_ineq1; lra).
        replace (exp k * exp x - exp k) with (- (exp k * (1 - exp x))) by ring. rewrite Rabs_Ropp, (Rabs_pos_eq (exp k * (1 - exp x))) by nra.
        replace (m * x) with (- (m * (- x))) by ring. rewrite Si_odd. replace (1 * _ + _) with ((exp k * (1 - exp x)) * (Si (m * - x) / PI - 1 / 2)) by (field; lra).
        rewrite Rabs_mult, (Rabs_pos_eq (exp k * (1 - exp x))) by nra. specialize (W (- x) ltac:(lra)).
        apply Rle_trans with (exp k * (- x) * / (m * - x)). { apply Rmult_le_compat; [nra|apply Rabs_pos|nra|exact W]. }
        replace (exp k * - x * / (m * - x)) with (exp k * / m) by (field; lra). unfold Rdiv. apply Rmult_le_compat_r; [left; now apply Rinv_0_lt_compat|]. unfold L.
        assert (1 <= exp (Rabs B + Rabs k)). { rewrite <- exp_0. pose proof (Rabs_pos B). pose proof (Rabs_pos k). destruct (Req_dec (Rabs B + Rabs k) 0) as [->|]; [lra|]. left. apply exp_increasing. lra. } nra.
      + rewrite H0, exp_0. replace (exp k * 1 - exp k) with 0 by ring. rewrite Rabs_R0. unfold Rdiv. rewrite !Rmult_0_l, !Rmult_0_r, Rplus_0_l, Rabs_R0. apply Rmult_le_pos; [lra|left; now apply Rinv_0_lt_compat].
      + assert (H1 : 1 < exp x) by (rewrite <- exp_0; now apply exp_increasing). assert (H2 : exp x - 1 <= x * exp x).
        { assert (H3 : 1 + - x < exp (- x)) by (apply exp_ineq1; lra). rewrite exp_Ropp in H3. pose proof (exp_pos x). apply Rmult_lt_compat_r with (r := exp x) in H3; [|assumption]. rewrite Rinv_l in H3 by lra. lra. }
        replace (exp k * exp x - exp k) with (exp k * (exp x - 1)) by ring. rewrite (Rabs_pos_eq (exp k * (exp x - 1))) by nra.
        replace (1 * _ + _) with ((exp k * (exp x - 1)) * (Si (m * x) / PI - 1 / 2)) by (field; lra).
        rewrite Rabs_mult, (Rabs_pos_eq (exp k * (exp x - 1))) by nra. specialize (W x Hp).
        apply Rle_trans with (exp k * (x * exp x) * / (m * x)). { apply Rmult_le_compat; [nra|apply Rabs_pos|nra|exact W]. }
        replace (exp k * (x * exp x) * / (m * x)) with (exp k * exp x * / m) by (field; lra). unfold Rdiv. apply Rmult_le_compat_r; [left; now apply Rinv_0_lt_compat|]. unfold L. nra. }
  apply filterlim_locally. intros [eps He]. assert (HQ := HL (ball 0 (mkposreal eps He)) (locally_ball 0 (mkposreal eps He))). unfold filtermap in HQ. revert HQ. apply filter_imp. intros m H2.
  match type of H2 with ball 0 _ ?t => change (Rabs (t - 0) < eps) in H2 end. rewrite Rminus_0_r in H2.
  rewrite (TN_lin r omega alpha beta g n _ _ _ _ 1 (-1) (HM_cls wt c Hc Hwc Hwb m) CA) in H2.
  match goal with |- ball ?u _ ?t => change (Rabs (t - u) < eps) end. unfold J. eapply Rle_lt_trans; [|exact H2]. apply Req_le. f_equal. ring.
Qed.
(** the two weights used for the price *)
Lemma payoff_split L1 L0 : filterlim (J exp) (Rbar_locally p_infty) (locally L1) -> filterlim (J (fun _ => 1)) (Rbar_locally p_infty) (locally L0) ->
  L1 - exp k * L0 = TN r omega alpha beta g n (fun y _ => Rabs (exp y - exp k) / 2) y0 q0.
Proof.
  intros H1 H0. apply (filterlim_locally_unique (F := Rbar_locally p_infty) (V := R_NormedModule) (J (fun y => exp y - exp k))); [|apply J_payoff].
  apply (filterlim_ext (fun m => J exp m + - exp k * J (fun _ => 1) m)).
  - intro m. unfold J.
    assert (C1 : cls (1 * 3) (fun y _ => HM exp m y)). { apply HM_cls; [lra| |]; intro y; [apply (ex_derive_continuous (V := R_NormedModule)); auto_derive; exact Coq.Init.Logic.I|]. pose proof (exp_pos y). rewrite Rabs_pos_eq; lra. }
    assert (C0 : cls (1 * 3) (fun y _ => HM (fun _ => 1) m y)). { apply HM_cls; [lra| |]; intro y; [apply continuous_const|]. pose proof (exp_pos y). rewrite Rabs_R1; lra. }
    replace (TN r omega alpha beta g n (fun y _ => HM exp m y) y0 q0 + - exp k * TN r omega alpha beta g n (fun y _ => HM (fun _ => 1) m y) y0 q0)
      with (1 * TN r omega alpha beta g n (fun y _ => HM exp m y) y0 q0 + - exp k * TN r omega alpha beta g n (fun y _ => HM (fun _ => 1) m y) y0 q0) by ring.
    rewrite <- (TN_lin r omega alpha beta g n _ _ _ _ 1 (- exp k) C1 C0). apply TN_ext. intros y q. unfold HM, Rdiv. ring.
  - replace (L1 - exp k * L0) with (L1 + - exp k * L0) by ring. eapply filterlim_comp_2; [exact H1| |apply (filterlim_plus (K := R_AbsRing) (V := R_NormedModule))].
    eapply filterlim_comp; [exact H0|]. apply (filterlim_scal_r (K := R_AbsRing) (V := R_NormedModule) (- exp k) L0).
Qed.
End Inv.
