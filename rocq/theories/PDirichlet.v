(** The sine integral and its limit pi/2. *)
From Coq Require Import Reals Lra Lia.
From Coquelicot Require Import Coquelicot.
Open Scope R_scope.

Definition sinc (x : R) : R := if Req_EM_T x 0 then 1 else sin x / x.
Lemma sinc_nz x : x <> 0 -> sinc x = sin x / x. Proof. intro H. unfold sinc. now destruct (Req_EM_T x 0). Qed.
Lemma sinc_0 : sinc 0 = 1. Proof. unfold sinc. now destruct (Req_EM_T 0 0). Qed.
Lemma sinc_mul x : sinc x * x = sin x.
Proof. destruct (Req_dec x 0) as [->|H]; [rewrite sin_0; ring|]. rewrite sinc_nz by exact H. field. exact H. Qed.
Lemma sin_bound x : Rabs (sin x) <= Rabs x.
Proof.
  assert (W : forall x, 0 <= x -> Rabs (sin x) <= x).
  { clear. intros x Hx. apply Rabs_le. split.
    - destruct (Rle_dec 1 x); [generalize (SIN_bound x); lra|]. assert (0 <= sin x) by (apply sin_ge_0; generalize PI2_3_2; lra). lra.
    - destruct (Req_dec x 0) as [->|]; [rewrite sin_0; lra|]. left. apply sin_lt_x. lra. }
  destruct (Rle_dec 0 x) as [H|H]; [rewrite (Rabs_pos_eq x) by lra; auto|].
  rewrite (Rabs_left x) by lra. replace (sin x) with (- sin (- x)) by (rewrite sin_neg; ring). rewrite Rabs_Ropp. apply W. lra.
Qed.
Lemma sinc_le x : Rabs (sinc x) <= 1.
Proof.
  destruct (Req_dec x 0) as [->|H]; [rewrite sinc_0, Rabs_R1; lra|]. rewrite sinc_nz by exact H. unfold Rdiv. rewrite Rabs_mult, Rabs_inv. pose proof (sin_bound x). pose proof (Rabs_pos_lt x H).
  apply Rmult_le_reg_r with (Rabs x); [assumption|]. rewrite Rmult_assoc, Rinv_l; lra.
Qed.
Lemma sinc_cont x : continuous sinc x.
Proof.
  destruct (Req_dec x 0) as [->|H].
  - apply filterlim_locally. intros [eps He]. destruct (derivable_pt_lim_sin_0 eps He) as ([d Hd] & HD). cbn in HD. exists (mkposreal d Hd). intros y Hy.
    change (Rabs (y - 0) < d) in Hy. rewrite Rminus_0_r in Hy. change (Rabs (sinc y - sinc 0) < eps). rewrite sinc_0. destruct (Req_dec y 0) as [->|Hn]; [rewrite sinc_0, Rminus_diag_eq, Rabs_R0; [exact He|reflexivity]|].
    rewrite sinc_nz by exact Hn. specialize (HD y Hn Hy). rewrite Rplus_0_l, sin_0, Rminus_0_r in HD. exact HD.
  - apply (continuous_ext_loc sinc (fun y => sin y / y) x).
    + exists (mkposreal (Rabs x) (Rabs_pos_lt x H)). intros y Hy. change (Rabs (y - x) < Rabs x) in Hy. symmetry. apply sinc_nz. intros ->. rewrite Rminus_0_l, Rabs_Ropp in Hy. lra.
    + apply (ex_derive_continuous (V := R_NormedModule)). auto_derive. exact H.
Qed.
Definition Si (x : R) : R := RInt sinc 0 x.
Lemma sinc_int a b : ex_RInt sinc a b.
Proof. apply (ex_RInt_continuous (V := R_CompleteNormedModule)). intros; apply sinc_cont. Qed.
Lemma Si_derive x : is_derive Si x (sinc x).
Proof. apply (is_derive_RInt (V := R_NormedModule) sinc Si 0 x); [|apply sinc_cont]. apply filter_forall. intro y. apply (RInt_correct (V := R_CompleteNormedModule)), sinc_int. Qed.
Lemma Si_cont x : continuous Si x.
Proof. apply (ex_derive_continuous (V := R_NormedModule)). eexists. apply Si_derive. Qed.
Lemma sinc_even x : sinc (- x) = sinc x.
Proof. destruct (Req_dec x 0) as [->|H]; [now rewrite Ropp_0|]. rewrite !sinc_nz by lra. rewrite sin_neg. field. exact H. Qed.
Lemma Si_odd x : Si (- x) = - Si x.
Proof.
  assert (H : is_RInt sinc (- 0) (- x) (Si (- x))) by (rewrite Ropp_0; apply (RInt_correct (V := R_CompleteNormedModule)), sinc_int).
  apply (is_RInt_comp_opp (V := R_NormedModule)) in H. apply (is_RInt_opp (V := R_NormedModule)) in H.
  assert (E : Si x = - Si (- x)); [|lra]. apply (is_RInt_unique (V := R_CompleteNormedModule)). eapply is_RInt_ext; [|exact H]. intros y _. cbn. rewrite sinc_even. unfold opp; cbn. ring.
Qed.

(** ** Laplace transform on a finite interval *)
Section L.
Variable N : R.
Hypothesis HN : 0 < N.
Definition LI (s : R) : R := RInt (fun t => exp (- s * t) * sinc t) 0 N.
Definition dL (s : R) : R := (1 - exp (- s * N) * (cos N + s * sin N)) / (1 + s ^ 2).
Lemma LI_0 : LI 0 = Si N.
Proof. unfold LI, Si. apply (RInt_ext (V := R_CompleteNormedModule)). intros x _. replace (- 0 * x) with 0 by ring. rewrite exp_0. cbn. ring. Qed.
Lemma lsin_int s : is_RInt (fun t => - exp (- s * t) * sin t) 0 N (- dL s).
Proof.
  assert (Hs : 0 < 1 + s ^ 2) by nra.
  assert (H : is_RInt (fun t => - exp (- s * t) * sin t) 0 N
    (exp (- s * N) * (cos N + s * sin N) / (1 + s ^ 2) - exp (- s * 0) * (cos 0 + s * sin 0) / (1 + s ^ 2))).
  { apply (is_RInt_derive (V := R_CompleteNormedModule) (fun t => exp (- s * t) * (cos t + s * sin t) / (1 + s ^ 2))).
    - intros t _. evar_last. { apply is_derive_Reals. apply is_derive_Reals. auto_derive; [exact Coq.Init.Logic.I|reflexivity]. } field. lra.
    - intros t _. apply (ex_derive_continuous (V := R_NormedModule)). auto_derive. exact Coq.Init.Logic.I. }
  evar_last; [exact H|]. unfold dL. rewrite cos_0, sin_0. replace (- s * 0) with 0 by ring. rewrite exp_0. field. lra.
Qed.
Lemma LI_derive s : is_derive LI s (- dL s).
Proof.
  evar_last.
  - apply (is_derive_RInt_param (fun s t => exp (- s * t) * sinc t) 0 N s).
    + apply filter_forall. intros s' t _. auto_derive. exact Coq.Init.Logic.I.
    + intros t _. apply continuity_2d_pt_ext with (fun u v => - exp (- u * v) * sin v).
      * intros u v. symmetry. apply is_derive_unique. evar_last. { auto_derive; [exact Coq.Init.Logic.I|reflexivity]. } rewrite <- (sinc_mul v). ring.
      * apply continuity_2d_pt_filterlim. apply (continuous_mult (K := R_AbsRing) (fun z : R * R => - exp (- fst z * snd z)) (fun z : R * R => sin (snd z)) (s, t)).
        -- apply (continuous_comp (fun z : R * R => - fst z * snd z) (fun x => - exp x)).
           ++ apply (continuous_mult (K := R_AbsRing) (fun z : R * R => - fst z) (fun z : R * R => snd z)); [|apply continuous_snd].
              apply (continuous_opp (K := R_AbsRing) (V := R_NormedModule) (fun z : R * R => fst z)). apply continuous_fst.
           ++ apply (ex_derive_continuous (V := R_NormedModule)). auto_derive. exact Coq.Init.Logic.I.
        -- apply (continuous_comp (fun z : R * R => snd z) sin); [apply continuous_snd|apply continuous_sin].
    + apply filter_forall. intro s'. apply (ex_RInt_continuous (V := R_CompleteNormedModule)). intros t _. apply (continuous_mult (K := R_AbsRing) (fun t => exp (- s' * t)) sinc); [|apply sinc_cont].
      apply (ex_derive_continuous (V := R_NormedModule)). auto_derive. exact Coq.Init.Logic.I.
  - apply (is_RInt_unique (V := R_CompleteNormedModule)). eapply is_RInt_ext; [|apply lsin_int]. intros t _. symmetry. apply is_derive_unique. evar_last. { auto_derive; [exact Coq.Init.Logic.I|reflexivity]. } rewrite <- (sinc_mul t). ring.
Qed.
Lemma LI_bound s : 0 < s -> Rabs (LI s) <= / s.
Proof.
  intro Hs. unfold LI. assert (HI : is_RInt (fun t => exp (- s * t)) 0 N (- exp (- s * N) / s - - exp (- s * 0) / s)).
  { apply (is_RInt_derive (V := R_CompleteNormedModule) (fun t => - exp (- s * t) / s)).
    - intros t _. evar_last. { auto_derive; [exact Coq.Init.Logic.I|reflexivity]. } field. lra.
    - intros t _. apply (ex_derive_continuous (V := R_NormedModule)). auto_derive. exact Coq.Init.Logic.I. }
  assert (HC : forall t, continuous (fun t => exp (- s * t) * sinc t) t).
  { intro t. apply (continuous_mult (K := R_AbsRing) (fun t => exp (- s * t)) sinc); [|apply sinc_cont]. apply (ex_derive_continuous (V := R_NormedModule)). auto_derive. exact Coq.Init.Logic.I. }
  eapply Rle_trans; [apply abs_RInt_le; [lra|apply (ex_RInt_continuous (V := R_CompleteNormedModule)); intros; apply HC]|].
  apply Rle_trans with (- exp (- s * N) / s - - exp (- s * 0) / s).
  - rewrite <- (is_RInt_unique (V := R_CompleteNormedModule) _ _ _ _ HI). apply RInt_le; [lra| |eexists; exact HI|].
    + apply (ex_RInt_continuous (V := R_CompleteNormedModule)). intros t _. apply (continuous_comp (fun t => exp (- s * t) * sinc t) Rabs); [apply HC|apply (continuous_abs (K := R_AbsRing))].
    + intros t _. rewrite Rabs_mult. pose proof (sinc_le t). pose proof (exp_pos (- s * t)). rewrite (Rabs_pos_eq (exp _)) by lra. nra.
  - replace (- s * 0) with 0 by ring. rewrite exp_0. pose proof (exp_pos (- s * N)). pose proof (Rinv_0_lt_compat s Hs). unfold Rdiv. nra.
Qed.
(** the difference to the arc tangent has a small derivative *)
Lemma Si_atan s : 0 < s -> Rabs (Si N - LI s - atan s) <= / N.
Proof.
  intro Hs. set (D := fun s => exp (- s * N) * (cos N + s * sin N) / (1 + s ^ 2)).
  assert (HD : is_RInt D 0 s ((LI s + atan s) - (LI 0 + atan 0))).
  { apply (is_RInt_derive (V := R_CompleteNormedModule) (fun s => LI s + atan s)).
    - intros t _. evar_last. { apply (is_derive_plus (K := R_AbsRing) (V := R_NormedModule) LI atan); [apply LI_derive|]. apply is_derive_Reals, derivable_pt_lim_atan. }
      unfold plus, D, dL; cbn. field. nra.
    - intros t _. apply (ex_derive_continuous (V := R_NormedModule)). unfold D. auto_derive. nra. }
  rewrite LI_0, atan_0 in HD. assert (HI : is_RInt (fun t => exp (- t * N)) 0 s (- exp (- s * N) / N - - exp (- 0 * N) / N)).
  { apply (is_RInt_derive (V := R_CompleteNormedModule) (fun t => - exp (- t * N) / N)).
    - intros t _. evar_last. { auto_derive; [exact Coq.Init.Logic.I|reflexivity]. } field. lra.
    - intros t _. apply (ex_derive_continuous (V := R_NormedModule)). auto_derive. exact Coq.Init.Logic.I. }
  replace (Si N - LI s - atan s) with (- (LI s + atan s - (Si N + 0))) by ring. rewrite Rabs_Ropp.
  rewrite <- (is_RInt_unique (V := R_CompleteNormedModule) _ _ _ _ HD).
  assert (HC : forall t, continuous D t). { intro t. apply (ex_derive_continuous (V := R_NormedModule)). unfold D. auto_derive. nra. }
  eapply Rle_trans; [apply abs_RInt_le; [lra|eexists; exact HD]|].
  apply Rle_trans with (- exp (- s * N) / N - - exp (- 0 * N) / N).
  - rewrite <- (is_RInt_unique (V := R_CompleteNormedModule) _ _ _ _ HI). apply RInt_le; [lra| |eexists; exact HI|].
    + apply (ex_RInt_continuous (V := R_CompleteNormedModule)). intros t _. apply (continuous_comp D Rabs); [apply HC|apply (continuous_abs (K := R_AbsRing))].
    + intros t Ht. unfold D, Rdiv. rewrite !Rabs_mult. pose proof (exp_pos (- t * N)). rewrite (Rabs_pos_eq (exp _)) by lra. rewrite (Rabs_pos_eq (/ _)) by (left; apply Rinv_0_lt_compat; nra).
      assert (HB : Rabs (cos N + t * sin N) <= 1 + t ^ 2).
      { apply Rabs_le. pose proof (sin2_cos2 N) as SC. unfold Rsqr in SC. set (a := cos N) in *. set (b := sin N) in *. clearbody a b.
        assert (S2 : (a + t * b) ^ 2 <= 1 + t ^ 2) by (assert ((a + t * b) ^ 2 + (t * a - b) ^ 2 = (b * b + a * a) * (1 + t ^ 2)) by ring; rewrite SC in *; generalize (pow2_ge_0 (t * a - b)); lra).
        assert (T2 : 0 <= t ^ 2) by apply pow2_ge_0. set (w := t ^ 2) in *. set (x := a + t * b) in *. clearbody w x. split; nra. }
      rewrite Rmult_assoc. rewrite <- (Rmult_1_r (exp (- t * N))) at 2. apply Rmult_le_compat_l; [lra|].
      apply Rmult_le_reg_r with (1 + t ^ 2); [nra|]. rewrite Rmult_assoc, Rinv_l by nra. lra.
  - replace (- 0 * N) with 0 by ring. rewrite exp_0. pose proof (exp_pos (- s * N)). pose proof (Rinv_0_lt_compat N HN). unfold Rdiv. nra.
Qed.
End L.

Lemma Si_limit x : 0 < x -> Rabs (Si x - PI / 2) <= / x.
Proof.
  intro Hx. apply le_epsilon. intros eps He. pose proof PI_RGT_0.
  (* pick s with atan s close to PI/2 and 1/s small *)
  set (d := Rmin (eps / 3) (PI / 4)). assert (Hd : 0 < d) by (apply Rmin_pos; lra). assert (d <= eps / 3) by apply Rmin_l. assert (d <= PI / 4) by apply Rmin_r.
  set (s := Rmax (tan (PI / 2 - d)) (3 / eps)). assert (Hs : 0 < s) by (unfold s; eapply Rlt_le_trans; [|apply Rmax_r]; apply Rdiv_lt_0_compat; lra).
  assert (Ha : PI / 2 - d <= atan s).
  { rewrite <- (atan_tan (PI / 2 - d)) by lra. destruct (Rle_lt_or_eq_dec _ _ (Rmax_l (tan (PI / 2 - d)) (3 / eps))) as [Hlt|Heq]; [left; now apply atan_increasing|]. unfold s. rewrite <- Heq. lra. }
  pose proof (atan_bound s). pose proof (Si_atan x Hx s Hs) as H3. pose proof (LI_bound x Hx s Hs) as H4.
  assert (H5 : / s <= eps / 3). { apply Rle_trans with (/ (3 / eps)); [apply Rinv_le_contravar; [apply Rdiv_lt_0_compat; lra|apply Rmax_r]|]. apply Req_le. field. lra. }
  apply Rabs_le_between in H3, H4. apply Rabs_le. lra.
Qed.
Lemma Si_near x : 0 <= x -> Rabs (Si x) <= x.
Proof.
  intro Hx. unfold Si. eapply Rle_trans; [apply abs_RInt_le; [exact Hx|apply sinc_int]|].
  assert (HI : is_RInt (fun _ => 1) 0 x (x - 0)). { evar_last; [apply (is_RInt_const (V := R_NormedModule))|]. unfold scal; cbn; unfold mult; cbn. ring. }
  apply Rle_trans with (x - 0); [|lra]. rewrite <- (is_RInt_unique (V := R_CompleteNormedModule) _ _ _ _ HI). apply RInt_le; [exact Hx| |eexists; exact HI|].
  - apply (ex_RInt_continuous (V := R_CompleteNormedModule)). intros t _. apply (continuous_comp sinc Rabs); [apply sinc_cont|apply (continuous_abs (K := R_AbsRing))].
  - intros t _. apply sinc_le.
Qed.
Lemma Si_lip x : Rabs (Si x) <= Rabs x.
Proof. destruct (Rle_dec 0 x) as [H|H]; [rewrite (Rabs_pos_eq x) by lra; now apply Si_near|]. rewrite <- (Rabs_Ropp (Si x)), <- Si_odd, (Rabs_left x) by lra. apply Si_near. lra. Qed.
Lemma Si_bounded x : Rabs (Si x) <= 3.
Proof.
  assert (W : forall x, 0 <= x -> Rabs (Si x) <= 3).
  { intros y Hy. destruct (Rle_dec y 1); [eapply Rle_trans; [now apply Si_near|lra]|]. pose proof (Si_limit y ltac:(lra)) as H. assert (/ y <= 1) by (rewrite <- Rinv_1; apply Rinv_le_contravar; lra).
    pose proof PI_4. pose proof PI_RGT_0. apply Rabs_le_between in H. apply Rabs_le. lra. }
  destruct (Rle_dec 0 x); [auto|]. rewrite <- (Rabs_Ropp (Si x)), <- Si_odd. apply W. lra.
Qed.
