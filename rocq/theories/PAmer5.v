(** The steps of the binomial classes as tilted walks: size, drift and tilt as the time step shrinks. *)
From Coq Require Import Reals String List Arith Lra Lia Psatz.
From Coquelicot Require Import Coquelicot.
From Verif Require Import Num Py MBase MVanilla MTrees STrees PCnd PGauss PTrees2 PStop PTrees3 PSpread3 PLattice PTrees4 PConv PConv3 PConv4 PExpect2 PClt PAmer1 PAmer2 PAmer3.
Open Scope R_scope.

Lemma ln_ch x : Rabs x <= 1 -> Rabs (ln (ch x) - x ^ 2 / 2) <= x ^ 4 / 2.
Proof.
  intro Hx. destruct (exp_over_ch x Hx) as [A B]. pose proof (ch_ge_1 x) as C. assert (E : ln (exp (x ^ 2 / 2) / ch x) = x ^ 2 / 2 - ln (ch x)) by (unfold Rdiv at 1; rewrite ln_mult, ln_Rinv, ln_exp by (try apply Rinv_0_lt_compat; try apply exp_pos; lra); ring).
  assert (H0 : 0 < exp (x ^ 2 / 2) / ch x) by lra. assert (L1 : 0 <= ln (exp (x ^ 2 / 2) / ch x)) by (rewrite <- ln_1; destruct A as [A|A]; [left; apply ln_increasing; lra|right; now rewrite <- A]).
  assert (L2 : ln (exp (x ^ 2 / 2) / ch x) <= x ^ 4 / 2) by (rewrite <- (ln_exp (x ^ 4 / 2)); destruct B as [B|B]; [left; apply ln_increasing; lra|right; now rewrite B]).
  rewrite E in L1, L2. apply Rabs_le. split; lra.
Qed.

Lemma lim0_bound f l : lim0 f l -> at_right 0 (fun q => Rabs (f q) <= Rabs l + 1).
Proof.
  intro H. assert (X := H (fun y => Rabs (y - l) < 1)). assert (Y : locally l (fun y => Rabs (y - l) < 1)) by (exists (mkposreal 1 Rlt_0_1); intros y Hy; exact Hy). specialize (X Y).
  unfold filtermap in X. eapply filter_imp; [|exact X]. intros q Hq. cbv beta in Hq. replace (f q) with ((f q - l) + l) by ring. eapply Rle_trans; [apply Rabs_triang|]. lra.
Qed.
Lemma lim0_near f l e : 0 < e -> lim0 f l -> at_right 0 (fun q => Rabs (f q - l) < e).
Proof. intros He H. apply (H (fun y => Rabs (y - l) < e)). exists (mkposreal e He). intros y Hy. exact Hy. Qed.
Lemma at_pos : at_right 0 (fun q => 0 < q).
Proof. exists (mkposreal 1 Rlt_0_1). intros q _ Hq. exact Hq. Qed.
Lemma at_lt e : 0 < e -> at_right 0 (fun q => q < e).
Proof. intro He. exists (mkposreal e He). intros q Hq Hq0. change (Rabs (q - 0) < e) in Hq. rewrite Rminus_0_r, Rabs_pos_eq in Hq; lra. Qed.
Lemma lim0_id : lim0 (fun q => q) 0.
Proof. apply lim0_cont'; [apply continuous_id|reflexivity]. Qed.
Lemma lim0_comp f l (h : R -> R) : continuous h l -> lim0 f l -> lim0 (fun q => h (f q)) (h l).
Proof. intros C H. unfold lim0. eapply filterlim_comp; [exact H|exact C]. Qed.
Lemma lim0_inv f l : l <> 0 -> lim0 f l -> lim0 (fun q => / f q) (/ l).
Proof. intros Hl H. apply (lim0_comp f l Rinv); [|exact H]. apply (ex_derive_continuous Rinv). auto_derive. exact Hl. Qed.
Lemma lim0_squeeze f g h l : at_right 0 (fun q => f q <= g q <= h q) -> lim0 f l -> lim0 h l -> lim0 g l.
Proof. intros H F G. exact (filterlim_le_le f g h l H F G). Qed.

Section Class.
Variables (k : bi_model) (b s : R).
Hypothesis Hs : 0 < s.
Definition aa (dt : R) : R := (ln (step_u k b s dt) - ln (step_d k b s dt)) / 2.
Definition mm (dt : R) : R := (ln (step_u k b s dt) + ln (step_d k b s dt)) / 2.
Definition tt (dt : R) : R := ln (step_p k b s dt / (1 - step_p k b s dt)) / (2 * aa dt).

Let V (q : R) := exp (s ^ 2 * q ^ 2).
Let Q (q : R) := sqrt (V q ^ 2 + 2 * V q - 3).
Lemma V_gt q : 0 < q -> 1 < V q.
Proof. intro Hq. unfold V. rewrite <- exp_0. apply exp_increasing. apply Rmult_lt_0_compat; now apply pow_lt. Qed.
Lemma Q_eq q : 0 < q -> Q q = sqrt (V q - 1) * sqrt (V q + 3).
Proof. intro Hq. pose proof (V_gt q Hq). unfold Q. rewrite <- sqrt_mult by lra. f_equal. ring. Qed.
Lemma Q_sq q : 0 < q -> Q q ^ 2 = V q ^ 2 + 2 * V q - 3 /\ 0 < Q q < V q + 1.
Proof.
  intro Hq. pose proof (V_gt q Hq). assert (0 < V q ^ 2 + 2 * V q - 3) by nra. assert (E : Q q ^ 2 = V q ^ 2 + 2 * V q - 3) by (unfold Q; rewrite pow2_sqrt; lra). split; [exact E|].
  assert (0 < Q q) by (apply sqrt_lt_R0; lra). split; [assumption|]. apply Rsqr_incrst_0; [rewrite !Rsqr_pow2; nra|lra|lra].
Qed.
Lemma sqV_lim : lim0 (fun q => sqrt (V q - 1) / q) s.
Proof.
  apply (lim0_ext (fun q => sqrt (E2 (s ^ 2) 0 q))).
  - intros q Hq. pose proof (V_gt q Hq). assert (E := E2_eq (s ^ 2) 0 q ltac:(lra)). rewrite Rmult_0_l, !Rplus_0_r in E. fold (V q) in E.
    replace (V q - 1) with (q ^ 2 * E2 (s ^ 2) 0 q) by lra. assert (0 <= E2 (s ^ 2) 0 q). { apply Rmult_le_reg_l with (q ^ 2); [now apply pow_lt|]. lra. }
    rewrite sqrt_mult, sqrt_q by (try apply pow2_ge_0; assumption). field. lra.
  - assert (X := lim0_comp (E2 (s ^ 2) 0) (s ^ 2 + 0 ^ 2 / 2) sqrt (continuous_sqrt _) (lim0_E2 (s ^ 2) 0)).
    replace (s ^ 2 + 0 ^ 2 / 2) with (s ^ 2) in X by field. rewrite sqrt_pow2 in X by lra. exact X.
Qed.
Lemma V_lim : lim0 V 1.
Proof. apply lim0_cont'. apply (ex_derive_continuous (fun q => exp (s ^ 2 * q ^ 2))). auto_derive; auto. unfold V. replace (s ^ 2 * 0 ^ 2) with 0 by ring. apply exp_0. Qed.
Lemma Q_lim : lim0 (fun q => Q q / q) (2 * s).
Proof.
  apply (lim0_ext (fun q => sqrt (V q - 1) / q * sqrt (V q + 3))). { intros q Hq. rewrite Q_eq by exact Hq. field. lra. }
  rewrite Rmult_comm. apply lim0_mult; [apply sqV_lim|]. replace 2 with (sqrt (1 + 3)). { apply (lim0_comp (fun q => V q + 3) (1 + 3) sqrt); [apply continuous_sqrt|]. apply lim0_plus; [apply V_lim|apply lim0_const]. }
  replace (1 + 3) with (2 ^ 2) by ring. apply sqrt_pow2. lra.
Qed.

Lemma ud_pos q : 0 < q -> 0 < step_u k b s (q ^ 2) /\ 0 < step_d k b s (q ^ 2).
Proof.
  intro Hq. destruct k; cbn [step_u step_d]; try (split; apply exp_pos). cbv zeta. change (exp (s ^ 2 * q ^ 2)) with (V q). change (sqrt (V q ^ 2 + 2 * V q - 3)) with (Q q). destruct (Q_sq q Hq) as [_ HQ]. pose proof (V_gt q Hq). pose proof (exp_pos (b * q ^ 2)).
  split; apply Rmult_lt_0_compat; try lra; apply Rmult_lt_0_compat; try lra; nra.
Qed.
Lemma u_eq q : 0 < q -> step_u k b s (q ^ 2) = exp (mm (q ^ 2) + aa (q ^ 2)) /\ step_d k b s (q ^ 2) = exp (mm (q ^ 2) - aa (q ^ 2)).
Proof.
  intro Hq. destruct (ud_pos q Hq) as [U D]. unfold mm, aa. split.
  - replace ((ln (step_u k b s (q ^ 2)) + ln (step_d k b s (q ^ 2))) / 2 + (ln (step_u k b s (q ^ 2)) - ln (step_d k b s (q ^ 2))) / 2) with (ln (step_u k b s (q ^ 2))) by field. now rewrite exp_ln.
  - replace ((ln (step_u k b s (q ^ 2)) + ln (step_d k b s (q ^ 2))) / 2 - (ln (step_u k b s (q ^ 2)) - ln (step_d k b s (q ^ 2))) / 2) with (ln (step_d k b s (q ^ 2))) by field. now rewrite exp_ln.
Qed.

(** size of the steps *)
Lemma aa_simple q : 0 < q -> k <> TIAN -> aa (q ^ 2) = s * q.
Proof. intros Hq Hk. unfold aa. destruct k; try easy; cbn [step_u step_d]; rewrite sqrt_q by exact Hq; rewrite !ln_exp; field. Qed.
Lemma aa_tian q : 0 < q -> k = TIAN -> aa (q ^ 2) = ln ((V q + 1 + Q q) / 2).
Proof.
  intros Hq Hk. unfold aa. rewrite Hk. cbn [step_u step_d]. cbv zeta. change (exp (s ^ 2 * q ^ 2)) with (V q). change (sqrt (V q ^ 2 + 2 * V q - 3)) with (Q q). destruct (Q_sq q Hq) as [EQ HQ]. pose proof (V_gt q Hq) as HV. pose proof (exp_pos (b * q ^ 2)) as HM. set (c := exp (b * q ^ 2) * V q / 2). assert (Hc : 0 < c) by (unfold c; apply Rmult_lt_0_compat; [nra|lra]).
  rewrite (ln_mult c), (ln_mult c) by lra. replace (V q + 1 - Q q) with (/ ((V q + 1 + Q q) / 4)). 2:{ field_simplify_eq; [|lra]. nra. }
  rewrite ln_Rinv by lra. replace ((V q + 1 + Q q) / 4) with ((V q + 1 + Q q) / 2 * / 2) by field. replace (V q + 1 + Q q) with ((V q + 1 + Q q) / 2 * 2) at 1 by field. rewrite !ln_mult, ln_Rinv by lra. field.
Qed.
Lemma aa_lim : lim0 (fun q => aa (q ^ 2) / q) s.
Proof.
  assert (Dk : k = TIAN \/ k <> TIAN) by (destruct k; auto; right; discriminate). destruct Dk as [E|E].
  - apply (lim0_squeeze (fun q => Q q / q * / 2 * / (1 + Q q / q * q * / 2)) _ (fun q => sqrt (V q - 1) / q)).
    + apply (filter_imp (fun q => 0 < q)); [|apply at_pos]. intros q Hq. rewrite aa_tian by assumption. destruct (Q_sq q Hq) as [EQ HQ]. pose proof (V_gt q Hq) as HV. set (y := (V q + 1 + Q q) / 2).
      assert (Hy : 1 + Q q / 2 <= y) by (unfold y; lra). assert (Hy0 : 0 < y) by lra. split.
      * replace (Q q / q * / 2 * / (1 + Q q / q * q * / 2)) with (Q q / 2 / (1 + Q q / 2) / q) by (field; split; lra). apply Rmult_le_compat_r; [apply Rlt_le, Rinv_0_lt_compat; lra|].
        apply Rle_trans with (ln (1 + Q q / 2)). 2:{ destruct Hy as [Hy|Hy]; [left; apply ln_increasing; lra|right; now rewrite Hy]. }
        pose proof (exp_ineq1_le (- ln (1 + Q q / 2))) as X. rewrite exp_Ropp, exp_ln in X by lra. replace (Q q / 2 / (1 + Q q / 2)) with (1 - / (1 + Q q / 2)) by (field; lra). lra.
      * apply Rmult_le_compat_r; [apply Rlt_le, Rinv_0_lt_compat; lra|]. assert (L0 : 0 <= ln y) by (rewrite <- ln_1; left; apply ln_increasing; lra).
        assert (C : ch (ln y) = (V q + 1) / 2). { unfold ch. rewrite exp_Ropp, exp_ln by lra. unfold y. field_simplify_eq; [|lra]. nra. }
        destruct (ch_m2 (ln y)) as [C2 _]. rewrite C in C2. rewrite <- (sqrt_pow2 (ln y)) by exact L0. apply sqrt_le_1_alt. lra.
    + replace s with (2 * s * / 2 * / (1 + 2 * s * 0 * / 2)) at 1 by field. apply lim0_mult.
      * apply lim0_mult; [apply Q_lim|apply lim0_const].
      * apply (lim0_inv (fun q => 1 + Q q / q * q * / 2)); [lra|]. apply lim0_plus; [apply lim0_const|]. apply lim0_mult; [|apply lim0_const]. apply lim0_mult; [apply Q_lim|apply lim0_id].
    + apply sqV_lim.
  - apply (lim0_ext (fun _ => s)); [|apply lim0_const]. intros q Hq. rewrite aa_simple by assumption. field. lra.
Qed.

(** the up probability *)
Lemma p_lim : exists l, lim0 (fun q => (2 * step_p k b s (q ^ 2) - 1) / q) l.
Proof.
  destruct k eqn:Ek.
  - exists ((2 * (b + 0 ^ 2 / 2) + -1 * ((0 + s ^ 2 / 2) + (0 + (- s) ^ 2 / 2))) * / (2 * s + 0 * (0 + s ^ 2 / 2) + -1 * (0 * (0 + (- s) ^ 2 / 2)))).
    apply (lim0_ext (fun q => (2 * E2 b 0 q + -1 * (E2 0 s q + E2 0 (- s) q)) * / (2 * s + q * E2 0 s q + -1 * (q * E2 0 (- s) q)))).
    + intros q Hq. cbn [step_p step_u step_d]. rewrite sqrt_q by exact Hq.
      assert (A1 := E2_eq 0 s q ltac:(lra)). rewrite Rmult_0_l, Rplus_0_l in A1. assert (A2 := E2_eq 0 (- s) q ltac:(lra)). rewrite Rmult_0_l, Rplus_0_l, <- Ropp_mult_distr_l in A2. assert (A3 := E2_eq b 0 q ltac:(lra)). rewrite !Rmult_0_l, !Rplus_0_r in A3.
      assert (D : exp (- (s * q)) < exp (s * q)) by (apply exp_increasing; nra). rewrite A1, A2 in D. rewrite A1, A2, A3.
      set (x1 := E2 0 s q) in *. set (x2 := E2 0 (- s) q) in *. field. repeat split; try lra. { intro H. apply (Rmult_eq_compat_l q) in H. nra. } 
    + apply lim0_mult.
      * apply lim0_plus; apply lim0_mult; try apply lim0_const; try apply lim0_plus; apply lim0_E2.
      * apply (lim0_inv (fun q => 2 * s + q * E2 0 s q + -1 * (q * E2 0 (- s) q))); [lra|]. repeat (apply lim0_plus || apply lim0_mult || apply lim0_const || apply lim0_E2 || apply lim0_id).
  - exists 0. apply (lim0_ext (fun _ => 0)); [|apply lim0_const]. intros q Hq. cbn [step_p]. field. lra.
  - exists (- s * s * (1 + 2) * / (1 * (2 * s))). apply (lim0_ext (fun q => - (sqrt (V q - 1) / q) * (sqrt (V q - 1) / q) * (V q + 2) * / (V q * (Q q / q)))).
    + intros q Hq. cbn [step_p step_u step_d]. cbv zeta. change (exp (s ^ 2 * q ^ 2)) with (V q). change (sqrt (V q ^ 2 + 2 * V q - 3)) with (Q q). destruct (Q_sq q Hq) as [EQ HQ]. pose proof (V_gt q Hq) as HV. pose proof (exp_pos (b * q ^ 2)) as HM. set (M := exp (b * q ^ 2)) in *.
      replace (- (sqrt (V q - 1) / q) * (sqrt (V q - 1) / q) * (V q + 2) * / (V q * (Q q / q))) with (- (sqrt (V q - 1) ^ 2) * (V q + 2) / (V q * Q q * q)) by (field; lra). rewrite pow2_sqrt by lra.
      set (v := V q) in *. set (x := Q q) in *. replace (M * v / 2 * (v + 1 + x) - M * v / 2 * (v + 1 - x)) with (M * v * x) by field. field. repeat split; lra.
    + apply lim0_mult.
      * apply lim0_mult; [|apply lim0_plus; [apply V_lim|apply lim0_const]]. apply lim0_mult; [|apply sqV_lim]. apply (lim0_comp (fun q => sqrt (V q - 1) / q) s Ropp); [|apply sqV_lim]. apply (ex_derive_continuous Ropp). auto_derive. exact Logic.I.
      * apply (lim0_inv (fun q => V q * (Q q / q))); [lra|]. apply lim0_mult; [apply V_lim|apply Q_lim].
Qed.

Lemma tp_tt p a : 0 < p < 1 -> 0 < a -> tp (ln (p / (1 - p)) / (2 * a)) a = p.
Proof.
  intros Hp Ha. unfold tp, ch. replace (ln (p / (1 - p)) / (2 * a) * a) with (ln (p / (1 - p)) / 2) by (field; lra). set (y := ln (p / (1 - p)) / 2).
  assert (E : exp y * exp y = p / (1 - p)). { rewrite <- exp_plus. replace (y + y) with (ln (p / (1 - p))) by (unfold y; field). apply exp_ln, Rdiv_lt_0_compat; lra. }
  rewrite exp_Ropp. pose proof (exp_pos y) as H. set (x := exp y) in *. replace (x / (2 * ((x + / x) / 2))) with (x * x / (x * x + 1)) by (field; split; nra). rewrite E. field. lra.
Qed.
Lemma ln_odds y : Rabs y <= 1 / 2 -> Rabs (ln ((1 + y) / (1 - y))) <= 4 * Rabs y.
Proof.
  assert (P : forall y, Rabs y <= 1 / 2 -> ln ((1 + y) / (1 - y)) <= 4 * Rabs y).
  { intros z Hz. apply Rabs_le_between in Hz as Hz'. assert (H : 0 < (1 + z) / (1 - z)) by (apply Rdiv_lt_0_compat; lra). pose proof (exp_ineq1_le (ln ((1 + z) / (1 - z)))) as E. rewrite exp_ln in E by exact H.
    assert ((1 + z) / (1 - z) - 1 <= 4 * Rabs z). { replace ((1 + z) / (1 - z) - 1) with (2 * z / (1 - z)) by (field; lra). apply Rmult_le_reg_r with (1 - z); [lra|]. unfold Rdiv. rewrite Rmult_assoc, Rinv_l by lra. pose proof (Rle_abs z). pose proof (Rabs_pos z). nra. } lra. }
  intro Hy. apply Rabs_le_between in Hy as Hy'. apply Rabs_le. split; [|now apply P]. pose proof (P (- y) ltac:(now rewrite Rabs_Ropp)) as Q1. rewrite Rabs_Ropp in Q1.
  replace ((1 + - y) / (1 - - y)) with (/ ((1 + y) / (1 - y))) in Q1 by (field; lra). rewrite ln_Rinv in Q1 by (apply Rdiv_lt_0_compat; lra). lra.
Qed.

Lemma tilt_facts : exists Th, 0 <= Th /\ at_right 0 (fun q => 0 < aa (q ^ 2) /\ 0 < step_p k b s (q ^ 2) < 1 /\ tp (tt (q ^ 2)) (aa (q ^ 2)) = step_p k b s (q ^ 2) /\ Rabs (tt (q ^ 2)) <= Th).
Proof.
  destruct p_lim as (l & Hl). set (C := Rabs l + 1). assert (HC : 0 < C) by (unfold C; pose proof (Rabs_pos l); lra). exists (4 * C / s). split; [apply Rlt_le, Rdiv_lt_0_compat; lra|].
  assert (H1 := lim0_bound _ _ Hl). fold C in H1. assert (H2 := lim0_near _ _ (s / 2) ltac:(lra) aa_lim). assert (H3 := at_lt (/ (2 * C)) ltac:(apply Rinv_0_lt_compat; lra)). assert (H4 := at_pos).
  generalize (filter_and _ _ (filter_and _ _ H1 H2) (filter_and _ _ H3 H4)). apply filter_imp. clear H1 H2 H3 H4. intros q [[H1 H2] [H3 H4]]. set (p := step_p k b s (q ^ 2)) in *. set (a := aa (q ^ 2)) in *.
  assert (Ha : s / 2 * q < a). { apply Rabs_def2 in H2. apply Rmult_lt_reg_r with (/ q); [now apply Rinv_0_lt_compat|]. replace (s / 2 * q * / q) with (s / 2) by (field; lra). unfold Rdiv in H2. lra. }
  assert (Ha0 : 0 < a) by nra. assert (Hy : Rabs (2 * p - 1) <= C * q). { unfold Rdiv in H1. rewrite Rabs_mult, (Rabs_pos_eq (/ q)) in H1 by (apply Rlt_le, Rinv_0_lt_compat; lra). apply Rmult_le_reg_r with (/ q); [now apply Rinv_0_lt_compat|]. rewrite Rmult_assoc, Rinv_r by lra. lra. }
  assert (HCq : C * q <= 1 / 2). { apply Rle_trans with (C * / (2 * C)); [apply Rmult_le_compat_l; lra|right; field; lra]. }
  assert (Hp : 0 < p < 1) by (assert (Hy2 : Rabs (2 * p - 1) <= 1 / 2) by lra; apply Rabs_le_between in Hy2; lra).
  repeat split; try lra; [now apply tp_tt|]. unfold tt. fold p a. set (y := 2 * p - 1) in *. replace (p / (1 - p)) with ((1 + y) / (1 - y)) by (unfold y; field; lra). unfold Rdiv at 1. rewrite Rabs_mult, (Rabs_pos_eq (/ (2 * a))) by (apply Rlt_le, Rinv_0_lt_compat; lra).
  pose proof (ln_odds y ltac:(lra)) as L. apply Rle_trans with (4 * (C * q) * / (2 * a)). { apply Rmult_le_compat_r; [apply Rlt_le, Rinv_0_lt_compat; lra|]. lra. }
  apply Rmult_le_reg_r with (2 * a); [lra|]. rewrite Rmult_assoc, Rinv_l by lra. apply Rle_trans with (4 * C / s * (2 * (s / 2 * q))); [right; field; lra|]. apply Rmult_le_compat_l; [apply Rlt_le, Rdiv_lt_0_compat; lra|lra].
Qed.

Lemma mean_eq q : 0 < q -> k <> JR -> tp (tt (q ^ 2)) (aa (q ^ 2)) = step_p k b s (q ^ 2) ->
  exp (mm (q ^ 2)) * ch ((tt (q ^ 2) + 1) * aa (q ^ 2)) / ch (tt (q ^ 2) * aa (q ^ 2)) = exp (b * q ^ 2).
Proof.
  intros Hq Hk Hp. assert (U := u_ne_d k b s Hs q Hq Hk). assert (Ep : step_p k b s (q ^ 2) = (exp (b * q ^ 2) - step_d k b s (q ^ 2)) / (step_u k b s (q ^ 2) - step_d k b s (q ^ 2))) by (destruct k; try easy).
  assert (E : step_p k b s (q ^ 2) * step_u k b s (q ^ 2) + (1 - step_p k b s (q ^ 2)) * step_d k b s (q ^ 2) = exp (b * q ^ 2)) by (rewrite Ep; field; exact U). rewrite <- E, <- Hp, tp_compl. destruct (u_eq q Hq) as [-> ->]. unfold tp.
  set (th := tt (q ^ 2)). set (a := aa (q ^ 2)). set (m := mm (q ^ 2)). pose proof (ch_ge_1 (th * a)). unfold ch at 1. replace ((th + 1) * a) with (th * a + a) by ring. replace (- (th * a + a)) with (- (th * a) + - a) by ring. unfold Rminus. rewrite !exp_plus. field. lra.
Qed.
Lemma drift_lim : lim0 (fun q => (mm (q ^ 2) + tt (q ^ 2) * aa (q ^ 2) ^ 2) / q ^ 2) (b - s ^ 2 / 2).
Proof.
  assert (Dk : k = JR \/ k <> JR) by (destruct k; auto; right; discriminate). destruct Dk as [E|E].
  - apply (lim0_ext (fun _ => b - s ^ 2 / 2)); [|apply lim0_const]. intros q Hq. unfold tt, mm. rewrite E. cbn [step_u step_d step_p]. rewrite sqrt_q, !ln_exp by exact Hq. replace (1 / 2 / (1 - 1 / 2)) with 1 by field. rewrite ln_1. assert (Z : forall y, 0 / y = 0) by (intro; unfold Rdiv; ring). rewrite Z. field. lra.
  - destruct tilt_facts as (Th & HTh & F). set (C := (Th + 1) ^ 4). assert (HC : 0 <= C) by (apply pow_le; lra).
    assert (A := lim0_near _ _ 1 Rlt_0_1 aa_lim). assert (S1 := at_lt (/ ((s + 1) * (Th + 1))) ltac:(apply Rinv_0_lt_compat; nra)).
    apply (lim0_squeeze (fun q => b - (aa (q ^ 2) / q) * (aa (q ^ 2) / q) * / 2 - C * ((aa (q ^ 2) / q) ^ 4 * (q * q))) _ (fun q => b - (aa (q ^ 2) / q) * (aa (q ^ 2) / q) * / 2 + C * ((aa (q ^ 2) / q) ^ 4 * (q * q)))).
    + generalize (filter_and _ _ (filter_and _ _ F at_pos) (filter_and _ _ A S1)). apply filter_imp. intros q [[(Ha & Hp & Et & Hth) Hq] [A1 S2]]. pose proof (mean_eq q Hq E Et) as M. clear Et Hp.
      set (th := tt (q ^ 2)) in *. set (a := aa (q ^ 2)) in *. set (m := mm (q ^ 2)) in *.
      assert (Haq : a <= (s + 1) * q). { apply Rabs_def2 in A1. apply Rmult_le_reg_r with (/ q); [now apply Rinv_0_lt_compat|]. rewrite Rmult_assoc, Rinv_r by lra. unfold Rdiv in A1. lra. }
      assert (HTa : (Th + 1) * a <= 1). { apply Rle_trans with ((Th + 1) * ((s + 1) * / ((s + 1) * (Th + 1)))); [|right; field; split; lra]. apply Rmult_le_compat_l; [lra|]. eapply Rle_trans; [exact Haq|]. apply Rmult_le_compat_l; lra. }
      assert (B1 : Rabs (th * a) <= (Th + 1) * a) by (rewrite Rabs_mult, (Rabs_pos_eq a) by lra; apply Rmult_le_compat_r; lra).
      assert (B2 : Rabs ((th + 1) * a) <= (Th + 1) * a). { rewrite Rabs_mult, (Rabs_pos_eq a) by lra. apply Rmult_le_compat_r; [lra|]. eapply Rle_trans; [apply Rabs_triang|]. rewrite Rabs_R1. lra. }
      pose proof (ln_ch (th * a) ltac:(lra)) as L1. pose proof (ln_ch ((th + 1) * a) ltac:(lra)) as L2. pose proof (ch_ge_1 (th * a)) as C1. pose proof (ch_ge_1 ((th + 1) * a)) as C2.
      assert (LM : m + ln (ch ((th + 1) * a)) - ln (ch (th * a)) = b * q ^ 2). { apply (f_equal ln) in M. unfold Rdiv in M. rewrite ln_mult, ln_mult, ln_Rinv, !ln_exp in M; try apply exp_pos; try (apply Rinv_0_lt_compat); try (apply Rmult_lt_0_compat; [apply exp_pos|]); lra. }
      assert (P4 : forall x, Rabs x <= (Th + 1) * a -> x ^ 4 <= C * a ^ 4). { intros x Hx. replace (x ^ 4) with (Rabs x ^ 4) by (rewrite RPow_abs; apply Rabs_pos_eq; replace (x ^ 4) with ((x ^ 2) ^ 2) by ring; apply pow2_ge_0). unfold C. rewrite <- Rpow_mult_distr. apply pow_incr. split; [apply Rabs_pos|exact Hx]. }
      pose proof (P4 _ B1) as Q1. pose proof (P4 _ B2) as Q2. apply Rabs_le_between in L1, L2.
      assert (K : - (C * a ^ 4) <= m + th * a ^ 2 + a ^ 2 / 2 - b * q ^ 2 <= C * a ^ 4). { replace (((th + 1) * a) ^ 2 / 2) with (th ^ 2 * a ^ 2 / 2 + th * a ^ 2 + a ^ 2 / 2) in L2 by field. replace ((th * a) ^ 2 / 2) with (th ^ 2 * a ^ 2 / 2) in L1 by field. lra. }
      assert (Hq2 : 0 < q ^ 2) by now apply pow_lt. split; apply Rmult_le_reg_r with (q ^ 2); try exact Hq2.
      * replace ((b - a / q * (a / q) * / 2 - C * ((a / q) ^ 4 * (q * q))) * q ^ 2) with (b * q ^ 2 - a ^ 2 / 2 - C * a ^ 4) by (field; lra). unfold Rdiv. rewrite (Rmult_assoc (m + th * a ^ 2)), Rinv_l by lra. lra.
      * replace ((b - a / q * (a / q) * / 2 + C * ((a / q) ^ 4 * (q * q))) * q ^ 2) with (b * q ^ 2 - a ^ 2 / 2 + C * a ^ 4) by (field; lra). unfold Rdiv. rewrite (Rmult_assoc (m + th * a ^ 2)), Rinv_l by lra. lra.
    + assert (P2 : lim0 (fun q => (aa (q ^ 2) / q) ^ 4) (s ^ 4)). { apply (lim0_comp _ s (fun x => x ^ 4)); [|apply aa_lim]. apply (ex_derive_continuous (fun x => x ^ 4)). auto_derive. exact Logic.I. }
      assert (X := lim0_plus _ _ _ _ (lim0_plus _ _ _ _ (lim0_const b) (lim0_mult _ _ _ _ (lim0_mult _ _ _ _ aa_lim aa_lim) (lim0_const (- / 2)))) (lim0_mult _ _ _ _ (lim0_const (- C)) (lim0_mult _ _ _ _ P2 (lim0_mult _ _ _ _ lim0_id lim0_id)))).
      replace (b + s * s * - / 2 + - C * (s ^ 4 * (0 * 0))) with (b - s ^ 2 / 2) in X by field. eapply lim0_ext; [|exact X]. intros q Hq. cbv beta. ring.
    + assert (P2 : lim0 (fun q => (aa (q ^ 2) / q) ^ 4) (s ^ 4)). { apply (lim0_comp _ s (fun x => x ^ 4)); [|apply aa_lim]. apply (ex_derive_continuous (fun x => x ^ 4)). auto_derive. exact Logic.I. }
      assert (X := lim0_plus _ _ _ _ (lim0_plus _ _ _ _ (lim0_const b) (lim0_mult _ _ _ _ (lim0_mult _ _ _ _ aa_lim aa_lim) (lim0_const (- / 2)))) (lim0_mult _ _ _ _ (lim0_const C) (lim0_mult _ _ _ _ P2 (lim0_mult _ _ _ _ lim0_id lim0_id)))).
      replace (b + s * s * - / 2 + C * (s ^ 4 * (0 * 0))) with (b - s ^ 2 / 2) in X by field. eapply lim0_ext; [|exact X]. intros q Hq. cbv beta. ring.
Qed.
End Class.
