(** European tree prices converge to the Black-Scholes price (C34). *)
From Coq Require Import Reals String List Arith Lra Lia Psatz.
From Coquelicot Require Import Coquelicot.
From Verif Require Import Num Py MBase MVanilla MTrees STrees PCnd PCnd2 PBlack PGauss PGbs PGbs2 PGbs3 PVanilla
  PTrees2 PStop PTrees3 PLattice PTrees4 PConv PConv2 PConv3.
Open Scope R_scope.

(** second order expansion of an exponential in the square root of the time step *)
Definition E2 (al be q : R) : R := (exp (al * q ^ 2 + be * q) - 1 - be * q) / q ^ 2.

Lemma E2_eq al be q : q <> 0 -> exp (al * q ^ 2 + be * q) = 1 + be * q + q ^ 2 * E2 al be q.
Proof. intros. unfold E2. field. auto. Qed.

Lemma exp_taylor y : Rabs y <= 1 -> Rabs (exp y - 1 - y - y ^ 2 / 2) <= exp 1 * Rabs y ^ 3.
Proof.
  intros H. replace (exp y - 1 - y - y ^ 2 / 2) with (exp y - exp 0 - exp 0 * y - exp 0 / 2 * y ^ 2) by (rewrite exp_0; field).
  apply (taylor3 exp exp exp exp 1); auto using is_derive_exp; intros; try apply is_derive_exp.
  rewrite Rabs_right by (left; apply exp_pos). apply Rabs_le_between in H0.
  destruct (Req_dec z 1) as [->|]; [lra|]. left; apply exp_increasing; lra.
Qed.

Lemma lim_cont (f : R -> R) (x : R) : continuous f x -> is_lim f x (f x).
Proof. intros H. apply is_lim_continuity. now apply continuity_pt_filterlim. Qed.

Lemma E2_lim al be : is_lim (E2 al be) 0 (al + be ^ 2 / 2).
Proof.
  set (g := fun q => al + (al * q + be) ^ 2 / 2). set (h := fun q => exp 1 * (Rabs q * Rabs (al * q + be) ^ 3)).
  assert (G0 : g 0 = al + be ^ 2 / 2) by (unfold g; field).
  assert (Gc : is_lim g 0 (g 0)).
  { apply lim_cont. apply (ex_derive_continuous g). unfold g. auto_derive. auto. }
  assert (H0 : h 0 = 0) by (unfold h; rewrite Rabs_R0; ring).
  assert (Hc : is_lim h 0 (h 0)).
  { apply lim_cont. unfold h. apply (continuous_mult (fun _ => exp 1)); [apply continuous_const|].
    apply (continuous_mult (fun q => Rabs q)). apply continuous_Rabs.
    apply (continuous_comp (fun q => Rabs (al * q + be)) (fun y => y ^ 3)).
    apply (continuous_comp (fun q => al * q + be) Rabs). apply (ex_derive_continuous (fun q => al * q + be)). auto_derive; auto. apply continuous_Rabs.
    apply (ex_derive_continuous (fun y => y ^ 3)). auto_derive; auto. }
  rewrite G0 in Gc. rewrite H0 in Hc.
  apply (is_lim_le_le_loc (fun q => g q - h q) (fun q => g q + h q)).
  - assert (S : locally 0 (fun q => Rabs (al * q ^ 2 + be * q) < 1)).
    { assert (Cc : continuous (fun q => Rabs (al * q ^ 2 + be * q)) 0).
      { apply (continuous_comp (fun q => al * q ^ 2 + be * q) Rabs).
        apply (ex_derive_continuous (fun q => al * q ^ 2 + be * q)). auto_derive; auto. apply continuous_Rabs. }
      apply (Cc (fun y => y < 1)). apply (open_lt 1). replace (al * 0 ^ 2 + be * 0) with 0 by ring. rewrite Rabs_R0. lra. }
    unfold Rbar_locally'. destruct S as [e He]. exists e. intros q Hq Hq0. specialize (He q Hq).
    assert (T := exp_taylor _ (Rlt_le _ _ He)).
    assert (E : E2 al be q = g q + (exp (al * q ^ 2 + be * q) - 1 - (al * q ^ 2 + be * q) - (al * q ^ 2 + be * q) ^ 2 / 2) / q ^ 2).
    { unfold E2, g. field. auto. }
    assert (Q : 0 < q ^ 2) by (apply pow2_gt_0; auto).
    assert (T' : Rabs ((exp (al * q ^ 2 + be * q) - 1 - (al * q ^ 2 + be * q) - (al * q ^ 2 + be * q) ^ 2 / 2) / q ^ 2) <= h q).
    { unfold Rdiv. rewrite Rabs_mult, (Rabs_right (/ q ^ 2)) by (left; now apply Rinv_0_lt_compat).
      apply (Rmult_le_reg_r (q ^ 2)); auto. rewrite Rmult_assoc, Rinv_l, Rmult_1_r by lra.
      eapply Rle_trans; [exact T|]. right. unfold h.
      replace (al * q ^ 2 + be * q) with (q * (al * q + be)) by ring. rewrite Rabs_mult.
      rewrite <- (pow2_abs q). ring. }
    apply Rabs_le_between in T'. rewrite E. lra.
  - replace (al + be ^ 2 / 2) with (al + be ^ 2 / 2 - 0) by ring. apply is_lim_minus'; auto.
  - replace (al + be ^ 2 / 2) with (al + be ^ 2 / 2 + 0) by ring. apply is_lim_plus'; auto.
Qed.

Section Moments.
Variables (k : bi_model) (b s : R).
Hypothesis Hs : 0 < s.
Notation u q := (step_u k b s (q ^ 2)).
Notation d q := (step_d k b s (q ^ 2)).
Notation p q := (step_p k b s (q ^ 2)).

Lemma sqrt_q q : 0 < q -> sqrt (q ^ 2) = q.
Proof. intros. simpl. rewrite Rmult_1_r. apply sqrt_square. lra. Qed.

(** limits along positive q *)
Definition lim0 (f : R -> R) (l : R) : Prop := filterlim f (at_right 0) (locally l).

Lemma is_lim_lim0 f (l : R) : is_lim f 0 l -> lim0 f l.
Proof.
  intros H. unfold lim0. apply (filterlim_filter_le_1 f (F := Rbar_locally' 0)); auto.
  intros P [e He]. exists e. intros y Hy Hy0. apply He; auto. lra.
Qed.
Lemma lim0_ext f g l : (forall q, 0 < q -> f q = g q) -> lim0 f l -> lim0 g l.
Proof.
  intros H. apply filterlim_ext_loc. exists (mkposreal 1 Rlt_0_1). intros. now apply H.
Qed.
Lemma lim0_plus f g a c : lim0 f a -> lim0 g c -> lim0 (fun q => f q + g q) (a + c).
Proof. intros F G. eapply filterlim_comp_2; [exact F|exact G|]. apply (filterlim_plus a c). Qed.
Lemma lim0_mult f g a c : lim0 f a -> lim0 g c -> lim0 (fun q => f q * g q) (a * c).
Proof. intros F G. eapply filterlim_comp_2; [exact F|exact G|]. apply (filterlim_mult a c). Qed.
Lemma lim0_const c : lim0 (fun _ => c) c.
Proof. apply filterlim_const. Qed.
Lemma lim0_E2 al be : lim0 (E2 al be) (al + be ^ 2 / 2).
Proof. apply is_lim_lim0, E2_lim. Qed.
Lemma lim0_cont f : continuous f 0 -> lim0 f (f 0).
Proof. intros. now apply is_lim_lim0, lim_cont. Qed.
Lemma lim0_cont' f l : continuous f 0 -> f 0 = l -> lim0 f l.
Proof. intros ? <-. now apply lim0_cont. Qed.

Lemma u_lim : lim0 (fun q => u q) 1.
Proof.
  destruct k.
  - apply (lim0_ext (fun q => exp (s * q))). { intros; cbn [step_u]. now rewrite sqrt_q. }
    apply lim0_cont'. apply (ex_derive_continuous (fun q => exp (s * q))). auto_derive; auto. rewrite Rmult_0_r; apply exp_0.
  - apply (lim0_ext (fun q => exp ((b - s ^ 2 / 2) * q ^ 2 + s * q))). { intros; cbn [step_u]. now rewrite sqrt_q. }
    apply lim0_cont'. apply (ex_derive_continuous (fun q => exp ((b - s ^ 2 / 2) * q ^ 2 + s * q))). auto_derive; auto.
    replace ((b - s ^ 2 / 2) * 0 ^ 2 + s * 0) with 0 by ring. apply exp_0.
  - cbn [step_u]. cbv zeta.
    assert (V : lim0 (fun q => exp (s ^ 2 * q ^ 2)) 1).
    { apply lim0_cont'. apply (ex_derive_continuous (fun q => exp (s ^ 2 * q ^ 2))). auto_derive; auto. replace (s ^ 2 * 0 ^ 2) with 0 by ring. apply exp_0. }
    assert (M : lim0 (fun q => exp (b * q ^ 2)) 1).
    { apply lim0_cont'. apply (ex_derive_continuous (fun q => exp (b * q ^ 2))). auto_derive; auto. replace (b * 0 ^ 2) with 0 by ring. apply exp_0. }
    assert (Q : lim0 (fun q => sqrt (exp (s ^ 2 * q ^ 2) ^ 2 + 2 * exp (s ^ 2 * q ^ 2) - 3)) 0).
    { apply lim0_cont'. apply (continuous_comp (fun q => exp (s ^ 2 * q ^ 2) ^ 2 + 2 * exp (s ^ 2 * q ^ 2) - 3) sqrt).
      apply (ex_derive_continuous (fun q => exp (s ^ 2 * q ^ 2) ^ 2 + 2 * exp (s ^ 2 * q ^ 2) - 3)). auto_derive; auto.
      apply continuous_sqrt. replace (s ^ 2 * 0 ^ 2) with 0 by ring. rewrite exp_0. replace (1 ^ 2 + 2 * 1 - 3) with 0 by ring. apply sqrt_0. }
    replace 1 with (1 * 1 * / 2 * (1 + 1 + 0)) at 1 by field.
    repeat apply lim0_mult; auto using lim0_const. repeat apply lim0_plus; auto using lim0_const.
Qed.

Lemma d_lim : lim0 (fun q => d q) 1.
Proof.
  destruct k.
  - apply (lim0_ext (fun q => exp (- (s * q)))). { intros; cbn [step_d]. now rewrite sqrt_q. }
    apply lim0_cont'. apply (ex_derive_continuous (fun q => exp (- (s * q)))). auto_derive; auto. rewrite Rmult_0_r, Ropp_0; apply exp_0.
  - apply (lim0_ext (fun q => exp ((b - s ^ 2 / 2) * q ^ 2 - s * q))). { intros; cbn [step_d]. now rewrite sqrt_q. }
    apply lim0_cont'. apply (ex_derive_continuous (fun q => exp ((b - s ^ 2 / 2) * q ^ 2 - s * q))). auto_derive; auto.
    replace ((b - s ^ 2 / 2) * 0 ^ 2 - s * 0) with 0 by ring. apply exp_0.
  - cbn [step_d]. cbv zeta.
    assert (V : lim0 (fun q => exp (s ^ 2 * q ^ 2)) 1).
    { apply lim0_cont'. apply (ex_derive_continuous (fun q => exp (s ^ 2 * q ^ 2))). auto_derive; auto. replace (s ^ 2 * 0 ^ 2) with 0 by ring. apply exp_0. }
    assert (M : lim0 (fun q => exp (b * q ^ 2)) 1).
    { apply lim0_cont'. apply (ex_derive_continuous (fun q => exp (b * q ^ 2))). auto_derive; auto. replace (b * 0 ^ 2) with 0 by ring. apply exp_0. }
    assert (Q : lim0 (fun q => - sqrt (exp (s ^ 2 * q ^ 2) ^ 2 + 2 * exp (s ^ 2 * q ^ 2) - 3)) 0).
    { apply lim0_cont'. apply (continuous_opp (fun q => sqrt (exp (s ^ 2 * q ^ 2) ^ 2 + 2 * exp (s ^ 2 * q ^ 2) - 3))).
      apply (continuous_comp (fun q => exp (s ^ 2 * q ^ 2) ^ 2 + 2 * exp (s ^ 2 * q ^ 2) - 3) sqrt).
      apply (ex_derive_continuous (fun q => exp (s ^ 2 * q ^ 2) ^ 2 + 2 * exp (s ^ 2 * q ^ 2) - 3)). auto_derive; auto.
      apply continuous_sqrt. replace (s ^ 2 * 0 ^ 2) with 0 by ring. rewrite exp_0. replace (1 ^ 2 + 2 * 1 - 3) with 0 by ring. rewrite sqrt_0. apply Ropp_0. }
    replace 1 with (1 * 1 * / 2 * (1 + 1 + 0)) at 1 by field.
    repeat apply lim0_mult; auto using lim0_const. repeat apply lim0_plus; auto using lim0_const.
Qed.

Lemma u_ne_d q : 0 < q -> k <> JR -> u q - d q <> 0.
Proof.
  intros Hq Hk. assert (Hdt : 0 < q ^ 2) by (apply pow_lt; auto).
  destruct k; try easy.
  - cbn [step_u step_d]. rewrite sqrt_q by auto.
    assert (exp (- (s * q)) < exp (s * q)) by (apply exp_increasing; nra). lra.
  - cbn [step_u step_d]. cbv zeta. set (V := exp (s ^ 2 * q ^ 2)). set (M := exp (b * q ^ 2)).
    assert (1 < V) by (unfold V; rewrite <- exp_0; apply exp_increasing; apply Rmult_lt_0_compat; auto; apply pow_lt; auto).
    assert (0 < M) by apply exp_pos.
    assert (0 < sqrt (V ^ 2 + 2 * V - 3)) by (apply sqrt_lt_R0; nra).
    set (Q := sqrt (V ^ 2 + 2 * V - 3)) in *.
    replace (M * V / 2 * (V + 1 + Q) - M * V / 2 * (V + 1 - Q)) with (M * V * Q) by field.
    apply Rgt_not_eq. repeat apply Rmult_lt_0_compat; lra.
Qed.

(** mean and mean square of the step, over the time step *)
Lemma mean_lim : lim0 (fun q => (p q * (u q - 1) + (1 - p q) * (d q - 1)) / q ^ 2) b.
Proof.
  assert (G : k <> JR -> lim0 (fun q => (p q * (u q - 1) + (1 - p q) * (d q - 1)) / q ^ 2) b).
  { intros Hk. apply (lim0_ext (E2 b 0)).
    - intros q Hq. unfold E2. rewrite Rmult_0_l, Rplus_0_r.
      assert (U := u_ne_d q Hq Hk).
      assert (Ep : p q = (exp (b * q ^ 2) - d q) / (u q - d q)) by (destruct k; try easy).
      rewrite Ep. field. split; auto. lra.
    - replace b with (b + 0 ^ 2 / 2) at 2 by field. apply lim0_E2. }
  destruct k; try (apply G; discriminate).
  apply (lim0_ext (fun q => / 2 * (E2 (b - s ^ 2 / 2) s q + E2 (b - s ^ 2 / 2) (- s) q))).
  - intros q Hq. cbn [step_u step_d step_p]. rewrite sqrt_q by auto.
    replace ((b - s ^ 2 / 2) * q ^ 2 - s * q) with ((b - s ^ 2 / 2) * q ^ 2 + - s * q) by ring.
    rewrite !E2_eq by lra. field. lra.
  - replace b with (/ 2 * ((b - s ^ 2 / 2) + s ^ 2 / 2 + ((b - s ^ 2 / 2) + (- s) ^ 2 / 2))) at 1 by field.
    apply lim0_mult; [apply lim0_const|]. apply lim0_plus; apply lim0_E2.
Qed.

Lemma square_lim : lim0 (fun q => (p q * (u q - 1) ^ 2 + (1 - p q) * (d q - 1) ^ 2) / q ^ 2) (s ^ 2).
Proof.
  assert (G : forall q, k <> JR -> 0 < q ->
    p q * (u q - 1) ^ 2 + (1 - p q) * (d q - 1) ^ 2 = exp (b * q ^ 2) * (u q + d q) - u q * d q - 2 * exp (b * q ^ 2) + 1).
  { intros q Hk Hq. assert (U := u_ne_d q Hq Hk).
    assert (Ep : p q = (exp (b * q ^ 2) - d q) / (u q - d q)) by (destruct k; try easy).
    rewrite Ep. field. auto. }
  destruct k.
  - apply (lim0_ext (fun q => exp (b * q ^ 2) * (E2 0 s q + E2 0 (- s) q))).
    + intros q Hq. rewrite G by (auto; discriminate). cbn [step_u step_d]. rewrite sqrt_q by auto.
      replace (exp (s * q) * exp (- (s * q))) with 1 by (rewrite <- exp_plus, Rplus_opp_r, exp_0; auto).
      assert (A1 := E2_eq 0 s q ltac:(lra)). rewrite Rmult_0_l, Rplus_0_l in A1.
      assert (A2 := E2_eq 0 (- s) q ltac:(lra)). rewrite Rmult_0_l, Rplus_0_l, <- Ropp_mult_distr_l in A2.
      rewrite A1, A2. field. lra.
    + replace (s ^ 2) with (1 * ((0 + s ^ 2 / 2) + (0 + (- s) ^ 2 / 2))) by field.
      apply lim0_mult; [|apply lim0_plus; apply lim0_E2].
      apply lim0_cont'. apply (ex_derive_continuous (fun q => exp (b * q ^ 2))). auto_derive; auto. replace (b * 0 ^ 2) with 0 by ring. apply exp_0.
  - set (m := b - s ^ 2 / 2).
    apply (lim0_ext (fun q => / 2 * (E2 (2 * m) (2 * s) q + E2 (2 * m) (2 * - s) q) + -1 * (E2 m s q + E2 m (- s) q))).
    + intros q Hq. cbn [step_u step_d step_p]. rewrite sqrt_q by auto. fold m.
      replace (m * q ^ 2 - s * q) with (m * q ^ 2 + - s * q) by ring.
      replace (1 / 2 * (exp (m * q ^ 2 + s * q) - 1) ^ 2 + (1 - 1 / 2) * (exp (m * q ^ 2 + - s * q) - 1) ^ 2)
        with (/ 2 * (exp (m * q ^ 2 + s * q) * exp (m * q ^ 2 + s * q) + exp (m * q ^ 2 + - s * q) * exp (m * q ^ 2 + - s * q))
          - (exp (m * q ^ 2 + s * q) + exp (m * q ^ 2 + - s * q)) + 1) by field.
      rewrite <- !exp_plus.
      replace (m * q ^ 2 + s * q + (m * q ^ 2 + s * q)) with (2 * m * q ^ 2 + 2 * s * q) by ring.
      replace (m * q ^ 2 + - s * q + (m * q ^ 2 + - s * q)) with (2 * m * q ^ 2 + 2 * - s * q) by ring.
      rewrite !E2_eq by lra. field. lra.
    + replace (s ^ 2) with (/ 2 * ((2 * m + (2 * s) ^ 2 / 2) + (2 * m + (2 * - s) ^ 2 / 2)) + -1 * ((m + s ^ 2 / 2) + (m + (- s) ^ 2 / 2))) by field.
      repeat (apply lim0_plus || apply lim0_mult || apply lim0_const || apply lim0_E2).
  - apply (lim0_ext (fun q => E2 (2 * b + s ^ 2) 0 q + -2 * E2 b 0 q)).
    + intros q Hq. rewrite G by (auto; discriminate). cbn [step_u step_d]. cbv zeta.
      set (V := exp (s ^ 2 * q ^ 2)). set (M := exp (b * q ^ 2)).
      assert (HV : 1 < V) by (unfold V; rewrite <- exp_0; apply exp_increasing; apply Rmult_lt_0_compat; apply pow_lt; auto).
      assert (Q : sqrt (V ^ 2 + 2 * V - 3) * sqrt (V ^ 2 + 2 * V - 3) = V ^ 2 + 2 * V - 3) by (apply sqrt_sqrt; nra).
      set (R0 := sqrt (V ^ 2 + 2 * V - 3)) in *.
      assert (A1 := E2_eq (2 * b + s ^ 2) 0 q ltac:(lra)). rewrite !Rmult_0_l, !Rplus_0_r in A1.
      assert (A2 := E2_eq b 0 q ltac:(lra)). rewrite !Rmult_0_l, !Rplus_0_r in A2. fold M in A2.
      assert (A3 : exp ((2 * b + s ^ 2) * q ^ 2) = M * M * V).
      { unfold M, V. rewrite <- !exp_plus. f_equal. ring. }
      rewrite A3 in A1.
      replace (M * (M * V / 2 * (V + 1 + R0) + M * V / 2 * (V + 1 - R0)) - M * V / 2 * (V + 1 + R0) * (M * V / 2 * (V + 1 - R0)) - 2 * M + 1)
        with (M * M * V * (V + 1) - M * M * V * V / 4 * ((V + 1) ^ 2 - R0 * R0) - 2 * M + 1) by field.
      rewrite Q. replace (M * M * V * (V + 1) - M * M * V * V / 4 * ((V + 1) ^ 2 - (V ^ 2 + 2 * V - 3)) - 2 * M + 1)
        with (M * M * V - 2 * M + 1) by field.
      rewrite A1, A2. field. lra.
    + assert (X := lim0_plus _ _ _ _ (lim0_E2 (2 * b + s ^ 2) 0) (lim0_mult _ _ _ _ (lim0_const (-2)) (lim0_E2 b 0))).
      replace ((2 * b + s ^ 2 + 0 ^ 2 / 2) + -2 * (b + 0 ^ 2 / 2)) with (s ^ 2) in X by field. exact X.
Qed.

Lemma p_range : at_right 0 (fun q => 0 <= p q <= 1).
Proof.
  assert (A : at_right 0 (fun q => Rabs b * q <= s)).
  { assert (Hb := Rabs_pos b).
    exists (mkposreal (s / (Rabs b + 1)) ltac:(apply Rdiv_lt_0_compat; lra)). intros q Hq Hq0.
    change (Rabs (q - 0) < s / (Rabs b + 1)) in Hq. rewrite Rminus_0_r, Rabs_right in Hq by lra.
    apply Rle_trans with ((Rabs b + 1) * (s / (Rabs b + 1))); [|right; field; lra].
    apply Rmult_le_compat; lra. }
  destruct A as [e He]. exists e. intros q Hq Hq0. specialize (He q Hq Hq0).
  assert (Hdt : 0 < q ^ 2) by (apply pow_lt; auto).
  assert (W : weights_ok (Bi k) b s (q ^ 2)).
  { destruct k.
    - apply crr_weights; auto. rewrite sqrt_q; auto.
    - apply jr_tian_weights; auto; lra.
    - apply jr_tian_weights; auto; lra. }
  generalize (W _ (or_introl eq_refl)) (W _ (or_intror (or_introl eq_refl))). cbn [fst]. lra.
Qed.

(** along dt = t / n *)
Variable t : R.
Hypothesis Ht : 0 < t.
Lemma q_seq : filterlim (fun n => sqrt (t / INR n)) eventually (at_right 0).
Proof.
  intros P [e He].
  assert (L : is_lim_seq (fun n => sqrt (t / INR n)) 0).
  { rewrite <- sqrt_0. apply (is_lim_seq_continuous sqrt (fun n => t / INR n) 0).
    apply continuity_pt_filterlim. apply continuous_sqrt. now apply dt_lim. }
  apply is_lim_seq_spec in L. destruct (L e) as [N HN]. exists (S N). intros n Hn. apply He.
  - apply HN. lia.
  - apply sqrt_lt_R0. apply Rdiv_lt_0_compat; auto. apply lt_0_INR. lia.
Qed.

Lemma along_f (f : R -> R) (l : R) : lim0 (fun q => f (q ^ 2)) l -> is_lim_seq (fun n => f (t / INR n)) l.
Proof.
  intros H. apply (is_lim_seq_ext_loc (fun n => f (sqrt (t / INR n) ^ 2))).
  - exists 1%nat. intros n Hn. f_equal. simpl. rewrite Rmult_1_r. apply sqrt_sqrt. left. apply Rdiv_lt_0_compat; auto. apply lt_0_INR. lia.
  - apply (filterlim_comp _ _ _ (fun n => sqrt (t / INR n)) (fun q => f (q ^ 2)) _ (at_right 0) _ q_seq H).
Qed.

Lemma put_lim K x : 0 < K -> 0 < x ->
  is_lim_seq (fun n => bsum (step_u k b s (t / INR n)) (step_d k b s (t / INR n)) (step_p k b s (t / INR n)) (pay K) n x) (Pv K b s t x).
Proof.
  intros HK Hx. apply (put_converges K b s HK Hs (fun n => step_u k b s (t / INR n)) (fun n => step_d k b s (t / INR n)) (fun n => step_p k b s (t / INR n)) t Ht); auto.
  - generalize (q_seq _ p_range). intros [N HN]. exists (S N). intros n Hn. specialize (HN n ltac:(lia)).
    replace (sqrt (t / INR n) ^ 2) with (t / INR n) in HN; auto.
    simpl. rewrite Rmult_1_r. symmetry. apply sqrt_sqrt. left. apply Rdiv_lt_0_compat; auto. apply lt_0_INR. lia.
  - apply (along_f (step_u k b s)), u_lim.
  - apply (along_f (step_d k b s)), d_lim.
  - apply (along_f (fun h => (step_p k b s h * (step_u k b s h - 1) + (1 - step_p k b s h) * (step_d k b s h - 1)) / h)), mean_lim.
  - apply (along_f (fun h => (step_p k b s h * (step_u k b s h - 1) ^ 2 + (1 - step_p k b s h) * (step_d k b s h - 1) ^ 2) / h)), square_lim.
Qed.

(** the lattice forward *)
Lemma forward_lim : is_lim_seq (fun n => (step_p k b s (t / INR n) * step_u k b s (t / INR n) + (1 - step_p k b s (t / INR n)) * step_d k b s (t / INR n)) ^ n) (exp (b * t)).
Proof.
  set (a := fun n => step_p k b s (t / INR n) * (step_u k b s (t / INR n) - 1) + (1 - step_p k b s (t / INR n)) * (step_d k b s (t / INR n) - 1)).
  assert (A : is_lim_seq (fun n => INR n * a n) (b * t)).
  { apply (is_lim_seq_ext_loc (fun n => a n / (t / INR n) * t)).
    - exists 1%nat. intros n Hn. field. split; try lra; apply not_0_INR; lia.
    - apply (is_lim_seq_mult' _ (fun _ => t)); [|apply is_lim_seq_const].
      apply (along_f (fun h => (step_p k b s h * (step_u k b s h - 1) + (1 - step_p k b s h) * (step_d k b s h - 1)) / h)), mean_lim. }
  assert (A0 : is_lim_seq a 0).
  { apply (is_lim_seq_ext_loc (fun n => INR n * a n * (/ INR n))).
    - exists 1%nat. intros n Hn. field. apply not_0_INR. lia.
    - replace 0 with (b * t * 0) by ring. apply is_lim_seq_mult'; auto.
      replace (Finite 0) with (Rbar_inv p_infty) by reflexivity. apply is_lim_seq_inv. apply is_lim_seq_INR. discriminate. }
  assert (L : is_lim_seq (fun n => INR n * ln (1 + a n)) (b * t)).
  { apply (is_lim_seq_le_le_loc (fun n => INR n * a n * / (1 + a n)) _ (fun n => INR n * a n)).
    - apply is_lim_seq_spec in A0. destruct (A0 (mkposreal (1 / 2) ltac:(lra))) as [N HN]. exists N. intros n Hn.
      specialize (HN n Hn). simpl in HN. rewrite Rminus_0_r in HN. apply Rabs_lt_between in HN.
      pose proof (pos_INR n). assert (P : 0 < 1 + a n) by lra. split.
      + rewrite Rmult_assoc. apply Rmult_le_compat_l; auto.
        assert (X := exp_lb (- ln (1 + a n))). rewrite exp_Ropp, exp_ln in X by auto.
        replace (a n * / (1 + a n)) with (1 - / (1 + a n)) by (field; lra). lra.
      + apply Rmult_le_compat_l; auto. assert (X := exp_lb (ln (1 + a n))). rewrite exp_ln in X by auto. lra.
    - replace (b * t) with (b * t * / (1 + 0)) by field. apply is_lim_seq_mult'; auto.
      apply (is_lim_seq_continuous Rinv (fun n => 1 + a n) (1 + 0)).
      apply derivable_continuous_pt. exists (- / (1 + 0) ^ 2). apply is_derive_Reals. evar_last. apply is_derive_inv. apply is_derive_id. lra. hc. field.
      apply is_lim_seq_plus'; auto. apply is_lim_seq_const.
    - auto. }
  apply (is_lim_seq_ext_loc (fun n => exp (INR n * ln (1 + a n)))).
  - apply is_lim_seq_spec in A0. destruct (A0 (mkposreal (1 / 2) ltac:(lra))) as [N HN]. exists N. intros n Hn.
    specialize (HN n Hn). simpl in HN. rewrite Rminus_0_r in HN. apply Rabs_lt_between in HN.
    rewrite <- exp_pow, exp_ln by lra. f_equal. unfold a. ring.
  - apply (is_lim_seq_continuous exp); auto. apply derivable_continuous_pt, derivable_pt_exp.
Qed.
End Moments.

Lemma bi_converges k S K t r b sigma (call : bool) : 0 < S -> 0 < K -> 0 < t -> 0 < sigma ->
  exists v price, (if call then gbs_call_F Phi else gbs_put_F Phi) (GBSOption S K t r b (Some sigma)) = Ok v /\
    (forall n, n <> 0%nat -> tree_price (Bi k) (mkTree S K t r b sigma "european" n) call false = Ok (Price (price n))) /\
    is_lim_seq price v.
Proof.
  intros HS HK Ht Hs.
  assert (F1 : S * exp ((b - r) * t) = exp (- r * t) * (S * exp (b * t))).
  { replace ((b - r) * t) with (- r * t + b * t) by ring. rewrite exp_plus. ring. }
  assert (F2 : K * exp (- r * t) = exp (- r * t) * K) by ring.
  exists (exp (- r * t) * (if call then Pv K b sigma t S + (S * exp (b * t) - K) else Pv K b sigma t S)).
  exists (fun n => let h := t / INR n in WM false (moves (Bi k) b sigma h) (exp (- r * h)) (zof call) K n S).
  split; [|split].
  - pose proof (exp_pos (- r * t)). pose proof (exp_pos (b * t)).
    destruct call.
    + rewrite call_link by (auto; lra). apply f_equal. rewrite F1, F2, bcall_scale by (auto; apply Rmult_lt_0_compat; auto).
      f_equal. unfold Pv. generalize (b_parity Phi (S * exp (b * t)) K (sigma * sqrt t) Phi_sym). lra.
    + rewrite put_link by (auto; lra). apply f_equal. rewrite F1, F2, bput_scale by (auto; apply Rmult_lt_0_compat; auto). reflexivity.
  - intros n Hn. change "european"%string with (the_type false). rewrite price_WM by (auto; lra). reflexivity.
  - cbv zeta. 
    apply (is_lim_seq_ext_loc (fun n => exp (- r * t) * bsum (step_u k b sigma (t / INR n)) (step_d k b sigma (t / INR n)) (step_p k b sigma (t / INR n)) (fun y => Rmax (zof call * (y - K)) 0) n S)).
    { exists 1%nat. intros n Hn. unfold WM, moves. rewrite <- W_WGe, euro_bsum. rewrite <- (Df_pow t r n) by (auto; lia). reflexivity. }
    apply (is_lim_seq_scal_l _ (exp (- r * t)) (Finite _)).
    destruct call; [|apply put_lim; auto].
    apply (is_lim_seq_ext (fun n => bsum (step_u k b sigma (t / INR n)) (step_d k b sigma (t / INR n)) (step_p k b sigma (t / INR n)) (pay K) n S
       + (S * (step_p k b sigma (t / INR n) * step_u k b sigma (t / INR n) + (1 - step_p k b sigma (t / INR n)) * step_d k b sigma (t / INR n)) ^ n - K))).
    { intros n. generalize (euro_parity (step_u k b sigma (t / INR n)) (step_d k b sigma (t / INR n)) (step_p k b sigma (t / INR n)) 1 K n S).
      rewrite !euro_bsum, pow1. unfold pay, zof. lra. }
    apply is_lim_seq_plus'. apply put_lim; auto.
    apply is_lim_seq_minus'; [|apply is_lim_seq_const]. apply (is_lim_seq_scal_l _ S (Finite _)). apply forward_lim; auto.
Qed.

(*@ C34_convergence | For all four classes the European tree price tends to the Black-Scholes price (GBSOption's formula with the exact normal distribution function) as the number of steps grows. *)
Lemma tree_converges : forall c S K t r b sigma (call : bool), 0 < S -> 0 < K -> 0 < t -> 0 < sigma ->
  exists v price,
    (if call then gbs_call_F Phi else gbs_put_F Phi) (GBSOption S K t r b (Some sigma)) = Ok v /\
    (forall n, n <> 0%nat -> tree_price c (mkTree S K t r b sigma "european" n) call false = Ok (Price (price n))) /\
    is_lim_seq price v.
Proof.
  intros c S K t r b sigma call HS HK Ht Hs. destruct c as [k|]; [now apply bi_converges|].
  destruct (bi_converges CRR S K t r b sigma call HS HK Ht Hs) as (v & price & H1 & H2 & H3).
  exists v, (fun n => price (2 * n)%nat). split; auto. split.
  - intros n Hn. destruct (trinomial_two_binomial S K t r b sigma n call Hn Ht ltac:(lra)) as (w & _ & _ & E1 & E2 & _).
    rewrite E1, <- E2. apply H2. lia.
  - apply (is_lim_seq_subseq price v (fun n => (2 * n)%nat)); auto.
    apply eventually_subseq. intros n. lia.
Qed.

(*@ C34_code | Compared with the price GBSOption itself returns (its distribution function is an approximation): for every tolerance all trees with enough steps are within 7.5e-8 times the forward and strike values plus the tolerance. *)
Lemma tree_near_gbs : forall c S K t r b sigma (call : bool) eta, 0 < S -> 0 < K -> 0 < t -> 0 < sigma -> 0 < eta ->
  exists w N, (if call then gbs_call else gbs_put) (GBSOption S K t r b (Some sigma)) = Ok w /\
    forall n, (N <= n)%nat -> exists x,
      tree_price c (mkTree S K t r b sigma "european" n) call false = Ok (Price x) /\
      Rabs (x - w) <= (S * exp ((b - r) * t) + K * exp (- r * t)) * (75 / 10 ^ 9) + eta.
Proof.
  intros c S K t r b sigma call eta HS HK Ht Hs He.
  destruct (tree_converges c S K t r b sigma call HS HK Ht Hs) as (v & price & H1 & H2 & H3).
  destruct (gbs_price_accuracy S K t r b sigma call HS HK Ht ltac:(lra)) as (w & v' & W1 & W2 & W3).
  assert (v' = v). { destruct call; rewrite W2 in H1; now injection H1. } subst v'.
  apply is_lim_seq_spec in H3. destruct (H3 (mkposreal eta He)) as [N HN]. simpl in HN.
  exists w, (Datatypes.S N). split. { destruct call; auto. }
  intros n Hn. exists (price n). split. { apply H2. lia. }
  specialize (HN n ltac:(lia)). rewrite Rabs_minus_sym in W3.
  replace (price n - w) with ((price n - v) + (v - w)) by ring.
  eapply Rle_trans; [apply Rabs_triang|]. lra.
Qed.
