(** European tree prices are within a constant over the square root of the number of steps of the
    Black-Scholes price (C71). *)
From Coq Require Import Reals String List Arith Lra Lia Psatz.
From Coquelicot Require Import Coquelicot.
From Verif Require Import Num Py MBase MVanilla MTrees STrees PCnd PCnd2 PBlack PGauss PGbs PGbs2 PGbs3 PVanilla
  PTrees2 PStop PTrees3 PLattice PTrees4 PConv PConv2 PConv3 PConv4 PRate.
Open Scope R_scope.

(** f is at most a multiple of q^k for small positive q *)
Definition bigO (k : nat) (f : R -> R) : Prop :=
  exists c e, 0 <= c /\ 0 < e /\ forall q, 0 < q < e -> Rabs (f q) <= c * q ^ k.

Lemma O_ext k f g : (forall q, 0 < q -> f q = g q) -> bigO k f -> bigO k g.
Proof. intros E (c & e & A & B & C). exists c, e. repeat split; auto. intros q Hq. rewrite <- E by lra. auto. Qed.

Lemma O_plus k f g : bigO k f -> bigO k g -> bigO k (fun q => f q + g q).
Proof.
  intros (c & e & A & B & C) (c' & e' & A' & B' & C'). exists (c + c'), (Rmin e e').
  repeat split; [lra|now apply Rmin_glb_lt|].
  intros q Hq. pose proof (Rmin_l e e'). pose proof (Rmin_r e e').
  eapply Rle_trans; [apply Rabs_triang|]. rewrite Rmult_plus_distr_r.
  apply Rplus_le_compat; [apply C|apply C']; lra.
Qed.

Lemma O_mult k m f g : bigO k f -> bigO m g -> bigO (k + m) (fun q => f q * g q).
Proof.
  intros (c & e & A & B & C) (c' & e' & A' & B' & C'). exists (c * c'), (Rmin e e').
  repeat split; [nra|now apply Rmin_glb_lt|].
  intros q Hq. pose proof (Rmin_l e e'). pose proof (Rmin_r e e').
  rewrite Rabs_mult, pow_add. replace (c * c' * (q ^ k * q ^ m)) with ((c * q ^ k) * (c' * q ^ m)) by ring.
  apply Rmult_le_compat; try apply Rabs_pos; [apply C|apply C']; lra.
Qed.

Lemma O_const a : bigO 0 (fun _ => a).
Proof. exists (Rabs a), 1. repeat split; [apply Rabs_pos|lra|]. intros. simpl. lra. Qed.

Lemma O_scal a k f : bigO k f -> bigO k (fun q => a * f q).
Proof. intros. apply (O_mult 0 k (fun _ => a) f); auto using O_const. Qed.

Lemma O_weaken k m f : (m <= k)%nat -> bigO k f -> bigO m f.
Proof.
  intros H (c & e & A & B & C). exists c, (Rmin e 1). repeat split; auto. apply Rmin_glb_lt; lra.
  intros q Hq. pose proof (Rmin_l e 1). pose proof (Rmin_r e 1).
  eapply Rle_trans; [apply C; lra|]. apply Rmult_le_compat_l; auto.
  replace k with (m + (k - m))%nat by lia. rewrite pow_add.
  assert (0 < q ^ m) by (apply pow_lt; lra).
  assert (q ^ (k - m) <= 1). { rewrite <- (pow1 (k - m)). apply pow_incr. lra. }
  nra.
Qed.

Lemma O_pow k : bigO k (fun q => q ^ k).
Proof. exists 1, 1. repeat split; try lra. intros. rewrite Rabs_right by (apply Rle_ge, pow_le; lra). lra. Qed.

(** exponentials of a q^2 + b q *)
Lemma O_exp3 al be : bigO 3 (fun q => exp (al * q ^ 2 + be * q) - 1 - be * q - (al + be ^ 2 / 2) * q ^ 2).
Proof.
  set (m := Rabs al + Rabs be + 1).
  pose proof (Rabs_pos al). pose proof (Rabs_pos be).
  set (f := fun q => exp (al * q ^ 2 + be * q) - 1 - (al * q ^ 2 + be * q) - (al * q ^ 2 + be * q) ^ 2 / 2).
  apply (O_ext 3 (fun q => f q + (al * be + al ^ 2 / 2 * q) * q ^ 3)).
  { intros. unfold f. field. }
  apply O_plus.
  - exists (exp 1 * m ^ 3), (/ m). unfold m. repeat split.
    + apply Rmult_le_pos; [left; apply exp_pos|apply pow_le; lra].
    + apply Rinv_0_lt_compat; lra.
    + intros q [Hq1 Hq2]. fold m in Hq2 |- *. assert (Hm : 1 <= m) by (unfold m; lra).
      assert (Hq3 : m * q < 1).
      { apply (Rmult_lt_compat_l m) in Hq2; [|lra]. rewrite Rinv_r in Hq2; lra. }
      assert (q < 1) by nra.
      assert (L : Rabs (al * q ^ 2 + be * q) <= m * q).
      { eapply Rle_trans; [apply Rabs_triang|]. rewrite !Rabs_mult, (Rabs_right q), (Rabs_right (q ^ 2)) by (try apply Rle_ge, pow2_ge_0; lra).
        unfold m. assert (q ^ 2 <= q) by nra. assert (Rabs al * q ^ 2 <= Rabs al * q) by nra. nra. }
      unfold f. eapply Rle_trans; [apply exp_taylor; lra|]. rewrite Rmult_assoc. apply Rmult_le_compat_l; [left; apply exp_pos|].
      rewrite <- Rpow_mult_distr. apply pow_incr. split; [apply Rabs_pos|auto].
  - apply (O_mult 0 3); [|apply O_pow]. apply O_plus. apply O_const.
    apply (O_weaken 1); [lia|]. apply (O_ext 1 (fun q => al ^ 2 / 2 * q ^ 1)). { intros; ring. } apply O_scal, O_pow.
Qed.

Lemma O_exp2 al be : bigO 2 (fun q => exp (al * q ^ 2 + be * q) - 1 - be * q).
Proof.
  apply (O_ext 2 (fun q => (exp (al * q ^ 2 + be * q) - 1 - be * q - (al + be ^ 2 / 2) * q ^ 2) + (al + be ^ 2 / 2) * q ^ 2)).
  { intros; ring. }
  apply O_plus. apply (O_weaken 3); [lia|]. apply O_exp3. apply O_scal, O_pow.
Qed.

Lemma O_exp1 al be : bigO 1 (fun q => exp (al * q ^ 2 + be * q) - 1).
Proof.
  apply (O_ext 1 (fun q => (exp (al * q ^ 2 + be * q) - 1 - be * q) + be * q ^ 1)).
  { intros; ring. }
  apply O_plus. apply (O_weaken 2); [lia|]. apply O_exp2. apply O_scal, O_pow.
Qed.

Lemma O_exp_sq2 al : bigO 2 (fun q => exp (al * q ^ 2) - 1).
Proof. apply (O_ext 2 (fun q => exp (al * q ^ 2 + 0 * q) - 1 - 0 * q)). { intros; rewrite Rmult_0_l, Rplus_0_r; ring. } apply O_exp2. Qed.
Lemma O_exp_sq3 al : bigO 3 (fun q => exp (al * q ^ 2) - 1 - al * q ^ 2).
Proof.
  apply (O_ext 3 (fun q => exp (al * q ^ 2 + 0 * q) - 1 - 0 * q - (al + 0 ^ 2 / 2) * q ^ 2)).
  { intros; rewrite Rmult_0_l, Rplus_0_r; field. } apply O_exp3.
Qed.
Lemma O_exp_sq0 al : bigO 0 (fun q => exp (al * q ^ 2)).
Proof.
  apply (O_ext 0 (fun q => (exp (al * q ^ 2) - 1) + 1)). { intros; ring. }
  apply O_plus; [|apply O_const]. apply (O_weaken 2); [lia|apply O_exp_sq2].
Qed.

Section Moments.
Variables (k : bi_model) (b s : R).
Hypothesis Hs : 0 < s.
Notation u q := (step_u k b s (q ^ 2)).
Notation d q := (step_d k b s (q ^ 2)).
Notation p q := (step_p k b s (q ^ 2)).

(** TIAN's square root *)
Lemma O_tian : bigO 1 (fun q => sqrt (exp (s ^ 2 * q ^ 2) ^ 2 + 2 * exp (s ^ 2 * q ^ 2) - 3)).
Proof.
  assert (A : bigO 2 (fun q => (exp (s ^ 2 * q ^ 2) - 1) * (exp (s ^ 2 * q ^ 2) + 3))).
  { apply (O_mult 2 0). apply O_exp_sq2. apply O_plus; [apply O_exp_sq0|apply O_const]. }
  destruct A as (c & e & Hc & He & H). exists (sqrt c), e. repeat split; auto. apply sqrt_pos.
  intros q Hq. specialize (H q Hq). rewrite Rabs_right by (apply Rle_ge, sqrt_pos).
  replace (sqrt c * q ^ 1) with (sqrt (c * q ^ 2)).
  2:{ rewrite sqrt_mult by (auto; apply pow2_ge_0). rewrite sqrt_q by lra. ring. }
  apply sqrt_le_1_alt. eapply Rle_trans; [|exact H]. eapply Rle_trans; [|apply Rle_abs]. right. ring.
Qed.

Lemma O_u : bigO 1 (fun q => u q - 1).
Proof.
  destruct k.
  - apply (O_ext 1 (fun q => exp (0 * q ^ 2 + s * q) - 1)); [|apply O_exp1].
    intros. cbn [step_u]. now rewrite sqrt_q, Rmult_0_l, Rplus_0_l.
  - apply (O_ext 1 (fun q => exp ((b - s ^ 2 / 2) * q ^ 2 + s * q) - 1)); [|apply O_exp1].
    intros. cbn [step_u]. now rewrite sqrt_q.
  - apply (O_ext 1 (fun q => (exp ((b + s ^ 2) * q ^ 2) - 1) * ((exp (s ^ 2 * q ^ 2) - 1) * / 2 + 1 )
       + / 2 * (exp (s ^ 2 * q ^ 2) - 1) + / 2 * (exp ((b + s ^ 2) * q ^ 2) * sqrt (exp (s ^ 2 * q ^ 2) ^ 2 + 2 * exp (s ^ 2 * q ^ 2) - 3)))).
    { intros. cbn [step_u]. cbv zeta. replace ((b + s ^ 2) * q ^ 2) with (b * q ^ 2 + s ^ 2 * q ^ 2) by ring. rewrite exp_plus. field. }
    apply O_plus; [apply O_plus|].
    + apply (O_weaken 2); [lia|]. apply (O_mult 2 0); [apply O_exp_sq2|]. apply O_plus; [|apply O_const].
      apply (O_ext 0 (fun q => / 2 * (exp (s ^ 2 * q ^ 2) - 1))). { intros; ring. } apply O_scal. apply (O_weaken 2); [lia|apply O_exp_sq2].
    + apply O_scal. apply (O_weaken 2); [lia|apply O_exp_sq2].
    + apply O_scal. apply (O_mult 0 1); [apply O_exp_sq0|apply O_tian].
Qed.

Lemma O_sum : bigO 2 (fun q => (u q - 1) + (d q - 1)).
Proof.
  destruct k.
  - apply (O_ext 2 (fun q => (exp (0 * q ^ 2 + s * q) - 1 - s * q) + (exp (0 * q ^ 2 + - s * q) - 1 - - s * q))); [|apply O_plus; apply O_exp2].
    intros. cbn [step_u step_d]. rewrite sqrt_q, Rmult_0_l, !Rplus_0_l by auto. rewrite <- Ropp_mult_distr_l. ring.
  - set (m := b - s ^ 2 / 2). apply (O_ext 2 (fun q => (exp (m * q ^ 2 + s * q) - 1 - s * q) + (exp (m * q ^ 2 + - s * q) - 1 - - s * q))); [|apply O_plus; apply O_exp2].
    intros. cbn [step_u step_d]. rewrite sqrt_q by auto. fold m. replace (m * q ^ 2 - s * q) with (m * q ^ 2 + - s * q) by ring. ring.
  - apply (O_ext 2 (fun q => (exp ((b + s ^ 2) * q ^ 2) - 1) * (exp (s ^ 2 * q ^ 2) + 1) + (exp (s ^ 2 * q ^ 2) - 1))).
    { intros. cbn [step_u step_d]. cbv zeta. replace ((b + s ^ 2) * q ^ 2) with (b * q ^ 2 + s ^ 2 * q ^ 2) by ring. rewrite exp_plus. field. }
    apply O_plus; [|apply O_exp_sq2]. apply (O_mult 2 0); [apply O_exp_sq2|]. apply O_plus; [apply O_exp_sq0|apply O_const].
Qed.

Lemma O_d : bigO 1 (fun q => d q - 1).
Proof.
  apply (O_ext 1 (fun q => ((u q - 1) + (d q - 1)) + -1 * (u q - 1))). { intros; ring. }
  apply O_plus. apply (O_weaken 2); [lia|apply O_sum]. apply O_scal, O_u.
Qed.

Lemma O_mean : bigO 3 (fun q => p q * (u q - 1) + (1 - p q) * (d q - 1) - b * q ^ 2).
Proof.
  assert (G : k <> JR -> bigO 3 (fun q => p q * (u q - 1) + (1 - p q) * (d q - 1) - b * q ^ 2)).
  { intros Hk. apply (O_ext 3 (fun q => exp (b * q ^ 2) - 1 - b * q ^ 2)); [|apply O_exp_sq3].
    intros q Hq. assert (U := u_ne_d k b s Hs q Hq Hk).
    assert (Ep : p q = (exp (b * q ^ 2) - d q) / (u q - d q)) by (destruct k; try easy).
    rewrite Ep. field. auto. }
  destruct k; try (apply G; discriminate).
  set (m := b - s ^ 2 / 2).
  apply (O_ext 3 (fun q => / 2 * (exp (m * q ^ 2 + s * q) - 1 - s * q - (m + s ^ 2 / 2) * q ^ 2)
    + / 2 * (exp (m * q ^ 2 + - s * q) - 1 - - s * q - (m + (- s) ^ 2 / 2) * q ^ 2))).
  { intros q Hq. cbn [step_u step_d step_p]. rewrite sqrt_q by auto. fold m.
    replace (m * q ^ 2 - s * q) with (m * q ^ 2 + - s * q) by ring. unfold m. field. }
  apply O_plus; apply O_scal, O_exp3.
Qed.

Lemma O_square : bigO 3 (fun q => p q * (u q - 1) ^ 2 + (1 - p q) * (d q - 1) ^ 2 - s ^ 2 * q ^ 2).
Proof.
  assert (G : forall q, k <> JR -> 0 < q ->
    p q * (u q - 1) ^ 2 + (1 - p q) * (d q - 1) ^ 2 = exp (b * q ^ 2) * (u q + d q) - u q * d q - 2 * exp (b * q ^ 2) + 1).
  { intros q Hk Hq. assert (U := u_ne_d k b s Hs q Hq Hk).
    assert (Ep : p q = (exp (b * q ^ 2) - d q) / (u q - d q)) by (destruct k; try easy).
    rewrite Ep. field. auto. }
  assert (SU := O_sum).
  destruct k.
  - apply (O_ext 3 (fun q => (exp (b * q ^ 2) - 1) * ((step_u CRR b s (q ^ 2) - 1) + (step_d CRR b s (q ^ 2) - 1))
       + ((exp (0 * q ^ 2 + s * q) - 1 - s * q - (0 + s ^ 2 / 2) * q ^ 2)
       + (exp (0 * q ^ 2 + - s * q) - 1 - - s * q - (0 + (- s) ^ 2 / 2) * q ^ 2)))).
    { intros q Hq. rewrite G by (auto; discriminate). cbn [step_u step_d]. rewrite sqrt_q, Rmult_0_l, !Rplus_0_l by auto. rewrite <- Ropp_mult_distr_l.
      replace (exp (s * q) * exp (- (s * q))) with 1 by (rewrite <- exp_plus, Rplus_opp_r, exp_0; auto). field. }
    apply O_plus; [|apply O_plus; apply O_exp3]. apply (O_weaken 4); [lia|]. apply (O_mult 2 2); [apply O_exp_sq2|exact SU].
  - set (m := b - s ^ 2 / 2).
    apply (O_ext 3 (fun q => / 2 * (exp (2 * m * q ^ 2 + 2 * s * q) - 1 - 2 * s * q - (2 * m + (2 * s) ^ 2 / 2) * q ^ 2)
      + / 2 * (exp (2 * m * q ^ 2 + 2 * - s * q) - 1 - 2 * - s * q - (2 * m + (2 * - s) ^ 2 / 2) * q ^ 2)
      + -1 * ((exp (m * q ^ 2 + s * q) - 1 - s * q - (m + s ^ 2 / 2) * q ^ 2)
      + (exp (m * q ^ 2 + - s * q) - 1 - - s * q - (m + (- s) ^ 2 / 2) * q ^ 2)))).
    { intros q Hq. cbn [step_u step_d step_p]. rewrite sqrt_q by auto. fold m.
      replace (m * q ^ 2 - s * q) with (m * q ^ 2 + - s * q) by ring.
      replace (2 * m * q ^ 2 + 2 * s * q) with (m * q ^ 2 + s * q + (m * q ^ 2 + s * q)) by ring.
      replace (2 * m * q ^ 2 + 2 * - s * q) with (m * q ^ 2 + - s * q + (m * q ^ 2 + - s * q)) by ring.
      rewrite !(exp_plus (_ + _) (_ + _)). field. }
    apply O_plus; [apply O_plus; apply O_scal, O_exp3|]. apply O_scal. apply O_plus; apply O_exp3.
  - apply (O_ext 3 (fun q => (exp ((2 * b + s ^ 2) * q ^ 2) - 1 - (2 * b + s ^ 2) * q ^ 2) + -2 * (exp (b * q ^ 2) - 1 - b * q ^ 2))).
    { intros q Hq. rewrite G by (auto; discriminate). cbn [step_u step_d]. cbv zeta.
      set (V := exp (s ^ 2 * q ^ 2)). set (M := exp (b * q ^ 2)).
      assert (HV : 1 < V) by (unfold V; rewrite <- exp_0; apply exp_increasing; apply Rmult_lt_0_compat; apply pow_lt; auto).
      assert (Q : sqrt (V ^ 2 + 2 * V - 3) * sqrt (V ^ 2 + 2 * V - 3) = V ^ 2 + 2 * V - 3) by (apply sqrt_sqrt; nra).
      set (R0 := sqrt (V ^ 2 + 2 * V - 3)) in *.
      assert (A3 : exp ((2 * b + s ^ 2) * q ^ 2) = M * M * V).
      { unfold M, V. rewrite <- !exp_plus. f_equal. ring. }
      rewrite A3.
      replace (M * (M * V / 2 * (V + 1 + R0) + M * V / 2 * (V + 1 - R0)) - M * V / 2 * (V + 1 + R0) * (M * V / 2 * (V + 1 - R0)) - 2 * M + 1)
        with (M * M * V * (V + 1) - M * M * V * V / 4 * ((V + 1) ^ 2 - R0 * R0) - 2 * M + 1) by field.
      rewrite Q. field. }
    apply O_plus; [apply O_exp_sq3|]. apply O_scal, O_exp_sq3.
Qed.

Lemma O_mean2 : bigO 2 (fun q => p q * (u q - 1) + (1 - p q) * (d q - 1)).
Proof.
  apply (O_ext 2 (fun q => (p q * (u q - 1) + (1 - p q) * (d q - 1) - b * q ^ 2) + b * q ^ 2)). { intros; ring. }
  apply O_plus. apply (O_weaken 3); [lia|apply O_mean]. apply O_scal, O_pow.
Qed.
Lemma O_square2 : bigO 2 (fun q => p q * (u q - 1) ^ 2 + (1 - p q) * (d q - 1) ^ 2).
Proof.
  apply (O_ext 2 (fun q => (p q * (u q - 1) ^ 2 + (1 - p q) * (d q - 1) ^ 2 - s ^ 2 * q ^ 2) + s ^ 2 * q ^ 2)). { intros; ring. }
  apply O_plus. apply (O_weaken 3); [lia|apply O_square]. apply O_scal, O_pow.
Qed.

(** both values of y solve y^2 = (y1 + y2) y - y1 y2 *)
Lemma O_cube : bigO 4 (fun q => p q * (u q - 1) ^ 3 + (1 - p q) * (d q - 1) ^ 3).
Proof.
  apply (O_ext 4 (fun q => ((u q - 1) + (d q - 1)) * (p q * (u q - 1) ^ 2 + (1 - p q) * (d q - 1) ^ 2)
    + -1 * (((u q - 1) * (d q - 1)) * (p q * (u q - 1) + (1 - p q) * (d q - 1))))). { intros; ring. }
  apply O_plus. apply (O_mult 2 2); [apply O_sum|apply O_square2].
  apply O_scal. apply (O_mult 2 2); [|apply O_mean2]. apply (O_mult 1 1); [apply O_u|apply O_d].
Qed.

Lemma p_small : exists e, 0 < e /\ forall q, 0 < q < e -> 0 <= p q <= 1.
Proof.
  destruct (p_range k b s Hs) as [e He]. exists e. split; [apply cond_pos|]. intros q Hq. apply He; try lra.
  change (Rabs (q - 0) < e). rewrite Rminus_0_r, Rabs_right; lra.
Qed.

(** everything below one threshold, with one constant *)
Lemma all_small : exists c e, 0 <= c /\ 0 < e /\ forall q, 0 < q < e ->
  0 <= p q <= 1 /\ Rabs (u q - 1) <= 1 / 2 /\ Rabs (d q - 1) <= 1 / 2 /\ Rabs (u q - 1) <= c * q /\ Rabs (d q - 1) <= c * q /\
  Rabs (p q * (u q - 1) + (1 - p q) * (d q - 1) - b * q ^ 2) <= c * q ^ 3 /\
  Rabs (p q * (u q - 1) ^ 2 + (1 - p q) * (d q - 1) ^ 2 - s ^ 2 * q ^ 2) <= c * q ^ 3 /\
  Rabs (p q * (u q - 1) ^ 3 + (1 - p q) * (d q - 1) ^ 3) <= c * q ^ 4.
Proof.
  destruct p_small as (e0 & P0 & H0). destruct O_u as (c1 & e1 & C1 & P1 & H1). destruct O_d as (c2 & e2 & C2 & P2 & H2).
  destruct O_mean as (c3 & e3 & C3 & P3 & H3). destruct O_square as (c4 & e4 & C4 & P4 & H4). destruct O_cube as (c5 & e5 & C5 & P5 & H5).
  set (c := c1 + c2 + c3 + c4 + c5 + 1).
  set (e := Rmin (/ (2 * c)) (Rmin e0 (Rmin e1 (Rmin e2 (Rmin e3 (Rmin e4 e5)))))).
  assert (Hc : 1 <= c) by (unfold c; lra).
  assert (He : 0 < e). { unfold e. repeat apply Rmin_glb_lt; auto. apply Rinv_0_lt_compat. lra. }
  exists c, e. repeat split; auto; try lra.
  all: assert (L : q < / (2 * c) /\ q < e0 /\ q < e1 /\ q < e2 /\ q < e3 /\ q < e4 /\ q < e5)
    by (destruct H as [_ H]; unfold e in H; repeat (apply Rmin_Rgt_l in H; let h := fresh in destruct H as [h H]; split; [exact h|]); exact H).
  all: destruct L as (L0 & L1 & L2 & L3 & L4 & L5 & L6); destruct H as [Hq _].
  all: assert (q1 : 0 < q ^ 1) by (apply pow_lt; auto); assert (q3 : 0 < q ^ 3) by (apply pow_lt; auto); assert (q4 : 0 < q ^ 4) by (apply pow_lt; auto).
  all: assert (Lc : c * q <= 1 / 2) by (apply Rle_trans with (c * / (2 * c)); [apply Rmult_le_compat_l; lra|right; field; lra]).
  all: specialize (H0 q (conj Hq L1)); specialize (H1 q (conj Hq L2)); specialize (H2 q (conj Hq L3)); specialize (H3 q (conj Hq L4));
    specialize (H4 q (conj Hq L5)); specialize (H5 q (conj Hq L6)).
  - lra.
  - lra.
  - eapply Rle_trans; [exact H1|]. apply Rle_trans with (c * q); auto. rewrite pow_1. apply Rmult_le_compat_r; unfold c; lra.
  - eapply Rle_trans; [exact H2|]. apply Rle_trans with (c * q); auto. rewrite pow_1. apply Rmult_le_compat_r; unfold c; lra.
  - eapply Rle_trans; [exact H1|]. rewrite pow_1. apply Rmult_le_compat_r; unfold c; lra.
  - eapply Rle_trans; [exact H2|]. rewrite pow_1. apply Rmult_le_compat_r; unfold c; lra.
  - eapply Rle_trans; [exact H3|]. apply Rmult_le_compat_r; unfold c; lra.
  - eapply Rle_trans; [exact H4|]. apply Rmult_le_compat_r; unfold c; lra.
  - eapply Rle_trans; [exact H5|]. apply Rmult_le_compat_r; unfold c; lra.
Qed.

Variable t : R.
Hypothesis Ht : 0 < t.
Notation un n := (step_u k b s (t / INR n)).
Notation dn n := (step_d k b s (t / INR n)).
Notation pn n := (step_p k b s (t / INR n)).

Lemma eventually_small e : 0 < e -> exists N, (0 < N)%nat /\ forall n, (N <= n)%nat -> 0 < sqrt (t / INR n) < e.
Proof.
  intros He. assert (A : at_right 0 (fun q => 0 < q < e)).
  { exists (mkposreal e He). intros q Hq Hq0. change (Rabs (q - 0) < e) in Hq. rewrite Rminus_0_r, Rabs_right in Hq; lra. }
  destruct (q_seq t Ht _ A) as [N HN]. exists (Datatypes.S N). split; [lia|]. intros n Hn. apply HN. lia.
Qed.

Lemma put_rate_tree K : 0 < K -> exists C N, 0 <= C /\ (0 < N)%nat /\ forall n x, (N <= n)%nat -> 0 < x ->
  Rabs (bsum (un n) (dn n) (pn n) (pay K) n x - Pv K b s t x) <= C / sqrt (INR n).
Proof.
  intros HK. destruct all_small as (c & e & Hc & He & H).
  destruct (put_rate K b s HK Hs t c Ht Hc) as (C & HC & HR). destruct (eventually_small e He) as (N & HN & HNe).
  exists C, N. repeat split; auto. intros n x Hn Hx.
  assert (Pn : 0 < t / INR n) by (apply Rdiv_lt_0_compat; auto; apply lt_0_INR; lia).
  destruct (H _ (HNe n Hn)) as (A0 & A1 & A2 & A3 & A4 & A5 & A6 & A7).
  assert (E : sqrt (t / INR n) ^ 2 = t / INR n) by (simpl; rewrite Rmult_1_r; apply sqrt_sqrt; lra).
  rewrite E in *. apply HR; auto. lia.
Qed.

Lemma pow_close A B M n : 0 <= A <= M -> 0 <= B <= M -> 1 <= M -> Rabs (A ^ n - B ^ n) <= INR n * Rabs (A - B) * M ^ n.
Proof.
  intros HA HB HM. induction n.
  - simpl. replace (1 - 1) with 0 by ring. rewrite Rabs_R0. lra.
  - rewrite S_INR. replace (A ^ Datatypes.S n - B ^ Datatypes.S n) with (A * (A ^ n - B ^ n) + (A - B) * B ^ n) by (simpl; ring).
    eapply Rle_trans; [apply Rabs_triang|]. rewrite !Rabs_mult, (Rabs_right A) by lra.
    assert (B ^ n <= M ^ n) by (apply pow_incr; lra). assert (0 <= B ^ n) by (apply pow_le; lra).
    rewrite (Rabs_right (B ^ n)) by lra. assert (1 <= M ^ n) by (apply pow_R1_Rle; lra).
    pose proof (Rabs_pos (A ^ n - B ^ n)). pose proof (Rabs_pos (A - B)). pose proof (pos_INR n).
    assert (F1 : A * Rabs (A ^ n - B ^ n) <= M * (INR n * Rabs (A - B) * M ^ n)) by (apply Rmult_le_compat; lra).
    assert (F2 : Rabs (A - B) * B ^ n <= Rabs (A - B) * (M * M ^ n)) by (apply Rmult_le_compat_l; [lra|nra]).
    simpl pow. replace ((INR n + 1) * Rabs (A - B) * (M * M ^ n)) with (M * (INR n * Rabs (A - B) * M ^ n) + Rabs (A - B) * (M * M ^ n)) by ring. lra.
Qed.

(** the lattice forward *)
Lemma forward_rate : exists C N, 0 <= C /\ (0 < N)%nat /\ forall n, (N <= n)%nat ->
  Rabs ((pn n * un n + (1 - pn n) * dn n) ^ n - exp (b * t)) <= C / sqrt (INR n).
Proof.
  destruct (O_plus 3 _ _ O_mean (O_scal (-1) 3 _ (O_exp_sq3 b))) as (c & e1 & Hc & He1 & H).
  destruct all_small as (c0 & e2 & _ & He2 & H2).
  set (B := Rabs b + c + 1). assert (HB : 1 <= B) by (unfold B; pose proof (Rabs_pos b); lra).
  destruct (eventually_small (Rmin (Rmin e1 e2) 1)) as (N & HN & HNe). { repeat apply Rmin_glb_lt; lra. }
  set (g := sqrt t). assert (Hg : 0 < g) by (apply sq_pos; auto).
  exists (t * c * exp (B * t) * g), N. repeat split; auto.
  { repeat apply Rmult_le_pos; try lra. left; apply exp_pos. }
  intros n Hn. assert (HNn : 0 < INR n) by (apply lt_0_INR; lia).
  destruct (HNe n Hn) as [Q0 Q1].
  assert (L1 : sqrt (t / INR n) < e1) by (eapply Rlt_le_trans; [exact Q1|]; eapply Rle_trans; [apply Rmin_l|apply Rmin_l]).
  assert (L2 : sqrt (t / INR n) < e2) by (eapply Rlt_le_trans; [exact Q1|]; eapply Rle_trans; [apply Rmin_l|apply Rmin_r]).
  assert (L3 : sqrt (t / INR n) < 1) by (eapply Rlt_le_trans; [exact Q1|apply Rmin_r]).
  specialize (H _ (conj Q0 L1)). destruct (H2 _ (conj Q0 L2)) as (P0 & U0 & D0 & _).
  assert (Pn : 0 < t / INR n) by (apply Rdiv_lt_0_compat; auto).
  set (q := sqrt (t / INR n)) in *. assert (E : q * q = t / INR n) by (apply sqrt_sqrt; lra).
  assert (E2 : q ^ 2 = t / INR n) by (rewrite <- E; ring). rewrite E2 in H, P0, U0, D0.
  set (dt := t / INR n) in *. assert (Edt : INR n * dt = t) by (unfold dt; field; lra).
  set (A := step_p k b s dt * step_u k b s dt + (1 - step_p k b s dt) * step_d k b s dt).
  assert (HA : Rabs (A - exp (b * dt)) <= c * q ^ 3).
  { eapply Rle_trans; [|exact H]. right. f_equal. unfold A. ring. }
  assert (A0 : 0 <= A).
  { unfold A. apply Rabs_le_between in U0, D0. apply Rplus_le_le_0_compat; apply Rmult_le_pos; lra. }
  assert (q3 : q ^ 3 <= dt). { rewrite <- E. assert (0 < q * q) by nra. nra. }
  assert (XB : exp (b * dt) <= exp (Rabs b * dt)).
  { destruct (Req_dec (b * dt) (Rabs b * dt)) as [->|Hne]; [lra|]. left. apply exp_increasing.
    assert (b * dt <= Rabs b * dt) by (apply Rmult_le_compat_r; [lra|apply Rle_abs]). lra. }
  assert (XM : exp (Rabs b * dt) + c * dt <= exp (B * dt)).
  { unfold B. replace ((Rabs b + c + 1) * dt) with (Rabs b * dt + (c + 1) * dt) by ring. rewrite exp_plus.
    pose proof (exp_lb ((c + 1) * dt)). assert (0 <= c * dt) by nra.
    assert (1 <= exp (Rabs b * dt)). { rewrite <- exp_0 at 1. pose proof (Rabs_pos b). destruct (Req_dec (Rabs b) 0) as [->|]; [rewrite Rmult_0_l; lra|]. left. apply exp_increasing. nra. }
    nra. }
  assert (HM : 1 <= exp (B * dt)). { rewrite <- exp_0 at 1. left. apply exp_increasing. nra. }
  assert (X := pow_close A (exp (b * dt)) (exp (B * dt)) n).
  assert (X1 : Rabs (A ^ n - exp (b * dt) ^ n) <= INR n * Rabs (A - exp (b * dt)) * exp (B * dt) ^ n).
  { apply X; auto.
    - split; auto. apply Rabs_le_between in HA. assert (c * q ^ 3 <= c * dt) by (apply Rmult_le_compat_l; auto). lra.
    - split; [left; apply exp_pos|]. assert (0 <= c * dt) by nra. lra. }
  rewrite !exp_pow in X1.
  replace (INR n * (b * dt)) with (b * t) in X1 by (rewrite <- Edt; ring).
  replace (INR n * (B * dt)) with (B * t) in X1 by (rewrite <- Edt; ring).
  eapply Rle_trans; [exact X1|].
  assert (Eg : g / sqrt (INR n) = q).
  { unfold q, dt. rewrite sqrt_div_alt by auto. reflexivity. }
  replace (t * c * exp (B * t) * g / sqrt (INR n)) with (t * c * exp (B * t) * (g / sqrt (INR n))) by (unfold Rdiv; ring). rewrite Eg.
  apply Rle_trans with (INR n * (c * q ^ 3) * exp (B * t)).
  { apply Rmult_le_compat_r; [left; apply exp_pos|]. apply Rmult_le_compat_l; [lra|auto]. }
  right. rewrite <- Edt, <- E. ring.
Qed.
End Moments.
