(** Means over a Gaussian day: existence, continuity and convergence for functions of linear growth in the price. *)
From Coq Require Import Reals Lra Lia.
From Coquelicot Require Import Coquelicot.
From Coq Require Import List.
From Verif Require Import Py SMonte SHeston PCnd PCnd2 PGauss PBs PMonte4 PHeston PHeston2.
Import ListNotations.
Open Scope R_scope.

(* ------------------------------------------------------------------ *)
(** * The mean of a continuous function with a dominated tail *)
(** [f] grows at most like an exponential with rate [q] *)
Definition dom (c e q : R) (f : R -> R) : Prop := forall z, Rabs (f z) <= c * (1 + e * exp (q * z - q ^ 2 / 2)).
Definition cont (f : R -> R) : Prop := forall z, continuous f z.
Definition dW (e q z : R) : R := Phi z + e * Phi (z - q).
Lemma dW_derive e q z : is_derive (dW e q) z ((1 + e * exp (q * z - q ^ 2 / 2)) * npdf z).
Proof.
  evar_last. { apply (is_derive_plus (K := R_AbsRing) (V := R_NormedModule) Phi (fun z => e * Phi (z - q))); [apply Phi_derive|].
    apply (is_derive_scal (fun z => Phi (z - q)) z e). apply (is_derive_comp (K := R_AbsRing) (V := R_NormedModule) Phi (fun z => z - q)); [apply Phi_derive|]. auto_derive; [exact Coq.Init.Logic.I|reflexivity]. }
  unfold plus, scal; cbn [AbelianGroup.plus]; unfold mult; cbn. change (z + - q) with (z - q). rewrite npdf_shift. cbn. ring.
Qed.
Lemma cont_exp_dom e q z : continuous (fun z => (1 + e * exp (q * z - q ^ 2 / 2)) * npdf z) z.
Proof.
  apply (continuous_mult (K := R_AbsRing) (fun z => 1 + e * exp (q * z - q ^ 2 / 2)) npdf); [|apply npdf_cont].
  apply (ex_derive_continuous (V := R_NormedModule)). auto_derive. exact Coq.Init.Logic.I.
Qed.
Lemma dW_int e q a b : is_RInt (fun z => (1 + e * exp (q * z - q ^ 2 / 2)) * npdf z) a b (dW e q b - dW e q a).
Proof. apply (is_RInt_derive (V := R_CompleteNormedModule) (dW e q)); intros; [apply dW_derive|apply cont_exp_dom]. Qed.
Lemma cont_npdf f : cont f -> cont (fun z => f z * npdf z).
Proof. intros H z. apply (continuous_mult (K := R_AbsRing) f npdf); [apply H|apply npdf_cont]. Qed.
Lemma cont_int f a b : cont f -> ex_RInt f a b.
Proof. intro H. apply (ex_RInt_continuous (V := R_CompleteNormedModule)). intros; apply H. Qed.
Lemma int_dom f c e q a b : cont f -> dom c e q f -> a <= b -> Rabs (RInt (fun z => f z * npdf z) a b) <= c * (dW e q b - dW e q a).
Proof.
  intros Hc Hd Hab. eapply Rle_trans; [apply abs_RInt_le; [exact Hab|apply cont_int, cont_npdf, Hc]|].
  assert (HI : is_RInt (fun z => c * ((1 + e * exp (q * z - q ^ 2 / 2)) * npdf z)) a b (c * (dW e q b - dW e q a)))
    by (apply (is_RInt_scal (V := R_NormedModule)), dW_int).
  rewrite <- (is_RInt_unique (V := R_CompleteNormedModule) _ _ _ _ HI). apply RInt_le; [exact Hab| |eexists; exact HI|].
  - apply cont_int. intro z. apply (continuous_comp (fun z => f z * npdf z) Rabs); [apply cont_npdf, Hc|apply (continuous_abs (K := R_AbsRing))].
  - intros z _. rewrite Rabs_mult, (Rabs_pos_eq (npdf z)) by (generalize (npdf_pos z); lra). specialize (Hd z). pose proof (npdf_pos z).
    replace (c * ((1 + e * exp (q * z - q ^ 2 / 2)) * npdf z)) with ((c * (1 + e * exp (q * z - q ^ 2 / 2))) * npdf z) by ring. apply Rmult_le_compat_r; lra.
Qed.
(** the mass of the tails *)
Definition tl (e q x : R) : R := 2 * (1 + e) * (1 - Phi (x - q)).
Lemma Phi_mono x y : x <= y -> Phi x <= Phi y.
Proof. intros [H| ->]; [left; now apply Phi_incr|lra]. Qed.
Lemma dW_tails e q Q a x b : 0 <= e -> Rabs q <= Q -> 0 <= x -> a <= - x -> x <= b ->
  dW e q b - dW e q x + (dW e q (- x) - dW e q a) <= tl e Q x.
Proof.
  intros He Hq Hx Ha Hb. apply Rabs_le_between in Hq. unfold dW, tl.
  pose proof (Phi_lt_1 b). pose proof (Phi_lt_1 (b - q)). pose proof (Phi_gt_0 a). pose proof (Phi_gt_0 (a - q)).
  pose proof (Phi_mono (x - Q) x ltac:(lra)). pose proof (Phi_mono (x - Q) (x - q) ltac:(lra)). pose proof (Phi_opp x). pose proof (Phi_opp (x + q)).
  pose proof (Phi_mono (x - Q) (x + q) ltac:(lra)). replace (- (x + q)) with (- x - q) in * by ring.
  assert (e * (Phi (b - q) - Phi (x - q) + (Phi (- x - q) - Phi (a - q))) <= e * (2 * (1 - Phi (x - Q)))) by (apply Rmult_le_compat_l; lra). lra.
Qed.
Lemma tl_small e Q eps : 0 <= e -> 0 < eps -> exists x, 0 <= x /\ tl e Q x < eps /\ 0 <= tl e Q x.
Proof.
  intros He Hp. destruct (Phi_near_1 (eps / (2 * (1 + e))) ltac:(apply Rdiv_lt_0_compat; lra)) as (M & HM).
  set (x := Rmax 0 (M + Q + 1)). exists x. pose proof (Rmax_l 0 (M + Q + 1)). pose proof (Rmax_r 0 (M + Q + 1)). split; [exact H|]. specialize (HM (x - Q) ltac:(unfold x; lra)).
  unfold tl. pose proof (Phi_lt_1 (x - Q)). split; [|apply Rmult_le_pos; lra].
  apply Rmult_lt_reg_r with (/ (2 * (1 + e))); [apply Rinv_0_lt_compat; lra|]. replace (2 * (1 + e) * (1 - Phi (x - Q)) * / (2 * (1 + e))) with (1 - Phi (x - Q)) by (field; lra). unfold Rdiv in HM. lra.
Qed.

(** the mean as a function: the limit of the integrals over [-n, n] *)
Definition Tm (f : R -> R) : R := real (Lim_seq (fun n => RInt (fun z => f z * npdf z) (- INR n) (INR n))).
Lemma RInt_split f a x y b : cont f -> RInt (fun z => f z * npdf z) a b = RInt (fun z => f z * npdf z) a x + RInt (fun z => f z * npdf z) x y + RInt (fun z => f z * npdf z) y b.
Proof.
  intro H. pose proof (cont_npdf f H) as H'. rewrite <- (RInt_Chasles (V := R_CompleteNormedModule) (fun z => f z * npdf z) a y b) by now apply cont_int.
  rewrite <- (RInt_Chasles (V := R_CompleteNormedModule) (fun z => f z * npdf z) a x y) by now apply cont_int. reflexivity.
Qed.
Lemma int_close f c e q Q x a b : 0 <= c -> 0 <= e -> Rabs q <= Q -> cont f -> dom c e q f -> 0 <= x -> a <= - x -> x <= b ->
  Rabs (RInt (fun z => f z * npdf z) a b - RInt (fun z => f z * npdf z) (- x) x) <= c * tl e Q x.
Proof.
  intros Hc He Hq Hf Hd Hx Ha Hb. rewrite (RInt_split f a (- x) x b Hf).
  pose proof (int_dom f c e q a (- x) Hf Hd Ha). pose proof (int_dom f c e q x b Hf Hd Hb).
  replace (_ + _ + _ - _) with (RInt (fun z => f z * npdf z) a (- x) + RInt (fun z => f z * npdf z) x b) by ring.
  eapply Rle_trans; [apply Rabs_triang|]. pose proof (dW_tails e q Q a x b He Hq Hx Ha Hb).
  apply Rle_trans with (c * (dW e q b - dW e q x + (dW e q (- x) - dW e q a))); [lra|]. apply Rmult_le_compat_l; assumption.
Qed.
Lemma tri2 a b u k l : Rabs (a - u) <= k -> Rabs (b - u) <= l -> Rabs (a - b) <= k + l.
Proof. intros H1 H2. replace (a - b) with ((a - u) - (b - u)) by ring. eapply Rle_trans; [apply Rabs_triang|]. rewrite Rabs_Ropp. lra. Qed.
Lemma tri1 a u k l : Rabs (a - u) <= k -> Rabs u <= l -> Rabs a <= k + l.
Proof. intros H1 H2. replace a with ((a - u) + u) by ring. eapply Rle_trans; [apply Rabs_triang|]. lra. Qed.
Lemma Tm_lim f c e q : 0 <= c -> 0 <= e -> cont f -> dom c e q f -> is_lim_seq (fun n => RInt (fun z => f z * npdf z) (- INR n) (INR n)) (Tm f).
Proof.
  intros Hc He Hf Hd. apply Lim_seq_correct'. apply ex_lim_seq_cauchy_corr. intros [eps Hp]. cbn.
  destruct (tl_small e (Rabs q) (eps / (4 * (c + 1))) He ltac:(apply Rdiv_lt_0_compat; lra)) as (x & Hx & Ht & Ht0).
  destruct (nfloor_ex x Hx) as (N & HN). exists (S N). intros n m Hn Hm. apply le_INR in Hn, Hm. rewrite S_INR in Hn, Hm.
  pose proof (int_close f c e q _ x (- INR n) (INR n) Hc He (Rle_refl _) Hf Hd Hx ltac:(lra) ltac:(lra)) as C1.
  pose proof (int_close f c e q _ x (- INR m) (INR m) Hc He (Rle_refl _) Hf Hd Hx ltac:(lra) ltac:(lra)) as C2.
  assert (HE : c * tl e (Rabs q) x <= eps / 4).
  { apply Rle_trans with (c * (eps / (4 * (c + 1)))); [apply Rmult_le_compat_l; lra|]. replace (c * (eps / (4 * (c + 1)))) with (eps / 4 * (c / (c + 1))) by (field; lra).
    assert (c / (c + 1) <= 1) by (apply Rmult_le_reg_r with (c + 1); [lra|]; unfold Rdiv; rewrite Rmult_assoc, Rinv_l; lra). nra. }
  eapply Rle_lt_trans; [exact (tri2 _ _ _ _ _ C1 C2)|lra].
Qed.
Lemma Tm_close f c e q Q x : 0 <= c -> 0 <= e -> Rabs q <= Q -> cont f -> dom c e q f -> 0 <= x ->
  Rabs (Tm f - RInt (fun z => f z * npdf z) (- x) x) <= c * tl e Q x.
Proof.
  intros Hc He Hq Hf Hd Hx. assert (HL := Tm_lim f c e q Hc He Hf Hd). set (u := RInt (fun z => f z * npdf z) (- x) x).
  assert (HL2 : is_lim_seq (fun n => RInt (fun z => f z * npdf z) (- INR n) (INR n) - u) (Tm f - u)) by (apply is_lim_seq_minus'; [exact HL|apply is_lim_seq_const]).
  apply is_lim_seq_abs in HL2. cbn [Rbar_abs] in HL2.
  refine (is_lim_seq_le_loc _ (fun _ => c * tl e Q x) (Rabs (Tm f - u)) (c * tl e Q x) _ HL2 (is_lim_seq_const _)).
  destruct (nfloor_ex x Hx) as (N & HN). exists (S N). intros n Hn. apply le_INR in Hn. rewrite S_INR in Hn. apply (int_close f c e q Q x); lra || assumption.
Qed.
Lemma Tm_mean f c e q : 0 <= c -> 0 <= e -> cont f -> dom c e q f -> is_mean f (Tm f).
Proof.
  intros Hc He Hf Hd. apply is_mean_gint. intros eps Hp.
  destruct (tl_small e (Rabs q) (eps / (4 * (c + 1))) He ltac:(apply Rdiv_lt_0_compat; lra)) as (x & Hx & Ht & Ht0).
  exists x. intros a b Ha Hb. exists (RInt (fun z => f z * npdf z) a b). split; [apply (RInt_correct (V := R_CompleteNormedModule)); apply cont_int, cont_npdf, Hf|].
  pose proof (int_close f c e q _ x a b Hc He (Rle_refl _) Hf Hd Hx ltac:(lra) ltac:(lra)) as C1.
  pose proof (Tm_close f c e q _ x Hc He (Rle_refl _) Hf Hd Hx) as C2.
  assert (HE : c * tl e (Rabs q) x <= eps / 4).
  { apply Rle_trans with (c * (eps / (4 * (c + 1)))); [apply Rmult_le_compat_l; lra|]. replace (c * (eps / (4 * (c + 1)))) with (eps / 4 * (c / (c + 1))) by (field; lra).
    assert (c / (c + 1) <= 1) by (apply Rmult_le_reg_r with (c + 1); [lra|]; unfold Rdiv; rewrite Rmult_assoc, Rinv_l; lra). nra. }
  eapply Rle_lt_trans; [exact (tri2 _ _ _ _ _ C1 C2)|lra].
Qed.

Lemma gint_le f g v w : (forall z, f z <= g z) -> gint f v -> gint g w -> v <= w.
Proof.
  intros H H1 H2. apply le_epsilon. intros eps He. destruct (H1 (eps / 2) ltac:(lra)) as (M1 & X1). destruct (H2 (eps / 2) ltac:(lra)) as (M2 & X2).
  set (M := Rmax 0 (Rmax M1 M2)). pose proof (Rmax_l 0 (Rmax M1 M2)). pose proof (Rmax_r 0 (Rmax M1 M2)). pose proof (Rmax_l M1 M2). pose proof (Rmax_r M1 M2).
  destruct (X1 (- M - 1) (M + 1)) as (I1 & A1 & B1); [unfold M; lra|unfold M; lra|]. destruct (X2 (- M - 1) (M + 1)) as (I2 & A2 & B2); [unfold M; lra|unfold M; lra|].
  assert (I1 <= I2). { apply (is_RInt_le f g (- M - 1) (M + 1)); [unfold M; lra|exact A1|exact A2|intros; apply H]. }
  apply Rabs_def2 in B1, B2. lra.
Qed.
Lemma is_mean_le f g v w : (forall z, f z <= g z) -> is_mean f v -> is_mean g w -> v <= w.
Proof. rewrite !is_mean_gint. intro H. apply gint_le. intro z. pose proof (npdf_pos z). specialize (H z). nra. Qed.
Lemma is_expect_le n : forall f g v w, (forall zs, length zs = n -> f zs <= g zs) -> is_expect n f v -> is_expect n g w -> v <= w.
Proof.
  induction n as [|n IH]; cbn; intros f g v w H.
  - intros <- <-. now apply H.
  - intros (h & H1 & H2) (k & K1 & K2). eapply is_mean_le; [|exact H2|exact K2]. intro z. eapply IH; [|apply H1|apply K1]. intros zs Hz. apply H. cbn. now rewrite Hz.
Qed.

(** ** small on a window, dominated outside: small mean *)
Lemma mean_exp e q : is_mean (fun z => 1 + e * exp (q * z - q ^ 2 / 2)) (1 + e).
Proof.
  apply is_mean_gint. evar_last; [apply (gint_der (dW e q) _ 0 (1 + e))|ring].
  - apply dW_derive.
  - apply cont_exp_dom.
  - intros eps He. destruct (Phi_near_1 (eps / (1 + Rabs e)) ltac:(apply Rdiv_lt_0_compat; [lra|generalize (Rabs_pos e); lra])) as (M & HM).
    set (d := eps / (1 + Rabs e)) in *. assert (Hd : d * (1 + Rabs e) = eps) by (unfold d; field; generalize (Rabs_pos e); lra).
    exists (Rmax 0 M + Rabs q). intros x Hx. pose proof (Rmax_l 0 M). pose proof (Rmax_r 0 M). pose proof (Rle_abs q). pose proof (Rle_abs (- q)) as Hq2. rewrite Rabs_Ropp in Hq2.
    assert (A1 : Rabs (Phi x - 1) < d) by (specialize (HM x ltac:(lra)); pose proof (Phi_lt_1 x); apply Rabs_def1; lra).
    assert (A2 : Rabs (Phi (x - q) - 1) < d) by (specialize (HM (x - q) ltac:(lra)); pose proof (Phi_lt_1 (x - q)); apply Rabs_def1; lra).
    assert (A3 : Rabs (Phi (- x)) < d) by (specialize (HM x ltac:(lra)); pose proof (Phi_gt_0 (- x)); rewrite Phi_opp in *; apply Rabs_def1; lra).
    assert (A4 : Rabs (Phi (- x - q)) < d) by (specialize (HM (x + q) ltac:(lra)); pose proof (Phi_gt_0 (- x - q)); replace (- x - q) with (- (x + q)) in * by ring; rewrite Phi_opp in *; apply Rabs_def1; lra).
    unfold dW. split.
    + replace (_ - _) with ((Phi x - 1) + e * (Phi (x - q) - 1)) by ring. eapply Rle_lt_trans; [apply Rabs_triang|]. rewrite Rabs_mult.
      assert (Rabs e * Rabs (Phi (x - q) - 1) <= Rabs e * d) by (apply Rmult_le_compat_l; [apply Rabs_pos|lra]). lra.
    + rewrite Rminus_0_r. eapply Rle_lt_trans; [apply Rabs_triang|]. rewrite Rabs_mult.
      assert (Rabs e * Rabs (Phi (- x - q)) <= Rabs e * d) by (apply Rmult_le_compat_l; [apply Rabs_pos|lra]). lra.
Qed.
Lemma Tm_dom f c e q : 0 <= c -> 0 <= e -> cont f -> dom c e q f -> Rabs (Tm f) <= c * (1 + e).
Proof.
  intros Hc He Hf Hd. assert (HM := Tm_mean f c e q Hc He Hf Hd). assert (HE := mean_exp e q).
  assert (H1 := is_mean_lin _ _ _ _ c 0 HE HE). assert (H2 := is_mean_lin _ _ _ _ (- c) 0 HE HE). cbn beta in *.
  apply Rabs_le. split.
  - apply Rle_trans with (- c * (1 + e) + 0 * (1 + e)); [lra|]. refine (is_mean_le _ _ _ _ _ H2 HM).
    intro z. specialize (Hd z). apply Rabs_le_between in Hd. lra.
  - apply Rle_trans with (c * (1 + e) + 0 * (1 + e)); [|lra]. refine (is_mean_le _ _ _ _ _ HM H1).
    intro z. specialize (Hd z). apply Rabs_le_between in Hd. lra.
Qed.
(** a window that works for all functions with the same domination *)
Lemma Tm_small c e Q eps : 0 <= c -> 0 <= e -> 0 < eps -> exists x, 0 <= x /\
  forall f q e', 0 <= e' <= e -> Rabs q <= Q -> cont f -> dom c e' q f -> (forall z, Rabs z <= x -> Rabs (f z) <= eps / 2) -> Rabs (Tm f) <= eps.
Proof.
  intros Hc He Hp. destruct (tl_small e Q (eps / (2 * (c + 1))) He ltac:(apply Rdiv_lt_0_compat; lra)) as (x & Hx & Ht & Ht0).
  exists x. split; [exact Hx|]. intros f q e' He' Hq Hf Hd Hw. assert (Hd' : dom c e q f).
  { intro z. eapply Rle_trans; [apply Hd|]. apply Rmult_le_compat_l; [exact Hc|]. generalize (exp_pos (q * z - q ^ 2 / 2)). intros. nra. }
  pose proof (Tm_close f c e q Q x Hc He Hq Hf Hd' Hx) as C2.
  assert (HE : c * tl e Q x <= eps / 2).
  { apply Rle_trans with (c * (eps / (2 * (c + 1)))); [apply Rmult_le_compat_l; lra|]. replace (c * (eps / (2 * (c + 1)))) with (eps / 2 * (c / (c + 1))) by (field; lra).
    assert (c / (c + 1) <= 1) by (apply Rmult_le_reg_r with (c + 1); [lra|]; unfold Rdiv; rewrite Rmult_assoc, Rinv_l; lra). nra. }
  assert (HI : Rabs (RInt (fun z => f z * npdf z) (- x) x) <= eps / 2).
  { eapply Rle_trans; [apply abs_RInt_le; [lra|apply cont_int, cont_npdf, Hf]|].
    assert (HN : is_RInt (fun z => eps / 2 * npdf z) (- x) x (eps / 2 * (Phi x - Phi (- x)))).
    { apply (is_RInt_scal (V := R_NormedModule)). apply (is_RInt_derive (V := R_CompleteNormedModule) Phi); intros; [apply Phi_derive|apply npdf_cont]. }
    apply Rle_trans with (eps / 2 * (Phi x - Phi (- x))).
    - rewrite <- (is_RInt_unique (V := R_CompleteNormedModule) _ _ _ _ HN). apply RInt_le; [lra| |eexists; exact HN|].
      + apply cont_int. intro z. apply (continuous_comp (fun z => f z * npdf z) Rabs); [apply cont_npdf, Hf|apply (continuous_abs (K := R_AbsRing))].
      + intros z Hz. rewrite Rabs_mult, (Rabs_pos_eq (npdf z)) by (generalize (npdf_pos z); lra). pose proof (npdf_pos z). apply Rmult_le_compat_r; [lra|]. apply Hw. apply Rabs_le. lra.
    - pose proof (Phi_lt_1 x). pose proof (Phi_gt_0 (- x)). nra. }
  eapply Rle_trans; [exact (tri1 _ _ _ _ C2 HI)|lra].
Qed.
Lemma int_small f x d : 0 <= x -> 0 <= d -> cont f -> (forall z, Rabs z <= x -> Rabs (f z) <= d) -> Rabs (RInt (fun z => f z * npdf z) (- x) x) <= d.
Proof.
  intros Hx Hd Hf Hw. eapply Rle_trans; [apply abs_RInt_le; [lra|apply cont_int, cont_npdf, Hf]|].
  assert (HN : is_RInt (fun z => d * npdf z) (- x) x (d * (Phi x - Phi (- x)))).
  { apply (is_RInt_scal (V := R_NormedModule)). apply (is_RInt_derive (V := R_CompleteNormedModule) Phi); intros; [apply Phi_derive|apply npdf_cont]. }
  apply Rle_trans with (d * (Phi x - Phi (- x))).
  - rewrite <- (is_RInt_unique (V := R_CompleteNormedModule) _ _ _ _ HN). apply RInt_le; [lra| |eexists; exact HN|].
    + apply cont_int. intro z. apply (continuous_comp (fun z => f z * npdf z) Rabs); [apply cont_npdf, Hf|apply (continuous_abs (K := R_AbsRing))].
    + intros z Hz. rewrite Rabs_mult, (Rabs_pos_eq (npdf z)) by (generalize (npdf_pos z); lra). pose proof (npdf_pos z). apply Rmult_le_compat_r; [lra|]. apply Hw. apply Rabs_le. lra.
  - pose proof (Phi_lt_1 x). pose proof (Phi_gt_0 (- x)). nra.
Qed.
Lemma cont_minus f g : cont f -> cont g -> cont (fun z => f z - g z).
Proof. intros H1 H2 z. apply (continuous_minus (K := R_AbsRing) (V := R_NormedModule) f g); [apply H1|apply H2]. Qed.
Lemma tri3 a b u v k l m : Rabs (a - u) <= k -> Rabs (b - v) <= l -> Rabs (u - v) <= m -> Rabs (a - b) <= k + l + m.
Proof. intros H1 H2 H3. replace (a - b) with ((a - u) - (b - v) + (u - v)) by ring. eapply Rle_trans; [apply Rabs_triang|]. eapply Rle_trans; [apply Rplus_le_compat_r, Rabs_triang|]. rewrite Rabs_Ropp. lra. Qed.
Lemma Tm_near c e Q eps : 0 <= c -> 0 <= e -> 0 < eps -> exists x, 0 <= x /\
  forall f f' q q' e1 e2, 0 <= e1 <= e -> 0 <= e2 <= e -> Rabs q <= Q -> Rabs q' <= Q -> cont f -> cont f' -> dom c e1 q f -> dom c e2 q' f' ->
    (forall z, Rabs z <= x -> Rabs (f z - f' z) <= eps / 2) -> Rabs (Tm f - Tm f') <= eps.
Proof.
  intros Hc He Hp. destruct (tl_small e Q (eps / (4 * (c + 1))) He ltac:(apply Rdiv_lt_0_compat; lra)) as (x & Hx & Ht & Ht0).
  exists x. split; [exact Hx|]. intros f f' q q' e1 e2 He1 He2 Hq Hq' Hf Hf' Hd Hd' Hw.
  assert (Hup : forall f q e1, 0 <= e1 <= e -> dom c e1 q f -> dom c e q f).
  { intros k p e3 He3 Hk z. eapply Rle_trans; [apply Hk|]. apply Rmult_le_compat_l; [exact Hc|]. generalize (exp_pos (p * z - p ^ 2 / 2)). intros. nra. }
  pose proof (Tm_close f c e q Q x Hc He Hq Hf (Hup _ _ _ He1 Hd) Hx) as C1. pose proof (Tm_close f' c e q' Q x Hc He Hq' Hf' (Hup _ _ _ He2 Hd') Hx) as C2.
  assert (HE : c * tl e Q x <= eps / 4).
  { apply Rle_trans with (c * (eps / (4 * (c + 1)))); [apply Rmult_le_compat_l; lra|]. replace (c * (eps / (4 * (c + 1)))) with (eps / 4 * (c / (c + 1))) by (field; lra).
    assert (c / (c + 1) <= 1) by (apply Rmult_le_reg_r with (c + 1); [lra|]; unfold Rdiv; rewrite Rmult_assoc, Rinv_l; lra). nra. }
  pose proof (int_small _ x (eps / 2) Hx ltac:(lra) (cont_minus _ _ Hf Hf') Hw) as C3.
  assert (C4 : Rabs (RInt (fun z => f z * npdf z) (- x) x - RInt (fun z => f' z * npdf z) (- x) x) <= eps / 2).
  { assert (EI : RInt (fun z => (f z - f' z) * npdf z) (- x) x = RInt (fun z => f z * npdf z) (- x) x - RInt (fun z => f' z * npdf z) (- x) x).
    { apply (is_RInt_unique (V := R_CompleteNormedModule)). apply is_RInt_ext with (f := fun z => minus (f z * npdf z) (f' z * npdf z)).
      - intros z _. unfold minus, plus, opp; cbn. ring.
      - apply (is_RInt_minus (V := R_NormedModule)); apply (RInt_correct (V := R_CompleteNormedModule)), cont_int, cont_npdf; assumption. }
    rewrite <- EI. exact C3. }
  eapply Rle_trans; [exact (tri3 _ _ _ _ _ _ _ C1 C2 C4)|lra].
Qed.
Lemma Tm_ext f g : (forall z, f z = g z) -> Tm f = Tm g.
Proof. intro H. unfold Tm. f_equal. apply Lim_seq_ext. intro n. apply (RInt_ext (V := R_CompleteNormedModule)). intros z _. now rewrite H. Qed.

(* ------------------------------------------------------------------ *)
(** * One day of the process acting on functions of (log price, standard deviation) *)
Section Day.
Variables r omega alpha beta g : R.
Definition sy (y q z : R) : R := y + (r - q ^ 2 / 2 + q * z).
Definition sq (q z : R) : R := sqrt (omega + alpha * (z - g * q) ^ 2 + beta * q ^ 2).
Definition TT (G : R -> R -> R) (y q : R) : R := Tm (fun z => G (sy y q z) (sq q z)).
(** continuous and of linear growth in the price *)
Definition cls (c : R) (G : R -> R -> R) : Prop := 0 <= c /\ (forall y q, continuity_2d_pt G y q) /\ forall y q, Rabs (G y q) <= c * (1 + exp y).

Lemma cls_cont c G y q : cls c G -> cont (fun z => G (sy y q z) (sq q z)).
Proof.
  intros (_ & H & _) z. apply (continuous_comp_2 (fun z => sy y q z) (fun z => sq q z) G).
  - apply (ex_derive_continuous (V := R_NormedModule)). unfold sy. auto_derive. exact Coq.Init.Logic.I.
  - apply (continuous_comp (fun z => omega + alpha * (z - g * q) ^ 2 + beta * q ^ 2) sqrt); [|apply continuous_sqrt].
    apply (ex_derive_continuous (V := R_NormedModule)). auto_derive. exact Coq.Init.Logic.I.
  - apply continuity_2d_pt_filterlim. apply H.
Qed.
Lemma cls_dom c G y q : cls c G -> dom c (exp (y + r)) q (fun z => G (sy y q z) (sq q z)).
Proof. intros (_ & _ & H) z. eapply Rle_trans; [apply H|]. rewrite <- exp_plus. unfold sy. apply Req_le. do 3 f_equal. ring. Qed.
Lemma TT_mean c G y q : cls c G -> is_mean (fun z => G (sy y q z) (sq q z)) (TT G y q).
Proof. intro H. apply (Tm_mean _ c (exp (y + r)) q); [apply H|left; apply exp_pos|eapply cls_cont, H|apply cls_dom, H]. Qed.
Lemma TT_bound c G y q : cls c G -> Rabs (TT G y q) <= c * (1 + exp (y + r)).
Proof. intro H. apply (Tm_dom _ c (exp (y + r)) q); [apply H|left; apply exp_pos|eapply cls_cont, H|apply cls_dom, H]. Qed.

Definition By (Y Q x : R) : R := Y + Rabs r + Q ^ 2 / 2 + Q * x.
Definition Bq (Q x : R) : R := sqrt (Rabs omega + Rabs alpha * (x + Rabs g * Q) ^ 2 + Rabs beta * Q ^ 2).
Lemma state_box Y Q x y q z : Rabs y <= Y -> Rabs q <= Q -> Rabs z <= x -> Rabs (sy y q z) <= By Y Q x /\ 0 <= sq q z <= Bq Q x.
Proof.
  intros Hy Hq Hz. pose proof (Rabs_pos q). pose proof (Rabs_pos z). assert (Hqq : q ^ 2 <= Q ^ 2) by (rewrite <- (pow2_abs q); apply pow_incr; lra). split.
  - unfold sy, By. eapply Rle_trans; [apply Rabs_triang|]. eapply Rle_trans; [apply Rplus_le_compat_l, Rabs_triang|].
    assert (Rabs (q * z) <= Q * x) by (rewrite Rabs_mult; apply Rmult_le_compat; lra).
    assert (Rabs (r - q ^ 2 / 2) <= Rabs r + Q ^ 2 / 2). { eapply Rle_trans; [apply Rabs_triang|]. rewrite Rabs_Ropp, (Rabs_pos_eq (q ^ 2 / 2)) by nra. lra. } lra.
  - unfold sq, Bq. split; [apply sqrt_pos|]. apply sqrt_le_1_alt.
    assert (Rabs (z - g * q) <= x + Rabs g * Q). { eapply Rle_trans; [apply Rabs_triang|]. rewrite Rabs_Ropp, Rabs_mult. pose proof (Rabs_pos g). assert (Rabs g * Rabs q <= Rabs g * Q) by (apply Rmult_le_compat_l; lra). lra. }
    assert (H3 : (z - g * q) ^ 2 <= (x + Rabs g * Q) ^ 2) by (rewrite <- (pow2_abs (z - g * q)); apply pow_incr; split; [apply Rabs_pos|assumption]).
    assert (alpha * (z - g * q) ^ 2 <= Rabs alpha * (x + Rabs g * Q) ^ 2). { apply Rle_trans with (Rabs alpha * (z - g * q) ^ 2); [apply Rmult_le_compat_r; [apply pow2_ge_0|apply Rle_abs]|apply Rmult_le_compat_l; [apply Rabs_pos|exact H3]]. }
    assert (beta * q ^ 2 <= Rabs beta * Q ^ 2). { apply Rle_trans with (Rabs beta * q ^ 2); [apply Rmult_le_compat_r; [apply pow2_ge_0|apply Rle_abs]|apply Rmult_le_compat_l; [apply Rabs_pos|exact Hqq]]. }
    pose proof (Rle_abs omega). lra.
Qed.
Lemma sqrt_near u v : Rabs (sqrt u - sqrt v) <= sqrt (Rabs (u - v)).
Proof.
  assert (W : forall u v, u <= v -> sqrt v - sqrt u <= sqrt (v - u)).
  { clear. intros u v H. destruct (Rle_dec 0 u) as [Hu|Hu].
    - apply Rsqr_incr_0_var; [|apply sqrt_pos]. unfold Rsqr. rewrite (sqrt_sqrt (v - u)) by lra.
      pose proof (sqrt_sqrt u Hu) as S1. pose proof (sqrt_sqrt v ltac:(lra)) as S2. pose proof (sqrt_pos u). pose proof (sqrt_le_1_alt u v H). nra.
    - rewrite (sqrt_neg_0 u) by lra. rewrite Rminus_0_r. apply sqrt_le_1_alt. lra. }
  destruct (Rle_dec u v) as [H|H].
  - rewrite (Rabs_left1 (u - v)) by lra. pose proof (sqrt_le_1_alt u v H). rewrite Rabs_left1 by lra. replace (- (u - v)) with (v - u) by ring. specialize (W u v H). lra.
  - rewrite (Rabs_pos_eq (u - v)) by lra. pose proof (sqrt_le_1_alt v u ltac:(lra)). rewrite Rabs_pos_eq by lra. apply W. lra.
Qed.
Definition Lq (Q x : R) : R := Rabs (alpha * g) * (2 * x + Rabs g * (2 * Q)) + Rabs beta * (2 * Q).
Lemma state_near Q x y q y0 q0 z : Rabs q <= Q -> Rabs q0 <= Q -> Rabs z <= x ->
  Rabs (sy y q z - sy y0 q0 z) <= Rabs (y - y0) + Rabs (q - q0) * (x + Q) /\ Rabs (sq q z - sq q0 z) <= sqrt (Rabs (q - q0) * Lq Q x).
Proof.
  intros Hq Hq0 Hz. pose proof (Rabs_pos (q - q0)). assert (Hs : Rabs (q + q0) <= 2 * Q) by (eapply Rle_trans; [apply Rabs_triang|lra]). split.
  - unfold sy. replace (_ - _) with ((y - y0) + (q - q0) * (z - (q + q0) / 2)) by field. eapply Rle_trans; [apply Rabs_triang|]. rewrite Rabs_mult.
    assert (Rabs (z - (q + q0) / 2) <= x + Q). { eapply Rle_trans; [apply Rabs_triang|]. rewrite Rabs_Ropp. unfold Rdiv. rewrite Rabs_mult, (Rabs_pos_eq (/ 2)) by lra. lra. }
    assert (Rabs (q - q0) * Rabs (z - (q + q0) / 2) <= Rabs (q - q0) * (x + Q)) by (apply Rmult_le_compat_l; lra). lra.
  - unfold sq. eapply Rle_trans; [apply sqrt_near|]. apply sqrt_le_1_alt.
    replace (_ - _) with ((q - q0) * (- (alpha * g) * (2 * z - g * (q + q0)) + beta * (q + q0))) by ring. rewrite Rabs_mult. apply Rmult_le_compat_l; [assumption|].
    unfold Lq. eapply Rle_trans; [apply Rabs_triang|]. rewrite !Rabs_mult, Rabs_Ropp, Rabs_mult.
    assert (Rabs (2 * z - g * (q + q0)) <= 2 * x + Rabs g * (2 * Q)). { eapply Rle_trans; [apply Rabs_triang|]. rewrite Rabs_Ropp, !Rabs_mult, (Rabs_pos_eq 2) by lra. assert (Rabs g * Rabs (q + q0) <= Rabs g * (2 * Q)) by (apply Rmult_le_compat_l; [apply Rabs_pos|lra]). lra. }
    assert (Rabs beta * Rabs (q + q0) <= Rabs beta * (2 * Q)) by (apply Rmult_le_compat_l; [apply Rabs_pos|lra]).
    assert (Rabs alpha * Rabs g * Rabs (2 * z - g * (q + q0)) <= Rabs alpha * Rabs g * (2 * x + Rabs g * (2 * Q))) by (apply Rmult_le_compat_l; [apply Rmult_le_pos; apply Rabs_pos|assumption]). lra.
Qed.
Lemma Lq_pos Q x : 0 <= Q -> 0 <= x -> 0 <= Lq Q x.
Proof. intros. unfold Lq. pose proof (Rabs_pos (alpha * g)). pose proof (Rabs_pos g). pose proof (Rabs_pos beta). assert (0 <= Rabs g * (2 * Q)) by nra. nra. Qed.

Lemma TT_cont c G y0 q0 : cls c G -> continuity_2d_pt (TT G) y0 q0.
Proof.
  intros HG [eps He]. cbn. set (Y := Rabs y0 + 1). set (Q := Rabs q0 + 1). set (e := exp (Y + r)).
  pose proof (Rabs_pos y0). pose proof (Rabs_pos q0).
  assert (Hc : 0 <= c) by apply HG. assert (Hee : 0 <= e) by (left; apply exp_pos).
  destruct (Tm_near c e Q (eps / 2) Hc Hee ltac:(lra)) as (x & Hx & HT).
  set (yb := By Y Q x). set (qb := Bq Q x).
  destruct (uniform_continuity_2d G (- yb) yb 0 qb (fun y q _ _ => proj1 (proj2 HG) y q) (mkposreal (eps / 4) ltac:(lra))) as ([d Hd] & HU). cbn in HU.
  set (L := Lq Q x + 1). assert (HL : 0 < L) by (unfold L; generalize (Lq_pos Q x ltac:(unfold Q; lra) Hx); lra).
  set (dd := Rmin 1 (Rmin (d / (2 * (1 + x + Q))) (d ^ 2 / (2 * L)))).
  assert (HxQ : 0 < 1 + x + Q) by (unfold Q; lra).
  assert (Hdd : 0 < dd). { unfold dd. repeat apply Rmin_pos; [lra|apply Rdiv_lt_0_compat; lra|apply Rdiv_lt_0_compat; nra]. }
  exists (mkposreal dd Hdd). cbn. intros y q Hy Hq.
  assert (H1 : dd <= 1) by apply Rmin_l. assert (H2 : dd <= d / (2 * (1 + x + Q))) by (eapply Rle_trans; [apply Rmin_r|apply Rmin_l]).
  assert (H3 : dd <= d ^ 2 / (2 * L)) by (eapply Rle_trans; [apply Rmin_r|apply Rmin_r]).
  assert (Hy1 : Rabs y <= Y) by (unfold Y; replace y with ((y - y0) + y0) by ring; eapply Rle_trans; [apply Rabs_triang|lra]).
  assert (Hq1 : Rabs q <= Q) by (unfold Q; replace q with ((q - q0) + q0) by ring; eapply Rle_trans; [apply Rabs_triang|lra]).
  assert (Hy2 : Rabs y0 <= Y) by (unfold Y; lra). assert (Hq2 : Rabs q0 <= Q) by (unfold Q; lra).
  apply Rle_lt_trans with (eps / 2); [|lra].
  assert (Hexp : forall y, Rabs y <= Y -> 0 <= exp (y + r) <= e).
  { intros y1 Hy3. split; [left; apply exp_pos|]. unfold e. apply Rabs_le_between in Hy3. destruct (Req_dec y1 Y) as [->|Hne]; [lra|]. left. apply exp_increasing. lra. }
  unfold TT. apply (HT (fun z => G (sy y q z) (sq q z)) (fun z => G (sy y0 q0 z) (sq q0 z)) q q0 (exp (y + r)) (exp (y0 + r)));
    [now apply Hexp|now apply Hexp|exact Hq1|exact Hq2|eapply cls_cont, HG|eapply cls_cont, HG|apply cls_dom, HG|apply cls_dom, HG|].
  intros z Hz. destruct (state_box Y Q x y q z Hy1 Hq1 Hz) as [B1 B2]. destruct (state_box Y Q x y0 q0 z Hy2 Hq2 Hz) as [B3 B4].
  destruct (state_near Q x y q y0 q0 z Hq1 Hq2 Hz) as [N1 N2].
  apply Rabs_le_between in B1, B3. replace (eps / 2 / 2) with (eps / 4) by field. left. apply HU; try (unfold yb, qb; lra).
  - eapply Rle_lt_trans; [exact N1|]. assert (Rabs (q - q0) * (x + Q) <= dd * (x + Q)) by (apply Rmult_le_compat_r; unfold Q in *; lra).
    apply Rle_lt_trans with (dd * (1 + x + Q)); [lra|]. apply Rle_lt_trans with (d / (2 * (1 + x + Q)) * (1 + x + Q)); [apply Rmult_le_compat_r; lra|].
    replace (d / (2 * (1 + x + Q)) * (1 + x + Q)) with (d / 2) by (field; lra). lra.
  - eapply Rle_lt_trans; [exact N2|]. rewrite <- (sqrt_pow2 d) by lra. apply sqrt_lt_1_alt. split; [apply Rmult_le_pos; [apply Rabs_pos|apply Lq_pos; unfold Q; lra]|].
    apply Rle_lt_trans with (dd * L). { apply Rmult_le_compat; [apply Rabs_pos|apply Lq_pos; unfold Q; lra|lra|unfold L; lra]. }
    apply Rle_lt_trans with (d ^ 2 / (2 * L) * L); [apply Rmult_le_compat_r; lra|]. replace (d ^ 2 / (2 * L) * L) with (d ^ 2 / 2) by (field; lra). nra.
Qed.
Lemma TT_cls c G : cls c G -> cls (c * (1 + exp r)) (TT G).
Proof.
  intro H. assert (Hc := proj1 H). pose proof (exp_pos r). split; [apply Rmult_le_pos; lra|]. split; [intros y q; eapply TT_cont, H|].
  intros y q. eapply Rle_trans; [apply TT_bound, H|]. rewrite exp_plus. pose proof (exp_pos y). rewrite Rmult_assoc. apply Rmult_le_compat_l; [exact Hc|]. nra.
Qed.
Fixpoint TN (n : nat) (G : R -> R -> R) : R -> R -> R := match n with O => G | Datatypes.S n' => TT (TN n' G) end.
Lemma TN_cls n c G : cls c G -> cls (c * (1 + exp r) ^ n) (TN n G).
Proof.
  intro H. induction n as [|n IH]; cbn [TN]; [now rewrite Rmult_1_r|]. apply TT_cls in IH. replace (c * (1 + exp r) ^ Datatypes.S n) with (c * (1 + exp r) ^ n * (1 + exp r)) by (cbn; ring). exact IH.
Qed.

(** ** the operator is linear *)
Lemma cls_lin c c' G H a b : cls c G -> cls c' H -> cls (Rabs a * c + Rabs b * c') (fun y q => a * G y q + b * H y q).
Proof.
  intros (G0 & G1 & G2) (H0 & H1 & H2). pose proof (Rabs_pos a). pose proof (Rabs_pos b). split; [nra|]. split.
  - intros y q. apply continuity_2d_pt_plus; apply continuity_2d_pt_mult; try apply continuity_2d_pt_const; auto.
  - intros y q. eapply Rle_trans; [apply Rabs_triang|]. rewrite !Rabs_mult. specialize (G2 y q). specialize (H2 y q).
    apply Rle_trans with (Rabs a * (c * (1 + exp y)) + Rabs b * (c' * (1 + exp y))); [|lra]. apply Rplus_le_compat; apply Rmult_le_compat_l; assumption.
Qed.
Lemma TT_lin c c' G H a b y q : cls c G -> cls c' H -> TT (fun y q => a * G y q + b * H y q) y q = a * TT G y q + b * TT H y q.
Proof.
  intros HG HH. assert (M := TT_mean _ _ y q (cls_lin c c' G H a b HG HH)). cbn beta in M. apply (is_mean_unique _ _ _ M).
  apply is_mean_lin; eapply TT_mean; eassumption.
Qed.
Lemma TT_ext G H y q : (forall y q, G y q = H y q) -> TT G y q = TT H y q.
Proof. intro E. apply Tm_ext. intro z. apply E. Qed.
Lemma TN_ext n G H : (forall y q, G y q = H y q) -> forall y q, TN n G y q = TN n H y q.
Proof. intro E. induction n as [|n IH]; cbn [TN]; [exact E|]. intros y q. now apply TT_ext. Qed.
Lemma TN_lin n c c' G H a b : cls c G -> cls c' H -> forall y q, TN n (fun y q => a * G y q + b * H y q) y q = a * TN n G y q + b * TN n H y q.
Proof.
  intros HG HH. induction n as [|n IH]; cbn [TN]; intros y q; [reflexivity|].
  rewrite (TT_ext _ _ y q IH). eapply TT_lin; eapply TN_cls; eassumption.
Qed.

(** ** and continuous: local uniform convergence to zero of a dominated family passes through *)
Definition vanish {I : Type} (F : (I -> Prop) -> Prop) (G : I -> R -> R -> R) : Prop :=
  forall B eps, 0 < eps -> F (fun i => forall y q, Rabs y <= B -> Rabs q <= B -> Rabs (G i y q) <= eps).
Lemma TT_vanish {I : Type} (F : (I -> Prop) -> Prop) (FF : Filter F) (G : I -> R -> R -> R) c : F (fun i => cls c (G i)) -> vanish F G -> vanish F (fun i => TT (G i)).
Proof.
  intros HC HV B eps He. destruct (Rle_lt_dec 0 c) as [Hc|Hc].
  2:{ generalize HC. apply filter_imp. intros i (H & _). lra. }
  destruct (Tm_small c (exp (B + r)) B eps Hc ltac:(left; apply exp_pos) He) as (x & Hx & HT).
  generalize (filter_and _ _ HC (HV (Rmax (By B B x) (Bq B x)) (eps / 2) ltac:(lra))). apply filter_imp. intros i [Hi Hs] y q Hy Hq.
  apply (HT _ q (exp (y + r))); [split; [left; apply exp_pos|]|exact Hq|eapply cls_cont, Hi|apply cls_dom, Hi|].
  - apply Rabs_le_between in Hy. destruct (Req_dec y B) as [->|Hne]; [lra|]. left. apply exp_increasing. lra.
  - intros z Hz. destruct (state_box B B x y q z Hy Hq Hz) as [B1 B2]. apply Hs; [eapply Rle_trans; [exact B1|apply Rmax_l]|]. rewrite Rabs_pos_eq by lra. eapply Rle_trans; [apply B2|apply Rmax_r].
Qed.
Lemma TN_vanish {I : Type} (F : (I -> Prop) -> Prop) (FF : Filter F) (G : I -> R -> R -> R) c n : F (fun i => cls c (G i)) -> vanish F G -> vanish F (fun i => TN n (G i)).
Proof.
  intros HC HV. induction n as [|n IH]; [exact HV|]. cbn [TN]. apply (TT_vanish F FF _ (c * (1 + exp r) ^ n)); [|exact IH].
  generalize HC. apply filter_imp. intros i. apply TN_cls.
Qed.
Lemma TN_lim {I : Type} (F : (I -> Prop) -> Prop) (FF : Filter F) (G : I -> R -> R -> R) c n y q : F (fun i => cls c (G i)) -> vanish F G -> filterlim (fun i => TN n (G i) y q) F (locally 0).
Proof.
  intros HC HV. apply filterlim_locally. intros [eps He]. generalize (TN_vanish F FF G c n HC HV (Rmax (Rabs y) (Rabs q)) (eps / 2) ltac:(lra)). apply filter_imp.
  intros i Hi. specialize (Hi y q (Rmax_l _ _) (Rmax_r _ _)). change (Rabs (TN n (G i) y q - 0) < eps). rewrite Rminus_0_r. lra.
Qed.

(** ** the operator computes means over the process *)
Lemma TN_expect n c (P : R -> R) : cls c (fun y _ => P y) -> 0 <= omega -> 0 <= alpha -> 0 <= beta -> forall h y, 0 <= h ->
  is_expect n (fun zs => P (y + lret omega alpha beta g r h zs)) (TN n (fun y _ => P y) y (sqrt h)).
Proof.
  intros HP Ho Ha Hb. induction n as [|n IH]; intros h y Hh.
  - cbn. f_equal. unfold lret, total. cbn. ring.
  - cbn [is_expect TN]. exists (fun z => TN n (fun y _ => P y) (sy y (sqrt h) z) (sq (sqrt h) z)). split; [|eapply TT_mean, TN_cls, HP].
    intro z. assert (E : sq (sqrt h) z = sqrt (hn_next omega alpha beta g h z)) by (unfold sq, hn_next; f_equal; rewrite (pow2_sqrt h Hh); ring). rewrite E.
    eapply is_expect_ext; [|apply IH; now apply (hn_next_nonneg omega alpha beta g Ha Hb Ho)]. intros zs _. cbn beta. f_equal.
    unfold lret, sy, total. cbn. rewrite Rmult_1_r, (sqrt_sqrt h Hh). field.
Qed.
End Day.
