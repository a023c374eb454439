(** Monte Carlo options: mean square error of the estimator, with and without antithetic innovations (C59). *)
From Coq Require Import Reals ZArith QArith Qreals List Bool Lra Lia.
From Coquelicot Require Import Coquelicot.
From Verif Require Import Num Py MBase MAmerican MMonte SMonte PCnd PCnd2 PGauss PMonte PMonte2 PMonte3 PMonte4.
From Verif Require Import MHeston PCplx PHnGauss SHeston PHeston PHeston2 PExpect PDirichlet PInversion PHnPrice PMonte5 PRgw2 PExpect2 SMonte2.
Import List ListNotations.
Open Scope R_scope.

(** ** Variance of an average of independent rows *)
Lemma is_matrix_expect_val len p f v w : is_matrix_expect p len f v -> v = w -> is_matrix_expect p len f w.
Proof. now intros H <-. Qed.
Lemma is_expect_val n f v w : is_expect n f v -> v = w -> is_expect n f w.
Proof. now intros H <-. Qed.
Lemma square_expect len f v q (Hf : is_expect len f v) (Hq : is_expect len (fun zs => f zs ^ 2) q) c p : forall a,
  is_matrix_expect p len (fun m => c * (a + total (map f m) - INR p * v) ^ 2) (c * (a ^ 2 + INR p * (q - v ^ 2))).
Proof.
  induction p as [|p IH]; intro a; [cbn; ring|]. exists (fun row => c * ((a + f row - v) ^ 2 + INR p * (q - v ^ 2))). split.
  - intros row Hr. eapply is_matrix_expect_ext; [|exact (IH (a + f row - v))]. intros m _ _. cbv beta. unfold total. cbn [map fold_right]. rewrite S_INR. ring.
  - assert (H1 := is_expect_lin _ _ _ _ _ c (2 * c * (a - v)) Hq Hf). assert (H2 := is_expect_lin _ _ _ _ _ 1 (c * ((a - v) ^ 2 + INR p * (q - v ^ 2))) H1 (is_expect_one len)).
    eapply is_expect_val; [eapply is_expect_ext; [|exact H2]|].
    + intros zs _. cbn beta. ring.
    + rewrite S_INR. ring.
Qed.
Lemma average_square len p f v q : (1 <= p)%nat -> is_expect len f v -> is_expect len (fun zs => f zs ^ 2) q ->
  is_matrix_expect p len (fun m => (average (map f m) - v) ^ 2) ((q - v ^ 2) / INR p).
Proof.
  intros Hp Hf Hq. assert (HI : INR p <> 0) by (apply not_0_INR; lia). assert (H := square_expect len f v q Hf Hq (/ INR p ^ 2) p 0).
  eapply is_matrix_expect_val; [eapply is_matrix_expect_ext; [|exact H]|].
  - intros m Hm _. cbv beta. unfold average. rewrite map_length, Hm. field. exact HI.
  - field. exact HI.
Qed.
Lemma is_matrix_expect_le len p : forall f g v w, (forall m, length m = p -> Forall (fun row => length row = len) m -> f m <= g m) ->
  is_matrix_expect p len f v -> is_matrix_expect p len g w -> v <= w.
Proof.
  induction p as [|p IH]; intros f g v w H.
  - cbn. intros <- <-. apply H; [reflexivity|constructor].
  - intros (h & H1 & H2) (k & K1 & K2). eapply is_expect_le; [|exact H2|exact K2]. intros zs Hz. eapply IH; [|apply H1; exact Hz|apply K1; exact Hz].
    intros m Hm HF. apply H; [cbn; now rewrite Hm|now constructor].
Qed.
Lemma is_matrix_expect_lin len p : forall f g v w a b, is_matrix_expect p len f v -> is_matrix_expect p len g w -> is_matrix_expect p len (fun m => a * f m + b * g m) (a * v + b * w).
Proof.
  induction p as [|p IH]; intros f g v w a b; [cbn; now intros <- <-|]. intros (h & H1 & H2) (k & K1 & K2). exists (fun row => a * h row + b * k row). split.
  - intros row Hr. exact (IH _ _ _ _ a b (H1 row Hr) (K1 row Hr)).
  - now apply is_expect_lin.
Qed.
(** Chebyshev's inequality *)
Lemma chebyshev len p f v w eps P : 0 < eps -> is_matrix_expect p len (fun m => (f m - v) ^ 2) w ->
  is_matrix_expect p len (fun m => if Rle_dec eps (Rabs (f m - v)) then 1 else 0) P -> P <= w / eps ^ 2.
Proof.
  intros He Hw HP. assert (H2 : 0 < eps ^ 2) by now apply pow_lt. assert (HL := is_matrix_expect_lin len p _ _ _ _ (/ eps ^ 2) 0 Hw Hw).
  replace (w / eps ^ 2) with (/ eps ^ 2 * w + 0 * w) by (field; lra). eapply is_matrix_expect_le; [|exact HP|exact HL]. intros m _ _. cbv beta.
  rewrite Rmult_0_l, Rplus_0_r. destruct (Rle_dec eps (Rabs (f m - v))) as [L|L].
  - apply Rmult_le_reg_l with (eps ^ 2); [exact H2|]. rewrite <- Rmult_assoc, Rinv_r, Rmult_1_l, Rmult_1_r by lra. rewrite <- (pow2_abs (f m - v)). apply pow_incr. lra.
  - apply Rmult_le_pos; [apply Rlt_le, Rinv_0_lt_compat; exact H2|apply pow2_ge_0].
Qed.

(** ** A nondecreasing and a nonincreasing function of the same independent innovations have covariance at most 0 *)
Lemma mean_indicator z0 : is_mean (fun z => if Rle_dec z0 z then 1 else 0) (Phi (- z0)).
Proof.
  apply is_mean_gint. replace (Phi (- z0)) with (0 + Phi (0 - z0)) by (rewrite Rplus_0_l; f_equal; ring). apply gint_join with z0.
  - intros eps He. exists z0. intros x Hx. exists 0. split; [|rewrite Rminus_0_r, Rabs_R0; exact He].
    eapply is_RInt_ext; [|evar_last; [apply (is_RInt_const (V := R_NormedModule) x z0 0)|apply Rmult_0_r]].
    intros y Hy. rewrite Rmin_left, Rmax_right in Hy by lra. destruct (Rle_dec z0 y); [lra|symmetry; apply Rmult_0_l].
  - eapply uint_ext; [|exact (uint_npdf z0 0)]. intros y Hy. cbv beta. replace (y - 0) with y by ring. destruct (Rle_dec z0 y); [ring|lra].
Qed.

Definition increasing (f : list R -> R) : Prop := forall zs zs', Forall2 Rle zs zs' -> f zs <= f zs'.
Lemma Forall2_refl_le l : Forall2 Rle l l.
Proof. induction l; constructor; auto with real. Qed.
(** one variable: [F] crosses its mean once *)
Lemma cross F mF : (forall x y, x <= y -> F x <= F y) -> is_mean F mF -> exists c, (forall z, z < c -> F z <= mF) /\ (forall z, c < z -> mF <= F z).
Proof.
  intros HF Hm.
  assert (A : exists z, F z <= mF).
  { apply Classical_Prop.NNPP. intro N. assert (N' : forall z, mF < F z) by (intro z; apply Rnot_le_lt; intro L; apply N; now exists z). 
    assert (H1 := is_mean_lin _ _ _ _ (F 0 - mF) mF (mean_indicator 0) mean_1). assert (Hp : 0 < Phi (- 0)) by apply Phi_gt_0.
    assert (L : (F 0 - mF) * Phi (- 0) + mF * 1 <= mF). { refine (is_mean_le _ _ _ _ _ H1 Hm). intro z. cbv beta. pose proof (N' z). pose proof (HF 0 z). destruct (Rle_dec 0 z) as [Q|Q]; [specialize (H0 Q); lra|lra]. }
    pose proof (N' 0). nra. }
  assert (B : exists z, mF <= F z).
  { apply Classical_Prop.NNPP. intro N. assert (N' : forall z, F z < mF) by (intro z; apply Rnot_le_lt; intro L; apply N; now exists z).
    assert (H1 := is_mean_lin _ _ _ _ (mF - F 0) (F 0) (mean_indicator 0) mean_1). assert (Hp : 0 < 1 - Phi (- 0)) by (pose proof (Phi_lt_1 (- 0)); lra).
    assert (L : mF <= (mF - F 0) * Phi (- 0) + F 0 * 1). { refine (is_mean_le _ _ _ _ _ Hm H1). intro z. cbv beta. pose proof (N' z). pose proof (HF z 0). destruct (Rle_dec 0 z) as [Q|Q]; [lra|]. assert (z <= 0) by lra. specialize (H0 H2). lra. }
    pose proof (N' 0). nra. }
  destruct A as (za & Ha). destruct B as (zb & Hb).
  destruct (Classical_Prop.classic (exists z, mF < F z)) as [(zt & Ht)|N].
  - destruct (completeness (fun z => F z <= mF)) as (c & Hc1 & Hc2).
    + exists zt. intros z Hz. cbv beta in Hz. apply Rnot_lt_le. intro L. pose proof (HF zt z ltac:(lra)). lra.
    + now exists za.
    + exists c. split; intros z Hz.
      * apply Rnot_lt_le. intro L. assert (c <= z) by (apply Hc2; intros y Hy; cbv beta in Hy; apply Rnot_lt_le; intro Q; pose proof (HF z y ltac:(lra)); lra). lra.
      * apply Rnot_lt_le. intro L. assert (z <= c) by (apply Hc1; cbv beta; lra). lra.
  - exists zb. split; intros z Hz; [apply Rnot_lt_le; intro L; apply N; now exists z|]. pose proof (HF zb z ltac:(lra)). lra.
Qed.
Lemma mean_cov F G h mF mG v : (forall x y, x <= y -> F x <= F y) -> (forall x y, x <= y -> G y <= G x) -> (forall z, h z <= F z * G z) ->
  is_mean F mF -> is_mean G mG -> is_mean h v -> v <= mF * mG.
Proof.
  intros HF HG Hh HmF HmG Hv. destruct (cross F mF HF HmF) as (c & C1 & C2).
  assert (H1 := is_mean_lin _ _ _ _ mF (G c) HmG HmF). assert (H2 := is_mean_lin _ _ _ _ 1 (- (mF * G c)) H1 mean_1).
  replace (mF * mG) with (1 * (mF * mG + G c * mF) + - (mF * G c) * 1) by ring. refine (is_mean_le _ _ _ _ _ Hv H2). intro z. cbv beta.
  apply Rle_trans with (F z * G z); [apply Hh|]. destruct (Rtotal_order z c) as [L|[->|L]].
  - pose proof (C1 z L). pose proof (HG z c ltac:(lra)). nra.
  - lra.
  - pose proof (C2 z L). pose proof (HG c z ltac:(lra)). nra.
Qed.
Lemma expect_cov n : forall F G h mF mG v, increasing F -> increasing (fun zs => - G zs) -> (forall zs, length zs = n -> h zs <= F zs * G zs) ->
  is_expect n F mF -> is_expect n G mG -> is_expect n h v -> v <= mF * mG.
Proof.
  induction n as [|n IH]; intros F G h mF mG v HF HG Hh; [cbn; intros <- <- <-; now apply Hh|]. intros (f & f1 & f2) (g & g1 & g2) (k & k1 & k2).
  apply (mean_cov f g k mF mG v); try assumption.
  - intros x y L. refine (is_expect_le n _ _ _ _ _ (f1 x) (f1 y)). intros zs _. apply HF. constructor; [exact L|apply Forall2_refl_le].
  - intros x y L. refine (is_expect_le n _ _ _ _ _ (g1 y) (g1 x)). intros zs _. cbv beta. apply Ropp_le_cancel. apply HG. constructor; [exact L|apply Forall2_refl_le].
  - intro z. apply (IH (fun zs => F (z :: zs)) (fun zs => G (z :: zs)) (fun zs => h (z :: zs))); try auto.
    + intros zs zs' L. apply HF. constructor; [lra|exact L].
    + intros zs zs' L. apply (HG (z :: zs) (z :: zs')). constructor; [lra|exact L].
    + intros zs Hz. apply Hh. cbn. now rewrite Hz.
Qed.

(** ** Antithetic innovations *)
Lemma increasing_mirror f : increasing f -> increasing (fun zs => - f (map Ropp zs)).
Proof. intros Hf zs zs' L. apply Ropp_le_contravar. apply Hf. induction L; cbn; constructor; auto. lra. Qed.
(** [u] is the mean of the product of the payoffs of a path and its mirror image *)
Lemma mirrored_square len p f v q u : (1 <= p)%nat -> increasing f -> is_expect len f v -> is_expect len (fun zs => f zs ^ 2) q -> is_expect len (fun zs => f zs * f (map Ropp zs)) u ->
  is_matrix_expect p len (fun m => (average (map f (mirrored m)) - v) ^ 2) ((q + u - 2 * v ^ 2) / (2 * INR p)) /\ u <= v ^ 2.
Proof.
  intros Hp Hi Hf Hq Hu. assert (HI : 0 < INR p) by (apply lt_0_INR; lia). split.
  - assert (H2 := is_expect_lin _ _ _ _ _ (/ 2) (/ 2) Hf (is_expect_neg _ _ _ Hf)). assert (Q := is_expect_lin _ _ _ _ _ (/ 4) (/ 4) Hq (is_expect_neg _ _ _ Hq)). 
    assert (Q2 := is_expect_lin _ _ _ _ _ 1 (/ 2) Q Hu). cbv beta in H2, Q2.
    eapply is_matrix_expect_val; [eapply is_matrix_expect_ext; [|eapply (average_square len p (fun x => (f x + f (map Ropp x)) / 2) v (/ 2 * q + / 2 * u) Hp)]|].
    + intros m Hm _. cbv beta. rewrite mirrored_average by (destruct m; [cbn in Hm; lia|discriminate]). reflexivity.
    + eapply is_expect_val; [eapply is_expect_ext; [|exact H2]|field]. intros zs _. cbv beta. field.
    + eapply is_expect_val; [eapply is_expect_ext; [|exact Q2]|field]. intros zs _. cbv beta. field.
    + field. lra.
  - replace (v ^ 2) with (v * v) by ring. apply (expect_cov len f (fun zs => f (map Ropp zs)) (fun zs => f zs * f (map Ropp zs)) v v u Hi (increasing_mirror f Hi)); try assumption.
    + intros; lra.
    + now apply is_expect_neg.
Qed.
Lemma mirrored_square_dec len p f v q u : (1 <= p)%nat -> increasing (fun zs => - f zs) -> is_expect len f v -> is_expect len (fun zs => f zs ^ 2) q -> is_expect len (fun zs => f zs * f (map Ropp zs)) u ->
  is_matrix_expect p len (fun m => (average (map f (mirrored m)) - v) ^ 2) ((q + u - 2 * v ^ 2) / (2 * INR p)) /\ u <= v ^ 2.
Proof.
  intros Hp Hi Hf Hq Hu. assert (HN := is_expect_lin _ _ _ _ _ (-1) 0 Hf Hf).
  destruct (mirrored_square len p (fun zs => - f zs) (- v) q u Hp Hi) as [A B].
  - eapply is_expect_val; [eapply is_expect_ext; [|exact HN]|ring]. intros zs _. cbv beta. ring.
  - eapply is_expect_ext; [|exact Hq]. intros zs _. cbv beta. ring.
  - eapply is_expect_ext; [|exact Hu]. intros zs _. cbv beta. ring.
  - split; [|replace (v ^ 2) with ((- v) ^ 2) by ring; exact B]. eapply is_matrix_expect_val; [eapply is_matrix_expect_ext; [|exact A]|f_equal; ring].
    intros m _ _. cbv beta. replace (average (map (fun zs => - f zs) (mirrored m))) with (- average (map f (mirrored m))); [ring|].
    unfold average. rewrite !map_length. replace (total (map (fun zs => - f zs) (mirrored m))) with (- total (map f (mirrored m))); [unfold Rdiv; ring|].
    clear. unfold total. induction (mirrored m) as [|x l IH]; cbn; [ring|]. rewrite <- IH. ring.
Qed.

(** ** Payoffs *)
Lemma F2_length {A B} (P : A -> B -> Prop) l l' : Forall2 P l l' -> length l = length l'.
Proof. induction 1; cbn; congruence. Qed.
Lemma total_mono zs zs' : Forall2 Rle zs zs' -> total zs <= total zs'.
Proof. unfold total. induction 1; cbn; lra. Qed.
Lemma firstn_mono zs zs' k : Forall2 Rle zs zs' -> Forall2 Rle (firstn k zs) (firstn k zs').
Proof. intro H. revert k. induction H; intros [|k]; cbn; constructor; auto. Qed.
Lemma gbm_mono S b s dt zs zs' : 0 < S -> 0 < s -> Forall2 Rle zs zs' -> gbm S b s dt zs <= gbm S b s dt zs'.
Proof.
  intros HS Hs H. unfold gbm. rewrite (F2_length _ _ _ H). apply Rmult_le_compat_l; [lra|]. apply exp_le. pose proof (total_mono _ _ H). pose proof (sqrt_pos dt). 
  apply Rplus_le_compat_l. apply Rmult_le_compat_l; [apply Rmult_le_pos; lra|assumption].
Qed.
Lemma underlying_mono asian S b s dt : 0 < S -> 0 < s -> increasing (underlying asian S b s dt).
Proof.
  intros HS Hs zs zs' H. destruct asian; cbn; [|now apply gbm_mono]. unfold gbm_average. rewrite (F2_length _ _ _ H). apply average_le. intros k _. apply gbm_mono; [exact HS|exact Hs|now apply firstn_mono].
Qed.
Lemma discounted_mono (call : bool) asian S K t r b s dt : 0 < S -> 0 < s ->
  if call then increasing (fun zs => discounted call K t r (underlying asian S b s dt zs)) else increasing (fun zs => - discounted call K t r (underlying asian S b s dt zs)).
Proof.
  intros HS Hs. assert (He := exp_pos (- r * t)). destruct call; intros zs zs' H; pose proof (underlying_mono asian S b s dt HS Hs zs zs' H) as L; unfold discounted.
  - apply Rmult_le_compat_l; [lra|]. apply Rle_max_compat_l. lra.
  - apply Ropp_le_contravar. apply Rmult_le_compat_l; [lra|]. apply Rle_max_compat_l. lra.
Qed.

(** ** The loops read the stream row by row *)
Lemma stream_draws len paths : forall loops M, length M = (loops * paths)%nat -> exists Es, draws (from_stream paths len) loops M = Ok (Es, []) /\ concat Es = M /\ Forall (fun E => length E = paths) Es /\ length Es = loops.
Proof.
  induction loops as [|l IH]; intros M HM.
  - cbn in HM. destruct M; [|discriminate]. exists []. now repeat split.
  - destruct (IH (skipn paths M)) as (Es & H1 & H2 & H3 & H4); [rewrite skipn_length, HM; cbn; lia|]. exists (firstn paths M :: Es). cbn [draws from_stream]. rewrite H1.
    repeat split; [cbn; now rewrite H2, firstn_skipn|constructor; [rewrite firstn_length, HM; cbn; lia|exact H3]|cbn; now rewrite H4].
Qed.
Lemma average_chunks {A} (f : A -> R) p Es : (1 <= p)%nat -> Forall (fun E => length E = p) Es -> average (map (fun E => average (map f E)) Es) = average (map f (concat Es)).
Proof.
  intros Hp HF. assert (HI : INR p <> 0) by (apply not_0_INR; lia). unfold average. rewrite !map_length. 
  assert (L : length (concat Es) = (length Es * p)%nat) by (induction HF; cbn; [reflexivity|rewrite app_length; lia]). rewrite L, mult_INR.
  assert (T : total (map (fun E => total (map f E) / INR (length (map f E))) Es) = total (map f (concat Es)) / INR p).
  { clear L. induction HF as [|E Es HE HF IH]; [cbn; unfold total; cbn; field; exact HI|]. cbn [map concat]. rewrite map_app, total_app. unfold total in *. cbn [fold_right]. rewrite IH, map_length, HE. field. exact HI. }
  rewrite T. destruct Es as [|E Es]; [cbn; unfold total; cbn; unfold Rdiv; ring|]. field. split; [exact HI|apply not_0_INR; cbn; lia].
Qed.
Lemma stream_value trace anti asian call loops len paths S K t r b s M : (1 <= loops)%nat -> (1 <= len)%nat -> (1 <= paths)%nat -> length M = (loops * paths)%nat ->
  exists o prices tr,
    MonteCarloOption loops len paths S K t r b (Some s) from_stream wiener_path (if asian : bool then asian_payoff else vanilla_payoff) trace anti false = Ok o /\
    mc_price call o M = Ok (MArray prices, tr, []) /\ length prices = loops /\
    average prices = average (map (fun zs => discounted call K t r (underlying asian S b s (t / INR len) zs)) (if anti then mirrored M else M)).
Proof.
  intros Hlo Hl Hp HM. destruct (MonteCarloOption loops len paths S K t r b (Some s) from_stream wiener_path (if asian then asian_payoff else vanilla_payoff) trace anti false) as [o|] eqn:EO.
  2: { unfold MonteCarloOption in EO. destruct (Nat.eqb len 0) eqn:EN; [apply Nat.eqb_eq in EN; lia|discriminate]. }
  destruct (stream_draws len paths loops M HM) as (Es & D1 & D2 & D3 & D4).
  destruct (mc_price_thm _ _ asian trace anti false loops len paths S K t r b s o M [] Es EO D1 ltac:(discriminate)) as (Es' & HT & HV).
  destruct (HV call) as (tr & HV'). eexists o, _, tr. split; [reflexivity|]. split; [exact HV'|]. split; [rewrite map_length, <- (F2_length _ _ _ HT); exact D4|].
  set (f := fun zs => discounted call K t r (underlying asian S b s (t / INR len) zs)).
  assert (E' : Es' = map (fun E => if anti then mirrored E else E) Es) by (clear - HT; induction HT as [|x y l l' T1 T2 IH]; [reflexivity|]; unfold treated in T1; cbn [map]; rewrite IH; now subst y).
  rewrite E', map_map. unfold estimate. fold f. destruct anti.
  - rewrite (average_ext (fun E => average (map f (mirrored E))) (fun E => average (map (fun x => (f x + f (map Ropp x)) / 2) E)) Es).
    + rewrite (average_chunks _ paths Es Hp D3), D2. symmetry. apply mirrored_average. intros ->. cbn in HM. destruct loops; [lia|]. cbn in HM. lia.
    + intros E HE. apply mirrored_average. rewrite Forall_forall in D3. intros ->. specialize (D3 [] HE). cbn in D3. lia.
  - rewrite (average_chunks f paths Es Hp D3), D2. reflexivity.
Qed.

(*@ C59_error | Monte Carlo error, for vanilla and arithmetic Asian options: the average of the prices returned (one per loop) over independent standard normal innovations has mean v, the mean discounted payoff of one path, and mean square error V / (loops * paths), where V is the variance of the discounted payoff of one path; with antithetic innovations the mean square error is at most V / (2 * loops * paths), so antithetic paths are never worse than as many independent ones. The mean and the variance always exist. *)
Lemma mc_error : forall (trace anti asian call : bool) (loops len paths : nat) (S K t r b s : R), 0 < S -> 0 < t -> 0 < s -> (1 <= loops)%nat -> (1 <= len)%nat -> (1 <= paths)%nat ->
  let payoff := fun zs => discounted call K t r (underlying asian S b s (t / INR len) zs) in
  exists value v V w,
    (forall M, shaped len M -> length M = (loops * paths)%nat -> exists o prices tr,
      MonteCarloOption loops len paths S K t r b (Some s) from_stream wiener_path (if asian then asian_payoff else vanilla_payoff) trace anti false = Ok o /\
      mc_price call o M = Ok (MArray prices, tr, []) /\ length prices = loops /\ value M = average prices) /\
    is_expect len payoff v /\ is_expect len (fun zs => (payoff zs - v) ^ 2) V /\
    is_matrix_expect (loops * paths) len value v /\
    is_matrix_expect (loops * paths) len (fun M => (value M - v) ^ 2) w /\
    if anti then w <= V / (2 * INR (loops * paths)) else w = V / INR (loops * paths).
Proof.
  intros trace anti asian call loops len paths S K t r b s HS Ht Hs Hlo Hl Hp f. assert (HI : 0 < INR len) by (apply lt_0_INR; lia). assert (Hd : 0 < t / INR len) by (now apply Rdiv_lt_0_compat).
  assert (Hn : (1 <= loops * paths)%nat) by nia. assert (HN : 0 < INR (loops * paths)) by (apply lt_0_INR; lia).
  destruct (tame_discounted asian call len S K t r b s (t / INR len) HS Hs Hd) as (c & Hc & T). fold f in T.
  assert (Hq : 0 <= s * sqrt (t / INR len)) by (apply Rmult_le_pos; [lra|apply sqrt_pos]).
  assert (Hv := tame_expect len _ _ _ Hc Hq T). set (v := En len f) in *.
  assert (Hc4 : 0 <= 4 * (c * c)) by nra. assert (Hq4 : 0 <= 2 * (s * sqrt (t / INR len))) by lra.
  assert (Hs2 := tame_expect len _ _ _ Hc4 Hq4 (tame_mult len c _ c f f Hc Hc T T)).
  assert (Hu := tame_expect len _ _ _ Hc4 Hq4 (tame_mult len c _ c f _ Hc Hc T (tame_neg len c _ f T))). set (u := En len (fun zs => f zs * f (map Ropp zs))) in *.
  set (q := En len (fun zs => f zs * f zs)) in *. assert (Hq2 : is_expect len (fun zs => f zs ^ 2) q) by (eapply is_expect_ext; [|exact Hs2]; intros; cbv beta; ring).
  assert (HV : is_expect len (fun zs => (f zs - v) ^ 2) (q - v ^ 2)).
  { assert (H1 := is_expect_lin _ _ _ _ _ 1 (-2 * v) Hq2 Hv). assert (H2 := is_expect_lin _ _ _ _ _ 1 (v ^ 2) H1 (is_expect_one len)). eapply is_expect_val; [eapply is_expect_ext; [|exact H2]|ring]. intros zs _. cbv beta. ring. }
  exists (fun M => average (map f (if anti then mirrored M else M))), v, (q - v ^ 2), (if anti then (q + u - 2 * v ^ 2) / (2 * INR (loops * paths)) else (q - v ^ 2) / INR (loops * paths)).
  split; [|split; [exact Hv|split; [exact HV|]]].
  - intros M HM HL. destruct (stream_value trace anti asian call loops len paths S K t r b s M Hlo Hl Hp HL) as (o & prices & tr & A1 & A2 & A3 & A4). exists o, prices, tr. repeat (split; [assumption|]). symmetry. exact A4.
  - destruct anti.
    + assert (X : is_matrix_expect (loops * paths) len (fun m => (average (map f (mirrored m)) - v) ^ 2) ((q + u - 2 * v ^ 2) / (2 * INR (loops * paths))) /\ u <= v ^ 2).
      { assert (D := discounted_mono call asian S K t r b s (t / INR len) HS Hs). destruct call.
        - apply mirrored_square; assumption.
        - apply mirrored_square_dec; assumption. }
      destruct X as [X1 X2]. split; [exact (mirrored_expect len _ f v Hn Hv)|]. split; [exact X1|]. unfold Rdiv. apply Rmult_le_compat_r; [apply Rlt_le, Rinv_0_lt_compat; lra|lra].
    + split; [exact (average_expect len _ f v Hn Hv)|]. split; [exact (average_square len _ f v q Hn Hv Hq2)|reflexivity].
Qed.

(*@ C59_confidence | Hence confidence intervals: the probability that the average price is off by eps or more is at most V / (loops * paths * eps^2), with antithetic innovations half of that; the estimate converges in probability as the number of paths or loops grows. *)
Lemma mc_confidence : forall (anti asian call : bool) (loops len paths : nat) (S K t r b s : R), 0 < S -> 0 < t -> 0 < s -> (1 <= loops)%nat -> (1 <= len)%nat -> (1 <= paths)%nat ->
  forall (value : list (list R) -> R) (v V eps P : R),
  (forall M, shaped len M -> length M = (loops * paths)%nat -> exists o prices tr,
    MonteCarloOption loops len paths S K t r b (Some s) from_stream wiener_path (if asian then asian_payoff else vanilla_payoff) false anti false = Ok o /\
    mc_price call o M = Ok (MArray prices, tr, []) /\ value M = average prices) ->
  is_expect len (fun zs => discounted call K t r (underlying asian S b s (t / INR len) zs)) v ->
  is_expect len (fun zs => (discounted call K t r (underlying asian S b s (t / INR len) zs) - v) ^ 2) V ->
  0 < eps -> is_error_probability (loops * paths) len value v eps P -> P <= V / (if anti then 2 else 1) / INR (loops * paths) / eps ^ 2.
Proof.
  intros anti asian call loops len paths S K t r b s HS Ht Hs Hlo Hl Hp value v V eps P Hval Hv HV He HP. assert (Hn : (1 <= loops * paths)%nat) by nia. assert (HN : 0 < INR (loops * paths)) by (apply lt_0_INR; lia).
  destruct (mc_error false anti asian call loops len paths S K t r b s HS Ht Hs Hlo Hl Hp) as (value' & v' & V' & w & A1 & A2 & A3 & A4 & A5 & A6). cbv zeta in A2, A3.
  assert (Ev := is_expect_unique _ _ _ _ A2 Hv). subst v'. assert (EV := is_expect_unique _ _ _ _ A3 HV). subst V'.
  assert (HE : forall M, shaped len M -> length M = (loops * paths)%nat -> value' M = value M).
  { intros M H1 H2. destruct (A1 M H1 H2) as (o & pr & tr & B1 & B2 & _ & B4). destruct (Hval M H1 H2) as (o' & pr' & tr' & C1 & C2 & C4). rewrite B1 in C1. apply Ok_inj in C1. subst o'. rewrite B2 in C2. apply Ok_inj in C2. injection C2 as E1 E2. subst pr'. now rewrite B4, C4. }
  assert (Hw : is_matrix_expect (loops * paths) len (fun m => (value m - v) ^ 2) w).
  { eapply is_matrix_expect_ext; [|exact A5]. intros m H1 H2. cbv beta. rewrite HE; [reflexivity| |exact H1]. split; [intros ->; cbn in H1; lia|exact H2]. }
  apply Rle_trans with (w / eps ^ 2); [exact (chebyshev len _ value v w eps P He Hw HP)|]. assert (H2 : 0 < / eps ^ 2) by (apply Rinv_0_lt_compat, pow_lt, He).
  apply (Rmult_le_compat_r (/ eps ^ 2)); [lra|]. destruct anti.
  - apply Rle_trans with (V / (2 * INR (loops * paths))); [exact A6|]. right. field. lra.
  - right. rewrite A6. field. lra.
Qed.

(** ** The variance of a vanilla payoff *)
Lemma gbm_square S b s dt zs : 0 < S -> gbm S b s dt zs ^ 2 = gbm (S ^ 2) (2 * b + s ^ 2) (2 * s) dt zs.
Proof.
  intro HS. unfold gbm. rewrite Rpow_mult_distr. f_equal. replace (exp ((b - s ^ 2 / 2) * (INR (length zs) * dt) + s * sqrt dt * total zs) ^ 2) with
    (exp ((b - s ^ 2 / 2) * (INR (length zs) * dt) + s * sqrt dt * total zs) * exp ((b - s ^ 2 / 2) * (INR (length zs) * dt) + s * sqrt dt * total zs)) by ring.
  rewrite <- exp_plus. f_equal. field.
Qed.
Lemma gbm_second call S K b r s t n : 0 < S -> 0 < K -> 0 < s -> 0 < t -> (1 <= n)%nat ->
  let d1 := (ln (S / K) + (b + s ^ 2 / 2) * t) / (s * sqrt t) in let d2 := d1 - s * sqrt t in let d0 := d1 + s * sqrt t in
  is_expect n (fun zs => discounted call K t r (gbm S b s (t / INR n) zs) ^ 2)
    (exp (-2 * r * t) * (if call : bool then S ^ 2 * exp ((2 * b + s ^ 2) * t) * Phi d0 - 2 * K * S * exp (b * t) * Phi d1 + K ^ 2 * Phi d2
     else S ^ 2 * exp ((2 * b + s ^ 2) * t) * Phi (- d0) - 2 * K * S * exp (b * t) * Phi (- d1) + K ^ 2 * Phi (- d2))).
Proof.
  intros HS HK Hs Ht Hn d1 d2 d0. assert (Hq : 0 < sqrt t) by now apply sqrt_lt_R0. assert (HS2 : 0 < S ^ 2) by now apply pow_lt. assert (HK2 : 0 < K ^ 2) by now apply pow_lt.
  assert (H1 := gbm_discounted call S K b 0 s t n HS HK Hs Ht Hn). cbv zeta in H1. fold d1 in H1. fold d2 in H1.
  assert (H2 := gbm_discounted call (S ^ 2) (K ^ 2) (2 * b + s ^ 2) 0 (2 * s) t n HS2 HK2 ltac:(lra) Ht Hn). cbv zeta in H2.
  assert (E0 : (ln (S ^ 2 / K ^ 2) + (2 * b + s ^ 2 + (2 * s) ^ 2 / 2) * t) / (2 * s * sqrt t) = d0).
  { replace (S ^ 2 / K ^ 2) with (S / K * (S / K)) by (field; lra). rewrite ln_mult by (apply Rdiv_lt_0_compat; assumption). unfold d0, d1.
    assert (Q : sqrt t * sqrt t = t) by (apply sqrt_sqrt; lra). revert Q Hq. generalize (sqrt t). intros w Q Hw. rewrite <- Q. field. lra. }
  rewrite E0 in H2. replace (d0 - 2 * s * sqrt t) with d2 in H2 by (unfold d0, d2; ring).
  assert (X0 : exp (- 0 * t) = 1) by (replace (- 0 * t) with 0 by ring; apply exp_0). rewrite X0 in H1, H2. rewrite !Rminus_0_r in H1, H2.
  set (e := exp (-2 * r * t)). assert (Ee : e = exp (- r * t) ^ 2) by (unfold e; replace (-2 * r * t) with (- r * t + - r * t) by ring; rewrite exp_plus; ring).
  set (A := exp ((2 * b + s ^ 2) * t)) in *. set (B := exp (b * t)) in *.
  destruct call.
  - assert (H3 := is_expect_lin _ _ _ _ _ e (-2 * K * e) H2 H1). eapply is_expect_val; [eapply is_expect_ext; [|exact H3]|ring].
    intros zs _. cbv beta. unfold discounted. rewrite X0, <- (gbm_square S b s _ zs HS), Ee. set (X := gbm S b s (t / INR n) zs).
    assert (HX : 0 < X) by (apply Rmult_lt_0_compat; [exact HS|apply exp_pos]). unfold Rmax. destruct (Rle_dec 0 (X - K)), (Rle_dec 0 (X ^ 2 - K ^ 2)); try ring; exfalso; nra.
  - assert (H3 := is_expect_lin _ _ _ _ _ (- e) (2 * K * e) H2 H1). eapply is_expect_val; [eapply is_expect_ext; [|exact H3]|ring].
    intros zs _. cbv beta. unfold discounted. rewrite X0, <- (gbm_square S b s _ zs HS), Ee. set (X := gbm S b s (t / INR n) zs).
    assert (HX : 0 < X) by (apply Rmult_lt_0_compat; [exact HS|apply exp_pos]). unfold Rmax. destruct (Rle_dec 0 (K - X)), (Rle_dec 0 (K ^ 2 - X ^ 2)); try ring; exfalso; nra.
Qed.

(*@ C59_variance | For vanilla options the mean v is the Black-Scholes price and the variance V has a closed form, whatever the number of time steps. *)
Lemma mc_variance : forall (call : bool) (len : nat) (S K t r b s : R), 0 < S -> 0 < K -> 0 < t -> 0 < s -> (1 <= len)%nat ->
  let d1 := (ln (S / K) + (b + s ^ 2 / 2) * t) / (s * sqrt t) in let d2 := d1 - s * sqrt t in let d0 := d1 + s * sqrt t in
  let payoff := fun zs => discounted call K t r (underlying false S b s (t / INR len) zs) in
  let v := if call then S * exp ((b - r) * t) * Phi d1 - K * exp (- r * t) * Phi d2
           else K * exp (- r * t) * Phi (- d2) - S * exp ((b - r) * t) * Phi (- d1) in
  is_expect len payoff v /\
  is_expect len (fun zs => (payoff zs - v) ^ 2)
    (exp (-2 * r * t) * (if call then S ^ 2 * exp ((2 * b + s ^ 2) * t) * Phi d0 - 2 * K * S * exp (b * t) * Phi d1 + K ^ 2 * Phi d2
     else S ^ 2 * exp ((2 * b + s ^ 2) * t) * Phi (- d0) - 2 * K * S * exp (b * t) * Phi (- d1) + K ^ 2 * Phi (- d2)) - v ^ 2).
Proof.
  intros call len S K t r b s HS HK Ht Hs Hl d1 d2 d0 payoff v. assert (H1 := gbm_discounted call S K b r s t len HS HK Hs Ht Hl). assert (H2 := gbm_second call S K b r s t len HS HK Hs Ht Hl). cbv zeta in H1, H2.
  fold d1 in H1, H2. fold d2 in H1, H2. fold d0 in H2. fold v in H1. split; [exact H1|].
  assert (H3 := is_expect_lin _ _ _ _ _ 1 (-2 * v) H2 H1). assert (H4 := is_expect_lin _ _ _ _ _ 1 (v ^ 2) H3 (is_expect_one len)). eapply is_expect_val; [eapply is_expect_ext; [|exact H4]|ring].
  intros zs _. cbv beta. unfold payoff, underlying. ring.
Qed.
