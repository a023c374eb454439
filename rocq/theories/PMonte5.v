(** Monte Carlo options: the estimator is unbiased for every number of steps and paths (C47). *)
From Coq Require Import Reals ZArith QArith Qreals List Bool Lra Lia.
From Coquelicot Require Import Coquelicot.
From Verif Require Import Num Py MBase MAmerican MMonte SMonte PCnd PCnd2 PGauss PMonte PMonte2 PMonte3 PMonte4.
From Verif Require Import MHeston PCplx PHnGauss SHeston PHeston PHeston2 PExpect PDirichlet PInversion PHnPrice.
Import List ListNotations.
Open Scope R_scope.

(** ** Symmetry of the normal distribution *)
Lemma is_mean_neg f v : is_mean f v -> is_mean (fun z => f (- z)) v.
Proof.
  intros H P HP. destruct (H P HP) as [Q R' HQ HR HI].
  apply (Filter_prod _ _ _ (fun a => R' (- a)) (fun b => Q (- b))).
  - destruct HR as [M HM]. exists (- M). intros x Hx. apply HM. lra.
  - destruct HQ as [M HM]. exists (- M). intros x Hx. apply HM. lra.
  - intros a b Ha Hb. destruct (HI (- b) (- a) Hb Ha) as (y & Hy & HPy). cbn [fst snd] in *. exists y. split; [|exact HPy].
    apply (is_RInt_swap (V := R_NormedModule)) in Hy. apply (is_RInt_comp_opp (V := R_NormedModule)) in Hy. apply (is_RInt_opp (V := R_NormedModule)) in Hy.
    rewrite opp_opp in Hy. eapply is_RInt_ext; [|exact Hy]. intros x _. unfold opp. cbn. unfold npdf. replace ((- x) ^ 2) with (x ^ 2) by ring. ring.
Qed.
Lemma is_expect_neg n : forall f v, is_expect n f v -> is_expect n (fun zs => f (map Ropp zs)) v.
Proof.
  induction n as [|n IH]; intros f v; [cbn; auto|]. intros (g & Hg & Hm). exists (fun z => g (- z)). split; [|now apply is_mean_neg].
  intro z. exact (IH _ _ (Hg (- z))).
Qed.
Lemma is_expect_const n c : is_expect n (fun _ => c) c.
Proof. assert (H := is_expect_lin _ _ _ _ _ c 0 (is_expect_one n) (is_expect_one n)). assert (E : c * 1 + 0 * 1 = c) by ring. rewrite E in H. eapply is_expect_ext; [|exact H]. intros. cbn beta. ring. Qed.

(** ** Matrices *)
Lemma is_matrix_expect_ext len p : forall f g v, (forall m, length m = p -> Forall (fun row => length row = len) m -> f m = g m) -> is_matrix_expect p len f v -> is_matrix_expect p len g v.
Proof.
  induction p as [|p IH]; intros f g v E; [cbn; intro H; rewrite <- E; auto|]. intros (k & Hk & Hm). exists k. split; [|exact Hm].
  intros row Hr. eapply IH; [|exact (Hk row Hr)]. intros m Hm1 Hm2. apply E; [cbn; lia|now constructor].
Qed.
Lemma is_matrix_expect_total len f v (Hf : is_expect len f v) c d p : forall a, is_matrix_expect p len (fun m => c * (a + total (map f m)) + d) (c * (a + INR p * v) + d).
Proof.
  induction p as [|p IH]; intro a; [cbn; ring|]. exists (fun row => c * (a + f row + INR p * v) + d). split.
  - intros row Hr. eapply is_matrix_expect_ext; [|exact (IH (a + f row))]. intros m _ _. unfold total. cbn [map fold_right]. ring.
  - assert (H := is_expect_lin _ _ _ _ _ c (c * (a + INR p * v) + d) Hf (is_expect_one len)). rewrite S_INR.
    replace (c * (a + (INR p + 1) * v) + d) with (c * v + (c * (a + INR p * v) + d) * 1) by ring. eapply is_expect_ext; [|exact H]. intros zs _. cbn beta. ring.
Qed.
Lemma total_app l l' : total (l ++ l') = total l + total l'.
Proof. unfold total. induction l as [|x l IH]; cbn; [ring|]. rewrite IH. ring. Qed.
Lemma total_add {A} (f g : A -> R) l : total (map f l) + total (map g l) = total (map (fun x => f x + g x) l).
Proof. induction l as [|x l IH]; cbn; [ring|]. unfold total in *. rewrite <- IH. ring. Qed.
Lemma average_expect len p f v : (1 <= p)%nat -> is_expect len f v -> is_matrix_expect p len (fun m => average (map f m)) v.
Proof.
  intros Hp Hf. assert (HI : INR p <> 0) by (apply not_0_INR; lia). assert (H := is_matrix_expect_total len f v Hf (/ INR p) 0 p 0).
  replace (/ INR p * (0 + INR p * v) + 0) with v in H by (field; exact HI). eapply is_matrix_expect_ext; [|exact H]. intros m Hm _. unfold average. cbn beta. rewrite map_length, Hm. field. exact HI.
Qed.
Lemma mirrored_average f m : m <> [] -> average (map f (mirrored m)) = average (map (fun x => (f x + f (map Ropp x)) / 2) m).
Proof.
  intro Hm. unfold average, mirrored. rewrite !map_length, app_length, map_length, map_app, map_map, total_app, plus_INR.
  rewrite (total_add f (fun x => f (map Ropp x))). assert (HI : INR (length m) <> 0) by (apply not_0_INR; destruct m; [contradiction|cbn; lia]).
  assert (E : total (map (fun x => (f x + f (map Ropp x)) / 2) m) = total (map (fun x => f x + f (map Ropp x)) m) / 2).
  { clear. induction m as [|x m IH]; cbn; [unfold total; cbn; field|]. unfold total in *. cbn. rewrite IH. field. }
  rewrite E. field. split; [exact HI|lra].
Qed.
Lemma mirrored_expect len p f v : (1 <= p)%nat -> is_expect len f v -> is_matrix_expect p len (fun m => average (map f (mirrored m))) v.
Proof.
  intros Hp Hf. assert (H2 := is_expect_lin _ _ _ _ _ (/ 2) (/ 2) Hf (is_expect_neg _ _ _ Hf)). cbn beta in H2. replace (/ 2 * v + / 2 * v) with v in H2 by field.
  eapply is_matrix_expect_ext; [|exact (average_expect len p _ v Hp H2)]. intros m Hm _. cbn beta. rewrite mirrored_average by (destruct m; [cbn in Hm; lia|discriminate]).
  f_equal. apply map_ext. intro x. field.
Qed.

(** ** Geometric Brownian motion as a process of constant variance *)
Lemma const_returns h g r zs : total (hn_returns (-1 / 2) h 0 0 g r h zs) = INR (length zs) * (r - h / 2) + sqrt h * total zs.
Proof.
  induction zs as [|z zs IH]; [cbn; ring|]. cbn [hn_returns length total fold_right]. replace (hn_next h 0 0 g h z) with h by (unfold hn_next; ring).
  rewrite S_INR. unfold total in *. rewrite IH. field.
Qed.
Lemma gbm_hn S b s dt g zs : 0 < s -> 0 < dt -> gbm S b s dt zs = hn_price S (-1 / 2) (s ^ 2 * dt) 0 0 g (b * dt) (s ^ 2 * dt) zs.
Proof.
  intros Hs Hd. unfold gbm, hn_price. rewrite const_returns. rewrite sqrt_mult by nra. rewrite sqrt_pow2 by lra. do 2 f_equal. field.
Qed.
Lemma gbm_mean S b s dt n : 0 < S -> 0 < s -> 0 < dt -> is_expect n (gbm S b s dt) (S * exp (b * (INR n * dt))).
Proof.
  intros HS Hs Hd. assert (Hh : 0 < s ^ 2 * dt) by (apply Rmult_lt_0_compat; [apply pow_lt; exact Hs|exact Hd]).
  assert (H := martingale S (b * dt) (s ^ 2 * dt) 0 0 0 (s ^ 2 * dt) n ltac:(lra) ltac:(lra) ltac:(lra) ltac:(lra) HS).
  replace (b * (INR n * dt)) with (b * dt * INR n) by ring. eapply is_expect_ext; [|exact H]. intros zs _. symmetry. now apply gbm_hn.
Qed.
Lemma gbm_call S K b s t n : 0 < S -> 0 < K -> 0 < s -> 0 < t -> (1 <= n)%nat ->
  let d1 := (ln (S / K) + (b + s ^ 2 / 2) * t) / (s * sqrt t) in
  is_expect n (fun zs => Rmax (gbm S b s (t / INR n) zs - K) 0) (S * exp (b * t) * Phi d1 - K * Phi (d1 - s * sqrt t)).
Proof.
  intros HS HK Hs Ht Hn d1. assert (HI : 0 < INR n) by (apply lt_0_INR; lia). assert (Hd : 0 < t / INR n) by (apply Rdiv_lt_0_compat; assumption).
  assert (Hh : 0 < s ^ 2 * (t / INR n)) by (apply Rmult_lt_0_compat; [apply pow_lt; exact Hs|exact Hd]).
  assert (H := const_mean S K (b * (t / INR n)) (s ^ 2 * (t / INR n)) 0 n HS HK Hh Hn). unfold bs_d1 in H.
  replace (b * (t / INR n) * INR n) with (b * t) in H by (field; lra). replace (s ^ 2 * (t / INR n) * INR n) with (s ^ 2 * t) in H by (field; lra).
  replace ((b * (t / INR n) + s ^ 2 * (t / INR n) / 2) * INR n) with ((b + s ^ 2 / 2) * t) in H by (field; lra).
  assert (EQ : sqrt (s ^ 2 * t) = s * sqrt t) by (rewrite sqrt_mult, sqrt_pow2 by nra; reflexivity). rewrite EQ in H. fold d1 in H.
  eapply is_expect_ext; [|exact H]. intros zs _. cbn beta. now rewrite <- (gbm_hn S b s (t / INR n) 0 zs Hs Hd).
Qed.
Lemma gbm_discounted call S K b r s t n : 0 < S -> 0 < K -> 0 < s -> 0 < t -> (1 <= n)%nat ->
  let d1 := (ln (S / K) + (b + s ^ 2 / 2) * t) / (s * sqrt t) in let d2 := d1 - s * sqrt t in
  is_expect n (fun zs => discounted call K t r (gbm S b s (t / INR n) zs))
    (if call : bool then S * exp ((b - r) * t) * Phi d1 - K * exp (- r * t) * Phi d2
     else K * exp (- r * t) * Phi (- d2) - S * exp ((b - r) * t) * Phi (- d1)).
Proof.
  intros HS HK Hs Ht Hn d1 d2. assert (HI : 0 < INR n) by (apply lt_0_INR; lia). assert (Hd : 0 < t / INR n) by (apply Rdiv_lt_0_compat; assumption).
  assert (H := gbm_call S K b s t n HS HK Hs Ht Hn). cbv zeta in H. fold d1 in H. fold d2 in H.
  assert (HM := gbm_mean S b s (t / INR n) n HS Hs Hd). replace (INR n * (t / INR n)) with t in HM by (field; lra). assert (H1 := is_expect_one n).
  assert (EX : exp ((b - r) * t) = exp (- r * t) * exp (b * t)) by (rewrite <- exp_plus; f_equal; ring). rewrite EX. set (e := exp (- r * t)) in *. set (f := exp (b * t)) in *.
  destruct call.
  - assert (H2 := is_expect_lin _ _ _ _ _ e 0 H H1). cbn beta in H2. replace (S * (e * f) * Phi d1 - K * e * Phi d2) with (e * (S * f * Phi d1 - K * Phi d2) + 0 * 1) by ring.
    eapply is_expect_ext; [|exact H2]. intros zs _. cbn beta. unfold discounted. fold e. rewrite Rmax_comm. ring.
  - assert (H0 := is_expect_lin _ _ _ _ _ (-1) K HM H1). assert (H2 := is_expect_lin _ _ _ _ _ e e H H0). cbn beta in H2. rewrite !Phi_opp.
    replace (K * e * (1 - Phi d2) - S * (e * f) * (1 - Phi d1)) with (e * (S * f * Phi d1 - K * Phi d2) + e * (-1 * (S * f) + K * 1)) by ring.
    eapply is_expect_ext; [|exact H2]. intros zs _. cbn beta. unfold discounted. fold e. unfold Rmax. destruct (Rle_dec _ 0), (Rle_dec 0 _); nra.
Qed.

(*@ C47_unbiased | For every number of paths and steps, with or without antithetic innovations, the price a vanilla Monte Carlo option returns, averaged over all independent standard normal innovations, is exactly the Black-Scholes price: the estimator is unbiased *)
Lemma mc_unbiased_all : forall (trace anti call : bool) (len paths : nat) (S K t r b s : R), 0 < S -> 0 < K -> 0 < t -> 0 < s -> (1 <= len)%nat -> (1 <= paths)%nat ->
  let d1 := (ln (S / K) + (b + s ^ 2 / 2) * t) / (s * sqrt t) in let d2 := d1 - s * sqrt t in
  exists price : list (list R) -> R,
    (forall E, shaped len E -> length E = paths -> exists o tr,
      MonteCarloOption 1 len paths S K t r b (Some s) (fun _ _ st => Ok (E, st)) wiener_path vanilla_payoff trace anti false = Ok o /\
      mc_price call o tt = Ok (MArray [price E], tr, tt)) /\
    is_matrix_expect paths len price
      (if call then S * exp ((b - r) * t) * Phi d1 - K * exp (- r * t) * Phi d2
       else K * exp (- r * t) * Phi (- d2) - S * exp ((b - r) * t) * Phi (- d1)).
Proof.
  intros trace anti call len paths S K t r b s HS HK Ht Hs Hl Hp d1 d2.
  exists (fun E => estimate false call S K t r b s (t / INR len) (if anti then mirrored E else E)). split.
  - intros E HE HL. destruct (MonteCarloOption 1 len paths S K t r b (Some s) (fun _ _ (st : unit) => Ok (E, st)) wiener_path vanilla_payoff trace anti false) as [o|] eqn:EO.
    2: { unfold MonteCarloOption in EO. destruct (Nat.eqb len 0) eqn:EN; [apply Nat.eqb_eq in EN; lia|discriminate]. }
    destruct (mc_price_thm unit _ false trace anti false 1 len paths S K t r b s o tt tt [E] EO eq_refl ltac:(discriminate)) as (Es' & HT & HV).
    inversion HT as [|x y l l' T1 T2]; subst. inversion T2; subst. unfold treated in T1. subst y. destruct (HV call) as (tr & HV'). exists o, tr. split; [reflexivity|exact HV'].
  - assert (H := gbm_discounted call S K b r s t len HS HK Hs Ht Hl). cbv zeta in H. fold d1 in H. fold d2 in H. unfold estimate, underlying. destruct anti.
    + exact (mirrored_expect len paths _ _ Hp H).
    + exact (average_expect len paths _ _ Hp H).
Qed.

(** ** Asian options *)
Lemma is_expect_firstn f v k : forall n, (k <= n)%nat -> is_expect k f v -> is_expect n (fun zs => f (firstn k zs)) v.
Proof.
  revert f v. induction k as [|k IH]; intros f v n Hk H.
  - cbn in H. subst v. exact (is_expect_const n (f [])).
  - destruct n as [|n]; [lia|]. destruct H as (g & Hg & Hm). exists g. split; [|exact Hm]. intro z. exact (IH _ _ n ltac:(lia) (Hg z)).
Qed.
Lemma is_expect_total {A} n (f : A -> list R -> R) (v : A -> R) l : (forall a, In a l -> is_expect n (f a) (v a)) -> is_expect n (fun zs => total (map (fun a => f a zs) l)) (total (map v l)).
Proof.
  induction l as [|a l IH]; intro H; [exact (is_expect_const n 0)|].
  assert (H1 := is_expect_lin _ _ _ _ _ 1 1 (H a (or_introl eq_refl)) (IH (fun a Ha => H a (or_intror Ha)))). cbn beta in H1.
  cbn [map total fold_right]. fold (total (map v l)). rewrite <- (Rmult_1_l (v a)), <- (Rmult_1_l (total (map v l))). eapply is_expect_ext; [|exact H1]. intros zs _. cbn beta. unfold total. ring.
Qed.
Lemma gbm_average_mean S b s dt n : 0 < S -> 0 < s -> 0 < dt -> is_expect n (gbm_average S b s dt) (average (map (fun k => S * exp (b * (INR k * dt))) (seq 1 n))).
Proof.
  intros HS Hs Hd.
  assert (H := is_expect_total n (fun k zs => gbm S b s dt (firstn k zs)) (fun k => S * exp (b * (INR k * dt))) (seq 1 n)
    (fun k Hk => is_expect_firstn _ _ k n ltac:(apply in_seq in Hk; lia) (gbm_mean S b s dt k HS Hs Hd))).
  assert (H1 := is_expect_lin _ _ _ _ _ (/ INR n) 0 H (is_expect_one n)). cbn beta in H1. unfold average at 1. rewrite map_length, seq_length.
  match type of H1 with is_expect _ _ ?v => replace (_ / _) with v by (unfold Rdiv; ring) end.
  eapply is_expect_ext; [|exact H1]. intros zs Hz. cbn beta. unfold gbm_average, average. rewrite map_length, seq_length, Hz. unfold Rdiv. ring.
Qed.
(*@ C47_asian_forward | For every number of paths and steps, with or without antithetic innovations, the call price minus the put price of an arithmetic Asian option, averaged over all independent standard normal innovations, is the discounted difference of the average forward price over the time points and the strike *)
Lemma mc_asian_forward : forall (trace anti : bool) (len paths : nat) (S K t r b s : R), 0 < S -> 0 < t -> 0 < s -> (1 <= len)%nat -> (1 <= paths)%nat ->
  exists price : bool -> list (list R) -> R,
    (forall call E, shaped len E -> length E = paths -> exists o tr,
      MonteCarloOption 1 len paths S K t r b (Some s) (fun _ _ st => Ok (E, st)) wiener_path asian_payoff trace anti false = Ok o /\
      mc_price call o tt = Ok (MArray [price call E], tr, tt)) /\
    is_matrix_expect paths len (fun E => price true E - price false E)
      (exp (- r * t) * (average (map (fun k => S * exp (b * (INR k * t / INR len))) (seq 1 len)) - K)).
Proof.
  intros trace anti len paths S K t r b s HS Ht Hs Hl Hp.
  exists (fun call E => estimate true call S K t r b s (t / INR len) (if anti then mirrored E else E)). split.
  - intros call E HE HL. destruct (MonteCarloOption 1 len paths S K t r b (Some s) (fun _ _ (st : unit) => Ok (E, st)) wiener_path asian_payoff trace anti false) as [o|] eqn:EO.
    2: { unfold MonteCarloOption in EO. destruct (Nat.eqb len 0) eqn:EN; [apply Nat.eqb_eq in EN; lia|discriminate]. }
    destruct (mc_price_thm unit _ true trace anti false 1 len paths S K t r b s o tt tt [E] EO eq_refl ltac:(discriminate)) as (Es' & HT & HV).
    inversion HT as [|x y l l' T1 T2]; subst. inversion T2; subst. unfold treated in T1. subst y. destruct (HV call) as (tr & HV'). exists o, tr. split; [reflexivity|exact HV'].
  - assert (HI : 0 < INR len) by (apply lt_0_INR; lia). assert (Hd : 0 < t / INR len) by (now apply Rdiv_lt_0_compat).
    assert (H := gbm_average_mean S b s (t / INR len) len HS Hs Hd). assert (H1 := is_expect_lin _ _ _ _ _ (exp (- r * t)) (- exp (- r * t) * K) H (is_expect_one len)). cbn beta in H1.
    assert (EA : average (map (fun k => S * exp (b * (INR k * (t / INR len)))) (seq 1 len)) = average (map (fun k => S * exp (b * (INR k * t / INR len))) (seq 1 len))).
    { f_equal. apply map_ext. intro k. do 3 f_equal. unfold Rdiv. ring. }
    rewrite EA in H1. clear EA H. set (A := average _) in *. replace (exp (- r * t) * (A - K)) with (exp (- r * t) * A + - exp (- r * t) * K * 1) by ring.
    assert (X : forall m, estimate true true S K t r b s (t / INR len) m - estimate true false S K t r b s (t / INR len) m =
      average (map (fun zs => exp (- r * t) * gbm_average S b s (t / INR len) zs + - exp (- r * t) * K * 1) m)).
    { intro m. unfold estimate, underlying. rewrite <- average_minus. apply average_ext. intros x _. unfold discounted. rewrite <- Rmult_minus_distr_l. transitivity (exp (- r * t) * (gbm_average S b s (t / INR len) x - K)); [|ring]. f_equal. unfold Rmax. destruct (Rle_dec 0 _), (Rle_dec 0 _); lra. }
    destruct anti.
    + eapply is_matrix_expect_ext; [|exact (mirrored_expect len paths _ _ Hp H1)]. intros m _ _. symmetry. apply X.
    + eapply is_matrix_expect_ext; [|exact (average_expect len paths _ _ Hp H1)]. intros m _ _. symmetry. apply X.
Qed.
