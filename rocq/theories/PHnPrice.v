(** Heston-Nandi option: with exact integration the price is the discounted mean payoff (C50). *)
From Coq Require Import Reals ZArith QArith Qreals Lra Lia.
From Coquelicot Require Import Coquelicot.
From Coq Require Import List Bool.
From Verif Require Import Num Py MAmerican MMonte MHeston SMonte SHeston PCnd PCnd2 PGauss PMonte4 PCplx PHnGauss PHeston PHeston2 PExpect PDirichlet PInversion.
Import ListNotations.
Open Scope R_scope.

(* ------------------------------------------------------------------ *)
(** * Decay of the characteristic function *)
Section Decay.
Variables omega alpha beta g r c phi : R.
Hypothesis Ho : 0 <= omega.
Hypothesis Ha : 0 <= alpha.
Hypothesis Hb : 0 <= beta.
Hypothesis Hc : c = 0 \/ c = 1.
Let cphi : C := (c, phi).
Let A := A_ omega alpha beta g r cphi.
Let B := B_ omega alpha beta g r cphi.
Lemma Hc01 : 0 <= Re cphi <= 1. Proof. cbn. destruct Hc; lra. Qed.
Lemma B0_re : Re (B 0) = - phi ^ 2 / 2.
Proof. unfold B. rewrite B_0. unfold cphi. cbn. assert (c * c = c) by (destruct Hc; subst; ring). lra. Qed.
Lemma lnp_pos n : 0 <= Re (Cln (p_ omega alpha beta g r cphi n)).
Proof.
  assert (HB := B_neg omega alpha beta g r Ha Hb cphi Hc01 n). assert (Hp : 1 <= Re (p_ omega alpha beta g r cphi n)).
  { unfold p_. revert HB. generalize (B_ omega alpha beta g r cphi n). intros [b1 b2]. cbn. intro. nra. }
  unfold Cln. cbn [Re fst]. assert (Hm : 1 <= Cmod (p_ omega alpha beta g r cphi n)). { eapply Rle_trans; [exact Hp|]. eapply Rle_trans; [apply Rle_abs|]. apply Re_le_Cmod. }
  rewrite <- ln_1. destruct (Req_dec (Cmod (p_ omega alpha beta g r cphi n)) 1) as [E|E].
  - change (ln 1 <= ln (Cmod (p_ omega alpha beta g r cphi n))). rewrite E. lra.
  - left. apply ln_increasing; [lra|]. change (1 < Cmod (p_ omega alpha beta g r cphi n)). lra.
Qed.
Lemma A_decay n : Re (A n) <= c * r * INR (Datatypes.S n) /\ Re (A (Datatypes.S n)) <= c * r * INR (Datatypes.S (Datatypes.S n)) - omega * phi ^ 2 / 2.
Proof.
  assert (Step : forall n, Re (A (Datatypes.S n)) <= Re (A n) + c * r + omega * Re (B n)).
  { intro m. assert (HB := B_neg omega alpha beta g r Ha Hb cphi Hc01 m). unfold A. rewrite (A_S omega alpha beta g r Ha cphi m HB). fold A B.
    assert (HL := lnp_pos m). revert HL. generalize (Cln (p_ omega alpha beta g r cphi m)) (A m) (B m). intros [l1 l2] [a1 a2] [b1 b2]. cbn. intro. lra. }
  induction n as [|n [IH1 IH2]].
  - assert (HA0 : Re (A 0) <= c * r * INR 1). { unfold A. rewrite A_0. cbn. lra. } split; [exact HA0|].
    specialize (Step 0%nat). rewrite B0_re in Step. rewrite (S_INR 1). cbn [INR] in *. lra.
  - split.
    + assert (HB := B_neg omega alpha beta g r Ha Hb cphi Hc01 n). fold B in HB. specialize (Step n). rewrite (S_INR (Datatypes.S n)). nra.
    + assert (HB := B_neg omega alpha beta g r Ha Hb cphi Hc01 (Datatypes.S n)). fold B in HB. specialize (Step (Datatypes.S n)). rewrite (S_INR (Datatypes.S (Datatypes.S n))). nra.
Qed.
Lemma AB_decay n h : omega <= h -> Re (A n) + Re (B n) * h <= c * r * INR (Datatypes.S n) - omega * phi ^ 2 / 2.
Proof.
  intro Hh. destruct n as [|n].
  - rewrite B0_re. destruct (A_decay 0) as [H _]. assert (0 <= phi ^ 2) by apply pow2_ge_0. nra.
  - destruct (A_decay n) as [_ H]. assert (HB := B_neg omega alpha beta g r Ha Hb cphi Hc01 (Datatypes.S n)). fold B in HB. nra.
Qed.
End Decay.

(* ------------------------------------------------------------------ *)
(** * The price *)
Section Price.
Variables S K r lamb omega alpha beta gamma h : R.
Variable t : Z.
Let g := gamma + lamb + 1 / 2.
Hypothesis HS : 0 < S.
Hypothesis HK : 0 < K.
Hypothesis Ht : (1 <= t)%Z.
Hypothesis Ho : 0 <= omega.
Hypothesis Ha : 0 <= alpha.
Hypothesis Hb : 0 <= beta.
Hypothesis Hp : alpha * g ^ 2 + beta < 1.
Hypothesis Hh : 0 <= h.
Hypothesis Hst : stationary omega alpha beta g h.
Let o : hn R := mkHn S K (DInt t) r (Some lamb) (Some omega) (Some alpha) (Some beta) (Some gamma).
Let n := Z.to_nat t.
Let P (zs : list R) : R := hn_price S (-1 / 2) omega alpha beta g r h zs.
Lemma P_ln zs : P zs = exp (ln S + lret omega alpha beta g r h zs) /\ ln (P zs / K) = ln S + lret omega alpha beta g r h zs - ln K.
Proof.
  assert (E : P zs = exp (ln S + lret omega alpha beta g r h zs)). { rewrite exp_plus, exp_ln by exact HS. reflexivity. }
  split; [exact E|]. rewrite E, ln_div, ln_exp; [reflexivity|apply exp_pos|exact HK].
Qed.
Definition wte (c y : R) : R := Rpower (exp y) c.
Lemma wte_1 y : wte 1 y = exp y. Proof. unfold wte, Rpower. now rewrite ln_exp, Rmult_1_l. Qed.
Lemma wte_0 y : wte 0 y = 1. Proof. unfold wte, Rpower. now rewrite Rmult_0_l, exp_0. Qed.
Lemma wte_bound c y : c = 0 \/ c = 1 -> Rabs (wte c y) <= 1 * (1 + exp y).
Proof. pose proof (exp_pos y). intros [-> | ->]; rewrite ?wte_0, ?wte_1, Rabs_pos_eq; lra. Qed.
Lemma wte_cont c : cont (wte c).
Proof. intro y. apply (ex_derive_continuous (V := R_NormedModule)). unfold wte, Rpower. auto_derive. apply exp_pos. Qed.
Lemma fHN_JF c phi : c = 0 \/ c = 1 -> 0 < phi -> fHN o c phi = Ok (JF r omega alpha beta g n (ln S) (sqrt h) (ln K) (wte c) phi).
Proof.
  intros Hc Hphi. destruct (hn_integrand S K t r lamb omega alpha beta gamma h c phi HS HK Ht Ho Ha Hb Hp Hh Hst ltac:(destruct Hc; lra) ltac:(lra)) as (v & E1 & E2).
  fold o in E1. rewrite E1. f_equal. eapply is_expect_unique; [exact E2|]. unfold JF.
  eapply is_expect_ext; [|eapply (TN_expect r omega alpha beta g n _ (fun y => FM (ln K) (wte c) phi y)); [|exact Ho|exact Ha|exact Hb|exact Hh]].
  - intros zs _. cbn beta. fold g. destruct (P_ln zs) as [X1 X2]. fold (P zs). cbv zeta. rewrite X2. unfold FM, wte, kern. rewrite X1. field. split; [apply PI_neq0|lra].
  - apply (FM_cls (ln K) (wte c) 1); [lra|apply wte_cont|intro y; now apply wte_bound|exact Hphi].
Qed.
Lemma JF_decay c phi : 0 < omega -> c = 0 \/ c = 1 -> 1 <= phi ->
  Rabs (JF r omega alpha beta g n (ln S) (sqrt h) (ln K) (wte c) phi) <= exp (c * (ln S + r * INR n)) * (2 / omega) / phi ^ 2.
Proof.
  intros Ho' Hc Hphi. assert (E := fHN_JF c phi Hc ltac:(lra)). unfold o in E. change (mkHn _ _ _ _ _ _ _ _ _) with (hn_full S K t r lamb omega alpha beta gamma) in E.
  unfold fHN in E. rewrite (fHN_closed S K t r lamb omega alpha beta gamma c phi ltac:(lra)) in E. fold g in E. cbn [rmap] in E.
  assert (HST := proj1 (stationary_iff omega alpha beta g h Hp Hh) Hst). rewrite <- HST in E. apply Ok_inj in E. rewrite <- E. clear E.
  assert (Hoh : omega <= h).
  { assert (0 <= alpha * g ^ 2) by (apply Rmult_le_pos; [exact Ha|apply pow2_ge_0]). assert (h * (1 - beta - alpha * g ^ 2) = omega + alpha) by (rewrite HST; field; lra). nra. }
  set (m := Z.to_nat (t - 1)). assert (En : n = Datatypes.S m) by (unfold n, m; lia).
  assert (HD := AB_decay omega alpha beta g r c phi Ho Ha Hb Hc m h Hoh). rewrite <- En in HD.
  set (A := A_ omega alpha beta g r (c, phi) m) in *. set (B := B_ omega alpha beta g r (c, phi) m) in *.
  match goal with |- Rabs (re ?z) <= _ => change (Rabs (Re z) <= exp (c * (ln S + r * INR n)) * (2 / omega) / phi ^ 2) end. eapply Rle_trans; [apply Re_le_Cmod|]. pose proof PI_RGT_0 as Hpi. pose proof PI_gt1 as Hpi1.
  rewrite !Cmod_div; [|intro Q; injection Q; lra|intro Q; injection Q; lra]. rewrite Cexp_conj_mod, Cmod_R, (Rabs_pos_eq PI) by lra.
  assert (Ei : Cmod (0, phi) = phi). { unfold Cmod. cbn. replace (0 * (0 * 1) + phi * (phi * 1)) with (phi ^ 2) by ring. apply sqrt_pow2. lra. } rewrite Ei.
  assert (ER : Re ((0, - (phi * ln K))%R + (c, phi) * ln S + (A + B * h))%C = c * ln S + (Re A + Re B * h)). { clear. destruct A as [a1 a2], B as [b1 b2]. cbn. ring. } rewrite ER.
  assert (HE : exp (c * ln S + (Re A + Re B * h)) <= exp (c * (ln S + r * INR n)) * (2 / (omega * phi))).
  { apply Rle_trans with (exp (c * (ln S + r * INR n)) * exp (- (omega * phi ^ 2 / 2))).
    - rewrite <- exp_plus. set (u := c * ln S + (Re A + Re B * h)) in *. set (v := c * (ln S + r * INR n) + - (omega * phi ^ 2 / 2)). assert (u <= v) by (unfold u, v; lra). destruct (Req_dec u v) as [->|]; [lra|]. left. apply exp_increasing. lra.
    - apply Rmult_le_compat_l; [left; apply exp_pos|]. rewrite exp_Ropp. assert (H0 : 0 < omega * phi) by (apply Rmult_lt_0_compat; lra). assert (H1 : omega * phi / 2 <= exp (omega * phi ^ 2 / 2)).
      { assert (omega * phi <= omega * phi ^ 2) by (replace (omega * phi ^ 2) with (omega * phi * phi) by ring; nra). generalize (exp_ineq1 (omega * phi ^ 2 / 2) ltac:(lra)). lra. }
      replace (2 / (omega * phi)) with (/ (omega * phi / 2)) by (field; lra). apply Rinv_le_contravar; lra. }
  assert (H2 : forall x, 0 <= x -> x / phi / PI <= x / phi).
  { intros x Hx. assert (0 <= x / phi) by (apply Rmult_le_pos; [exact Hx|left; apply Rinv_0_lt_compat; lra]). unfold Rdiv at 1. assert (/ PI <= 1) by (rewrite <- Rinv_1; apply Rinv_le_contravar; lra). nra. }
  eapply Rle_trans; [apply H2; left; apply exp_pos|]. 
  replace (exp (c * (ln S + r * INR n)) * (2 / omega) / phi ^ 2) with (exp (c * (ln S + r * INR n)) * (2 / (omega * phi)) / phi) by (field; lra).
  refine (Rmult_le_compat_r (/ phi) _ _ _ HE). left. apply Rinv_0_lt_compat. lra.
Qed.
Lemma pos_part x : Rabs x / 2 + x / 2 = Rmax x 0.
Proof. unfold Rabs, Rmax. destruct (Rcase_abs x), (Rle_dec x 0); lra. Qed.

Lemma hn_halves c : 0 < omega -> c = 0 \/ c = 1 -> exists L, filterlim (J r omega alpha beta g n (ln S) (sqrt h) (ln K) (wte c)) (Rbar_locally p_infty) (locally L) /\
  is_half_line (JF r omega alpha beta g n (ln S) (sqrt h) (ln K) (wte c)) L.
Proof.
  intros Ho' Hc. destruct (half_line_ex r omega alpha beta g n (ln S) (sqrt h) (ln K) (wte c) 1 ltac:(lra) (wte_cont c) (fun y => wte_bound c y Hc) _ (fun m Hm => JF_decay c m Ho' Hc Hm)) as (L & HL).
  exists L. split; [exact HL|]. eapply half_line_lim; [| | |exact HL]; [|apply wte_cont|intro y; now apply (wte_bound c y Hc)]; lra.
Qed.
Lemma hn_price_mean quad : 0 < omega -> exact_quad quad ->
  exists c p, hn_call quad o = Ok (exp (- r * IZR t) * c) /\ is_expect n (fun zs => Rmax (P zs - K) 0) c /\
    hn_put quad o = Ok (exp (- r * IZR t) * p) /\ is_expect n (fun zs => Rmax (K - P zs) 0) p.
Proof.
  intros Ho' Hq.
  assert (X : forall c, c = 0 \/ c = 1 -> exists L, filterlim (J r omega alpha beta g n (ln S) (sqrt h) (ln K) (wte c)) (Rbar_locally p_infty) (locally L) /\ quad (fHN o c) = Ok L).
  { intros c Hc. destruct (hn_halves c Ho' Hc) as (L & HL & HH). exists L. split; [exact HL|]. eapply Hq; [|exact HH]. intros phi Hphi. now apply fHN_JF. }
  destruct (X 1 (or_intror eq_refl)) as (L1 & HL1 & Q1). destruct (X 0 (or_introl eq_refl)) as (L0 & HL0 & Q0).
  assert (EL : L1 - exp (ln K) * L0 = TN r omega alpha beta g n (fun y _ => Rabs (exp y - exp (ln K)) / 2) (ln S) (sqrt h)).
  { apply payoff_split.
    - eapply filterlim_ext; [|exact HL1]. intro m. unfold J. apply TN_ext. intros y q. unfold HM. now rewrite wte_1.
    - eapply filterlim_ext; [|exact HL0]. intro m. unfold J. apply TN_ext. intros y q. unfold HM. now rewrite wte_0. }
  rewrite (exp_ln K HK) in EL. set (a := TN r omega alpha beta g n (fun y _ => Rabs (exp y - K) / 2) (ln S) (sqrt h)) in *.
  assert (HA : is_expect n (fun zs => Rabs (P zs - K) / 2) a).
  { eapply is_expect_ext; [|apply (TN_expect r omega alpha beta g n (1 + K) (fun y => Rabs (exp y - K) / 2)); [|exact Ho|exact Ha|exact Hb|exact Hh]].
    - intros zs _. cbn beta. now rewrite (proj1 (P_ln zs)).
    - split; [lra|]. split.
      + intros y q. apply (cont2_fst (fun y => Rabs (exp y - K) / 2)). unfold Rdiv. apply (continuous_mult (K := R_AbsRing) (fun y => Rabs (exp y - K)) (fun _ => / 2)); [|apply continuous_const].
        apply (continuous_comp (fun y => exp y - K) Rabs); [|apply (continuous_abs (K := R_AbsRing))]. apply (ex_derive_continuous (V := R_NormedModule)). auto_derive. exact Coq.Init.Logic.I.
      + intros y q. pose proof (exp_pos y). pose proof (Rabs_pos (exp y - K)). rewrite Rabs_pos_eq by lra. assert (Rabs (exp y - K) <= exp y + K) by (apply Rabs_le; lra). nra. }
  assert (HM0 := martingale S r omega alpha beta g h n Ho Ha Hb Hh HS). fold P in HM0.
  assert (H1 := is_expect_one n). assert (HF := is_expect_lin n _ _ _ _ (1 / 2) (- K / 2) HM0 H1). assert (HC := is_expect_lin n _ _ _ _ 1 1 HA HF). cbn beta in HC.
  set (c := 1 * a + 1 * (1 / 2 * (S * exp (r * INR n)) + - K / 2 * 1)) in *.
  assert (HCE : is_expect n (fun zs => Rmax (P zs - K) 0) c). { eapply is_expect_ext; [|exact HC]. intros zs _. cbn beta. rewrite <- pos_part. unfold P. field. }
  assert (HG := is_expect_lin n _ _ _ _ (-1) K HM0 H1). assert (HP := is_expect_lin n _ _ _ _ 1 1 HCE HG). cbn beta in HP.
  exists c, (1 * c + 1 * (-1 * (S * exp (r * INR n)) + K * 1)).
  assert (EN : INR n = IZR t) by (unfold n; rewrite INR_IZR_INZ, Z2Nat.id by lia; reflexivity).
  assert (EX : exp (- r * IZR t) * exp (r * INR n) = 1) by (rewrite EN, <- exp_plus; replace (- r * IZR t + r * IZR t) with 0 by ring; apply exp_0).
  assert (EC : hn_call quad o = Ok (exp (- r * IZR t) * c)).
  { unfold hn_call. assert (E1 : (lit 1 : R) = 1) by (toR; lra). assert (E0 : (lit 0 : R) = 0) by (toR; lra). assert (E2 : (lit 2 : R) = 2) by (toR; lra). rewrite E1, E0, E2, Q1, Q0. cbn [bind]. f_equal. cbn [h_S h_K h_t h_r o days_num].
    toR. unfold c. rewrite <- EL. set (e := exp (- r * IZR t)) in *. set (f := exp (r * INR n)) in *. replace S with (S * (e * f)) at 1 by (rewrite EX; ring). field. }
  split; [exact EC|]. split; [exact HCE|]. split.
  - unfold hn_put. rewrite EC. cbn [bind]. f_equal. cbn [h_S h_K h_t h_r o days_num]. toR. set (e := exp (- r * IZR t)) in *. set (f := exp (r * INR n)) in *. replace S with (S * (e * f)) at 1 by (rewrite EX; ring). ring.
  - eapply is_expect_ext; [|exact HP]. intros zs _. cbn beta. unfold P, Rmax. set (p := hn_price _ _ _ _ _ _ _ _ zs). destruct (Rle_dec (p - K) 0), (Rle_dec (K - p) 0); lra.
Qed.
End Price.

(** an exact integrator exists *)
Definition half_line_quad (f : R -> res R) : res R :=
  Ok (RInt_gen (fun x => match f x with Ok v => v | Err _ => 0 end) (at_right 0) (Rbar_locally p_infty)).
Lemma half_line_exact : exact_quad half_line_quad.
Proof.
  intros f g v Hf Hg. unfold half_line_quad. f_equal. apply (is_RInt_gen_unique (V := R_CompleteNormedModule)).
  eapply (is_RInt_gen_ext (V := R_NormedModule)); [|exact Hg].
  apply (Filter_prod _ _ _ (fun a => 0 < a) (fun b => 0 < b)); [exists (mkposreal 1 Rlt_0_1); intros; assumption|exists 0; intros; assumption|].
  intros a b Ha0 Hb0 x Hx. cbn [fst snd] in Hx. rewrite Hf; [reflexivity|]. unfold Rmin in Hx. destruct (Rle_dec a b) in Hx; lra.
Qed.

(*@ C50_price | With an integrator that returns the exact value of convergent half-line integrals, call() and put() return the discounted mean payoff of the option under the GARCH process started at its stationary variance *)
Lemma hn_price_thm : forall quad S K (t : Z) r lamb omega alpha beta gamma h,
  let g := gamma + lamb + 1 / 2 in
  0 < S -> 0 < K -> (1 <= t)%Z -> 0 < omega -> 0 <= alpha -> 0 <= beta -> alpha * g ^ 2 + beta < 1 ->
  0 <= h -> stationary omega alpha beta g h -> exact_quad quad ->
  let o := mkHn S K (DInt t) r (Some lamb) (Some omega) (Some alpha) (Some beta) (Some gamma) in
  let P := hn_price S (-1 / 2) omega alpha beta g r h in
  exists c p, is_expect (Z.to_nat t) (fun zs => Rmax (P zs - K) 0) c /\ hn_call quad o = Ok (exp (- r * IZR t) * c) /\
    is_expect (Z.to_nat t) (fun zs => Rmax (K - P zs) 0) p /\ hn_put quad o = Ok (exp (- r * IZR t) * p).
Proof.
  intros quad S K t r lamb omega alpha beta gamma h g HS HK Ht Ho Ha Hb Hp Hh Hst Hq o P.
  destruct (hn_price_mean S K r lamb omega alpha beta gamma h t HS HK Ht ltac:(lra) Ha Hb Hp Hh Hst quad Ho Hq) as (c & p & H1 & H2 & H3 & H4). exists c, p. auto.
Qed.

(*@ C50_strikes | With exact integration the prices across strikes are free of arbitrage: they lie between the discounted payoff of the forward and the stock price (call) or discounted strike (put), the call falls with the strike with slope at most the discount factor, and prices are convex in the strike *)
Lemma hn_strikes : forall quad S K K' w (t : Z) r lamb omega alpha beta gamma,
  let g := gamma + lamb + 1 / 2 in
  0 < S -> 0 < K <= K' -> 0 <= w <= 1 -> (1 <= t)%Z -> 0 < omega -> 0 <= alpha -> 0 <= beta -> alpha * g ^ 2 + beta < 1 -> exact_quad quad ->
  let o K := mkHn S K (DInt t) r (Some lamb) (Some omega) (Some alpha) (Some beta) (Some gamma) in
  exists c p c' cw, hn_call quad (o K) = Ok c /\ hn_put quad (o K) = Ok p /\ hn_call quad (o K') = Ok c' /\ hn_call quad (o (w * K + (1 - w) * K')) = Ok cw /\
    Rmax 0 (S - K * exp (- r * IZR t)) <= c <= S /\ Rmax 0 (K * exp (- r * IZR t) - S) <= p <= K * exp (- r * IZR t) /\
    0 <= c - c' <= exp (- r * IZR t) * (K' - K) /\ cw <= w * c + (1 - w) * c'.
Proof.
  intros quad S K K' w t r lamb omega alpha beta gamma g HS HK Hw Ht Ho Ha Hb Hp Hq o.
  set (h := (omega + alpha) / (1 - beta - alpha * g ^ 2)). assert (Hh : 0 <= h) by (apply Rmult_le_pos; [lra|left; apply Rinv_0_lt_compat; lra]).
  assert (Hst : stationary omega alpha beta g h) by (now apply stationary_iff).
  assert (X : forall K, 0 < K -> _) by exact (fun K HK => hn_price_thm quad S K t r lamb omega alpha beta gamma h HS HK Ht Ho Ha Hb Hp Hh Hst Hq). cbv zeta in X. fold g in X.
  assert (HKw : 0 < w * K + (1 - w) * K') by (destruct (Rle_dec w (1 / 2)); nra).
  destruct (X K ltac:(lra)) as (c & p & C1 & C2 & P1 & P2). destruct (X K' ltac:(lra)) as (c' & p' & C1' & C2' & P1' & P2'). destruct (X _ HKw) as (cw & pw & Cw & Cw2 & _ & _).
  set (e := exp (- r * IZR t)) in *. assert (He : 0 < e) by apply exp_pos.
  assert (HM := martingale S r omega alpha beta g h (Z.to_nat t) ltac:(lra) Ha Hb Hh HS). assert (H1 := is_expect_one (Z.to_nat t)).
  set (P := hn_price S (-1 / 2) omega alpha beta g r h) in *.
  assert (EX : e * exp (r * INR (Z.to_nat t)) = 1). { unfold e. rewrite INR_IZR_INZ, Z2Nat.id, <- exp_plus by lia. replace (- r * IZR t + r * IZR t) with 0 by ring. apply exp_0. }
  set (F := S * exp (r * INR (Z.to_nat t))) in *. assert (EF : e * F = S) by (unfold F; rewrite (Rmult_comm S), <- Rmult_assoc, EX; ring).
  assert (PP : forall zs, 0 < P zs) by (intro zs; apply Rmult_lt_0_compat; [exact HS|apply exp_pos]).
  assert (B0 : forall K c, 0 < K -> is_expect (Z.to_nat t) (fun zs => Rmax (P zs - K) 0) c -> 0 <= c /\ F - K <= c /\ c <= F).
  { clear - HM H1 PP. intros K c HK HC. repeat split.
    - assert (H0 := is_expect_lin _ _ _ _ _ 0 0 H1 H1).
      apply Rle_trans with (0 * 1 + 0 * 1); [lra|]. eapply is_expect_le; [|exact H0|exact HC]. intros zs _. cbn beta. generalize (Rmax_r (P zs - K) 0). lra.
    - assert (H0 := is_expect_lin _ _ _ _ _ 1 (- K) HM H1). apply Rle_trans with (1 * F + - K * 1); [lra|]. eapply is_expect_le; [|exact H0|exact HC]. intros zs _. cbn beta. generalize (Rmax_l (P zs - K) 0). lra.
    - eapply is_expect_le; [|exact HC|exact HM]. intros zs _. cbn beta. specialize (PP zs). apply Rmax_lub; lra. }
  exists (e * c), (e * p), (e * c'), (e * cw). split; [exact C2|]. split; [exact P2|]. split; [exact C2'|]. split; [exact Cw2|].
  destruct (B0 K c ltac:(lra) C1) as (B1 & B2 & B3).
  assert (EP : p = c - F + K).
  { eapply is_expect_unique; [exact P1|]. assert (H0 := is_expect_lin _ _ _ _ _ (-1) K HM H1). assert (H2 := is_expect_lin _ _ _ _ _ 1 1 C1 H0). cbn beta in H2.
    replace (c - F + K) with (1 * c + 1 * (-1 * F + K * 1)) by ring. eapply is_expect_ext; [|exact H2]. intros zs _. cbn beta. fold P. unfold Rmax. destruct (Rle_dec (P zs - K) 0), (Rle_dec (K - P zs) 0); lra. }
  assert (D1 : e * (F - K) <= e * c) by (apply Rmult_le_compat_l; lra). assert (D2 : e * c <= e * F) by (apply Rmult_le_compat_l; lra). assert (D3 : 0 <= e * c) by nra.
  assert (EP2 : e * p = e * c - S + K * e) by (rewrite EP; replace (e * (c - F + K)) with (e * c - e * F + K * e) by ring; rewrite EF; ring).
  assert (HP0 : 0 <= p). { rewrite EP. lra. }
  repeat split.
  - apply Rmax_lub; [exact D3|]. lra.
  - lra.
  - apply Rmax_lub; [nra|]. lra.
  - lra.
  - assert (c' <= c). { eapply is_expect_le; [|exact C1'|exact C1]. intros zs _. cbn beta. apply Rmax_lub; [eapply Rle_trans; [|apply Rmax_l]; lra|apply Rmax_r]. } nra.
  - assert (H0 := is_expect_lin _ _ _ _ _ 1 (K' - K) C1' H1). cbn beta in H0. assert (c <= 1 * c' + (K' - K) * 1).
    { eapply is_expect_le; [|exact C1|exact H0]. intros zs _. cbn beta. apply Rmax_lub; [generalize (Rmax_l (P zs - K') 0); lra|generalize (Rmax_r (P zs - K') 0); lra]. } nra.
  - assert (H0 := is_expect_lin _ _ _ _ _ w (1 - w) C1 C1'). cbn beta in H0. assert (cw <= w * c + (1 - w) * c').
    { eapply is_expect_le; [|exact Cw|exact H0]. intros zs _. cbn beta. apply Rmax_lub.
      - pose proof (Rmax_l (P zs - K) 0). pose proof (Rmax_l (P zs - K') 0). nra.
      - pose proof (Rmax_r (P zs - K) 0). pose proof (Rmax_r (P zs - K') 0). nra. }
    nra.
Qed.

(* ------------------------------------------------------------------ *)
(** * Constant variance *)
Lemma AB_const omega beta g r c phi h : omega + beta * h = h -> c = 0 \/ c = 1 -> 0 <= beta -> forall n,
  (A_ omega 0 beta g r (c, phi) n + B_ omega 0 beta g r (c, phi) n * h = RtoC (INR (Datatypes.S n)) * (r * (c, phi) + (- (c, phi) / 2 + (c, phi) * (c, phi) / 2) * h))%C.
Proof.
  intros Eh Hc Hb n. assert (Hcr : 0 <= Re (c, phi) <= 1) by (cbn; destruct Hc; lra). induction n as [|n IH].
  - rewrite A_0, B_0. cbn [INR]. ring.
  - assert (HB := B_neg omega 0 beta g r (Rle_refl 0) Hb (c, phi) Hcr n). rewrite (A_S omega 0 beta g r (Rle_refl 0) (c, phi) n HB), (B_S omega 0 beta g r (Rle_refl 0) (c, phi) n HB).
    assert (Ep : p_ omega 0 beta g r (c, phi) n = 1%C) by (unfold p_; ring). rewrite Ep.
    assert (EL : Cln 1 = 0%C). { unfold Cln. apply C_ext; cbn; [replace (1 * (1 * 1) + 0 * (0 * 1)) with 1 by ring; now rewrite sqrt_1, ln_1|replace (0 / 1) with 0 by field; apply atan_0]. }
    rewrite EL. set (A := A_ omega 0 beta g r (c, phi) n) in *. set (B := B_ omega 0 beta g r (c, phi) n) in *.
    assert (Eh' : (omega + beta * h)%C = RtoC h) by (rewrite <- Eh at 2; rewrite RtoC_plus, RtoC_mult; reflexivity).
    rewrite (S_INR (Datatypes.S n)), RtoC_plus. set (X := (c, phi) : C) in *. pose proof C2nz as Hn2.
    transitivity (A + B * (omega + beta * h) + r * X + (- X / 2 + X * X / 2) * h)%C; [clear - Hn2; rewrite C2 in *; field; exact Hn2|]. rewrite Eh', IH. ring.
Qed.
Lemma fHN_const S K (t : Z) r lamb lamb' omega beta gamma gamma' c phi : (1 <= t)%Z -> 0 <= beta < 1 -> c = 0 \/ c = 1 -> phi <> 0 ->
  let h := omega / (1 - beta) in
  fHN (mkHn S K (DInt t) r (Some lamb) (Some omega) (Some 0) (Some beta) (Some gamma)) c phi =
  fHN (mkHn S K (DInt 1) (r * IZR t) (Some lamb') (Some (h * IZR t)) (Some 0) (Some 0) (Some gamma')) c phi.
Proof.
  intros Ht Hb Hc Hphi h. unfold fHN.
  change (mkHn S K (DInt t) r _ _ _ _ _) with (hn_full S K t r lamb omega 0 beta gamma). change (mkHn S K (DInt 1) (r * IZR t) _ _ _ _ _) with (hn_full S K 1 (r * IZR t) lamb' (h * IZR t) 0 0 gamma').
  rewrite (fHN_closed S K t r lamb omega 0 beta gamma c phi Hphi), (fHN_closed S K 1 (r * IZR t) lamb' (h * IZR t) 0 0 gamma' c phi Hphi). cbn [rmap]. do 2 f_equal.
  set (g := gamma + lamb + 1 / 2). set (g' := gamma' + lamb' + 1 / 2).
  assert (Eh : (omega + 0) / (1 - beta - 0 * g ^ 2) = h) by (unfold h; field; lra). assert (Eh' : (h * IZR t + 0) / (1 - 0 - 0 * g' ^ 2) = h * IZR t) by field. rewrite Eh, Eh'.
  assert (Es : omega + beta * h = h) by (unfold h; field; lra). do 2 f_equal.
  rewrite (AB_const omega beta g r c phi h Es Hc ltac:(lra)), (AB_const (h * IZR t) 0 g' (r * IZR t) c phi (h * IZR t) ltac:(ring) Hc ltac:(lra)).
  replace (Z.to_nat (1 - 1)) with 0%nat by reflexivity. change (INR 1) with 1. assert (EI : INR (Datatypes.S (Z.to_nat (t - 1))) = IZR t). { rewrite INR_IZR_INZ. f_equal. lia. } rewrite EI.
  rewrite !RtoC_mult. f_equal. f_equal. ring.
Qed.
Definition bs_d1 (S K r h t : R) : R := (ln (S / K) + (r + h / 2) * t) / sqrt (h * t).
(** one day of the process: the mean payoff *)
Lemma one_day_mean S K r h g v : 0 < S -> 0 < K -> 0 < h -> is_expect 1 (fun zs => Rmax (hn_price S (-1 / 2) h 0 0 g r h zs - K) 0) v ->
  v = S * exp r * Phi (bs_d1 S K r h 1) - K * Phi (bs_d1 S K r h 1 - sqrt (h * 1)).
Proof.
  intros HS HK Hh (f & Hf & Hm). cbn [is_expect] in Hf. eapply is_mean_unique; [exact Hm|]. unfold is_mean.
  assert (HF := f_expect S K 1 0 r (sqrt h) HS HK Rlt_0_1 (sqrt_lt_R0 h Hh) true). cbv zeta in HF. rewrite !sqrt_1, !Rmult_1_r in HF.
  rewrite Ropp_0, exp_0 in HF. rewrite (pow2_sqrt h) in HF by lra.
  assert (Hq : 0 < sqrt h) by now apply sqrt_lt_R0. assert (Hqq : sqrt h * sqrt h = h) by (apply sqrt_sqrt; lra).
  assert (E1 : (ln (S / K) + (r - h / 2)) / sqrt h + sqrt h = bs_d1 S K r h 1). { unfold bs_d1. rewrite !Rmult_1_r. clear - Hq Hqq. revert Hq Hqq. generalize (sqrt h). intros q Hq Hqq. rewrite <- Hqq. field. lra. }
  assert (E2 : (ln (S / K) + (r - h / 2)) / sqrt h = bs_d1 S K r h 1 - sqrt (h * 1)) by (rewrite <- E1, Rmult_1_r; ring).
  rewrite E1, E2 in HF. rewrite !Rmult_1_l in HF. eapply (is_RInt_gen_ext (V := R_NormedModule)); [|exact HF].
  apply filter_forall. intros ab z _. cbn beta. rewrite <- (Hf z). unfold discounted. replace (- 0 * 1) with 0 by ring. rewrite exp_0, Rmult_1_l. f_equal.
  assert (ET : term S 1 r (sqrt h) z = hn_price S (-1 / 2) h 0 0 g r h [z]).
  { unfold term, hn_price, total. cbn [hn_returns fold_right]. rewrite sqrt_1, (pow2_sqrt h) by lra. f_equal. f_equal. field. }
  rewrite ET. apply Rmax_comm.
Qed.
Lemma const_call quad S K (t : Z) r lamb omega beta gamma : 0 < S -> 0 < K -> (1 <= t)%Z -> 0 < omega -> 0 <= beta < 1 -> exact_quad quad ->
  let h := omega / (1 - beta) in let d1 := bs_d1 S K r h (IZR t) in
  hn_call quad (mkHn S K (DInt t) r (Some lamb) (Some omega) (Some 0) (Some beta) (Some gamma)) = Ok (S * Phi d1 - K * exp (- r * IZR t) * Phi (d1 - sqrt (h * IZR t))).
Proof.
  intros HS HK Ht Ho Hb Hq h d1. set (o := mkHn _ _ _ _ _ _ _ _ _). assert (HT : 1 <= IZR t) by now apply IZR_le.
  assert (Hh : 0 < h) by (apply Rdiv_lt_0_compat; lra). assert (Hht : 0 < h * IZR t) by (apply Rmult_lt_0_compat; lra).
  set (o1 := mkHn S K (DInt 1) (r * IZR t) (Some 0) (Some (h * IZR t)) (Some 0) (Some 0) (Some 0)).
  set (g1 := 0 + 0 + 1 / 2). assert (Hp1 : 0 * g1 ^ 2 + 0 < 1) by lra.
  assert (Hst : stationary (h * IZR t) 0 0 g1 (h * IZR t)). { apply stationary_iff; [exact Hp1|lra|]. field. }
  assert (X : forall c, c = 0 \/ c = 1 -> quad (fHN o c) = quad (fHN o1 c)).
  { intros c Hc. destruct (hn_halves S K (r * IZR t) 0 (h * IZR t) 0 0 0 (h * IZR t) 1 HS HK ltac:(lia) ltac:(lra) ltac:(lra) ltac:(lra) Hp1 ltac:(lra) Hst c Hht Hc) as (L & _ & HL).
    assert (E1 : forall phi, 0 < phi -> fHN o1 c phi = Ok (JF (r * IZR t) (h * IZR t) 0 0 (0 + 0 + 1 / 2) (Z.to_nat 1) (ln S) (sqrt (h * IZR t)) (ln K) (wte c) phi)).
    { intros phi Hphi. exact (fHN_JF S K (r * IZR t) 0 (h * IZR t) 0 0 0 (h * IZR t) 1 HS HK ltac:(lia) ltac:(lra) ltac:(lra) ltac:(lra) Hp1 ltac:(lra) Hst c phi Hc Hphi). }
    rewrite (Hq _ _ _ E1 HL). apply (Hq _ _ _ (fun phi Hphi => eq_trans (fHN_const S K t r lamb 0 omega beta gamma 0 c phi Ht Hb Hc ltac:(lra)) (E1 phi Hphi)) HL). }
  assert (E1 : (lit 1 : R) = 1) by (toR; lra). assert (E0 : (lit 0 : R) = 0) by (toR; lra).
  assert (EC : hn_call quad o = hn_call quad o1).
  { unfold hn_call. rewrite E1, E0, (X 1), (X 0) by auto. unfold o, o1. cbn [h_S h_K h_t h_r days_num].
    destruct (quad _) as [v1|]; cbn [bind]; [|reflexivity]. destruct (quad _) as [v0|]; cbn [bind]; [|reflexivity]. f_equal. toR. replace (- (r * IZR t) * 1) with (- r * IZR t) by ring. reflexivity. }
  rewrite EC. destruct (hn_price_thm quad S K 1 (r * IZR t) 0 (h * IZR t) 0 0 0 (h * IZR t) HS HK ltac:(lia) Hht ltac:(lra) ltac:(lra) Hp1 ltac:(lra) Hst Hq) as (c & p & C1 & C2 & _ & _).
  fold o1 in C2. rewrite C2. f_equal. change (Z.to_nat 1) with 1%nat in C1. apply one_day_mean in C1; [|assumption..]. rewrite C1.
  assert (ED : bs_d1 S K (r * IZR t) (h * IZR t) 1 = d1). { unfold d1, bs_d1. rewrite !Rmult_1_r. apply (f_equal (fun x => x / sqrt (h * IZR t))). field. }
  rewrite ED, (Rmult_1_r (h * IZR t)). replace (- (r * IZR t) * 1) with (- r * IZR t) by ring. assert (EX : exp (- r * IZR t) * exp (r * IZR t) = 1) by (rewrite <- exp_plus; replace (- r * IZR t + r * IZR t) with 0 by ring; apply exp_0).
  set (e := exp (- r * IZR t)) in *. set (f := exp (r * IZR t)) in *. replace (S * Phi d1) with (S * (e * f) * Phi d1) by (rewrite EX; ring). ring.
Qed.
(*@ C50_black_scholes | Without volatility clustering (alpha = 0) the exact price is the Black-Scholes price with daily variance omega/(1-beta): the option nests the constant-volatility model *)
Lemma hn_black_scholes : forall quad S K (t : Z) r lamb omega beta gamma, 0 < S -> 0 < K -> (1 <= t)%Z -> 0 < omega -> 0 <= beta < 1 -> exact_quad quad ->
  let s := sqrt (omega / (1 - beta)) in
  let d1 := (ln (S / K) + (r + s ^ 2 / 2) * IZR t) / (s * sqrt (IZR t)) in let d2 := d1 - s * sqrt (IZR t) in
  let o := mkHn S K (DInt t) r (Some lamb) (Some omega) (Some 0) (Some beta) (Some gamma) in
  hn_call quad o = Ok (S * Phi d1 - K * exp (- r * IZR t) * Phi d2) /\
  hn_put quad o = Ok (K * exp (- r * IZR t) * Phi (- d2) - S * Phi (- d1)).
Proof.
  intros quad S K t r lamb omega beta gamma HS HK Ht Ho Hb Hq s d1 d2 o. assert (HT : 1 <= IZR t) by now apply IZR_le.
  assert (Hh : 0 < omega / (1 - beta)) by (apply Rdiv_lt_0_compat; lra).
  assert (EC := const_call quad S K t r lamb omega beta gamma HS HK Ht Ho Hb Hq). cbv zeta in EC. fold o in EC. unfold bs_d1 in EC. rewrite sqrt_mult in EC by lra. fold s in EC.
  assert (E1 : omega / (1 - beta) / 2 = s ^ 2 / 2) by (unfold s; rewrite pow2_sqrt by lra; reflexivity). rewrite E1 in EC. fold d1 in EC. fold d2 in EC. split; [exact EC|].
  unfold hn_put. rewrite EC. cbn [bind]. f_equal. cbn [h_S h_K h_t h_r o days_num]. toR. rewrite !Phi_opp. ring.
Qed.
(** the same for the mean over the process *)
Lemma const_mean S K r h g n : 0 < S -> 0 < K -> 0 < h -> (1 <= n)%nat ->
  is_expect n (fun zs => Rmax (hn_price S (-1 / 2) h 0 0 g r h zs - K) 0)
    (S * exp (r * INR n) * Phi (bs_d1 S K r h (INR n)) - K * Phi (bs_d1 S K r h (INR n) - sqrt (h * INR n))).
Proof.
  intros HS HK Hh Hn. set (t := Z.of_nat n). assert (Ht : (1 <= t)%Z) by (unfold t; lia). assert (Hp : 0 * (g - 1 / 2 + 0 + 1 / 2) ^ 2 + 0 < 1) by lra.
  assert (Hst : stationary h 0 0 (g - 1 / 2 + 0 + 1 / 2) h). { apply stationary_iff; [exact Hp|lra|]. field. }
  destruct (hn_price_thm half_line_quad S K t r 0 h 0 0 (g - 1 / 2) h HS HK Ht Hh (Rle_refl 0) (Rle_refl 0) Hp ltac:(lra) Hst half_line_exact) as (c & p & C1 & C2 & _ & _).
  assert (EC := const_call half_line_quad S K t r 0 h 0 (g - 1 / 2) HS HK Ht Hh ltac:(lra) half_line_exact). cbv zeta in EC. replace (h / (1 - 0)) with h in EC by field.
  rewrite EC in C2. apply Ok_inj in C2. assert (En : Z.to_nat t = n) by (unfold t; apply Nat2Z.id). rewrite En in C1. assert (EI : IZR t = INR n) by (unfold t; symmetry; apply INR_IZR_INZ).
  rewrite EI in C2. replace (g - 1 / 2 + 0 + 1 / 2) with g in C1 by field. evar_last; [exact C1|].
  assert (EX : exp (r * INR n) * exp (- r * INR n) = 1) by (rewrite <- exp_plus; replace (r * INR n + - r * INR n) with 0 by ring; apply exp_0).
  set (e := exp (- r * INR n)) in *. set (f := exp (r * INR n)) in *. assert (C3 : f * (e * c) = f * (S * Phi (bs_d1 S K r h (INR n)) - K * e * Phi (bs_d1 S K r h (INR n) - sqrt (h * INR n)))) by now rewrite C2.
  rewrite <- Rmult_assoc, EX in C3. rewrite Rmult_1_l in C3. rewrite C3. replace (f * (S * Phi (bs_d1 S K r h (INR n)) - K * e * Phi (bs_d1 S K r h (INR n) - sqrt (h * INR n)))) with (S * f * Phi (bs_d1 S K r h (INR n)) - K * (f * e) * Phi (bs_d1 S K r h (INR n) - sqrt (h * INR n))) by ring.
  rewrite EX. ring.
Qed.
