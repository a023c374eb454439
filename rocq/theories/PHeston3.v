(** Heston-Nandi option: parity, Greeks, scaling, error cases (C50, C51). *)
From Coq Require Import Reals ZArith QArith Qreals Lra Lia.
From Coquelicot Require Import Coquelicot.
From Coq Require Import List Bool.
From Verif Require Import Num Py MAmerican MMonte MHeston SMonte SHeston PCnd PCnd2 PGauss PMonte4 PCplx PHnGauss PHeston PHeston2.
Import ListNotations.
Open Scope R_scope.

(*@ C50_martingale | Under the process the option is priced with, the discounted price is a martingale: the mean terminal price is S e^(r t) *)
Lemma hn_martingale : forall S r lamb omega alpha beta gamma h (n : nat),
  let g := gamma + lamb + 1 / 2 in
  0 < S -> 0 <= omega -> 0 <= alpha -> 0 <= beta -> 0 <= h ->
  is_expect n (hn_price S (-1 / 2) omega alpha beta g r h) (S * exp (r * INR n)).
Proof. intros. now apply martingale. Qed.

(*@ C50_float_days_refuted | A number of days given as a float, as in the documentation, makes every price and Greek raise TypeError *)
Lemma hn_float_days : forall quad S K x r lamb omega alpha beta gamma call, extensional quad -> strict quad ->
  let o := mkHn S K (DFloat x) r (Some lamb) (Some omega) (Some alpha) (Some beta) (Some gamma) in
  hn_call quad o = Err TypeError /\ hn_put quad o = Err TypeError /\ hn_delta quad call o = Err TypeError /\ hn_gamma quad o = Err TypeError.
Proof.
  intros quad S K x r lamb omega alpha beta gamma call He Hs o.
  assert (E : forall c, quad (fHN o c) = Err TypeError) by (intro c; rewrite <- (Hs TypeError); apply He; reflexivity).
  assert (E1 : forall c, quad (fdeltaHN o c) = Err TypeError) by (intro c; rewrite <- (Hs TypeError); apply He; reflexivity).
  assert (E2 : forall c, quad (fgammaHN o c) = Err TypeError) by (intro c; rewrite <- (Hs TypeError); apply He; reflexivity).
  assert (EC : hn_call quad o = Err TypeError) by (unfold hn_call; now rewrite E).
  repeat split; [exact EC|unfold hn_put; now rewrite EC|unfold hn_delta; now rewrite E1|unfold hn_gamma; now rewrite E2].
Qed.
(*@ C50_missing | An option created without its parameters (the defaults are None) raises TypeError from every price and Greek *)
Lemma hn_missing : forall quad (o : hn R) call, extensional quad -> strict quad ->
  h_lamb o = None \/ h_omega o = None \/ h_alpha o = None \/ h_beta o = None \/ h_gamma o = None ->
  hn_call quad o = Err TypeError /\ hn_put quad o = Err TypeError /\ hn_delta quad call o = Err TypeError /\ hn_gamma quad o = Err TypeError.
Proof.
  intros quad o call He Hs Ho.
  assert (F : forall phi c, fHN_complex o phi c = Err TypeError).
  { intros phi c. clear - Ho. destruct o as [S0 K0 t0 r0 [l|] [w|] [al|] [b|] [g|]]; cbn in Ho; try reflexivity. exfalso. destruct Ho as [H|[H|[H|[H|H]]]]; discriminate. }
  assert (E : forall c, quad (fHN o c) = Err TypeError) by (intro c; rewrite <- (Hs TypeError); apply He; intro phi; unfold fHN; now rewrite F).
  assert (E1 : forall c, quad (fdeltaHN o c) = Err TypeError) by (intro c; rewrite <- (Hs TypeError); apply He; intro phi; unfold fdeltaHN; now rewrite F).
  assert (E2 : forall c, quad (fgammaHN o c) = Err TypeError) by (intro c; rewrite <- (Hs TypeError); apply He; intro phi; unfold fgammaHN; now rewrite F).
  assert (EC : hn_call quad o = Err TypeError) by (unfold hn_call; now rewrite E).
  repeat split; [exact EC|unfold hn_put; now rewrite EC|unfold hn_delta; now rewrite E1|unfold hn_gamma; now rewrite E2].
Qed.

(*@ C51_parity | Call minus put is S - K e^(-r t) and the deltas differ by one, whatever the integrator returns; a put has a price exactly when the call has *)
Lemma hn_parity : forall quad (o : hn R) (t : Z), h_t o = DInt t ->
  (forall e, hn_call quad o = Err e <-> hn_put quad o = Err e) /\
  (forall c p, hn_call quad o = Ok c -> hn_put quad o = Ok p -> c - p = h_S o - h_K o * exp (- h_r o * IZR t)) /\
  (forall d d', hn_delta quad true o = Ok d -> hn_delta quad false o = Ok d' -> d - d' = 1).
Proof.
  intros quad o t Ht. repeat split.
  - intro H. unfold hn_put. now rewrite H.
  - unfold hn_put. destruct (hn_call quad o) as [c|e']; cbn; [discriminate|congruence].
  - intros c p H1 H2. unfold hn_put in H2. rewrite H1 in H2. cbn [bind] in H2. apply Ok_inj in H2. subst p. rewrite Ht. cbn. ring.
  - intros d d' H1 H2. unfold hn_delta in *. destruct (quad (fdeltaHN o (lit 1))); [|discriminate]. cbn [bind] in *. destruct (quad (fdeltaHN o (lit 0))); [|discriminate]. cbn [bind] in *.
    apply Ok_inj in H1, H2. subst d d'. toR. lra.
Qed.

(** ** Greeks *)
Section Greek.
Variables K r lamb omega alpha beta gamma : R.
Variable t : Z.
Let g := gamma + lamb + 1 / 2.
Let h := (omega + alpha) / (1 - beta - alpha * g ^ 2).
Definition kern (c phi : R) (S : R) : C :=
  (Cexp ((0, - (phi * ln K))%R + (c, phi) * ln S + (A_ omega alpha beta g r (c, phi) (Z.to_nat (t - 1)) + B_ omega alpha beta g r (c, phi) (Z.to_nat (t - 1)) * h))%C / (0, phi)%R / PI)%C.
Lemma kern_der c phi S : 0 < S -> cder (kern c phi) S ((c, phi) * kern c phi S / S)%C.
Proof.
  intro HS. unfold kern.
  set (w := (0, - (phi * ln K))%R). set (v := (A_ omega alpha beta g r (c, phi) (Z.to_nat (t - 1)) + B_ omega alpha beta g r (c, phi) (Z.to_nat (t - 1)) * h)%C).
  assert (D1 : cder (fun S => (w + (c, phi) * ln S + v)%C) S ((c, phi) * RtoC (/ S))%C).
  { eapply cder_eq; [|apply (cder_plus (fun S => (w + (c, phi) * ln S)%C) (fun _ => v)); [apply (cder_plus (fun _ => w)); [apply cder_const|apply cder_scal; apply (cder_real ln S (/ S)); apply is_derive_Reals, derivable_pt_lim_ln; exact HS]|apply cder_const]].
    ring. }
  eapply cder_ext; [|eapply cder_eq; [|apply (cder_scal (/ (0, phi)%R * / PI)%C _ S _ (cder_exp _ _ _ D1))]].
  - intro x. cbn beta. unfold Cdiv. ring.
  - cbn beta. unfold Cdiv. rewrite RtoC_inv by lra. ring.
Qed.
Definition opt (S : R) : hn R := mkHn S K (DInt t) r (Some lamb) (Some omega) (Some alpha) (Some beta) (Some gamma).
Lemma fHN_kern c phi S : phi <> 0 -> fHN_complex (opt S) phi c = Ok (kern c phi S).
Proof. intro Hp. apply (fHN_closed S K t r lamb omega alpha beta gamma c phi Hp). Qed.
Lemma Ep (c phi : R) : cadd (lit 0, phi) (cre c) = (c, phi). Proof. apply C_ext; toR; cbn; lra. Qed.
Lemma fdelta_kern c phi S : 0 < S -> phi <> 0 -> fdeltaHN (opt S) c phi = Ok (Re ((c, phi) * kern c phi S / S)%C).
Proof.
  intros HS Hp. unfold fdeltaHN. rewrite fHN_kern by exact Hp. cbn [bind]. rewrite Ep, cmul_C. f_equal. cbn [opt h_S]. rewrite cdivr_C by lra. reflexivity.
Qed.
Lemma fgamma_kern c phi S : 0 < S -> phi <> 0 -> fgammaHN (opt S) c phi = Ok (Re ((c, phi) * ((c, phi) - 1) * kern c phi S / (S * S))%C).
Proof.
  intros HS Hp. unfold fgammaHN. rewrite fHN_kern by exact Hp. cbn [bind]. rewrite Ep. f_equal. cbn [opt h_S].
  assert (E2 : (S ^ 2)%num = S * S) by (toR; cbn; ring). rewrite E2. rewrite cdivr_C by nra.
  assert (E1 : cre (lit 1) = RtoC 1) by (rewrite cre_C; f_equal; toR; lra). rewrite E1, RtoC_mult. reflexivity.
Qed.
Lemma price_der c phi S : 0 < S -> is_derive (fun S => Re (kern c phi S)) S (Re ((c, phi) * kern c phi S / S)%C).
Proof. intro HS. apply (proj1 (kern_der c phi S HS)). Qed.
Lemma delta_der c phi S : 0 < S -> is_derive (fun S => Re ((c, phi) * kern c phi S / S)%C) S (Re ((c, phi) * ((c, phi) - 1) * kern c phi S / (S * S))%C).
Proof.
  intro HS. assert (HS0 : RtoC S <> 0%C) by (intro E; injection E; lra).
  assert (D : cder (fun S => ((c, phi) * kern c phi S * RtoC (/ S))%C) S ((c, phi) * ((c, phi) - 1) * kern c phi S / (S * S))%C).
  { eapply cder_eq; [|apply (cder_mult (fun S => ((c, phi) * kern c phi S)%C) (fun S => RtoC (/ S))); [apply cder_scal, kern_der, HS|apply (cder_real (fun x => / x) S (- / (S * S)))]].
    - rewrite RtoC_opp, RtoC_inv, RtoC_inv, RtoC_mult by (try nra; lra). field. exact HS0.
    - auto_derive; [lra|]. field. lra. }
  eapply is_derive_ext_loc; [|apply (proj1 D)]. exists (mkposreal S HS). intros y Hy. unfold ball in Hy. cbn in Hy. unfold AbsRing_ball, abs, minus, plus, opp in Hy. cbn in Hy.
  apply Rabs_def2 in Hy. cbn beta. unfold Cdiv. rewrite RtoC_inv by lra. reflexivity.
Qed.
Fixpoint wsum (nodes : list (R * R)) (f : R -> R) : R := match nodes with [] => 0 | (w, x) :: l => w * f x + wsum l f end.
Lemma rule_ok nodes F f : Forall (fun p => snd p <> 0) nodes -> (forall x, x <> 0 -> F x = Ok (f x)) -> rule nodes F = Ok (wsum nodes f).
Proof. intros Hn HF. induction Hn as [|[w x] l Hx _ IH]; [reflexivity|]. cbn [rule wsum]. rewrite HF by exact Hx. now rewrite IH. Qed.
Lemma wsum_der nodes (f df : R -> R -> R) S : (forall x, is_derive (fun S => f S x) S (df S x)) -> is_derive (fun S => wsum nodes (f S)) S (wsum nodes (df S)).
Proof.
  intro H. induction nodes as [|[w x] l IH]; cbn [wsum]; [apply (is_derive_const (K := R_AbsRing) (V := R_NormedModule))|].
  apply (is_derive_plus (K := R_AbsRing) (V := R_NormedModule) (fun S => w * f S x)); [|exact IH]. apply (is_derive_scal (fun S => f S x) S w (df S x)). apply H.
Qed.
End Greek.

(*@ C51_greeks | With any fixed quadrature rule (nodes off zero) delta is the derivative of the price with respect to S and gamma the derivative of delta *)
Lemma hn_greeks : forall nodes K (t : Z) r lamb omega alpha beta gamma, Forall (fun p => snd p <> 0) nodes ->
  let o S := mkHn S K (DInt t) r (Some lamb) (Some omega) (Some alpha) (Some beta) (Some gamma) in
  exists price delta gamma' : R -> R,
    (forall S, 0 < S -> hn_call (rule nodes) (o S) = Ok (price S) /\ hn_delta (rule nodes) true (o S) = Ok (delta S) /\ hn_gamma (rule nodes) (o S) = Ok (gamma' S)) /\
    forall S, 0 < S -> is_derive price S (delta S) /\ is_derive delta S (gamma' S).
Proof.
  intros nodes K t r lamb omega alpha beta gamma Hn o.
  set (k := kern K r lamb omega alpha beta gamma t). set (D := exp (- r * IZR t)).
  exists (fun S => S / 2 + D * wsum nodes (fun x => Re (k 1 x S)) - K * D * (1 / 2 + wsum nodes (fun x => Re (k 0 x S)))).
  exists (fun S => 1 / 2 + D * wsum nodes (fun x => Re ((1, x) * k 1 x S / S)%C) - K * D * wsum nodes (fun x => Re ((0, x) * k 0 x S / S)%C)).
  exists (fun S => D * wsum nodes (fun x => Re ((1, x) * ((1, x) - 1) * k 1 x S / (S * S))%C) - K * D * wsum nodes (fun x => Re ((0, x) * ((0, x) - 1) * k 0 x S / (S * S))%C)).
  assert (L1 : (lit 1 : R) = 1) by (toR; lra). assert (L0 : (lit 0 : R) = 0) by (toR; lra). assert (L2 : (lit 2 : R) = 2) by (toR; lra).
  split.
  - intros S HS. change (o S) with (opt K r lamb omega alpha beta gamma t S). split; [|split].
    + unfold hn_call. rewrite L1, L0.
      rewrite (rule_ok nodes _ (fun x => Re (k 1 x S)) Hn) by (intros x Hx; unfold fHN; rewrite fHN_kern by exact Hx; reflexivity).
      rewrite (rule_ok nodes _ (fun x => Re (k 0 x S)) Hn) by (intros x Hx; unfold fHN; rewrite fHN_kern by exact Hx; reflexivity).
      cbn [bind opt h_S h_K h_r h_t days_num]. rewrite L2. reflexivity.
    + unfold hn_delta. rewrite L1, L0.
      rewrite (rule_ok nodes _ (fun x => Re ((1, x) * k 1 x S / S)%C) Hn) by (intros x Hx; rewrite fdelta_kern by assumption; reflexivity).
      rewrite (rule_ok nodes _ (fun x => Re ((0, x) * k 0 x S / S)%C) Hn) by (intros x Hx; rewrite fdelta_kern by assumption; reflexivity).
      cbn [bind opt h_S h_K h_r h_t days_num]. rewrite L2. reflexivity.
    + unfold hn_gamma. rewrite L1, L0.
      rewrite (rule_ok nodes _ (fun x => Re ((1, x) * ((1, x) - 1) * k 1 x S / (S * S))%C) Hn) by (intros x Hx; rewrite fgamma_kern by assumption; reflexivity).
      rewrite (rule_ok nodes _ (fun x => Re ((0, x) * ((0, x) - 1) * k 0 x S / (S * S))%C) Hn) by (intros x Hx; rewrite fgamma_kern by assumption; reflexivity).
      reflexivity.
  - intros S HS. split.
    + assert (H1 := wsum_der nodes (fun S x => Re (k 1 x S)) (fun S x => Re ((1, x) * k 1 x S / S)%C) S (fun x => price_der K r lamb omega alpha beta gamma t 1 x S HS)).
      assert (H0 := wsum_der nodes (fun S x => Re (k 0 x S)) (fun S x => Re ((0, x) * k 0 x S / S)%C) S (fun x => price_der K r lamb omega alpha beta gamma t 0 x S HS)).
      evar_last. { apply (is_derive_minus (fun S => S / 2 + D * wsum nodes (fun x => Re (k 1 x S))) (fun S => K * D * (1 / 2 + wsum nodes (fun x => Re (k 0 x S))))).
        - apply (is_derive_plus (fun S => S / 2) (fun S => D * wsum nodes (fun x => Re (k 1 x S)))); [auto_derive; [exact Coq.Init.Logic.I|reflexivity]|apply (is_derive_scal (fun S => wsum nodes (fun x => Re (k 1 x S)))); exact H1].
        - apply (is_derive_scal (fun S => 1 / 2 + wsum nodes (fun x => Re (k 0 x S)))). apply (is_derive_plus (fun _ => 1 / 2) (fun S => wsum nodes (fun x => Re (k 0 x S)))); [apply (is_derive_const (K := R_AbsRing) (V := R_NormedModule))|exact H0]. }
      hier. unfold minus, plus, opp, zero. cbn. field.
    + assert (H1 := wsum_der nodes (fun S x => Re ((1, x) * k 1 x S / S)%C) (fun S x => Re ((1, x) * ((1, x) - 1) * k 1 x S / (S * S))%C) S (fun x => delta_der K r lamb omega alpha beta gamma t 1 x S HS)).
      assert (H0 := wsum_der nodes (fun S x => Re ((0, x) * k 0 x S / S)%C) (fun S x => Re ((0, x) * ((0, x) - 1) * k 0 x S / (S * S))%C) S (fun x => delta_der K r lamb omega alpha beta gamma t 0 x S HS)).
      evar_last. { apply (is_derive_minus (fun S => 1 / 2 + D * wsum nodes (fun x => Re ((1, x) * k 1 x S / S)%C)) (fun S => K * D * wsum nodes (fun x => Re ((0, x) * k 0 x S / S)%C))).
        - apply (is_derive_plus (fun _ => 1 / 2) (fun S => D * wsum nodes (fun x => Re ((1, x) * k 1 x S / S)%C))); [apply (is_derive_const (K := R_AbsRing) (V := R_NormedModule))|apply (is_derive_scal (fun S => wsum nodes (fun x => Re ((1, x) * k 1 x S / S)%C))); exact H1].
        - apply (is_derive_scal (fun S => wsum nodes (fun x => Re ((0, x) * k 0 x S / S)%C))). exact H0. }
      hier. unfold minus, plus, opp, zero. cbn. unfold k. ring.
Qed.

Lemma kern_scale K r lamb omega alpha beta gamma t c phi S a : 0 < a -> 0 < S -> 0 < K ->
  kern (a * K) r lamb omega alpha beta gamma t c phi (a * S) = (RtoC (exp (c * ln a)) * kern K r lamb omega alpha beta gamma t c phi S)%C.
Proof.
  intros Ha HS HK. unfold kern. rewrite !ln_mult by assumption. set (X := (A_ _ _ _ _ _ _ _ + _)%C).
  replace ((0, - (phi * (ln a + ln K)))%R + (c, phi) * RtoC (ln a + ln S)%R + X)%C with (RtoC (c * ln a)%R + ((0, - (phi * ln K))%R + (c, phi) * ln S + X))%C by (apply C_ext; cbn; ring).
  rewrite Cexp_plus, Cexp_real. unfold Cdiv. ring.
Qed.
(*@ C51_homogeneous | Scaling the stock price and the strike scales the prices and leaves delta as it is, for every integrator that is linear and does not look at the integrand at 0 *)
Lemma hn_homogeneous : forall quad S K a (t : Z) r lamb omega alpha beta gamma call,
  (forall f g : R -> res R, (forall x, x <> 0 -> f x = g x) -> quad f = quad g) -> scales quad -> 0 < S -> 0 < K -> 0 < a ->
  let o S K := mkHn S K (DInt t) r (Some lamb) (Some omega) (Some alpha) (Some beta) (Some gamma) in
  hn_call quad (o (a * S) (a * K)) = rmap (Rmult a) (hn_call quad (o S K)) /\
  hn_put quad (o (a * S) (a * K)) = rmap (Rmult a) (hn_put quad (o S K)) /\
  hn_delta quad call (o (a * S) (a * K)) = hn_delta quad call (o S K).
Proof.
  intros quad S K a t r lamb omega alpha beta gamma call He Hs HS HK Ha o.
  assert (HaS : 0 < a * S) by now apply Rmult_lt_0_compat.
  assert (O1 : o S K = opt K r lamb omega alpha beta gamma t S) by reflexivity. assert (O2 : o (a * S) (a * K) = opt (a * K) r lamb omega alpha beta gamma t (a * S)) by reflexivity.
  assert (L1 : (lit 1 : R) = 1) by (toR; lra). assert (L0 : (lit 0 : R) = 0) by (toR; lra). assert (L2 : (lit 2 : R) = 2) by (toR; lra).
  assert (K1 : forall x, kern (a * K) r lamb omega alpha beta gamma t 1 x (a * S) = (RtoC a * kern K r lamb omega alpha beta gamma t 1 x S)%C) by (intro x; rewrite kern_scale, Rmult_1_l, exp_ln by assumption; reflexivity).
  assert (K0 : forall x, kern (a * K) r lamb omega alpha beta gamma t 0 x (a * S) = kern K r lamb omega alpha beta gamma t 0 x S) by (intro x; rewrite kern_scale, Rmult_0_l, exp_0 by assumption; ring).
  assert (HaC : RtoC a <> 0%C) by (intro E; injection E; lra). assert (HSC : RtoC S <> 0%C) by (intro E; injection E; lra).
  assert (Q1 : quad (fHN (o (a * S) (a * K)) 1) = rmap (Rmult a) (quad (fHN (o S K) 1))).
  { rewrite <- Hs. apply He. intros x Hx. unfold fHN. rewrite O1, O2, !fHN_kern by exact Hx. rewrite K1. cbn [rmap]. f_equal. set (k := kern K _ _ _ _ _ _ _ _ _ _). clearbody k. destruct k. cbn. ring. }
  assert (Q0 : quad (fHN (o (a * S) (a * K)) 0) = quad (fHN (o S K) 0)).
  { apply He. intros x Hx. unfold fHN. rewrite O1, O2, !fHN_kern by exact Hx. now rewrite K0. }
  assert (D1 : quad (fdeltaHN (o (a * S) (a * K)) 1) = quad (fdeltaHN (o S K) 1)).
  { apply He. intros x Hx. rewrite O1, O2, !fdelta_kern by assumption. rewrite K1, RtoC_mult. do 2 f_equal. field. split; assumption. }
  assert (D0 : quad (fdeltaHN (o (a * S) (a * K)) 0) = rmap (Rmult (/ a)) (quad (fdeltaHN (o S K) 0))).
  { rewrite <- Hs. apply He. intros x Hx. rewrite O1, O2, !fdelta_kern by assumption. rewrite K0. cbn [rmap]. f_equal.
    replace ((0, x) * kern K r lamb omega alpha beta gamma t 0 x S / RtoC (a * S)%R)%C with (RtoC (/ a) * ((0, x) * kern K r lamb omega alpha beta gamma t 0 x S / S))%C by (rewrite RtoC_mult, RtoC_inv by lra; field; split; assumption).
    set (k := ((0, x) * _ / S)%C). clearbody k. destruct k. cbn. ring. }
  assert (HC : hn_call quad (o (a * S) (a * K)) = rmap (Rmult a) (hn_call quad (o S K))).
  { unfold hn_call. rewrite L1, L0, Q1, Q0. destruct (quad (fHN (o S K) 1)) as [v1|e1]; [|reflexivity]. cbn [rmap bind]. destruct (quad (fHN (o S K) 0)) as [v0|e0]; [|reflexivity]. cbn [rmap bind].
    apply f_equal. cbn [o h_S h_K h_r h_t days_num]. rewrite L2. toR. field. }
  repeat split; [exact HC| |].
  - unfold hn_put. rewrite HC. destruct (hn_call quad (o S K)) as [v|e]; [|reflexivity]. cbn [rmap bind]. apply f_equal. cbn [o h_S h_K h_r h_t days_num]. toR. ring.
  - unfold hn_delta. rewrite L1, L0, D1, D0. destruct (quad (fdeltaHN (o S K) 1)) as [v1|e1]; [|reflexivity]. cbn [rmap bind]. destruct (quad (fdeltaHN (o S K) 0)) as [v0|e0]; [|reflexivity]. cbn [rmap bind].
    apply f_equal. cbn [o h_S h_K h_r h_t days_num]. toR. destruct call; field; lra.
Qed.
