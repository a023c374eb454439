(** Further facts about the closed forms, collected for Props_Vanilla.v. *)
From Coq Require Import Reals QArith Qreals ZArith Bool List Lra Lia Psatz.
From Coquelicot Require Import Coquelicot.
From Verif Require Import Num Py MBase MVanilla PCnd PCnd2 PBlack PGauss PGbs PGbs2 PGbs3 PCndAcc PVol.
Import ListNotations.
Open Scope R_scope.

Lemma gbs_no_sigma (S K t r b : R) (call : bool) :
  let o := GBSOption S K t r b None in
  gbs_call o = Err ValueError /\ gbs_put o = Err ValueError /\
  gbs_delta call o = Err ValueError /\ gbs_theta call o = Err ValueError /\
  gbs_vega o = Err ValueError /\ gbs_rho call o = Err ValueError /\
  gbs_lamb call o = Err ValueError /\ gbs_gamma o = Err ValueError /\
  gbs_cofc call o = Err ValueError /\ gbs_greeks call o = Err ValueError.
Proof. repeat split; reflexivity. Qed.

Lemma cnd_distribution :
  (forall x, 0 < cnd x < 1) /\
  (forall x y, x < y -> cnd x < cnd y) /\
  (forall x, cnd x + cnd (- x) = 1) /\
  cnd 0 = 1 / 2 /\
  (forall eps, 0 < eps -> exists A, 0 < A /\ forall x, A < x -> 1 - eps < cnd x) /\
  (forall eps, 0 < eps -> exists A, A < 0 /\ forall x, x < A -> cnd x < eps).
Proof.
  split; [exact cnd_range|]. split; [exact cnd_incr|]. split; [exact cnd_sym|].
  split; [exact cnd_0|]. split; [exact cnd_lim_pos|exact cnd_lim_neg].
Qed.

Lemma ndf_gaussian x : ndf x = exp (- (x ^ 2) / 2) / sqrt (2 * PI) /\ is_derive Phi x (ndf x).
Proof. rewrite ndf_npdf. split; [reflexivity|apply Phi_derive]. Qed.

Lemma Phi_meaning x :
  Phi x = 1 / 2 + RInt (fun u => exp (- (u ^ 2) / 2) / sqrt (2 * PI)) 0 x /\
  Phi x + Phi (- x) = 1 /\ 0 < Phi x < 1 /\
  (0 < x -> 1 - Phi x <= exp (- (x ^ 2) / 2)).
Proof.
  split; [reflexivity|]. split; [apply Phi_sym|]. split; [split; [apply Phi_gt_0|apply Phi_lt_1]|].
  intros; now apply Phi_tail.
Qed.

Lemma greeks_are_derivatives S K t r b sigma (call : bool) :
  0 < S -> 0 < K -> 0 < t -> 0 < sigma ->
  let o := GBSOption S K t r b (Some sigma) in
  (exists d, gbs_delta_F Phi call o = Ok d /\
     is_price_greek Phi call (fun x => x) (fun _ => K) (fun _ => t) (fun _ => r) (fun _ => b) (fun _ => sigma) S d) /\
  (exists d, gbs_vega_F o = Ok d /\
     is_price_greek Phi call (fun _ => S) (fun _ => K) (fun _ => t) (fun _ => r) (fun _ => b) (fun x => x) sigma d) /\
  (exists d, gbs_theta_F Phi call o = Ok d /\
     is_price_greek Phi call (fun _ => S) (fun _ => K) (fun x => x) (fun _ => r) (fun _ => b) (fun _ => sigma) t (- d)) /\
  (exists d, gbs_cofc_F Phi call o = Ok d /\
     is_price_greek Phi call (fun _ => S) (fun _ => K) (fun _ => t) (fun _ => r) (fun x => x) (fun _ => sigma) b d) /\
  (b <> 0 -> exists d, gbs_rho_F Phi call o = Ok d /\
     is_price_greek Phi call (fun _ => S) (fun _ => K) (fun _ => t) (fun x => r + x) (fun x => b + x) (fun _ => sigma) 0 d) /\
  (b = 0 -> exists d, gbs_rho_F Phi call o = Ok d /\
     is_price_greek Phi call (fun _ => S) (fun _ => K) (fun _ => t) (fun x => x) (fun _ => b) (fun _ => sigma) r d) /\
  (exists d (g : R -> R), gbs_gamma_F o = Ok d /\
     (forall x, 0 < x -> gbs_delta_F Phi call (GBSOption x K t r b (Some sigma)) = Ok (g x)) /\
     is_derive g S d).
Proof.
  intros HS HK Ht Hs o.
  split; [apply greek_delta; auto using Phi_derive, Phi_sym|].
  split; [apply greek_vega; auto using Phi_derive, Phi_sym|].
  split; [apply greek_theta; auto using Phi_derive, Phi_sym|].
  split; [apply greek_cofc; auto using Phi_derive, Phi_sym|].
  split; [intros Hb; apply greek_rho; auto using Phi_derive, Phi_sym|].
  split; [intros Hb; apply greek_rho0; auto using Phi_derive, Phi_sym|].
  apply greek_gamma; auto using Phi_derive, Phi_sym.
Qed.

Lemma diff2 (F G : R -> R) (a b x y e : R) : 0 <= a -> 0 <= b -> (forall x, Rabs (F x - G x) <= e) ->
  Rabs ((a * F x - b * F y) - (a * G x - b * G y)) <= (a + b) * e.
Proof.
  intros Ha Hb H. replace (a * F x - b * F y - (a * G x - b * G y)) with (a * (F x - G x) + b * (G y - F y)) by ring.
  eapply Rle_trans; [apply Rabs_triang|]. rewrite !Rabs_mult, (Rabs_pos_eq a), (Rabs_pos_eq b) by easy.
  rewrite (Rabs_minus_sym (G y)). generalize (H x) (H y). intros. nra.
Qed.

Lemma gbs_price_accuracy S K t r b sigma (call : bool) :
  0 < S -> 0 < K -> 0 < t -> sigma <> 0 ->
  exists approx exact,
    (if call then gbs_call else gbs_put) (GBSOption S K t r b (Some sigma)) = Ok approx /\
    (if call then gbs_call_F Phi else gbs_put_F Phi) (GBSOption S K t r b (Some sigma)) = Ok exact /\
    Rabs (approx - exact) <= (S * exp ((b - r) * t) + K * exp (- r * t)) * (75 / 10 ^ 9).
Proof.
  intros HS HK Ht Hs. assert (PA := fwd_pos S t r b HS). assert (PB := strk_pos K t r HK).
  destruct call.
  - do 2 eexists. split; [apply call_link; auto|]. split; [apply call_link; auto|].
    apply diff2; try lra. apply cnd_accuracy.
  - do 2 eexists. split; [apply put_link; auto|]. split; [apply put_link; auto|].
    rewrite Rplus_comm. apply diff2; try lra. apply cnd_accuracy.
Qed.

Lemma gbs_greek_accuracy S K t r b sigma (call : bool) :
  0 < S -> 0 < K -> 0 < t -> sigma <> 0 ->
  let o := GBSOption S K t r b (Some sigma) in
  exists de de' th th' co co',
    gbs_delta call o = Ok de /\ gbs_delta_F Phi call o = Ok de' /\
    gbs_theta call o = Ok th /\ gbs_theta_F Phi call o = Ok th' /\
    gbs_cofc call o = Ok co /\ gbs_cofc_F Phi call o = Ok co' /\
    Rabs (de - de') <= exp ((b - r) * t) * (75 / 10 ^ 9) /\
    Rabs (th - th') <= (Rabs (b - r) * S * exp ((b - r) * t) + Rabs r * K * exp (- r * t)) * (75 / 10 ^ 9) /\
    Rabs (co - co') <= t * S * exp ((b - r) * t) * (75 / 10 ^ 9).
Proof.
  intros HS HK Ht Hs o. unfold o. gbs_open.
  assert (E1 := exp_pos ((b - r) * t)). assert (E2 := exp_pos (- r * t)).
  assert (M : forall a x, Rabs (a * cnd x - a * Phi x) <= Rabs a * (75 / 10 ^ 9)).
  { intros. rewrite <- Rmult_minus_distr_l, Rabs_mult. apply Rmult_le_compat_l; [apply Rabs_pos|apply cnd_accuracy]. }
  do 6 eexists. repeat (split; [reflexivity|]).
  cbn [g_S g_K g_t g_r g_b g_sigma g_d1 g_d2]; toR.
  set (d1 := gbs_d1 S K t b sigma). set (d2 := gbs_d2 S K t b sigma).
  set (X := exp ((b - r) * t)) in *. set (Y := exp (- r * t)) in *.
  assert (AX : Rabs X = X) by (apply Rabs_pos_eq; lra).
  assert (AT : forall p q, Rabs ((b - r) * S * X * cnd p - (b - r) * S * X * Phi p)
     + Rabs (r * K * Y * cnd q - r * K * Y * Phi q) <= (Rabs (b - r) * S * X + Rabs r * K * Y) * (75 / 10 ^ 9)).
  { intros p q. generalize (M ((b - r) * S * X) p) (M (r * K * Y) q).
    rewrite !Rabs_mult, AX, (Rabs_pos_eq S), (Rabs_pos_eq K), (Rabs_pos_eq Y) by lra. lra. }
  split; [|split].
  - destruct call; [generalize (M X d1)|generalize (M X d1)]; rewrite AX; intros G; [exact G|].
    eapply Rle_trans; [|exact G]. right. f_equal. ring.
  - destruct call.
    + eapply Rle_trans; [|apply (AT d1 d2)]. eapply Rle_trans; [|apply Rabs_triang].
      right. rewrite <- Rabs_Ropp. f_equal. ring.
    + eapply Rle_trans; [|apply (AT (- d1) (- d2))]. eapply Rle_trans; [|apply Rabs_triang].
      right. f_equal. ring.
  - assert (Z : 0 < t * S * X) by (apply Rmult_lt_0_compat; [apply Rmult_lt_0_compat|]; lra).
    destruct call.
    + generalize (M (t * S * X) d1). rewrite (Rabs_pos_eq (t * S * X)) by lra. easy.
    + generalize (M (- t * S * X) (- d1)). replace (Rabs (- t * S * X)) with (t * S * X); [easy|].
      rewrite <- (Rabs_pos_eq (t * S * X)) at 1 by lra. rewrite <- Rabs_Ropp. f_equal. ring.
Qed.

Lemma gbs_greek_signs S K t r b sigma :
  0 < S -> 0 < K -> 0 < t -> 0 < sigma ->
  let o := GBSOption S K t r b (Some sigma) in
  exists dc dp ve ga kc kp lc lp,
    gbs_delta true o = Ok dc /\ gbs_delta false o = Ok dp /\
    gbs_vega o = Ok ve /\ gbs_gamma o = Ok ga /\
    gbs_cofc true o = Ok kc /\ gbs_cofc false o = Ok kp /\
    gbs_lamb true o = Ok lc /\ gbs_lamb false o = Ok lp /\
    0 < dc < exp ((b - r) * t) /\ - exp ((b - r) * t) < dp < 0 /\
    0 < ve /\ 0 < ga /\ 0 < kc /\ kp < 0 /\ 1 < lc /\ lp < 0.
Proof.
  intros HS HK Ht Hs o. assert (P := sqrt_t_pos t Ht).
  destruct (gbs_relations S K t r b sigma HS HK Ht Hs) as
    (c & p & dc & dp & tc & tp & ve & ga & rc & rp & kc & kp & lc & lp &
     Ec & Ep & Edc & Edp & Etc & Etp & Eve & Ega & Erc & Erp & Ekc & Ekp & Elc & Elp &
     R1 & R2 & R3 & R4 & R5 & R6 & R7 & R8 & R9).
  destruct (gbs_bounds S K t r b sigma HS HK Ht Hs) as (c' & p' & Ec' & Ep' & Bc & Bp).
  rewrite Ec in Ec'. rewrite Ep in Ep'. apply Ok_inj in Ec'. apply Ok_inj in Ep'. subst c' p'.
  exists dc, dp, ve, ga, kc, kp, lc, lp.
  repeat (split; [assumption|]).
  assert (Pc : 0 < c) by (eapply Rle_lt_trans; [|apply Bc]; apply Rmax_l).
  assert (Pp : 0 < p) by (eapply Rle_lt_trans; [|apply Bp]; apply Rmax_l).
  set (d1 := gbs_d1 S K t b sigma). set (d2 := gbs_d2 S K t b sigma).
  set (X := exp ((b - r) * t)) in *. assert (PX : 0 < X) by apply exp_pos.
  assert (Vdc : dc = X * cnd d1).
  { revert Edc. unfold o. gbs_open. intros G. apply Ok_inj in G. now rewrite <- G. }
  assert (Vc : c = S * X * cnd d1 - K * exp (- r * t) * cnd d2).
  { revert Ec. unfold o. gbs_open. intros G. apply Ok_inj in G. now rewrite <- G. }
  assert (Vga : 0 < ga).
  { revert Ega. unfold o. gbs_open. intros G. apply Ok_inj in G. rewrite <- G.
    apply Rdiv_lt_0_compat.
    - apply Rmult_lt_0_compat; [easy|]. rewrite ndf_npdf. apply npdf_pos.
    - apply Rmult_lt_0_compat; [|easy]. now apply Rmult_lt_0_compat. }
  assert (D1 := cnd_range d1). assert (D2 := cnd_range d2). assert (PK := strk_pos K t r HK).
  assert (Hdc : 0 < dc < X) by (rewrite Vdc; split; nra).
  assert (Hdp : - X < dp < 0) by lra.
  assert (0 < t * S) by now apply Rmult_lt_0_compat.
  split; [lra|]. split; [lra|].
  split. { rewrite R3. repeat apply Rmult_lt_0_compat; auto. simpl; lra. }
  split; [easy|]. split; [nra|]. split; [nra|]. split.
  - assert (c < lc * c); [|nra]. rewrite R8, Vdc, Vc. nra.
  - assert (lp * p < 0); [rewrite R9; nra|nra].
Qed.

Lemma gbs_greeks_dict T (N : Num T) (S K t r b sigma : T) (call : bool) :
  let o := GBSOption S K t r b (Some sigma) in
  exists de th ve rh la ga co,
    gbs_delta call o = Ok de /\ gbs_theta call o = Ok th /\ gbs_vega o = Ok ve /\
    gbs_rho call o = Ok rh /\ gbs_lamb call o = Ok la /\ gbs_gamma o = Ok ga /\
    gbs_cofc call o = Ok co /\
    gbs_greeks call o = Ok [de; th; ve; rh; la; ga; co].
Proof.
  destruct call; do 7 eexists; repeat (split; [reflexivity|]); reflexivity.
Qed.

(* ------------------------------------------------------------------ *)
(** * Black76 *)

Lemma lit0 : lit 0 = 0.
Proof. toR. lra. Qed.

Lemma b76_all FT K t r sigma : 0 < FT -> 0 < K -> 0 < t -> 0 < sigma ->
  let o := Black76Option FT K t r (Some sigma) in
  exists c p rc rp tc tp dc dp ga,
    gbs_call o = Ok c /\ gbs_put o = Ok p /\ gbs_rho true o = Ok rc /\ gbs_rho false o = Ok rp /\
    gbs_theta true o = Ok tc /\ gbs_theta false o = Ok tp /\
    gbs_delta true o = Ok dc /\ gbs_delta false o = Ok dp /\ gbs_gamma o = Ok ga /\
    c - p = exp (- r * t) * (FT - K) /\
    exp (- r * t) * Rmax 0 (FT - K) < c < exp (- r * t) * FT /\
    exp (- r * t) * Rmax 0 (K - FT) < p < exp (- r * t) * K /\
    dc - dp = exp (- r * t) /\
    rc = - t * c /\ rp = - t * p /\
    tc = r * c - / 2 * sigma ^ 2 * FT ^ 2 * ga /\ tp = r * p - / 2 * sigma ^ 2 * FT ^ 2 * ga /\
    gbs_put (Black76Option K FT t r (Some sigma)) = Ok c.
Proof.
  intros HF HK Ht Hs o. unfold o, Black76Option. rewrite lit0.
  destruct (gbs_relations FT K t r 0 sigma HF HK Ht Hs) as
    (c & p & dc & dp & tc & tp & ve & ga & rc & rp & kc & kp & lc & lp &
     Ec & Ep & Edc & Edp & Etc & Etp & Eve & Ega & Erc & Erp & Ekc & Ekp & Elc & Elp &
     R1 & R2 & R3 & R4 & R5 & R6 & R7 & R8 & R9).
  destruct (gbs_bounds FT K t r 0 sigma HF HK Ht Hs) as (c' & p' & Ec' & Ep' & Bc & Bp).
  rewrite Ec in Ec'. rewrite Ep in Ep'. apply Ok_inj in Ec'. apply Ok_inj in Ep'. subst c' p'.
  destruct (gbs_parity FT K t r 0 sigma HF HK Ht ltac:(lra)) as (c' & p' & Ec' & Ep' & PR).
  rewrite Ec in Ec'. rewrite Ep in Ep'. apply Ok_inj in Ec'. apply Ok_inj in Ep'. subst c' p'.
  destruct (gbs_pde FT K t r 0 sigma true HF HK Ht Hs) as (c' & d' & g' & t' & Ec' & Ed' & Eg' & Et' & PC).
  rewrite Ec in Ec'. rewrite Ega in Eg'. rewrite Etc in Et'. apply Ok_inj in Ec'. apply Ok_inj in Eg'. apply Ok_inj in Et'. subst c' g' t'.
  destruct (gbs_pde FT K t r 0 sigma false HF HK Ht Hs) as (c' & d2' & g' & t' & Ec' & Ed2' & Eg' & Et' & PP).
  rewrite Ep in Ec'. rewrite Ega in Eg'. rewrite Etp in Et'. apply Ok_inj in Ec'. apply Ok_inj in Eg'. apply Ok_inj in Et'. subst c' g' t'.
  destruct (R7 eq_refl) as [R7a R7b].
  replace ((0 - r) * t) with (- r * t) in * by ring.
  set (X := exp (- r * t)) in *. assert (PX : 0 < X) by apply exp_pos.
  assert (M1 : Rmax 0 (FT * X - K * X) = X * Rmax 0 (FT - K)).
  { rewrite <- RmaxRmult by lra. f_equal; ring. }
  assert (M2 : Rmax 0 (K * X - FT * X) = X * Rmax 0 (K - FT)).
  { rewrite <- RmaxRmult by lra. f_equal; ring. }
  rewrite M1 in Bc. rewrite M2 in Bp.
  exists c, p, rc, rp, tc, tp, dc, dp, ga.
  repeat (split; [assumption|]). repeat (split; [lra|]).
  assert (D := gbs_dual FT K t r 0 sigma HF HK Ht Hs). rewrite Ec in D. rewrite D.
  f_equal. f_equal; ring.
Qed.
