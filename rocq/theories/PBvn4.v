(** Accuracy of the bivariate normal routine for all arguments, and of the Roll-Geske-Whaley price. *)
From Coq Require Import Reals QArith Qreals ZArith Bool List Lra Lia Psatz.
From Coquelicot Require Import Coquelicot.
From Verif Require Import Num Py MBase MVanilla MAmerican PCnd PCnd2 PCndAcc PGauss PBlack PGbs PMonte4 PHeston PExpect SHeston SAmerican SAmerican2 PRgw PRgw2 PCbnd PBvn PBvn2 PBvn3.
Open Scope R_scope.

Lemma Rsgn_sign x : Rsgn x = sign x.
Proof. unfold Rsgn. destruct (Rlt_dec 0 x); [now rewrite sign_eq_1 by lra|]. destruct (Rlt_dec x 0); [now rewrite sign_eq_m1 by lra|]. replace x with 0 by lra. now rewrite sign_0. Qed.
Lemma brho_in rho : -1 < rho < 1 -> brho rho = rho.
Proof.
  intro H. unfold brho. destruct (Reqb (Rabs rho) 1) eqn:E; [apply Reqb_true in E|reflexivity].
  destruct (Rle_dec 0 rho); [rewrite Rabs_pos_eq in E by lra|rewrite Rabs_left in E by lra]; lra.
Qed.

Section Acc.
Variable M : R -> R -> R -> R.
Hypothesis HM : bivariate_normal M.
Lemma q3_acc a b rho : a <= 0 -> b <= 0 -> -1 < rho <= 0 -> - (6 / 10 ^ 7) <= q3 a b rho - M a b rho <= 6 / 10 ^ 7.
Proof. intros. apply Rabs_le_between. now apply base_accuracy. Qed.
Lemma cnd_acc x : - (75 / 10 ^ 9) <= cnd x - Phi x <= 75 / 10 ^ 9.
Proof. apply Rabs_le_between. apply cnd_accuracy. Qed.
Lemma base4_acc a b rho : -1 < rho < 1 -> a * b * rho <= 0 -> Rabs (base4 a b rho - M a b rho) <= 75 / 10 ^ 8 /\ (b = 0 -> Rabs (base4 a b rho - M a b rho) <= 675 / 10 ^ 9).
Proof.
  intros Hr H. apply sign3 in H. pose proof (cnd_acc a) as Ca. pose proof (cnd_acc b) as Cb. unfold base4. rewrite brho_in by exact Hr.
  assert (FA : forall a b, M a b rho = Phi b - M (- a) b (- rho)) by (intros; rewrite (M_flip_a M HM a0 b0 rho Hr); ring).
  assert (FB : forall a b, M a b rho = Phi a - M a (- b) (- rho)) by (intros; rewrite (M_flip_b M HM a0 b0 rho Hr); ring).
  assert (FC : M a b rho = Phi a + Phi b - 1 + M (- a) (- b) rho) by (apply (M_flip M HM a b rho Hr)).
  assert (Z : b = 0 -> cnd b = Phi b) by (intros ->; rewrite cnd_0, Phi_0; reflexivity).
  assert (Q1 : a <= 0 -> b <= 0 -> rho <= 0 -> - (6 / 10 ^ 7) <= q3 a b rho - M a b rho <= 6 / 10 ^ 7) by (intros; apply q3_acc; lra).
  assert (Q2 : a <= 0 -> 0 <= b -> 0 <= rho -> - (6 / 10 ^ 7) <= q3 a (- b) (- rho) - M a (- b) (- rho) <= 6 / 10 ^ 7) by (intros; apply q3_acc; lra).
  assert (Q3 : 0 <= a -> b <= 0 -> 0 <= rho -> - (6 / 10 ^ 7) <= q3 (- a) b (- rho) - M (- a) b (- rho) <= 6 / 10 ^ 7) by (intros; apply q3_acc; lra).
  assert (Q4 : 0 <= a -> 0 <= b -> rho <= 0 -> - (6 / 10 ^ 7) <= q3 (- a) (- b) rho - M (- a) (- b) rho <= 6 / 10 ^ 7) by (intros; apply q3_acc; lra).
  specialize (FA a b). specialize (FB a b).
  split; [|intro B0; specialize (Z B0)]; apply Rabs_le; rdec; try lra;
  try (specialize (Q1 ltac:(lra) ltac:(lra) ltac:(lra)); lra); try (specialize (Q2 ltac:(lra) ltac:(lra) ltac:(lra)); lra);
  try (specialize (Q3 ltac:(lra) ltac:(lra) ltac:(lra)); lra); try (specialize (Q4 ltac:(lra) ltac:(lra) ltac:(lra)); lra).
Qed.
Lemma full_acc a b rho : -1 < rho < 1 -> Rabs (full a b rho - M a b rho) <= 135 / 10 ^ 8 /\ (a * b * rho <= 0 -> Rabs (full a b rho - M a b rho) <= 75 / 10 ^ 8).
Proof.
  intro Hr. unfold full. rewrite brho_in by exact Hr. cbv zeta. destruct (Rle_dec (a * b * rho) 0) as [H|H].
  - destruct (base4_acc a b rho Hr H) as [B _]. split; [lra|auto].
  - split; [|intro; contradiction]. assert (Ha : a <> 0) by (intros ->; lra). assert (Hb : b <> 0) by (intros ->; lra).
    destruct (M_reduce M HM a b rho Hr Ha Hb) as ((R1 & R2) & E). rewrite !Rsgn_sign.
    set (q := sqrt (a ^ 2 - 2 * rho * a * b + b ^ 2)) in *. set (rho1 := (rho * a - b) * sign a / q) in *. set (rho2 := (rho * b - a) * sign b / q) in *. rewrite E.
    destruct (base4_acc a 0 rho1 R1 ltac:(lra)) as [_ B1]. destruct (base4_acc b 0 rho2 R2 ltac:(lra)) as [_ B2]. specialize (B1 eq_refl). specialize (B2 eq_refl).
    apply Rabs_le_between in B1. apply Rabs_le_between in B2. apply Rabs_le. lra.
Qed.
Lemma bivariate_full a b rho : bivariate a b rho = full a b rho.
Proof. unfold bivariate. now rewrite cbnd_value. Qed.
End Acc.

(*@ C73_accuracy | For all real limits and every correlation strictly between -1 and 1 the bivariate normal routine is within 1.35e-6 of the true distribution function of two correlated standard normal variables, and within 7.5e-7 when the product of its three arguments is not positive (no reduction step needed). *)
Lemma cbnd_accuracy : forall M a b rho, bivariate_normal M -> -1 < rho < 1 ->
  exists v, cbnd a b rho = Some v /\ Rabs (v - M a b rho) <= 135 / 10 ^ 8 /\ (a * b * rho <= 0 -> Rabs (v - M a b rho) <= 75 / 10 ^ 8).
Proof. intros M a b rho HM Hr. exists (full a b rho). split; [apply cbnd_value|]. now apply full_acc. Qed.

(** ** The Roll-Geske-Whaley price *)
Lemma rgw_dist M x K t td r D s Ic : bivariate_normal M -> 0 < x -> 0 < K -> 0 < td < t ->
  Rabs (rgw_price cnd bivariate x K t td r D s Ic - rgw_price Phi M x K t td r D s Ic) <= 15 / 10 ^ 7 * (x + K * exp (- r * t) + Rabs (K - D) * exp (- r * td)).
Proof.
  intros HM Hx HK Ht. unfold rgw_price. cbv zeta. set (b1 := (ln (x / Ic) + _) / _). set (b2 := b1 - _). set (a1 := (ln (x / K) + _) / _). set (a2 := a1 - _). set (rho := - sqrt (td / t)).
  assert (Hr : -1 < rho < 1).
  { assert (0 < td / t < 1) by (split; [apply Rdiv_lt_0_compat; lra|apply Rmult_lt_reg_r with t; [lra|]; unfold Rdiv; rewrite Rmult_assoc, Rinv_l by lra; lra]).
    unfold rho. assert (0 < sqrt (td / t)) by (apply sqrt_lt_R0; lra). assert (sqrt (td / t) < 1) by (rewrite <- sqrt_1; apply sqrt_lt_1; lra). lra. }
  assert (A : forall a b, Rabs (bivariate a b rho - M a b rho) <= 135 / 10 ^ 8) by (intros; rewrite bivariate_full; now apply full_acc).
  assert (C1 := cnd_accuracy b1). assert (C2 := cnd_accuracy b2). assert (A1 := A a1 (- b1)). assert (A2 := A a2 (- b2)).
  pose proof (exp_pos (- r * t)). pose proof (exp_pos (- r * td)). set (e := exp (- r * t)) in *. set (e' := exp (- r * td)) in *.
  replace (x * cnd b1 + x * bivariate a1 (- b1) rho - K * e * bivariate a2 (- b2) rho - (K - D) * e' * cnd b2 - (x * Phi b1 + x * M a1 (- b1) rho - K * e * M a2 (- b2) rho - (K - D) * e' * Phi b2))
    with ((x * (cnd b1 - Phi b1) + x * (bivariate a1 (- b1) rho - M a1 (- b1) rho)) + (- (K * e) * (bivariate a2 (- b2) rho - M a2 (- b2) rho) + - ((K - D) * e') * (cnd b2 - Phi b2))) by ring.
  assert (T : forall k u c w, Rabs u <= c -> Rabs k = w -> Rabs (k * u) <= w * c) by (intros k u c w U <-; rewrite Rabs_mult; apply Rmult_le_compat_l; [apply Rabs_pos|exact U]).
  assert (X1 := T x _ _ x C1 (Rabs_pos_eq x ltac:(lra))). assert (X2 := T x _ _ x A1 (Rabs_pos_eq x ltac:(lra))).
  assert (P : 0 < K * e) by now apply Rmult_lt_0_compat.
  assert (X3 := T (- (K * e)) _ _ (K * e) A2). specialize (X3 ltac:(rewrite Rabs_Ropp, Rabs_pos_eq; lra)).
  assert (X4 := T (- ((K - D) * e')) _ _ (Rabs (K - D) * e') C2). specialize (X4 ltac:(rewrite Rabs_Ropp, Rabs_mult, (Rabs_pos_eq e'); lra)).
  assert (0 <= Rabs (K - D) * e') by (apply Rmult_le_pos; [apply Rabs_pos|lra]).
  eapply Rle_trans; [apply Rabs_triang|]. eapply Rle_trans; [apply Rplus_le_compat; apply Rabs_triang|]. lra.
Qed.

(*@ C73_rgw_formula | Hence the Roll-Geske-Whaley formula evaluated with the library's two distribution functions is within 1.5e-6 (x + K e^{-rt} + |K - D| e^{-r td}) of the formula with the exact ones, whatever the critical price. *)
Lemma rgw_distributions : forall M x K t td r D s Ic, bivariate_normal M -> 0 < x -> 0 < K -> 0 < td < t ->
  Rabs (rgw_price cnd bivariate x K t td r D s Ic - rgw_price Phi M x K t td r D s Ic) <= 15 / 10 ^ 7 * (x + K * exp (- r * t) + Rabs (K - D) * exp (- r * td)).
Proof. exact rgw_dist. Qed.

Lemma black_call_cnd x K tau r s : 0 < x -> 0 < K -> 0 < tau -> 0 < s ->
  Rabs (bcall cnd x (K * exp (- r * tau)) (s * sqrt tau) - black_call x K tau r s) <= 75 / 10 ^ 9 * (x + K * exp (- r * tau)).
Proof.
  intros Hx HK Ht Hs. rewrite black_call_bcall by assumption. unfold bcall. set (B := K * exp (- r * tau)). set (v := s * sqrt tau).
  assert (HB : 0 < B) by (apply Rmult_lt_0_compat; [exact HK|apply exp_pos]). assert (C1 := cnd_accuracy (bd1 x B v)). assert (C2 := cnd_accuracy (bd2 x B v)).
  apply Rabs_le_between in C1. apply Rabs_le_between in C2. apply Rabs_le. split; nra.
Qed.
Lemma black_call_mono K tau r s y1 y2 : 0 < K -> 0 < tau -> 0 < s -> 0 < y1 -> y1 <= y2 -> black_call y1 K tau r s <= black_call y2 K tau r s.
Proof.
  intros HK Ht Hs H1 H2. destruct H2 as [H2| ->]; [|lra]. rewrite !black_call_bcall by lra. set (B := K * exp (- r * tau)). set (v := s * sqrt tau).
  assert (HB : 0 < B) by (apply Rmult_lt_0_compat; [exact HK|apply exp_pos]). assert (Hv : 0 < v) by (apply Rmult_lt_0_compat; [exact Hs|now apply sqrt_lt_R0]).
  assert (D : forall y, y1 <= y -> is_derive (fun y => bcall Phi y B v) y (Phi (bd1 y B v))).
  { intros y Hy. evar_last; [apply (bcall_derive Phi (fun y => y) (fun _ => B) (fun _ => v) 1 0 0 y Phi_derive)|cbn; ring];
    [apply (is_derive_id (K := R_AbsRing))|apply (is_derive_const (K := R_AbsRing) (V := R_NormedModule))|apply (is_derive_const (K := R_AbsRing) (V := R_NormedModule))|lra|exact HB|exact Hv]. }
  destruct (MVT_gen (fun y => bcall Phi y B v) y1 y2 (fun y => Phi (bd1 y B v))) as (c & Hc & E).
  - intros y Hy. rewrite Rmin_left, Rmax_right in Hy by lra. apply D. lra.
  - intros y Hy. rewrite Rmin_left, Rmax_right in Hy by lra. apply derivable_continuous_pt. eexists. apply is_derive_Reals. apply D. lra.
  - pose proof (Phi_gt_0 (bd1 c B v)). assert (0 <= Phi (bd1 c B v) * (y2 - y1)) by (apply Rmult_le_pos; lra). lra.
Qed.
(*@ C73_rgw_value | End to end: when early exercise may be optimal, the dividend does not exceed the strike, the stock price is at most 1e8 and exercising is right at every price from 0.5e8 to 1e8, call() returns a price p that differs from the true value of the American call on a stock with one known dividend (the discounted mean of the better of exercising just before the dividend and holding on) by at most the discounted tolerance of the search, 1e-5 + 7.5e-8 (Ic + K e^{-r(t-td)}), plus the error of the distribution functions, 1.5e-6 (x + K e^{-rt} + (K - D) e^{-r td}). *)
Lemma rgw_value : forall M S K t td r D s V, bivariate_normal M -> 0 < S <= 10 ^ 8 -> 0 < K -> 0 < td < t -> 0 < s -> D <= K ->
  0 < S - D * exp (- r * td) ->
  rgw_is_call_optimal (mkRgw S K t td r D (Some s)) = true ->
  (forall x d, 10 ^ 8 / 2 < x <= 10 ^ 8 -> holding_gain K t td r D s x d -> d <= 0) ->
  is_mean (fun z => let X := stock_after (S - D * exp (- r * td)) r s td z in Rmax (X + D - K) (black_call X K (t - td) r s)) V ->
  exists n p Ic, 0 < Ic /\
    (forall f1 f2, (n <= f1)%nat -> (n <= f2)%nat -> rgw_call f1 f2 (mkRgw S K t td r D (Some s)) = Ok p) /\
    let search := / 10 ^ 5 + 75 / 10 ^ 9 * (Ic + / 10 ^ 5 + K * exp (- r * (t - td))) in
    let dist := 15 / 10 ^ 7 * (S - D * exp (- r * td) + K * exp (- r * t) + (K - D) * exp (- r * td)) in
    Rabs (black_call Ic K (t - td) r s - (Ic + D - K)) <= search /\
    exp (- r * td) * V - exp (- r * td) * search - dist <= p <= exp (- r * td) * V + dist.
Proof.
  intros M S K t td r D s V HM HS HK Ht Hs HD Hx Ho Hcap HV.
  set (tau := t - td). assert (Htau : 0 < tau) by (unfold tau; lra). set (B := K * exp (- r * tau)). assert (HB : 0 < B) by (apply Rmult_lt_0_compat; [exact HK|apply exp_pos]).
  set (g := fun x => bcall cnd x B (s * sqrt tau)). set (G := fun x => black_call x K tau r s).
  assert (Hv : 0 < s * sqrt tau) by (apply Rmult_lt_0_compat; [exact Hs|now apply sqrt_lt_R0]).
  assert (HG : forall x d, 0 < x -> holding_gain K t td r D s x d -> d = g x - (x + D - K)).
  { intros x d X (c & Hc & ->). change (gbs_c x K (t - td) r r (Some s) = Ok c) in Hc. rewrite gap_call in Hc by (try exact Hs; try exact X; try exact HK; lra). injection Hc as <-. reflexivity. }
  assert (HE : forall x, 0 < x -> exists d, holding_gain K t td r D s x d).
  { intros x X. eexists. exists (bcall cnd x B (s * sqrt tau)). split; [|reflexivity]. change (gbs_c x K (t - td) r r (Some s) = Ok (bcall cnd x B (s * sqrt tau))). apply gap_call; try assumption; lra. }
  assert (HA : forall x, 0 < x -> g x - G x <= 75 / 10 ^ 9 * (x + B) /\ - (75 / 10 ^ 9 * (x + B)) <= g x - G x).
  { intros x X. assert (A := black_call_cnd x K tau r s X HK Htau Hs). fold B in A. apply Rabs_le_between in A. unfold g, G. lra. }
  destruct (rgw_search_thm S K t td r D s ltac:(lra) HK ltac:(lra) Hs Ho) as (n & [([C|(x & d & X & Hd & Hp)] & _)|(L & H & HL & BL & BH & BE & HR)]).
  - lra.
  - specialize (Hcap x d ltac:(lra) Hd). lra.
  - set (Ic := (H + L) / 2) in *.
    assert (HI0 : 0 < Ic) by (unfold Ic; lra).
    assert (HgH : g H - (H + D - K) <= 0).
    { destruct BH as [E|(d & Hd & Dle)].
      - destruct (HE H ltac:(lra)) as (d & Hd). assert (Z := Hcap H d ltac:(lra) Hd). rewrite (HG H d ltac:(lra) Hd) in Z. exact Z.
      - rewrite (HG H d ltac:(lra) Hd) in Dle. exact Dle. }
    assert (SR : Rabs (G Ic - (Ic + D - K)) <= / 10 ^ 5 + 75 / 10 ^ 9 * (Ic + / 10 ^ 5 + B)).
    { destruct (HA Ic HI0) as [A1 A2]. assert (q5 : 0 < / 10 ^ 5) by lra. destruct BE as [W|(d & Hd & W)].
      - assert (S1 := black_call_slope K tau r s Ic H HK Htau Hs HI0 ltac:(unfold Ic; lra)). fold (G Ic) (G H) in S1. destruct (HA H ltac:(lra)) as [A3 A4].
        assert (H <= Ic + / 10 ^ 5 / 2) by (unfold Ic; lra). assert (L >= Ic - / 10 ^ 5 / 2) by (unfold Ic; lra).
        assert (MH := black_call_mono K tau r s Ic H HK Htau Hs HI0 ltac:(unfold Ic; lra)). fold (G Ic) (G H) in MH.
        apply Rabs_le. split; [|lra].
        destruct (Req_dec L 0) as [L0|L0].
        + assert (0 < g Ic) by (apply bcall_pos; assumption). assert (Ic <= / 10 ^ 5 / 2) by (unfold Ic; lra). lra.
        + destruct BL as [?|(d & Hd & Dge)]; [contradiction|]. rewrite (HG L d ltac:(lra) Hd) in Dge. destruct (HA L ltac:(lra)) as [A5 A6].
          assert (ML := black_call_mono K tau r s L Ic HK Htau Hs ltac:(lra) ltac:(unfold Ic; lra)). fold (G Ic) (G L) in ML. assert (L < Ic) by (unfold Ic; lra). lra.
      - rewrite (HG Ic d HI0 Hd) in W. apply Rabs_le_between in W. apply Rabs_le. lra. }
    exists n, (rgw_price cnd bivariate (S - D * exp (- r * td)) K t td r D s Ic), Ic.
    split; [exact HI0|]. split; [exact HR|]. cbv zeta. fold tau B. split; [exact SR|].
    assert (N := rgw_near M (S - D * exp (- r * td)) K t td r D s Ic _ V HM Hx HK Ht Hs HI0 SR HV).
    assert (DD := rgw_dist M (S - D * exp (- r * td)) K t td r D s Ic HM Hx HK Ht). rewrite (Rabs_pos_eq (K - D)) in DD by lra. apply Rabs_le_between in DD. lra.
Qed.
