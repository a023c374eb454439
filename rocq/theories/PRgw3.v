(** Roll-Geske-Whaley prices against the European call and the stock. *)
From Coq Require Import Reals String List Arith ZArith Lra Lia.
From Coquelicot Require Import Coquelicot.
From Verif Require Import Num Py MBase MVanilla MAmerican SAmerican SAmerican2 SHeston PCnd PCnd2 PCndAcc PBlack PGauss PGbs PHeston PHeston2 PExpect PExpect2 PCbnd PRgw PRgw2 PClt PMargrabe PBvn3 PBvn4.
Open Scope R_scope.

Lemma after_form x r s td z : 0 < td -> stock_after x r s td z = x * exp (r * td) * exp (s * sqrt td * z - (s * sqrt td) ^ 2 / 2).
Proof.
  intro H. unfold stock_after. rewrite (Rmult_assoc x), <- exp_plus. do 2 f_equal. replace ((s * sqrt td) ^ 2) with (s ^ 2 * td) by (rewrite Rpow_mult_distr, pow2_sqrt; lra). field.
Qed.
Lemma mean_stock x r s td : 0 < td -> is_mean (stock_after x r s td) (x * exp (r * td)).
Proof. intro H. eapply is_mean_ext; [|exact (mean_scal1 _ (x * exp (r * td)) (mean_exp_1 (s * sqrt td)))]. intro z. cbv beta. now rewrite after_form. Qed.
(** the mean of the remaining call is the call with the full maturity *)
Lemma mean_hold x K t td r s : 0 < x -> 0 < K -> 0 < td < t -> 0 < s ->
  is_mean (fun z => black_call (stock_after x r s td z) K (t - td) r s) (exp (r * td) * black_call x K t r s).
Proof.
  intros Hx HK Ht Hs. assert (Hu : 0 < s * sqrt (t - td)) by (apply Rmult_lt_0_compat; [exact Hs|apply sqrt_lt_R0; lra]).
  assert (HA : 0 < x * exp (r * td)) by (apply Rmult_lt_0_compat; [exact Hx|apply exp_pos]). assert (HB : 0 < K * exp (- r * (t - td))) by (apply Rmult_lt_0_compat; [exact HK|apply exp_pos]).
  assert (H := black_step (K * exp (- r * (t - td))) (x * exp (r * td)) 0 (s * sqrt td) (s * sqrt (t - td)) HB HA Hu).
  replace (exp (r * td) * black_call x K t r s) with (bcall Phi (x * exp (r * td)) (K * exp (- r * (t - td))) (sqrt ((s * sqrt (t - td)) ^ 2 + (s * sqrt td - 0) ^ 2))).
  - eapply is_mean_ext; [|exact H]. intro z. cbv beta. rewrite black_call_bcall; [|unfold stock_after; apply Rmult_lt_0_compat; [exact Hx|apply exp_pos]|exact HK|lra|exact Hs].
    rewrite after_form by lra. replace (0 * z - 0 ^ 2 / 2) with 0 by field. now rewrite exp_0, Rmult_1_r.
  - replace (sqrt ((s * sqrt (t - td)) ^ 2 + (s * sqrt td - 0) ^ 2)) with (s * sqrt t).
    + rewrite black_call_bcall by lra. rewrite <- bcall_scale; [f_equal; [ring|]|apply exp_pos|exact Hx|apply Rmult_lt_0_compat; [exact HK|apply exp_pos]].
      rewrite (Rmult_comm (exp (r * td))), Rmult_assoc, <- exp_plus. do 2 f_equal. ring.
    + symmetry. apply sqrt_lem_1; [pose proof (pow2_ge_0 (s * sqrt (t - td))); pose proof (pow2_ge_0 (s * sqrt td - 0)); lra|apply Rmult_le_pos; [lra|apply sqrt_pos]|].
      rewrite Rminus_0_r, !Rpow_mult_distr, !pow2_sqrt by lra. replace (s * sqrt t * (s * sqrt t)) with (s ^ 2 * (sqrt t) ^ 2) by ring. rewrite pow2_sqrt by lra. ring.
Qed.
Lemma black_call_le K tau r s y : 0 < K -> 0 < tau -> 0 < s -> 0 < y -> 0 <= black_call y K tau r s <= y.
Proof.
  intros HK Ht Hs Hy. rewrite black_call_bcall by assumption. assert (HB : 0 < K * exp (- r * tau)) by (apply Rmult_lt_0_compat; [exact HK|apply exp_pos]). assert (Hv : 0 < s * sqrt tau) by (apply Rmult_lt_0_compat; [exact Hs|now apply sqrt_lt_R0]).
  split.
  - eapply is_mean_le; [|exact (mean_const 0)|exact (mean_bcall y _ _ Hy HB Hv)]. intro z. apply Rmax_l.
  - unfold bcall. pose proof (Phi_lt_1 (bd1 y (K * exp (- r * tau)) (s * sqrt tau))). pose proof (Phi_gt_0 (bd2 y (K * exp (- r * tau)) (s * sqrt tau))). nra.
Qed.
Lemma value_exists x K t td r D s : 0 < x -> 0 < K -> 0 < td < t -> 0 < s ->
  exists V, is_mean (fun z => let X := stock_after x r s td z in Rmax (X + D - K) (black_call X K (t - td) r s)) V.
Proof.
  intros Hx HK Ht Hs. set (q := s * sqrt td). assert (HX : forall z, 0 < stock_after x r s td z) by (intro z; unfold stock_after; apply Rmult_lt_0_compat; [exact Hx|apply exp_pos]).
  set (h := fun y => Rmax (y + D - K) (black_call y K (t - td) r s)).
  assert (Lip : forall y1 y2, 0 < y1 -> 0 < y2 -> Rabs (h y2 - h y1) <= Rabs (y2 - y1)).
  { assert (P : forall y1 y2, 0 < y1 -> y1 <= y2 -> 0 <= h y2 - h y1 <= y2 - y1).
    { intros y1 y2 H1 H2. pose proof (black_call_slope K (t - td) r s y1 y2 HK ltac:(lra) Hs H1 H2). pose proof (black_call_mono K (t - td) r s y1 y2 HK ltac:(lra) Hs H1 H2).
      unfold h, Rmax. repeat destruct Rle_dec; lra. }
    intros y1 y2 H1 H2. destruct (Rle_dec y1 y2) as [H|H]; [specialize (P y1 y2 H1 H); rewrite !Rabs_pos_eq; lra|].
    specialize (P y2 y1 H2 ltac:(lra)). rewrite !Rabs_left1; lra. }
  apply (mean_exists (fun z => h (stock_after x r s td z)) (x * exp (r * td) * exp (- q ^ 2 / 2) + Rabs (D - K)) q).
  - pose proof (Rabs_pos (D - K)). assert (0 < x * exp (r * td) * exp (- q ^ 2 / 2)) by (apply Rmult_lt_0_compat; [apply Rmult_lt_0_compat; [exact Hx|apply exp_pos]|apply exp_pos]). lra.
  - intro z. apply (continuous_comp (stock_after x r s td) h); [apply (ex_derive_continuous (stock_after x r s td)); unfold stock_after; auto_derive; exact Coq.Init.Logic.I|].
    set (y := stock_after x r s td z). assert (Hy : 0 < y) by apply HX. intros P [eps HP]. exists (mkposreal (Rmin eps y) ltac:(apply Rmin_pos; [apply cond_pos|exact Hy])). intros w Hw. apply HP.
    change (Rabs (h w - h y) < eps). change (Rabs (w - y) < Rmin eps y) in Hw. pose proof (Rmin_l eps y). pose proof (Rmin_r eps y). assert (0 < w) by (apply Rabs_lt_between in Hw; lra).
    eapply Rle_lt_trans; [now apply Lip|]. lra.
  - intro z. pose proof (black_call_le K (t - td) r s _ HK ltac:(lra) Hs (HX z)) as B. assert (E : stock_after x r s td z = x * exp (r * td) * exp (- q ^ 2 / 2) * exp (q * z)).
    { rewrite after_form by lra. fold q. rewrite (Rmult_assoc _ (exp (- q ^ 2 / 2))), <- exp_plus. do 2 f_equal. field. }
    assert (A : Rabs (h (stock_after x r s td z)) <= stock_after x r s td z + Rabs (D - K)).
    { pose proof (HX z). unfold h. apply Rabs_le. pose proof (Rle_abs (D - K)). pose proof (Rle_abs (- (D - K))) as R1. rewrite Rabs_Ropp in R1. unfold Rmax. destruct Rle_dec; lra. }
    eapply Rle_trans; [exact A|]. rewrite E. assert (Q : 1 <= exp (q * z) + exp (- q * z)).
    { pose proof (exp_ineq1_le (q * z)). pose proof (exp_ineq1_le (- q * z)). lra. }
    pose proof (exp_pos (q * z)). pose proof (exp_pos (- q * z)). pose proof (Rabs_pos (D - K)). assert (0 < x * exp (r * td) * exp (- q ^ 2 / 2)) by (apply Rmult_lt_0_compat; [apply Rmult_lt_0_compat; [exact Hx|apply exp_pos]|apply exp_pos]). nra.
Qed.
Lemma value_bounds x K t td r D s V : 0 < x -> 0 < K -> 0 < td < t -> 0 < s ->
  is_mean (fun z => let X := stock_after x r s td z in Rmax (X + D - K) (black_call X K (t - td) r s)) V ->
  black_call x K t r s <= exp (- r * td) * V /\ x + (D - K) * exp (- r * td) <= exp (- r * td) * V /\ (D <= K -> exp (- r * td) * V <= x).
Proof.
  intros Hx HK Ht Hs HV. pose proof (exp_pos (- r * td)) as He. assert (E : exp (- r * td) * exp (r * td) = 1) by (rewrite <- exp_plus; replace (- r * td + r * td) with 0 by ring; apply exp_0).
  assert (HX : forall z, 0 < stock_after x r s td z) by (intro z; unfold stock_after; apply Rmult_lt_0_compat; [exact Hx|apply exp_pos]).
  assert (HM := mean_stock x r s td (proj1 Ht)). split; [|split].
  - assert (Q : exp (r * td) * black_call x K t r s <= V) by (eapply is_mean_le; [|exact (mean_hold x K t td r s Hx HK Ht Hs)|exact HV]; intro z; apply Rmax_r). apply (Rmult_le_compat_l (exp (- r * td))) in Q; [|lra]. rewrite <- Rmult_assoc, E in Q. lra.
  - assert (Q : 1 * (x * exp (r * td)) + (D - K) * 1 <= V) by (eapply is_mean_le; [|exact (is_mean_lin _ _ _ _ 1 (D - K) HM mean_1)|exact HV]; intro z; cbv beta zeta; eapply Rle_trans; [|apply Rmax_l]; lra). apply (Rmult_le_compat_l (exp (- r * td))) in Q; [|lra]. replace (exp (- r * td) * (1 * (x * exp (r * td)) + (D - K) * 1)) with (x * (exp (- r * td) * exp (r * td)) + (D - K) * exp (- r * td)) in Q by ring. rewrite E in Q. lra.
  - intro HD. assert (Q : V <= x * exp (r * td)). { eapply is_mean_le; [|exact HV|exact HM]. intro z. cbv beta zeta. pose proof (black_call_le K (t - td) r s _ HK ltac:(lra) Hs (HX z)). apply Rmax_lub; lra. } apply (Rmult_le_compat_l (exp (- r * td))) in Q; [|lra]. replace (exp (- r * td) * (x * exp (r * td))) with (x * (exp (- r * td) * exp (r * td))) in Q by ring. rewrite E in Q. lra.
Qed.

(*@ C42_bounds | With exact distribution functions the Roll-Geske-Whaley price at the critical price is at least the European call on the stock net of the dividend, at least what is made by always exercising just before the dividend, and, when the dividend does not exceed the strike, at most the stock price net of the dividend. *)
Lemma rgw_bounds : forall M x K t td r D s Ic, bivariate_normal M -> 0 < x -> 0 < K -> 0 < td < t -> 0 < s -> 0 < Ic -> black_call Ic K (t - td) r s = Ic + D - K ->
  let p := rgw_price Phi M x K t td r D s Ic in
  black_call x K t r s <= p /\ x + (D - K) * exp (- r * td) <= p /\ (D <= K -> p <= x).
Proof.
  intros M x K t td r D s Ic HM Hx HK Ht Hs HI E p. destruct (rgw_american M x K t td r D s Ic HM Hx HK Ht Hs HI E) as (HV & _). apply value_bounds in HV; try assumption.
  fold p in HV. rewrite <- Rmult_assoc, <- exp_plus in HV. replace (- r * td + r * td) with 0 in HV by ring. rewrite exp_0, Rmult_1_l in HV. exact HV.
Qed.

(*@ C73_rgw_bounds | The computed call is at least the computed European call of GBSOption on the stock net of the dividend and at least what always exercising just before the dividend makes, and it is at most the stock price net of the dividend, up to the tolerance of the search and the errors of the distribution functions. *)
Lemma rgw_code_bounds : forall M S K t td r D s, bivariate_normal M -> 0 < S <= 10 ^ 8 -> 0 < K -> 0 < td < t -> 0 < s -> D <= K ->
  let x := S - D * exp (- r * td) in 0 < x ->
  rgw_is_call_optimal (mkRgw S K t td r D (Some s)) = true ->
  (forall y d, 10 ^ 8 / 2 < y <= 10 ^ 8 -> holding_gain K t td r D s y d -> d <= 0) ->
  exists n p Ic e, 0 < Ic /\
    (forall f1 f2, (n <= f1)%nat -> (n <= f2)%nat -> rgw_call f1 f2 (mkRgw S K t td r D (Some s)) = Ok p) /\
    gbs_call (GBSOption x K t r r (Some s)) = Ok e /\
    let search := / 10 ^ 5 + 75 / 10 ^ 9 * (Ic + / 10 ^ 5 + K * exp (- r * (t - td))) in
    let dist := 16 / 10 ^ 7 * (x + K * exp (- r * t) + (K - D) * exp (- r * td)) in
    e - exp (- r * td) * search - dist <= p /\ x + (D - K) * exp (- r * td) - exp (- r * td) * search - dist <= p /\ p <= x + dist.
Proof.
  intros M S K t td r D s HM HS HK Ht Hs HD x Hx HO HC. destruct (value_exists x K t td r D s Hx HK Ht Hs) as (V & HV).
  destruct (rgw_value M S K t td r D s V HM HS HK Ht Hs HD Hx HO HC HV) as (n & p & Ic & HI & HP & _ & HL & HU). fold x in HL, HU.
  destruct (value_bounds x K t td r D s V Hx HK Ht Hs HV) as (B1 & B2 & B3). specialize (B3 HD).
  assert (HE := black_call_cnd x K t r s Hx HK ltac:(lra) Hs). apply Rabs_le_between in HE.
  exists n, p, Ic, (bcall cnd x (K * exp (- r * t)) (s * sqrt t)). split; [exact HI|]. split; [exact HP|]. split.
  - unfold gbs_call. rewrite call_link by lra. do 2 f_equal. replace ((r - r) * t) with 0 by ring. rewrite exp_0. ring.
  - cbv zeta. pose proof (exp_pos (- r * t)). pose proof (exp_pos (- r * td)). assert (0 < K * exp (- r * t)) by now apply Rmult_lt_0_compat. assert (0 <= (K - D) * exp (- r * td)) by (apply Rmult_le_pos; lra).
    revert HL HU. generalize (exp (- r * td) * (/ 10 ^ 5 + 75 / 10 ^ 9 * (Ic + / 10 ^ 5 + K * exp (- r * (t - td))))). intros Y HL HU.
    set (a := K * exp (- r * t)) in *. set (c := (K - D) * exp (- r * td)) in *. set (W := exp (- r * td) * V) in *. replace ((D - K) * exp (- r * td)) with (- c) in * by (unfold c; ring). repeat split; lra.
Qed.
