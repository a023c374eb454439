(** Roll-Geske-Whaley (C42). *)
From Coq Require Import Reals ZArith QArith Qreals List Bool Lra Lia.
From Coquelicot Require Import Coquelicot.
From Verif Require Import Num Py MBase MVanilla MAmerican PCnd PCnd2 PBlack PGbs PVanilla PCbnd SAmerican.
Open Scope R_scope.

(** ** Loops whose state shrinks by half *)
Lemma pow_half_small (m e : R) : 0 < e -> exists n, m / 2 ^ n < e.
Proof.
  intro He. destruct (Rle_dec m 0) as [H|H]; [exists 0%nat; simpl; lra|].
  destruct (Pow_x_infinity 2 ltac:(rewrite Rabs_pos_eq; lra) (m / e + 1)) as (n & Hn).
  exists n. specialize (Hn n (Nat.le_refl _)). assert (0 < 2 ^ n) by (apply pow_lt; lra).
  rewrite Rabs_pos_eq in Hn by lra. apply Rmult_lt_reg_r with (2 ^ n); [assumption|].
  unfold Rdiv. rewrite Rmult_assoc, Rinv_l, Rmult_1_r by lra.
  apply Rlt_le_trans with (e * (m / e + 1)); [|apply Rmult_le_compat_l; lra].
  replace (e * (m / e + 1)) with (m + e) by (field; lra). lra.
Qed.
Lemma while_halves {A} (cond : A -> bool) (body : A -> res A) (Inv : A -> Prop) (mu : A -> R) (eps : R) :
  0 < eps ->
  (forall a, Inv a -> cond a = true -> eps <= mu a /\ exists a', body a = Ok a' /\ Inv a' /\ mu a' <= mu a / 2) ->
  forall a, Inv a -> exists n a', Inv a' /\ cond a' = false /\ forall f, (n <= f)%nat -> while_ f cond body a = Ok a'.
Proof.
  intros He Hs a. destruct (pow_half_small (mu a) eps He) as (k & Hk). revert a Hk.
  induction k as [|k IH]; intros a Hk Ha; (destruct (cond a) eqn:C; [|exists 0%nat, a; split; [exact Ha|]; split; [exact C|]; intros f _; destruct f; cbn; now rewrite C]);
  destruct (Hs a Ha C) as (H1 & a' & H2 & H3 & H4).
  - exfalso. simpl in Hk. lra.
  - destruct (IH a') as (n & a2 & I1 & I2 & I3); [|exact H3|].
    { apply Rle_lt_trans with (mu a / 2 ^ S k); [|exact Hk]. simpl. assert (0 < 2 ^ k) by (apply pow_lt; lra).
      apply Rmult_le_reg_r with (2 ^ k); [assumption|]. field_simplify; [|lra|lra]. lra. }
    exists (S n), a2. split; [exact I1|]. split; [exact I2|]. intros f Hf. destruct f as [|f]; [lia|].
    cbn. rewrite C, H2. cbn. apply I3. lia.
Qed.

(** ** The exercise gap *)
Section Gap.
Variables K tau r D s : R.
Hypothesis HK : 0 < K.
Hypothesis Ht : 0 < tau.
Hypothesis Hs : 0 < s.
Let B := K * exp (- r * tau).
Let v := s * sqrt tau.
Let Hv : 0 < v. Proof. apply Rmult_lt_0_compat; [exact Hs|now apply sqrt_lt_R0]. Qed.
Let HB : 0 < B. Proof. apply Rmult_lt_0_compat; [exact HK|apply exp_pos]. Qed.

Lemma gap_call x : 0 < x -> gbs_c x K tau r r (Some s) = Ok (bcall cnd x B v).
Proof.
  intro Hx. unfold gbs_c, gbs_call. rewrite call_link by (auto; lra).
  replace ((r - r) * tau) with 0 by ring. rewrite exp_0, Rmult_1_r. reflexivity.
Qed.
(** continuing is worth more than exercising: call - (x + D - K) *)
Definition gap (x : R) : R := bcall cnd x (K * exp (- r * tau)) (s * sqrt tau) - x - D + K.

Lemma gap_never : D <= K * (1 - exp (- r * tau)) -> forall x, 0 < x -> 0 < gap x.
Proof. intros HD x Hx. unfold gap. fold B v. pose proof (bcall_lb x B v Hx HB Hv). unfold B in *. lra. Qed.
Lemma gap_ub x : 0 < x -> gap x < K - D.
Proof. intro Hx. unfold gap. fold B v. pose proof (bcall_ub x B v Hx HB). lra. Qed.
Lemma gap_exercise : K * (1 - exp (- r * tau)) < D -> exists x0, forall x, x0 <= x -> 0 < x /\ gap x < 0.
Proof.
  intro HD. set (e := D - K * (1 - exp (- r * tau))). assert (He : 0 < e) by (unfold e; lra).
  destruct (cnd_lim_neg (e / B)) as (M & _ & HM); [apply Rdiv_lt_0_compat; lra|].
  exists (B * exp (v * (Rabs M + 1 + v / 2))). intros x Hx.
  assert (Hx0 : 0 < x) by (eapply Rlt_le_trans; [|exact Hx]; apply Rmult_lt_0_compat; [lra|apply exp_pos]).
  split; [exact Hx0|]. 
  assert (Hp : bput cnd x B v < e).
  { assert (E1 : - bd2 x B v < M).
    { unfold bd2. assert (v * (Rabs M + 1 + v / 2) <= ln (x / B)).
      { rewrite <- (ln_exp (v * _)). apply ln_le; [apply exp_pos|]. apply Rmult_le_reg_l with B; [exact HB|].
        replace (B * (x / B)) with x by (field; lra). lra. }
      assert (Rabs M + 1 + v / 2 <= ln (x / B) / v).
      { apply Rmult_le_reg_l with v; [exact Hv|]. replace (v * (ln (x / B) / v)) with (ln (x / B)) by (field; lra). lra. }
      pose proof (Rle_abs (- M)) as Q. rewrite Rabs_Ropp in Q. lra. }
    apply HM in E1. unfold bput. pose proof (cnd_range (- bd1 x B v)) as [E2 _].
    assert (0 < x * cnd (- bd1 x B v)) by (now apply Rmult_lt_0_compat).
    assert (B * cnd (- bd2 x B v) < e).
    { replace e with (B * (e / B)) by (field; lra). now apply Rmult_lt_compat_l. }
    lra. }
  pose proof (b_parity cnd x B v (fun y => cnd_sym y)) as HP. unfold gap. fold B v. unfold e in *. unfold B in *. lra.
Qed.
End Gap.

(** ** is_call_optimal *)
(*@ C42_optimal_iff | is_call_optimal() is True exactly when there is a stock price just before the dividend at which exercising (x + D - K) beats holding the Black-Scholes call that remains after the dividend. *)
Lemma rgw_optimal_iff : forall S K t td r D s : R, 0 < K -> td < t -> 0 < s ->
  (rgw_is_call_optimal (mkRgw S K t td r D (Some s)) = true <->
   exists x c, 0 < x /\ gbs_call (GBSOption x K (t - td) r r (Some s)) = Ok c /\ c < x + D - K).
Proof.
  intros S K t td r D s HK Ht Hs. assert (Htau : 0 < t - td) by lra.
  unfold rgw_is_call_optimal, rgw_never. cbn [w_D w_K w_r w_t w_td]. toR.
  replace (1 - exp (- r * (t - td))) with (1 - exp (- r * (t - td))) by reflexivity.
  destruct (Rleb D _) eqn:E; [apply Rleb_true in E|apply Rleb_false in E].
  - split; [discriminate|]. intros (x & c & Hx & Hc & Hlt). exfalso.
    change (gbs_c x K (t - td) r r (Some s) = Ok c) in Hc. rewrite gap_call in Hc by auto. injection Hc as <-.
    pose proof (gap_never K (t - td) r D s HK Htau Hs E x Hx) as G. unfold gap in G. lra.
  - split; [intros _|reflexivity]. destruct (gap_exercise K (t - td) r D s HK Htau Hs E) as (x & Hx).
    destruct (Hx x (Rle_refl _)) as [H0 H1]. exists x, (bcall cnd x (K * exp (- r * (t - td))) (s * sqrt (t - td))).
    split; [exact H0|]. split; [now apply gap_call|]. unfold gap in H1. lra.
Qed.

(*@ C42_not_optimal | When is_call_optimal() is False the price is the Black-Scholes call on the stock price less the present value of the dividend. *)
Lemma rgw_not_optimal : forall (T : Type) (N : Num T) f1 f2 (S K t td r D : T) (s : option T),
  rgw_is_call_optimal (mkRgw S K t td r D s) = false ->
  rgw_call f1 f2 (mkRgw S K t td r D s) = gbs_call (GBSOption (S - D * expn (- r * td))%num K t r r s).
Proof.
  intros * H. unfold rgw_is_call_optimal in H. unfold rgw_call. destruct (rgw_never _); [reflexivity|discriminate].
Qed.

(** ** The search *)
Section Search.
Variables S0 K t td r D s : R.
Hypothesis HS : 0 < S0.
Hypothesis HK : 0 < K.
Hypothesis Ht : td < t.
Hypothesis Hs : 0 < s.
Let o := mkRgw S0 K t td r D (Some s).
Let g := gap K (t - td) r D s.
Let cc x := bcall cnd x (K * exp (- r * (t - td))) (s * sqrt (t - td)).
Let big : R := 100000000.
Let eps : R := / 100000.

Lemma rgw_ci_eq x : 0 < x -> rgw_ci o x = Ok (cc x).
Proof. intro Hx. unfold rgw_ci. cbn [w_K w_t w_td w_r w_sigma o]. assert (0 < t - td) by lra. now apply gap_call. Qed.
Lemma big_eq : (rgw_big : R) = big.
Proof. unfold rgw_big, big. toR. reflexivity. Qed.
Lemma eps_eq : (rgw_eps : R) = eps.
Proof. unfold rgw_eps, eps. toR. lra. Qed.

(** doubling: from S0 up to the first price where exercising is at least as good, or past the limit *)
Lemma double_ok : exists n H, S0 <= H /\ (g H <= 0 \/ big <= H) /\ (H = S0 \/ (0 < g (H / 2) /\ H / 2 < big)) /\
  forall f, (n <= f)%nat -> rgw_double f o S0 (cc S0) = Ok (H, cc H).
Proof.
  destruct (while_halves
    (fun st => let '(HighS, ci) := st in (ltb (lit 0) (add (sub (sub ci HighS) (w_D o)) (w_K o)) && ltb HighS rgw_big)%bool)
    (fun st => let '(HighS, _) := st in
       let HighS := mul HighS (lit 2) in bind (rgw_ci o HighS) (fun ci => Ok (HighS, ci)))
    (fun st => let '(H, ci) := st in S0 <= H /\ ci = cc H /\ (H = S0 \/ (0 < g (H / 2) /\ H / 2 < big)))
    (fun st => / fst st) (/ big) ltac:(unfold big; lra)) with (a := (S0, cc S0)) as (n & [H ci] & (H1 & -> & H2) & H3 & H4).
  - intros [H ci] (H1 & -> & H2) C. apply andb_prop in C. destruct C as [C1 C2]. rewrite big_eq in C2.
    cbn [ltb RNum] in C1, C2. apply Rltb_true in C1, C2. cbn [fst]. split.
    { apply Rinv_le_contravar; lra. }
    exists (H * 2, cc (H * 2)). cbn [mul lit RNum]. rewrite Q2R_int. rewrite rgw_ci_eq by lra. cbn [bind].
    split; [reflexivity|]. split; [split; [lra|]; split; [reflexivity|]|].
    + right. replace (H * 2 / 2) with H by lra. split; [|lra]. unfold g, gap. fold (cc H). cbn [w_D w_K o] in C1. toR. lra.
    + cbn [fst]. rewrite Rinv_mult_distr by lra. lra.
  - split; [lra|]. split; [reflexivity|]. now left.
  - exists n, H. split; [exact H1|]. split.
    { apply andb_false_iff in H3. rewrite big_eq in H3. cbn [ltb RNum] in H3. destruct H3 as [H3|H3]; apply Rltb_false in H3; [left|now right].
      unfold g, gap. fold (cc H). cbn [w_D w_K o] in H3. toR. lra. }
    split; [exact H2|]. exact H4.
Qed.

Lemma bisect_ok H0 : 0 < H0 -> (g H0 <= 0 \/ H0 = big) -> exists n L H, 0 <= L /\ L < H /\ H <= H0 /\
  (L = 0 \/ 0 <= g L) /\ (g H <= 0 \/ H = big) /\ (Rabs (g ((H + L) / 2)) <= eps \/ H - L <= eps) /\
  forall f, (n <= f)%nat -> rgw_bisect f o 0 H0 (H0 * (5 / 10)) (cc (H0 * (5 / 10))) =
    Ok (L, H, (H + L) / 2, cc ((H + L) / 2)).
Proof.
  intros HH0 HG.
  destruct (while_halves
    (fun st => let '(LowS, HighS, Ic, ci) := st in
       (ltb rgw_eps (absn (add (sub (sub ci Ic) (w_D o)) (w_K o))) && ltb rgw_eps (sub HighS LowS))%bool)
    (fun st => let '(LowS, HighS, Ic, ci) := st in
       let '(LowS, HighS) := if ltb (add (sub (sub ci Ic) (w_D o)) (w_K o)) (lit 0) then (LowS, Ic) else (Ic, HighS) in
       let Ic := div (add HighS LowS) (lit 2) in
       bind (rgw_ci o Ic) (fun ci => Ok (LowS, HighS, Ic, ci)))
    (fun st => let '(L, H, Ic, ci) := st in 0 <= L /\ L < H /\ H <= H0 /\ (L = 0 \/ 0 <= g L) /\ (g H <= 0 \/ H = big) /\
       Ic = (H + L) / 2 /\ ci = cc Ic)
    (fun st => let '(L, H, Ic, ci) := st in H - L) eps ltac:(unfold eps; lra))
    with (a := (0, H0, H0 * (5 / 10), cc (H0 * (5 / 10)))) as (n & [[[L H] Ic] ci] & (I1 & I2 & I3 & I4 & I5 & -> & ->) & C & F).
  - intros [[[L H] Ic] ci] (I1 & I2 & I3 & I4 & I5 & -> & ->) C. apply andb_prop in C. destruct C as [_ C].
    rewrite eps_eq in C. cbn [ltb sub RNum] in C. apply Rltb_true in C. split; [lra|].
    cbn [ltb RNum]. destruct (Rltb _ _) eqn:E; [apply Rltb_true in E|apply Rltb_false in E];
      cbn [div add lit RNum]; rewrite Q2R_int; rewrite rgw_ci_eq by lra; cbn [bind]; eexists; (split; [reflexivity|]); cbn beta iota; (split; [|lra]).
    + repeat split; try lra; try assumption. left. unfold g, gap. fold (cc ((H + L) / 2)). cbn [w_D w_K o] in E. toR. lra.
    + repeat split; try lra; try assumption. right. unfold g, gap. fold (cc ((H + L) / 2)). cbn [w_D w_K o] in E. toR. lra.
  - repeat split; try lra; auto. 
  - exists n, L, H. repeat (split; [assumption|]). split; [|exact F].
    apply andb_false_iff in C. rewrite eps_eq in C. cbn [ltb absn sub add RNum w_D w_K o] in C.
    destruct C as [C|C]; apply Rltb_false in C; [left|right; exact C].
    unfold g, gap. fold (cc ((H + L) / 2)). replace (cc ((H + L) / 2) - (H + L) / 2 - D + K) with (cc ((H + L) / 2) - (H + L) / 2 - D + K) by ring. exact C.
Qed.

Lemma search_ok : exists n, 
  (exists x, (x = S0 \/ x / 2 < big /\ 0 < g (x / 2)) /\ big < x /\ 
     forall f1 f2, (n <= f1)%nat -> (n <= f2)%nat -> rgw_search f1 f2 o = Err ValueError) \/
  (exists L H, 0 <= L /\ L < H /\ (L = 0 \/ 0 <= g L) /\ (g H <= 0 \/ H = big) /\
     (Rabs (g ((H + L) / 2)) <= eps \/ H - L <= eps) /\
     forall f1 f2, (n <= f1)%nat -> (n <= f2)%nat -> rgw_search f1 f2 o = Ok (L, H, (H + L) / 2)).
Proof.
  destruct double_ok as (n1 & H0 & D1 & D2 & D3 & D4).
  destruct (Rlt_dec big H0) as [Hb|Hb].
  - exists n1. left. exists H0. split; [tauto|]. split; [exact Hb|]. intros f1 f2 Hf _. unfold rgw_search.
    cbn [w_S o]. rewrite rgw_ci_eq by exact HS. cbn [bind]. fold o. rewrite D4 by exact Hf. cbn [bind].
    rewrite big_eq. cbn [ltb RNum]. rewrite (proj2 (Rltb_true _ _) Hb). reflexivity.
  - destruct (bisect_ok H0) as (n2 & L & H & B1 & B2 & B3 & B4 & B5 & B6 & B7); [lra|destruct D2; [now left|right; lra]|].
    exists (n1 + n2)%nat. right. exists L, H. repeat (split; [assumption|]). intros f1 f2 Hf1 Hf2. unfold rgw_search.
    cbn [w_S o]. rewrite rgw_ci_eq by exact HS. cbn [bind]. fold o. rewrite D4 by lia. cbn [bind].
    rewrite big_eq. cbn [ltb RNum]. rewrite (proj2 (Rltb_false _ _)) by lra.
    cbn [mul lit RNum]. replace (Q2R (5 # 10)) with (5 / 10) by (unfold Q2R; cbn; lra).
    rewrite rgw_ci_eq by lra. cbn [bind]. rewrite Q2R_int. rewrite B7 by lia. reflexivity.
Qed.
End Search.
Lemma gap_gain K t td r D s x : 0 < K -> td < t -> 0 < s -> 0 < x -> holding_gain K t td r D s x (gap K (t - td) r D s x).
Proof.
  intros HK Ht Hs Hx. assert (H0 : 0 < t - td) by lra. eexists. split; [now apply (gap_call K (t - td) r s)|]. unfold gap. lra.
Qed.

Lemma rgw_formula_eq S K t td r D s Ic x : rgw_formula (mkRgw S K t td r D (Some s)) x s Ic = Ok (rgw_price cnd bivariate x K t td r D s Ic).
Proof.
  unfold rgw_formula, cbnd_r, need. cbn [w_K w_t w_td w_r w_D]. rewrite !cbnd_value. cbn [of_opt bind]. unfold rgw_price, bivariate.
  rewrite !cbnd_value. unfold Rdiv. toR. reflexivity.
Qed.

(*@ C42_search | When early exercise may be optimal both search loops terminate, and: either the search gives up with ValueError, which happens only if the stock price is above 1e8 or holding is still better than exercising at some price between 0.5e8 and 1e8; or it ends with a bracket L < H (holding is at least as good at L unless L = 0, exercising at least as good at H unless H = 1e8) of length at most 1e-5 or with holding and exercising within 1e-5 of each other at its midpoint, and the price is the Roll-Geske-Whaley formula with that midpoint as critical price. *)
Lemma rgw_search_thm : forall S K t td r D s : R, 0 < S -> 0 < K -> td < t -> 0 < s ->
  rgw_is_call_optimal (mkRgw S K t td r D (Some s)) = true ->
  exists n,
  ((10 ^ 8 < S \/ exists x d, 10 ^ 8 / 2 < x < 10 ^ 8 /\ holding_gain K t td r D s x d /\ 0 < d) /\
   forall f1 f2, (n <= f1)%nat -> (n <= f2)%nat -> rgw_call f1 f2 (mkRgw S K t td r D (Some s)) = Err ValueError) \/
  (exists L H, 0 <= L < H /\
   (L = 0 \/ exists d, holding_gain K t td r D s L d /\ 0 <= d) /\
   (H = 10 ^ 8 \/ exists d, holding_gain K t td r D s H d /\ d <= 0) /\
   (H - L <= / 10 ^ 5 \/ exists d, holding_gain K t td r D s ((H + L) / 2) d /\ Rabs d <= / 10 ^ 5) /\
   forall f1 f2, (n <= f1)%nat -> (n <= f2)%nat ->
     rgw_call f1 f2 (mkRgw S K t td r D (Some s)) =
     Ok (rgw_price cnd bivariate (S - D * exp (- r * td)) K t td r D s ((H + L) / 2))).
Proof.
  intros S K t td r D s HS HK Ht Hs Ho.
  assert (HC : forall f1 f2, rgw_call f1 f2 (mkRgw S K t td r D (Some s)) =
    bind (rgw_search f1 f2 (mkRgw S K t td r D (Some s))) (fun br => Ok (rgw_price cnd bivariate (S - D * exp (- r * td)) K t td r D s (snd br)))).
  { intros. unfold rgw_is_call_optimal in Ho. unfold rgw_call. destruct (rgw_never _); [discriminate|].
    destruct (rgw_search f1 f2 _) as [br|e]; [|reflexivity]. cbn [bind need of_opt w_sigma]. rewrite rgw_formula_eq. reflexivity. }
  pose proof (fun x => gap_gain K t td r D s x HK Ht Hs) as HG.
  destruct (search_ok S K t td r D s HS HK Ht Hs) as (n & [(x & X1 & X2 & X3)|(L & H & B1 & B2 & B3 & B4 & B5 & B6)]); exists n.
  - left. split.
    + destruct X1 as [->|(X1 & X4)]; [left; lra|right]. exists (x / 2). eexists. split; [split; lra|]. split; [apply HG; lra|exact X4].
    + intros f1 f2 H1 H2. rewrite HC, X3 by assumption. reflexivity.
  - right. exists L, H. split; [lra|]. split; [|split; [|split]].
    + destruct (Req_dec L 0) as [|HL]; [now left|right]. destruct B3 as [?|B3]; [contradiction|]. eexists. split; [apply HG; lra|exact B3].
    + destruct B4 as [B4| ->]; [right|left; lra]. eexists. split; [apply HG; lra|exact B4].
    + destruct B5 as [B5|B5]; [right|left; lra]. eexists. split; [apply HG; lra|]. lra.
    + intros f1 f2 H1 H2. rewrite HC, B6 by assumption. reflexivity.
Qed.

(*@ C42_large_dividend | Finding: if the dividend exceeds the strike by more than 1e-5 there is no critical price (exercising is better at every price), yet the search does not report it: it converges to a price of at most 1e-5 and the formula is evaluated there. *)
Lemma rgw_large_dividend : forall S K t td r D s : R, 0 < S -> S <= 10 ^ 8 -> 0 < K -> td < t -> 0 < s -> K + / 10 ^ 5 <= D ->
  (forall x d, 0 < x -> holding_gain K t td r D s x d -> d < - / 10 ^ 5) /\
  exists n Ic, 0 < Ic <= / 10 ^ 5 /\ forall f1 f2, (n <= f1)%nat -> (n <= f2)%nat ->
    rgw_call f1 f2 (mkRgw S K t td r D (Some s)) =
    Ok (rgw_price cnd bivariate (S - D * exp (- r * td)) K t td r D s Ic).
Proof.
  intros S K t td r D s HS HSb HK Ht Hs HD.
  assert (Hall : forall x d, 0 < x -> holding_gain K t td r D s x d -> d < - / 10 ^ 5).
  { intros x d Hx (c & Hc & ->). change (gbs_c x K (t - td) r r (Some s) = Ok c) in Hc.
    rewrite gap_call in Hc by lra. injection Hc as <-. pose proof (gap_ub K (t - td) r D s HK x Hx) as G. unfold gap in G. lra. }
  split; [exact Hall|].
  assert (Ho : rgw_is_call_optimal (mkRgw S K t td r D (Some s)) = true).
  { unfold rgw_is_call_optimal, rgw_never. cbn [w_D w_K w_r w_t w_td]. toR. pose proof (exp_pos (- r * (t - td))).
    rewrite (proj2 (Rleb_false _ _)); [reflexivity|]. assert (0 < K * exp (- r * (t - td))) by (now apply Rmult_lt_0_compat). lra. }
  destruct (rgw_search_thm S K t td r D s HS HK Ht Hs Ho) as (n & [([X|(x & d & X1 & X2 & X3)] & _)|(L & H & B1 & B2 & B3 & B4 & B5)]).
  - lra.
  - specialize (Hall x d ltac:(lra) X2). lra.
  - exists n, ((H + L) / 2). split; [|exact B5].
    assert (HL : L = 0). { destruct (Req_dec L 0) as [|HL]; [assumption|]. destruct B2 as [?|(d & B2 & B2')]; [contradiction|].
      specialize (Hall L d ltac:(lra) B2). lra. }
    destruct B4 as [B4|(d & B4 & B4')]; [lra|]. specialize (Hall ((H + L) / 2) d ltac:(lra) B4).
    rewrite Rabs_left in B4' by lra. lra.
Qed.
