(** Barone-Adesi-Whaley (C43). *)
From Coq Require Import Reals ZArith QArith Qreals List Bool Lra Lia.
From Verif Require Import Num Py MBase MVanilla MAmerican PCnd PCnd2 PBlack PGbs PVanilla SAmerican.
Open Scope R_scope.

Lemma while_exit {A} f (cond : A -> bool) body (a a' : A) (Inv : A -> Prop) :
  (forall x y, Inv x -> body x = Ok y -> Inv y) -> Inv a -> while_ f cond body a = Ok a' -> cond a' = false /\ Inv a'.
Proof.
  intro Hb. revert a. induction f as [|f IH]; intros a Ha H; cbn in H; destruct (cond a) eqn:C; try discriminate.
  - injection H as <-. auto.
  - destruct (body a) as [y|] eqn:E; [|discriminate]. cbn in H. apply (IH y); eauto.
  - injection H as <-. auto.
Qed.
Lemma while_err {A} f (cond : A -> bool) body (a : A) e (Inv : A -> Prop) :
  (forall x, Inv x -> exists y, body x = Ok y /\ Inv y) -> Inv a -> while_ f cond body a = Err e -> e = NoConvergence.
Proof.
  intro Hb. revert a. induction f as [|f IH]; intros a Ha H; cbn in H; destruct (cond a); try discriminate.
  - congruence.
  - destruct (Hb a Ha) as (y & E & Hy). rewrite E in H. cbn in H. now apply (IH y).
Qed.

(*@ C43_carry | BAW call: with a cost of carry of at least the interest rate it is the Black-Scholes call. *)
Lemma baw_carry_call : forall (T : Type) (N : Num T) fuel (S K t r b : T) (s : option T),
  leb r b = true -> baw_call fuel (mkAmer S K t r b s) = gbs_call (GBSOption S K t r b s).
Proof. intros * H. unfold baw_call. cbn [y_b y_r y_S y_K y_t y_sigma]. rewrite H. reflexivity. Qed.

(** ** The exponents *)
Lemma quad_root n x : 0 < x -> 
  let q2 := (- (n - 1) + sqrt ((n - 1) ^ 2 + 4 * x)) / 2 in let q1 := (- (n - 1) - sqrt ((n - 1) ^ 2 + 4 * x)) / 2 in
  0 < q2 /\ q1 < 0 /\ q2 ^ 2 + (n - 1) * q2 = x /\ q1 ^ 2 + (n - 1) * q1 = x /\ (n < x -> 1 < q2).
Proof.
  intros Hx. cbv zeta. set (m := n - 1). assert (H0 : 0 <= m ^ 2) by apply pow2_ge_0.
  set (w := sqrt (m ^ 2 + 4 * x)).
  assert (Hw : w * w = m ^ 2 + 4 * x) by (apply sqrt_sqrt; lra).
  assert (Hw0 : 0 <= w) by apply sqrt_pos.
  assert (Hm : Rabs m < w).
  { apply Rsqr_incrst_0; [|apply Rabs_pos|exact Hw0]. rewrite <- Rsqr_abs. unfold Rsqr. lra. }
  apply Rabs_def2 in Hm. split; [lra|]. split; [lra|]. split; [nra|]. split; [nra|].
  intro Hn. assert (n + 1 < w); [|unfold m in *; lra].
  destruct (Rlt_dec (n + 1) 0); [lra|]. apply Rsqr_incrst_0; try lra. unfold Rsqr. unfold m in *. lra.
Qed.
Lemma rate_pos r t : 0 < t -> r <> 0 -> 0 < r / (1 - exp (- r * t)) /\ r < r / (1 - exp (- r * t)).
Proof.
  intros Ht Hr. destruct (Rlt_dec 0 r) as [H|H].
  - assert (exp (- r * t) < 1). { rewrite <- exp_0. apply exp_increasing. nra. }
    pose proof (exp_pos (- r * t)). split; [apply Rdiv_lt_0_compat; lra|].
    apply Rmult_lt_reg_r with (1 - exp (- r * t)); [lra|]. field_simplify; nra.
  - assert (1 < exp (- r * t)). { rewrite <- exp_0 at 1. apply exp_increasing. nra. }
    assert (0 < r / (1 - exp (- r * t))); [|lra].
    replace (r / (1 - exp (- r * t))) with ((- r) / (exp (- r * t) - 1)) by (field; lra). apply Rdiv_lt_0_compat; lra.
Qed.

Section Baw.
Variables K t r b s : R.
Hypothesis HK : 0 < K.
Hypothesis Ht : 0 < t.
Hypothesis Hs : 0 < s.
Hypothesis Hr : r <> 0.
Let n := 2 * b / s ^ 2.
Let x := 2 * r / (s ^ 2 * (1 - exp (- r * t))).
Definition bq2 := (- (2 * b / s ^ 2 - 1) + sqrt ((2 * b / s ^ 2 - 1) ^ 2 + 4 * (2 * r / (s ^ 2 * (1 - exp (- r * t)))))) / 2.
Definition bq1 := (- (2 * b / s ^ 2 - 1) - sqrt ((2 * b / s ^ 2 - 1) ^ 2 + 4 * (2 * r / (s ^ 2 * (1 - exp (- r * t)))))) / 2.
Let Hs2 : 0 < s ^ 2. Proof. apply pow_lt, Hs. Qed.
Lemma x_eq : x = 2 / s ^ 2 * (r / (1 - exp (- r * t))).
Proof.
  unfold x. destruct (Req_dec (1 - exp (- r * t)) 0) as [E|E]; [rewrite E; unfold Rdiv; rewrite Rmult_0_r, Rinv_0; ring|].
  field. split; lra.
Qed.
Lemma x_pos : 0 < x.
Proof.
  rewrite x_eq. destruct (rate_pos r t Ht Hr) as [H _]. apply Rmult_lt_0_compat; [|exact H]. apply Rdiv_lt_0_compat; lra.
Qed.
Lemma x_gt : b < r -> n < x.
Proof.
  intro Hb. rewrite x_eq. destruct (rate_pos r t Ht Hr) as [_ H]. unfold n.
  replace (2 * b / s ^ 2) with (2 / s ^ 2 * b) by (field; lra). apply Rmult_lt_compat_l; [apply Rdiv_lt_0_compat; lra|lra].
Qed.
(** the exponents solve q^2 + (n-1) q = X, one is positive (above 1 if b < r), one negative *)
Lemma bq_spec : 0 < bq2 /\ bq1 < 0 /\ bq2 ^ 2 + (n - 1) * bq2 = x /\ bq1 ^ 2 + (n - 1) * bq1 = x /\ (b < r -> 1 < bq2).
Proof. destruct (quad_root n x x_pos) as (H1 & H2 & H3 & H4 & H5). repeat split; auto. intro. now apply H5, x_gt. Qed.

Definition bcarry := exp ((b - r) * t).
Definition bd1' (Si : R) := (ln (Si / K) + (b + s ^ 2 / 2) * t) / (s * sqrt t).
Definition ccall (Si : R) := bcall cnd (Si * exp ((b - r) * t)) (K * exp (- r * t)) (s * sqrt t).
Definition cput (Si : R) := bput cnd (Si * exp ((b - r) * t)) (K * exp (- r * t)) (s * sqrt t).
Definition prem2 (Sk : R) := Sk / bq2 * (1 - bcarry * cnd (bd1' Sk)).
Definition prem1 (Sk : R) := - (Sk / bq1) * (1 - bcarry * cnd (- bd1' Sk)).

Section Obj.
Variable S0 : R.
Let o := mkAmer S0 K t r b (Some s).
Lemma Q2_eq : baw_Q2 o s = bq2.
Proof. unfold baw_Q2, baw_n, baw_X, bq2. cbn [y_b y_r y_t o]. toR. reflexivity. Qed.
Lemma Q1_eq : baw_Q1 o s = bq1.
Proof. unfold baw_Q1, baw_n, baw_X, bq1. cbn [y_b y_r y_t o]. toR. reflexivity. Qed.
Lemma d1_eq Si : baw_d1 o s Si = bd1' Si.
Proof. unfold baw_d1, bd1'. cbn [y_b y_t y_K o]. toR. reflexivity. Qed.
Lemma carry_eq : baw_carry o = bcarry.
Proof. reflexivity. Qed.
Lemma rhs_c_ok Si : exists c, baw_rhs_c o s Si = Ok c.
Proof. unfold baw_rhs_c, gbs_c. cbn. eexists. reflexivity. Qed.
Lemma rhs_p_ok Si : exists c, baw_rhs_p o s Si = Ok c.
Proof. unfold baw_rhs_p, gbs_p. cbn. eexists. reflexivity. Qed.
Lemma rhs_c_eq Si : 0 < Si -> baw_rhs_c o s Si = Ok (ccall Si + prem2 Si).
Proof.
  intro H. unfold baw_rhs_c, gbs_c, gbs_call. cbn [y_K y_t y_r y_b o]. rewrite call_link by lra. cbn [bind].
  fold o. rewrite Q2_eq, d1_eq, carry_eq. cbn [add sub mul div lit RNum]. rewrite Q2R_int. f_equal. unfold ccall, prem2.
  destruct bq_spec as (H1 & _). field. lra.
Qed.
Lemma rhs_p_eq Si : 0 < Si -> baw_rhs_p o s Si = Ok (cput Si + prem1 Si).
Proof.
  intro H. unfold baw_rhs_p, gbs_p, gbs_put. cbn [y_K y_t y_r y_b o]. rewrite put_link by lra. cbn [bind].
  fold o. rewrite Q1_eq, d1_eq, carry_eq. cbn [add sub mul div lit opp RNum]. rewrite Q2R_int. f_equal. unfold cput, prem1.
  destruct bq_spec as (_ & H1 & _). field. lra.
Qed.

Lemma Kc_exit fuel Sk : baw_Kc fuel o s = Ok Sk -> 0 < Sk -> Rabs (Sk - K - (ccall Sk + prem2 Sk)) <= / 10 ^ 6 * K.
Proof.
  intros H HSk. unfold baw_Kc in H. destruct (rhs_c_ok (baw_seed_c o s)) as (c & Hc). rewrite Hc in H. cbn [bind] in H.
  destruct (while_ _ _ _ _) as [[[[Si LHS] RHS] bi]|] eqn:E; [|discriminate]. cbn in H. injection H as ->.
  apply while_exit with (Inv := fun st => let '(Si, LHS, RHS, bi) := st in LHS = Si - K /\ baw_rhs_c o s Si = Ok RHS) in E.
  - destruct E as (C & -> & HR). rewrite rhs_c_eq in HR by exact HSk. injection HR as <-.
    cbn [ltb div absn sub RNum y_K o] in C. apply Rltb_false in C. unfold baw_E in C. cbn [lit RNum] in C.
    replace (Q2R (1 # 1000000)) with (/ 10 ^ 6) in C by (unfold Q2R; cbn; lra).
    apply Rmult_le_compat_r with (r := K) in C; [|lra]. unfold Rdiv in C. rewrite Rmult_assoc, Rinv_l, Rmult_1_r in C by lra. exact C.
  - intros [[[S1 L1] R1] b1] y _ HB.
    destruct (rhs_c_ok (div (sub (add (y_K o) R1) (mul b1 S1)) (sub (lit 1) b1))) as (c' & Hc'). rewrite Hc' in HB. cbn [bind] in HB.
    injection HB as <-. split; [reflexivity|exact Hc'].
  - split; [reflexivity|exact Hc].
Qed.
Lemma Kp_exit fuel Sk : baw_Kp fuel o s = Ok Sk -> 0 < Sk -> Rabs (K - Sk - (cput Sk + prem1 Sk)) <= / 10 ^ 6 * K.
Proof.
  intros H HSk. unfold baw_Kp in H. destruct (rhs_p_ok (baw_seed_p o s)) as (c & Hc). rewrite Hc in H. cbn [bind] in H.
  destruct (while_ _ _ _ _) as [[[[Si LHS] RHS] bi]|] eqn:E; [|discriminate]. cbn in H. injection H as ->.
  apply while_exit with (Inv := fun st => let '(Si, LHS, RHS, bi) := st in LHS = K - Si /\ baw_rhs_p o s Si = Ok RHS) in E.
  - destruct E as (C & -> & HR). rewrite rhs_p_eq in HR by exact HSk. injection HR as <-.
    cbn [ltb div absn sub RNum y_K o] in C. apply Rltb_false in C. unfold baw_E in C. cbn [lit RNum] in C.
    replace (Q2R (1 # 1000000)) with (/ 10 ^ 6) in C by (unfold Q2R; cbn; lra).
    apply Rmult_le_compat_r with (r := K) in C; [|lra]. unfold Rdiv in C. rewrite Rmult_assoc, Rinv_l, Rmult_1_r in C by lra. exact C.
  - intros [[[S1 L1] R1] b1] y _ HB.
    destruct (rhs_p_ok (div (add (sub (y_K o) R1) (mul b1 S1)) (add (lit 1) b1))) as (c' & Hc'). rewrite Hc' in HB. cbn [bind] in HB.
    injection HB as <-. split; [reflexivity|exact Hc'].
  - split; [reflexivity|exact Hc].
Qed.
Lemma Kc_err fuel e : baw_Kc fuel o s = Err e -> e = NoConvergence.
Proof.
  intro H. unfold baw_Kc in H. destruct (rhs_c_ok (baw_seed_c o s)) as (c & Hc). rewrite Hc in H. cbn [bind] in H.
  destruct (while_ _ _ _ _) as [[[[Si LHS] RHS] bi]|] eqn:E; [discriminate|]. cbn in H. injection H as <-.
  apply while_err with (Inv := fun _ => True) in E; auto.
  intros [[[S1 L1] R1] b1] _. destruct (rhs_c_ok (div (sub (add (y_K o) R1) (mul b1 S1)) (sub (lit 1) b1))) as (c' & Hc').
  rewrite Hc'. eexists. split; [reflexivity|auto].
Qed.
Lemma Kp_err fuel e : baw_Kp fuel o s = Err e -> e = NoConvergence.
Proof.
  intro H. unfold baw_Kp in H. destruct (rhs_p_ok (baw_seed_p o s)) as (c & Hc). rewrite Hc in H. cbn [bind] in H.
  destruct (while_ _ _ _ _) as [[[[Si LHS] RHS] bi]|] eqn:E; [discriminate|]. cbn in H. injection H as <-.
  apply while_err with (Inv := fun _ => True) in E; auto.
  intros [[[S1 L1] R1] b1] _. destruct (rhs_p_ok (div (add (sub (y_K o) R1) (mul b1 S1)) (add (lit 1) b1))) as (c' & Hc').
  rewrite Hc'. eexists. split; [reflexivity|auto].
Qed.
End Obj.

(** the critical price does not depend on the spot *)
Lemma Kc_indep fuel S1 S2 : baw_Kc fuel (mkAmer S1 K t r b (Some s)) s = baw_Kc fuel (mkAmer S2 K t r b (Some s)) s.
Proof. reflexivity. Qed.
Lemma Kp_indep fuel S1 S2 : baw_Kp fuel (mkAmer S1 K t r b (Some s)) s = baw_Kp fuel (mkAmer S2 K t r b (Some s)) s.
Proof. reflexivity. Qed.
Lemma prem2_pos Sk : b < r -> 0 < Sk -> 0 < prem2 Sk.
Proof.
  intros Hb HSk. unfold prem2. destruct bq_spec as (H1 & _). pose proof (cnd_range (bd1' Sk)) as [C1 C2].
  assert (bcarry < 1). { unfold bcarry. rewrite <- exp_0. apply exp_increasing. nra. }
  assert (0 < bcarry) by apply exp_pos.
  apply Rmult_lt_0_compat; [apply Rdiv_lt_0_compat; lra|]. nra.
Qed.
Lemma prem1_pos Sk : b <= r -> 0 < Sk -> 0 < prem1 Sk.
Proof.
  intros Hb HSk. unfold prem1. destruct bq_spec as (_ & H1 & _). pose proof (cnd_range (- bd1' Sk)) as [C1 C2].
  assert (bcarry <= 1). { unfold bcarry. rewrite <- exp_0. destruct (Req_dec b r) as [->|]; [right; f_equal; lra|]. left; apply exp_increasing. nra. }
  assert (0 < bcarry) by apply exp_pos.
  apply Rmult_lt_0_compat; [|nra]. replace (- (Sk / bq1)) with (Sk / - bq1) by (field; lra). apply Rdiv_lt_0_compat; lra.
Qed.
Lemma call_value fuel : b < r -> (forall S0, 0 < S0 -> baw_call fuel (mkAmer S0 K t r b (Some s)) = Err NoConvergence) \/
  exists Sk, (0 < Sk -> Rabs (Sk - K - (ccall Sk + prem2 Sk)) <= / 10 ^ 6 * K) /\
  forall S0, 0 < S0 -> baw_call fuel (mkAmer S0 K t r b (Some s)) =
    Ok (if Rlt_dec S0 Sk then ccall S0 + prem2 Sk * Rpower (S0 / Sk) bq2 else S0 - K).
Proof.
  intro Hb. destruct (baw_Kc fuel (mkAmer 1 K t r b (Some s)) s) as [Sk|e] eqn:E.
  - right. exists Sk. split; [intro; now apply (Kc_exit 1 fuel)|]. intros S0 HS. unfold baw_call.
    cbn [y_b y_r leb RNum]. rewrite (proj2 (Rleb_false r b)) by lra. cbn [need of_opt y_sigma bind].
    rewrite (Kc_indep fuel S0 1), E. cbn [bind]. rewrite Q2_eq, d1_eq, carry_eq. cbn [y_S y_K y_t ltb RNum].
    destruct (Rlt_dec S0 Sk) as [H|H].
    + rewrite (proj2 (Rltb_true _ _) H). unfold gbs_c, gbs_call. rewrite call_link by lra. cbn [bind].
      cbn [add sub mul div lit powr RNum]. rewrite Q2R_int. reflexivity.
    + rewrite (proj2 (Rltb_false _ _)) by lra. reflexivity.
  - left. intros S0 _. unfold baw_call. cbn [y_b y_r leb RNum]. rewrite (proj2 (Rleb_false r b)) by lra.
    cbn [need of_opt y_sigma bind]. rewrite (Kc_indep fuel S0 1), E. cbn [bind]. f_equal. now apply (Kc_err 1 fuel).
Qed.
Lemma put_value fuel : (forall S0, 0 < S0 -> baw_put fuel (mkAmer S0 K t r b (Some s)) = Err NoConvergence) \/
  exists Sk, (0 < Sk -> Rabs (K - Sk - (cput Sk + prem1 Sk)) <= / 10 ^ 6 * K) /\
  forall S0, 0 < S0 -> baw_put fuel (mkAmer S0 K t r b (Some s)) =
    Ok (if Rlt_dec Sk S0 then cput S0 + prem1 Sk * Rpower (S0 / Sk) bq1 else K - S0).
Proof.
  destruct (baw_Kp fuel (mkAmer 1 K t r b (Some s)) s) as [Sk|e] eqn:E.
  - right. exists Sk. split; [intro; now apply (Kp_exit 1 fuel)|]. intros S0 HS. unfold baw_put.
    cbn [need of_opt y_sigma bind].
    rewrite (Kp_indep fuel S0 1), E. cbn [bind]. rewrite Q1_eq, d1_eq, carry_eq. cbn [y_S y_K y_t y_r y_b ltb RNum].
    destruct (Rlt_dec Sk S0) as [H|H].
    + rewrite (proj2 (Rltb_true _ _) H). unfold gbs_p, gbs_put. rewrite put_link by lra. cbn [bind].
      cbn [add sub mul div opp lit powr RNum]. rewrite Q2R_int. reflexivity.
    + rewrite (proj2 (Rltb_false _ _)) by lra. reflexivity.
  - left. intros S0 _. unfold baw_put.
    cbn [need of_opt y_sigma bind]. rewrite (Kp_indep fuel S0 1), E. cbn [bind]. f_equal. now apply (Kp_err 1 fuel).
Qed.
End Baw.

Lemma d1_gbs K t b s Sk : gbs_d1 Sk K t b s = bd1' K t b s Sk.
Proof. unfold gbs_d1, bd1'. toR. do 5 f_equal. ring. Qed.
Lemma delta_call_eq K t r b s Sk : gbs_delta true (GBSOption Sk K t r b (Some s)) = Ok (bcarry t r b * cnd (bd1' K t b s Sk)).
Proof.
  rewrite <- d1_gbs. unfold gbs_delta, gbs_delta_F, with_d, GBSOption. cbn [g_sigma g_d1 g_d2 g_S g_K g_t g_r g_b]. reflexivity.
Qed.
Lemma delta_put_eq K t r b s Sk : gbs_delta false (GBSOption Sk K t r b (Some s)) = Ok (bcarry t r b * (cnd (bd1' K t b s Sk) - 1)).
Proof.
  rewrite <- d1_gbs. unfold gbs_delta, gbs_delta_F, with_d, GBSOption. cbn [g_sigma g_d1 g_d2 g_S g_K g_t g_r g_b lit RNum].
  rewrite Q2R_int. reflexivity.
Qed.

(*@ C43_call_value | BAW call below the carry boundary: whatever the iteration budget, either the search does not converge (for any spot), or there are one critical price Sk, exponent q and premium A, the same for every spot, such that the price is the Black-Scholes call plus A (S/Sk)^q below Sk and exactly S - K from Sk on; q is the root above 1 of the quadratic, and for a positive Sk the premium is positive, the two pieces meet within 1e-6 K (value matching) and have the same slope 1 (smooth pasting: the Black-Scholes delta plus q A / Sk). *)
Lemma baw_call_thm : forall (K t r b s : R) (fuel : nat), 0 < K -> 0 < t -> 0 < s -> r <> 0 -> b < r ->
  (forall S, 0 < S -> baw_call fuel (mkAmer S K t r b (Some s)) = Err NoConvergence) \/
  exists Sk q A, 1 < q /\ baw_exponent t r b s q /\
    (0 < Sk -> 0 < A /\ exists c d, gbs_call (GBSOption Sk K t r b (Some s)) = Ok c /\ gbs_delta true (GBSOption Sk K t r b (Some s)) = Ok d /\
       Rabs ((Sk - K) - (c + A)) <= / 10 ^ 6 * K /\ d + q * A / Sk = 1) /\
    forall S, 0 < S -> exists c, gbs_call (GBSOption S K t r b (Some s)) = Ok c /\
      (S < Sk -> baw_call fuel (mkAmer S K t r b (Some s)) = Ok (c + A * Rpower (S / Sk) q)) /\
      (Sk <= S -> baw_call fuel (mkAmer S K t r b (Some s)) = Ok (S - K)).
Proof.
  intros K t r b s fuel HK Ht Hs Hr Hb. destruct (call_value K t r b s HK Ht Hs Hr fuel Hb) as [H|(Sk & H1 & H2)]; [now left|right].
  destruct (bq_spec t r b s Ht Hs Hr) as (Q1 & _ & Q2 & _ & Q3).
  exists Sk, (bq2 t r b s), (prem2 K t r b s Sk). split; [auto|]. split; [exact Q2|]. split.
  - intro HSk. split; [now apply prem2_pos|]. do 2 eexists. split; [apply call_link; lra|]. split; [apply delta_call_eq|].
    split; [now apply H1|]. unfold prem2. field. lra.
  - intros S HS. eexists. split; [apply call_link; lra|]. split; intro HSk; rewrite H2 by exact HS; destruct (Rlt_dec S Sk); try lra; reflexivity.
Qed.

(*@ C43_call_early_exercise | Hence, whenever a BAW call has a price, that price is either exactly S - K or strictly above the Black-Scholes call. *)
Lemma baw_call_ge : forall (S K t r b s c v : R) (fuel : nat), 0 < S -> 0 < K -> 0 < t -> 0 < s -> r <> 0 -> b < r ->
  baw_call fuel (mkAmer S K t r b (Some s)) = Ok v -> gbs_call (GBSOption S K t r b (Some s)) = Ok c -> v = S - K \/ c < v.
Proof.
  intros S K t r b s c v fuel HS HK Ht Hs Hr Hb Hv Hc.
  destruct (baw_call_thm K t r b s fuel HK Ht Hs Hr Hb) as [H|(Sk & q & A & _ & _ & H1 & H2)]; [rewrite H in Hv by exact HS; discriminate|].
  destruct (H2 S HS) as (c' & Hc' & L & G). rewrite Hc in Hc'. injection Hc' as <-.
  destruct (Rlt_le_dec S Sk) as [D|D].
  - right. rewrite (L D) in Hv. injection Hv as <-. destruct H1 as (HA & _); [lra|].
    assert (0 < A * Rpower (S / Sk) q) by (apply Rmult_lt_0_compat; [exact HA|apply exp_pos]). lra.
  - left. rewrite (G D) in Hv. now injection Hv as <-.
Qed.

(*@ C43_put_value | BAW put: either the search does not converge (for any spot), or there are one critical price Sk, exponent q and premium A, the same for every spot, such that the price is the Black-Scholes put plus A (S/Sk)^q above Sk and exactly K - S up to Sk; q is the negative root of the quadratic, and for a positive Sk the pieces meet within 1e-6 K, have the same slope -1, and the premium is positive if b <= r. *)
Lemma baw_put_thm : forall (K t r b s : R) (fuel : nat), 0 < K -> 0 < t -> 0 < s -> r <> 0 ->
  (forall S, 0 < S -> baw_put fuel (mkAmer S K t r b (Some s)) = Err NoConvergence) \/
  exists Sk q A, q < 0 /\ baw_exponent t r b s q /\
    (0 < Sk -> (b <= r -> 0 < A) /\ exists p d, gbs_put (GBSOption Sk K t r b (Some s)) = Ok p /\ gbs_delta false (GBSOption Sk K t r b (Some s)) = Ok d /\
       Rabs ((K - Sk) - (p + A)) <= / 10 ^ 6 * K /\ d + q * A / Sk = - 1) /\
    forall S, 0 < S -> exists p, gbs_put (GBSOption S K t r b (Some s)) = Ok p /\
      (Sk < S -> baw_put fuel (mkAmer S K t r b (Some s)) = Ok (p + A * Rpower (S / Sk) q)) /\
      (S <= Sk -> baw_put fuel (mkAmer S K t r b (Some s)) = Ok (K - S)).
Proof.
  intros K t r b s fuel HK Ht Hs Hr. destruct (put_value K t r b s HK Ht Hs Hr fuel) as [H|(Sk & H1 & H2)]; [now left|right].
  destruct (bq_spec t r b s Ht Hs Hr) as (_ & Q1 & _ & Q2 & _).
  exists Sk, (bq1 t r b s), (prem1 K t r b s Sk). split; [auto|]. split; [exact Q2|]. split.
  - intro HSk. split; [intro; now apply prem1_pos|]. do 2 eexists. split; [apply put_link; lra|]. split; [apply delta_put_eq|].
    split; [now apply H1|]. unfold prem1. rewrite cnd_opp. field. lra.
  - intros S HS. eexists. split; [apply put_link; lra|]. split; intro HSk; rewrite H2 by exact HS; destruct (Rlt_dec Sk S); try lra; reflexivity.
Qed.
