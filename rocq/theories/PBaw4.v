(** The searches for the critical price of Barone-Adesi and Whaley end (C43). *)
From Coq Require Import Reals ZArith QArith Qreals List Bool Lra Lia.
From Coquelicot Require Import Coquelicot.
From Interval Require Import Tactic.
From Verif Require Import Num Py MBase MVanilla MAmerican PCnd PCnd2 PBlack PGauss PGbs PCndAcc PVanilla SAmerican PBaw PBaw3.
Open Scope R_scope.

(** ** An iteration with two phases *)
Section Iter.
Variables (Inv : R -> Prop) (f g a c : R -> R) (tau dl W : R).
Hypothesis Hdl : 0 < dl.
Hypothesis Hm : forall x, Inv x -> 0 <= a x <= W /\ 0 <= c x <= W.
Hypothesis Hlo : forall x, Inv x -> g x < - tau -> Inv (f x) /\ a (f x) <= a x - dl.
Hypothesis Hhi : forall x, Inv x -> tau < g x -> Inv (f x) /\ c (f x) <= c x - dl /\ - tau <= g (f x).

Definition ends (n : nat) (x : R) : Prop :=
  exists m, (m <= n)%nat /\ Rabs (g (Nat.iter m f x)) <= tau /\ forall k, (k <= m)%nat -> Inv (Nat.iter k f x).
Lemma iter_in k x : Nat.iter k f (f x) = Nat.iter (S k) f x.
Proof. induction k; [reflexivity|]. change (f (Nat.iter k f (f x)) = f (Nat.iter (S k) f x)). now rewrite IHk. Qed.
Lemma ends_step n x : Inv x -> ends n (f x) -> ends (S n) x.
Proof.
  intros Hx (m & Hn & H & HI). exists (S m). split; [lia|]. rewrite <- iter_in. split; [exact H|].
  intros [|k] Hk; [exact Hx|]. rewrite <- iter_in. apply HI. lia.
Qed.
Lemma ends_here n x : Inv x -> Rabs (g x) <= tau -> ends n x.
Proof. intros Hx H. exists O. split; [lia|]. split; [exact H|]. intros k Hk. replace k with O by lia. exact Hx. Qed.
Lemma ends_hi n : forall x, Inv x -> - tau <= g x -> c x < INR n * dl -> ends n x.
Proof.
  induction n as [|n IH]; intros x Hx Hg Hc.
  - destruct (Hm x Hx) as [_ ?]. cbn in Hc. lra.
  - destruct (Rle_dec (g x) tau) as [L|L]; [apply ends_here; [exact Hx|apply Rabs_le; lra]|].
    destruct (Hhi x Hx ltac:(lra)) as (I1 & I2 & I3). apply ends_step; [exact Hx|]. apply IH; auto. rewrite S_INR in Hc. lra.
Qed.
Lemma ends_more n m x : (n <= m)%nat -> ends n x -> ends m x.
Proof. intros L (k & Hk & H). exists k. split; [lia|exact H]. Qed.
Lemma ends_lo N : W < INR N * dl -> forall m x, Inv x -> a x < INR m * dl -> ends (m + N) x.
Proof.
  intros HN. induction m as [|m IH]; intros x Hx Ha.
  - destruct (Hm x Hx) as [? _]. cbn in Ha. lra.
  - destruct (Rle_dec (- tau) (g x)) as [L|L].
    + apply ends_more with N; [lia|]. apply ends_hi; auto. destruct (Hm x Hx). lra.
    + destruct (Hlo x Hx ltac:(lra)) as (I1 & I2). apply ends_step; [exact Hx|]. apply IH; auto. rewrite S_INR in Ha. lra.
Qed.
Lemma iter_ends : exists N, forall x, Inv x -> ends N x.
Proof.
  destruct (Rle_dec 0 W) as [HW|HW]; [|exists O; intros x Hx; exfalso; destruct (Hm x Hx); lra].
  destruct (nfloor_ex (W / dl)) as (N & _ & HN); [apply Rmult_le_pos; [exact HW|left; now apply Rinv_0_lt_compat]|].
  assert (HN' : W < INR (S N) * dl). { apply (Rmult_lt_compat_r dl) in HN; [|exact Hdl]. replace (W / dl * dl) with W in HN by (field; lra). rewrite S_INR. exact HN. }
  exists (S N + S N)%nat. intros x Hx. apply ends_lo; auto. destruct (Hm x Hx). lra.
Qed.
End Iter.

(** the loops run this iteration *)
Lemma while_iter {A} (Inv : R -> Prop) (f g : R -> R) tau (cond : A -> bool) (body : A -> res A) (st : R -> A) :
  (forall x, Inv x -> Rabs (g x) <= tau -> cond (st x) = false) ->
  (forall x, Inv x -> Inv (f x) -> body (st x) = Ok (st (f x))) ->
  forall n x, ends Inv f g tau n x -> exists y, Inv y /\ forall fuel, (n <= fuel)%nat -> while_ fuel cond body (st x) = Ok (st y).
Proof.
  intros H1 H2. induction n as [|n IH]; intros x (m & Hm & Hg & HI).
  - replace m with O in * by lia. exists x. split; [apply (HI O); lia|]. intros fuel _. assert (Hx := HI O ltac:(lia)). cbn in Hg, Hx.
    specialize (H1 x Hx Hg). destruct fuel; cbn; rewrite H1; reflexivity.
  - destruct m as [|m].
    { exists x. split; [apply (HI O); lia|]. intros fuel _. assert (Hx := HI O ltac:(lia)). cbn in Hg, Hx.
      specialize (H1 x Hx Hg). destruct fuel; cbn; rewrite H1; reflexivity. }
    destruct (cond (st x)) eqn:E.
    + destruct (IH (f x)) as (y & Hy & Hf).
      { exists m. split; [lia|]. rewrite iter_in. split; [exact Hg|]. intros k Hk. rewrite iter_in. apply HI. lia. }
      exists y. split; [exact Hy|]. intros [|fuel] Hfu; [lia|]. cbn. rewrite E, H2; [|apply (HI O); lia|apply (HI 1%nat); lia]. cbn [bind]. apply Hf. lia.
    + exists x. split; [apply (HI O); lia|]. intros fuel _. destruct fuel; cbn; rewrite E; reflexivity.
Qed.

Lemma npdf_max x : npdf x <= 399 / 1000.
Proof. eapply Rle_trans; [apply npdf_le_0|]. rewrite npdf_0. interval. Qed.

(** ** The call *)
Section CallStep.
Variables e kb v K q B : R.
Hypothesis He : 0 < e.
Hypothesis Hk : 0 < kb.
Hypothesis Hv : 0 < v.
Hypothesis HK : 0 < K.
Hypothesis Hq : 1 < q.
Hypothesis He1 : e < 1.
Hypothesis Hvq : v * q <= 13 * 10 ^ 5.
Let tau := / 10 ^ 6 * K.
Hypothesis HB : 15 / 10 ^ 8 * (B * e + kb) <= tau.
Let g := Gc e kb v K q cnd.
Hypothesis HgB : g B < - tau.
Hypothesis HKB : K < B.
Hypothesis Hd : 0 <= dd e kb v K.
Hypothesis Hek : kb <= K * e.
Let p x := e * cnd (dd e kb v x).
Definition slope x := (1 - p x) * (1 - / q) + p x / (v * q).
Let f x := x + g x / slope x.

Lemma err_B x : x <= B -> err e kb x <= tau / 2.
Proof.
  intro H. unfold err. assert (x * e <= B * e) by (apply Rmult_le_compat_r; lra).
  assert (75 / 10 ^ 9 * (x * e + kb) <= 75 / 10 ^ 9 * (B * e + kb)) by (apply Rmult_le_compat_l; lra). lra.
Qed.
Lemma p_range x : 0 < p x < 1.
Proof. unfold p. generalize (cnd_range (dd e kb v x)). intros. nra. Qed.
Lemma iq : 0 < / q < 1.
Proof. split; [apply Rinv_0_lt_compat; lra|]. rewrite <- Rinv_1. apply Rinv_lt_contravar; lra. Qed.
Lemma ivq : 0 < / (v * q).
Proof. apply Rinv_0_lt_compat, Rmult_lt_0_compat; lra. Qed.
Lemma slope_range x : 0 < slope x <= 1 + / (v * q).
Proof.
  unfold slope. generalize (p_range x) iq ivq. intros P Q V. unfold Rdiv. split.
  - assert (0 < p x * / (v * q)) by (apply Rmult_lt_0_compat; lra). assert (0 < (1 - p x) * (1 - / q)) by (apply Rmult_lt_0_compat; lra). lra.
  - assert (p x * / (v * q) <= 1 * / (v * q)) by (apply Rmult_le_compat_r; lra). assert ((1 - p x) * (1 - / q) <= 1 * 1) by (apply Rmult_le_compat; lra). lra.
Qed.
Lemma dd_nonneg x : K <= x -> 0 <= dd e kb v x.
Proof. intro H. eapply Rle_trans; [exact Hd|]. apply dd_le; lra. Qed.
Lemma cnd_half x : 0 <= x -> 1 / 2 <= cnd x.
Proof. intros [H|<-]; [generalize (cnd_pos_half x H); lra|rewrite cnd_0; lra]. Qed.
(** to the right of a point the equation is no steeper than the slope used there *)
Lemma slope_bound x u : K <= x -> x <= u -> - Gc' e kb v q u <= slope x.
Proof.
  intros Hx Hu. unfold Gc', slope. assert (F : Phi (dd e kb v x) <= Phi (dd e kb v u)) by (apply Phi_le, dd_le; lra).
  assert (A := cnd_accuracy (dd e kb v x)). apply Rabs_le_between in A. assert (H2 := cnd_half _ (dd_nonneg x Hx)).
  assert (N := npdf_max (dd e kb v u)). generalize iq ivq. intros Q V.
  assert (V' : 75 / 10 ^ 9 <= 101 / 1000 * / (v * q)).
  { apply Rmult_le_reg_r with (v * q); [apply Rmult_lt_0_compat; lra|]. rewrite Rmult_assoc, Rinv_l by (apply Rgt_not_eq, Rmult_lt_0_compat; lra). lra. }
  set (F1 := Phi (dd e kb v x)) in *. set (F2 := Phi (dd e kb v u)) in *. unfold p. set (F3 := cnd (dd e kb v x)) in *. set (D := npdf (dd e kb v u)) in *.
  assert (Z1 : (1 - e * F2) * (1 - / q) <= (1 - e * F3 + e * (75 / 10 ^ 9)) * (1 - / q)).
  { apply Rmult_le_compat_r; [lra|]. assert (e * (F3 - 75 / 10 ^ 9) <= e * F2) by (apply Rmult_le_compat_l; lra). lra. }
  assert (Z2 : e * (75 / 10 ^ 9) * (1 - / q) <= e * (75 / 10 ^ 9) * 1) by (apply Rmult_le_compat_l; [apply Rmult_le_pos|]; lra).
  assert (Z3 : e * (75 / 10 ^ 9) <= e * (101 / 1000 * / (v * q))) by (apply Rmult_le_compat_l; lra).
  assert (Z4 : e * (101 / 1000) * / (v * q) <= e * (F3 - D) * / (v * q)) by (apply Rmult_le_compat_r; [lra|apply Rmult_le_compat_l; lra]).
  unfold Rdiv. lra.
Qed.
Lemma call_step_hi x : K <= x -> x <= B -> tau < g x -> x + tau / (1 + / (v * q)) <= f x /\ f x <= B /\ - tau <= g (f x).
Proof.
  intros Hx HxB Hg. destruct (slope_range x) as [M1 M2]. assert (V := ivq). unfold f.
  assert (T0 : 0 < tau) by (unfold tau; assert (0 < / 10 ^ 6) by lra; now apply Rmult_lt_0_compat).
  assert (ST : tau / (1 + / (v * q)) <= g x / slope x).
  { apply Rmult_le_compat; [lra|left; apply Rinv_0_lt_compat; lra|lra|]. apply Rinv_le_contravar; lra. }
  assert (P0 : 0 < tau / (1 + / (v * q))) by (apply Rdiv_lt_0_compat; lra).
  set (y := x + g x / slope x) in *. assert (Hy : x < y) by (unfold y; lra).
  assert (E1 := Gc_err e kb v He Hk K q Hq x ltac:(lra)).
  destruct (MVT_cor2 (Gc e kb v K q Phi) _ x y Hy (fun u Hu => proj1 (is_derive_Reals _ _ _) (Gc_derive e kb v He Hk Hv K q Hq u ltac:(lra)))) as (u & E & Hu).
  assert (SB := slope_bound x u Hx ltac:(lra)).
  assert (GY : Gc e kb v K q Phi x - g x <= Gc e kb v K q Phi y).
  { assert (slope x * (y - x) = g x) by (unfold y; field; lra).
    assert (- Gc' e kb v q u * (y - x) <= slope x * (y - x)) by (apply Rmult_le_compat_r; lra). lra. }
  apply Rabs_le_between in E1. fold g in E1. assert (EB := err_B x HxB).
  assert (YB : y <= B).
  { destruct (Rle_dec y B) as [L|L]; [exact L|exfalso].
    assert (D := Gc_decr e kb v He Hk Hv K q Hq He1 B y ltac:(lra) ltac:(lra)).
    assert (E2 := Gc_err e kb v He Hk K q Hq B ltac:(lra)). apply Rabs_le_between in E2. fold g in E2. assert (EB' := err_B B ltac:(lra)). lra. }
  split; [unfold y; lra|]. split; [exact YB|].
  assert (E2 := Gc_err e kb v He Hk K q Hq y ltac:(lra)). apply Rabs_le_between in E2. fold g in E2. assert (EB' := err_B y YB). lra.
Qed.
Lemma call_step_lo x : K <= x -> g x < - tau -> K <= f x /\ f x <= x - tau / (1 + / (v * q)).
Proof.
  intros Hx Hg. destruct (slope_range x) as [M1 M2]. assert (V := ivq). unfold f.
  assert (T0 : 0 < tau) by (unfold tau; assert (0 < / 10 ^ 6) by lra; now apply Rmult_lt_0_compat).
  split.
  - apply Rmult_le_reg_r with (slope x); [exact M1|]. replace ((x + g x / slope x) * slope x) with (x * slope x + g x) by (field; lra).
    unfold g, Gc, cP, bcall. fold (dd e kb v x). assert (L : cnd (bd2 (x * e) kb v) <= cnd (dd e kb v x)).
    { assert (Z : bd2 (x * e) kb v < dd e kb v x) by (unfold dd, bd2, bd1; lra). left. now apply cnd_incr. }
    assert (C := cnd_range (bd2 (x * e) kb v)). set (w := cnd (bd2 (x * e) kb v)) in *.
    assert (KW : kb * w <= K * p x). { unfold p. rewrite <- Rmult_assoc. apply Rmult_le_compat; lra. }
    unfold slope, p in *. set (P := e * cnd (dd e kb v x)) in *. generalize (p_range x) iq. unfold p. fold P. intros PR Q.
    replace (x * e * cnd (dd e kb v x)) with (x * P) by (unfold P; ring).
    replace (x * ((1 - P) * (1 - / q) + P / (v * q)) + (x * P - kb * w + x / q * (1 - P) - (x - K)))
      with (K - kb * w + x * (P * / (v * q))) by (field; lra).
    assert (0 < P * / (v * q)) by (apply Rmult_lt_0_compat; lra).
    assert (K * (P * / (v * q)) <= x * (P * / (v * q))) by (apply Rmult_le_compat_r; lra).
    assert (0 <= K * ((1 - P) * / q)) by (apply Rmult_le_pos; [|apply Rmult_le_pos]; lra). unfold Rdiv. lra.
  - assert (ST : tau / (1 + / (v * q)) <= (- g x) / slope x).
    { apply Rmult_le_compat; [lra|left; apply Rinv_0_lt_compat; lra|lra|]. apply Rinv_le_contravar; lra. }
    replace (- g x / slope x) with (- (g x / slope x)) in ST by (field; lra). lra.
Qed.
Lemma call_iter_ends : exists N, forall x, K <= x <= B -> ends (fun x => K <= x <= B) (fun x => x + g x / slope x) g tau N x.
Proof.
  assert (V := ivq).
  assert (T0 : 0 < tau) by (unfold tau; assert (0 < / 10 ^ 6) by lra; now apply Rmult_lt_0_compat).
  apply iter_ends with (a := fun x => x - K) (c := fun x => B - x) (dl := tau / (1 + / (v * q))) (W := B - K).
  - apply Rdiv_lt_0_compat; lra.
  - intros x Hx. lra.
  - intros x Hx Hg. destruct (call_step_lo x ltac:(lra) Hg) as [H1 H2]. fold (f x) in *. assert (0 < tau / (1 + / (v * q))) by (apply Rdiv_lt_0_compat; lra). lra.
  - intros x Hx Hg. destruct (call_step_hi x ltac:(lra) ltac:(lra) Hg) as (H1 & H2 & H3). fold (f x) in *. assert (0 < tau / (1 + / (v * q))) by (apply Rdiv_lt_0_compat; lra). lra.
Qed.
End CallStep.

Section Q.
Variables K t r b s : R.
Hypothesis HK : 0 < K.
Hypothesis Ht : 0 < t.
Hypothesis Hs : 0 < s.
Hypothesis Hr : 0 < r.
Let Hr0 : r <> 0 := Rgt_not_eq _ _ Hr.
Let n := 2 * b / s ^ 2.
Let X := 2 * r / (s ^ 2 * (1 - exp (- r * t))).
Lemma disc_pos : 0 < 1 - exp (- r * t) < 1.
Proof.
  assert (exp (- r * t) < exp 0) by (apply exp_increasing; nra). rewrite exp_0 in H. generalize (exp_pos (- r * t)). lra.
Qed.
Lemma s2_pos : 0 < s ^ 2. Proof. now apply pow_lt. Qed.
Lemma X_pos : 0 < X.
Proof. unfold X. apply Rdiv_lt_0_compat; [lra|]. apply Rmult_lt_0_compat; [apply s2_pos|apply disc_pos]. Qed.
(** the quadratic in its usual form *)
Lemma quad_form q : s ^ 2 / 2 * q * (q - 1) + b * q = r / (1 - exp (- r * t)) -> q ^ 2 + (n - 1) * q = X.
Proof.
  intro H. assert (D := disc_pos). assert (S2 := s2_pos). apply Rmult_eq_reg_l with (s ^ 2 / 2); [|lra].
  replace (s ^ 2 / 2 * (q ^ 2 + (n - 1) * q)) with (s ^ 2 / 2 * q * (q - 1) + b * q) by (unfold n; field; lra).
  rewrite H. unfold X. field. lra.
Qed.
Lemma q2_unique q : 0 < q -> s ^ 2 / 2 * q * (q - 1) + b * q = r / (1 - exp (- r * t)) -> q = bq2 t r b s.
Proof.
  intros Hq H. apply quad_form in H. destruct (bq_spec t r b s Ht Hs Hr0) as (H1 & _ & H3 & _). fold n X in H3.
  set (q' := bq2 t r b s) in *. assert (P := X_pos). assert (Z : (q - q') * (q + q' + n - 1) = 0) by (rewrite <- H3 in H; lra).
  apply Rmult_integral in Z. destruct Z as [Z|Z]; [lra|]. exfalso. assert (q' * (q' + n - 1) = X) by lra.
  assert (q' * (- q) = X) by (rewrite <- H0; f_equal; lra). assert (0 < q' * q) by now apply Rmult_lt_0_compat. lra.
Qed.
Lemma q1_unique q : q < 0 -> s ^ 2 / 2 * q * (q - 1) + b * q = r / (1 - exp (- r * t)) -> q = bq1 t r b s.
Proof.
  intros Hq H. apply quad_form in H. destruct (bq_spec t r b s Ht Hs Hr0) as (_ & H1 & _ & H3 & _). fold n X in H3.
  set (q' := bq1 t r b s) in *. assert (P := X_pos). assert (Z : (q - q') * (q + q' + n - 1) = 0) by (rewrite <- H3 in H; lra).
  apply Rmult_integral in Z. destruct Z as [Z|Z]; [lra|]. exfalso. assert (q' * (q' + n - 1) = X) by lra.
  assert (q' * (- q) = X) by (rewrite <- H0; f_equal; lra). assert (0 < (- q') * (- q)) by (apply Rmult_lt_0_compat; lra). lra.
Qed.
Lemma X_bound : X * (s ^ 2 * t) <= 2 * (1 + r * t).
Proof.
  assert (D := disc_pos). assert (S2 := s2_pos). assert (E := exp_ineq1_le (r * t)).
  assert (P := exp_pos (- r * t)). assert (EE : exp (- r * t) * exp (r * t) = 1).
  { rewrite <- exp_plus, <- exp_0. f_equal. ring. }
  assert (F : exp (- r * t) * (1 + r * t) <= 1) by (rewrite <- EE; apply Rmult_le_compat_l; lra).
  unfold X. replace (2 * r / (s ^ 2 * (1 - exp (- r * t))) * (s ^ 2 * t)) with (2 * ((r * t) / (1 - exp (- r * t)))) by (field; lra).
  apply Rmult_le_compat_l; [lra|]. apply Rmult_le_reg_r with (1 - exp (- r * t)); [lra|].
  replace (r * t / (1 - exp (- r * t)) * (1 - exp (- r * t))) with (r * t) by (field; lra). lra.
Qed.
Lemma vq_bound : 0 <= b -> s * sqrt t <= 10 ^ 6 -> r * t <= 10 ^ 6 -> s * sqrt t * bq2 t r b s <= 13 * 10 ^ 5.
Proof.
  intros Hb H1 H2. destruct (bq_spec t r b s Ht Hs Hr0) as (Q & _ & H3 & _). fold n X in H3. set (q := bq2 t r b s) in *.
  assert (V := v_pos' t s Ht Hs). assert (XB := X_bound). set (v := s * sqrt t) in *.
  assert (EV : s ^ 2 * t = v * v). { unfold v. replace (s * sqrt t * (s * sqrt t)) with (s ^ 2 * (sqrt t * sqrt t)) by ring. rewrite sqrt_sqrt by lra. reflexivity. }
  rewrite EV in XB. assert (N : 0 <= n) by (unfold n; apply Rmult_le_pos; [lra|left; apply Rinv_0_lt_compat, s2_pos]).
  assert (N' : 0 <= n * q) by (apply Rmult_le_pos; lra).
  assert (Z : (v * q) * (v * q) <= v * (v * q) + 2 * (1 + r * t)).
  { assert (q * q <= q + X) by nra. assert ((v * v) * (q * q) <= (v * v) * (q + X)) by (apply Rmult_le_compat_l; [nra|lra]). lra. }
  set (y := v * q) in *. destruct (Rle_dec y (13 * 10 ^ 5)) as [L|L]; [exact L|exfalso].
  assert (v * y <= 10 ^ 6 * y) by (apply Rmult_le_compat_r; lra). assert (13 * 10 ^ 5 * y <= y * y) by (apply Rmult_le_compat_r; lra). lra.
Qed.
(** the start of the call search *)
Lemma seed_below B S0 : b < r -> 0 <= b * t + 2 * s * sqrt t -> K < B -> s ^ 2 / 2 * B * K / (B - K) ^ 2 + b * B / (B - K) <= r ->
  K <= baw_seed_c (mkAmer S0 K t r b (Some s)) s <= B.
Proof.
  intros Hb Hd HB H. destruct (seed_c_pos K t r b s S0 HK Hs Hr Hb Hd) as [L1 L2]. split; [exact L1|].
  destruct (qu_spec r b s Hs Hr Hb) as [Q1 Q2]. set (q := qu r b s) in *.
  assert (S2 := s2_pos). set (y := B / (B - K)). assert (Hy : 1 < y).
  { unfold y. apply Rmult_lt_reg_r with (B - K); [lra|]. unfold Rdiv. rewrite Rmult_assoc, Rinv_l by lra. lra. }
  assert (E : s ^ 2 / 2 * (y ^ 2 + (n - 1) * y) <= s ^ 2 / 2 * (q ^ 2 + (n - 1) * q)).
  { fold n in Q2. rewrite Q2. replace (s ^ 2 / 2 * (2 * r / s ^ 2)) with r by (field; lra).
    replace (s ^ 2 / 2 * (y ^ 2 + (n - 1) * y)) with (s ^ 2 / 2 * B * K / (B - K) ^ 2 + b * B / (B - K)); [exact H|].
    unfold y, n. field. lra. }
  apply Rmult_le_reg_l in E; [|lra].
  assert (LY : y <= q).
  { destruct (Rle_dec y q) as [L|L]; [exact L|exfalso]. assert (Z : 0 < q * (q + (n - 1))).
    { replace (q * (q + (n - 1))) with (q ^ 2 + (n - 1) * q) by ring. fold n in Q2. rewrite Q2. apply Rdiv_lt_0_compat; lra. }
    assert (0 < q + (n - 1)) by (apply Rmult_lt_reg_l with q; lra). nra. }
  assert (K * (q / (q - 1)) <= B); [|lra].
  assert (Y1 : B = K * (y / (y - 1))). { unfold y. field. lra. }
  rewrite Y1. apply Rmult_le_compat_l; [lra|]. apply Rmult_le_reg_r with ((q - 1) * (y - 1)); [apply Rmult_lt_0_compat; lra|].
  replace (q / (q - 1) * ((q - 1) * (y - 1))) with (q * (y - 1)) by (field; lra).
  replace (y / (y - 1) * ((q - 1) * (y - 1))) with (y * (q - 1)) by (field; lra). lra.
Qed.

(** one turn of the call loop *)
Lemma call_loop N B Sd : b < r -> 0 < B ->
  (forall x, K <= x <= B -> ends (fun x => K <= x <= B) (fun x => x + Gc (bcarry t r b) (K * exp (- r * t)) (s * sqrt t) K (bq2 t r b s) cnd x
     / slope (bcarry t r b) (K * exp (- r * t)) (s * sqrt t) (bq2 t r b s) x) (Gc (bcarry t r b) (K * exp (- r * t)) (s * sqrt t) K (bq2 t r b s) cnd) (/ 10 ^ 6 * K) N x) ->
  K <= baw_seed_c (mkAmer Sd K t r b (Some s)) s <= B ->
  exists Sk, K <= Sk <= B /\ forall fuel, (N <= fuel)%nat -> baw_Kc fuel (mkAmer Sd K t r b (Some s)) s = Ok Sk.
Proof.
  intros Hb HB HE HSd. set (o := mkAmer Sd K t r b (Some s)) in *.
  set (rhs x := ccall K t r b s x + prem2 K t r b s x).
  assert (RE : forall x, 0 < x -> baw_rhs_c o s x = Ok (rhs x)) by (intros; unfold o, rhs; now apply rhs_c_eq).
  specialize (HE _ HSd). set (f := fun x : R => x + _) in HE. set (g := Gc _ _ _ _ _ _) in *.
  destruct (while_iter (fun x => K <= x <= B) f g (/ 10 ^ 6 * K)
    (fun st => let '(Si, LHS, RHS, bi) := st in ltb baw_E (div (absn (sub LHS RHS)) (y_K o)))
    (fun st => let '(Si, LHS, RHS, bi) := st in
             let Si := div (sub (add (y_K o) RHS) (mul bi Si)) (sub (lit 1) bi) in
             bind (baw_rhs_c o s Si) (fun RHS => Ok (Si, sub Si (y_K o), RHS, baw_bi_c o s Si)))
    (fun x => (x, x - K, rhs x, baw_bi_c o s x))) with (n := N) (x := baw_seed_c o s) as (y & Hy & HF).
  - intros x Hx Hg. cbn [ltb div absn sub RNum y_K o]. apply Rltb_false. unfold baw_E. cbn [lit RNum].
    replace (Q2R (1 # 1000000)) with (/ 10 ^ 6) by (unfold Q2R; cbn; lra).
    apply Rmult_le_reg_r with K; [exact HK|]. unfold Rdiv. rewrite Rmult_assoc, Rinv_l, Rmult_1_r by lra.
    unfold g in Hg. rewrite (Gc_eq K t r b s) in Hg by (try assumption; lra). rewrite Rabs_minus_sym. exact Hg.
  - intros x Hx Hfx.
    assert (SL : 1 - baw_bi_c o s x = slope (bcarry t r b) (K * exp (- r * t)) (s * sqrt t) (bq2 t r b s) x).
    { unfold o. rewrite (bi_c_eq K t r b s Sd) by assumption. unfold slope, pc. rewrite (dd_eq K t r b s) by (try assumption; lra). reflexivity. }
    assert (P1 : 0 < 1 - baw_bi_c o s x) by (apply (step_c_pos K t r b s Sd); try assumption; lra).
    match goal with |- (let Si := ?a in _) = _ => assert (Q : a = f x) end.
    { cbn [y_K add sub mul div RNum o]. change (lit 1) with (Q2R 1). replace (Q2R 1) with 1 by (unfold Q2R; cbn; lra).
      unfold rhs, o. rewrite (step_c K t r b s Sd) by (fold o; lra). fold o. unfold f, g. rewrite (Gc_eq K t r b s) by (try assumption; lra). rewrite SL. reflexivity. }
    cbv zeta. rewrite Q, RE by lra. reflexivity.
  - exact HE.
  - exists y. split; [exact Hy|]. intros fuel Hf. specialize (HF fuel Hf). unfold baw_Kc. rewrite RE by lra.
    match type of HF with ?w = _ => change (bind w (fun st => let '(Si, _, _, _) := st in Ok Si) = Ok y) end. rewrite HF. reflexivity.
Qed.
End Q.

Lemma delta_link K t r b s S : 0 < K -> 0 < t -> 0 < s -> 0 < r -> 0 < S ->
  gbs_delta true (GBSOption S K t r b (Some s)) = Ok (bcarry t r b * cnd (bd1' K t b s S)).
Proof.
  intros. rewrite <- (dd_eq K t r b s) by assumption. unfold gbs_delta, gbs_delta_F, with_d, GBSOption.
  cbn [g_sigma g_d1 g_d2 g_S g_K g_t g_r g_b]. rewrite (d1_link S K t r b s) by lra. reflexivity.
Qed.
(*@ C43_call_terminates | The search behind a BAW call ends: if the cost of carry b is nonnegative and below r, and at some spot B (K < B <= 5 K, above the perpetual critical price) exercise is worth more than the Black-Scholes price plus the early exercise premium of the approximation by over 1e-6 K, then from some number of iterations on every call has a price, the same for every larger number. *)
Lemma baw_call_terminates : forall (K t r b s B q c d : R), 0 < K -> 0 < t -> 0 < s -> 0 <= b -> b < r -> s * sqrt t <= 10 ^ 6 -> r * t <= 10 ^ 6 ->
  K < B <= 5 * K -> s ^ 2 / 2 * B * K / (B - K) ^ 2 + b * B / (B - K) <= r ->
  1 < q -> s ^ 2 / 2 * q * (q - 1) + b * q = r / (1 - exp (- r * t)) ->
  gbs_call (GBSOption B K t r b (Some s)) = Ok c -> gbs_delta true (GBSOption B K t r b (Some s)) = Ok d ->
  c + B * (1 - d) / q + / 10 ^ 6 * K < B - K ->
  exists N, forall S, 0 < S -> exists v, forall fuel, (N <= fuel)%nat -> baw_call fuel (mkAmer S K t r b (Some s)) = Ok v.
Proof.
  intros K t r b s B q c d HK Ht Hs Hb0 Hb HV HR [HB HB5] HSu Hq1 Hq Hc Hde Hex.
  assert (Hr : 0 < r) by lra. assert (Hr0 : r <> 0) by lra.
  apply (q2_unique t r b s) in Hq; try assumption; [|lra].
  set (e := bcarry t r b). set (kb := K * exp (- r * t)). set (v := s * sqrt t).
  assert (He := e_pos t r b). assert (He1 := e_lt t r b Ht Hr Hb). assert (Hk := kb_pos K t r HK Ht Hr). assert (Hv := v_pos' t s Ht Hs).
  assert (HVQ := vq_bound t r b s Ht Hs Hr Hb0 HV HR). rewrite <- Hq in HVQ. fold e in He, He1. fold kb in Hk. fold v in Hv, HVQ.
  assert (DK : 0 <= dd e kb v K).
  { unfold e, kb, v. rewrite (dd_eq K t r b s) by assumption. unfold bd1'. replace (K / K) with 1 by (field; lra). rewrite ln_1.
    apply Rmult_le_pos; [|left; apply Rinv_0_lt_compat; exact Hv]. assert (0 <= s ^ 2) by apply pow2_ge_0. rewrite Rplus_0_l. apply Rmult_le_pos; lra. }
  assert (EK : kb <= K * e).
  { unfold kb, e, bcarry. apply Rmult_le_compat_l; [lra|]. apply exp_le_le. nra. }
  assert (EB : 15 / 10 ^ 8 * (B * e + kb) <= / 10 ^ 6 * K).
  { assert (B * e <= B * 1) by (apply Rmult_le_compat_l; lra). lra. }
  assert (GB : Gc e kb v K q cnd B < - (/ 10 ^ 6 * K)).
  { rewrite Hq. unfold e, kb, v. rewrite (Gc_eq K t r b s) by (try assumption; lra). unfold prem2. rewrite <- Hq.
    assert (C1 : c = ccall K t r b s B). { unfold gbs_call in Hc. rewrite call_link in Hc by lra. now injection Hc as <-. }
    assert (D1 : d = bcarry t r b * cnd (bd1' K t b s B)).
    { rewrite delta_link in Hde by (try assumption; lra). now injection Hde as <-. }
    rewrite D1 in Hex. rewrite <- C1. unfold Rdiv in *. lra. }
  destruct (call_iter_ends e kb v K q B He ltac:(lra) Hv HK Hq1 He1 HVQ EB GB HB DK EK) as (N & HN).
  rewrite Hq in HN. unfold e, kb, v in HN.
  assert (D0 : 0 <= b * t + 2 * s * sqrt t). { assert (0 <= b * t) by (apply Rmult_le_pos; lra). fold v in Hv. unfold v in Hv. lra. }
  destruct (call_loop K t r b s HK Ht Hs Hr N B 1 Hb ltac:(lra) HN (seed_below K t r b s HK Hs Hr B 1 Hb D0 HB HSu)) as (Sk & HSk & HF).
  exists N. intros S HS. eexists. intros fuel Hf. apply call_value'; auto.
Qed.

(** ** The put *)
Section PutStep.
Variables e kb v K q U S0 : R.
Hypothesis He : 0 < e.
Hypothesis Hk : 0 < kb <= K.
Hypothesis Hv : 0 < v.
Hypothesis HK : 0 < K.
Hypothesis Hq : q <= - (1 / 4).
Hypothesis He1 : e <= 1.
Hypothesis Hvq : v * - q <= 10 ^ 5.
Let tau := / 10 ^ 6 * K.
Hypothesis HU : 0 < U.
Hypothesis HUe : U * e <= K.
Let g := Gp e kb v K q cnd.
Hypothesis Hd : dd e kb v U <= 0.
Hypothesis HS0 : 0 < S0 <= U.
Let p x := e * cnd (- dd e kb v x).
Let w x := cnd (- bd2 (x * e) kb v).
Hypothesis Hjump : - tau <= g S0 \/ K - kb * w S0 + / 10 ^ 6 * (K + U * (1 - / q)) <= U * (1 - / q) * (1 - p S0).
Definition slope_p x := (1 - e * cnd (- dd e kb v x)) * (1 - / q) - e * cnd (- dd e kb v x) / (v * q).
Let f x := x - g x / slope_p x.
Let Inv x := (0 < x <= U) /\ (- tau <= g x \/ (S0 <= x /\ g S0 < - tau)).

Lemma tau_pos : 0 < tau.
Proof. unfold tau. apply Rmult_lt_0_compat; lra. Qed.
Lemma iqp : - 4 <= / q < 0.
Proof.
  split; [|apply Rinv_lt_0_compat; lra]. assert (0 < / - q <= 4); [|replace (/ q) with (- / - q) by (field; lra); lra].
  split; [apply Rinv_0_lt_compat; lra|]. replace 4 with (/ (1 / 4)) by field. apply Rinv_le_contravar; lra.
Qed.
Lemma ivqp : 0 < / (v * - q).
Proof. apply Rinv_0_lt_compat, Rmult_lt_0_compat; lra. Qed.
Lemma errp_U x : 0 < x -> x <= U -> errp e kb q x <= tau / 2.
Proof.
  intros Hx H. unfold errp, err, tau. assert (L : x * e <= U * e) by (apply Rmult_le_compat_r; lra). generalize iqp. intros Q.
  assert (0 < x * e) by (apply Rmult_lt_0_compat; lra).
  assert (x * e * - / q <= K * 4) by (apply Rmult_le_compat; lra). lra.
Qed.
Lemma pp_range x : 0 < p x < 1.
Proof. unfold p. generalize (cnd_range (- dd e kb v x)). intros. nra. Qed.
Lemma slope_p_eq x : slope_p x = (1 - p x) * (1 - / q) + p x * / (v * - q).
Proof. unfold slope_p. fold (p x). field. lra. Qed.
Lemma slope_p_range x : 0 < slope_p x <= 5 + / (v * - q).
Proof.
  rewrite slope_p_eq. generalize (pp_range x) iqp ivqp. intros P Q V. split.
  - assert (0 < p x * / (v * - q)) by (apply Rmult_lt_0_compat; lra). assert (0 < (1 - p x) * (1 - / q)) by (apply Rmult_lt_0_compat; lra). lra.
  - assert (p x * / (v * - q) <= 1 * / (v * - q)) by (apply Rmult_le_compat_r; lra). assert ((1 - p x) * (1 - / q) <= 1 * 5) by (apply Rmult_le_compat; lra). lra.
Qed.
(** to the left of a point below [U] the equation is no steeper than the slope used there *)
Lemma slope_p_bound x u : x <= U -> 0 < u -> u <= x -> Gp' e kb v q u <= slope_p x.
Proof.
  intros Hx Hu0 Hu. rewrite slope_p_eq. unfold Gp'.
  assert (F : Phi (- dd e kb v x) <= Phi (- dd e kb v u)) by (apply Phi_le, Ropp_le_contravar, dd_le; lra).
  assert (DX : dd e kb v x <= 0) by (eapply Rle_trans; [apply (dd_le e kb v) with (y := U); lra|exact Hd]).
  assert (A := cnd_accuracy (- dd e kb v x)). apply Rabs_le_between in A. assert (H2 := cnd_half (- dd e kb v x) ltac:(lra)).
  assert (N := npdf_max (dd e kb v u)). generalize iqp ivqp. intros Q V.
  assert (V' : 5 * (75 / 10 ^ 9) <= 101 / 1000 * / (v * - q)).
  { apply Rmult_le_reg_r with (v * - q); [apply Rmult_lt_0_compat; lra|]. rewrite (Rmult_assoc (101 / 1000)), Rinv_l by (apply Rgt_not_eq, Rmult_lt_0_compat; lra). lra. }
  replace (e * npdf (dd e kb v u) / (v * q)) with (- (e * npdf (dd e kb v u) * / (v * - q))) by (field; lra).
  unfold p. set (F1 := Phi (- dd e kb v x)) in *. set (F2 := Phi (- dd e kb v u)) in *. set (F3 := cnd (- dd e kb v x)) in *. set (D := npdf (dd e kb v u)) in *.
  assert (Z1 : (1 - e * F2) * (1 - / q) <= (1 - e * F3 + e * (75 / 10 ^ 9)) * (1 - / q)).
  { apply Rmult_le_compat_r; [lra|]. assert (e * (F3 - 75 / 10 ^ 9) <= e * F2) by (apply Rmult_le_compat_l; lra). lra. }
  assert (Z2 : e * (75 / 10 ^ 9) * (1 - / q) <= e * (75 / 10 ^ 9) * 5) by (apply Rmult_le_compat_l; [apply Rmult_le_pos|]; lra).
  assert (Z3 : e * (5 * (75 / 10 ^ 9)) <= e * (101 / 1000 * / (v * - q))) by (apply Rmult_le_compat_l; lra).
  assert (Z4 : e * (101 / 1000) * / (v * - q) <= e * (F3 - D) * / (v * - q)) by (apply Rmult_le_compat_r; [lra|apply Rmult_le_compat_l; lra]).
  lra.
Qed.
(** the next iterate, times the slope *)
Lemma put_next x : 0 < x -> (x - g x / slope_p x) * slope_p x = K - kb * w x + x * (p x * / (v * - q)).
Proof.
  intro Hx. destruct (slope_p_range x) as [M1 _]. replace ((x - g x / slope_p x) * slope_p x) with (x * slope_p x - g x) by (field; lra).
  rewrite slope_p_eq. unfold g, Gp, pP, bput, p, w. fold (dd e kb v x). field. lra.
Qed.
Lemma put_step_hi x : 0 < x -> x <= U -> tau < g x -> 0 < f x /\ f x <= x - tau / (5 + / (v * - q)) /\ - tau <= g (f x).
Proof.
  intros Hx HxU Hg. destruct (slope_p_range x) as [M1 M2]. assert (V := ivqp). assert (T0 := tau_pos). assert (PN := put_next x Hx). fold (f x) in PN.
  assert (P := pp_range x).
  assert (Y0 : 0 < f x).
  { apply Rmult_lt_reg_r with (slope_p x); [exact M1|]. rewrite PN, Rmult_0_l. assert (C := cnd_range (- bd2 (x * e) kb v)). fold (w x) in C.
    assert (kb * w x < K) by nra. assert (0 < x * (p x * / (v * - q))) by (apply Rmult_lt_0_compat; [lra|apply Rmult_lt_0_compat; lra]). lra. }
  assert (ST : tau / (5 + / (v * - q)) <= g x / slope_p x).
  { apply Rmult_le_compat; [lra|left; apply Rinv_0_lt_compat; lra|lra|]. apply Rinv_le_contravar; lra. }
  assert (P0 : 0 < tau / (5 + / (v * - q))) by (apply Rdiv_lt_0_compat; lra).
  split; [exact Y0|]. split; [unfold f; lra|].
  assert (Hy : f x < x) by (unfold f; lra). assert (Ey : slope_p x * (x - f x) = g x) by (unfold f; field; lra). set (y := f x) in *.
  assert (E1 := Gp_err e kb v He ltac:(lra) K q ltac:(lra) x Hx).
  destruct (MVT_cor2 (Gp e kb v K q Phi) _ y x Hy (fun u Hu => proj1 (is_derive_Reals _ _ _) (Gp_derive e kb v He ltac:(lra) Hv K q ltac:(lra) u ltac:(lra)))) as (u & E & Hu).
  assert (SB := slope_p_bound x u HxU ltac:(lra) ltac:(lra)).
  assert (GY : Gp e kb v K q Phi x - g x <= Gp e kb v K q Phi y).
  { assert (Gp' e kb v q u * (x - y) <= slope_p x * (x - y)) by (apply Rmult_le_compat_r; lra). lra. }
  apply Rabs_le_between in E1. fold g in E1. assert (EB := errp_U x Hx HxU).
  assert (E2 := Gp_err e kb v He ltac:(lra) K q ltac:(lra) y Y0). apply Rabs_le_between in E2. fold g in E2. assert (EB' := errp_U y Y0 ltac:(lra)). lra.
Qed.
(** the tangent of the European put at a later point meets the exercise line no later *)
Lemma tangent_meet x V0 : S0 <= x -> x <= V0 ->
  V0 * (1 - e * Phi (- dd e kb v S0)) - (K - kb * Phi (- bd2 (S0 * e) kb v)) <= V0 * (1 - e * Phi (- dd e kb v x)) - (K - kb * Phi (- bd2 (x * e) kb v)).
Proof.
  intros H1 H2. assert (T := p_tangent e kb v He ltac:(lra) Hv x S0 ltac:(lra) ltac:(lra)).
  assert (F : Phi (- dd e kb v x) <= Phi (- dd e kb v S0)) by (apply Phi_le, Ropp_le_contravar, dd_le; lra).
  unfold pP, bput in T. fold (dd e kb v x) (dd e kb v S0) in T.
  set (F0 := Phi (- dd e kb v S0)) in *. set (F1 := Phi (- dd e kb v x)) in *. set (W0 := Phi (- bd2 (S0 * e) kb v)) in *. set (W1 := Phi (- bd2 (x * e) kb v)) in *.
  assert (0 <= e * (F0 - F1) * (V0 - x)) by (apply Rmult_le_pos; [apply Rmult_le_pos|]; lra). lra.
Qed.
Lemma put_step_lo x : S0 <= x -> x <= U -> g S0 < - tau -> g x < - tau -> f x <= U /\ x + tau / (5 + / (v * - q)) <= f x.
Proof.
  intros Hx HxU HgS Hg. destruct (slope_p_range x) as [M1 M2]. assert (V := ivqp). assert (T0 := tau_pos). assert (PN := put_next x ltac:(lra)). fold (f x) in PN.
  assert (P := pp_range x). generalize iqp. intro Q. split.
  - destruct Hjump as [HJ|HJ]; [lra|]. apply Rmult_le_reg_r with (slope_p x); [exact M1|]. rewrite PN, slope_p_eq.
    set (V0 := U * (1 - / q)) in *. assert (VU : U <= V0) by (unfold V0; nra).
    assert (TM := tangent_meet x V0 Hx ltac:(lra)).
    generalize (cnd_accuracy (- dd e kb v S0)) (cnd_accuracy (- bd2 (S0 * e) kb v)) (cnd_accuracy (- dd e kb v x)) (cnd_accuracy (- bd2 (x * e) kb v)).
    intros A1 A2 A3 A4. apply Rabs_le_between in A1, A2, A3, A4. unfold p, w in *.
    set (F0 := Phi (- dd e kb v S0)) in *. set (F1 := Phi (- dd e kb v x)) in *. set (W0 := Phi (- bd2 (S0 * e) kb v)) in *. set (W1 := Phi (- bd2 (x * e) kb v)) in *.
    set (f0 := cnd (- dd e kb v S0)) in *. set (f1 := cnd (- dd e kb v x)) in *. set (w0 := cnd (- bd2 (S0 * e) kb v)) in *. set (w1 := cnd (- bd2 (x * e) kb v)) in *.
    assert (KK : forall y z, y - z <= 75 / 10 ^ 9 -> kb * (y - z) <= 75 / 10 ^ 9 * K).
    { intros y z H. apply Rle_trans with (kb * (75 / 10 ^ 9)); [apply Rmult_le_compat_l; lra|lra]. }
    assert (VE : 0 <= V0 * e <= V0) by (split; [apply Rmult_le_pos; lra|rewrite <- (Rmult_1_r V0) at 2; apply Rmult_le_compat_l; lra]).
    assert (KV : forall y z, y - z <= 75 / 10 ^ 9 -> V0 * e * (y - z) <= 75 / 10 ^ 9 * V0).
    { intros y z H. apply Rle_trans with (V0 * e * (75 / 10 ^ 9)); [apply Rmult_le_compat_l; lra|lra]. }
    assert (K1 := KK w0 W0 ltac:(lra)). assert (K2 := KK W1 w1 ltac:(lra)). assert (K3 := KV f1 F1 ltac:(lra)). assert (K4 := KV F0 f0 ltac:(lra)).
    assert (AD : K - kb * w1 <= V0 * (1 - e * f1)) by lra.
    replace (U * ((1 - e * f1) * (1 - / q) + e * f1 * / (v * - q))) with (V0 * (1 - e * f1) + U * (e * f1 * / (v * - q))) by (unfold V0; ring).
    assert (0 < e * f1 * / (v * - q)) by (apply Rmult_lt_0_compat; lra).
    assert (x * (e * f1 * / (v * - q)) <= U * (e * f1 * / (v * - q))) by (apply Rmult_le_compat_r; lra). lra.
  - assert (ST : tau / (5 + / (v * - q)) <= (- g x) / slope_p x).
    { apply Rmult_le_compat; [lra|left; apply Rinv_0_lt_compat; lra|lra|]. apply Rinv_le_contravar; lra. }
    unfold f. replace (- g x / slope_p x) with (- (g x / slope_p x)) in ST by (field; lra). lra.
Qed.
Lemma put_iter_ends : exists N, ends (fun x => 0 < x <= U) (fun x => x - g x / slope_p x) g tau N S0.
Proof.
  assert (V := ivqp). assert (T0 := tau_pos). assert (P0 : 0 < tau / (5 + / (v * - q))) by (apply Rdiv_lt_0_compat; lra).
  assert (E : exists N, forall x, Inv x -> ends Inv f g tau N x).
  { apply iter_ends with (a := fun x => U - x) (c := fun x => x) (dl := tau / (5 + / (v * - q))) (W := U).
    - exact P0.
    - intros x [Hx _]. lra.
    - intros x [Hx HI] Hg. destruct HI as [HI|[HI HI']]; [lra|]. destruct (put_step_lo x HI ltac:(lra) HI' Hg) as [H1 H2]. unfold Inv. lra.
    - intros x [Hx HI] Hg. destruct (put_step_hi x ltac:(lra) ltac:(lra) Hg) as (H1 & H2 & H3). unfold Inv. lra. }
  destruct E as (N & HN). exists N. destruct (HN S0) as (m & Hm & Hg & HI).
  { split; [exact HS0|]. destruct (Rle_dec (- tau) (g S0)); [left; assumption|right; lra]. }
  exists m. split; [exact Hm|]. split; [exact Hg|]. intros k Hk'. exact (proj1 (HI k Hk')).
Qed.
End PutStep.

Section QP.
Variables K t r b s : R.
Hypothesis HK : 0 < K.
Hypothesis Ht : 0 < t.
Hypothesis Hs : 0 < s.
Hypothesis Hr : 0 < r.
Let Hr0 : r <> 0 := Rgt_not_eq _ _ Hr.
Lemma qd_unique h : h < 0 -> s ^ 2 / 2 * h * (h - 1) + b * h = r -> h = qd r b s.
Proof.
  intros Hh H. destruct (quad_root (2 * b / s ^ 2) (2 * r / s ^ 2) (m_pos r s Hs Hr)) as (_ & H1 & _ & H3 & _).
  fold (qd r b s) in H1, H3. set (n := 2 * b / s ^ 2) in *. set (m := 2 * r / s ^ 2) in *. set (q' := qd r b s) in *.
  assert (S2 := s2_pos s Hs). assert (M : 0 < m) by apply (m_pos r s Hs Hr).
  assert (H' : h ^ 2 + (n - 1) * h = m).
  { apply Rmult_eq_reg_l with (s ^ 2 / 2); [|lra]. replace (s ^ 2 / 2 * (h ^ 2 + (n - 1) * h)) with (s ^ 2 / 2 * h * (h - 1) + b * h) by (unfold n; field; lra).
    rewrite H. unfold m. field. lra. }
  assert (Z : (h - q') * (h + q' + n - 1) = 0) by (rewrite <- H3 in H'; lra).
  apply Rmult_integral in Z. destruct Z as [Z|Z]; [lra|]. exfalso. assert (q' * (q' + n - 1) = m) by lra.
  assert (q' * (- h) = m) by (rewrite <- H0; f_equal; lra). assert (0 < (- q') * (- h)) by (apply Rmult_lt_0_compat; lra). lra.
Qed.
Lemma seed_p_eq Sd : baw_seed_p (mkAmer Sd K t r b (Some s)) s =
  K * (1 - (1 - exp ((b * t - 2 * s * sqrt t) * (1 - qd r b s))) / (1 - qd r b s)).
Proof.
  assert (H := qd_spec r b s Hs Hr). unfold baw_seed_p, baw_n. cbn [y_b y_r y_t y_K]. toR. fold (qd r b s).
  replace (K / (1 - 1 / qd r b s)) with (K * (1 - / (1 - qd r b s))) by (field; lra).
  replace ((b * t - 2 * s * sqrt t) * K / (K - K * (1 - / (1 - qd r b s)))) with ((b * t - 2 * s * sqrt t) * (1 - qd r b s)) by (field; lra).
  field. lra.
Qed.
Lemma delta_put_link S : 0 < S ->
  gbs_delta false (GBSOption S K t r b (Some s)) = Ok (- (bcarry t r b * cnd (- bd1' K t b s S))).
Proof.
  intros. rewrite <- (dd_eq K t r b s) by assumption. unfold gbs_delta, gbs_delta_F, with_d, GBSOption.
  cbn [g_sigma g_d1 g_d2 g_S g_K g_t g_r g_b]. rewrite (d1_link S K t r b s) by lra.
  rewrite cnd_opp. fold (dd (bcarry t r b) (K * exp (- r * t)) (s * sqrt t) S). f_equal. unfold bcarry, dd. toR. ring.
Qed.
Lemma put_loop N U Sd : b <= r ->
  (let Sd := baw_seed_p (mkAmer Sd K t r b (Some s)) s in ends (fun x => 0 < x <= U) (fun x => x - Gp (bcarry t r b) (K * exp (- r * t)) (s * sqrt t) K (bq1 t r b s) cnd x
     / slope_p (bcarry t r b) (K * exp (- r * t)) (s * sqrt t) (bq1 t r b s) x) (Gp (bcarry t r b) (K * exp (- r * t)) (s * sqrt t) K (bq1 t r b s) cnd) (/ 10 ^ 6 * K) N Sd) ->
  exists Sk, 0 < Sk <= U /\ forall fuel, (N <= fuel)%nat -> baw_Kp fuel (mkAmer Sd K t r b (Some s)) s = Ok Sk.
Proof.
  cbv zeta. intros Hb HE. set (o := mkAmer Sd K t r b (Some s)) in *.
  set (rhs x := cput K t r b s x + prem1 K t r b s x).
  assert (RE : forall x, 0 < x -> baw_rhs_p o s x = Ok (rhs x)) by (intros; unfold o, rhs; now apply rhs_p_eq).
  set (f := fun x : R => x - _) in HE. set (g := Gp _ _ _ _ _ _) in *.
  destruct (while_iter (fun x => 0 < x <= U) f g (/ 10 ^ 6 * K)
    (fun st => let '(Si, LHS, RHS, bi) := st in ltb baw_E (div (absn (sub LHS RHS)) (y_K o)))
    (fun st => let '(Si, LHS, RHS, bi) := st in
             let Si := div (add (sub (y_K o) RHS) (mul bi Si)) (add (lit 1) bi) in
             bind (baw_rhs_p o s Si) (fun RHS => Ok (Si, sub (y_K o) Si, RHS, baw_bi_p o s Si)))
    (fun x => (x, K - x, rhs x, baw_bi_p o s x))) with (n := N) (x := baw_seed_p o s) as (y & Hy & HF).
  - intros x Hx Hg. cbn [ltb div absn sub RNum y_K o]. apply Rltb_false. unfold baw_E. cbn [lit RNum].
    replace (Q2R (1 # 1000000)) with (/ 10 ^ 6) by (unfold Q2R; cbn; lra).
    apply Rmult_le_reg_r with K; [exact HK|]. unfold Rdiv. rewrite Rmult_assoc, Rinv_l, Rmult_1_r by lra.
    unfold g in Hg. rewrite (Gp_eq K t r b s) in Hg by (try assumption; lra). rewrite Rabs_minus_sym. exact Hg.
  - intros x Hx Hfx.
    assert (SL : 1 + baw_bi_p o s x = slope_p (bcarry t r b) (K * exp (- r * t)) (s * sqrt t) (bq1 t r b s) x).
    { unfold o. rewrite (bi_p_eq K t r b s Sd) by assumption. unfold slope_p, pp. rewrite (dd_eq K t r b s) by (try assumption; lra). reflexivity. }
    assert (P1 : 0 < 1 + baw_bi_p o s x) by (apply (step_p_pos K t r b s Sd); try assumption; lra).
    match goal with |- (let Si := ?a in _) = _ => assert (Q : a = f x) end.
    { cbn [y_K add sub mul div RNum o]. change (lit 1) with (Q2R 1). replace (Q2R 1) with 1 by (unfold Q2R; cbn; lra).
      unfold f, g. rewrite (Gp_eq K t r b s) by (try assumption; lra). rewrite <- SL. unfold rhs. field. lra. }
    cbv zeta. rewrite Q, RE by lra. reflexivity.
  - exact HE.
  - exists y. split; [exact Hy|]. intros fuel Hf. specialize (HF fuel Hf). unfold baw_Kp. rewrite RE by (apply (seed_p_pos K t r b s Sd); assumption).
    match type of HF with ?w = _ => change (bind w (fun st => let '(Si, _, _, _) := st in Ok Si) = Ok y) end. rewrite HF. reflexivity.
Qed.
End QP.

(*@ C43_put_terminates | The search behind a BAW put ends if it starts at a spot S0 <= U = K exp(-(b + sigma^2/2) t) at which exercise is worth no more than the Black-Scholes price plus the early exercise premium of the approximation, or at which the tangent of the Black-Scholes put meets the exercise line below (1 - 1/q) U: from some number of iterations on every put has a price, the same for every larger number. *)
Lemma baw_put_terminates : forall (K t r b s q h S0 p0 d0 : R), 0 < K -> 0 < t -> 0 < s -> 0 < r -> b <= r ->
  q <= - (1 / 4) -> s ^ 2 / 2 * q * (q - 1) + b * q = r / (1 - exp (- r * t)) -> s * sqrt t * - q <= 10 ^ 5 ->
  h < 0 -> s ^ 2 / 2 * h * (h - 1) + b * h = r -> S0 = K * (1 - (1 - exp ((b * t - 2 * s * sqrt t) * (1 - h))) / (1 - h)) ->
  gbs_put (GBSOption S0 K t r b (Some s)) = Ok p0 -> gbs_delta false (GBSOption S0 K t r b (Some s)) = Ok d0 ->
  let U := K * exp (- (b + s ^ 2 / 2) * t) in
  S0 <= U ->
  (K - S0 <= p0 - S0 * (1 + d0) / q + / 10 ^ 6 * K \/ K - p0 + S0 * d0 + / 10 ^ 6 * (K + U * (1 - / q)) <= U * (1 - / q) * (1 + d0)) ->
  exists N, forall S, 0 < S -> exists v, forall fuel, (N <= fuel)%nat -> baw_put fuel (mkAmer S K t r b (Some s)) = Ok v.
Proof.
  intros K t r b s q h S0 p0 d0 HK Ht Hs Hr Hb Hq4 Hq HV Hh0 Hh HS0 Hp Hde U HU Hj.
  assert (Hr0 : r <> 0) by lra.
  apply (q1_unique t r b s) in Hq; try assumption; [|lra]. apply (qd_unique r b s) in Hh; try assumption.
  assert (ES : S0 = baw_seed_p (mkAmer 1 K t r b (Some s)) s) by (rewrite seed_p_eq by assumption; rewrite <- Hh; exact HS0).
  assert (P0 := seed_p_pos K t r b s 1 HK Hs Hr). rewrite <- ES in P0.
  set (e := bcarry t r b). set (kb := K * exp (- r * t)). set (v := s * sqrt t).
  assert (He := e_pos t r b). assert (He1 := e_le K t r b s 1 Ht Hr Hb). assert (Hk := kb_pos K t r HK Ht Hr). assert (Hv := v_pos' t s Ht Hs).
  fold e in He, He1. fold kb in Hk. fold v in Hv, HV.
  assert (UP : 0 < U) by (apply Rmult_lt_0_compat; [exact HK|apply exp_pos]).
  assert (UE : U * e <= K).
  { unfold U, e, bcarry. rewrite Rmult_assoc, <- exp_plus. rewrite <- (Rmult_1_r K) at 2. apply Rmult_le_compat_l; [lra|].
    apply Rle_trans with (exp 0); [|rewrite exp_0; lra]. apply exp_le_le. replace (- (b + s ^ 2 / 2) * t + (b - r) * t) with (- ((s ^ 2 / 2 + r) * t)) by ring.
    assert (0 <= s ^ 2) by apply pow2_ge_0. assert (0 <= (s ^ 2 / 2 + r) * t) by (apply Rmult_le_pos; lra). lra. }
  assert (DU : dd e kb v U <= 0).
  { unfold e, kb, v. rewrite (dd_eq K t r b s) by assumption. unfold bd1', U. replace (K * exp (- (b + s ^ 2 / 2) * t) / K) with (exp (- (b + s ^ 2 / 2) * t)) by (field; lra).
    rewrite ln_exp. right. field. fold v. unfold v in Hv. split; nra. }
  assert (P1 : p0 = cput K t r b s S0). { unfold gbs_put in Hp. rewrite put_link in Hp by lra. now injection Hp as <-. }
  assert (D1 : d0 = - (bcarry t r b * cnd (- bd1' K t b s S0))).
  { rewrite delta_put_link in Hde by (try assumption; lra). now injection Hde as <-. }
  assert (J : - (/ 10 ^ 6 * K) <= Gp e kb v K q cnd S0 \/ K - kb * cnd (- bd2 (S0 * e) kb v) + / 10 ^ 6 * (K + U * (1 - / q)) <= U * (1 - / q) * (1 - e * cnd (- dd e kb v S0))).
  { unfold e, kb, v. rewrite (dd_eq K t r b s) by assumption. destruct Hj as [Hj|Hj].
    - left. rewrite Hq. rewrite (Gp_eq K t r b s) by assumption. rewrite <- P1. unfold prem1. rewrite <- Hq.
      rewrite D1 in Hj. unfold Rdiv in *. lra.
    - right. assert (KW : K * exp (- r * t) * cnd (- bd2 (S0 * bcarry t r b) (K * exp (- r * t)) (s * sqrt t)) = p0 - S0 * d0).
      { rewrite P1, D1. unfold cput, bput. rewrite <- (dd_eq K t r b s) by assumption. unfold dd, bcarry. ring. }
      rewrite KW. rewrite D1 in Hj |- *. lra. }
  destruct (put_iter_ends e kb v K q U S0 He ltac:(lra) Hv HK Hq4 He1 HV UP UE DU ltac:(lra) J) as (N & HN).
  rewrite Hq in HN. unfold e, kb, v in HN. rewrite ES in HN.
  destruct (put_loop K t r b s HK Ht Hs Hr N U 1 Hb HN) as (Sk & HSk & HF).
  exists N. intros S HS. eexists. intros fuel Hf. apply put_value'; auto.
Qed.
