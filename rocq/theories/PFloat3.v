(** How far the floating-point distribution function is from the Gaussian one (C70). *)
From Coq Require Import Reals QArith Qreals ZArith String Arith Lra Lia Psatz.
From Coquelicot Require Import Coquelicot.
From Verif Require Import Num Py MBase MVanilla PCnd PGauss PConv3 PCndAcc MFloat SFloat PFloat2.
From Coq Require Import List.
Open Scope R_scope.

Section Acc.
Variables (A : fp) (u eta : R).
Hypothesis HA : accurate_fp A u eta.
Hypothesis Heu : eta <= u.
Notation rd := (rnd A).
Let Hu : 0 <= u <= / 1000 := u_range A u eta HA.
Let He : 0 <= eta <= / 1000 := eta_range A u eta HA.

(** [x] is within [c] times the relative error [u] of [y] *)
Definition near (c x y : R) : Prop := Rabs (x - y) <= c * u.
Lemma near_w c d x y : c <= d -> near c x y -> near d x y.
Proof. unfold near. intros. assert (c * u <= d * u) by (apply Rmult_le_compat_r; lra). lra. Qed.
Lemma near_rel a f y : Rabs (f - y) <= u * Rabs y + eta -> Rabs y <= a -> near (a + 1) f y.
Proof. unfold near. intros. assert (u * Rabs y <= u * a) by (apply Rmult_le_compat_l; lra). lra. Qed.
Lemma near_then a c f x y : Rabs (f - x) <= u * Rabs x + eta -> near c x y -> Rabs y <= a -> near (1001 / 1000 * c + a + 1) f y.
Proof.
  unfold near. intros H1 H2 H3. assert (Hx : Rabs x <= a + c * u). { replace x with (y + (x - y)) by ring. eapply Rle_trans; [apply Rabs_triang|]. lra. }
  assert (Hc : 0 <= c * u) by (pose proof (Rabs_pos (x - y)); lra). replace (f - y) with ((f - x) + (x - y)) by ring. eapply Rle_trans; [apply Rabs_triang|].
  assert (u * Rabs x <= u * (a + c * u)) by (apply Rmult_le_compat_l; lra). assert (u * (c * u) <= / 1000 * (c * u)) by (apply Rmult_le_compat_r; lra). lra.
Qed.
Lemma near_rd a c x y : near c x y -> Rabs y <= a -> near (1001 / 1000 * c + a + 1) (rd x) y.
Proof. intros. eapply near_then; [apply (a_err A u eta HA)|eassumption|assumption]. Qed.
Lemma near_add c d x y x' y' : near c x y -> near d x' y' -> near (c + d) (x + x') (y + y').
Proof. unfold near. intros. replace (x + x' - (y + y')) with ((x - y) + (x' - y')) by ring. eapply Rle_trans; [apply Rabs_triang|]. lra. Qed.
Lemma near_opp c x y : near c x y -> near c (- x) (- y).
Proof. unfold near. intro. replace (- x - - y) with (- (x - y)) by ring. now rewrite Rabs_Ropp. Qed.
Lemma near_mul a b c d x y x' y' : near c x y -> near d x' y' -> Rabs y <= a -> Rabs y' <= b -> near (a * d + b * c + / 1000 * (c * d)) (x * x') (y * y').
Proof.
  unfold near. intros H1 H2 H3 H4. replace (x * x' - y * y') with (y * (x' - y') + y' * (x - y) + (x - y) * (x' - y')) by ring.
  pose proof (Rabs_pos (x - y)). pose proof (Rabs_pos (x' - y')). pose proof (mul_abs _ _ _ _ H3 H2) as M1. pose proof (mul_abs _ _ _ _ H4 H1) as M2. pose proof (mul_abs _ _ _ _ H1 H2) as M3.
  eapply Rle_trans; [apply Rabs_triang|]. eapply Rle_trans; [apply Rplus_le_compat_r, Rabs_triang|].
  assert (c * u * (d * u) <= / 1000 * (c * d) * u). { replace (c * u * (d * u)) with ((c * u) * (d * u)) by ring. destruct (Req_dec u 0) as [-> |Hn]; [lra|]. assert (0 < u) by lra. assert (0 <= c) by (apply (Rmult_le_reg_r u); lra). assert (0 <= d) by (apply (Rmult_le_reg_r u); lra). assert (0 <= c * d * u) by (apply Rmult_le_pos; [apply Rmult_le_pos|]; lra). replace (c * u * (d * u)) with (c * d * u * u) by ring. replace (/ 1000 * (c * d) * u) with (c * d * u * / 1000) by ring. apply Rmult_le_compat_l; lra. }
  lra.
Qed.

Lemma lit_near q a : Rabs (Q2R q) <= a -> near (a + 1) (rd (Q2R q)) (Q2R q).
Proof. intro. apply near_rel; [apply (a_err A u eta HA)|assumption]. Qed.

(** ** the argument of the polynomial *)
Lemma Kx_range x : 0 < Kx x <= 1.
Proof. unfold Kx, c0. pose proof (Rabs_pos x). split; [apply Rinv_0_lt_compat; lra|]. rewrite <- Rinv_1. apply Rinv_le_contravar; lra. Qed.
Lemma fk_near x : near 12 (fk A x) (Kx x).
Proof.
  unfold fk. rewrite (a_q1 A u eta HA). replace (Q2R 0.2316419) with c0 by (unfold Q2R, c0; cbn; lra). set (c' := rd c0). set (y := Rabs x). pose proof (Rabs_pos x : 0 <= y) as Hy.
  assert (Hc : Rabs (c' - c0) <= c0 * u + eta). { pose proof (a_err A u eta HA c0) as E. fold c' in E. rewrite (Rabs_pos_eq c0) in E by (unfold c0; lra). lra. } apply le_abs in Hc.
  assert (Hc' : 2 / 10 <= c' <= 3 / 10) by (unfold c0 in *; lra).
  pose proof (le_abs _ _ (a_err A u eta HA (c' * y))) as E1. rewrite (Rabs_pos_eq (c' * y)) in E1 by nra. set (a := rd (c' * y)) in *.
  pose proof (le_abs _ _ (a_err A u eta HA (1 + a))) as E2. assert (Hcy0 : 0 <= c' * y) by (apply Rmult_le_pos; lra). assert (Ha : - eta <= a) by (exact (rd_nn A u eta HA _ Hcy0)). rewrite (Rabs_pos_eq (1 + a)) in E2 by lra. set (d := rd (1 + a)) in *.
  set (den := 1 + c0 * y). assert (Hden : 1 <= den) by (unfold den, c0; nra).
  assert (Dd : - (9 * u * den) <= d - den <= 9 * u * den).
  { assert (Hcy : - (126 / 100 * u * y) <= c' * y - c0 * y <= 126 / 100 * u * y) by (assert (D0 : - (126 / 100 * u) <= c' - c0 <= 126 / 100 * u) by (unfold c0 in *; lra); assert (0 <= (126 / 100 * u - (c' - c0)) * y) by (apply Rmult_le_pos; lra); assert (0 <= (126 / 100 * u + (c' - c0)) * y) by (apply Rmult_le_pos; lra); lra).
    assert (Uy0 : 0 <= u * y) by (apply Rmult_le_pos; lra). assert (Uy : u * (c' * y) <= 3 / 10 * (u * y)) by (assert (0 <= (3 / 10 - c') * (u * y)) by (apply Rmult_le_pos; lra); lra). assert (Ea : - (156 / 100 * (u * y) + u) <= a - c0 * y <= 156 / 100 * (u * y) + u) by lra.
    assert (Ya : a <= 3 / 10 * y + / 1000 * y + / 1000) by (assert (0 <= (3 / 10 - c') * y) by (apply Rmult_le_pos; lra); assert (0 <= (/ 1000 - u) * (c' * y)) by (apply Rmult_le_pos; lra); lra). assert (Ua : u * (1 + a) <= u * (1 + (3 / 10 * y + / 1000 * y + / 1000))) by (apply Rmult_le_compat_l; lra).
    assert (Uden : u * den = u + 2316419 / 10000000 * (u * y)) by (unfold den, c0; lra). replace (9 * u * den) with (9 * (u * den)) by ring. rewrite Uden. unfold den. lra. }
  assert (Hd : 99 / 100 <= d) by (assert (9 * u * den <= 9 * / 1000 * den) by (apply Rmult_le_compat_r; lra); lra). change (Kx x) with (/ den).
  assert (Q : near (92 / 10) (1 / d) (/ den)).
  { unfold near. replace (1 / d - / den) with ((den - d) * / d * / den) by (field; lra). rewrite !Rabs_mult, (Rabs_pos_eq (/ d)), (Rabs_pos_eq (/ den)) by (apply Rlt_le, Rinv_0_lt_compat; lra).
    assert (B : Rabs (den - d) <= 9 * u * den) by (apply abs_le; lra). assert (0 < / d <= 102 / 100 * 1). { split; [apply Rinv_0_lt_compat; lra|]. apply (Rmult_le_reg_l d); [lra|]. rewrite Rinv_r by lra. lra. } assert (0 < / den) by (apply Rinv_0_lt_compat; lra).
    apply Rle_trans with (9 * u * den * (102 / 100 * 1) * / den). { apply Rmult_le_compat_r; [lra|]. apply Rmult_le_compat; try apply Rabs_pos; lra. }
    replace (9 * u * den * (102 / 100 * 1) * / den) with (9 * u * (102 / 100)) by (field; lra). lra. }
  pose proof (near_rd 1 _ _ _ Q ltac:(pose proof (Kx_range x); apply abs_le; change (Kx x) with (/ den) in *; lra)) as N. eapply near_w; [|exact N]. lra.
Qed.

Lemma Kx_abs x : Rabs (Kx x) <= 1.
Proof. pose proof (Kx_range x). apply abs_le. lra. Qed.
Lemma Kx_pow x k : Rabs (Kx x ^ k) <= 1.
Proof. rewrite <- RPow_abs. rewrite <- (pow1 k). apply pow_incr. split; [apply Rabs_pos|apply Kx_abs]. Qed.
Lemma fk_pow_near x : near 27 (f_powi A (fk A x) 2) (Kx x ^ 2) /\ near 40 (f_powi A (fk A x) 3) (Kx x ^ 3) /\ near 53 (f_powi A (fk A x) 4) (Kx x ^ 4) /\ near 66 (f_powi A (fk A x) 5) (Kx x ^ 5).
Proof.
  pose proof (fk_near x) as N1. pose proof (Kx_abs x) as K1.
  assert (Step : forall k c, near c (fk A x ^ k) (Kx x ^ k) -> near (12 + c + / 1000 * (12 * c)) (fk A x ^ Datatypes.S k) (Kx x ^ Datatypes.S k)).
  { intros k c H. cbn [pow]. eapply near_w; [|apply (near_mul 1 1 _ _ _ _ _ _ N1 H K1 (Kx_pow x k))]. lra. }
  assert (N1' : near 12 (fk A x ^ 1) (Kx x ^ 1)) by (now rewrite !pow_1). pose proof (Step _ _ N1') as N2. pose proof (Step _ _ N2) as N3. pose proof (Step _ _ N3) as N4. pose proof (Step _ _ N4) as N5.
  split; [|split; [|split]]; (eapply near_w; [|first [apply (near_then 1 _ _ _ _ (a_powi A u eta HA _ 2) N2 (Kx_pow x _))|apply (near_then 1 _ _ _ _ (a_powi A u eta HA _ 3) N3 (Kx_pow x _))|apply (near_then 1 _ _ _ _ (a_powi A u eta HA _ 4) N4 (Kx_pow x _))|apply (near_then 1 _ _ _ _ (a_powi A u eta HA _ 5) N5 (Kx_pow x _))]]); lra.
Qed.

(** ** the polynomial *)
Lemma Pk_abs x : Rabs (Pk (Kx x)) <= 6.
Proof.
  unfold Pk. pose proof (Kx_range x) as H. set (k := Kx x) in *. pose proof (Kx_pow x 2) as P2. pose proof (Kx_pow x 3) as P3. pose proof (Kx_pow x 4) as P4. pose proof (Kx_pow x 5) as P5. fold k in P2, P3, P4, P5. apply le_abs in P2, P3, P4, P5. apply abs_le. lra.
Qed.
Lemma fpoly_near x : near 450 (fpoly A (fk A x)) (Pk (Kx x)).
Proof.
  pose proof (fk_near x) as K1. destruct (fk_pow_near x) as (K2 & K3 & K4 & K5).
  assert (B1 : Rabs (Q2R 0.319381530) <= 32 / 100) by (unfold Q2R; cbn; apply abs_le; lra). assert (B2 : Rabs (Q2R (-0.356563782)) <= 36 / 100) by (unfold Q2R; cbn; apply abs_le; lra).
  assert (B3 : Rabs (Q2R 1.781477937) <= 179 / 100) by (unfold Q2R; cbn; apply abs_le; lra). assert (B4 : Rabs (Q2R (-1.821255978)) <= 183 / 100) by (unfold Q2R; cbn; apply abs_le; lra). assert (B5 : Rabs (Q2R 1.330274429) <= 134 / 100) by (unfold Q2R; cbn; apply abs_le; lra).
  assert (M : forall a c q k k', Rabs (Q2R q) <= a -> near c k k' -> Rabs k' <= 1 -> near (1001 / 1000 * (a * c + 1 * (a + 1) + / 1000 * ((a + 1) * c)) + a * 1 + 1) (rd (rd (Q2R q) * k)) (Q2R q * k') /\ Rabs (Q2R q * k') <= a * 1).
  { intros a c q k k' Ha Hk Hk'. pose proof (mul_abs _ _ _ _ Ha Hk') as Hm. split; [|exact Hm]. apply near_rd; [|exact Hm]. apply near_mul; [apply lit_near, Ha|exact Hk|exact Ha|exact Hk']. }
  destruct (M _ _ _ _ _ B1 K1 (Kx_abs x)) as [T1 U1]. destruct (M _ _ _ _ _ B2 K2 (Kx_pow x 2)) as [T2 U2]. destruct (M _ _ _ _ _ B3 K3 (Kx_pow x 3)) as [T3 U3]. destruct (M _ _ _ _ _ B4 K4 (Kx_pow x 4)) as [T4 U4]. destruct (M _ _ _ _ _ B5 K5 (Kx_pow x 5)) as [T5 U5].
  assert (Sm : forall a b c d p p' q q', near c p p' /\ Rabs p' <= a -> near d q q' -> Rabs q' <= b -> near (1001 / 1000 * (c + d) + (a + b) + 1) (rd (p + q)) (p' + q') /\ Rabs (p' + q') <= a + b).
  { intros a b c d p p' q q' [H1 H2] H3 H4. pose proof (add_abs _ _ _ _ H2 H4) as Hs. split; [|exact Hs]. apply near_rd; [|exact Hs]. now apply near_add. }
  pose proof (Sm _ _ _ _ _ _ _ _ (conj T1 U1) T2 U2) as S2. pose proof (Sm _ _ _ _ _ _ _ _ S2 T3 U3) as S3. pose proof (Sm _ _ _ _ _ _ _ _ S3 T4 U4) as S4. pose proof (Sm _ _ _ _ _ _ _ _ S4 T5 U5) as S5.
  replace (Pk (Kx x)) with (Q2R 0.319381530 * Kx x + Q2R (-0.356563782) * Kx x ^ 2 + Q2R 1.781477937 * Kx x ^ 3 + Q2R (-1.821255978) * Kx x ^ 4 + Q2R 1.330274429 * Kx x ^ 5) by (unfold Pk, Q2R; cbn -[pow]; lra).
  unfold fpoly. eapply near_w; [|apply S5]. lra.
Qed.

(** ** the density *)
Lemma exp_le_m x y : x <= y -> exp x <= exp y.
Proof. intros [H| ->]; [now apply Rlt_le, exp_increasing|apply Rle_refl]. Qed.
Lemma exp_diff a b m : a <= m -> b <= m -> Rabs (exp a - exp b) <= Rabs (a - b) * exp m.
Proof.
  intros Ha Hb. assert (Main : forall p q, p <= q -> q <= m -> 0 <= exp q - exp p <= (q - p) * exp m).
  { intros p q H1 H2. pose proof (exp_le_m p q H1). split; [lra|]. pose proof (exp_le_m q m H2) as E. assert (exp q - exp p <= (q - p) * exp q). { replace p with (q + (p - q)) at 1 by ring. rewrite exp_plus. pose proof (exp_ineq1_le (p - q)). pose proof (exp_pos q). nra. } assert ((q - p) * exp q <= (q - p) * exp m) by (apply Rmult_le_compat_l; lra). lra. }
  destruct (Rle_dec a b) as [H|H]; [destruct (Main a b H Hb); rewrite (Rabs_left1 (a - b)) by lra|destruct (Main b a ltac:(lra) Ha); rewrite (Rabs_pos_eq (a - b)) by lra]; apply abs_le; lra.
Qed.
Lemma exp_y y : 0 <= y -> y * exp (- y) <= 1 /\ exp (- y) <= 1.
Proof.
  intro H. pose proof (exp_ineq1_le y) as E. pose proof (exp_pos (- y)) as P. assert (Q : exp (- y) * exp y = 1) by (rewrite <- exp_plus; replace (- y + y) with 0 by ring; apply exp_0). nra.
Qed.
Lemma fexp_near x : near 8 (f_exp A (rd (rd ((- x) * x) / rd (Q2R 2)))) (exp (- (x ^ 2) / 2)).
Proof.
  replace (Q2R 2) with 2 by (unfold Q2R; cbn; lra). rewrite (a_2 A u eta HA). set (y := x ^ 2 / 2). replace (- x * x) with (- (2 * y)) by (unfold y; field). replace (- x ^ 2 / 2) with (- y) by (unfold y; field).
  assert (Hy : 0 <= y) by (unfold y; nra). clearbody y. rewrite (a_opp A u eta HA).
  pose proof (le_abs _ _ (a_err A u eta HA (2 * y))) as E1. rewrite (Rabs_pos_eq (2 * y)) in E1 by lra. set (z := rd (2 * y)) in *. set (q := - z / 2). pose proof (a_err A u eta HA q) as E2.
  assert (Uy : 0 <= u * y <= / 1000 * y) by (split; [apply Rmult_le_pos|apply Rmult_le_compat_r]; lra).
  assert (Bq : Rabs q <= y + u * y + eta / 2) by (apply abs_le; unfold q; lra). assert (Uq : u * Rabs q <= u * (y + u * y + eta / 2)) by (apply Rmult_le_compat_l; lra).
  assert (UUy : u * (u * y) <= / 1000 * (u * y)) by (apply Rmult_le_compat_r; lra). assert (Ue : u * (eta / 2) <= / 1000 * (eta / 2)) by (apply Rmult_le_compat_r; lra). apply le_abs in E2. set (a := rd q) in *.
  assert (D : - (21 / 10 * (u * y) + 2 * u) <= a - - y <= 21 / 10 * (u * y) + 2 * u) by (unfold q in *; lra).
  assert (N : near 5 (exp a) (exp (- y))).
  { unfold near. eapply Rle_trans; [apply (exp_diff _ _ (- (99 / 100 * y) + 2 / 1000)); lra|]. rewrite exp_plus.
    destruct (exp_y (99 / 100 * y) ltac:(lra)) as [Y1 Y2]. assert (Z : exp (2 / 1000) <= 101 / 100). { pose proof (exp_ineq1_le (- (2 / 1000))) as I1. rewrite exp_Ropp in I1. pose proof (exp_pos (2 / 1000)) as P. apply (Rmult_le_reg_r (/ exp (2 / 1000))); [now apply Rinv_0_lt_compat|]. rewrite Rinv_r by lra. lra. }
    set (e1 := exp (- (99 / 100 * y))) in *. assert (P1 : 0 < e1) by apply exp_pos. set (e2 := exp (2 / 1000)) in *. assert (P2 : 0 < e2) by apply exp_pos.
    apply Rle_trans with ((21 / 10 * (u * y) + 2 * u) * (e1 * (101 / 100))). { apply Rmult_le_compat; [apply Rabs_pos|apply Rmult_le_pos; lra|apply abs_le; lra|apply Rmult_le_compat_l; lra]. }
    assert (u * (y * e1) <= u * (100 / 99)) by (apply Rmult_le_compat_l; lra). assert (u * e1 <= u * 1) by (apply Rmult_le_compat_l; lra). lra. }
  destruct (exp_y y Hy) as [_ Y]. pose proof (exp_pos (- y)). pose proof (a_exp A u eta HA a) as EE. rewrite <- (Rabs_pos_eq (exp a)) in EE at 2 by (apply Rlt_le, exp_pos).
  eapply near_w; [|apply (near_then 1 _ _ _ _ EE N)]; [lra|apply abs_le; lra].
Qed.
Lemma sqrt_2pi : 25 / 10 <= sqrt (2 * PI) <= 26 / 10.
Proof. pose proof PI_lb. pose proof PI_ub. split; [rewrite <- (sqrt_pow2 (25 / 10)) by lra|rewrite <- (sqrt_pow2 (26 / 10)) by lra]; apply sqrt_le_1_alt; lra. Qed.
Lemma den_near : near 17 (f_sqrt A (rd (rd (Q2R 8) * f_atan A (rd (Q2R 1))))) (sqrt (2 * PI)).
Proof.
  rewrite (a_q1 A u eta HA). pose proof PI_lb as Pl. pose proof PI_ub as Pu. pose proof sqrt_2pi as Sq.
  pose proof (lit_near 8 8 ltac:(unfold Q2R; cbn; apply abs_le; lra)) as N8. assert (Na : near (79 / 100 + 1) (f_atan A 1) (PI / 4)) by (rewrite <- atan_1; apply near_rel; [apply (a_atan A u eta HA)|rewrite atan_1; apply abs_le; lra]).
  pose proof (near_mul 8 (79 / 100) _ _ _ _ _ _ N8 Na ltac:(unfold Q2R; cbn; apply abs_le; lra) ltac:(apply abs_le; lra)) as Nm. replace (Q2R 8 * (PI / 4)) with (2 * PI) in Nm by (unfold Q2R; cbn; lra).
  pose proof (near_rd (63 / 10) _ _ _ Nm ltac:(apply abs_le; lra)) as Nr. set (x := rd (rd (Q2R 8) * _)) in *. assert (N30 : near 31 x (2 * PI)) by (eapply near_w; [|exact Nr]; lra). clear Nr Nm.
  unfold near in N30. apply le_abs in N30. assert (Hx : 0 <= x) by lra. assert (Ns : near (125 / 10) (sqrt x) (sqrt (2 * PI))).
  { unfold near. assert (E : (sqrt x - sqrt (2 * PI)) * (sqrt x + sqrt (2 * PI)) = x - 2 * PI). { replace x with (sqrt x * sqrt x) at 3 by (apply sqrt_sqrt; lra). replace (2 * PI) with (sqrt (2 * PI) * sqrt (2 * PI)) at 3 by (apply sqrt_sqrt; lra). ring. }
    pose proof (sqrt_pos x). assert (B : Rabs (x - 2 * PI) <= 31 * u) by (apply abs_le; lra). rewrite <- E, Rabs_mult, (Rabs_pos_eq (_ + _)) in B by lra. pose proof (Rabs_pos (sqrt x - sqrt (2 * PI))). nra. }
  pose proof (a_sqrt A u eta HA x Hx) as ES. rewrite <- (Rabs_pos_eq (sqrt x)) in ES at 2 by apply sqrt_pos. eapply near_w; [|apply (near_then (26 / 10) _ _ _ _ ES Ns)]; [|apply abs_le; lra]. lra.
Qed.
Lemma npdf_range x : 0 < npdf x <= 4 / 10.
Proof.
  unfold npdf. pose proof sqrt_2pi as Sq. assert (0 < / sqrt (2 * PI) <= 4 / 10). { split; [apply Rinv_0_lt_compat; lra|]. apply (Rmult_le_reg_l (sqrt (2 * PI))); [lra|]. rewrite Rinv_r by lra. lra. }
  destruct (exp_y (x ^ 2 / 2) ltac:(pose proof (pow2_ge_0 x); lra)) as [_ Y]. replace (- (x ^ 2 / 2)) with (- x ^ 2 / 2) in Y by field. pose proof (exp_pos (- x ^ 2 / 2)). unfold Rdiv at 1 2 3. split; [now apply Rmult_lt_0_compat|]. nra.
Qed.
Lemma fndf_near x : near 10 (fndf A x) (npdf x).
Proof.
  unfold fndf. pose proof (fexp_near x) as N1. pose proof den_near as N2. set (e := f_exp A _) in *. pose proof (den_bound A u eta HA) as HD. set (D := f_sqrt A _) in *. pose proof sqrt_2pi as Sq.
  pose proof (npdf_range x) as Np. assert (N3 : near 8 (e / D) (npdf x)).
  { unfold near in *. replace (e / D - npdf x) with ((e - exp (- x ^ 2 / 2)) * / D + npdf x * (sqrt (2 * PI) - D) * / D) by (unfold npdf; field; lra).
    assert (I1 : 0 < / D <= / 2) by (split; [apply Rinv_0_lt_compat; lra|apply Rinv_le_contravar; lra]).
    eapply Rle_trans; [apply Rabs_triang|]. rewrite !Rabs_mult, (Rabs_pos_eq (/ D)), (Rabs_pos_eq (npdf x)) by lra. rewrite <- (Rabs_Ropp (sqrt (2 * PI) - D)). replace (- (sqrt (2 * PI) - D)) with (D - sqrt (2 * PI)) by ring.
    apply Rle_trans with (8 * u * / 2 + 4 / 10 * (17 * u) * / 2); [|lra].
    pose proof (Rabs_pos (e - exp (- x ^ 2 / 2))). pose proof (Rabs_pos (D - sqrt (2 * PI))). apply Rplus_le_compat; [apply Rmult_le_compat; lra|]. apply Rmult_le_compat; [apply Rmult_le_pos; lra|lra| |lra]. apply Rmult_le_compat; lra. }
  eapply near_w; [|apply (near_rd (4 / 10) _ _ _ N3)]; [lra|apply abs_le; lra].
Qed.

Lemma fy_near x : near 260 (rd (fndf A x * fpoly A (fk A x))) (npdf x * Pk (Kx x)).
Proof.
  assert (H : Rabs (npdf x) <= 4 / 10) by (apply abs_le; pose proof (npdf_range x); lra).
  pose proof (near_mul _ _ _ _ _ _ _ _ (fndf_near x) (fpoly_near x) H (Pk_abs x)) as N. eapply near_w; [|apply (near_rd _ _ _ _ N (mul_abs _ _ _ _ H (Pk_abs x)))]. lra.
Qed.
Lemma half_near : near 2 (rd (Q2R 0.5)) (1 / 2).
Proof. unfold near. pose proof (half_err A u eta HA) as H. replace (1 / 2) with (/ 2) by field. lra. Qed.
Lemma fw_near x : near 270 (fw A x) (npdf x * Pk (Kx x) - 1 / 2).
Proof.
  assert (H : Rabs (npdf x) <= 4 / 10) by (apply abs_le; pose proof (npdf_range x); lra). unfold fw.
  pose proof (near_add _ _ _ _ _ _ (fy_near x) (near_opp _ _ _ half_near)) as N. eapply near_w; [|apply (near_rd (4 / 10 * 6 + 1 / 2) _ _ _ N)]; [lra|]. apply add_abs; [apply (mul_abs _ _ _ _ H (Pk_abs x))|apply abs_le; lra].
Qed.
(** the computed distribution function against the same formula in exact arithmetic *)
Lemma cnd_near x : near 276 (@cnd R (FNum A) x) (@cnd R RNum x).
Proof.
  pose proof (cnd_range x) as Cr. assert (Ca : Rabs (cnd x) <= 1) by (apply abs_le; lra). change (@cnd R (FNum A)) with (@cnd R (NA A)). destruct (Rtotal_order x 0) as [H|[-> |H]].
  - rewrite (cnd_neg_f A u eta HA x H). eapply near_w; [|apply (near_rd 1 (2 + 270)); [|exact Ca]]; [lra|]. rewrite cnd_neg_form by exact H. replace (npdf x * Pk (Kx x)) with (1 / 2 + (npdf x * Pk (Kx x) - 1 / 2)) by ring. apply near_add; [apply half_near|apply fw_near].
  - rewrite (cnd_0_f A u eta HA), cnd_0. eapply near_w; [|apply half_near]. lra.
  - rewrite (cnd_pos_f A u eta HA x H). eapply near_w; [|apply (near_rd 1 (2 + 270)); [|exact Ca]]; [lra|]. rewrite cnd_pos_form by exact H. replace (1 - npdf x * Pk (Kx x)) with (1 / 2 + - (npdf x * Pk (Kx x) - 1 / 2)) by field. apply near_add; [apply half_near|apply near_opp, fw_near].
Qed.
Lemma cnd_float_Phi x y : Rabs (@cnd R (FNum A) x - Phi y) <= 75 / 10 ^ 9 + 276 * u + Rabs (x - y).
Proof.
  pose proof (cnd_near x) as N. unfold near in N. pose proof (cnd_accuracy x) as C. pose proof (Phi_lip x y) as L. replace (@cnd R (FNum A) x - Phi y) with ((@cnd R (FNum A) x - cnd x) + (cnd x - Phi x) + (Phi x - Phi y)) by ring.
  eapply Rle_trans; [apply Rabs_triang|]. eapply Rle_trans; [apply Rplus_le_compat_r, Rabs_triang|]. lra.
Qed.
End Acc.
