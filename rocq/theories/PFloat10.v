(** Stability of TIAN trees in floating-point arithmetic (C72). *)
From Coq Require Import Reals QArith Qreals ZArith String List Arith Lra Lia Psatz.
From Verif Require Import Num Py Arr MTrees STrees MFloat SFloat PTrees PTrees3 PTrees4 PFloat PFloat2 PFloat5 PFloat6 PFloat7 PFloat8 PFloat9.
Import ListNotations.
Open Scope R_scope.

Lemma mul_close x x' y y' a b X Y : Rabs (x' - x) <= a -> Rabs (y' - y) <= b -> Rabs x <= X -> Rabs y <= Y -> Rabs (x' * y' - x * y) <= a * (Y + b) + X * b.
Proof.
  intros Ha Hb HX HY. replace (x' * y' - x * y) with ((x' - x) * y' + x * (y' - y)) by ring. eapply Rle_trans; [apply Rabs_triang|]. rewrite !Rabs_mult. assert (By : Rabs y' <= Y + b). { replace y' with (y + (y' - y)) by ring. eapply Rle_trans; [apply Rabs_triang|]. lra. }
  apply Rplus_le_compat; apply Rmult_le_compat; try apply Rabs_pos; assumption.
Qed.

Section Ti.
Variables (A : fp) (u eta : R).
Hypothesis HA : accurate_fp A u eta.
Hypothesis Heu : eta <= u * u.
Notation rd := (rnd A).
Let Hu : 0 <= u <= / 1000 := u_range A u eta HA.
Let He : 0 <= eta <= / 1000 := eta_range A u eta HA.
Let Hue : eta <= / 1000 * u.
Proof. apply Rle_trans with (u * u); [exact Heu|apply Rmult_le_compat_r; lra]. Qed.
Variables (t : R) (n : nat).
Hypothesis Ht : 0 < t.
Hypothesis Hn : n <> 0%nat.
Notation dt := (t / INR n).
Notation fdt := (rd (t / rd (INR n))).
Hypothesis Hd1 : u <= dt.
Hypothesis Hd2 : u * dt <= 1.
Let Hdt : 0 < dt.
Proof. apply Rdiv_lt_0_compat; [exact Ht|apply lt_0_INR; lia]. Qed.

(** rounding with an absolute error *)
Lemma rd_near x y e b v : Rabs (x - y) <= e * v -> Rabs y <= b -> 0 <= e -> 0 <= b -> u <= v -> Rabs (rd x - y) <= (1001 / 1000 * e + b + / 1000) * v.
Proof.
  intros Hxy Hy He0 Hb Hv. eapply Rle_trans; [apply (rd_close A u eta HA _ y _ b u (/ 1000) (Rle_refl u) Hxy Hy ltac:(lra))|]. assert (u * b <= v * b) by (apply Rmult_le_compat_r; lra). assert (0 <= e * v) by (apply Rmult_le_pos; lra). assert (e * v * u <= e * v * / 1000) by (apply Rmult_le_compat_l; lra). lra.
Qed.

Lemma tian_moves b s : 0 < s -> let h := s * sqrt dt in 1000 * u <= h ^ 2 -> h <= / 4 -> Rabs b * dt <= h / 2 ->
  let '(fu, fd) := float_moves A TIAN b s fdt in rd (fu - fd) <> 0 /\ Rabs (fu - step_u TIAN b s dt) <= 100 * u / h * step_u TIAN b s dt /\ Rabs (fd - step_d TIAN b s dt) <= 100 * u / h * step_d TIAN b s dt /\ step_u TIAN b s dt <= 3 /\
    Rabs (float_prob A TIAN b s fdt - step_p TIAN b s dt) <= 200 * u / h ^ 2.
Proof.
  intros Hs h Hh1 Hh2 Hb. assert (Sd : 0 < sqrt dt) by now apply sqrt_lt_R0. assert (Ph : 0 < h) by now apply Rmult_lt_0_compat. unfold float_prob. cbn [float_moves step_p step_u step_d]. cbv zeta. rewrite (a_1 A u eta HA), (a_2 A u eta HA).
  assert (Eh : s ^ 2 * dt = h ^ 2) by (unfold h; rewrite Rpow_mult_distr, pow2_sqrt by lra; reflexivity). rewrite Eh. assert (H2 : 0 < h ^ 2 <= / 16) by (replace (h ^ 2) with (h * h) by ring; nra). assert (Ps : 0 < s ^ 2) by (apply pow_lt; lra).
  set (v := u / h). assert (Ev : u = v * h) by (unfold v; field; lra). assert (Hv0 : 0 <= v) by (unfold v; apply Rmult_le_pos; [lra|apply Rlt_le, Rinv_0_lt_compat; lra]). assert (Huv : 4 * u <= v) by nra.
  assert (Hvh : 1000 * v <= h). { apply (Rmult_le_reg_r h); [lra|]. replace (1000 * v * h) with (1000 * u) by (rewrite Ev; ring). replace (h * h) with (h ^ 2) by ring. exact Hh1. }
  (* V = exp (sigma^2 dt) *)
  pose proof (fdt_close A u eta HA Heu t n Ht Hn Hd1) as Cd. pose proof (fdt_pos A u eta HA Heu t n Ht Hn Hd1) as Pd. set (fd := fdt) in *. pose proof (a_powi A u eta HA s 2) as E1. rewrite (Rabs_pos_eq (s ^ 2)) in E1 by lra. set (c2 := f_powi A s 2) in *.
  assert (etad : 0 <= eta * dt <= u). { split; [apply Rmult_le_pos; lra|]. apply Rle_trans with (u * u * dt); [apply Rmult_le_compat_r; lra|]. rewrite Rmult_assoc. rewrite <- (Rmult_1_r u) at 3. apply Rmult_le_compat_l; lra. }
  assert (uh2 : u * h ^ 2 <= u * / 16) by (apply Rmult_le_compat_l; lra).
  assert (X1 : Rabs (c2 * fd - h ^ 2) <= 13 / 10 * u).
  { rewrite <- Eh. replace (c2 * fd - s ^ 2 * dt) with ((c2 - s ^ 2) * fd + s ^ 2 * (fd - dt)) by ring. eapply Rle_trans; [apply Rabs_triang|]. rewrite !Rabs_mult, (Rabs_pos_eq fd), (Rabs_pos_eq (s ^ 2)) by lra.
    assert (Y1 : Rabs (c2 - s ^ 2) * fd <= (u * s ^ 2 + eta) * (101 / 100 * dt)) by (apply Rmult_le_compat; try lra; apply Rabs_pos). assert (Y2 : s ^ 2 * Rabs (fd - dt) <= s ^ 2 * (302 / 100 * u * dt)) by (apply Rmult_le_compat_l; lra).
    assert (Z : u * (s ^ 2 * dt) <= u * / 16) by (rewrite Eh; exact uh2). lra. }
  pose proof (rd_near _ _ (13 / 10) (/ 16) u X1 ltac:(rewrite Rabs_pos_eq; lra) ltac:(lra) ltac:(lra) (Rle_refl u)) as X2. set (x2 := rd (c2 * fd)) in *.
  pose proof (fexp_close A u eta HA Heu x2 (h ^ 2) (137 / 100) ltac:(lra) ltac:(lra) ltac:(lra)) as X3. set (V := exp (h ^ 2)) in *. set (fV := f_exp A x2) in *.
  assert (V1 : 1 + h ^ 2 <= V) by apply exp_ineq1_le. assert (V2 : V <= 107 / 100). { eapply Rle_trans; [apply exp_small; lra|]. rewrite <- (Rinv_inv (107 / 100)). apply Rinv_le_contravar; lra. }
  assert (CV : Rabs (fV - V) <= 28 / 10 * u). { eapply Rle_trans; [exact X3|]. assert (u * V <= u * (107 / 100)) by (apply Rmult_le_compat_l; lra). lra. } clear X3.
  assert (BV : Rabs V <= 107 / 100) by (rewrite Rabs_pos_eq; lra).
  (* Q = V^2 + 2 V - 3 *)
  pose proof (mul_close V fV V fV _ _ _ _ CV CV BV BV) as Y1. assert (uu : 0 <= u * u <= / 1000 * u) by (split; [apply Rmult_le_pos; lra|apply Rmult_le_compat_r; lra]).
  assert (VV : V * V <= 1145 / 1000) by nra. assert (VV0 : 1 <= V * V) by nra.
  pose proof (rd_near (fV * fV) (V * V) (61 / 10) (1145 / 1000) u ltac:(lra) ltac:(rewrite Rabs_pos_eq; lra) ltac:(lra) ltac:(lra) (Rle_refl u)) as Y2. apply le_abs in CV. pose proof (abs_le _ _ CV) as CV'.
  pose proof (rd_near (2 * fV) (2 * V) (56 / 10) (214 / 100) u ltac:(apply abs_le; lra) ltac:(rewrite Rabs_pos_eq; lra) ltac:(lra) ltac:(lra) (Rle_refl u)) as Y3. apply le_abs in Y2, Y3.
  pose proof (rd_near (rd (fV * fV) + rd (2 * fV)) (V * V + 2 * V) (151 / 10) (33 / 10) u ltac:(apply abs_le; lra) ltac:(rewrite Rabs_pos_eq; lra) ltac:(lra) ltac:(lra) (Rle_refl u)) as Y4. apply le_abs in Y4.
  pose proof (a_err A u eta HA 3) as T3. rewrite (Rabs_pos_eq 3) in T3 by lra. apply le_abs in T3.
  set (Q := V ^ 2 + 2 * V - 3). assert (EQ : Q = V * V + 2 * V - 3) by (unfold Q; ring). assert (Q1 : 4 * h ^ 2 <= Q). { rewrite EQ. replace (V * V + 2 * V - 3) with ((V + 3) * (V - 1)) by ring. assert (4 * h ^ 2 <= (V + 3) * h ^ 2) by (apply Rmult_le_compat_r; lra). assert ((V + 3) * h ^ 2 <= (V + 3) * (V - 1)) by (apply Rmult_le_compat_l; lra). lra. }
  assert (Q2 : Q <= 285 / 1000) by (rewrite EQ; lra).
  pose proof (rd_near (rd (rd (fV * fV) + rd (2 * fV)) - rd 3) Q (215 / 10) (3 / 10) u ltac:(apply abs_le; rewrite EQ; lra) ltac:(rewrite Rabs_pos_eq; lra) ltac:(lra) ltac:(lra) (Rle_refl u)) as Y5. set (fQ := rd (_ - rd 3)) in *. apply le_abs in Y5.
  set (q := sqrt Q). assert (q1 : 2 * h <= q). { unfold q. rewrite <- (sqrt_pow2 (2 * h)) by lra. apply sqrt_le_1_alt. replace ((2 * h) ^ 2) with (4 * h ^ 2) by ring. exact Q1. }
  assert (q2 : q <= 54 / 100). { unfold q. rewrite <- (sqrt_pow2 (54 / 100)) by lra. apply sqrt_le_1_alt. lra. }
  assert (PfQ : 0 <= fQ) by lra. assert (Cq0 : Rabs (sqrt fQ - q) <= 11 * v).
  { apply (Rmult_le_reg_r (2 * h)); [lra|]. replace (11 * v * (2 * h)) with (22 * u) by (rewrite Ev; ring). apply Rle_trans with (Rabs (fQ - Q)); [|apply abs_le; lra]. pose proof (sqrt_pos fQ). replace (fQ - Q) with ((sqrt fQ - q) * (sqrt fQ + q)) by (unfold q; rewrite <- (sqrt_sqrt fQ), <- (sqrt_sqrt Q) at 3 by lra; ring). rewrite Rabs_mult. apply Rmult_le_compat_l; [apply Rabs_pos|]. rewrite Rabs_pos_eq; lra. }
  apply le_abs in Cq0. pose proof (le_abs _ _ (a_sqrt A u eta HA fQ PfQ)) as F. assert (Cq : Rabs (f_sqrt A fQ - q) <= 112 / 10 * v). { assert (u * sqrt fQ <= u * (6 / 10)) by (apply Rmult_le_compat_l; lra). apply abs_le. lra. }
  set (fq := f_sqrt A fQ) in *. apply le_abs in Cq.
  (* M = exp (b dt), c = M V / 2 *)
  assert (Bb : Rabs (b * dt) <= h / 2) by (rewrite Rabs_mult, (Rabs_pos_eq dt) by lra; exact Hb). apply le_abs in Bb.
  pose proof (rate_close A u eta HA Heu t n Ht Hn Hd1 b (/ 8) ltac:(lra) ltac:(lra)) as CM. pose proof (fexp_close A u eta HA Heu (rd (b * fdt)) (b * dt) (6 / 10) ltac:(lra) ltac:(lra) ltac:(lra)) as CM2. fold fd in CM2. set (M := exp (b * dt)) in *. set (fM := f_exp A (rd (b * fd))) in *.
  assert (M2 : M <= 115 / 100). { apply Rle_trans with (exp (/ 8)); [apply exp_mono; lra|]. pose proof (exp_ineq1_le (- / 8)) as I. rewrite exp_Ropp in I. rewrite <- (Rinv_inv (exp (/ 8))), <- (Rinv_inv (115 / 100)). apply Rinv_le_contravar; lra. }
  assert (M1 : 7 / 8 <= M). { pose proof (exp_ineq1_le (b * dt)). fold M in H. lra. } assert (uM : u * M <= u * (115 / 100)) by (apply Rmult_le_compat_l; lra). assert (CM3 : Rabs (fM - M) <= 2 * u) by lra. clear CM2.
  pose proof (mul_close M fM V fV _ _ _ _ CM3 CV' ltac:(rewrite Rabs_pos_eq by lra; exact M2) BV) as Z1. apply le_abs in CM3. assert (MV : 7 / 8 <= M * V <= 1231 / 1000). { split; [apply Rle_trans with (7 / 8 * 1); [lra|]|apply Rle_trans with (115 / 100 * (107 / 100)); [|lra]]; apply Rmult_le_compat; lra. }
  pose proof (rd_near (fM * fV) (M * V) (54 / 10) (1231 / 1000) u ltac:(lra) ltac:(rewrite Rabs_pos_eq; lra) ltac:(lra) ltac:(lra) (Rle_refl u)) as Z2. apply le_abs in Z2.
  pose proof (rd_near (rd (fM * fV) / 2) (M * V / 2) (333 / 100) (616 / 1000) u ltac:(apply abs_le; lra) ltac:(rewrite Rabs_pos_eq; lra) ltac:(lra) ltac:(lra) (Rle_refl u)) as Z3. set (c := M * V / 2) in *. set (fc := rd (rd (fM * fV) / 2)) in *.
  assert (Hc : 4375 / 10000 <= c <= 616 / 1000) by (unfold c; lra).
  pose proof (rd_near (fV + 1) (V + 1) (28 / 10) (207 / 100) u ltac:(apply abs_le; lra) ltac:(rewrite Rabs_pos_eq; lra) ltac:(lra) ltac:(lra) (Rle_refl u)) as Z4. apply le_abs in Z4. set (fW := rd (fV + 1)) in *.
  pose proof (rd_near (fW + fq) (V + 1 + q) (125 / 10) (261 / 100) v ltac:(apply abs_le; lra) ltac:(rewrite Rabs_pos_eq; lra) ltac:(lra) ltac:(lra) ltac:(lra)) as Z5.
  pose proof (rd_near (fW - fq) (V + 1 - q) (125 / 10) (207 / 100) v ltac:(apply abs_le; lra) ltac:(rewrite Rabs_pos_eq; lra) ltac:(lra) ltac:(lra) ltac:(lra)) as Z6.
  assert (Z3' : Rabs (fc - c) <= v) by (eapply Rle_trans; [exact Z3|]; lra). assert (Bc : Rabs c <= 616 / 1000) by (rewrite Rabs_pos_eq; lra). assert (vv : 0 <= v * v <= / 1000 * v) by (split; [apply Rmult_le_pos; lra|apply Rmult_le_compat_r; lra]).
  pose proof (mul_close c fc (V + 1 + q) (rd (fW + fq)) _ _ _ (261 / 100) Z3' Z5 Bc ltac:(rewrite Rabs_pos_eq; lra)) as W1. pose proof (mul_close c fc (V + 1 - q) (rd (fW - fq)) _ _ _ (207 / 100) Z3' Z6 Bc ltac:(rewrite Rabs_pos_eq; lra)) as W2.
  assert (HU : 875 / 1000 <= c * (V + 1 + q) <= 161 / 100). { split; [apply Rle_trans with (4375 / 10000 * 2); [lra|]|apply Rle_trans with (616 / 1000 * (261 / 100)); [|lra]]; apply Rmult_le_compat; lra. } assert (HD : 6 / 10 <= c * (V + 1 - q) <= 128 / 100). { split; [apply Rle_trans with (4375 / 10000 * (146 / 100)); [lra|]|apply Rle_trans with (616 / 1000 * (207 / 100)); [|lra]]; apply Rmult_le_compat; lra. }
  pose proof (rd_near (fc * rd (fW + fq)) (c * (V + 1 + q)) (121 / 10) (161 / 100) v ltac:(lra) ltac:(rewrite Rabs_pos_eq; lra) ltac:(lra) ltac:(lra) ltac:(lra)) as W3. pose proof (rd_near (fc * rd (fW - fq)) (c * (V + 1 - q)) (116 / 10) (128 / 100) v ltac:(lra) ltac:(rewrite Rabs_pos_eq; lra) ltac:(lra) ltac:(lra) ltac:(lra)) as W4.
  set (fU := rd (fc * rd (fW + fq))) in *. set (fD := rd (fc * rd (fW - fq))) in *. 
  assert (EE : c * (V + 1 + q) - c * (V + 1 - q) = 2 * c * q) by ring. set (U := c * (V + 1 + q)) in *. set (D := c * (V + 1 - q)) in *. apply le_abs in W3, W4.
  set (E := U - D) in *. assert (HE : 175 / 100 * h <= E). { rewrite EE. apply Rle_trans with (2 * (4375 / 10000) * (2 * h)); [lra|]. apply Rmult_le_compat; lra. }
  pose proof (rd_near (fU - fD) E (27) (101 / 100) v ltac:(apply abs_le; unfold E; lra) ltac:(rewrite Rabs_pos_eq; unfold E in *; lra) ltac:(lra) ltac:(lra) ltac:(lra)) as K1. set (fE := rd (fU - fD)) in *. apply le_abs in K1.
  pose proof (rd_near (fM - fD) (M - D) (14) (115 / 100) v ltac:(apply abs_le; lra) ltac:(apply abs_le; lra) ltac:(lra) ltac:(lra) ltac:(lra)) as K2. set (fN := rd (fM - fD)) in *.
  assert (HfE : 172 / 100 * h <= fE) by lra.
  assert (Hp : 0 <= (M - D) / E <= 1).
  { pose proof (tian_p_01 1 1 t 0 b s "" n Hn Ht ltac:(lra)) as TP. rewrite link_p in TP by (auto; lra). cbn [step_p step_u step_d] in TP. cbv zeta in TP. rewrite Eh in TP. change (0 < (M - D) / E < 1) in TP. lra. }
  assert (v100 : 100 * u / h = 100 * v) by (unfold v; field; lra). rewrite v100.
  split; [lra|]. split; [apply abs_le; assert (100 * v * (875 / 1000) <= 100 * v * U) by (apply Rmult_le_compat_l; lra); lra|]. split; [apply abs_le; assert (100 * v * (6 / 10) <= 100 * v * D) by (apply Rmult_le_compat_l; lra); lra|]. split; [lra|].
  set (p := (M - D) / E) in *. set (z := v / h). assert (Ez : v = z * h) by (unfold z; field; lra). assert (z0 : 0 <= z) by (unfold z; apply Rmult_le_pos; [lra|apply Rlt_le, Rinv_0_lt_compat; lra]). assert (vz : 4 * v <= z) by (rewrite Ez at 1; assert (z * (4 * h) <= z * 1) by (apply Rmult_le_compat_l; lra); lra). assert (z1 : z <= / 1000). { apply (Rmult_le_reg_r h); [lra|]. rewrite <- Ez. lra. }
  replace (200 * u / h ^ 2) with (200 * z) by (unfold z, v; field; lra).
  assert (X : Rabs (fN / fE - p) <= 30 * z).
  { replace (fN / fE - p) with (((fN - (M - D)) + p * (E - fE)) * / fE) by (unfold p; field; lra). rewrite Rabs_mult, (Rabs_pos_eq (/ fE)) by (apply Rlt_le, Rinv_0_lt_compat; lra). apply (Rmult_le_reg_r fE); [lra|]. rewrite Rmult_assoc, Rinv_l, Rmult_1_r by lra.
    assert (Y : Rabs (fN - (M - D) + p * (E - fE)) <= 45 * v). { eapply Rle_trans; [apply Rabs_triang|]. rewrite Rabs_mult, (Rabs_pos_eq p) by lra. assert (p * Rabs (E - fE) <= 1 * (29 * v)) by (apply Rmult_le_compat; try lra; [apply Rabs_pos|apply abs_le; lra]). lra. }
    eapply Rle_trans; [exact Y|]. apply Rle_trans with (30 * z * (172 / 100 * h)); [|apply Rmult_le_compat_l; lra]. replace (30 * z * (172 / 100 * h)) with (30 * (172 / 100) * (z * h)) by ring. rewrite <- Ez. lra. }
  pose proof (rd_near (fN / fE) p 30 1 z X ltac:(rewrite Rabs_pos_eq; lra) ltac:(lra) ltac:(lra) ltac:(lra)). lra.
Qed.
End Ti.
