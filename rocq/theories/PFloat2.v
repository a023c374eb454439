(** The Black-Scholes formula in floating-point arithmetic: put-call parity (C69). *)
From Coq Require Import Reals QArith Qreals ZArith String List Arith Lra Lia Psatz.
From Verif Require Import Num Py MBase MVanilla MFloat SFloat.
Open Scope R_scope.

Lemma abs_le x y : - y <= x <= y -> Rabs x <= y.
Proof. intro. unfold Rabs. destruct (Rcase_abs x); lra. Qed.
Lemma le_abs x y : Rabs x <= y -> - y <= x <= y.
Proof. unfold Rabs. destruct (Rcase_abs x); lra. Qed.

Section Acc.
Variables (A : fp) (u eta : R).
Hypothesis HA : accurate_fp A u eta.
#[local] Instance NA : Num R := FNum A.
Notation rd := (rnd A).

Lemma u_range : 0 <= u <= / 1000. Proof. apply HA. Qed.
Lemma eta_range : 0 <= eta <= / 1000. Proof. apply HA. Qed.
Lemma a_opp x : rd (- x) = - rd x. Proof. unfold accurate_fp, is_float in HA. apply HA. Qed.
Lemma a_idem x : rd (rd x) = rd x. Proof. unfold accurate_fp, is_float in HA. apply HA. Qed.
Lemma a_1 : rd 1 = 1. Proof. unfold accurate_fp, is_float in HA. apply HA. Qed.
Lemma a_2 : rd 2 = 2. Proof. unfold accurate_fp, is_float in HA. apply HA. Qed.
Lemma a_err x : Rabs (rd x - x) <= u * Rabs x + eta. Proof. unfold accurate_fp, is_float in HA. apply HA. Qed.
Lemma a_exp x : Rabs (f_exp A x - exp x) <= u * exp x + eta. Proof. unfold accurate_fp, is_float in HA. apply HA. Qed.
Lemma a_log x : 0 < x -> Rabs (f_log A x - ln x) <= u * Rabs (ln x) + eta. Proof. unfold accurate_fp, is_float in HA. apply HA. Qed.
Lemma a_sqrt x : 0 <= x -> Rabs (f_sqrt A x - sqrt x) <= u * sqrt x + eta. Proof. unfold accurate_fp, is_float in HA. apply HA. Qed.
Lemma a_atan x : Rabs (f_atan A x - atan x) <= u * Rabs (atan x) + eta. Proof. unfold accurate_fp, is_float in HA. apply HA. Qed.
Lemma a_powi x k : Rabs (f_powi A x k - x ^ k) <= u * Rabs (x ^ k) + eta. Proof. unfold accurate_fp, is_float in HA. apply HA. Qed.
Lemma a_q1 : rd (Q2R 1) = 1. Proof. replace (Q2R 1) with 1 by (unfold Q2R; cbn; lra). exact a_1. Qed.
Lemma a_0 : rd 0 = 0. Proof. pose proof (a_opp 0) as H. rewrite Ropp_0 in H. lra. Qed.

Lemma err_n x y e b : Rabs (x - y) <= u * Rabs y + eta -> Rabs y <= b -> e = 1001 / 1000 * b + / 1000 -> Rabs x <= e.
Proof.
  intros H Hb ->. pose proof u_range. pose proof eta_range. replace x with (y + (x - y)) by ring. eapply Rle_trans; [apply Rabs_triang|]. pose proof (Rabs_pos y). nra.
Qed.
Lemma rd_abs x b : Rabs x <= b -> Rabs (rd x) <= 1001 / 1000 * b + / 1000.
Proof. intro H. eapply err_n; [apply a_err|exact H|reflexivity]. Qed.
(** rounding a nonpositive / nonnegative number *)
Lemma rd_neg x : x <= 0 -> rd x <= eta.
Proof. intro H. pose proof (le_abs _ _ (a_err x)). rewrite Rabs_left1 in H0 by exact H. pose proof u_range. nra. Qed.
Lemma rd_nn x : 0 <= x -> - eta <= rd x.
Proof. intro H. pose proof (le_abs _ _ (a_err x)). rewrite Rabs_pos_eq in H0 by exact H. pose proof u_range. nra. Qed.
Lemma rd_ge x b : 0 <= b <= x -> 999 / 1000 * b - / 1000 <= rd x.
Proof. intro H. pose proof (le_abs _ _ (a_err x)). rewrite Rabs_pos_eq in H0 by lra. pose proof u_range. pose proof eta_range. nra. Qed.

Definition fk (x : R) : R := rd (rd (Q2R 1) / rd (rd (Q2R 1) + rd (rd (Q2R 0.2316419) * Rabs x))).
Lemma fk_bound x : Rabs (fk x) <= 102 / 100.
Proof.
  unfold fk. rewrite a_q1. pose proof eta_range. assert (Hc : 0 <= rd (Q2R 0.2316419)) by (pose proof (rd_ge (Q2R 0.2316419) (2 / 10)); unfold Q2R in *; cbn in *; lra).
  assert (Ha : - eta <= rd (rd (Q2R 0.2316419) * Rabs x)) by (apply rd_nn, Rmult_le_pos; [exact Hc|apply Rabs_pos]). set (a := rd (_ * Rabs x)) in *.
  pose proof (rd_ge (1 + a) (999 / 1000) ltac:(lra)) as Hd. set (d := rd (1 + a)) in *. apply (Rle_trans _ (1001 / 1000 * (101 / 100) + / 1000)); [|lra]. apply rd_abs.
  assert (0 < / d <= 101 / 100). { split; [apply Rinv_0_lt_compat; lra|]. apply (Rmult_le_reg_l d); [lra|]. rewrite Rinv_r by lra. nra. } unfold Rdiv. rewrite Rmult_1_l. apply abs_le. lra.
Qed.
Lemma fk_pow x k : (k <= 5)%nat -> Rabs (f_powi A (fk x) k) <= 111 / 100 + / 100.
Proof.
  intro Hk. pose proof (fk_bound x) as B. apply (err_n _ (fk x ^ k) _ (1105 / 1000)); [apply a_powi| |lra] || idtac.
  eapply Rle_trans; [eapply (err_n _ (fk x ^ k) _ (1105 / 1000)); [apply a_powi| |reflexivity]|lra].
  rewrite <- RPow_abs. apply Rle_trans with ((102 / 100) ^ k); [apply pow_incr; split; [apply Rabs_pos|exact B]|]. apply Rle_trans with ((102 / 100) ^ 5); [apply Rle_pow; [lra|exact Hk]|]. cbn. lra.
Qed.

Definition fpoly (k : R) : R :=
  rd (rd (rd (rd (rd (rd (Q2R 0.319381530) * k) + rd (rd (Q2R (-0.356563782)) * f_powi A k 2)) + rd (rd (Q2R 1.781477937) * f_powi A k 3)) + rd (rd (Q2R (-1.821255978)) * f_powi A k 4)) + rd (rd (Q2R 1.330274429) * f_powi A k 5)).
Lemma mul_abs x y a b : Rabs x <= a -> Rabs y <= b -> Rabs (x * y) <= a * b.
Proof. intros. rewrite Rabs_mult. apply Rmult_le_compat; try apply Rabs_pos; assumption. Qed.
Lemma add_abs x y a b : Rabs x <= a -> Rabs y <= b -> Rabs (x + y) <= a + b.
Proof. intros. eapply Rle_trans; [apply Rabs_triang|]. lra. Qed.
Lemma fpoly_bound x : Rabs (fpoly (fk x)) <= 7.
Proof.
  unfold fpoly. assert (L : forall q b, Rabs (Q2R q) <= b -> Rabs (rd (Q2R q)) <= 1001 / 1000 * b + / 1000) by (intros; now apply rd_abs).
  assert (B1 : Rabs (Q2R 0.319381530) <= 32 / 100) by (unfold Q2R; cbn; apply abs_le; lra). assert (B2 : Rabs (Q2R (-0.356563782)) <= 36 / 100) by (unfold Q2R; cbn; apply abs_le; lra).
  assert (B3 : Rabs (Q2R 1.781477937) <= 179 / 100) by (unfold Q2R; cbn; apply abs_le; lra). assert (B4 : Rabs (Q2R (-1.821255978)) <= 183 / 100) by (unfold Q2R; cbn; apply abs_le; lra). assert (B5 : Rabs (Q2R 1.330274429) <= 134 / 100) by (unfold Q2R; cbn; apply abs_le; lra).
  pose proof (fk_bound x) as K1. pose proof (fk_pow x 2 ltac:(lia)) as K2. pose proof (fk_pow x 3 ltac:(lia)) as K3. pose proof (fk_pow x 4 ltac:(lia)) as K4. pose proof (fk_pow x 5 ltac:(lia)) as K5.
  pose proof (rd_abs _ _ (mul_abs _ _ _ _ (L _ _ B1) K1)) as T1. pose proof (rd_abs _ _ (mul_abs _ _ _ _ (L _ _ B2) K2)) as T2. pose proof (rd_abs _ _ (mul_abs _ _ _ _ (L _ _ B3) K3)) as T3. pose proof (rd_abs _ _ (mul_abs _ _ _ _ (L _ _ B4) K4)) as T4. pose proof (rd_abs _ _ (mul_abs _ _ _ _ (L _ _ B5) K5)) as T5.
  eapply Rle_trans; [apply (rd_abs _ _ (add_abs _ _ _ _ (rd_abs _ _ (add_abs _ _ _ _ (rd_abs _ _ (add_abs _ _ _ _ (rd_abs _ _ (add_abs _ _ _ _ T1 T2)) T3)) T4)) T5))|]. lra.
Qed.

Definition fndf (x : R) : R := rd (f_exp A (rd (rd ((- x) * x) / rd (Q2R 2))) / f_sqrt A (rd (rd (Q2R 8) * f_atan A (rd (Q2R 1))))).
Lemma den_bound : 2 <= f_sqrt A (rd (rd (Q2R 8) * f_atan A (rd (Q2R 1)))).
Proof.
  rewrite a_q1. pose proof u_range. pose proof eta_range. assert (HQ : 799 / 100 <= rd (Q2R 8)) by (pose proof (rd_ge (Q2R 8) 8); unfold Q2R in *; cbn in *; lra).
  assert (Ht : 7 / 10 <= f_atan A 1). { pose proof (le_abs _ _ (a_atan 1)). pose proof PI2_3_2. rewrite atan_1 in H1. rewrite Rabs_pos_eq in H1 by lra. nra. }
  pose proof (rd_ge (rd (Q2R 8) * f_atan A 1) (55 / 10) ltac:(nra)) as Hx. set (x := rd (rd (Q2R 8) * _)) in *. pose proof (le_abs _ _ (a_sqrt x ltac:(lra))) as Hs.
  assert (21 / 10 <= sqrt x). { rewrite <- (sqrt_pow2 (21 / 10)) by lra. apply sqrt_le_1_alt. lra. } nra.
Qed.
Lemma fndf_bound x : Rabs (fndf x) <= 6 / 10.
Proof.
  unfold fndf. pose proof den_bound as HD. set (D := f_sqrt A _) in *. pose proof eta_range. pose proof u_range.
  assert (H1 : rd (- x * x) <= eta) by (apply rd_neg; nra). assert (H2 : 19 / 10 <= rd (Q2R 2)) by (pose proof (rd_ge (Q2R 2) 2); unfold Q2R in *; cbn in *; lra).
  assert (H3 : rd (rd (- x * x) / rd (Q2R 2)) <= 3 / 1000).
  { set (q := rd (- x * x) / rd (Q2R 2)). assert (Hq : q <= / 1000). { unfold q, Rdiv. assert (0 < / rd (Q2R 2) <= 1). { split; [apply Rinv_0_lt_compat; lra|]. rewrite <- Rinv_1. apply Rinv_le_contravar; lra. } destruct (Rle_dec (rd (- x * x)) 0); nra. }
    destruct (Rle_dec q 0); [pose proof (rd_neg q r); lra|]. pose proof (rd_abs q (/ 1000) ltac:(apply abs_le; lra)) as X. apply le_abs in X. lra. }
  set (a := rd (_ / rd (Q2R 2))) in *. assert (H4 : 0 < exp a <= 101 / 100). { split; [apply exp_pos|]. pose proof (exp_ineq1_le (- a)) as E. rewrite exp_Ropp in E. pose proof (exp_pos a). assert (/ exp a >= 99 / 100) by lra. apply (Rmult_le_reg_r (/ exp a)); [now apply Rinv_0_lt_compat|]. rewrite Rinv_r by lra. lra. }
  assert (H5 : Rabs (f_exp A a) <= 102 / 100). { eapply Rle_trans; [eapply (err_n _ (exp a) _ (101 / 100)); [|apply abs_le; lra|reflexivity]|lra]. rewrite (Rabs_pos_eq (exp a)) by lra. apply a_exp. }
  eapply Rle_trans; [apply (rd_abs _ (51 / 100))|lra]. unfold Rdiv. rewrite Rabs_mult. assert (0 < / D <= / 2) by (split; [apply Rinv_0_lt_compat; lra|apply Rinv_le_contravar; lra]). rewrite (Rabs_pos_eq (/ D)) by lra. pose proof (Rabs_pos (f_exp A a)). nra.
Qed.

Definition fw (x : R) : R := rd (rd (fndf x * fpoly (fk x)) - rd (Q2R 0.5)).
Lemma cnd_fw x : cnd x = rd (rd (Q2R 0.5) - rd (fw x * Rsgn x)).
Proof. reflexivity. Qed.
Lemma half_err : Rabs (rd (Q2R 0.5) - / 2) <= u / 2 + eta.
Proof. pose proof (a_err (Q2R 0.5)) as H. replace (Q2R 0.5) with (/ 2) in * by (unfold Q2R; cbn; lra). rewrite (Rabs_pos_eq (/ 2)) in H by lra. lra. Qed.
Lemma half_bound : Rabs (rd (Q2R 0.5)) <= 51 / 100.
Proof. pose proof (le_abs _ _ half_err). pose proof u_range. pose proof eta_range. apply abs_le. lra. Qed.
Lemma fw_bound x : Rabs (fw x) <= 5.
Proof.
  unfold fw. pose proof (rd_abs _ _ (mul_abs _ _ _ _ (fndf_bound x) (fpoly_bound x))) as H. pose proof half_bound as H2.
  eapply Rle_trans; [apply (rd_abs _ _ (add_abs _ (- rd (Q2R 0.5)) _ _ H ltac:(rewrite Rabs_Ropp; exact H2)))|]. lra.
Qed.
Lemma fw_even x : fw (- x) = fw x.
Proof. unfold fw, fndf, fk. rewrite Rabs_Ropp. now replace (- - x * - x) with (- x * x) by ring. Qed.
Lemma cnd_pos_f x : 0 < x -> cnd x = rd (rd (Q2R 0.5) - fw x).
Proof. intro H. rewrite cnd_fw, Rsgn_pos by exact H. rewrite Rmult_1_r. unfold fw at 1. now rewrite a_idem. Qed.
Lemma cnd_neg_f x : x < 0 -> cnd x = rd (rd (Q2R 0.5) + fw x).
Proof. intro H. rewrite cnd_fw, Rsgn_neg by exact H. replace (fw x * -1) with (- fw x) by ring. rewrite a_opp. unfold fw at 1. rewrite a_idem. f_equal. fold (fw x). ring. Qed.
Lemma cnd_0_f : cnd 0 = rd (Q2R 0.5).
Proof. rewrite cnd_fw, Rsgn_0, Rmult_0_r, a_0, Rminus_0_r. apply a_idem. Qed.

Lemma cnd_sum_pos x : 0 < x -> Rabs (cnd x + cnd (- x) - 1) <= 13 * u + 4 * eta.
Proof.
  intro H. rewrite (cnd_pos_f x H), (cnd_neg_f (- x)) by lra. rewrite fw_even. pose proof (fw_bound x) as W. pose proof half_bound as B. pose proof half_err as E. set (h := rd (Q2R 0.5)) in *. set (w := fw x) in *. pose proof u_range. pose proof eta_range.
  pose proof (a_err (h - w)) as E1. pose proof (a_err (h + w)) as E2.
  pose proof (add_abs h (- w) _ _ B ltac:(rewrite Rabs_Ropp; exact W)) as A1. pose proof (add_abs h w _ _ B W) as A2. change (h + - w) with (h - w) in A1.
  apply le_abs in E, E1, E2. apply abs_le. nra.
Qed.
Lemma cnd_sum x : Rabs (cnd x + cnd (- x) - 1) <= 13 * u + 4 * eta.
Proof.
  destruct (Rtotal_order x 0) as [H|[-> |H]].
  - rewrite (Rplus_comm (cnd x)). rewrite <- (Ropp_involutive x) at 2. apply cnd_sum_pos. lra.
  - rewrite Ropp_0, cnd_0_f. pose proof (le_abs _ _ half_err). pose proof u_range. pose proof eta_range. apply abs_le. lra.
  - now apply cnd_sum_pos.
Qed.
Lemma cnd_bound_f x : Rabs (cnd x) <= 6.
Proof.
  pose proof half_bound as B. pose proof (fw_bound x) as W. destruct (Rtotal_order x 0) as [H|[-> |H]].
  - rewrite cnd_neg_f by exact H. eapply Rle_trans; [apply (rd_abs _ _ (add_abs _ _ _ _ B W))|lra].
  - rewrite cnd_0_f. lra.
  - rewrite cnd_pos_f by exact H. eapply Rle_trans; [apply (rd_abs _ _ (add_abs _ (- fw x) _ _ B ltac:(rewrite Rabs_Ropp; exact W)))|lra].
Qed.

(** the two prices from their discounted forward [F] and strike [X] *)
Lemma parity_core F X x1 x2 : 0 <= F -> 0 <= X ->
  Rabs ((rd (rd (F * cnd x1) - rd (X * cnd x2)) - rd (rd (X * cnd (- x2)) - rd (F * cnd (- x1)))) - (F - X)) <= 40 * u * (F + X) + (4 * (F + X) + 7) * eta.
Proof.
  intros HF HX. pose proof u_range as Hu. pose proof eta_range as He.
  assert (M : forall Y c, 0 <= Y -> Rabs c <= 6 -> Rabs (rd (Y * c) - Y * c) <= 6 * u * Y + eta /\ Rabs (rd (Y * c)) <= 601 / 100 * Y + eta).
  { intros Y c HY Hc. pose proof (a_err (Y * c)) as E. rewrite Rabs_mult, (Rabs_pos_eq Y) in E by exact HY. assert (Y * Rabs c <= Y * 6) by now apply Rmult_le_compat_l. pose proof (Rabs_pos c).
    assert (B : Rabs (Y * c) <= Y * 6) by (rewrite Rabs_mult, (Rabs_pos_eq Y) by exact HY; lra). assert (E' : u * (Y * Rabs c) <= u * (Y * 6)) by (apply Rmult_le_compat_l; lra). split; [lra|].
    replace (rd (Y * c)) with (Y * c + (rd (Y * c) - Y * c)) by ring. eapply Rle_trans; [apply Rabs_triang|]. assert (u * Y <= / 1000 * Y) by (apply Rmult_le_compat_r; lra). lra. }
  destruct (M F (cnd x1) HF (cnd_bound_f x1)) as [E1 B1]. destruct (M X (cnd x2) HX (cnd_bound_f x2)) as [E2 B2]. destruct (M X (cnd (- x2)) HX (cnd_bound_f _)) as [E3 B3]. destruct (M F (cnd (- x1)) HF (cnd_bound_f _)) as [E4 B4].
  set (P := rd (F * cnd x1)) in *. set (Q := rd (X * cnd x2)) in *. set (Q' := rd (X * cnd (- x2))) in *. set (P' := rd (F * cnd (- x1))) in *.
  pose proof (a_err (P - Q)) as E5. pose proof (a_err (Q' - P')) as E6.
  pose proof (add_abs P (- Q) _ _ B1 ltac:(rewrite Rabs_Ropp; exact B2)) as A5. change (P + - Q) with (P - Q) in A5. pose proof (add_abs Q' (- P') _ _ B3 ltac:(rewrite Rabs_Ropp; exact B4)) as A6. change (Q' + - P') with (Q' - P') in A6.
  assert (U5 : u * Rabs (P - Q) <= u * (601 / 100 * F + eta + (601 / 100 * X + eta))) by (apply Rmult_le_compat_l; lra). assert (U6 : u * Rabs (Q' - P') <= u * (601 / 100 * X + eta + (601 / 100 * F + eta))) by (apply Rmult_le_compat_l; lra).
  assert (UE : u * eta <= / 1000 * eta) by (apply Rmult_le_compat_r; lra).
  pose proof (cnd_sum x1) as S1. pose proof (cnd_sum x2) as S2.
  assert (F1 : Rabs (F * (cnd x1 + cnd (- x1) - 1)) <= F * (13 * u + 4 * eta)) by (rewrite Rabs_mult, (Rabs_pos_eq F) by exact HF; now apply Rmult_le_compat_l).
  assert (X1 : Rabs (X * (cnd x2 + cnd (- x2) - 1)) <= X * (13 * u + 4 * eta)) by (rewrite Rabs_mult, (Rabs_pos_eq X) by exact HX; now apply Rmult_le_compat_l).
  apply le_abs in E1, E2, E3, E4, E5, E6, F1, X1. assert (PF : 0 <= u * F) by (apply Rmult_le_pos; lra). assert (PX : 0 <= u * X) by (apply Rmult_le_pos; lra).
  apply abs_le. lra.
Qed.
End Acc.

(*@ C69_parity | Put-call parity in floating-point arithmetic: with F and X the discounted forward and strike as the code computes them, call minus put differs from F - X by at most 40 u (F + X) plus an underflow term, u being the relative error of one operation (2^-53 in double precision). *)
Lemma c69_parity : forall A u eta, accurate_fp A u eta -> forall S K t r b sigma,
  let F := rnd A (S * f_exp A (rnd A (rnd A (b - r) * t))) in let X := rnd A (K * f_exp A (rnd A (- r * t))) in 0 <= F -> 0 <= X ->
  exists c p, @gbs_call R (FNum A) (@GBSOption R (FNum A) S K t r b (Some sigma)) = Ok c /\ @gbs_put R (FNum A) (@GBSOption R (FNum A) S K t r b (Some sigma)) = Ok p /\
    Rabs ((c - p) - (F - X)) <= 40 * u * (F + X) + (4 * (F + X) + 7) * eta.
Proof.
  intros A u eta HA S K t r b s F X HF HX. do 2 eexists. split; [reflexivity|]. split; [reflexivity|]. exact (parity_core A u eta HA F X _ _ HF HX).
Qed.
