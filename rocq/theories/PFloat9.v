(** Stability of JR and CRR trees in floating-point arithmetic (C72). *)
From Coq Require Import Reals QArith Qreals ZArith String List Arith Lra Lia Psatz.
From Verif Require Import Num Py Arr MTrees STrees MFloat SFloat PTrees PTrees3 PTrees4 PFloat PFloat2 PFloat5 PFloat6 PFloat7 PFloat8.
Import ListNotations.
Open Scope R_scope.

Lemma exp_near z : Rabs z <= / 40 -> Rabs (exp z - 1) <= 103 / 100 * Rabs z.
Proof.
  intro H. pose proof (le_abs _ _ H) as Hz. pose proof (exp_ineq1_le z) as I. destruct (Rle_dec 0 z) as [P|P].
  - rewrite (Rabs_pos_eq z) by lra. assert (E : exp z <= / (1 - z)) by (apply exp_small; lra). assert (X : / (1 - z) <= 1 + 103 / 100 * z). { apply (Rmult_le_reg_l (1 - z)); [lra|]. rewrite Rinv_r by lra. nra. } apply abs_le. lra.
  - rewrite (Rabs_left z) by lra. assert (exp z <= 1). { rewrite <- exp_0. apply Rlt_le, exp_increasing. lra. } apply abs_le. lra.
Qed.
Lemma exp_mono x y : x <= y -> exp x <= exp y.
Proof. intros [H| ->]; [now apply Rlt_le, exp_increasing|apply Rle_refl]. Qed.

Section In.
Variables (A : fp) (u eta : R).
Hypothesis HA : accurate_fp A u eta.
Hypothesis Heu : eta <= u * u.
Notation rd := (rnd A).
Let Hu : 0 <= u <= / 1000 := u_range A u eta HA.
Let He : 0 <= eta <= / 1000 := eta_range A u eta HA.
Let Hue : eta <= / 1000 * u.
Proof. apply Rle_trans with (u * u); [exact Heu|apply Rmult_le_compat_r; lra]. Qed.

Lemma fexp_close x y e : 0 <= e <= 20 -> Rabs (x - y) <= e * u -> -1 <= y -> Rabs (f_exp A x - exp y) <= (103 / 100 * e + 11 / 10) * u * exp y.
Proof.
  intros Hee Hxy Hy. pose proof (exp_third y Hy) as E3. assert (eu : 0 <= e * u <= / 50) by (split; [apply Rmult_le_pos; lra|apply Rle_trans with (20 * / 1000); [apply Rmult_le_compat; lra|lra]]).
  pose proof (exp_near (x - y) ltac:(lra)) as N. assert (Ex : exp x = exp y * exp (x - y)) by (rewrite <- exp_plus; f_equal; ring).
  assert (C : Rabs (exp x - exp y) <= 103 / 100 * (e * u) * exp y). { rewrite Ex. replace (exp y * exp (x - y) - exp y) with (exp y * (exp (x - y) - 1)) by ring. rewrite Rabs_mult, (Rabs_pos_eq (exp y)) by lra. rewrite (Rmult_comm _ (exp y)). apply Rmult_le_compat_l; [lra|]. lra. }
  pose proof (a_exp A u eta HA x) as F. pose proof (le_abs _ _ C) as C'. assert (103 / 100 * (e * u) * exp y <= 103 / 100 * / 50 * exp y) by (apply Rmult_le_compat_r; lra).
  assert (F2 : u * exp x <= u * (103 / 100 * exp y)) by (apply Rmult_le_compat_l; lra). assert (F3 : / 1000 * u <= / 1000 * u * (3 * exp y)) by (rewrite <- (Rmult_1_r (/ 1000 * u)) at 1; apply Rmult_le_compat_l; lra).
  assert (Pu : 0 <= u * exp y) by (apply Rmult_le_pos; lra).
  replace (f_exp A x - exp y) with ((f_exp A x - exp x) + (exp x - exp y)) by ring. eapply Rle_trans; [apply Rabs_triang|]. lra.
Qed.

Variables (t : R) (n : nat).
Hypothesis Ht : 0 < t.
Hypothesis Hn : n <> 0%nat.
Notation dt := (t / INR n).
Notation fdt := (rd (t / rd (INR n))).
Hypothesis Hd1 : u <= dt.
Hypothesis Hd2 : u * dt <= 1.

Let HN : 1 <= INR n.
Proof. apply (le_INR 1). lia. Qed.
Let Hdt : 0 < dt.
Proof. apply Rdiv_lt_0_compat; lra. Qed.

Lemma fdt_close : Rabs (fdt - dt) <= 302 / 100 * u * dt.
Proof.
  pose proof (le_abs _ _ (a_err A u eta HA (INR n))) as E. rewrite (Rabs_pos_eq (INR n)) in E by lra. set (N := INR n) in *. set (rn := rd N) in *. assert (uN : u <= u * N) by (rewrite <- (Rmult_1_r u) at 1; apply Rmult_le_compat_l; lra).
  assert (uN' : u * N <= / 1000 * N) by (apply Rmult_le_compat_r; lra). assert (Hrn : 99 / 100 * N <= rn) by lra. assert (Prn : 0 < rn) by lra.
  assert (X : Rabs (t / rn - t / N) <= 1012 / 1000 * u * (t / N)).
  { replace (t / rn - t / N) with (t / N * ((N - rn) / rn)) by (field; lra). rewrite Rabs_mult, (Rabs_pos_eq (t / N)) by lra. rewrite (Rmult_comm _ (t / N)). apply Rmult_le_compat_l; [lra|]. unfold Rdiv at 1. rewrite Rabs_mult, (Rabs_pos_eq (/ rn)) by (apply Rlt_le, Rinv_0_lt_compat; lra).
    apply (Rmult_le_reg_r rn); [lra|]. rewrite Rmult_assoc, Rinv_l, Rmult_1_r by lra. assert (1012 / 1000 * u * (99 / 100 * N) <= 1012 / 1000 * u * rn) by (apply Rmult_le_compat_l; lra). apply abs_le. lra. }
  assert (Eta : eta <= u * (t / N)) by (apply Rle_trans with (u * u); [exact Heu|apply Rmult_le_compat_l; lra]).
  eapply Rle_trans; [apply (rd_close A u eta HA _ (t / N) _ (t / N) u (t / N) (Rle_refl u) X ltac:(rewrite Rabs_pos_eq; lra) Eta)|].
  assert (0 <= u * (t / N)) by (apply Rmult_le_pos; lra). assert (u * (u * (t / N)) <= / 1000 * (u * (t / N))) by (apply Rmult_le_compat_r; lra). lra.
Qed.
Lemma fdt_pos : 99 / 100 * dt <= fdt <= 101 / 100 * dt.
Proof. pose proof (le_abs _ _ fdt_close). assert (u * dt <= / 1000 * dt) by (apply Rmult_le_compat_r; lra). lra. Qed.

Lemma fsq_close : Rabs (f_sqrt A fdt - sqrt dt) <= 504 / 100 * u * sqrt dt.
Proof.
  pose proof fdt_pos as P. pose proof fdt_close as C. set (d := dt) in *. set (fd := fdt) in *. assert (Sd : 0 < sqrt d) by now apply sqrt_lt_R0. pose proof (sqrt_pos fd) as Sf.
  assert (X : Rabs (sqrt fd - sqrt d) <= 302 / 100 * u * sqrt d).
  { apply (Rmult_le_reg_r (sqrt d)); [exact Sd|]. rewrite (Rmult_assoc (302 / 100 * u)), sqrt_sqrt by lra. eapply Rle_trans; [|exact C]. replace (fd - d) with ((sqrt fd - sqrt d) * (sqrt fd + sqrt d)) by (rewrite <- (sqrt_sqrt fd), <- (sqrt_sqrt d) at 3 by lra; ring). rewrite Rabs_mult. apply Rmult_le_compat_l; [apply Rabs_pos|]. rewrite Rabs_pos_eq; lra. }
  assert (Eta : eta <= u * sqrt d). { apply Rle_trans with (u * u); [exact Heu|]. apply Rmult_le_compat_l; [lra|]. rewrite <- (sqrt_square u) by lra. apply sqrt_le_1_alt. apply Rle_trans with (1 * u); [apply Rmult_le_compat_r; lra|lra]. }
  pose proof (a_sqrt A u eta HA fd ltac:(lra)) as F. pose proof (le_abs _ _ X) as X'. assert (U1 : u * sqrt d <= / 1000 * sqrt d) by (apply Rmult_le_compat_r; lra). assert (U0 : 0 <= u * sqrt d) by (apply Rmult_le_pos; lra).
  assert (F2 : u * sqrt fd <= u * (1004 / 1000 * sqrt d)) by (apply Rmult_le_compat_l; lra). replace (f_sqrt A fd - sqrt d) with ((f_sqrt A fd - sqrt fd) + (sqrt fd - sqrt d)) by ring. eapply Rle_trans; [apply Rabs_triang|]. lra.
Qed.

(** the computed volatility per step *)
Lemma fh_close s : 0 < s -> s * sqrt dt <= 1 -> Rabs (rd (s * f_sqrt A fdt) - s * sqrt dt) <= 605 / 100 * u * (s * sqrt dt) + / 1000 * u.
Proof.
  intros Hs Hh. pose proof fsq_close as C. set (q := f_sqrt A fdt) in *. set (d := sqrt dt) in *. assert (Hd : 0 < d) by now apply sqrt_lt_R0. set (h := s * d) in *. assert (Ph : 0 < h) by now apply Rmult_lt_0_compat.
  assert (X : Rabs (s * q - h) <= 504 / 100 * u * h). { unfold h. replace (s * q - s * d) with (s * (q - d)) by ring. rewrite Rabs_mult, (Rabs_pos_eq s) by lra. replace (504 / 100 * u * (s * d)) with (s * (504 / 100 * u * d)) by ring. apply Rmult_le_compat_l; lra. }
  eapply Rle_trans; [apply (rd_close A u eta HA _ h _ h u (/ 1000) (Rle_refl u) X ltac:(rewrite Rabs_pos_eq; lra) ltac:(lra))|]. assert (0 <= u * h) by (apply Rmult_le_pos; lra). assert (u * (u * h) <= / 1000 * (u * h)) by (apply Rmult_le_compat_r; lra). lra.
Qed.

(** a rate times the step *)
Lemma rate_close x c : Rabs x * dt <= c -> c <= 1 -> Rabs (rd (x * fdt) - x * dt) <= 403 / 100 * u * c + / 1000 * u.
Proof.
  intros Hx Hc. pose proof fdt_close as C. set (d := dt) in *. set (fd := fdt) in *. pose proof (Rabs_pos x) as Px. assert (P : 0 <= Rabs x * d) by (apply Rmult_le_pos; lra).
  assert (X : Rabs (x * fd - x * d) <= 302 / 100 * u * c). { replace (x * fd - x * d) with (x * (fd - d)) by ring. rewrite Rabs_mult. apply Rle_trans with (Rabs x * (302 / 100 * u * d)); [apply Rmult_le_compat_l; lra|]. replace (Rabs x * (302 / 100 * u * d)) with (302 / 100 * u * (Rabs x * d)) by ring. apply Rmult_le_compat_l; lra. }
  assert (B : Rabs (x * d) <= c) by (rewrite Rabs_mult, (Rabs_pos_eq d) by lra; lra).
  eapply Rle_trans; [apply (rd_close A u eta HA _ _ _ c u (/ 1000) (Rle_refl u) X B ltac:(lra))|]. assert (0 <= u * c) by (apply Rmult_le_pos; lra). assert (u * (u * c) <= / 1000 * (u * c)) by (apply Rmult_le_compat_r; lra). lra.
Qed.
Lemma disc_close r : Rabs r * dt <= 1 -> Rabs (f_exp A (rd (- r * fdt)) - exp (- r * dt)) <= 6 * u * exp (- r * dt).
Proof.
  intro H. pose proof (rate_close (- r) 1 ltac:(rewrite Rabs_Ropp; exact H) ltac:(lra)) as C. assert (B : -1 <= - r * dt). { apply (le_abs (- r * dt) 1). rewrite Rabs_mult, Rabs_Ropp, (Rabs_pos_eq dt) by lra. exact H. }
  eapply Rle_trans; [apply (fexp_close _ _ (404 / 100)); [lra|lra|exact B]|]. apply Rmult_le_compat_r; [apply Rlt_le, exp_pos|lra].
Qed.

(** JR *)
Lemma jr_moves b s : 0 < s -> (Rabs b + s ^ 2) * dt + s * sqrt dt <= 1 ->
  let '(fu, fd) := float_moves A JR b s fdt in Rabs (fu - step_u JR b s dt) <= 12 * u * step_u JR b s dt /\ Rabs (fd - step_d JR b s dt) <= 12 * u * step_d JR b s dt /\ step_u JR b s dt <= 3.
Proof.
  intros Hs HB. cbn [float_moves step_u step_d]. cbv zeta. rewrite (a_2 A u eta HA). pose proof fdt_close as C. pose proof fdt_pos as P. pose proof (Rabs_pos b) as Pb. assert (Ps : 0 < s ^ 2) by (apply pow_lt; lra). assert (Psd : 0 < s * sqrt dt) by (apply Rmult_lt_0_compat; [exact Hs|now apply sqrt_lt_R0]).
  assert (PB : 0 <= (Rabs b + s ^ 2) * dt) by (apply Rmult_le_pos; lra). pose proof (fh_close s Hs ltac:(lra)) as CH. set (h := s * sqrt dt) in *. set (d := dt) in *. set (fd := fdt) in *. set (fh := rd (s * f_sqrt A fd)) in *.
  set (be := Rabs b + s ^ 2) in *. set (B := be * d) in *.
  pose proof (a_powi A u eta HA s 2) as E1. rewrite (Rabs_pos_eq (s ^ 2)) in E1 by lra. set (c := f_powi A s 2) in *.
  assert (E2 : Rabs (c / 2 - s ^ 2 / 2) <= u * s ^ 2 / 2 + eta / 2). { replace (c / 2 - s ^ 2 / 2) with (/ 2 * (c - s ^ 2)) by field. rewrite Rabs_mult, (Rabs_pos_eq (/ 2)) by lra. lra. }
  assert (us : 0 <= u * s ^ 2) by (apply Rmult_le_pos; lra). assert (uus : u * (u * s ^ 2) <= / 1000 * (u * s ^ 2)) by (apply Rmult_le_compat_r; lra). assert (ue : 0 <= u * eta <= / 1000 * eta) by (split; [apply Rmult_le_pos; lra|apply Rmult_le_compat_r; lra]). assert (ub : 0 <= u * Rabs b) by (apply Rmult_le_pos; lra).
  assert (E3 : Rabs (rd (c / 2) - s ^ 2 / 2) <= 1001 / 1000 * (u * s ^ 2) + 151 / 100 * eta).
  { pose proof (a_err A u eta HA (c / 2)) as R1. assert (Bc : Rabs (c / 2) <= s ^ 2 / 2 + (u * s ^ 2 / 2 + eta / 2)). { replace (c / 2) with (s ^ 2 / 2 + (c / 2 - s ^ 2 / 2)) by ring. eapply Rle_trans; [apply Rabs_triang|]. rewrite (Rabs_pos_eq (s ^ 2 / 2)) by lra. lra. }
    apply (Rmult_le_compat_l u) in Bc; [|lra]. replace (rd (c / 2) - s ^ 2 / 2) with ((rd (c / 2) - c / 2) + (c / 2 - s ^ 2 / 2)) by ring. eapply Rle_trans; [apply Rabs_triang|]. lra. }
  set (a2 := rd (c / 2)) in *. set (b' := b - s ^ 2 / 2).
  assert (Bb' : Rabs b' <= be). { unfold b', be. apply abs_le. pose proof (le_abs b (Rabs b) ltac:(lra)). lra. }
  assert (E4 : Rabs (rd (b - a2) - b') <= 201 / 100 * (u * be) + 26 / 10 * eta).
  { assert (X : Rabs (b - a2 - b') <= 1001 / 1000 * (u * s ^ 2) + 151 / 100 * eta) by (unfold b'; replace (b - a2 - (b - s ^ 2 / 2)) with (- (a2 - s ^ 2 / 2)) by ring; now rewrite Rabs_Ropp).
    pose proof (a_err A u eta HA (b - a2)) as R1. assert (Bc : Rabs (b - a2) <= be + (1001 / 1000 * (u * s ^ 2) + 151 / 100 * eta)). { replace (b - a2) with (b' + (b - a2 - b')) by ring. eapply Rle_trans; [apply Rabs_triang|]. lra. }
    apply (Rmult_le_compat_l u) in Bc; [|lra]. replace (rd (b - a2) - b') with ((rd (b - a2) - (b - a2)) + (b - a2 - b')) by ring. eapply Rle_trans; [apply Rabs_triang|]. unfold be in *. lra. }
  set (a3 := rd (b - a2)) in *. assert (etad : 0 <= eta * d <= u). { split; [apply Rmult_le_pos; lra|]. apply Rle_trans with (u * u * d); [apply Rmult_le_compat_r; lra|]. rewrite Rmult_assoc. rewrite <- (Rmult_1_r u) at 3. apply Rmult_le_compat_l; lra. }
  assert (uB : 0 <= u * B) by (apply Rmult_le_pos; lra). assert (Pbe : 0 <= be) by (unfold be; lra).
  assert (E5 : Rabs (a3 * fd - b' * d) <= 506 / 100 * (u * B) + 263 / 100 * u).
  { replace (a3 * fd - b' * d) with ((a3 - b') * fd + b' * (fd - d)) by ring. eapply Rle_trans; [apply Rabs_triang|]. rewrite !Rabs_mult. rewrite (Rabs_pos_eq fd) by lra.
    assert (X1 : Rabs (a3 - b') * fd <= (201 / 100 * (u * be) + 26 / 10 * eta) * (101 / 100 * d)). { apply Rmult_le_compat; try lra. apply Rabs_pos. }
    assert (X2 : Rabs b' * Rabs (fd - d) <= be * (302 / 100 * u * d)) by (apply Rmult_le_compat; try apply Rabs_pos; lra). unfold B in *. lra. }
  assert (Bm : Rabs (b' * d) <= B). { rewrite Rabs_mult, (Rabs_pos_eq d) by lra. apply Rmult_le_compat_r; lra. }
  assert (uuB : u * (u * B) <= / 1000 * (u * B)) by (apply Rmult_le_compat_r; lra). assert (uu : u * u <= / 1000 * u) by (apply Rmult_le_compat_r; lra).
  assert (E6 : Rabs (rd (a3 * fd) - b' * d) <= 607 / 100 * (u * B) + 264 / 100 * u).
  { eapply Rle_trans; [apply (rd_close A u eta HA _ _ _ B u (/ 1000) (Rle_refl u) E5 Bm ltac:(lra))|]. lra. }
  set (m := rd (a3 * fd)) in *. assert (uh : 0 <= u * h) by (apply Rmult_le_pos; lra). assert (uuh : u * (u * h) <= / 1000 * (u * h)) by (apply Rmult_le_compat_r; lra).
  assert (G : forall x y, Rabs (x - y) <= 607 / 100 * (u * B) + 264 / 100 * u + (605 / 100 * u * h + / 1000 * u) -> Rabs y <= B + h -> Rabs (f_exp A (rd x) - exp y) <= 12 * u * exp y).
  { intros x y Hxy Hy. assert (R1 : Rabs (rd x - y) <= 98 / 10 * u). { eapply Rle_trans; [apply (rd_close A u eta HA _ _ _ (B + h) u (/ 1000) (Rle_refl u) Hxy Hy ltac:(lra))|]. assert (u * (B + h) <= u * 1) by (apply Rmult_le_compat_l; lra). lra. }
    eapply Rle_trans; [apply (fexp_close _ _ (98 / 10)); [lra|lra|]|apply Rmult_le_compat_r; [apply Rlt_le, exp_pos|lra]]. apply le_abs in Hy. lra. }
  fold b'. apply le_abs in CH, E6. pose proof (le_abs _ _ Bm). split; [|split].
  - apply G; apply abs_le; lra.
  - apply G; apply abs_le; lra.
  - apply Rle_trans with (2 := exp_le_3). apply exp_mono. lra.
Qed.

(** CRR *)
Lemma crr_moves b s : 0 < s -> let h := s * sqrt dt in 100 * u <= h <= 1 -> Rabs b * dt <= h / 2 ->
  let '(fu, fd) := float_moves A CRR b s fdt in rd (fu - fd) <> 0 /\ Rabs (fu - step_u CRR b s dt) <= 9 * u * step_u CRR b s dt /\ Rabs (fd - step_d CRR b s dt) <= 9 * u * step_d CRR b s dt /\ step_u CRR b s dt <= 3 /\
    0 <= step_p CRR b s dt <= 1 /\ Rabs (float_prob A CRR b s fdt - step_p CRR b s dt) <= 50 * u / h.
Proof.
  intros Hs h Hh Hb. assert (Psd : 0 < h) by (apply Rmult_lt_0_compat; [exact Hs|now apply sqrt_lt_R0]). unfold float_prob. cbn [float_moves step_p step_u step_d]. cbv zeta. rewrite (a_1 A u eta HA). fold h.
  pose proof (fh_close s Hs ltac:(fold h; lra)) as CH. fold h in CH. set (fh := rd (s * f_sqrt A fdt)) in *. assert (uh : 0 <= u * h <= u) by (split; [apply Rmult_le_pos; lra|rewrite <- (Rmult_1_r u) at 2; apply Rmult_le_compat_l; lra]). assert (uu : u * u <= / 1000 * u) by (apply Rmult_le_compat_r; lra).
  pose proof (fexp_close fh h (606 / 100) ltac:(lra) ltac:(lra) ltac:(lra)) as CU. set (U := exp h) in *. set (fU := f_exp A fh) in *. assert (U1 : 1 + h <= U) by apply exp_ineq1_le. assert (U3 : U <= 3) by (apply Rle_trans with (2 := exp_le_3); apply exp_mono; lra).
  assert (uU : 0 <= u * U <= 3 * u) by (split; [apply Rmult_le_pos; lra|rewrite (Rmult_comm 3 u); apply Rmult_le_compat_l; lra]). assert (uU' : u * U <= / 1000 * U) by (apply Rmult_le_compat_r; lra).
  assert (CU' : Rabs (fU - U) <= 74 / 10 * u * U) by (eapply Rle_trans; [exact CU|]; apply Rmult_le_compat_r; lra). pose proof (le_abs _ _ CU') as CU2.
  set (D := exp (- h)). assert (ED : D = / U) by (unfold D, U; apply exp_Ropp). assert (D3 : / 3 <= D) by (unfold D; apply exp_third; lra). assert (UD : U * D = 1) by (rewrite ED; apply Rinv_r; lra).
  assert (D1 : D <= / (1 + h)) by (rewrite ED; apply Rinv_le_contravar; lra). assert (D1' : D <= 1) by (eapply Rle_trans; [exact D1|]; rewrite <- Rinv_1; apply Rinv_le_contravar; lra).
  assert (uD : 0 <= u * D <= u) by (split; [apply Rmult_le_pos; lra|rewrite <- (Rmult_1_r u) at 2; apply Rmult_le_compat_l; lra]). assert (uuD : u * (u * D) <= / 1000 * (u * D)) by (apply Rmult_le_compat_r; lra).
  assert (CD : Rabs (rd (1 / fU) - D) <= 86 / 10 * u * D).
  { assert (X : Rabs (1 / fU - D) <= 75 / 10 * u * D).
    { replace (1 / fU - D) with (D * ((U - fU) / fU)) by (rewrite ED; field; lra). rewrite Rabs_mult, (Rabs_pos_eq D) by lra. rewrite (Rmult_comm _ D). apply Rmult_le_compat_l; [lra|]. unfold Rdiv. rewrite Rabs_mult, (Rabs_pos_eq (/ fU)) by (apply Rlt_le, Rinv_0_lt_compat; lra).
      apply (Rmult_le_reg_r fU); [lra|]. rewrite Rmult_assoc, Rinv_l, Rmult_1_r by lra. assert (75 / 10 * u * (99 / 100 * U) <= 75 / 10 * u * fU) by (apply Rmult_le_compat_l; lra). apply abs_le. lra. }
    eapply Rle_trans; [apply (rd_close A u eta HA _ _ _ D u (3 / 1000 * D) (Rle_refl u) X ltac:(rewrite Rabs_pos_eq; lra))|]; [|lra]. eapply Rle_trans; [exact Hue|]. replace (u * (3 / 1000 * D)) with (/ 1000 * (3 * (u * D))) by field. assert (u * / 3 <= u * D) by (apply Rmult_le_compat_l; lra). lra. }
  set (fD := rd (1 / fU)) in *. pose proof (le_abs _ _ CD) as CD2.
  (* numerator and denominator *)
  assert (Bb : Rabs (b * dt) <= h / 2) by (rewrite Rabs_mult, (Rabs_pos_eq dt) by lra; exact Hb). pose proof (le_abs _ _ Bb) as Bb2.
  pose proof (rate_close b (h / 2) Hb ltac:(lra)) as CM. pose proof (fexp_close (rd (b * fdt)) (b * dt) (21 / 10) ltac:(lra) ltac:(lra) ltac:(lra)) as CM2. set (M := exp (b * dt)) in *. set (fM := f_exp A (rd (b * fdt))) in *.
  assert (DM : D <= M) by (apply exp_mono; lra). assert (MU : M <= U) by (apply exp_mono; lra). assert (uM : 0 <= u * M <= 3 * u) by (split; [apply Rmult_le_pos; lra|rewrite (Rmult_comm 3 u); apply Rmult_le_compat_l; lra]).
  assert (CM3 : Rabs (fM - M) <= 10 * u) by lra. pose proof (le_abs _ _ CM3) as CM4.
  assert (CN : Rabs (rd (fM - fD) - (M - D)) <= 218 / 10 * u). { eapply Rle_trans; [apply (rd_close A u eta HA _ (M - D) (187 / 10 * u) 3 u (/ 1000) (Rle_refl u)); [apply abs_le; lra|rewrite Rabs_pos_eq; lra|lra]|]. lra. }
  assert (CE : Rabs (rd (fU - fD) - (U - D)) <= 342 / 10 * u). { eapply Rle_trans; [apply (rd_close A u eta HA _ (U - D) (311 / 10 * u) 3 u (/ 1000) (Rle_refl u)); [apply abs_le; lra|rewrite Rabs_pos_eq; lra|lra]|]. lra. }
  set (N := M - D) in *. set (E := U - D) in *. set (fN := rd (fM - fD)) in *. set (fE := rd (fU - fD)) in *. pose proof (le_abs _ _ CE) as CE2.
  assert (HE : 15 / 10 * h <= E). { assert (X : / (1 + h) <= 1 - h / 2). { apply (Rmult_le_reg_l (1 + h)); [lra|]. rewrite Rinv_r by lra. nra. } unfold E. lra. }
  assert (HfE : 115 / 100 * h <= fE) by lra. assert (PfE : 0 < fE) by lra. assert (PE : 0 < E) by lra.
  assert (Hp : 0 <= N / E <= 1). { split; [unfold Rdiv; apply Rmult_le_pos; [unfold N; lra|apply Rlt_le, Rinv_0_lt_compat; lra]|]. apply (Rmult_le_reg_r E); [lra|]. replace (N / E * E) with N by (field; lra). unfold N, E. lra. }
  split; [lra|]. split; [eapply Rle_trans; [exact CU'|]; apply Rmult_le_compat_r; lra|]. split; [eapply Rle_trans; [exact CD|]; apply Rmult_le_compat_r; lra|]. split; [exact U3|]. split; [exact Hp|].
  set (p := N / E) in *. assert (uhi : u <= u / h). { apply (Rmult_le_reg_r h); [lra|]. replace (u / h * h) with u by (field; lra). lra. } assert (Puh : u / h <= / 100). { apply (Rmult_le_reg_r h); [lra|]. replace (u / h * h) with u by (field; lra). lra. }
  assert (X : Rabs (fN / fE - p) <= 488 / 10 * (u / h)).
  { replace (fN / fE - p) with (((fN - N) + p * (E - fE)) * / fE) by (unfold p; field; lra). rewrite Rabs_mult, (Rabs_pos_eq (/ fE)) by (apply Rlt_le, Rinv_0_lt_compat; lra). apply (Rmult_le_reg_r fE); [lra|]. rewrite Rmult_assoc, Rinv_l, Rmult_1_r by lra.
    assert (Y : Rabs (fN - N + p * (E - fE)) <= 56 * u). { eapply Rle_trans; [apply Rabs_triang|]. rewrite Rabs_mult, (Rabs_pos_eq p) by lra. assert (p * Rabs (E - fE) <= 1 * (342 / 10 * u)) by (apply Rmult_le_compat; try lra; [apply Rabs_pos|rewrite Rabs_minus_sym; exact CE]). lra. }
    eapply Rle_trans; [exact Y|]. apply Rle_trans with (488 / 10 * (u / h) * (115 / 100 * h)); [|apply Rmult_le_compat_l; lra]. replace (488 / 10 * (u / h) * (115 / 100 * h)) with (488 / 10 * (115 / 100) * u) by (field; lra). lra. }
  eapply Rle_trans; [apply (rd_close A u eta HA _ p _ 1 u (/ 1000) (Rle_refl u) X ltac:(rewrite Rabs_pos_eq; lra) ltac:(lra))|]. assert (u * (u / h) <= / 1000 * (u / h)) by (apply Rmult_le_compat_r; lra). unfold Rdiv in *. lra.
Qed.
End In.
