(** Stability of trinomial trees in floating-point arithmetic (C72): computed moves and weights, and prices. *)
From Coq Require Import Reals QArith Qreals ZArith String List Arith Lra Lia Psatz.
From Verif Require Import Num Py Arr MTrees STrees MFloat SFloat PTrees PTrees2 PTrees3 PTrees4 PSpread3 PFloat PFloat2 PFloat5 PFloat6 PFloat7 PFloat8 PFloat9 PFloat10 PFloat12.
Import ListNotations.
Open Scope R_scope.

Lemma tnode_eq n (t1 t2 : nat -> R) f1 f2 : (forall i, t1 i = t2 i) -> (forall j i v2 v1 v0, f1 j i v2 v1 v0 = f2 j i v2 v1 v0) -> forall m i, tnode n t1 f1 m i = tnode n t2 f2 m i.
Proof. intros Ht Hf. induction m as [|m IH]; intro i; cbn [tnode]; [apply Ht|]. now rewrite !IH, Hf. Qed.

Section In.
Variables (A : fp) (u eta : R).
Hypothesis HA : accurate_fp A u eta.
Notation rd := (rnd A).

(** the computed moves and weights *)
Definition tri_fu s fdt := f_exp A (rd (s * f_sqrt A (rd (2 * fdt)))).
Definition tri_fd s fdt := f_exp A (rd (- s * f_sqrt A (rd (2 * fdt)))).
Definition tri_fx s fdt := f_exp A (rd (s * f_sqrt A (rd (fdt / 2)))).
Definition tri_fy s fdt := f_exp A (rd (- s * f_sqrt A (rd (fdt / 2)))).
Definition tri_fm b fdt := f_exp A (rd (rd (b * fdt) / 2)).
Definition tri_fpu b s fdt := f_powi A (rd (rd (tri_fm b fdt - tri_fy s fdt) / rd (tri_fx s fdt - tri_fy s fdt))) 2.
Definition tri_fpd b s fdt := f_powi A (rd (rd (tri_fx s fdt - tri_fm b fdt) / rd (tri_fx s fdt - tri_fy s fdt))) 2.

Lemma tri_float_value S K t r b s n (call am : bool) : n <> 0%nat -> let fdt := rd (t / rd (INR n)) in
  @tree_price R (FNum A) Tri (mkTree S K t r b s (the_type am) n) call false = Ok (Price (
    tnode n (fun i => Rmax 0 (fex A call S K (f_powi A (tri_fu s fdt) (posdiff i n)) (f_powi A (tri_fd s fdt) (posdiff n i))))
      (fun j i v2 v1 v0 => let c := fcont3 A (tri_fpu b s fdt) (rd (rd (rd 1 - tri_fpu b s fdt) - tri_fpd b s fdt)) (tri_fpd b s fdt) (f_exp A (rd (- r * fdt))) v2 v1 v0 in
        if am then Rmax (fex A call S K (f_powi A (tri_fu s fdt) (posdiff i j)) (f_powi A (tri_fd s fdt) (posdiff j i))) c else c) n 0)).
Proof.
  intros Hn fdt. set (o := mkTree S K t r b s (the_type am) n).
  rewrite (fprice A Tri o call am Hn eq_refl). f_equal. f_equal. unfold fvalue, tri_value. change (to_n o) with n.
  assert (Edt : @tri_dt R (FNum A) o = fdt) by (unfold tri_dt, ofnat, fdt; cbn [div ofZ to_t to_n o FNum]; now rewrite <- INR_IZR_INZ).
  assert (T2 : rd (IZR 2) = 2) by exact (a_2 A u eta HA).
  assert (Eu : @tri_u R (FNum A) o = tri_fu s fdt) by (unfold tri_u, tri_fu; rewrite Edt; cbn [expn mul sqrn ofZ FNum]; now rewrite T2).
  assert (Ed : @tri_d R (FNum A) o = tri_fd s fdt) by (unfold tri_d, tri_fd; rewrite Edt; cbn [expn mul sqrn ofZ opp FNum]; now rewrite T2).
  assert (Epu : @tri_pu R (FNum A) o = tri_fpu b s fdt) by (unfold tri_pu, tri_fpu, tri_fm, tri_fx, tri_fy; rewrite Edt; cbn [expn mul sqrn ofZ opp sub div powi FNum]; now rewrite T2).
  assert (Epd : @tri_pd R (FNum A) o = tri_fpd b s fdt) by (unfold tri_pd, tri_fpd, tri_fm, tri_fx, tri_fy; rewrite Edt; cbn [expn mul sqrn ofZ opp sub div powi FNum]; now rewrite T2).
  assert (Epm : @tri_pm R (FNum A) o = rd (rd (rd 1 - tri_fpu b s fdt) - tri_fpd b s fdt)) by (unfold tri_pm; now rewrite Epu, Epd).
  assert (ED : @tri_Df R (FNum A) o = f_exp A (rd (- r * fdt))) by (unfold tri_Df; rewrite Edt; reflexivity).
  change (@tri_u R (NF A)) with (@tri_u R (FNum A)). change (@tri_d R (NF A)) with (@tri_d R (FNum A)). change (@tri_pu R (NF A)) with (@tri_pu R (FNum A)). change (@tri_pd R (NF A)) with (@tri_pd R (FNum A)). change (@tri_pm R (NF A)) with (@tri_pm R (FNum A)). change (@tri_Df R (NF A)) with (@tri_Df R (FNum A)).
  rewrite Eu, Ed, Epu, Epd, Epm, ED.
  assert (Z : rd (IZR (zZ call)) = zof call). { destruct call; cbn [zZ zof]; [apply (a_1 A u eta HA)|]. change (IZR (-1)) with (- (1)). now rewrite (a_opp A u eta HA), (a_1 A u eta HA). }
  assert (EX : forall i j, @tri_exercise R (NF A) (zZ call) S K (tri_fu s fdt) (tri_fd s fdt) i j = fex A call S K (f_powi A (tri_fu s fdt) (posdiff i j)) (f_powi A (tri_fd s fdt) (posdiff j i))) by (intros i j; unfold tri_exercise, fex; cbn [ofZ mul sub powi NF FNum]; now rewrite Z).
  apply tnode_eq.
  - intro i. change (to_S o) with S. change (to_K o) with K. rewrite EX. cbn [maxn ofZ NF FNum]. change (IZR 0) with 0. now rewrite (a_0 A u eta HA).
  - intros j i v2 v1 v0. cbv zeta. change (to_S o) with S. change (to_K o) with K. rewrite EX. reflexivity.
Qed.

(** the exact price *)
Lemma tri_exact_value S K t r b s n (call am : bool) : n <> 0%nat -> 0 < t -> 0 < s ->
  let dt := t / INR n in let h := s * sqrt (dt / 2) in let p := step_p CRR b s (dt / 2) in let Df := exp (- r * dt) in
  tree_price Tri (mkTree S K t r b s (the_type am) n) call false = Ok (Price (
    tnode n (fun i => Rmax 0 (zof call * (tri_spot (exp (2 * h)) (exp (- (2 * h))) S i n - K)))
      (fun j i w2 w1 w0 => let c := (p ^ 2 * w2 + 2 * p * (1 - p) * w1 + (1 - p) ^ 2 * w0) * Df in if am then Rmax (zof call * (tri_spot (exp (2 * h)) (exp (- (2 * h))) S i j - K)) c else c) n 0)).
Proof.
  intros Hn Ht Hs dt h p Df. assert (Hs0 : s <> 0) by lra. set (o := mkTree S K t r b s (the_type am) n).
  transitivity (tri_calc_price o (if call then 1 else -1) false); [destruct call; reflexivity|]. rewrite (tri_price_value o _ am Hn eq_refl). f_equal. f_equal. unfold tri_value. change (to_n o) with n.
  assert (Z : IZR (if call then 1%Z else (-1)%Z) = zof call) by (destruct call; reflexivity).
  assert (Eu : tri_u o = exp (2 * h)) by (unfold o; rewrite tri_u_sq, crr_u2 by auto; rewrite <- exp_plus; f_equal; unfold h, dt; ring).
  assert (Ed : tri_d o = exp (- (2 * h))) by (unfold o; rewrite tri_d_sq, crr_d2 by auto; rewrite <- exp_plus; f_equal; unfold h, dt; ring).
  assert (Epu : tri_pu o = p ^ 2) by (unfold o; rewrite tri_pu_sq by auto; unfold sq_o; rewrite link_sq_p by auto; fold dt p; ring).
  assert (Epd : tri_pd o = (1 - p) ^ 2) by (unfold o; rewrite tri_pd_sq by auto; unfold sq_o; rewrite link_sq_p by auto; fold dt p; ring).
  assert (Epm : tri_pm o = 2 * p * (1 - p)) by (unfold tri_pm; rewrite Epu, Epd; toR; ring).
  assert (EDf : tri_Df o = Df) by (unfold o, tri_Df; rewrite tri_dt_eq; reflexivity).
  rewrite Eu, Ed, Epu, Epd, Epm, EDf. apply tnode_eq.
  - intro i. unfold tri_exercise, tri_spot. toR. rewrite Z. reflexivity.
  - intros j i v2 v1 v0. cbv zeta. unfold tri_exercise, tri_spot. toR. rewrite Z. reflexivity.
Qed.

Hypothesis Heu : eta <= u * u.
Let Hu : 0 <= u <= / 1000 := u_range A u eta HA.
Let He : 0 <= eta <= / 1000 := eta_range A u eta HA.
Let Hue : eta <= / 1000 * u.
Proof. apply Rle_trans with (u * u); [exact Heu|apply Rmult_le_compat_r; lra]. Qed.

Lemma sqrt_close x d e : 0 < d -> u / 2 <= d -> 0 <= e <= 10 -> Rabs (x - d) <= e * u * d -> Rabs (f_sqrt A x - sqrt d) <= (e + 202 / 100) * u * sqrt d.
Proof.
  intros Hd Hud Hee C. assert (eu : 0 <= e * u <= / 100) by (split; [apply Rmult_le_pos; lra|apply Rle_trans with (10 * / 1000); [apply Rmult_le_compat; lra|lra]]). assert (P : e * u * d <= / 100 * d) by (apply Rmult_le_compat_r; lra). pose proof (le_abs _ _ C) as C'.
  assert (Sd : 0 < sqrt d) by now apply sqrt_lt_R0. pose proof (sqrt_pos x) as Sf.
  assert (X : Rabs (sqrt x - sqrt d) <= e * u * sqrt d).
  { apply (Rmult_le_reg_r (sqrt d)); [exact Sd|]. rewrite (Rmult_assoc (e * u)), sqrt_sqrt by lra. eapply Rle_trans; [|exact C]. replace (x - d) with ((sqrt x - sqrt d) * (sqrt x + sqrt d)) by (rewrite <- (sqrt_sqrt x), <- (sqrt_sqrt d) at 3 by lra; ring). rewrite Rabs_mult. apply Rmult_le_compat_l; [apply Rabs_pos|]. rewrite Rabs_pos_eq; lra. }
  assert (Eta : eta <= u * sqrt d). { apply Rle_trans with (u * u); [exact Heu|]. apply Rmult_le_compat_l; [lra|]. rewrite <- (sqrt_square u) by lra. apply sqrt_le_1_alt. apply Rle_trans with (/ 1000 * u); [apply Rmult_le_compat_r; lra|lra]. }
  pose proof (a_sqrt A u eta HA x ltac:(lra)) as F. pose proof (le_abs _ _ X) as X'. assert (U1 : e * u * sqrt d <= / 100 * sqrt d) by (apply Rmult_le_compat_r; lra). assert (U0 : 0 <= u * sqrt d) by (apply Rmult_le_pos; lra).
  assert (F2 : u * sqrt x <= u * (101 / 100 * sqrt d)) by (apply Rmult_le_compat_l; lra). replace (f_sqrt A x - sqrt d) with ((f_sqrt A x - sqrt x) + (sqrt x - sqrt d)) by ring. eapply Rle_trans; [apply Rabs_triang|]. lra.
Qed.

Variables (t : R) (n : nat).
Hypothesis Ht : 0 < t.
Hypothesis Hn : n <> 0%nat.
Notation dt := (t / INR n).
Notation fdt := (rd (t / rd (INR n))).
Hypothesis Hd1 : u <= dt.
Let Hdt : 0 < dt.
Proof. apply Rdiv_lt_0_compat; [exact Ht|]. apply lt_0_INR. lia. Qed.

(** a multiple of the step, its root, and the volatility over it *)
Lemma rdt_close c : / 2 <= c <= 2 -> Rabs (rd (c * fdt) - c * dt) <= 604 / 100 * u * (c * dt).
Proof.
  intro Hc. pose proof (fdt_close A u eta HA Heu t n Ht Hn Hd1) as C. set (d := dt) in *. set (fd := fdt) in *. assert (P : 0 < c * d) by (apply Rmult_lt_0_compat; lra).
  assert (X : Rabs (c * fd - c * d) <= 302 / 100 * u * (c * d)). { replace (c * fd - c * d) with (c * (fd - d)) by ring. rewrite Rabs_mult, (Rabs_pos_eq c) by lra. replace (302 / 100 * u * (c * d)) with (c * (302 / 100 * u * d)) by ring. apply Rmult_le_compat_l; lra. }
  assert (cd : / 2 * d <= c * d) by (apply Rmult_le_compat_r; lra). assert (Eta : eta <= u * (2 * (c * d))) by (apply Rle_trans with (u * u); [exact Heu|apply Rmult_le_compat_l; lra]).
  eapply Rle_trans; [apply (rd_close A u eta HA _ (c * d) _ (c * d) u _ (Rle_refl u) X ltac:(rewrite Rabs_pos_eq; lra) Eta)|].
  assert (0 <= u * (c * d)) by (apply Rmult_le_pos; lra). assert (u * (u * (c * d)) <= / 1000 * (u * (c * d))) by (apply Rmult_le_compat_r; lra). lra.
Qed.
Lemma vol_close s c : 0 < s -> / 2 <= c <= 2 -> let h := s * sqrt (c * dt) in h <= 1 -> Rabs (rd (s * f_sqrt A (rd (c * fdt))) - h) <= 908 / 100 * u * h + / 1000 * u /\ rd (- s * f_sqrt A (rd (c * fdt))) = - rd (s * f_sqrt A (rd (c * fdt))).
Proof.
  intros Hs Hc h Hh. pose proof (rdt_close c Hc) as C. assert (P : / 2 * dt <= c * dt) by (apply Rmult_le_compat_r; lra). pose proof (sqrt_close _ (c * dt) (604 / 100) ltac:(lra) ltac:(lra) ltac:(lra) C) as Q. set (q := f_sqrt A (rd (c * fdt))) in *. set (d := sqrt (c * dt)) in *. assert (Hd : 0 < d) by (apply sqrt_lt_R0; lra). assert (Ph : 0 < h) by now apply Rmult_lt_0_compat.
  split; [|rewrite <- (a_opp A u eta HA); f_equal; ring].
  assert (X : Rabs (s * q - h) <= 806 / 100 * u * h). { unfold h. replace (s * q - s * d) with (s * (q - d)) by ring. rewrite Rabs_mult, (Rabs_pos_eq s) by lra. replace (806 / 100 * u * (s * d)) with (s * (806 / 100 * u * d)) by ring. apply Rmult_le_compat_l; lra. }
  eapply Rle_trans; [apply (rd_close A u eta HA _ h _ h u (/ 1000) (Rle_refl u) X ltac:(rewrite Rabs_pos_eq; lra) ltac:(lra))|]. assert (0 <= u * h) by (apply Rmult_le_pos; lra). assert (u * (u * h) <= / 1000 * (u * h)) by (apply Rmult_le_compat_r; lra). lra.
Qed.

(** a weight: the square of a quotient of differences *)
Lemma weight_close fN N fE E h : 0 < h <= / 4 -> 100 * u <= h -> Rabs (fN - N) <= 8 * u -> Rabs (fE - E) <= 93 / 10 * u -> 15 / 10 * h <= E -> 0 <= N <= E ->
  Rabs (f_powi A (rd (fN / fE)) 2 - (N / E) ^ 2) <= 32 * u / h.
Proof.
  intros Hh Huh CN CE HE HN. pose proof (le_abs _ _ CE) as CE2. assert (HfE : 14 / 10 * h <= fE) by lra. set (p := N / E) in *.
  assert (Hp : 0 <= p <= 1). { unfold p. split; [unfold Rdiv; apply Rmult_le_pos; [lra|apply Rlt_le, Rinv_0_lt_compat; lra]|]. apply (Rmult_le_reg_r E); [lra|]. replace (N / E * E) with N by (field; lra). lra. }
  assert (uhi : 4 * u <= u / h). { apply (Rmult_le_reg_r h); [lra|]. replace (u / h * h) with u by (field; lra). assert (u * h <= u * / 4) by (apply Rmult_le_compat_l; lra). lra. } assert (Puh : u / h <= / 100). { apply (Rmult_le_reg_r h); [lra|]. replace (u / h * h) with u by (field; lra). lra. }
  assert (X : Rabs (fN / fE - p) <= 1236 / 100 * (u / h)).
  { replace (fN / fE - p) with (((fN - N) + p * (E - fE)) * / fE) by (unfold p; field; lra). rewrite Rabs_mult, (Rabs_pos_eq (/ fE)) by (apply Rlt_le, Rinv_0_lt_compat; lra). apply (Rmult_le_reg_r fE); [lra|]. rewrite Rmult_assoc, Rinv_l, Rmult_1_r by lra.
    assert (Y : Rabs (fN - N + p * (E - fE)) <= 173 / 10 * u). { eapply Rle_trans; [apply Rabs_triang|]. rewrite Rabs_mult, (Rabs_pos_eq p) by lra. assert (p * Rabs (E - fE) <= 1 * (93 / 10 * u)) by (apply Rmult_le_compat; try lra; [apply Rabs_pos|rewrite Rabs_minus_sym; exact CE]). lra. }
    eapply Rle_trans; [exact Y|]. apply Rle_trans with (1236 / 100 * (u / h) * (14 / 10 * h)); [|apply Rmult_le_compat_l; lra]. replace (1236 / 100 * (u / h) * (14 / 10 * h)) with (1236 / 100 * (14 / 10) * u) by (field; lra). lra. }
  assert (X2 : Rabs (rd (fN / fE) - p) <= 127 / 10 * (u / h)).
  { eapply Rle_trans; [apply (rd_close A u eta HA _ p _ 1 u (/ 1000) (Rle_refl u) X ltac:(rewrite Rabs_pos_eq; lra) ltac:(lra))|]. assert (u * (u / h) <= / 1000 * (u / h)) by (apply Rmult_le_compat_r; lra). lra. }
  set (z := rd (fN / fE)) in *. set (v := u / h) in *. replace (32 * u / h) with (32 * v) by (unfold v; field; lra). pose proof (le_abs _ _ X2) as X3.
  assert (Z : Rabs (z ^ 2 - p ^ 2) <= 28 * v). { replace (z ^ 2 - p ^ 2) with ((z - p) * (z + p)) by ring. rewrite Rabs_mult. apply Rle_trans with (127 / 10 * v * (213 / 100)); [|lra]. apply Rmult_le_compat; try apply Rabs_pos; [exact X2|]. apply abs_le. lra. }
  pose proof (a_powi A u eta HA z 2) as F. assert (Bz : Rabs (z ^ 2) <= 13 / 10). { rewrite Rabs_pos_eq by apply pow2_ge_0. replace (z ^ 2) with (z * z) by ring. assert (Rabs z <= 1127 / 1000) by (apply abs_le; lra). apply Rle_trans with (1127 / 1000 * (1127 / 1000)); [|lra]. rewrite <- (Rabs_pos_eq (z * z)) by (apply Rle_0_sqr). rewrite Rabs_mult. apply Rmult_le_compat; try apply Rabs_pos; assumption. }
  assert (u * Rabs (z ^ 2) <= u * (13 / 10)) by (apply Rmult_le_compat_l; lra). replace (f_powi A z 2 - p ^ 2) with ((f_powi A z 2 - z ^ 2) + (z ^ 2 - p ^ 2)) by ring. eapply Rle_trans; [apply Rabs_triang|]. lra.
Qed.

Lemma tri_moves b s : 0 < s -> let h := s * sqrt (dt / 2) in 100 * u <= h <= / 4 -> Rabs b * dt <= h -> let p := step_p CRR b s (dt / 2) in
  rd (tri_fx s fdt - tri_fy s fdt) <> 0 /\ Rabs (tri_fu s fdt - exp (2 * h)) <= 6 * u * exp (2 * h) /\ Rabs (tri_fd s fdt - exp (- (2 * h))) <= 6 * u * exp (- (2 * h)) /\
  0 <= p <= 1 /\ Rabs (tri_fpu b s fdt - p ^ 2) <= 32 * u / h /\ Rabs (tri_fpd b s fdt - (1 - p) ^ 2) <= 32 * u / h.
Proof.
  intros Hs h Hh Hb. assert (Ph : 0 < h) by (apply Rmult_lt_0_compat; [exact Hs|apply sqrt_lt_R0; lra]).
  assert (uh : 0 <= u * h <= / 4 * u) by (split; [apply Rmult_le_pos; lra|rewrite (Rmult_comm (/ 4)); apply Rmult_le_compat_l; lra]).
  assert (E2 : s * sqrt (2 * dt) = 2 * h) by (unfold h; rewrite (sqrt_2dt t n Hn Ht); ring).
  assert (EH : s * sqrt (/ 2 * dt) = h) by (unfold h; f_equal; f_equal; apply Rmult_comm).
  destruct (vol_close s 2 Hs ltac:(lra)) as [CU2 OU]; [rewrite E2; lra|]. rewrite E2 in CU2. destruct (vol_close s (/ 2) Hs ltac:(lra)) as [CX OX]; [rewrite EH; lra|]. rewrite EH in CX.
  intro p. unfold tri_fpu, tri_fpd, tri_fu, tri_fd, tri_fx, tri_fy, tri_fm.
  replace (fdt / 2) with (/ 2 * fdt) by apply Rmult_comm. rewrite OU, OX. set (f2 := rd (s * f_sqrt A (rd (2 * fdt)))) in *. set (fh := rd (s * f_sqrt A (rd (/ 2 * fdt)))) in *.
  assert (NX : Rabs (- fh - - h) <= 23 / 10 * u) by (replace (- fh - - h) with (- (fh - h)) by ring; rewrite Rabs_Ropp; lra). assert (NU : Rabs (- f2 - - (2 * h)) <= 455 / 100 * u) by (replace (- f2 - - (2 * h)) with (- (f2 - 2 * h)) by ring; rewrite Rabs_Ropp; lra).
  pose proof (fexp_close A u eta HA Heu f2 (2 * h) (455 / 100) ltac:(lra) ltac:(lra) ltac:(lra)) as D1. pose proof (fexp_close A u eta HA Heu (- f2) (- (2 * h)) (455 / 100) ltac:(lra) ltac:(lra) ltac:(lra)) as D2.
  pose proof (fexp_close A u eta HA Heu fh h (23 / 10) ltac:(lra) ltac:(lra) ltac:(lra)) as D3. pose proof (fexp_close A u eta HA Heu (- fh) (- h) (23 / 10) ltac:(lra) ltac:(lra) ltac:(lra)) as D4.
  assert (Bb : Rabs (b * dt) <= h) by (rewrite Rabs_mult, (Rabs_pos_eq dt) by lra; exact Hb). pose proof (le_abs _ _ Bb) as Bb2.
  assert (CB : Rabs (rd (rd (b * fdt) / 2) - b * dt / 2) <= 65 / 100 * u).
  { pose proof (rate_close A u eta HA Heu t n Ht Hn Hd1 b h Hb ltac:(lra)) as CM. assert (X : Rabs (rd (b * fdt) / 2 - b * dt / 2) <= 506 / 1000 * u). { replace (rd (b * fdt) / 2 - b * dt / 2) with (/ 2 * (rd (b * fdt) - b * dt)) by (unfold Rdiv; ring). rewrite Rabs_mult, (Rabs_pos_eq (/ 2)) by lra. lra. }
    eapply Rle_trans; [apply (rd_close A u eta HA _ _ _ (/ 8) u (/ 1000) (Rle_refl u) X ltac:(apply abs_le; lra) ltac:(lra))|]. assert (u * u <= / 1000 * u) by (apply Rmult_le_compat_r; lra). lra. }
  pose proof (fexp_close A u eta HA Heu (rd (rd (b * fdt) / 2)) (b * dt / 2) (65 / 100) ltac:(lra) ltac:(lra) ltac:(lra)) as D5.
  assert (Rel : forall x y c c', Rabs (x - y) <= c * u * y -> c <= c' -> 0 < y -> Rabs (x - y) <= c' * u * y) by (intros x y c c' H1 H2 H3; eapply Rle_trans; [exact H1|]; apply Rmult_le_compat_r; [lra|]; apply Rmult_le_compat_r; lra).
  assert (Q : exp (/ 4) <= 13 / 10). { pose proof (exp_ineq1_le (- / 4)) as I0. rewrite exp_Ropp in I0. pose proof (exp_pos (/ 4)). assert (P2 : / exp (/ 4) * exp (/ 4) = 1) by (apply Rinv_l; lra). assert (I1 : 1 + - / 16 <= exp (- / 16)) by apply exp_ineq1_le. rewrite exp_Ropp in I1. assert (P3 : exp (/ 4) = exp (/ 16) ^ 4) by (rewrite exp_pow; f_equal; cbn [INR]; field). assert (P4 : exp (/ 16) <= 16 / 15). { pose proof (exp_pos (/ 16)). rewrite <- (Rinv_inv (exp (/ 16))). rewrite <- (Rinv_inv (16 / 15)). apply Rinv_le_contravar; lra. } rewrite P3. apply Rle_trans with ((16 / 15) ^ 4); [apply pow_incr; pose proof (exp_pos (/ 16)); lra|lra]. }
  set (X := exp h) in *. set (Y := exp (- h)) in *. set (M := exp (b * dt / 2)) in *. set (fX := f_exp A fh) in *. set (fY := f_exp A (- fh)) in *. set (fM := f_exp A (rd (rd (b * fdt) / 2))) in *.
  assert (BX : 1 + h <= X <= 13 / 10) by (split; [apply exp_ineq1_le|apply Rle_trans with (2 := Q); apply exp_mono; lra]). assert (BY : 0 < Y <= / (1 + h)). { split; [apply exp_pos|]. unfold Y. rewrite exp_Ropp. apply Rinv_le_contravar; [lra|apply exp_ineq1_le]. } assert (BY1 : / (1 + h) <= 1 - h / 2). { apply (Rmult_le_reg_l (1 + h)); [lra|]. rewrite Rinv_r by lra. nra. }
  assert (YM : Y <= M) by (apply exp_mono; lra). assert (MX : M <= X) by (apply exp_mono; lra).
  assert (uX : 0 <= u * X <= 13 / 10 * u) by (split; [apply Rmult_le_pos; lra|rewrite (Rmult_comm (13 / 10)); apply Rmult_le_compat_l; lra]). assert (uY : 0 <= u * Y <= u) by (split; [apply Rmult_le_pos; lra|rewrite <- (Rmult_1_r u) at 2; apply Rmult_le_compat_l; lra]). assert (uM : 0 <= u * M <= 13 / 10 * u) by (split; [apply Rmult_le_pos; lra|rewrite (Rmult_comm (13 / 10)); apply Rmult_le_compat_l; lra]).
  assert (uu : u * u <= / 1000 * u) by (apply Rmult_le_compat_r; lra).
  pose proof (le_abs _ _ D3) as D3'. pose proof (le_abs _ _ D4) as D4'. pose proof (le_abs _ _ D5) as D5'.
  assert (Y5 : / 2 <= Y). { pose proof (exp_ineq1_le (- h)). fold Y in H. lra. }
  assert (CN : Rabs (rd (fM - fY) - (M - Y)) <= 8 * u). { eapply Rle_trans; [apply (rd_close A u eta HA _ (M - Y) (59 / 10 * u) (8 / 10) u (/ 1000) (Rle_refl u)); [apply abs_le; lra|rewrite Rabs_pos_eq; lra|lra]|]. lra. }
  assert (CN' : Rabs (rd (fX - fM) - (X - M)) <= 8 * u). { eapply Rle_trans; [apply (rd_close A u eta HA _ (X - M) (70 / 10 * u) (8 / 10) u (/ 1000) (Rle_refl u)); [apply abs_le; lra|rewrite Rabs_pos_eq; lra|lra]|]. lra. }
  assert (CE : Rabs (rd (fX - fY) - (X - Y)) <= 93 / 10 * u). { eapply Rle_trans; [apply (rd_close A u eta HA _ (X - Y) (82 / 10 * u) (8 / 10) u (/ 1000) (Rle_refl u)); [apply abs_le; lra|rewrite Rabs_pos_eq; lra|lra]|]. lra. }
  set (fE := rd (fX - fY)) in *. pose proof (le_abs _ _ CE) as CE'. assert (HE : 15 / 10 * h <= X - Y) by lra. assert (ZE : fE <> 0) by lra.
  assert (Ep : p = (M - Y) / (X - Y)) by (unfold p; cbn [step_p step_u step_d]; unfold M, X, Y, h; f_equal; f_equal; f_equal; field; apply Rgt_not_eq; apply lt_0_INR; lia).
  assert (Eq : 1 - p = (X - M) / (X - Y)) by (rewrite Ep; field; lra).
  assert (Hp : 0 <= p <= 1). { assert (G : forall a, 0 <= a -> 0 <= a / (X - Y)) by (intros a Ha; apply Rmult_le_pos; [exact Ha|apply Rlt_le, Rinv_0_lt_compat; lra]). pose proof (G (M - Y) ltac:(lra)) as G1. pose proof (G (X - M) ltac:(lra)) as G2. rewrite <- Ep in G1. rewrite <- Eq in G2. lra. }
  split; [exact ZE|]. split; [apply (Rel _ _ _ 6 D1); [lra|apply exp_pos]|]. split; [apply (Rel _ _ _ 6 D2); [lra|apply exp_pos]|]. split; [exact Hp|].
  split; [rewrite Ep|rewrite Eq]; apply (weight_close _ _ _ _ h); try assumption; lra.
Qed.
End In.
