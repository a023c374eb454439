(** Stability of binomial trees in floating-point arithmetic (C72): one step, one node, and the whole tree. *)
From Coq Require Import Reals QArith Qreals ZArith String List Arith Lra Lia Psatz.
From Verif Require Import Num Py Arr MTrees STrees MFloat SFloat PTrees PTrees2 PTrees3 PTrees4 PSpread3 PFloat PFloat2.
Import ListNotations.
Open Scope R_scope.

(** ** Two backward recursions with close terminal values and close steps *)
Section Rec.
Variables (n : nat) (t1 t2 : nat -> R) (f1 f2 : nat -> nat -> R -> R -> R) (g : nat -> nat -> R) (L a e0 : R).
Hypothesis HL : 1 <= L.
Hypothesis Ha : 0 <= a.
Hypothesis He0 : 0 <= e0.
Hypothesis Hg : forall j i, 0 <= g j i.
Hypothesis T1 : forall i, (i <= n)%nat -> Rabs (t1 i - t2 i) <= e0 * g n i /\ Rabs (t2 i) <= g n i.
Hypothesis F1 : forall j i vu vd wu wd E G, (i <= j)%nat -> (j < n)%nat -> 0 <= E -> 1 <= G ->
  Rabs (vu - wu) <= E * g (j + 1)%nat (i + 1)%nat -> Rabs wu <= G * g (j + 1)%nat (i + 1)%nat -> Rabs (vd - wd) <= E * g (j + 1)%nat i -> Rabs wd <= G * g (j + 1)%nat i ->
  Rabs (f1 j i vu vd - f2 j i wu wd) <= Rmax e0 (L * (1 + a) * E + L * a * G) * g j i /\ Rabs (f2 j i wu wd) <= L * G * g j i.

Lemma bnode_close : forall m i, (m <= n)%nat -> (i <= n - m)%nat ->
  Rabs (bnode n t1 f1 m i - bnode n t2 f2 m i) <= (L * (1 + a)) ^ m * (e0 + INR m * a) * g (n - m)%nat i /\ Rabs (bnode n t2 f2 m i) <= L ^ m * g (n - m)%nat i.
Proof.
  induction m as [|m IH]; intros i Hm Hi.
  - cbn [bnode]. rewrite Nat.sub_0_r in *. destruct (T1 i Hi) as [A B]. cbn [pow INR]. split; lra.
  - cbn [bnode]. destruct (IH (i + 1)%nat ltac:(lia) ltac:(lia)) as [A1 B1]. destruct (IH i ltac:(lia) ltac:(lia)) as [A0 B0].
    set (Em := (L * (1 + a)) ^ m * (e0 + INR m * a)) in *. assert (P1 : 1 <= L ^ m) by now apply pow_R1_Rle. assert (PQ : L ^ m <= (L * (1 + a)) ^ m) by (apply pow_incr; nra).
    assert (Hm0 : 0 <= INR m) by apply pos_INR. assert (HE : 0 <= Em) by (unfold Em; apply Rmult_le_pos; [lra|nra]).
    replace (n - m)%nat with (n - Datatypes.S m + 1)%nat in * by lia.
    destruct (F1 (n - Datatypes.S m) i _ _ _ _ Em (L ^ m) ltac:(lia) ltac:(lia) HE P1 A1 B1 A0 B0) as [C D].
    split; [|cbn [pow]; exact D]. eapply Rle_trans; [exact C|]. apply Rmult_le_compat_r; [apply Hg|]. rewrite S_INR. cbn [pow].
    set (q := L * (1 + a)) in *. assert (Hq : L <= q) by (unfold q; nra). assert (Hqm : 1 <= q ^ m) by lra. 
    assert (X : q * q ^ m * (e0 + (INR m + 1) * a) = q * Em + q * q ^ m * a) by (unfold Em; ring). rewrite X.
    assert (Y : L * a * L ^ m <= q * q ^ m * a). { replace (L * a * L ^ m) with (L * L ^ m * a) by ring. apply Rmult_le_compat_r; [exact Ha|]. apply Rmult_le_compat; lra. }
    apply Rmax_lub; [|lra]. assert (e0 <= Em). { unfold Em. apply Rle_trans with (1 * (e0 + 0)); [lra|]. apply Rmult_le_compat; try lra. assert (0 <= INR m * a) by now apply Rmult_le_pos. lra. }
    assert (1 * Em <= q * Em) by (apply Rmult_le_compat_r; lra). assert (0 <= q * q ^ m * a) by (repeat apply Rmult_le_pos; lra). lra.
Qed.
End Rec.

Section St.
Variables (A : fp) (u eta : R).
Hypothesis HA : accurate_fp A u eta.
Notation rd := (rnd A).
Let Hu : 0 <= u <= / 1000 := u_range A u eta HA.
Let He : 0 <= eta <= / 1000 := eta_range A u eta HA.

(** rounding a number that is close to another *)
Lemma rd_close x y e b w H : u <= w -> Rabs (x - y) <= e -> Rabs y <= b -> eta <= w * H -> Rabs (rd x - y) <= e * (1 + w) + w * b + w * H.
Proof.
  intros Hw E B Eta. pose proof (a_err A u eta HA x) as R1. assert (Bx : Rabs x <= b + e). { replace x with (y + (x - y)) by ring. eapply Rle_trans; [apply Rabs_triang|]. lra. }
  assert (u * Rabs x <= w * (b + e)). { apply Rmult_le_compat; try lra. apply Rabs_pos. }
  replace (rd x - y) with ((rd x - x) + (x - y)) by ring. eapply Rle_trans; [apply Rabs_triang|]. lra.
Qed.

(** one backward step: P is the mean weight, H a common bound *)
Lemma step_close w p p1 p0 Df D g gu gd H L vu vd wu wd E G :
  u <= w -> 0 <= w <= / 1000 -> 0 <= p <= 1 -> Rabs (p1 - p) <= w -> Rabs (p0 - (1 - p)) <= 31 / 10 * w -> 0 < Df -> Rabs (D - Df) <= w * Df ->
  0 <= g -> 0 <= gu <= 3 * g -> 0 <= gd <= 3 * g -> eta <= w * g -> p * gu + (1 - p) * gd <= H -> g <= H -> Df * H = L * g -> 1 <= L ->
  0 <= E -> 1 <= G -> Rabs (vu - wu) <= E * gu -> Rabs wu <= G * gu -> Rabs (vd - wd) <= E * gd -> Rabs wd <= G * gd ->
  Rabs (fcont A p1 p0 D vu vd - (p * wu + (1 - p) * wd) * Df) <= (L * (1 + 21 * w) * E + L * (21 * w) * G) * g /\
  Rabs ((p * wu + (1 - p) * wd) * Df) <= L * G * g.
Proof.
  intros Huw Hw Hp Hp1 Hp0 HDf HD Hg Hgu Hgd Heta HP HgH HL HL1 HE HG Vu Wu Vd Wd.
  assert (HH : 0 <= H) by lra. assert (EtaH : eta <= w * H) by (eapply Rle_trans; [exact Heta|]; apply Rmult_le_compat_l; lra).
  (* one weighted value *)
  assert (M : forall q q' c v v0 gg, 0 <= q <= 1 -> Rabs (q' - q) <= c * w -> 0 <= c <= 31 / 10 -> 0 <= gg <= 3 * g -> Rabs (v - v0) <= E * gg -> Rabs v0 <= G * gg ->
    Rabs (rd (q' * v) - q * v0) <= (1 + w) * (q * E * gg) + w * (q * G * gg) + 3005 / 1000 * c * w * (E + G) * g + w * g).
  { intros q q' c v v0 gg Hq Hq' Hc Hgg Hv Hv0. assert (Bv : Rabs v <= (E + G) * gg). { replace v with (v0 + (v - v0)) by ring. eapply Rle_trans; [apply Rabs_triang|]. lra. }
    assert (X : Rabs (q' * v - q * v0) <= c * w * ((E + G) * gg) + q * (E * gg)).
    { replace (q' * v - q * v0) with ((q' - q) * v + q * (v - v0)) by ring. eapply Rle_trans; [apply Rabs_triang|]. apply Rplus_le_compat; rewrite Rabs_mult; [apply Rmult_le_compat; try apply Rabs_pos; assumption|]. rewrite (Rabs_pos_eq q) by lra. apply Rmult_le_compat_l; lra. }
    assert (Y : Rabs (q * v0) <= q * (G * gg)) by (rewrite Rabs_mult, (Rabs_pos_eq q) by lra; apply Rmult_le_compat_l; lra).
    eapply Rle_trans; [apply (rd_close _ _ _ _ w g Huw X Y Heta)|].
    assert (Z : c * w * ((E + G) * gg) * (1 + w) <= c * w * (E + G) * g * (3005 / 1000)).
    { replace (c * w * ((E + G) * gg) * (1 + w)) with (c * w * (E + G) * (gg * (1 + w))) by ring. replace (c * w * (E + G) * g * (3005 / 1000)) with (c * w * (E + G) * (g * (3005 / 1000))) by ring. apply Rmult_le_compat_l; [repeat apply Rmult_le_pos; lra|].
      apply Rle_trans with (3 * g * (1 + / 1000)); [apply Rmult_le_compat; lra|lra]. }
    lra. }
  pose proof (M p p1 1 vu wu gu Hp ltac:(lra) ltac:(lra) Hgu Vu Wu) as M1. pose proof (M (1 - p) p0 (31 / 10) vd wd gd ltac:(lra) Hp0 ltac:(lra) Hgd Vd Wd) as M0.
  set (s := p * wu + (1 - p) * wd). set (P := p * gu + (1 - p) * gd) in *. assert (HP0 : 0 <= P) by (unfold P; apply Rplus_le_le_0_compat; apply Rmult_le_pos; lra).
  assert (wEH : 0 <= w * (E * H)) by (repeat apply Rmult_le_pos; lra). assert (wGH : 0 <= w * (G * H)) by (repeat apply Rmult_le_pos; lra).
  assert (gH : (E + G) * g <= (E + G) * H) by (apply Rmult_le_compat_l; lra). assert (wgH : w * ((E + G) * g) <= w * ((E + G) * H)) by (apply Rmult_le_compat_l; lra).
  assert (EP : E * P <= E * H) by (apply Rmult_le_compat_l; lra). assert (GP : G * P <= G * H) by (apply Rmult_le_compat_l; lra). assert (wEP : w * (E * P) <= w * (E * H)) by (apply Rmult_le_compat_l; lra). assert (wGP : w * (G * P) <= w * (G * H)) by (apply Rmult_le_compat_l; lra).
  assert (H1G : H <= G * H) by (rewrite <- (Rmult_1_l H) at 1; apply Rmult_le_compat_r; lra). assert (wg : w * g <= w * (G * H)) by (apply Rmult_le_compat_l; lra). assert (wH : w * H <= w * (G * H)) by (apply Rmult_le_compat_l; lra).
  assert (Bs : Rabs s <= G * P). { unfold s. eapply Rle_trans; [apply Rabs_triang|]. rewrite !Rabs_mult, (Rabs_pos_eq p), (Rabs_pos_eq (1 - p)) by lra. assert (p * Rabs wu <= p * (G * gu)) by (apply Rmult_le_compat_l; lra). assert ((1 - p) * Rabs wd <= (1 - p) * (G * gd)) by (apply Rmult_le_compat_l; lra). unfold P. lra. }
  set (x1 := rd (p1 * vu)) in *. set (x0 := rd (p0 * vd)) in *.
  assert (S1 : Rabs (x1 + x0 - s) <= E * H + 1333 / 100 * (w * (E * H)) + 1533 / 100 * (w * (G * H))).
  { unfold s. replace (x1 + x0 - (p * wu + (1 - p) * wd)) with ((x1 - p * wu) + (x0 - (1 - p) * wd)) by ring. eapply Rle_trans; [apply Rabs_triang|].
    assert (X : (1 + w) * (p * E * gu) + w * (p * G * gu) + 3005 / 1000 * 1 * w * (E + G) * g + w * g + ((1 + w) * ((1 - p) * E * gd) + w * ((1 - p) * G * gd) + 3005 / 1000 * (31 / 10) * w * (E + G) * g + w * g)
      = E * P + w * (E * P) + w * (G * P) + 3005 / 1000 * (41 / 10) * (w * ((E + G) * g)) + 2 * (w * g)) by (unfold P; field). lra. }
  assert (ww : forall x, 0 <= x -> w * x <= / 1000 * x) by (intros x Hx; apply Rmult_le_compat_r; lra). pose proof (ww _ wEH) as w2E. pose proof (ww _ wGH) as w2G. 
  assert (S2 : Rabs (rd (x1 + x0) - s) <= E * H + 1436 / 100 * (w * (E * H)) + 1736 / 100 * (w * (G * H))).
  { eapply Rle_trans; [apply (rd_close _ _ _ _ w H Huw S1 (Rle_trans _ _ _ Bs GP) EtaH)|]. lra. }
  set (y := rd (x1 + x0)) in *. set (e2 := E * H + _ + _) in S2. assert (He2 : 0 <= e2) by (eapply Rle_trans; [apply Rabs_pos|exact S2]).
  assert (BD : Rabs D <= (1 + w) * Df). { replace D with (Df + (D - Df)) by ring. eapply Rle_trans; [apply Rabs_triang|]. rewrite (Rabs_pos_eq Df) by lra. lra. }
  assert (S3 : Rabs (y * D - s * Df) <= (e2 * (1 + w) + w * (G * H)) * Df).
  { replace (y * D - s * Df) with ((y - s) * D + s * (D - Df)) by ring. eapply Rle_trans; [apply Rabs_triang|]. rewrite !Rabs_mult.
    assert (Rabs (y - s) * Rabs D <= e2 * ((1 + w) * Df)) by (apply Rmult_le_compat; try apply Rabs_pos; assumption). assert (Rabs s * Rabs (D - Df) <= G * H * (w * Df)) by (apply Rmult_le_compat; try apply Rabs_pos; lra). lra. }
  assert (Bs2 : Rabs (s * Df) <= G * H * Df). { rewrite Rabs_mult, (Rabs_pos_eq Df) by lra. apply Rmult_le_compat_r; lra. }
  assert (EL : G * H * Df = L * G * g) by (replace (G * H * Df) with (G * (Df * H)) by ring; rewrite HL; ring). assert (EE : E * H * Df = L * E * g) by (replace (E * H * Df) with (E * (Df * H)) by ring; rewrite HL; ring).
  split; [|fold s; lra].
  assert (HDH : g <= Df * H) by (rewrite HL, <- (Rmult_1_l g) at 1; apply Rmult_le_compat_r; lra). assert (EtaD : eta <= w * (Df * H)) by (eapply Rle_trans; [exact Heta|]; apply Rmult_le_compat_l; lra).
  unfold fcont. fold x1 x0 y. fold s. eapply Rle_trans; [apply (rd_close _ _ _ _ w (Df * H) Huw S3 Bs2 EtaD)|].
  apply Rle_trans with ((E * H + 21 * (w * (E * H)) + 21 * (w * (G * H))) * Df); [|right; replace ((E * H + 21 * (w * (E * H)) + 21 * (w * (G * H))) * Df) with (E * H * Df * (1 + 21 * w) + G * H * Df * (21 * w)) by ring; rewrite EE, EL; ring].
  assert (X : (e2 * (1 + w) + w * (G * H)) * (1 + w) + w * (G * H) + w * H <= E * H + 21 * (w * (E * H)) + 21 * (w * (G * H))).
  { assert (wE : w * (E * H) <= / 1000 * (E * H)) by (apply ww, Rmult_le_pos; lra). unfold e2.
    assert (Q1 : (E * H + 1436 / 100 * (w * (E * H)) + 1736 / 100 * (w * (G * H))) * (1 + w) + w * (G * H) <= E * H + 154 / 10 * (w * (E * H)) + 185 / 10 * (w * (G * H))) by lra.
    set (e3 := _ * (1 + w) + w * (G * H)) in *. assert (Q2 : e3 * (1 + w) <= (E * H + 154 / 10 * (w * (E * H)) + 185 / 10 * (w * (G * H))) * (1 + w)) by (apply Rmult_le_compat_r; lra). lra. }
  apply (Rmult_le_compat_r Df) in X; [|lra]. lra.
Qed.

(** ** node prices *)
Lemma pow_close x y w k : 0 < y -> 0 <= w -> Rabs (x - y) <= w * y -> INR k * w <= / 1000 -> Rabs (x ^ k - y ^ k) <= 101 / 100 * (INR k * w) * y ^ k.
Proof.
  intros Hy Hw Hxy. induction k as [|k IH]; intro Hk; [cbn [pow INR]; replace (1 - 1) with 0 by ring; rewrite Rabs_R0; lra|].
  rewrite S_INR in *. assert (Hk0 : 0 <= INR k * w) by (apply Rmult_le_pos; [apply pos_INR|exact Hw]). specialize (IH ltac:(lra)). cbn [pow]. pose proof (pow_lt y k Hy) as Py.
  replace (x * x ^ k - y * y ^ k) with (x * (x ^ k - y ^ k) + (x - y) * y ^ k) by ring. eapply Rle_trans; [apply Rabs_triang|]. rewrite !Rabs_mult, (Rabs_pos_eq (y ^ k)) by lra.
  assert (Bx : Rabs x <= (1 + w) * y). { replace x with (y + (x - y)) by ring. eapply Rle_trans; [apply Rabs_triang|]. rewrite (Rabs_pos_eq y) by lra. lra. }
  assert (X : Rabs x * Rabs (x ^ k - y ^ k) <= (1 + w) * y * (101 / 100 * (INR k * w) * y ^ k)) by (apply Rmult_le_compat; try apply Rabs_pos; assumption).
  assert (Y : Rabs (x - y) * y ^ k <= w * y * y ^ k) by (apply Rmult_le_compat_r; lra).
  apply Rle_trans with (((1 + w) * (101 / 100 * (INR k * w)) + w) * (y * y ^ k)); [lra|]. apply Rmult_le_compat_r; [apply Rmult_le_pos; lra|].
  assert (w * (INR k * w) <= / 1000 * w) by (rewrite (Rmult_comm w); apply Rmult_le_compat_r; lra). lra.
Qed.
Lemma powi_close x y w k n : 0 < y -> u <= w -> Rabs (x - y) <= w * y -> (k <= n)%nat -> (1 <= n)%nat -> INR n * w <= / 1000 -> eta <= w * y ^ k -> Rabs (f_powi A x k - y ^ k) <= 32 / 10 * (INR n * w) * y ^ k.
Proof.
  intros Hy Huw Hxy Hkn Hn1 Hnw Heta. assert (Hw : 0 <= w) by lra. assert (N1 : 1 <= INR n) by (apply (le_INR 1); exact Hn1). assert (wn : w <= INR n * w) by (rewrite <- (Rmult_1_l w) at 1; apply Rmult_le_compat_r; lra).
  assert (Kn : INR k * w <= INR n * w) by (apply Rmult_le_compat_r; [exact Hw|apply le_INR; exact Hkn]). pose proof (pow_close x y w k Hy Hw Hxy ltac:(lra)) as C. pose proof (pow_lt y k Hy) as Py.
  assert (C' : Rabs (x ^ k - y ^ k) <= 101 / 100 * (INR n * w) * y ^ k) by (eapply Rle_trans; [exact C|]; apply Rmult_le_compat_r; lra).
  pose proof (a_powi A u eta HA x k) as E. assert (B : Rabs (x ^ k) <= (1 + 101 / 100 * (INR n * w)) * y ^ k). { replace (x ^ k) with (y ^ k + (x ^ k - y ^ k)) by ring. eapply Rle_trans; [apply Rabs_triang|]. rewrite (Rabs_pos_eq (y ^ k)) by lra. lra. }
  assert (B2 : u * Rabs (x ^ k) <= w * (1002 / 1000 * y ^ k)). { apply Rmult_le_compat; try apply Rabs_pos; try lra. eapply Rle_trans; [exact B|]. apply Rmult_le_compat_r; lra. }
  replace (f_powi A x k - y ^ k) with ((f_powi A x k - x ^ k) + (x ^ k - y ^ k)) by ring. eapply Rle_trans; [apply Rabs_triang|].
  assert (w * y ^ k <= INR n * w * y ^ k) by (apply Rmult_le_compat_r; lra). lra.
Qed.

(** exercise value and payoff at a node: x = S q1 q2 *)
Lemma node_close call S K q1 q2 r1 r2 y w : u <= w <= y -> y <= / 1000 -> 0 < S -> 0 < K -> 0 < r1 -> 0 < r2 -> Rabs (q1 - r1) <= 32 / 10 * y * r1 -> Rabs (q2 - r2) <= 32 / 10 * y * r2 ->
  eta <= w * (S * r1) -> eta <= w * K -> let g := S * r1 * r2 + K in
  Rabs (fex A call S K q1 q2 - zof call * (S * r1 * r2 - K)) <= 122 / 10 * y * g /\ Rabs (fclip A (fex A call S K q1 q2) - Rmax (zof call * (S * r1 * r2 - K)) 0) <= 16 * y * g.
Proof.
  intros Hw Hy HS HK Hr1 Hr2 H1 H2 E1 EK g. assert (HSr : 0 < S * r1) by now apply Rmult_lt_0_compat. assert (Hx : 0 < S * r1 * r2) by now apply Rmult_lt_0_compat. assert (Hyp : 0 <= y) by lra.
  set (X1 := S * r1) in *. set (X := X1 * r2) in *.
  assert (yy : forall z, 0 <= z -> w * z <= y * z /\ y * (y * z) <= / 1000 * (y * z)) by (intros z Hz; split; apply Rmult_le_compat_r; try lra; apply Rmult_le_pos; lra). assert (ypos : forall z, 0 <= z -> 0 <= y * z) by (intros z Hz; apply Rmult_le_pos; lra). pose proof (ypos X1 ltac:(lra)). pose proof (ypos X ltac:(lra)). pose proof (ypos K ltac:(lra)).
  assert (C1 : Rabs (S * q1 - X1) <= 32 / 10 * y * X1). { unfold X1. replace (S * q1 - S * r1) with (S * (q1 - r1)) by ring. rewrite Rabs_mult, (Rabs_pos_eq S) by lra. replace (32 / 10 * y * (S * r1)) with (S * (32 / 10 * y * r1)) by ring. apply Rmult_le_compat_l; lra. }
  assert (C2 : Rabs (rd (S * q1) - X1) <= 521 / 100 * y * X1).
  { eapply Rle_trans; [apply (rd_close _ _ _ X1 w X1 (proj1 Hw) C1 ltac:(rewrite Rabs_pos_eq; lra) E1)|]. destruct (yy X1 ltac:(lra)). assert (y * X1 * w <= / 1000 * (y * X1)) by (rewrite Rmult_comm; apply Rmult_le_compat_r; [apply Rmult_le_pos; lra|lra]). lra. }
  set (Y := rd (S * q1)) in *.
  assert (C3 : Rabs (Y * q2 - X) <= 844 / 100 * y * X).
  { unfold X. replace (Y * q2 - X1 * r2) with ((Y - X1) * q2 + X1 * (q2 - r2)) by ring. eapply Rle_trans; [apply Rabs_triang|]. rewrite !Rabs_mult, (Rabs_pos_eq X1) by lra.
    assert (Bq : Rabs q2 <= (1 + 32 / 10 * y) * r2). { replace q2 with (r2 + (q2 - r2)) by ring. eapply Rle_trans; [apply Rabs_triang|]. rewrite (Rabs_pos_eq r2) by lra. lra. }
    assert (P1 : Rabs (Y - X1) * Rabs q2 <= 521 / 100 * y * X1 * ((1 + 32 / 10 * y) * r2)) by (apply Rmult_le_compat; try apply Rabs_pos; assumption). assert (P2 : X1 * Rabs (q2 - r2) <= X1 * (32 / 10 * y * r2)) by (apply Rmult_le_compat_l; lra).
    destruct (yy (X1 * r2) (Rlt_le _ _ Hx)) as [_ Z]. assert (0 <= y * (X1 * r2)) by (apply Rmult_le_pos; [lra|apply (Rlt_le _ _ Hx)]). lra. }
  assert (C4 : Rabs (rd (Y * q2) - X) <= 946 / 100 * y * X + y * K).
  { eapply Rle_trans; [apply (rd_close _ _ _ X w K (proj1 Hw) C3 ltac:(rewrite Rabs_pos_eq; lra) EK)|]. destruct (yy X ltac:(lra)). destruct (yy K ltac:(lra)). assert (y * X * w <= / 1000 * (y * X)) by (rewrite Rmult_comm; apply Rmult_le_compat_r; [apply Rmult_le_pos; lra|lra]). lra. }
  set (x := rd (Y * q2)) in *. assert (Hg : 0 < g) by (unfold g; lra). assert (yX : 0 <= y * X) by (apply Rmult_le_pos; lra). assert (yK : 0 <= y * K) by (apply Rmult_le_pos; lra).
  assert (Eg : y * g = y * X + y * K) by (unfold g; ring). assert (Etag : eta <= w * g) by (eapply Rle_trans; [exact EK|]; apply Rmult_le_compat_l; [lra|unfold g; lra]).
  assert (C5 : Rabs (x - K - (X - K)) <= 946 / 100 * y * g). { replace (x - K - (X - K)) with (x - X) by ring. lra. }
  destruct (yy g ltac:(lra)) as [wg y2g]. pose proof (ypos g ltac:(lra)). assert (ywg : y * g * w <= / 1000 * (y * g)) by (rewrite Rmult_comm; apply Rmult_le_compat_r; [apply Rmult_le_pos; lra|lra]).
  assert (C6 : Rabs (rd (x - K) - (X - K)) <= 1147 / 100 * y * g).
  { eapply Rle_trans; [apply (rd_close _ _ _ g w g (proj1 Hw) C5 ltac:(apply abs_le; unfold g; lra) Etag)|]. lra. }
  set (e := rd (x - K)) in *. assert (Fe : fex A call S K q1 q2 = zof call * e). { unfold fex. fold Y. fold x. fold e. destruct call; cbn [zof]; [rewrite Rmult_1_l; apply (a_idem A u eta HA)|]. replace (-1 * e) with (- e) by ring. rewrite (a_opp A u eta HA). unfold e. now rewrite (a_idem A u eta HA). }
  set (E := zof call * (X - K)). assert (C7 : Rabs (zof call * e - E) <= 1147 / 100 * y * g). { unfold E. replace (zof call * e - zof call * (X - K)) with (zof call * (e - (X - K))) by ring. rewrite Rabs_mult. replace (Rabs (zof call)) with 1 by (destruct call; cbn [zof]; unfold Rabs; destruct (Rcase_abs _); lra). lra. }
  rewrite Fe. set (f := zof call * e) in *. split; [lra|].
  assert (BE : Rabs E <= g) by (unfold E, g; destruct call; cbn [zof]; apply abs_le; lra).
  unfold fclip. rewrite (a_2 A u eta HA).
  assert (C8 : Rabs (Rabs f + f - 2 * Rmax E 0) <= 2294 / 100 * y * g).
  { replace (2 * Rmax E 0) with (Rabs E + E) by (unfold Rmax; destruct (Rle_dec E 0); unfold Rabs; destruct (Rcase_abs E); lra). replace (Rabs f + f - (Rabs E + E)) with ((Rabs f - Rabs E) + (f - E)) by ring. eapply Rle_trans; [apply Rabs_triang|]. pose proof (Rabs_triang_inv2 f E). lra. }
  assert (BM : 0 <= Rmax E 0 <= g) by (split; [apply Rmax_r|apply Rmax_lub; [|lra]; apply le_abs in BE; lra]).
  assert (C9 : Rabs (rd (Rabs f + f) - 2 * Rmax E 0) <= 26 * y * g).
  { eapply Rle_trans; [apply (rd_close _ _ _ (2 * g) w g (proj1 Hw) C8 ltac:(rewrite Rabs_pos_eq; lra) Etag)|]. lra. }
  assert (C10 : Rabs (rd (Rabs f + f) / 2 - Rmax E 0) <= 13 * y * g). { replace (rd (Rabs f + f) / 2 - Rmax E 0) with (/ 2 * (rd (Rabs f + f) - 2 * Rmax E 0)) by field. rewrite Rabs_mult, (Rabs_pos_eq (/ 2)) by lra. lra. }
  eapply Rle_trans; [apply (rd_close _ _ _ g w g (proj1 Hw) C10 ltac:(rewrite Rabs_pos_eq; lra) Etag)|]. lra.
Qed.
End St.
