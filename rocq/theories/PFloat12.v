(** Stability of trinomial trees in floating-point arithmetic (C72): one step and the whole tree. *)
From Coq Require Import Reals QArith Qreals ZArith String List Arith Lra Lia Psatz.
From Verif Require Import Num Py Arr MTrees STrees MFloat SFloat PTrees PTrees2 PTrees3 PTrees4 PSpread3 PFloat PFloat2 PFloat6 PFloat7 PFloat8.
Import ListNotations.
Open Scope R_scope.

(** ** Two backward recursions with close terminal values and close steps *)
Section Rec.
Variables (n : nat) (t1 t2 : nat -> R) (f1 f2 : nat -> nat -> R -> R -> R -> R) (g : nat -> nat -> R) (L a e0 : R).
Hypothesis HL : 1 <= L.
Hypothesis Ha : 0 <= a.
Hypothesis He0 : 0 <= e0.
Hypothesis Hg : forall j i, 0 <= g j i.
Hypothesis T1 : forall i, (i <= 2 * n)%nat -> Rabs (t1 i - t2 i) <= e0 * g n i /\ Rabs (t2 i) <= g n i.
Hypothesis F1 : forall j i v2 v1 v0 w2 w1 w0 E G, (i <= 2 * j)%nat -> (j < n)%nat -> 0 <= E -> 1 <= G ->
  Rabs (v2 - w2) <= E * g (j + 1)%nat (i + 2)%nat -> Rabs w2 <= G * g (j + 1)%nat (i + 2)%nat -> Rabs (v1 - w1) <= E * g (j + 1)%nat (i + 1)%nat -> Rabs w1 <= G * g (j + 1)%nat (i + 1)%nat ->
  Rabs (v0 - w0) <= E * g (j + 1)%nat i -> Rabs w0 <= G * g (j + 1)%nat i ->
  Rabs (f1 j i v2 v1 v0 - f2 j i w2 w1 w0) <= Rmax e0 (L * (1 + a) * E + L * a * G) * g j i /\ Rabs (f2 j i w2 w1 w0) <= L * G * g j i.

Lemma tnode_close : forall m i, (m <= n)%nat -> (i <= 2 * (n - m))%nat ->
  Rabs (tnode n t1 f1 m i - tnode n t2 f2 m i) <= (L * (1 + a)) ^ m * (e0 + INR m * a) * g (n - m)%nat i /\ Rabs (tnode n t2 f2 m i) <= L ^ m * g (n - m)%nat i.
Proof.
  induction m as [|m IH]; intros i Hm Hi.
  - cbn [tnode]. rewrite Nat.sub_0_r in *. destruct (T1 i Hi) as [A B]. cbn [pow INR]. split; lra.
  - cbn [tnode]. destruct (IH (i + 2)%nat ltac:(lia) ltac:(lia)) as [A2 B2]. destruct (IH (i + 1)%nat ltac:(lia) ltac:(lia)) as [A1 B1]. destruct (IH i ltac:(lia) ltac:(lia)) as [A0 B0].
    set (Em := (L * (1 + a)) ^ m * (e0 + INR m * a)) in *. assert (P1 : 1 <= L ^ m) by now apply pow_R1_Rle. assert (PQ : L ^ m <= (L * (1 + a)) ^ m) by (apply pow_incr; nra).
    assert (Hm0 : 0 <= INR m) by apply pos_INR. assert (HE : 0 <= Em) by (unfold Em; apply Rmult_le_pos; [lra|nra]).
    replace (n - m)%nat with (n - Datatypes.S m + 1)%nat in * by lia.
    destruct (F1 (n - Datatypes.S m) i _ _ _ _ _ _ Em (L ^ m) ltac:(lia) ltac:(lia) HE P1 A2 B2 A1 B1 A0 B0) as [C D].
    split; [|cbn [pow]; exact D]. eapply Rle_trans; [exact C|]. apply Rmult_le_compat_r; [apply Hg|]. rewrite S_INR. cbn [pow].
    set (q := L * (1 + a)) in *. assert (Hq : L <= q) by (unfold q; nra). assert (Hqm : 1 <= q ^ m) by lra.
    assert (X : q * q ^ m * (e0 + (INR m + 1) * a) = q * Em + q * q ^ m * a) by (unfold Em; ring). rewrite X.
    assert (Y : L * a * L ^ m <= q * q ^ m * a). { replace (L * a * L ^ m) with (L * L ^ m * a) by ring. apply Rmult_le_compat_r; [exact Ha|]. apply Rmult_le_compat; lra. }
    apply Rmax_lub; [|lra]. assert (e0 <= Em). { unfold Em. apply Rle_trans with (1 * (e0 + 0)); [lra|]. apply Rmult_le_compat; try lra. assert (0 <= INR m * a) by now apply Rmult_le_pos. lra. }
    assert (1 * Em <= q * Em) by (apply Rmult_le_compat_r; lra). assert (0 <= q * q ^ m * a) by (repeat apply Rmult_le_pos; lra). lra.
Qed.
End Rec.

Section St.
Variables (A : fp) (u eta : R).
Hypothesis HA : accurate_fp A u eta.
Notation rd := (rnd A).
Let Hu : 0 <= u <= / 1000 := u_range A u eta HA.
Let He : 0 <= eta <= / 1000 := eta_range A u eta HA.

(** one backward step *)
Lemma step3_close w q2 q1 q0 p2 p1 p0 Df D g g2 g1 g0 H L v2 v1 v0 w2 w1 w0 E G :
  u <= w -> 0 <= w <= / 1000 -> 0 <= q2 -> 0 <= q1 -> 0 <= q0 -> q2 + q1 + q0 = 1 -> Rabs (p2 - q2) <= w -> Rabs (p1 - q1) <= 61 / 10 * w -> Rabs (p0 - q0) <= w -> 0 < Df -> Rabs (D - Df) <= w * Df ->
  0 <= g -> 0 <= g2 <= 3 * g -> 0 <= g1 <= 3 * g -> 0 <= g0 <= 3 * g -> eta <= w * g -> q2 * g2 + q1 * g1 + q0 * g0 <= H -> g <= H -> Df * H = L * g -> 1 <= L ->
  0 <= E -> 1 <= G -> Rabs (v2 - w2) <= E * g2 -> Rabs w2 <= G * g2 -> Rabs (v1 - w1) <= E * g1 -> Rabs w1 <= G * g1 -> Rabs (v0 - w0) <= E * g0 -> Rabs w0 <= G * g0 ->
  Rabs (fcont3 A p2 p1 p0 D v2 v1 v0 - (q2 * w2 + q1 * w1 + q0 * w0) * Df) <= (L * (1 + 37 * w) * E + L * (37 * w) * G) * g /\
  Rabs ((q2 * w2 + q1 * w1 + q0 * w0) * Df) <= L * G * g.
Proof.
  intros Huw Hw Hq2 Hq1 Hq0 Hsum Hp2 Hp1 Hp0 HDf HD Hg Hg2 Hg1 Hg0 Heta HP HgH HL HL1 HE HG V2 W2 V1 W1 V0 W0.
  assert (HH : 0 <= H) by lra. assert (EtaH : eta <= w * H) by (eapply Rle_trans; [exact Heta|]; apply Rmult_le_compat_l; lra).
  (* one weighted value *)
  assert (M : forall q q' c v z gg, 0 <= q <= 1 -> Rabs (q' - q) <= c * w -> 0 <= c <= 61 / 10 -> 0 <= gg <= 3 * g -> Rabs (v - z) <= E * gg -> Rabs z <= G * gg ->
    Rabs (rd (q' * v) - q * z) <= (1 + w) * (q * E * gg) + w * (q * G * gg) + 3005 / 1000 * c * w * (E + G) * g + w * g).
  { intros q q' c v z gg Hq Hq' Hc Hgg Hv Hz. assert (Bv : Rabs v <= (E + G) * gg). { replace v with (z + (v - z)) by ring. eapply Rle_trans; [apply Rabs_triang|]. lra. }
    assert (X : Rabs (q' * v - q * z) <= c * w * ((E + G) * gg) + q * (E * gg)).
    { replace (q' * v - q * z) with ((q' - q) * v + q * (v - z)) by ring. eapply Rle_trans; [apply Rabs_triang|]. apply Rplus_le_compat; rewrite Rabs_mult; [apply Rmult_le_compat; try apply Rabs_pos; assumption|]. rewrite (Rabs_pos_eq q) by lra. apply Rmult_le_compat_l; lra. }
    assert (Y : Rabs (q * z) <= q * (G * gg)) by (rewrite Rabs_mult, (Rabs_pos_eq q) by lra; apply Rmult_le_compat_l; lra).
    eapply Rle_trans; [apply (rd_close A u eta HA _ _ _ _ w g Huw X Y Heta)|].
    assert (Z : c * w * ((E + G) * gg) * (1 + w) <= c * w * (E + G) * g * (3005 / 1000)).
    { replace (c * w * ((E + G) * gg) * (1 + w)) with (c * w * (E + G) * (gg * (1 + w))) by ring. replace (c * w * (E + G) * g * (3005 / 1000)) with (c * w * (E + G) * (g * (3005 / 1000))) by ring. apply Rmult_le_compat_l; [repeat apply Rmult_le_pos; lra|].
      apply Rle_trans with (3 * g * (1 + / 1000)); [apply Rmult_le_compat; lra|lra]. }
    lra. }
  pose proof (M q2 p2 1 v2 w2 g2 ltac:(lra) ltac:(lra) ltac:(lra) Hg2 V2 W2) as M2. pose proof (M q1 p1 (61 / 10) v1 w1 g1 ltac:(lra) Hp1 ltac:(lra) Hg1 V1 W1) as M1. pose proof (M q0 p0 1 v0 w0 g0 ltac:(lra) ltac:(lra) ltac:(lra) Hg0 V0 W0) as M0. clear M.
  set (s := q2 * w2 + q1 * w1 + q0 * w0). set (y2 := q2 * g2) in *. set (y1 := q1 * g1) in *. set (y0 := q0 * g0) in *.
  assert (Y2 : 0 <= y2) by (apply Rmult_le_pos; lra). assert (Y1 : 0 <= y1) by (apply Rmult_le_pos; lra). assert (Y0 : 0 <= y0) by (apply Rmult_le_pos; lra).
  replace (q2 * E * g2) with (E * y2) in M2 by (unfold y2; ring). replace (q2 * G * g2) with (G * y2) in M2 by (unfold y2; ring). replace (q1 * E * g1) with (E * y1) in M1 by (unfold y1; ring). replace (q1 * G * g1) with (G * y1) in M1 by (unfold y1; ring). replace (q0 * E * g0) with (E * y0) in M0 by (unfold y0; ring). replace (q0 * G * g0) with (G * y0) in M0 by (unfold y0; ring).
  assert (B2 : Rabs (q2 * w2) <= G * y2). { rewrite Rabs_mult, (Rabs_pos_eq q2) by lra. unfold y2. replace (G * (q2 * g2)) with (q2 * (G * g2)) by ring. apply Rmult_le_compat_l; lra. }
  assert (B1 : Rabs (q1 * w1) <= G * y1). { rewrite Rabs_mult, (Rabs_pos_eq q1) by lra. unfold y1. replace (G * (q1 * g1)) with (q1 * (G * g1)) by ring. apply Rmult_le_compat_l; lra. }
  assert (B0 : Rabs (q0 * w0) <= G * y0). { rewrite Rabs_mult, (Rabs_pos_eq q0) by lra. unfold y0. replace (G * (q0 * g0)) with (q0 * (G * g0)) by ring. apply Rmult_le_compat_l; lra. }
  assert (wEH : 0 <= w * (E * H)) by (repeat apply Rmult_le_pos; lra). assert (wGH : 0 <= w * (G * H)) by (repeat apply Rmult_le_pos; lra). assert (EH : 0 <= E * H) by (apply Rmult_le_pos; lra). assert (GH : 0 <= G * H) by (apply Rmult_le_pos; lra).
  assert (wgH : w * ((E + G) * g) <= w * (E * H) + w * (G * H)). { replace (w * (E * H) + w * (G * H)) with (w * ((E + G) * H)) by ring. apply Rmult_le_compat_l; [lra|]. apply Rmult_le_compat_l; lra. }
  assert (ME : forall z, 0 <= z <= H -> 0 <= E * z <= E * H /\ 0 <= G * z <= G * H /\ 0 <= w * (E * z) <= w * (E * H) /\ 0 <= w * (G * z) <= w * (G * H)).
  { intros z Hz. assert (0 <= E * z <= E * H) by (split; [apply Rmult_le_pos; lra|apply Rmult_le_compat_l; lra]). assert (0 <= G * z <= G * H) by (split; [apply Rmult_le_pos; lra|apply Rmult_le_compat_l; lra]). repeat split; try lra; try (apply Rmult_le_pos; lra); apply Rmult_le_compat_l; lra. }
  assert (H1G : H <= G * H) by (rewrite <- (Rmult_1_l H) at 1; apply Rmult_le_compat_r; lra). assert (wg : w * g <= w * (G * H)) by (apply Rmult_le_compat_l; lra). assert (wH : w * H <= w * (G * H)) by (apply Rmult_le_compat_l; lra).
  assert (ww : forall x, 0 <= x -> w * x <= / 1000 * x) by (intros x Hx; apply Rmult_le_compat_r; lra). pose proof (ww _ wEH) as w2E. pose proof (ww _ wGH) as w2G.
  set (x2 := rd (p2 * v2)) in *. set (x1 := rd (p1 * v1)) in *. set (x0 := rd (p0 * v0)) in *.
  destruct (ME (y2 + y1) ltac:(lra)) as (K1 & K2 & K3 & K4). destruct (ME y0 ltac:(lra)) as (J1 & J2 & J3 & J4). destruct (ME (y2 + y1 + y0) ltac:(lra)) as (I1 & I2 & I3 & I4).
  assert (Eg : forall c, 3005 / 1000 * c * w * (E + G) * g = 3005 / 1000 * c * (w * ((E + G) * g))) by (intro; ring). rewrite !Eg in *.
  assert (S1 : Rabs (x2 + x1 - (q2 * w2 + q1 * w1)) <= E * (y2 + y1) + 224 / 10 * (w * (E * H)) + 244 / 10 * (w * (G * H))).
  { replace (x2 + x1 - (q2 * w2 + q1 * w1)) with ((x2 - q2 * w2) + (x1 - q1 * w1)) by ring. eapply Rle_trans; [apply Rabs_triang|]. lra. }
  assert (Bs1 : Rabs (q2 * w2 + q1 * w1) <= G * H) by (eapply Rle_trans; [apply Rabs_triang|]; lra).
  assert (S1' : Rabs (rd (x2 + x1) - (q2 * w2 + q1 * w1)) <= E * (y2 + y1) + 235 / 10 * (w * (E * H)) + 265 / 10 * (w * (G * H))).
  { eapply Rle_trans; [apply (rd_close A u eta HA _ _ _ _ w H Huw S1 Bs1 EtaH)|]. lra. }
  set (x21 := rd (x2 + x1)) in *.
  assert (S1'' : Rabs (x21 + x0 - s) <= E * H + 276 / 10 * (w * (E * H)) + 316 / 10 * (w * (G * H))).
  { unfold s. replace (x21 + x0 - (q2 * w2 + q1 * w1 + q0 * w0)) with ((x21 - (q2 * w2 + q1 * w1)) + (x0 - q0 * w0)) by ring. eapply Rle_trans; [apply Rabs_triang|]. lra. }
  assert (Bs : Rabs s <= G * H). { unfold s. eapply Rle_trans; [apply Rabs_triang|]. assert (Rabs (q2 * w2 + q1 * w1) <= G * y2 + G * y1) by (eapply Rle_trans; [apply Rabs_triang|]; lra). lra. }
  assert (S2 : Rabs (rd (x21 + x0) - s) <= E * H + 287 / 10 * (w * (E * H)) + 337 / 10 * (w * (G * H))).
  { eapply Rle_trans; [apply (rd_close A u eta HA _ _ _ _ w H Huw S1'' Bs EtaH)|]. lra. }
  set (y := rd (x21 + x0)) in *. set (e2 := E * H + _ + _) in S2. assert (He2 : 0 <= e2) by (eapply Rle_trans; [apply Rabs_pos|exact S2]).
  assert (BD : Rabs D <= (1 + w) * Df). { replace D with (Df + (D - Df)) by ring. eapply Rle_trans; [apply Rabs_triang|]. rewrite (Rabs_pos_eq Df) by lra. lra. }
  assert (S3 : Rabs (y * D - s * Df) <= (e2 * (1 + w) + w * (G * H)) * Df).
  { replace (y * D - s * Df) with ((y - s) * D + s * (D - Df)) by ring. eapply Rle_trans; [apply Rabs_triang|]. rewrite !Rabs_mult.
    assert (Rabs (y - s) * Rabs D <= e2 * ((1 + w) * Df)) by (apply Rmult_le_compat; try apply Rabs_pos; assumption). assert (Rabs s * Rabs (D - Df) <= G * H * (w * Df)) by (apply Rmult_le_compat; try apply Rabs_pos; lra). lra. }
  assert (Bs2 : Rabs (s * Df) <= G * H * Df). { rewrite Rabs_mult, (Rabs_pos_eq Df) by lra. apply Rmult_le_compat_r; lra. }
  assert (EL : G * H * Df = L * G * g) by (replace (G * H * Df) with (G * (Df * H)) by ring; rewrite HL; ring). assert (EE : E * H * Df = L * E * g) by (replace (E * H * Df) with (E * (Df * H)) by ring; rewrite HL; ring).
  split; [|fold s; lra].
  assert (HDH : g <= Df * H) by (rewrite HL, <- (Rmult_1_l g) at 1; apply Rmult_le_compat_r; lra). assert (EtaD : eta <= w * (Df * H)) by (eapply Rle_trans; [exact Heta|]; apply Rmult_le_compat_l; lra).
  unfold fcont3. fold x2 x1 x0. fold x21. fold y. fold s. eapply Rle_trans; [apply (rd_close A u eta HA _ _ _ _ w (Df * H) Huw S3 Bs2 EtaD)|].
  apply Rle_trans with ((E * H + 37 * (w * (E * H)) + 37 * (w * (G * H))) * Df); [|right; replace ((E * H + 37 * (w * (E * H)) + 37 * (w * (G * H))) * Df) with (E * H * Df * (1 + 37 * w) + G * H * Df * (37 * w)) by ring; rewrite EE, EL; ring].
  assert (X : (e2 * (1 + w) + w * (G * H)) * (1 + w) + w * (G * H) + w * H <= E * H + 37 * (w * (E * H)) + 37 * (w * (G * H))).
  { unfold e2. assert (Q1 : (E * H + 287 / 10 * (w * (E * H)) + 337 / 10 * (w * (G * H))) * (1 + w) + w * (G * H) <= E * H + 298 / 10 * (w * (E * H)) + 3475 / 100 * (w * (G * H))) by lra.
    set (e3 := _ * (1 + w) + w * (G * H)) in *. assert (Q2 : e3 * (1 + w) <= (E * H + 298 / 10 * (w * (E * H)) + 3475 / 100 * (w * (G * H))) * (1 + w)) by (apply Rmult_le_compat_r; lra). lra. }
  apply (Rmult_le_compat_r Df) in X; [|lra]. lra.
Qed.
End St.

Section Tr.
Variables (A : fp) (u eta : R).
Hypothesis HA : accurate_fp A u eta.
Notation rd := (rnd A).
Variables (S K U D q2 q1 q0 Df L w fu fd f2 f0 fD : R) (n : nat) (call am : bool).
Hypothesis HS : 0 < S.
Hypothesis HK : 0 < K.
Hypothesis Hn : n <> 0%nat.
Hypothesis HU : 0 < U <= 3.
Hypothesis HD : 0 < D <= 3.
Hypothesis HUD : U * D = 1.
Hypothesis Hq2 : 0 <= q2.
Hypothesis Hq1 : 0 <= q1.
Hypothesis Hq0 : 0 <= q0.
Hypothesis Hq : q2 + q1 + q0 = 1.
Hypothesis HDf : 0 < Df.
Hypothesis HL : 1 <= L.
Hypothesis HL1 : Df <= L.
Hypothesis HL2 : Df * (q2 * U + q1 + q0 * D) <= L.
Hypothesis Hw : u <= w.
Hypothesis Hnw : INR n * w <= / 1000.
Hypothesis E1 : forall i, (i <= n)%nat -> eta <= w * U ^ i /\ eta <= w * D ^ i /\ eta <= w * (S * U ^ i).
Hypothesis EK : eta <= w * K.
Hypothesis E2 : eta <= w.
Hypothesis Cu : Rabs (fu - U) <= w * U.
Hypothesis Cd : Rabs (fd - D) <= w * D.
Hypothesis C2 : Rabs (f2 - q2) <= w.
Hypothesis C0 : Rabs (f0 - q0) <= w.
Hypothesis CD : Rabs (fD - Df) <= w * Df.
Notation fx i j := (fex A call S K (f_powi A fu (posdiff i j)) (f_powi A fd (posdiff j i))).
Notation ex i j := (zof call * (tri_spot U D S i j - K)).

Lemma tri_close :
  Rabs (tnode n (fun i => Rmax 0 (fx i n)) (fun j i v2 v1 v0 => let c := fcont3 A f2 (rd (rd (rd 1 - f2) - f0)) f0 fD v2 v1 v0 in if am then Rmax (fx i j) c else c) n 0
      - tnode n (fun i => Rmax 0 (ex i n)) (fun j i w2 w1 w0 => let c := (q2 * w2 + q1 * w1 + q0 * w0) * Df in if am then Rmax (ex i j) c else c) n 0)
  <= 60 * (INR n * w) * L ^ n * (S + K).
Proof.
  pose proof (u_range A u eta HA) as Hu. assert (N1 : 1 <= INR n) by (apply (le_INR 1); lia). assert (Hw0 : 0 <= w) by lra. assert (Hwn : w <= INR n * w) by (rewrite <- (Rmult_1_l w) at 1; apply Rmult_le_compat_r; lra). set (y := INR n * w) in *. assert (Hw3 : w <= / 1000) by lra.
  pose (g := fun j i => tri_spot U D S i j + K).
  assert (PX : forall i j, 0 < tri_spot U D S i j) by (intros i j; unfold tri_spot; repeat apply Rmult_lt_0_compat; try apply pow_lt; lra).
  assert (ww : w * w <= / 1000 * w) by (apply Rmult_le_compat_r; lra).
  assert (C1 : Rabs (rd (rd (rd 1 - f2) - f0) - q1) <= 61 / 10 * w).
  { rewrite (a_1 A u eta HA).
    assert (X1 : Rabs (rd (1 - f2) - (1 - q2)) <= 3002 / 1000 * w) by (eapply Rle_trans; [apply (rd_close A u eta HA _ (1 - q2) w 1 w 1 Hw); [replace (1 - f2 - (1 - q2)) with (- (f2 - q2)) by ring; now rewrite Rabs_Ropp|rewrite Rabs_pos_eq; lra|lra]|]; lra).
    eapply Rle_trans; [apply (rd_close A u eta HA _ q1 (4002 / 1000 * w) 1 w 1 Hw); [|rewrite Rabs_pos_eq; lra|lra]|lra].
    replace (rd (1 - f2) - f0 - q1) with ((rd (1 - f2) - (1 - q2)) - (f0 - q0)) by lra. eapply Rle_trans; [apply Rabs_triang|]. rewrite Rabs_Ropp. lra. }
  assert (NC : forall j i, (i <= 2 * j)%nat -> (j <= n)%nat -> Rabs (fx i j - ex i j) <= 122 / 10 * y * g j i).
  { intros j i Hij Hj. unfold g, tri_spot. rewrite !posdiff_sub. destruct (E1 (i - j)%nat ltac:(lia)) as (A1 & _ & A3). destruct (E1 (j - i)%nat ltac:(lia)) as (_ & A2 & _).
    apply (node_close A u eta HA call S K (f_powi A fu (i - j)) (f_powi A fd (j - i)) (U ^ (i - j)) (D ^ (j - i)) y w); try assumption; try (apply pow_lt; lra); try lra.
    - apply (powi_close A u eta HA); try lia; try assumption; lra.
    - apply (powi_close A u eta HA); try lia; try assumption; lra. }
  assert (BX : forall j i, Rabs (ex i j) <= g j i) by (intros j i; pose proof (PX i j); unfold g; destruct call; cbn [zof]; apply abs_le; lra).
  assert (Hg : forall j i, 0 <= g j i) by (intros j i; pose proof (PX i j); unfold g; lra).
  assert (MX : forall a b e, Rabs (a - b) <= e -> Rabs (Rmax 0 a - Rmax 0 b) <= e).
  { intros a b e Hab. apply le_abs in Hab. pose proof (Rmax_l 0 a). pose proof (Rmax_r 0 a). pose proof (Rmax_l 0 b). pose proof (Rmax_r 0 b). assert (Rmax 0 a <= Rmax 0 b + e) by (apply Rmax_lub; lra). assert (Rmax 0 b <= Rmax 0 a + e) by (apply Rmax_lub; lra). apply abs_le. lra. }
  set (t1 := fun i => Rmax 0 (fx i n)). set (t2 := fun i => Rmax 0 (ex i n)). set (g1 := fun j i v2 v1 v0 => _). set (g2 := fun j i w2 w1 w0 => _).
  assert (X := tnode_close n t1 t2 g1 g2 g L (37 * w) (122 / 10 * y) HL ltac:(lra) ltac:(lra) Hg).
  destruct X with (m := n) (i := 0%nat) as [R1 _]; try lia.
  - intros i Hi. pose proof (NC n i Hi (le_n n)) as B. split; [now apply MX|]. unfold t2. specialize (BX n i). apply le_abs in BX. rewrite Rabs_pos_eq by apply Rmax_l. apply Rmax_lub; [apply Hg|lra].
  - intros j i v2 v1 v0 w2 w1 w0 E G Hij Hj HE HG V2 W2 V1 W1 V0 W0. pose proof (NC j i Hij ltac:(lia)) as NX. specialize (BX j i).
    assert (G2 : g (j + 1)%nat (i + 2)%nat = tri_spot U D S i j * U + K) by (unfold g; now rewrite tri_spot_up).
    assert (G1 : g (j + 1)%nat (i + 1)%nat = tri_spot U D S i j + K) by (unfold g; now rewrite tri_spot_mid).
    assert (G0 : g (j + 1)%nat i = tri_spot U D S i j * D + K) by (unfold g; now rewrite tri_spot_down).
    pose proof (PX i j) as Px. assert (Gj : g j i = tri_spot U D S i j + K) by reflexivity. set (x := tri_spot U D S i j) in *. set (gg := g j i) in *. set (ga := g (j + 1)%nat (i + 2)%nat) in *. set (gb := g (j + 1)%nat (i + 1)%nat) in *. set (gc := g (j + 1)%nat i) in *.
    assert (xU : 0 <= x * U <= x * 3) by (split; [apply Rmult_le_pos; lra|apply Rmult_le_compat_l; lra]). assert (xD : 0 <= x * D <= x * 3) by (split; [apply Rmult_le_pos; lra|apply Rmult_le_compat_l; lra]).
    assert (Mean : Df * (q2 * ga + q1 * gb + q0 * gc) <= L * gg).
    { rewrite G2, G1, G0, Gj. replace (Df * (q2 * (x * U + K) + q1 * (x + K) + q0 * (x * D + K))) with (Df * (q2 * U + q1 + q0 * D) * x + Df * K * (q2 + q1 + q0)) by ring. rewrite Hq, Rmult_1_r, (Rmult_plus_distr_l L x K). apply Rplus_le_compat; apply Rmult_le_compat_r; lra. }
    assert (Inv : forall a b, Df * a <= b -> a <= b / Df). { intros a b Hab. apply (Rmult_le_reg_l Df); [exact HDf|]. replace (Df * (b / Df)) with b by (field; lra). exact Hab. }
    destruct (step3_close A u eta HA w q2 q1 q0 f2 (rd (rd (rd 1 - f2) - f0)) f0 Df fD gg ga gb gc (L * gg / Df) L v2 v1 v0 w2 w1 w0 E G) as [S1 S2]; try assumption; try lra.
    + eapply Rle_trans; [exact EK|]. apply Rmult_le_compat_l; lra.
    + now apply Inv.
    + apply Inv, Rmult_le_compat_r; lra.
    + field. lra.
    + unfold g1, g2. cbv zeta. set (c1 := fcont3 A _ _ _ _ _ _ _) in *. set (c2 := (q2 * w2 + q1 * w1 + q0 * w0) * Df) in *. set (bound := L * (1 + 37 * w) * E + L * (37 * w) * G) in *.
      assert (Q : bound * gg <= Rmax (122 / 10 * y) bound * gg) by (apply Rmult_le_compat_r; [lra|apply Rmax_r]). assert (Q2 : 122 / 10 * y * gg <= Rmax (122 / 10 * y) bound * gg) by (apply Rmult_le_compat_r; [lra|apply Rmax_l]).
      destruct am; [|split; [lra|exact S2]]. split.
      * apply le_abs in NX, S1. set (B := Rmax (122 / 10 * y) bound * gg) in *. fold x. set (e1 := fx i j) in *. set (e2 := zof call * (x - K)) in *. pose proof (Rmax_l e1 c1). pose proof (Rmax_r e1 c1). pose proof (Rmax_l e2 c2). pose proof (Rmax_r e2 c2).
        assert (Rmax e2 c2 <= Rmax e1 c1 + B) by (apply Rmax_lub; lra). assert (Rmax e1 c1 <= Rmax e2 c2 + B) by (apply Rmax_lub; lra). apply abs_le. lra.
      * apply le_abs in BX, S2. assert (gg <= L * G * gg). { assert (1 * 1 <= L * G) by (apply Rmult_le_compat; lra). rewrite <- (Rmult_1_l gg) at 1. apply Rmult_le_compat_r; lra. }
        fold x. set (e2 := zof call * (x - K)) in *. pose proof (Rmax_l e2 c2). pose proof (Rmax_r e2 c2). assert (Rmax e2 c2 <= L * G * gg) by (apply Rmax_lub; lra). apply abs_le. lra.
  - rewrite Nat.sub_diag in R1. unfold g, tri_spot in R1. rewrite !posdiff_sub in R1. cbn [pow Nat.sub] in R1. rewrite !Rmult_1_r in R1. eapply Rle_trans; [exact R1|]. apply Rmult_le_compat_r; [lra|].
    rewrite Rpow_mult_distr. assert (P1 : (1 + 37 * w) ^ n <= 104 / 100).
    { apply Rle_trans with (exp (37 * y)). { replace (37 * y) with (INR n * (37 * w)) by (unfold y; ring). rewrite <- exp_pow. apply pow_incr. split; [lra|]. apply exp_ineq1_le. }
      eapply Rle_trans; [apply exp_small; lra|]. rewrite <- (Rinv_inv (104 / 100)). apply Rinv_le_contravar; [lra|]. lra. }
    assert (P2 : 1 <= L ^ n) by now apply pow_R1_Rle. replace (122 / 10 * y + INR n * (37 * w)) with (492 / 10 * y) by (unfold y; field). assert (P3 : 0 <= (1 + 37 * w) ^ n) by (apply pow_le; lra).
    replace (60 * y * L ^ n) with (L ^ n * (104 / 100) * (60 * 100 / 104 * y)) by field. apply Rmult_le_compat; try lra; [apply Rmult_le_pos; lra|apply Rmult_le_compat_l; lra].
Qed.
End Tr.
