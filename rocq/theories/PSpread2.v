(** The 3D tree over the reals: expectations, optimal stopping, documented payoffs, parity. *)
From Coq Require Import Reals ZArith QArith Qreals List Arith String Lra Lia.
From Verif Require Import Num Py Arr MTrees MSpread STrees SLattice SSpread PTrees PStop PGen PSpread PTrees3.
Import ListNotations.
Open Scope R_scope.

Section Link.
Variables (S1 S2 t r b1 b2 s1 s2 rho : R) (K K2 : option R) (Q1 Q2 : R) (code : Z) (otype : string) (n : nat).
Hypothesis Hn : n <> 0%nat.
Let o := mk3D S1 S2 t r b1 b2 s1 s2 rho K K2 Q1 Q2 code otype n.
Let dt := t / INR n.

Lemma s3_dt_eq : s3_dt o = dt.
Proof. unfold dt, ofnat, o, mk3D, ofnat. cbn [s3_dt]. toR. now rewrite INR_IZR. Qed.
Lemma s3_mu1_eq : s3_mu1 o = b1 - s1 ^ 2 / 2.
Proof. unfold o, mk3D. cbn [s3_mu1]. toR. lra. Qed.
Lemma s3_mu2_eq : s3_mu2 o = b2 - s2 ^ 2 / 2.
Proof. unfold o, mk3D. cbn [s3_mu2]. toR. lra. Qed.

Let u := factor1 b1 s1 dt (true, true).
Let d := factor1 b1 s1 dt (false, true).
Lemma s3_u_eq : s3_u o = u.
Proof. change (s3_u o) with (expn (s3_mu1 o * s3_dt o + s1 * sqrn (s3_dt o))%num). rewrite s3_mu1_eq, s3_dt_eq. toR. unfold u, factor1. cbn [fst sign]. f_equal. ring. Qed.
Lemma s3_d_eq : s3_d o = d.
Proof. change (s3_d o) with (expn (s3_mu1 o * s3_dt o - s1 * sqrn (s3_dt o))%num). rewrite s3_mu1_eq, s3_dt_eq. toR. unfold d, factor1. cbn [fst sign]. f_equal. ring. Qed.

Lemma node1_eq m j : s3_node1 o m j = S1 * u ^ j * d ^ (m - j).
Proof. unfold s3_node1. rewrite s3_u_eq, s3_d_eq. toR. reflexivity. Qed.
Lemma node2_eq m j i : s3_node2 o m j i =
  S2 * exp (INR m * ((b2 - s2 ^ 2 / 2) * dt)
            + s2 * (rho * ((2 * INR j - INR m) * sqrt dt) + sqrt (1 - rho ^ 2) * ((2 * INR i - INR m) * sqrt dt))).
Proof.
  unfold s3_node2. rewrite s3_mu2_eq, s3_dt_eq. change (s3_S2 o) with S2. change (s3_sigma2 o) with s2. change (s3_rho o) with rho. unfold ofnat. toR.
  rewrite INR_IZR, !minus_IZR, !mult_IZR, !INR_IZR. rewrite Rmult_assoc, <- exp_plus. f_equal. f_equal. ring.
Qed.

Lemma node_step m j i (a : bool * bool) : (j <= m)%nat ->
  step2 b1 b2 s1 s2 rho dt a (s3_node1 o m j, s3_node2 o m j i)
  = (s3_node1 o (m + 1) (if fst a then j + 1 else j),
     s3_node2 o (m + 1) (if fst a then j + 1 else j) (if snd a then i + 1 else i)).
Proof.
  intro Hj. unfold step2. rewrite !node1_eq, !node2_eq. cbn [fst snd]. f_equal.
  - destruct a as [[] x]; cbn [fst].
    + replace (m + 1 - (j + 1))%nat with (m - j)%nat by lia. rewrite pow_add.
      change (factor1 b1 s1 dt (true, x)) with u. ring.
    + replace (m + 1 - j)%nat with (Datatypes.S (m - j)) by lia. simpl pow.
      change (factor1 b1 s1 dt (false, x)) with d. ring.
  - unfold factor2. rewrite Rmult_assoc, <- exp_plus. do 2 f_equal.
    rewrite plus_INR. destruct a as [[] []]; cbn [fst snd sign]; rewrite ?plus_INR; simpl (INR 1); ring.
Qed.

Section Payoff.
Variables (z : Z) (G : R -> R -> R).
Hypothesis HG : forall x1 x2, s3_payoff code z x1 x2 Q1 Q2 K K2 = Ok (G x1 x2).
Let amer := String.eqb otype "american".
Let g := fun x : R * R => G (fst x) (snd x).
Let Df := exp (- r * dt).

Lemma V3_GV rem j i : (rem <= n)%nat -> (j <= n - rem)%nat ->
  V3 o n otype (fun m j i => G (s3_node1 o m j) (s3_node2 o m j i)) rem j i =
  GV quarter (step2 b1 b2 s1 s2 rho dt) two_moves Df amer g rem (s3_node1 o (n - rem) j, s3_node2 o (n - rem) j i).
Proof.
  revert j i. induction rem; intros j i Hr Hj.
  - cbn [V3 GV]. rewrite Nat.sub_0_r. reflexivity.
  - cbn [V3 GV]. cbv zeta. rewrite !IHrem by lia.
    assert (ED : expn (opp (s3_r o) * s3_dt o)%num = Df) by (rewrite s3_dt_eq; reflexivity).
    unfold two_moves. cbn [map sumR fold_right]. rewrite !node_step by lia. cbn [fst snd].
    replace (n - Datatypes.S rem + 1)%nat with (n - rem)%nat by lia.
    set (c1 := GV _ _ _ _ _ _ rem (s3_node1 o (n - rem) j, s3_node2 o (n - rem) j i)).
    set (c2 := GV _ _ _ _ _ _ rem (s3_node1 o (n - rem) (j + 1), s3_node2 o (n - rem) (j + 1) i)).
    set (c3 := GV _ _ _ _ _ _ rem (s3_node1 o (n - rem) j, s3_node2 o (n - rem) j (i + 1))).
    set (c4 := GV _ _ _ _ _ _ rem (s3_node1 o (n - rem) (j + 1), s3_node2 o (n - rem) (j + 1) (i + 1))).
    rewrite ED.
    assert (EC : (lit (25 # 100) * (c1 + c2 + c3 + c4) * Df)%num
       = Df * (quarter (false, false) * c1 + (quarter (true, false) * c2 + (quarter (false, true) * c3 + (quarter (true, true) * c4 + 0))))).
    { unfold quarter. toR. lra. }
    rewrite EC. fold amer. destruct amer; reflexivity.
Qed.

Lemma node_payoff_ok m j i : s3_node_payoff o z m j i = Ok (G (s3_node1 o m j) (s3_node2 o m j i)).
Proof. unfold s3_node_payoff. apply HG. Qed.

Lemma node00 : (s3_node1 o 0 0, s3_node2 o 0 0 0) = (S1, S2).
Proof.
  rewrite node1_eq, node2_eq. simpl. f_equal; [ring|].
  match goal with |- S2 * exp ?e = _ => replace e with 0 by ring end. rewrite exp_0. ring.
Qed.

Lemma s3_price_GV : s3_calc_price o z n otype false =
  Ok (Price (GV quarter (step2 b1 b2 s1 s2 rho dt) two_moves Df amer g n (S1, S2))).
Proof.
  destruct (s3_matrix_ok o z n otype _ node_payoff_ok) as (M & _ & E & _). rewrite E. do 2 f_equal.
  unfold Val. rewrite Nat.sub_0_r. rewrite V3_GV by lia. rewrite Nat.sub_diag, node00. reflexivity.
Qed.

Lemma s3_entry_GV : exists M, s3_calc_price o z n otype true = Ok (Matrix M) /\
  is_matrix M (n + 2) (n + 2) /\
  (forall j i, (j <= n)%nat -> (i <= n)%nat -> let c := Nat.max j i in
     mget M j i = Ok (GV quarter (step2 b1 b2 s1 s2 rho dt) two_moves Df amer g (n - c) (s3_node1 o c j, s3_node2 o c j i))) /\
  (forall j i, (j <= n + 1)%nat -> (i <= n + 1)%nat -> j = (n + 1)%nat \/ i = (n + 1)%nat -> mget M j i = Ok 0).
Proof.
  destruct (s3_matrix_ok o z n otype _ node_payoff_ok) as (M & E & _ & A & B & C).
  exists M. split; [auto|]. split; auto. split; auto. intros j i Hj Hi. cbv zeta. rewrite B by auto. f_equal.
  unfold Val. rewrite V3_GV by lia. now replace (n - (n - Nat.max j i))%nat with (Nat.max j i) by lia.
Qed.
End Payoff.
End Link.
