(** Binomial and trinomial recursions over the reals, as functions of the current asset price. *)
From Coq Require Import Reals List Arith ZArith QArith String Bool Lia Lra Psatz.
From Verif Require Import Num Py Arr MTrees STrees PTrees.
Import ListNotations.
Open Scope R_scope.

Lemma Rmax_spec a b : (a < b /\ Rmax a b = b) \/ (b <= a /\ Rmax a b = a).
Proof.
  destruct (Rlt_le_dec a b).
  - left; split; auto. apply Rmax_right; lra.
  - right; split; auto. apply Rmax_left; lra.
Qed.

Ltac Rmax_cases :=
  repeat match goal with
  | |- context[Rmax ?a ?b] => destruct (Rmax_spec a b) as [[? ->]|[? ->]]
  | H : context[Rmax ?a ?b] |- _ => destruct (Rmax_spec a b) as [[? HH]|[? HH]]; rewrite HH in H; clear HH
  end.

(** [W m x]: value at asset price x with m steps left. *)
Section W.
Variables (z : R) (amer : bool) (u d p Df : R).
Fixpoint W (K : R) (m : nat) (x : R) : R :=
  match m with
  | O => Rmax (z * (x - K)) 0
  | S m' =>
      let cont := Df * (p * W K m' (x * u) + (1 - p) * W K m' (x * d)) in
      if amer then Rmax (z * (x - K)) cont else cont
  end.

Lemma clip_Rmax (x : R) : clip x = Rmax x 0.
Proof. unfold clip. toR. Rmax_cases; unfold Rabs; destruct (Rcase_abs x); lra. Qed.

Lemma pymax_Rmax (a b : R) : pymax a b = Rmax a b.
Proof.
  unfold pymax. cbn [ltb RNum]. unfold Rltb. destruct (Rlt_dec a b); Rmax_cases; lra.
Qed.

Lemma bnode_W n S0 K m i :
  (m <= n)%nat -> (i <= n - m)%nat ->
  bnode n (fun i => clip (z * (S0 * u ^ i * d ^ (n - i) - K)))
    (fun j i vu vd => let cont := (p * vu + (1 - p) * vd) * Df in
       if amer then pymax (z * (S0 * u ^ i * d ^ (j - i) - K)) cont else cont) m i
  = W K m (S0 * u ^ i * d ^ (n - m - i)).
Proof.
  intros Hm Hi. match goal with |- bnode n ?t ?g m i = _ => set (te := t); set (f := g) end.
  revert Hm Hi.
  revert i. induction m; intros i Hm Hi; cbn [bnode W].
  - unfold te. rewrite clip_Rmax. now rewrite Nat.sub_0_r.
  - rewrite (IHm (i + 1)%nat), (IHm i) by lia. unfold f. cbv zeta.
    replace (S0 * u ^ (i + 1) * d ^ (n - m - (i + 1))) with (S0 * u ^ i * d ^ (n - S m - i) * u).
    2:{ replace (n - m - (i + 1))%nat with (n - S m - i)%nat by lia. rewrite pow_add. ring. }
    replace (S0 * u ^ i * d ^ (n - m - i)) with (S0 * u ^ i * d ^ (n - S m - i) * d).
    2:{ replace (n - m - i)%nat with (S (n - S m - i)) by lia. simpl. ring. }
    destruct amer; rewrite ?pymax_Rmax; [f_equal|]; ring.
Qed.
End W.

(* ------------------------------------------------------------------ link with the model *)
Lemma bi_value_W k (o : TreeOption R) z amer m i :
  (m <= to_n o)%nat -> (i <= to_n o - m)%nat ->
  bi_value k o z amer m i =
  W (IZR z) amer (bi_u k o) (bi_d k o) (bi_p k o) (bi_Df o) (to_K o) m
    (to_S o * bi_u k o ^ i * bi_d k o ^ (to_n o - m - i)).
Proof.
  intros. rewrite <- bnode_W by auto. unfold bi_value, bi_ex. toR. reflexivity.
Qed.

Lemma bi_price_W k (o : TreeOption R) z amer :
  to_n o <> 0%nat -> to_type o = the_type amer ->
  bi_calc_price k o z false =
  Ok (Price (W (IZR z) amer (bi_u k o) (bi_d k o) (bi_p k o) (bi_Df o) (to_K o) (to_n o) (to_S o))).
Proof.
  intros Hn Ht. rewrite (bi_price_value k o z amer Hn Ht). rewrite bi_value_W by lia.
  rewrite !Nat.sub_diag. cbn [Nat.sub pow]. now rewrite !Rmult_1_r.
Qed.

(* ------------------------------------------------------------------ European closed form *)
Fixpoint binom (n k : nat) : R :=
  match n, k with
  | _, O => 1
  | O, S _ => 0
  | S n', S k' => binom n' k' + binom n' (S k')
  end.

Lemma binom_gt n : forall k, (n < k)%nat -> binom n k = 0.
Proof.
  induction n; intros [|k] H; simpl; try lia; auto. rewrite !IHn by lia. ring.
Qed.
Lemma binom_0 n : binom n 0 = 1.
Proof. destruct n; reflexivity. Qed.
Lemma binom_nn n : binom n n = 1.
Proof. induction n; simpl; auto. rewrite IHn, binom_gt by lia. ring. Qed.

Lemma C_0 n : C n 0 = 1.
Proof. unfold C. rewrite Nat.sub_0_r. simpl. field. apply INR_fact_neq_0. Qed.
Lemma C_n n : C n n = 1.
Proof. unfold C. rewrite Nat.sub_diag. simpl. field. apply INR_fact_neq_0. Qed.

Lemma binom_C n : forall k, (k <= n)%nat -> binom n k = C n k.
Proof.
  induction n; intros [|k] H; try lia.
  - now rewrite C_0.
  - now rewrite C_0.
  - simpl. destruct (Nat.eq_dec k n) as [->|].
    + rewrite binom_nn, binom_gt by lia. rewrite C_n. ring.
    + rewrite !IHn by lia. apply pascal. lia.
Qed.


Lemma sum_shift f m : sum_f_R0 f (S m) = f 0%nat + sum_f_R0 (fun k => f (S k)) m.
Proof. rewrite decomp_sum by lia. reflexivity. Qed.

Lemma sum_ext f g m : (forall k, (k <= m)%nat -> f k = g k) -> sum_f_R0 f m = sum_f_R0 g m.
Proof. apply sum_eq. Qed.

Lemma binom_sum (F : nat -> R) m :
  sum_f_R0 (fun k => binom (S m) k * F k) (S m)
  = sum_f_R0 (fun k => binom m k * F (S k)) m + sum_f_R0 (fun k => binom m k * F k) m.
Proof.
  assert (E : sum_f_R0 (fun k => binom m k * F k) m
              = F 0%nat + sum_f_R0 (fun k => binom m (S k) * F (S k)) m).
  { transitivity (sum_f_R0 (fun k => binom m k * F k) (S m)).
    - rewrite tech5. rewrite binom_gt by lia. ring.
    - rewrite sum_shift, binom_0. ring. }
  rewrite E, sum_shift. simpl binom at 1.
  assert (sum_f_R0 (fun k => binom (S m) (S k) * F (S k)) m =
          sum_f_R0 (fun k => binom m k * F (S k)) m + sum_f_R0 (fun k => binom m (S k) * F (S k)) m).
  { rewrite <- plus_sum. apply sum_ext. intros. simpl. ring. }
  rewrite H. ring.
Qed.

Section Euro.
Variables (u d p : R).

(** the binomial expectation of a terminal function [g] after [m] steps from price [x] *)
Definition bsum (g : R -> R) (m : nat) (x : R) : R :=
  sum_f_R0 (fun k => binom m k * (p ^ k * (1 - p) ^ (m - k) * g (x * u ^ k * d ^ (m - k)))) m.

Lemma bsum_0 g x : bsum g 0 x = g x.
Proof. unfold bsum. simpl. rewrite !Rmult_1_r, !Rmult_1_l. reflexivity. Qed.

Lemma bsum_S g m x :
  bsum g (S m) x = p * bsum g m (x * u) + (1 - p) * bsum g m (x * d).
Proof.
  unfold bsum. rewrite binom_sum. rewrite !scal_sum. f_equal; apply sum_ext; intros k Hk.
  - replace (S m - S k)%nat with (m - k)%nat by lia.
    replace (x * u * u ^ k) with (x * u ^ S k) by (simpl; ring). simpl pow. ring.
  - replace (S m - k)%nat with (S (m - k)) by lia.
    replace (x * d * u ^ k * d ^ (m - k)) with (x * u ^ k * d ^ S (m - k)) by (simpl; ring).
    simpl pow. ring.
Qed.

Lemma bsum_lin f g a b m x : bsum (fun y => a * f y + b * g y) m x = a * bsum f m x + b * bsum g m x.
Proof.
  revert x. induction m; intros; rewrite ?bsum_0, ?bsum_S; auto. rewrite !IHm. ring.
Qed.

Lemma bsum_const c m x : bsum (fun _ => c) m x = c.
Proof. revert x; induction m; intros; rewrite ?bsum_0, ?bsum_S; auto. rewrite !IHm. ring. Qed.

Lemma bsum_id m x : bsum (fun y => y) m x = x * (p * u + (1 - p) * d) ^ m.
Proof.
  revert x; induction m; intros; rewrite ?bsum_0, ?bsum_S; [simpl; ring|].
  rewrite !IHm. simpl. ring.
Qed.


Lemma bsum_ext f g m x : (forall y, f y = g y) -> bsum f m x = bsum g m x.
Proof. intro H. unfold bsum. apply sum_ext. intros. now rewrite H. Qed.

Lemma euro_bsum z Df K m x :
  W z false u d p Df K m x = Df ^ m * bsum (fun y => Rmax (z * (y - K)) 0) m x.
Proof.
  revert x; induction m; intros; cbn [W].
  - rewrite bsum_0. simpl. ring.
  - cbv zeta. rewrite !IHm, bsum_S. simpl. ring.
Qed.

Lemma euro_parity Df K m x :
  W 1 false u d p Df K m x - W (-1) false u d p Df K m x
  = Df ^ m * (x * (p * u + (1 - p) * d) ^ m - K).
Proof.
  rewrite !euro_bsum. rewrite <- bsum_id.
  replace (bsum (fun y => y) m x - K) with (bsum (fun y => y - K) m x).
  2:{ rewrite (bsum_ext (fun y => y - K) (fun y => 1 * y + (-1) * K)) by (intros; ring).
      rewrite (bsum_lin (fun y => y) (fun _ => K)), bsum_const. ring. }
  rewrite (bsum_ext (fun y => y - K)
            (fun y => 1 * Rmax (1 * (y - K)) 0 + (-1) * Rmax (-1 * (y - K)) 0)).
  - rewrite (bsum_lin (fun y => Rmax (1 * (y - K)) 0) (fun y => Rmax (-1 * (y - K)) 0)). ring.
  - intro y. Rmax_cases; lra.
Qed.
End Euro.

(* ------------------------------------------------------------------ order properties *)
Section Order.
Variables (z : R) (u d p Df : R).
Hypothesis (Hp : 0 <= p <= 1) (HD : 0 < Df).

Lemma comb_mono a b a' b' : a <= a' -> b <= b' -> Df * (p * a + (1 - p) * b) <= Df * (p * a' + (1 - p) * b').
Proof. intros. apply Rmult_le_compat_l; nra. Qed.






End Order.

(** strike: calls decrease with slope at least -1 (and -Df^m for European), puts increase *)
Section Strike.
Variables (u d p Df : R).
Hypothesis (Hp : 0 <= p <= 1) (HD : 0 < Df).













End Strike.

(* ------------------------------------------------------------------ duality *)

(* ------------------------------------------------------------------ trinomial *)
Section Tri.
Variables (z : R) (amer : bool) (u d pu pm pd Df : R).
Fixpoint WT (K : R) (m : nat) (x : R) : R :=
  match m with
  | O => Rmax (z * (x - K)) 0
  | S m' =>
      let cont := Df * (pu * WT K m' (x * u) + pm * WT K m' x + pd * WT K m' (x * d)) in
      if amer then Rmax (z * (x - K)) cont else cont
  end.

(** price of node i at time j *)
Definition tri_spot (S0 : R) (i j : nat) : R := S0 * u ^ posdiff i j * d ^ posdiff j i.

Lemma posdiff_sub a b : posdiff a b = (a - b)%nat.
Proof. unfold posdiff. lia. Qed.

Hypothesis Hud : u * d = 1.

Lemma tri_spot_up S0 i j : tri_spot S0 (i + 2) (j + 1) = tri_spot S0 i j * u.
Proof.
  unfold tri_spot. rewrite !posdiff_sub. destruct (le_lt_dec j i).
  - replace (j - i)%nat with 0%nat by lia. replace (j + 1 - (i + 2))%nat with 0%nat by lia.
    replace (i + 2 - (j + 1))%nat with (S (i - j)) by lia. simpl. ring.
  - replace (i - j)%nat with 0%nat by lia. replace (i + 2 - (j + 1))%nat with 0%nat by lia.
    replace (j - i)%nat with (S (j + 1 - (i + 2))) by lia. simpl.
    set (q := d ^ (j + 1 - (i + 2))). replace (S0 * 1 * (d * q) * u) with (S0 * 1 * q * (u * d)) by ring.
    rewrite Hud. ring.
Qed.
Lemma tri_spot_mid S0 i j : tri_spot S0 (i + 1) (j + 1) = tri_spot S0 i j.
Proof.
  unfold tri_spot. rewrite !posdiff_sub.
  replace (i + 1 - (j + 1))%nat with (i - j)%nat by lia.
  now replace (j + 1 - (i + 1))%nat with (j - i)%nat by lia.
Qed.
Lemma tri_spot_down S0 i j : tri_spot S0 i (j + 1) = tri_spot S0 i j * d.
Proof.
  unfold tri_spot. rewrite !posdiff_sub. destruct (le_lt_dec i j).
  - replace (i - j)%nat with 0%nat by lia. replace (i - (j + 1))%nat with 0%nat by lia.
    replace (j + 1 - i)%nat with (S (j - i)) by lia. simpl. ring.
  - replace (j - i)%nat with 0%nat by lia. replace (j + 1 - i)%nat with 0%nat by lia.
    replace (i - j)%nat with (S (i - (j + 1))) by lia. simpl.
    set (q := u ^ (i - (j + 1))). replace (S0 * (u * q) * 1 * d) with (S0 * q * 1 * (u * d)) by ring.
    rewrite Hud. ring.
Qed.

Lemma tnode_WT n S0 K m i :
  (m <= n)%nat ->
  tnode n (fun i => Rmax 0 (z * (tri_spot S0 i n - K)))
    (fun j i v2 v1 v0 => let cont := (pu * v2 + pm * v1 + pd * v0) * Df in
       if amer then Rmax (z * (tri_spot S0 i j - K)) cont else cont) m i
  = WT K m (tri_spot S0 i (n - m)).
Proof.
  intro Hm. match goal with |- tnode n ?t ?g m i = _ => set (te := t); set (f := g) end.
  revert Hm.
  revert i. induction m; intros i Hm; cbn [tnode WT].
  - rewrite Nat.sub_0_r. apply Rmax_comm.
  - rewrite !IHm by lia. unfold f. cbv zeta.
    replace (n - m)%nat with (n - S m + 1)%nat by lia.
    rewrite tri_spot_up, tri_spot_mid, tri_spot_down.
    destruct amer; [f_equal|]; ring.
Qed.
End Tri.

Lemma tri_value_WT (o : TreeOption R) z amer m i :
  (m <= to_n o)%nat -> tri_u o * tri_d o = 1 ->
  tri_value o z amer m i =
  WT (IZR z) amer (tri_u o) (tri_d o) (tri_pu o) (tri_pm o) (tri_pd o) (tri_Df o) (to_K o) m
    (tri_spot (tri_u o) (tri_d o) (to_S o) i (to_n o - m)).
Proof.
  intros. rewrite <- tnode_WT by auto. unfold tri_value, tri_exercise, tri_spot. toR. reflexivity.
Qed.

Lemma tri_ud (o : TreeOption R) : tri_u o * tri_d o = 1.
Proof.
  unfold tri_u, tri_d. toR. rewrite <- exp_plus.
  match goal with |- exp ?a = _ => replace a with 0 by ring end. apply exp_0.
Qed.

Lemma tri_price_WT (o : TreeOption R) z amer :
  to_n o <> 0%nat -> to_type o = the_type amer ->
  tri_calc_price o z false =
  Ok (Price (WT (IZR z) amer (tri_u o) (tri_d o) (tri_pu o) (tri_pm o) (tri_pd o) (tri_Df o) (to_K o) (to_n o) (to_S o))).
Proof.
  intros Hn Ht. rewrite (tri_price_value o z amer Hn Ht). rewrite tri_value_WT by (auto using tri_ud).
  rewrite Nat.sub_diag. unfold tri_spot, posdiff. simpl. now rewrite !Rmult_1_r.
Qed.

(** a trinomial step is two binomial steps *)
Lemma WT_W_euro z u d p Df K m x : u * d = 1 ->
  WT z false (u * u) (d * d) (p * p) (1 - p * p - (1 - p) * (1 - p)) ((1 - p) * (1 - p)) (Df * Df) K m x
  = W z false u d p Df K (2 * m) x.
Proof.
  intro Hud. revert x. induction m; intros; auto.
  replace (2 * S m)%nat with (S (S (2 * m))) by lia. cbn [WT W]. cbv zeta.
  rewrite !IHm. rewrite !Rmult_assoc. replace (d * u) with 1 by lra. rewrite Hud, Rmult_1_r. ring.
Qed.

Lemma WT_W_amer z u d p Df K m x : 0 <= p <= 1 -> 0 < Df -> u * d = 1 ->
  WT z true (u * u) (d * d) (p * p) (1 - p * p - (1 - p) * (1 - p)) ((1 - p) * (1 - p)) (Df * Df) K m x
  <= W z true u d p Df K (2 * m) x.
Proof.
  intros Hp HD Hud. revert x. induction m; intros; [apply Rle_refl|].
  replace (2 * S m)%nat with (S (S (2 * m))) by lia.
  cbn [WT]. change (W z true u d p Df K (S (S (2 * m))) x) with
    (Rmax (z * (x - K)) (Df * (p * W z true u d p Df K (S (2 * m)) (x * u)
                               + (1 - p) * W z true u d p Df K (S (2 * m)) (x * d)))).
  cbv zeta. apply Rle_max_compat_l.
  assert (A : forall y, Df * (p * W z true u d p Df K (2 * m) (y * u) + (1 - p) * W z true u d p Df K (2 * m) (y * d))
     <= W z true u d p Df K (S (2 * m)) y).
  { intro y. cbn [W]. apply Rmax_r. }
  eapply Rle_trans; [|apply (comb_mono p Df Hp HD); apply A].
  pose proof (IHm (x * (u * u))) as H1. pose proof (IHm x) as H2. pose proof (IHm (x * (d * d))) as H3.
  rewrite !Rmult_assoc. replace (d * u) with 1 by lra. rewrite Hud, Rmult_1_r.
  set (a := WT _ _ _ _ _ _ _ _ _ _ (x * (u * u))) in *. set (b := WT _ _ _ _ _ _ _ _ _ _ x) in *.
  set (c := WT _ _ _ _ _ _ _ _ _ _ (x * (d * d))) in *.
  set (a' := W _ _ _ _ _ _ _ _ (x * (u * u))) in *. set (b' := W _ _ _ _ _ _ _ _ x) in *.
  set (c' := W _ _ _ _ _ _ _ _ (x * (d * d))) in *.
  replace (Df * (p * (Df * (p * a' + (1 - p) * b')) + (1 - p) * (Df * (p * b' + (1 - p) * c'))))
    with (Df * (Df * (p * p * a' + 2 * (p * (1 - p)) * b' + (1 - p) * (1 - p) * c'))) by ring.
  apply Rmult_le_compat_l; [lra|]. apply Rmult_le_compat_l; [lra|].
  assert (0 <= p * p) by nra. assert (0 <= p * (1 - p)) by nra. assert (0 <= (1 - p) * (1 - p)) by nra.
  nra.
Qed.
