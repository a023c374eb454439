(** Entries of the returned tree matrices are prices of options on the remaining lattice. *)
From Coq Require Import Reals ZArith String List Arith Lra Lia.
From Verif Require Import Num Py Arr MTrees STrees PTrees PTrees2 PStop PTrees3 PLattice PTrees4.
Import ListNotations.
Open Scope R_scope.

Section Entry.
Variables (S K t r b sigma : R) (n : nat) (amer call : bool).
Hypothesis Hn : n <> 0%nat.
Hypothesis Ht : 0 < t.
Hypothesis Hs : sigma <> 0.
Let dt := t / INR n.
Let o := mkTree S K t r b sigma (the_type amer) n.
Let zz := if call then 1%Z else (-1)%Z.

Lemma sub_dt m : (m <= n)%nat -> m <> 0%nat -> t * INR m / INR n / INR m = dt.
Proof. intros. unfold dt. field. split; now apply not_0_INR. Qed.
Lemma sub_t m : (m <= n)%nat -> m <> 0%nat -> 0 < t * INR m / INR n.
Proof.
  intros H H0. pose proof (n_pos n Hn). pose proof (n_pos m H0).
  unfold Rdiv. apply Rmult_lt_0_compat; [nra|]. now apply Rinv_0_lt_compat.
Qed.
Lemma zz_R : IZR zz = zof call.
Proof. unfold zz. destruct call; reflexivity. Qed.

Lemma bi_node_WM k m i : (m <= n)%nat -> (i <= n - m)%nat ->
  bi_value k o zz amer m i =
  WM amer (moves (Bi k) b sigma dt) (exp (- r * dt)) (zof call) K m
    (S * step_u k b sigma dt ^ i * step_d k b sigma dt ^ (n - m - i)).
Proof.
  intros Hm Hi. rewrite bi_value_W by auto. rewrite zz_R. unfold o.
  rewrite link_u, link_d, link_p by auto. rewrite bi_Df_eq by auto. cbn [to_K to_n to_S]. fold dt.
  unfold WM, moves. destruct amer; [apply W_WG|apply W_WGe].
Qed.

Lemma tri_node_WM m i : (m <= n)%nat ->
  tri_value o zz amer m i =
  WM amer (moves Tri b sigma dt) (exp (- r * dt)) (zof call) K m
    (S * exp ((INR i - INR (n - m)) * (2 * (sigma * sqrt (dt / 2))))).
Proof.
  intros Hm. rewrite tri_value_WT by (auto using tri_ud). rewrite zz_R.
  assert (Eu : tri_u o = exp (2 * (sigma * sqrt (dt / 2)))).
  { unfold o. rewrite tri_u_sq, crr_u2 by auto. rewrite <- exp_plus. f_equal. unfold dt. ring. }
  assert (Ed : tri_d o = exp (- (2 * (sigma * sqrt (dt / 2))))).
  { unfold o. rewrite tri_d_sq, crr_d2 by auto. rewrite <- exp_plus. f_equal. unfold dt. ring. }
  assert (Epu : tri_pu o = step_p CRR b sigma (dt / 2) ^ 2).
  { unfold o. rewrite tri_pu_sq by auto. unfold sq_o. rewrite link_sq_p by auto. fold dt. ring. }
  assert (Epd : tri_pd o = (1 - step_p CRR b sigma (dt / 2)) ^ 2).
  { unfold o. rewrite tri_pd_sq by auto. unfold sq_o. rewrite link_sq_p by auto. fold dt. ring. }
  assert (Epm : tri_pm o = 2 * step_p CRR b sigma (dt / 2) * (1 - step_p CRR b sigma (dt / 2))).
  { unfold tri_pm. rewrite Epu, Epd. toR. ring. }
  assert (EDf : tri_Df o = exp (- r * dt)).
  { unfold o, tri_Df. rewrite tri_dt_eq. reflexivity. }
  assert (Esp : tri_spot (tri_u o) (tri_d o) S i (n - m)
                = S * exp ((INR i - INR (n - m)) * (2 * (sigma * sqrt (dt / 2))))).
  { unfold tri_spot. rewrite !posdiff_sub, Eu, Ed, !exp_pow. rewrite Rmult_assoc, <- exp_plus. do 2 f_equal.
    destruct (Nat.le_gt_cases i (n - m)) as [L|L].
    - replace (i - (n - m))%nat with 0%nat by lia. rewrite minus_INR by lia. simpl INR. ring.
    - replace (n - m - i)%nat with 0%nat by lia. rewrite (minus_INR i) by lia. simpl INR. ring. }
  change (to_S o) with S. change (to_n o) with n. change (to_K o) with K.
  rewrite Esp. rewrite Eu, Ed, Epu, Epd, Epm, EDf.
  unfold WM, moves. destruct amer; [apply WT_WG|apply WT_WGe].
Qed.
End Entry.

(*@ C24_binomial_entries_are_prices | Entry (downs, ups + downs) of the CRR/JR/TIAN tree matrix is what the same class returns for the option on the remaining lattice: spot S u^ups d^downs, n - ups - downs steps, the remaining life; the last column holds the payoffs. *)
Lemma binomial_entries : forall k S K t r b sigma n (amer call : bool),
  n <> 0%nat -> 0 < t -> sigma <> 0 ->
  let u := step_u k b sigma (t / INR n) in let d := step_d k b sigma (t / INR n) in
  exists m, tree_price (Bi k) (mkTree S K t r b sigma (the_type amer) n) call true = Ok (Matrix m) /\
    (forall ups downs, (ups + downs < n)%nat -> exists v,
       mget m downs (ups + downs) = Ok v /\
       let rest := (n - (ups + downs))%nat in
       tree_price (Bi k) (mkTree (S * u ^ ups * d ^ downs) K (t * INR rest / INR n) r b sigma (the_type amer) rest)
         call false = Ok (Price v)) /\
    (forall ups downs, (ups + downs = n)%nat ->
       mget m downs n = Ok (Rmax (zof call * (S * u ^ ups * d ^ downs - K)) 0)).
Proof.
  intros k S K t r b sigma n amer call Hn Ht Hs u d.
  set (o := mkTree S K t r b sigma (the_type amer) n). set (zz := if call then 1%Z else (-1)%Z).
  destruct (bi_tree_value k o zz amer Hn eq_refl) as (m & E & M & G & _).
  exists m. split; [rewrite <- E; destruct call; reflexivity|]. change (to_n o) with n in *. split.
  - intros ups downs H. eexists. split; [apply G; lia|]. cbv zeta.
    set (rest := (n - (ups + downs))%nat).
    rewrite price_WM; [|lia|apply sub_t; auto; lia|auto].
    rewrite sub_dt by (auto; lia). do 2 f_equal.
    unfold o, zz. rewrite bi_node_WM by (auto; lia). fold u d rest.
    replace (ups + downs - downs)%nat with ups by lia. replace (n - rest - ups)%nat with downs by (unfold rest; lia).
    reflexivity.
  - intros ups downs H. rewrite G by lia. f_equal. rewrite Nat.sub_diag.
    unfold o, zz. rewrite bi_node_WM by (auto; lia). rewrite WM_0. fold u d.
    replace (n - downs)%nat with ups by lia. replace (n - 0 - ups)%nat with downs by lia. reflexivity.
Qed.

(*@ C24_trinomial_entries_are_prices | Row n - y, column c of the trinomial matrix, |y| <= c < n, is the price of the trinomial option on the remaining lattice with spot S u^y; the last column holds the payoffs. *)
Lemma trinomial_entries : forall S K t r b sigma n (amer call : bool),
  n <> 0%nat -> 0 < t -> sigma <> 0 ->
  let spot y := S * exp (IZR y * (2 * (sigma * sqrt (t / INR n / 2)))) in
  exists m, tree_price Tri (mkTree S K t r b sigma (the_type amer) n) call true = Ok (Matrix m) /\
    (forall (c : nat) (y : Z), (c < n)%nat -> (- Z.of_nat c <= y <= Z.of_nat c)%Z -> exists v,
       mget m (Z.to_nat (Z.of_nat n - y)) c = Ok v /\
       tree_price Tri (mkTree (spot y) K (t * INR (n - c) / INR n) r b sigma (the_type amer) (n - c))
         call false = Ok (Price v)) /\
    (forall y : Z, (- Z.of_nat n <= y <= Z.of_nat n)%Z ->
       mget m (Z.to_nat (Z.of_nat n - y)) n = Ok (Rmax (zof call * (spot y - K)) 0)).
Proof.
  intros S K t r b sigma n amer call Hn Ht Hs spot.
  set (o := mkTree S K t r b sigma (the_type amer) n). set (zz := if call then 1%Z else (-1)%Z).
  destruct (tri_tree_value o zz amer Hn eq_refl) as (m & E & M & G & _).
  exists m. split; [rewrite <- E; destruct call; reflexivity|]. change (to_n o) with n in *.
  assert (X : forall (c : nat) (y : Z), (c <= n)%nat -> (- Z.of_nat c <= y <= Z.of_nat c)%Z ->
    mget m (Z.to_nat (Z.of_nat n - y)) c =
    Ok (WM amer (moves Tri b sigma (t / INR n)) (exp (- r * (t / INR n))) (zof call) K (n - c) (spot y))).
  { intros c y Hc Hy. rewrite G by lia. f_equal. unfold o, zz. rewrite tri_node_WM by (auto; lia).
    f_equal. unfold spot. do 3 f_equal. rewrite !INR_IZR_INZ, <- minus_IZR. f_equal. lia. }
  split.
  - intros c y Hc Hy. eexists. split; [apply X; lia|].
    rewrite price_WM; [|lia|apply sub_t; auto; lia|auto]. rewrite sub_dt by (auto; lia). reflexivity.
  - intros y Hy. rewrite X by lia. rewrite Nat.sub_diag, WM_0. reflexivity.
Qed.
