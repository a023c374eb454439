(** Properties of the 3D binomial spread tree (C35-C39). *)
From Coq Require Import Reals ZArith QArith Qreals String List Arith Lra Lia FunctionalExtensionality.
From Interval Require Import Tactic.
From Verif Require Import Num Py Arr MTrees MSpread STrees SLattice SSpread PTrees PStop PGen PSpread PSpread2 PTrees3.
Import ListNotations.
Open Scope R_scope.

Lemma quarter_pos a : In a two_moves -> 0 <= quarter a.
Proof. intros _. unfold quarter. lra. Qed.
Lemma quarter_sum : sumR (map quarter two_moves) = 1.
Proof. unfold quarter. simpl. lra. Qed.

(** the payoff the program actually computes *)
Definition code_payoff (code : Z) (call : bool) (Q1 Q2 K K2 S1 S2 : R) : option R :=
  match code, call with
  | 7%Z, false => Some (Rmax 0 (Q1 * S1 - Q2 * S2))
  | 8%Z, true => Some (Rmax 0 (Q1 * S1 / Q2 * S2 - K))
  | 8%Z, false => Some (Rmax 0 (K - Q1 * S1 / Q2 * S2))
  | _, _ => doc_payoff code call Q1 Q2 K K2 S1 S2
  end.
Definition zof3 (call : bool) : Z := if call then 1%Z else (-1)%Z.

Lemma max_max a b : Rmax (Rmax 0 a) (Rmax 0 b) = Rmax 0 (Rmax a b).
Proof. unfold Rmax; repeat destruct Rle_dec; lra. Qed.

Lemma payoff_code code call Q1 Q2 K K2 x1 x2 :
  s3_payoff code (zof3 call) x1 x2 Q1 Q2 (Some K) (Some K2) =
  match code_payoff code call Q1 Q2 K K2 x1 x2 with Some v => Ok v | None => Err TypeError end.
Proof.
  unfold s3_payoff, code_payoff, doc_payoff, minus_strike, strike_minus.
  destruct code as [|p|p]; try (destruct call; reflexivity).
  do 4 (try destruct p as [p|p|]); try (destruct call; reflexivity);
    destruct call; cbn [bind zof3]; toR; rewrite ?max_max; f_equal; f_equal;
    try (f_equal; lra); try (unfold Rdiv; ring).
Qed.

Section All.
Variables (S1 S2 t r b1 b2 s1 s2 rho K K2 Q1 Q2 : R) (code : Z) (call : bool) (otype : string) (n : nat).
Hypothesis Hn : n <> 0%nat.
Notation price := (all_types call false code S1 S2 t r b1 b2 s1 s2 rho (Some K) (Some K2) Q1 Q2 otype n).
Notation tree := (all_types call true code S1 S2 t r b1 b2 s1 s2 rho (Some K) (Some K2) Q1 Q2 otype n).
Definition GVx (g : R * R -> R) (amer : bool) :=
  GV quarter (step2 b1 b2 s1 s2 rho (t / INR n)) two_moves (exp (- r * (t / INR n))) amer g n (S1, S2).

Lemma all_value tr : all_types call tr code S1 S2 t r b1 b2 s1 s2 rho (Some K) (Some K2) Q1 Q2 otype n
  = s3_calc_price (mk3D S1 S2 t r b1 b2 s1 s2 rho (Some K) (Some K2) Q1 Q2 code otype n) (zof3 call) n otype tr.
Proof.
  unfold all_types, AllTypes. destruct (Nat.eqb_spec n 0); [lia|]. cbn [bind]. unfold s3_value.
  destruct call; reflexivity.
Qed.

Lemma all_price g : (forall x, code_payoff code call Q1 Q2 K K2 (fst x) (snd x) = Some (g x)) ->
  price = Ok (Price (GVx g (String.eqb otype "american"))).
Proof.
  intro H. rewrite all_value. erewrite (s3_price_GV S1 S2 t r b1 b2 s1 s2 rho (Some K) (Some K2) Q1 Q2 code otype n Hn
    (zof3 call) (fun x1 x2 => g (x1, x2))).
  - unfold GVx. do 2 f_equal. apply GV_ext. intros [? ?]. reflexivity.
  - intros x1 x2. rewrite payoff_code. specialize (H (x1, x2)). cbn [fst snd] in H. now rewrite H.
Qed.
End All.

Lemma doc_code code call Q1 Q2 K K2 x1 x2 : code <> 8%Z -> (code = 7%Z -> call = true) ->
  code_payoff code call Q1 Q2 K K2 x1 x2 = doc_payoff code call Q1 Q2 K K2 x1 x2.
Proof.
  intros H8 H7. unfold code_payoff. destruct code as [|p|p]; try reflexivity.
  do 4 (try destruct p as [p|p|]); try reflexivity; destruct call; try reflexivity; try congruence.
  specialize (H7 eq_refl). discriminate.
Qed.

(* -------- C35 *)
(*@ C35_european_expectation | With any otype other than "american" the price is the discounted expectation of the documented payoff over the 4^n equally likely paths of the two assets (codes 1-6, 9 and the exchange option's call). *)
Lemma c35_euro : forall S1 S2 t r b1 b2 s1 s2 rho K K2 Q1 Q2 code call otype n g,
  n <> 0%nat -> code <> 8%Z -> (code = 7%Z -> call = true) -> otype <> "american"%string ->
  (forall x, doc_payoff code call Q1 Q2 K K2 (fst x) (snd x) = Some (g x)) ->
  all_types call false code S1 S2 t r b1 b2 s1 s2 rho (Some K) (Some K2) Q1 Q2 otype n
  = Ok (Price (lattice_expect b1 b2 s1 s2 rho r t n g (S1, S2))).
Proof.
  intros * Hn H8 H7 Ho Hg. rewrite (all_price _ _ _ _ _ _ _ _ _ _ _ _ _ _ _ _ _ Hn g).
  - apply String.eqb_neq in Ho. rewrite Ho. unfold GVx. now rewrite GV_expect.
  - intro x. rewrite doc_code; auto.
Qed.

(*@ C35_american_optimal | With otype "american" the price is the best value over all exercise policies (functions of the history of moves), and some policy attains it. *)
Lemma c35_amer : forall S1 S2 t r b1 b2 s1 s2 rho K K2 Q1 Q2 code call n g,
  n <> 0%nat -> code <> 8%Z -> (code = 7%Z -> call = true) ->
  (forall x, doc_payoff code call Q1 Q2 K K2 (fst x) (snd x) = Some (g x)) ->
  exists v, all_types call false code S1 S2 t r b1 b2 s1 s2 rho (Some K) (Some K2) Q1 Q2 "american" n = Ok (Price v) /\
    (forall stop, lattice_policy b1 b2 s1 s2 rho r t n stop g (S1, S2) <= v) /\
    (exists stop, lattice_policy b1 b2 s1 s2 rho r t n stop g (S1, S2) = v).
Proof.
  intros * Hn H8 H7 Hg. eexists. split.
  - apply (all_price _ _ _ _ _ _ _ _ _ _ _ _ _ _ _ _ _ Hn g). intro x. rewrite doc_code; auto.
  - apply g_optimal.
    + apply quarter_pos.
    + apply exp_pos.
    + apply quarter_sum.
Qed.

(* -------- C36 *)
(*@ C36_exchange_put | The put of the exchange option (code 7) is not the documented payoff, which is the same for calls and puts: it prices the opposite exchange, the spread call (code 1) with strike 0. *)
Lemma c36_exchange : forall S1 S2 t r b1 b2 s1 s2 rho K K2 Q1 Q2 otype n, n <> 0%nat ->
  all_types false false 7 S1 S2 t r b1 b2 s1 s2 rho (Some K) (Some K2) Q1 Q2 otype n
  = all_types true false 1 S1 S2 t r b1 b2 s1 s2 rho (Some 0) (Some K2) Q1 Q2 otype n.
Proof.
  intros * Hn. rewrite (all_price _ _ _ _ _ _ _ _ _ _ _ _ _ _ _ _ _ Hn (fun x => Rmax 0 (Q1 * fst x - Q2 * snd x))) by reflexivity.
  rewrite (all_price _ _ _ _ _ _ _ _ _ _ _ _ _ _ _ _ _ Hn (fun x => Rmax 0 (Q1 * fst x - Q2 * snd x))); auto.
  intro x. cbn. f_equal. f_equal. ring.
Qed.

(*@ C36_relative_is_product | The relative performance option (code 8) is priced as a product option (code 9) with weight 1/Q2 on asset 2: the code divides by Q2 but multiplies by S2. *)
Lemma c36_relative : forall S1 S2 t r b1 b2 s1 s2 rho K K2 Q1 Q2 call otype n, n <> 0%nat -> Q2 <> 0 ->
  all_types call false 8 S1 S2 t r b1 b2 s1 s2 rho (Some K) (Some K2) Q1 Q2 otype n
  = all_types call false 9 S1 S2 t r b1 b2 s1 s2 rho (Some K) (Some K2) Q1 (/ Q2) otype n.
Proof.
  intros * Hn HQ. set (P := fun x : R * R => Q1 * fst x * / Q2 * snd x).
  rewrite (all_price _ _ _ _ _ _ _ _ _ _ _ _ _ _ _ _ _ Hn (fun x => if call then Rmax 0 (P x - K) else Rmax 0 (K - P x)))
    by (intro x; destruct call; reflexivity).
  rewrite (all_price _ _ _ _ _ _ _ _ _ _ _ _ _ _ _ _ _ Hn (fun x => if call then Rmax 0 (P x - K) else Rmax 0 (K - P x)))
    by (intro x; destruct call; reflexivity). reflexivity.
Qed.

Lemma step2_scale c c' b1 b2 s1 s2 rho dt a x :
  step2 b1 b2 s1 s2 rho dt a (c * fst x, c' * snd x) =
  (c * fst (step2 b1 b2 s1 s2 rho dt a x), c' * snd (step2 b1 b2 s1 s2 rho dt a x)).
Proof. unfold step2. cbn [fst snd]. f_equal; ring. Qed.
Lemma GV_scale c c' b1 b2 s1 s2 rho dt Df amer g m x :
  GV quarter (step2 b1 b2 s1 s2 rho dt) two_moves Df amer g m (c * fst x, c' * snd x) =
  GV quarter (step2 b1 b2 s1 s2 rho dt) two_moves Df amer (fun y => g (c * fst y, c' * snd y)) m x.
Proof.
  revert x. induction m; intro x; cbn [GV]; auto. unfold two_moves. cbn [map sumR fold_right].
  rewrite !step2_scale. fold two_moves. rewrite !IHm. reflexivity.
Qed.

Lemma step2_pos b1 b2 s1 s2 rho dt a x : 0 < fst x -> 0 < snd x ->
  0 < fst (step2 b1 b2 s1 s2 rho dt a x) /\ 0 < snd (step2 b1 b2 s1 s2 rho dt a x).
Proof. intros. unfold step2. cbn [fst snd]. split; apply Rmult_lt_0_compat; auto; unfold factor1, factor2; apply exp_pos. Qed.
Lemma GV_pos b1 b2 s1 s2 rho dt Df g m x : 0 < Df ->
  (forall x, 0 < fst x -> 0 < snd x -> 0 < g x) -> 0 < fst x -> 0 < snd x ->
  0 < GV quarter (step2 b1 b2 s1 s2 rho dt) two_moves Df false g m x.
Proof.
  intros HD Hg. revert x. induction m; intros x H1 H2; cbn [GV]; auto. apply Rmult_lt_0_compat; auto.
  unfold two_moves. cbn [map sumR fold_right]. fold two_moves.
  assert (P : forall a, 0 < GV quarter (step2 b1 b2 s1 s2 rho dt) two_moves Df false g m (step2 b1 b2 s1 s2 rho dt a x)).
  { intro a. destruct (step2_pos b1 b2 s1 s2 rho dt a x H1 H2). auto. }
  pose proof (P (false, false)). pose proof (P (true, false)). pose proof (P (false, true)). pose proof (P (true, true)).
  assert (Q : forall a, quarter a = 1 / 4) by reflexivity. rewrite !Q. lra.
Qed.
Lemma GV_ext_pos b1 b2 s1 s2 rho dt Df amer g g' m x :
  (forall x, 0 < fst x -> 0 < snd x -> g x = g' x) -> 0 < fst x -> 0 < snd x ->
  GV quarter (step2 b1 b2 s1 s2 rho dt) two_moves Df amer g m x
  = GV quarter (step2 b1 b2 s1 s2 rho dt) two_moves Df amer g' m x.
Proof.
  intros Hg. revert x. induction m; intros x H1 H2; cbn [GV]; auto.
  assert (E : map (fun a => quarter a * GV quarter (step2 b1 b2 s1 s2 rho dt) two_moves Df amer g m (step2 b1 b2 s1 s2 rho dt a x)) two_moves
    = map (fun a => quarter a * GV quarter (step2 b1 b2 s1 s2 rho dt) two_moves Df amer g' m (step2 b1 b2 s1 s2 rho dt a x)) two_moves).
  { apply map_ext. intro a. destruct (step2_pos b1 b2 s1 s2 rho dt a x H1 H2). now rewrite IHm. }
  rewrite E. cbv zeta. rewrite Hg by auto. reflexivity.
Qed.

(*@ C36_relative_refuted | The documented payoff of code 8 depends only on the ratio S1/S2, so scaling both spots leaves the documented value unchanged; the program's price with K=0 is multiplied by c^2 and is positive, so it differs from the documented value for c <> 1 or for c = 1. *)
Lemma c36_refuted : forall S1 S2 t r b1 b2 s1 s2 rho K2 Q1 Q2 n c,
  n <> 0%nat -> 0 < S1 -> 0 < S2 -> 0 < Q1 -> 0 < Q2 -> 0 < c ->
  let doc := fun x => Rmax 0 (Q1 * fst x / (Q2 * snd x) - 0) in
  lattice_expect b1 b2 s1 s2 rho r t n doc (c * S1, c * S2) = lattice_expect b1 b2 s1 s2 rho r t n doc (S1, S2) /\
  exists v, 0 < v /\
    all_types true false 8 S1 S2 t r b1 b2 s1 s2 rho (Some 0) (Some K2) Q1 Q2 "european" n = Ok (Price v) /\
    all_types true false 8 (c * S1) (c * S2) t r b1 b2 s1 s2 rho (Some 0) (Some K2) Q1 Q2 "european" n = Ok (Price (c ^ 2 * v)).
Proof.
  intros * Hn H1 H2 HQ1 HQ2 Hc doc. split.
  - unfold lattice_expect. rewrite <- !GV_expect.
    pose proof (GV_scale c c b1 b2 s1 s2 rho (t / INR n) (exp (- r * (t / INR n))) false doc n (S1, S2)) as E.
    cbn [fst snd] in E. rewrite E. apply GV_ext_pos; auto. intros [x1 x2]. cbn [fst snd]. intros. unfold doc. cbn [fst snd].
    f_equal. f_equal. field. repeat split; lra.
  - set (g := fun x : R * R => Rmax 0 (Q1 * fst x / Q2 * snd x - 0)).
    exists (GVx S1 S2 t r b1 b2 s1 s2 rho n g false). split; [|split].
    + unfold GVx. apply GV_pos; cbn [fst snd]; auto using exp_pos. intros x Hx Hy. unfold g.
      rewrite Rmax_right; [|apply Rlt_le]; rewrite Rminus_0_r;
      (apply Rmult_lt_0_compat; auto; apply Rdiv_lt_0_compat; auto; apply Rmult_lt_0_compat; auto).
    + rewrite (all_price _ _ _ _ _ _ _ _ _ _ _ _ _ _ _ _ _ Hn g) by reflexivity. reflexivity.
    + rewrite (all_price _ _ _ _ _ _ _ _ _ _ _ _ _ _ _ _ _ Hn g) by reflexivity. do 2 f_equal.
      unfold GVx. change (String.eqb "european" "american") with false.
      pose proof (GV_scale c c b1 b2 s1 s2 rho (t / INR n) (exp (- r * (t / INR n))) false g n (S1, S2)) as E.
      cbn [fst snd] in E. rewrite E. rewrite <- GV_scal by nra. apply GV_ext. intros [x1 x2]. unfold g. cbn [fst snd].
      replace (Q1 * (c * x1) / Q2 * (c * x2) - 0) with (c ^ 2 * (Q1 * x1 / Q2 * x2 - 0)) by (unfold Rdiv; ring).
      assert (0 <= c ^ 2) by nra. rewrite <- RmaxRmult by auto. f_equal. ring.
Qed.

(*@ C36_bad_code | A payoff code outside 1-9, a missing strike K (codes other than 7) or a missing K2 (codes 4 and 5) makes call and put raise TypeError, whatever the other parameters, in any arithmetic. *)
Lemma c36_bad : forall (T : Type) (N : Num T) call tree code (S1 S2 t r b1 b2 s1 s2 rho : T) K K2 Q1 Q2 otype n,
  n <> 0%nat ->
  ((code < 1)%Z \/ (9 < code)%Z \/ (K = None /\ code <> 7%Z) \/ (K2 = None /\ (code = 4%Z \/ code = 5%Z))) ->
  all_types call tree code S1 S2 t r b1 b2 s1 s2 rho K K2 Q1 Q2 otype n = Err TypeError.
Proof.
  intros * Hn H.
  assert (P : forall z x1 x2, s3_payoff code z x1 x2 Q1 Q2 K K2 = Err TypeError).
  { intros. unfold s3_payoff, minus_strike, strike_minus. destruct H as [H|[H|[[-> H]|[-> H]]]].
    - destruct code as [|p|p]; try reflexivity. lia.
    - destruct code as [|p|p]; try reflexivity. do 4 (try destruct p as [p|p|]); try reflexivity; lia.
    - destruct code as [|p|p]; try reflexivity. do 4 (try destruct p as [p|p|]); try reflexivity; congruence.
    - destruct H as [-> | ->]; destruct K; reflexivity. }
  unfold all_types, AllTypes. destruct (Nat.eqb_spec n 0); [lia|]. cbn [bind].
  assert (Q : forall z tr, s3_calc_price (mk3D S1 S2 t r b1 b2 s1 s2 rho K K2 Q1 Q2 code otype n) z n otype tr = Err TypeError).
  { intros. unfold s3_calc_price, s3_fill. replace (n + 1)%nat with (Datatypes.S n) by lia.
    cbn [seq for_]. unfold s3_fill_inner at 1. unfold s3_node_payoff. cbn [s3_option s3_K s3_K2 s3_Q1 s3_Q2].
    rewrite P. reflexivity. }
  unfold s3_value, s3_call, s3_put. destruct call; apply Q.
Qed.

(* -------- C37 *)
(*@ C37_wrappers | BionomialSpreadOption, BionomialMaxOption and BionomialMinOption price and fail exactly like BionomialSpreadAllTypes with codes 1, 2 and 3 and any second strike, in any arithmetic. *)
Lemma c37_wrap : forall (T : Type) (N : Num T) call tree (S1 S2 K t r b1 b2 s1 s2 rho Q1 Q2 : T) K2 otype n,
  (o <- SpreadOption S1 S2 K t r b1 b2 s1 s2 rho Q1 Q2 otype n ;; s3_value call tree o)%py
  = all_types call tree 1 S1 S2 t r b1 b2 s1 s2 rho (Some K) K2 Q1 Q2 otype n /\
  (o <- MaxOption S1 S2 K t r b1 b2 s1 s2 rho Q1 Q2 otype n ;; s3_value call tree o)%py
  = all_types call tree 2 S1 S2 t r b1 b2 s1 s2 rho (Some K) K2 Q1 Q2 otype n /\
  (o <- MinOption S1 S2 K t r b1 b2 s1 s2 rho Q1 Q2 otype n ;; s3_value call tree o)%py
  = all_types call tree 3 S1 S2 t r b1 b2 s1 s2 rho (Some K) K2 Q1 Q2 otype n.
Proof.
  intros. unfold SpreadOption, MaxOption, MinOption, all_types, AllTypes.
  destruct (Nat.eqb n 0); repeat split; reflexivity.
Qed.

Ltac same Hn g := rewrite (all_price _ _ _ _ _ _ _ _ _ _ _ _ _ _ _ _ _ Hn g);
  [| intros [? ?]; cbn; try reflexivity; f_equal; unfold Rmax, Rmin; repeat destruct Rle_dec; try lra; try nra ].

(*@ C37_dual_strike | A dual-strike option (code 4) with equal strikes is the option on the maximum (code 2) for calls and on the minimum (code 3) for puts; a portfolio option (6) with weight -Q2 is the spread option (1); an exchange call (7) is a spread put (1) with strike 0. European and american alike. *)
Lemma c37_dual : forall S1 S2 t r b1 b2 s1 s2 rho K K2 Q1 Q2 call otype n, n <> 0%nat ->
  let P := fun call code K K2 Q1 Q2 => all_types call false code S1 S2 t r b1 b2 s1 s2 rho (Some K) (Some K2) Q1 Q2 otype n in
  P true 4%Z K K Q1 Q2 = P true 2%Z K K2 Q1 Q2 /\ P false 4%Z K K Q1 Q2 = P false 3%Z K K2 Q1 Q2 /\
  P call 6%Z K K2 Q1 (- Q2) = P call 1%Z K K2 Q1 Q2 /\ P true 7%Z K K2 Q1 Q2 = P false 1%Z 0 K2 Q1 Q2.
Proof.
  intros * Hn P. subst P. cbv beta. repeat split.
  - same Hn (fun x => Rmax 0 (Rmax (Q1 * fst x) (Q2 * snd x) - K)). same Hn (fun x => Rmax 0 (Rmax (Q1 * fst x) (Q2 * snd x) - K)). reflexivity.
  - same Hn (fun x => Rmax 0 (K - Rmin (Q1 * fst x) (Q2 * snd x))). same Hn (fun x => Rmax 0 (K - Rmin (Q1 * fst x) (Q2 * snd x))). reflexivity.
  - destruct call.
    + same Hn (fun x => Rmax 0 (Q1 * fst x - Q2 * snd x - K)). same Hn (fun x => Rmax 0 (Q1 * fst x - Q2 * snd x - K)). reflexivity.
    + same Hn (fun x => Rmax 0 (K - (Q1 * fst x - Q2 * snd x))). same Hn (fun x => Rmax 0 (K - (Q1 * fst x - Q2 * snd x))). reflexivity.
  - same Hn (fun x => Rmax 0 (Q2 * snd x - Q1 * fst x)). same Hn (fun x => Rmax 0 (Q2 * snd x - Q1 * fst x)). reflexivity.
Qed.

(*@ C37_max_plus_min | European options on the maximum and on the minimum add up to the options on the two single assets: the sum of codes 2 and 3 equals the sum of the two portfolio options (6) with one weight zero, for calls and puts. *)
Lemma c37_max_min : forall S1 S2 t r b1 b2 s1 s2 rho K K2 Q1 Q2 call otype n, n <> 0%nat -> otype <> "american"%string ->
  let P := fun code Q1 Q2 => all_types call false code S1 S2 t r b1 b2 s1 s2 rho (Some K) (Some K2) Q1 Q2 otype n in
  exists vmax vmin v1 v2, P 2%Z Q1 Q2 = Ok (Price vmax) /\ P 3%Z Q1 Q2 = Ok (Price vmin) /\
    P 6%Z Q1 0 = Ok (Price v1) /\ P 6%Z 0 Q2 = Ok (Price v2) /\ vmax + vmin = v1 + v2.
Proof.
  intros * Hn Ho P. subst P. cbv beta. apply String.eqb_neq in Ho.
  set (z := if call then 1 else -1).
  do 4 eexists. split; [|split; [|split; [|split]]].
  { rewrite (all_price _ _ _ _ _ _ _ _ _ _ _ _ _ _ _ _ _ Hn (fun x => Rmax 0 (z * (Rmax (Q1 * fst x) (Q2 * snd x) - K)))); [reflexivity|].
    intros [x1 x2]. unfold z. destruct call; cbn [code_payoff doc_payoff fst snd]; do 2 f_equal; lra. }
  { rewrite (all_price _ _ _ _ _ _ _ _ _ _ _ _ _ _ _ _ _ Hn (fun x => Rmax 0 (z * (Rmin (Q1 * fst x) (Q2 * snd x) - K)))); [reflexivity|].
    intros [x1 x2]. unfold z. destruct call; cbn [code_payoff doc_payoff fst snd]; do 2 f_equal; lra. }
  { rewrite (all_price _ _ _ _ _ _ _ _ _ _ _ _ _ _ _ _ _ Hn (fun x => Rmax 0 (z * (Q1 * fst x - K)))); [reflexivity|].
    intros [x1 x2]. unfold z. destruct call; cbn [code_payoff doc_payoff fst snd]; do 2 f_equal; lra. }
  { rewrite (all_price _ _ _ _ _ _ _ _ _ _ _ _ _ _ _ _ _ Hn (fun x => Rmax 0 (z * (Q2 * snd x - K)))); [reflexivity|].
    intros [x1 x2]. unfold z. destruct call; cbn [code_payoff doc_payoff fst snd]; do 2 f_equal; lra. }
  rewrite Ho. unfold GVx.
  rewrite <- (Rmult_1_l (GV _ _ _ _ _ (fun x => Rmax 0 (z * (Rmax _ _ - _))) _ _)).
  rewrite <- (Rmult_1_l (GV _ _ _ _ _ (fun x => Rmax 0 (z * (Rmin _ _ - _))) _ _)).
  rewrite <- (Rmult_1_l (GV _ _ _ _ _ (fun x => Rmax 0 (z * (Q1 * _ - _))) _ _)).
  rewrite <- (Rmult_1_l (GV _ _ _ _ _ (fun x => Rmax 0 (z * (Q2 * _ - _))) _ _)).
  rewrite <- !GV_lin. apply GV_ext. intros [x1 x2]. cbn [fst snd].
  destruct (Rle_dec (Q1 * x1) (Q2 * x2)).
  - rewrite (Rmax_right (Q1 * x1)), (Rmin_left (Q1 * x1)) by lra. lra.
  - rewrite (Rmax_left (Q1 * x1)), (Rmin_right (Q1 * x1)) by lra. lra.
Qed.

(*@ C37_orderings | For every code with a documented payoff: the price is nonnegative, american is at least european and at least the payoff of exercising now; calls on the minimum are worth at most calls on the maximum (puts the reverse). *)
Lemma c37_order : forall S1 S2 t r b1 b2 s1 s2 rho K K2 Q1 Q2 code call n g, n <> 0%nat ->
  code <> 8%Z -> (code = 7%Z -> call = true) ->
  (forall x, doc_payoff code call Q1 Q2 K K2 (fst x) (snd x) = Some (g x)) ->
  let P := fun code otype => all_types call false code S1 S2 t r b1 b2 s1 s2 rho (Some K) (Some K2) Q1 Q2 otype n in
  (exists e a, P code "european"%string = Ok (Price e) /\ P code "american"%string = Ok (Price a) /\ 0 <= e <= a /\ g (S1, S2) <= a) /\
  (forall amer, exists vmax vmin, P 2%Z (the_type amer) = Ok (Price vmax) /\ P 3%Z (the_type amer) = Ok (Price vmin) /\
     (if call then vmin <= vmax else vmax <= vmin)).
Proof.
  intros * Hn H8 H7 Hg P. subst P. cbv beta. split.
  - do 2 eexists. split; [|split; [|split]].
    + apply (all_price _ _ _ _ _ _ _ _ _ _ _ _ _ _ _ _ _ Hn g). intro. now rewrite doc_code.
    + apply (all_price _ _ _ _ _ _ _ _ _ _ _ _ _ _ _ _ _ Hn g). intro. now rewrite doc_code.
    + cbn [String.eqb Ascii.eqb Bool.eqb]. unfold GVx. split.
      * apply GV_nonneg; [apply quarter_pos|apply exp_pos|]. intro x. specialize (Hg x). unfold doc_payoff in Hg.
        destruct code as [|p|p]; try discriminate.
        do 4 (try destruct p as [p|p|]); try discriminate; destruct call; injection Hg as <-; apply Rmax_l.
      * apply GV_amer_ge; [apply quarter_pos|apply exp_pos].
    + cbn [String.eqb Ascii.eqb Bool.eqb]. unfold GVx. apply GV_amer_ge; [apply quarter_pos|apply exp_pos].
  - intro amer. do 2 eexists. split; [|split].
    + apply (all_price _ _ _ _ _ _ _ _ _ _ _ _ _ _ _ _ _ Hn (fun x => Rmax 0 (if call then Rmax (Q1 * fst x) (Q2 * snd x) - K else K - Rmax (Q1 * fst x) (Q2 * snd x)))).
      intro; destruct call; reflexivity.
    + apply (all_price _ _ _ _ _ _ _ _ _ _ _ _ _ _ _ _ _ Hn (fun x => Rmax 0 (if call then Rmin (Q1 * fst x) (Q2 * snd x) - K else K - Rmin (Q1 * fst x) (Q2 * snd x)))).
      intro; destruct call; reflexivity.
    + destruct call; unfold GVx; apply GV_mono; try apply quarter_pos; try apply exp_pos; intros [x1 x2]; cbn [fst snd];
        unfold Rmax, Rmin; repeat destruct Rle_dec; lra.
Qed.

(*@ C37_homogeneous | For codes 1-7 prices are homogeneous: scaling both spots and both strikes by c > 0 scales the price by c. *)
Lemma c37_homog : forall S1 S2 t r b1 b2 s1 s2 rho K K2 Q1 Q2 code call otype n c, n <> 0%nat ->
  (1 <= code <= 7)%Z -> 0 < c ->
  exists v, all_types call false code S1 S2 t r b1 b2 s1 s2 rho (Some K) (Some K2) Q1 Q2 otype n = Ok (Price v) /\
  all_types call false code (c * S1) (c * S2) t r b1 b2 s1 s2 rho (Some (c * K)) (Some (c * K2)) Q1 Q2 otype n = Ok (Price (c * v)).
Proof.
  intros * Hn Hcode Hc.
  assert (exists g, forall K K2 x1 x2, code_payoff code call Q1 Q2 K K2 x1 x2 = Some (g K K2 x1 x2)) as [g Hg].
  { unfold code_payoff, doc_payoff. destruct code as [|p|p]; try lia.
    do 4 (try destruct p as [p|p|]); try lia; destruct call;
    match goal with |- exists g, forall K K2 x1 x2, Some (@?f K K2 x1 x2) = _ => exists f; reflexivity end. }
  assert (HS : forall x1 x2, g (c * K) (c * K2) (c * x1) (c * x2) = c * g K K2 x1 x2).
  { intros. pose proof (Hg (c * K) (c * K2) (c * x1) (c * x2)) as A. pose proof (Hg K K2 x1 x2) as B.
    unfold code_payoff, doc_payoff in A, B. clear Hg.
    assert (M : forall a, Rmax 0 (c * a) = c * Rmax 0 a) by (intro; rewrite <- RmaxRmult by lra; f_equal; ring).
    assert (M1 : forall a b, Rmax (c * a) (c * b) = c * Rmax a b) by (intros; rewrite <- RmaxRmult by lra; reflexivity).
    assert (M2 : forall a b, Rmin (c * a) (c * b) = c * Rmin a b).
    { intros. unfold Rmin. destruct (Rle_dec a b); destruct (Rle_dec (c * a) (c * b)); auto; nra. }
    destruct code as [|p|p]; try lia.
    do 4 (try destruct p as [p|p|]); try lia; destruct call; injection A as <-; injection B as <-;
    rewrite <- M; f_equal; try ring;
    rewrite <- ?M1, <- ?M2; try (rewrite Rmult_minus_distr_l, <- ?M1, <- ?M2); f_equal; try (f_equal; ring); ring. }
  eexists. split.
  - apply (all_price _ _ _ _ _ _ _ _ _ _ _ _ _ _ _ _ _ Hn (fun x => g K K2 (fst x) (snd x))). intro. apply Hg.
  - rewrite (all_price _ _ _ _ _ _ _ _ _ _ _ _ _ _ _ _ _ Hn (fun x => g (c * K) (c * K2) (fst x) (snd x))) by (intro; apply Hg).
    do 2 f_equal. unfold GVx.
    match goal with |- GV ?w ?a ?m ?D ?am ?gg ?k _ = _ =>
      pose proof (GV_scale c c b1 b2 s1 s2 rho (t / INR n) D am gg k (S1, S2)) as E end.
    cbn [fst snd] in E. rewrite E. rewrite <- GV_scal by lra. apply GV_ext. intros [x1 x2]. cbn [fst snd]. apply HS.
Qed.

(* -------- C38 *)

(*@ C38_layout | call(tree=True) and put(tree=True) return an (n+2)x(n+2) matrix whose last row and column are zero and whose entry (0,0) is what the plain call returns; in any arithmetic, for any payoff that evaluates. *)
Lemma c38_layout : forall (T : Type) (N : Num T) (call : bool) code (S1 S2 t r b1 b2 s1 s2 rho : T) K K2 Q1 Q2 otype n (G : T -> T -> T),
  n <> 0%nat ->
  (forall x1 x2, s3_payoff code (if call then 1 else -1)%Z x1 x2 Q1 Q2 K K2 = Ok (G x1 x2)) ->
  exists M v, all_types call true code S1 S2 t r b1 b2 s1 s2 rho K K2 Q1 Q2 otype n = Ok (Matrix M) /\
    all_types call false code S1 S2 t r b1 b2 s1 s2 rho K K2 Q1 Q2 otype n = Ok (Price v) /\
    List.length M = (n + 2)%nat /\ (forall row, In row M -> List.length row = (n + 2)%nat) /\
    mget M 0 0 = Ok v /\
    (forall k, (k <= n + 1)%nat -> mget M k (n + 1) = Ok (ofZ 0) /\ mget M (n + 1) k = Ok (ofZ 0)).
Proof.
  intros * Hn HG.
  set (o := mk3D S1 S2 t r b1 b2 s1 s2 rho K K2 Q1 Q2 code otype n).
  set (z := if call then 1%Z else (-1)%Z).
  destruct (s3_matrix_ok o z n otype (fun m j i => G (s3_node1 o m j) (s3_node2 o m j i))) as (M & E1 & E2 & [A1 A2] & B & C).
  { intros. unfold s3_node_payoff. apply HG. }
  exists M. eexists. split; [|split; [|split; [|split; [|split]]]].
  - unfold all_types, AllTypes. destruct (Nat.eqb_spec n 0); [lia|]. cbn [bind]. fold o. unfold s3_value.
    rewrite <- E1. unfold z. destruct call; reflexivity.
  - unfold all_types, AllTypes. destruct (Nat.eqb_spec n 0); [lia|]. cbn [bind]. fold o. unfold s3_value.
    transitivity (s3_calc_price o z n otype false); [unfold z; destruct call; reflexivity|exact E2].
  - exact A1.
  - intros row Hin. destruct (In_nth_error _ _ Hin) as [k Ek]. exact (A2 _ _ Ek).
  - apply B; lia.
  - intros k Hk. split; apply C; lia.
Qed.

(*@ C38_entries_are_prices | Entry (j,i) of the returned matrix, reached after c = max(j,i) < n steps, is the price of the same option started at that node's two asset prices with the remaining n-c steps and time t(n-c)/n; the node's prices are those after j up-moves of asset 1 and i of the second driver out of c. *)
Lemma c38_entries : forall S1 S2 t r b1 b2 s1 s2 rho K K2 Q1 Q2 code call amer n j i,
  (1 <= code <= 9)%Z -> (Nat.max j i < n)%nat ->
  let c := Nat.max j i in let dt := t / INR n in
  let X1 := S1 * exp (INR c * ((b1 - s1 ^ 2 / 2) * dt) + s1 * ((2 * INR j - INR c) * sqrt dt)) in
  let X2 := S2 * exp (INR c * ((b2 - s2 ^ 2 / 2) * dt)
            + s2 * (rho * ((2 * INR j - INR c) * sqrt dt) + sqrt (1 - rho ^ 2) * ((2 * INR i - INR c) * sqrt dt))) in
  exists M v, all_types call true code S1 S2 t r b1 b2 s1 s2 rho (Some K) (Some K2) Q1 Q2 (the_type amer) n = Ok (Matrix M) /\
    mget M j i = Ok v /\
    all_types call false code X1 X2 (t * INR (n - c) / INR n) r b1 b2 s1 s2 rho (Some K) (Some K2) Q1 Q2 (the_type amer) (n - c) = Ok (Price v).
Proof.
  intros * Hcode Hlt. cbv zeta. set (c := Nat.max j i) in *.
  assert (Hn : n <> 0%nat) by lia.
  assert (exists g, forall x1 x2, code_payoff code call Q1 Q2 K K2 x1 x2 = Some (g x1 x2)) as [g Hg].
  { unfold code_payoff, doc_payoff. destruct code as [|p|p]; try lia.
    do 4 (try destruct p as [p|p|]); try lia; destruct call;
    match goal with |- exists g, forall x1 x2, Some (@?f x1 x2) = _ => exists f; reflexivity end. }
  assert (HG : forall x1 x2, s3_payoff code (zof3 call) x1 x2 Q1 Q2 (Some K) (Some K2) = Ok (g x1 x2)).
  { intros. rewrite payoff_code, Hg. reflexivity. }
  destruct (s3_entry_GV S1 S2 t r b1 b2 s1 s2 rho (Some K) (Some K2) Q1 Q2 code (the_type amer) n Hn (zof3 call) g HG)
    as (M & E & _ & B & _).
  exists M. eexists. split; [|split].
  - rewrite all_value by auto. exact E.
  - apply B; lia.
  - assert (Hnc : (n - c)%nat <> 0%nat) by lia.
    rewrite (all_price _ _ _ _ _ _ _ _ _ _ _ _ _ _ _ _ _ Hnc (fun x => g (fst x) (snd x))) by (intro; apply Hg).
    do 2 f_equal. unfold GVx. fold c.
    assert (Edt : t * INR (n - c) / INR n / INR (n - c) = t / INR n).
    { field. split; apply not_0_INR; lia. }
    rewrite Edt. f_equal. f_equal.
    + rewrite node1_eq by auto. unfold factor1. cbn [fst sign]. rewrite !exp_pow. rewrite Rmult_assoc, <- exp_plus.
      do 2 f_equal. rewrite minus_INR by lia. ring.
    + rewrite node2_eq by auto. reflexivity.
Qed.

(* -------- C39 *)
Section Fwd.
Variables (b1 b2 s1 s2 rho dt Df : R).
Let ch (x : R) := (exp x + exp (- x)) / 2.
Definition m1 := exp ((b1 - s1 ^ 2 / 2) * dt) * ((exp (s1 * sqrt dt) + exp (- (s1 * sqrt dt))) / 2).
Definition m2 := exp ((b2 - s2 ^ 2 / 2) * dt) * ((exp (s2 * rho * sqrt dt) + exp (- (s2 * rho * sqrt dt))) / 2)
   * ((exp (s2 * sqrt (1 - rho ^ 2) * sqrt dt) + exp (- (s2 * sqrt (1 - rho ^ 2) * sqrt dt))) / 2).
Lemma fwd1 n x : GV quarter (step2 b1 b2 s1 s2 rho dt) two_moves Df false fst n x = Df ^ n * m1 ^ n * fst x.
Proof.
  revert x. induction n; intro x; cbn [GV pow]; [ring|]. unfold two_moves. cbn [map sumR fold_right]. fold two_moves.
  rewrite !IHn. unfold quarter, step2, factor1, m1. cbn [fst snd sign]. rewrite !exp_plus.
  replace (s1 * (1 * sqrt dt)) with (s1 * sqrt dt) by ring.
  replace (s1 * (-1 * sqrt dt)) with (- (s1 * sqrt dt)) by ring. field.
Qed.
Lemma fwd2 n x : GV quarter (step2 b1 b2 s1 s2 rho dt) two_moves Df false snd n x = Df ^ n * m2 ^ n * snd x.
Proof.
  revert x. induction n; intro x; cbn [GV pow]; [ring|]. unfold two_moves. cbn [map sumR fold_right]. fold two_moves.
  rewrite !IHn. unfold quarter, step2, factor2, m2. cbn [fst snd sign]. rewrite !Rmult_plus_distr_l, !exp_plus.
  replace (s2 * (rho * (1 * sqrt dt))) with (s2 * rho * sqrt dt) by ring.
  replace (s2 * (rho * (-1 * sqrt dt))) with (- (s2 * rho * sqrt dt)) by ring.
  replace (s2 * (sqrt (1 - rho ^ 2) * (1 * sqrt dt))) with (s2 * sqrt (1 - rho ^ 2) * sqrt dt) by ring.
  replace (s2 * (sqrt (1 - rho ^ 2) * (-1 * sqrt dt))) with (- (s2 * sqrt (1 - rho ^ 2) * sqrt dt)) by ring. field.
Qed.

Hypothesis Hdt : 0 < dt.
Lemma m1_lt : s1 <> 0 -> 0 < m1 < exp (b1 * dt).
Proof.
  intro Hs. pose proof (sqrt_lt_R0 dt Hdt). unfold m1.
  assert (s1 * sqrt dt <> 0) by nra. pose proof (cosh_lt_gauss _ H0).
  pose proof (exp_pos (s1 * sqrt dt)). pose proof (exp_pos (- (s1 * sqrt dt))).
  pose proof (exp_pos ((b1 - s1 ^ 2 / 2) * dt)). split; [nra|].
  replace (b1 * dt) with ((b1 - s1 ^ 2 / 2) * dt + (s1 * sqrt dt) ^ 2 / 2).
  - rewrite exp_plus. apply Rmult_lt_compat_l; auto.
  - replace ((s1 * sqrt dt) ^ 2) with (s1 ^ 2 * dt) by (rewrite Rpow_mult_distr; rewrite <- (Rsqr_pow2 (sqrt dt)), Rsqr_sqrt by lra; ring). field.
Qed.
Lemma cosh_le x : (exp x + exp (- x)) / 2 <= exp (x ^ 2 / 2).
Proof.
  destruct (Req_dec x 0) as [->|H].
  - replace (0 ^ 2 / 2) with 0 by field. rewrite Ropp_0, exp_0. lra.
  - left. now apply cosh_lt_gauss.
Qed.
Lemma m2_lt : s2 <> 0 -> -1 <= rho <= 1 -> 0 < m2 < exp (b2 * dt).
Proof.
  intros Hs Hr. pose proof (sqrt_lt_R0 dt Hdt). unfold m2.
  set (x := s2 * rho * sqrt dt). set (y := s2 * sqrt (1 - rho ^ 2) * sqrt dt).
  assert (Exy : x ^ 2 + y ^ 2 = s2 ^ 2 * dt).
  { unfold x, y. rewrite !Rpow_mult_distr. replace (sqrt dt ^ 2) with dt by (rewrite <- Rsqr_pow2, Rsqr_sqrt; lra).
    rewrite (pow2_sqrt (1 - rho ^ 2)) by nra. ring. }
  assert (P : 0 < s2 ^ 2 * dt) by (assert (0 < s2 ^ 2) by nra; nra).
  pose proof (cosh_le x). pose proof (cosh_le y).
  pose proof (exp_pos x). pose proof (exp_pos (- x)). pose proof (exp_pos y). pose proof (exp_pos (- y)).
  pose proof (exp_pos ((b2 - s2 ^ 2 / 2) * dt)) as PE.
  pose proof (exp_pos (x ^ 2 / 2)). pose proof (exp_pos (y ^ 2 / 2)).
  set (cx := (exp x + exp (- x)) / 2) in *. set (cy := (exp y + exp (- y)) / 2) in *.
  assert (0 < cx) by (unfold cx; lra). assert (0 < cy) by (unfold cy; lra).
  split; [apply Rmult_lt_0_compat; auto; apply Rmult_lt_0_compat; auto|].
  assert (L : cx * cy < exp (x ^ 2 / 2) * exp (y ^ 2 / 2)).
  { destruct (Req_dec x 0) as [Hx|Hx].
    - assert (y <> 0) by (intro; subst x y; rewrite Hx, H10 in Exy; lra). pose proof (cosh_lt_gauss y H10). fold cy in H11. nra.
    - pose proof (cosh_lt_gauss x Hx). fold cx in H10. nra. }
  replace (b2 * dt) with ((b2 - s2 ^ 2 / 2) * dt + (x ^ 2 / 2 + y ^ 2 / 2)).
  - rewrite !exp_plus, Rmult_assoc. apply Rmult_lt_compat_l; auto.
  - replace (x ^ 2 / 2 + y ^ 2 / 2) with ((x ^ 2 + y ^ 2) / 2) by field. rewrite Exy. field.
Qed.
End Fwd.

Lemma exp_ndt r t n : n <> 0%nat -> exp (- r * (t / INR n)) ^ n = exp (- r * t).
Proof. intro. rewrite exp_pow. f_equal. field. now apply not_0_INR. Qed.

(*@ C39_parity | European spread options (code 1): call minus put is the discounted value of the lattice forwards minus the strike, with the lattice forwards in closed form. *)
Lemma c39_parity : forall S1 S2 t r b1 b2 s1 s2 rho K K2 Q1 Q2 n, n <> 0%nat ->
  let P := fun call => all_types call false 1 S1 S2 t r b1 b2 s1 s2 rho (Some K) (Some K2) Q1 Q2 "european" n in
  exists c p, P true = Ok (Price c) /\ P false = Ok (Price p) /\
    c - p = exp (- r * t) * (Q1 * lattice_fwd1 S1 t b1 s1 n - Q2 * lattice_fwd2 S2 t b2 s2 rho n - K).
Proof.
  intros * Hn P. subst P. cbv beta.
  do 2 eexists. split; [|split].
  - apply (all_price _ _ _ _ _ _ _ _ _ _ _ _ _ _ _ _ _ Hn (fun x => Rmax 0 (Q1 * fst x - Q2 * snd x - K))). reflexivity.
  - apply (all_price _ _ _ _ _ _ _ _ _ _ _ _ _ _ _ _ _ Hn (fun x => Rmax 0 (K - (Q1 * fst x - Q2 * snd x)))). reflexivity.
  - change (String.eqb "european" "american") with false. unfold GVx.
    match goal with |- GV ?w ?a ?m ?D ?am ?g1 ?k ?x - GV ?w ?a ?m ?D ?am ?g2 ?k ?x = _ =>
      transitivity (GV w a m D am (fun y => 1 * g1 y + (-1) * g2 y) k x); [rewrite GV_lin; ring|] end.
    match goal with |- GV ?w ?a ?m ?D ?am ?g1 ?k ?x = _ =>
      transitivity (GV w a m D am (fun y => 1 * (Q1 * fst y + (- Q2) * snd y) + (- K) * 1) k x) end.
    + apply GV_ext. intros [x1 x2]. cbn [fst snd]. unfold Rmax; repeat destruct Rle_dec; lra.
    + rewrite GV_lin. rewrite GV_lin. rewrite fwd1, fwd2. rewrite GV_const.
      * rewrite exp_ndt by auto. cbn [fst snd]. unfold lattice_fwd1, lattice_fwd2, m1, m2. ring.
      * apply quarter_sum.
Qed.

(*@ C39_forwards_low | Both lattice forwards are strictly below the continuous-time forwards S exp(bt) whenever the volatility is not zero. *)
Lemma c39_low : forall S1 S2 t b1 b2 s1 s2 rho n, n <> 0%nat -> 0 < t -> 0 < S1 -> 0 < S2 -> -1 <= rho <= 1 ->
  (s1 <> 0 -> lattice_fwd1 S1 t b1 s1 n < S1 * exp (b1 * t)) /\
  (s2 <> 0 -> lattice_fwd2 S2 t b2 s2 rho n < S2 * exp (b2 * t)).
Proof.
  intros * Hn Ht H1 H2 Hr. pose proof (lt_0_INR n ltac:(lia)) as Hn'.
  assert (Hdt : 0 < t / INR n) by (apply Rdiv_lt_0_compat; auto).
  assert (PL : forall a b k, k <> 0%nat -> 0 < a < b -> a ^ k < b ^ k).
  { intros a b k Hk Hab. destruct k; [lia|]. clear Hk. induction k; [simpl; lra|].
    cbn [pow] in *. assert (0 < a * a ^ k) by (apply Rmult_lt_0_compat; [lra|apply pow_lt; lra]). nra. }
  split; intro Hs.
  - unfold lattice_fwd1. apply Rmult_lt_compat_l; auto.
    replace (exp (b1 * t)) with (exp (b1 * (t / INR n)) ^ n) by (rewrite exp_pow; f_equal; field; lra).
    apply PL; auto. apply (m1_lt b1 s1 (t / INR n)); auto.
  - unfold lattice_fwd2. apply Rmult_lt_compat_l; auto.
    replace (exp (b2 * t)) with (exp (b2 * (t / INR n)) ^ n) by (rewrite exp_pow; f_equal; field; lra).
    apply PL; auto. apply (m2_lt b2 s2 rho (t / INR n)); auto.
Qed.

(*@ C39_continuous_parity_refuted | Hence parity with the continuous-time forwards fails for every number of steps as soon as only asset 1 is uncertain: call minus put is strictly below exp(-rt)(Q1 S1 exp(b1 t) - Q2 S2 exp(b2 t) - K). *)
Lemma c39_refuted : forall S1 S2 t r b1 b2 s1 rho K K2 Q1 Q2 n, n <> 0%nat -> 0 < t -> 0 < S1 -> 0 < Q1 -> s1 <> 0 ->
  let P := fun call => all_types call false 1 S1 S2 t r b1 b2 s1 0 rho (Some K) (Some K2) Q1 Q2 "european" n in
  exists c p, P true = Ok (Price c) /\ P false = Ok (Price p) /\
    c - p < exp (- r * t) * (Q1 * (S1 * exp (b1 * t)) - Q2 * (S2 * exp (b2 * t)) - K).
Proof.
  intros * Hn Ht H1 HQ Hs P. subst P. cbv beta.
  destruct (c39_parity S1 S2 t r b1 b2 s1 0 rho K K2 Q1 Q2 n Hn) as (c & p & E1 & E2 & E3).
  exists c, p. split; auto. split; auto. rewrite E3. apply Rmult_lt_compat_l; [apply exp_pos|].
  destruct (c39_low S1 1 t b1 b2 s1 1 0 n Hn Ht H1 ltac:(lra) ltac:(lra)) as [L _]. specialize (L Hs).
  assert (E : lattice_fwd2 S2 t b2 0 rho n = S2 * exp (b2 * t)).
  { unfold lattice_fwd2. f_equal. pose proof (lt_0_INR n ltac:(lia)) as Hn'.
    rewrite !Rmult_0_l, Ropp_0, exp_0. replace (exp (b2 * t)) with (exp (b2 * (t / INR n)) ^ n) by (rewrite exp_pow; f_equal; field; lra).
    f_equal. replace ((b2 - 0 ^ 2 / 2) * (t / INR n)) with (b2 * (t / INR n)) by (field; lra). field. }
  rewrite E. nra.
Qed.

(*@ C37_label_asymmetry_refuted | Exchanging the names of the two assets changes the price of an option on the maximum although the contract is the same: one-step tree, equal spots 100, volatilities 0.2 and 0.4, correlation 0.6. *)
Lemma c37_asym : exists v w,
  all_types true false 2 100 100 1 0 0 0 (2/10) (4/10) (6/10) (Some 100) (Some 0) 1 1 "european" 1 = Ok (Price v) /\
  all_types true false 2 100 100 1 0 0 0 (4/10) (2/10) (6/10) (Some 100) (Some 0) 1 1 "european" 1 = Ok (Price w) /\
  v <> w.
Proof.
  do 2 eexists. split; [|split].
  - apply (all_price _ _ _ _ _ _ _ _ _ _ _ _ _ _ _ _ _ (not_eq_sym (O_S 0)) (fun x => Rmax 0 (Rmax (1 * fst x) (1 * snd x) - 100))). reflexivity.
  - apply (all_price _ _ _ _ _ _ _ _ _ _ _ _ _ _ _ _ _ (not_eq_sym (O_S 0)) (fun x => Rmax 0 (Rmax (1 * fst x) (1 * snd x) - 100))). reflexivity.
  - cbn [String.eqb Ascii.eqb Bool.eqb]. unfold GVx. cbn [GV map sumR fold_right two_moves quarter].
    unfold step2, factor1, factor2, sign. cbn [fst snd]. simpl (INR 1).
    replace (1 / 1) with 1 by field. rewrite sqrt_1.
    replace (sqrt (1 - (6 / 10) ^ 2)) with (8/10) by (symmetry; apply sqrt_lem_1; lra).
    assert (RM : forall a b, Rmax a b = (a + b + Rabs (a - b)) / 2).
    { intros. unfold Rmax, Rabs. destruct Rle_dec, Rcase_abs; lra. }
    rewrite !RM. unfold quarter. apply Rgt_not_eq. unfold Rgt. interval.
Qed.
