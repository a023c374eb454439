(** Monte Carlo options, continued (C46-C48). *)
From Coq Require Import Reals ZArith QArith Qreals List Bool Lra Lia.
From Verif Require Import Num Py MBase MAmerican MMonte SMonte PMonte.
Import ListNotations.
Open Scope R_scope.

(** ** Any path and payoff classes *)
Lemma sim_fmap {St} (o o' : mc R St) (f : matrix R -> matrix R) call :
  (forall st, m_inno o' st = rmap (fun es => (f (fst es), snd es)) (m_inno o st)) ->
  (forall E, mc_loop_payoff o' call (f E) = mc_loop_payoff o call E) ->
  forall n i acc st, sim_mc_from o' call n i acc st = sim_mc_from o call n i acc st.
Proof.
  intros H1 H2. induction n as [|n IH]; intros i acc st; [reflexivity|]. cbn [sim_mc_from]. rewrite H1.
  destruct (m_inno o st) as [[E s1]|]; [|reflexivity]. cbn [rmap bind fst snd]. rewrite H2.
  destruct (mc_loop_payoff o call E); [|reflexivity]. cbn [bind]. rewrite !pinf_never. apply IH.
Qed.

(*@ C46_treatment | Variance reduction, whatever Path and Payoff classes are supplied: the antithetic and standardization options are equivalent to feeding a plain option with treated innovations; antithetic appends every row negated, standardization then shifts and scales all entries to average 0 and average square 1 (provided they are not all equal). *)
Lemma mc_treatment : forall (St : Type) (inno : nat -> nat -> St -> res (matrix R * St)) (Path : matrix R -> option R -> R -> R -> res (matrix R))
    (Payoff : bool -> payoff_args R -> res (list R)) (trace anti std : bool) (loops len paths : nat) (S K t r b : R) (s : option R) (o : mc R St),
  MonteCarloOption loops len paths S K t r b s inno Path Payoff trace anti std = Ok o ->
  exists treat o', MonteCarloOption loops len paths S K t r b s (fun p l st => rmap (fun es => (treat (fst es), snd es)) (inno p l st))
      Path Payoff trace false false = Ok o' /\
    (forall E, (std = true -> varied (if anti then mirrored E else E)) -> treated anti std E (treat E)) /\
    forall call st, mc_price call o st = mc_price call o' st.
Proof.
  intros St inno Path Payoff trace anti std loops len paths S K t r b s o Ho.
  unfold MonteCarloOption in *. destruct (Nat.eqb len 0); [discriminate|]. injection Ho as <-.
  set (o := mkMc _ _ _ _ _ _ _ _ _ _ _ _ _ _ _ _). exists (mc_innovations o). eexists. split; [reflexivity|]. split.
  - intros E HE. apply (innov_treated o E HE).
  - intros call st. unfold mc_price, sim_mc.
    match goal with |- _ = (it <- sim_mc_from ?o2 _ _ _ _ _ ;; _) =>
      assert (Hs : forall n i acc st', sim_mc_from o2 call n i acc st' = sim_mc_from o call n i acc st') by
        (apply (sim_fmap o o2 (mc_innovations o) call); reflexivity); rewrite Hs end. reflexivity.
Qed.

(** ** Moments *)
Lemma concat_total m : total (concat m) = total (map total m).
Proof. induction m as [|x m IH]; [reflexivity|]. cbn [concat map]. rewrite total_app. unfold total at 3. cbn [fold_right]. unfold total in *. now rewrite IH. Qed.
Lemma mirrored_total m : total (concat (mirrored m)) = 0.
Proof. unfold mirrored. rewrite concat_app, total_app, concat_map_map, total_opp. ring. Qed.
Lemma treated_total anti std m m' : treated anti std m m' -> anti = true \/ std = true -> concat m' <> [] -> total (concat m') = 0.
Proof.
  unfold treated. intros H [->| ->] Hn.
  - destruct std; [|subst; apply mirrored_total]. destruct H as (_ & H & _).
    unfold average in H. pose proof (len_pos _ Hn). apply Rmult_integral in H as [H|H]; [exact H|]. apply Rinv_neq_0_compat in H; [contradiction|lra].
  - destruct H as (_ & H & _).
    unfold average in H. pose proof (len_pos _ Hn). apply Rmult_integral in H as [H|H]; [exact H|]. apply Rinv_neq_0_compat in H; [contradiction|lra].
Qed.
Lemma gbm_ln S b s dt eps : 0 < S -> ln (gbm S b s dt eps) = ln S + ((b - s ^ 2 / 2) * (INR (length eps) * dt) + s * sqrt dt * total eps).
Proof. intro. unfold gbm. rewrite ln_mult, ln_exp by (try apply exp_pos; assumption). reflexivity. Qed.
Lemma treated_shape n anti std m m' : treated anti std m m' -> shaped n m -> shaped n m' /\ length m' = ((if anti then 2 else 1) * length m)%nat.
Proof.
  intros H [H1 H2]. unfold treated in H. set (m1 := if anti then mirrored m else m) in *.
  assert (S1 : shaped n m1 /\ length m1 = ((if anti then 2 else 1) * length m)%nat).
  { unfold m1. destruct anti; [|split; [split; assumption|cbn; lia]]. unfold mirrored. split; [split|].
    - destruct m; [contradiction|discriminate].
    - apply Forall_app. split; [exact H2|]. clear - H2. induction H2; constructor; auto. now rewrite map_length.
    - rewrite app_length, map_length. cbn. lia. }
  destruct std; [|now subst]. destruct H as ((c & d & _ & ->) & _). destruct S1 as [[S1 S2] S3]. split; [split|].
  - destruct m1; [contradiction|discriminate].
  - clear - S2. induction S2; constructor; auto. now rewrite map_length.
  - now rewrite map_length.
Qed.
Lemma concat_nonempty n (m : list (list R)) : (0 < n)%nat -> shaped n m -> concat m <> [].
Proof. intros Hn [H1 H2]. destruct m as [|row m]; [contradiction|]. inversion H2; subst. destruct row; [cbn in *; lia|discriminate]. Qed.

(* With antithetic or standardised innovations the simulation is exactly centred in every loop: the average log terminal price over the paths is ln S + (b - sigma^2/2) t; antithetic sampling doubles the number of paths. *)
Lemma mc_moments : forall (anti std : bool) (E E' : list (list R)) (S b s t : R) (len : nat), 0 < S -> (0 < len)%nat ->
  shaped len E -> treated anti std E E' ->
  (anti = true \/ std = true -> average (map (fun row => ln (gbm S b s (t / INR len) row)) E') = ln S + (b - s ^ 2 / 2) * t) /\
  length E' = ((if anti then 2 else 1) * length E)%nat.
Proof.
  intros anti std E E' S b s t len HS Hl HE HT. destruct (treated_shape len anti std E E' HT HE) as [HE' HL]. split; [|exact HL].
  intro Hc. assert (Hn : 0 < INR len) by now apply lt_0_INR. destruct HE' as [E1 E2].
  transitivity (average (map (fun row => (ln S + (b - s ^ 2 / 2) * t) - (- (s * sqrt (t / INR len))) * total row) E')).
  - apply average_ext. intros row Hr. rewrite gbm_ln by exact HS. rewrite Forall_forall in E2. rewrite (E2 row Hr). field. lra.
  - rewrite average_minus, average_const, average_scal by exact E1. unfold average. rewrite map_length, <- concat_total.
    rewrite (treated_total anti std E E' HT Hc (concat_nonempty len E' Hl (conj E1 E2))). unfold Rdiv. ring.
Qed.

(* The antithetic estimate is the average of the plain estimates from the innovations and from their negatives. *)
Lemma mc_antithetic_estimate : forall (asian call : bool) (S K t r b s dt : R) (E E' : list (list R)), treated true false E E' ->
  estimate asian call S K t r b s dt E' =
  (estimate asian call S K t r b s dt E + estimate asian call S K t r b s dt (map (map Ropp) E)) / 2.
Proof.
  intros * ->. unfold estimate, mirrored. rewrite map_app. unfold average. rewrite total_app, app_length, !map_length, plus_INR.
  destruct E as [|row E]; [cbn; unfold Rdiv; ring|]. pose proof (len_pos (row :: E) ltac:(discriminate)). field. lra.
Qed.

(** ** Payoffs *)
(* With zero volatility every loop gives exactly the discounted payoff of the forward, whatever the innovations, for the plain vanilla payoff. *)
Lemma mc_zero_vol : forall (call : bool) (S K t r b : R) (len : nat) (E : list (list R)), (0 < len)%nat -> shaped len E ->
  estimate false call S K t r b 0 (t / INR len) E = discounted call K t r (S * exp (b * t)).
Proof.
  intros call S K t r b len E Hl [H1 H2]. assert (Hn : 0 < INR len) by now apply lt_0_INR. unfold estimate.
  rewrite <- (average_const (discounted call K t r (S * exp (b * t))) E H1). apply average_ext. intros row Hr.
  rewrite Forall_forall in H2. unfold underlying, gbm. rewrite (H2 row Hr). do 3 f_equal. field. lra.
Qed.
(* With one time step the arithmetic Asian option is the plain vanilla option. *)
Lemma mc_single_step : forall (call : bool) (S K t r b s dt : R) (E : list (list R)), Forall (fun row => length row = 1%nat) E ->
  estimate true call S K t r b s dt E = estimate false call S K t r b s dt E.
Proof.
  intros * H. unfold estimate. apply average_ext. intros row Hr. rewrite Forall_forall in H. specialize (H row Hr).
  destruct row as [|x [|y row]]; try discriminate. unfold underlying, gbm_average, average, total. cbn. f_equal. field.
Qed.
Lemma average_mem (f : nat -> R) l : l <> [] -> (exists k, In k l /\ f k <= average (map f l)) /\ (exists k, In k l /\ average (map f l) <= f k).
Proof.
  intro Hn. split.
  - destruct (list_eq_dec Nat.eq_dec l []) as [|_]; [contradiction|].
    assert (HM : exists k, In k l /\ forall j, In j l -> f k <= f j).
    { clear -Hn. induction l as [|x l IH]; [contradiction|]. destruct l as [|y l]; [exists x; split; [now left|intros j [->|[]]; lra]|].
      destruct IH as (k & Hk & HK); [discriminate|]. destruct (Rle_dec (f x) (f k)).
      - exists x. split; [now left|]. intros j [->|Hj]; [lra|]. specialize (HK j Hj). lra.
      - exists k. split; [now right|]. intros j [->|Hj]; [lra|]. now apply HK. }
    destruct HM as (k & Hk & HK). exists k. split; [exact Hk|]. rewrite <- (average_const (f k) l Hn). now apply average_le.
  - assert (HM : exists k, In k l /\ forall j, In j l -> f j <= f k).
    { clear -Hn. induction l as [|x l IH]; [contradiction|]. destruct l as [|y l]; [exists x; split; [now left|intros j [->|[]]; lra]|].
      destruct IH as (k & Hk & HK); [discriminate|]. destruct (Rle_dec (f k) (f x)).
      - exists x. split; [now left|]. intros j [->|Hj]; [lra|]. specialize (HK j Hj). lra.
      - exists k. split; [now right|]. intros j [->|Hj]; [lra|]. now apply HK. }
    destruct HM as (k & Hk & HK). exists k. split; [exact Hk|]. rewrite <- (average_const (f k) l Hn). now apply average_le.
Qed.
(* The average an Asian option is written on lies between the lowest and the highest price of its path. *)
Lemma mc_asian_between : forall (S b s dt : R) (row : list R), row <> [] ->
  exists i j, (1 <= i <= length row)%nat /\ (1 <= j <= length row)%nat /\
    gbm S b s dt (firstn i row) <= underlying true S b s dt row <= gbm S b s dt (firstn j row).
Proof.
  intros S b s dt row Hn. unfold underlying, gbm_average.
  destruct (average_mem (fun k => gbm S b s dt (firstn k row)) (seq 1 (length row))) as [(i & Hi & Hi') (j & Hj & Hj')].
  { destruct row; [contradiction|discriminate]. }
  apply in_seq in Hi, Hj. exists i, j. repeat split; (lia || assumption).
Qed.

(* Every estimate lies between the discounted payoff of the average underlying (Jensen) and the discounted average underlying, resp. strike; call estimates decrease and put estimates increase with the strike, with slope at most the discount factor, and both are convex in it. *)
Lemma mc_bounds : forall (asian call : bool) (S K t r b s dt : R) (E : list (list R)), 0 < S -> 0 < K -> E <> [] ->
  Forall (fun row => row <> []) E ->
  discounted call K t r (average (map (underlying asian S b s dt) E)) <= estimate asian call S K t r b s dt E
    <= exp (- r * t) * (if call then average (map (underlying asian S b s dt) E) else K) /\
  (forall K', K <= K' ->
     0 <= (if call then 1 else -1) * (estimate asian call S K t r b s dt E - estimate asian call S K' t r b s dt E) <= exp (- r * t) * (K' - K)) /\
  (forall K' w, 0 <= w <= 1 -> estimate asian call S (w * K + (1 - w) * K') t r b s dt E <=
     w * estimate asian call S K t r b s dt E + (1 - w) * estimate asian call S K' t r b s dt E).
Proof.
  intros asian call S K t r b s dt E HS HK HE HR. set (U := underlying asian S b s dt). pose proof (exp_pos (- r * t)) as He.
  assert (HU : forall row, In row E -> 0 <= U row).
  { intros row Hr. rewrite Forall_forall in HR. assert (G : forall l, 0 < gbm S b s dt l) by (intro; apply Rmult_lt_0_compat; [exact HS|apply exp_pos]).
    unfold U, underlying. destruct asian; [|left; apply G].
    destruct (mc_asian_between S b s dt row (HR row Hr)) as (i & j & _ & _ & B & _). unfold underlying in B. specialize (G (firstn i row)). lra. }
  unfold estimate. fold U. split; [split|split].
  - unfold discounted. rewrite average_scal. apply Rmult_le_compat_l; [lra|]. apply Rmax_lub.
    + rewrite <- (average_const 0 E HE) at 1. apply average_le. intros. apply Rmax_l.
    + destruct call.
      * rewrite <- (average_const K E HE) at 1. rewrite <- average_minus. apply average_le. intros. apply Rmax_r.
      * rewrite <- (average_const K E HE) at 1. rewrite <- average_minus. apply average_le. intros. apply Rmax_r.
  - unfold discounted. rewrite average_scal. apply Rmult_le_compat_l; [lra|]. destruct call.
    + apply average_le. intros row Hr. specialize (HU row Hr). apply Rmax_lub; lra.
    + apply Rle_trans with (average (map (fun _ => K) E)); [|rewrite average_const by exact HE; lra].
      apply average_le. intros row Hr. specialize (HU row Hr). apply Rmax_lub; lra.
  - intros K' HK'. rewrite <- average_minus, <- average_scal. rewrite <- (average_const 0 E HE) at 1. rewrite <- (average_const (exp (- r * t) * (K' - K)) E HE).
    assert (G : forall row, 0 <= (if call then 1 else -1) * (discounted call K t r (U row) - discounted call K' t r (U row)) <= exp (- r * t) * (K' - K)).
    { intro row. unfold discounted. rewrite <- Rmult_minus_distr_l, <- Rmult_assoc, (Rmult_comm _ (exp _)), Rmult_assoc.
      assert (0 <= (if call then 1 else -1) * (Rmax 0 (if call then U row - K else K - U row) - Rmax 0 (if call then U row - K' else K' - U row)) <= K' - K).
      { unfold Rmax. destruct call; repeat destruct Rle_dec; lra. }
      set (q := (if call then 1 else -1) * _) in *. nra. }
    split; apply average_le; intros; apply G.
  - intros K' w Hw. rewrite <- !average_scal.
    assert (G : forall row, discounted call (w * K + (1 - w) * K') t r (U row) <= w * discounted call K t r (U row) + (1 - w) * discounted call K' t r (U row)).
    { intro row. unfold discounted.
      assert (Rmax 0 (if call then U row - (w * K + (1 - w) * K') else w * K + (1 - w) * K' - U row) <=
        w * Rmax 0 (if call then U row - K else K - U row) + (1 - w) * Rmax 0 (if call then U row - K' else K' - U row)).
      { destruct call; apply Rmax_lub; unfold Rmax; repeat destruct Rle_dec; nra. }
      nra. }
    rewrite <- (Rplus_0_r (average _)). 
    assert (A : average (map (fun row => w * discounted call K t r (U row)) E) + average (map (fun row => (1 - w) * discounted call K' t r (U row)) E) =
      average (map (fun row => w * discounted call K t r (U row) + (1 - w) * discounted call K' t r (U row)) E)).
    { unfold average. rewrite !map_length, total_plus. unfold Rdiv. ring. }
    rewrite A, Rplus_0_r. apply average_le. intros. apply G.
Qed.
