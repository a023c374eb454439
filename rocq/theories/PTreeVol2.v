(** Tree prices against volatility and interest rates (C76, C77). *)
From Coq Require Import Reals String List Arith ZArith QArith Bool Lia Lra Psatz.
From Coquelicot Require Import Coquelicot.
From Interval Require Import Tactic.
From Verif Require Import Num Py Arr MTrees STrees PTrees PTrees2 PStop PTrees3 PLattice PTrees4 PCnd PTreeVol.
Import ListNotations.
Open Scope R_scope.

(* ------------------------------------------------------------------ C76 *)
(*@ C76_volatility | European and American prices of CRR and trinomial trees, calls and puts, do not decrease with the volatility as soon as the smaller volatility makes the weights probabilities. The same holds for TIAN trees as long as sigma^2 dt <= ln(3/2). *)
Lemma c76_volatility : forall c S K t r b s1 s2 n (amer call : bool),
  n <> 0%nat -> 0 < S -> 0 < t -> 0 < s1 -> s1 <= s2 -> c <> Bi JR -> weights_ok c b s1 (t / INR n) ->
  (c = Bi TIAN -> s2 ^ 2 * (t / INR n) <= ln (3 / 2)) ->
  exists v1 v2,
    tree_price c (mkTree S K t r b s1 (the_type amer) n) call false = Ok (Price v1) /\
    tree_price c (mkTree S K t r b s2 (the_type amer) n) call false = Ok (Price v2) /\
    v1 <= v2.
Proof.
  intros c S K t r b s1 s2 n amer call Hn HS Ht H1 H12 Hc Hw HT. rewrite !price_WM by (auto; lra).
  do 2 eexists. do 2 (split; [reflexivity|]). pose proof (dt_pos t n Hn Ht) as Hd. pose proof (exp_pos (- r * (t / INR n))) as HD.
  destruct (step_vol c b s1 s2 _ Hd H1 H12 Hc Hw HT) as [W2 E].
  apply (WM_cmp cvx); auto.
  - intros a Ha. split; [now apply Hw|]. apply (moves_pos' 0 0 t r b s1 n Hn Ht ltac:(lra) c a Ha).
  - intro m. apply WM_cvx; auto.
  - intros g x Hg _ Hx. apply Rmult_le_compat_l; [lra|]. now apply E.
Qed.

(** a put whose strike lies below all final prices is worthless *)
Lemma WM_put_zero p u d D K m : 0 < d <= u -> forall x, 0 < x -> K <= x * d ^ m -> WM false (two p u d) D (-1) K m x = 0.
Proof.
  intro Hd. induction m; intros x Hx HK.
  - rewrite WM_0. simpl in HK. apply Rmax_right. lra.
  - rewrite WM_S, Ex_two. pose proof (pow_lt d m ltac:(lra)) as Hm. simpl in HK.
    assert (x * d * d ^ m <= x * u * d ^ m) by (apply Rmult_le_compat_r; [lra|]; apply Rmult_le_compat_l; lra).
    rewrite !IHm; try (apply Rmult_lt_0_compat; lra); [ring|lra|lra].
Qed.
(** and its call is worth the discounted forward minus strike *)
Lemma WM_deep_call p u d D K m x : 0 < d <= u -> 0 < x -> K <= x * d ^ m ->
  WM false (two p u d) D 1 K m x = D ^ m * (x * (p * u + (1 - p) * d) ^ m - K).
Proof.
  intros Hd Hx HK. assert (HS : sumR (map fst (two p u d)) = 1) by (unfold two; cbn [map fst sumR fold_right]; ring).
  pose proof (WM_parity (two p u d) D HS K m x) as H. rewrite (WM_put_zero p u d D K m Hd x Hx HK), Rminus_0_r in H.
  rewrite H. unfold two. cbn [map fst snd sumR fold_right]. now rewrite Rplus_0_r.
Qed.

(** the mean of a JR step falls with the volatility *)
Lemma jr_slope x : 0 < x -> (1 - x) * exp x < (1 + x) * exp (- x).
Proof.
  intro Hx. pose proof (incr_of_derive (fun x => (1 + x) * exp (- x) - (1 - x) * exp x) (fun x => x * (exp x - exp (- x))) 0 x) as H.
  assert (0 < (1 + x) * exp (- x) - (1 - x) * exp x); [|lra].
  replace 0 with ((1 + 0) * exp (- 0) - (1 - 0) * exp 0) by (rewrite Ropp_0, exp_0; ring). apply H; auto.
  - intros y _. auto_derive; [easy|]. ring.
  - intros y Hy. apply Rmult_lt_0_compat; [lra|]. assert (exp (- y) < exp y) by (apply exp_increasing; lra). lra.
Qed.
Lemma jr_mean x y : 0 < x -> x < y -> exp (- (y ^ 2 / 2) + y) + exp (- (y ^ 2 / 2) - y) < exp (- (x ^ 2 / 2) + x) + exp (- (x ^ 2 / 2) - x).
Proof.
  intros Hx Hy.
  pose proof (incr_of_derive (fun x => - (exp (- (x ^ 2 / 2) + x) + exp (- (x ^ 2 / 2) - x)))
    (fun x => exp (- (x ^ 2 / 2)) * ((1 + x) * exp (- x) - (1 - x) * exp x)) x y) as H.
  assert (X : - (exp (- (x ^ 2 / 2) + x) + exp (- (x ^ 2 / 2) - x)) < - (exp (- (y ^ 2 / 2) + y) + exp (- (y ^ 2 / 2) - y))); [|lra].
  apply H; auto.
  - intros z _. auto_derive; [easy|].
    replace (- (z ^ 2 / 2) - z) with (- (z ^ 2 / 2) + - z) by ring. replace (- (z * (z * 1) * / 2) + z) with (- (z ^ 2 / 2) + z) by (simpl; field).
    replace (- (z * (z * 1) * / 2) + - z) with (- (z ^ 2 / 2) + - z) by (simpl; field).
    rewrite !exp_plus. field.
  - intros z Hz. apply Rmult_lt_0_compat; [apply exp_pos|]. pose proof (jr_slope z ltac:(lra)). lra.
Qed.

(*@ C76_jr_refuted | Jarrow-Rudd trees fail: for every number of steps and every pair of volatilities, a European call whose strike lies below all final prices of both trees is strictly cheaper with the larger volatility. *)
Lemma c76_jr : forall S K t r b s1 s2 n,
  n <> 0%nat -> 0 < S -> 0 < t -> 0 < s1 -> s1 < s2 ->
  K <= S * step_d JR b s1 (t / INR n) ^ n -> K <= S * step_d JR b s2 (t / INR n) ^ n ->
  exists v1 v2,
    tree_price (Bi JR) (mkTree S K t r b s1 "european" n) true false = Ok (Price v1) /\
    tree_price (Bi JR) (mkTree S K t r b s2 "european" n) true false = Ok (Price v2) /\
    v2 < v1.
Proof.
  intros S K t r b s1 s2 n Hn HS Ht H1 H12 K1 K2. change "european"%string with (the_type false).
  rewrite !price_WM by (auto; lra). do 2 eexists. do 2 (split; [reflexivity|]). unfold zof.
  pose proof (dt_pos t n Hn Ht) as Hd. set (dt := t / INR n) in *. pose proof (exp_pos (- r * dt)) as HD.
  pose proof (sqrt_lt_R0 dt Hd) as Hq. assert (Eq : sqrt dt * sqrt dt = dt) by (apply sqrt_sqrt; lra).
  assert (O : forall s, 0 < s -> 0 < step_d JR b s dt <= step_u JR b s dt).
  { intros s Hs. cbn [step_d step_u]. split; [apply exp_pos|]. apply exp_le_mono. assert (0 < s * sqrt dt) by now apply Rmult_lt_0_compat. lra. }
  unfold moves. change (WM false (two (1 / 2) (step_u JR b s2 dt) (step_d JR b s2 dt)) (exp (- r * dt)) 1 K n S <
    WM false (two (1 / 2) (step_u JR b s1 dt) (step_d JR b s1 dt)) (exp (- r * dt)) 1 K n S).
  rewrite !WM_deep_call; auto; [|apply O; lra..].
  apply Rmult_lt_compat_l; [now apply pow_lt|]. apply Rplus_lt_compat_r. apply Rmult_lt_compat_l; auto.
  assert (M : forall s, 1 / 2 * step_u JR b s dt + (1 - 1 / 2) * step_d JR b s dt =
    exp (b * dt) / 2 * (exp (- ((s * sqrt dt) ^ 2 / 2) + s * sqrt dt) + exp (- ((s * sqrt dt) ^ 2 / 2) - s * sqrt dt))).
  { intro s. cbn [step_u step_d].
    replace ((b - s ^ 2 / 2) * dt + s * sqrt dt) with (b * dt + (- ((s * sqrt dt) ^ 2 / 2) + s * sqrt dt)).
    2: { replace ((s * sqrt dt) ^ 2) with (s ^ 2 * (sqrt dt * sqrt dt)) by ring. rewrite Eq. field. }
    replace ((b - s ^ 2 / 2) * dt - s * sqrt dt) with (b * dt + (- ((s * sqrt dt) ^ 2 / 2) - s * sqrt dt)).
    2: { replace ((s * sqrt dt) ^ 2) with (s ^ 2 * (sqrt dt * sqrt dt)) by ring. rewrite Eq. field. }
    rewrite !(exp_plus (b * dt)). field. }
  apply pow_strict; auto. rewrite !M. split.
  - apply Rmult_lt_0_compat; [apply Rdiv_lt_0_compat; [apply exp_pos|lra]|]. apply Rplus_lt_0_compat; apply exp_pos.
  - apply Rmult_lt_compat_l; [apply Rdiv_lt_0_compat; [apply exp_pos|lra]|]. apply jr_mean.
    + now apply Rmult_lt_0_compat.
    + now apply Rmult_lt_compat_r.
Qed.

(*@ C76_tian_refuted | The bound on TIAN's steps is needed: one step of one year, spot 100, strike 80, no interest or carry: the put is worth something with volatility 60% and nothing with volatility 150%. *)
Lemma c76_tian : exists v1,
    tree_price (Bi TIAN) (mkTree 100 80 1 0 0 (6/10) "european" 1) false false = Ok (Price v1) /\
    tree_price (Bi TIAN) (mkTree 100 80 1 0 0 (15/10) "european" 1) false false = Ok (Price 0) /\ 0 < v1.
Proof.
  change "european"%string with (the_type false). rewrite !price_WM by (auto; lra).
  replace (1 / INR 1) with 1 by (simpl; field). unfold zof.
  destruct (jr_tian_weights 0 (6/10) 1 ltac:(lra) ltac:(lra)) as (_ & _ & A1 & A2).
  destruct (jr_tian_weights 0 (15/10) 1 ltac:(lra) ltac:(lra)) as (_ & _ & B1 & B2).
  eexists. split; [reflexivity|]. split.
  - do 2 f_equal. unfold moves. fold (two (step_p TIAN 0 (15 / 10) 1) (step_u TIAN 0 (15 / 10) 1) (step_d TIAN 0 (15 / 10) 1)).
    assert (8 / 10 <= step_d TIAN 0 (15 / 10) 1) by (clear; rewrite tian_d'; unfold ty; interval).
    set (d := step_d TIAN 0 (15 / 10) 1) in *. set (u := step_u TIAN 0 (15 / 10) 1) in *.
    apply WM_put_zero; [split; lra|lra|]. rewrite pow_1. lra.
  - unfold moves. fold (two (step_p TIAN 0 (6 / 10) 1) (step_u TIAN 0 (6 / 10) 1) (step_d TIAN 0 (6 / 10) 1)).
    rewrite WM_S, Ex_two, !WM_0. rewrite Rmult_0_l, exp_0 in *.
    assert (U : step_d TIAN 0 (6 / 10) 1 <= 79 / 100) by (clear; rewrite tian_d'; unfold ty; interval).
    set (u := step_u TIAN 0 (6 / 10) 1) in *. set (d := step_d TIAN 0 (6 / 10) 1) in *.
    rewrite (Rmax_left (-1 * (100 * d - 80))) by lra. rewrite (Rmax_right (-1 * (100 * u - 80))) by lra.
    assert (P : step_p TIAN 0 (6 / 10) 1 < 1).
    { cbn [step_p]. fold u d. rewrite Rmult_0_l, exp_0. apply Rmult_lt_reg_r with (u - d); [lra|].
      unfold Rdiv. rewrite Rmult_assoc, Rinv_l by lra. lra. }
    set (p := step_p TIAN 0 (6 / 10) 1) in *. assert (0 < (1 - p) * (-1 * (100 * d - 80))) by (apply Rmult_lt_0_compat; lra).
    replace (- 0 * 1) with 0 by ring. rewrite exp_0. lra.
Qed.

(* ------------------------------------------------------------------ C77 *)
(*@ C77_interest | With the cost of carry held fixed, European and American prices of all four classes, calls and puts, do not increase with the interest rate. *)
Lemma c77_interest : forall c S K t r1 r2 b sigma n (amer call : bool),
  n <> 0%nat -> 0 < S -> 0 < t -> 0 < sigma -> r1 <= r2 -> weights_ok c b sigma (t / INR n) ->
  exists v1 v2,
    tree_price c (mkTree S K t r1 b sigma (the_type amer) n) call false = Ok (Price v1) /\
    tree_price c (mkTree S K t r2 b sigma (the_type amer) n) call false = Ok (Price v2) /\
    v2 <= v1.
Proof.
  intros c S K t r1 r2 b s n amer call Hn HS Ht Hs Hr Hw. rewrite !price_WM by (auto; lra).
  do 2 eexists. do 2 (split; [reflexivity|]). pose proof (dt_pos t n Hn Ht) as Hd.
  assert (MP : forall a, In a (moves c b s (t / INR n)) -> 0 <= fst a /\ 0 < snd a).
  { intros a Ha. split; [now apply Hw|]. apply (moves_pos' 0 0 t r1 b s n Hn Ht ltac:(lra) c a Ha). }
  apply (WM_cmp (fun _ => True)); auto; try apply exp_pos.
  intros g x _ Hg Hx. apply Rmult_le_compat_r; [now apply Ex_nonneg|]. apply exp_le_mono. nra.
Qed.

(*@ C77_carry | With the interest rate held fixed, calls of all four classes do not decrease and puts do not increase with the cost of carry, European and American. *)
Lemma c77_carry : forall c S K t r b1 b2 sigma n (amer : bool),
  n <> 0%nat -> 0 < S -> 0 < t -> 0 < sigma -> b1 <= b2 ->
  weights_ok c b1 sigma (t / INR n) -> weights_ok c b2 sigma (t / INR n) ->
  exists c1 c2 p1 p2,
    tree_price c (mkTree S K t r b1 sigma (the_type amer) n) true false = Ok (Price c1) /\
    tree_price c (mkTree S K t r b2 sigma (the_type amer) n) true false = Ok (Price c2) /\
    tree_price c (mkTree S K t r b1 sigma (the_type amer) n) false false = Ok (Price p1) /\
    tree_price c (mkTree S K t r b2 sigma (the_type amer) n) false false = Ok (Price p2) /\
    c1 <= c2 /\ p2 <= p1.
Proof.
  intros c S K t r b1 b2 s n amer Hn HS Ht Hs Hb W1 W2. rewrite !price_WM by (auto; lra).
  do 4 eexists. do 4 (split; [reflexivity|]). unfold zof. pose proof (dt_pos t n Hn Ht) as Hd. pose proof (exp_pos (- r * (t / INR n))) as HD.
  assert (M1 : forall a, In a (moves c b1 s (t / INR n)) -> 0 <= fst a /\ 0 < snd a).
  { intros a Ha. split; [now apply W1|]. apply (moves_pos' 0 0 t r b1 s n Hn Ht ltac:(lra) c a Ha). }
  assert (M2 : forall a, In a (moves c b2 s (t / INR n)) -> 0 <= fst a /\ 0 < snd a).
  { intros a Ha. split; [now apply W2|]. apply (moves_pos' 0 0 t r b2 s n Hn Ht ltac:(lra) c a Ha). }
  pose proof (step_carry c b1 b2 s _ Hd Hs Hb W1 W2) as E. split.
  - apply (WM_cmp inc); auto.
    + intro m. apply WM_inc; auto. intros a Ha. now apply M2.
    + intros g x Hg _ Hx. apply Rmult_le_compat_l; [lra|]. now apply E.
  - apply (WM_cmp' dec); auto.
    + intro m. apply WM_dec; auto. intros a Ha. now apply M2.
    + intros g x Hg _ Hx. apply Rmult_le_compat_l; [lra|].
      assert (Hg' : inc (fun y => - g y)) by (intros y y' Hy Hyy; specialize (Hg y y' Hy Hyy); lra).
      specialize (E _ x Hg' Hx). rewrite !Ex_opp in E. lra.
Qed.

(*@ C77_yield | For an asset with dividend yield q (b = r - q) calls of all four classes do not decrease and puts do not increase with the interest rate, European and American, although future payments are discounted more. *)
Lemma c77_yield : forall c S K t r1 r2 q sigma n (amer : bool),
  n <> 0%nat -> 0 < S -> 0 <= K -> 0 < t -> 0 < sigma -> r1 <= r2 ->
  weights_ok c (r1 - q) sigma (t / INR n) -> weights_ok c (r2 - q) sigma (t / INR n) ->
  exists c1 c2 p1 p2,
    tree_price c (mkTree S K t r1 (r1 - q) sigma (the_type amer) n) true false = Ok (Price c1) /\
    tree_price c (mkTree S K t r2 (r2 - q) sigma (the_type amer) n) true false = Ok (Price c2) /\
    tree_price c (mkTree S K t r1 (r1 - q) sigma (the_type amer) n) false false = Ok (Price p1) /\
    tree_price c (mkTree S K t r2 (r2 - q) sigma (the_type amer) n) false false = Ok (Price p2) /\
    c1 <= c2 /\ p2 <= p1.
Proof.
  intros c S K t r1 r2 q s n amer Hn HS HK Ht Hs Hb W1 W2. rewrite !price_WM by (auto; lra).
  do 4 eexists. do 4 (split; [reflexivity|]). unfold zof. pose proof (dt_pos t n Hn Ht) as Hd.
  pose proof (exp_pos (- r1 * (t / INR n))) as HD1. pose proof (exp_pos (- r2 * (t / INR n))) as HD2.
  assert (M1 : forall a, In a (moves c (r1 - q) s (t / INR n)) -> 0 <= fst a /\ 0 < snd a).
  { intros a Ha. split; [now apply W1|]. apply (moves_pos' 0 0 t r1 (r1 - q) s n Hn Ht ltac:(lra) c a Ha). }
  assert (M2 : forall a, In a (moves c (r2 - q) s (t / INR n)) -> 0 <= fst a /\ 0 < snd a).
  { intros a Ha. split; [now apply W2|]. apply (moves_pos' 0 0 t r2 (r2 - q) s n Hn Ht ltac:(lra) c a Ha). }
  pose proof (step_yield c q r1 r2 s _ Hd Hs Hb W1 W2) as E. split.
  - apply (WM_cmp rinc); auto. intro m. apply WM_rinc; auto.
  - apply (WM_cmp' rdec); auto.
    + intro m. apply WM_rdec; auto.
    + intros g x Hg _ Hx.
      assert (Hg' : rinc (fun y => - g y)) by (intros y y' Hy Hyy; specialize (Hg y y' Hy Hyy); lra).
      specialize (E _ x Hg' Hx). rewrite !Ex_opp in E. lra.
Qed.

(** the same as [ex_weights] for carries between 0 and 10% *)
Lemma ex_weights_b c b : 0 <= b <= 1/10 -> weights_ok c b (1/5) (1 / INR 50).
Proof.
  intro B. assert (E : INR 50 = 50) by (simpl; lra). rewrite E.
  assert (Hb : Rabs b = b) by (apply Rabs_pos_eq; lra).
  destruct c as [[]|].
  - apply crr_weights; try lra. rewrite Hb. assert (sqrt (1 / 50) <= 1) by (rewrite <- sqrt_1 at 2; apply sqrt_le_1_alt; lra).
    pose proof (sqrt_pos (1 / 50)). nra.
  - apply jr_tian_weights; lra.
  - apply jr_tian_weights; lra.
  - apply trinomial_weights; try lra. rewrite Hb.
    assert (sqrt (1 / 50 / 2) <= 1) by (rewrite <- sqrt_1 at 2; apply sqrt_le_1_alt; lra). pose proof (sqrt_pos (1 / 50 / 2)). nra.
Qed.
(** a strike far below all final prices *)
Lemma ex_jr s : s = 1/5 \/ s = 3/10 -> 5 <= 100 * step_d JR (2/100) s (1 / INR 50) ^ 50.
Proof.
  intro H. cbn [step_d]. rewrite exp_pow. assert (E : INR 50 = 50) by (simpl; lra). rewrite E.
  destruct H as [-> | ->]; interval.
Qed.
Lemma ex_tian : (3/10) ^ 2 * (1 / INR 50) <= ln (3 / 2).
Proof. assert (E : INR 50 = 50) by (simpl; lra). rewrite E. interval. Qed.
