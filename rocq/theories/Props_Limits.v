(** Property theorems C60-C63, C65-C67, C71, C79-C82 (limits of the two-asset tree, closed forms as means, Asian bounds, limits of American trees of one and two assets, properties of the American value, Black-Scholes prices against rates and maturity, Bjerksund-Stensland prices against the American value, Miltersen-Schwartz prices as means, American options with a long maturity, rate of convergence). *)
From Coquelicot Require Import Coquelicot.
From Coq Require Import QArith Reals String List Arith ZArith Lra Lia.
From Verif Require Import Num Py MBase MVanilla MTrees MSpread MMonte STrees SLattice SSpread SSpread2 SMonte SMonte2 PCnd PGauss SHeston PTwoAsset PAsian SAmer PAmer6 PAmer7 SAmer2 PAmer9 MAmerican PAmer10 PAmer11 PAmer12 PRates PBs3 PBs4 SBs PBs5 SMs PMs2 PPerp PPerp2 PPerp3 PRate3.
Import List ListNotations.
Open Scope R_scope.

(* ---------------------------------------------------------------- C60 *)
(** European prices of the two-asset tree (codes 1-6, 9 and the exchange option's call) converge, as the number of steps grows, to the discounted mean of the documented payoff over two correlated lognormal prices: for every tolerance all trees with enough steps are within it. The mean always exists. *)
Theorem C60_european_limit : forall S1 S2 t r b1 b2 s1 s2 rho K K2 Q1 Q2 code call otype g,
  0 < t -> -1 <= rho <= 1 -> code <> 8%Z -> (code = 7%Z -> call = true) -> otype <> "american"%string ->
  (forall x, doc_payoff code call Q1 Q2 K K2 (fst x) (snd x) = Some (g x)) ->
  exists v, two_asset_value S1 S2 t r b1 b2 s1 s2 rho g v /\
    forall eps, 0 < eps -> exists N, forall n, (N <= n)%nat -> n <> 0%nat -> exists p,
      all_types call false code S1 S2 t r b1 b2 s1 s2 rho (Some K) (Some K2) Q1 Q2 otype n = Ok (Price p) /\ Rabs (p - v) < eps.
Proof. exact c60_limit. Qed.
Print Assumptions C60_european_limit.
Example C60_european_limit_case := C60_european_limit 120 100 (1/2) (5/100) (2/100) (1/100) (1/4) (1/5) (1/2) 10 0 1 1 1 true "european" (fun x => Rmax 0 (1 * fst x - 1 * snd x - 10))
  ltac:(lra) ltac:(lra) ltac:(discriminate) ltac:(discriminate) ltac:(discriminate) ltac:(intro x; reflexivity).

(** The forward prices implied by the tree, which are below the continuous-time ones for every number of steps, converge to S exp(bt), so put-call parity with the continuous-time forwards holds in the limit. *)
Theorem C60_forwards : forall S1 S2 t b1 b2 s1 s2 rho, 0 < t -> -1 <= rho <= 1 ->
  is_lim_seq (fun n => lattice_fwd1 S1 t b1 s1 n) (S1 * exp (b1 * t)) /\
  is_lim_seq (fun n => lattice_fwd2 S2 t b2 s2 rho n) (S2 * exp (b2 * t)).
Proof. exact c60_forwards. Qed.
Print Assumptions C60_forwards.
Example C60_forwards_case := C60_forwards 120 100 (1/2) (2/100) (1/100) (1/4) (1/5) (1/2) ltac:(lra) ltac:(lra).

(** The exchange option's call (code 7) converges to Margrabe's formula with the exact normal distribution function, which is the discounted mean payoff. *)
Theorem C60_exchange : forall S1 S2 t r b1 b2 s1 s2 rho K K2 Q1 Q2 otype,
  0 < S1 -> 0 < S2 -> 0 < Q1 -> 0 < Q2 -> 0 < t -> -1 < rho < 1 -> 0 < s2 -> otype <> "american"%string ->
  let v := margrabe S2 S1 t r b2 b1 s2 s1 rho Q2 Q1 in
  two_asset_value S1 S2 t r b1 b2 s1 s2 rho (fun x => Rmax 0 (Q2 * snd x - Q1 * fst x)) v /\
  forall eps, 0 < eps -> exists N, forall n, (N <= n)%nat -> n <> 0%nat -> exists p,
    all_types true false 7 S1 S2 t r b1 b2 s1 s2 rho (Some K) (Some K2) Q1 Q2 otype n = Ok (Price p) /\ Rabs (p - v) < eps.
Proof. exact c60_exchange. Qed.
Print Assumptions C60_exchange.
Example C60_exchange_case := C60_exchange 120 100 (1/2) (5/100) (2/100) (1/100) (1/4) (1/5) (1/2) 0 0 1 2 "european"
  ltac:(lra) ltac:(lra) ltac:(lra) ltac:(lra) ltac:(lra) ltac:(lra) ltac:(lra) ltac:(discriminate).


(* ---------------------------------------------------------------- C61 *)
(** With strike 0 Kirk's approximation is not one: call and put are, up to the 7.5e-8 error of the distribution function, the discounted mean payoffs of the two correlated lognormal assets. *)
Theorem C61_kirk : forall S1 S2 t r b1 b2 s1 s2 rho Q1 Q2,
  0 < S1 -> 0 < S2 -> 0 < Q1 -> 0 < Q2 -> 0 < t -> -1 < rho < 1 -> 0 < s2 ->
  let o := KirkOption S1 S2 0 t r b1 b2 s1 s2 rho Q1 Q2 in
  let tol := (Q1 * S1 * exp ((b1 - r) * t) + Q2 * S2 * exp ((b2 - r) * t)) * (75 / 10 ^ 9) in
  (exists v, two_asset_value S1 S2 t r b1 b2 s1 s2 rho (fun x => Rmax 0 (Q1 * fst x - Q2 * snd x)) v /\ Rabs (kirk_call o - v) <= tol) /\
  (exists v, two_asset_value S1 S2 t r b1 b2 s1 s2 rho (fun x => Rmax 0 (Q2 * snd x - Q1 * fst x)) v /\ Rabs (kirk_put o - v) <= tol).
Proof. exact c61_kirk. Qed.
Print Assumptions C61_kirk.
Example C61_kirk_case := C61_kirk 120 100 (1/2) (5/100) (2/100) (1/100) (1/4) (1/5) (1/2) 1 2
  ltac:(lra) ltac:(lra) ltac:(lra) ltac:(lra) ltac:(lra) ltac:(lra) ltac:(lra).

(** Generalised Black-Scholes prices are, up to the 7.5e-8 error of the distribution function, the discounted mean payoff of a lognormal asset; with the exact distribution function they are exactly it. *)
Theorem C61_gbs : forall (S K t r b s : R) (call : bool), 0 < S -> 0 < K -> 0 < t -> 0 < s -> exists price v : R,
  (if call then gbs_call else gbs_put) (GBSOption S K t r b (Some s)) = Ok price /\
  lognormal_value call S K t r b s v /\ Rabs (price - v) <= (S * exp ((b - r) * t) + K * exp (- r * t)) * (75 / 10 ^ 9) /\
  (if call then gbs_call_F Phi else gbs_put_F Phi) (GBSOption S K t r b (Some s)) = Ok v.
Proof. exact c61_gbs. Qed.
Print Assumptions C61_gbs.
Example C61_gbs_case := C61_gbs 100 95 (1/2) (5/100) (2/100) (1/4) false ltac:(lra) ltac:(lra) ltac:(lra) ltac:(lra).

(** Prices of European options in every binomial tree and the trinomial tree converge to the discounted mean payoff of a lognormal asset. *)
Theorem C61_tree : forall c (S K t r b s : R) (call : bool), 0 < S -> 0 < K -> 0 < t -> 0 < s -> exists (price : nat -> R) (v : R),
  lognormal_value call S K t r b s v /\
  (forall n, n <> 0%nat -> tree_price c (mkTree S K t r b s "european" n) call false = Ok (Price (price n))) /\ is_lim_seq price v.
Proof. exact c61_tree. Qed.
Print Assumptions C61_tree.
Example C61_tree_case := fun c => C61_tree c 100 95 (1/2) (5/100) (2/100) (1/4) true ltac:(lra) ltac:(lra) ltac:(lra) ltac:(lra).

(** However many steps the paths have, the mean price of the Monte Carlo option with the vanilla payoff is that same mean, plain or antithetic: averaging the code's price array over independent standard normal innovations gives the Black-Scholes value without any discretisation error. *)
Theorem C61_monte_carlo : forall (trace anti call : bool) (loops len paths : nat) (S K t r b s : R),
  0 < S -> 0 < K -> 0 < t -> 0 < s -> (1 <= loops)%nat -> (1 <= len)%nat -> (1 <= paths)%nat -> exists value v,
    (forall M, shaped len M -> length M = (loops * paths)%nat -> exists o prices tr,
      MonteCarloOption loops len paths S K t r b (Some s) from_stream wiener_path vanilla_payoff trace anti false = Ok o /\
      mc_price call o M = Ok (MArray prices, tr, []) /\ length prices = loops /\ value M = average prices) /\
    lognormal_value call S K t r b s v /\ is_matrix_expect (loops * paths) len value v.
Proof. exact c61_monte_carlo. Qed.
Print Assumptions C61_monte_carlo.
Example C61_monte_carlo_case := C61_monte_carlo true true false 3 12 1000 100 95 (1/2) (5/100) (2/100) (1/4)
  ltac:(lra) ltac:(lra) ltac:(lra) ltac:(lra) ltac:(lia) ltac:(lia) ltac:(lia).


(* ---------------------------------------------------------------- C62 *)
(** The mean price of the arithmetic Asian Monte Carlo option is at least the discounted payoff of the average forward price, and, for calls when b >= 0 and puts when b <= 0, at most the Black-Scholes value of the vanilla option with the same terms. *)
Theorem C62_asian_bounds : forall (trace anti call : bool) (loops len paths : nat) (S K t r b s : R),
  0 < S -> 0 < K -> 0 < t -> 0 < s -> (1 <= loops)%nat -> (1 <= len)%nat -> (1 <= paths)%nat -> exists value a v,
    (forall M, shaped len M -> length M = (loops * paths)%nat -> exists o prices tr,
      MonteCarloOption loops len paths S K t r b (Some s) from_stream wiener_path asian_payoff trace anti false = Ok o /\
      mc_price call o M = Ok (MArray prices, tr, []) /\ length prices = loops /\ value M = average prices) /\
    is_matrix_expect (loops * paths) len value a /\ lognormal_value call S K t r b s v /\
    discounted call K t r (average (map (fun k => S * exp (b * (INR k * (t / INR len)))) (seq 1 len))) <= a /\
    ((if call then 0 <= b else b <= 0) -> a <= v).
Proof. exact c62_bounds. Qed.
Print Assumptions C62_asian_bounds.
Example C62_asian_bounds_case := C62_asian_bounds false true true 3 12 1000 100 95 (1/2) (5/100) (2/100) (1/4)
  ltac:(lra) ltac:(lra) ltac:(lra) ltac:(lra) ltac:(lia) ltac:(lia) ltac:(lia).


(* ---------------------------------------------------------------- C63 *)
(** For all four classes the American tree price converges, as the number of steps grows, to the American value of the call or put on a lognormal asset: the limit, from below, of the values with finitely many equally spaced exercise dates. *)
Theorem C63_american_limit : forall c S K t r b sigma (call : bool), 0 < S -> 0 < K -> 0 < t -> 0 < sigma ->
  exists v price, american_value (call_put call K) r b sigma t S v /\
    (forall n, n <> 0%nat -> tree_price c (mkTree S K t r b sigma "american" n) call false = Ok (Price (price n))) /\
    is_lim_seq price v.
Proof. exact c63_limit. Qed.
Print Assumptions C63_american_limit.
Example C63_american_limit_case := fun c => C63_american_limit c 100 95 (1/2) (5/100) (2/100) (1/4) false ltac:(lra) ltac:(lra) ltac:(lra) ltac:(lra).

(** The American value is determined by the inputs, so all four classes have the same limit. *)
Theorem C63_unique : forall g r b sigma t S v w, 0 < S -> american_value g r b sigma t S v -> american_value g r b sigma t S w -> v = w.
Proof. exact c63_unique. Qed.
Print Assumptions C63_unique.
(** the limits of any two classes agree *)
Example C63_unique_case : forall c1 c2 (p1 p2 : nat -> R),
  (forall n, n <> 0%nat -> tree_price c1 (mkTree 100 95 (1/2) (5/100) (2/100) (1/4) "american" n) false false = Ok (Price (p1 n))) ->
  (forall n, n <> 0%nat -> tree_price c2 (mkTree 100 95 (1/2) (5/100) (2/100) (1/4) "american" n) false false = Ok (Price (p2 n))) ->
  exists v, is_lim_seq p1 v /\ is_lim_seq p2 v.
Proof.
  intros c1 c2 p1 p2 H1 H2. destruct (C63_american_limit_case c1) as (v & q1 & A1 & B1 & L1). destruct (C63_american_limit_case c2) as (w & q2 & A2 & B2 & L2).
  assert (HS : 0 < 100) by lra. rewrite (C63_unique _ _ _ _ _ _ _ _ HS A2 A1) in L2. exists v. split.
  - revert L1. apply is_lim_seq_ext_loc. exists 1%nat. intros n Hn. assert (X : n <> 0%nat) by lia. specialize (H1 n X). rewrite (B1 n X) in H1. congruence.
  - revert L2. apply is_lim_seq_ext_loc. exists 1%nat. intros n Hn. assert (X : n <> 0%nat) by lia. specialize (H2 n X). rewrite (B2 n X) in H2. congruence.
Qed.

(** The American value is at least what immediate exercise pays and at least the European value. *)
Theorem C63_bounds : forall S K t r b sigma (call : bool) v, 0 < S -> american_value (call_put call K) r b sigma t S v ->
  call_put call K S <= v /\ forall e, lognormal_value call S K t r b sigma e -> e <= v.
Proof. exact c63_bounds. Qed.
Print Assumptions C63_bounds.
Example C63_bounds_case : exists v, american_value (call_put false 95) (5/100) (2/100) (1/4) (1/2) 100 v /\ call_put false 95 100 <= v.
Proof.
  destruct (C63_american_limit_case Tri) as (v & p & A & _). exists v. split; [exact A|]. assert (HS : 0 < 100) by lra. exact (proj1 (C63_bounds 100 95 (1/2) (5/100) (2/100) (1/4) false v HS A)).
Qed.

(** When carry covers interest (b >= r >= 0) American calls of all four classes converge to the European Black-Scholes price, which is the American value; JR included, although its prices with finitely many steps may show early exercise (C27). *)
Theorem C63_no_early_exercise_call : forall c S K t r b sigma, 0 < S -> 0 < K -> 0 < t -> 0 < sigma -> 0 <= r -> r <= b ->
  exists v price, gbs_call_F Phi (GBSOption S K t r b (Some sigma)) = Ok v /\
    american_value (call_put true K) r b sigma t S v /\
    (forall n, n <> 0%nat -> tree_price c (mkTree S K t r b sigma "american" n) true false = Ok (Price (price n))) /\
    is_lim_seq price v.
Proof. exact c63_no_early_call. Qed.
Print Assumptions C63_no_early_exercise_call.
Example C63_no_early_exercise_call_case := C63_no_early_exercise_call (Bi JR) 100 95 (1/2) (2/100) (5/100) (1/4) ltac:(lra) ltac:(lra) ltac:(lra) ltac:(lra) ltac:(lra) ltac:(lra).

(** When r <= 0 and b <= r American puts of all four classes converge to the European Black-Scholes price. *)
Theorem C63_no_early_exercise_put : forall c S K t r b sigma, 0 < S -> 0 < K -> 0 < t -> 0 < sigma -> r <= 0 -> b <= r ->
  exists v price, gbs_put_F Phi (GBSOption S K t r b (Some sigma)) = Ok v /\
    american_value (call_put false K) r b sigma t S v /\
    (forall n, n <> 0%nat -> tree_price c (mkTree S K t r b sigma "american" n) false false = Ok (Price (price n))) /\
    is_lim_seq price v.
Proof. exact c63_no_early_put. Qed.
Print Assumptions C63_no_early_exercise_put.
Example C63_no_early_exercise_put_case := C63_no_early_exercise_put (Bi JR) 100 95 (1/2) (-2/100) (-5/100) (1/4) ltac:(lra) ltac:(lra) ltac:(lra) ltac:(lra) ltac:(lra) ltac:(lra).


(* ---------------------------------------------------------------- C65 *)
(** American prices of the two-asset tree (codes 1-6, 9 and the exchange option's call) converge, as the number of steps grows, to the American value of the documented payoff on two correlated lognormal assets; that value always exists. *)
Theorem C65_american_limit : forall S1 S2 t r b1 b2 s1 s2 rho K K2 Q1 Q2 code call g,
  0 < S1 -> 0 < S2 -> 0 < t -> -1 <= rho <= 1 -> code <> 8%Z -> (code = 7%Z -> call = true) ->
  (forall x, doc_payoff code call Q1 Q2 K K2 (fst x) (snd x) = Some (g x)) ->
  exists v price, american_value2 g r b1 b2 s1 s2 rho t (S1, S2) v /\
    (forall n, n <> 0%nat -> all_types call false code S1 S2 t r b1 b2 s1 s2 rho (Some K) (Some K2) Q1 Q2 "american" n = Ok (Price (price n))) /\
    is_lim_seq price v.
Proof. exact c65_limit. Qed.
Print Assumptions C65_american_limit.
(** an American put on the minimum of two assets *)
Example C65_american_limit_case := C65_american_limit 120 100 (1/2) (5/100) (2/100) (1/100) (1/4) (1/5) (1/2) 95 0 1 1 3 false
  (fun x => Rmax 0 (95 - Rmin (1 * fst x) (1 * snd x))) ltac:(lra) ltac:(lra) ltac:(lra) ltac:(lra) ltac:(lia) ltac:(lia) (fun x => eq_refl).

(** The American value of a claim on two assets is determined by the payoff and the market: two numbers satisfying its definition are equal. *)
Theorem C65_value_unique : forall g S1 S2 t r b1 b2 s1 s2 rho v w, 0 < S1 -> 0 < S2 ->
  american_value2 g r b1 b2 s1 s2 rho t (S1, S2) v -> american_value2 g r b1 b2 s1 s2 rho t (S1, S2) w -> v = w.
Proof. exact c65_unique. Qed.
Print Assumptions C65_value_unique.
(** renaming the payoff's parameters does not matter: with equal strikes the dual-strike call and the call on the maximum have the same American value *)
Example C65_value_unique_case : exists v (p2 p4 : nat -> R),
  (forall n, n <> 0%nat -> all_types true false 2 120 100 (1/2) (5/100) (2/100) (1/100) (1/4) (1/5) (1/2) (Some 95) (Some 95) 1 1 "american" n = Ok (Price (p2 n))) /\
  (forall n, n <> 0%nat -> all_types true false 4 120 100 (1/2) (5/100) (2/100) (1/100) (1/4) (1/5) (1/2) (Some 95) (Some 95) 1 1 "american" n = Ok (Price (p4 n))) /\
  is_lim_seq p2 v /\ is_lim_seq p4 v.
Proof.
  set (g := fun x : R * R => Rmax 0 (Rmax (1 * fst x) (1 * snd x) - 95)). assert (H1 : 0 < 120) by lra. assert (H2 : 0 < 100) by lra. assert (Ht : 0 < 1 / 2) by lra. assert (Hr : -1 <= 1 / 2 <= 1) by lra.
  destruct (C65_american_limit 120 100 (1/2) (5/100) (2/100) (1/100) (1/4) (1/5) (1/2) 95 95 1 1 2 true g H1 H2 Ht Hr ltac:(lia) ltac:(lia) ltac:(reflexivity)) as (v & p2 & A2 & B2 & L2).
  assert (Hg : forall x, doc_payoff 4 true 1 1 95 95 (fst x) (snd x) = Some (g x)).
  { intro x. cbn [doc_payoff]. unfold g. do 2 f_equal. unfold Rmax. destruct (Rle_dec (1 * fst x - 95) (1 * snd x - 95)), (Rle_dec (1 * fst x) (1 * snd x)); lra. }
  destruct (C65_american_limit 120 100 (1/2) (5/100) (2/100) (1/100) (1/4) (1/5) (1/2) 95 95 1 1 4 true g H1 H2 Ht Hr ltac:(lia) ltac:(lia) Hg) as (w & p4 & A4 & B4 & L4).
  rewrite (C65_value_unique _ _ _ _ _ _ _ _ _ _ _ _ H1 H2 A4 A2) in L4. exists v, p2, p4. auto.
Qed.

(** The American value is at least what immediate exercise pays and at least the European value. *)
Theorem C65_bounds : forall g S1 S2 t r b1 b2 s1 s2 rho v, 0 < S1 -> 0 < S2 -> american_value2 g r b1 b2 s1 s2 rho t (S1, S2) v ->
  g (S1, S2) <= v /\ forall e, two_asset_value S1 S2 t r b1 b2 s1 s2 rho g e -> e <= v.
Proof. exact c65_bounds. Qed.
Print Assumptions C65_bounds.
Example C65_bounds_case : exists v, american_value2 (fun x => Rmax 0 (95 - Rmin (1 * fst x) (1 * snd x))) (5/100) (2/100) (1/100) (1/4) (1/5) (1/2) (1/2) (90, 100) v /\ 5 <= v.
Proof.
  assert (H1 : 0 < 90) by lra. assert (H2 : 0 < 100) by lra.
  destruct (C65_american_limit 90 100 (1/2) (5/100) (2/100) (1/100) (1/4) (1/5) (1/2) 95 0 1 1 3 false (fun x => Rmax 0 (95 - Rmin (1 * fst x) (1 * snd x))) H1 H2 ltac:(lra) ltac:(lra) ltac:(lia) ltac:(lia) ltac:(reflexivity)) as (v & p & A & _).
  exists v. split; [exact A|]. pose proof (proj1 (C65_bounds _ _ _ _ _ _ _ _ _ _ _ H1 H2 A)) as B. cbn [fst snd] in B. unfold Rmax, Rmin in B. destruct (Rle_dec (1 * 90) (1 * 100)); destruct (Rle_dec 0 (95 - 1 * 90)); lra.
Qed.

(** When the payoff is the best of several portfolios of the two assets and cash (or nothing), and every position of every portfolio is worth at least as much later (an asset held long has carry of at least the interest rate, one held short at most that; cash paid earns interest), the American tree prices converge to the European value: the right to exercise early is worth nothing in the limit. *)
Theorem C65_no_early_exercise : forall S1 S2 t r b1 b2 s1 s2 rho K K2 Q1 Q2 code call ps,
  0 < S1 -> 0 < S2 -> 0 < t -> -1 <= rho <= 1 -> code <> 8%Z -> (code = 7%Z -> call = true) ->
  (forall x, doc_payoff code call Q1 Q2 K K2 (fst x) (snd x) = Some (best_of ps x)) -> Forall (better_later r b1 b2) ps ->
  exists v price, two_asset_value S1 S2 t r b1 b2 s1 s2 rho (best_of ps) v /\
    american_value2 (best_of ps) r b1 b2 s1 s2 rho t (S1, S2) v /\
    (forall n, n <> 0%nat -> all_types call false code S1 S2 t r b1 b2 s1 s2 rho (Some K) (Some K2) Q1 Q2 "american" n = Ok (Price (price n))) /\
    is_lim_seq price v.
Proof. exact c65_no_early. Qed.
Print Assumptions C65_no_early_exercise.
(** a call on the maximum of two assets without dividends *)
Example C65_no_early_exercise_case : exists v (price : nat -> R), two_asset_value 120 100 (1/2) (5/100) (5/100) (5/100) (1/4) (1/5) (1/2) (best_of [(1, 0, -95); (0, 1, -95)]) v /\
  (forall n, n <> 0%nat -> all_types true false 2 120 100 (1/2) (5/100) (5/100) (5/100) (1/4) (1/5) (1/2) (Some 95) (Some 0) 1 1 "american" n = Ok (Price (price n))) /\ is_lim_seq price v.
Proof.
  destruct (C65_no_early_exercise 120 100 (1/2) (5/100) (5/100) (5/100) (1/4) (1/5) (1/2) 95 0 1 1 2 true [(1, 0, -95); (0, 1, -95)]) as (v & p & A & _ & B & C); try lra; try lia.
  - intro x. cbn [doc_payoff best_of fold_right portfolio]. f_equal. assert (M : forall a b, Rmax a b = a /\ b <= a \/ Rmax a b = b /\ a <= b) by (intros a b; unfold Rmax; destruct (Rle_dec a b); lra).
    destruct (M (1 * fst x) (1 * snd x)) as [[-> ?]|[-> ?]]; destruct (M (0 * fst x + 1 * snd x + -95) 0) as [[-> ?]|[-> ?]];
    repeat match goal with |- context [Rmax ?a ?b] => destruct (M a b) as [[-> ?]|[-> ?]] end; lra.
  - repeat constructor; lra.
  - exists v, p. auto.
Qed.

(** The American exchange option's call (code 7), when the carry of the asset received covers interest and that of the asset given does not exceed it, converges to Margrabe's formula with the exact normal distribution function. *)
Theorem C65_exchange : forall S1 S2 t r b1 b2 s1 s2 rho K K2 Q1 Q2,
  0 < S1 -> 0 < S2 -> 0 < Q1 -> 0 < Q2 -> 0 < t -> -1 < rho < 1 -> 0 < s2 -> b1 <= r -> r <= b2 ->
  exists price,
    (forall n, n <> 0%nat -> all_types true false 7 S1 S2 t r b1 b2 s1 s2 rho (Some K) (Some K2) Q1 Q2 "american" n = Ok (Price (price n))) /\
    is_lim_seq price (margrabe S2 S1 t r b2 b1 s2 s1 rho Q2 Q1).
Proof. exact c65_exchange. Qed.
Print Assumptions C65_exchange.
Example C65_exchange_case := C65_exchange 120 100 (1/2) (5/100) (2/100) (5/100) (1/4) (1/5) (1/2) 0 0 1 2
  ltac:(lra) ltac:(lra) ltac:(lra) ltac:(lra) ltac:(lra) ltac:(lra) ltac:(lra) ltac:(lra) ltac:(lra).

(** The American value is at least the value with any number of equally spaced exercise dates, whatever their distance, as long as the last one is not after expiry. *)
Theorem C65_any_dates : forall S1 S2 t r b1 b2 s1 s2 rho K K2 Q1 Q2 code call g v k dt w,
  0 < S1 -> 0 < S2 -> 0 < t -> 0 < dt -> -1 <= rho <= 1 -> code <> 8%Z ->
  (forall x, doc_payoff code call Q1 Q2 K K2 (fst x) (snd x) = Some (g x)) ->
  american_value2 g r b1 b2 s1 s2 rho t (S1, S2) v -> INR k * dt <= t -> bermudan2 g r b1 b2 s1 s2 rho dt k (S1, S2) w -> w <= v.
Proof. exact c65_any_dates. Qed.
Print Assumptions C65_any_dates.
Example C65_any_dates_case : exists v, american_value2 (fun x => Rmax 0 (95 - Rmin (1 * fst x) (1 * snd x))) (5/100) (2/100) (1/100) (1/4) (1/5) (1/2) (1/2) (120, 100) v /\ forall w, bermudan2 (fun x => Rmax 0 (95 - Rmin (1 * fst x) (1 * snd x))) (5/100) (2/100) (1/100) (1/4) (1/5) (1/2) (1/7) 3 (120, 100) w -> w <= v.
Proof.
  destruct (C65_american_limit 120 100 (1/2) (5/100) (2/100) (1/100) (1/4) (1/5) (1/2) 95 0 1 1 3 false (fun x => Rmax 0 (95 - Rmin (1 * fst x) (1 * snd x))) ltac:(lra) ltac:(lra) ltac:(lra) ltac:(lra) ltac:(lia) ltac:(lia) ltac:(reflexivity)) as (v & _ & A & _).
  exists v. split; [exact A|]. intros w B. refine (C65_any_dates 120 100 (1/2) (5/100) (2/100) (1/100) (1/4) (1/5) (1/2) 95 0 1 1 3 false _ v 3 (1/7) w _ _ _ _ _ _ _ A _ B); try lra; try lia; [reflexivity|cbn; lra].
Qed.

(** The American value of every documented payoff does not decrease with the time to maturity. *)
Theorem C65_maturity : forall S1 S2 t t' r b1 b2 s1 s2 rho K K2 Q1 Q2 code call g v v',
  0 < S1 -> 0 < S2 -> 0 < t -> t <= t' -> -1 <= rho <= 1 -> code <> 8%Z ->
  (forall x, doc_payoff code call Q1 Q2 K K2 (fst x) (snd x) = Some (g x)) ->
  american_value2 g r b1 b2 s1 s2 rho t (S1, S2) v -> american_value2 g r b1 b2 s1 s2 rho t' (S1, S2) v' -> v <= v'.
Proof. exact c65_maturity. Qed.
Print Assumptions C65_maturity.
Example C65_maturity_case : exists v v', american_value2 (fun x => Rmax 0 (95 - Rmin (1 * fst x) (1 * snd x))) (5/100) (2/100) (1/100) (1/4) (1/5) (1/2) (1/2) (120, 100) v /\ american_value2 (fun x => Rmax 0 (95 - Rmin (1 * fst x) (1 * snd x))) (5/100) (2/100) (1/100) (1/4) (1/5) (1/2) 1 (120, 100) v' /\ v <= v'.
Proof.
  destruct (C65_american_limit 120 100 (1/2) (5/100) (2/100) (1/100) (1/4) (1/5) (1/2) 95 0 1 1 3 false (fun x => Rmax 0 (95 - Rmin (1 * fst x) (1 * snd x))) ltac:(lra) ltac:(lra) ltac:(lra) ltac:(lra) ltac:(lia) ltac:(lia) ltac:(reflexivity)) as (v & _ & A & _).
  destruct (C65_american_limit 120 100 1 (5/100) (2/100) (1/100) (1/4) (1/5) (1/2) 95 0 1 1 3 false (fun x => Rmax 0 (95 - Rmin (1 * fst x) (1 * snd x))) ltac:(lra) ltac:(lra) ltac:(lra) ltac:(lra) ltac:(lia) ltac:(lia) ltac:(reflexivity)) as (v' & _ & A' & _).
  exists v, v'. split; [exact A|]. split; [exact A'|]. refine (C65_maturity 120 100 (1/2) 1 (5/100) (2/100) (1/100) (1/4) (1/5) (1/2) 95 0 1 1 3 false _ v v' _ _ _ _ _ _ _ A A'); try lra; try lia; reflexivity.
Qed.


(* ---------------------------------------------------------------- C66 *)
(** The American value is at least the value with any number of equally spaced exercise dates, whatever their distance, as long as the last one is not after expiry. *)
Theorem C66_any_dates : forall S K t r b sigma (call : bool) v k dt w, 0 < S -> 0 < K -> 0 < t -> 0 < sigma -> 0 < dt ->
  american_value (call_put call K) r b sigma t S v -> INR k * dt <= t -> bermudan (call_put call K) r b sigma dt k S w -> w <= v.
Proof. exact c66_any_dates. Qed.
Print Assumptions C66_any_dates.
Example C66_any_dates_case : exists v, american_value (call_put false 95) (5/100) (2/100) (1/4) (1/2) 100 v /\ forall w, bermudan (call_put false 95) (5/100) (2/100) (1/4) (1/7) 3 100 w -> w <= v.
Proof.
  destruct (C63_american_limit (Bi CRR) 100 95 (1/2) (5/100) (2/100) (1/4) false ltac:(lra) ltac:(lra) ltac:(lra) ltac:(lra)) as (v & _ & A & _).
  exists v. split; [exact A|]. intros w B. refine (C66_any_dates 100 95 (1/2) (5/100) (2/100) (1/4) false v 3 (1/7) w _ _ _ _ _ A _ B); cbn; lra.
Qed.

(** The American value does not decrease with the time to maturity. *)
Theorem C66_maturity : forall S K t t' r b sigma (call : bool) v v', 0 < S -> 0 < K -> 0 < t -> t <= t' -> 0 < sigma ->
  american_value (call_put call K) r b sigma t S v -> american_value (call_put call K) r b sigma t' S v' -> v <= v'.
Proof. exact c66_maturity. Qed.
Print Assumptions C66_maturity.
Example C66_maturity_case : exists v v', american_value (call_put false 95) (5/100) (2/100) (1/4) (1/2) 100 v /\ american_value (call_put false 95) (5/100) (2/100) (1/4) 1 100 v' /\ v <= v'.
Proof.
  destruct (C63_american_limit (Bi CRR) 100 95 (1/2) (5/100) (2/100) (1/4) false ltac:(lra) ltac:(lra) ltac:(lra) ltac:(lra)) as (v & _ & A & _).
  destruct (C63_american_limit (Bi CRR) 100 95 1 (5/100) (2/100) (1/4) false ltac:(lra) ltac:(lra) ltac:(lra) ltac:(lra)) as (v' & _ & A' & _).
  exists v, v'. split; [exact A|]. split; [exact A'|]. refine (C66_maturity 100 95 (1/2) 1 (5/100) (2/100) (1/4) false v v' _ _ _ _ _ A A'); lra.
Qed.

(** The American value scales with spot and strike. *)
Theorem C66_homogeneous : forall S K t r b sigma (call : bool) q v, 0 < S -> 0 < K -> 0 < t -> 0 < sigma -> 0 < q ->
  american_value (call_put call K) r b sigma t S v -> american_value (call_put call (q * K)) r b sigma t (q * S) (q * v).
Proof. exact c66_homogeneous. Qed.
Print Assumptions C66_homogeneous.
Example C66_homogeneous_case : exists v, american_value (call_put false 95) (5/100) (2/100) (1/4) (1/2) 100 v /\ american_value (call_put false (2 * 95)) (5/100) (2/100) (1/4) (1/2) (2 * 100) (2 * v).
Proof.
  destruct (C63_american_limit (Bi CRR) 100 95 (1/2) (5/100) (2/100) (1/4) false ltac:(lra) ltac:(lra) ltac:(lra) ltac:(lra)) as (v & _ & A & _).
  exists v. split; [exact A|]. apply C66_homogeneous; [lra..|exact A].
Qed.

(** The American call is the American put with spot and strike exchanged, r - b for r and -b for b. *)
Theorem C66_duality : forall S K t r b sigma v, 0 < S -> 0 < K -> 0 < t -> 0 < sigma ->
  american_value (call_put true K) r b sigma t S v -> american_value (call_put false S) (r - b) (- b) sigma t K v.
Proof. exact c66_duality. Qed.
Print Assumptions C66_duality.
Example C66_duality_case : exists v, american_value (call_put true 95) (5/100) (2/100) (1/4) (1/2) 100 v /\ american_value (call_put false 100) (5/100 - 2/100) (- (2/100)) (1/4) (1/2) 95 v.
Proof.
  destruct (C63_american_limit (Bi CRR) 100 95 (1/2) (5/100) (2/100) (1/4) true ltac:(lra) ltac:(lra) ltac:(lra) ltac:(lra)) as (v & _ & A & _).
  exists v. split; [exact A|]. apply C66_duality; [lra..|exact A].
Qed.

(** The American call does not increase and the American put does not decrease with the strike; if r >= 0 the change is at most the change of strike. *)
Theorem C66_strike : forall S K1 K2 t r b sigma (call : bool) v1 v2, 0 < S -> 0 < K1 -> K1 <= K2 -> 0 < t -> 0 < sigma ->
  american_value (call_put call K1) r b sigma t S v1 -> american_value (call_put call K2) r b sigma t S v2 ->
  (if call then v2 <= v1 else v1 <= v2) /\ (0 <= r -> Rabs (v2 - v1) <= K2 - K1).
Proof. exact c66_strike. Qed.
Print Assumptions C66_strike.
Example C66_strike_case : exists v v', american_value (call_put false 95) (5/100) (2/100) (1/4) (1/2) 100 v /\ american_value (call_put false 97) (5/100) (2/100) (1/4) (1/2) 100 v' /\ v <= v' <= v + 2.
Proof.
  destruct (C63_american_limit (Bi CRR) 100 95 (1/2) (5/100) (2/100) (1/4) false ltac:(lra) ltac:(lra) ltac:(lra) ltac:(lra)) as (v & _ & A & _).
  destruct (C63_american_limit (Bi CRR) 100 97 (1/2) (5/100) (2/100) (1/4) false ltac:(lra) ltac:(lra) ltac:(lra) ltac:(lra)) as (v' & _ & A' & _).
  exists v, v'. split; [exact A|]. split; [exact A'|]. destruct (C66_strike 100 95 97 (1/2) (5/100) (2/100) (1/4) false v v' ltac:(lra) ltac:(lra) ltac:(lra) ltac:(lra) ltac:(lra) A A') as [X Y]. specialize (Y ltac:(lra)). pose proof (Rle_abs (v' - v)). lra.
Qed.

(** The American call does not decrease and the American put does not increase with the spot. *)
Theorem C66_spot : forall S1 S2 K t r b sigma (call : bool) v1 v2, 0 < S1 -> S1 <= S2 -> 0 < K -> 0 < t -> 0 < sigma ->
  american_value (call_put call K) r b sigma t S1 v1 -> american_value (call_put call K) r b sigma t S2 v2 ->
  if call then v1 <= v2 else v2 <= v1.
Proof. exact c66_spot. Qed.
Print Assumptions C66_spot.
Example C66_spot_case : exists v v', american_value (call_put false 95) (5/100) (2/100) (1/4) (1/2) 100 v /\ american_value (call_put false 95) (5/100) (2/100) (1/4) (1/2) 103 v' /\ v' <= v.
Proof.
  destruct (C63_american_limit (Bi CRR) 100 95 (1/2) (5/100) (2/100) (1/4) false ltac:(lra) ltac:(lra) ltac:(lra) ltac:(lra)) as (v & _ & A & _).
  destruct (C63_american_limit (Bi CRR) 103 95 (1/2) (5/100) (2/100) (1/4) false ltac:(lra) ltac:(lra) ltac:(lra) ltac:(lra)) as (v' & _ & A' & _).
  exists v, v'. split; [exact A|]. split; [exact A'|]. exact (C66_spot 100 103 95 (1/2) (5/100) (2/100) (1/4) false v v' ltac:(lra) ltac:(lra) ltac:(lra) ltac:(lra) ltac:(lra) A A').
Qed.

(** The American value is jointly convex in spot and strike. *)
Theorem C66_convex : forall S1 S2 K1 K2 t r b sigma (call : bool) l v1 v2 v, 0 < S1 -> 0 < S2 -> 0 < K1 -> 0 < K2 -> 0 < t -> 0 < sigma -> 0 <= l <= 1 ->
  american_value (call_put call K1) r b sigma t S1 v1 -> american_value (call_put call K2) r b sigma t S2 v2 ->
  american_value (call_put call (l * K1 + (1 - l) * K2)) r b sigma t (l * S1 + (1 - l) * S2) v -> v <= l * v1 + (1 - l) * v2.
Proof. exact c66_convex. Qed.
Print Assumptions C66_convex.
Example C66_convex_case : exists v1 v2 v, american_value (call_put false 90) (5/100) (2/100) (1/4) (1/2) 100 v1 /\ american_value (call_put false 110) (5/100) (2/100) (1/4) (1/2) 100 v2 /\ american_value (call_put false (1/2 * 90 + (1 - 1/2) * 110)) (5/100) (2/100) (1/4) (1/2) (1/2 * 100 + (1 - 1/2) * 100) v /\ v <= 1/2 * v1 + (1 - 1/2) * v2.
Proof.
  destruct (C63_american_limit (Bi CRR) 100 90 (1/2) (5/100) (2/100) (1/4) false ltac:(lra) ltac:(lra) ltac:(lra) ltac:(lra)) as (v1 & _ & A1 & _).
  destruct (C63_american_limit (Bi CRR) 100 110 (1/2) (5/100) (2/100) (1/4) false ltac:(lra) ltac:(lra) ltac:(lra) ltac:(lra)) as (v2 & _ & A2 & _).
  destruct (C63_american_limit (Bi CRR) (1/2 * 100 + (1 - 1/2) * 100) (1/2 * 90 + (1 - 1/2) * 110) (1/2) (5/100) (2/100) (1/4) false ltac:(lra) ltac:(lra) ltac:(lra) ltac:(lra)) as (v & _ & A & _).
  exists v1, v2, v. split; [exact A1|]. split; [exact A2|]. split; [exact A|]. refine (C66_convex 100 100 90 110 (1/2) (5/100) (2/100) (1/4) false (1/2) v1 v2 v _ _ _ _ _ _ _ A1 A2 A); lra.
Qed.

(** The American call with b <= r is worth at most the spot, the American put with r >= 0 at most the strike. *)
Theorem C66_upper_bounds : forall S K t r b sigma vc vp, 0 < S -> 0 < K -> 0 < t -> 0 < sigma ->
  american_value (call_put true K) r b sigma t S vc -> american_value (call_put false K) r b sigma t S vp -> (b <= r -> vc <= S) /\ (0 <= r -> vp <= K).
Proof. exact c66_upper. Qed.
Print Assumptions C66_upper_bounds.
Example C66_upper_bounds_case : exists vc vp, american_value (call_put true 95) (5/100) (2/100) (1/4) (1/2) 100 vc /\ american_value (call_put false 95) (5/100) (2/100) (1/4) (1/2) 100 vp /\ vc <= 100 /\ vp <= 95.
Proof.
  destruct (C63_american_limit (Bi CRR) 100 95 (1/2) (5/100) (2/100) (1/4) true ltac:(lra) ltac:(lra) ltac:(lra) ltac:(lra)) as (vc & _ & A1 & _).
  destruct (C63_american_limit (Bi CRR) 100 95 (1/2) (5/100) (2/100) (1/4) false ltac:(lra) ltac:(lra) ltac:(lra) ltac:(lra)) as (vp & _ & A2 & _).
  exists vc, vp. split; [exact A1|]. split; [exact A2|]. destruct (C66_upper_bounds 100 95 (1/2) (5/100) (2/100) (1/4) vc vp ltac:(lra) ltac:(lra) ltac:(lra) ltac:(lra) A1 A2) as [X Y]. split; [apply X|apply Y]; lra.
Qed.

(** For b = r >= 0 the American put-call inequality S - K <= C - P <= S - K exp(-rt) holds for the American values. *)
Theorem C66_put_call : forall S K t r sigma vc vp, 0 < S -> 0 < K -> 0 < t -> 0 < sigma -> 0 <= r ->
  american_value (call_put true K) r r sigma t S vc -> american_value (call_put false K) r r sigma t S vp -> S - K <= vc - vp <= S - K * exp (- r * t).
Proof. exact c66_put_call. Qed.
Print Assumptions C66_put_call.
Example C66_put_call_case : exists vc vp, american_value (call_put true 95) (5/100) (5/100) (1/4) (1/2) 100 vc /\ american_value (call_put false 95) (5/100) (5/100) (1/4) (1/2) 100 vp /\ 5 <= vc - vp.
Proof.
  destruct (C63_american_limit (Bi CRR) 100 95 (1/2) (5/100) (5/100) (1/4) true ltac:(lra) ltac:(lra) ltac:(lra) ltac:(lra)) as (vc & _ & A1 & _).
  destruct (C63_american_limit (Bi CRR) 100 95 (1/2) (5/100) (5/100) (1/4) false ltac:(lra) ltac:(lra) ltac:(lra) ltac:(lra)) as (vp & _ & A2 & _).
  exists vc, vp. split; [exact A1|]. split; [exact A2|]. destruct (C66_put_call 100 95 (1/2) (5/100) (1/4) vc vp ltac:(lra) ltac:(lra) ltac:(lra) ltac:(lra) ltac:(lra) A1 A2) as [X _]. lra.
Qed.

(** The American value does not decrease with the volatility, for calls and puts. *)
Theorem C66_volatility : forall S K t r b s1 s2 (call : bool) v1 v2, 0 < S -> 0 < K -> 0 < t -> 0 < s1 -> s1 <= s2 ->
  american_value (call_put call K) r b s1 t S v1 -> american_value (call_put call K) r b s2 t S v2 -> v1 <= v2.
Proof. exact c66_volatility. Qed.
Print Assumptions C66_volatility.
Example C66_volatility_case : exists v v', american_value (call_put false 95) (5/100) (2/100) (1/4) (1/2) 100 v /\ american_value (call_put false 95) (5/100) (2/100) (3/10) (1/2) 100 v' /\ v <= v'.
Proof.
  destruct (C63_american_limit (Bi CRR) 100 95 (1/2) (5/100) (2/100) (1/4) false ltac:(lra) ltac:(lra) ltac:(lra) ltac:(lra)) as (v & _ & A & _).
  destruct (C63_american_limit (Bi CRR) 100 95 (1/2) (5/100) (2/100) (3/10) false ltac:(lra) ltac:(lra) ltac:(lra) ltac:(lra)) as (v' & _ & A' & _).
  exists v, v'. split; [exact A|]. split; [exact A'|]. refine (C66_volatility 100 95 (1/2) (5/100) (2/100) (1/4) (3/10) false v v' _ _ _ _ _ A A'); lra.
Qed.

(** Dependence of the American value on the rates. With the carry fixed it does not increase with the interest rate. With the interest rate fixed calls do not decrease and puts do not increase with the carry. With a fixed dividend yield q (b = r - q) calls do not decrease and puts do not increase with the interest rate. *)
Theorem C66_rates : forall S K t sigma (call : bool), 0 < S -> 0 < K -> 0 < t -> 0 < sigma ->
  (forall r1 r2 b v1 v2, r1 <= r2 -> american_value (call_put call K) r1 b sigma t S v1 -> american_value (call_put call K) r2 b sigma t S v2 -> v2 <= v1) /\
  (forall r b1 b2 v1 v2, b1 <= b2 -> american_value (call_put call K) r b1 sigma t S v1 -> american_value (call_put call K) r b2 sigma t S v2 -> if call then v1 <= v2 else v2 <= v1) /\
  (forall q r1 r2 v1 v2, r1 <= r2 -> american_value (call_put call K) r1 (r1 - q) sigma t S v1 -> american_value (call_put call K) r2 (r2 - q) sigma t S v2 -> if call then v1 <= v2 else v2 <= v1).
Proof. exact c66_rates. Qed.
Print Assumptions C66_rates.
(** an American put on a stock without dividends, interest 3% and 5% *)
Example C66_rates_case : exists v v', american_value (call_put false 95) (3/100) (3/100 - 0) (1/4) (1/2) 100 v /\ american_value (call_put false 95) (5/100) (5/100 - 0) (1/4) (1/2) 100 v' /\ v' <= v.
Proof.
  destruct (C63_american_limit (Bi CRR) 100 95 (1/2) (3/100) (3/100 - 0) (1/4) false ltac:(lra) ltac:(lra) ltac:(lra) ltac:(lra)) as (v & _ & A & _).
  destruct (C63_american_limit (Bi CRR) 100 95 (1/2) (5/100) (5/100 - 0) (1/4) false ltac:(lra) ltac:(lra) ltac:(lra) ltac:(lra)) as (v' & _ & A' & _).
  exists v, v'. split; [exact A|]. split; [exact A'|].
  exact (proj2 (proj2 (C66_rates 100 95 (1/2) (1/4) false ltac:(lra) ltac:(lra) ltac:(lra) ltac:(lra))) 0 (3/100) (5/100) v v' ltac:(lra) A A').
Qed.


(* ---------------------------------------------------------------- C67 *)
(** When carry covers a nonnegative interest rate (b >= r >= 0), the Barone-Adesi-Whaley and the Bjerksund-Stensland call both equal the American value, up to the accuracy 7.5e-8 of the normal distribution function of the library times the discounted forward and strike. *)
Theorem C67_carry : forall (S K t r b sigma : R) fuel v, 0 < S -> 0 < K -> 0 < t -> 0 < sigma -> 0 <= r -> r <= b ->
  american_value (call_put true K) r b sigma t S v ->
  exists c, baw_call fuel (mkAmer S K t r b (Some sigma)) = Ok c /\ bs_call (mkAmer S K t r b (Some sigma)) = Ok (c, None) /\
    Rabs (c - v) <= (S * exp ((b - r) * t) + K * exp (- r * t)) * (75 / 10 ^ 9).
Proof. exact c67_carry. Qed.
Print Assumptions C67_carry.
Example C67_carry_case : exists v c, american_value (call_put true 95) (2/100) (5/100) (1/4) (1/2) 100 v /\ bs_call (mkAmer 100 95 (1/2) (2/100) (5/100) (Some (1/4))) = Ok (c, None) /\ Rabs (c - v) <= 5 / 10 ^ 5.
Proof.
  destruct (C63_american_limit (Bi CRR) 100 95 (1/2) (2/100) (5/100) (1/4) true ltac:(lra) ltac:(lra) ltac:(lra) ltac:(lra)) as (v & _ & A & _).
  destruct (C67_carry 100 95 (1/2) (2/100) (5/100) (1/4) 0 v ltac:(lra) ltac:(lra) ltac:(lra) ltac:(lra) ltac:(lra) ltac:(lra) A) as (c & _ & B & X).
  exists v, c. split; [exact A|]. split; [exact B|]. assert (E1 : exp ((5/100 - 2/100) * (1/2)) <= 3) by (apply Rlt_le, Rlt_le_trans with (2 := exp_le_3), exp_increasing; lra). assert (E2 : exp (- (2/100) * (1/2)) <= 3) by (apply Rlt_le, Rlt_le_trans with (2 := exp_le_3), exp_increasing; lra). lra.
Qed.

(** When r <= 0 and b <= r, the Bjerksund-Stensland put equals the American value up to the accuracy of the normal distribution function. *)
Theorem C67_put : forall (S K t r b sigma : R) v, 0 < S -> 0 < K -> 0 < t -> 0 < sigma -> r <= 0 -> b <= r ->
  american_value (call_put false K) r b sigma t S v ->
  exists p, bs_put (mkAmer S K t r b (Some sigma)) = Ok (p, None) /\
    Rabs (p - v) <= (S * exp ((b - r) * t) + K * exp (- r * t)) * (75 / 10 ^ 9).
Proof. exact c67_put. Qed.
Print Assumptions C67_put.
Example C67_put_case : exists v p, american_value (call_put false 95) (-2/100) (-5/100) (1/4) (1/2) 100 v /\ bs_put (mkAmer 100 95 (1/2) (-2/100) (-5/100) (Some (1/4))) = Ok (p, None) /\ Rabs (p - v) <= (100 * exp ((-5/100 - -2/100) * (1/2)) + 95 * exp (- (-2/100) * (1/2))) * (75 / 10 ^ 9).
Proof.
  destruct (C63_american_limit (Bi CRR) 100 95 (1/2) (-2/100) (-5/100) (1/4) false ltac:(lra) ltac:(lra) ltac:(lra) ltac:(lra)) as (v & _ & A & _).
  destruct (C67_put 100 95 (1/2) (-2/100) (-5/100) (1/4) v ltac:(lra) ltac:(lra) ltac:(lra) ltac:(lra) ltac:(lra) ltac:(lra) A) as (p & B & X).
  exists v, p. auto.
Qed.

(** Finding: with a negative interest rate and b = r both approximations return the European call, although early exercise then pays: for every strike, maturity and volatility, all high enough spots get an American call below the payoff of immediate exercise, hence below the American value. *)
Theorem C67_negative_rate_refuted : forall K t r sigma : R, 0 < K -> 0 < t -> 0 < sigma -> r < 0 ->
  exists S0, 0 < S0 /\ forall S fuel v, S0 <= S -> american_value (call_put true K) r r sigma t S v ->
    exists c, baw_call fuel (mkAmer S K t r r (Some sigma)) = Ok c /\ bs_call (mkAmer S K t r r (Some sigma)) = Ok (c, None) /\ c < S - K /\ S - K <= v.
Proof. exact c67_negative. Qed.
Print Assumptions C67_negative_rate_refuted.
Example C67_negative_rate_refuted_case : exists S v c, american_value (call_put true 95) (-2/100) (-2/100) (1/4) (1/2) S v /\ bs_call (mkAmer S 95 (1/2) (-2/100) (-2/100) (Some (1/4))) = Ok (c, None) /\ c < S - 95 <= v.
Proof.
  destruct (C67_negative_rate_refuted 95 (1/2) (-2/100) (1/4) ltac:(lra) ltac:(lra) ltac:(lra) ltac:(lra)) as (S & HS & X).
  destruct (C63_american_limit (Bi CRR) S 95 (1/2) (-2/100) (-2/100) (1/4) true HS ltac:(lra) ltac:(lra) ltac:(lra)) as (v & _ & A & _).
  destruct (X S 0%nat v (Rle_refl S) A) as (c & _ & B & C & D). exists S, v, c. auto.
Qed.

(** Finding: with a zero interest rate and a positive cost of carry the Bjerksund-Stensland put is the European put: for every strike, maturity and volatility, all low enough spots get an American put below the payoff of immediate exercise, hence below the American value. *)
Theorem C67_put_refuted : forall K t b sigma : R, 0 < K -> 0 < t -> 0 < sigma -> 0 < b ->
  exists S0, 0 < S0 /\ forall S v, 0 < S <= S0 -> american_value (call_put false K) 0 b sigma t S v ->
    exists p, bs_put (mkAmer S K t 0 b (Some sigma)) = Ok (p, None) /\ p < K - S /\ K - S <= v.
Proof. exact c67_put_refuted. Qed.
Print Assumptions C67_put_refuted.
Example C67_put_refuted_case : exists S v p, american_value (call_put false 95) 0 (2/100) (1/4) (1/2) S v /\ bs_put (mkAmer S 95 (1/2) 0 (2/100) (Some (1/4))) = Ok (p, None) /\ p < 95 - S <= v.
Proof.
  destruct (C67_put_refuted 95 (1/2) (2/100) (1/4) ltac:(lra) ltac:(lra) ltac:(lra) ltac:(lra)) as (S & HS & X).
  destruct (C63_american_limit (Bi CRR) S 95 (1/2) 0 (2/100) (1/4) false HS ltac:(lra) ltac:(lra) ltac:(lra)) as (v & _ & A & _).
  destruct (X S v (conj HS (Rle_refl S)) A) as (p & B & C & D). exists S, v, p. auto.
Qed.


(* ---------------------------------------------------------------- C71 *)
(** For all four classes the error of the European tree price with n steps is at most a constant times (S + K) / sqrt n; the constant and the number of steps from which it holds depend on time, rates and volatility only. *)
Theorem C71_rate : forall c t r b sigma, 0 < t -> 0 < sigma -> exists C N, forall S K (call : bool) n,
  0 < S -> 0 < K -> (N <= n)%nat -> exists v x,
    (if call then gbs_call_F Phi else gbs_put_F Phi) (GBSOption S K t r b (Some sigma)) = Ok v /\
    tree_price c (mkTree S K t r b sigma "european" n) call false = Ok (Price x) /\
    Rabs (x - v) <= C * (S + K) / sqrt (INR n).
Proof. exact c71_rate. Qed.
Print Assumptions C71_rate.
Example C71_rate_case : exists C N, forall n, (N <= n)%nat -> exists v x, gbs_put_F Phi (GBSOption 100 95 (1/2) (5/100) (2/100) (Some (1/4))) = Ok v /\ tree_price Tri (mkTree 100 95 (1/2) (5/100) (2/100) (1/4) "european" n) false false = Ok (Price x) /\ Rabs (x - v) <= C * (100 + 95) / sqrt (INR n).
Proof.
  destruct (C71_rate Tri (1/2) (5/100) (2/100) (1/4) ltac:(lra) ltac:(lra)) as (C & N & H). exists C, N. intros n Hn.
  apply (H 100 95 false n); auto; lra.
Qed.

(** For one option the bound holds for every number of steps: the error is at most a constant over sqrt n. *)
Theorem C71_every_n : forall c S K t r b sigma (call : bool), 0 < S -> 0 < K -> 0 < t -> 0 < sigma -> exists v C,
  (if call then gbs_call_F Phi else gbs_put_F Phi) (GBSOption S K t r b (Some sigma)) = Ok v /\
  forall n, n <> 0%nat -> exists x, tree_price c (mkTree S K t r b sigma "european" n) call false = Ok (Price x) /\
    Rabs (x - v) <= C / sqrt (INR n).
Proof. exact c71_every_n. Qed.
Print Assumptions C71_every_n.
Example C71_every_n_case := C71_every_n (Bi TIAN) 100 95 (1/2) (5/100) (2/100) (1/4) true ltac:(lra) ltac:(lra) ltac:(lra) ltac:(lra).

(** Against the price GBSOption itself returns the tree is within 7.5e-8 of the forward and strike values plus that constant times (S + K) / sqrt n. *)
Theorem C71_code : forall c t r b sigma, 0 < t -> 0 < sigma -> exists C N, forall S K (call : bool) n,
  0 < S -> 0 < K -> (N <= n)%nat -> exists w x,
    (if call then gbs_call else gbs_put) (GBSOption S K t r b (Some sigma)) = Ok w /\
    tree_price c (mkTree S K t r b sigma "european" n) call false = Ok (Price x) /\
    Rabs (x - w) <= (S * exp ((b - r) * t) + K * exp (- r * t)) * (75 / 10 ^ 9) + C * (S + K) / sqrt (INR n).
Proof. exact c71_code. Qed.
Print Assumptions C71_code.
Example C71_code_case := C71_code (Bi JR) (1/2) (5/100) (2/100) (1/4) ltac:(lra) ltac:(lra).


(* ---------------------------------------------------------------- C79 *)
(** With the cost of carry fixed, raising the interest rate multiplies the price by the additional discount factor: exactly, for calls and puts. *)
Theorem C79_interest : forall S K t r1 r2 b sigma (call : bool), 0 < S -> 0 < K -> 0 < t -> 0 < sigma ->
  exists v, (if call then gbs_call else gbs_put) (GBSOption S K t r1 b (Some sigma)) = Ok v /\
    (if call then gbs_call else gbs_put) (GBSOption S K t r2 b (Some sigma)) = Ok (exp (- (r2 - r1) * t) * v).
Proof. exact c79_interest. Qed.
Print Assumptions C79_interest.
Example C79_interest_case := C79_interest 100 95 (1/2) (3/100) (5/100) (2/100) (1/4) false ltac:(lra) ltac:(lra) ltac:(lra) ltac:(lra).

(** With the interest rate fixed, the call does not fall and the put does not rise with the cost of carry, up to the error 7.5e-8 of the distribution function times forward and strike values of both options; with the exact distribution function without any slack. *)
Theorem C79_carry : forall S K t r b1 b2 sigma (call : bool), 0 < S -> 0 < K -> 0 < t -> 0 < sigma -> b1 <= b2 ->
  exists v1 v2 x1 x2,
    (if call then gbs_call else gbs_put) (GBSOption S K t r b1 (Some sigma)) = Ok v1 /\
    (if call then gbs_call else gbs_put) (GBSOption S K t r b2 (Some sigma)) = Ok v2 /\
    (if call then gbs_call_F Phi else gbs_put_F Phi) (GBSOption S K t r b1 (Some sigma)) = Ok x1 /\
    (if call then gbs_call_F Phi else gbs_put_F Phi) (GBSOption S K t r b2 (Some sigma)) = Ok x2 /\
    (let lo := if call then x1 else x2 in let hi := if call then x2 else x1 in lo <= hi) /\
    (let lo := if call then v1 else v2 in let hi := if call then v2 else v1 in
     lo <= hi + (S * exp ((b1 - r) * t) + S * exp ((b2 - r) * t) + 2 * K * exp (- r * t)) * (75 / 10 ^ 9)).
Proof. exact c79_carry. Qed.
Print Assumptions C79_carry.
Example C79_carry_case := C79_carry 100 95 (1/2) (5/100) (-1/100) (2/100) (1/4) true ltac:(lra) ltac:(lra) ltac:(lra) ltac:(lra) ltac:(lra).

(** For a stock with dividend yield q (b = r - q), the call does not fall and the put does not rise with the interest rate, up to the error 7.5e-8 of the distribution function; with the exact distribution function without any slack. *)
Theorem C79_yield : forall S K t r1 r2 q sigma (call : bool), 0 < S -> 0 < K -> 0 < t -> 0 < sigma -> r1 <= r2 ->
  exists v1 v2 x1 x2,
    (if call then gbs_call else gbs_put) (GBSOption S K t r1 (r1 - q) (Some sigma)) = Ok v1 /\
    (if call then gbs_call else gbs_put) (GBSOption S K t r2 (r2 - q) (Some sigma)) = Ok v2 /\
    (if call then gbs_call_F Phi else gbs_put_F Phi) (GBSOption S K t r1 (r1 - q) (Some sigma)) = Ok x1 /\
    (if call then gbs_call_F Phi else gbs_put_F Phi) (GBSOption S K t r2 (r2 - q) (Some sigma)) = Ok x2 /\
    (let lo := if call then x1 else x2 in let hi := if call then x2 else x1 in lo <= hi) /\
    (let lo := if call then v1 else v2 in let hi := if call then v2 else v1 in
     lo <= hi + (2 * S * exp (- q * t) + K * exp (- r1 * t) + K * exp (- r2 * t)) * (75 / 10 ^ 9)).
Proof. exact c79_yield. Qed.
Print Assumptions C79_yield.
(** a put on a stock with dividend yield 2%, interest 3% and 5% *)
Example C79_yield_case := C79_yield 100 95 (1/2) (3/100) (5/100) (2/100) (1/4) false ltac:(lra) ltac:(lra) ltac:(lra) ltac:(lra) ltac:(lra).

(** A European call with b >= r >= 0, and a European put with b <= r <= 0, do not fall when the time to maturity is extended, up to the error 7.5e-8 of the distribution function; with the exact distribution function without any slack. *)
Theorem C79_maturity : forall S K t1 t2 r b sigma (call : bool), 0 < S -> 0 < K -> 0 < t1 -> t1 <= t2 -> 0 < sigma ->
  (if call then 0 <= r /\ r <= b else r <= 0 /\ b <= r) ->
  exists v1 v2 x1 x2,
    (if call then gbs_call else gbs_put) (GBSOption S K t1 r b (Some sigma)) = Ok v1 /\
    (if call then gbs_call else gbs_put) (GBSOption S K t2 r b (Some sigma)) = Ok v2 /\
    (if call then gbs_call_F Phi else gbs_put_F Phi) (GBSOption S K t1 r b (Some sigma)) = Ok x1 /\
    (if call then gbs_call_F Phi else gbs_put_F Phi) (GBSOption S K t2 r b (Some sigma)) = Ok x2 /\
    x1 <= x2 /\
    v1 <= v2 + (S * exp ((b - r) * t1) + K * exp (- r * t1) + S * exp ((b - r) * t2) + K * exp (- r * t2)) * (75 / 10 ^ 9).
Proof. exact c79_maturity. Qed.
Print Assumptions C79_maturity.
(** a call on a stock without dividends, six months and a year *)
Example C79_maturity_case := C79_maturity 100 95 (1/2) 1 (5/100) (5/100) (1/4) true ltac:(lra) ltac:(lra) ltac:(lra) ltac:(lra) ltac:(lra) (conj (Rmult_le_pos 5 (/100) ltac:(lra) ltac:(lra)) (Rle_refl _)).


(* ---------------------------------------------------------------- C80 *)
(** With exact normal distribution functions the Bjerksund-Stensland call (b < r, b t + 2 sigma sqrt t > 0) is at most the American value, the common limit of American tree prices of all four classes: it is what exercising at the trigger, or at expiry, is worth. *)
Theorem C80_call : forall c S K t r b s, 0 < S -> 0 < K -> 0 < t -> 0 < s -> b < r -> 0 < b * t + 2 * s * sqrt t ->
  exists x I0 v price, bs_call_F Phi (mkAmer S K t r b (Some s)) = Ok (x, Some I0) /\
    american_value (call_put true K) r b s t S v /\
    (forall n, n <> 0%nat -> tree_price c (mkTree S K t r b s "american" n) true false = Ok (Price (price n))) /\
    is_lim_seq price v /\ x <= v.
Proof. exact c80_call. Qed.
Print Assumptions C80_call.
(** a call with a dividend yield of 3% *)
Lemma C80_pos : 0 < 2/100 * (1/2) + 2 * (1/4) * sqrt (1/2). Proof. pose proof (sqrt_pos (1/2)). lra. Qed.
Example C80_call_case := C80_call (Bi CRR) 100 95 (1/2) (5/100) (2/100) (1/4) ltac:(lra) ltac:(lra) ltac:(lra) ltac:(lra) ltac:(lra) C80_pos.

(** The same for the Bjerksund-Stensland put with r > 0 and b t < 2 sigma sqrt t. *)
Theorem C80_put : forall c S K t r b s, 0 < S -> 0 < K -> 0 < t -> 0 < s -> 0 < r -> b * t < 2 * s * sqrt t ->
  exists x I0 v price, bs_put_F Phi (mkAmer S K t r b (Some s)) = Ok (x, Some I0) /\
    american_value (call_put false K) r b s t S v /\
    (forall n, n <> 0%nat -> tree_price c (mkTree S K t r b s "american" n) false false = Ok (Price (price n))) /\
    is_lim_seq price v /\ x <= v.
Proof. exact c80_put. Qed.
Print Assumptions C80_put.
(** a put on a stock without dividends *)
Lemma C80_pos_put : 5/100 * (1/4) < 2 * (1/4) * sqrt (1/4).
Proof. replace (1/4) with ((1/2) * (1/2)) by lra. rewrite sqrt_square; lra. Qed.
Example C80_put_case := C80_put (Tri) 100 95 (1/4) (5/100) (5/100) (1/4) ltac:(lra) ltac:(lra) ltac:(lra) ltac:(lra) ltac:(lra) C80_pos_put.

(** The code's Bjerksund-Stensland call (b < r, b t + 2 sigma sqrt t > 0) and the same formula with the exact normal distribution function report the same trigger, agree from the trigger on, and below it differ by at most 7.5e-8 times the sum of the weights of the six terms of the formula. *)
Theorem C80_accuracy : forall S K t r b s, 0 < S -> 0 < K -> 0 < t -> 0 < s -> b < r -> 0 < b * t + 2 * s * sqrt t ->
  exists y x I0 beta, bs_call (mkAmer S K t r b (Some s)) = Ok (y, Some I0) /\ bs_call_F Phi (mkAmer S K t r b (Some s)) = Ok (x, Some I0) /\
    K < I0 /\ 1 < beta /\ 1 / 2 * s ^ 2 * beta * (beta - 1) + b * beta - r = 0 /\
    (I0 <= S -> y = x) /\
    let w g := exp ((- r + g * b + g * (g - 1) / 2 * s ^ 2) * t) * Rpower S g * (1 + Rpower (I0 / S) (2 * b / s ^ 2 + 2 * g - 1)) in
    Rabs (y - x) <= ((I0 - K) * Rpower I0 (- beta) * w beta + 2 * w 1 + 2 * K * w 0) * (75 / 10 ^ 9).
Proof. exact c80_accuracy. Qed.
Print Assumptions C80_accuracy.
Example C80_accuracy_case := C80_accuracy 100 95 (1/2) (5/100) (2/100) (1/4) ltac:(lra) ltac:(lra) ltac:(lra) ltac:(lra) ltac:(lra) C80_pos.

(** Finding: the American price can be below the European price. For every call on a futures contract (b = 0) with 0.001 <= sigma sqrt t <= 2/15 and 0 < r t <= 0.003 and spot K (1 + 2 sigma sqrt t), the code's Bjerksund-Stensland call is exactly S - K although the code's Black-Scholes call is worth more. *)
Theorem C80_below_european_refuted : forall K t r s, 0 < K -> 0 < t -> 0 < s -> 0 < r -> r * t <= 3 / 1000 -> 1 / 1000 <= s * sqrt t <= 2 / 15 ->
  let S := K * (1 + 2 * (s * sqrt t)) in
  exists I0 e, bs_call (mkAmer S K t r 0 (Some s)) = Ok (S - K, Some I0) /\ gbs_call (GBSOption S K t r 0 (Some s)) = Ok e /\ S - K < e.
Proof. exact c80_below. Qed.
Print Assumptions C80_below_european_refuted.
(** strike 100, maturity 0.01 years, interest 10%, volatility 20%: the spot is 104 *)
Example C80_below_european_case : exists I0 e, bs_call (mkAmer 104 100 (1/100) (1/10) 0 (Some (2/10))) = Ok (4, Some I0) /\ gbs_call (GBSOption 104 100 (1/100) (1/10) 0 (Some (2/10))) = Ok e /\ 4 < e.
Proof.
  assert (Q : sqrt (1/100) = 1/10) by (replace (1/100) with ((1/10) * (1/10)) by lra; apply sqrt_square; lra).
  generalize (C80_below_european_refuted 100 (1/100) (1/10) (2/10) ltac:(lra) ltac:(lra) ltac:(lra) ltac:(lra) ltac:(lra) ltac:(rewrite Q; lra)).
  cbv zeta. rewrite Q. replace (100 * (1 + 2 * (2/10 * (1/10)))) with 104 by lra. replace (104 - 100) with 4 by lra. easy.
Qed.

(** With exact normal distribution functions the Bjerksund-Stensland call (b < r, b t + 2 sigma sqrt t > 0) is exactly what the following strategy is worth: exercise when the price first reaches the reported trigger, otherwise at expiry. Observing the price at m equally spaced dates, the strategy has a value for every m, and these values converge to the price as m grows. *)
Theorem C80_strategy : forall S K t r b s, 0 < S -> 0 < K -> 0 < t -> 0 < s -> b < r -> 0 < b * t + 2 * s * sqrt t ->
  exists x I0 B, bs_call_F Phi (mkAmer S K t r b (Some s)) = Ok (x, Some I0) /\
    (forall m, (0 < m)%nat -> exercise_at (call_put true K) I0 r b s (t / INR m) m S (B m)) /\ is_lim_seq B x.
Proof. exact c80_strategy. Qed.
Print Assumptions C80_strategy.
Example C80_strategy_case := C80_strategy 100 95 (1/2) (5/100) (2/100) (1/4) ltac:(lra) ltac:(lra) ltac:(lra) ltac:(lra) ltac:(lra) C80_pos.

(** The value of the strategy is determined by the payoff, the level, the market and the dates: two numbers satisfying its definition are equal. *)
Theorem C80_strategy_unique : forall g I0 r b s dt k S v w, 0 < S -> exercise_at g I0 r b s dt k S v -> exercise_at g I0 r b s dt k S w -> v = w.
Proof. exact c80_unique. Qed.
Print Assumptions C80_strategy_unique.
(** the level 110 with two dates *)
Example C80_strategy_unique_case : exercise_at (call_put true 95) 110 (5/100) (2/100) (1/4) (1/2) 1 120 25 /\ forall v, exercise_at (call_put true 95) 110 (5/100) (2/100) (1/4) (1/2) 1 120 v -> v = 25.
Proof.
  assert (H : exercise_at (call_put true 95) 110 (5/100) (2/100) (1/4) (1/2) 1 120 25).
  { cbn [exercise_at]. destruct (Rle_dec 110 120); [|lra]. unfold call_put. rewrite Rmax_left; lra. }
  split; [exact H|]. intros v Hv. refine (C80_strategy_unique _ _ _ _ _ _ _ _ _ _ _ Hv H). lra.
Qed.


(* ---------------------------------------------------------------- C81 *)
(** Call and put of MiltersenSchwartzOption are, up to the error of the distribution function, the means of the payoff of the futures price, discounted with the random interest accrued until expiry: for every pair of Gaussian variables (log futures price, accrued interest) with the variance and covariance of the three-factor model, for which the futures price is a martingale and the zero-coupon bond is worth Pt. *)
Theorem C81_value : forall Pt FT K t T sS sE sF rSE rSF rEF kE kF l g m a c,
  0 < FT -> 0 < K -> 0 < kE -> 0 < kF -> 0 < g ->
  futures_variance sS sE sF rSE rSF rEF kE kF T t (g ^ 2) ->
  interest_covariance sS sE sF rSE rSF rEF kE kF T t (a * g) ->
  is_mean (futures_price FT l g) FT ->
  is_expect 2 (fun zs => exp (- accrued m a c (nth 0 zs 0) (nth 1 zs 0))) Pt ->
  let o := mkMs Pt FT K t T sS sE sF rSE rSF rEF kE kF in
  exists vc vp, discounted_mean FT l g m a c (fun G => Rmax 0 (G - K)) vc /\ discounted_mean FT l g m a c (fun G => Rmax 0 (K - G)) vp /\
    let tol := Pt * (FT * exp (- (a * g)) + K) * (75 / 10 ^ 9) in
    Rabs (ms_call o - vc) <= tol /\ Rabs (ms_put o - vp) <= tol.
Proof. exact c81_value. Qed.
Print Assumptions C81_value.
(** the documented example: spot, convenience yield and interest volatilities 26.6%, 24.9%, 0.96%; the model exists and all hypotheses hold *)
Example C81_value_case : exists l g m a c vc vp,
  futures_variance (266/1000) (249/1000) (96/10000) (805/1000) (805/10000) (1243/10000) (1045/1000) (2/10) (1/2) (1/4) (g ^ 2) /\
  discounted_mean 95 l g m a c (fun G => Rmax 0 (G - 80)) vc /\ discounted_mean 95 l g m a c (fun G => Rmax 0 (80 - G)) vp /\
  Rabs (ms_call (mkMs 1 95 80 (1/4) (1/2) (266/1000) (249/1000) (96/10000) (805/1000) (805/10000) (1243/10000) (1045/1000) (2/10)) - vc) <= 1 * (95 * exp (- (a * g)) + 80) * (75 / 10 ^ 9).
Proof.
  destruct (c81_exists 1 (266/1000) (249/1000) (96/10000) (805/1000) (805/10000) (1243/10000) (1045/1000) (2/10) (1/2) (1/4) ltac:(lra) ltac:(lra) ltac:(lra)) as (v & x & HV & HC & H).
  assert (Hv : 0 < v).
  { destruct PMs.ms_doc_example as (_ & _ & _ & HE & HF & _ & P). cbv zeta in P. assert (Q := PMs.ms_var_integral _ HE HF). unfold futures_variance in HV.
    assert (HV' := is_RInt_unique _ _ _ _ HV). assert (Q' := is_RInt_unique _ _ _ _ Q). assert (v = ms_vz2 (mkMs 1 95 80 (1/4) (1/2) (266/1000) (249/1000) (96/10000) (805/1000) (805/10000) (1243/10000) (1045/1000) (2/10))) by exact (eq_trans (eq_sym HV') Q'). lra. }
  destruct (H Hv 95 (1/1000) ltac:(lra)) as (l & g & m & a & c & Hg & E1 & E2 & _ & HG & HX). rewrite E1 in HV. rewrite E2 in HC.
  destruct (C81_value 1 95 80 (1/4) (1/2) (266/1000) (249/1000) (96/10000) (805/1000) (805/10000) (1243/10000) (1045/1000) (2/10) l g m a c ltac:(lra) ltac:(lra) ltac:(lra) ltac:(lra) Hg HV HC HG HX) as (vc & vp & A & B & C & D).
  exists l, g, m, a, c, vc, vp. repeat split; assumption.
Qed.

(** MiltersenSchwartzOption prices are Black76Option prices: of the futures price lowered by the covariance with interest, at the rate of the bond and the average volatility until expiry. *)
Theorem C81_black76 : forall Pt FT K t T sS sE sF rSE rSF rEF kE kF v x,
  0 < Pt -> 0 < FT -> 0 < K -> 0 < t -> 0 < kE -> 0 < kF -> 0 < v ->
  futures_variance sS sE sF rSE rSF rEF kE kF T t v ->
  interest_covariance sS sE sF rSE rSF rEF kE kF T t x ->
  let o := mkMs Pt FT K t T sS sE sF rSE rSF rEF kE kF in
  let b := Black76Option (FT * exp (- x)) K t (- ln Pt / t) (Some (sqrt (v / t))) in
  gbs_call b = Ok (ms_call o) /\ gbs_put b = Ok (ms_put o).
Proof. exact c81_black76. Qed.
Print Assumptions C81_black76.
(** deterministic interest and convenience yield: variance and covariance are [266/1000 ^ 2 / 4] and 0 *)
Example C81_black76_case := fun HV HC => C81_black76 1 95 80 (1/4) (1/2) (266/1000) 0 0 (1/2) (1/2) (1/2) 1 1 ((266/1000) ^ 2 * (1/4)) 0 ltac:(lra) ltac:(lra) ltac:(lra) ltac:(lra) ltac:(lra) ltac:(lra) ltac:(lra) HV HC.
Example C81_black76_hypotheses : futures_variance (266/1000) 0 0 (1/2) (1/2) (1/2) 1 1 (1/2) (1/4) ((266/1000) ^ 2 * (1/4)) /\ interest_covariance (266/1000) 0 0 (1/2) (1/2) (1/2) 1 1 (1/2) (1/4) 0.
Proof.
  split.
  - unfold futures_variance. replace ((266/1000) ^ 2 * (1/4)) with (scal (1/4 - 0) ((266/1000) ^ 2)) by (unfold scal; cbn; unfold mult; cbn; ring).
    eapply is_RInt_ext; [|apply (is_RInt_const (V := R_NormedModule) 0 (1/4) ((266/1000) ^ 2))]. intros u _. cbv beta zeta. unfold loading. match goal with |- ?x = ?y => change (@eq R x y) end. ring.
  - unfold interest_covariance. assert (Q := is_RInt_const (V := R_NormedModule) 0 (1/4) 0). unfold scal in Q; cbn in Q; unfold mult in Q; cbn in Q; rewrite Rmult_0_r in Q.
    eapply is_RInt_ext; [|exact Q]. intros u _. cbv beta zeta. unfold loading. match goal with |- ?x = ?y => change (@eq R x y) end. ring.
Qed.

(** For every option with a positive variance the Gaussian variables of C81_value exist. *)
Theorem C81_model_exists : forall Pt sS sE sF rSE rSF rEF kE kF T t,
  0 < Pt -> 0 < kE -> 0 < kF ->
  exists v x, futures_variance sS sE sF rSE rSF rEF kE kF T t v /\ interest_covariance sS sE sF rSE rSF rEF kE kF T t x /\
    (0 < v -> forall FT w, 0 <= w -> exists l g m a c, 0 < g /\ v = g ^ 2 /\ x = a * g /\ a ^ 2 + c ^ 2 = x ^ 2 / v + w /\
       is_mean (futures_price FT l g) FT /\
       is_expect 2 (fun zs => exp (- accrued m a c (nth 0 zs 0) (nth 1 zs 0))) Pt).
Proof. exact c81_exists. Qed.
Print Assumptions C81_model_exists.
Example C81_model_exists_case := C81_model_exists (19/20) (266/1000) (249/1000) (96/10000) (805/1000) (805/10000) (1243/10000) (1045/1000) (2/10) (1/2) (1/4) ltac:(lra) ltac:(lra) ltac:(lra).


(* ---------------------------------------------------------------- C82 *)
(** With b < r and r >= 0 the American call, the common limit of American tree prices, is for every maturity at most the perpetual call, (B - K) (S/B)^beta, below the exercise price B = beta/(beta-1) K, and from B on it is worth exactly S - K: exercising at once is right. *)
Theorem C82_call_bound : forall S K t r b s v, 0 < S -> 0 < K -> 0 < t -> 0 < s -> 0 <= r -> b < r -> american_value (call_put true K) r b s t S v ->
  exists beta, 1 < beta /\ 1 / 2 * s ^ 2 * beta * (beta - 1) + b * beta - r = 0 /\
    let B := beta / (beta - 1) * K in (S < B -> v <= (B - K) * Rpower (S / B) beta) /\ (B <= S -> v = S - K).
Proof. exact c82_call_bound. Qed.
Print Assumptions C82_call_bound.
(** beta = 2 and exercise price 100 for strike 50: the call is worth exactly 70 at 120, and at most 50 * 0.9^2 at 90 *)
Example C82_call_bound_case : american_value (call_put true 50) (8/100) (2/100) (1/5) 3 120 70 /\
  exists v, american_value (call_put true 50) (8/100) (2/100) (1/5) 3 90 v /\ v <= 50 * Rpower (90/100) 2.
Proof.
  assert (Q : forall x, 1 < x -> 1 / 2 * (1/5) ^ 2 * x * (x - 1) + 2/100 * x - 8/100 = 0 -> x = 2) by (intros x G1 G2; assert (G : (x - 2) * (x + 2) = 0) by lra; apply Rmult_integral in G; lra).
  destruct (C63_american_limit (Bi CRR) 120 50 3 (8/100) (2/100) (1/5) true ltac:(lra) ltac:(lra) ltac:(lra) ltac:(lra)) as (v & _ & A & _).
  destruct (C63_american_limit (Bi CRR) 90 50 3 (8/100) (2/100) (1/5) true ltac:(lra) ltac:(lra) ltac:(lra) ltac:(lra)) as (v' & _ & A' & _).
  destruct (C82_call_bound 120 50 3 (8/100) (2/100) (1/5) v ltac:(lra) ltac:(lra) ltac:(lra) ltac:(lra) ltac:(lra) ltac:(lra) A) as (x & H1 & H2 & _ & H3).
  destruct (C82_call_bound 90 50 3 (8/100) (2/100) (1/5) v' ltac:(lra) ltac:(lra) ltac:(lra) ltac:(lra) ltac:(lra) ltac:(lra) A') as (y & I1 & I2 & I3 & _).
  rewrite (Q x H1 H2) in H3. rewrite (Q y I1 I2) in I3. replace (2 / (2 - 1) * 50) with 100 in * by lra. split.
  - rewrite (H3 ltac:(lra)) in A. replace (120 - 50) with 70 in A by lra. exact A.
  - exists v'. split; [exact A'|]. specialize (I3 ltac:(lra)). lra.
Qed.

(** With b < r and r >= 0 the American call tends to the perpetual call as the maturity grows. *)
Theorem C82_call_limit : forall S K r b s, 0 < S -> 0 < K -> 0 < s -> 0 <= r -> b < r ->
  exists beta, 1 < beta /\ 1 / 2 * s ^ 2 * beta * (beta - 1) + b * beta - r = 0 /\
    let B := beta / (beta - 1) * K in
    forall eps, 0 < eps -> exists T, 0 <= T /\ forall t v, T < t -> american_value (call_put true K) r b s t S v ->
      Rabs (v - (if Rlt_dec S B then (B - K) * Rpower (S / B) beta else S - K)) < eps.
Proof. exact c82_call_limit. Qed.
Print Assumptions C82_call_limit.
Example C82_call_limit_case := C82_call_limit 90 50 (8/100) (2/100) (1/5) ltac:(lra) ltac:(lra) ltac:(lra) ltac:(lra) ltac:(lra).

(** With r > 0 and b <= r (a stock or a futures contract) the American put is for every maturity at most the perpetual put, (K - B) (S/B)^gamma, above the exercise price B = gamma/(gamma-1) K, and up to B it is worth exactly K - S. *)
Theorem C82_put_bound : forall S K t r b s v, 0 < S -> 0 < K -> 0 < t -> 0 < s -> 0 < r -> b <= r -> american_value (call_put false K) r b s t S v ->
  exists gamma, gamma < 0 /\ 1 / 2 * s ^ 2 * gamma * (gamma - 1) + b * gamma - r = 0 /\
    let B := gamma / (gamma - 1) * K in 0 < B < K /\ (B < S -> v <= (K - B) * Rpower (S / B) gamma) /\ (S <= B -> v = K - S).
Proof. exact c82_put_bound. Qed.
Print Assumptions C82_put_bound.
(** gamma = -2 and exercise price 100 for strike 150: the put is worth exactly 70 at 80 *)
Example C82_put_bound_case : american_value (call_put false 150) (8/100) (2/100) (1/5) 3 80 70.
Proof.
  destruct (C63_american_limit (Bi CRR) 80 150 3 (8/100) (2/100) (1/5) false ltac:(lra) ltac:(lra) ltac:(lra) ltac:(lra)) as (v & _ & A & _).
  destruct (C82_put_bound 80 150 3 (8/100) (2/100) (1/5) v ltac:(lra) ltac:(lra) ltac:(lra) ltac:(lra) ltac:(lra) ltac:(lra) A) as (x & H1 & H2 & _ & _ & H3).
  assert (x = -2) as -> by (assert (G : (x - 2) * (x + 2) = 0) by lra; apply Rmult_integral in G; lra). replace (-2 / (-2 - 1) * 150) with 100 in H3 by lra. rewrite (H3 ltac:(lra)) in A. replace (150 - 80) with 70 in A by lra. exact A.
Qed.

(** With r > 0 and b <= r the American put tends to the perpetual put as the maturity grows. *)
Theorem C82_put_limit : forall S K r b s, 0 < S -> 0 < K -> 0 < s -> 0 < r -> b <= r ->
  exists gamma, gamma < 0 /\ 1 / 2 * s ^ 2 * gamma * (gamma - 1) + b * gamma - r = 0 /\
    let B := gamma / (gamma - 1) * K in
    forall eps, 0 < eps -> exists T, 0 <= T /\ forall t v, T < t -> american_value (call_put false K) r b s t S v ->
      Rabs (v - (if Rlt_dec B S then (K - B) * Rpower (S / B) gamma else K - S)) < eps.
Proof. exact c82_put_limit. Qed.
Print Assumptions C82_put_limit.
Example C82_put_limit_case := C82_put_limit 80 100 (5/100) (5/100) (1/4) ltac:(lra) ltac:(lra) ltac:(lra) ltac:(lra) ltac:(lra).

(** The code's Bjerksund-Stensland call (0 <= b < r) and the American value agree for long maturities: their difference tends to 0. *)
Theorem C82_bs_long : forall S K r b s eps, 0 < S -> 0 < K -> 0 < s -> 0 <= b < r -> 0 < eps ->
  exists T, 0 <= T /\ forall t v, T < t -> american_value (call_put true K) r b s t S v ->
    exists x I0, bs_call (mkAmer S K t r b (Some s)) = Ok (x, Some I0) /\ Rabs (x - v) < eps.
Proof. exact c82_bs_long. Qed.
Print Assumptions C82_bs_long.
Example C82_bs_long_case := C82_bs_long 90 50 (8/100) (2/100) (1/5) (1/100) ltac:(lra) ltac:(lra) ltac:(lra) ltac:(lra) ltac:(lra).

(** The same for the code's Bjerksund-Stensland put with b <= 0 and r > 0. *)
Theorem C82_bs_put_long : forall S K r b s eps, 0 < S -> 0 < K -> 0 < s -> b <= 0 -> 0 < r -> 0 < eps ->
  exists T, 0 <= T /\ forall t v, T < t -> american_value (call_put false K) r b s t S v ->
    exists x I0, bs_put (mkAmer S K t r b (Some s)) = Ok (x, Some I0) /\ Rabs (x - v) < eps.
Proof. exact c82_bs_put_long. Qed.
Print Assumptions C82_bs_put_long.
Example C82_bs_put_long_case := C82_bs_put_long 120 100 (5/100) 0 (1/5) (1/100) ltac:(lra) ltac:(lra) ltac:(lra) ltac:(lra) ltac:(lra) ltac:(lra).

(** Whenever the search of the code's Barone-Adesi-Whaley call (0 <= b < r) ends, its price and the American value agree for long maturities up to the tolerance of the search: for every eps their difference is at most 10^-6 B + eps from some maturity on, where B = beta/(beta-1) K is the perpetual exercise price. *)
Theorem C82_baw_long : forall S K r b s eps, 0 < S -> 0 < K -> 0 < s -> 0 <= b < r -> 0 < eps ->
  exists beta T, 1 < beta /\ 1 / 2 * s ^ 2 * beta * (beta - 1) + b * beta - r = 0 /\ 0 <= T /\
    forall t fuel x v, T < t -> baw_call fuel (mkAmer S K t r b (Some s)) = Ok x -> american_value (call_put true K) r b s t S v ->
      Rabs (x - v) < / 10 ^ 6 * (beta / (beta - 1) * K) + eps.
Proof. exact c82_baw_long. Qed.
Print Assumptions C82_baw_long.
Example C82_baw_long_case := C82_baw_long 90 50 (8/100) (2/100) (1/5) (1/100) ltac:(lra) ltac:(lra) ltac:(lra) ltac:(lra) ltac:(lra).

(** The same for puts with r > 0 and b <= r, a stock without dividends (b = r) included: whenever the search ends, the code's Barone-Adesi-Whaley put is within 10^-6 K + eps of the American value from some maturity on. *)
Theorem C82_baw_put_long : forall S K r b s eps, 0 < S -> 0 < K -> 0 < s -> 0 < r -> b <= r -> 0 < eps ->
  exists T, 0 <= T /\
    forall t fuel x v, T < t -> baw_put fuel (mkAmer S K t r b (Some s)) = Ok x -> american_value (call_put false K) r b s t S v ->
      Rabs (x - v) < / 10 ^ 6 * K + eps.
Proof. exact c82_baw_put_long. Qed.
Print Assumptions C82_baw_put_long.
Example C82_baw_put_long_case := C82_baw_put_long 120 100 (5/100) (5/100) (1/5) (1/100) ltac:(lra) ltac:(lra) ltac:(lra) ltac:(lra) ltac:(lra) ltac:(lra).

