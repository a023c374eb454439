(** Property theorems C35-C41 and C78: spread options (3D binomial tree, Kirk's approximation, trinomial spread tree). *)
From Coq Require Import Reals String List Arith ZArith Lra Lia.
From Verif Require Import Num Py Arr MBase MVanilla MTrees MSpread STrees SLattice SSpread PSpread3 PKirk PKirk2 PTriSpread.
Import ListNotations.
Open Scope R_scope.


(* ---------------------------------------------------------------- C35 *)
(** With any otype other than "american" the price is the discounted expectation of the documented payoff over the 4^n equally likely paths of the two assets (codes 1-6, 9 and the exchange option's call). *)
Theorem C35_european_expectation : forall S1 S2 t r b1 b2 s1 s2 rho K K2 Q1 Q2 code call otype n g,
  n <> 0%nat -> code <> 8%Z -> (code = 7%Z -> call = true) -> otype <> "american"%string ->
  (forall x, doc_payoff code call Q1 Q2 K K2 (fst x) (snd x) = Some (g x)) ->
  all_types call false code S1 S2 t r b1 b2 s1 s2 rho (Some K) (Some K2) Q1 Q2 otype n
  = Ok (Price (lattice_expect b1 b2 s1 s2 rho r t n g (S1, S2))).
Proof. exact c35_euro. Qed.
Print Assumptions C35_european_expectation.
Example C35_european_expectation_case :=
  C35_european_expectation 122 120 (1/10) (1/10) 0 0 (2/10) (25/100) (-5/10) 3 0 1 1 1 true "european" 100
    (fun x => Rmax 0 (1 * fst x - 1 * snd x - 3)) (not_eq_sym (O_S 99)) ltac:(lia) ltac:(lia) ltac:(discriminate)
    (fun x => eq_refl).

(** With otype "american" the price is the best value over all exercise policies (functions of the history of moves), and some policy attains it. *)
Theorem C35_american_optimal : forall S1 S2 t r b1 b2 s1 s2 rho K K2 Q1 Q2 code call n g,
  n <> 0%nat -> code <> 8%Z -> (code = 7%Z -> call = true) ->
  (forall x, doc_payoff code call Q1 Q2 K K2 (fst x) (snd x) = Some (g x)) ->
  exists v, all_types call false code S1 S2 t r b1 b2 s1 s2 rho (Some K) (Some K2) Q1 Q2 "american" n = Ok (Price v) /\
    (forall stop, lattice_policy b1 b2 s1 s2 rho r t n stop g (S1, S2) <= v) /\
    (exists stop, lattice_policy b1 b2 s1 s2 rho r t n stop g (S1, S2) = v).
Proof. exact c35_amer. Qed.
Print Assumptions C35_american_optimal.
Example C35_american_optimal_case :=
  C35_american_optimal 122 120 (1/10) (1/10) 0 0 (2/10) (25/100) (-5/10) 3 4 1 1 5 false 100
    (fun x => Rmax 0 (Rmax (3 - 1 * fst x) (1 * snd x - 4))) (not_eq_sym (O_S 99)) ltac:(lia) ltac:(lia)
    (fun x => eq_refl).


(* ---------------------------------------------------------------- C36 *)
(** The put of the exchange option (code 7) is not the documented payoff, which is the same for calls and puts: it prices the opposite exchange, the spread call (code 1) with strike 0. *)
Theorem C36_exchange_put : forall S1 S2 t r b1 b2 s1 s2 rho K K2 Q1 Q2 otype n, n <> 0%nat ->
  all_types false false 7 S1 S2 t r b1 b2 s1 s2 rho (Some K) (Some K2) Q1 Q2 otype n
  = all_types true false 1 S1 S2 t r b1 b2 s1 s2 rho (Some 0) (Some K2) Q1 Q2 otype n.
Proof. exact c36_exchange. Qed.
Print Assumptions C36_exchange_put.
Example C36_exchange_put_case :=
  C36_exchange_put 122 120 (1/10) (1/10) 0 0 (2/10) (25/100) (-5/10) 3 4 1 1 "american" 100 (not_eq_sym (O_S 99)).

(** The relative performance option (code 8) is priced as a product option (code 9) with weight 1/Q2 on asset 2: the code divides by Q2 but multiplies by S2. *)
Theorem C36_relative_is_product : forall S1 S2 t r b1 b2 s1 s2 rho K K2 Q1 Q2 call otype n, n <> 0%nat -> Q2 <> 0 ->
  all_types call false 8 S1 S2 t r b1 b2 s1 s2 rho (Some K) (Some K2) Q1 Q2 otype n
  = all_types call false 9 S1 S2 t r b1 b2 s1 s2 rho (Some K) (Some K2) Q1 (/ Q2) otype n.
Proof. exact c36_relative. Qed.
Print Assumptions C36_relative_is_product.
Example C36_relative_is_product_case :=
  C36_relative_is_product 122 120 (1/10) (1/10) 0 0 (2/10) (25/100) (-5/10) 3 4 1 2 true "american" 100
    (not_eq_sym (O_S 99)) ltac:(lra).

(** The documented payoff of code 8 depends only on the ratio S1/S2, so scaling both spots leaves the documented value unchanged; the program's price with K=0 is multiplied by c^2 and is positive, so it differs from the documented value for c <> 1 or for c = 1. *)
Theorem C36_relative_refuted : forall S1 S2 t r b1 b2 s1 s2 rho K2 Q1 Q2 n c,
  n <> 0%nat -> 0 < S1 -> 0 < S2 -> 0 < Q1 -> 0 < Q2 -> 0 < c ->
  let doc := fun x => Rmax 0 (Q1 * fst x / (Q2 * snd x) - 0) in
  lattice_expect b1 b2 s1 s2 rho r t n doc (c * S1, c * S2) = lattice_expect b1 b2 s1 s2 rho r t n doc (S1, S2) /\
  exists v, 0 < v /\
    all_types true false 8 S1 S2 t r b1 b2 s1 s2 rho (Some 0) (Some K2) Q1 Q2 "european" n = Ok (Price v) /\
    all_types true false 8 (c * S1) (c * S2) t r b1 b2 s1 s2 rho (Some 0) (Some K2) Q1 Q2 "european" n = Ok (Price (c ^ 2 * v)).
Proof. exact c36_refuted. Qed.
Print Assumptions C36_relative_refuted.
Example C36_relative_refuted_case :=
  C36_relative_refuted 122 120 (1/10) (1/10) 0 0 (2/10) (25/100) (-5/10) 4 1 2 100 3
    (not_eq_sym (O_S 99)) ltac:(lra) ltac:(lra) ltac:(lra) ltac:(lra) ltac:(lra).

(** A payoff code outside 1-9, a missing strike K (codes other than 7) or a missing K2 (codes 4 and 5) makes call and put raise TypeError, whatever the other parameters, in any arithmetic. *)
Theorem C36_bad_code : forall (T : Type) (N : Num T) call tree code (S1 S2 t r b1 b2 s1 s2 rho : T) K K2 Q1 Q2 otype n,
  n <> 0%nat ->
  ((code < 1)%Z \/ (9 < code)%Z \/ (K = None /\ code <> 7%Z) \/ (K2 = None /\ (code = 4%Z \/ code = 5%Z))) ->
  all_types call tree code S1 S2 t r b1 b2 s1 s2 rho K K2 Q1 Q2 otype n = Err TypeError.
Proof. exact c36_bad. Qed.
Print Assumptions C36_bad_code.
Example C36_bad_code_case :=
  C36_bad_code R RNum true false 4 122 120 (1/10) (1/10) 0 0 (2/10) (25/100) (-5/10) (Some 3) None 1 2 "american" 100
    (not_eq_sym (O_S 99)) ltac:(right; right; right; auto).


(* ---------------------------------------------------------------- C37 *)
(** BionomialSpreadOption, BionomialMaxOption and BionomialMinOption price and fail exactly like BionomialSpreadAllTypes with codes 1, 2 and 3 and any second strike, in any arithmetic. *)
Theorem C37_wrappers : forall (T : Type) (N : Num T) call tree (S1 S2 K t r b1 b2 s1 s2 rho Q1 Q2 : T) K2 otype n,
  (o <- SpreadOption S1 S2 K t r b1 b2 s1 s2 rho Q1 Q2 otype n ;; s3_value call tree o)%py
  = all_types call tree 1 S1 S2 t r b1 b2 s1 s2 rho (Some K) K2 Q1 Q2 otype n /\
  (o <- MaxOption S1 S2 K t r b1 b2 s1 s2 rho Q1 Q2 otype n ;; s3_value call tree o)%py
  = all_types call tree 2 S1 S2 t r b1 b2 s1 s2 rho (Some K) K2 Q1 Q2 otype n /\
  (o <- MinOption S1 S2 K t r b1 b2 s1 s2 rho Q1 Q2 otype n ;; s3_value call tree o)%py
  = all_types call tree 3 S1 S2 t r b1 b2 s1 s2 rho (Some K) K2 Q1 Q2 otype n.
Proof. exact c37_wrap. Qed.
Print Assumptions C37_wrappers.
Example C37_wrappers_case :=
  C37_wrappers R RNum true false 122 120 3 (1/10) (1/10) 0 0 (2/10) (25/100) (-5/10) 1 2 (Some 7) "american" 100.

(** A dual-strike option (code 4) with equal strikes is the option on the maximum (code 2) for calls and on the minimum (code 3) for puts; a portfolio option (6) with weight -Q2 is the spread option (1); an exchange call (7) is a spread put (1) with strike 0. European and american alike. *)
Theorem C37_dual_strike : forall S1 S2 t r b1 b2 s1 s2 rho K K2 Q1 Q2 call otype n, n <> 0%nat ->
  let P := fun call code K K2 Q1 Q2 => all_types call false code S1 S2 t r b1 b2 s1 s2 rho (Some K) (Some K2) Q1 Q2 otype n in
  P true 4%Z K K Q1 Q2 = P true 2%Z K K2 Q1 Q2 /\ P false 4%Z K K Q1 Q2 = P false 3%Z K K2 Q1 Q2 /\
  P call 6%Z K K2 Q1 (- Q2) = P call 1%Z K K2 Q1 Q2 /\ P true 7%Z K K2 Q1 Q2 = P false 1%Z 0 K2 Q1 Q2.
Proof. exact c37_dual. Qed.
Print Assumptions C37_dual_strike.
Example C37_dual_strike_case :=
  C37_dual_strike 122 120 (1/10) (1/10) 0 0 (2/10) (25/100) (-5/10) 3 4 1 2 true "american" 100 (not_eq_sym (O_S 99)).

(** European options on the maximum and on the minimum add up to the options on the two single assets: the sum of codes 2 and 3 equals the sum of the two portfolio options (6) with one weight zero, for calls and puts. *)
Theorem C37_max_plus_min : forall S1 S2 t r b1 b2 s1 s2 rho K K2 Q1 Q2 call otype n, n <> 0%nat -> otype <> "american"%string ->
  let P := fun code Q1 Q2 => all_types call false code S1 S2 t r b1 b2 s1 s2 rho (Some K) (Some K2) Q1 Q2 otype n in
  exists vmax vmin v1 v2, P 2%Z Q1 Q2 = Ok (Price vmax) /\ P 3%Z Q1 Q2 = Ok (Price vmin) /\
    P 6%Z Q1 0 = Ok (Price v1) /\ P 6%Z 0 Q2 = Ok (Price v2) /\ vmax + vmin = v1 + v2.
Proof. exact c37_max_min. Qed.
Print Assumptions C37_max_plus_min.
Example C37_max_plus_min_case :=
  C37_max_plus_min 122 120 (1/10) (1/10) 0 0 (2/10) (25/100) (-5/10) 110 4 1 2 false "european" 100
    (not_eq_sym (O_S 99)) ltac:(discriminate).

(** For every code with a documented payoff: the price is nonnegative, american is at least european and at least the payoff of exercising now; calls on the minimum are worth at most calls on the maximum (puts the reverse). *)
Theorem C37_orderings : forall S1 S2 t r b1 b2 s1 s2 rho K K2 Q1 Q2 code call n g, n <> 0%nat ->
  code <> 8%Z -> (code = 7%Z -> call = true) ->
  (forall x, doc_payoff code call Q1 Q2 K K2 (fst x) (snd x) = Some (g x)) ->
  let P := fun code otype => all_types call false code S1 S2 t r b1 b2 s1 s2 rho (Some K) (Some K2) Q1 Q2 otype n in
  (exists e a, P code "european"%string = Ok (Price e) /\ P code "american"%string = Ok (Price a) /\ 0 <= e <= a /\ g (S1, S2) <= a) /\
  (forall amer, exists vmax vmin, P 2%Z (the_type amer) = Ok (Price vmax) /\ P 3%Z (the_type amer) = Ok (Price vmin) /\
     (if call then vmin <= vmax else vmax <= vmin)).
Proof. exact c37_order. Qed.
Print Assumptions C37_orderings.
Example C37_orderings_case :=
  C37_orderings 122 120 (1/10) (1/10) 0 0 (2/10) (25/100) (-5/10) 3 0 1 1 6 true 100
    (fun x => Rmax 0 (1 * fst x + 1 * snd x - 3)) (not_eq_sym (O_S 99)) ltac:(lia) ltac:(lia) (fun x => eq_refl).

(** For codes 1-7 prices are homogeneous: scaling both spots and both strikes by c > 0 scales the price by c. *)
Theorem C37_homogeneous : forall S1 S2 t r b1 b2 s1 s2 rho K K2 Q1 Q2 code call otype n c, n <> 0%nat ->
  (1 <= code <= 7)%Z -> 0 < c ->
  exists v, all_types call false code S1 S2 t r b1 b2 s1 s2 rho (Some K) (Some K2) Q1 Q2 otype n = Ok (Price v) /\
  all_types call false code (c * S1) (c * S2) t r b1 b2 s1 s2 rho (Some (c * K)) (Some (c * K2)) Q1 Q2 otype n = Ok (Price (c * v)).
Proof. exact c37_homog. Qed.
Print Assumptions C37_homogeneous.
Example C37_homogeneous_case :=
  C37_homogeneous 122 120 (1/10) (1/10) 0 0 (2/10) (25/100) (-5/10) 3 0 1 1 5 false "american" 100 7
    (not_eq_sym (O_S 99)) ltac:(lia) ltac:(lra).

(** Exchanging the names of the two assets changes the price of an option on the maximum although the contract is the same: one-step tree, equal spots 100, volatilities 0.2 and 0.4, correlation 0.6. *)
Theorem C37_label_asymmetry_refuted : exists v w,
  all_types true false 2 100 100 1 0 0 0 (2/10) (4/10) (6/10) (Some 100) (Some 0) 1 1 "european" 1 = Ok (Price v) /\
  all_types true false 2 100 100 1 0 0 0 (4/10) (2/10) (6/10) (Some 100) (Some 0) 1 1 "european" 1 = Ok (Price w) /\
  v <> w.
Proof. exact c37_asym. Qed.
Print Assumptions C37_label_asymmetry_refuted.



(* ---------------------------------------------------------------- C38 *)
(** call(tree=True) and put(tree=True) return an (n+2)x(n+2) matrix whose last row and column are zero and whose entry (0,0) is what the plain call returns; in any arithmetic, for any payoff that evaluates. *)
Theorem C38_layout : forall (T : Type) (N : Num T) (call : bool) code (S1 S2 t r b1 b2 s1 s2 rho : T) K K2 Q1 Q2 otype n (G : T -> T -> T),
  n <> 0%nat ->
  (forall x1 x2, s3_payoff code (if call then 1 else -1)%Z x1 x2 Q1 Q2 K K2 = Ok (G x1 x2)) ->
  exists M v, all_types call true code S1 S2 t r b1 b2 s1 s2 rho K K2 Q1 Q2 otype n = Ok (Matrix M) /\
    all_types call false code S1 S2 t r b1 b2 s1 s2 rho K K2 Q1 Q2 otype n = Ok (Price v) /\
    List.length M = (n + 2)%nat /\ (forall row, In row M -> List.length row = (n + 2)%nat) /\
    mget M 0 0 = Ok v /\
    (forall k, (k <= n + 1)%nat -> mget M k (n + 1) = Ok (ofZ 0) /\ mget M (n + 1) k = Ok (ofZ 0)).
Proof. exact c38_layout. Qed.
Print Assumptions C38_layout.
Example C38_layout_case :=
  C38_layout R RNum true 7 122 120 (1/10) (1/10) 0 0 (2/10) (25/100) (-5/10) None None 1 1 "american" 100
    (fun x1 x2 => maxn (ofZ 0) (mul (ofZ 1) (sub (mul 1 x2) (mul 1 x1)))) (not_eq_sym (O_S 99)) (fun x1 x2 => eq_refl).

(** Entry (j,i) of the returned matrix, reached after c = max(j,i) < n steps, is the price of the same option started at that node's two asset prices with the remaining n-c steps and time t(n-c)/n; the node's prices are those after j up-moves of asset 1 and i of the second driver out of c. *)
Theorem C38_entries_are_prices : forall S1 S2 t r b1 b2 s1 s2 rho K K2 Q1 Q2 code call amer n j i,
  (1 <= code <= 9)%Z -> (Nat.max j i < n)%nat ->
  let c := Nat.max j i in let dt := t / INR n in
  let X1 := S1 * exp (INR c * ((b1 - s1 ^ 2 / 2) * dt) + s1 * ((2 * INR j - INR c) * sqrt dt)) in
  let X2 := S2 * exp (INR c * ((b2 - s2 ^ 2 / 2) * dt)
            + s2 * (rho * ((2 * INR j - INR c) * sqrt dt) + sqrt (1 - rho ^ 2) * ((2 * INR i - INR c) * sqrt dt))) in
  exists M v, all_types call true code S1 S2 t r b1 b2 s1 s2 rho (Some K) (Some K2) Q1 Q2 (the_type amer) n = Ok (Matrix M) /\
    mget M j i = Ok v /\
    all_types call false code X1 X2 (t * INR (n - c) / INR n) r b1 b2 s1 s2 rho (Some K) (Some K2) Q1 Q2 (the_type amer) (n - c) = Ok (Price v).
Proof. exact c38_entries. Qed.
Print Assumptions C38_entries_are_prices.
Example C38_entries_are_prices_case :=
  C38_entries_are_prices 122 120 (1/10) (1/10) 0 0 (2/10) (25/100) (-5/10) 3 4 1 1 4 true true 100 3 5 ltac:(lia) ltac:(cbn; lia).


(* ---------------------------------------------------------------- C39 *)
(** European spread options (code 1): call minus put is the discounted value of the lattice forwards minus the strike, with the lattice forwards in closed form. *)
Theorem C39_parity : forall S1 S2 t r b1 b2 s1 s2 rho K K2 Q1 Q2 n, n <> 0%nat ->
  let P := fun call => all_types call false 1 S1 S2 t r b1 b2 s1 s2 rho (Some K) (Some K2) Q1 Q2 "european" n in
  exists c p, P true = Ok (Price c) /\ P false = Ok (Price p) /\
    c - p = exp (- r * t) * (Q1 * lattice_fwd1 S1 t b1 s1 n - Q2 * lattice_fwd2 S2 t b2 s2 rho n - K).
Proof. exact c39_parity. Qed.
Print Assumptions C39_parity.
Example C39_parity_case :=
  C39_parity 122 120 (1/10) (1/10) 0 0 (2/10) (25/100) (-5/10) 3 4 1 1 100 (not_eq_sym (O_S 99)).

(** Both lattice forwards are strictly below the continuous-time forwards S exp(bt) whenever the volatility is not zero. *)
Theorem C39_forwards_low : forall S1 S2 t b1 b2 s1 s2 rho n, n <> 0%nat -> 0 < t -> 0 < S1 -> 0 < S2 -> -1 <= rho <= 1 ->
  (s1 <> 0 -> lattice_fwd1 S1 t b1 s1 n < S1 * exp (b1 * t)) /\
  (s2 <> 0 -> lattice_fwd2 S2 t b2 s2 rho n < S2 * exp (b2 * t)).
Proof. exact c39_low. Qed.
Print Assumptions C39_forwards_low.
Example C39_forwards_low_case :=
  C39_forwards_low 122 120 (1/10) 0 0 (2/10) (25/100) (-5/10) 100 (not_eq_sym (O_S 99))
    ltac:(lra) ltac:(lra) ltac:(lra) ltac:(lra).

(** Hence parity with the continuous-time forwards fails for every number of steps as soon as only asset 1 is uncertain: call minus put is strictly below exp(-rt)(Q1 S1 exp(b1 t) - Q2 S2 exp(b2 t) - K). *)
Theorem C39_continuous_parity_refuted : forall S1 S2 t r b1 b2 s1 rho K K2 Q1 Q2 n, n <> 0%nat -> 0 < t -> 0 < S1 -> 0 < Q1 -> s1 <> 0 ->
  let P := fun call => all_types call false 1 S1 S2 t r b1 b2 s1 0 rho (Some K) (Some K2) Q1 Q2 "european" n in
  exists c p, P true = Ok (Price c) /\ P false = Ok (Price p) /\
    c - p < exp (- r * t) * (Q1 * (S1 * exp (b1 * t)) - Q2 * (S2 * exp (b2 * t)) - K).
Proof. exact c39_refuted. Qed.
Print Assumptions C39_continuous_parity_refuted.
Example C39_continuous_parity_refuted_case :=
  C39_continuous_parity_refuted 122 120 (1/10) (1/10) 0 0 (2/10) (-5/10) 3 0 1 1 100 (not_eq_sym (O_S 99))
    ltac:(lra) ltac:(lra) ltac:(lra) ltac:(lra).


(* ---------------------------------------------------------------- C40 *)
(** Call minus put is Q1 S1 e^{(b1-r)t} - Q2 S2 e^{(b2-r)t} - K e^{-rt}, for all parameters with a nonzero denominator. *)
Theorem C40_parity : forall S1 S2 K t r b1 b2 s1 s2 rho Q1 Q2,
  Q2 * S2 * exp ((b2 - r) * t) + K * exp (- r * t) <> 0 ->
  let o := KirkOption S1 S2 K t r b1 b2 s1 s2 rho Q1 Q2 in
  kirk_call o - kirk_put o = Q1 * S1 * exp ((b1 - r) * t) - Q2 * S2 * exp ((b2 - r) * t) - K * exp (- r * t).
Proof. exact c40_parity. Qed.
Print Assumptions C40_parity.
Example C40_parity_case : let o := KirkOption 28 20 7 (1/4) 0 0 0 (29/100) (36/100) (42/100) 1 1 in
  kirk_call o - kirk_put o = 1.
Proof.
  intro o. unfold o. rewrite C40_parity.
  - replace ((0 - 0) * (1/4)) with 0 by lra. replace (- 0 * (1/4)) with 0 by lra. rewrite exp_0. lra.
  - replace ((0 - 0) * (1/4)) with 0 by lra. replace (- 0 * (1/4)) with 0 by lra. rewrite exp_0. lra.
Qed.

(** For positive spots and weights, K >= 0, |rho| < 1 and nonzero volatility of asset 1, calls and puts lie strictly between their no-arbitrage bounds. *)
Theorem C40_bounds : forall S1 S2 K t r b1 b2 s1 s2 rho Q1 Q2,
  0 < S1 -> 0 < S2 -> 0 <= K -> 0 < t -> 0 < Q1 -> 0 < Q2 -> -1 < rho < 1 -> s1 <> 0 ->
  let o := KirkOption S1 S2 K t r b1 b2 s1 s2 rho Q1 Q2 in
  let A := Q1 * S1 * exp ((b1 - r) * t) in let B := Q2 * S2 * exp ((b2 - r) * t) + K * exp (- r * t) in
  Rmax 0 (A - B) < kirk_call o < A /\ Rmax 0 (B - A) < kirk_put o < B.
Proof. exact c40_bounds. Qed.
Print Assumptions C40_bounds.
Example C40_bounds_case :=
  C40_bounds 28 20 7 (1/4) (5/100) 0 0 (29/100) (36/100) (42/100) 1 1
    ltac:(lra) ltac:(lra) ltac:(lra) ltac:(lra) ltac:(lra) ltac:(lra) ltac:(lra) ltac:(lra).

(** The quantity under the square root is never negative when |rho| <= 1, whatever the strike, spots and weights: the volatility is a genuine square root. *)
Theorem C40_variance : forall S1 S2 K t r b1 b2 s1 s2 rho Q1 Q2, -1 <= rho <= 1 ->
  let o := KirkOption S1 S2 K t r b1 b2 s1 s2 rho Q1 Q2 in
  let F := Q2 * S2 * exp ((b2 - r) * t) / (Q2 * S2 * exp ((b2 - r) * t) + K * exp (- r * t)) in
  k_sigma o ^ 2 = s1 ^ 2 + (s2 * F) ^ 2 - 2 * rho * s1 * s2 * F.
Proof. exact c40_variance. Qed.
Print Assumptions C40_variance.
Example C40_variance_case :=
  C40_variance 28 20 7 (1/4) (5/100) 0 0 (29/100) (36/100) (42/100) 1 1 ltac:(lra).

(** With strike 0 the price is Margrabe's exchange price, i.e. exactly what GBSOption returns with underlying Q1 S1, strike Q2 S2, rate r-b2, carry b1-b2 and volatility sqrt(s1^2+s2^2-2 rho s1 s2). *)
Theorem C40_margrabe : forall S1 S2 t r b1 b2 s1 s2 rho Q1 Q2,
  0 < S1 -> 0 < S2 -> 0 < t -> 0 < Q1 -> 0 < Q2 -> 0 < s1 ^ 2 + s2 ^ 2 - 2 * rho * s1 * s2 ->
  let o := KirkOption S1 S2 0 t r b1 b2 s1 s2 rho Q1 Q2 in
  let g := GBSOption (Q1 * S1) (Q2 * S2) t (r - b2) (b1 - b2) (Some (sqrt (s1 ^ 2 + s2 ^ 2 - 2 * rho * s1 * s2))) in
  gbs_call g = Ok (kirk_call o) /\ gbs_put g = Ok (kirk_put o).
Proof. exact c40_margrabe. Qed.
Print Assumptions C40_margrabe.
Example C40_margrabe_case :=
  C40_margrabe 28 20 (1/4) (5/100) 0 0 (29/100) (36/100) (42/100) 1 1 ltac:(lra) ltac:(lra) ltac:(lra) ltac:(lra) ltac:(lra) ltac:(lra).

(** With Q2 = 0 (or S2 = 0) the price is the plain GBSOption price on Q1 S1 with volatility sigma1. *)
Theorem C40_single_asset : forall S1 S2 K t r b1 b2 s1 s2 rho Q1 Q2,
  0 < S1 -> 0 < K -> 0 < t -> 0 < Q1 -> 0 < s1 -> Q2 * S2 = 0 ->
  let o := KirkOption S1 S2 K t r b1 b2 s1 s2 rho Q1 Q2 in
  let g := GBSOption (Q1 * S1) K t r b1 (Some s1) in
  gbs_call g = Ok (kirk_call o) /\ gbs_put g = Ok (kirk_put o).
Proof. exact c40_single. Qed.
Print Assumptions C40_single_asset.
Example C40_single_asset_case :=
  C40_single_asset 28 20 7 (1/4) (5/100) 0 0 (29/100) (36/100) (42/100) 1 0 ltac:(lra) ltac:(lra) ltac:(lra) ltac:(lra) ltac:(lra) ltac:(lra).

(** With strike 0, the call on asset 1 against asset 2 is the put on asset 2 against asset 1. *)
Theorem C40_exchange_symmetry : forall S1 S2 t r b1 b2 s1 s2 rho Q1 Q2,
  0 < S1 -> 0 < S2 -> 0 < t -> 0 < Q1 -> 0 < Q2 -> 0 < s1 ^ 2 + s2 ^ 2 - 2 * rho * s1 * s2 ->
  kirk_call (KirkOption S1 S2 0 t r b1 b2 s1 s2 rho Q1 Q2) = kirk_put (KirkOption S2 S1 0 t r b2 b1 s2 s1 rho Q2 Q1).
Proof. exact c40_exchange. Qed.
Print Assumptions C40_exchange_symmetry.
Example C40_exchange_symmetry_case :=
  C40_exchange_symmetry 28 20 (1/4) (5/100) 0 (1/100) (29/100) (36/100) (42/100) 1 2 ltac:(lra) ltac:(lra) ltac:(lra) ltac:(lra) ltac:(lra) ltac:(lra).

(** Scaling both spots and the strike by c > 0 scales call and put by c. *)
Theorem C40_homogeneous : forall S1 S2 K t r b1 b2 s1 s2 rho Q1 Q2 c,
  0 < S1 -> 0 < S2 -> 0 <= K -> 0 < t -> 0 < Q1 -> 0 < Q2 -> -1 < rho < 1 -> s1 <> 0 -> 0 < c ->
  let o := KirkOption S1 S2 K t r b1 b2 s1 s2 rho Q1 Q2 in
  let o' := KirkOption (c * S1) (c * S2) (c * K) t r b1 b2 s1 s2 rho Q1 Q2 in
  kirk_call o' = c * kirk_call o /\ kirk_put o' = c * kirk_put o.
Proof. exact c40_homog. Qed.
Print Assumptions C40_homogeneous.
Example C40_homogeneous_case :=
  C40_homogeneous 28 20 7 (1/4) (5/100) 0 0 (29/100) (36/100) (42/100) 1 1 3
    ltac:(lra) ltac:(lra) ltac:(lra) ltac:(lra) ltac:(lra) ltac:(lra) ltac:(lra) ltac:(lra) ltac:(lra).


(* ---------------------------------------------------------------- C41 *)
(** For n >= 2 the call returns the expectation, over all 9^n paths with the product of the weights 1/6, 4/6, 1/6, of the payoff max(0, S1-S2-K), discounted by exp(b - r t/n) at each of the n steps; whatever [type] says. *)
Theorem C41_price : forall S1 S2 K t r b s1 s2 rho ty n, (2 <= n)%nat ->
  ts_call (mkTS S1 S2 K t r b s1 s2 rho ty n) =
  Ok (gexpect pm9 (ret_act s1 s2 rho (t / INR n)) nine (exp (b - r * (t / INR n)))
        (fun x => Rmax 0 (fst x - snd x - K)) n (S1, S2)).
Proof. exact c41_price. Qed.
Print Assumptions C41_price.
Example C41_price_case := C41_price 70 60 0 (1/12) (3/100) (3/100) (2/10) (1/10) (5/10) "euro" 100 ltac:(lia).

(** The total discount factor is exp(n b - r t), not exp(-r t): the price with carry b is exp(n b) times the price with carry 0, so for b <> 0 and a nonzero price it is wrong and diverges with the number of steps. *)
Theorem C41_discounting_refuted : forall S1 S2 K t r b s1 s2 rho ty n, (2 <= n)%nat -> exists v,
  ts_call (mkTS S1 S2 K t r 0 s1 s2 rho ty n) = Ok v /\
  ts_call (mkTS S1 S2 K t r b s1 s2 rho ty n) = Ok (exp (INR n * b) * v) /\
  v = exp (- r * t) * sumR (map (fun p => gprob pm9 p *
        (fun x => Rmax 0 (fst x - snd x - K)) (gstate (ret_act s1 s2 rho (t / INR n)) (S1, S2) p)) (gpaths nine n)).
Proof. exact c41_disc. Qed.
Print Assumptions C41_discounting_refuted.
Example C41_discounting_refuted_case :=
  C41_discounting_refuted 70 60 0 (1/12) (3/100) (3/100) (2/10) (1/10) (5/10) "euro" 100 ltac:(lia).

(** With one step the call raises IndexError and with none ZeroDivisionError, whatever the parameters, in any arithmetic. *)
Theorem C41_few_steps : forall (T : Type) (N : Num T) (S1 S2 K t r b s1 s2 rho : T) ty,
  ts_call (mkTS S1 S2 K t r b s1 s2 rho ty 1) = Err IndexError /\
  ts_call (mkTS S1 S2 K t r b s1 s2 rho ty 0) = Err ZeroDivisionError.
Proof. exact c41_few. Qed.
Print Assumptions C41_few_steps.
Example C41_few_steps_case := C41_few_steps R RNum 70 60 0 (1/12) (3/100) (3/100) (2/10) (1/10) (5/10) "euro".

(** One step of the tree gives both log-prices mean 0 and variance 4 sigma^2 dt up to a term of order dt^(3/2), bounded explicitly: twice the volatility asked for. *)
Theorem C41_volatility_refuted : forall s1 s2 rho dt, 0 < dt -> -1 <= rho <= 1 -> rho <> 0 -> s1 <> 0 -> s2 <> 0 ->
  let E := fun f : nat * nat -> R => sumR (map (fun ab => pm9 ab * f ab) nine) in
  E (ret1 s1 s2 rho dt) = 0 /\ E (ret2 s1 s2 rho dt) = 0 /\
  Rabs (E (fun ab => ret1 s1 s2 rho dt ab ^ 2) - 4 * s1 ^ 2 * dt)
    <= 4 / 3 * s1 ^ 2 * dt * (Rabs s1 * sqrt (6 * dt) + s1 ^ 2 * dt / 2) /\
  Rabs (E (fun ab => ret2 s1 s2 rho dt ab ^ 2) - 4 * s2 ^ 2 * dt)
    <= 4 / 3 * s2 ^ 2 * dt * (Rabs s2 * sqrt (6 * dt) + s2 ^ 2 * dt / 2).
Proof. exact c41_vol. Qed.
Print Assumptions C41_volatility_refuted.
Example C41_volatility_refuted_case :=
  C41_volatility_refuted (2/10) (1/10) (5/10) (1/1200) ltac:(lra) ltac:(lra) ltac:(lra) ltac:(lra) ltac:(lra).


(* ---------------------------------------------------------------- C78 *)
(** Kirk's call and put both fall strictly when the correlation of the two assets rises (positive volatilities); hence a market price determines the correlation. *)
Theorem C78_correlation : forall S1 S2 K t r b1 b2 s1 s2 rho rho' Q1 Q2,
  0 < S1 -> 0 < S2 -> 0 <= K -> 0 < t -> 0 < Q1 -> 0 < Q2 -> 0 < s1 -> 0 < s2 -> -1 <= rho -> rho < rho' -> rho' < 1 ->
  let o := KirkOption S1 S2 K t r b1 b2 s1 s2 rho Q1 Q2 in
  let o' := KirkOption S1 S2 K t r b1 b2 s1 s2 rho' Q1 Q2 in
  kirk_call o' < kirk_call o /\ kirk_put o' < kirk_put o.
Proof. exact c78_correlation. Qed.
Print Assumptions C78_correlation.
(** spots 28 and 20, correlation 0.42 against 0.5 *)
Example C78_correlation_case :=
  C78_correlation 28 20 7 (1/4) (5/100) 0 0 (29/100) (36/100) (42/100) (1/2) 1 1 ltac:(lra) ltac:(lra) ltac:(lra) ltac:(lra) ltac:(lra) ltac:(lra)
    ltac:(lra) ltac:(lra) ltac:(lra) ltac:(lra) ltac:(lra).

(** Let F be the share of asset 2 in the discounted exercise amount. Raising the volatility of asset 1 raises call and put when it is at least rho s2 F, and lowers both as long as it stays below that; likewise for asset 2 with s2 F against rho s1. In particular, with a correlation that is not positive both volatilities always raise the price. *)
Theorem C78_volatility : forall S1 S2 K t r b1 b2 s1 s2 rho Q1 Q2,
  0 < S1 -> 0 < S2 -> 0 <= K -> 0 < t -> 0 < Q1 -> 0 < Q2 -> 0 < s1 -> 0 < s2 -> -1 < rho < 1 ->
  let F := Q2 * S2 * exp ((b2 - r) * t) / (Q2 * S2 * exp ((b2 - r) * t) + K * exp (- r * t)) in
  let call s1 s2 := kirk_call (KirkOption S1 S2 K t r b1 b2 s1 s2 rho Q1 Q2) in
  let put s1 s2 := kirk_put (KirkOption S1 S2 K t r b1 b2 s1 s2 rho Q1 Q2) in
  (forall s, s1 < s -> rho * s2 * F <= s1 -> call s1 s2 < call s s2 /\ put s1 s2 < put s s2) /\
  (forall s, s1 < s -> s <= rho * s2 * F -> call s s2 < call s1 s2 /\ put s s2 < put s1 s2) /\
  (forall s, s2 < s -> rho * s1 <= s2 * F -> call s1 s2 < call s1 s /\ put s1 s2 < put s1 s) /\
  (forall s, s2 < s -> s * F <= rho * s1 -> call s1 s < call s1 s2 /\ put s1 s < put s1 s2).
Proof. exact c78_volatility. Qed.
Print Assumptions C78_volatility.
(** the first volatility raised to 35% with correlation -0.42: the threshold is negative *)
Example C78_volatility_case :
  kirk_call (KirkOption 28 20 7 (1/4) (5/100) 0 0 (29/100) (36/100) (-42/100) 1 1) < kirk_call (KirkOption 28 20 7 (1/4) (5/100) 0 0 (35/100) (36/100) (-42/100) 1 1).
Proof.
  refine (proj1 (proj1 (C78_volatility 28 20 7 (1/4) (5/100) 0 0 (29/100) (36/100) (-42/100) 1 1 ltac:(lra) ltac:(lra) ltac:(lra) ltac:(lra) ltac:(lra) ltac:(lra)
    ltac:(lra) ltac:(lra) ltac:(lra)) (35/100) ltac:(lra) _)).
  assert (0 < 1 * 20 * exp ((0 - 5 / 100) * (1 / 4)) / (1 * 20 * exp ((0 - 5 / 100) * (1 / 4)) + 7 * exp (- (5 / 100) * (1 / 4)))).
  { pose proof (exp_pos ((0 - 5 / 100) * (1 / 4))). pose proof (exp_pos (- (5 / 100) * (1 / 4))). apply Rdiv_lt_0_compat; lra. }
  lra.
Qed.

