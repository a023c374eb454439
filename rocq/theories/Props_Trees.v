(** Property theorems C22-C34 and C75-C77: CRR, JR, TIAN and trinomial tree options.
    Layout and error theorems hold in any arithmetic ([Num]); the others over the reals. *)
From Coquelicot Require Import Coquelicot.
From Coq Require Import Reals String List Arith ZArith Lra Lia.
From Verif Require Import Num Py Arr MBase MVanilla MTrees STrees MPlot PCnd2 PGauss PTrees4 PTrees5 PPlot PConv4 SSens PGbs2 PSens PTreeVol2.
Import ListNotations.
Open Scope R_scope.


(* ---------------------------------------------------------------- C22 *)
(** European CRR, JR and TIAN prices are the discounted binomial expectation. *)
Theorem C22_binomial_sum : forall k S K t r b sigma n (call : bool),
  n <> 0%nat -> 0 < t -> sigma <> 0 ->
  let dt := t / INR n in
  let u := step_u k b sigma dt in let d := step_d k b sigma dt in let p := step_p k b sigma dt in
  tree_price (Bi k) (mkTree S K t r b sigma "european" n) call false =
  Ok (Price (exp (- r * t) *
    sum_f_R0 (fun i => Binomial.C n i * p ^ i * (1 - p) ^ (n - i) * Rmax (zof call * (S * u ^ i * d ^ (n - i) - K)) 0) n)).
Proof. exact euro_binomial_sum. Qed.
Print Assumptions C22_binomial_sum.
Example C22_binomial_sum_case :=
  C22_binomial_sum JR 100 95 1 (5/100) (2/100) (1/5) 50 false (not_eq_sym (O_S 49)) ltac:(lra) ltac:(lra).

(** For all four classes the European price is the expectation over all paths of the discounted payoff. *)
Theorem C22_path_expectation : forall c S K t r b sigma n (call : bool),
  n <> 0%nat -> 0 < t -> sigma <> 0 ->
  tree_price c (mkTree S K t r b sigma "european" n) call false =
  Ok (Price (exp (- r * t) *
    sumR (map (fun w => prob w * Rmax (zof call * (price_after S w - K)) 0)
              (paths (moves c b sigma (t / INR n)) n)))).
Proof. exact euro_path_expectation. Qed.
Print Assumptions C22_path_expectation.
Example C22_path_expectation_case :=
  C22_path_expectation Tri 100 95 1 (5/100) (2/100) (1/5) 50 true (not_eq_sym (O_S 49)) ltac:(lra) ltac:(lra).


(* ---------------------------------------------------------------- C23 *)
(** The American price is the largest expected discounted payoff over all history-dependent exercise policies, and is attained. *)
Theorem C23_optimal_stopping : forall c S K t r b sigma n (call : bool),
  n <> 0%nat -> 0 < t -> sigma <> 0 -> weights_ok c b sigma (t / INR n) ->
  exists v,
    tree_price c (mkTree S K t r b sigma "american" n) call false = Ok (Price v) /\
    (forall stop, policy_value (moves c b sigma (t / INR n)) stop (exp (- r * (t / INR n))) (zof call) K n S <= v) /\
    (exists stop, policy_value (moves c b sigma (t / INR n)) stop (exp (- r * (t / INR n))) (zof call) K n S = v).
Proof. exact american_optimal. Qed.
Print Assumptions C23_optimal_stopping.
Example C23_optimal_stopping_case :=
  C23_optimal_stopping Tri 100 95 1 (5/100) (2/100) (1/5) 50 false (not_eq_sym (O_S 49)) ltac:(lra) ltac:(lra) (ex_weights Tri).


(* ---------------------------------------------------------------- C24 *)
(** In any arithmetic: there is a value function V(time, ups) obeying the backward recursion such that call/put return V 0 0, and the tree matrix has V c (c-i) in row i <= column c and 0 below. *)
Theorem C24_binomial_tree_layout : forall (T : Type) (N : Num T) k (o : TreeOption T) (call amer : bool),
  to_n o <> 0%nat -> to_type o = the_type amer ->
  exists (V : nat -> nat -> T) m,
    tree_price (Bi k) o call false = Ok (Price (V 0 0)%nat) /\
    tree_price (Bi k) o call true = Ok (Matrix m) /\
    length m = (to_n o + 1)%nat /\ (forall i row, nth_error m i = Some row -> length row = (to_n o + 1)%nat) /\
    (forall i c, (i <= c <= to_n o)%nat -> mget m i c = Ok (V c (c - i)%nat)) /\
    (forall i c, (c < i <= to_n o)%nat -> mget m i c = Ok (ofZ 0)) /\
    let z := ofZ (if call then 1 else -1) in
    let ex c i := (z * (to_S o * bi_u k o ^ i * bi_d k o ^ (c - i) - to_K o))%num in
    (forall i, (i <= to_n o)%nat -> V (to_n o) i = ((absn (ex (to_n o) i) + ex (to_n o) i) / ofZ 2)%num) /\
    (forall c i, (i <= c < to_n o)%nat ->
       let cont := ((bi_p k o * V (c + 1)%nat (i + 1)%nat + (ofZ 1 - bi_p k o) * V (c + 1)%nat i) * bi_Df o)%num in
       V c i = if amer then (if ltb (ex c i) cont then cont else ex c i) else cont).
Proof. exact binomial_layout. Qed.
Print Assumptions C24_binomial_tree_layout.
Example C24_binomial_tree_layout_case :=
  C24_binomial_tree_layout R RNum TIAN (mkTree 100 95 1 (5/100) (2/100) (1/5) "american" 50) false true
    (not_eq_sym (O_S 49)) eq_refl.

(** In any arithmetic: V(time, node) obeys the trinomial backward recursion; column c of the (2n+1) x (n+1) matrix holds V c (n+c-i) in rows n-c .. n+c and 0 elsewhere; V 0 0 is the price. *)
Theorem C24_trinomial_tree_layout : forall (T : Type) (N : Num T) (o : TreeOption T) (call amer : bool),
  to_n o <> 0%nat -> to_type o = the_type amer ->
  let n := to_n o in
  exists (V : nat -> nat -> T) m,
    tree_price Tri o call false = Ok (Price (V 0 0)%nat) /\
    tree_price Tri o call true = Ok (Matrix m) /\
    length m = (2 * n + 1)%nat /\ (forall i row, nth_error m i = Some row -> length row = (n + 1)%nat) /\
    (forall i c, (c <= n)%nat -> (n - c <= i <= n + c)%nat -> mget m i c = Ok (V c (n + c - i)%nat)) /\
    (forall i c, (c <= n)%nat -> (i < n - c \/ n + c < i <= 2 * n)%nat -> mget m i c = Ok (ofZ 0)) /\
    let z := ofZ (if call then 1 else -1) in
    let ex c i := (z * (to_S o * tri_u o ^ (i - c) * tri_d o ^ (c - i) - to_K o))%num in
    (forall i, (i <= 2 * n)%nat -> V n i = maxn (ofZ 0) (ex n i)) /\
    (forall c i, (i <= 2 * c)%nat -> (c < n)%nat ->
       let cont := ((tri_pu o * V (c + 1)%nat (i + 2)%nat + tri_pm o * V (c + 1)%nat (i + 1)%nat
                     + tri_pd o * V (c + 1)%nat i) * tri_Df o)%num in
       V c i = if amer then maxn (ex c i) cont else cont).
Proof. exact trinomial_layout. Qed.
Print Assumptions C24_trinomial_tree_layout.
Example C24_trinomial_tree_layout_case :=
  C24_trinomial_tree_layout R RNum (mkTree 100 95 1 (5/100) (2/100) (1/5) "european" 50) true false
    (not_eq_sym (O_S 49)) eq_refl.

(** Entry (downs, ups + downs) of the CRR/JR/TIAN tree matrix is what the same class returns for the option on the remaining lattice: spot S u^ups d^downs, n - ups - downs steps, the remaining life; the last column holds the payoffs. *)
Theorem C24_binomial_entries_are_prices : forall k S K t r b sigma n (amer call : bool),
  n <> 0%nat -> 0 < t -> sigma <> 0 ->
  let u := step_u k b sigma (t / INR n) in let d := step_d k b sigma (t / INR n) in
  exists m, tree_price (Bi k) (mkTree S K t r b sigma (the_type amer) n) call true = Ok (Matrix m) /\
    (forall ups downs, (ups + downs < n)%nat -> exists v,
       mget m downs (ups + downs) = Ok v /\
       let rest := (n - (ups + downs))%nat in
       tree_price (Bi k) (mkTree (S * u ^ ups * d ^ downs) K (t * INR rest / INR n) r b sigma (the_type amer) rest)
         call false = Ok (Price v)) /\
    (forall ups downs, (ups + downs = n)%nat ->
       mget m downs n = Ok (Rmax (zof call * (S * u ^ ups * d ^ downs - K)) 0)).
Proof. exact binomial_entries. Qed.
Print Assumptions C24_binomial_entries_are_prices.
Example C24_binomial_entries_are_prices_case :=
  C24_binomial_entries_are_prices TIAN 100 95 1 (5/100) (2/100) (1/5) 50 true false (not_eq_sym (O_S 49)) ltac:(lra) ltac:(lra).

(** Row n - y, column c of the trinomial matrix, |y| <= c < n, is the price of the trinomial option on the remaining lattice with spot S u^y; the last column holds the payoffs. *)
Theorem C24_trinomial_entries_are_prices : forall S K t r b sigma n (amer call : bool),
  n <> 0%nat -> 0 < t -> sigma <> 0 ->
  let spot y := S * exp (IZR y * (2 * (sigma * sqrt (t / INR n / 2)))) in
  exists m, tree_price Tri (mkTree S K t r b sigma (the_type amer) n) call true = Ok (Matrix m) /\
    (forall (c : nat) (y : Z), (c < n)%nat -> (- Z.of_nat c <= y <= Z.of_nat c)%Z -> exists v,
       mget m (Z.to_nat (Z.of_nat n - y)) c = Ok v /\
       tree_price Tri (mkTree (spot y) K (t * INR (n - c) / INR n) r b sigma (the_type amer) (n - c))
         call false = Ok (Price v)) /\
    (forall y : Z, (- Z.of_nat n <= y <= Z.of_nat n)%Z ->
       mget m (Z.to_nat (Z.of_nat n - y)) n = Ok (Rmax (zof call * (spot y - K)) 0)).
Proof. exact trinomial_entries. Qed.
Print Assumptions C24_trinomial_entries_are_prices.
Example C24_trinomial_entries_are_prices_case :=
  C24_trinomial_entries_are_prices 100 95 1 (5/100) (2/100) (1/5) 50 true false (not_eq_sym (O_S 49)) ltac:(lra) ltac:(lra).


(* ---------------------------------------------------------------- C25 *)
(** Put-call parity holds exactly on CRR, TIAN and trinomial lattices for every n. *)
Theorem C25_lattice_parity : forall c S K t r b sigma n,
  n <> 0%nat -> 0 < t -> sigma <> 0 -> c <> Bi JR ->
  exists vc vp,
    tree_price c (mkTree S K t r b sigma "european" n) true false = Ok (Price vc) /\
    tree_price c (mkTree S K t r b sigma "european" n) false false = Ok (Price vp) /\
    vc - vp = S * exp ((b - r) * t) - K * exp (- r * t).
Proof. exact lattice_parity. Qed.
Print Assumptions C25_lattice_parity.
Example C25_lattice_parity_case :=
  C25_lattice_parity (Bi TIAN) 100 95 1 (5/100) (2/100) (1/5) 50 (not_eq_sym (O_S 49)) ltac:(lra) ltac:(lra)
    ltac:(discriminate).

(** Jarrow-Rudd lattices violate parity: call - put is strictly below the forward value, for every n and sigma. *)
Theorem C25_jr_parity_refuted : forall S K t r b sigma n,
  n <> 0%nat -> 0 < t -> sigma <> 0 -> 0 < S ->
  exists vc vp,
    tree_price (Bi JR) (mkTree S K t r b sigma "european" n) true false = Ok (Price vc) /\
    tree_price (Bi JR) (mkTree S K t r b sigma "european" n) false false = Ok (Price vp) /\
    vc - vp < S * exp ((b - r) * t) - K * exp (- r * t).
Proof. exact jr_parity_violated. Qed.
Print Assumptions C25_jr_parity_refuted.
Example C25_jr_parity_refuted_case :=
  C25_jr_parity_refuted 100 95 1 (5/100) (2/100) (1/5) 50 (not_eq_sym (O_S 49)) ltac:(lra) ltac:(lra) ltac:(lra).


(* ---------------------------------------------------------------- C26 *)
(** With probabilities in [0,1], American >= European >= 0 and American >= exercise value. *)
Theorem C26_american_dominates : forall c S K t r b sigma n (call : bool),
  n <> 0%nat -> 0 < t -> sigma <> 0 -> weights_ok c b sigma (t / INR n) ->
  exists va ve,
    tree_price c (mkTree S K t r b sigma "american" n) call false = Ok (Price va) /\
    tree_price c (mkTree S K t r b sigma "european" n) call false = Ok (Price ve) /\
    0 <= ve /\ ve <= va /\ zof call * (S - K) <= va.
Proof. exact american_dominates. Qed.
Print Assumptions C26_american_dominates.
Example C26_american_dominates_case :=
  C26_american_dominates (Bi CRR) 100 95 1 (5/100) (2/100) (1/5) 50 false (not_eq_sym (O_S 49)) ltac:(lra) ltac:(lra)
    (ex_weights (Bi CRR)).

(** With b <= r calls are worth at most the spot; with r >= 0 puts are worth at most the strike. *)
Theorem C26_upper_bounds : forall c S K t r b sigma n (amer : bool),
  n <> 0%nat -> 0 < t -> sigma <> 0 -> c <> Bi JR -> weights_ok c b sigma (t / INR n) -> 0 <= S -> 0 <= K ->
  exists vc vp,
    tree_price c (mkTree S K t r b sigma (the_type amer) n) true false = Ok (Price vc) /\
    tree_price c (mkTree S K t r b sigma (the_type amer) n) false false = Ok (Price vp) /\
    (b <= r -> vc <= S) /\ (0 <= r -> vp <= K).
Proof. exact tree_upper_bounds. Qed.
Print Assumptions C26_upper_bounds.
Example C26_upper_bounds_case :=
  C26_upper_bounds (Bi CRR) 100 95 1 (5/100) (2/100) (1/5) 50 true (not_eq_sym (O_S 49)) ltac:(lra) ltac:(lra)
    ltac:(discriminate) (ex_weights (Bi CRR)) ltac:(lra) ltac:(lra).

(** With b = r >= 0: S - K <= C_am - P_am <= S - K exp(-rt). *)
Theorem C26_american_put_call : forall c S K t r sigma n,
  n <> 0%nat -> 0 < t -> sigma <> 0 -> c <> Bi JR -> weights_ok c r sigma (t / INR n) ->
  0 <= S -> 0 <= K -> 0 <= r ->
  exists vc vp,
    tree_price c (mkTree S K t r r sigma "american" n) true false = Ok (Price vc) /\
    tree_price c (mkTree S K t r r sigma "american" n) false false = Ok (Price vp) /\
    S - K <= vc - vp <= S - K * exp (- r * t).
Proof. exact tree_american_put_call. Qed.
Print Assumptions C26_american_put_call.
Example C26_american_put_call_case :=
  C26_american_put_call Tri 100 95 1 (2/100) (1/5) 50 (not_eq_sym (O_S 49)) ltac:(lra) ltac:(lra)
    ltac:(discriminate) (ex_weights Tri) ltac:(lra) ltac:(lra) ltac:(lra).


(* ---------------------------------------------------------------- C27 *)
(** If b >= r >= 0 the American call equals the European call (CRR, TIAN, trinomial). *)
Theorem C27_no_early_exercise_call : forall c S K t r b sigma n,
  n <> 0%nat -> 0 < t -> sigma <> 0 -> c <> Bi JR -> weights_ok c b sigma (t / INR n) ->
  0 <= S -> 0 <= K -> 0 <= r -> r <= b ->
  exists v,
    tree_price c (mkTree S K t r b sigma "american" n) true false = Ok (Price v) /\
    tree_price c (mkTree S K t r b sigma "european" n) true false = Ok (Price v).
Proof. exact no_early_exercise_call. Qed.
Print Assumptions C27_no_early_exercise_call.
Example C27_no_early_exercise_call_case :=
  C27_no_early_exercise_call (Bi TIAN) 100 95 1 (1/100) (2/100) (1/5) 50 (not_eq_sym (O_S 49)) ltac:(lra) ltac:(lra)
    ltac:(discriminate) (ex_weights (Bi TIAN)) ltac:(lra) ltac:(lra) ltac:(lra) ltac:(lra).

(** If r <= 0 and b <= r the American put equals the European put (CRR, TIAN, trinomial). *)
Theorem C27_no_early_exercise_put : forall c S K t r b sigma n,
  n <> 0%nat -> 0 < t -> sigma <> 0 -> c <> Bi JR -> weights_ok c b sigma (t / INR n) ->
  0 <= S -> 0 <= K -> r <= 0 -> b <= r ->
  exists v,
    tree_price c (mkTree S K t r b sigma "american" n) false false = Ok (Price v) /\
    tree_price c (mkTree S K t r b sigma "european" n) false false = Ok (Price v).
Proof. exact no_early_exercise_put. Qed.
Print Assumptions C27_no_early_exercise_put.
Example C27_no_early_exercise_put_case :=
  C27_no_early_exercise_put (Bi TIAN) 100 95 1 (-1/100) (-2/100) (1/5) 50 (not_eq_sym (O_S 49)) ltac:(lra) ltac:(lra)
    ltac:(discriminate) ex_weights_neg ltac:(lra) ltac:(lra) ltac:(lra) ltac:(lra).

(** Jarrow-Rudd: with b = r = 0 an American call can exceed the European call (S=100, K=1, t=1, sigma=20%, n=1). *)
Theorem C27_jr_early_exercise_refuted : exists va ve,
  tree_price (Bi JR) (mkTree 100 1 1 0 0 (1/5) "american" 1) true false = Ok (Price va) /\
  tree_price (Bi JR) (mkTree 100 1 1 0 0 (1/5) "european" 1) true false = Ok (Price ve) /\ ve < va.
Proof. exact jr_early_exercise. Qed.
Print Assumptions C27_jr_early_exercise_refuted.


(* ---------------------------------------------------------------- C28 *)
(** Prices scale with (S, K). *)
Theorem C28_homogeneous : forall c S K t r b sigma n (amer call : bool) q,
  n <> 0%nat -> 0 < t -> sigma <> 0 -> 0 <= q ->
  exists v,
    tree_price c (mkTree S K t r b sigma (the_type amer) n) call false = Ok (Price v) /\
    tree_price c (mkTree (q * S) (q * K) t r b sigma (the_type amer) n) call false = Ok (Price (q * v)).
Proof. exact tree_homogeneous. Qed.
Print Assumptions C28_homogeneous.
Example C28_homogeneous_case :=
  C28_homogeneous (Bi JR) 100 95 1 (5/100) (2/100) (1/5) 50 true false 3 (not_eq_sym (O_S 49)) ltac:(lra) ltac:(lra) ltac:(lra).

(** CRR and trinomial: call(S,K,t,r,b,sigma) = put(K,S,t,r-b,-b,sigma), European and American. *)
Theorem C28_duality : forall c S K t r b sigma n (amer : bool),
  n <> 0%nat -> 0 < t -> sigma <> 0 -> c = Bi CRR \/ c = Tri ->
  exists v,
    tree_price c (mkTree S K t r b sigma (the_type amer) n) true false = Ok (Price v) /\
    tree_price c (mkTree K S t (r - b) (- b) sigma (the_type amer) n) false false = Ok (Price v).
Proof. exact tree_duality. Qed.
Print Assumptions C28_duality.
Example C28_duality_case :=
  C28_duality Tri 100 95 1 (5/100) (2/100) (1/5) 50 true (not_eq_sym (O_S 49)) ltac:(lra) ltac:(lra) (or_intror eq_refl).


(* ---------------------------------------------------------------- C29 *)
(** Calls do not increase and puts do not decrease with the strike. *)
Theorem C29_strike_monotone : forall c S K1 K2 t r b sigma n (amer : bool),
  n <> 0%nat -> 0 < t -> sigma <> 0 -> weights_ok c b sigma (t / INR n) -> K1 <= K2 ->
  exists c1 c2 p1 p2,
    tree_price c (mkTree S K1 t r b sigma (the_type amer) n) true false = Ok (Price c1) /\
    tree_price c (mkTree S K2 t r b sigma (the_type amer) n) true false = Ok (Price c2) /\
    tree_price c (mkTree S K1 t r b sigma (the_type amer) n) false false = Ok (Price p1) /\
    tree_price c (mkTree S K2 t r b sigma (the_type amer) n) false false = Ok (Price p2) /\
    c2 <= c1 /\ p1 <= p2.
Proof. exact tree_strike_monotone. Qed.
Print Assumptions C29_strike_monotone.
Example C29_strike_monotone_case :=
  C29_strike_monotone Tri 100 90 95 1 (5/100) (2/100) (1/5) 50 true (not_eq_sym (O_S 49)) ltac:(lra) ltac:(lra)
    (ex_weights Tri) ltac:(lra).

(** The price changes by at most exp(-rt) |K2-K1| (European), |K2-K1| (American, r >= 0). *)
Theorem C29_strike_lipschitz : forall c S K1 K2 t r b sigma n (call : bool),
  n <> 0%nat -> 0 < t -> sigma <> 0 -> weights_ok c b sigma (t / INR n) ->
  exists e1 e2 a1 a2,
    tree_price c (mkTree S K1 t r b sigma "european" n) call false = Ok (Price e1) /\
    tree_price c (mkTree S K2 t r b sigma "european" n) call false = Ok (Price e2) /\
    tree_price c (mkTree S K1 t r b sigma "american" n) call false = Ok (Price a1) /\
    tree_price c (mkTree S K2 t r b sigma "american" n) call false = Ok (Price a2) /\
    Rabs (e2 - e1) <= exp (- r * t) * Rabs (K2 - K1) /\
    (0 <= r -> Rabs (a2 - a1) <= Rabs (K2 - K1)).
Proof. exact tree_strike_lipschitz. Qed.
Print Assumptions C29_strike_lipschitz.
Example C29_strike_lipschitz_case :=
  C29_strike_lipschitz (Bi JR) 100 90 95 1 (5/100) (2/100) (1/5) 50 true (not_eq_sym (O_S 49)) ltac:(lra) ltac:(lra)
    (ex_weights (Bi JR)).

(** Prices are jointly convex in (S, K): in particular butterflies cost nothing negative. *)
Theorem C29_jointly_convex : forall c S1 S2 K1 K2 t r b sigma n (amer call : bool) l,
  n <> 0%nat -> 0 < t -> sigma <> 0 -> weights_ok c b sigma (t / INR n) -> 0 <= l <= 1 ->
  exists v1 v2 v,
    tree_price c (mkTree S1 K1 t r b sigma (the_type amer) n) call false = Ok (Price v1) /\
    tree_price c (mkTree S2 K2 t r b sigma (the_type amer) n) call false = Ok (Price v2) /\
    tree_price c (mkTree (l * S1 + (1 - l) * S2) (l * K1 + (1 - l) * K2) t r b sigma (the_type amer) n) call false
      = Ok (Price v) /\
    v <= l * v1 + (1 - l) * v2.
Proof. exact tree_convex. Qed.
Print Assumptions C29_jointly_convex.
Example C29_jointly_convex_case :=
  C29_jointly_convex (Bi CRR) 100 100 90 110 1 (5/100) (2/100) (1/5) 50 true true (1/2) (not_eq_sym (O_S 49))
    ltac:(lra) ltac:(lra) (ex_weights (Bi CRR)) ltac:(lra).

(** Calls do not decrease and puts do not increase with the spot. *)
Theorem C29_spot_monotone : forall c S1 S2 K t r b sigma n (amer : bool),
  n <> 0%nat -> 0 < t -> sigma <> 0 -> weights_ok c b sigma (t / INR n) -> S1 <= S2 ->
  exists c1 c2 p1 p2,
    tree_price c (mkTree S1 K t r b sigma (the_type amer) n) true false = Ok (Price c1) /\
    tree_price c (mkTree S2 K t r b sigma (the_type amer) n) true false = Ok (Price c2) /\
    tree_price c (mkTree S1 K t r b sigma (the_type amer) n) false false = Ok (Price p1) /\
    tree_price c (mkTree S2 K t r b sigma (the_type amer) n) false false = Ok (Price p2) /\
    c1 <= c2 /\ p2 <= p1.
Proof. exact tree_spot_monotone. Qed.
Print Assumptions C29_spot_monotone.
Example C29_spot_monotone_case :=
  C29_spot_monotone (Bi CRR) 90 100 95 1 (5/100) (2/100) (1/5) 50 true (not_eq_sym (O_S 49))
    ltac:(lra) ltac:(lra) (ex_weights (Bi CRR)) ltac:(lra).


(* ---------------------------------------------------------------- C30 *)
(** European trinomial with n steps = European CRR with 2n steps; American trinomial <= American CRR with 2n steps when q is a probability. *)
Theorem C30_trinomial_is_two_binomial : forall S K t r b sigma n (call : bool),
  n <> 0%nat -> 0 < t -> sigma <> 0 ->
  exists v va vb,
    tree_price Tri (mkTree S K t r b sigma "european" n) call false = Ok (Price v) /\
    tree_price (Bi CRR) (mkTree S K t r b sigma "european" (2 * n)) call false = Ok (Price v) /\
    tree_price Tri (mkTree S K t r b sigma "american" n) call false = Ok (Price va) /\
    tree_price (Bi CRR) (mkTree S K t r b sigma "american" (2 * n)) call false = Ok (Price vb) /\
    (weights_ok (Bi CRR) b sigma (t / INR (2 * n)) -> va <= vb).
Proof. exact trinomial_two_binomial. Qed.
Print Assumptions C30_trinomial_is_two_binomial.
Example C30_trinomial_is_two_binomial_case :=
  C30_trinomial_is_two_binomial 100 95 1 (5/100) (2/100) (1/5) 50 false (not_eq_sym (O_S 49)) ltac:(lra) ltac:(lra).


(* ---------------------------------------------------------------- C31 *)
(** CRR's weights are probabilities iff |b| sqrt(dt) <= sigma. *)
Theorem C31_crr_probability : forall b sigma dt, 0 < dt -> 0 < sigma ->
  (weights_ok (Bi CRR) b sigma dt <-> Rabs b * sqrt dt <= sigma).
Proof. exact crr_weights. Qed.
Print Assumptions C31_crr_probability.
Example C31_crr_probability_case := C31_crr_probability (2/100) (1/5) (1/50) ltac:(lra) ltac:(lra).

(** The trinomial weights are probabilities iff |b| sqrt(dt/2) <= sigma. *)
Theorem C31_trinomial_probability : forall b sigma dt, 0 < dt -> 0 < sigma ->
  (weights_ok Tri b sigma dt <-> Rabs b * sqrt (dt / 2) <= sigma).
Proof. exact trinomial_weights. Qed.
Print Assumptions C31_trinomial_probability.
Example C31_trinomial_probability_case := C31_trinomial_probability (2/100) (1/5) (1/50) ltac:(lra) ltac:(lra).

(** JR and TIAN weights are always probabilities; TIAN's moves straddle the forward. *)
Theorem C31_jr_tian_probability : forall b sigma dt, 0 < dt -> sigma <> 0 ->
  weights_ok (Bi JR) b sigma dt /\ weights_ok (Bi TIAN) b sigma dt /\
  0 < step_d TIAN b sigma dt < exp (b * dt) /\ exp (b * dt) < step_u TIAN b sigma dt.
Proof. exact jr_tian_weights. Qed.
Print Assumptions C31_jr_tian_probability.
Example C31_jr_tian_probability_case := C31_jr_tian_probability 3 (1/5) (1/50) ltac:(lra) ltac:(lra).

(** Outside that range prices can be negative: any at-the-money one-step CRR European put with b sqrt(t) > sigma. *)
Theorem C31_negative_price_refuted : forall S t r b sigma,
  0 < S -> 0 < t -> 0 < sigma -> sigma < b * sqrt t ->
  exists v, tree_price (Bi CRR) (mkTree S S t r b sigma "european" 1) false false = Ok (Price v) /\ v < 0.
Proof. exact crr_negative_price. Qed.
Print Assumptions C31_negative_price_refuted.
Example C31_negative_price_refuted_case : exists v,
  tree_price (Bi CRR) (mkTree 100 100 1 (5/100) (1/2) (1/5) "european" 1) false false = Ok (Price v) /\ v < 0.
Proof. apply C31_negative_price_refuted; try lra. rewrite sqrt_1. lra. Qed.


(* ---------------------------------------------------------------- C32 *)
(** Any other type string: binomial classes raise UnboundLocalError; the trinomial class returns max(0, z (S d^n - K)), the payoff of the lowest terminal node. *)
Theorem C32_unknown_type : forall (T : Type) (N : Num T) (o : TreeOption T) (call tree : bool),
  to_n o <> 0%nat -> to_type o <> "european"%string -> to_type o <> "american"%string ->
  (forall k, tree_price (Bi k) o call tree = Err UnboundLocalError) /\
  tree_price Tri o call false =
    Ok (Price (maxn (ofZ 0) (ofZ (if call then 1 else -1) * (to_S o * tri_u o ^ 0 * tri_d o ^ to_n o - to_K o))%num)).
Proof. exact unknown_type. Qed.
Print Assumptions C32_unknown_type.
Example C32_unknown_type_case :=
  C32_unknown_type R RNum (mkTree 100 95 1 (5/100) (2/100) (1/5) "bermudan" 50) true false
    (not_eq_sym (O_S 49)) ltac:(discriminate) ltac:(discriminate).

(** n = 0 raises ZeroDivisionError in every class. *)
Theorem C32_zero_steps : forall (T : Type) (N : Num T) c (o : TreeOption T) (call tree : bool),
  to_n o = 0%nat -> tree_price c o call tree = Err ZeroDivisionError.
Proof. exact zero_steps. Qed.
Print Assumptions C32_zero_steps.
Example C32_zero_steps_case :=
  C32_zero_steps R RNum Tri (mkTree 100 95 1 (5/100) (2/100) (1/5) "american" 0) true false eq_refl.


(* ---------------------------------------------------------------- C33 *)
(** Plotting the tree matrix of a CRR/JR/TIAN option never fails; the annotation at (x, y) is exactly the matrix entry (downs, ups + downs) of the node reached by [ups] up and [downs] down moves with x = ups + downs, y = ups - downs, and every node is annotated. *)
Theorem C33_binomial_plot : forall (T : Type) (N : Num T) k (o : TreeOption T) (call amer : bool),
  to_n o <> 0%nat -> to_type o = the_type amer ->
  exists m out, tree_price (Bi k) o call true = Ok (Matrix m) /\ bi_plot m = Ok out /\
    forall x y v, In ((x, y), v) out <->
      exists ups downs, (x = Z.of_nat ups + Z.of_nat downs /\ y = Z.of_nat ups - Z.of_nat downs)%Z /\
        (ups + downs <= to_n o)%nat /\ mget m downs (ups + downs) = Ok v.
Proof. exact binomial_plot. Qed.
Print Assumptions C33_binomial_plot.
Example C33_binomial_plot_case :=
  C33_binomial_plot R RNum CRR (mkTree 100 95 1 (5/100) (2/100) (1/5) "american" 50) false true
    (not_eq_sym (O_S 49)) eq_refl.

(** Plotting the tree matrix of a TrinomialTreeOption never fails; the annotation at (x, y) is the matrix entry in row n - y of column x, where |y| <= x (never the zero padding), and every node is annotated. *)
Theorem C33_trinomial_plot : forall (T : Type) (N : Num T) (o : TreeOption T) (call amer : bool),
  to_n o <> 0%nat -> to_type o = the_type amer ->
  exists m out, tree_price Tri o call true = Ok (Matrix m) /\ tri_plot m = Ok out /\
    forall x y v, In ((x, y), v) out <->
      exists c : nat, x = Z.of_nat c /\ (c <= to_n o)%nat /\ (- x <= y <= x)%Z /\
        mget m (Z.to_nat (Z.of_nat (to_n o) - y)%Z) c = Ok v.
Proof. exact trinomial_plot. Qed.
Print Assumptions C33_trinomial_plot.
Example C33_trinomial_plot_case :=
  C33_trinomial_plot R RNum (mkTree 100 95 1 (5/100) (2/100) (1/5) "american" 50) false true
    (not_eq_sym (O_S 49)) eq_refl.


(* ---------------------------------------------------------------- C34 *)
(** For all four classes the European tree price tends to the Black-Scholes price (GBSOption's formula with the exact normal distribution function) as the number of steps grows. *)
Theorem C34_convergence : forall c S K t r b sigma (call : bool), 0 < S -> 0 < K -> 0 < t -> 0 < sigma ->
  exists v price,
    (if call then gbs_call_F Phi else gbs_put_F Phi) (GBSOption S K t r b (Some sigma)) = Ok v /\
    (forall n, n <> 0%nat -> tree_price c (mkTree S K t r b sigma "european" n) call false = Ok (Price (price n))) /\
    is_lim_seq price v.
Proof. exact tree_converges. Qed.
Print Assumptions C34_convergence.
Example C34_convergence_case := C34_convergence Tri 100 95 1 (5/100) (2/100) (1/5) true ltac:(lra) ltac:(lra) ltac:(lra) ltac:(lra).

(** Compared with the price GBSOption itself returns (its distribution function is an approximation): for every tolerance all trees with enough steps are within 7.5e-8 times the forward and strike values plus the tolerance. *)
Theorem C34_code : forall c S K t r b sigma (call : bool) eta, 0 < S -> 0 < K -> 0 < t -> 0 < sigma -> 0 < eta ->
  exists w N, (if call then gbs_call else gbs_put) (GBSOption S K t r b (Some sigma)) = Ok w /\
    forall n, (N <= n)%nat -> exists x,
      tree_price c (mkTree S K t r b sigma "european" n) call false = Ok (Price x) /\
      Rabs (x - w) <= (S * exp ((b - r) * t) + K * exp (- r * t)) * (75 / 10 ^ 9) + eta.
Proof. exact tree_near_gbs. Qed.
Print Assumptions C34_code.
Example C34_code_case := C34_code (Bi JR) 100 95 1 (5/100) (2/100) (1/5) false (1/1000) ltac:(lra) ltac:(lra) ltac:(lra) ltac:(lra) ltac:(lra).


(* ---------------------------------------------------------------- C75 *)
(** European closed form: one vega and one gamma serve the call and the put, as the interface assumes. Every difference formula that gives 0 on constants has the same value on the call and on the put as functions of the volatility; every one that gives 0 on straight lines has the same value on both as functions of the spot. *)
Theorem C75_black_scholes : forall (S K t r b sigma : R) (l : list (R * R)) (c p : R -> R), 0 < K -> 0 < t -> (forall w x, In (w, x) l -> 0 < x) ->
  (0 < S -> first_order l ->
   (forall x, 0 < x -> gbs_call (GBSOption S K t r b (Some x)) = Ok (c x) /\ gbs_put (GBSOption S K t r b (Some x)) = Ok (p x)) ->
   formula l c = formula l p) /\
  (0 < sigma -> second_order l ->
   (forall x, 0 < x -> gbs_call (GBSOption x K t r b (Some sigma)) = Ok (c x) /\ gbs_put (GBSOption x K t r b (Some sigma)) = Ok (p x)) ->
   formula l c = formula l p).
Proof. exact c75_gbs. Qed.
Print Assumptions C75_black_scholes.
(** second differences at 90, 100, 110 of an option with strike 100 *)
Example C75_black_scholes_case :
  let val e := match e with Ok v => v | Err _ => 0 end in
  let l := [(1/100, 110); (-2/100, 100); (1/100, 90)] in
  formula l (fun x => val (gbs_call (GBSOption x 100 1 (5/100) (2/100) (Some (1/5))))) =
  formula l (fun x => val (gbs_put (GBSOption x 100 1 (5/100) (2/100) (Some (1/5))))).
Proof.
  intros val l. apply (fun H => proj2 (C75_black_scholes 100 100 1 (5/100) (2/100) (1/5) l _ _ ltac:(lra) ltac:(lra) H)).
  - intros w x H. cbn in H. repeat (destruct H as [H|H]; [injection H as <- <-; lra|]). destruct H.
  - lra.
  - unfold second_order, first_order, l. cbn. lra.
  - intros x Hx. destruct (gbs_parity x 100 1 (5/100) (2/100) (1/5) Hx ltac:(lra) ltac:(lra) ltac:(lra)) as (c & p & -> & -> & _).
    split; reflexivity.
Qed.

(** European CRR, TIAN and trinomial trees: likewise, for every number of steps. *)
Theorem C75_lattices : forall cl (S K t r b sigma : R) n (l : list (R * R)) (c p : R -> R), n <> 0%nat -> 0 < t -> cl <> Bi JR ->
  (first_order l -> (forall w x, In (w, x) l -> x <> 0) ->
   (forall x, x <> 0 -> tree_price cl (mkTree S K t r b x "european" n) true false = Ok (Price (c x)) /\
                        tree_price cl (mkTree S K t r b x "european" n) false false = Ok (Price (p x))) ->
   formula l c = formula l p) /\
  (sigma <> 0 -> second_order l ->
   (forall x, tree_price cl (mkTree x K t r b sigma "european" n) true false = Ok (Price (c x)) /\
              tree_price cl (mkTree x K t r b sigma "european" n) false false = Ok (Price (p x))) ->
   formula l c = formula l p).
Proof. exact c75_lattices. Qed.
Print Assumptions C75_lattices.
(** volatility bumps of a 50-step CRR tree *)
Example C75_lattices_case :
  let val e := match e with Ok (Price v) => v | _ => 0 end in
  let l := [(100, 21/100); (-100, 20/100)] in
  formula l (fun x => val (tree_price (Bi CRR) (mkTree 100 95 1 (5/100) (2/100) x "european" 50) true false)) =
  formula l (fun x => val (tree_price (Bi CRR) (mkTree 100 95 1 (5/100) (2/100) x "european" 50) false false)).
Proof.
  intros val l. apply (proj1 (C75_lattices (Bi CRR) 100 95 1 (5/100) (2/100) 1 50 l _ _ (not_eq_sym (O_S 49)) ltac:(lra) ltac:(discriminate))).
  - unfold first_order, l. cbn. lra.
  - intros w x H. cbn in H. repeat (destruct H as [H|H]; [injection H as <- <-; lra|]). destruct H.
  - intros x Hx. destruct (lattice_parity (Bi CRR) 100 95 1 (5/100) (2/100) x 50 (not_eq_sym (O_S 49)) ltac:(lra) Hx ltac:(discriminate)) as (c & p & -> & -> & _).
    split; reflexivity.
Qed.

(** Finding: Jarrow-Rudd trees have no common vega: for every number of steps, when the volatility rises the put always gains more than the call. vega() reports the call's number for both. *)
Theorem C75_jr_refuted : forall (S K t r b s1 s2 : R) n, n <> 0%nat -> 0 < t -> 0 < S -> 0 < s1 < s2 ->
  exists c1 c2 p1 p2,
    tree_price (Bi JR) (mkTree S K t r b s1 "european" n) true false = Ok (Price c1) /\
    tree_price (Bi JR) (mkTree S K t r b s2 "european" n) true false = Ok (Price c2) /\
    tree_price (Bi JR) (mkTree S K t r b s1 "european" n) false false = Ok (Price p1) /\
    tree_price (Bi JR) (mkTree S K t r b s2 "european" n) false false = Ok (Price p2) /\
    c2 - c1 < p2 - p1.
Proof. exact c75_jr. Qed.
Print Assumptions C75_jr_refuted.
Example C75_jr_refuted_case := C75_jr_refuted 100 95 1 (5/100) (2/100) (20/100) (21/100) 50 (not_eq_sym (O_S 49)) ltac:(lra) ltac:(lra) ltac:(lra).

(** Finding: the gamma of a tree option says nothing about curvature. For every tree class, number of steps and style the price is a straight line in the spot near every spot outside a finite set, so every difference formula for a second derivative gives exactly 0 there once its points are close enough, while the gamma of the Black-Scholes price that the European tree approximates is positive. *)
Theorem C75_tree_gamma_refuted : forall cl (K t r b sigma : R) n (amer call : bool), n <> 0%nat -> 0 < t -> 0 < sigma -> 0 < K ->
  exists kinks : list R, forall S, 0 < S -> ~ In S kinks ->
    (exists eps, 0 < eps /\ forall l (v : R -> R), second_order l -> (forall w x, In (w, x) l -> Rabs (x - S) < eps) ->
       (forall x, Rabs (x - S) < eps -> tree_price cl (mkTree x K t r b sigma (the_type amer) n) call false = Ok (Price (v x))) ->
       formula l v = 0) /\
    exists g, gbs_gamma (GBSOption S K t r b (Some sigma)) = Ok g /\ 0 < g.
Proof. exact c75_tree_gamma. Qed.
Print Assumptions C75_tree_gamma_refuted.
Example C75_tree_gamma_refuted_case :=
  C75_tree_gamma_refuted (Bi CRR) 95 1 (5/100) (2/100) (1/5) 50 true false (not_eq_sym (O_S 49)) ltac:(lra) ltac:(lra) ltac:(lra).

(** Finding: for American options the put's vega is not the call's, which vega() reports. Cox-Ross-Rubinstein, one step, S=100, K=101, t=1, r=b=19%: at every volatility from 20% to 21% the put is worth exactly 1 (immediate exercise), while the call gains more than 0.4 from one end to the other. *)
Theorem C75_american_refuted :
  (forall s, 20 / 100 <= s <= 21 / 100 -> tree_price (Bi CRR) (mkTree 100 101 1 (19/100) (19/100) s "american" 1) false false = Ok (Price 1)) /\
  exists c1 c2,
    tree_price (Bi CRR) (mkTree 100 101 1 (19/100) (19/100) (20/100) "american" 1) true false = Ok (Price c1) /\
    tree_price (Bi CRR) (mkTree 100 101 1 (19/100) (19/100) (21/100) "american" 1) true false = Ok (Price c2) /\
    c1 + 4 / 10 < c2.
Proof. exact c75_american. Qed.
Print Assumptions C75_american_refuted.


(* ---------------------------------------------------------------- C76 *)
(** European and American prices of CRR and trinomial trees, calls and puts, do not decrease with the volatility as soon as the smaller volatility makes the weights probabilities. The same holds for TIAN trees as long as sigma^2 dt <= ln(3/2). *)
Theorem C76_volatility : forall c S K t r b s1 s2 n (amer call : bool),
  n <> 0%nat -> 0 < S -> 0 < t -> 0 < s1 -> s1 <= s2 -> c <> Bi JR -> weights_ok c b s1 (t / INR n) ->
  (c = Bi TIAN -> s2 ^ 2 * (t / INR n) <= ln (3 / 2)) ->
  exists v1 v2,
    tree_price c (mkTree S K t r b s1 (the_type amer) n) call false = Ok (Price v1) /\
    tree_price c (mkTree S K t r b s2 (the_type amer) n) call false = Ok (Price v2) /\
    v1 <= v2.
Proof. exact c76_volatility. Qed.
Print Assumptions C76_volatility.
(** American puts: 20% against 30% volatility, TIAN tree with 50 steps *)
Example C76_volatility_case :=
  C76_volatility (Bi TIAN) 100 95 1 (5/100) (2/100) (1/5) (3/10) 50 true false (not_eq_sym (O_S 49)) ltac:(lra) ltac:(lra) ltac:(lra) ltac:(lra)
    ltac:(discriminate) (ex_weights (Bi TIAN)) (fun _ => ex_tian).

(** Jarrow-Rudd trees fail: for every number of steps and every pair of volatilities, a European call whose strike lies below all final prices of both trees is strictly cheaper with the larger volatility. *)
Theorem C76_jr_refuted : forall S K t r b s1 s2 n,
  n <> 0%nat -> 0 < S -> 0 < t -> 0 < s1 -> s1 < s2 ->
  K <= S * step_d JR b s1 (t / INR n) ^ n -> K <= S * step_d JR b s2 (t / INR n) ^ n ->
  exists v1 v2,
    tree_price (Bi JR) (mkTree S K t r b s1 "european" n) true false = Ok (Price v1) /\
    tree_price (Bi JR) (mkTree S K t r b s2 "european" n) true false = Ok (Price v2) /\
    v2 < v1.
Proof. exact c76_jr. Qed.
Print Assumptions C76_jr_refuted.
Example C76_jr_refuted_case :=
  C76_jr_refuted 100 5 1 (5/100) (2/100) (1/5) (3/10) 50 (not_eq_sym (O_S 49)) ltac:(lra) ltac:(lra) ltac:(lra) ltac:(lra)
    (ex_jr _ (or_introl eq_refl)) (ex_jr _ (or_intror eq_refl)).

(** The bound on TIAN's steps is needed: one step of one year, spot 100, strike 80, no interest or carry: the put is worth something with volatility 60% and nothing with volatility 150%. *)
Theorem C76_tian_refuted : exists v1,
    tree_price (Bi TIAN) (mkTree 100 80 1 0 0 (6/10) "european" 1) false false = Ok (Price v1) /\
    tree_price (Bi TIAN) (mkTree 100 80 1 0 0 (15/10) "european" 1) false false = Ok (Price 0) /\ 0 < v1.
Proof. exact c76_tian. Qed.
Print Assumptions C76_tian_refuted.


(* ---------------------------------------------------------------- C77 *)
(** With the cost of carry held fixed, European and American prices of all four classes, calls and puts, do not increase with the interest rate. *)
Theorem C77_interest : forall c S K t r1 r2 b sigma n (amer call : bool),
  n <> 0%nat -> 0 < S -> 0 < t -> 0 < sigma -> r1 <= r2 -> weights_ok c b sigma (t / INR n) ->
  exists v1 v2,
    tree_price c (mkTree S K t r1 b sigma (the_type amer) n) call false = Ok (Price v1) /\
    tree_price c (mkTree S K t r2 b sigma (the_type amer) n) call false = Ok (Price v2) /\
    v2 <= v1.
Proof. exact c77_interest. Qed.
Print Assumptions C77_interest.
Example C77_interest_case :=
  C77_interest Tri 100 95 1 (1/100) (5/100) (2/100) (1/5) 50 true false (not_eq_sym (O_S 49)) ltac:(lra) ltac:(lra) ltac:(lra) ltac:(lra) (ex_weights Tri).

(** With the interest rate held fixed, calls of all four classes do not decrease and puts do not increase with the cost of carry, European and American. *)
Theorem C77_carry : forall c S K t r b1 b2 sigma n (amer : bool),
  n <> 0%nat -> 0 < S -> 0 < t -> 0 < sigma -> b1 <= b2 ->
  weights_ok c b1 sigma (t / INR n) -> weights_ok c b2 sigma (t / INR n) ->
  exists c1 c2 p1 p2,
    tree_price c (mkTree S K t r b1 sigma (the_type amer) n) true false = Ok (Price c1) /\
    tree_price c (mkTree S K t r b2 sigma (the_type amer) n) true false = Ok (Price c2) /\
    tree_price c (mkTree S K t r b1 sigma (the_type amer) n) false false = Ok (Price p1) /\
    tree_price c (mkTree S K t r b2 sigma (the_type amer) n) false false = Ok (Price p2) /\
    c1 <= c2 /\ p2 <= p1.
Proof. exact c77_carry. Qed.
Print Assumptions C77_carry.
Example C77_carry_case :=
  C77_carry Tri 100 95 1 (5/100) (2/100) (4/100) (1/5) 50 true (not_eq_sym (O_S 49)) ltac:(lra) ltac:(lra) ltac:(lra) ltac:(lra)
    (ex_weights Tri) (ex_weights_b Tri (4/100) ltac:(lra)).

(** For an asset with dividend yield q (b = r - q) calls of all four classes do not decrease and puts do not increase with the interest rate, European and American, although future payments are discounted more. *)
Theorem C77_yield : forall c S K t r1 r2 q sigma n (amer : bool),
  n <> 0%nat -> 0 < S -> 0 <= K -> 0 < t -> 0 < sigma -> r1 <= r2 ->
  weights_ok c (r1 - q) sigma (t / INR n) -> weights_ok c (r2 - q) sigma (t / INR n) ->
  exists c1 c2 p1 p2,
    tree_price c (mkTree S K t r1 (r1 - q) sigma (the_type amer) n) true false = Ok (Price c1) /\
    tree_price c (mkTree S K t r2 (r2 - q) sigma (the_type amer) n) true false = Ok (Price c2) /\
    tree_price c (mkTree S K t r1 (r1 - q) sigma (the_type amer) n) false false = Ok (Price p1) /\
    tree_price c (mkTree S K t r2 (r2 - q) sigma (the_type amer) n) false false = Ok (Price p2) /\
    c1 <= c2 /\ p2 <= p1.
Proof. exact c77_yield. Qed.
Print Assumptions C77_yield.
Example C77_yield_case :=
  C77_yield (Bi CRR) 100 95 1 (3/100) (5/100) (2/100) (1/5) 50 true (not_eq_sym (O_S 49)) ltac:(lra) ltac:(lra) ltac:(lra) ltac:(lra) ltac:(lra)
    (ex_weights_b (Bi CRR) (3/100 - 2/100) ltac:(lra)) (ex_weights_b (Bi CRR) (5/100 - 2/100) ltac:(lra)).

