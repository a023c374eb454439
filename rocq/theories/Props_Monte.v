(** Property theorems C45-C49, C59 (Monte Carlo options). *)
From Coquelicot Require Import Coquelicot.
From Coq Require Import QArith Reals List Arith ZArith Lra Lia.
From Verif Require Import Num Py MBase MAmerican MMonte SMonte PCnd PGauss PMonte PMonte2 PMonte3 PMonte4 PMonteX XMonte SHeston PMonte5 SMonte2 PMonte6 XMonte2.
Import List ListNotations.
Open Scope R_scope.


(* ---------------------------------------------------------------- C45 *)
(** The value of a Monte Carlo option with WienerPath and either payoff, for every sampler and every drawn innovations: call() and put() return one entry per loop, each the average over the paths of that loop of the discounted payoff on the geometric Brownian motion driven by the (antithetic and/or standardised, as requested) innovations. *)
Theorem C45_price : forall (St : Type) (inno : nat -> nat -> St -> res (matrix R * St)) (asian trace anti std : bool)
    (loops len paths : nat) (S K t r b s : R) (o : mc R St) (st st' : St) (Es : list (matrix R)),
  MonteCarloOption loops len paths S K t r b (Some s) inno wiener_path (if asian then asian_payoff else vanilla_payoff) trace anti std = Ok o ->
  draws (inno paths len) loops st = Ok (Es, st') ->
  (std = true -> Forall (fun E => varied (if anti then mirrored E else E)) Es) ->
  exists Es', Forall2 (treated anti std) Es Es' /\ forall call, exists tr,
    mc_price call o st = Ok (MArray (map (estimate asian call S K t r b s (t / INR len)) Es'), tr, st').
Proof. exact mc_price_thm. Qed.
Print Assumptions C45_price.
Example C45_price_case := C45_price nat sampler true false true true 2 2 2 100 95 (1/2) (5/100) (3/100) (1/4) _ 0%nat 2%nat _
  eq_refl draws2 (fun _ => varied2m).

(** Put-call parity per loop: run from the same state of the sampler (same innovations), the call and put estimates of every loop differ by exactly the discounted difference of the average underlying over the paths and the strike. *)
Theorem C45_parity : forall (St : Type) (inno : nat -> nat -> St -> res (matrix R * St)) (asian trace anti std : bool)
    (loops len paths : nat) (S K t r b s : R) (o : mc R St) (st st' : St) (Es : list (matrix R)),
  MonteCarloOption loops len paths S K t r b (Some s) inno wiener_path (if asian then asian_payoff else vanilla_payoff) trace anti std = Ok o ->
  draws (inno paths len) loops st = Ok (Es, st') ->
  (std = true -> Forall (fun E => varied (if anti then mirrored E else E)) Es) -> Forall (fun E => E <> []) Es ->
  exists Es' cs ps tr tr', Forall2 (treated anti std) Es Es' /\
    mc_call o st = Ok (MArray cs, tr, st') /\ mc_put o st = Ok (MArray ps, tr', st') /\ length cs = loops /\
    map (fun cp => fst cp - snd cp) (combine cs ps) =
    map (fun E => exp (- r * t) * (average (map (underlying asian S b s (t / INR len)) E) - K)) Es'.
Proof. exact mc_parity. Qed.
Print Assumptions C45_parity.
Example C45_parity_case := C45_parity nat sampler true false false true 2 2 2 100 95 (1/2) (5/100) (3/100) (1/4) _ 0%nat 2%nat _
  eq_refl draws2 (fun _ => varied2) nonempty2.


(* ---------------------------------------------------------------- C46 *)
(** Variance reduction, whatever Path and Payoff classes are supplied: the antithetic and standardization options are equivalent to feeding a plain option with treated innovations; antithetic appends every row negated, standardization then shifts and scales all entries to average 0 and average square 1 (provided they are not all equal). *)
Theorem C46_treatment : forall (St : Type) (inno : nat -> nat -> St -> res (matrix R * St)) (Path : matrix R -> option R -> R -> R -> res (matrix R))
    (Payoff : bool -> payoff_args R -> res (list R)) (trace anti std : bool) (loops len paths : nat) (S K t r b : R) (s : option R) (o : mc R St),
  MonteCarloOption loops len paths S K t r b s inno Path Payoff trace anti std = Ok o ->
  exists treat o', MonteCarloOption loops len paths S K t r b s (fun p l st => rmap (fun es => (treat (fst es), snd es)) (inno p l st))
      Path Payoff trace false false = Ok o' /\
    (forall E, (std = true -> varied (if anti then mirrored E else E)) -> treated anti std E (treat E)) /\
    forall call st, mc_price call o st = mc_price call o' st.
Proof. exact mc_treatment. Qed.
Print Assumptions C46_treatment.
Example C46_treatment_case := C46_treatment nat sampler wiener_path log_contract false true true 2 2 2 100 95 (1/2) (5/100) (3/100) (Some (1/4)) _ eq_refl.

(** An antithetic option returns, loop by loop, the average of what the plain option returns for the drawn innovations and for their negatives. *)
Theorem C46_antithetic : forall (St : Type) (inno : nat -> nat -> St -> res (matrix R * St)) (asian trace call : bool)
    (loops len paths : nat) (S K t r b s : R) (o plain negated : mc R St) (st st' : St) (Es : list (matrix R)),
  let option inno anti := MonteCarloOption loops len paths S K t r b (Some s) inno wiener_path (if asian then asian_payoff else vanilla_payoff) trace anti false in
  option inno true = Ok o -> option inno false = Ok plain ->
  option (fun p l st => rmap (fun es => (map (map Ropp) (fst es), snd es)) (inno p l st)) false = Ok negated ->
  draws (inno paths len) loops st = Ok (Es, st') ->
  exists vs ps ns tr tr1 tr2, mc_price call o st = Ok (MArray vs, tr, st') /\
    mc_price call plain st = Ok (MArray ps, tr1, st') /\ mc_price call negated st = Ok (MArray ns, tr2, st') /\
    vs = map (fun pn => (fst pn + snd pn) / 2) (combine ps ns).
Proof. exact mc_antithetic_thm. Qed.
Print Assumptions C46_antithetic.
Example C46_antithetic_case := C46_antithetic nat sampler true false true 2 2 2 100 95 (1/2) (5/100) (3/100) (1/4) _ _ _ 0%nat 2%nat _
  eq_refl eq_refl eq_refl draws2.

(** Variance reduction centres the simulation exactly: with antithetic or standardised innovations, a user's log contract (payoff: log of the terminal price) is priced at ln S + (b - sigma^2/2) t in every loop, without sampling error, whatever is drawn. *)
Theorem C46_log_contract : forall (St : Type) (inno : nat -> nat -> St -> res (matrix R * St)) (trace anti std call : bool)
    (loops len paths : nat) (S K t r b s : R) (o : mc R St) (st st' : St) (Es : list (matrix R)), 0 < S ->
  MonteCarloOption loops len paths S K t r b (Some s) inno wiener_path log_contract trace anti std = Ok o ->
  draws (inno paths len) loops st = Ok (Es, st') -> Forall (shaped len) Es ->
  (std = true -> Forall (fun E => varied (if anti then mirrored E else E)) Es) -> anti = true \/ std = true ->
  exists tr, mc_price call o st = Ok (MArray (repeat (ln S + (b - s ^ 2 / 2) * t) loops), tr, st').
Proof. exact mc_log_contract. Qed.
Print Assumptions C46_log_contract.
Example C46_log_contract_case := C46_log_contract nat sampler false true true true 2 2 2 100 95 (1/2) (5/100) (3/100) (1/4) _ 0%nat 2%nat _
  ltac:(lra) eq_refl draws2 shaped2 (fun _ => varied2m) (or_introl eq_refl).

(** Finding: standardising a sample whose entries are all equal (in particular one path of one step) divides by zero; every price returned is nan. *)
Theorem C46_constant_refuted : forall (St : Type) (inno : nat -> nat -> St -> res (matrix X * St)) (trace call : bool) (len paths : nat) (S K t r b s c : R)
    (E : list (list R)) (o : mc X St) (st st' : St), E <> [] -> Forall (fun row => row <> []) E -> (forall x, In x (concat E) -> x = c) ->
  MonteCarloOption 1 len paths (Fin S) (Fin K) (Fin t) (Fin r) (Fin b) (Some (Fin s)) inno wiener_path vanilla_payoff trace false true = Ok o ->
  inno paths len st = Ok (map (map Fin) E, st') -> exists tr, mc_price call o st = Ok (MArray [NaN], tr, st').
Proof. exact mc_constant. Qed.
Print Assumptions C46_constant_refuted.
Example C46_constant_refuted_case := C46_constant_refuted nat sampler_const false true 1 1 100 95 (1/2) (5/100) (3/100) (1/4) (1/3) [[1/3]] _ 0%nat 1%nat
  ltac:(discriminate) ltac:(repeat constructor; discriminate) const_one eq_refl eq_refl.


(* ---------------------------------------------------------------- C47 *)
(** With zero volatility every loop of a plain vanilla option returns exactly the discounted payoff of the forward, whatever the innovations and variance reduction. *)
Theorem C47_zero_volatility : forall (St : Type) (inno : nat -> nat -> St -> res (matrix R * St)) (trace anti std call : bool)
    (loops len paths : nat) (S K t r b : R) (o : mc R St) (st st' : St) (Es : list (matrix R)),
  MonteCarloOption loops len paths S K t r b (Some 0) inno wiener_path vanilla_payoff trace anti std = Ok o ->
  draws (inno paths len) loops st = Ok (Es, st') -> Forall (shaped len) Es ->
  (std = true -> Forall (fun E => varied (if anti then mirrored E else E)) Es) ->
  exists tr, mc_price call o st = Ok (MArray (repeat (discounted call K t r (S * exp (b * t))) loops), tr, st').
Proof. exact mc_zero_vol_thm. Qed.
Print Assumptions C47_zero_volatility.
Example C47_zero_volatility_case := C47_zero_volatility nat sampler false true false true 2 2 2 100 95 (1/2) (5/100) (3/100) _ 0%nat 2%nat _
  eq_refl draws2 shaped2 ltac:(discriminate).

(** With one time step the arithmetic Asian option returns the same prices as the plain vanilla option. *)
Theorem C47_single_step : forall (St : Type) (inno : nat -> nat -> St -> res (matrix R * St)) (trace anti std call : bool)
    (loops paths : nat) (S K t r b s : R) (vanilla asian : mc R St) (st st' : St) (Es : list (matrix R)),
  MonteCarloOption loops 1 paths S K t r b (Some s) inno wiener_path vanilla_payoff trace anti std = Ok vanilla ->
  MonteCarloOption loops 1 paths S K t r b (Some s) inno wiener_path asian_payoff trace anti std = Ok asian ->
  draws (inno paths 1%nat) loops st = Ok (Es, st') -> Forall (shaped 1) Es ->
  mc_price call asian st = mc_price call vanilla st.
Proof. exact mc_single_step_thm. Qed.
Print Assumptions C47_single_step.
Example C47_single_step_case := C47_single_step nat sampler1 false true false true 2 2 100 95 (1/2) (5/100) (3/100) (1/4) _ _ 0%nat 2%nat _
  eq_refl eq_refl eq_refl shaped1.

(** The Asian estimate of a loop lies between the averages of the discounted payoff with every path looked at at its worst and at its best time point. *)
Theorem C47_asian_between : forall (St : Type) (inno : nat -> nat -> St -> res (matrix R * St)) (trace anti std call : bool)
    (loops len paths : nat) (S K t r b s : R) (o : mc R St) (st st' : St) (Es : list (matrix R)),
  MonteCarloOption loops len paths S K t r b (Some s) inno wiener_path asian_payoff trace anti std = Ok o ->
  draws (inno paths len) loops st = Ok (Es, st') -> Forall (shaped len) Es ->
  (std = true -> Forall (fun E => varied (if anti then mirrored E else E)) Es) ->
  exists Es' vs tr, Forall2 (treated anti std) Es Es' /\ mc_price call o st = Ok (MArray vs, tr, st') /\
    Forall2 (fun E v => exists worst best : list R -> nat,
      Forall (fun row => (1 <= worst row <= len /\ 1 <= best row <= len)%nat) E /\
      let at_time tau := average (map (fun row => discounted call K t r (gbm S b s (t / INR len) (firstn (tau row) row))) E) in
      at_time worst <= v <= at_time best) Es' vs.
Proof. exact mc_asian_between_thm. Qed.
Print Assumptions C47_asian_between.
Example C47_asian_between_case := C47_asian_between nat sampler false true true true 2 2 2 100 95 (1/2) (5/100) (3/100) (1/4) _ 0%nat 2%nat _
  eq_refl draws2 shaped2 (fun _ => varied2m).

(** Across strikes, on common innovations: every loop's estimate is at least the discounted payoff of the average underlying, and at most the discounted average underlying (call) or strike (put); it falls (call) or rises (put) with the strike with slope at most the discount factor, and is convex in the strike. *)
Theorem C47_strikes : forall (St : Type) (inno : nat -> nat -> St -> res (matrix R * St)) (asian trace anti std call : bool)
    (loops len paths : nat) (S K K' w t r b s : R) (o o' ow : mc R St) (st st' : St) (Es : list (matrix R)),
  0 < S -> 0 < K <= K' -> 0 <= w <= 1 ->
  let option K := MonteCarloOption loops len paths S K t r b (Some s) inno wiener_path (if asian then asian_payoff else vanilla_payoff) trace anti std in
  option K = Ok o -> option K' = Ok o' -> option (w * K + (1 - w) * K') = Ok ow ->
  draws (inno paths len) loops st = Ok (Es, st') -> Forall (shaped len) Es ->
  (std = true -> Forall (fun E => varied (if anti then mirrored E else E)) Es) ->
  exists Es' vs tr tr' tr2, Forall2 (treated anti std) Es Es' /\
    mc_price call o st = Ok (MArray (map (fun x => fst (fst x)) vs), tr, st') /\
    mc_price call o' st = Ok (MArray (map (fun x => snd (fst x)) vs), tr', st') /\
    mc_price call ow st = Ok (MArray (map snd vs), tr2, st') /\
    Forall2 (fun E '(v, v', vw) =>
      let mean := average (map (underlying asian S b s (t / INR len)) E) in
      discounted call K t r mean <= v <= exp (- r * t) * (if call then mean else K) /\
      0 <= (if call then v - v' else v' - v) <= exp (- r * t) * (K' - K) /\
      vw <= w * v + (1 - w) * v') Es' vs.
Proof. exact mc_strikes. Qed.
Print Assumptions C47_strikes.
Example C47_strikes_case := C47_strikes nat sampler true false true true true 2 2 2 100 95 105 (1/3) (1/2) (5/100) (3/100) (1/4) _ _ _ 0%nat 2%nat _
  ltac:(lra) ltac:(lra) ltac:(lra) eq_refl eq_refl eq_refl draws2 shaped2 (fun _ => varied2m).

(** Without a volatility the built-in path raises TypeError as soon as a loop runs. *)
Theorem C47_no_volatility : forall (T : Type) (N : Num T) (St : Type) (inno : nat -> nat -> St -> res (matrix T * St)) (asian trace anti std call : bool)
    (loops len paths : nat) (S K t r b : T) (o : mc T St) (st st' : St) (E : matrix T), (0 < loops)%nat ->
  MonteCarloOption loops len paths S K t r b None inno wiener_path (if asian then asian_payoff else vanilla_payoff) trace anti std = Ok o ->
  inno paths len st = Ok (E, st') -> mc_price call o st = Err TypeError.
Proof. exact mc_no_sigma. Qed.
Print Assumptions C47_no_volatility.
Example C47_no_volatility_case := C47_no_volatility R RNum nat sampler true false false false true 2 2 2 100 95 (1/2) (5/100) (3/100) _ 0%nat 1%nat _
  (Nat.lt_0_succ 1) eq_refl eq_refl.

(** For one path of one step, the price the option returns, integrated against the Gaussian density of the innovation, is the Black-Scholes price with the exact normal distribution function: the one-step estimator is unbiased. *)
Theorem C47_unbiased_one_step : forall (trace call : bool) (S K t r b s : R) (price : R -> R), 0 < S -> 0 < K -> 0 < t -> 0 < s ->
  (forall e : R, exists o tr, MonteCarloOption 1 1 1 S K t r b (Some s) (fun _ _ st => Ok ([[e]], st)) wiener_path vanilla_payoff trace false false = Ok o /\ mc_price call o tt = Ok (MArray [price e], tr, tt)) ->
  let d1 := (ln (S / K) + (b + s ^ 2 / 2) * t) / (s * sqrt t) in let d2 := d1 - s * sqrt t in
  is_RInt_gen (fun e => price e * npdf e) (Rbar_locally m_infty) (Rbar_locally p_infty)
    (if call then S * exp ((b - r) * t) * Phi d1 - K * exp (- r * t) * Phi d2
     else K * exp (- r * t) * Phi (- d2) - S * exp ((b - r) * t) * Phi (- d1)).
Proof. exact mc_unbiased. Qed.
Print Assumptions C47_unbiased_one_step.
Example C47_unbiased_one_step_case := C47_unbiased_one_step false true 100 95 (1/2) (5/100) (3/100) (1/4) _
  ltac:(lra) ltac:(lra) ltac:(lra) ltac:(lra) (one_step_price true 100 95 (1/2) (5/100) (3/100) (1/4)).

(** For every number of paths and steps, with or without antithetic innovations, the price a vanilla Monte Carlo option returns, averaged over all independent standard normal innovations, is exactly the Black-Scholes price: the estimator is unbiased *)
Theorem C47_unbiased : forall (trace anti call : bool) (len paths : nat) (S K t r b s : R), 0 < S -> 0 < K -> 0 < t -> 0 < s -> (1 <= len)%nat -> (1 <= paths)%nat ->
  let d1 := (ln (S / K) + (b + s ^ 2 / 2) * t) / (s * sqrt t) in let d2 := d1 - s * sqrt t in
  exists price : list (list R) -> R,
    (forall E, shaped len E -> length E = paths -> exists o tr,
      MonteCarloOption 1 len paths S K t r b (Some s) (fun _ _ st => Ok (E, st)) wiener_path vanilla_payoff trace anti false = Ok o /\
      mc_price call o tt = Ok (MArray [price E], tr, tt)) /\
    is_matrix_expect paths len price
      (if call then S * exp ((b - r) * t) * Phi d1 - K * exp (- r * t) * Phi d2
       else K * exp (- r * t) * Phi (- d2) - S * exp ((b - r) * t) * Phi (- d1)).
Proof. exact mc_unbiased_all. Qed.
Print Assumptions C47_unbiased.
Example C47_unbiased_case := C47_unbiased true true false 12 1000 100 95 (1/2) (5/100) (3/100) (1/4)
  ltac:(lra) ltac:(lra) ltac:(lra) ltac:(lra) ltac:(lia) ltac:(lia).

(** For every number of paths and steps, with or without antithetic innovations, the call price minus the put price of an arithmetic Asian option, averaged over all independent standard normal innovations, is the discounted difference of the average forward price over the time points and the strike *)
Theorem C47_asian_forward : forall (trace anti : bool) (len paths : nat) (S K t r b s : R), 0 < S -> 0 < t -> 0 < s -> (1 <= len)%nat -> (1 <= paths)%nat ->
  exists price : bool -> list (list R) -> R,
    (forall call E, shaped len E -> length E = paths -> exists o tr,
      MonteCarloOption 1 len paths S K t r b (Some s) (fun _ _ st => Ok (E, st)) wiener_path asian_payoff trace anti false = Ok o /\
      mc_price call o tt = Ok (MArray [price call E], tr, tt)) /\
    is_matrix_expect paths len (fun E => price true E - price false E)
      (exp (- r * t) * (average (map (fun k => S * exp (b * (INR k * t / INR len))) (seq 1 len)) - K)).
Proof. exact mc_asian_forward. Qed.
Print Assumptions C47_asian_forward.
Example C47_asian_forward_case := C47_asian_forward true true 12 1000 100 95 (1/2) (5/100) (3/100) (1/4)
  ltac:(lra) ltac:(lra) ltac:(lra) ltac:(lia) ltac:(lia).


(* ---------------------------------------------------------------- C48 *)
(** call() and put() return an array with exactly mc_loops entries, or, if the mean payoff of some loop is infinite, the debugging triple of that loop; with real-number arithmetic always the array. *)
Theorem C48_shape : forall (T : Type) (N : Num T) (St : Type) (inno : nat -> nat -> St -> res (matrix T * St)) Path Payoff (trace anti std call : bool)
    (loops len paths : nat) (S K t r b : T) (s : option T) (o : mc T St) (st st' : St) (m : mc_result T) tr,
  MonteCarloOption loops len paths S K t r b s inno Path Payoff trace anti std = Ok o -> mc_price call o st = Ok (m, tr, st') ->
  match m with
  | MArray l => length l = loops
  | MDump k _ _ pay => (k < loops)%nat /\ (lit 0 <? meanl pay)%num = true /\ (meanl pay =? meanl pay + lit 1)%num = true /\ trace = false
  end.
Proof. exact mc_shape. Qed.
Print Assumptions C48_shape.
Example C48_shape_case := C48_shape X XNum nat sampler_inf wiener_path vanilla_payoff false true false true 2 2 2
  (Fin 100) (Fin 95) (Fin (1/2)) (Fin (5/100)) (Fin (3/100)) (Some (Fin (1/4))).

(** If the sampler always returns the same innovations (eps given), all loops return the same price. *)
Theorem C48_given_innovations : forall (St : Type) (E : matrix R) (next : St -> St) Path Payoff (trace anti std call : bool)
    (loops len paths : nat) (S K t r b : R) (s : option R) (o : mc R St) (st st' : St) (m : mc_result R) tr,
  MonteCarloOption loops len paths S K t r b s (fun _ _ st => Ok (E, next st)) Path Payoff trace anti std = Ok o ->
  mc_price call o st = Ok (m, tr, st') -> exists v, m = MArray (repeat v loops).
Proof. exact mc_given. Qed.
Print Assumptions C48_given_innovations.
Example C48_given_innovations_case m := C48_given_innovations nat (draw_k 0) S wiener_path vanilla_payoff false true false true 3 2 2
  100 95 (1/2) (5/100) (3/100) (Some (1/4)) _ 0%nat 3%nat m [] eq_refl.
Example C48_given_innovations_case' := given_run.

(** Finding: the trace does not print running averages. Line i shows the total over all loops divided by i + 1, which exceeds the average of the first i + 1 prices by the sum of the later prices over i + 1; it is right on the last line only. *)
Theorem C48_trace_refuted : forall (St : Type) (inno : nat -> nat -> St -> res (matrix R * St)) Path Payoff (anti std call : bool)
    (loops len paths : nat) (S K t r b : R) (s : option R) (o : mc R St) (st st' : St) (vs : list R) tr,
  MonteCarloOption loops len paths S K t r b s inno Path Payoff true anti std = Ok o ->
  mc_price call o st = Ok (MArray vs, tr, st') ->
  length tr = loops /\
  forall i, (i < loops)%nat -> exists shown, nth_error tr i = Some (i, nth i vs 0, shown) /\
    shown - average (firstn (i + 1) vs) = total (skipn (i + 1) vs) / INR (i + 1).
Proof. exact mc_trace. Qed.
Print Assumptions C48_trace_refuted.
Example C48_trace_refuted_case vs tr := C48_trace_refuted nat sampler wiener_path vanilla_payoff true false true 2 2 2
  100 95 (1/2) (5/100) (3/100) (Some (1/4)) _ 0%nat 2%nat vs tr eq_refl.
Example C48_trace_refuted_case' := trace_run.

(** Finding: the result is not always an array of prices. If a draw contains -inf (which the sampler lets through) and antithetic is on, its mirror image makes the call's mean infinite and call() returns the triple (eps, path, payoff) of the first loop instead of mc_loops prices; with trace on it raises. *)
Theorem C48_infinite_refuted : forall (St : Type) (inno : nat -> nat -> St -> res (matrix X * St)) (trace : bool) (loops len paths : nat) (S K t r b s : R)
    (E : list (list (option R))) (o : mc X St) (st st' : St), 0 < S -> 0 < t -> 0 < s -> (0 < loops)%nat -> In None (concat E) ->
  MonteCarloOption loops len paths (Fin S) (Fin K) (Fin t) (Fin r) (Fin b) (Some (Fin s)) inno wiener_path vanilla_payoff trace true false = Ok o ->
  inno paths len st = Ok (map (map (fun x => match x with Some e => Fin e | None => MInf end)) E, st') ->
  if trace then exists e, mc_call o st = Err e else exists eps path payoff, mc_call o st = Ok (MDump 0 eps path payoff, [], st').
Proof. exact mc_infinite. Qed.
Print Assumptions C48_infinite_refuted.
Example C48_infinite_refuted_case := C48_infinite_refuted nat sampler_inf false 2 2 2 100 95 (1/2) (5/100) (3/100) (1/4) paths_inf _ 0%nat 1%nat
  ltac:(lra) ltac:(lra) ltac:(lra) (Nat.lt_0_succ 1) ltac:(cbn; auto) eq_refl eq_refl.


(* ---------------------------------------------------------------- C49 *)
(** The sampler returns the first draw (from the current state on) that its retry guard accepts, or the supplied eps; in the unscrambled case a draw of n paths consists of the quantiles of Sobol points 1..n. *)
Theorem C49_sample : forall (T : Type) (N : Num T) (points : nat -> list T) (ppf : T -> T) (draw : nat -> matrix T) (eps : option (matrix T))
    (fuel n k k' : nat) (m : matrix T),
  (sobol_sample fuel draw eps k = Ok (m, k') ->
   exists j, (k <= j)%nat /\ k' = S j /\ m = match eps with None => draw j | Some e => e end /\ sobol_bad (draw j) = Ok false /\
     forall i, (k <= i < j)%nat -> sobol_bad (draw i) = Ok true) /\
  ((0 < n)%nat -> get_sobol points ppf false n = map (fun i => map ppf (points i)) (seq 1 n) /\
    get_sobol points ppf true n = map (fun i => map ppf (points i)) (seq 0 n)).
Proof. exact sobol_sample_thm. Qed.
Print Assumptions C49_sample.
Example C49_sample_case := C49_sample X XNum (fun i => [Fin (INR i)]) quant pts_draw None 5 4 0.

(** Finding: the guard against infinities looks at the largest entry only. A draw containing the point 0 (whose normal quantile is -inf) next to any other point is returned as it is, with -inf among the innovations; the guard triggers only if every point is 0. *)
Theorem C49_infinite_refuted : forall (U : list (list R)) (ppf : X -> X) (draw : nat -> matrix X) (fuel k : nat),
  concat U <> [] -> Forall (fun u => 0 <= u < 1) (concat U) ->
  ppf (Fin 0) = MInf -> (forall u, 0 < u < 1 -> exists q, ppf (Fin u) = Fin q) -> draw k = map (map (fun u => ppf (Fin u))) U ->
  ((exists bad, sobol_bad (draw k) = Ok bad /\ (bad = true <-> Forall (fun u => u = 0) (concat U))) /\
   forall u, In 0 (concat U) -> In u (concat U) -> u <> 0 ->
     sobol_sample fuel draw None k = Ok (draw k, S k) /\ In MInf (concat (draw k))).
Proof. exact sobol_inf_thm. Qed.
Print Assumptions C49_infinite_refuted.
Example C49_infinite_refuted_case := C49_infinite_refuted pts quant pts_draw 5 0 pts_ne pts_ok quant0 quant_pos eq_refl.

(** The consequence: a path with an innovation of -inf counts as one ending at price 0 (call payoff 0, put payoff K), without any warning; paths with finite innovations are priced as usual. *)
Theorem C49_silent : forall (St : Type) (inno : nat -> nat -> St -> res (matrix X * St)) (call trace : bool) (len paths : nat) (S K t r b s : R)
    (E : list (list (option R))) (o : mc X St) (st st' : St), 0 < t -> 0 < s -> E <> [] ->
  MonteCarloOption 1 len paths (Fin S) (Fin K) (Fin t) (Fin r) (Fin b) (Some (Fin s)) inno wiener_path vanilla_payoff trace false false = Ok o ->
  inno paths len st = Ok (map (map (fun x => match x with Some e => Fin e | None => MInf end)) E, st') ->
  exists tr, mc_price call o st = Ok (MArray [Fin (average (map (fun row => discounted call K t r
     (match all_some row with Some es => gbm S b s (t / INR len) es | None => 0 end)) E))], tr, st').
Proof. exact mc_minus_inf. Qed.
Print Assumptions C49_silent.
Example C49_silent_case := C49_silent nat sampler_inf true false 2 2 100 95 (1/2) (5/100) (3/100) (1/4) paths_inf _ 0%nat 1%nat
  ltac:(lra) ltac:(lra) ltac:(discriminate) eq_refl eq_refl.


(* ---------------------------------------------------------------- C59 *)
(** Monte Carlo error, for vanilla and arithmetic Asian options: the average of the prices returned (one per loop) over independent standard normal innovations has mean v, the mean discounted payoff of one path, and mean square error V / (loops * paths), where V is the variance of the discounted payoff of one path; with antithetic innovations the mean square error is at most V / (2 * loops * paths), so antithetic paths are never worse than as many independent ones. The mean and the variance always exist. *)
Theorem C59_error : forall (trace anti asian call : bool) (loops len paths : nat) (S K t r b s : R), 0 < S -> 0 < t -> 0 < s -> (1 <= loops)%nat -> (1 <= len)%nat -> (1 <= paths)%nat ->
  let payoff := fun zs => discounted call K t r (underlying asian S b s (t / INR len) zs) in
  exists value v V w,
    (forall M, shaped len M -> length M = (loops * paths)%nat -> exists o prices tr,
      MonteCarloOption loops len paths S K t r b (Some s) from_stream wiener_path (if asian then asian_payoff else vanilla_payoff) trace anti false = Ok o /\
      mc_price call o M = Ok (MArray prices, tr, []) /\ length prices = loops /\ value M = average prices) /\
    is_expect len payoff v /\ is_expect len (fun zs => (payoff zs - v) ^ 2) V /\
    is_matrix_expect (loops * paths) len value v /\
    is_matrix_expect (loops * paths) len (fun M => (value M - v) ^ 2) w /\
    if anti then w <= V / (2 * INR (loops * paths)) else w = V / INR (loops * paths).
Proof. exact mc_error. Qed.
Print Assumptions C59_error.
Example C59_error_case := C59_error true true true false 3 12 1000 100 95 (1/2) (5/100) (3/100) (1/4)
  ltac:(lra) ltac:(lra) ltac:(lra) ltac:(lia) ltac:(lia) ltac:(lia).

(** Hence confidence intervals: the probability that the average price is off by eps or more is at most V / (loops * paths * eps^2), with antithetic innovations half of that; the estimate converges in probability as the number of paths or loops grows. *)
Theorem C59_confidence : forall (anti asian call : bool) (loops len paths : nat) (S K t r b s : R), 0 < S -> 0 < t -> 0 < s -> (1 <= loops)%nat -> (1 <= len)%nat -> (1 <= paths)%nat ->
  forall (value : list (list R) -> R) (v V eps P : R),
  (forall M, shaped len M -> length M = (loops * paths)%nat -> exists o prices tr,
    MonteCarloOption loops len paths S K t r b (Some s) from_stream wiener_path (if asian then asian_payoff else vanilla_payoff) false anti false = Ok o /\
    mc_price call o M = Ok (MArray prices, tr, []) /\ value M = average prices) ->
  is_expect len (fun zs => discounted call K t r (underlying asian S b s (t / INR len) zs)) v ->
  is_expect len (fun zs => (discounted call K t r (underlying asian S b s (t / INR len) zs) - v) ^ 2) V ->
  0 < eps -> is_error_probability (loops * paths) len value v eps P -> P <= V / (if anti then 2 else 1) / INR (loops * paths) / eps ^ 2.
Proof. exact mc_confidence. Qed.
Print Assumptions C59_confidence.
Example C59_confidence_case := C59_confidence false false true 1 1 1 1 1 1 0 0 1 ltac:(lra) ltac:(lra) ltac:(lra) ltac:(lia) ltac:(lia) ltac:(lia)
  x_value x_v _ 1 _ x_returned (proj1 (mc_variance true 1 1 1 1 0 0 1 ltac:(lra) ltac:(lra) ltac:(lra) ltac:(lra) ltac:(lia)))
  (proj2 (mc_variance true 1 1 1 1 0 0 1 ltac:(lra) ltac:(lra) ltac:(lra) ltac:(lra) ltac:(lia))) ltac:(lra) x_probability.

(** For vanilla options the mean v is the Black-Scholes price and the variance V has a closed form, whatever the number of time steps. *)
Theorem C59_variance : forall (call : bool) (len : nat) (S K t r b s : R), 0 < S -> 0 < K -> 0 < t -> 0 < s -> (1 <= len)%nat ->
  let d1 := (ln (S / K) + (b + s ^ 2 / 2) * t) / (s * sqrt t) in let d2 := d1 - s * sqrt t in let d0 := d1 + s * sqrt t in
  let payoff := fun zs => discounted call K t r (underlying false S b s (t / INR len) zs) in
  let v := if call then S * exp ((b - r) * t) * Phi d1 - K * exp (- r * t) * Phi d2
           else K * exp (- r * t) * Phi (- d2) - S * exp ((b - r) * t) * Phi (- d1) in
  is_expect len payoff v /\
  is_expect len (fun zs => (payoff zs - v) ^ 2)
    (exp (-2 * r * t) * (if call then S ^ 2 * exp ((2 * b + s ^ 2) * t) * Phi d0 - 2 * K * S * exp (b * t) * Phi d1 + K ^ 2 * Phi d2
     else S ^ 2 * exp ((2 * b + s ^ 2) * t) * Phi (- d0) - 2 * K * S * exp (b * t) * Phi (- d1) + K ^ 2 * Phi (- d2)) - v ^ 2).
Proof. exact mc_variance. Qed.
Print Assumptions C59_variance.
Example C59_variance_case := C59_variance true 12 100 95 (1/2) (5/100) (3/100) (1/4) ltac:(lra) ltac:(lra) ltac:(lra) ltac:(lra) ltac:(lia).

