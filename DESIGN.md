# Formal model of finoptions: design

## Approach

The Python code in /repo/src/finoptions is translated by hand into Gallina, function by function and
branch by branch. Every definition carries a comment with the file and lines it follows.

* **Arithmetic.** Model functions are written once over a record `Num` of arithmetic operations
  (`Num.v`: + - * / exp log sqrt atan sin cos power, comparisons, literals). Instances: the real
  numbers `RNum`; extended reals `XNum` with nan and infinities in numpy's conventions; in one
  theorem (C37) Coq's primitive IEEE doubles. Theorems about data layout, evaluation order and object
  state quantify over *every* `Num`, so they hold for IEEE doubles too. Theorems about prices (parity,
  bounds, Greeks, limits) use real numbers: there is no rounding; C68-C70 and C72 are the exception. They use `FNum` (`MFloat.v`),
  real numbers where every operation is followed by a rounding function and library functions are arbitrary;
  `SFloat.v` states what is assumed of them and proves it for IEEE double precision without overflow (Flocq's
  rounding, correctly rounded library functions).
* **Exceptions** are values: `res A = Ok a | Err e` (`Py.v`).
* **numpy arrays** filled in place are modelled as functional arrays with the same sequence of reads and
  writes; the sweep loops keep the order of the code.
* **Python objects** (`MObjects.v`, `MClasses.v`) are attribute dictionaries on a heap with references;
  `__init__`, `set_param`, `get_params`, `copy` (deepcopy with memo), `repr`, `summary` and the finite-difference
  Greeks are operations on the heap; a failing constructor leaves the earlier assignments in place. Each
  option class is a descriptor: signature, statements of `__init__`, methods.
* **Loops** whose termination is not structural (`while` in the American approximations, Sobol retry) take
  explicit fuel; running out of fuel is its own result, and statements speak about runs that finish.
* **External routines** (numdifftools, scipy `root_scalar`, `quad`, `minimize`, the random and Sobol generators) are
  parameters of the model: the theorems hold for every behaviour of them, or name the assumption made
  (e.g. "the integrator is exact").
* **Specifications** are separate from the model: `S*.v` files define paths, exercise policies, expectations,
  documented payoffs, Gaussian integrals, and observations on objects, without referring to the model's helpers.
* **Findings.** Where the code violates a natural claim, a theorem named `..._refuted` proves the violation, and
  the claim that does hold is proved beside it.

File names: `M*.v` model, `S*.v` specification vocabulary, `P*.v` proofs, `X*.v` concrete instances for the examples,
`Props_*.v` the property theorems only.

## Modelled code

| Source (src/finoptions/...) | Model | Simplifications |
|---|---|---|
| base.py:28-128 `_NDF`, `_CND`, `_CBND` | MBase.v | recursion of `_CBND` has depth at most 3 and gets fuel 4 |
| base.py:131-577 `Derivative`, `GreeksFDM`, `Option` (all methods) | MObjects.v | values are Python numbers, numpy scalars, strings or None; printed text is a list of fields |
| base.py `_volatility`, `_func` (scalar branch) | MVanilla.v | `root_scalar` is a parameter |
| `lamb` and `greeks` of GreeksFDM and of the classes that compute them by finite differences | MGreeks.v | the quotient delta * spot / price is one of numpy numbers (no ZeroDivisionError) |
| vanillaoptions.py `GBSOption`, `BlackScholesOption`, `Black76Option`, `MiltersenSchwartzOption` | MVanilla.v (prices, Greeks), MClasses.v (objects) | scalar inputs |
| the same and the array branch of `Option._volatility`, for array inputs (README.md:34-49) | MVector.v | one-dimensional arrays; Greeks by finite differences only for scalars; `root` is a parameter |
| spreadapprox.py on arrays; the array guards of the American approximations | MVector.v | one-dimensional arrays |
| basic_american_options/__init__.py `RollGeskeWhaleyOption`, `BAWAmericanApproxOption`, `BSAmericanApproxOption` | MAmerican.v, MClasses.v | `while` loops with fuel |
| binomial_tree_options/__init__.py `CRR`, `JR`, `TIAN`, `TrinomialTreeOption` | MTrees.v, MClasses.v | number of steps is a natural number |
| binomial_tree_options/__init__.py `BiTreePlotter`, `TriTreePlotter` | MPlot.v | only the node positions and annotations |
| spread_options/bitree3d.py, spreadapprox.py, tree_spread.py | MSpread.v, MClasses.v | number of steps is a natural number |
| monte_carlo_options/__init__.py, mc_innovations.py, mc_paths.py, mc_payoffs.py | MMonte.v | scipy's Sobol points and `norm.ppf` are parameters; the trace is a list of the printed triples |
| heston_nandi_options/__init__.py (option, `_llhHNGarch`, `hngarch_fit`, `hngarch_sim`) | MHeston.v | one-element arrays are scalars; `quad`, `minimize`, `normal` are parameters |

## Not modelled

* IEEE rounding, in the theorems over R (the theorems over every `Num` do cover it, and C68-C70 and C72 are about it). Overflow, in
  the theorems over R and in C68-C70 and C72. There division by zero has an arbitrary value.
* Array inputs other than one-dimensional arrays to vanilla options and SpreadApproxOption (trees and Monte Carlo take numbers), and the printed summary of arrays.
* Signed zeros (`XNum` has one zero).
* Text layout of printed output, warnings, matplotlib drawing beyond the annotations.
* base_test.py (an older copy of base.py) and heston_nandi_options/hnGARCH.py (a stub); neither is imported by the
  package. utils.py (the docstring decorator) has no effect on values.
* The internals of numpy, scipy, numdifftools, matplotlib.

## Findings

Claims the code violates, each proved in the theorem named:

* **C10_bracket_detects_unattainable_refuted**: the bracket test passes for a price that no volatility attains.
* **C11_exact_monotonicity_refuted**: exact monotonicity fails. S=K=100, t=1, r=b=2%, sigma=20%: raising the strike by 1e-8 raises the call price, because d2 crosses 0.
* **C16_refuted**: a failed update is not always without effect. GBSOption(100, 100, 1, 0.05, 0.05, 0.2).set_param('K', 0) raises ZeroDivisionError and the call price afterwards differs from the one before.
* **C20_refuted_names**: the name shown by repr is not the class's name for TIANBinomialTreeOption, BionomialSpreadOption and BionomialSpreadAllTypes.
* **C20_refuted_black76**: repr of a Black76Option shows six values while its constructor takes five, so that calling the constructor with them always raises TypeError.
* **C20_refuted_alltypes**: for BionomialSpreadAllTypes the values shown by repr, given to the constructor in that order, never rebuild the option unless its strike equals its time to maturity.
* **C21_refuted_rgw**: summary() of a RollGeskeWhaleyOption with strike None raises TypeError.
* **C25_jr_parity_refuted**: Jarrow-Rudd lattices violate parity: call - put is strictly below the forward value, for every n and sigma.
* **C27_jr_early_exercise_refuted**: Jarrow-Rudd: with b = r = 0 an American call can exceed the European call (S=100, K=1, t=1, sigma=20%, n=1).
* **C31_negative_price_refuted**: Outside that range prices can be negative: any at-the-money one-step CRR European put with b sqrt(t) > sigma.
* **C36_relative_refuted**: The documented payoff of code 8 depends only on the ratio S1/S2, so scaling both spots leaves the documented value unchanged; the program's price with K=0 is multiplied by c^2 and is positive, so it differs from the documented value for c <> 1 or for c = 1.
* **C37_label_asymmetry_refuted**: Exchanging the names of the two assets changes the price of an option on the maximum although the contract is the same: one-step tree, equal spots 100, volatilities 0.2 and 0.4, correlation 0.6.
* **C39_continuous_parity_refuted**: Hence parity with the continuous-time forwards fails for every number of steps as soon as only asset 1 is uncertain: call minus put is strictly below exp(-rt)(Q1 S1 exp(b1 t) - Q2 S2 exp(b2 t) - K).
* **C41_discounting_refuted**: The total discount factor is exp(n b - r t), not exp(-r t): the price with carry b is exp(n b) times the price with carry 0, so for b <> 0 and a nonzero price it is wrong and diverges with the number of steps.
* **C41_volatility_refuted**: One step of the tree gives both log-prices mean 0 and variance 4 sigma^2 dt up to a term of order dt^(3/2), bounded explicitly: twice the volatility asked for.
* **C43_negative_refuted**: with a strongly negative cost of carry every call is priced S - K, a negative number out of the money, whatever the iteration budget. With q > 1 the root of sigma^2/2 q (q - 1) + b q = r, it happens as soon as -(b t + 2 sigma sqrt t) (q - 1) > ln q, and so always when -b t >= 1 + 2 sigma sqrt t: the seed of the search is then negative, its logarithm is nan, and the comparison with nan ends the search at the seed.
* **C43_zero_rate_refuted**: with a zero interest rate the approximation breaks down silently. For r = b = 0 the put is nan whenever S > K e^{-2 sigma sqrt t}, and K - S (less than the Black-Scholes put) otherwise, whatever the iteration budget.
* **C44_negative_refuted**: the price can be negative. If b >= 0, r > 0 and b sqrt t > 2 sigma (so for a plain stock put, b = r, with low volatility) the put's trigger formula goes wrong: there is a price ratio g < 1 such that for all strikes g S <= K < S the put is K - S < 0.
* **C46_constant_refuted**: standardising a sample whose entries are all equal (in particular one path of one step) divides by zero; every price returned is nan.
* **C48_trace_refuted**: the trace does not print running averages. Line i shows the total over all loops divided by i + 1, which exceeds the average of the first i + 1 prices by the sum of the later prices over i + 1; it is right on the last line only.
* **C48_infinite_refuted**: the result is not always an array of prices. If a draw contains -inf (which the sampler lets through) and antithetic is on, its mirror image makes the call's mean infinite and call() returns the triple (eps, path, payoff) of the first loop instead of mc_loops prices; with trace on it raises.
* **C49_infinite_refuted**: the guard against infinities looks at the largest entry only. A draw containing the point 0 (whose normal quantile is -inf) next to any other point is returned as it is, with -inf among the innovations; the guard triggers only if every point is 0.
* **C50_float_days_refuted**: A number of days given as a float, as in the documentation, makes every price and Greek raise TypeError
* **C52_long_refuted**: Given more innovations than n the series has the wrong length: the surplus innovations are returned as if they were returns
* **C53_symmetric_refuted**: symmetric=True does not switch the leverage parameter off: the likelihood is the same as with symmetric=False, and the variances still depend on gamma
* **C53_fit_symmetric_refuted**: A fit with symmetric=True reports gamma = 0 and the matching sigma2 while the variances it returns are those of the gamma found by the minimiser: they do not start at the reported sigma2
* **C53_minimum_refuted**: The reported "minimum" is not the log likelihood at the estimate: it is larger by n sqrt(2 pi), for every minimiser that reports the value of the objective at the point it returns
* **C57_rho_refuted**: greeks for arrays are documented for all parameters, but with an array of two or more costs of carry b, rho() and greeks() always raise ValueError (the test b != 0 has no truth value), whatever the other parameters
* **C58_silent_refuted**: A returned implied volatility need not reprice the option: whatever root does (as long as it returns a point, converged or not), a quote at or above the forward value of the underlying, which no volatility can produce, still gets a volatility and no error - while for numbers the same call raises
* **C67_negative_rate_refuted**: with a negative interest rate and b = r both approximations return the European call, although early exercise then pays: for every strike, maturity and volatility, all high enough spots get an American call below the payoff of immediate exercise, hence below the American value.
* **C67_put_refuted**: with a zero interest rate and a positive cost of carry the Bjerksund-Stensland put is the European put: for every strike, maturity and volatility, all low enough spots get an American put below the payoff of immediate exercise, hence below the American value.
* **C74_black76_refuted**: lamb(method="fdm") of Black76Option never returns a number, whatever the flag, for every differentiator that evaluates its function at all: its delta tries to set 'S', which that class does not accept (delta and gamma: C17).
* **C75_jr_refuted**: Jarrow-Rudd trees have no common vega: for every number of steps, when the volatility rises the put always gains more than the call. vega() reports the call's number for both.
* **C75_tree_gamma_refuted**: the gamma of a tree option says nothing about curvature. For every tree class, number of steps and style the price is a straight line in the spot near every spot outside a finite set, so every difference formula for a second derivative gives exactly 0 there once its points are close enough, while the gamma of the Black-Scholes price that the European tree approximates is positive.
* **C75_american_refuted**: for American options the put's vega is not the call's, which vega() reports. Cox-Ross-Rubinstein, one step, S=100, K=101, t=1, r=b=19%: at every volatility from 20% to 21% the put is worth exactly 1 (immediate exercise), while the call gains more than 0.4 from one end to the other.
* **C76_jr_refuted**: Jarrow-Rudd trees fail: for every number of steps and every pair of volatilities, a European call whose strike lies below all final prices of both trees is strictly cheaper with the larger volatility.
* **C76_tian_refuted**: The bound on TIAN's steps is needed: one step of one year, spot 100, strike 80, no interest or carry: the put is worth something with volatility 60% and nothing with volatility 150%.
* **C80_below_european_refuted**: the American price can be below the European price. For every call on a futures contract (b = 0) with 0.001 <= sigma sqrt t <= 2/15 and 0 < r t <= 0.003 and spot K (1 + 2 sigma sqrt t), the code's Bjerksund-Stensland call is exactly S - K although the code's Black-Scholes call is worth more.

## Trusted base

* The kernel of Coq 8.16.1 (and `coqchk`, which is run on the whole development), with its conversion machines.
* The axioms below. They all come from Coq's standard library. The libraries Coquelicot, Interval, Flocq (used for
  calculus and for interval bounds) add no axioms of their own.
* The hand translation from Python to Gallina described above, and the readings of Python and numpy semantics stated in the comments.


### What `Print Assumptions` lists

Every theorem in a `Props_*.v` file is followed by `Print Assumptions`. The results are:

* **No axioms** (closed under the global context) — 64 theorems: C07_greeks_dict, C12_black76_is_gbs, C14_last_write, C14_rebuild, C15_unknown_name, C16_atomic, C16_not_rolled_back, C16_recovery, C17_S_rejected, C17_b_ignored, C17_black_scholes, C17_fdm_delta_gamma, C17_outcome, C18_copy, C18_independent, C19_greeks, C19_price, C19_volatility, C20_order, C20_refuted_alltypes, C20_refuted_black76, C20_refuted_names, C20_repr, C20_round_trip, C21_lists_parameters, C21_prices_shown, C21_rgw, C21_total, C24_binomial_tree_layout, C24_trinomial_tree_layout, C32_unknown_type, C32_zero_steps, C33_binomial_plot, C33_trinomial_plot, C36_bad_code, C37_wrappers, C38_layout, C41_few_steps, C42_not_optimal, C43_carry, C44_carry, C44_put_dual, C47_no_volatility, C48_shape, C49_sample, C57_american_rejects, C57_black76, C57_elementwise, C57_greeks, C57_kirk, C57_kirk_mismatch, C57_miltersen, C57_mismatch, C57_rho_refuted, C58_objective, C64_american, C64_miltersen_schwartz, C64_spreads, C64_trees, C64_vanilla, C74_black76_refuted, C74_greeks, C74_lambda, C74_no_effect

* **Axioms:** `ClassicalDedekindReals.sig_forall_dec`, `sig_not_dec`, `FunctionalExtensionality.functional_extensionality_dep` — 6 theorems: C68_american, C68_rate, C68_spot, C68_strike, C68_two_asset, C68_weights

* **Axioms:** `ClassicalDedekindReals.sig_forall_dec`, `sig_not_dec`, `FunctionalExtensionality.functional_extensionality_dep` — 5 theorems: C63_bounds, C63_unique, C65_bounds, C65_value_unique, C80_strategy_unique

* **Axioms:** `ClassicalDedekindReals.sig_forall_dec`, `sig_not_dec`, `Classical_Prop.classic`, `FunctionalExtensionality.functional_extensionality_dep` — 207 theorems: C01_gbs_parity, C01_no_sigma, C02_gbs_bounds, C03_cnd_distribution, C03_ndf_gaussian, C04_Phi_meaning, C05_black_scholes_equation, C06_greeks_are_derivatives, C07_greek_relations, C07_greek_signs, C08_duality, C08_homogeneity, C09_increasing_in_volatility, C09_volatility_unique, C10_bracket_changes_sign, C10_bracket_detects_unattainable_refuted, C10_volatility_refuses, C10_volatility_roundtrip, C10_volatility_succeeds, C12_black76, C13_covariance_is_integral, C13_parity_and_bounds, C13_reduces_to_black76, C13_variance_is_integral, C13_variance_nonneg, C16_refuted, C21_refuted_rgw, C22_binomial_sum, C22_path_expectation, C23_optimal_stopping, C24_binomial_entries_are_prices, C24_trinomial_entries_are_prices, C25_jr_parity_refuted, C25_lattice_parity, C26_american_dominates, C26_american_put_call, C26_upper_bounds, C27_jr_early_exercise_refuted, C27_no_early_exercise_call, C27_no_early_exercise_put, C28_duality, C28_homogeneous, C29_jointly_convex, C29_spot_monotone, C29_strike_lipschitz, C29_strike_monotone, C30_trinomial_is_two_binomial, C31_crr_probability, C31_jr_tian_probability, C31_negative_price_refuted, C31_trinomial_probability, C34_convergence, C35_american_optimal, C35_european_expectation, C36_exchange_put, C36_relative_is_product, C36_relative_refuted, C37_dual_strike, C37_homogeneous, C37_max_plus_min, C37_orderings, C38_entries_are_prices, C39_continuous_parity_refuted, C39_forwards_low, C39_parity, C40_bounds, C40_exchange_symmetry, C40_homogeneous, C40_margrabe, C40_parity, C40_single_asset, C40_variance, C41_discounting_refuted, C41_price, C41_volatility_refuted, C42_american_value, C42_bounds, C42_formula, C42_large_dividend, C42_near_critical, C42_optimal_iff, C42_search, C42_unit, C43_call_early_exercise, C43_call_value, C43_negative_refuted, C43_put_value, C43_scale, C43_zero_rate_refuted, C44_homogeneous, C44_negative_refuted, C44_perpetual, C44_positive, C44_put_no_rate, C44_trigger, C44_trigger_continuity, C44_trigger_maturity, C44_trigger_rate, C44_value_matching, C45_parity, C45_price, C46_antithetic, C46_constant_refuted, C46_log_contract, C46_treatment, C47_asian_between, C47_asian_forward, C47_single_step, C47_strikes, C47_unbiased, C47_unbiased_one_step, C47_zero_volatility, C48_given_innovations, C48_infinite_refuted, C48_trace_refuted, C49_infinite_refuted, C49_silent, C50_black_scholes, C50_float_days_refuted, C50_integrand, C50_martingale, C50_missing, C50_price, C50_strikes, C51_greeks, C51_homogeneous, C51_parity, C52_long_refuted, C52_round_trip, C52_short, C52_simulation, C52_stationary, C53_fit, C53_fit_symmetric_refuted, C53_minimum_refuted, C53_symmetric_refuted, C54_defaults, C54_nan, C54_start, C55_marginals, C55_total_symmetric, C56_degenerate, C58_reprices, C58_silent_refuted, C59_confidence, C59_error, C59_variance, C60_european_limit, C60_exchange, C60_forwards, C61_monte_carlo, C62_asian_bounds, C63_american_limit, C63_no_early_exercise_call, C63_no_early_exercise_put, C65_american_limit, C65_any_dates, C65_exchange, C65_maturity, C65_no_early_exercise, C66_any_dates, C66_convex, C66_duality, C66_homogeneous, C66_maturity, C66_put_call, C66_rates, C66_spot, C66_strike, C66_upper_bounds, C66_volatility, C67_negative_rate_refuted, C67_put_refuted, C68_weights_ordinary, C69_parity, C71_every_n, C71_rate, C72_models, C72_stability, C72_total, C72_trinomial, C72_trinomial_total, C75_black_scholes, C75_jr_refuted, C75_lattices, C75_tree_gamma_refuted, C76_jr_refuted, C76_volatility, C77_carry, C77_interest, C77_yield, C78_correlation, C78_volatility, C79_interest, C80_call, C80_put, C80_strategy, C81_black76, C81_model_exists, C82_baw_long, C82_baw_put_long, C82_bs_long, C82_bs_put_long, C82_call_bound, C82_call_limit, C82_put_bound, C82_put_limit

* **Axioms:** `ClassicalDedekindReals.sig_forall_dec`, `sig_not_dec`, `Classical_Prop.classic`, `FunctionalExtensionality.functional_extensionality_dep`, and the primitives and specifications of the standard library: `PrimInt63.add`, `PrimInt63.addc`, `PrimInt63.addcarryc`, `PrimInt63.addmuldiv`, `PrimInt63.compare`, `PrimInt63.div`, `PrimInt63.diveucl`, `PrimInt63.diveucl_21`, `PrimInt63.eqb`, `PrimInt63.head0`, `PrimInt63.int`, `PrimInt63.land`, `PrimInt63.leb`, `PrimInt63.lor`, `PrimInt63.lsl`, `PrimInt63.lsr`, `PrimInt63.ltb`, `PrimInt63.lxor`, `PrimInt63.mod`, `PrimInt63.mul`, `PrimInt63.mulc`, `PrimInt63.sub`, `PrimInt63.subc`, `PrimInt63.subcarryc`, `PrimInt63.tail0`, `Uint63.add_spec`, `Uint63.addc_def_spec`, `Uint63.addcarryc_def_spec`, `Uint63.addmuldiv_def_spec`, `Uint63.compare_def_spec`, `Uint63.div_spec`, `Uint63.diveucl_21_spec`, `Uint63.diveucl_def_spec`, `Uint63.eqb_correct`, `Uint63.eqb_refl`, `Uint63.head0_spec`, `Uint63.land_spec`, `Uint63.leb_spec`, `Uint63.lor_spec`, `Uint63.lsl_spec`, `Uint63.lsr_spec`, `Uint63.ltb_spec`, `Uint63.lxor_spec`, `Uint63.mod_spec`, `Uint63.mul_spec`, `Uint63.mulc_spec`, `Uint63.of_to_Z`, `Uint63.sub_spec`, `Uint63.subc_def_spec`, `Uint63.subcarryc_def_spec`, `Uint63.tail0_spec` — 29 theorems: C04_cnd_accuracy, C06_greek_accuracy, C06_price_accuracy, C06_rho_accuracy, C10_market_accuracy, C11_exact_monotonicity_refuted, C11_spot_monotone, C11_strike_monotone, C34_code, C43_call_dominates, C43_put_dominates, C61_gbs, C61_kirk, C61_tree, C67_carry, C67_put, C70_distribution, C70_price, C71_code, C73_accuracy, C73_rgw_bounds, C73_rgw_formula, C73_rgw_value, C75_american_refuted, C79_carry, C79_maturity, C79_yield, C80_accuracy, C81_value

* **Axioms:** `ClassicalDedekindReals.sig_forall_dec`, `sig_not_dec`, `Classical_Prop.classic`, `FunctionalExtensionality.functional_extensionality_dep`, and the primitives and specifications of the standard library: `FloatAxioms.Prim2SF_SF2Prim`, `FloatAxioms.Prim2SF_valid`, `FloatAxioms.SF2Prim_Prim2SF`, `FloatAxioms.abs_spec`, `FloatAxioms.add_spec`, `FloatAxioms.classify_spec`, `FloatAxioms.compare_spec`, `FloatAxioms.div_spec`, `FloatAxioms.eqb_spec`, `FloatAxioms.frshiftexp_spec`, `FloatAxioms.ldshiftexp_spec`, `FloatAxioms.ltb_spec`, `FloatAxioms.mul_spec`, `FloatAxioms.next_down_spec`, `FloatAxioms.next_up_spec`, `FloatAxioms.normfr_mantissa_spec`, `FloatAxioms.of_uint63_spec`, `FloatAxioms.opp_spec`, `FloatAxioms.sqrt_spec`, `FloatAxioms.sub_spec`, `PrimFloat.abs`, `PrimFloat.add`, `PrimFloat.classify`, `PrimFloat.compare`, `PrimFloat.div`, `PrimFloat.eqb`, `PrimFloat.float`, `PrimFloat.frshiftexp`, `PrimFloat.ldshiftexp`, `PrimFloat.ltb`, `PrimFloat.mul`, `PrimFloat.next_down`, `PrimFloat.next_up`, `PrimFloat.normfr_mantissa`, `PrimFloat.of_uint63`, `PrimFloat.opp`, `PrimFloat.sqrt`, `PrimFloat.sub`, `PrimInt63.add`, `PrimInt63.eqb`, `PrimInt63.int`, `PrimInt63.land`, `PrimInt63.leb`, `PrimInt63.lor`, `PrimInt63.lsl`, `PrimInt63.lsr`, `PrimInt63.ltb`, `PrimInt63.sub`, `Uint63.add_spec`, `Uint63.eqb_correct`, `Uint63.eqb_refl`, `Uint63.land_spec`, `Uint63.leb_spec`, `Uint63.lor_spec`, `Uint63.lsl_spec`, `Uint63.lsr_spec`, `Uint63.ltb_spec`, `Uint63.of_to_Z`, `Uint63.sub_spec` — 2 theorems: C37_label_asymmetry_refuted, C76_tian_refuted

* **Axioms:** `ClassicalDedekindReals.sig_forall_dec`, `sig_not_dec`, `Classical_Prop.classic`, `FunctionalExtensionality.functional_extensionality_dep`, and the primitives and specifications of the standard library: `FloatAxioms.Prim2SF_SF2Prim`, `FloatAxioms.Prim2SF_valid`, `FloatAxioms.SF2Prim_Prim2SF`, `FloatAxioms.abs_spec`, `FloatAxioms.add_spec`, `FloatAxioms.classify_spec`, `FloatAxioms.compare_spec`, `FloatAxioms.div_spec`, `FloatAxioms.eqb_spec`, `FloatAxioms.frshiftexp_spec`, `FloatAxioms.ldshiftexp_spec`, `FloatAxioms.ltb_spec`, `FloatAxioms.mul_spec`, `FloatAxioms.next_down_spec`, `FloatAxioms.next_up_spec`, `FloatAxioms.normfr_mantissa_spec`, `FloatAxioms.of_uint63_spec`, `FloatAxioms.opp_spec`, `FloatAxioms.sqrt_spec`, `FloatAxioms.sub_spec`, `PrimFloat.abs`, `PrimFloat.add`, `PrimFloat.classify`, `PrimFloat.compare`, `PrimFloat.div`, `PrimFloat.eqb`, `PrimFloat.float`, `PrimFloat.frshiftexp`, `PrimFloat.ldshiftexp`, `PrimFloat.ltb`, `PrimFloat.mul`, `PrimFloat.next_down`, `PrimFloat.next_up`, `PrimFloat.normfr_mantissa`, `PrimFloat.of_uint63`, `PrimFloat.opp`, `PrimFloat.sqrt`, `PrimFloat.sub`, `PrimInt63.add`, `PrimInt63.addc`, `PrimInt63.addcarryc`, `PrimInt63.addmuldiv`, `PrimInt63.compare`, `PrimInt63.div`, `PrimInt63.diveucl`, `PrimInt63.diveucl_21`, `PrimInt63.eqb`, `PrimInt63.head0`, `PrimInt63.int`, `PrimInt63.land`, `PrimInt63.leb`, `PrimInt63.lor`, `PrimInt63.lsl`, `PrimInt63.lsr`, `PrimInt63.ltb`, `PrimInt63.lxor`, `PrimInt63.mod`, `PrimInt63.mul`, `PrimInt63.mulc`, `PrimInt63.sub`, `PrimInt63.subc`, `PrimInt63.subcarryc`, `PrimInt63.tail0`, `Uint63.add_spec`, `Uint63.addc_def_spec`, `Uint63.addcarryc_def_spec`, `Uint63.addmuldiv_def_spec`, `Uint63.compare_def_spec`, `Uint63.div_spec`, `Uint63.diveucl_21_spec`, `Uint63.diveucl_def_spec`, `Uint63.eqb_correct`, `Uint63.eqb_refl`, `Uint63.head0_spec`, `Uint63.land_spec`, `Uint63.leb_spec`, `Uint63.lor_spec`, `Uint63.lsl_spec`, `Uint63.lsr_spec`, `Uint63.ltb_spec`, `Uint63.lxor_spec`, `Uint63.mod_spec`, `Uint63.mul_spec`, `Uint63.mulc_spec`, `Uint63.of_to_Z`, `Uint63.sub_spec`, `Uint63.subc_def_spec`, `Uint63.subcarryc_def_spec`, `Uint63.tail0_spec` — 3 theorems: C43_call_terminates, C43_put_terminates, C80_below_european_refuted

## Properties: what is modelled and how it is proved

Each theorem is in the file named; an `Example` beside it exhibits a concrete case meeting its hypotheses.

### C01 Put-call parity of the generalized Black-Scholes option

Model and method: `MVanilla.v`: `gbs_call`/`gbs_put` with `cnd`; algebra from `cnd x + cnd (-x) = 1`.

* `C01_gbs_parity` (Props_Vanilla.v): Put-call parity of GBSOption, for either sign of sigma.
* `C01_no_sigma` (Props_Vanilla.v): Without a volatility every price and Greek is refused with ValueError.

### C02 No-arbitrage bounds of the Black-Scholes prices

Model and method: same model; bounds need only that `cnd` is between 0 and 1 and monotone up to its jump at 0.

* `C02_gbs_bounds` (Props_Vanilla.v)

### C03 The approximate normal distribution is a genuine distribution function

Model and method: `MBase.v: cnd, ndf` over R; calculus of the polynomial approximation (`PCnd.v`, `PCnd2.v`).

* `C03_cnd_distribution` (Props_Vanilla.v)
* `C03_ndf_gaussian` (Props_Vanilla.v): The density [_NDF] is the Gaussian density and [Phi] below is a distribution function with it.

### C04 Accuracy of the normal distribution function

Model and method: `cnd` against the Gaussian integral `Phi` (`PGauss.v`); interval arithmetic on a compact set plus tail bounds (`PCndAcc.v`).

* `C04_cnd_accuracy` (Props_Vanilla.v): [Phi x = 1/2 + integral of the Gaussian density from 0 to x].
* `C04_Phi_meaning` (Props_Vanilla.v)

### C05 Closed-form Greeks satisfy the Black-Scholes equation

Model and method: Greeks as modelled in `MVanilla.v`; algebraic identity.

* `C05_black_scholes_equation` (Props_Vanilla.v)

### C06 Closed-form Greeks are the derivatives of the price

Model and method: Greeks are shown to be derivatives (Coquelicot) of the price with `Phi`; then the 7.5e-8 error of `cnd` is propagated.

* `C06_greeks_are_derivatives` (Props_Vanilla.v): With [Phi] for the distribution function the analytic Greeks are exactly the partial derivatives. [is_price_greek Phi call fS fK ft fr fb fs p d]: near [p] the price of the option with parameters fS q, fK q, ... exists, and has derivative [d] in [q] at [p].
* `C06_price_accuracy` (Props_Vanilla.v): With the code's own distribution function: prices and Greeks are within 7.5e-8 times the forward and strike values of the exact ones.
* `C06_greek_accuracy` (Props_Vanilla.v)
* `C06_rho_accuracy` (Props_Vanilla.v)

### C07 Algebraic relations between the Greeks

Model and method: algebra on the modelled Greeks.

* `C07_greek_relations` (Props_Vanilla.v)
* `C07_greek_signs` (Props_Vanilla.v): Signs and ranges of the Greeks.
* `C07_greeks_dict` (Props_Vanilla.v): [greeks()] returns exactly the individually computed values in the documented order.

### C08 Homogeneity and put-call duality

Model and method: algebra; scaling and exchange of roles.

* `C08_homogeneity` (Props_Vanilla.v)
* `C08_duality` (Props_Vanilla.v)

### C09 Implied volatility is unique

Model and method: strict monotonicity of the price in sigma (exact and approximate distribution function).

* `C09_increasing_in_volatility` (Props_Vanilla.v)
* `C09_volatility_unique` (Props_Vanilla.v)

### C10 Implied volatility search

Model and method: `_volatility` with `root_scalar` as an oracle; the bracket [-10, 10] is examined. `C10_market_accuracy` combines monotonicity of the approximate price with growth of the exact one (mean value theorem and vega).

* `C10_volatility_roundtrip` (Props_Vanilla.v): [bracketing tol solver]: a result lies in an interval of length at most [tol], inside the bracket, at whose nonzero ends the objective takes values of opposite weak sign.
* `C10_market_accuracy` (Props_Vanilla.v): A price quoted by the exact Black-Scholes formula at volatility s0: the library's own distribution function moves the implied volatility by less than delta, as soon as vega on [s0 - delta, s0 + delta] is at least m and m * delta exceeds the error of the prices.
* `C10_bracket_changes_sign` (Props_Vanilla.v)
* `C10_volatility_succeeds` (Props_Vanilla.v): A root finder that starts whenever the ends of its bracket have opposite signs returns for all these prices; one that refuses ends of equal sign refuses every price above the one at volatility 10, although larger volatilities attain some.
* `C10_volatility_refuses` (Props_Vanilla.v)
* `C10_bracket_detects_unattainable_refuted` (Props_Vanilla.v): Finding: the bracket test passes for a price that no volatility attains.

### C11 Monotonicity in strike and spot

Model and method: derivatives of the price in strike and spot with the code's own `cnd`.

* `C11_strike_monotone` (Props_Vanilla.v): Monotonicity in strike, up to [eps_mono = 1.1e-9] times the discounted strike or forward, and exact away from the discontinuity of the distribution function at 0.
* `C11_spot_monotone` (Props_Vanilla.v)
* `C11_exact_monotonicity_refuted` (Props_Vanilla.v): Finding: exact monotonicity fails. S=K=100, t=1, r=b=2%, sigma=20%: raising the strike by 1e-8 raises the call price, because d2 crosses 0.

### C12 Black76Option is the zero carry GBS option

Model and method: Black76 is the GBS record with b = 0.

* `C12_black76_is_gbs` (Props_Vanilla.v)
* `C12_black76` (Props_Vanilla.v)

### C13 Miltersen-Schwartz parity and variance

Model and method: `ms_*` of `MVanilla.v`; variance as an integral of a square.

* `C13_variance_is_integral` (Props_Vanilla.v): [Hload k x = (1 - exp(-k x))/k]; [ms_inst], [ms_cov] (PMs.v) are the instantaneous variance of the futures price and its covariance with the bond, written out below.
* `C13_covariance_is_integral` (Props_Vanilla.v)
* `C13_variance_nonneg` (Props_Vanilla.v): [corr_psd a b c]: the matrix with unit diagonal and off-diagonal entries a, b, c is positive semidefinite.
* `C13_parity_and_bounds` (Props_Vanilla.v)
* `C13_reduces_to_black76` (Props_Vanilla.v): with no convenience-yield and no rate volatility the model is Black76

### C14 Parameter updates: last write wins

Model and method: heap model of objects (`MObjects.v`), class descriptors (`MClasses.v`); theorems quantify over every class of the package and every program of operations.

* `C14_rebuild` (Props_Objects.v): After any program, an option whose updates all succeeded is indistinguishable from one freshly built (in any reachable heap) with the current parameters: same parameters, prices, Greeks, implied volatility, repr and summary.
* `C14_last_write` (Props_Objects.v): After any program in which no set_param on the object raised, get_params returns for each constructor parameter the last value written by the program, or the constructor's value (b of Black76Option is 0).

### C15 Unknown parameter names are rejected without effect

Model and method: as C14.

* `C15_unknown_name` (Props_Objects.v): In every reachable state (also after failed updates) set_param with a name that is not a parameter raises TypeError and changes nothing at all.

### C16 A failed update leaves the option unchanged

Model and method: as C14.

* `C16_atomic` (Props_Objects.v): American approximations and one-asset trees: an update that raises leaves the whole heap as it was.
* `C16_recovery` (Props_Objects.v): Whatever happened before, after a set_param that succeeds the object is again indistinguishable from a freshly built one.
* `C16_refuted` (Props_Objects.v): Finding: a failed update is not always without effect. GBSOption(100, 100, 1, 0.05, 0.05, 0.2).set_param('K', 0) raises ZeroDivisionError and the call price afterwards differs from the one before.
* `C16_not_rolled_back` (Props_Objects.v): Finding, for every class: when set_param on a known name raises, get_params afterwards returns the rejected value.

### C17 Black76 parameter protocol

Model and method: as C14.

* `C17_outcome` (Props_Objects.v): Black76Option: an update raises exactly when building from the updated arguments raises, with the same exception; otherwise the object is indistinguishable from the rebuilt one.
* `C17_b_ignored` (Props_Objects.v): Black76Option.set_param('b', v) never raises and has no effect on any later observation.
* `C17_S_rejected` (Props_Objects.v): Black76Option.set_param('S', v) raises TypeError and changes nothing.
* `C17_fdm_delta_gamma` (Props_Objects.v): Finding: the finite-difference delta and gamma of Black76Option always raise TypeError (they try to set 'S', which that class does not accept), for every differentiator that evaluates its function at all.
* `C17_black_scholes` (Props_Objects.v): Black76Option prices like the generalised Black-Scholes option with spot FT and cost of carry 0.

### C18 Copies are independent and sensitivities do not modify the option

Model and method: as C14; `copy.deepcopy` with its memo is modelled.

* `C18_copy` (Props_Objects.v): copy() returns a new object indistinguishable from the original.
* `C18_independent` (Props_Objects.v): No program that does not call set_param on an object changes what that object returns; in particular updates of the copy never affect the original and vice versa, and computing Greeks or implied volatilities, or failing to, changes nothing.

### C19 Finite-difference Greeks differentiate the right function

Model and method: as C14; numdifftools is a parameter that receives the function.

* `C19_volatility` (Props_Objects.v): The function handed to the root finder of volatility() is s -> given price minus the price of a fresh option whose volatility is s and whose other parameters are the current ones.
* `C19_greeks` (Props_Objects.v): Finite-difference Greeks: for every class and Greek, the numerical differentiator is handed the function x -> price of a fresh option with the named parameter set to x and all others as they are now, is asked for the right order and step at the current value of the right parameter, and its answer is returned with the right sign.
* `C19_price` (Props_Objects.v): What the finite-difference Greeks and the solver of volatility() evaluate is the price the fresh option returns; the entry "OptionPrice" of the dictionary for the Bjerksund-Stensland approximation, the number itself for the other classes.

### C20 repr shows constructor arguments in order

Model and method: as C14.

* `C20_repr` (Props_Objects.v): repr(option) is the class's __name__ followed by the parameter values of get_params, in that order, separated by commas.
* `C20_order` (Props_Objects.v): For every class but Black76Option and BionomialSpreadAllTypes get_params lists the values in the order of the constructor's parameters.
* `C20_round_trip` (Props_Objects.v): Calling the class with the values repr shows, in that order, gives an option indistinguishable from the original (all classes but Black76Option and BionomialSpreadAllTypes); and the name shown is the class's own name, TIANBinomialTreeOption and BionomialSpreadOption excepted.
* `C20_refuted_names` (Props_Objects.v): Finding: the name shown by repr is not the class's name for TIANBinomialTreeOption, BionomialSpreadOption and BionomialSpreadAllTypes.
* `C20_refuted_black76` (Props_Objects.v): Finding: repr of a Black76Option shows six values while its constructor takes five, so that calling the constructor with them always raises TypeError.
* `C20_refuted_alltypes` (Props_Objects.v): Finding: for BionomialSpreadAllTypes the values shown by repr, given to the constructor in that order, never rebuild the option unless its strike equals its time to maturity.

### C21 summary never fails and always lists all parameters

Model and method: as C14.

* `C21_total` (Props_Objects.v): summary() never raises, whatever the parameter values and whether or not call and put raise, except for RollGeskeWhaleyOption; its text starts with the title and one line per parameter.
* `C21_lists_parameters` (Props_Objects.v): Whenever summary() returns, for any class, the text contains a line " name = value" for every parameter.
* `C21_prices_shown` (Props_Objects.v): If call and put return numbers, summary() of a class other than the Roll-Geske-Whaley and Bjerksund-Stensland ones ends with both of them; if either raises, no price section appears.
* `C21_refuted_rgw` (Props_Objects.v): Finding: summary() of a RollGeskeWhaleyOption with strike None raises TypeError.
* `C21_rgw` (Props_Objects.v): RollGeskeWhaleyOption.summary() raises only if evaluating the optimality test does: with numeric parameters it never raises.

### C22 European binomial trees price the discounted binomial expectation

Model and method: in-place numpy sweeps of `MTrees.v` refine the backward recursion (any arithmetic), which is the binomial sum (reals).

* `C22_binomial_sum` (Props_Trees.v): European CRR, JR and TIAN prices are the discounted binomial expectation.
* `C22_path_expectation` (Props_Trees.v): For all four classes the European price is the expectation over all paths of the discounted payoff.

### C23 American trees solve the optimal stopping problem

Model and method: same sweeps; specification: supremum over adapted stopping policies on paths (`STrees.v`).

* `C23_optimal_stopping` (Props_Trees.v): The American price is the largest expected discounted payoff over all history-dependent exercise policies, and is attained.

### C24 Returned tree matrices have the documented layout

Model and method: index-level statement about the returned matrices, any arithmetic.

* `C24_binomial_tree_layout` (Props_Trees.v): In any arithmetic: there is a value function V(time, ups) obeying the backward recursion such that call/put return V 0 0, and the tree matrix has V c (c-i) in row i <= column c and 0 below.
* `C24_trinomial_tree_layout` (Props_Trees.v): In any arithmetic: V(time, node) obeys the trinomial backward recursion; column c of the (2n+1) x (n+1) matrix holds V c (n+c-i) in rows n-c .. n+c and 0 elsewhere; V 0 0 is the price.
* `C24_binomial_entries_are_prices` (Props_Trees.v): Entry (downs, ups + downs) of the CRR/JR/TIAN tree matrix is what the same class returns for the option on the remaining lattice: spot S u^ups d^downs, n - ups - downs steps, the remaining life; the last column holds the payoffs.
* `C24_trinomial_entries_are_prices` (Props_Trees.v): Row n - y, column c of the trinomial matrix, |y| <= c < n, is the price of the trinomial option on the remaining lattice with spot S u^y; the last column holds the payoffs.

### C25 Put-call parity on lattices

Model and method: expectation of the terminal price on the lattice.

* `C25_lattice_parity` (Props_Trees.v): Put-call parity holds exactly on CRR, TIAN and trinomial lattices for every n.
* `C25_jr_parity_refuted` (Props_Trees.v): Jarrow-Rudd lattices violate parity: call - put is strictly below the forward value, for every n and sigma.

### C26 American against European prices, intrinsic value and upper bounds

Model and method: order properties of the recursion (`PLattice.v`).

* `C26_american_dominates` (Props_Trees.v): With probabilities in [0,1], American >= European >= 0 and American >= exercise value.
* `C26_upper_bounds` (Props_Trees.v): With b <= r calls are worth at most the spot; with r >= 0 puts are worth at most the strike.
* `C26_american_put_call` (Props_Trees.v): With b = r >= 0: S - K <= C_am - P_am <= S - K exp(-rt).

### C27 No early exercise of calls when carry covers interest

Model and method: Jensen/one-step argument on the lattice.

* `C27_no_early_exercise_call` (Props_Trees.v): If b >= r >= 0 the American call equals the European call (CRR, TIAN, trinomial).
* `C27_no_early_exercise_put` (Props_Trees.v): If r <= 0 and b <= r the American put equals the European put (CRR, TIAN, trinomial).
* `C27_jr_early_exercise_refuted` (Props_Trees.v): Jarrow-Rudd: with b = r = 0 an American call can exceed the European call (S=100, K=1, t=1, sigma=20%, n=1).

### C28 Lattice homogeneity and duality

Model and method: scaling and exchange of up and down moves.

* `C28_homogeneous` (Props_Trees.v): Prices scale with (S, K).
* `C28_duality` (Props_Trees.v): CRR and trinomial: call(S,K,t,r,b,sigma) = put(K,S,t,r-b,-b,sigma), European and American.

### C29 Lattice prices are monotone, convex and Lipschitz

Model and method: order properties of the recursion.

* `C29_strike_monotone` (Props_Trees.v): Calls do not increase and puts do not decrease with the strike.
* `C29_strike_lipschitz` (Props_Trees.v): The price changes by at most exp(-rt) |K2-K1| (European), |K2-K1| (American, r >= 0).
* `C29_jointly_convex` (Props_Trees.v): Prices are jointly convex in (S, K): in particular butterflies cost nothing negative.
* `C29_spot_monotone` (Props_Trees.v): Calls do not decrease and puts do not increase with the spot.

### C30 A trinomial step is two binomial steps

Model and method: two binomial steps are one trinomial step.

* `C30_trinomial_is_two_binomial` (Props_Trees.v): European trinomial with n steps = European CRR with 2n steps; American trinomial <= American CRR with 2n steps when q is a probability.

### C31 When lattice probabilities are probabilities

Model and method: algebra on jump sizes.

* `C31_crr_probability` (Props_Trees.v): CRR's weights are probabilities iff |b| sqrt(dt) <= sigma.
* `C31_trinomial_probability` (Props_Trees.v): The trinomial weights are probabilities iff |b| sqrt(dt/2) <= sigma.
* `C31_jr_tian_probability` (Props_Trees.v): JR and TIAN weights are always probabilities; TIAN's moves straddle the forward.
* `C31_negative_price_refuted` (Props_Trees.v): Outside that range prices can be negative: any at-the-money one-step CRR European put with b sqrt(t) > sigma.

### C32 Unknown option type

Model and method: exceptions as values.

* `C32_unknown_type` (Props_Trees.v): Any other type string: binomial classes raise UnboundLocalError; the trinomial class returns max(0, z (S d^n - K)), the payoff of the lowest terminal node.
* `C32_zero_steps` (Props_Trees.v): n = 0 raises ZeroDivisionError in every class.

### C33 Tree plots annotate the right node

Model and method: the plotters are modelled as lists of annotations (`MPlot.v`).

* `C33_binomial_plot` (Props_Trees.v): Plotting the tree matrix of a CRR/JR/TIAN option never fails; the annotation at (x, y) is exactly the matrix entry (downs, ups + downs) of the node reached by [ups] up and [downs] down moves with x = ups + downs, y = ups - downs, and every node is annotated.
* `C33_trinomial_plot` (Props_Trees.v): Plotting the tree matrix of a TrinomialTreeOption never fails; the annotation at (x, y) is the matrix entry in row n - y of column x, where |y| <= x (never the zero padding), and every node is annotated.

### C34 Tree prices converge to Black-Scholes

Model and method: Lindeberg-type comparison of the lattice with the solution of the Black-Scholes equation.

* `C34_convergence` (Props_Trees.v): For all four classes the European tree price tends to the Black-Scholes price (GBSOption's formula with the exact normal distribution function) as the number of steps grows.
* `C34_code` (Props_Trees.v): Compared with the price GBSOption itself returns (its distribution function is an approximation): for every tolerance all trees with enough steps are within 7.5e-8 times the forward and strike values plus the tolerance.

### C35 Two-asset tree prices are expectations and optimal stopping values

Model and method: in-place double sweep of `MSpread.v` refines the Bellman recursion (`PSpread.v`).

* `C35_european_expectation` (Props_Spread.v): With any otype other than "american" the price is the discounted expectation of the documented payoff over the 4^n equally likely paths of the two assets (codes 1-6, 9 and the exchange option's call).
* `C35_american_optimal` (Props_Spread.v): With otype "american" the price is the best value over all exercise policies (functions of the history of moves), and some policy attains it.

### C36 Two-asset payoffs follow the documentation

Model and method: payoff closures modelled one by one.

* `C36_exchange_put` (Props_Spread.v): The put of the exchange option (code 7) is not the documented payoff, which is the same for calls and puts: it prices the opposite exchange, the spread call (code 1) with strike 0.
* `C36_relative_is_product` (Props_Spread.v): The relative performance option (code 8) is priced as a product option (code 9) with weight 1/Q2 on asset 2: the code divides by Q2 but multiplies by S2.
* `C36_relative_refuted` (Props_Spread.v): The documented payoff of code 8 depends only on the ratio S1/S2, so scaling both spots leaves the documented value unchanged; the program's price with K=0 is multiplied by c^2 and is positive, so it differs from the documented value for c <> 1 or for c = 1.
* `C36_bad_code` (Props_Spread.v): A payoff code outside 1-9, a missing strike K (codes other than 7) or a missing K2 (codes 4 and 5) makes call and put raise TypeError, whatever the other parameters, in any arithmetic.

### C37 Two-asset wrappers and identities between payoffs

Model and method: wrappers and payoff identities.

* `C37_wrappers` (Props_Spread.v): BionomialSpreadOption, BionomialMaxOption and BionomialMinOption price and fail exactly like BionomialSpreadAllTypes with codes 1, 2 and 3 and any second strike, in any arithmetic.
* `C37_dual_strike` (Props_Spread.v): A dual-strike option (code 4) with equal strikes is the option on the maximum (code 2) for calls and on the minimum (code 3) for puts; a portfolio option (6) with weight -Q2 is the spread option (1); an exchange call (7) is a spread put (1) with strike 0. European and american alike.
* `C37_max_plus_min` (Props_Spread.v): European options on the maximum and on the minimum add up to the options on the two single assets: the sum of codes 2 and 3 equals the sum of the two portfolio options (6) with one weight zero, for calls and puts.
* `C37_orderings` (Props_Spread.v): For every code with a documented payoff: the price is nonnegative, american is at least european and at least the payoff of exercising now; calls on the minimum are worth at most calls on the maximum (puts the reverse).
* `C37_homogeneous` (Props_Spread.v): For codes 1-7 prices are homogeneous: scaling both spots and both strikes by c > 0 scales the price by c.
* `C37_label_asymmetry_refuted` (Props_Spread.v): Exchanging the names of the two assets changes the price of an option on the maximum although the contract is the same: one-step tree, equal spots 100, volatilities 0.2 and 0.4, correlation 0.6.

### C38 Two-asset tree matrix

Model and method: index-level statement.

* `C38_layout` (Props_Spread.v): call(tree=True) and put(tree=True) return an (n+2)x(n+2) matrix whose last row and column are zero and whose entry (0,0) is what the plain call returns; in any arithmetic, for any payoff that evaluates.
* `C38_entries_are_prices` (Props_Spread.v): Entry (j,i) of the returned matrix, reached after c = max(j,i) < n steps, is the price of the same option started at that node's two asset prices with the remaining n-c steps and time t(n-c)/n; the node's prices are those after j up-moves of asset 1 and i of the second driver out of c.

### C39 Parity of the two-asset tree

Model and method: expectations on the two-asset lattice.

* `C39_parity` (Props_Spread.v): European spread options (code 1): call minus put is the discounted value of the lattice forwards minus the strike, with the lattice forwards in closed form.
* `C39_forwards_low` (Props_Spread.v): Both lattice forwards are strictly below the continuous-time forwards S exp(bt) whenever the volatility is not zero.
* `C39_continuous_parity_refuted` (Props_Spread.v): Hence parity with the continuous-time forwards fails for every number of steps as soon as only asset 1 is uncertain: call minus put is strictly below exp(-rt)(Q1 S1 exp(b1 t) - Q2 S2 exp(b2 t) - K).

### C40 Kirk's approximation

Model and method: `kirk_*` of `MSpread.v`.

* `C40_parity` (Props_Spread.v): Call minus put is Q1 S1 e^{(b1-r)t} - Q2 S2 e^{(b2-r)t} - K e^{-rt}, for all parameters with a nonzero denominator.
* `C40_bounds` (Props_Spread.v): For positive spots and weights, K >= 0, |rho| < 1 and nonzero volatility of asset 1, calls and puts lie strictly between their no-arbitrage bounds.
* `C40_variance` (Props_Spread.v): The quantity under the square root is never negative when |rho| <= 1, whatever the strike, spots and weights: the volatility is a genuine square root.
* `C40_margrabe` (Props_Spread.v): With strike 0 the price is Margrabe's exchange price, i.e. exactly what GBSOption returns with underlying Q1 S1, strike Q2 S2, rate r-b2, carry b1-b2 and volatility sqrt(s1^2+s2^2-2 rho s1 s2).
* `C40_single_asset` (Props_Spread.v): With Q2 = 0 (or S2 = 0) the price is the plain GBSOption price on Q1 S1 with volatility sigma1.
* `C40_exchange_symmetry` (Props_Spread.v): With strike 0, the call on asset 1 against asset 2 is the put on asset 2 against asset 1.
* `C40_homogeneous` (Props_Spread.v): Scaling both spots and the strike by c > 0 scales call and put by c.

### C41 TrinomialSpreadOption discounting and volatility

Model and method: `MSpread.v: tri spread`.

* `C41_price` (Props_Spread.v): For n >= 2 the call returns the expectation, over all 9^n paths with the product of the weights 1/6, 4/6, 1/6, of the payoff max(0, S1-S2-K), discounted by exp(b - r t/n) at each of the n steps; whatever [type] says.
* `C41_discounting_refuted` (Props_Spread.v): The total discount factor is exp(n b - r t), not exp(-r t): the price with carry b is exp(n b) times the price with carry 0, so for b <> 0 and a nonzero price it is wrong and diverges with the number of steps.
* `C41_few_steps` (Props_Spread.v): With one step the call raises IndexError and with none ZeroDivisionError, whatever the parameters, in any arithmetic.
* `C41_volatility_refuted` (Props_Spread.v): One step of the tree gives both log-prices mean 0 and variance 4 sigma^2 dt up to a term of order dt^(3/2), bounded explicitly: twice the volatility asked for.

### C42 Roll-Geske-Whaley

Model and method: `MAmerican.v`; search loops with explicit fuel, running out of fuel is excluded in the statements. `PRgw2.v` evaluates the formula over the exact normal distribution functions as an integral over the stock price at the dividend; the cash dividend is exercised against just before it is paid, as in the formula. `PRgw3.v`: the bounds, from the mean of the better of the two alternatives.

* `C42_optimal_iff` (Props_American.v): is_call_optimal() is True exactly when there is a stock price just before the dividend at which exercising (x + D - K) beats holding the Black-Scholes call that remains after the dividend.
* `C42_not_optimal` (Props_American.v): When is_call_optimal() is False the price is the Black-Scholes call on the stock price less the present value of the dividend.
* `C42_search` (Props_American.v): When early exercise may be optimal both search loops terminate, and: either the search gives up with ValueError, which happens only if the stock price is above 1e8 or holding is still better than exercising at some price between 0.5e8 and 1e8; or it ends with a bracket L < H (holding is at least as good at L unless L = 0, exercising at least as good at H unless H = 1e8) of length at most 1e-5 or with holding and exercising within 1e-5 of each other at its midpoint, and the price is the Roll-Geske-Whaley formula with that midpoint as critical price.
* `C42_large_dividend` (Props_American.v): Finding: if the dividend exceeds the strike by more than 1e-5 there is no critical price (exercising is better at every price), yet the search does not report it: it converges to a price of at most 1e-5 and the formula is evaluated there.
* `C42_formula` (Props_American.v): With the exact univariate and bivariate normal distribution functions the Roll-Geske-Whaley formula is right: for every critical price Ic it is the discounted mean, over the lognormal stock price just before the dividend, of the value of exercising above Ic and keeping a Black-Scholes call below.
* `C42_american_value` (Props_American.v): At the critical price, where holding and exercising are worth the same, the formula is the value of the American call on a stock with one dividend: the discounted mean of the better of exercising and holding. No other critical price gives more.
* `C42_near_critical` (Props_American.v): A critical price found only approximately costs no more than its error: if holding and exercising differ by at most eps at Ic, then the formula at Ic is below the value of the American call by at most the discounted eps, and never above it.
* `C42_bounds` (Props_American.v): With exact distribution functions the Roll-Geske-Whaley price at the critical price is at least the European call on the stock net of the dividend, at least what is made by always exercising just before the dividend, and, when the dividend does not exceed the strike, at most the stock price net of the dividend.
* `C42_unit` (Props_American.v): Roll-Geske-Whaley under a change of the unit of money, spot, strike and dividend multiplied by c > 0: is_call_optimal() stays the same, and when it is False the price is multiplied by c. Finding: when it is True and c S exceeds 1e8, call() raises ValueError: every such option has a unit in which it has no price.

### C43 Barone-Adesi-Whaley

Model and method: as C42. The bounds (`PBaw3.v`) use convexity of the Black-Scholes price and Bernoulli inequalities for the premium; positivity of every iterate of the searches is an invariant of the loops. Termination (`PBaw4.v`): the slope used by the searches bounds the true slope on one side, so an iterate may cross the solution once only and every step has a minimal length; without the conditions of C43_call_terminates and C43_put_terminates the searches may still end, which is not proved. `PBaw2.v` runs the call search over the extended reals, where the logarithm of a negative seed is nan and ends the loop. Change of unit (`PBaw5.v`, and `PRgw4.v` for C42): the states of the two searches correspond step by step.

* `C43_carry` (Props_American.v): BAW call: with a cost of carry of at least the interest rate it is the Black-Scholes call.
* `C43_call_value` (Props_American.v): BAW call below the carry boundary: whatever the iteration budget, either the search does not converge (for any spot), or there are one critical price Sk, exponent q and premium A, the same for every spot, such that the price is the Black-Scholes call plus A (S/Sk)^q below Sk and exactly S - K from Sk on; q is the root above 1 of the quadratic, and for a positive Sk the premium is positive, the two pieces meet within 1e-6 K (value matching) and have the same slope 1 (smooth pasting: the Black-Scholes delta plus q A / Sk).
* `C43_call_early_exercise` (Props_American.v): Hence, whenever a BAW call has a price, that price is either exactly S - K or strictly above the Black-Scholes call.
* `C43_put_value` (Props_American.v): BAW put: either the search does not converge (for any spot), or there are one critical price Sk, exponent q and premium A, the same for every spot, such that the price is the Black-Scholes put plus A (S/Sk)^q above Sk and exactly K - S up to Sk; q is the negative root of the quadratic, and for a positive Sk the pieces meet within 1e-6 K, have the same slope -1, and the premium is positive if b <= r.
* `C43_negative_refuted` (Props_American.v): Finding: with a strongly negative cost of carry every call is priced S - K, a negative number out of the money, whatever the iteration budget. With q > 1 the root of sigma^2/2 q (q - 1) + b q = r, it happens as soon as -(b t + 2 sigma sqrt t) (q - 1) > ln q, and so always when -b t >= 1 + 2 sigma sqrt t: the seed of the search is then negative, its logarithm is nan, and the comparison with nan ends the search at the seed.
* `C43_call_dominates` (Props_American.v): With a positive interest rate, b < r and b t + 2 sigma sqrt t >= 0 (compare C43_negative_refuted), a BAW call is worth at least S - K, at least the Black-Scholes call, and at most S, for every spot and iteration budget for which the search ends; up to 1e-6 K and the error of the distribution function.
* `C43_put_dominates` (Props_American.v): With a positive interest rate and b <= r a BAW put is worth at least K - S, at least the Black-Scholes put, and at most K, for every spot and iteration budget for which the search ends; up to 1e-6 K and the error of the distribution function.
* `C43_call_terminates` (Props_American.v): The search behind a BAW call ends: if the cost of carry b is nonnegative and below r, and at some spot B (K < B <= 5 K, above the perpetual critical price) exercise is worth more than the Black-Scholes price plus the early exercise premium of the approximation by over 1e-6 K, then from some number of iterations on every call has a price, the same for every larger number.
* `C43_put_terminates` (Props_American.v): The search behind a BAW put ends if it starts at a spot S0 <= U = K exp(-(b + sigma^2/2) t) at which exercise is worth no more than the Black-Scholes price plus the early exercise premium of the approximation, or at which the tangent of the Black-Scholes put meets the exercise line below (1 - 1/q) U: from some number of iterations on every put has a price, the same for every larger number.
* `C43_zero_rate_refuted` (Props_American.v): Finding: with a zero interest rate the approximation breaks down silently. For r = b = 0 the put is nan whenever S > K e^{-2 sigma sqrt t}, and K - S (less than the Black-Scholes put) otherwise, whatever the iteration budget.
* `C43_scale` (Props_American.v): BAW prices do not depend on the unit of money: scaling spot and strike by c > 0 takes the search through the same number of steps, so that with any iteration budget the prices exist for both options or for neither (with the same exception) and differ by the factor c. Rates, maturity and volatility are arbitrary, missing volatility included.

### C44 Bjerksund-Stensland

Model and method: closed form, all branches. Long maturities (`PBs6.v`): every term but the perpetual one vanishes, through discounting or because the distribution function is evaluated at arguments tending to minus infinity.

* `C44_carry` (Props_American.v): BS call: with a cost of carry of at least the interest rate it is the Black-Scholes call, and no trigger price is reported.
* `C44_put_no_rate` (Props_American.v): BS put with a nonpositive interest rate is the Black-Scholes put.
* `C44_put_dual` (Props_American.v): BS put is the BS call with spot and strike exchanged, interest rate r - b and cost of carry -b (put-call transformation).
* `C44_trigger` (Props_American.v): BS call with b < r: the reported trigger does not depend on the spot; from the trigger on the price is exactly S - K; if b t + 2 sigma sqrt t > 0 the trigger is above the strike and above r/(r-b) K and below the exercise price of the perpetual call, beta/(beta-1) K, where beta > 1 solves sigma^2/2 beta(beta-1) + b beta = r.
* `C44_negative_refuted` (Props_American.v): Finding: the price can be negative. If b >= 0, r > 0 and b sqrt t > 2 sigma (so for a plain stock put, b = r, with low volatility) the put's trigger formula goes wrong: there is a price ratio g < 1 such that for all strikes g S <= K < S the put is K - S < 0.
* `C44_trigger_continuity` (Props_American.v): With the exact normal distribution the price is continuous at the trigger: approaching the trigger from either side it tends to the exercise value (b < r, b t + 2 sigma sqrt t > 0).
* `C44_value_matching` (Props_American.v): The formula used below the trigger gives exactly the exercise value at the trigger, whatever distribution function is used: near the trigger the price jumps only as much as the distribution function's implementation does.
* `C44_positive` (Props_American.v): With the exact normal distribution a BS call is worth a positive amount at every spot (b < r, b t + 2 sigma sqrt t > 0; compare the negative prices of C44_negative_refuted when that condition fails).
* `C44_homogeneous` (Props_American.v): Scaling spot and strike by the same positive factor scales the BS call and its trigger by that factor (b < r; any distribution function; trigger positive).
* `C44_trigger_maturity` (Props_American.v): BS call with 0 <= b < r: the reported trigger rises strictly with the maturity. For short maturities it starts at max(K, r/(r-b) K) and lies about two standard deviations above it (the excess divided by sqrt t tends to 2 sigma times that price); for long maturities it tends to the exercise price of the perpetual call.
* `C44_perpetual` (Props_American.v): BS call with 0 <= b < r: as the maturity grows the price tends to the value of the perpetual American call, (B - K) (S/B)^beta below its exercise price B = beta/(beta-1) K and S - K from there on; with the distribution function of the code as well as with the exact one.
* `C44_trigger_rate` (Props_American.v): BS call with b < r: the speed at which the reported trigger approaches the exercise price Binf of the perpetual call as the maturity grows: ln (Binf - trigger) / t tends to -b B/(Binf - B), where B = max(K, r/(r-b) K). For b < 0 the trigger moves away from Binf at that rate, instead of approaching it.

### C45 Monte Carlo price and parity per loop

Model and method: `MMonte.v`; innovations, paths and payoffs are arbitrary functions.

* `C45_price` (Props_Monte.v): The value of a Monte Carlo option with WienerPath and either payoff, for every sampler and every drawn innovations: call() and put() return one entry per loop, each the average over the paths of that loop of the discounted payoff on the geometric Brownian motion driven by the (antithetic and/or standardised, as requested) innovations.
* `C45_parity` (Props_Monte.v): Put-call parity per loop: run from the same state of the sampler (same innovations), the call and put estimates of every loop differ by exactly the discounted difference of the average underlying over the paths and the strike.

### C46 Antithetic and standardized innovations

Model and method: as C45.

* `C46_treatment` (Props_Monte.v): Variance reduction, whatever Path and Payoff classes are supplied: the antithetic and standardization options are equivalent to feeding a plain option with treated innovations; antithetic appends every row negated, standardization then shifts and scales all entries to average 0 and average square 1 (provided they are not all equal).
* `C46_antithetic` (Props_Monte.v): An antithetic option returns, loop by loop, the average of what the plain option returns for the drawn innovations and for their negatives.
* `C46_log_contract` (Props_Monte.v): Variance reduction centres the simulation exactly: with antithetic or standardised innovations, a user's log contract (payoff: log of the terminal price) is priced at ln S + (b - sigma^2/2) t in every loop, without sampling error, whatever is drawn.
* `C46_constant_refuted` (Props_Monte.v): Finding: standardising a sample whose entries are all equal (in particular one path of one step) divides by zero; every price returned is nan.

### C47 Monte Carlo estimator sanity

Model and method: as C45; unbiasedness by nested Gaussian integrals, over all paths and steps, via the constant-variance case of C50.

* `C47_zero_volatility` (Props_Monte.v): With zero volatility every loop of a plain vanilla option returns exactly the discounted payoff of the forward, whatever the innovations and variance reduction.
* `C47_single_step` (Props_Monte.v): With one time step the arithmetic Asian option returns the same prices as the plain vanilla option.
* `C47_asian_between` (Props_Monte.v): The Asian estimate of a loop lies between the averages of the discounted payoff with every path looked at at its worst and at its best time point.
* `C47_strikes` (Props_Monte.v): Across strikes, on common innovations: every loop's estimate is at least the discounted payoff of the average underlying, and at most the discounted average underlying (call) or strike (put); it falls (call) or rises (put) with the strike with slope at most the discount factor, and is convex in the strike.
* `C47_no_volatility` (Props_Monte.v): Without a volatility the built-in path raises TypeError as soon as a loop runs.
* `C47_unbiased_one_step` (Props_Monte.v): For one path of one step, the price the option returns, integrated against the Gaussian density of the innovation, is the Black-Scholes price with the exact normal distribution function: the one-step estimator is unbiased.
* `C47_unbiased` (Props_Monte.v): For every number of paths and steps, with or without antithetic innovations, the price a vanilla Monte Carlo option returns, averaged over all independent standard normal innovations, is exactly the Black-Scholes price: the estimator is unbiased
* `C47_asian_forward` (Props_Monte.v): For every number of paths and steps, with or without antithetic innovations, the call price minus the put price of an arithmetic Asian option, averaged over all independent standard normal innovations, is the discounted difference of the average forward price over the time points and the strike

### C48 Monte Carlo output shape and trace

Model and method: as C45, also over extended reals.

* `C48_shape` (Props_Monte.v): call() and put() return an array with exactly mc_loops entries, or, if the mean payoff of some loop is infinite, the debugging triple of that loop; with real-number arithmetic always the array.
* `C48_given_innovations` (Props_Monte.v): If the sampler always returns the same innovations (eps given), all loops return the same price.
* `C48_trace_refuted` (Props_Monte.v): Finding: the trace does not print running averages. Line i shows the total over all loops divided by i + 1, which exceeds the average of the first i + 1 prices by the sum of the later prices over i + 1; it is right on the last line only.
* `C48_infinite_refuted` (Props_Monte.v): Finding: the result is not always an array of prices. If a draw contains -inf (which the sampler lets through) and antithetic is on, its mirror image makes the call's mean infinite and call() returns the triple (eps, path, payoff) of the first loop instead of mc_loops prices; with trace on it raises.

### C49 Sobol innovations never contain infinities

Model and method: Sobol sampler is an arbitrary sequence of matrices.

* `C49_sample` (Props_Monte.v): The sampler returns the first draw (from the current state on) that its retry guard accepts, or the supplied eps; in the unscrambled case a draw of n paths consists of the quantiles of Sobol points 1..n.
* `C49_infinite_refuted` (Props_Monte.v): Finding: the guard against infinities looks at the largest entry only. A draw containing the point 0 (whose normal quantile is -inf) next to any other point is returned as it is, with -inf among the innovations; the guard triggers only if every point is 0.
* `C49_silent` (Props_Monte.v): The consequence: a path with an innovation of -inf counts as one ending at price 0 (call payoff 0, put payoff K), without any warning; paths with finite innovations are priced as usual.

### C50 Heston-Nandi price

Model and method: `MHeston.v`; complex arithmetic as pairs; the recursion of `_fHN` is shown to compute the characteristic function of the GARCH process by nested Gaussian integrals; the price is recovered from it by a Gil-Pelaez inversion (Dirichlet integral, interchange with the nested means, decay of the integrand), for an integrator that is exact on convergent half-line integrals (`exact_quad`; one exists).

* `C50_integrand` (Props_Heston.v): The function integrated for the price is a mean over the GARCH process: started at the stationary variance and run for t days with daily drift r and risk-neutral leverage gamma + lamb + 1/2, it is the mean of P^c sin(phi ln(P/K)) / (phi pi) for the terminal price P
* `C50_price` (Props_Heston.v): With an integrator that returns the exact value of convergent half-line integrals, call() and put() return the discounted mean payoff of the option under the GARCH process started at its stationary variance
* `C50_strikes` (Props_Heston.v): With exact integration the prices across strikes are free of arbitrage: they lie between the discounted payoff of the forward and the stock price (call) or discounted strike (put), the call falls with the strike with slope at most the discount factor, and prices are convex in the strike
* `C50_black_scholes` (Props_Heston.v): Without volatility clustering (alpha = 0) the exact price is the Black-Scholes price with daily variance omega/(1-beta): the option nests the constant-volatility model
* `C50_martingale` (Props_Heston.v): Under the process the option is priced with, the discounted price is a martingale: the mean terminal price is S e^(r t)
* `C50_float_days_refuted` (Props_Heston.v): A number of days given as a float, as in the documentation, makes every price and Greek raise TypeError
* `C50_missing` (Props_Heston.v): An option created without its parameters (the defaults are None) raises TypeError from every price and Greek

### C51 Heston-Nandi parity, Greeks and scaling

Model and method: scipy `quad` is a parameter.

* `C51_parity` (Props_Heston.v): Call minus put is S - K e^(-r t) and the deltas differ by one, whatever the integrator returns; a put has a price exactly when the call has
* `C51_greeks` (Props_Heston.v): With any fixed quadrature rule (nodes off zero) delta is the derivative of the price with respect to S and gamma the derivative of delta
* `C51_homogeneous` (Props_Heston.v): Scaling the stock price and the strike scales the prices and leaves delta as it is, for every integrator that is linear and does not look at the integrand at 0

### C52 GARCH simulation

Model and method: numpy's generator is a parameter.

* `C52_stationary` (Props_Heston.v): The variance every series starts from is the only one equal to its own expected successor
* `C52_simulation` (Props_Heston.v): A simulated series is the return series of the Heston-Nandi process driven by the innovations, started at the stationary variance, with the burn-in dropped: the given innovations are used after the given or sampled burn-in innovations
* `C52_round_trip` (Props_Heston.v): Evaluating the likelihood of a simulated series at the parameters it was simulated with returns exactly the innovations and the variances of the simulation, and minus their log likelihood
* `C52_long_refuted` (Props_Heston.v): Given more innovations than n the series has the wrong length: the surplus innovations are returned as if they were returns
* `C52_short` (Props_Heston.v): Given fewer innovations than n the simulation raises IndexError; without omega or alpha (the default) it raises TypeError

### C53 GARCH fit

Model and method: scipy `minimize` is a parameter.

* `C53_symmetric_refuted` (Props_Heston.v): symmetric=True does not switch the leverage parameter off: the likelihood is the same as with symmetric=False, and the variances still depend on gamma
* `C53_fit` (Props_Heston.v): A fit with symmetric=False is consistent with itself: omega, alpha, beta lie between 0 and 1 and, when the reported persistence is below 1, the reported sigma2 is the stationary variance, and the reported innovations and variances are those of the process that produces the data under the reported parameters
* `C53_fit_symmetric_refuted` (Props_Heston.v): A fit with symmetric=True reports gamma = 0 and the matching sigma2 while the variances it returns are those of the gamma found by the minimiser: they do not start at the reported sigma2
* `C53_minimum_refuted` (Props_Heston.v): The reported "minimum" is not the log likelihood at the estimate: it is larger by n sqrt(2 pi), for every minimiser that reports the value of the objective at the point it returns

### C54 GARCH start values

Model and method: reals and extended reals.

* `C54_start` (Props_Heston.v): The first value a fit reports is minus the log likelihood at the given start parameters: the transformation to the unit interval is undone exactly
* `C54_defaults` (Props_Heston.v): Without omega and alpha the fit starts from the variance of the series and a tenth of it
* `C54_nan` (Props_Heston.v): Where alpha gamma^2 + beta exceeds 1 the filter starts from a negative variance and the likelihood handed to the minimiser is nan, whatever the series

### C55 Bivariate normal routine

Model and method: `cbnd` over the reals.

* `C55_total_symmetric` (Props_American.v): The bivariate normal routine returns a number for all real arguments (its recursion is at most three deep) and is symmetric in its two limits.
* `C55_marginals` (Props_American.v): It has exact normal marginals: P(X<a, Y<b) + P(X<a, Y>b) is the library's N(a); hence also P(X<a,Y<b) = N(a) + N(b) - 1 + P(X>a,Y>b). (|rho| < 1; away from the line b = rho a, resp. a = -rho b where the reflected correlation is clipped.)

### C56 Expiry and zero volatility

Model and method: extended reals (nan, infinities).

* `C56_degenerate` (Props_American.v): At expiry or with zero volatility (numpy arithmetic with infinities and nan): when the forward S e^{bt} differs from the strike, the call and put are exactly the discounted forward payoffs, the put-call parity holds and vega is 0; at the money the call and the put are nan. Gamma is nan at expiry whatever the moneyness.

### C57 Arrays as option parameters

Model and method: the model of MVanilla.v read over arrays (an instance of `Num` with broadcasting), over every arithmetic of the elements; one logical relation for values and one for shapes.

* `C57_elementwise` (Props_Vector.v): Passing arrays prices many options at once: if every parameter is a number, an array of length 1 or an array of length n, then construction succeeds and call, put, delta, theta, vega, lambda, gamma and the cost-of-carry Greek return a number or an array of the common length whose element i is what an option built from the i-th elements alone returns (for every arithmetic, in particular for floats)
* `C57_greeks` (Props_Vector.v): For a cost of carry b that is the same for all (a number or an array of length 1; in particular for Black76Option) rho() and the dictionary greeks() are element by element what the scalar options return, in the same order
* `C57_rho_refuted` (Props_Vector.v): greeks for arrays are documented for all parameters, but with an array of two or more costs of carry b, rho() and greeks() always raise ValueError (the test b != 0 has no truth value), whatever the other parameters
* `C57_mismatch` (Props_Vector.v): Two parameters of lengths that do not match (different, neither of them 1) are never silently combined: the constructor raises ValueError or, when only r is involved, the option is built and every price and Greek raises ValueError
* `C57_miltersen` (Props_Vector.v): A MiltersenSchwartzOption on arrays that fit together is built, and its call and put prices have the common shape and are position by position the prices of the scalar options
* `C57_kirk` (Props_Vector.v): A SpreadApproxOption on arrays that fit together is built, and its call and put prices have the common shape and are position by position the prices of the scalar options
* `C57_kirk_mismatch` (Props_Vector.v): Parameters of a SpreadApproxOption whose lengths do not match (different, neither of them 1) make the constructor raise ValueError
* `C57_american_rejects` (Props_Vector.v): RollGeskeWhaleyOption, BAWAmericanApproxOption and BSAmericanApproxOption refuse arrays: the guard of their constructors raises TypeError if and only if some argument is an array of two or more elements
* `C57_black76` (Props_Vector.v): Black76Option on arrays: prices, every Greek, rho() and the dictionary greeks() are element by element what scalar Black76Options return

### C58 Implied volatilities of arrays

Model and method: scipy `root` is any function returning a point and a success flag; over the reals for repricing.

* `C58_objective` (Props_Vector.v): When some parameter or price is an array (of n elements), volatility() hands scipy's root one system of n equations in n volatilities, starting at all ones, whose i-th equation is "price i minus the price of option i at volatility i": the implied volatilities do not influence each other
* `C58_reprices` (Props_Vector.v): If root only ever returns exact solutions, every element of the returned volatilities gives the i-th option exactly its quoted price
* `C58_silent_refuted` (Props_Vector.v): A returned implied volatility need not reprice the option: whatever root does (as long as it returns a point, converged or not), a quote at or above the forward value of the underlying, which no volatility can produce, still gets a volatility and no error - while for numbers the same call raises

### C59 Monte Carlo error

Model and method: estimator of C45 over a generator that reads independent rows; variances are iterated improper Riemann integrals, their existence proved in `PExpect2.v` for functions with exponential Lipschitz bounds; antithetic inequality from the covariance of increasing and decreasing functions.

* `C59_error` (Props_Monte.v): Monte Carlo error, for vanilla and arithmetic Asian options: the average of the prices returned (one per loop) over independent standard normal innovations has mean v, the mean discounted payoff of one path, and mean square error V / (loops * paths), where V is the variance of the discounted payoff of one path; with antithetic innovations the mean square error is at most V / (2 * loops * paths), so antithetic paths are never worse than as many independent ones. The mean and the variance always exist.
* `C59_confidence` (Props_Monte.v): Hence confidence intervals: the probability that the average price is off by eps or more is at most V / (loops * paths * eps^2), with antithetic innovations half of that; the estimate converges in probability as the number of paths or loops grows.
* `C59_variance` (Props_Monte.v): For vanilla options the mean v is the Black-Scholes price and the variance V has a closed form, whatever the number of time steps.

### C60 Two-asset tree converges to the two-asset lognormal model

Model and method: the tree model of C35; `two_asset_value` in `SSpread2.v` is an iterated Gaussian integral; a quantitative central limit theorem for the symmetric random walk (`PClt.v`, `PClt2.v`), uniform over functions with exponential Lipschitz bounds, by one-step comparison of the walk with the Gaussian mean; Margrabe from Gaussian integration by parts (`PMargrabe.v`).

* `C60_european_limit` (Props_Limits.v): European prices of the two-asset tree (codes 1-6, 9 and the exchange option's call) converge, as the number of steps grows, to the discounted mean of the documented payoff over two correlated lognormal prices: for every tolerance all trees with enough steps are within it. The mean always exists.
* `C60_forwards` (Props_Limits.v): The forward prices implied by the tree, which are below the continuous-time ones for every number of steps, converge to S exp(bt), so put-call parity with the continuous-time forwards holds in the limit.
* `C60_exchange` (Props_Limits.v): The exchange option's call (code 7) converges to Margrabe's formula with the exact normal distribution function, which is the discounted mean payoff.

### C61 Closed-form, tree and Monte Carlo prices estimate the same mean

Model and method: models of C01, C22 and C45; `lognormal_value` is a one-dimensional Gaussian mean; Black-Scholes steps compose (`black_steps`).

* `C61_kirk` (Props_Limits.v): With strike 0 Kirk's approximation is not one: call and put are, up to the 7.5e-8 error of the distribution function, the discounted mean payoffs of the two correlated lognormal assets.
* `C61_gbs` (Props_Limits.v): Generalised Black-Scholes prices are, up to the 7.5e-8 error of the distribution function, the discounted mean payoff of a lognormal asset; with the exact distribution function they are exactly it.
* `C61_tree` (Props_Limits.v): Prices of European options in every binomial tree and the trinomial tree converge to the discounted mean payoff of a lognormal asset.
* `C61_monte_carlo` (Props_Limits.v): However many steps the paths have, the mean price of the Monte Carlo option with the vanilla payoff is that same mean, plain or antithetic: averaging the code's price array over independent standard normal innovations gives the Black-Scholes value without any discretisation error.

### C62 Mean price of Asian Monte Carlo options is bounded by forward and vanilla values

Model and method: model of C45; Jensen step by step and average over the time points.

* `C62_asian_bounds` (Props_Limits.v): The mean price of the arithmetic Asian Monte Carlo option is at least the discounted payoff of the average forward price, and, for calls when b >= 0 and puts when b <= 0, at most the Black-Scholes value of the vanilla option with the same terms.

### C63 American tree prices converge to one American value

Model and method: the tree models of C23; `american_value` in `SAmer.v` is the limit of Bermudan values defined by iterated Gaussian means. The upper bound of the tree price by Bermudan values uses a blockwise comparison: exercise inside a block gains at most the modulus of the payoff over the block; the blocks themselves converge by the uniform central limit theorem for the tilted walk (`PAmer2.v`-`PAmer4.v`).

* `C63_american_limit` (Props_Limits.v): For all four classes the American tree price converges, as the number of steps grows, to the American value of the call or put on a lognormal asset: the limit, from below, of the values with finitely many equally spaced exercise dates.
* `C63_unique` (Props_Limits.v): The American value is determined by the inputs, so all four classes have the same limit.
* `C63_bounds` (Props_Limits.v): The American value is at least what immediate exercise pays and at least the European value.
* `C63_no_early_exercise_call` (Props_Limits.v): When carry covers interest (b >= r >= 0) American calls of all four classes converge to the European Black-Scholes price, which is the American value; JR included, although its prices with finitely many steps may show early exercise (C27).
* `C63_no_early_exercise_put` (Props_Limits.v): When r <= 0 and b <= r American puts of all four classes converge to the European Black-Scholes price.

### C64 Objects price the formula of their class at their current arguments

Model and method: connects the object model (MObjects.v, MClasses.v) with the pricing functions of the other models; symbolic execution of each constructor.

* `C64_vanilla` (Props_Objects.v): A GBSOption or BlackScholesOption, built and updated in any program, prices the formula at its current arguments; without a volatility it raises. Black76Option prices the formula with spot FT and cost of carry 0.
* `C64_miltersen_schwartz` (Props_Objects.v): A MiltersenSchwartzOption prices its formula at its thirteen current arguments although constructor and methods pass the intermediate results on as attributes.
* `C64_american` (Props_Objects.v): The three American approximations price their formulas at the current arguments; RollGeskeWhaleyOption has no put; BSAmericanApproxOption returns the price and the trigger price.
* `C64_trees` (Props_Objects.v): Objects of the four one-asset tree classes price the tree of their class at the current arguments, including the exercise type and the number of steps.
* `C64_spreads` (Props_Objects.v): Two-asset tree objects price the tree with the payoff code, strikes and quantities of their current arguments; the three wrapper classes price codes 1 (spread), 2 (maximum) and 3 (minimum). SpreadApproxOption prices Kirk's formula.

### C65 American two-asset tree prices converge to the American value

Model and method: the tree model of C35; `american_value2` in `SAmer2.v`; the machinery of C63 in two dimensions (`PAmer8.v`): a central limit theorem for two-dimensional walks, uniform in the number of steps, and the semigroup property of the limit, which gives the cases without early exercise (`no_early_value` in `PAmer1.v`).

* `C65_american_limit` (Props_Limits.v): American prices of the two-asset tree (codes 1-6, 9 and the exchange option's call) converge, as the number of steps grows, to the American value of the documented payoff on two correlated lognormal assets; that value always exists.
* `C65_value_unique` (Props_Limits.v): The American value of a claim on two assets is determined by the payoff and the market: two numbers satisfying its definition are equal.
* `C65_bounds` (Props_Limits.v): The American value is at least what immediate exercise pays and at least the European value.
* `C65_no_early_exercise` (Props_Limits.v): When the payoff is the best of several portfolios of the two assets and cash (or nothing), and every position of every portfolio is worth at least as much later (an asset held long has carry of at least the interest rate, one held short at most that; cash paid earns interest), the American tree prices converge to the European value: the right to exercise early is worth nothing in the limit.
* `C65_exchange` (Props_Limits.v): The American exchange option's call (code 7), when the carry of the asset received covers interest and that of the asset given does not exceed it, converges to Margrabe's formula with the exact normal distribution function.
* `C65_any_dates` (Props_Limits.v): The American value is at least the value with any number of equally spaced exercise dates, whatever their distance, as long as the last one is not after expiry.
* `C65_maturity` (Props_Limits.v): The American value of every documented payoff does not decrease with the time to maturity.

### C66 The common limit of American tree prices behaves as an American value

Model and method: statements about `american_value` (`SAmer.v`); the comparison with other exercise dates uses the blockwise comparison of C63 with blocks of any length, the others pass the tree theorems of C26, C28 and C29 to the limit along the CRR trees.

* `C66_any_dates` (Props_Limits.v): The American value is at least the value with any number of equally spaced exercise dates, whatever their distance, as long as the last one is not after expiry.
* `C66_maturity` (Props_Limits.v): The American value does not decrease with the time to maturity.
* `C66_homogeneous` (Props_Limits.v): The American value scales with spot and strike.
* `C66_duality` (Props_Limits.v): The American call is the American put with spot and strike exchanged, r - b for r and -b for b.
* `C66_strike` (Props_Limits.v): The American call does not increase and the American put does not decrease with the strike; if r >= 0 the change is at most the change of strike.
* `C66_spot` (Props_Limits.v): The American call does not decrease and the American put does not increase with the spot.
* `C66_convex` (Props_Limits.v): The American value is jointly convex in spot and strike.
* `C66_upper_bounds` (Props_Limits.v): The American call with b <= r is worth at most the spot, the American put with r >= 0 at most the strike.
* `C66_put_call` (Props_Limits.v): For b = r >= 0 the American put-call inequality S - K <= C - P <= S - K exp(-rt) holds for the American values.
* `C66_volatility` (Props_Limits.v): The American value does not decrease with the volatility, for calls and puts.
* `C66_rates` (Props_Limits.v): Dependence of the American value on the rates. With the carry fixed it does not increase with the interest rate. With the interest rate fixed calls do not decrease and puts do not increase with the carry. With a fixed dividend yield q (b = r - q) calls do not decrease and puts do not increase with the interest rate.

### C67 American approximations against the American value

Model and method: `MAmerican.v` against `american_value`; C43_carry and C44_carry with C63, and the limit of the distribution function at minus infinity for the refutations.

* `C67_carry` (Props_Limits.v): When carry covers a nonnegative interest rate (b >= r >= 0), the Barone-Adesi-Whaley and the Bjerksund-Stensland call both equal the American value, up to the accuracy 7.5e-8 of the normal distribution function of the library times the discounted forward and strike.
* `C67_put` (Props_Limits.v): When r <= 0 and b <= r, the Bjerksund-Stensland put equals the American value up to the accuracy of the normal distribution function.
* `C67_negative_rate_refuted` (Props_Limits.v): Finding: with a negative interest rate and b = r both approximations return the European call, although early exercise then pays: for every strike, maturity and volatility, all high enough spots get an American call below the payoff of immediate exercise, hence below the American value.
* `C67_put_refuted` (Props_Limits.v): Finding: with a zero interest rate and a positive cost of carry the Bjerksund-Stensland put is the European put: for every strike, maturity and volatility, all low enough spots get an American put below the payoff of immediate exercise, hence below the American value.

### C68 Tree prices in floating-point arithmetic

Model and method: the models of C23 and C35 over `FNum`, for every arithmetic satisfying `monotone_fp` (`SFloat.v`); the orders are kept by every rounded operation, node by node. That computed weights are nonnegative is a hypothesis (`float_weights` in `SFloat.v`), discharged by C68_weights and C68_weights_ordinary for every class but TIAN.

* `C68_american` (Props_Float.v): In floating-point arithmetic, whatever the rounding, an American tree price is at least the European one, at least the computed payoff of immediate exercise, and neither is negative.
* `C68_strike` (Props_Float.v): In floating-point arithmetic tree prices are monotone in the strike: calls do not increase, puts do not decrease.
* `C68_spot` (Props_Float.v): In floating-point arithmetic tree prices are monotone in the spot: calls do not decrease, puts do not increase.
* `C68_rate` (Props_Float.v): In floating-point arithmetic, with the cost of carry fixed, tree prices do not increase with the interest rate.
* `C68_weights` (Props_Float.v): The weights the code computes are valid for every JR tree, and for CRR trees when b >= 0, the computed drift per step is at most the computed volatility per step, and the computed up move is greater than 1.
* `C68_two_asset` (Props_Float.v): In floating-point arithmetic the American price of the two-asset tree is at least the European one, and neither is negative, for every payoff code.
* `C68_weights_ordinary` (Props_Float.v): In an arithmetic that is also accurate, the computed weights of CRR and trinomial trees are valid when the computed volatility per step is between 100 u and 1 and the computed drift per step is at most half of it in size.

### C69 Put-call parity in floating-point arithmetic

Model and method: `MVanilla.v` over `FNum`, for every arithmetic satisfying `accurate_fp`; the computed distribution function rounds the same numbers at x and -x.

* `C69_parity` (Props_Float.v): Put-call parity in floating-point arithmetic: with F and X the discounted forward and strike as the code computes them, call minus put differs from F - X by at most 40 u (F + X) plus an underflow term, u being the relative error of one operation (2^-53 in double precision).

### C70 Accuracy of computed Black-Scholes prices

Model and method: as C69; forward error analysis of each subexpression (`PFloat3.v`, `PFloat4.v`), C04 for the polynomial approximation and the Lipschitz constant of the distribution function for the error in d1 and d2.

* `C70_distribution` (Props_Float.v): The distribution function as computed in floating-point arithmetic is within 7.5e-8 + 276 u of the Gaussian distribution function at every number.
* `C70_price` (Props_Float.v): The call and put prices computed by GBSOption in floating-point arithmetic are within (F + X) (7.5e-8 + 180 u W) of the exact Black-Scholes values, up to an underflow term; F and X are the discounted forward and strike and W measures how extreme the inputs are.

### C71 Rate of convergence of European trees

Model and method: as C34 with explicit orders: the first four spot derivatives and the second time derivative of the Black-Scholes put are bounded by powers of 1/sqrt(remaining time) (`PRate.v`), the moments of one step of each class are expanded to third order (`PRate2.v`), and the one-step errors are summed.

* `C71_rate` (Props_Limits.v): For all four classes the error of the European tree price with n steps is at most a constant times (S + K) / sqrt n; the constant and the number of steps from which it holds depend on time, rates and volatility only.
* `C71_every_n` (Props_Limits.v): For one option the bound holds for every number of steps: the error is at most a constant over sqrt n.
* `C71_code` (Props_Limits.v): Against the price GBSOption itself returns the tree is within 7.5e-8 of the forward and strike values plus that constant times (S + K) / sqrt n.

### C72 Rounding errors do not accumulate badly in trees

Model and method: `FNum` as in C68; `C72_stability` carries an error of the moves, the probability and the discount factor through the recursion: the errors of n steps add up, because a step of the exact tree does not increase differences. `C72_models` bounds the errors of the moves and probability of each class (cancellation in u - d costs a factor 1/h for CRR; TIAN loses another one in the square root of V^2 + 2V - 3). `C72_total` adds the rate of C71. `C72_trinomial` and `C72_trinomial_total` do the same for trinomial trees, whose weights are squares of quotients of differences.

* `C72_stability` (Props_Float.v): Rounding errors in binomial trees: if the moves, the weight and the discount factor of one step are computed with error at most delta and without division by zero, the computed price of a European or American option differs from the price in exact arithmetic by at most 40 n delta exp((|r| + |b|) t) (S + K).
* `C72_models` (Props_Float.v): Rounding errors in CRR, JR and TIAN trees with ordinary steps: the computed price differs from the price in exact arithmetic by at most 480 n u for JR, 2000 n u / h for CRR and 8000 n u / h^2 for TIAN, h being the volatility per step, times exp((|r| + |b|) t) (S + K).
* `C72_total` (Props_Float.v): The total error of the price a CRR, JR or TIAN tree computes in floating-point arithmetic against the exact Black-Scholes price: there is a constant with |x - v| <= C (S + K) (1 / sqrt n + u n^a), a = 1 for JR, 3/2 for CRR and 2 for TIAN, for all large n with C u n^a <= 1, all spots and strikes away from underflow.
* `C72_trinomial` (Props_Float.v): Rounding errors in trinomial trees: with h = sigma sqrt(dt / 2) the volatility of half a step, the computed price of a European or American option differs from the price in exact arithmetic by at most 60 n delta exp((|r| + |b|) t) (S + K), delta = 32 u / h.
* `C72_trinomial_total` (Props_Float.v): The total error of the price a trinomial tree computes in floating-point arithmetic against the exact Black-Scholes price: there is a constant with |x - v| <= C (S + K) (1 / sqrt n + u n sqrt n) for all large n with C u n sqrt n <= 1, all spots and strikes away from underflow.

### C73 Accuracy of the bivariate normal distribution and of Roll-Geske-Whaley prices

Model and method: Specification `bivariate_normal` (SAmerican2.v): the half-line integral of the conditional distribution function. PBvn.v: the five-point rule in one variable, its scaled error is at most 1.06e-6 for every nonnegative slope (sign of the derivative by interval arithmetic). PBvn2.v: the error of the double sum is one integral and one sum of such errors. PBvn3.v: derivatives, symmetry, reflections and the reduction to limits at zero (both sides have the same derivative along a ray and the same limit at infinity). PBvn4.v: all branches, the formula, and the search. Exact arithmetic; correlation +-1 (moved by 1e-12 in the code) is not covered.

* `C73_accuracy` (Props_American.v): For all real limits and every correlation strictly between -1 and 1 the bivariate normal routine is within 1.35e-6 of the true distribution function of two correlated standard normal variables, and within 7.5e-7 when the product of its three arguments is not positive (no reduction step needed).
* `C73_rgw_formula` (Props_American.v): Hence the Roll-Geske-Whaley formula evaluated with the library's two distribution functions is within 1.5e-6 (x + K e^{-rt} + |K - D| e^{-r td}) of the formula with the exact ones, whatever the critical price.
* `C73_rgw_value` (Props_American.v): End to end: when early exercise may be optimal, the dividend does not exceed the strike, the stock price is at most 1e8 and exercising is right at every price from 0.5e8 to 1e8, call() returns a price p that differs from the true value of the American call on a stock with one known dividend (the discounted mean of the better of exercising just before the dividend and holding on) by at most the discounted tolerance of the search, 1e-5 + 7.5e-8 (Ic + K e^{-r(t-td)}), plus the error of the distribution functions, 1.5e-6 (x + K e^{-rt} + (K - D) e^{-r td}).
* `C73_rgw_bounds` (Props_American.v): The computed call is at least the computed European call of GBSOption on the stock net of the dividend and at least what always exercising just before the dividend makes, and it is at most the stock price net of the dividend, up to the tolerance of the search and the errors of the distribution functions.

### C74 Elasticities and the dictionary of Greeks by finite differences

Model and method: MGreeks.v models `lamb` and `greeks` class by class on top of the object model; SGreeks.v states the elasticity from a freshly built option (with the specification of C19 for delta) and the names of the entries. PGreeks.v: the value of every step on a heap satisfying the invariant, then a table over the sixteen classes. `no_effect` is the observational equivalence of C18.

* `C74_lambda` (Props_Objects.v): lamb() is, per underlying asset, delta times spot over price, all three taken from the option's current arguments: delta by finite differences of the call or the put as asked for, the spot the current one, the price that of call() or put().
* `C74_greeks` (Props_Objects.v): greeks() is the dictionary of the single Greeks: for every class that computes it by finite differences the entry for delta is what delta(call) returns on the same object, and so for theta, vega, rho (not Miltersen-Schwartz), lambda and gamma; if one of them raises, greeks() raises the first of those exceptions.
* `C74_no_effect` (Props_Objects.v): Computing lamb() or greeks(), successfully or not, changes nothing that any option object returns.
* `C74_black76_refuted` (Props_Objects.v): Finding: lamb(method="fdm") of Black76Option never returns a number, whatever the flag, for every differentiator that evaluates its function at all: its delta tries to set 'S', which that class does not accept (delta and gamma: C17).

### C75 One vega and one gamma for calls and puts

Model and method: SSens.v defines difference formulas (weights and points). PSens.v: parity (C01, C25) makes call minus put constant in the volatility and a line in the spot; for Jarrow-Rudd the one-step forward e^{b dt} cosh(sigma sqrt dt) e^{-sigma^2 dt/2} is strictly decreasing in sigma; lattice prices are continuous and everywhere equal to one of finitely many lines (closed under sums, maxima and scaling), hence locally a line away from the crossings. That vega() and gamma() differentiate the call is C19.

* `C75_black_scholes` (Props_Trees.v): European closed form: one vega and one gamma serve the call and the put, as the interface assumes. Every difference formula that gives 0 on constants has the same value on the call and on the put as functions of the volatility; every one that gives 0 on straight lines has the same value on both as functions of the spot.
* `C75_lattices` (Props_Trees.v): European CRR, TIAN and trinomial trees: likewise, for every number of steps.
* `C75_jr_refuted` (Props_Trees.v): Finding: Jarrow-Rudd trees have no common vega: for every number of steps, when the volatility rises the put always gains more than the call. vega() reports the call's number for both.
* `C75_tree_gamma_refuted` (Props_Trees.v): Finding: the gamma of a tree option says nothing about curvature. For every tree class, number of steps and style the price is a straight line in the spot near every spot outside a finite set, so every difference formula for a second derivative gives exactly 0 there once its points are close enough, while the gamma of the Black-Scholes price that the European tree approximates is positive.
* `C75_american_refuted` (Props_Trees.v): Finding: for American options the put's vega is not the call's, which vega() reports. Cox-Ross-Rubinstein, one step, S=100, K=101, t=1, r=b=19%: at every volatility from 20% to 21% the put is worth exactly 1 (immediate exercise), while the call gains more than 0.4 from one end to the other.

### C76 Tree prices rise with volatility

Model and method: PTreeVol.v compares two lattices: if every convex payoff has a larger one-step mean on the second, so has every price (prices on a lattice are convex in the spot). Wider moves with the same mean are such a pair: CRR and TIAN (whose down move relative to the forward solves a quadratic and falls until exp(sigma^2 dt) = 3/2); the trinomial step is the CRR half step twice. Jarrow-Rudd: deep calls are worth the discounted forward of the tree minus strike, and that forward falls with sigma.

* `C76_volatility` (Props_Trees.v): European and American prices of CRR and trinomial trees, calls and puts, do not decrease with the volatility as soon as the smaller volatility makes the weights probabilities. The same holds for TIAN trees as long as sigma^2 dt <= ln(3/2).
* `C76_jr_refuted` (Props_Trees.v): Jarrow-Rudd trees fail: for every number of steps and every pair of volatilities, a European call whose strike lies below all final prices of both trees is strictly cheaper with the larger volatility.
* `C76_tian_refuted` (Props_Trees.v): The bound on TIAN's steps is needed: one step of one year, spot 100, strike 80, no interest or carry: the put is worth something with volatility 60% and nothing with volatility 150%.

### C77 Tree prices against interest rate and carry

Model and method: PTreeVol.v, PTreeVol2.v: the same comparison for payoffs monotone in the spot (carry) and for payoffs whose ratio to the spot is monotone (dividend yield; this ratio is monotone for prices because they are homogeneous in spot and strike). Carried over to the American value in PAmer12.v (C66).

* `C77_interest` (Props_Trees.v): With the cost of carry held fixed, European and American prices of all four classes, calls and puts, do not increase with the interest rate.
* `C77_carry` (Props_Trees.v): With the interest rate held fixed, calls of all four classes do not decrease and puts do not increase with the cost of carry, European and American.
* `C77_yield` (Props_Trees.v): For an asset with dividend yield q (b = r - q) calls of all four classes do not decrease and puts do not increase with the interest rate, European and American, although future payments are discounted more.

### C78 Kirk prices against correlation and volatilities

Model and method: PKirk2.v: Kirk prices are Black prices in the variance of the ratio of the two legs (PKirk.v); the code's price is strictly increasing in it (C09), and the variance is a quadratic whose turning points are the stated thresholds.

* `C78_correlation` (Props_Spread.v): Kirk's call and put both fall strictly when the correlation of the two assets rises (positive volatilities); hence a market price determines the correlation.
* `C78_volatility` (Props_Spread.v): Let F be the share of asset 2 in the discounted exercise amount. Raising the volatility of asset 1 raises call and put when it is at least rho s2 F, and lowers both as long as it stays below that; likewise for asset 2 with s2 F against rho s1. In particular, with a correlation that is not positive both volatilities always raise the price.

### C79 Black-Scholes prices against interest, carry and maturity

Model and method: PRates.v: interest by homogeneity of the price. Carry and yield: the order of the trees (C77) in the limit (C34), then the accuracy of the distribution function (C04). Maturity: the European value equals the American value (C63), which grows with the horizon (C66).

* `C79_interest` (Props_Limits.v): With the cost of carry fixed, raising the interest rate multiplies the price by the additional discount factor: exactly, for calls and puts.
* `C79_carry` (Props_Limits.v): With the interest rate fixed, the call does not fall and the put does not rise with the cost of carry, up to the error 7.5e-8 of the distribution function times forward and strike values of both options; with the exact distribution function without any slack.
* `C79_yield` (Props_Limits.v): For a stock with dividend yield q (b = r - q), the call does not fall and the put does not rise with the interest rate, up to the error 7.5e-8 of the distribution function; with the exact distribution function without any slack.
* `C79_maturity` (Props_Limits.v): A European call with b >= r >= 0, and a European put with b <= r <= 0, do not fall when the time to maturity is extended, up to the error 7.5e-8 of the distribution function; with the exact distribution function without any slack.

### C80 Bjerksund-Stensland prices against the American and the European value

Model and method: `PBs2.v`: a function that is an exact Gaussian martingale below the trigger, pays what exercise pays there and at most the payoff at expiry lies below the Bermudan values on fine grids up to a vanishing overshoot, so below the American value (C63). `PBs3.v`: the formula of the code is such a function, written with the reflection of the log price at the trigger. The put follows from duality (C66). `SBs.v`, `PBs5.v`: the value of the strategy on a grid of dates, and both inequalities of the comparison. `PBs4.v`: the accuracy from C04 term by term; the finding from the slope of the distribution function between d2 and d1.

* `C80_call` (Props_Limits.v): With exact normal distribution functions the Bjerksund-Stensland call (b < r, b t + 2 sigma sqrt t > 0) is at most the American value, the common limit of American tree prices of all four classes: it is what exercising at the trigger, or at expiry, is worth.
* `C80_put` (Props_Limits.v): The same for the Bjerksund-Stensland put with r > 0 and b t < 2 sigma sqrt t.
* `C80_accuracy` (Props_Limits.v): The code's Bjerksund-Stensland call (b < r, b t + 2 sigma sqrt t > 0) and the same formula with the exact normal distribution function report the same trigger, agree from the trigger on, and below it differ by at most 7.5e-8 times the sum of the weights of the six terms of the formula.
* `C80_below_european_refuted` (Props_Limits.v): Finding: the American price can be below the European price. For every call on a futures contract (b = 0) with 0.001 <= sigma sqrt t <= 2/15 and 0 < r t <= 0.003 and spot K (1 + 2 sigma sqrt t), the code's Bjerksund-Stensland call is exactly S - K although the code's Black-Scholes call is worth more.
* `C80_strategy` (Props_Limits.v): With exact normal distribution functions the Bjerksund-Stensland call (b < r, b t + 2 sigma sqrt t > 0) is exactly what the following strategy is worth: exercise when the price first reaches the reported trigger, otherwise at expiry. Observing the price at m equally spaced dates, the strategy has a value for every m, and these values converge to the price as m grows.
* `C80_strategy_unique` (Props_Limits.v): The value of the strategy is determined by the payoff, the level, the market and the dates: two numbers satisfying its definition are equal.

### C81 Miltersen-Schwartz prices are discounted means

Model and method: `SMs.v` states the loadings of the futures price and of the bond, the integrals of their products, and the mean of the discounted payoff. `PMs2.v`: the closed forms of the code are these integrals (term by term antiderivatives); a Gaussian change of measure moves the discounting into the futures price; C04 for the distribution function.

* `C81_value` (Props_Limits.v): Call and put of MiltersenSchwartzOption are, up to the error of the distribution function, the means of the payoff of the futures price, discounted with the random interest accrued until expiry: for every pair of Gaussian variables (log futures price, accrued interest) with the variance and covariance of the three-factor model, for which the futures price is a martingale and the zero-coupon bond is worth Pt.
* `C81_black76` (Props_Limits.v): MiltersenSchwartzOption prices are Black76Option prices: of the futures price lowered by the covariance with interest, at the rate of the bond and the average volatility until expiry.
* `C81_model_exists` (Props_Limits.v): For every option with a positive variance the Gaussian variables of C81_value exist.

### C82 American options with a long maturity

Model and method: `american_value` (`SAmer.v`, the limit of tree prices by C63). `PPerp.v`: the claim paying a multiple of S^beta is a discounted martingale and lies above the payoff (Bernoulli), so it bounds every Bermudan value; from B on by comparing strikes (C66). Lower bound: the value of exercising at B (`PBs3.v`) as the maturity grows. Puts by duality. Bjerksund-Stensland: C44_perpetual. Barone-Adesi-Whaley (`PPerp2.v`): the stopping test confines the critical price to an interval that shrinks to B(1 -+ 10^-6), and the exponent tends to beta; puts likewise (`PPerp3.v`). That the search ends is a hypothesis here; C43_call_terminates and C43_put_terminates give conditions under which it does.

* `C82_call_bound` (Props_Limits.v): With b < r and r >= 0 the American call, the common limit of American tree prices, is for every maturity at most the perpetual call, (B - K) (S/B)^beta, below the exercise price B = beta/(beta-1) K, and from B on it is worth exactly S - K: exercising at once is right.
* `C82_call_limit` (Props_Limits.v): With b < r and r >= 0 the American call tends to the perpetual call as the maturity grows.
* `C82_put_bound` (Props_Limits.v): With r > 0 and b <= r (a stock or a futures contract) the American put is for every maturity at most the perpetual put, (K - B) (S/B)^gamma, above the exercise price B = gamma/(gamma-1) K, and up to B it is worth exactly K - S.
* `C82_put_limit` (Props_Limits.v): With r > 0 and b <= r the American put tends to the perpetual put as the maturity grows.
* `C82_bs_long` (Props_Limits.v): The code's Bjerksund-Stensland call (0 <= b < r) and the American value agree for long maturities: their difference tends to 0.
* `C82_bs_put_long` (Props_Limits.v): The same for the code's Bjerksund-Stensland put with b <= 0 and r > 0.
* `C82_baw_long` (Props_Limits.v): Whenever the search of the code's Barone-Adesi-Whaley call (0 <= b < r) ends, its price and the American value agree for long maturities up to the tolerance of the search: for every eps their difference is at most 10^-6 B + eps from some maturity on, where B = beta/(beta-1) K is the perpetual exercise price.
* `C82_baw_put_long` (Props_Limits.v): The same for puts with r > 0 and b <= r, a stock without dividends (b = r) included: whenever the search ends, the code's Barone-Adesi-Whaley put is within 10^-6 K + eps of the American value from some maturity on.


## How to read seeded/LOG.jsonl

Each line is one edit of the model tried in a scratch copy, with the affected proof files rebuilt. `failing_lemmas` is what the compiler reported: the first lemma whose proof broke in each file. `failed` lists the theorems that depend on such a lemma, computed from the names used in the proofs. These theorems no longer build; that alone does not show that their statements are false for the edited model, since a helper lemma may break first. `breaks` is the author's reading of which claim the edit falsifies. Where a statement was separately proved or refuted for the edited model, the field `checked` says so. Entries without `failing_lemmas` either survived, with the reason in `breaks`, or were recorded by hand.
