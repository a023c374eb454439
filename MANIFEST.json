{
 "claims": [
  {
   "property": "C01",
   "status": "proved",
   "theorems": [
    "C01_gbs_parity",
    "C01_no_sigma"
   ],
   "note": ""
  },
  {
   "property": "C02",
   "status": "proved",
   "theorems": [
    "C02_gbs_bounds"
   ],
   "note": ""
  },
  {
   "property": "C03",
   "status": "proved",
   "theorems": [
    "C03_cnd_distribution",
    "C03_ndf_gaussian"
   ],
   "note": ""
  },
  {
   "property": "C04",
   "status": "proved",
   "theorems": [
    "C04_cnd_accuracy",
    "C04_Phi_meaning"
   ],
   "note": ""
  },
  {
   "property": "C05",
   "status": "proved",
   "theorems": [
    "C05_black_scholes_equation"
   ],
   "note": ""
  },
  {
   "property": "C06",
   "status": "proved",
   "theorems": [
    "C06_greeks_are_derivatives",
    "C06_price_accuracy",
    "C06_greek_accuracy",
    "C06_rho_accuracy"
   ],
   "note": ""
  },
  {
   "property": "C07",
   "status": "proved",
   "theorems": [
    "C07_greek_relations",
    "C07_greek_signs",
    "C07_greeks_dict"
   ],
   "note": ""
  },
  {
   "property": "C08",
   "status": "proved",
   "theorems": [
    "C08_homogeneity",
    "C08_duality"
   ],
   "note": ""
  },
  {
   "property": "C09",
   "status": "proved",
   "theorems": [
    "C09_increasing_in_volatility",
    "C09_volatility_unique"
   ],
   "note": ""
  },
  {
   "property": "C10",
   "status": "proved",
   "theorems": [
    "C10_volatility_roundtrip",
    "C10_market_accuracy",
    "C10_bracket_changes_sign",
    "C10_volatility_succeeds",
    "C10_volatility_refuses",
    "C10_bracket_detects_unattainable_refuted"
   ],
   "note": "The bracket theorem and the refutation describe the finding: the solver bracket test passes for unattainable prices."
  },
  {
   "property": "C11",
   "status": "proved",
   "theorems": [
    "C11_strike_monotone",
    "C11_spot_monotone",
    "C11_exact_monotonicity_refuted"
   ],
   "note": "Stated up to the 1.1e-9 jump of the distribution function; exact claim refuted by C11_exact_monotonicity_refuted."
  },
  {
   "property": "C12",
   "status": "proved",
   "theorems": [
    "C12_black76_is_gbs",
    "C12_black76"
   ],
   "note": ""
  },
  {
   "property": "C13",
   "status": "proved",
   "theorems": [
    "C13_variance_is_integral",
    "C13_covariance_is_integral",
    "C13_variance_nonneg",
    "C13_parity_and_bounds",
    "C13_reduces_to_black76"
   ],
   "note": ""
  },
  {
   "property": "C14",
   "status": "proved",
   "theorems": [
    "C14_rebuild",
    "C14_last_write"
   ],
   "note": ""
  },
  {
   "property": "C15",
   "status": "proved",
   "theorems": [
    "C15_unknown_name"
   ],
   "note": ""
  },
  {
   "property": "C16",
   "status": "proved",
   "theorems": [
    "C16_atomic",
    "C16_recovery",
    "C16_refuted",
    "C16_not_rolled_back"
   ],
   "note": ""
  },
  {
   "property": "C17",
   "status": "proved",
   "theorems": [
    "C17_outcome",
    "C17_b_ignored",
    "C17_S_rejected",
    "C17_fdm_delta_gamma",
    "C17_black_scholes"
   ],
   "note": ""
  },
  {
   "property": "C18",
   "status": "proved",
   "theorems": [
    "C18_copy",
    "C18_independent"
   ],
   "note": ""
  },
  {
   "property": "C19",
   "status": "proved",
   "theorems": [
    "C19_volatility",
    "C19_greeks",
    "C19_price"
   ],
   "note": ""
  },
  {
   "property": "C20",
   "status": "proved",
   "theorems": [
    "C20_repr",
    "C20_order",
    "C20_round_trip",
    "C20_refuted_names",
    "C20_refuted_black76",
    "C20_refuted_alltypes"
   ],
   "note": ""
  },
  {
   "property": "C21",
   "status": "proved",
   "theorems": [
    "C21_total",
    "C21_lists_parameters",
    "C21_prices_shown",
    "C21_refuted_rgw",
    "C21_rgw"
   ],
   "note": ""
  },
  {
   "property": "C22",
   "status": "proved",
   "theorems": [
    "C22_binomial_sum",
    "C22_path_expectation"
   ],
   "note": ""
  },
  {
   "property": "C23",
   "status": "proved",
   "theorems": [
    "C23_optimal_stopping"
   ],
   "note": ""
  },
  {
   "property": "C24",
   "status": "proved",
   "theorems": [
    "C24_binomial_tree_layout",
    "C24_trinomial_tree_layout",
    "C24_binomial_entries_are_prices",
    "C24_trinomial_entries_are_prices"
   ],
   "note": ""
  },
  {
   "property": "C25",
   "status": "proved",
   "theorems": [
    "C25_lattice_parity",
    "C25_jr_parity_refuted"
   ],
   "note": ""
  },
  {
   "property": "C26",
   "status": "proved",
   "theorems": [
    "C26_american_dominates",
    "C26_upper_bounds",
    "C26_american_put_call"
   ],
   "note": ""
  },
  {
   "property": "C27",
   "status": "proved",
   "theorems": [
    "C27_no_early_exercise_call",
    "C27_no_early_exercise_put",
    "C27_jr_early_exercise_refuted"
   ],
   "note": ""
  },
  {
   "property": "C28",
   "status": "proved",
   "theorems": [
    "C28_homogeneous",
    "C28_duality"
   ],
   "note": ""
  },
  {
   "property": "C29",
   "status": "proved",
   "theorems": [
    "C29_strike_monotone",
    "C29_strike_lipschitz",
    "C29_jointly_convex",
    "C29_spot_monotone"
   ],
   "note": ""
  },
  {
   "property": "C30",
   "status": "proved",
   "theorems": [
    "C30_trinomial_is_two_binomial"
   ],
   "note": ""
  },
  {
   "property": "C31",
   "status": "proved",
   "theorems": [
    "C31_crr_probability",
    "C31_trinomial_probability",
    "C31_jr_tian_probability",
    "C31_negative_price_refuted"
   ],
   "note": ""
  },
  {
   "property": "C32",
   "status": "proved",
   "theorems": [
    "C32_unknown_type",
    "C32_zero_steps"
   ],
   "note": ""
  },
  {
   "property": "C33",
   "status": "proved",
   "theorems": [
    "C33_binomial_plot",
    "C33_trinomial_plot"
   ],
   "note": ""
  },
  {
   "property": "C34",
   "status": "proved",
   "theorems": [
    "C34_convergence",
    "C34_code"
   ],
   "note": ""
  },
  {
   "property": "C35",
   "status": "proved",
   "theorems": [
    "C35_european_expectation",
    "C35_american_optimal"
   ],
   "note": ""
  },
  {
   "property": "C36",
   "status": "proved",
   "theorems": [
    "C36_exchange_put",
    "C36_relative_is_product",
    "C36_relative_refuted",
    "C36_bad_code"
   ],
   "note": ""
  },
  {
   "property": "C37",
   "status": "proved",
   "theorems": [
    "C37_wrappers",
    "C37_dual_strike",
    "C37_max_plus_min",
    "C37_orderings",
    "C37_homogeneous",
    "C37_label_asymmetry_refuted"
   ],
   "note": ""
  },
  {
   "property": "C38",
   "status": "proved",
   "theorems": [
    "C38_layout",
    "C38_entries_are_prices"
   ],
   "note": ""
  },
  {
   "property": "C39",
   "status": "proved",
   "theorems": [
    "C39_parity",
    "C39_forwards_low",
    "C39_continuous_parity_refuted"
   ],
   "note": ""
  },
  {
   "property": "C40",
   "status": "proved",
   "theorems": [
    "C40_parity",
    "C40_bounds",
    "C40_variance",
    "C40_margrabe",
    "C40_single_asset",
    "C40_exchange_symmetry",
    "C40_homogeneous"
   ],
   "note": ""
  },
  {
   "property": "C41",
   "status": "proved",
   "theorems": [
    "C41_price",
    "C41_discounting_refuted",
    "C41_few_steps",
    "C41_volatility_refuted"
   ],
   "note": ""
  },
  {
   "property": "C42",
   "status": "proved",
   "theorems": [
    "C42_optimal_iff",
    "C42_not_optimal",
    "C42_search",
    "C42_large_dividend",
    "C42_formula",
    "C42_american_value",
    "C42_near_critical",
    "C42_bounds",
    "C42_unit"
   ],
   "note": ""
  },
  {
   "property": "C43",
   "status": "proved",
   "theorems": [
    "C43_carry",
    "C43_call_value",
    "C43_call_early_exercise",
    "C43_put_value",
    "C43_negative_refuted",
    "C43_call_dominates",
    "C43_put_dominates",
    "C43_call_terminates",
    "C43_put_terminates",
    "C43_zero_rate_refuted",
    "C43_scale"
   ],
   "note": ""
  },
  {
   "property": "C44",
   "status": "proved",
   "theorems": [
    "C44_carry",
    "C44_put_no_rate",
    "C44_put_dual",
    "C44_trigger",
    "C44_negative_refuted",
    "C44_trigger_continuity",
    "C44_value_matching",
    "C44_positive",
    "C44_homogeneous",
    "C44_trigger_maturity",
    "C44_perpetual",
    "C44_trigger_rate"
   ],
   "note": ""
  },
  {
   "property": "C45",
   "status": "proved",
   "theorems": [
    "C45_price",
    "C45_parity"
   ],
   "note": ""
  },
  {
   "property": "C46",
   "status": "proved",
   "theorems": [
    "C46_treatment",
    "C46_antithetic",
    "C46_log_contract",
    "C46_constant_refuted"
   ],
   "note": ""
  },
  {
   "property": "C47",
   "status": "proved",
   "theorems": [
    "C47_zero_volatility",
    "C47_single_step",
    "C47_asian_between",
    "C47_strikes",
    "C47_no_volatility",
    "C47_unbiased_one_step",
    "C47_unbiased",
    "C47_asian_forward"
   ],
   "note": ""
  },
  {
   "property": "C48",
   "status": "proved",
   "theorems": [
    "C48_shape",
    "C48_given_innovations",
    "C48_trace_refuted",
    "C48_infinite_refuted"
   ],
   "note": ""
  },
  {
   "property": "C49",
   "status": "proved",
   "theorems": [
    "C49_sample",
    "C49_infinite_refuted",
    "C49_silent"
   ],
   "note": ""
  },
  {
   "property": "C50",
   "status": "proved",
   "theorems": [
    "C50_integrand",
    "C50_price",
    "C50_strikes",
    "C50_black_scholes",
    "C50_martingale",
    "C50_float_days_refuted",
    "C50_missing"
   ],
   "note": ""
  },
  {
   "property": "C51",
   "status": "proved",
   "theorems": [
    "C51_parity",
    "C51_greeks",
    "C51_homogeneous"
   ],
   "note": ""
  },
  {
   "property": "C52",
   "status": "proved",
   "theorems": [
    "C52_stationary",
    "C52_simulation",
    "C52_round_trip",
    "C52_long_refuted",
    "C52_short"
   ],
   "note": ""
  },
  {
   "property": "C53",
   "status": "proved",
   "theorems": [
    "C53_symmetric_refuted",
    "C53_fit",
    "C53_fit_symmetric_refuted",
    "C53_minimum_refuted"
   ],
   "note": ""
  },
  {
   "property": "C54",
   "status": "proved",
   "theorems": [
    "C54_start",
    "C54_defaults",
    "C54_nan"
   ],
   "note": ""
  },
  {
   "property": "C55",
   "status": "proved",
   "theorems": [
    "C55_total_symmetric",
    "C55_marginals"
   ],
   "note": ""
  },
  {
   "property": "C56",
   "status": "proved",
   "theorems": [
    "C56_degenerate"
   ],
   "note": ""
  },
  {
   "property": "C57",
   "status": "proved",
   "theorems": [
    "C57_elementwise",
    "C57_greeks",
    "C57_rho_refuted",
    "C57_mismatch",
    "C57_miltersen",
    "C57_kirk",
    "C57_kirk_mismatch",
    "C57_american_rejects",
    "C57_black76"
   ],
   "note": ""
  },
  {
   "property": "C58",
   "status": "proved",
   "theorems": [
    "C58_objective",
    "C58_reprices",
    "C58_silent_refuted"
   ],
   "note": ""
  },
  {
   "property": "C59",
   "status": "proved",
   "theorems": [
    "C59_error",
    "C59_confidence",
    "C59_variance"
   ],
   "note": ""
  },
  {
   "property": "C60",
   "status": "proved",
   "theorems": [
    "C60_european_limit",
    "C60_forwards",
    "C60_exchange"
   ],
   "note": ""
  },
  {
   "property": "C61",
   "status": "proved",
   "theorems": [
    "C61_kirk",
    "C61_gbs",
    "C61_tree",
    "C61_monte_carlo"
   ],
   "note": ""
  },
  {
   "property": "C62",
   "status": "proved",
   "theorems": [
    "C62_asian_bounds"
   ],
   "note": ""
  },
  {
   "property": "C63",
   "status": "proved",
   "theorems": [
    "C63_american_limit",
    "C63_unique",
    "C63_bounds",
    "C63_no_early_exercise_call",
    "C63_no_early_exercise_put"
   ],
   "note": ""
  },
  {
   "property": "C64",
   "status": "proved",
   "theorems": [
    "C64_vanilla",
    "C64_miltersen_schwartz",
    "C64_american",
    "C64_trees",
    "C64_spreads"
   ],
   "note": ""
  },
  {
   "property": "C65",
   "status": "proved",
   "theorems": [
    "C65_american_limit",
    "C65_value_unique",
    "C65_bounds",
    "C65_no_early_exercise",
    "C65_exchange",
    "C65_any_dates",
    "C65_maturity"
   ],
   "note": ""
  },
  {
   "property": "C66",
   "status": "proved",
   "theorems": [
    "C66_any_dates",
    "C66_maturity",
    "C66_homogeneous",
    "C66_duality",
    "C66_strike",
    "C66_spot",
    "C66_convex",
    "C66_upper_bounds",
    "C66_put_call",
    "C66_volatility",
    "C66_rates"
   ],
   "note": ""
  },
  {
   "property": "C67",
   "status": "proved",
   "theorems": [
    "C67_carry",
    "C67_put",
    "C67_negative_rate_refuted",
    "C67_put_refuted"
   ],
   "note": ""
  },
  {
   "property": "C68",
   "status": "proved",
   "theorems": [
    "C68_american",
    "C68_strike",
    "C68_spot",
    "C68_rate",
    "C68_weights",
    "C68_two_asset",
    "C68_weights_ordinary"
   ],
   "note": ""
  },
  {
   "property": "C69",
   "status": "proved",
   "theorems": [
    "C69_parity"
   ],
   "note": ""
  },
  {
   "property": "C70",
   "status": "proved",
   "theorems": [
    "C70_distribution",
    "C70_price"
   ],
   "note": ""
  },
  {
   "property": "C71",
   "status": "proved",
   "theorems": [
    "C71_rate",
    "C71_every_n",
    "C71_code"
   ],
   "note": ""
  },
  {
   "property": "C72",
   "status": "proved",
   "theorems": [
    "C72_stability",
    "C72_models",
    "C72_total",
    "C72_trinomial",
    "C72_trinomial_total"
   ],
   "note": ""
  },
  {
   "property": "C73",
   "status": "proved",
   "theorems": [
    "C73_accuracy",
    "C73_rgw_formula",
    "C73_rgw_value",
    "C73_rgw_bounds"
   ],
   "note": ""
  },
  {
   "property": "C74",
   "status": "proved",
   "theorems": [
    "C74_lambda",
    "C74_greeks",
    "C74_no_effect",
    "C74_black76_refuted"
   ],
   "note": ""
  },
  {
   "property": "C75",
   "status": "proved",
   "theorems": [
    "C75_black_scholes",
    "C75_lattices",
    "C75_jr_refuted",
    "C75_tree_gamma_refuted",
    "C75_american_refuted"
   ],
   "note": ""
  },
  {
   "property": "C76",
   "status": "proved",
   "theorems": [
    "C76_volatility",
    "C76_jr_refuted",
    "C76_tian_refuted"
   ],
   "note": ""
  },
  {
   "property": "C77",
   "status": "proved",
   "theorems": [
    "C77_interest",
    "C77_carry",
    "C77_yield"
   ],
   "note": ""
  },
  {
   "property": "C78",
   "status": "proved",
   "theorems": [
    "C78_correlation",
    "C78_volatility"
   ],
   "note": ""
  },
  {
   "property": "C79",
   "status": "proved",
   "theorems": [
    "C79_interest",
    "C79_carry",
    "C79_yield",
    "C79_maturity"
   ],
   "note": ""
  },
  {
   "property": "C80",
   "status": "proved",
   "theorems": [
    "C80_call",
    "C80_put",
    "C80_accuracy",
    "C80_below_european_refuted",
    "C80_strategy",
    "C80_strategy_unique"
   ],
   "note": ""
  },
  {
   "property": "C81",
   "status": "proved",
   "theorems": [
    "C81_value",
    "C81_black76",
    "C81_model_exists"
   ],
   "note": ""
  },
  {
   "property": "C82",
   "status": "proved",
   "theorems": [
    "C82_call_bound",
    "C82_call_limit",
    "C82_put_bound",
    "C82_put_limit",
    "C82_bs_long",
    "C82_bs_put_long",
    "C82_baw_long",
    "C82_baw_put_long"
   ],
   "note": ""
  }
 ]
}