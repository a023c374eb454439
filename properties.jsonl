{"id": "C01", "title": "Put-call parity of the generalized Black-Scholes option", "statement": "GBSOption.call() - GBSOption.put() equals S*exp((b-r)t) - K*exp(-rt) exactly, although the normal distribution function used is only a polynomial approximation.", "quantifier": "all positive spot, strike, maturity, volatility and all real rates", "why_tests_cant": "A test checks finitely many parameter tuples up to a tolerance; parity is an identity over a continuum and depends on CND(x)+CND(-x)=1 holding exactly, including at x=0.", "anchors": ["src/finoptions/vanillaoptions.py:GBSOption.call", "src/finoptions/vanillaoptions.py:GBSOption.put", "src/finoptions/base.py:_Base._CND"]}
{"id": "C02", "title": "No-arbitrage bounds of the Black-Scholes prices", "statement": "Both GBS prices are strictly positive, the call is below S*exp((b-r)t), the put is below K*exp(-rt), and each is strictly above its discounted intrinsic value max(forward value, 0).", "quantifier": "all positive spot, strike, maturity, volatility and all real rates", "why_tests_cant": "The approximate distribution function could undershoot in the far tails where tests do not look; the claim is for every moneyness.", "anchors": ["src/finoptions/vanillaoptions.py:GBSOption.call", "src/finoptions/vanillaoptions.py:GBSOption.put", "src/finoptions/base.py:_Base._CND"]}
{"id": "C03", "title": "The approximate normal distribution is a genuine distribution function", "statement": "The cumulative normal used by every closed form lies strictly between 0 and 1, is strictly increasing, equals 1/2 at 0, satisfies F(x)+F(-x)=1 and tends to 0 and 1 at the infinities.", "quantifier": "all real x (and pairs x<y)", "why_tests_cant": "Monotonicity of a degree-five polynomial times a Gaussian over the whole real line, with a jump at 0, cannot be sampled.", "anchors": ["src/finoptions/base.py:_Base._CND", "src/finoptions/base.py:_Base._NDF"]}
{"id": "C04", "title": "Accuracy of the normal distribution function", "statement": "The cumulative normal used by the library differs from the true Gaussian integral by at most 7.5e-8 everywhere.", "quantifier": "all real x", "why_tests_cant": "A test can only compare on a grid with another approximation.", "anchors": ["src/finoptions/base.py:_Base._CND"]}
{"id": "C05", "title": "Closed-form Greeks satisfy the Black-Scholes equation", "statement": "For calls and puts, theta + b*S*delta + (1/2)*sigma^2*S^2*gamma = r*price with the analytic Greeks that the object returns.", "quantifier": "all positive spot, strike, maturity, volatility and all real rates", "why_tests_cant": "An identity between five methods over a six-dimensional continuum.", "anchors": ["src/finoptions/vanillaoptions.py:GBSOption.theta", "src/finoptions/vanillaoptions.py:GBSOption.delta", "src/finoptions/vanillaoptions.py:GBSOption.gamma"]}
{"id": "C06", "title": "Closed-form Greeks are the derivatives of the price", "statement": "With the exact normal distribution in place of the approximation, delta, gamma, vega, theta, rho and cost-of-carry sensitivity returned analytically are the partial derivatives of the price with respect to S, S twice, sigma, -t, r (b moving with r when b is not 0, b fixed at 0 otherwise) and b. The values actually returned (with the approximate distribution) differ from these by at most 7.5e-8 times explicit discounted amounts, delta, theta, rho and cost of carry included.", "quantifier": "all positive spot, strike, maturity, volatility and all real rates", "why_tests_cant": "Finite differences in tests only approximate derivatives at sample points, and mask sign or factor errors that vanish there.", "anchors": ["src/finoptions/vanillaoptions.py:GBSOption.delta", "src/finoptions/vanillaoptions.py:GBSOption.theta", "src/finoptions/vanillaoptions.py:GBSOption.vega", "src/finoptions/vanillaoptions.py:GBSOption.rho", "src/finoptions/vanillaoptions.py:GBSOption.gamma", "src/finoptions/vanillaoptions.py:GBSOption.c_of_c"]}
{"id": "C07", "title": "Algebraic relations between the Greeks", "statement": "delta(call)-delta(put)=exp((b-r)t); vega = gamma*S^2*sigma*t; c_of_c(call) = t*S*delta(call), c_of_c(put) = t*S*delta(put); theta(call)-theta(put) and rho(call)-rho(put) equal the derivatives of the forward value; lambda = delta*S/price.", "quantifier": "all positive spot, strike, maturity, volatility and all real rates", "why_tests_cant": "Relations between methods for all inputs.", "anchors": ["src/finoptions/vanillaoptions.py:GBSOption"]}
{"id": "C08", "title": "Homogeneity and put-call duality", "statement": "Scaling S and K by c>0 scales call and put by c; the call with (S,K,t,r,b) equals the put with spot and strike exchanged, r replaced by r-b and b by -b.", "quantifier": "all positive spot, strike, maturity, volatility and all real rates; all c>0", "why_tests_cant": "Identities over a continuum; duality is what the Bjerksund-Stensland put relies on.", "anchors": ["src/finoptions/vanillaoptions.py:GBSOption", "src/finoptions/basic_american_options/__init__.py:BSAmericanApproxOption.put"]}
{"id": "C09", "title": "Implied volatility is unique", "statement": "Call and put prices are strictly increasing in sigma on sigma>0, so at most one positive volatility reproduces a given price; the price recovers the volatility it was built with.", "quantifier": "all positive S,K,t, real r,b and all pairs of positive volatilities", "why_tests_cant": "Strict monotonicity with an approximate, discontinuous distribution function needs a proof for all sigma.", "anchors": ["src/finoptions/vanillaoptions.py:GBSOption.volatility", "src/finoptions/base.py:Option._volatility", "src/finoptions/vanillaoptions.py:GBSOption.call"]}
{"id": "C10", "title": "Implied volatility search", "statement": "If volatility(price) returns for a price the option attains at a positive volatility, with any bracketing root finder of tolerance tol, the result is within tol of that volatility. For every price between 0 and the price at volatility 10 the objective has opposite signs at the ends of the bracket [-10,10], so a root finder can start and volatility() returns; prices above the one at volatility 10 are refused. Finding: the sign test also passes for prices that no volatility attains, so it does not detect arbitrage quotes. For a quote computed with the exact normal distribution at volatility s0, the result is within tol plus delta of s0 whenever delta times a lower bound of vega around s0 exceeds the price error 7.5e-8 (S e^((b-r)t) + K e^(-rt)).", "quantifier": "all positive S,K,t, real r,b, all quoted prices, all bracketing root finders", "why_tests_cant": "The failure is about all prices in a gap, a quantified non-existence statement.", "anchors": ["src/finoptions/base.py:Option._volatility", "src/finoptions/base.py:Option._func"]}
{"id": "C11", "title": "Monotonicity in strike and spot", "statement": "The call price is strictly decreasing and the put price strictly increasing in K; the call is strictly increasing and the put strictly decreasing in S; slopes in K are bounded by the discount factor. All of this holds up to the jump of the approximate distribution function at 0 (about 1.1e-9 relative to the forward value); the exact strict claim is refuted (finding).", "quantifier": "all positive spot, strike, maturity, volatility and all real rates; all pairs of strikes / spots", "why_tests_cant": "Two-point inequalities for all pairs, with approximate distribution function.", "anchors": ["src/finoptions/vanillaoptions.py:GBSOption.call", "src/finoptions/vanillaoptions.py:GBSOption.put"]}
{"id": "C12", "title": "Black76Option is the zero carry GBS option", "statement": "Every price and Greek of Black76Option(FT,K,t,r,sigma) is the one of GBSOption with S=FT, b=0; parity reads call-put=exp(-rt)(FT-K).", "quantifier": "all parameters", "why_tests_cant": "Equality of objects' behaviours for all inputs.", "anchors": ["src/finoptions/vanillaoptions.py:Black76Option"]}
{"id": "C13", "title": "Miltersen-Schwartz parity and variance", "statement": "call - put = Pt*(FT*exp(-v_xz) - K); the variance used equals the integral over the option life of the instantaneous variance of the futures price, hence is nonnegative for every admissible correlation matrix, and v_xz is the integrated covariance.", "quantifier": "all positive parameters with admissible correlations", "why_tests_cant": "Closed-form coefficients of integrals with many terms; sampling cannot confirm them for all mean reversion speeds.", "anchors": ["src/finoptions/vanillaoptions.py:MiltersenSchwartzOption"]}
{"id": "C14", "title": "Parameter updates: last write wins", "statement": "After any sequence of successful set_param calls get_params returns, for each name, the last value written or the constructor value; and the object prices like one freshly constructed with these parameters.", "quantifier": "all option classes following the base protocol, all histories of updates", "why_tests_cant": "Histories are unbounded.", "anchors": ["src/finoptions/base.py:Option.set_param", "src/finoptions/base.py:Option.get_params"]}
{"id": "C15", "title": "Unknown parameter names are rejected without effect", "statement": "set_param with a name that is not a parameter of the class raises TypeError and leaves the object unchanged.", "quantifier": "all names, all states", "why_tests_cant": "All strings cannot be tried.", "anchors": ["src/finoptions/base.py:Option.set_param"]}
{"id": "C16", "title": "A failed update leaves the option unchanged", "statement": "If set_param raises, the option still prices as before. (finding: violated when the constructor fails half way, e.g. strike 0 with Python floats: fields are overwritten, cached d1, d2 are stale. In every class a rejected value of a known parameter is what get_params returns afterwards. A later successful update always makes the object consistent again.)", "quantifier": "all states and updates", "why_tests_cant": "Exception paths after partial mutation.", "anchors": ["src/finoptions/base.py:Option.set_param", "src/finoptions/vanillaoptions.py:GBSOption.__init__"]}
{"id": "C17", "title": "Black76 parameter protocol", "statement": "For Black76Option, set_param on FT,K,t,r,sigma behaves like reconstruction; set_param('b',v) has no effect on any later observation and set_param('S',v) raises TypeError. Prices are those of the zero-carry Black-Scholes option. (finding: therefore finite-difference delta and gamma always raise TypeError.)", "quantifier": "all states and values", "why_tests_cant": "All values / states.", "anchors": ["src/finoptions/vanillaoptions.py:Black76Option.set_param"]}
{"id": "C18", "title": "Copies are independent and sensitivities do not modify the option", "statement": "copy() shares nothing with the original: any sequence of updates of one never changes what the other returns; computing finite-difference Greeks never changes the option's parameters or prices.", "quantifier": "all heaps, all update histories on either object", "why_tests_cant": "Aliasing over all histories.", "anchors": ["src/finoptions/base.py:Derivative.copy", "src/finoptions/base.py:GreeksFDM._make_partial_der"]}
{"id": "C19", "title": "Finite-difference Greeks differentiate the right function", "statement": "The function handed to the numerical differentiator for a parameter is x -> price of a fresh option whose other parameters are the current ones and whose named parameter is x; at the current value it is the price of the option itself (its number, when the class prices with a dictionary).", "quantifier": "all states, parameters, x", "why_tests_cant": "Function equality on all x.", "anchors": ["src/finoptions/base.py:GreeksFDM._make_partial_der"]}
{"id": "C20", "title": "repr shows constructor arguments in order", "statement": "repr(option) lists the parameter values in the order in which the constructor takes them, prefixed with the class name. (finding: violated by TIAN, BionomialSpreadOption, Black76Option, BionomialSpreadAllTypes.)", "quantifier": "all parameter values", "why_tests_cant": "All values; order property for each class.", "anchors": ["src/finoptions/base.py:Option.__repr__", "src/finoptions/binomial_tree_options/__init__.py:TIANBinomialTreeOption", "src/finoptions/vanillaoptions.py:Black76Option.get_params", "src/finoptions/spread_options/bitree3d.py"]}
{"id": "C21", "title": "summary never fails and always lists all parameters", "statement": "summary() reports every parameter; a pricing failure in call or put is swallowed rather than raised. (finding: RollGeskeWhaleyOption.summary() raises when the optimality test cannot be evaluated, e.g. strike None.)", "quantifier": "all objects incl. those whose pricing raises", "why_tests_cant": "All exception sources.", "anchors": ["src/finoptions/base.py:Option.summary"]}
{"id": "C22", "title": "European binomial trees price the discounted binomial expectation", "statement": "For n steps the European price from the backward in-place sweep equals exp(-r t) * sum_i C(n,i) p^i (1-p)^(n-i) payoff(S u^i d^(n-i)).", "quantifier": "all n>=1, all parameters, CRR/JR/TIAN", "why_tests_cant": "All n: a loop invariant.", "anchors": ["src/finoptions/binomial_tree_options/__init__.py:CRRBinomialTreeOption._euro", "src/finoptions/binomial_tree_options/__init__.py:CRRBinomialTreeOption._calc_price"]}
{"id": "C23", "title": "American trees solve the optimal stopping problem", "statement": "The American price of each tree class equals the largest expected discounted payoff over all exercise policies (functions of the history of moves), and some policy attains it.", "quantifier": "all n>=1, all parameters with probabilities in [0,1], all history-dependent policies; CRR, JR, TIAN, trinomial", "why_tests_cant": "Quantifies over all stopping rules.", "anchors": ["src/finoptions/binomial_tree_options/__init__.py:CRRBinomialTreeOption._amer"]}
{"id": "C24", "title": "Returned tree matrices have the documented layout", "statement": "call(tree=True) of a binomial tree is an (n+1)x(n+1) matrix whose entry (i,c) with i<=c is the option value at time c after c-i up moves, 0 below the diagonal; of the trinomial tree a (2n+1)x(n+1) matrix with the value of node y at time c in row n-y and 0 elsewhere. Values obey the backward recursion, the root entry is call(), and every inner entry is the price the same class gives for the remaining lattice started at that node's spot. The layout holds for any arithmetic, floating point included.", "quantifier": "all n>=1, all nodes, all arithmetics (entries as prices: real numbers)", "why_tests_cant": "Index arithmetic of reverse/reshape/transpose for all n.", "anchors": ["src/finoptions/binomial_tree_options/__init__.py:CRRBinomialTreeOption._euro", "src/finoptions/binomial_tree_options/__init__.py:CRRBinomialTreeOption._amer", "src/finoptions/binomial_tree_options/__init__.py:TrinomialTreeOption._reshape"]}
{"id": "C25", "title": "Put-call parity on lattices", "statement": "European CRR, TIAN and trinomial prices satisfy call-put = S e^{(b-r)t} - K e^{-rt} exactly for every n; JR does not (finding: strictly below for every n and sigma>0).", "quantifier": "all n>=1, all parameters with sigma>0, t>0", "why_tests_cant": "For all n.", "anchors": ["src/finoptions/binomial_tree_options/__init__.py:CRRBinomialTreeOption", "src/finoptions/binomial_tree_options/__init__.py:JRBinomialTreeOption", "src/finoptions/binomial_tree_options/__init__.py:TIANBinomialTreeOption", "src/finoptions/binomial_tree_options/__init__.py:TrinomialTreeOption"]}
{"id": "C26", "title": "American against European prices, intrinsic value and upper bounds", "statement": "When the weights are probabilities the American tree price is at least the European one, which is nonnegative, and at least the immediate exercise value. Calls with b<=r are worth at most the spot, puts with r>=0 at most the strike. With b=r>=0 the American call minus put lies between S-K and S-K exp(-rt).", "quantifier": "all n, parameters with weights in [0,1]; all tree classes", "why_tests_cant": "For all n.", "anchors": ["src/finoptions/binomial_tree_options/__init__.py:CRRBinomialTreeOption._amer", "src/finoptions/binomial_tree_options/__init__.py:TrinomialTreeOption._amer"]}
{"id": "C27", "title": "No early exercise of calls when carry covers interest", "statement": "If b>=r>=0, the American CRR/TIAN/trinomial call equals the European one. (finding: not so for JR, whose one-step forward factor is below exp(b*dt).)", "quantifier": "all n and parameters with p in [0,1]", "why_tests_cant": "For all n.", "anchors": ["src/finoptions/binomial_tree_options/__init__.py:CRRBinomialTreeOption", "src/finoptions/binomial_tree_options/__init__.py:TrinomialTreeOption"]}
{"id": "C28", "title": "Lattice homogeneity and duality", "statement": "Scaling S and K by c>0 scales tree prices by c in every class. CRR and trinomial calls equal puts with S and K exchanged, r-b for r and -b for b, European and American alike.", "quantifier": "all n, c>0, parameters", "why_tests_cant": "For all n, through a change of measure on the tree.", "anchors": ["src/finoptions/binomial_tree_options/__init__.py:CRRBinomialTreeOption", "src/finoptions/binomial_tree_options/__init__.py:TrinomialTreeOption"]}
{"id": "C29", "title": "Lattice prices are monotone, convex and Lipschitz", "statement": "Calls do not increase and puts do not decrease with the strike, the change is at most exp(-rt) times the change of strike (European) or the change of strike (American, r>=0). Prices are jointly convex in spot and strike, calls do not decrease and puts do not increase with the spot.", "quantifier": "all n, all strikes and spots, weights in [0,1]; European and American", "why_tests_cant": "Two- and three-point inequalities for all n.", "anchors": ["src/finoptions/binomial_tree_options/__init__.py"]}
{"id": "C30", "title": "A trinomial step is two binomial steps", "statement": "European TrinomialTreeOption with n steps equals European CRRBinomialTreeOption with 2n steps exactly; American trinomial is at most American CRR with 2n steps.", "quantifier": "all n>=1, all parameters with sigma,t>0", "why_tests_cant": "For all n.", "anchors": ["src/finoptions/binomial_tree_options/__init__.py:TrinomialTreeOption._calc_price", "src/finoptions/binomial_tree_options/__init__.py:CRRBinomialTreeOption._calc_price"]}
{"id": "C31", "title": "When lattice probabilities are probabilities", "statement": "CRR's p lies in [0,1] iff |b| sqrt(dt) <= sigma; trinomial weights are nonnegative and sum to 1 under the analogous condition on dt/2; TIAN's u>d>0; outside the range prices can be negative (finding).", "quantifier": "all parameters", "why_tests_cant": "Iff over a continuum.", "anchors": ["src/finoptions/binomial_tree_options/__init__.py"]}
{"id": "C32", "title": "Unknown option type", "statement": "A type other than european/american: CRR/JR/TIAN raise UnboundLocalError, TrinomialTreeOption silently returns the terminal payoff of the lowest node, 3D trees silently price European (finding).", "quantifier": "all type strings other than the two (for 3D: other than american), all parameters", "why_tests_cant": "All strings.", "anchors": ["src/finoptions/binomial_tree_options/__init__.py", "src/finoptions/spread_options/bitree3d.py"]}
{"id": "C33", "title": "Tree plots annotate the right node", "statement": "Every annotated point (x,y) of BiTreePlotter / TriTreePlotter shows the option value at time x at the node at height y, and lookups never go out of range or hit the zero padding.", "quantifier": "all n>=1, all trees", "why_tests_cant": "All n: index arithmetic.", "anchors": ["src/finoptions/binomial_tree_options/__init__.py:BiTreePlotter", "src/finoptions/binomial_tree_options/__init__.py:TriTreePlotter"]}
{"id": "C34", "title": "Tree prices converge to Black-Scholes", "statement": "As the number of steps grows the European price of every tree class (CRR, JR, TIAN, trinomial) tends to the Black-Scholes price with the exact normal distribution; hence it ends up within the accuracy of GBSOption's own price.", "quantifier": "all positive S,K,t,sigma, real r,b", "why_tests_cant": "A limit.", "anchors": ["src/finoptions/binomial_tree_options/__init__.py:CRRBinomialTreeOption", "src/finoptions/vanillaoptions.py:GBSOption"]}
{"id": "C35", "title": "Two-asset tree prices are expectations and optimal stopping values", "statement": "The European price of the two-asset tree is the discounted expectation of the documented payoff over the 4^n equally likely paths of the two assets; the American price is the best value over all exercise policies that see the history of moves, and is attained. The in-place sweep of the code corrupts no value.", "quantifier": "all n>=1, codes 1-6 and 9 and the exchange call, all parameters, all policies", "why_tests_cant": "In-place update order for all n.", "anchors": ["src/finoptions/spread_options/bitree3d.py:BionomialSpreadAllTypes._calc_price"]}
{"id": "C36", "title": "Two-asset payoffs follow the documentation", "statement": "Codes 1-6, 9 and the exchange option's call price the documented payoff (C35). Findings: the exchange option's put prices the opposite exchange; the relative option (8) divides by Q2 but multiplies by the second asset, hence is a product option, contradicting the documentation. Codes outside 1-9 and missing strikes raise TypeError in any arithmetic.", "quantifier": "all prices, weights, strikes, both calls and puts", "why_tests_cant": "Continuum.", "anchors": ["src/finoptions/spread_options/bitree3d.py:BionomialSpreadAllTypes._payoff"]}
{"id": "C37", "title": "Two-asset wrappers and identities between payoffs", "statement": "BionomialSpreadOption, BionomialMaxOption and BionomialMinOption price and fail exactly as BionomialSpreadAllTypes with codes 1, 2, 3. A dual-strike option with equal strikes is the option on the maximum (call) or minimum (put); options on maximum and minimum add up to the two single-asset options; prices are nonnegative, American at least European and at least intrinsic, calls on the minimum at most calls on the maximum; codes 1-7 are homogeneous in spots and strikes. Finding: exchanging the names of the two assets changes prices.", "quantifier": "all parameters and n; wrappers in any arithmetic", "why_tests_cant": "For all n.", "anchors": ["src/finoptions/spread_options/bitree3d.py"]}
{"id": "C38", "title": "Two-asset tree matrix", "statement": "call(tree=True) of the two-asset tree is an (n+2)x(n+2) matrix whose last row and column are zero and whose entry (0,0) is the price. Entry (j,i) with c=max(j,i)<n is the price of the same option started at the node with j up-moves of asset 1 and i of the second driver after c steps, with the remaining n-c steps and time.", "quantifier": "all n>=1, all nodes; layout in any arithmetic", "why_tests_cant": "Index arithmetic for all n.", "anchors": ["src/finoptions/spread_options/bitree3d.py:BionomialSpreadAllTypes._calc_price"]}
{"id": "C39", "title": "Parity of the two-asset tree", "statement": "European spread call minus put equals the discounted difference of the lattice's own forward prices minus the strike, given in closed form. Both lattice forwards are strictly below S exp(bt) when volatility is not zero. Finding: parity with the continuous-time forwards therefore fails for every number of steps.", "quantifier": "all n, all parameters", "why_tests_cant": "For all n.", "anchors": ["src/finoptions/spread_options/bitree3d.py"]}
{"id": "C40", "title": "Kirk's approximation", "statement": "call - put = Q1 S1 e^{(b1-r)t} - Q2 S2 e^{(b2-r)t} - K e^{-rt}; prices lie strictly between their no-arbitrage bounds; the variance is nonnegative for |rho|<=1; strike 0 gives exactly the GBSOption price of the exchange (Margrabe), Q2=0 the single-asset GBSOption price; with strike 0 the call is the put with the assets exchanged; prices are homogeneous in spots and strike.", "quantifier": "all positive parameters, K>=0, |rho|<=1 (bounds: |rho|<1)", "why_tests_cant": "Continuum.", "anchors": ["src/finoptions/spread_options/spreadapprox.py"]}
{"id": "C41", "title": "TrinomialSpreadOption discounting and volatility", "statement": "The call is the expectation over all 9^n paths with weights 1/6, 4/6, 1/6 per asset and step of max(0,S1-S2-K), whatever the type argument says. Findings: the discount factor is exp(n b - r t) instead of exp(-rt); each step has variance 4 sigma^2 dt, twice the volatility asked for; one step raises IndexError and none ZeroDivisionError.", "quantifier": "all n, all parameters", "why_tests_cant": "For all n.", "anchors": ["src/finoptions/spread_options/tree_spread.py"]}
{"id": "C42", "title": "Roll-Geske-Whaley", "statement": "is_call_optimal() is True exactly when at some stock price exercising just before the dividend beats holding the remaining Black-Scholes call. If it is False, call() is the Black-Scholes call on S - D e^{-r td}. If it is True both search loops terminate for all inputs: either with ValueError (only for spots above 1e8 or a critical price above 0.5e8), or with a critical price bracketed to 1e-5 (or at which holding and exercising agree to 1e-5), and call() is the Roll-Geske-Whaley formula with that critical price. With exact normal distribution functions that formula is, at the critical price, the value of the American call: the discounted mean of the better of exercising just before the dividend and holding on; if holding and exercising agree to within eps at the price used instead, the formula is lower by at most the discounted eps. It is at least the European call on the stock net of the dividend, at least what always exercising just before the dividend makes, and at most the stock net of the dividend when D <= K. Changing the unit of money leaves is_call_optimal() unchanged and, if it is False, scales the price. Findings: for D > K there is no critical price but no error is raised; every option with is_call_optimal() True raises ValueError once the unit makes the spot exceed 1e8.", "quantifier": "all positive parameters, td < t", "why_tests_cant": "Loop termination for all inputs; existence over all stock prices.", "anchors": ["src/finoptions/basic_american_options/__init__.py:RollGeskeWhaleyOption.call"]}
{"id": "C43", "title": "Barone-Adesi-Whaley", "statement": "Call with b>=r equals Black-Scholes. Otherwise, whatever the number of iterations, if the search ends then one critical price serves all spots: the price is exactly intrinsic beyond it, strictly above the Black-Scholes price before it, the two pieces meet within 1e-6*K and their slopes agree (smooth pasting); likewise for the put. With r > 0 (and b t + 2 sigma sqrt t >= 0 for the call) the price is at least the exercise value, at least the Black-Scholes price and at most the spot (strike for the put), up to 1e-6*K and the error of the distribution function. The searches end, and every price exists, under conditions checked at one spot (C43_call_terminates, C43_put_terminates). Scaling spot and strike scales the prices, for the same number of iterations. Findings: with a strongly negative cost of carry, b t + 2 sigma sqrt t < 0, the call search can start at a negative price, and then call() returns S - K for every spot, negative for an out-of-the-money call; with r = 0 the put is nan (or below the European value).", "quantifier": "all positive parameters, all iteration budgets, r nonzero", "why_tests_cant": "Loop exit conditions; all spots.", "anchors": ["src/finoptions/basic_american_options/__init__.py:BAWAmericanApproxOption"]}
{"id": "C44", "title": "Bjerksund-Stensland", "statement": "Call with b>=r is Black-Scholes; put is the dual call (Black-Scholes put if r<=0); the trigger does not depend on the spot and, if b t + 2 sigma sqrt t > 0, lies between max(K, r/(r-b) K) and the perpetual exercise price; for 0 <= b < r it rises with the maturity, starts at max(K, r/(r-b) K) growing like 2 sigma sqrt t times that price, and tends to the perpetual exercise price (exponentially, with an explicit rate proportional to b), while the price tends to the value of the perpetual American call; from the trigger on the price is S-K, at the trigger the price is continuous, and with the exact normal distribution the price is positive for every spot; the price is homogeneous in (S,K). Finding: if b t + 2 sigma sqrt t < 0 (e.g. a put with b = r > 2 sigma/sqrt t) the price is negative on an interval of strikes.", "quantifier": "all positive parameters", "why_tests_cant": "Continuum; limits; all spots.", "anchors": ["src/finoptions/basic_american_options/__init__.py:BSAmericanApproxOption"]}
{"id": "C45", "title": "Monte Carlo price and parity per loop", "statement": "call() and put() return, loop by loop, the average over the paths of the discounted payoff of the geometric Brownian motion (or its time average) driven by the drawn innovations; with common innovations each loop's call minus put equals exp(-rt)*(mean underlying - K).", "quantifier": "all samplers, draws, numbers of loops/paths/steps, real parameters, both built-in payoffs, any variance reduction flags", "why_tests_cant": "All random draws.", "anchors": ["src/finoptions/monte_carlo_options/__init__.py", "src/finoptions/monte_carlo_options/mc_payoffs.py"]}
{"id": "C46", "title": "Antithetic and standardized innovations", "statement": "Whatever Path and Payoff classes are used, antithetic prices are the average of the prices from the innovations and from their negatives; standardization shifts and scales the innovations to average 0 and average square 1; either makes a log contract exact in every loop (finding: constant samples give nan).", "quantifier": "all samplers and innovation matrices (not all entries equal for standardization)", "why_tests_cant": "All draws.", "anchors": ["src/finoptions/monte_carlo_options/__init__.py:MonteCarloOption._sim_mc"]}
{"id": "C47", "title": "Monte Carlo estimator sanity", "statement": "Zero volatility reproduces the discounted forward payoff exactly; an Asian option with one step equals the vanilla option; the Asian estimate lies between pricing at the worst and best time of each path; estimates respect Jensen bounds, are monotone and convex in the strike; the vanilla estimator is unbiased: for every number of paths and steps, with or without antithetic innovations, its mean over independent standard normal innovations is the Black-Scholes price; the mean of Asian call minus put is the discounted average forward minus strike; a missing sigma raises TypeError.", "quantifier": "all samplers, draws, sizes and parameters", "why_tests_cant": "Over all draws and a continuum of parameters; unbiasedness is an integral over all innovations.", "anchors": ["src/finoptions/monte_carlo_options/mc_paths.py", "src/finoptions/monte_carlo_options/mc_payoffs.py"]}
{"id": "C48", "title": "Monte Carlo output shape and trace", "statement": "call() and put() return one price per loop (mc_loops many), equal prices if the innovations are given (findings: an infinite loop mean makes them return a debugging triple instead, or raise under trace; the trace prints the grand total over i+1 rather than the running average).", "quantifier": "all mc_loops, samplers, draws", "why_tests_cant": "All lengths.", "anchors": ["src/finoptions/monte_carlo_options/__init__.py:MonteCarloOption._print_trace", "src/finoptions/monte_carlo_options/__init__.py:MonteCarloOption._sim_mc"]}
{"id": "C49", "title": "Sobol innovations never contain infinities", "statement": "The sampler returns the first draw its retry guard accepts (finding: the guard looks at the maximum only, so -inf survives whenever not all points are 0, and such paths silently count as worthless).", "quantifier": "all quasi-random matrices with points in [0,1), any quantile function with -inf at 0 only", "why_tests_cant": "All draws.", "anchors": ["src/finoptions/monte_carlo_options/mc_innovations.py:NormalSobolInnovations.sample_innovation"]}
{"id": "C50", "title": "Heston-Nandi price", "statement": "For a whole number of days t >= 1 the function integrated for the price is, at every frequency, the mean over the risk-neutral GARCH process started at its stationary variance of P^c sin(phi ln(P/K))/(phi pi); under that process the mean terminal price is S e^(rt). With an exact integrator call() and put() are therefore the discounted mean payoffs under the process, so they obey the no-arbitrage bounds, are monotone and convex in the strike, and for alpha = 0 equal the Black-Scholes price with daily variance omega/(1-beta). A float number of days (as in the documentation) or a missing parameter makes every price and Greek raise TypeError.", "quantifier": "all positive spots and strikes, all stationary parameter sets, all horizons, all frequencies, c in [0,1]", "why_tests_cant": "A claim about an expectation over an n-day process for every n; tests only compare one price.", "anchors": ["src/finoptions/heston_nandi_options/__init__.py:HestonNandiOption._fHN", "src/finoptions/heston_nandi_options/__init__.py:HestonNandiOption.call"]}
{"id": "C51", "title": "Heston-Nandi parity, Greeks and scaling", "statement": "Call minus put is S - K e^(-rt) and call delta minus put delta is 1 whatever the numerical integrator returns; with a fixed quadrature rule delta is the derivative of the price with respect to S and gamma that of delta; scaling S and K scales prices and leaves delta unchanged.", "quantifier": "all options, all integrators (parity); all fixed rules (Greeks); all linear integrators (scaling)", "why_tests_cant": "Derivatives and every integrator.", "anchors": ["src/finoptions/heston_nandi_options/__init__.py:HestonNandiOption.call", "src/finoptions/heston_nandi_options/__init__.py:HestonNandiOption.put", "src/finoptions/heston_nandi_options/__init__.py:HestonNandiOption.delta", "src/finoptions/heston_nandi_options/__init__.py:HestonNandiOption.gamma"]}
{"id": "C52", "title": "GARCH simulation", "statement": "A simulated series is the return series of the Heston-Nandi process driven by the innovations, started at its stationary variance, with the burn-in dropped; the likelihood function recovers innovations, variances and the log likelihood from it. Too few innovations raise IndexError; too many are returned unprocessed at the end of the series (finding).", "quantifier": "all innovations, lengths, burn-ins, stationary parameters", "why_tests_cant": "All lengths and all parameters.", "anchors": ["src/finoptions/heston_nandi_options/__init__.py:hngarch_sim", "src/finoptions/heston_nandi_options/__init__.py:_llhHNGarch"]}
{"id": "C53", "title": "GARCH fit", "statement": "A fit reports parameters in (0,1), the stationary variance and persistence of those parameters, and the innovations and variances of the process that produces the data under them. Findings: symmetric=True leaves the leverage parameter in the likelihood and reports results inconsistent with it; the reported minimum differs from the log likelihood by n sqrt(2 pi).", "quantifier": "all series, all minimisers", "why_tests_cant": "Holds for every minimiser; tests run one.", "anchors": ["src/finoptions/heston_nandi_options/__init__.py:_llhHNGarch", "src/finoptions/heston_nandi_options/__init__.py:hngarch_fit"]}
{"id": "C54", "title": "GARCH start values", "statement": "The transformation of the parameters to the line is undone exactly, so the first reported value is minus the log likelihood at the given start parameters; without omega and alpha the fit starts from the variance of the series and a tenth of it. Where alpha gamma^2 + beta > 1 the likelihood is nan.", "quantifier": "all parameters in (0,1); all series; extended reals for nan", "why_tests_cant": "Continuum.", "anchors": ["src/finoptions/heston_nandi_options/__init__.py:hngarch_fit", "src/finoptions/heston_nandi_options/__init__.py:_llhHNGarch"]}
{"id": "C55", "title": "Bivariate normal routine", "statement": "The cumulative bivariate normal used by the American and compound formulas terminates with a number for all real arguments, is symmetric in its limits, and has the library's normal distribution as exact marginals: P(X<a,Y<b)+P(X<a,Y>b)=N(a).", "quantifier": "all limits; correlations in (-1,1) off the degenerate lines for the marginals", "why_tests_cant": "Recursion depth and identities over all reals.", "anchors": ["src/finoptions/base.py:Option._CBND"]}
{"id": "C56", "title": "Expiry and zero volatility", "statement": "At t=0 or sigma=0 the vanilla call and put are the discounted payoff of the forward and vega is 0 when the forward differs from the strike; they are nan when it equals the strike (finding), and gamma is always nan (finding).", "quantifier": "all positive spots and strikes, all rates; extended-real arithmetic", "why_tests_cant": "Limit inputs at which naive tests see warnings; exact equality for all moneyness.", "anchors": ["src/finoptions/vanillaoptions.py:GBSOption.call", "src/finoptions/vanillaoptions.py:GBSOption.put", "src/finoptions/vanillaoptions.py:GBSOption.gamma"]}
{"id": "C57", "title": "Arrays as option parameters", "statement": "With numpy arrays as parameters of vanilla options (README, multiple inputs; Black76 included) prices and Greeks are those of the separate scalar options position by position, for numbers, length-1 and length-n arrays mixed; arrays of different lengths raise ValueError. The same holds for prices of SpreadApproxOption. The three American approximation classes raise TypeError exactly when some argument has two or more elements. Finding: with an array of two or more costs of carry b, rho() and greeks() raise ValueError.", "quantifier": "all arrays of all lengths, all mixtures, every arithmetic", "why_tests_cant": "All lengths and mixtures of six (thirteen) parameters.", "anchors": ["README.md", "src/finoptions/vanillaoptions.py:GBSOption", "src/finoptions/vanillaoptions.py:MiltersenSchwartzOption", "src/finoptions/spread_options/spreadapprox.py:SpreadApproxOption", "src/finoptions/basic_american_options/__init__.py"]}
{"id": "C58", "title": "Implied volatilities of arrays", "statement": "With arrays, volatility() solves one equation per position, independent of the others, started at ones; solutions reprice every option. Finding: the solver's success flag is not looked at, so an impossible quote gets a volatility and no error (for numbers it raises).", "quantifier": "all arrays of all lengths, all solvers", "why_tests_cant": "Every solver outcome.", "anchors": ["src/finoptions/base.py:Option._volatility", "src/finoptions/base.py:Option._check_array", "src/finoptions/base.py:Option._max_array"]}
{"id": "C59", "title": "Monte Carlo error", "statement": "The average of the returned prices (the documented final value), over independent standard normal innovations, has the mean discounted payoff as its mean and a mean square error equal to the variance of the discounted payoff of one path divided by mc_loops*mc_paths; with antithetic innovations at most half of that. Hence the probability of an error of eps or more is at most that divided by eps^2. For vanilla options the mean is the Black-Scholes price and the variance has a closed form.", "quantifier": "all positive spots, volatilities, maturities; all strikes, rates; all numbers of loops, paths, steps; vanilla and arithmetic Asian payoffs, calls and puts", "why_tests_cant": "Integrals over all innovations, for every number of paths; a run sees one sample.", "anchors": ["src/finoptions/monte_carlo_options/__init__.py", "src/finoptions/monte_carlo_options/mc_paths.py", "src/finoptions/monte_carlo_options/mc_payoffs.py"]}
{"id": "C60", "title": "Two-asset tree converges to the two-asset lognormal model", "statement": "As the number of steps grows, European prices of the two-asset binomial tree converge to the discounted mean of the documented payoff over two correlated lognormal asset prices with the option's drifts, volatilities and correlation; that mean exists for every parameter set. The forwards implied by the tree converge to S exp(bt). The call of the exchange option converges to Margrabe's closed formula.", "quantifier": "all real spots, drifts, volatilities, strikes and quantities, t>0, correlations in [-1,1], every payoff code but the relative option (8) and the exchange put", "why_tests_cant": "A limit over all step counts and a two-dimensional integral; a test sees finitely many trees.", "anchors": ["src/finoptions/spread_options/bitree3d.py"]}
{"id": "C61", "title": "Closed-form, tree and Monte Carlo prices estimate the same mean", "statement": "Generalised Black-Scholes prices equal the discounted mean payoff of a lognormal asset up to the accuracy of the distribution function; the European tree prices converge to that mean; Monte Carlo prices with the vanilla payoff have exactly that mean whatever the number of path steps, plain or antithetic. Kirk's spread prices with strike 0 equal the mean discounted payoff of the two-asset lognormal model up to the same accuracy.", "quantifier": "all positive parameters; all numbers of steps, paths and loops; correlation in (-1,1)", "why_tests_cant": "Improper integrals over all innovations.", "anchors": ["src/finoptions/vanillaoptions.py:GBSOption", "src/finoptions/monte_carlo_options/mc_payoffs.py", "src/finoptions/spread_options/spreadapprox.py"]}
{"id": "C62", "title": "Mean price of Asian Monte Carlo options is bounded by forward and vanilla values", "statement": "The mean price of an arithmetic Asian option is at least the discounted payoff of the average forward over the time points; it is at most the vanilla Black-Scholes value for calls with b>=0 and for puts with b<=0.", "quantifier": "all positive parameters, all numbers of steps, paths and loops, plain or antithetic", "why_tests_cant": "Random estimates fluctuate around the bounds; the claim is about their mean.", "anchors": ["src/finoptions/monte_carlo_options/mc_payoffs.py"]}
{"id": "C63", "title": "American tree prices converge to one American value", "statement": "As the number of steps grows, American calls and puts of the CRR, JR, TIAN and trinomial classes all converge, and all to the same number: the least upper bound and limit of the values of the option with m equally spaced exercise dates on a lognormal asset (Bermudan values, defined by iterated Gaussian means). That value is at least the payoff of immediate exercise and at least the European value. For calls with b>=r>=0, and for puts with b<=r<=0, it is the Black-Scholes price.", "quantifier": "all positive spot, strike, maturity, volatility, all real rates, every class", "why_tests_cant": "A limit over all step counts; the limit has no closed form to compare with.", "anchors": ["src/finoptions/binomial_tree_options/__init__.py"]}
{"id": "C64", "title": "Objects price the formula of their class at their current arguments", "statement": "Whatever a program has done before, an option object whose construction and updates succeeded returns from call() and put() exactly what the pricing formula of its class gives for the current constructor arguments, defaults included: the same spots, strikes, rates, volatilities, exercise type, steps and payoff code (1, 2 and 3 for BionomialSpreadOption, BionomialMaxOption and BionomialMinOption). Attributes computed by the constructor and reused by later calls never go stale.", "quantifier": "all sixteen classes, all programs of constructions, updates, copies and queries, all arguments; in every arithmetic", "why_tests_cant": "Quantifies over all histories of an object; tests price freshly built objects.", "anchors": ["src/finoptions/base.py", "src/finoptions/vanillaoptions.py", "src/finoptions/binomial_tree_options/__init__.py", "src/finoptions/basic_american_options/__init__.py", "src/finoptions/spread_options/bitree3d.py", "src/finoptions/spread_options/spreadapprox.py"]}
{"id": "C65", "title": "American two-asset tree prices converge to the American value", "statement": "As the number of steps grows, American prices of the two-asset tree converge to the American value of the documented payoff on two correlated lognormal assets: the limit and least upper bound of the values with m equally spaced exercise dates, defined by iterated Gaussian means. The value exists for every payoff, is unique, and is at least the payoff of immediate exercise and the European value. When the payoff is the best of several portfolios of the assets and cash, each of whose positions is worth at least as much later (long positions in assets whose carry covers interest, and so on), the limit is the European value; the exchange option's call with b1 <= r <= b2 therefore tends to Margrabe's formula. The value does not decrease with maturity and is at least the value with any equally spaced exercise dates before expiry.", "quantifier": "all positive spots and maturities, all real rates, drifts, volatilities, strikes and quantities, correlations in [-1,1], every payoff code but the relative option (8) and the exchange put", "why_tests_cant": "A limit over all step counts; the limit has no closed form to compare with.", "anchors": ["src/finoptions/spread_options/bitree3d.py"]}
{"id": "C66", "title": "The common limit of American tree prices behaves as an American value", "statement": "The American value to which the trees converge is at least the value with any number of equally spaced exercise dates before expiry, does not decrease with maturity, scales with spot and strike, satisfies put-call duality (call with S, K, r, b equals put with K, S, r-b, -b), is monotone and jointly convex in spot and strike, changes by at most the change of strike when r>=0, is at most the spot (call, b<=r) or the strike (put, r>=0), satisfies S-K <= C-P <= S-K exp(-rt) when b=r>=0, does not decrease with the volatility, does not increase with the interest rate at fixed carry, and rises (call) or falls (put) with the carry at fixed interest and with the interest rate at fixed dividend yield.", "quantifier": "all positive parameters, all real rates where not stated otherwise", "why_tests_cant": "Statements about limits over all step counts and all pairs of parameters.", "anchors": ["src/finoptions/binomial_tree_options/__init__.py"]}
{"id": "C67", "title": "American approximations against the American value", "statement": "When b>=r>=0 the Barone-Adesi-Whaley and Bjerksund-Stensland calls equal the American value up to the accuracy 7.5e-8 of the normal distribution function; so does the Bjerksund-Stensland put when b<=r<=0. American approximations are never below the payoff of immediate exercise (refuted: calls with b=r<0 at high spots; Bjerksund-Stensland puts with r=0<b at low spots).", "quantifier": "all positive spot, strike, maturity and volatility", "why_tests_cant": "The American value has no closed form; the refuting spots exist for every strike, maturity and volatility.", "anchors": ["src/finoptions/basic_american_options/__init__.py", "src/finoptions/binomial_tree_options/__init__.py"]}
{"id": "C68", "title": "Tree prices in floating-point arithmetic", "statement": "Computed with rounded arithmetic, American tree prices are at least the European ones, at least the computed payoff of immediate exercise and never negative; they are monotone in the strike, in the spot and in the interest rate. The same order holds for the two-asset tree and every payoff code. The weights are valid for every Jarrow-Rudd tree, and for Cox-Ross-Rubinstein and trinomial trees under conditions on the computed drift and volatility per step.", "quantifier": "every arithmetic with monotone symmetric rounding and a monotone exponential, double precision without overflow among them; all inputs, every number of steps", "why_tests_cant": "Rounding errors differ at every node; a test sees a few inputs, and an order by one unit in the last place is not visible at test tolerances.", "anchors": ["src/finoptions/binomial_tree_options/__init__.py", "src/finoptions/spread_options/bitree3d.py"]}
{"id": "C69", "title": "Put-call parity in floating-point arithmetic", "statement": "The computed call minus the computed put of GBSOption differs from the computed discounted forward minus strike by at most 40 rounding errors of the sum of the two.", "quantifier": "every arithmetic whose operations and library functions have relative error u and underflow error eta; all inputs with nonnegative computed forward and strike", "why_tests_cant": "The size of the error over all inputs cannot be sampled.", "anchors": ["src/finoptions/vanillaoptions.py", "src/finoptions/base.py"]}
{"id": "C70", "title": "Accuracy of computed Black-Scholes prices", "statement": "The distribution function computed in floating-point arithmetic is within 7.5e-8 + 276 u of the Gaussian one everywhere. The call and put computed by GBSOption are within (F+X)(7.5e-8 + 180 u W) of the exact Black-Scholes values, up to an underflow term, where F and X are the discounted forward and strike and W grows with the maturity, the rates, the volatility and the reciprocal of sigma sqrt(t).", "quantifier": "every arithmetic with relative error u and underflow error eta; all positive spots, strikes, maturities and volatilities with u W <= 1/100 and no underflow of S/K, sqrt(t), sigma sqrt(t)", "why_tests_cant": "Exact Black-Scholes values are not available to a test, and the error bound is over all inputs.", "anchors": ["src/finoptions/vanillaoptions.py", "src/finoptions/base.py"]}
{"id": "C71", "title": "Rate of convergence of European trees", "statement": "For every tree class (CRR, JR, TIAN, trinomial) the European price computed with n steps differs from the Black-Scholes price by at most C (S + K) / sqrt(n). The constant, and the number of steps from which the bound holds, depend on maturity, rates and volatility only, not on spot and strike. For one option the bound C / sqrt(n) holds for every n. Against GBSOption's own price the error of its distribution function is added.", "quantifier": "all positive S,K,t,sigma, real r,b, all numbers of steps", "why_tests_cant": "A rate over all n and all inputs; a test sees finitely many n.", "anchors": ["src/finoptions/binomial_tree_options/__init__.py:CRRBinomialTreeOption", "src/finoptions/vanillaoptions.py:GBSOption"]}
{"id": "C72", "title": "Rounding errors do not accumulate badly in trees", "statement": "Computed in floating-point arithmetic, the call and put of a CRR, JR, TIAN or trinomial tree, European or American, differ from the price of the same tree in exact arithmetic by at most a constant times n u (S + K) exp((|r| + |b|) t) for JR, n u / h for CRR and trinomial trees and n u / h^2 for TIAN, h being the volatility per step (half a step for trinomial trees). Together with the rate of convergence, the computed European price is within C (S + K) (1/sqrt(n) + u n^a) of the Black-Scholes price, a being 1 for JR, 3/2 for CRR and trinomial trees and 2 for TIAN.", "quantifier": "every arithmetic whose operations and library functions have relative error u and underflow error eta; all S,K,t,sigma > 0, real r,b and numbers of steps with ordinary step size and no underflow in the nodes", "why_tests_cant": "A bound for every number of steps, every input and every arithmetic; tests compare a few prices with a tolerance.", "anchors": ["src/finoptions/binomial_tree_options/__init__.py:CRRBinomialTreeOption", "src/finoptions/binomial_tree_options/__init__.py:JRBinomialTreeOption", "src/finoptions/binomial_tree_options/__init__.py:TIANBinomialTreeOption", "src/finoptions/binomial_tree_options/__init__.py:TrinomialTreeOption"]}
{"id": "C73", "title": "Accuracy of the bivariate normal distribution and of Roll-Geske-Whaley prices", "statement": "For all real limits a, b and every correlation strictly between -1 and 1 the bivariate normal routine is within 1.35e-6 of P(X <= a, Y <= b) for two standard normal variables with that correlation (7.5e-7 when a b rho <= 0). Hence the Roll-Geske-Whaley formula computed with the library's distribution functions is within 1.5e-6 (x + K e^{-rt} + |K-D| e^{-r td}) of the exact one, and, when the search for the critical price succeeds below 0.5e8 and D <= K, call() is within that error plus the tolerance of the search of the true value of the American call on a stock with one known dividend; up to these errors call() is at least the European call of GBSOption on S - D e^{-r td} and at most S - D e^{-r td}.", "quantifier": "all real limits, all correlations in (-1,1), all option parameters", "why_tests_cant": "A uniform error bound over three real variables cannot be sampled; tests compare a few table values.", "anchors": ["src/finoptions/base.py:_CBND", "src/finoptions/basic_american_options/__init__.py:RollGeskeWhaleyOption"]}
{"id": "C74", "title": "Elasticities and the dictionary of Greeks by finite differences", "statement": "lamb(call) by finite differences is delta(call) * spot / price(call) with the delta, spot and price of an option freshly built from the current arguments: one number for options on one asset, one for each spot for options on two assets; it raises exactly when one of these does. greeks(call) has exactly the entries delta, theta, vega, rho, lambda, gamma (no rho for MiltersenSchwartzOption), each equal to what the method of that name returns with the same flag. Neither changes anything that can be observed of any option. (finding: Black76Option.lamb(method='fdm') never returns a value.)", "quantifier": "all option classes, all constructor arguments and update histories, call and put, every numerical differentiator, real and float arithmetic", "why_tests_cant": "The elasticity repeats the finite-difference delta for each entry on a live object; that no copy or repetition disturbs the result holds for all states, not for samples.", "anchors": ["src/finoptions/base.py:GreeksFDM.lamb", "src/finoptions/base.py:GreeksFDM.greeks", "src/finoptions/spread_options/bitree3d.py:BionomialSpreadOption.lamb", "src/finoptions/spread_options/spreadapprox.py:SpreadApproxOption.greeks", "src/finoptions/vanillaoptions.py:GBSOption.lamb"]}
{"id": "C75", "title": "One vega and one gamma for calls and puts", "statement": "vega() and gamma() take no call/put flag and are documented for either option. For European Black-Scholes options and CRR, TIAN and trinomial trees this is justified: every difference formula for a first derivative in the volatility, and every one for a second derivative in the spot, has the same value on call and put. (findings: Jarrow-Rudd European puts always gain more from volatility than calls; American puts can be insensitive to volatility where the call is not; for all trees, European or American, the price is a straight line in the spot near all but finitely many spots, so the gamma is exactly 0 for small enough differences although the Black-Scholes gamma is positive.)", "quantifier": "all parameters, all numbers of steps, all difference formulas", "why_tests_cant": "Equality for all difference formulas and the finite set of exceptional spots are statements over a continuum.", "anchors": ["src/finoptions/base.py:GreeksFDM.vega", "src/finoptions/base.py:GreeksFDM.gamma", "src/finoptions/binomial_tree_options/__init__.py:CRRBinomialTreeOption.gamma", "src/finoptions/binomial_tree_options/__init__.py:JRBinomialTreeOption"]}
{"id": "C76", "title": "Tree prices rise with volatility", "statement": "The call and put of CRR and trinomial trees, European and American, do not decrease when the volatility is raised, whenever the smaller volatility gives valid probabilities; the same holds for TIAN trees as long as sigma^2 dt <= ln(3/2), so that a larger implied volatility always means a larger price. (findings: with the Jarrow-Rudd tree calls deep in the money are strictly cheaper with the larger volatility, for every number of steps and every pair of volatilities; with a TIAN step beyond the bound a put can lose all its value when the volatility is raised.)", "quantifier": "all positive spots, maturities and volatilities, all strikes, rates and numbers of steps", "why_tests_cant": "An order between two prices for every pair of volatilities and every lattice; a test sees a few pairs.", "anchors": ["src/finoptions/binomial_tree_options/__init__.py:CRRBinomialTreeOption", "src/finoptions/binomial_tree_options/__init__.py:TIANBinomialTreeOption", "src/finoptions/binomial_tree_options/__init__.py:JRBinomialTreeOption", "src/finoptions/binomial_tree_options/__init__.py:TrinomialTreeOption"]}
{"id": "C77", "title": "Tree prices against interest rate and carry", "statement": "For all four tree classes, European and American: with the carry fixed, calls and puts do not increase with the interest rate; with the interest rate fixed, calls do not decrease and puts do not increase with the carry; for an asset with a fixed dividend yield (b = r - q) calls do not decrease and puts do not increase with the interest rate.", "quantifier": "all positive spots, maturities and volatilities, nonnegative strikes, all rates with valid probabilities, all numbers of steps", "why_tests_cant": "An order between two prices for every pair of rates and every lattice; discounting and drift work against each other, so the sign is not visible from the formulas.", "anchors": ["src/finoptions/binomial_tree_options/__init__.py:CRRBinomialTreeOption", "src/finoptions/binomial_tree_options/__init__.py:TIANBinomialTreeOption", "src/finoptions/binomial_tree_options/__init__.py:JRBinomialTreeOption", "src/finoptions/binomial_tree_options/__init__.py:TrinomialTreeOption"]}
{"id": "C78", "title": "Kirk prices against correlation and volatilities", "statement": "For Kirk's approximation: call and put fall strictly when the correlation rises, for positive volatilities and correlations below 1. Raising the volatility of asset 1 raises call and put when it is at least rho * sigma2 * F, and lowers both as long as it stays below that; raising the volatility of asset 2 raises both when sigma2 * F >= rho * sigma1 and lowers both as long as sigma2 * F stays below that. F is the share of the second asset in the discounted amount paid for the first.", "quantifier": "all positive spots, quantities, maturities and volatilities, nonnegative strikes, all rates, all correlations in (-1, 1)", "why_tests_cant": "A strict order between prices for every pair of inputs, with a sign that depends on a threshold in the inputs; a test sees single pairs, and the order must hold for the rational approximation of the distribution function that the code uses.", "anchors": ["src/finoptions/spread_options/spreadapprox.py:KirkOption"]}
{"id": "C79", "title": "Black-Scholes prices against interest, carry and maturity", "statement": "For GBSOption: with the carry fixed, a higher interest rate multiplies call and put exactly by the additional discount factor. With the interest rate fixed, the call does not fall and the put does not rise with the carry. For a fixed dividend yield (b = r - q) the call does not fall and the put does not rise with the interest rate. A call with b >= r >= 0 and a put with b <= r <= 0 do not fall when the maturity is extended. The last three hold without slack for the exact normal distribution function, and for the code up to the error 7.5e-8 of its distribution function.", "quantifier": "all positive spots, strikes, maturities and volatilities, all pairs of rates", "why_tests_cant": "An order between two prices for every pair of inputs.", "anchors": ["src/finoptions/vanillaoptions.py:GBSOption"]}
{"id": "C80", "title": "Bjerksund-Stensland prices against the American and the European value", "statement": "For BSAmericanApproxOption with b < r and b t + 2 sigma sqrt t > 0 the call formula, with exact normal distribution functions, is never above the American value of the option, the number to which American tree prices of every class converge; the same for the put with r > 0 and b t < 2 sigma sqrt t. The call formula is exactly what exercising at the first time the price reaches the reported trigger (otherwise at expiry) is worth. The code's distribution function changes the price by at most an explicit bound. The price is not always at least the European price of GBSOption: for short futures options two standard deviations in the money the European call is worth more.", "quantifier": "all spots, strikes, maturities, volatilities and rates with the signs stated; every tree class", "why_tests_cant": "An inequality between a formula and the limit of a sequence of trees, for every input.", "anchors": ["src/finoptions/basic_american_options/__init__.py:BSAmericanApproxOption", "src/finoptions/binomial_tree_options/__init__.py:CRRBinomialTreeOption"]}
{"id": "C81", "title": "Miltersen-Schwartz prices are discounted means", "statement": "MiltersenSchwartzOption's call() and put() are the mean of the payoff on the futures price at expiry, discounted with the random interest accrued until then, up to 7.5e-8 of the discounted amounts involved. Here the log futures price and the accrued interest are jointly Gaussian, the futures price has mean F, the bond is worth P, and their variance and covariance are the integrals over the life of the option of the products of the loadings on the three factors (spot, mean-reverting convenience yield, mean-reverting interest rate). Equivalently the price is the Black76 price with futures price F exp(-covariance), interest rate -ln(P)/t and volatility sqrt(variance/t).", "quantifier": "all positive futures prices, strikes, bond prices and maturities, all positive mean reversion speeds, all volatilities and correlations with positive variance", "why_tests_cant": "An equality with an expectation over a two-factor model, with a long closed form of exponentials for the variances; a test compares a few table values.", "anchors": ["src/finoptions/vanillaoptions.py:MiltersenSchwartzOption"]}
{"id": "C82", "title": "American options with a long maturity", "statement": "With b < r and r >= 0 the limit of American call prices of every tree class as the number of steps grows is, for every maturity, at most the value of the perpetual call, (B - K)(S/B)^beta for spots below B = beta/(beta-1) K, where beta > 1 solves sigma^2/2 beta(beta-1) + b beta = r; from B on it is exactly S - K; and as the maturity grows it tends to the perpetual value. The same for puts with r > 0 and b <= r, with the negative root. The prices of BSAmericanApproxOption differ from it by an amount that tends to 0 as the maturity grows (call: 0 <= b < r; put: b <= 0 < r). Whenever the search of BAWAmericanApproxOption ends, its call price (0 <= b < r) is, for maturities beyond a bound, within 10^-6 B + eps of the limit and its put price (r > 0, b <= r) within 10^-6 K + eps, 10^-6 being the tolerance of the search.", "quantifier": "all spots, strikes and volatilities, all rates with the signs stated, all maturities beyond a bound that depends on the accuracy", "why_tests_cant": "Limits in the maturity and in the number of steps.", "anchors": ["src/finoptions/binomial_tree_options/__init__.py:CRRBinomialTreeOption", "src/finoptions/basic_american_options/__init__.py:BSAmericanApproxOption", "src/finoptions/basic_american_options/__init__.py:BAWAmericanApproxOption"]}
