{"id": "C01", "title": "KalmanFilter covariance stays symmetric positive semidefinite", "statement": "Starting from a symmetric PSD P and PSD process/measurement noises, after any sequence of predict, update (including update(None), per-call R/H/F/Q overrides and whatever the configured inv routine returns or raises), P, P_prior and P_post are symmetric positive semidefinite.", "quantifier": "every dimension, every initial state, every finite history of predict/update calls with any arguments whose noises are PSD, every inverse routine", "why_tests_cant": "unbounded histories and all real matrices; a test sees a handful of trajectories", "anchors": ["filterpy/kalman/kalman_filter.py:KalmanFilter.predict", "filterpy/kalman/kalman_filter.py:KalmanFilter.update"]}
{"id": "C02", "title": "Joseph form, short form and posterior shrinkage", "statement": "When inv really inverts S, the P produced by KalmanFilter.update equals (I-KH)P_prior and P_prior - K S K^T, and the posterior never exceeds the prior: P_prior - P is PSD.", "quantifier": "all dimensions, all prior P (symmetric), all H, R with invertible innovation covariance", "why_tests_cant": "matrix identity over all real matrices", "anchors": ["filterpy/kalman/kalman_filter.py:KalmanFilter.update"]}
{"id": "C03", "title": "Kalman gain is optimal", "statement": "No other gain gives a smaller posterior covariance: for every gain G the Joseph covariance of G minus the P returned by update is PSD, with equality of x-map only at the gain used.", "quantifier": "every alternative gain matrix, every state and measurement model with invertible S and PSD P, R", "why_tests_cant": "quantifies over all competing gains", "anchors": ["filterpy/kalman/kalman_filter.py:KalmanFilter.update"]}
{"id": "C04", "title": "update returns the minimiser of the measurement cost", "statement": "For positive definite P and R the x produced by KalmanFilter.update is the unique minimiser of (v-x)^T P^-1 (v-x) + (z-Hv)^T R^-1 (z-Hv), and the new P is the inverse of P^-1 + H^T R^-1 H.", "quantifier": "all dimensions, states, measurements and competing state vectors v", "why_tests_cant": "universal over competitors", "anchors": ["filterpy/kalman/kalman_filter.py:KalmanFilter.update"]}
{"id": "C05", "title": "Missing measurement leaves the estimate alone", "statement": "update(None) changes neither x nor P nor S nor K; sets y to zero, z to the all-None vector and x_post/P_post to the current x/P; and clears the cached log-likelihood, likelihood and mahalanobis values. A whole run of update(None) calls leaves x, P as they were.", "quantifier": "every filter state and every number of skipped measurements", "why_tests_cant": "all states and histories", "anchors": ["filterpy/kalman/kalman_filter.py:KalmanFilter.update"]}
{"id": "C06", "title": "Prior and posterior attributes mirror the estimate", "statement": "After any history, the last successful predict's result is what x_prior, P_prior hold and the last completed update's result is what x_post, P_post hold; immediately after predict (update) they equal x, P.", "quantifier": "all call histories, all states", "why_tests_cant": "history property", "anchors": ["filterpy/kalman/kalman_filter.py:KalmanFilter.predict", "filterpy/kalman/kalman_filter.py:KalmanFilter.update"]}
{"id": "C07", "title": "Failed update is atomic on the estimate", "statement": "If the inverse routine raises inside update (or update_correlated, EKF update), the exception propagates and x, P, x_prior, P_prior, x_post, P_post are exactly what they were before the call; y and S already hold the new innovation. In InformationFilter.update the same failure is not atomic: the information matrix has already been overwritten. UnscentedKalmanFilter.update and CubatureKalmanFilter.update, when the inverse raises, have replaced sigmas_h and S and nothing else, and the next predict is unaffected.", "quantifier": "every state, measurement and every inverse routine that raises", "why_tests_cant": "crash point semantics over all states", "anchors": ["filterpy/kalman/kalman_filter.py:KalmanFilter.update", "filterpy/kalman/kalman_filter.py:KalmanFilter.update_correlated", "filterpy/kalman/EKF.py:ExtendedKalmanFilter.update", "filterpy/kalman/information_filter.py:InformationFilter.update", "filterpy/kalman/UKF.py:UnscentedKalmanFilter.update", "filterpy/kalman/CubatureKalmanFilter.py:CubatureKalmanFilter.update"]}
{"id": "C08", "title": "get_prediction and get_update are pure previews", "statement": "get_prediction returns exactly the (x, P) that predict with the same arguments would store, get_update(z) returns exactly the (x, P) that update(z) would store (for R=H=None), and neither changes the filter.", "quantifier": "every state and argument", "why_tests_cant": "equality on all inputs; bit-exact for any arithmetic", "anchors": ["filterpy/kalman/kalman_filter.py:KalmanFilter.get_prediction", "filterpy/kalman/kalman_filter.py:KalmanFilter.get_update"]}
{"id": "C09", "title": "batch_filter equals the step-by-step loop", "statement": "KalmanFilter.batch_filter(zs, Fs, Qs, Hs, Rs, Bs, us, update_first) ends in the same filter state and returns the same means/covariances/priors as calling predict and update by hand in the stated order; the number of steps is the shortest of the supplied lists; splitting zs into two calls gives the same as one call.", "quantifier": "all lists of measurements (with None gaps), all per-step matrices, both orders", "why_tests_cant": "unbounded lists", "anchors": ["filterpy/kalman/kalman_filter.py:KalmanFilter.batch_filter"]}
{"id": "C10", "title": "Per-call overrides do not persist", "statement": "Passing B/F/Q to predict or R/H to update never changes the filter's stored B, F, Q, R, H; a scalar Q or R means that scalar times the identity; a call with explicit arguments equals the call on a filter whose attributes hold those arguments, as far as x, P, y, K, S are concerned.", "quantifier": "every state, every override", "why_tests_cant": "all inputs", "anchors": ["filterpy/kalman/kalman_filter.py:KalmanFilter.predict", "filterpy/kalman/kalman_filter.py:KalmanFilter.update"]}
{"id": "C11", "title": "Covariance and gain do not depend on measurement values", "statement": "Two runs of the same filter over measurement lists that have None in the same positions produce identical P, K, S, P_prior, P_post at every step, whatever the measurement values.", "quantifier": "all pairs of measurement histories", "why_tests_cant": "relational property over all histories", "anchors": ["filterpy/kalman/kalman_filter.py:KalmanFilter.update"]}
{"id": "C12", "title": "Functional API agrees with the class", "statement": "The module functions predict, update, predict_steadystate, update_steadystate compute the same x, P as the KalmanFilter methods on the same matrices; the module-level predict's alpha is squared as the class's is.", "quantifier": "all inputs", "why_tests_cant": "all matrices", "anchors": ["filterpy/kalman/kalman_filter.py:predict", "filterpy/kalman/kalman_filter.py:update", "filterpy/kalman/kalman_filter.py:KalmanFilter"]}
{"id": "C13", "title": "Sequential update equals the joint update", "statement": "Processing a measurement by update_sequential in consecutive blocks whose noises are uncorrelated (block-diagonal R) gives the same x and P as one update with the stacked z, H, R.", "quantifier": "all dimensions, all splits into blocks, all states with invertible innovation blocks", "why_tests_cant": "all partitions", "anchors": ["filterpy/kalman/kalman_filter.py:KalmanFilter.update_sequential"]}
{"id": "C14", "title": "Measurement fusion is order independent", "statement": "Applying update for two independent sensors in either order yields the same x and P.", "quantifier": "all pairs of sensors (z,R,H), all priors with the innovation covariances involved invertible", "why_tests_cant": "all inputs", "anchors": ["filterpy/kalman/kalman_filter.py:KalmanFilter.update"]}
{"id": "C15", "title": "Correlated update generalises update", "statement": "update_correlated with M = 0 yields the same x, P, K, S, y as update; with any M its gain is the minimum-covariance one and P = P - K S K^T.", "quantifier": "all states with invertible S", "why_tests_cant": "all matrices", "anchors": ["filterpy/kalman/kalman_filter.py:KalmanFilter.update_correlated"]}
{"id": "C16", "title": "Steady-state methods equal the full filter at a fixed point", "statement": "If P is a fixed point of the Riccati recursion and K is its gain then predict_steadystate/update_steadystate produce, for every measurement sequence, exactly the x that predict/update produce, and never change P or K.", "quantifier": "all measurement histories", "why_tests_cant": "unbounded histories", "anchors": ["filterpy/kalman/kalman_filter.py:KalmanFilter.predict_steadystate", "filterpy/kalman/kalman_filter.py:KalmanFilter.update_steadystate"]}
{"id": "C17", "title": "Coordinate change equivariance", "statement": "Running the filter in transformed state coordinates (x'=Tx, P'=TPT^T, F'=TFT^-1, H'=HT^-1, Q'=TQT^T, B'=TB) gives at every step the transformed x and P of the original run.", "quantifier": "every invertible T, every history", "why_tests_cant": "relational over all histories", "anchors": ["filterpy/kalman/kalman_filter.py:KalmanFilter.predict", "filterpy/kalman/kalman_filter.py:KalmanFilter.update"]}
{"id": "C18", "title": "Filter followed by RTS smoother solves the trajectory least-squares problem", "statement": "batch_filter followed by KalmanFilter.rts_smoother with the same Fs, Qs returns the unique minimiser over whole state trajectories of the sum of prior, process and measurement quadratic costs (positive definite P0, Q, R); the filter's last x is that trajectory's last state.", "quantifier": "all lengths, all measurement lists, all time-varying F, Q, H, R", "why_tests_cant": "unbounded trajectories and all competing trajectories", "anchors": ["filterpy/kalman/kalman_filter.py:KalmanFilter.rts_smoother", "filterpy/kalman/kalman_filter.py:KalmanFilter.batch_filter"]}
{"id": "C19", "title": "rts_smoother structure and the two versions", "statement": "Both rts_smoother versions return as many elements as they get, leave the last mean/covariance untouched and leave their inputs unchanged; they agree whenever F and Q are constant, and disagree for time-varying models, because the class uses Fs[k+1],Qs[k+1] and the function Fs[k],Qs[k]; the smoothed covariance never exceeds the filtered one.", "quantifier": "all lengths and inputs", "why_tests_cant": "unbounded lists", "anchors": ["filterpy/kalman/kalman_filter.py:KalmanFilter.rts_smoother", "filterpy/kalman/kalman_filter.py:rts_smoother"]}
{"id": "C20", "title": "InformationFilter equals KalmanFilter", "statement": "As long as the matrices stay invertible, an InformationFilter with P_inv = P^-1, R_inv = R^-1 has after any history of predict/update the same x as the KalmanFilter and the inverse of its P. Assigning F also refreshes the cached inverse, and an assignment whose inverse raises leaves the new F in use with the old cached inverse; a likelihood that underflows to zero is reported as the smallest positive float.", "quantifier": "all histories", "why_tests_cant": "unbounded histories", "anchors": ["filterpy/kalman/information_filter.py:InformationFilter"]}
{"id": "C21", "title": "SquareRootKalmanFilter equals KalmanFilter", "statement": "Whatever triangular factorisation qr returns (R^T R = M^T M), the square-root filter's x and P = P1_2 P1_2^T follow the KalmanFilter exactly over any history, and P is PSD by construction; P_post however reports the prior's covariance. Assigning P, Q or R and reading it back gives the assigned matrix whenever its Cholesky factorisation succeeds; update(None) leaves x and P unchanged.", "quantifier": "all histories, all qr/cholesky implementations meeting their contract", "why_tests_cant": "unbounded histories", "anchors": ["filterpy/kalman/square_root.py:SquareRootKalmanFilter"]}
{"id": "C22", "title": "ExtendedKalmanFilter on linear models equals KalmanFilter", "statement": "With a linear measurement function and its constant Jacobian, EKF predict/update give the KalmanFilter's x and P over any history; predict_update gives x, P of predict then update but stores the estimate from before the prediction in x_prior, P_prior, and raises for z=None. For any measurement function and Jacobian one update equals a KalmanFilter update with H the Jacobian at the prior and a measurement shifted by the linearisation error, and P stays symmetric positive semidefinite over every history.", "quantifier": "all histories", "why_tests_cant": "unbounded histories", "anchors": ["filterpy/kalman/EKF.py:ExtendedKalmanFilter"]}
{"id": "C23", "title": "Fading memory KF", "statement": "FadingKalmanFilter behaves exactly as KalmanFilter with the same alpha; alpha = 1 is the ordinary filter; larger alpha never gives a smaller predicted covariance; the alpha setter accepts exactly scalars >= 1 and the getter returns what was set.", "quantifier": "all histories, all alpha", "why_tests_cant": "unbounded histories", "anchors": ["filterpy/kalman/fading_memory.py:FadingKalmanFilter", "filterpy/kalman/kalman_filter.py:KalmanFilter.alpha"]}
{"id": "C24", "title": "Sigma points reproduce mean and covariance", "statement": "For MerweScaled, Julier and Simplex sigma points the mean weights sum to one (Merwe's covariance weights to 2 - alpha^2 + beta) and the weighted mean and covariance of the points are exactly x and P for every square-root routine with U^T U = its argument; a wrong-sized x raises ValueError.", "quantifier": "every dimension n, every x and PSD P, every alpha, beta, kappa with nonzero n+lambda", "why_tests_cant": "all dimensions", "anchors": ["filterpy/kalman/sigma_points.py"]}
{"id": "C25", "title": "Unscented transform is exact for affine maps", "statement": "unscented_transform of affinely mapped sigma points returns the mapped mean and A P A^T + noise; the vectorised path (residual_fn None) and the loop path agree.", "quantifier": "all dims, weights summing to one", "why_tests_cant": "all inputs", "anchors": ["filterpy/kalman/unscented_transform.py:unscented_transform"]}
{"id": "C26", "title": "UKF on linear models equals KalmanFilter", "statement": "With linear fx and hx and at most one measurement per prediction, UnscentedKalmanFilter predict/update yields the KalmanFilter's x and P at every step of every history; update(None) changes neither. Two updates after one prediction, or an update before the first prediction, do not agree with the KalmanFilter. With nonnegative covariance weights P stays positive semidefinite for any fx and hx. batch_filter leaves the filter in the state, and returns the per-epoch x and P (or raises the exception), of the caller's own loop predict(dts[i]); update(zs[i], Rs[i]); rows beyond the shorter of Rs and dts are zeros without an exception, and a missing first measurement, alone among missing measurements, raises. The arguments dt, fx, R and hx act as temporary assignments.", "quantifier": "all histories, dims, sigma-point parameters", "why_tests_cant": "unbounded histories", "anchors": ["filterpy/kalman/UKF.py:UnscentedKalmanFilter"]}
{"id": "C27", "title": "CubatureKalmanFilter on linear models", "statement": "The cubature points match mean and covariance exactly; on a linear history (at most one measurement per prediction) the filter equals a KalmanFilter that receives each prediction's process noise only after the measurement, hence the KalmanFilter itself when Q = 0 and not otherwise; P stays positive semidefinite for any fx and hx; update(None) is a no-op; a one-dimensional z (the documented shape) with dim_z > 1 turns x into a dim_x by dim_z array.", "quantifier": "all dims and states", "why_tests_cant": "all inputs", "anchors": ["filterpy/kalman/CubatureKalmanFilter.py:CubatureKalmanFilter"]}
{"id": "C28", "title": "Ensemble filter statistics", "statement": "For any random draws, any fx and hx: after predict x is the ensemble's mean and P its sample covariance (PSD); after update x is the ensemble's mean, S and K are the sample moments whatever x was before, and P is P - K S K', which is PSD if P was the sample covariance but is not the new ensemble's sample covariance unless the draws have no sampling error; with such draws a linear history gives exactly the KalmanFilter's x and P. update(None) is a no-op.", "quantifier": "all states, histories, ensemble sizes N >= 2, random draws, fx/hx", "why_tests_cant": "all draws and histories", "anchors": ["filterpy/kalman/ensemble_kalman_filter.py:EnsembleKalmanFilter"]}
{"id": "C29", "title": "IMM probabilities and mixing", "statement": "For a row-stochastic M, a mode distribution mu and positive likelihoods, after any history of predict/update mu is positive and sums to one (it is the Bayes posterior of the modes), every column of the mixing matrix omega sums to one, mixing leaves the mean and covariance of the whole mixture unchanged, and x, P are the mu-weighted mixture mean and covariance, P being PSD when the filters' P are; a bank of identical filters behaves as the single filter. Two readings of the documentation fail: update(None) changes mu and x, and the prior x is weighted with the old mode probabilities, not the predicted ones.", "quantifier": "all histories of predict/update, any bank of filters", "why_tests_cant": "unbounded histories", "anchors": ["filterpy/kalman/IMM.py:IMMEstimator"]}
{"id": "C30", "title": "MMAE probabilities", "statement": "MMAEFilterBank.p stays nonnegative and normalised and equals the prior times the accumulated likelihoods, normalised; x after update is the p-weighted mean; predict changes neither p, x nor P. The reported P sums over the first min(dim_x, N) filters only, the k-th contributing its deviation from the single number x[k]: it is not the mixture covariance. update(None) changes p and x although documented not to.", "quantifier": "all histories", "why_tests_cant": "unbounded histories", "anchors": ["filterpy/kalman/mmae.py:MMAEFilterBank"]}
{"id": "C31", "title": "Discrete Bayes update and predict", "statement": "discrete_bayes.update returns likelihood*prior normalised, a distribution when both are nonnegative and the evidence is not zero; updates commute and merge; predict with wrap is the law of position + offset + noise modulo the length (noise k - K/2 with probability kernel[k]), conserves mass and composes; without wrap it is the law on a line where what leaves after the shift or after the noise is lost and cval is added; a predict/update loop is the forward recursion of the hidden Markov model. Refuted readings: net-move law on a line, composition for two even kernels, a posterior for an impossible measurement (all nan).", "quantifier": "all list lengths, kernels, offsets", "why_tests_cant": "unbounded lists", "anchors": ["filterpy/discrete_bayes/discrete_bayes.py"]}
{"id": "C32", "title": "Systematic and stratified resampling", "statement": "For nonnegative weights summing to one and any random draws in [0,1), systematic_resample and stratified_resample terminate, return N in-range nondecreasing indexes, never an index of zero weight, and copy counts satisfy |count_i - N w_i| < 1 (systematic) and < 2 (stratified); with a cumulative sum below a sampling position the code raises IndexError, which rounding makes reachable.", "quantifier": "all N, all weights, all random draws", "why_tests_cant": "all weights and draws", "anchors": ["filterpy/monte_carlo/resampling.py"]}
{"id": "C33", "title": "Multinomial and residual resampling", "statement": "multinomial_resample returns N in-range indexes, each the first whose cumulative weight reaches the draw, so a weightless particle is selected only by a draw of exactly 0; residual_resample returns exactly N in-range indexes with at least floor(N w_i) copies of each i, but draws the remainder from weights - copies instead of the fractional parts: the sum it normalises by is 1 - (copies made) <= 0 and particles without a copy get negative weight. In residual resampling the only failure is an IndexError, raised exactly when there are no weights or when the integer copies asked for exceed the number of weights; nonnegative weights summing to 2 or more always raise.", "quantifier": "all N, weights, draws", "why_tests_cant": "all weights and draws", "anchors": ["filterpy/monte_carlo/resampling.py"]}
{"id": "C34", "title": "g-h filter batch and tracking", "statement": "GHFilter.batch_filter returns the n+1 states that n successive updates would pass through and changes nothing in the filter; with exact initial state a ramp is tracked with zero residual for all g, h; the estimate error obeys a linear recursion independent of the truth.", "quantifier": "all data lists, gains, dt", "why_tests_cant": "unbounded lists", "anchors": ["filterpy/gh/gh_filter.py:GHFilter"]}
{"id": "C35", "title": "g-h-k filter", "statement": "GHKFilter.update tracks constant acceleration exactly; GHFilterOrder of order 0/1/2 coincides with the corresponding filter; GHKFilter.batch_filter is not the iteration of update, since it ignores acceleration.", "quantifier": "all data lists and gains", "why_tests_cant": "unbounded lists", "anchors": ["filterpy/gh/gh_filter.py:GHKFilter", "filterpy/gh/gh_filter.py:GHFilterOrder"]}
{"id": "C36", "title": "Least-squares gains", "statement": "A GHFilter whose gains at step n are least_squares_parameters(n) reproduces the least-squares line through all data seen so far.", "quantifier": "all n, all data", "why_tests_cant": "unbounded data", "anchors": ["filterpy/gh/gh_filter.py:least_squares_parameters"]}
{"id": "C37", "title": "LeastSquaresFilter is the least-squares polynomial", "statement": "After any number of updates the LeastSquaresFilter of order 0, 1, 2 holds value (and derivatives) at the latest time of the least-squares polynomial of that degree through all measurements, once enough points are seen; reset restores the initial state; self.y is never updated.", "quantifier": "all measurement lists, all dt", "why_tests_cant": "unbounded data", "anchors": ["filterpy/leastsq/least_squares.py:LeastSquaresFilter"]}
{"id": "C38", "title": "Fading memory polynomial filter", "statement": "FadingMemoryFilter of order 0/1/2 is the g-h(-k) filter with critically damped gains, tracks polynomials of its order exactly and minimises the exponentially discounted squared error.", "quantifier": "all data lists, all beta in [0,1)", "why_tests_cant": "unbounded data", "anchors": ["filterpy/memory/fading_memory.py:FadingMemoryFilter"]}
{"id": "C39", "title": "Gaussian algebra", "statement": "mul and multivariate_multiply are commutative, associative and add precisions and precision-weighted means; add is commutative; mul equals the scalar Kalman update; mul's density is proportional to the product of the densities.", "quantifier": "all means and positive (definite) variances", "why_tests_cant": "all reals", "anchors": ["filterpy/stats/stats.py"]}
{"id": "C40", "title": "Mahalanobis and NEES", "statement": "mahalanobis is the nonnegative square root of the inverse-covariance quadratic form, zero exactly at the mean, invariant under invertible linear change of coordinates; NEES returns its square for every sample.", "quantifier": "all dims and inputs", "why_tests_cant": "all inputs", "anchors": ["filterpy/stats/stats.py:mahalanobis", "filterpy/stats/stats.py:NEES"]}
{"id": "C41", "title": "Discrete white noise matrices", "statement": "Q_discrete_white_noise(dim, dt, var) is var * G G^T for the noise gain G of a piecewise constant top derivative, so symmetric PSD of rank one per block; block_size gives the block-diagonal (or derivative-ordered, a permutation similarity) matrix; any other dim raises ValueError.", "quantifier": "all dt, var, block sizes", "why_tests_cant": "all reals and sizes", "anchors": ["filterpy/common/discretization.py:Q_discrete_white_noise", "filterpy/common/discretization.py:order_by_derivative"]}
{"id": "C42", "title": "Continuous white noise matrices", "statement": "Q_continuous_white_noise is the integral of e^{F s} e e^T e^{F^T s}: Q(a+b) = F(b) Q(a) F(b)^T + Q(b), symmetric PSD for dt, spectral density >= 0, and equal to van_loan_discretization of the kinematic model.", "quantifier": "all dt, spectral densities", "why_tests_cant": "all reals", "anchors": ["filterpy/common/discretization.py:Q_continuous_white_noise", "filterpy/common/discretization.py:van_loan_discretization"]}
{"id": "C43", "title": "Kinematic transition matrices", "statement": "kinematic_state_transition(order, dt) is the Taylor matrix dt^(j-i)/(j-i)!, F(0)=I, F(a)F(b)=F(a+b), invertible with inverse F(-dt); the hard-coded orders 0..2 agree with the general formula; negative or non-integer order raises ValueError.", "quantifier": "all orders, all dt", "why_tests_cant": "all orders", "anchors": ["filterpy/common/kinematic.py:kinematic_state_transition"]}
{"id": "C44", "title": "kinematic_kf layout", "statement": "kinematic_kf gives a filter whose predict() applies the one-dimensional kinematic transition independently to each of the dim axes, in either ordering of the state (all derivatives of an axis together, or all axes of a derivative together); only F and H are assigned, so P, Q, R and x stay the constructor's. Its H measures the position only for dim=1: for dim>1 every row of H measures the sum of all positions.", "quantifier": "all dims and orders", "why_tests_cant": "all sizes", "anchors": ["filterpy/common/kinematic.py:kinematic_kf"]}
{"id": "C45", "title": "Saver records the full history", "statement": "After n calls of save every recorded attribute list has length n, its k-th entry is the attribute's value at the k-th save and is not changed by later mutation of the filter, ignored attributes never appear and len(saver) = n.", "quantifier": "all histories of filter mutations and saves", "why_tests_cant": "histories with aliasing", "anchors": ["filterpy/common/helpers.py:Saver"]}
{"id": "C46", "title": "runge_kutta4", "statement": "One step is exact for right-hand sides polynomial of degree <= 3 in the independent variable, and for y' = a y multiplies y by the order-4 Taylor polynomial of exp(a dx); k steps compose.", "quantifier": "all reals, all polynomials", "why_tests_cant": "all reals", "anchors": ["filterpy/common/helpers.py:runge_kutta4"]}
{"id": "C47", "title": "reshape_z accepts exactly the right shapes", "statement": "reshape_z(z, dim_z, ndim) succeeds exactly for inputs whose 2-D form is (dim_z,1) or (1,dim_z), returns shape (dim_z,1), (dim_z,) or scalar according to ndim with the same entries in order, and raises ValueError otherwise; it is idempotent.", "quantifier": "all shapes and sizes", "why_tests_cant": "all shapes", "anchors": ["filterpy/common/helpers.py:reshape_z"]}
{"id": "C48", "title": "inv_diagonal and outer_product_sum", "statement": "inv_diagonal of a square matrix returns the diagonal matrix of reciprocals, a true inverse when the input is diagonal with nonzero diagonal, and raises ValueError for non-square input; outer_product_sum(A,B) is A^T B, sum of outer products of rows.", "quantifier": "all sizes", "why_tests_cant": "all sizes", "anchors": ["filterpy/common/helpers.py:inv_diagonal", "filterpy/common/helpers.py:outer_product_sum"]}
{"id": "C49", "title": "Fixed lag smoother", "statement": "FixedLagSmoother.x and P after any list of measurements are the KalmanFilter's; smooth in a loop and smooth_batch produce the same smoothed lists and the same exception; xSmooth has one entry per measurement, entry j is given by a closed formula, and entries older than the lag are never changed again. The newest smoothed entry is not the filter estimate once the lag is reached.", "quantifier": "all measurement lists, all lags", "why_tests_cant": "unbounded histories", "anchors": ["filterpy/kalman/fixed_lag_smoother.py:FixedLagSmoother"]}
{"id": "C50", "title": "H-infinity filter", "statement": "HInfinityFilter.update keeps P exactly symmetric in any arithmetic with commutative addition (binary64 included); update(None) and a raising update change nothing; predict never changes P. For invertible symmetric P the new P is F M^-1 F^T + W with M = P^-1 - gamma Q + H^T V^-1 H, and a positive gamma can only enlarge it. With gamma = 0 P follows the Kalman recursion, and with F = I the whole filter is a Kalman filter; with other F the estimate is not the Kalman estimate. batch_filter with its default saver argument raises on every non-empty list of measurements.", "quantifier": "all states and measurements", "why_tests_cant": "all inputs", "anchors": ["filterpy/hinfinity/hinfinity_filter.py:HInfinityFilter"]}
{"id": "C51", "title": "Constructors reject bad dimensions", "statement": "KalmanFilter, InformationFilter, FadingKalmanFilter, ExtendedKalmanFilter and the others raise ValueError exactly when the documented dimension checks fail and otherwise start in the documented initial state; SquareRootKalmanFilter does not reject dim_x < 1.", "quantifier": "all integers", "why_tests_cant": "all integers", "anchors": ["filterpy/kalman/kalman_filter.py:KalmanFilter.__init__", "filterpy/kalman/square_root.py:SquareRootKalmanFilter.__init__"]}
{"id": "C52", "title": "Likelihood caching", "statement": "log_likelihood/likelihood/mahalanobis read after any history equal the values computed from the current y and S, provided the last operation was update; likelihood is always positive; after update_sequential, or update(None) in EKF/UKF/FadingKF, they report stale values. In the EKF, FadingKalmanFilter, UKF and CubatureKalmanFilter reads made after an update and any sequence of predictions, missing measurements and other reads are those of that update.", "quantifier": "all histories interleaving reads and updates", "why_tests_cant": "histories", "anchors": ["filterpy/kalman/kalman_filter.py:KalmanFilter.log_likelihood", "filterpy/kalman/kalman_filter.py:KalmanFilter.likelihood", "filterpy/kalman/kalman_filter.py:KalmanFilter.mahalanobis", "filterpy/kalman/EKF.py:ExtendedKalmanFilter.log_likelihood", "filterpy/kalman/UKF.py:UnscentedKalmanFilter.log_likelihood", "filterpy/kalman/CubatureKalmanFilter.py:CubatureKalmanFilter.log_likelihood", "filterpy/kalman/fading_memory.py:FadingKalmanFilter.log_likelihood"]}
{"id": "C53", "title": "Variance reduction factors", "statement": "For a GHFilter fed measurements with uncorrelated errors of variance s2, the error covariance stays constant exactly when it is s2 times VRF() (with the matching cross term), and then the prediction error variance is s2*VRF_prediction(). For GHKFilter only the third component of VRF() has this meaning: the first two and VRF_prediction() do not. For the third-order filter the exact correction is: the variance of dx is 2/dt^2 times VRF()[1], and VRF()[0] and VRF_prediction() become the variances after moving one parenthesis of their denominators.", "quantifier": "all finite ensembles of filters and measurement errors, all targets, gains and time steps", "why_tests_cant": "a statistical statement over all noise distributions", "anchors": ["filterpy/gh/gh_filter.py:GHFilter.VRF", "filterpy/gh/gh_filter.py:GHFilter.VRF_prediction", "filterpy/gh/gh_filter.py:GHKFilter.VRF", "filterpy/gh/gh_filter.py:GHKFilter.VRF_prediction"]}
{"id": "C54", "title": "Fading memory filter covariance and truncation error", "statement": "FadingMemoryFilter.P is the stationary error variance per unit measurement variance and e the stationary lag on a polynomial one degree above the order, for order 0 and 2; for order 1 P[1] lacks 1/dt^2 and e[0] is proportional to dt instead of dt^2.", "quantifier": "all ensembles, beta in (0,1), all time steps", "why_tests_cant": "statistical statement over all noise distributions; limit behaviour", "anchors": ["filterpy/memory/fading_memory.py:FadingMemoryFilter.__init__", "filterpy/memory/fading_memory.py:FadingMemoryFilter.update"]}
{"id": "C55", "title": "LeastSquaresFilter.errors is the true standard deviation", "statement": "For measurements of a polynomial of the filter's order with uncorrelated errors of variance sigma^2, the mean squared error of each state component after n > order updates is exactly the square of errors()[1]; errors() raises ZeroDivisionError exactly for order 1, n=1 and order 2, n=1,2.", "quantifier": "all ensembles of noise sequences, all polynomials, all n", "why_tests_cant": "statistical statement over all noise distributions and sequence lengths", "anchors": ["filterpy/leastsq/least_squares.py:LeastSquaresFilter.errors"]}
{"id": "C56", "title": "GHKFilter.bias_error is the constant-jerk lag", "statement": "On a target with constant jerk and no measurement error, the prediction error of a GHKFilter whose errors have become constant equals bias_error(jerk).", "quantifier": "all gains, time steps, jerks", "why_tests_cant": "limit behaviour", "anchors": ["filterpy/gh/gh_filter.py:GHKFilter.bias_error"]}
{"id": "C57", "title": "UKF rts_smoother on linear models", "statement": "With fx(x, dt) = G(dt) x, UnscentedKalmanFilter.rts_smoother returns the means and covariances (and gains) of the linear fixed-interval smoother run with transitions G(dts[k]) and the filter's own Q. It ignores its Qs argument, and it pairs dts[k] with the step k -> k+1 whereas batch_filter pairs dts[k+1] with that step.", "quantifier": "all lengths, dimensions, exact sigma points, transition families", "why_tests_cant": "unbounded lengths; tests use one constant dt and the default Q", "anchors": ["filterpy/kalman/UKF.py:UnscentedKalmanFilter.rts_smoother"]}
{"id": "C58", "title": "More noise never means less uncertainty", "statement": "Run two KalmanFilter objects with the same F and H through the same sequence of predict/update calls. If the second starts with a covariance at least as large, uses process and measurement noise at least as large (attributes and per-call overrides), alpha at least as large, and possibly has some measurements missing (None), then at every point its P, P_prior and P_post are at least those of the first in the positive-semidefinite order, and it raises nothing if the first raised nothing.", "quantifier": "all dimensions, all pairs of filters and call histories so related, all measurement values", "why_tests_cant": "a matrix inequality over all histories; the measurement update is nonlinear in P so sampling says little", "anchors": ["filterpy/kalman/kalman_filter.py:KalmanFilter.predict", "filterpy/kalman/kalman_filter.py:KalmanFilter.update"]}
{"id": "C59", "title": "Only ratios of covariances matter", "statement": "Multiplying P, Q, R, M and every noise override by the same non-zero factor leaves x, x_prior, x_post, the residual and the gain unchanged along every call history, multiplies P, P_prior, P_post and S by that factor and SI by its inverse, and the same calls raise.", "quantifier": "all factors, dimensions and histories of predict, update, steady-state, correlated and sequential calls", "why_tests_cant": "all histories and all factors", "anchors": ["filterpy/kalman/kalman_filter.py:KalmanFilter"]}
{"id": "C60", "title": "Superposition", "statement": "The estimate is linear in the data: if a third run has initial state, measurements and controls equal to a times those of a first run plus b times those of a second, with the same covariances and model, then x, x_prior, x_post and y of the third run are a times the first's plus b times the second's at every point.", "quantifier": "all a, b, initial states, measurement and control sequences, all histories (any inverse routine)", "why_tests_cant": "ranges over all sequences", "anchors": ["filterpy/kalman/kalman_filter.py:KalmanFilter"]}
{"id": "C61", "title": "residual_of and log_likelihood_of after an update", "statement": "KalmanFilter.residual_of(z) equals the innovation y that update(z) stored, when called before that update or after it (until the next predict). For the square root and fading memory filters it equals y only when called before the update. Called after update(z), the state-based residual z - H x is the post-fit residual R S^-1 y, so log_likelihood_of(z) called after the update does not return the likelihood of the update, and with two measurements in one epoch residual_of no longer matches y. stats.log_likelihood evaluated on the prior equals the filter's log_likelihood.", "quantifier": "every filter state, measurement and gain routine; exact theorems over every ordered field and all dimensions", "why_tests_cant": "the identities relate calls made at different times for all matrices; a test fixes one filter and one order of calls", "anchors": ["filterpy/kalman/kalman_filter.py:KalmanFilter.residual_of", "filterpy/kalman/kalman_filter.py:KalmanFilter.log_likelihood_of", "filterpy/kalman/square_root.py:SquareRootKalmanFilter.residual_of", "filterpy/kalman/fading_memory.py:FadingKalmanFilter.residual_of", "filterpy/stats/stats.py:log_likelihood"]}
{"id": "C62", "title": "Benedict-Bordner gains: optimal transient, ringing", "statement": "After the velocity of a target jumps, the sum of all squared residuals of a stable g-h filter that was locked on converges to w^2 dt^2 (2-g)/(g h (4-2g-h)). Among all stable gains with the same VRF_prediction(), those of benedict_bornder_constants(g) give the strictly smallest sum. These gains ring: for 0<g<1 some residual has the sign opposite to the first. With critical=True no residual ever changes sign and the filter is stable.", "quantifier": "every g, every competing stable pair of gains, every time step, position and velocity jump, the infinite sequence of updates", "why_tests_cant": "optimality ranges over a continuum of competing filters and the objective is an infinite sum", "anchors": ["filterpy/gh/gh_filter.py:benedict_bornder_constants", "filterpy/gh/gh_filter.py:GHFilter.update", "filterpy/gh/gh_filter.py:GHFilter.VRF_prediction"]}
{"id": "C63", "title": "Run-time shapes of KalmanFilter", "statement": "With attributes and arguments of the documented shapes no history of predict and update raises a shape error, x keeps its layout, and a filter whose x is a 1-D array computes the same numbers and raises the same exceptions as one whose x is a column. update accepts a measurement exactly when it is a number (dim_z = 1), a 1-D array, a row or a column of dim_z values. test_matrix_dimensions accepts exactly a stated set of shapes, and that set is wrong in both directions compared with what update accepts. Broadcasting silently corrupts the state when the control vector or (with H passed) the measurement has the other layout, and a number assigned to the attribute R is added to every entry of the innovation covariance. A number passed as F makes predict raise AttributeError after x has been multiplied by it (P is the old one), and a 1-D array as H makes every update of a filter with several states raise ValueError after the residual and the innovation covariance have been replaced.", "quantifier": "every arithmetic, every shape up to rank 2, every history", "why_tests_cant": "The claims range over all sizes, layouts and call sequences; silent broadcasting raises nothing a test would notice.", "anchors": ["filterpy/kalman/kalman_filter.py:KalmanFilter.predict", "filterpy/kalman/kalman_filter.py:KalmanFilter.update", "filterpy/kalman/kalman_filter.py:KalmanFilter.test_matrix_dimensions", "filterpy/common/helpers.py:reshape_z"]}
{"id": "C64", "title": "copy_states and compare_kf", "statement": "copy_states(dst, src) makes every attribute both objects have, functions excepted, read in dst as in src, leaves src and every other attribute of dst as they were, in whatever order the attributes are visited, and afterwards no in-place change of one object is visible through the other. compare_kf returns None exactly when all public common attributes are close and never returns the promised list of names: any difference raises NameError.", "quantifier": "all pairs of objects sharing arrays in any way, all visiting orders, all later changes", "why_tests_cant": "Aliasing effects depend on which arrays are shared and on later mutations; a test fixes one sharing pattern and one set order.", "anchors": ["filterpy/common/helpers.py:copy_states", "filterpy/common/helpers.py:compare_kf"]}
{"id": "C65", "title": "Saver.to_array and flatten", "statement": "saver[k] is always the list of all values of k ever saved, whatever to_array and flatten calls happen in between; the attribute saver.k is that list after a save, the array of it after to_array, and if one key cannot be converted ValueError is raised and all attributes are back to lists. flatten keeps the data, turns (n,k,1) into (n,k) and (n,1,1) into (n,) and leaves all arrays of fewer than three axes as they are, (n,1) included.", "quantifier": "all histories of save, to_array and flatten, all keys", "why_tests_cant": "The claim ranges over interleavings of saves and conversions, including failing conversions.", "anchors": ["filterpy/common/helpers.py:Saver.to_array", "filterpy/common/helpers.py:Saver.flatten", "filterpy/common/helpers.py:Saver.save"]}
{"id": "C66", "title": "linear_ode_discretation is the exact discretization", "statement": "linear_ode_discretation(F, L, Q, dt), whose docstring reads 'not sure what this does', returns for every nilpotent F the pair exp(F dt) and the integral over [0, dt] of exp(F s) L Q L' exp(F s)' ds; it therefore equals van_loan_discretization whenever L Q L' = G G', its inverse never fails, and with the default Q the second matrix is zero.", "quantifier": "all dimensions, nilpotent F, L, Q, dt, over any ordered field; expm any routine that is the exponential series on nilpotent matrices", "why_tests_cant": "the identity between a block exponential times an inverse and an integral of products of exponentials ranges over all sizes and all real matrices; a test compares a few numbers", "anchors": ["filterpy/common/discretization.py:linear_ode_discretation", "filterpy/common/discretization.py:van_loan_discretization"]}
{"id": "C67", "title": "covariance_ellipse is the Mahalanobis contour", "statement": "For every positive definite 2x2 P and deviations k > 0, covariance_ellipse(P, k) returns an angle and two radii, width >= height > 0, whose ellipse consists of exactly the points (x, y) with (x,y) P^-1 (x,y)' = k^2. A negative k is rejected unless P is a multiple of the identity, where negative radii are returned. An indefinite P is not noticed: diag(1,-1) gives a circle.", "quantifier": "all positive definite real P, all k, every svd meeting numpy's contract on P and every atan2 that returns the angle of a unit vector; both directions of the set equality", "why_tests_cant": "set equality over all points of the plane and all covariances, and over the sign and order choices svd is free to make", "anchors": ["filterpy/stats/stats.py:covariance_ellipse"]}
{"id": "C68", "title": "Resampling is unbiased", "statement": "Over uniform draws, the expected number of copies of particle j is N w_j: for systematic_resample as the integral over its single draw of the count in the returned array; for stratified_resample each returned index depends on its own draw only and the N selection probabilities add up to N w_j; for multinomial_resample every index depends on its own draw only, through one function, and equals j with probability w_j.", "quantifier": "all normalised nonnegative weight lists, all particles j, integrals over [0,1] of the exact functions computed", "why_tests_cant": "an expectation over a continuum of draws can be sampled but not established by running; a bias of order 1/N^2 would pass any statistical test of reasonable size", "anchors": ["filterpy/monte_carlo/resampling.py:systematic_resample", "filterpy/monte_carlo/resampling.py:stratified_resample", "filterpy/monte_carlo/resampling.py:multinomial_resample"]}
{"id": "C69", "title": "Stability of the g-h and g-h-k filters", "statement": "GHFilter fed a noiseless target moving at constant velocity locks on (position and velocity errors tend to zero from every starting state) exactly when g>0, h>0 and 2g+h<4. GHKFilter fed a noiseless constant-acceleration target locks on exactly when 0<g<2, 2g+h<4, k>0 and k(2-g)<g h. Consequently the gains of optimal_noise_smoothing lock on for every 0<g<1 (and the function raises exactly for g=0 and g=1); those of critical_damping lock on exactly when theta<1 in both orders with theta in [0,1]; those of Benedict-Bordner for 0<g<=1 in both variants.", "quantifier": "all real gains, all nonzero dt, all starting states and targets, the limit over infinitely many updates", "why_tests_cant": "a limit over infinitely many updates from every starting state; near the edge of the region errors decay or grow arbitrarily slowly", "anchors": ["filterpy/gh/gh_filter.py:GHFilter.update", "filterpy/gh/gh_filter.py:GHKFilter.update", "filterpy/gh/gh_filter.py:optimal_noise_smoothing", "filterpy/gh/gh_filter.py:critical_damping_parameters", "filterpy/gh/gh_filter.py:benedict_bornder_constants"]}
{"id": "C70", "title": "The reported covariance is the covariance of the error", "statement": "When a target moves and is measured as the KalmanFilter's matrices say, with noises of mean zero that are mutually uncorrelated and have the covariances Q and R in force at each call, then after every history of predict, update and update(None) calls, with per-call overrides: the estimate is unbiased, P is exactly the covariance of its error, each residual has mean zero and covariance S and is uncorrelated with all earlier measurements, and no affine function of the measurements has a smaller mean-square error matrix. When the filter's P, Q, R exaggerate the true covariances or alpha>=1, P still bounds the covariance of the error.", "quantifier": "all dimensions, all histories, all finite probability spaces and noises with those moments, all affine competitors, exact arithmetic", "why_tests_cant": "a statement about expectations over all noise distributions and all competing estimators; simulations estimate but cannot establish either", "anchors": ["filterpy/kalman/kalman_filter.py:KalmanFilter.predict", "filterpy/kalman/kalman_filter.py:KalmanFilter.update"]}
{"id": "C71", "title": "Which arrays are shared with the caller, and when a kept reference changes", "statement": "KalmanFilter behaves as if its attributes were values, even when a program keeps arrays read from it and writes into those the filter has left behind. No call except update_sequential changes an existing x, y or K array; the array a program assigned to kf.x follows the estimate until the first call that computes a new one. update_sequential and SquareRootKalmanFilter.update write into the caller's array. LeastSquaresFilter.update returns the array it will overwrite: collected estimates all read as the last one since the last reset; likewise x of GHFilterOrder and of FadingMemoryFilter of orders 1 and 2, not of order 0. Two MMAEFilterBanks with their own probability arrays are independent under every interleaving; given the same array they are not.", "quantifier": "all histories of calls, assignments and writes through references; all arithmetics", "why_tests_cant": "needs every interleaving of calls with writes through every reference ever obtained", "anchors": ["filterpy/kalman/kalman_filter.py:KalmanFilter.update_sequential", "filterpy/kalman/kalman_filter.py:KalmanFilter.update", "filterpy/kalman/square_root.py:SquareRootKalmanFilter.update", "filterpy/leastsq/least_squares.py:LeastSquaresFilter.update", "filterpy/memory/fading_memory.py:FadingMemoryFilter.update", "filterpy/gh/gh_filter.py:GHFilterOrder.update", "filterpy/kalman/mmae.py:MMAEFilterBank.update"]}
{"id": "C72", "title": "In binary64 the variance never turns negative with one state, and can with two", "statement": "In IEEE binary64 arithmetic, a KalmanFilter, ExtendedKalmanFilter or FadingKalmanFilter with one state and one measurement, started with P, Q, R that are not negative, has after every history of calls (per-call Q and R not negative, any F, H, measurements, Jacobians, any result of inv) a P that is NaN or not negative, whatever is lost to rounding, underflow or overflow. This is not so for update_correlated, which does not use the Joseph form, nor with two states: a positive semidefinite P and one update can leave a negative entry on the diagonal. Nor does P stay exactly symmetric with two states: a constant-velocity filter loses it within three cycles.", "quantifier": "all binary64 inputs including infinities, NaN and subnormals, all histories", "why_tests_cant": "2^64 values per input and unbounded histories; sign failures sit at extreme scale ratios that random tests do not hit", "anchors": ["filterpy/kalman/kalman_filter.py:KalmanFilter.update", "filterpy/kalman/kalman_filter.py:KalmanFilter.predict", "filterpy/kalman/kalman_filter.py:KalmanFilter.update_sequential", "filterpy/kalman/kalman_filter.py:KalmanFilter.update_correlated", "filterpy/kalman/EKF.py:ExtendedKalmanFilter.update", "filterpy/kalman/fading_kalman_filter.py:FadingKalmanFilter.update"]}
{"id": "C73", "title": "In binary64, resampling picks the first particle above each position and probabilities stay within [0,1]", "statement": "In IEEE binary64 arithmetic: if systematic_resample or stratified_resample returns, for weights that are not negative, draws in [0,1) and up to 2^53 particles, every sampling position gets exactly the first index whose computed cumulative weight exceeds it, and a particle of weight zero is never chosen. normalize, update and every run of the discrete Bayes filter give entries that are NaN or in [0,1], and numbers when the computed sum is positive and finite; the mode probabilities of IMMEstimator and MMAEFilterBank are NaN or in [0,1] after every history. Products that underflow do give NaN.", "quantifier": "all binary64 inputs, all lengths up to 2^53, all histories, all filters in the bank", "why_tests_cant": "rounding could break monotonicity of positions or of cumulative sums for particular bit patterns only", "anchors": ["filterpy/monte_carlo/resampling.py:systematic_resample", "filterpy/monte_carlo/resampling.py:stratified_resample", "filterpy/discrete_bayes/discrete_bayes.py:normalize", "filterpy/discrete_bayes/discrete_bayes.py:update", "filterpy/discrete_bayes/discrete_bayes.py:predict", "filterpy/kalman/IMM.py:IMMEstimator.update", "filterpy/kalman/mmae.py:MMAEFilterBank.update"]}
{"id": "C74", "title": "The plotting functions draw the sets and curves they name", "statement": "plot_covariance draws one ellipse per level asked for, and a point lies on it exactly when its Mahalanobis distance from the mean is that level (standard deviations win over intervals, intervals over variances; wrong argument combinations raise ValueError). plot_gaussian_pdf and plot_gaussian_cdf draw a thousand evenly spaced points of the curve over the window; plot_discrete_cdf draws the running totals, never decreasing and ending at 1. plot_3d_covariance refuses exactly indefinite matrices and wrong shapes; every vertex lies on the ellipsoid at Mahalanobis distance std, the surface is closed and inside the axis limits. Not as documented: show_semiaxis ends at half a standard deviation whatever the level; plot_gaussian_pdf(std=s) is refused; plot_gaussian always raises.", "quantifier": "all means, all positive definite covariances, all levels and intervals, all grid sizes, every SVD, eigendecomposition and argsort meeting its contract", "why_tests_cant": "a drawing is only ever inspected by eye on an example; that the set of points is the level set is a statement about a continuum", "anchors": ["filterpy/stats/stats.py:plot_covariance", "filterpy/stats/stats.py:plot_covariance_ellipse", "filterpy/stats/stats.py:plot_gaussian_pdf", "filterpy/stats/stats.py:plot_gaussian_cdf", "filterpy/stats/stats.py:plot_gaussian", "filterpy/stats/stats.py:plot_discrete_cdf", "filterpy/stats/stats.py:plot_3d_covariance", "filterpy/stats/stats.py:_eigsorted", "filterpy/stats/stats.py:_std_tuple_of"]}
{"id": "C75", "title": "rand_student_t draws Student's t scaled by std over root two", "statement": "Whatever standard normal draw z and gamma draw g of shape df/2 it makes, rand_student_t(df, mu, std) returns mu + (std / sqrt 2) * t, where t = z / sqrt(2g / df) is the Student t variate of those draws. It is therefore never mu + std * t, the variate with the scale asked for (unless z = 0 or std = 0): the scale is too small by sqrt 2.", "quantifier": "all degrees of freedom df > 0, all mu and std, all draws", "why_tests_cant": "the result is random; the scale error is invisible without a statistical test, and needs the identity for every draw", "anchors": ["filterpy/stats/stats.py:rand_student_t"]}
{"id": "C76", "title": "KalmanFilter forgets its initial estimate and covariance exponentially fast", "statement": "In exact arithmetic, two KalmanFilters with the same matrices, given the same measurements and controls: (1) if only the initial estimates differ, then after any history of predict and update calls the squared difference of the estimates in any direction, relative to the reported variance in that direction, is at most its initial value times ((1-d)/alpha^2)^N, where N counts the predictions and d is the fraction of the predicted covariance that is process noise; (2) if the initial covariances differ by at most the factor 1+c (in the Loewner order), the final ones differ by at most the factor 1+c(1-d)^N; (3) when every component of the state is measured, R is positive definite and Q is at least a fraction d > 0 of the noise of recovering the state from one measurement and predicting it, both bounds hold with that d for every sequence of measurements and any initial covariances; (4) then a covariance that one update-predict cycle reproduces (the one predict_steadystate / update_steadystate assume) is unique.", "quantifier": "all dimensions, all models, all initial estimates and positive semidefinite covariances, all histories of predict and update calls of any length, all measurements and controls", "why_tests_cant": "convergence is a statement about every history length and every pair of initial conditions; tests run one simulation and look at a plot or a tolerance", "anchors": ["filterpy/kalman/kalman_filter.py:KalmanFilter.predict", "filterpy/kalman/kalman_filter.py:KalmanFilter.update", "filterpy/kalman/kalman_filter.py:KalmanFilter.batch_filter", "filterpy/kalman/kalman_filter.py:KalmanFilter.predict_steadystate", "filterpy/kalman/kalman_filter.py:KalmanFilter.update_steadystate"]}
{"id": "C77", "title": "Initial values given as arrays of integers", "statement": "FadingMemoryFilter copies an array x0 with its type: with integers, orders 1 and 2 truncate every component of the estimate towards zero at every update, so the estimate stays an integer for ever, and a filter at rest at an integer never follows measurements above it that are within one over each gain, although the same filter started with floats (or of order 0, or from a scalar) does. discrete_bayes.predict of a belief [0, .., 1, .., 0] of integers returns zeros everywhere for every offset and every kernel without a weight of 1; update raises TypeError exactly when both arguments hold integers. KalmanFilter computes the same with an x of integers as with floats unless update_sequential is the first call to change x: that raises TypeError, with the gain and residual already replaced and estimate, covariance and posterior kept; SquareRootKalmanFilter.update does the same until the first prediction. An MMAEFilterBank given integer probabilities never completes an update: where the same bank with floats succeeds it raises TypeError after every filter has taken the measurement, x and P stay as they were, and if p held 0s and 1s and each likelihood is below 1, all of p is 0 afterwards.", "quantifier": "all measurements and histories, all beta in (0,1) and dt > 0, all offsets and kernels, all filters and dimensions", "why_tests_cant": "The tests start from floats or scalars; the loss is silent, and that the estimate never moves is a statement about every number of updates.", "anchors": ["filterpy/memory/fading_memory.py:FadingMemoryFilter.__init__", "filterpy/memory/fading_memory.py:FadingMemoryFilter.update", "filterpy/discrete_bayes/discrete_bayes.py:predict", "filterpy/discrete_bayes/discrete_bayes.py:normalize", "filterpy/kalman/kalman_filter.py:KalmanFilter.update_sequential", "filterpy/kalman/square_root.py:SquareRootKalmanFilter.update", "filterpy/kalman/mmae.py:MMAEFilterBank.update"]}
{"id": "C78", "title": "A KalmanFilter history is exact inference on the whole measurement record", "statement": "After any history of predictions, measurements and missing measurements, x and P are the mean and covariance of the state conditioned on the whole stacked record of measurements under the joint linear model the calls describe; the sum of log_likelihood read after each measurement is the log-density of the record (not of each measurement alone), the product of likelihood is its density, and the sum of squared mahalanobis is the squared distance of the record from its mean. The joint law used is the one whose moments the simulated random target of C70 has.", "quantifier": "all histories of any length, all dimensions, all matrices with positive semidefinite noise and invertible record covariance, all measurements; also over the standard library's reals with sqrt, exp and ln", "why_tests_cant": "Tests compare single steps; that the likelihoods of one recursive run multiply to the joint density of the record is a statement about histories of every length.", "anchors": ["filterpy/kalman/kalman_filter.py:KalmanFilter.predict", "filterpy/kalman/kalman_filter.py:KalmanFilter.update", "filterpy/kalman/kalman_filter.py:KalmanFilter.log_likelihood", "filterpy/kalman/kalman_filter.py:KalmanFilter.likelihood", "filterpy/kalman/kalman_filter.py:KalmanFilter.mahalanobis"]}
{"id": "C79", "title": "Sigma-point means are exact to degree three", "statement": "When the components of fx are polynomials of degree at most three, the x that UnscentedKalmanFilter.predict (Merwe or Julier points) and CubatureKalmanFilter.predict produce is the mean of fx(X) for every random X with the filter's mean and covariance and zero third central moments; the measurement UnscentedKalmanFilter.update subtracts after a prediction is the mean of hx(X) likewise. Simplex points are exact to degree two and not to degree three. The covariance is not exact: for the square of a standard scalar the cubature filter reports no variance beyond Q.", "quantifier": "all polynomials, dimensions, estimates, symmetric covariances, point parameters and square-root routines returning a factor", "why_tests_cant": "Tests run one nonlinear function and compare with a recorded number or with plots; exactness ranges over all polynomials and all distributions.", "anchors": ["filterpy/kalman/sigma_points.py:MerweScaledSigmaPoints", "filterpy/kalman/sigma_points.py:JulierSigmaPoints", "filterpy/kalman/sigma_points.py:SimplexSigmaPoints", "filterpy/kalman/unscented_transform.py:unscented_transform", "filterpy/kalman/UKF.py:UnscentedKalmanFilter.predict", "filterpy/kalman/UKF.py:UnscentedKalmanFilter.update", "filterpy/kalman/CubatureKalmanFilter.py:spherical_radial_sigmas", "filterpy/kalman/CubatureKalmanFilter.py:CubatureKalmanFilter.predict"]}
{"id": "C80", "title": "batch_filter followed by rts_smoother returns each state's law given the whole record, singular Q included", "statement": "After batch_filter over any epochs (any of them without measurement), KalmanFilter.rts_smoother returns if and only if the predicted covariances of the second and later epochs are invertible; when it returns, entry k of its states and covariances is the mean and covariance of the state after epoch k given every measurement of the record, earlier and later. Process noise may be singular, as Q_discrete_white_noise's is. The joint law of that state and the record is the law of a target that moves and is measured as the matrices say. With a positive definite start and invertible motions the smoother always returns.", "quantifier": "all records of any length, all dimensions, all positive semidefinite P and Q, all positive definite R, all F, H and measurements, any pattern of missing measurements", "why_tests_cant": "The tests smooth one simulated track and look at the plot; that every entry is the conditional law given all measurements is a statement about every record.", "anchors": ["filterpy/kalman/kalman_filter.py:KalmanFilter.batch_filter", "filterpy/kalman/kalman_filter.py:KalmanFilter.rts_smoother", "filterpy/common/discretization.py:Q_discrete_white_noise"]}
{"id": "C81", "title": "An MMAEFilterBank of Kalman filters is Bayes' rule on the whole record", "statement": "Make an MMAEFilterBank of KalmanFilters with prior probabilities p and call predict and update on it in any order, each update with a measurement. Afterwards p[i] is the prior p[i] times the Gaussian density of all the measurements together under filter i's model, divided by the sum of these over the filters; each filter's x and P are the mean and covariance of the state given the record under that filter's model; all filters see the same record; and after an update the bank's x is the conditional mean averaged over the models with their posterior probabilities. Neither the order of normalisations nor cached likelihoods affects this.", "quantifier": "all numbers of filters, all dimensions, all histories of any length with per-call R and H, all positive semidefinite P, Q, R, all prior probability vectors including zeros", "why_tests_cant": "The repository's test runs one bank on one simulated track and checks which filter wins; that the running product of one-step likelihoods is the density of the whole record is a statement about every history.", "anchors": ["filterpy/kalman/mmae.py:MMAEFilterBank.update", "filterpy/kalman/mmae.py:MMAEFilterBank.predict", "filterpy/kalman/kalman_filter.py:KalmanFilter.likelihood"]}
{"id": "C82", "title": "NEES averages dim_x exactly when the filter's covariance is honest", "statement": "Let a KalmanFilter follow a random target through any history of predicts, updates and missing measurements, and pass the true states, estimates and covariances at any epochs to stats.NEES. If the filter's P, Q and R are those of the target and its noises, the expectation of every entry, and of their mean over the track, is dim_x. If the filter exaggerates the noise (or alpha > 1) it is at most dim_x; if it understates the noise it is at least dim_x. The expectation of the squared mahalanobis property after an update is dim_z. The noises need not be Gaussian.", "quantifier": "all finite probability spaces, all noises with the stated means and covariances, all histories of any length, all dimensions, all lists of epochs with invertible P", "why_tests_cant": "The test for NEES plots one run; that the average is dim_x is a statement about all outcomes and all histories.", "anchors": ["filterpy/stats/stats.py:NEES", "filterpy/kalman/kalman_filter.py:KalmanFilter.mahalanobis", "filterpy/kalman/kalman_filter.py:KalmanFilter.update"]}
{"id": "C83", "title": "Printing shows every value under its name and leaves the filter alone", "statement": "pretty_str(label, a) of an array prints the lines of str(a), the first behind 'label = ' and the others indented below it, so that cutting the margin gives str(a) back; a column of more than one entry is printed on one line as its transpose with '.T'; a nested list prints exactly its values in order, each under its index label[i][j]; an empty list is shown as an empty object of its type on one line behind 'label = ' (also behind ' = ' when the label is empty, though anything else then stands alone); with label None a list that is not empty raises TypeError, though arrays print. repr() of 14 classes shows each value under its own name; of FadingKalmanFilter and FixedLagSmoother it shows x as dim_x and dim_z, of HInfinityFilter dim_u as gamma, of GHKFilter dx_prediction as ddx_prediction, of MMAEFilterBank p as log-p, so objects that differ in those attributes only can print the same. Printing a KalmanFilter, however often and wherever in a history, changes no attribute but the cached likelihoods and no later exception, and no likelihood read later either unless update_sequential is used, which then reports the earlier measurement's. The same holds for ExtendedKalmanFilter and FadingKalmanFilter, where a later likelihood can change only if a call raised. repr_string(obj) shows, in the order of dir(obj), exactly the attributes that are not methods and whose name does not start with two underscores (or with one, unless private names are asked for), each under its own name.", "quantifier": "all labels and texts, all nesting depths, all attribute values, all histories with prints anywhere", "why_tests_cant": "Texts, nestings and histories are unbounded; that a print in a debugging session alters a later likelihood shows only in one interleaving", "anchors": ["filterpy/common/helpers.py:pretty_str", "filterpy/common/helpers.py:pprint", "filterpy/kalman/kalman_filter.py:KalmanFilter.__repr__", "filterpy/kalman/fading_memory.py:FadingKalmanFilter.__repr__", "filterpy/kalman/fixed_lag_smoother.py:FixedLagSmoother.__repr__", "filterpy/hinfinity/hinfinity_filter.py:HInfinityFilter.__repr__", "filterpy/gh/gh_filter.py:GHKFilter.__repr__", "filterpy/kalman/mmae.py:MMAEFilterBank.__repr__", "filterpy/kalman/EKF.py:ExtendedKalmanFilter.__repr__", "filterpy/common/helpers.py:repr_string"]}
{"id": "C84", "title": "An IMM that never switches is a bank of independent filters", "statement": "An IMMEstimator whose transition matrix M is the identity, and an MMAEFilterBank made from the same filters with the same (positive) probabilities: a sequence of predict and update(z) calls raises on one if and only if it raises on the other, and if it does not the two hold the same filters and the same probabilities afterwards, and after an update the same x. For KalmanFilters the IMMEstimator's mu therefore is the posterior distribution of the models given the whole record, and each filter's x and P are the conditional mean and covariance under its model. If one of the probabilities is zero this fails: in binary64 the first predict makes that mode's filter, and the estimator's x and P, NaN, while the MMAEFilterBank keeps numbers.", "quantifier": "all filters that report positive likelihoods, all banks and positive probabilities, all sequences of calls", "why_tests_cant": "It relates two classes over unbounded histories and arbitrary filters; a test compares two runs", "anchors": ["filterpy/kalman/IMM.py:IMMEstimator.predict", "filterpy/kalman/IMM.py:IMMEstimator.update", "filterpy/kalman/IMM.py:IMMEstimator._compute_mixing_probabilities", "filterpy/kalman/mmae.py:MMAEFilterBank.predict", "filterpy/kalman/mmae.py:MMAEFilterBank.update"]}
{"id": "C85", "title": "When the g-h filters divide by zero, and what is left then", "statement": "On Python numbers GHFilter.update and GHKFilter.update raise ZeroDivisionError exactly if dt = 0; the estimates x, dx (and ddx) are then unchanged, only the predictions and the residual are renewed, so a program that catches the exception keeps the first estimates for ever. batch_filter raises exactly if dt = 0, also for no data. GHFilter's VRF and VRF_prediction raise exactly if g = 0 or 2g + h = 4, so never for a filter that locks on; GHKFilter's VRF_prediction and bias_error never raise for one that locks on, but GHKFilter.VRF can (g = 1, h = 3/2, k = 1/2). benedict_bornder_constants raises exactly for g = 2 (critical: g = 0), and the gains it returns for 0 < g <= 1 always give variance reduction factors. In binary64 GHKFilter.update also raises for a dt that is not zero if dt**2 underflows; GHFilterOrder, which keeps x in an array, does not raise for dt = 0 but turns x into inf and then NaN.", "quantifier": "all real gains, time steps, states, measurements and histories", "why_tests_cant": "The gains that make a denominator vanish are a set of measure zero that random tests do not hit; that none lies in the stable region needs a proof", "anchors": ["filterpy/gh/gh_filter.py:GHFilter.update", "filterpy/gh/gh_filter.py:GHFilter.batch_filter", "filterpy/gh/gh_filter.py:GHFilter.VRF", "filterpy/gh/gh_filter.py:GHFilter.VRF_prediction", "filterpy/gh/gh_filter.py:GHKFilter.update", "filterpy/gh/gh_filter.py:GHKFilter.batch_filter", "filterpy/gh/gh_filter.py:GHKFilter.VRF", "filterpy/gh/gh_filter.py:GHKFilter.VRF_prediction", "filterpy/gh/gh_filter.py:GHKFilter.bias_error", "filterpy/gh/gh_filter.py:benedict_bornder_constants"]}
