# Formal model of filterpy in Rocq (Coq 8.16.1)

Source of truth: `/repo` (read only).  Everything below lives in `rocq/theories`.

## 1. Architecture

* **One model, several arithmetics.**  Every modelled function is a Gallina
  function over a record of operations: `sops` (scalars: `+ - * / sqrt exp log`,
  comparisons) and `nops` (NumPy matrices: `dot`, `+`, `-`, `.T`, `eye`,
  `zeros`, `scale`, entry access/construction).  No laws are part of the record.
  * *Law-free theorems* ("bit exact"): proved for **every** `nops`, so also for
    IEEE doubles and whatever BLAS does, as long as the operations are
    deterministic functions of their arguments.
  * *Exact theorems*: proved for the instance `exactO F` where `F` is an arbitrary
    `realFieldType`/`rcfType` of mathcomp and matrices are mathcomp's
    `'M[F]_(m,n)`, or for the stdlib-reals instance (`RO`) when the function is
    scalar.
  * *Float witnesses*: the instance over Coq's primitive binary64 floats is used to
    exhibit rounding bugs.
* **Exceptions are values.**  A mutating method is `state -> state * option exn`
  (so partial mutation before a raise is visible); a pure function that can raise
  returns `exn + A`.
* **External routines** (`numpy.linalg.inv`, `scipy.linalg.cholesky`, `qr`, random
  draws, user `fx`/`hx`) are arguments of the model; when a theorem needs their
  contract, the contract is a visible hypothesis of the theorem.
* `Model_*.v` hold definitions only, `Spec.v` (and small local
  specifications) hold the vocabulary used to state properties, `Proof_*.v` the
  lemmas, and `Prop_*.v` the property theorems, each followed by
  `Print Assumptions` and an `Example` showing its hypotheses are met.

## 2. Simplifications common to the whole model

* Exact theorems are about real arithmetic, not about rounding.  C72 and C73 are about IEEE binary64
  (Coq's primitive floats, round to nearest even); sums of products are taken left to right
  without fused multiply-add, which matters for the two-state witness of C72 only;
  `np.sum` and scipy's convolution are summed left to right too.
* State vectors are columns `(dim_x,1)` in the filter models.  The run-time shapes of
  NumPy (1-D versus 2-D arrays, scalars, broadcasting, `reshape_z`,
  `test_matrix_dimensions`) are modelled separately for `KalmanFilter` in
  `Model_Dyn.v`, where C63 shows for which shapes the two models agree.
* Arrays hold real numbers in the filter models.  `Model_Dtype.v` has the functions that write to an
  array supplied by the caller when it holds integers (C77).
* Attributes are values in the filter models.  References (which arrays a filter shares with
  its caller, which it writes in place) are modelled in `Model_Refs.v` for `KalmanFilter`,
  `SquareRootKalmanFilter`, `LeastSquaresFilter`, `FadingMemoryFilter`, `GHFilterOrder` and
  `MMAEFilterBank`; C71 shows when the value models are right.  `Saver` and `copy_states`
  have heap models of their own.
* Printing (`pretty_str` and the label lists of the `__repr__` methods) is modelled with NumPy's `str` as data;
  matplotlib calls, deprecated warnings and the `examples/` directory are not modelled.

## 3. Plan per property

| id | what is modelled | how it is proved |
|----|------------------|------------------|
| C01 | `KalmanFilter` state, predict, update | invariant over operation lists; Joseph form is a sum of congruences |
| C02, C03 | update | matrix algebra, completing the square in the gain |
| C04 | update | completing the square in the state, uniqueness by positive definiteness |
| C05, C06 | update/predict | law-free; induction over operation lists |
| C07 | update, update_correlated, EKF update with raising `inv` | law-free case analysis |
| C08 | get_prediction, get_update | law-free equality |
| C09 | batch_filter | law-free induction over the zipped lists |
| C10 | overrides, scalar Q/R | law-free |
| C11 | predict/update | law-free relational induction over two runs |
| C12 | module functions | law-free / field identities |
| C13, C14 | update_sequential, update | block-matrix algebra (Schur complement), induction over blocks |
| C15 | update_correlated | matrix algebra |
| C16 | steady state methods | induction over measurement lists |
| C17 | predict/update | induction with a simulation relation |
| C18 | batch_filter + rts_smoother | completed-squares decomposition of the trajectory cost by induction |
| C19 | both rts_smoother versions | induction over lists; witness for the disagreement |
| C20 | InformationFilter | simulation relation, matrix inversion lemma |
| C21 | SquareRootKalmanFilter | simulation relation using only `R^T R = M^T M` |
| C22 | ExtendedKalmanFilter | simulation relation; witnesses |
| C23 | FadingKalmanFilter, alpha property | law-free simulation; order on PSD matrices |
| C24, C25 | sigma points, unscented_transform | finite sums over points |
| C26 | UnscentedKalmanFilter | from C24, C25 by simulation |
| C27 | CubatureKalmanFilter | finite sums; witness |
| C28 | EnsembleKalmanFilter | sums over the ensemble |
| C29 | IMMEstimator over an arbitrary bank of filters | invariant by induction over histories |
| C30 | MMAEFilterBank | invariant by induction |
| C31 | discrete_bayes | list sums, index arithmetic modulo n |
| C32, C33 | resampling | loop invariants on the two-pointer loops; float witness |
| C34, C35, C36 | gh filters | induction over data |
| C37 | LeastSquaresFilter | induction on the normal equations |
| C38 | FadingMemoryFilter | induction |
| C39, C40 | stats | field identities, matrix algebra |
| C41, C42 | discretization | polynomial identities; nilpotent matrix exponential |
| C43, C44 | kinematic | binomial theorem; block structure |
| C45 | Saver with a heap of mutable objects | invariant over histories |
| C46 | runge_kutta4 | field identities |
| C47 | reshape_z on shape-carrying arrays | case analysis |
| C48 | inv_diagonal, outer_product_sum | loop invariants |
| C49 | FixedLagSmoother | induction over measurements |
| C50 | HInfinityFilter | matrix algebra, law-free symmetry |
| C51 | constructors | case analysis on integers |
| C52 | cached properties | invariant over histories interleaving reads |
| C53 | VRF, VRF_prediction | stationary covariance equation solved, uniqueness; corrected formula for GHK |
| C54 | FadingMemoryFilter P and e | stationary equation; lag on polynomials |
| C55 | LeastSquaresFilter.errors | variance of the least-squares estimate by induction |
| C56 | GHKFilter.bias_error | steady lag on a constant-jerk track |
| C57 | UKF rts_smoother | equality with the RTS recursion on linear models |
| C58 | predict/update | monotonicity of the Riccati map in the PSD order |
| C59, C60 | predict/update | simulation relations (scaling, superposition) |
| C61 | residual_of, log_likelihood_of | law-free; witnesses |
| C62 | benedict_bornder_constants | calculus on the transient cost; root analysis |
| C63 | KalmanFilter over shaped arrays | simulation between shaped and typed models |
| C64, C65 | copy_states, compare_kf, Saver.to_array, flatten | heap model, list algebra |
| C66 | linear_ode_discretation | block exponential of a nilpotent matrix, binomial sums |
| C67 | covariance_ellipse | singular vectors of a PSD matrix are eigenvectors; trigonometry |
| C68 | resampling | Riemann integrals of the selection functions |
| C69 | g-h filters | linear recurrences, Schur-Cohn/Jury conditions, both directions |
| C70 | KalmanFilter | second moments over a finite probability space, induction over histories |
| C71 | references: KalmanFilter, SquareRootKalmanFilter, LeastSquaresFilter, FadingMemoryFilter, GHFilterOrder, MMAEFilterBank | refinement between a heap and values, frame lemmas |
| C72 | sign (and symmetry) of the variance in binary64 | case analysis on the sign rules of SpecFloat operations, through the stdlib's FloatAxioms |
| C73 | resampling, discrete Bayes, IMM and MMAE probabilities in binary64 | Flocq's real-number semantics of the primitive floats: monotone rounding, exact whole numbers |
| C74 | plotting functions of stats.py | C67's level-set theorem scaled; spectral decomposition in three dimensions; spherical coordinates |
| C75 | rand_student_t | algebra of square roots |
| C76 | KalmanFilter | contraction of the Joseph form in the Loewner order along histories; Bernoulli's inequality for uniqueness |
| C77 | integer arrays in FadingMemoryFilter, discrete Bayes, KalmanFilter, SquareRootKalmanFilter, MMAEFilterBank | properties of truncation; at most one kernel weight meets a one-point belief; simulation by the float models |
| C78 | KalmanFilter and its likelihoods | block (Schur complement) factorisation of the record's covariance: determinant, inverse and quadratic form; induction over histories |
| C79 | sigma points, UnscentedKalmanFilter, CubatureKalmanFilter | central moments of symmetric point sets; linearity of weighted sums |
| C80 | batch_filter, rts_smoother | moments of a kept state with the record (no conditioning); block inverse; the backward gain carries the pair (mean, covariance) along |
| C81 | MMAEFilterBank on KalmanFilters | C30 (product of the reported likelihoods) with C78 (their product is the density of the record), over the real numbers; a bank runs iff its filters do |
| C82 | stats.NEES and the mahalanobis property on a random target | C70's error covariances (and a mirror image of its conservative case), trace of a product of positive semidefinite matrices |
| C83 | pretty_str, the __repr__ methods, and what printing does to a KalmanFilter, EKF or FadingKalmanFilter | algebra of lines; inspection of the label lists; simulation up to the cached values |
| C84 | IMMEstimator with the identity as transition matrix against MMAEFilterBank; Bayes' rule on the record; a mode of probability zero in binary64 | simulation by an invariant (omega stays the identity); C81; computation |
| C85 | ZeroDivisionError in gh_filter.py: when, what is left, never in the stable region except GHKFilter.VRF | the stability regions of C69; real algebra; computation in binary64 |

## 4. Trusted base

* Coq 8.16.1's kernel (`coqc`).  No `Admitted`, no axiom, no
  `Variable`/`Hypothesis` outside a section, no plugin of our own.
* The reading of the Python code into Gallina.  Every definition cites the lines it
  models; nothing is extracted or executed against NumPy.
* What `Print Assumptions` reports (it is run after every theorem in the sources;
  `439` theorems in all):
  * 315 theorems: "Closed under the global context" (every theorem not named below).
  * 94 theorems, the axioms of the standard library's real numbers: `ClassicalDedekindReals.sig_forall_dec`, `ClassicalDedekindReals.sig_not_dec`, `Classical_Prop.classic`, `FunctionalExtensionality.functional_extensionality_dep`.
    Theorems: `C62_transient`, `C62_optimal`, `C62_default_rings`, `C62_critical_does_not_ring`, `C46_exact_for_cubics`, `C46_exact_steps`, `C46_linear`, `C46_local_error`, `C42_is_integral`, `C77_fading_integer_refuted`, `C77_fading_stuck_refuted`, `C77_bayes_predict_refuted`, `C77_mmae_integer_lost_refuted`, `C67_ellipse`, `C67_negative_deviations`, `C67_indefinite_refuted`, `C38_discounted_least_squares`, `C38_is_critically_damped`, `C54_P_order0`, `C54_P_order1`, `C54_P_order1_refuted`, `C54_P_order2`, `C54_e_order0`, `C54_e_order1`, `C54_e_order1_refuted`, `C54_e_order2`, `C34_batch_is_iteration`, `C34_error_recursion`, `C34_ramp_tracked`, `C35_error_recursion`, `C35_constant_acceleration_tracked`, `C35_missing_gain`, `C35_batch_refuted`, `C36_least_squares_line`, `C85_gh_update`, `C85_gh_stuck`, `C85_gh_batch`, `C85_gh_VRF`, `C85_ghk_update`, `C85_ghk_stuck`, `C85_ghk_batch`, `C85_ghk_VRF`, `C85_ghk_VRF_refuted`, `C85_benedict_bordner`, `C85_benedict_bordner_usable`, `C39_mul_adds_precisions`, `C39_mul_commutative`, `C39_mul_associative`, `C39_mul_is_kalman_update`, `C39_product_density`, `C39_add`, `C39_normalised_array`, `C39_norm_cdf`, `C37_least_squares`, `C37_orders`, `C55_errors`, `C55_errors_raise`, `C74_covariance`, `C74_semiaxis_refuted`, `C74_documentation_refuted`, `C74_gaussian_pdf`, `C74_discrete_cdf`, `C74_eigsorted`, `C74_indefinite`, `C74_surface`, `C74_limits`, `C75_student`, `C75_scale_refuted`, `C32_systematic`, `C32_stratified`, `C33_searchsorted`, `C33_multinomial`, `C33_zero_weight_refuted`, `C33_residual_copies`, `C33_residual_unnormalised`, `C33_fractional_part_refuted`, `C33_residual_never_drawn_refuted`, `C68_systematic_unbiased`, `C68_stratified_unbiased`, `C68_multinomial_unbiased`, `C69_gh_stability_region`, `C69_ghk_stability_region`, `C69_optimal_noise_smoothing`, `C69_optimal_noise_smoothing_raises`, `C69_critical_damping`, `C69_benedict_bordner`, `C39_multivariate_gaussian`, `C39_multivariate_is_gaussian`, `C53_gh_VRF`, `C53_ghk_stationary`, `C53_ghk_VRF_refuted`, `C53_ghk_VRF_corrected`, `C56_bias_error`, `C56_constant_errors`.
  * 13 theorems, primitive floats and integers of the standard library: `PrimFloat.add`, `PrimFloat.div`, `PrimFloat.eqb`, `PrimFloat.float`, `PrimFloat.leb`, `PrimFloat.ltb`, `PrimFloat.mul`, `PrimFloat.of_uint63`, `PrimFloat.opp`, `PrimFloat.sqrt`, `PrimFloat.sub`, `PrimInt63.int`, `PrimInt63.lor`, `PrimInt63.lsl`, `PrimInt63.sub`.
    Theorems: `C31_impossible_measurement_refuted`, `C23_alpha_nan_refuted`, `C72_correlated_refuted`, `C72_two_states_refuted`, `C72_symmetry_refuted`, `C73_kalman_likelihood`, `C73_underflow_refuted`, `C34_batch_bitwise_refuted`, `C85_underflow_refuted`, `C85_order_refuted`, `C84_impossible_mode_refuted`, `C32_float_rounding_refuted`, `C32_float_position_refuted`.
  * 4 theorems, the axioms of the standard library's real numbers: `ClassicalDedekindReals.sig_forall_dec`, `ClassicalDedekindReals.sig_not_dec`, `Classical_Prop.classic`, `FloatAxioms.Prim2SF_SF2Prim`, `FloatAxioms.Prim2SF_valid`, `FloatAxioms.SF2Prim_Prim2SF`, `FloatAxioms.add_spec`, `FloatAxioms.div_spec`, `FloatAxioms.eqb_spec`, `FloatAxioms.leb_spec`, `FloatAxioms.mul_spec`, `FunctionalExtensionality.functional_extensionality_dep`, `PrimFloat.abs`, `PrimFloat.add`, `PrimFloat.div`, `PrimFloat.eqb`, `PrimFloat.float`, `PrimFloat.frshiftexp`, `PrimFloat.ldshiftexp`, `PrimFloat.leb`, `PrimFloat.ltb`, `PrimFloat.mul`, `PrimFloat.normfr_mantissa`, `PrimFloat.of_uint63`, `PrimFloat.opp`, `PrimFloat.sqrt`, `PrimFloat.sub`, `PrimInt63.eqb`, `PrimInt63.int`, `PrimInt63.land`, `PrimInt63.lor`, `PrimInt63.lsl`, `PrimInt63.lsr`, `PrimInt63.sub`.
    Theorems: `C73_update`, `C73_belief`, `C73_imm`, `C73_mmae`.
  * 4 theorems, the axioms of the standard library's real numbers: `ClassicalDedekindReals.sig_forall_dec`, `ClassicalDedekindReals.sig_not_dec`, `Classical_Prop.classic`, `Epsilon.epsilon_statement`, `FunctionalExtensionality.functional_extensionality_dep`.
    Theorems: `C78_likelihood_real`, `C81_posterior_of_models`, `C81_mean_over_models`, `C84_posterior_of_models`.
  * 3 theorems, primitive floats and integers of the standard library with their axioms: `FloatAxioms.add_spec`, `FloatAxioms.eqb_spec`, `FloatAxioms.leb_spec`, `FloatAxioms.mul_spec`, `PrimFloat.abs`, `PrimFloat.add`, `PrimFloat.div`, `PrimFloat.eqb`, `PrimFloat.float`, `PrimFloat.frshiftexp`, `PrimFloat.leb`, `PrimFloat.ltb`, `PrimFloat.mul`, `PrimFloat.normfr_mantissa`, `PrimFloat.of_uint63`, `PrimFloat.opp`, `PrimFloat.sqrt`, `PrimFloat.sub`, `PrimInt63.eqb`, `PrimInt63.int`, `PrimInt63.land`, `PrimInt63.lor`, `PrimInt63.lsl`, `PrimInt63.lsr`, `PrimInt63.sub`.
    Theorems: `C72_variance_sign`, `C72_extended`, `C72_fading`.
  * 2 theorems, the axioms of the standard library's real numbers: `ClassicalDedekindReals.sig_forall_dec`, `ClassicalDedekindReals.sig_not_dec`, `Classical_Prop.classic`, `FloatAxioms.Prim2SF_SF2Prim`, `FloatAxioms.Prim2SF_valid`, `FloatAxioms.SF2Prim_Prim2SF`, `FloatAxioms.add_spec`, `FloatAxioms.div_spec`, `FloatAxioms.eqb_spec`, `FloatAxioms.leb_spec`, `FloatAxioms.ltb_spec`, `FloatAxioms.of_uint63_spec`, `FunctionalExtensionality.functional_extensionality_dep`, `PrimFloat.abs`, `PrimFloat.add`, `PrimFloat.div`, `PrimFloat.eqb`, `PrimFloat.float`, `PrimFloat.frshiftexp`, `PrimFloat.ldshiftexp`, `PrimFloat.leb`, `PrimFloat.ltb`, `PrimFloat.mul`, `PrimFloat.normfr_mantissa`, `PrimFloat.of_uint63`, `PrimFloat.opp`, `PrimFloat.sqrt`, `PrimFloat.sub`, `PrimInt63.add`, `PrimInt63.eqb`, `PrimInt63.int`, `PrimInt63.land`, `PrimInt63.leb`, `PrimInt63.lor`, `PrimInt63.lsl`, `PrimInt63.lsr`, `PrimInt63.ltb`, `PrimInt63.sub`, `Uint63.add_spec`, `Uint63.eqb_correct`, `Uint63.eqb_refl`, `Uint63.leb_spec`, `Uint63.lor_spec`, `Uint63.lsl_spec`, `Uint63.lsr_spec`, `Uint63.ltb_spec`, `Uint63.of_to_Z`, `Uint63.sub_spec`.
    Theorems: `C73_systematic`, `C73_stratified`.
  * 1 theorems, the axioms of the standard library's real numbers: `ClassicalDedekindReals.sig_forall_dec`, `ClassicalDedekindReals.sig_not_dec`, `Classical_Prop.classic`, `FloatAxioms.Prim2SF_SF2Prim`, `FloatAxioms.Prim2SF_valid`, `FloatAxioms.SF2Prim_Prim2SF`, `FloatAxioms.add_spec`, `FloatAxioms.div_spec`, `FloatAxioms.eqb_spec`, `FloatAxioms.leb_spec`, `FloatAxioms.ltb_spec`, `FloatAxioms.of_uint63_spec`, `FunctionalExtensionality.functional_extensionality_dep`, `PrimFloat.abs`, `PrimFloat.add`, `PrimFloat.div`, `PrimFloat.eqb`, `PrimFloat.float`, `PrimFloat.frshiftexp`, `PrimFloat.ldshiftexp`, `PrimFloat.leb`, `PrimFloat.ltb`, `PrimFloat.normfr_mantissa`, `PrimFloat.of_uint63`, `PrimFloat.opp`, `PrimInt63.add`, `PrimInt63.eqb`, `PrimInt63.int`, `PrimInt63.land`, `PrimInt63.leb`, `PrimInt63.lor`, `PrimInt63.lsl`, `PrimInt63.lsr`, `PrimInt63.ltb`, `PrimInt63.sub`, `Uint63.add_spec`, `Uint63.eqb_correct`, `Uint63.eqb_refl`, `Uint63.leb_spec`, `Uint63.lor_spec`, `Uint63.lsl_spec`, `Uint63.lsr_spec`, `Uint63.ltb_spec`, `Uint63.of_to_Z`, `Uint63.sub_spec`.
    Theorems: `C73_zero_weight`.
  * 1 theorems, the axioms of the standard library's real numbers: `ClassicalDedekindReals.sig_forall_dec`, `ClassicalDedekindReals.sig_not_dec`, `Classical_Prop.classic`, `FloatAxioms.Prim2SF_SF2Prim`, `FloatAxioms.Prim2SF_valid`, `FloatAxioms.SF2Prim_Prim2SF`, `FloatAxioms.add_spec`, `FloatAxioms.div_spec`, `FloatAxioms.eqb_spec`, `FloatAxioms.leb_spec`, `FunctionalExtensionality.functional_extensionality_dep`, `PrimFloat.abs`, `PrimFloat.add`, `PrimFloat.div`, `PrimFloat.eqb`, `PrimFloat.float`, `PrimFloat.frshiftexp`, `PrimFloat.ldshiftexp`, `PrimFloat.leb`, `PrimFloat.ltb`, `PrimFloat.mul`, `PrimFloat.normfr_mantissa`, `PrimFloat.of_uint63`, `PrimFloat.opp`, `PrimFloat.sqrt`, `PrimFloat.sub`, `PrimInt63.eqb`, `PrimInt63.int`, `PrimInt63.land`, `PrimInt63.lor`, `PrimInt63.lsl`, `PrimInt63.lsr`, `PrimInt63.sub`.
    Theorems: `C73_normalize`.
  * 1 theorems, the axioms of the standard library's real numbers: `ClassicalDedekindReals.sig_forall_dec`, `ClassicalDedekindReals.sig_not_dec`, `Classical_Prop.classic`, `FloatAxioms.Prim2SF_SF2Prim`, `FloatAxioms.Prim2SF_valid`, `FloatAxioms.SF2Prim_Prim2SF`, `FloatAxioms.add_spec`, `FloatAxioms.div_spec`, `FloatAxioms.eqb_spec`, `FloatAxioms.leb_spec`, `FloatAxioms.ltb_spec`, `FunctionalExtensionality.functional_extensionality_dep`, `PrimFloat.abs`, `PrimFloat.add`, `PrimFloat.div`, `PrimFloat.eqb`, `PrimFloat.float`, `PrimFloat.frshiftexp`, `PrimFloat.ldshiftexp`, `PrimFloat.leb`, `PrimFloat.ltb`, `PrimFloat.mul`, `PrimFloat.normfr_mantissa`, `PrimFloat.of_uint63`, `PrimFloat.opp`, `PrimFloat.sqrt`, `PrimFloat.sub`, `PrimInt63.eqb`, `PrimInt63.int`, `PrimInt63.land`, `PrimInt63.lor`, `PrimInt63.lsl`, `PrimInt63.lsr`, `PrimInt63.sub`.
    Theorems: `C73_normalize_numbers`.
  * 1 theorems, primitive floats and integers of the standard library with their axioms: `FloatAxioms.SF2Prim_Prim2SF`, `FloatAxioms.add_spec`, `PrimFloat.abs`, `PrimFloat.add`, `PrimFloat.div`, `PrimFloat.eqb`, `PrimFloat.float`, `PrimFloat.frshiftexp`, `PrimFloat.ldshiftexp`, `PrimFloat.leb`, `PrimFloat.ltb`, `PrimFloat.mul`, `PrimFloat.normfr_mantissa`, `PrimFloat.of_uint63`, `PrimFloat.opp`, `PrimFloat.sqrt`, `PrimFloat.sub`, `PrimInt63.eqb`, `PrimInt63.int`, `PrimInt63.land`, `PrimInt63.lor`, `PrimInt63.lsl`, `PrimInt63.lsr`, `PrimInt63.sub`.
    Theorems: `C50_symmetric_binary64`.
  The libraries used are the standard library, mathcomp (ssreflect, algebra), Coquelicot and
  Flocq (for C73 and C77); none of the last three contributes an axiom.  `RealField.v` makes the standard
  library's reals a mathcomp field (for C78's theorem over R); choice on R uses the standard library's
  `Epsilon` and functional extensionality, which appear in that theorem's list.

## 5. What is modelled

| source | model | modelled | not modelled |
|--------|-------|----------|--------------|
| kalman/kalman_filter.py | Model_KF, Model_Dyn, Model_Dtype, Model_Refs, Model_Saver, Model_Repr | constructor, every method, every module function, the cached likelihoods, alpha | NumPy's error for a sequential block beyond dim_z is approximated |
| kalman/EKF.py | Model_EKF, Model_Repr | predict, update, predict_update, likelihoods | print of non-finite x |
| kalman/fading_memory.py | Model_EKF, Model_Repr | all methods, batch_filter | |
| kalman/information_filter.py | Model_Info, Model_Repr | predict, update, F setter, P, batch_filter (raises) | 1-D x |
| kalman/square_root.py | Model_Sqrt, Model_Dtype, Model_Refs, Model_Repr | predict, update, setters, residual_of | |
| kalman/UKF.py, sigma_points.py, unscented_transform.py | Model_UKF, Model_Repr | all sigma points, transform, predict, update, batch_filter, rts_smoother, likelihoods | user-supplied UT; hx returning a bare number |
| kalman/CubatureKalmanFilter.py | Model_CKF, Model_Repr | all | update before the first predict with 1-D x |
| kalman/ensemble_kalman_filter.py | Model_EnKF, Model_Repr | initialize, predict, update (random draws are arguments) | |
| kalman/IMM.py, mmae.py | Model_MM, Model_Refs, Model_Dtype, Model_Repr | all, over an arbitrary bank of filters | |
| kalman/fixed_lag_smoother.py | Model_FLS | smooth, smooth_batch, with or without control input (B a matrix) | 1-D states; a control input with the constructor's scalar B |
| hinfinity/hinfinity_filter.py | Model_HInf, Model_Repr | all, batch_filter with its saver default | deprecation warning |
| gh/gh_filter.py | Model_GH, Model_GHDiv, Model_Refs, Model_Repr | GHFilterOrder, GHFilter, GHKFilter, all gain formulas; in Model_GHDiv every ZeroDivisionError Python numbers raise | complex results (roots of negative numbers); GHFilterOrder with dt = 0 (NumPy's inf or nan) other than as binary64 |
| leastsq/least_squares.py, memory/fading_memory.py | Model_LSQ, Model_Dtype, Model_Refs, Model_Repr | all | |
| discrete_bayes/discrete_bayes.py | Model_DB, Model_Dtype | normalize, update, predict (mode 'wrap' or any other, integer offsets) | fractional offsets, multi-dimensional arrays, integer arrays in the modes other than wrap |
| monte_carlo/resampling.py | Model_Resample | all four | `random()` itself (draws are arguments) |
| stats/stats.py | Model_Stats, Model_Ellipse, Model_Plot | gaussian, mul, mul_pdf, add, multivariate_gaussian, multivariate_multiply, mahalanobis, logpdf, (log_)likelihood, norm_cdf, NEES, _to_cov, covariance_ellipse, _eigsorted, _std_tuple_of, rand_student_t, and of the plotting functions the geometry: patches, segments, curve points, surface vertices and axis limits | the matplotlib calls themselves, colours, labels, do_plot_test; that random.gauss and gammavariate draw from their distributions |
| common/discretization.py, kinematic.py | Model_Common, Model_Ode | all | |
| common/helpers.py | Model_Common, Model_Saver, Model_Helpers, Model_Repr | Saver, runge_kutta4, reshape_z, inv_diagonal, outer_product_sum, compare_kf, copy_states, pretty_str, repr_string | pprint (print of pretty_str), Saver's `__repr__` |
| examples/, tests | | | not modelled |

External routines (`inv`, `pinv`, `cholesky`, `qr`, `svd`, `expm`, `solve`, `slogdet`,
`searchsorted`, `convolve`, `atan2`, random draws, the user's `fx`, `hx`, Jacobians) are
arguments.  A theorem that relies on one states its contract as a hypothesis.

## 6. Testing the theorems

`seeded/LOG.jsonl` records one wrong program per line: the definition edited, the edit,
the English claim it breaks, the theorems whose proofs then fail, and the theorems that
were added or tightened because none failed.  The edits are made in a scratch copy: each
proof that fails is replaced by `Admitted` there so that all later theorems are still
tried.
