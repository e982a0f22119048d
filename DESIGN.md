# Formal model of NavFuse in Rocq (Coq 8.16.1)

This directory holds a model of the C++ sources in `/repo/src` and
machine-checked proofs of the properties listed in `properties.jsonl`.
`MANIFEST.json` maps each property to its theorems.

## 1. How the code is modelled

* **Numbers.** C++ `double` is modelled by the exact reals `R` of the standard
  library, except where a property is about floating point itself (range guards
  on NaN, the timestamp conversion, the day number); there IEEE binary64 from
  Flocq is used. `long int`, `int` are `Z` with explicit overflow checks where
  an overflow is reachable. `M_PI` is the real number pi in the real model.
* **Failure.** A call returns an `outcome`: `Ret v` (a normal return, every
  number finite), `NonFinite` (a division by zero, or a libm domain error: the
  C++ call still returns, but its outputs hold inf or NaN), `Undef` (undefined
  behaviour or a failed Eigen assertion, e.g. an index past the end), `Throw`
  (an exception), `NoFuel` (a loop ran out of model fuel; theorems show it is not
  reached, or is reached for every fuel when the C++ loop does not terminate).
  Every division, square root and arcsine in a model is a *checked* one, so no
  theorem can rest on Coq's convention `x / 0 = 0`.
* **Output arguments.** A function with output references takes their old values
  and returns the new ones with the `bool`, so "unchanged on failure" is
  provable.
* **Matrices.** Fixed 3-vectors and 3x3 matrices are records of reals; dynamic
  `VectorXd` / `MatrixXd` in the attitude, compensator and strapdown code are
  lists; in the filter and least-squares code they are mathcomp matrices over R
  wrapped with their run-time dimensions.
* **Objects.** A class with state is a record plus a step function; properties
  of histories quantify over all lists of calls.
* **External code.** Eigen's `inverse()` is `A^-1` when A is invertible and
  `NonFinite` otherwise. Eigen's LDLT `solve` and `std::stod` are parameters with
  a stated contract; the contract is a hypothesis of the theorem and is shown
  inhabited.

## 2. Files (rocq/theories)

`Base*.v` common definitions; `Model*.v` the model, no proofs, each definition
cites file and lines; `Spec*.v` independent specifications; `Proof*.v` lemmas;
`Prop*.v` the theorems listed in the manifest, each proved by `exact`, followed by
`Print Assumptions`, and each with an `Example` that meets its hypotheses.

`CheckNum.v` and `Test*.v` check the model against the repository's own tests;
see "Conformance" below.

## 3. Plan per property

| id | modelled | how it is proved |
|----|----------|------------------|
| C01-C03 | computeDcmFromQuaternion, buildQuaternionEquivalent | field identities; C02 by recovering q from the matrix |
| C04 | computeQuaternionFromDcm with its branches | rotation-matrix identities; exact domain proved, witness for the tie |
| C05-C07 | rotation vector conversions | trigonometric identities with the checked asin |
| C08 | buildQuaternionEquivalent | ring |
| C09, C10 | euler2Dcm, dcm2Euler | trigonometry; atan of tan on the principal range; witnesses for the reversed headings |
| C11 | sizes of all Attitude functions | case analysis over lists |
| C12 | skewSymmetric | ring; uniqueness by evaluating on the basis |
| C13, C14 | strapdownDynamics | Coquelicot derivatives of lla2Ecef and RN2E along the motion |
| C15, C16 | strapdownRk4 | separate Butcher-tableau specification; symmetry lemmas on the dynamics |
| C17 | simpleGravity | algebra |
| C18-C20 | gravityNed | algebra with the code's constants |
| C21-C24 | computeREcef2Ned, computeRNed2Ecef, lla2Ecef | algebra and derivatives; C22 also in Flocq binary64 |
| C25-C27 | ecef2Lla | atan2 lemmas; algebraic bound on Bowring's numerator and denominator |
| C28-C31 | unixTimestampToDateVec | int64/double conversion in Flocq, loops with fuel, calendar specification by summing month lengths |
| C32-C35 | convertDatevec2Mjd | day-count specification; rounding analysis with Flocq for C34 |
| C36-C39 | getEops, getCurrentEop | text parser over character lists, state machine over call histories |
| C40-C42 | computeRJ2k2Ecef and its helpers | products of elementary rotations; triangle inequality over the 106-row table |
| C43-C54 | KalmanFilter | mathcomp matrices over R of every dimension; Loewner order |
| C55-C60 | BatchLeastSquares | normal equations, PSD argument, induction on iterations |
| C61-C63 | Compensator | state machine |
| C64-C68 | StrapDownINS | state machine, induction on histories, Rodrigues formula |
| C69-C72 | Initialization | 3x3 algebra; Kalman theorems instantiated at dimension 8 |
| C73-C76 | pvaErrorDynamics | entry-wise specification; Coquelicot partial derivatives |
| C77 | getCurrentEop, computeUt1 | linear interpolation of UT1-UTC minus TAI-UTC; exact error across a step |
| C78-C80, C93-C95 | StrapDownINS | exact attitude of a vehicle at rest; equivariance of the step under longitude shift, body rotation and reflection, then induction on histories |
| C81 | strapdownDynamics, pvaErrorDynamics | comparison of the two entries; exact ratio |
| C82-C87 | KalmanFilter | congruence, information form, completion of squares, Loewner order; every dimension |
| C88, C89 | BatchLeastSquares | projection argument; Gauss-Markov by Loewner order |
| C90-C92 | Initialization | derivative of the coarse solution; 8-state observability algebra; residual by evaluation |
| C96-C98 | gravityNed, simpleGravity | Coquelicot derivatives, polynomial bounds on the exact formula, interval bounds on the constants |
| C103-C105 | updateAttitude and the time step in rounded arithmetic (ModelStrapdownFloat.v) | standard error model of binary64, shown to hold in Flocq; operator-norm induction on histories |
| C106-C109 | lla2Ecef, the NED matrices and both gravity models in rounded arithmetic (ModelFramesFloat.v, ModelGravityFloat.v) | error of every intermediate value in units of 2^-53 |
| C110 | lla2Ecef and ecef2Lla over the reals | existence, uniqueness and the ECEF-to-ECEF round trip |
| C111-C112 | histories of filterPredict and filterUpdate | differences of estimates measured against the covariance; bounds free of the prior |
| C113-C115 | inertialErrorDynamics, ecefErrorDynamics, simpleGravity as differential equations | derivative of the equations of motion along an error; change of frame of whole solutions; closed solutions with uniqueness |
| C116 | filterPredict and filterUpdate with one state in rounded arithmetic (ModelKalmanFloat.v) | the Joseph form is a minimum over gains, so an error of the gain counts squared; monotonicity of the variance recursion |
| C117-C120 | the four quaternion conversions in rounded arithmetic (ModelAttitudeFloat.v) | errors relative to the squared length of the quaternion; exact evaluation of single roundings for the counterexamples |
| C121-C122 | strapdownRk4 and one integrate call in rounded arithmetic (ModelNavFloat.v) | absolute error bounds carried through each operation; gravity, attitude and frame bounds reused |
| C123-C124 | strapdownDynamics, lla2Ecef, computeRNed2Ecef (ModelNavUtils.v, ModelFrames.v) | derivative of the Earth-fixed position as the turned velocity, then the product rule with the turning Earth |
| C125-C126 | filterUkfPredict, filterPredict (ModelKalman.v) | sums over the points as matrix products; a quadratic map splits into mean and trace |
| C127 | filterPredict in rounded arithmetic, any size (ModelFilterFloat.v) | inner product bound by induction, then two products and a sum; the failures computed with rnd64 |
| C128 | compensateMeasurement in rounded arithmetic (ModelCompFloat.v) | error of an entry, of a difference and of their inner product |
| C129 | a run of integrate calls with real time steps (SpecConverge.v) against differentiable motions of strapdownDynamics, gravityNed and the attitude kinematics | bounds and Lipschitz constants of the field, mean values, local error of one call, discrete Gronwall inequality |
| C130 | the same run for one rolling vehicle (SpecOrder.v), and the calls of integrate with time stamps | closed form at the equator, bounds on the four stages, induction on the calls |
| C131 | histories of integrate calls fed with integrals of a body rate (SpecTurn.v) | the two rotations compared along the interval, with the accumulated rate difference subtracted so that only second order is left; mean values; induction |
| C132 | the same for a coning unit | derivative of the coning matrix; C64 composition |
| C133 | histories of filter calls, cycles of an update and a prediction (SpecSteady.v) | ratio of two covariances carried through each call; optimality of the gain for the update; induction over the history |
| C134 | the same with a constant model | every start comes within a known factor of every other, so the quadratic forms are Cauchy; limit by completeness of the reals; fixed point and uniqueness by the order, without continuity |
| C135 | runs of integrate calls in rounded arithmetic (SpecRunFloat.v) from attitudes near a rotation | product of a near rotation with the computed increment, C122's bounds for the rest, induction on the calls |
| C136 | runs with a bounded disturbance after each call (SpecRunFloat.v), double runs among them | the recurrence of C129 with one more term, distances of C135; outside the bound of C129 the size of the region |
| C137 | two differentiable motions of strapdownDynamics, gravityNed and the attitude kinematics (SpecConverge.v) | Lipschitz constants of the field as in C129; Gronwall inequality through the sum of squares of fifteen differences |
| C138 | convertDatevec2Mjd in doubles, the UT1 date and the mean sidereal time with every operation rounded (ModelHourFloat.v) | error of every intermediate value in units of 2^-53; rate of sidereal time from ProofJ2k.v; chord of an angle |
| C139 | filterUpdate with rounded sums and inner products and an arbitrary inversion (ModelUpdateFloat.v) | relative error of every product and sum in multiples of (N+1) 2^-53 of its size; completion of the square in the gain (C46) |
| C140 | ecef2Lla with rounded operations and inexact sin, cos, atan2 and pow (ModelLlaFloat.v) | absolute errors in units of 2^-53; the angle of a vector moves by at most its relative error; near the pole no double is close enough to the latitude |
| C141 | dcm2Euler with rounded operations and inexact atan and asin (ModelEulerFloat.v) | sine of the difference of two directions; a small sine is near a multiple of pi; product formula for the arc sine |
| C142 | coarseAttitudeAlignment with rounded operations (ModelCoarseFloat.v) | errors relative to a scale in units of 2^-53 / cos(lat), carried through the cofactors, the determinant, its reciprocal and the product |
| C143 | histories of filter calls, each changed by a little (SpecDisturb.v) | both bounds on the ratio of the covariances carried through each call; the excess settles at a fixed level per measurement since the last prediction |
| C144 | the same with the estimates | difference of two gains through the difference of the covariances; Cauchy-Schwarz for a form between -aP and aP; square roots of the measure add up |
| C145 | the scalar filter of C116 (SpecDisturbFloat.v) | the same levels with 8 units per call |
| C146 | histories of filter calls whose covariances lose symmetry (SpecLopsided.v) | the difference of two covariances as a bilinear form bounded by the product of standard deviations; the Joseph form with the gain of the disturbed covariance differs from the exact one by (1-KH) times the difference times (1-KH) transposed and a second-order term |
| C147 | histories of filter calls in rounded arithmetic (ModelLongFloat.v, SpecLongFloat.v) | the rounding error of one call entry by entry, turned into a fraction of the exact covariance by its lower bound; the levels of C146 |
| C148 | the same histories (SpecLongFloat.v) | rounding error of one estimate over the lower bound of the covariance; the error of the gain times the surprise of the running filter, which the difference so far bounds; the levels of C144 |
| C149 | frnd = rnd64, date_ok, eop_sane (SpecJ2kFloat.v) | error of each angle by the ap calculus, of the table sums term by term, of a rotation matrix by the error of its angle, of products by prod_close |
| C150 | published table and arguments (SpecNutation.v) | the table of the code is a permutation of the published one, by computation; reduction of the arguments drops whole turns |
| C151 | BatchLeastSquares in double arithmetic (ModelBlsFloat.v) | entry-wise errors of the normal equations against the square roots of their diagonal; perturbation of a positive definite system |
| C152 | pvaErrorDynamics in double arithmetic (ModelPvaFloat.v) | error bounds carried through every entry; relative error of the cofactor inverse of a diagonal matrix |
| C153 | Eigen's LDLT solver in rounded arithmetic (ModelLdltFloat.v, ModelLdltMx.v) | induction over the columns: the leading part of the computed factors is close to the matrix, whose margin keeps the next pivot positive; residuals of the triangular systems turned into changes of coefficients |
| C154 | The unscented filter in rounded arithmetic (ModelUkfFloat.v) | sums added one by one by induction over the list; the scatter about a shifted mean; a weighted Cauchy-Schwarz inequality; five points in doubles for the lost symmetry |
| C155 | Eigen's inverse() in rounded arithmetic (ModelLuFloat.v, ModelLuMx.v) | induction over the columns with the growth of the entries; a kernel vector of the leading block against the margin; the residual of the triangular solutions; then the error of the gain into the second-order identity of C139 |
| C156 | filterUkfUpdate in rounded arithmetic, with the inversion of C155 | the cross scatter by Cauchy-Schwarz as in C154; the perturbed inverse of C155; the identity K S K^T = K1 S K1^T + D T^T + T D^T + D S D^T; the counterexample step by step with round-to-nearest |
| C157 | fineAlignmentPredict, fineAlignmentAzimuthUpdate in rounded arithmetic | the single-measurement bounds of C139 for H = e_c: the sizes collapse to products of standard deviations by Cauchy-Schwarz; perturbation of the noise variance; entry errors of the transition matrix |
| C158 | fineAlignmentVelocityUpdate in rounded arithmetic | the bounds of C155 for two measured states; rows of the exact gain are at most sqrt(P_ii / R), from K R K' <= P; perturbation of the noise variance through (K' - K) S = (R - R') K' |
| C159 | Weighted/UnweightedNonlinearLeastSquares | local convergence of Gauss-Newton steps: the normal equations tested with the new error, Cauchy-Schwarz in the weight; induction on the iterations left |
| C160 | UnweightedNonlinearLeastSquares | in doubles: one linear solve per step as in C151/C153, perturbed Gauss-Newton contraction; computed norm against true norm for the exit test |
| C161 | WeightedNonlinearLeastSquares | C160 in the norm of the weights; diagonal weights by scaling rows |
| C162 | Weighted/UnweightedNonlinearLeastSquares | any return in doubles: induction over the loop finds the last step; the backward error of its solver turns a short correction into a small gradient |
| C163 | ecef2Lla, lla2Ecef | every argument is an address in a memory of doubles; reads and writes in the order of the source |
| C164 | Strapdown | the object with all members; equality of calls on the public part, then induction over the actions of a program |
| C165 | Unweighted(Non)linearLeastSquares | a store of vectors and matrices, loop invariant relating it to the loop on values |
| C166 | float models | every intermediate bounded by a power of two, denominators from below; equal results for all roundings that agree with binary64 in range |
| C167 | (Un)weightedNonlinearLeastSquares | the loop on IEEE doubles; x + d - x is NaN unless x is finite, NaN propagates to the norm, sums of squares of numbers are not NaN |
| C99-C102 | computeRJ2k2Ecef helpers | products of elementary rotations; Coquelicot derivatives of the precession angles |

Properties that the code violates are kept as stated; the manifest then lists a
`..._refuted` theorem with a witness together with the theorem for the exact
domain on which the property does hold.

## 4. Trusted base

**Kernel.** Coq 8.16.1 as installed, standard kernel checks, no plugin of our
own, no functor or module type of our own, no `Admitted`.

**Axioms.** `ASSUMPTIONS.md` gives, for every theorem of the manifest, what
`Print Assumptions` lists (regenerate with `tools/mkassum.py`). Only five names
occur, all from the standard library:

* `ClassicalDedekindReals.sig_forall_dec`, `ClassicalDedekindReals.sig_not_dec`
  (the real numbers);
* `FunctionalExtensionality.functional_extensionality_dep` (the real numbers,
  and functions as matrices);
* `Classical_Prop.classic` (trigonometry, Flocq, Coquelicot);
* `Epsilon.epsilon_statement` (Coquelicot's limits, mathcomp structures on R).

No axiom of another library is used. mathcomp, Coquelicot and Flocq are used as
libraries of proved facts; the sealed module parameters that `coqchk -o` shows
for them (`RbaseSymbolsImpl`, `Finset`, `BigOp` and the like) are opaque
implementations, not axioms.

**Modelled code.** Every function with a body in `/repo/src` has a definition.

| source | lines | model |
|--------|-------|-------|
| util/Attitude.cpp | 15-295 (all) | ModelAttitude.v; 15-188 in rounded arithmetic in ModelAttitudeFloat.v, 258-295 in ModelEulerFloat.v |
| util/Gravity.cpp, Gravity.hpp | 13-59 (all), 25-36 | ModelGravity.v, in rounded arithmetic in ModelGravityFloat.v |
| util/NavUtils.cpp | 14-140 (all) | ModelNavUtils.v; strapdownRk4 and strapdownDynamics in rounded arithmetic in ModelNavFloat.v |
| util/Rotations.cpp | 14-153 frames | ModelFrames.v, guards also in binary64 in ModelGuardFloat.v; lla2Ecef and the NED matrices in rounded arithmetic in ModelFramesFloat.v, ecef2Lla in ModelLlaFloat.v |
| | 155-289, 531-817 J2000 to ECEF | ModelJ2k.v; mean sidereal time in rounded arithmetic in ModelHourFloat.v, the rotation in ModelJ2kFloat.v |
| | 292-367, 820-876 Earth orientation data | ModelEop.v |
| | 370-528 dates | ModelDate.v, with binary64 variants |
| filter/KalmanFilter.cpp | 16-246 (all) | ModelKalman.v over ModelEigen.v; with one state in rounded arithmetic in ModelKalmanFloat.v, filterPredict and filterUpdate of any size in ModelFilterFloat.v and ModelUpdateFloat.v, long runs in ModelLongFloat.v |
| filter/BatchLeastSquares.cpp | 18-272 (all) | ModelBls.v over ModelEigen.v; the linear functions in rounded arithmetic in ModelBlsFloat.v |
| inertial/compensator.cpp | 15-166 (all) | ModelCompensator.v; compensateMeasurement in rounded arithmetic in ModelCompFloat.v |
| inertial/initialization.cpp | 15-206 (all) | ModelCoarse.v, in rounded arithmetic in ModelCoarseFloat.v; ModelFine.v |
| inertial/pvaErrorDynamics.cpp | 15-239 (all) | ModelPva.v, in rounded arithmetic in ModelPvaFloat.v |
| inertial/strapdown.cpp | 15-108 (all) | ModelStrapdown.v, attitude update in rounded arithmetic in ModelStrapdownFloat.v, integrate in ModelNavFloat.v |

**Conformance.** A theorem only says something about the C++ code if the model
is faithful. As evidence for that, the `Test*.v` files prove that the models meet
the numeric unit tests of `/repo/test`: each `TEST` is a theorem which runs the
model on the inputs of the test and concludes with the assertions of the test.
`isApprox` is Eigen's test (`|a-b|^2 <= eps^2 min(|a|^2,|b|^2)`) and
`EXPECT_NEAR` its inequality. These theorems are not properties and are not
counted in the manifest.

| test file | theorems |
|-----------|----------|
| AttitudeTest.cpp | TestAttitude.v |
| GravityTest.cpp, NavUtilsTest.cpp | TestGravity.v |
| RotationsTest.cpp | TestFrames.v (frames, dates), TestJ2k.v (Earth orientation, J2000) |
| StrapdownTest.cpp, CompensatorTest.cpp | TestStrapdown.v |
| PvaErrorDynamicsTest.cpp, coarse part of InitializationTest.cpp | TestPva.v |
| KalmanFilterTest.cpp, BatchLeastSquaresTest.cpp, fine part of InitializationTest.cpp | TestFilter.v |

The numbers are enclosed by the interval arithmetic of `CheckNum.v`, which is
proved sound there and evaluated with the kernel's virtual machine. The tests
that only check that wrong sizes are rejected are not repeated: C43, C58 and C70 to C72 state the rejection
for all sizes.

**Not modelled.**

* Rounding, overflow and underflow of `double`, except in the definitions named
  above. Theorems over the reals speak of exact arithmetic; in particular
  "singular" means exactly singular. The float models round without a bound on
  the exponent; C166 shows for which inputs that makes no difference.
* `std::cout` messages; the configuration structs of `dataTypes.hpp` (no code
  reads them); the tests; CMake.
* Eigen's internals. Products are taken to be evaluated into temporaries (no
  aliasing effects), `inverse()` of a singular matrix is a non-finite result, an
  out-of-range index is `Undef`. `LDLT::solve` is a parameter with a contract
  (`ldlt_ok`), inhabited by an example. Its algorithm is modelled separately, in
  rounded arithmetic, for C153, and the one behind `inverse()` for C155.
* libm: `sin`, `cos`, `atan`, `sqrt`, `floor`, `fmod` are the mathematical
  functions (with checked domains); the float models take `sin` and `cos` as
  parameters with an error bound.
* The file system: a file is the list of its lines, present or absent, writable
  or not. `std::stod` is a parameter.
* Two references passed for the same object (aliased arguments), except in the
  filters (C53), the position conversions (C163) and unweighted least squares
  (C165). Threads.

## 5. Disagreements between the code and what a user would rely on

Each is a `..._refuted` theorem; the note in `MANIFEST.json` says what holds
instead.

* C04, DCM to quaternion inverts quaternion to DCM.
* C05, Rotation vector to quaternion.
* C06, Rotation vector round trip.
* C09, Euler angles to DCM: a rotation, with the documented direction.
* C10, Euler angle round trip.
* C22, Latitude/longitude range guards.
* C27, ecef2Lla at the poles.
* C28, Unix timestamp to civil date is correct.
* C29, No timestamp is rounded up to the next second.
* C30, Timestamps before 1970.
* C31, unixTimestampToDateVec output shape.
* C33, Date vector validation.
* C36, Loading Earth-orientation data: success replaces, failure preserves.
* C49, A true return means a finite estimate.
* C56, Weighted linear least squares is optimal and reports its cost.
* C59, Nonlinear least squares.
* C63, Compensating before calibrating.
* C65, Stationary vehicle.
* C67, Initial strapdown attitude.
* C70, Fine alignment prediction.
* C75, NED error dynamics matrix is the Jacobian of the navigation equations.
* C77, UT1 across a leap second.
* C78, Attitude of a vehicle at rest on the rotating Earth.
* C81, Acceleration errors act alike whatever their source.
* C104, Short rotation increments.
* C132, Coning motion.
* C163, Position conversions on shared variables (in-place lla2Ecef).
* C165, Least squares on shared variables.
