# A Rocq model of ORNL/ORMATEX

Properties: `properties.jsonl`.  Status and theorem names: `MANIFEST.json`.  Axioms per theorem:
`ASSUMPTIONS.md`.  Wrong-program tests: `seeded/LOG.jsonl`.  Proofs: `rocq/theories/`.

## How to read the development

For each area there are four kinds of files.

* `Model*.v` : the code, function by function, definitions only.  Every definition cites the file
  and lines it models; simplifications are stated in the comment.
* `Spec*.v` : the vocabulary of the statements, written without the model's helpers (phi functions
  as power-series limits, solutions of initial value problems, interpolation, replay of a list of
  attempts, reachable histories, ...).
* `Proofs*.v` : lemmas.
* `Prop*.v` : the theorems named in the manifest, `Cnn_...`, with an `Example` beside them that
  shows that the hypotheses are met by a concrete non-trivial case, and `Print Assumptions`.

A theorem with suffix `_refuted` proves, by a concrete run or for all inputs, that the natural
English claim is FALSE of the code; the property text then says what does hold.

## Modelling decisions

* **Shallow, function by function.** Each Python/Rust function becomes one Gallina function with
  the same branches; exceptions are values of `result`, mutation returns the new object.
* **Arithmetic.** Numeric code is modelled in exact arithmetic over an arbitrary real closed
  field (mathcomp `rcfType`), or an arbitrary field/ring where no order or square root is
  needed.  IEEE rounding, overflow, nan and dtypes are NOT modelled.  `Rstruct.v` makes Coq's reals
  an instance, so analytical properties are about true limits over `R`.
* **Matrices/vectors** are mathcomp matrices; shapes the code rejects by assertion are typing
  constraints or explicit guards.
* **External code** (jax/scipy `expm`, `linalg.solve`, `qr`, user right-hand sides, autodiff,
  random vectors) is a parameter; what is assumed of it is a visible hypothesis.
* **State machines** (histories, driver loop, caches, dispatch, sub-stepping, callbacks) are
  executable functions; theorems quantify over all operation sequences.
* **Division by zero** is 0 in the model (mathcomp); the code gives inf/nan there.  Theorems
  that divide have the nonzero hypothesis in view.

## What is modelled

| repository file | modelled | file here |
|---|---|---|
| ormatex_py/ode_sys.py LinOps 39-357 (LinOp, MatrixLinOp, DiagLinOp, AugMatrixLinOp, composites, JacLinOp/FdJacLinOp) | yes; autodiff Jacobian-vector product as a parameter | ModelOps |
| ode_sys.py OdeSys/OdeSplitSys 362-494, StepResult, IntegrateSys 497-591 | yes | ModelHist, ModelInt |
| ode_exp.py ExpRBIntegrator 37-432, ExpSplitIntegrator 627-890 | yes | ModelInt |
| ode_exp.py ExpLejaIntegrator 435-624 | yes | ModelLeja |
| ode_explicit.py RKIntegrator | yes | ModelInt |
| integrate_wrapper.py 58-193 | yes; diffrax itself not | ModelHist, ModelDispatch |
| matexp_phi.py (dense phi, recurrence, extended, squaring, partial fractions) | yes; `expm`, `solve` are parameters | ModelPhi, ModelPhiR |
| matexp_krylov.py (arnoldi, phi_linop, kiops_fixedsteps) | yes | ModelKrylov |
| matexp_leja.py | gen_leja_circle, gen_leja_conjugate, power_iter, all expmv and substep routines, build_a_tilde, leja_shift_scale, gen_leja_fast, gen_complex_conj_leja_fast | ModelLeja, ModelLejaPts |
| matexp_poly.py 33-209 | yes | ModelLeja |
| matexp_poly.py 215-415 (experimental divided differences) | leja_coeffs_ts_phi, leja_coeffs_ts_phi_substep, leja_coeffs_ts_ss, leja_coeffs_dd_phi (without its casts to complex64); not leja_coeffs_ts_phi_jax | ModelPolyX, ModelPolySS, ModelPolyDD |
| progression/*.py (Bateman chains, Lotka-Volterra, advection-diffusion on a torus, spectral elements) | the pieces named in C38-C41, C50-C54 | ModelProg, ModelPool |
| Rust src/*.rs | ode_sys.rs, newton.rs, ode_bdf.rs, ode_rk.rs, ode_epirk.rs, arnoldi.rs, matexp_krylov.rs, ormatex_rspy.rs dispatch | ModelRust |
| Rust matexp_cauchy.rs | yes | ModelCauchy |
| Rust matexp_pade.rs | yes | ModelPade |
| Rust mat_utils.rs | real_mat, complex_mat_scale, mat_pow, JacobianRhsLinOp, JacobianMatLinOp, MatrixLinOp, arnoldi_lo, arnoldi; not the random and sparse-conversion helpers | ModelCauchy, ModelMatUtils, ModelArnMat |
| progression/rad_1d_{2s,3s,9s}.py | RAD_SEM right-hand side, linear part, two-species transfer source, decay libraries of 2s/3s; not main, plotting, mesh assembly | ModelRad |
| plots, notebooks, tests, packaging, MOOSE/finite-element meshes | no | - |

## Method per property

| id | model | proof |
|----|-------|-------|
| C01 C02 C06 | driver loop over an abstract integrator object | induction on nsteps |
| C03 C04 C05 C35 C48 | deque history, integrator objects, operation sequences | invariants, refinement, concrete refutations |
| C07 | method tables as string lists | case analysis over the finite tables |
| C08 C09 C10 | LinOp algebra | matrix algebra |
| C11-C17 | dense phi functions | block powers, recurrences, series limits over R, error bounds |
| C18-C21 | Arnoldi, Krylov phi, kiops | loop invariants, orthonormality, happy breakdown exactness |
| C22-C27 | Newton divided differences, Leja loops, sub-stepping, reordering | loop invariants, uniqueness of interpolation, permutation |
| C28-C31 C33 C34 C36 C37 C49 | integrators | algebra; C29 by uniqueness of ODE solutions over R |
| C32 | dense split cache | invariant over operation sequences |
| C38-C41 C50-C54 | progression models | induction, algebra, C50 over R |
| C42-C46 C55-C60 | Rust crate | invariants; refutations by witness |
| C61 | divided-difference routines (real and complex nodes, Taylor/expm based) | induction on the table; power-series identities |
| C62 | Leja nodes of circle and ellipse | refinement to bit-reversed roots of unity; product identity |
| C63 | fast Leja points of an interval | refinement of the array program to a list recursion; neighbour invariant; symbolic evaluation for the refutations |
| C64 | power iteration, shift and scale | loop invariant; log-convexity of moments; explicit 2x2 witness |
| C65 | the Leja integrators' step, built on the C22-C27 model of the Leja polynomial | reduction to the Leja kernel theorems; exactness, equilibria, invariants, totality |
| C66 | order of accuracy of every Python step routine; f, the exact solution and its Taylor data are real-analysis objects (SpecOrder, SpecOrder2) | truncated-jet algebra over R (ProofsJet*): f along a curve, phi_k(dt J), the solution by integrating the jet; kernel errors tracked as O(dt * del) |
| C67 | exp_pfd, exp_pfd_rs, exprb2_pfd with the IE/CN tables | algebra of resolvents on top of C17, the variation-of-constants formula |
| C68 | src/matexp_pade.rs in exact reals (ModelPade.v) | the remainder q(Z)e^Z - p(Z) as a series whose coefficients are falling factorials (integer identity checked by ring), regularity of q by a Neumann argument on q(Z)e^{Z/2} with a rational computation, squaring by a relative-power lemma |
| C69 | integrate_ormatex running rb_step, sp_step, rk_step (same model as C66) | a uniform version of the jet calculus of C66: germs of functions of the step with constants depending only on the derivative bound and tube radius; each one-step error is bounded by C (dt^p+del) dt plus (1 + C dt) times the previous one; discrete Gronwall, with an induction that keeps the run in the tube |
| C70 | integrate_wrapper_rs running the Rust EPIRK, BDF and RK objects (model of C46-C49) | one-step errors from the uniform jets of C69; the history of each object identified by induction over the run; discrete Gronwall with a first step one order lower; exact solutions of the recurrences for the refutations (u' = t, double integrator); runs return by showing each Krylov start vector nonzero (speed) and each Newton system solvable; the Krylov floor is the residual of an Arnoldi process stopped by its 1e-12 threshold; instances on the Riccati equation and the double integrator in PropConvRsEx |
| C71 | the EPIRK objects of the crate run by integrate_wrapper_rs on y' = A y + b + t c | variation of constants (C17 / ProofsOde) for one step, induction over the run (run_of in PropRustTime) |
| C72 | same model; ModelRust2.v adds the systems of ode_utils.rs | the annihilated row vector is pushed through Arnoldi, the small exponential, Newton and the histories |
| C73 | rfd_apply (FdJacLinOp), rrk_reset, option reading | direct algebra; induction over call sequences |
| C74 | species_source_sink.py, bateman_nonlin_sys.py (ModelProg.v, ModelProg2.v; real powers by Rpower, 0 ** y = 0) | cube-root lemma for Rpower; entries of the concrete matrices through C38 |
| C75 | element_line_pp_nodal.py:35-77 with its cache (ModelElem.v); scipy's barycentric interpolator by its formulas | Lagrange interpolation over a field, induction over the calls |
| C76 | src/matexp_cauchy.rs and mat_utils.rs:76-105, ormatex_rspy.rs:389-414 (ModelCauchy.v): decimal literals at their exact decimal value, QR/LU solves exact, the rayon reduction an arbitrary binary tree over the pole range | resolvent algebra over R[i]; induction over the tree |
| C77 | the CRAM table of gen_cram_expm, same model | the error of the rational function against e^x is the integral of an explicit rational derivative whose sign is certified by integer polynomial arithmetic (ProofsCramZ, R, 3, 4); spectral decomposition for matrices |
| C78 | src/mat_utils.rs:139-246 and 251-436 (ModelMatUtils.v, ModelArnMat.v) | invariant of the cache over call sequences; loop invariant of Gram-Schmidt |
| C79 | progression/rad_1d_2s.py, rad_1d_3s.py, rad_1d_9s.py RAD_SEM._frhs, _fl (ModelRad.v); assembly by skfem is an argument | entrywise evaluation, reindexing of the flat vector, column sums of C38 |
| C80 | matexp_poly.py:215-304, 343-415 (ModelPolyX.v, ModelPolySS.v, ModelPolyDD.v), np.exp and the numbers of squarings are parameters | loop invariants of the in-place table; complete homogeneous polynomials as divided differences of monomials; Leibniz rule for the squaring |
| C47 | diffrax wrapper | witness for every t0 != 0 |

## Trusted base

Coq 8.16.1's kernel and the standard library.  `ASSUMPTIONS.md` lists, for each theorem of the
manifest, what `Print Assumptions` prints.  Most are closed under the global context; those over
Coq's `R` use `ClassicalDedekindReals.sig_forall_dec`, `ClassicalDedekindReals.sig_not_dec`,
`FunctionalExtensionality.functional_extensionality_dep`, `Epsilon.epsilon_statement` (choice,
needed to make `R` a mathcomp `choiceType`) and `Classical_Prop.classic`; one uses
`ClassicalEpsilon.constructive_indefinite_description`.  No axiom is declared here.  The remaining
trust is in the transcription from Python/Rust to Gallina, documented definition by definition,
and in the exact-arithmetic idealisation.
