{"id": "C01", "title": "Fixed-step trajectory: shape and time grid", "statement": "integrate()/integrate_ormatex returns nsteps+1 times and nsteps+1 states; the first entries are (t0,y0) and, for every integrator whose step reports t+dt, entry i is at time t0+i*dt; err_code is 0.", "quantifier": "every integrator, initial condition, dt and nsteps>=0", "why_tests_cant": "the loop length is unbounded and the integrator is arbitrary; a test samples a few nsteps", "anchors": ["ormatex_py/integrate_wrapper.py:integrate_ormatex", "ormatex_py/integrate_wrapper.py:integrate"]}
{"id": "C02", "title": "Trajectories are prefix-stable", "statement": "The first n+1 entries of an (n+m)-step run equal the n-step run; running n steps and continuing the same integrator object m steps yields the same trajectory.", "quantifier": "all n, m, integrators and initial data", "why_tests_cant": "quantifies over all split points of all runs", "anchors": ["ormatex_py/integrate_wrapper.py:integrate_ormatex", "ormatex_py/ode_sys.py:IntegrateSys.accept_step"]}
{"id": "C03", "title": "History is the bounded window of the latest accepted steps", "statement": "After any sequence of accept_step/reset_ic calls, the history holds exactly the min(order, accepted+1) most recent accepted (t,y) pairs since the last reset, newest first, and the time property equals the newest time.", "quantifier": "all operation sequences and all orders > 0", "why_tests_cant": "unbounded call histories", "anchors": ["ormatex_py/ode_sys.py:IntegrateSys.__init__", "ormatex_py/ode_sys.py:IntegrateSys.accept_step", "ormatex_py/ode_sys.py:IntegrateSys.reset_ic"]}
{"id": "C04", "title": "reset_ic forgets the past", "statement": "For the Rosenbrock, split and Runge-Kutta integrators, after reset_ic(t0,y0) every later step/accept/reset sequence returns what a freshly constructed integrator at (t0,y0) returns.  For the Leja integrator this is false: sub-step size, step counter and eigenvector survive, and a reset object can return a different step than a new one.", "quantifier": "all prior histories, all later operation sequences", "why_tests_cant": "needs equality of all futures after all pasts", "anchors": ["ormatex_py/ode_sys.py:IntegrateSys.reset_ic", "ormatex_py/ode_exp.py:ExpSplitIntegrator.reset_ic", "ormatex_py/ode_exp.py:ExpLejaIntegrator"]}
{"id": "C05", "title": "Rejecting a step leaves no trace", "statement": "Calling step(dt) and discarding its result does not change what any later call sequence returns, for the Rosenbrock, Runge-Kutta and Krylov split integrators, and for the dense split integrators when L does not depend on (t,u).  For the Leja integrator it is false: asking the same object twice for the same step can give two different answers.", "quantifier": "all states, dt and later operation sequences", "why_tests_cant": "quantifies over all futures", "anchors": ["ormatex_py/ode_exp.py:ExpRBIntegrator.step", "ormatex_py/ode_exp.py:ExpLejaIntegrator.step", "ormatex_py/ode_exp.py:ExpSplitIntegrator.step", "ormatex_py/ode_explicit.py:RKIntegrator.step"]}
{"id": "C06", "title": "Callback protocol", "statement": "callback_before_step is called once per step with the state the step starts from and its output is what step receives; callback_after_step_accept is called once per step with the accepted state; outputs are returned in call order; the two kinds alternate strictly.", "quantifier": "all callbacks, integrators and step counts", "why_tests_cant": "an event order over unbounded traces", "anchors": ["ormatex_py/integrate_wrapper.py:integrate_ormatex"]}
{"id": "C07", "title": "Method dispatch is total and unambiguous", "statement": "integrate() sends every method name to exactly one backend; every name a backend advertises as valid is executed by that backend's step (no NotImplementedError), and every other name is refused with AttributeError/ImportError before any step.", "quantifier": "all strings", "why_tests_cant": "the domain of names is infinite", "anchors": ["ormatex_py/integrate_wrapper.py:integrate", "ormatex_py/ode_exp.py:ExpRBIntegrator.step", "ormatex_py/ode_exp.py:ExpLejaIntegrator.step", "ormatex_py/ode_exp.py:ExpSplitIntegrator.step"]}
{"id": "C08", "title": "Linear operators act linearly and agree with their dense form", "statement": "Every LinOp in the package (identity, diagonal, matrix, augmented, custom Jacobian, AD Jacobian) is linear in its argument, and where dense() is offered, dense() @ v equals matvec(v).", "quantifier": "all sizes, operators and vectors", "why_tests_cant": "universally quantified algebraic law", "anchors": ["ormatex_py/ode_sys.py:EyeLinOp", "ormatex_py/ode_sys.py:DiagLinOp", "ormatex_py/ode_sys.py:MatrixLinOp", "ormatex_py/ode_sys.py:CustomJacLinOp", "ormatex_py/ode_sys.py:AdJacLinOp"]}
{"id": "C09", "title": "Augmented operator is the block matrix [[dt*A,B],[0,K]]", "statement": "AugMatrixLinOp(A,dt,B,K)(v) equals the block matrix product, for p>=1 columns.", "quantifier": "all n, all p>=1, all A,B,K,v,dt", "why_tests_cant": "all block sizes", "anchors": ["ormatex_py/ode_sys.py:AugMatrixLinOp", "src/ode_sys.rs:ExtendedLinOp"]}
{"id": "C10", "title": "Finite-difference Jacobian is exact on affine right-hand sides", "statement": "For f(t,u)=M u + c(t) and u != 0 the FD operator returns scale*M v + gamma*v exactly (in exact arithmetic), for every step size parameter; for u = 0 its step is zero and the quotient is undefined.", "quantifier": "all affine systems, states, directions, scales and shifts", "why_tests_cant": "real-valued universally quantified identity", "anchors": ["ormatex_py/ode_sys.py:FdJacLinOp._matvec", "ormatex_py/ode_sys.py:FdJacLinOp._fdt"]}
{"id": "C11", "title": "phi functions by block extension", "statement": "f_phi_k_ext(Z,k) returns phi_k(Z)=sum_m Z^m/(m+k)!, and with return_all every block j is phi_j(Z), provided expm is the matrix exponential.", "quantifier": "all square real Z, all k", "why_tests_cant": "infinitely many matrices and k; convergence of a series", "anchors": ["ormatex_py/matexp_phi.py:f_phi_k_ext"]}
{"id": "C12", "title": "phi functions by inverse recurrence", "statement": "f_phi_k_inv(Z,k) equals phi_k(Z) for every nonsingular Z.", "quantifier": "all nonsingular Z, all k", "why_tests_cant": "universally quantified", "anchors": ["ormatex_py/matexp_phi.py:f_phi_k_inv", "src/matexp_pade.rs:phi"]}
{"id": "C13", "title": "Polynomial phi evaluation is the truncated Taylor series", "statement": "f_phi_k_poly_all(Z,k,deg) returns, for every j<=k, exactly sum_{i<=deg-j} Z^i/(i+j)! ; it refuses deg < k+1.", "quantifier": "all Z, k, deg>=k+1", "why_tests_cant": "all sizes and degrees", "anchors": ["ormatex_py/matexp_phi.py:f_phi_k_poly_all"]}
{"id": "C14", "title": "Scaling and modified squaring", "statement": "One squaring pass maps (phi_0..phi_k)(Z) to (phi_0..phi_k)(2Z), so N passes started from exact values at Z/2^N return exact values at Z; the code's N brings the scaled norm below 1/8.", "quantifier": "all Z, k, N", "why_tests_cant": "induction over the number of squarings", "anchors": ["ormatex_py/matexp_phi.py:f_phi_k_sq_all"]}
{"id": "C15", "title": "Truncation error of scaling and squaring is bounded", "statement": "In exact arithmetic the matrix exponential computed by f_phi_k_sq (degree-4 start, norm < 1/8) differs from exp(Z) in infinity norm by at most c*theta*exp(theta) with theta=||Z||_inf and c about 2e-6, and it is not exact in general.", "quantifier": "all square real Z", "why_tests_cant": "error bound over an uncountable domain", "anchors": ["ormatex_py/matexp_phi.py:f_phi_k_sq_all", "ormatex_py/matexp_phi.py:f_phi_k_appl"]}
{"id": "C16", "title": "phi_k(Z)B by extension", "statement": "f_phi_k_appl(Z,B,k) places phi_k(Z)B in the read block, for vectors and blocks of vectors, provided the inner exponential is exact.", "quantifier": "all Z, B, k", "why_tests_cant": "all sizes", "anchors": ["ormatex_py/matexp_phi.py:f_phi_k_appl"]}
{"id": "C17", "title": "Rational (partial fraction) methods", "statement": "f_phi_k_pfd with IE is backward Euler's resolvent (I-Z)^{-1} and with CN is (I-Z/2)^{-1}(I+Z/2) for k=0; every partial-fraction evaluation is linear in B.", "quantifier": "all Z for which the poles are not eigenvalues, all B", "why_tests_cant": "universally quantified", "anchors": ["ormatex_py/matexp_phi.py:f_phi_k_pfd", "ormatex_py/matexp_phi_pfd_dict.py"]}
{"id": "C18", "title": "Arnoldi relation, orthonormality and Hessenberg form", "statement": "arnoldi_lop(A,s,b,m,iom) with b != 0 returns k<=min(n,m) columns Q and k x k H with H upper Hessenberg (banded by iom), every column of Q of unit norm, each new column orthogonal to the columns it was orthogonalised against (all of them if iom>=m), and s*A*Q = Q*H + (residual in the last column only).", "quantifier": "all operators, vectors, m, iom", "why_tests_cant": "loop invariant over an unbounded iteration", "anchors": ["ormatex_py/arnoldi_jax.py:arnoldi_mgs_lop", "ormatex_py/arnoldi_jax.py:arnoldi_lop_jit", "ormatex_py/arnoldi_jax.py:arnoldi_lop"]}
{"id": "C19", "title": "Krylov projection is exact on the Krylov space", "statement": "For every polynomial p of degree < k, p(sA)b = ||b|| Q p(H) e1; after a happy breakdown with zero residual, or when the space is full, this holds for every polynomial and for exp/phi_k.", "quantifier": "all operators, vectors and polynomials", "why_tests_cant": "universally quantified", "anchors": ["ormatex_py/arnoldi_jax.py:arnoldi_lop", "ormatex_py/matexp_krylov.py:phi_linop"]}
{"id": "C20", "title": "phi_linop: zero guard and homogeneity", "statement": "phi_linop returns the zero vector for v=0 without calling Arnoldi; phi_linop(c*v)=c*phi_linop(v) for c>0.", "quantifier": "all operators, v, c>0, k, m, iom", "why_tests_cant": "universally quantified", "anchors": ["ormatex_py/matexp_krylov.py:phi_linop"]}
{"id": "C21", "title": "kiops computes sum_j phi_j(dt A) b_j", "statement": "kiops_fixedsteps(A,dt,[b0..bp]) equals sum_{j=0..p} phi_j(dt A) b_j when the inner exponential action is exact; it returns zero when all b_j are zero; and the largest-norm normalisation does not change the value.", "quantifier": "all A, dt, p>=1, b_j", "why_tests_cant": "all block counts and vectors; index reversal errors survive small tests", "anchors": ["ormatex_py/matexp_krylov.py:kiops_fixedsteps", "ormatex_py/matexp_leja.py:build_a_tilde"]}
{"id": "C22", "title": "Newton divided differences interpolate", "statement": "newton_poly_div_diff(x,y) returns coefficients whose Newton polynomial takes value y_i at every node x_i, for distinct nodes.", "quantifier": "all node sets of any size", "why_tests_cant": "all sizes", "anchors": ["ormatex_py/matexp_poly.py:newton_poly_div_diff"]}
{"id": "C23", "title": "Real Leja iteration evaluates the Newton interpolant", "statement": "While not stopped, real_leja_expmv accumulates exactly p(A)v where p is the Newton polynomial for the given coefficients at the shifted/scaled nodes.", "quantifier": "all coefficients, nodes, operators", "why_tests_cant": "loop invariant", "anchors": ["ormatex_py/matexp_leja.py:real_leja_expmv"]}
{"id": "C24", "title": "Conjugate-pair real recurrence equals complex Newton interpolation", "statement": "The real-arithmetic recurrence over conjugate pairs returns p(dt A)u where p is the real part of the complex Newton polynomial; with divided differences of a conjugation-symmetric function at distinct nodes p agrees with the function at every completed node.  The imaginary-axis variant does the same, except that a vector of norm at most 0.1 never enters its loop and is reported as not converged.", "quantifier": "all conjugate node sequences, all operators", "why_tests_cant": "loop invariant", "anchors": ["ormatex_py/matexp_leja.py:complex_conj_leja_expmv", "ormatex_py/matexp_leja.py:complex_conj_imag_leja_expmv"]}
{"id": "C25", "title": "Sub-stepping covers the step exactly once", "statement": "When the sub-stepped Leja exponential returns without error, the accepted sub-steps are positive and sum to exactly 1, the result is the composition of the accepted sub-step maps in order, and at most 1001 attempts were made; otherwise it raises RuntimeError.", "quantifier": "all convergence patterns of the inner solver, all initial sub-step sizes", "why_tests_cant": "adversarial schedules of converged/failed attempts", "anchors": ["ormatex_py/matexp_leja.py:real_leja_expmv_substep", "ormatex_py/matexp_leja.py:complex_conj_leja_expmv_substep"]}
{"id": "C26", "title": "Adaptive sub-step size stays within bounds", "statement": "The Leja integrator's running sub-step size is always a convex average of values in (0,1], so it stays in (0,1] for every history.", "quantifier": "all histories of accepted sub-step sizes", "why_tests_cant": "unbounded histories", "anchors": ["ormatex_py/ode_exp.py:ExpLejaIntegrator._step_epi_re", "ormatex_py/ode_exp.py:ExpLejaIntegrator._step_epi_im"]}
{"id": "C27", "title": "Leja reordering is a greedy permutation", "statement": "leja_seq_reordering returns a permutation of its nonempty input; the first point has the largest real part (largest imaginary part among ties; not the largest magnitude), every next point maximises the product of distances to the points before it; an empty input raises ValueError; padding by p prepends exactly the p values (k+1)*1e-12 and keeps the rest.", "quantifier": "all point lists", "why_tests_cant": "all lengths", "anchors": ["ormatex_py/matexp_poly.py:leja_seq_reordering", "ormatex_py/matexp_poly.py:leja_seq_pad_zeros"]}
{"id": "C28", "title": "Remainder vanishes on affine systems", "statement": "For f(t,u)=A u + b + g t with exact Jacobian and time derivative the nonlinear remainder used by exprb3/epi3/pexprb4 is zero at every (t,u), so all these methods reduce to the exponential Rosenbrock-Euler step.", "quantifier": "all affine systems, states, times", "why_tests_cant": "universally quantified", "anchors": ["ormatex_py/ode_sys.py:IntegrateSys._remf", "ormatex_py/ode_exp.py:ExpRBIntegrator"]}
{"id": "C29", "title": "Exponential steps are exact for linear ODEs", "statement": "For y'=A y + b + g t (time derivative zero or passing the tolerance gate) one step of exprb2, exprb3, pexprb4, epi2, epi3 or exprb2_dense returns the value at t+dt of the unique solution through (t,y), for every dt, whenever the phi evaluations it makes are exact, and N steps return the solution at every t0+i*dt. With the package's kernels the one-step error is bounded by explicit constants times the size of f and g, and local errors delta accumulate to at most delta*(1+e+...+e^(i-1)), e=exp(||dt A||). With the time derivative disabled the claim is false.", "quantifier": "all A, b, g, y, t, dt, n", "why_tests_cant": "a statement about solutions of differential equations for uncountably many inputs", "anchors": ["ormatex_py/ode_exp.py:ExpRBIntegrator._step_exprb2", "ormatex_py/ode_exp.py:ExpRBIntegrator._step_epi2", "ormatex_py/ode_exp.py:ExpRBIntegrator._step_exprb3", "ormatex_py/ode_exp.py:ExpRBIntegrator._step_epi3", "ormatex_py/ode_exp.py:ExpRBIntegrator._step_pexprb4", "ormatex_py/ode_exp.py:ExpRBIntegrator._step_exprb2_dense"]}
{"id": "C30", "title": "Equilibria are fixed points", "statement": "If f(s,y)=0 for all s (and df/dt=0) then every integrator step returns y itself.", "quantifier": "all systems with an equilibrium, all methods, all dt", "why_tests_cant": "universally quantified", "anchors": ["ormatex_py/ode_exp.py:ExpRBIntegrator", "ormatex_py/ode_exp.py:ExpSplitIntegrator", "ormatex_py/ode_explicit.py:RKIntegrator"]}
{"id": "C31", "title": "Linear invariants are preserved", "statement": "If w^T f(t,u)=0 for all (t,u) (e.g. total mass), every step of rk4, exprb*/epi* with exact Jacobian keeps w^T y unchanged, including with the truncated phi evaluation and with any Krylov dimension that breaks down exactly or is full.", "quantifier": "all systems with a linear invariant, all dt and histories", "why_tests_cant": "universally quantified over systems", "anchors": ["ormatex_py/ode_exp.py:ExpRBIntegrator", "ormatex_py/ode_explicit.py:RKIntegrator", "ormatex_py/progression/bateman_sys.py:gen_bateman_matrix"]}
{"id": "C32", "title": "Dense split integrator cache is transparent for constant L", "statement": "The cached phi matrices used at a step are those of the current dt; if L(t,u) is constant the cached integrator equals the uncached one for every dt sequence; if L depends on the state the cached L is stale.", "quantifier": "all dt sequences, all systems", "why_tests_cant": "cache coherence over all histories", "anchors": ["ormatex_py/ode_exp.py:ExpSplitIntegrator._update_dense_phiLs"]}
{"id": "C33", "title": "Concurrent stages of pexprb4 are schedule independent", "statement": "For every interleaving of the calling thread with the two pool tasks, every pool size and every number of pool workers still occupied by tasks of earlier steps: when step(dt) of pexprb4 returns or raises, it does exactly what the sequential evaluation does (including which of two errors is reported), the object's history is unchanged at every point, there is no deadlock, and the number of scheduling events is bounded. This needs the object to be left alone meanwhile: the tasks read the live history.", "quantifier": "all schedules, pool sizes, left-over tasks, systems, options, histories, step sizes", "why_tests_cant": "schedules", "anchors": ["ormatex_py/ode_exp.py:ExpRBIntegrator._step_pexprb4"]}
{"id": "C34", "title": "rk4 is exact for cubic time dependence and has the degree-4 Taylor stability polynomial", "statement": "For y'=g(t) with g a polynomial of degree <= 3 the rk4 step is the exact integral; for y'=A y it multiplies by sum_{i<=4}(dt A)^i/i!.", "quantifier": "all polynomials, matrices, dt", "why_tests_cant": "universally quantified", "anchors": ["ormatex_py/ode_explicit.py:RKIntegrator._step_rk4_jit"]}
{"id": "C35", "title": "epi3 start-up and history use", "statement": "epi3 uses exprb3 exactly on steps for which no previous accepted state exists since construction/reset, and afterwards uses the immediately preceding accepted state.", "quantifier": "all histories", "why_tests_cant": "unbounded histories", "anchors": ["ormatex_py/ode_exp.py:ExpRBIntegrator.step"]}
{"id": "C36", "title": "Which methods see the parameters returned by the before-step callback", "statement": "The parameters reach the step through the Jacobian call for exprb2, epi2, exprb2_pfd and exp_pfd; they are ignored by exprb2_dense, the *_rs methods and all split methods; rk4 raises TypeError when a callback supplies any.", "quantifier": "all systems and callbacks", "why_tests_cant": "universally quantified; found false of the code", "anchors": ["ormatex_py/integrate_wrapper.py:integrate_ormatex", "ormatex_py/ode_sys.py:IntegrateSys._remf", "ormatex_py/ode_explicit.py:RKIntegrator.step"]}
{"id": "C37", "title": "Time-derivative tolerance gate", "statement": "With tol_fdt<0 the nonautonomous term is never added by exprb2/exprb3/pexprb4; otherwise it is added iff ||df/dt||_inf > tol_fdt, and the remainder uses the same decision.", "quantifier": "all systems, tolerances", "why_tests_cant": "universally quantified", "anchors": ["ormatex_py/ode_exp.py:ExpRBIntegrator._phi2v_nonauto", "src/ode_epirk.rs:fphi2_v"]}
{"id": "C38", "title": "Bateman matrices conserve mass and keep the Metzler sign pattern", "statement": "For every decay library the matrix built by gen_bateman_matrix has column sums equal to minus the rate of decays whose daughter is untracked, nonnegative off-diagonals and nonpositive diagonal (nonnegative rates).", "quantifier": "all decay libraries", "why_tests_cant": "all library sizes", "anchors": ["ormatex_py/progression/bateman_sys.py:gen_bateman_matrix", "ormatex_py/progression/bateman_sys.py:gen_transmute_matrix"]}
{"id": "C39", "title": "Lotka-Volterra Jacobian and time derivative are the true derivatives", "statement": "The hand-coded Jacobian equals the derivative of the right-hand side at every state.", "quantifier": "all states and parameters", "why_tests_cant": "universally quantified", "anchors": ["ormatex_py/progression/lotka_volterra.py"]}
{"id": "C40", "title": "stack_u / flatten_u round trip", "statement": "flatten_u(stack_u(u,n))=u for every n dividing the length, and stack_u(flatten_u(U),cols)=U.", "quantifier": "all arrays", "why_tests_cant": "all sizes", "anchors": ["ormatex_py/ode_utils.py"]}
{"id": "C41", "title": "Torus distance", "statement": "torus_distance is symmetric, nonnegative, periodic, at most half the period, and zero exactly when points coincide modulo the period.", "quantifier": "all points of the domain", "why_tests_cant": "universally quantified", "anchors": ["ormatex_py/progression/advection_diffusion_1d.py:torus_distance"]}
{"id": "C42", "title": "Which formula a Rust bdf2 object uses at each step", "statement": "A bdf2 object takes the two-step BDF2 formula exactly on its second step since construction or the last reset_ic, and a backward Euler step on every other one, whatever was accepted before; in particular every step from the third on is backward Euler, so the documented second order is not kept (y'=-y, dt=1, y0=1 gives 1/2, 1/5, 1/10 where BDF2 gives 3/50).", "quantifier": "all step counts", "why_tests_cant": "ranges over all histories of accept_step and reset_ic; the documented behaviour is refuted by a theorem", "anchors": ["src/ode_bdf.rs:step", "src/ode_bdf.rs:accept_step"]}
{"id": "C43", "title": "Rust implicit steps solve the documented implicit equation", "statement": "For an affine system y'=Ay+b(t), a linear solver that returns exact solutions and any history, the value returned by a backward Euler / BDF2 / Crank-Nicolson step satisfies its implicit equation with the new right-hand side evaluated at t+2dt (and the old one at t+dt for Crank-Nicolson): the documented equation holds for autonomous systems and fails for time-dependent ones; the step returns whenever the linear equations are solvable. For any system the value returned by backward Euler solves the equation linearised at some point.", "quantifier": "all systems", "why_tests_cant": "universally quantified over systems, states, step sizes; the documented times are refuted by a theorem", "anchors": ["src/ode_bdf.rs:_nonlin_gfn", "src/newton.rs:jac_newton"]}
{"id": "C44", "title": "When the Rust Newton solver reports success", "statement": "jac_newton returns the first iterate x_{k+1}, k below the limit, for which norm(x_k)-norm(x_{k+1}) < tol, and fails if there is none; so it accepts whenever the norm grows, converged or not (y'=y^2, y0=1, dt=1/8: it stops after one correction of size 1/6 with residual -1/288).", "quantifier": "all systems, tolerances, iteration limits", "why_tests_cant": "an exact characterisation over all systems, tolerances and limits; convergence on success is refuted by a theorem", "anchors": ["src/newton.rs:jac_newton"]}
{"id": "C45", "title": "Rust Runge-Kutta methods are the classical ones", "statement": "For an autonomous system, after any sequence of accept_step and reset_ic calls, one step of the Rust RK integrator of order 1..4 is the classical Euler / midpoint / Kutta / RK4 formula from the current state; for time-dependent systems stage i+1 is evaluated at the time of stage i, so the classical formula fails (y'=t gives 1/4 instead of 1/2 with RK4).", "quantifier": "all systems, dt", "why_tests_cant": "universally quantified over systems, histories and step sizes; the time-dependent half is refuted by a theorem", "anchors": ["src/ode_rk.rs:step_rk", "src/ode_rk.rs:bt_factory"]}
{"id": "C46", "title": "Rust driver output schedule", "statement": "integrate_wrapper_rs returns the states after 0, o, 2o, ... < nsteps steps (o = osteps) and after nsteps steps, at times t0+i*dt; it fails exactly when one of the steps fails; osteps=0 fails as soon as there is a step; the accepted method names are bdf1, backeuler, bdf2, cn, epi2, exprb2, epi3, exprb3.", "quantifier": "all nsteps, osteps>0", "why_tests_cant": "unbounded loops over all systems and option dictionaries", "anchors": ["src/ormatex_rspy.rs:integrate_wrapper_rs"]}
{"id": "C47", "title": "Diffrax wrapper end time", "statement": "integrate_diffrax integrates to nsteps*dt, so it covers [t0, t0+nsteps*dt] exactly when t0 = 0.", "quantifier": "all t0, dt, nsteps", "why_tests_cant": "universally quantified; found false for t0 != 0", "anchors": ["ormatex_py/integrate_wrapper.py:integrate_diffrax"]}
{"id": "C48", "title": "The state property never returns the state", "statement": "After any history of operations integrator.state evaluates to None (the property has no return statement).", "quantifier": "all histories", "why_tests_cant": "found false: the property has no return", "anchors": ["ormatex_py/ode_sys.py:IntegrateSys.state"]}
{"id": "C49", "title": "Steps of a constructed Rosenbrock integrator never raise", "statement": "For every accepted method name and every history of accepted/reset points, step(dt) on an ExpRBIntegrator returns a result (no exception) when the Krylov dimension is positive and the Jacobian operator can be made dense.", "quantifier": "all methods, systems, histories, dt", "why_tests_cant": "quantifies over every history and system; an index error or empty history on a rare history length is only excluded by proof", "anchors": ["ormatex_py/ode_exp.py:ExpRBIntegrator.step", "ormatex_py/matexp_krylov.py:phi_linop"]}
{"id": "C50", "title": "Analytic Bateman solution solves the decay chain", "statement": "For every linear decay chain with pairwise distinct rates, analytic_bateman_single_parent returns, at every time t, the value of the solution of y' = T y with y(0) = n0 on the first species; it raises AssertionError only when the sub-diagonal is not minus the diagonal.", "quantifier": "all chain lengths, distinct rates, n0 and times", "why_tests_cant": "all chain lengths and all real rates and times", "anchors": ["ormatex_py/progression/bateman_sys.py:analytic_bateman_single_parent"]}
{"id": "C51", "title": "GLL quadrature exactness", "statement": "GLL_quad(k) for k=2..5 returns k points and positive weights, the first two points are the element ends 0 and 1, and the rule integrates every polynomial of degree at most 2k-3 exactly over [0,1]; every other k raises KeyError.", "quantifier": "all k, all polynomials of the stated degree", "why_tests_cant": "quantifies over all real polynomials and exact irrational nodes", "anchors": ["ormatex_py/progression/element_line_pp_nodal.py:GLL_quad"]}
{"id": "C52", "title": "Phase-transfer source conserves the total amount", "statement": "The mass-transfer source changes only the two coupled species, by opposite amounts; with conserving decay and transmutation matrices and no fission source the whole right-hand side conserves the total inventory.", "quantifier": "all states, transfer laws, species indices and matrices", "why_tests_cant": "universally quantified over states and transfer laws", "anchors": ["ormatex_py/progression/bateman_nonlin_sys.py:NonlinearBateman", "ormatex_py/progression/species_source_sink.py"]}
{"id": "C53", "title": "Exact decay solution stays nonnegative and conserves closed inventories", "statement": "For every decay library with nonnegative rates, exp(tM) y0 is nonnegative for t>=0 and y0>=0, where M is the matrix built by gen_bateman_matrix; if no decay has an untracked daughter the total is constant.", "quantifier": "all libraries, times, initial inventories", "why_tests_cant": "needs an argument about the matrix exponential of every Metzler matrix", "anchors": ["ormatex_py/progression/bateman_sys.py:gen_bateman_matrix"]}
{"id": "C54", "title": "Dirichlet nodes never move", "statement": "In every run of AffineLinearSEM with a Rosenbrock method (other than exp_pfd) or rk4, the values at Dirichlet nodes are those of the initial condition in every stored state.", "quantifier": "all meshes/assembled matrices, Dirichlet sets, step sizes, numbers of steps", "why_tests_cant": "every mesh and run length", "anchors": ["ormatex_py/progression/advection_diffusion_1d.py:AffineLinearSEM"]}
{"id": "C55", "title": "Rust reset_ic forgets the past", "statement": "After any accept_step/reset_ic history, reset_ic(t1,y1) makes every later step, state and time of a Rust solver equal to those of a new solver built with the same options from (t1,y1), although the time history is never cleared.", "quantifier": "all methods, histories, later operation sequences and step sizes", "why_tests_cant": "equality of all futures after all pasts", "anchors": ["src/ode_epirk.rs:reset_ic", "src/ode_bdf.rs:reset_ic"]}
{"id": "C56", "title": "The Rust driver ignores tol_fdt", "statement": "Two option dictionaries that agree on every key except tol_fdt give the same result (the value is read from the key tol instead).", "quantifier": "all systems, options, step counts", "why_tests_cant": "absence of an effect over all inputs", "anchors": ["src/ormatex_rspy.rs:integrate_wrapper_rs"]}
{"id": "C57", "title": "Rust exponential integrators at an equilibrium", "statement": "If the right-hand side vanishes at the current state, a step of epi2, exprb2, exprb3 or a first step of epi3 divides by a zero norm and yields no state, so the driver started there never returns a finite result (the Python integrators stay at the equilibrium).", "quantifier": "all systems, equilibria, step sizes, options", "why_tests_cant": "universally quantified", "anchors": ["src/arnoldi.rs:arnoldi_lop", "src/ode_epirk.rs:step_order_2"]}
{"id": "C58", "title": "Rust Arnoldi and Krylov phi evaluation", "statement": "arnoldi_lop returns a unit, window-orthogonal basis and a banded Hessenberg matrix satisfying the Arnoldi relation with a residual in the last column only, for every linear operator, vector, dimension and truncation; with an exact dense evaluator apply_phi_linop returns phi_k(dt(A-E))v with a perturbation E at most n*1e-12, zero when the basis fills the space; the zero vector gives no result.", "quantifier": "all operators, vectors, dimensions, truncations, phi orders", "why_tests_cant": "loop invariants over unbounded dimensions", "anchors": ["src/arnoldi.rs:arnoldi_lop", "src/matexp_krylov.rs:apply_phi_linop"]}
{"id": "C59", "title": "Rust extended operator and phi sums", "statement": "ExtendedLinOp applied to a vector is the block matrix [[tA,B],[0,K]] for every list of vectors; with an exact dense evaluator and a full Krylov space kiops_fixedsteps returns the sum of phi_q(tA) b_q; the operator reports the inner size instead of n+p. Unlike the Python version, the Rust kiops_fixedsteps does not scale its vectors: a single nonzero higher-order vector shorter than 1e-12 is lost (the result is exactly 0 where the phi sum is not), while the Python kiops_fixedsteps result scales with its vectors.", "quantifier": "all operators and vector lists", "why_tests_cant": "all sizes and lists", "anchors": ["src/ode_sys.rs:ExtendedLinOp", "src/matexp_krylov.rs:kiops_fixedsteps"]}
{"id": "C60", "title": "Rust second and third order exponential steps", "statement": "For an autonomous system and an exact dense evaluator the Rust epi2/exprb2 step is y+phi_1(dt(J-E))(dt f(y)) with E at most n*1e-12 and zero for a full Krylov space; the exprb3 step of a linear autonomous system always divides by the zero norm of its vanishing remainder.", "quantifier": "all systems, states, step sizes", "why_tests_cant": "universally quantified", "anchors": ["src/ode_epirk.rs:step_order_2", "src/ode_epirk.rs:step_exprb32"]}
{"id": "C61", "title": "All divided-difference routines produce interpolation coefficients of the exponential", "statement": "For every node list, shift, scale and step fraction, leja_coeffs_exp returns (with an exact matrix exponential) coefficients whose Newton polynomial takes the value exp(h(shift+scale*x_i)) at every node, also when nodes are repeated, and for distinct nodes it returns the same list as leja_coeffs_exp_dd. dd_exp_taylor, the default of the Leja integrators, returns coefficients whose polynomial takes at x_i the value exp(h*mu)*T_p(y_i)^(2^s), for every number of squarings; with its own choice of s and h=1 this is within relative error (1+9/21!)^(2^s)-1 of exp(shift+scale*x_i). expm_taylor is the documented truncated series only for scale=1.", "quantifier": "all node lists of any length, all real (or field) shifts, scales, step fractions, orders and squaring counts", "why_tests_cant": "tests compare a few node sets at floating-point tolerance; the identity has to hold for every node list, including repeated nodes", "anchors": ["ormatex_py/matexp_poly.py:leja_coeffs_exp", "ormatex_py/matexp_poly.py:leja_coeffs_exp_dd", "ormatex_py/matexp_poly.py:dd_exp_taylor", "ormatex_py/matexp_poly.py:expm_taylor"]}
{"id": "C62", "title": "Leja nodes of a circle and of an ellipse", "statement": "gen_leja_circle(n) returns n distinct points of modulus one, nested in n, all the n-th roots of unity when n is a power of two, and (without conjugate=True) a Leja sequence: each point maximises the product of distances to the earlier ones over the whole circle. gen_leja_conjugate(n,a,b,c) for a non-degenerate box returns n distinct nodes, n_real real ones first and then conjugate pairs, with shift the centre and scale the capacity, all of them inside the ellipse of the box after the affine map; an empty box raises ValueError. Refuted: a box with both b<a and c<0 raises nothing and returns a negative scale.", "quantifier": "all n >= 3 (n >= 0 for the circle), all real boxes [a,b]x[-c,c]", "why_tests_cant": "distinctness, the extremal property and the pairing must hold for every number of points and every box, and the extremal property quantifies over all points of the circle", "anchors": ["ormatex_py/matexp_leja.py:gen_leja_circle", "ormatex_py/matexp_leja.py:gen_leja_conjugate", "ormatex_py/matexp_leja.py:leja_seq_pad_zeros"]}
{"id": "C63", "title": "Fast Leja points of an interval", "statement": "gen_leja_fast(a,b,n) returns, for every a != b and n >= 3, n distinct points of the interval: the end of larger modulus, the other end, the midpoint, and from then on each point is the midpoint of two neighbours among the earlier ones; n < 3 raises ValueError. On [-2,2], the interval the Leja integrators use, each point is a fast Leja point (its product of distances to the earlier points is largest among the midpoints of neighbours) and a longer sequence extends a shorter one, so the interpolation theorem C23 applies to those nodes for every n. Refuted for other intervals, because the two initial products also run over the unused zeros of the array: on [-1,1] with any n >= 6 the fifth point is not a best midpoint, and earlier points change with n; on [-c,3c] no point ever falls into the left half, whatever n. gen_complex_conj_leja_fast(beta,n) returns n-1 points (not n), the first 0, the rest conjugate pairs on the imaginary segment.", "quantifier": "all real intervals, all numbers of points", "why_tests_cant": "distinctness and the greedy choice must hold for every number of points and interval; the failures off [-2,2] hold for all n and are invisible at the default interval", "anchors": ["ormatex_py/matexp_leja.py:gen_leja_fast", "ormatex_py/matexp_leja.py:gen_complex_conj_leja_fast", "ormatex_py/ode_exp.py:ExpLejaIntegrator.__init__"]}
{"id": "C64", "title": "Power iteration and the Leja interval", "statement": "power_iter(A,b,iter) with a non-vanishing power sequence returns after i iterations, 1 <= i <= iter, the Rayleigh quotient of A^(i-1) b and the normalised A^i b, where i is the first index whose estimate differs from the one before by at most 0.05, or iter. The estimate lies between any bounds of the quadratic form of A; for a self-adjoint semidefinite A the estimates improve monotonically and never overshoot the dominant eigenvalue; an eigenvector start returns its own eigenvalue. leja_shift_scale maps [-2,2] exactly onto the segment between 0 and the estimate times scale_factor, so all interpolation nodes of the integrator lie in that segment. Refuted: the estimate need not come near the dominant eigenvalue, even from a positive start vector: for every L >= 1, diag(1,L) has a positive start vector whose estimate is at most 1.04.", "quantifier": "all linear operators, start vectors and iteration limits with a non-vanishing power sequence; all scale factors", "why_tests_cant": "the stopping index depends on the whole sequence of estimates; the bounds and the undershoot hold for all operators and start vectors", "anchors": ["ormatex_py/matexp_leja.py:power_iter", "ormatex_py/matexp_leja.py:leja_shift_scale"]}
{"id": "C65", "title": "Leja integrators as integrators", "statement": "A step of ExpLejaIntegrator (epi2_leja_re, epi2_leja_im, epi3_leja_im) advances the time by exactly dt and leaves the stored history alone. With the divided differences of exp, its result is y + q1(dt J) dt f + q2(dt J) v2 where prod_j p_j(tau_j X) = c0 + X q1 and q1 = c1 + X q2, the accepted sub-steps tau_j in (0,1] add up to 1, each p_j interpolates exp at the first shifted and scaled Leja nodes, and v2 is dt^2 f_t (plus 2/3 dt times the remainder at the previous point for epi3). For y' = A y + b + t g the error of a step is exactly the difference between these polynomials and phi_1, phi_2. Runs started at an equilibrium stay there, every linear invariant of the right-hand side is kept by whole runs with exact or finite-difference Jacobians, and the only exceptions of a step of a constructed object are RuntimeError (no convergence) and, for the complex nodes, ValueError (empty box).", "quantifier": "all systems, dimensions, histories, step sizes, keyword arguments, callbacks, numbers of steps and integrator options", "why_tests_cant": "The statement ranges over all systems, all node sets and every accept/reject pattern of the sub-stepping loop; a test sees one polynomial on one system.", "anchors": ["ormatex_py/ode_exp.py: ExpLejaIntegrator", "ormatex_py/matexp_leja.py: real_leja_expmv_substep, complex_conj_leja_expmv_substep, build_a_tilde"]}
{"id": "C66", "title": "Order of accuracy of the integrators", "statement": "For a right-hand side that is Lipschitz near (t,y) and has a Taylor expansion there, and the exact solution z through (t,y): one call of step(dt) from the current point (t,y) succeeds and returns a state whose distance to z(t+dt) is o(dt^p) plus C*|dt|*del, del being the relative accuracy of the matrix-function kernel; p = 2 for exprb2, epi2, exprb2_dense, exprb2_pfd and exprb2_pfd_rs, 3 for exprb3 and epi3 (when the previous point is at t-dt with an o(dt^2)-accurate state), 4 for pexprb4 and rk4, and 1, 2, 3 for exp1, exp2, exp3 and their dense variants, whatever linear part the split system supplies. With the dense kernels of the code, and exact arithmetic, del is O(dt^3), so the orders hold without assumption on the kernel.", "quantifier": "all dimensions, all (also non-autonomous) right-hand sides with a Taylor expansion at the point, all Jacobian/linear-part operators, all small enough step sizes, all histories", "why_tests_cant": "convergence tests measure an observed slope for a few systems and step sizes; the order conditions must hold for every smooth system", "anchors": ["ormatex_py/ode_exp.py: ExpRBIntegrator._step_exprb2/_step_exprb3/_step_pexprb4/_step_epi2/_step_epi3/_step_exprb2_dense/_step_exprb2_pfd, ExpSplitIntegrator._step_exp1/_step_exp2/_step_exp3/_step_exp*_dense", "ormatex_py/ode_explicit.py: RKIntegrator._step_rk4"]}
{"id": "C67", "title": "Partial-fraction steps: linear systems and nothing else", "statement": "exp_pfd (and exp_pfd_rs where the Rust extension is present) return, for y'=A y, the value at t+dt of the solution through the current point up to the error of the routine that evaluates phi_0(dt A) y; with the implicit Euler and Crank-Nicolson tables the step is that method, and exprb2_pfd with the implicit Euler table is the linearly implicit Euler step. The two pure-linear methods use the right-hand side only through its Jacobian: on y'=1-y they leave the equilibrium.", "quantifier": "all A, y, t, dt, n, tables, histories", "why_tests_cant": "equalities for every system and step size; the misuse on affine systems raises no error", "anchors": ["ormatex_py/ode_exp.py: ExpRBIntegrator._step_exp_pfd/_step_exp_pfd_rs/_step_exprb2_pfd", "ormatex_py/matexp_phi.py: f_phi_k_pfd"]}
{"id": "C68", "title": "The Rust dense matrix exponential is accurate for every matrix", "statement": "For every square matrix A and every dt, matexp(A, dt) of the Rust crate solves a regular linear system and returns the exponential of dt A up to a relative error of 3e-14 per squared factor (one factor unless the entries of dt A sum to more than 2.5), relative to exp of the row-sum norm of dt A; each of its five rational approximants has error of order |Z|^(2m+1) below its threshold; phi_ext and PadeExpm::phik_apply inherit the bound for every matrix, singular or not, and phi (the inverse recurrence) inherits it multiplied by |z^-1|^k for regular z.", "quantifier": "all matrix sizes, matrices, step sizes, phi indices and vectors", "why_tests_cant": "the choice of approximant, the coefficient tables and the number of squarings depend on the norm; a wrong coefficient or threshold shows only for some norms, and no finite set of matrices bounds the error", "anchors": ["src/matexp_pade.rs:matexp", "src/matexp_pade.rs:matexp_pade", "src/matexp_pade.rs:pade3", "src/matexp_pade.rs:pade5", "src/matexp_pade.rs:pade7", "src/matexp_pade.rs:pade9", "src/matexp_pade.rs:pade13", "src/matexp_pade.rs:phi", "src/matexp_pade.rs:phi_ext", "src/matexp_pade.rs:PadeExpm::phik_apply"]}
{"id": "C69", "title": "Runs converge with the order of the method", "statement": "Take any problem u' = f(t,u) whose right-hand side has bounded derivatives in a tube of radius rad around a solution z on [t0,T]. There are constants C and h0, depending only on the bound, rad and T - t0, such that every call of the integration driver with a step dt <= h0, starting on z, with matrix-function kernels of relative accuracy del <= h0, succeeds and returns N+1 states, the i-th within C (dt^p + del) of z(t0 + i dt). p is 2 for exprb2, exprb2_dense, exprb2_pfd, exprb2_pfd_rs and epi2, 3 for exprb3 and epi3 (whose first step is one of exprb3), 4 for pexprb4 and rk4, and 1, 2, 3 for the split methods exp1, exp2, exp3 for any bounded linear part, including the dense variants that freeze the linear part of the first point.", "quantifier": "all dimensions, right-hand sides, solutions, kernels, step sizes below the threshold, numbers of steps, callbacks, options", "why_tests_cant": "a convergence study shows a slope for one problem over a few step sizes; that the error constant does not depend on the problem (only on derivative bounds) nor on the number of steps is a statement about all of them", "anchors": ["ormatex_py/integrate_wrapper.py:integrate_ormatex", "ormatex_py/ode_exp.py:ExpRBIntegrator.step", "ormatex_py/ode_exp.py:ExpSplitIntegrator.step", "ormatex_py/ode_explicit.py:RKIntegrator.step"]}
{"id": "C70", "title": "Order of the Rust integrators over whole runs", "statement": "For autonomous problems with bounded derivatives in a tube around a solution z, every run of the Rust driver that returns, with dt below a threshold depending only on the derivative bound, tube radius and time span, keeps each returned state within C (dt^p + del) of z at its step: p = 2 for epi2 and exprb2, 3 for exprb3 and epi3 (del the relative accuracy of the Krylov evaluations). On affine problems with an exact linear solver bdf1, backeuler and bdf2 converge with order 1 and cn with order 2; bdf2 is NOT of order 2 (an explicit problem shows the global error i/2 - 1/3 times dt^2 at step i, i.e. order 1 in total). RK objects of order 1..4 converge with their order on autonomous problems and never fail; on u' = t orders 2..4 fall to order 1 with an exactly computed error, and so does cn. If the solution keeps a speed of at least c > 0 (at an equilibrium the crate divides by zero) runs of epi2, exprb2 and epi3 with small dt do return; so do the implicit methods with an exact complete linear solver on affine problems. With an exact dense evaluator and a Krylov dimension of at least n+2 the error is at most C (dt^p + (n+2) 1e-12/dt): the breakdown threshold leaves a floor.", "quantifier": "all dimensions, right-hand sides, solutions, evaluators, step sizes below the threshold, numbers of steps, output strides, options", "why_tests_cant": "a convergence study shows a slope on one problem; uniformity over problems and step counts, and the exact loss of order on non-autonomous problems, are statements about all runs", "anchors": ["src/ormatex_rspy.rs:integrate_wrapper_rs", "src/ode_epirk.rs:EpirkIntegrator", "src/ode_bdf.rs:BdfIntegrator", "src/ode_rk.rs:RkIntegrator"]}
{"id": "C71", "title": "Rust exponential integrators on problems linear in state and time", "statement": "On y' = A y + b + t c the Rust driver with epi2, exprb2 or epi3 and exact Krylov evaluations returns the exact solution at every output when c = 0 or some entry of c exceeds the tolerance option; when no entry of c exceeds the tolerance (or the tolerance is negative, for epi2/exprb2) the time dependence is dropped and each step is off by exactly dt^2 phi_2(dt A) c, so a ramp of slope at most tol is integrated with first order only. exprb3 divides by zero on every such problem, because its remainder vector is zero. The error estimate of an exprb3 step is the 1-norm of its distance from the epi2 step from the same state; the other methods report -1.", "quantifier": "all dimensions, matrices, forcings, steps, numbers of steps, options and starting states", "why_tests_cant": "tests run an autonomous problem or one forcing with one tolerance; exactness, and the loss for small forcings, are statements about all of them", "anchors": ["src/ode_epirk.rs:EpirkIntegrator", "src/ormatex_rspy.rs:integrate_wrapper_rs"]}
{"id": "C72", "title": "Rust integrators keep linear invariants", "statement": "If a row vector w annihilates the right-hand side and every Jacobian product of a system, then every state returned by the Rust driver has the value of w at the initial state, for every method (for the implicit methods with an exact linear solver), any evaluator, tolerance, Krylov dimension and orthogonalisation length, however inaccurate the solution. The Runge-Kutta objects keep w over any sequence of steps. The crate's Robertson system with the finite-difference operator conserves the sum of its components; its Bateman system changes the sum by exactly -1e-3 x_0.", "quantifier": "all systems, invariants, methods, evaluators, options, numbers of steps, step sizes", "why_tests_cant": "a test checks conservation along one trajectory to rounding; here it holds for all options, including grossly inaccurate ones", "anchors": ["src/ormatex_rspy.rs:integrate_wrapper_rs", "src/ode_epirk.rs", "src/ode_bdf.rs", "src/ode_rk.rs", "src/ode_utils.rs"]}
{"id": "C73", "title": "Rust finite-difference operator, reset and default options", "statement": "The finite-difference Jacobian operator of the crate fails exactly at the zero state (its increment 0.5e-8 max|x| is 0); for right-hand sides affine in the state it returns scale A v + gamma v exactly; otherwise its error is at most |scale| H (0.5e-8 max|x|) |v|^2 with H the quadratic remainder constant, and it is not a linear operator. Resetting a Runge-Kutta object after any sequence of calls gives the freshly constructed object. Passing the documented default options explicitly changes nothing in a run.", "quantifier": "all right-hand sides, states, vectors, scales, shifts, call sequences, option dictionaries", "why_tests_cant": "tests apply the operator at one nonzero state of one system", "anchors": ["src/ode_sys.rs:FdJacLinOp", "src/ode_rk.rs:reset_ic", "src/ormatex_rspy.rs:integrate_wrapper_rs"]}
{"id": "C74", "title": "Mass-transfer laws and the nonlinear Bateman system", "statement": "The bubble law: with positive carrier volume and nb bubbles there is a radius r with nb (4/3) pi r^3 = carrier gas + a_k times the ideal-gas volume of the species, the surface is nb 4 pi r^2, and the rate into the liquid is k A (h R T c_g - c_a) with c_g per gas and c_a per liquid volume, so it vanishes exactly at Henry's law. The linear and the nonlinear simplified laws have the sign of k_g u_g - k_a u_a (the latter for every u_g, negative ones included). Sorption is k a (c_s - u_a). The Arrhenius rate is zero without a reactant, its logarithm is affine in 1/T and it grows with T. The system NonlinearBateman can always be constructed; its tank_vol option has no effect; where a species is absent and none is negative its rate is nonnegative; the total inventory changes by 0.27e-9 per unit flux minus the listed decay, purification and capture losses.", "quantifier": "all concentrations, coefficients, temperatures, volumes and options in the stated ranges", "why_tests_cant": "tests evaluate the laws at one point; sign, equilibrium and balance hold for all states", "anchors": ["ormatex_py/progression/species_source_sink.py", "ormatex_py/progression/bateman_nonlin_sys.py:NonlinearBateman"]}
{"id": "C75", "title": "Nodal element: correct on the first call, stale afterwards", "statement": "The nodal line element can be built exactly for degrees 1 to 4 (ValueError below, KeyError above). On a fresh element a call with any nonempty list of points returns, for every basis index up to p, values and derivatives with which the nodal values of every polynomial of degree at most p reproduce it and its derivative. In general, after any sequence of calls the answer is the nodal basis function and derivative at the points of the latest call whose NUMBER of points differed from the number then held; so a call with as many points as the previous one returns the answer for the earlier points (e.g. 1 instead of 0 for the left basis function at the right end).", "quantifier": "all degrees, call sequences, point lists, basis indices, polynomials", "why_tests_cant": "a test evaluates one rule; the dependence on the history of calls and reproduction of all polynomials cannot be enumerated", "anchors": ["ormatex_py/progression/element_line_pp_nodal.py:ElementLinePp_nodal.lbasis"]}
{"id": "C76", "title": "Rust rational evaluators: one well-defined rational function under every parallel schedule", "statement": "For every list of poles and weights and every matrix none of whose eigenvalues is a pole, the dense rational exponential returns one and the same real matrix E however the parallel sum over the poles is split and joined; E commutes with dt A and multiplies every real or complex eigenvector by Re(alpha0) plus the sum of the pole terms and their conjugates, and the apply variant returns E v. The phi_l apply returns F_l v + Re(alpha0) v where dt A F_{l+1} = F_l - m_l; the dense phi_1 returns dt F_1, a factor dt more than the apply variant and without the offset. Construction fails exactly when poles and weights differ in number; CRAM exists only for order 16, the parabolic rule exactly for even orders, whose poles and weights are the midpoint rule on the parabolic contour; dense phi_k refuses k > 1 and every evaluator refuses an empty pole list.", "quantifier": "all pole/weight lists, matrices, step sizes, vectors, orders and parallel schedules", "why_tests_cant": "a test sees one schedule and finitely many matrices", "anchors": ["src/matexp_cauchy.rs:CauchyExpm", "src/matexp_cauchy.rs:gen_parabolic_expm", "src/matexp_cauchy.rs:gen_cram_expm", "src/mat_utils.rs:mat_pow", "src/ormatex_rspy.rs:DensePhikvEvalRs"]}
{"id": "C77", "title": "CRAM-16 accuracy on the whole negative axis", "statement": "With the 16 poles and weights written in the source, the value the CRAM evaluator gives to every real x <= 0 is real and within 5e-14 of e^x (3e-16 at 0), and the l=1 value is within 9e-14 of (e^x-1)/x. Hence for every matrix with real non-positive spectrum and an eigenvector basis P the dense exponential and the phi_0/phi_1 applications are within 1e-13 of the true ones times the entries of |P| |P^-1|, for every step size and every schedule; and a left null vector u of A is conserved up to 3e-16: u(Ev) = r u v with |r-1| <= 3e-16.", "quantifier": "all non-positive reals; all diagonalisable matrices with non-positive real spectrum; all vectors, step sizes and schedules", "why_tests_cant": "a sup-norm bound on a half line and over all matrices cannot be sampled; one wrong digit of the table in the 12th place is invisible to coarse tests", "anchors": ["src/matexp_cauchy.rs:gen_cram_expm", "src/matexp_cauchy.rs:matexp_dense_cauchy", "src/matexp_cauchy.rs:phik_dense_apply_cauchy"]}
{"id": "C78", "title": "mat_utils.rs: cached finite-difference operator and Arnoldi", "statement": "On a fresh JacobianRhsLinOp, in every sequence of calls, a call at the zero point never answers and any other call returns s (F(t, x + eps w) - F(t', x')) / eps with eps = 0.5e-8 |x|_1, where (t', x') is the first call since which the 1-norm of the point has not changed; so the operator is right (exactly s A w for affine F) when consecutive calls of equal norm are at the same (t, x), and wrong otherwise: after a call at (t, x), a call at (t', -x) is off by (s/eps)(b(t') - b(t) - 2 A x) and one at (t', x) by (s/eps)(b(t') - b(t)). arnoldi_lo answers exactly when b is nonzero and the number N of iterations positive; it returns m <= min(N, dimension) orthonormal vectors starting with b/|b| and a square upper Hessenberg H with L v_c = sum_r H_rc v_r for all but the last vector, whose residual is orthogonal to all, with breakdown_n the last index when the residual is below 1e-14 and -1 only if m = N; the operator is evaluated at b, so a matrix function is used as A(t, b). The matrix-only Arnoldi, which has no breakdown test, returns the requested number N of orthonormal vectors and an N x N Hessenberg matrix with positive subdiagonal, or non-finite values; the latter exactly when the start vector lies in an invariant subspace of dimension below N, so always when N exceeds the number of unknowns.", "quantifier": "all call sequences, right-hand sides, points, operators, vectors and iteration counts", "why_tests_cant": "the stale value depends on the whole history of calls; orthonormality and the Arnoldi relation must hold for every operator and size", "anchors": ["src/mat_utils.rs:JacobianRhsLinOp", "src/mat_utils.rs:MatrixLinOp", "src/mat_utils.rs:arnoldi_lo", "src/mat_utils.rs:arnoldi_inner_lo", "src/mat_utils.rs: arnoldi, arnoldi_inner"]}
{"id": "C79", "title": "Reaction-advection-diffusion systems: transport drops out of the totals", "statement": "The right-hand side offered by the multi-species reaction-advection-diffusion examples is, at every node and for every species, zero at Dirichlet nodes and otherwise local decay plus source minus the transport of that species alone divided by the lumped mass. With conservative transport (zero column sums) and no fixed node, the mass-weighted totals of the species follow the plain decay equations, so the whole inventory of the two- and three-species examples decreases by the untracked decay of the last species alone, with or without the nonlinear evaporation source. The linear operator offered to the split integrators is exactly the transport of each species, including at Dirichlet nodes, and products of a transport mode and a decay mode are eigenvectors of the right-hand side.", "quantifier": "every number of nodes and species, assembled matrix, lumped mass, set of Dirichlet nodes, decay matrix, source and state", "why_tests_cant": "The mesh, the number of species and the state are unbounded; a mis-ordered flattening or Kronecker factor is invisible for one species or a symmetric state.", "anchors": ["ormatex_py/progression/rad_1d_2s.py: RAD_SEM._frhs, _fl, _source_nonlin_evap", "ormatex_py/progression/rad_1d_3s.py: RAD_SEM._frhs, _fl", "ormatex_py/progression/rad_1d_9s.py: RAD_SEM._frhs, _fl", "ormatex_py/ode_utils.py: stack_u, flatten_u"]}
{"id": "C80", "title": "Taylor-series divided differences of the phi functions", "statement": "For distinct points and a nonzero scaled step, leja_coeffs_ts_phi returns one coefficient per point: coefficient i > 0 is the divided difference of order i, at the first i+1 points, of the Taylor polynomial of phi_k (i+16 terms) evaluated at h (shift + scale x); the full table holds these for every starting point, column j multiplied by (h scale)^j. The first coefficient is exp(h (shift + scale x_0)) whatever the order k, so it is wrong for k > 0 (finding). The substep variant's first component is exp(z_0/scale) to the power of the number of steps, so it is exp(z_0) only when the scale equals the number of steps (finding). leja_coeffs_ts_ss builds, before squaring, the table of divided differences of the Taylor polynomial at the scaled points; its squaring loop and shift are exact: from exact divided differences at the scaled points they give the exact divided differences of exp at shift + scale x, for every number of squarings. Its argument h_in has no effect, and its first coefficient is exp at the first point for every order (findings). leja_coeffs_dd_phi builds, before squaring, the table of divided differences of the Taylor polynomial (n+31 terms) of exp(y/s) at the centred points; its repeated products and the factor exp(mu) turn an exact table into the exact divided differences of exp at the uncentred points; it returns one coefficient per point, the first being exp at the first point for order 0.", "quantifier": "every list of distinct points, shift, scale, step fraction and order, over every ordered field", "why_tests_cant": "The in-place triangular loops run over lists of any length and any order k; the tests only compare a few point sets with k = 0.", "anchors": ["ormatex_py/matexp_poly.py: leja_coeffs_ts_phi, leja_coeffs_ts_phi_substep, leja_coeffs_ts_ss, leja_coeffs_dd_phi"]}
