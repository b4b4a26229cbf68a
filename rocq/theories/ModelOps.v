(* ModelOps.v : linear operators of ormatex_py/ode_sys.py (lines 39-357), in exact arithmetic.
   Definitions only.  A state vector is a column 'cV[F]_n; jit decorators, prints, dtypes,
   reshape/flatten and sparse storage (MatrixLinOp, todense) are not modelled. *)
From mathcomp Require Import all_ssreflect all_algebra.
From Verif Require Import ModelHist.
Set Implicit Arguments.
Unset Strict Implicit.
Unset Printing Implicit Defensive.
Import Order.TTheory GRing.Theory Num.Theory.
Local Open Scope ring_scope.

Section Ops.
Variable F : realFieldType.

(* ode_sys.py:39-59 LinOp: matvec (= __call__) and dense *)
Record linop (n : nat) : Type := LinOp {
  lo_mv : 'cV[F]_n -> 'cV[F]_n;
  lo_dense : result 'M[F]_n }.

(* ode_sys.py:62-77 *)
Definition EyeLinOp n : linop n := LinOp (fun v => v) (Ok 1%:M).

(* ode_sys.py:80-95: d * v is the entrywise product, jnp.diag(d) the diagonal matrix *)
Definition DiagLinOp n (d : 'cV[F]_n) : linop n :=
  LinOp (fun v => \col_i (d i 0 * v i 0)) (Ok (diag_mx d^T)).

(* ode_sys.py:98-120 *)
Definition MatrixLinOp n (a : 'M[F]_n) : linop n := LinOp (fun b => a *m b) (Ok a).

(* ode_sys.py:123-167.  v[0:n] and v[-p:] are the first n and last p entries; for p = 0 the
   slice v[-0:] is the whole vector and B @ v raises, so the operator is only used with p >= 1
   (see kiops in ModelKrylov.v). *)
Definition AugMatrixLinOp n p (a_lo : linop n) (dt : F) (B : 'M[F]_(n, p)) (K : 'M[F]_p)
  : linop (n + p) :=
  LinOp (fun v => col_mx (dt *: lo_mv a_lo (usubmx v) + B *m dsubmx v) (K *m dsubmx v))
        (Raise NotImplementedError).

(* ode_sys.py:170-200 SysJacLinOp: a LinOp with the time derivative and the cached rhs *)
Record jaclop (n : nat) : Type := JacLop {
  jl_op : linop n;
  jl_fdt : 'cV[F]_n;       (* _fdt() *)
  jl_frhs : 'cV[F]_n }.    (* _frhs_cached() *)

(* the function t,u |-> frhs(t,u,**frhs_kwargs) with the keyword arguments already applied *)
Definition rhs_fun n := F -> 'cV[F]_n -> 'cV[F]_n.

(* ode_sys.py:203-252 CustomJacLinOp(t,u,frhs,f_du,f_dt): f_dt=None selects the finite
   difference fallback with eps (default 0.5e-8) *)
Definition CustomJacLinOp n (t : F) (u : 'cV[F]_n) (frhs : rhs_fun n) (f_du : 'M[F]_n)
    (f_dt : option 'cV[F]_n) (eps : F) : jaclop n :=
  JacLop (MatrixLinOp f_du)
    (if f_dt is Some d then d else eps^-1 *: (frhs (t + eps) u - frhs t u))
    (frhs t u).

(* jax.linearize(frhs, t, u) returns frhs(t,u) and the derivative as a function of (dt,du);
   the second component is an oracle here *)
Definition jvp_fun n := F -> 'cV[F]_n -> 'cV[F]_n.
(* ode_sys.py:255-295 AdJacLinOp; dense: vmap of _matvec over the columns of the identity *)
Definition AdJacLinOp n (t : F) (u : 'cV[F]_n) (frhs : rhs_fun n) (jvp : jvp_fun n) : jaclop n :=
  JacLop (LinOp (fun v => jvp 0 v) (Ok (\matrix_(i, j) jvp 0 (delta_mx j 0) i 0)))
         (jvp 1 0) (frhs t u).

(* ode_sys.py:298-357 FdJacLinOp.  u_norm_1 = sum of absolute values. *)
Definition norm1 n (u : 'cV[F]_n) : F := \sum_i `|u i 0|.
Definition fd_scaled_eps n (u : 'cV[F]_n) (eps : F) : F := eps * norm1 u.
Definition FdJacLinOp n (t : F) (u : 'cV[F]_n) (frhs : rhs_fun n) (scale gamma eps : F) : jaclop n :=
  JacLop
    (LinOp (fun v =>
       let scaled_eps := fd_scaled_eps u eps in
       let ieps := scale / scaled_eps in
       let u_pert := u + scaled_eps *: v in
       let diff := frhs t u_pert - frhs t u in
       let j_v := ieps *: diff in
       j_v + gamma *: v)
     (Raise NotImplementedError))
    (eps^-1 *: (frhs (t + eps) u - frhs t u))
    (frhs t u).

End Ops.
