(* SpecInt.v : vocabulary for the properties of the time integrators; nothing here refers to how
   a step is computed. *)
From Coq Require Import String.
From mathcomp Require Import all_ssreflect all_algebra.
From Verif Require Import ModelHist SpecHist ModelOps SpecOps ModelPhi ModelInt.
Set Implicit Arguments.
Unset Strict Implicit.
Unset Printing Implicit Defensive.
Import Order.TTheory GRing.Theory Num.Theory.
Local Open Scope ring_scope.

(* a history object a caller can have: constructed, then any sequence of accept/reset *)
Definition reachable (T Y : Type) (h : hist T Y) : Prop :=
  exists order t0 y0 h0 ops, hist_init order t0 y0 = Ok h0 /\ h = List.fold_left (@hist_do T Y) ops h0.

(* (t,y) is the current point of h; (t,y) is the point before it *)
Definition current (T Y : Type) (h : hist T Y) (t : T) (y : Y) : Prop :=
  h_t h = t /\ List.hd_error (h_ts h) = Some t /\ List.hd_error (h_ys h) = Some y.
Definition previous (T Y : Type) (h : hist T Y) (t : T) (y : Y) : Prop :=
  List.nth_error (h_ts h) 1 = Some t /\ List.nth_error (h_ys h) 1 = Some y.

(* ------------------------------------------------------------------ *)
(* user programs on an integrator object *)
Inductive uop (T Y C : Type) : Type :=
| UStep (dt : T) (kw : option C)      (* r = obj.step(dt[, frhs_kwargs=kw]); obj.accept_step(r) *)
| UProbe (dt : T) (kw : option C)     (* obj.step(dt[, frhs_kwargs=kw]), result discarded *)
| UReset (t : T) (y : Y).             (* obj.reset_ic(t, y) *)
Arguments UStep {T Y C}.
Arguments UProbe {T Y C}.
Arguments UReset {T Y C}.

Section URun.
Variables T Y S C : Type.
Variable step : S -> T -> option C -> result (S * step_result T Y).
Variable accept : S -> step_result T Y -> S.
Variable reset : S -> T -> Y -> S.
(* everything the calls return, and the object afterwards (None: an exception ended the run) *)
Fixpoint urun (ops : seq (uop T Y C)) (s : S) : seq (result (step_result T Y)) * option S :=
  match ops with
  | [::] => ([::], Some s)
  | UStep dt kw :: rest =>
      match step s dt kw with
      | Ok (s', r) => let: (l, e) := urun rest (accept s' r) in (Ok r :: l, e)
      | Raise e => ([:: Raise e], None)
      end
  | UProbe dt kw :: rest =>
      match step s dt kw with
      | Ok (s', r) => let: (l, e) := urun rest s' in (Ok r :: l, e)
      | Raise e => ([:: Raise e], None)
      end
  | UReset t y :: rest => urun rest (reset s t y)
  end.
End URun.

(* ------------------------------------------------------------------ *)
Section Systems.
Variable F : rcfType.
Variable KW : Type.

(* f(t,u) = A u + b + t g for every keyword, with exact Jacobian and time derivative *)
Definition affine_system n (sys : odesys F KW n) (A : 'M[F]_n) (b g : 'cV[F]_n) : Prop :=
  (forall kw t u, os_frhs sys kw t u = A *m u + b + t *: g) /\
  (forall kw t u, let J := os_fjac sys kw t u in
     acts_as (jl_op J) A /\ jl_fdt J = g /\ jl_frhs J = A *m u + b + t *: g).

(* the Jacobian object reports the right-hand side it was built from *)
Definition reports_rhs n (sys : odesys F KW n) : Prop :=
  forall kw t u, jl_frhs (os_fjac sys kw t u) = os_frhs sys kw t u.

(* y is an equilibrium: f(t,y) = 0 at all times; the Jacobian is linear, df/dt = 0 at y *)
Definition equilibrium n (sys : odesys F KW n) (y : 'cV[F]_n) : Prop :=
  (forall kw t, os_frhs sys kw t y = 0) /\
  (forall kw t, let J := os_fjac sys kw t y in
     jl_frhs J = 0 /\ jl_fdt J = 0 /\ is_linear (lo_mv (jl_op J))).

(* w^T f = 0 everywhere, and so for the derivatives *)
Definition rhs_invariant n (sys : odesys F KW n) (w : 'rV[F]_n) : Prop :=
  forall kw t u, w *m os_frhs sys kw t u = 0.
Definition jac_invariant n (sys : odesys F KW n) (w : 'rV[F]_n) : Prop :=
  forall kw t u, let J := os_fjac sys kw t u in
    (forall v, w *m lo_mv (jl_op J) v = 0) /\ w *m jl_fdt J = 0 /\ w *m jl_frhs J = 0.
End Systems.

(* ------------------------------------------------------------------ *)
(* the same options with another method name / another tol_fdt *)
Definition with_method (F : rcfType) (o : rbopts F) (m : String.string) : rbopts F :=
  RbOpts (o_rust o) m (o_pfd o) (o_kdim o) (o_iom o) (o_tol o).
Definition with_tol (F : rcfType) (o : rbopts F) (tol : F) : rbopts F :=
  RbOpts (o_rust o) (o_method o) (o_pfd o) (o_kdim o) (o_iom o) tol.
(* the same system whose Jacobian objects report df/dt = 0 *)
Definition without_fdt (F : rcfType) KW n (sys : odesys F KW n) : odesys F KW n :=
  OdeSys (os_frhs sys) (fun kw t u => let J := os_fjac sys kw t u in JacLop (jl_op J) 0 (jl_frhs J)).
(* the maximum norm of a vector is at most c *)
Definition maxnorm_le (F : rcfType) n (v : 'cV[F]_n) (c : F) : Prop := forall i, `|v i 0| <= c.

(* the outcome of a step without the object: the result or the exception *)
Definition outcome (S A : Type) (r : result (S * A)) : result A :=
  match r with Ok (_, a) => Ok a | Raise e => Raise e end.

(* ------------------------------------------------------------------ *)
(* d is the derivative of f at x in direction v (difference quotients converge to d) *)
Definition is_dirderiv (F : rcfType) m n (f : 'cV[F]_m -> 'cV[F]_n) (x v : 'cV[F]_m) (d : 'cV[F]_n) : Prop :=
  forall eps, 0 < eps -> exists del, 0 < del /\
    forall s, 0 < `|s| < del -> maxnorm_le (s^-1 *: (f (x + s *: v) - f x) - d) eps.
Definition is_timederiv (F : rcfType) n (f : F -> 'cV[F]_n) (t : F) (d : 'cV[F]_n) : Prop :=
  forall eps, 0 < eps -> exists del, 0 < del /\
    forall s, 0 < `|s| < del -> maxnorm_le (s^-1 *: (f (t + s) - f t) - d) eps.
(* the Jacobian objects of a system are exact *)
Definition exact_jacobian (F : rcfType) KW n (sys : odesys F KW n) : Prop :=
  forall kw t u, let J := os_fjac sys kw t u in
    (forall v, is_dirderiv (os_frhs sys kw t) u v (lo_mv (jl_op J) v)) /\
    is_timederiv (fun s => os_frhs sys kw s u) t (jl_fdt J) /\
    jl_frhs J = os_frhs sys kw t u.
(* the Jacobian objects are the package's finite-difference ones without diagonal shift *)
Definition fd_jacobian (F : rcfType) KW n (sys : odesys F KW n) : Prop :=
  forall kw t u, exists scale eps, os_fjac sys kw t u = FdJacLinOp t u (os_frhs sys kw) scale 0 eps.

(* the dense evaluator is the package's f_phi_k_sq_all, with any number of squarings *)
Definition code_dense (F : rcfType) (K : kernels F) : Prop :=
  forall n (z : 'M[F]_n) k, exists N, k_sqall K z k = f_phi_k_sq_all_at z k N.
(* the external Rust evaluator maps vectors annihilated by w to such vectors when w J = 0 *)
Definition rs_keeps (F : rcfType) (K : kernels F) n (w : 'rV[F]_n) : Prop :=
  forall (J : 'M[F]_n) d v k, w *m J = 0 -> w *m v = 0 -> w *m k_rs K J d v k = 0.
(* ... and maps the zero vector to the zero vector *)
Definition rs_zero (F : rcfType) (K : kernels F) : Prop :=
  forall m (z : 'M[F]_m) d k, (0 < k)%N -> k_rs K z d (0 : 'cV[F]_m) k = 0.
