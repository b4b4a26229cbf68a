(* SpecConvRs.v : C70, convergence of the runs of the Rust driver and of the Rust Runge-Kutta object. *)
From Coq Require Import Reals String.
From mathcomp Require Import all_ssreflect all_algebra.
From Verif Require Import Rstruct Summable MxBase MxSeries ModelHist ModelOps SpecOps SpecPhi ModelPhi ModelKrylov ModelInt SpecInt SpecProg SpecOrder SpecOrder2 SpecConv ModelRust SpecRust.
Set Implicit Arguments.
Unset Strict Implicit.
Unset Printing Implicit Defensive.
Import Order.TTheory GRing.Theory Num.Theory.
Local Open Scope ring_scope.

Section Spec.
Variable n : nat.
Notation vec := 'cV[R]_n.
Notation rsysR := (rsys [rcfType of R] n).
Notation linsolver := ((vec -> vec) -> vec -> vec -> nat -> R -> option vec).

(* whenever the Krylov evaluations of the crate return, their relative error is at most del *)
Definition rs_phi_accurate (ev : evaluator [rcfType of R]) (dim iom : nat) (lop : vec -> vec) (J : 'M[R]_n) (dt del : R) : Prop :=
  forall k v w (rho : R), k = 1%N \/ k = 3%N -> apply_phi_linop ev lop dt v k dim iom = Ok w -> maxnorm_le v rho ->
    maxnorm_le (w - phi k (dt *: J) *m v) (del * rho).
(* the evaluation of an epi3 step from (s,u) with previous point (s - dt,u'), both in the tube.  (Accuracy relative to
   arbitrary vectors would be too strong: the crate does not scale them, C59_small_vectors_lost.) *)
Definition rs_epi3_accurate (ev : evaluator [rcfType of R]) (dim iom : nat) (sys : rsysR) (z : R -> vec) (t0 T rad : R)
    (J : R -> vec -> 'M[R]_n) (dt del : R) : Prop :=
  forall s u u', in_tube z t0 T rad s u -> in_tube z t0 T rad (s - dt)%R u' ->
  let v1 := dt *: rs_frhs sys s u in
  let v2 := (dt * 2%:R / 3%:R) *: (rs_frhs sys (s - dt)%R u' - rs_frhs sys s u - J s u *m (u' - u)) in
  forall w (rho1 rho2 : R), rkiops ev (rs_fjac sys s u) dt 1 [:: 0; v1; v2] dim iom = Ok w -> maxnorm_le v1 rho1 -> maxnorm_le v2 rho2 ->
    maxnorm_le (w - (phi 1 (dt *: J s u) *m v1 + phi 2 (dt *: J s u) *m v2)) (del * (rho1 + rho2)).

(* the options of a call of the driver *)
Record rs_options (kwds : opt_dict [rcfType of R]) (m em : string) (dim iom : nat) (tol : R) (o : nat) : Prop := {
  ro_m : get_str kwds "method" "epi2" = Ok m;
  ro_em : get_str kwds "expmv_method" "pade" = Ok em;
  ro_dim : get_nat kwds "max_krylov_dim" 100 = Ok dim;
  ro_iom : get_nat kwds "iom" 2 = Ok iom;
  ro_tol : get_flt kwds "tol" (10%:R ^+ 8)^-1 = Ok tol;
  ro_o : get_nat kwds "osteps" 1 = Ok o;
  ro_o0 : (0 < o)%N }.
(* the states returned, one for each of the steps 0, o, 2o, ... below N and one for N, are within C (dt^p + del)
   of the solution at these steps *)
Definition rs_converges (p : nat) (C dt del : R) (z : R -> vec) (t0 : R) (o N : nat) (ys : seq vec) : Prop :=
  size ys = size (output_indices o N ++ [:: N]) /\
  forall j i, List.nth_error (output_indices o N ++ [:: N]) j = Some i ->
    exists y, List.nth_error ys j = Some y /\ maxnorm_le (y - z (t0 + dt *+ i)%R) (C * (dt ^+ p + del)).

(* a Runge-Kutta object after i rounds of step / accept_step *)
Fixpoint rrk_iter (sys : rsysR) (dt : R) (o : rkint [rcfType of R] n) (i : nat) : result (rkint [rcfType of R] n) :=
  if i is j.+1 then o' <- rrk_iter sys dt o j;; r <- rrk_step sys o' dt;; Ok (rrk_accept o' r) else Ok o.
End Spec.

(* Every run of the exponential method m that returns, with a step dt <= h0 and evaluations of accuracy del <= h0,
   from a point of a solution z of an autonomous problem that is smooth with constant B in the tube of radius rad
   around z over [t0,T], T - t0 <= len, stays within C (dt^p + del) of z.  No assumption on the options tol and iom. *)
Definition rs_exponential_converges (B rad len : R) (m : string) (p : nat) (C h0 : R) : Prop :=
  forall n (gmres : ('cV[R]_n -> 'cV[R]_n) -> 'cV[R]_n -> 'cV[R]_n -> nat -> R -> option 'cV[R]_n)
    (sys : rsys [rcfType of R] n) (evals : string -> evaluator [rcfType of R]) z J H2 H3 t0 T dt del N kwds em dim iom tol o y0 ys ts,
  rs_options kwds m em dim iom tol o ->
  (forall s s' u, rs_frhs sys s u = rs_frhs sys s' u) ->
  smooth_tube p.-1 (rs_frhs sys) z t0 T rad B (fun _ _ => 0) J H2 H3 -> z t0 = y0 ->
  (forall s u, in_tube z t0 T rad s u -> forall v, rs_fjac sys s u v = J s u *m v) ->
  (forall s u, in_tube z t0 T rad s u -> rs_phi_accurate (evals em) dim iom (rs_fjac sys s u) (J s u) dt del) ->
  (m = "epi3"%string -> rs_epi3_accurate (evals em) dim iom sys z t0 T rad J dt del) ->
  (t0 + dt *+ N <= T)%R -> (T - t0 <= len)%R -> 0 < dt -> dt <= h0 -> 0 <= del -> del <= h0 ->
  integrate_wrapper_rs gmres sys evals y0 t0 dt N kwds = Ok (ys, ts) ->
  rs_converges p C dt del z t0 o N ys.

(* Implicit methods on y' = A y + b, with an exact linear solver; |A|, |A z + b| <= B along the solution *)
Definition rs_implicit_converges (B len : R) (m : string) (p : nat) (C h0 : R) : Prop :=
  forall n (gmres : ('cV[R]_n -> 'cV[R]_n) -> 'cV[R]_n -> 'cV[R]_n -> nat -> R -> option 'cV[R]_n)
    (sys : rsys [rcfType of R] n) (evals : string -> evaluator [rcfType of R]) (A : 'M[R]_n) b z t0 T dt N kwds em dim iom tol o y0 ys ts,
  rs_options kwds m em dim iom tol o -> exact_solver gmres ->
  (forall s u, rs_frhs sys s u = A *m u + b) -> (forall s u v, rs_fjac sys s u v = A *m v) ->
  (forall s, t0 <= s -> s <= T -> vderiv z s (A *m z s + b)) -> z t0 = y0 ->
  (forall i, \sum_j `|A i j| <= B) -> (forall s, t0 <= s -> s <= T -> maxnorm_le (A *m z s + b) B) ->
  (t0 + dt *+ N <= T)%R -> (T - t0 <= len)%R -> 0 <= dt -> dt <= h0 ->
  integrate_wrapper_rs gmres sys evals y0 t0 dt N kwds = Ok (ys, ts) ->
  rs_converges p C dt 0 z t0 o N ys.

(* Runge-Kutta objects on autonomous problems: the run never fails *)
Definition rs_rk_converges (B rad len : R) (order : nat) (C h0 : R) : Prop :=
  forall n (sys : rsys [rcfType of R] n) z J H2 H3 t0 T dt N y0 o,
  rrk_new t0 y0 order = Ok o ->
  (forall s s' u, rs_frhs sys s u = rs_frhs sys s' u) ->
  smooth_tube (maxn order.-1 1) (rs_frhs sys) z t0 T rad B (fun _ _ => 0) J H2 H3 -> z t0 = y0 ->
  (t0 + dt *+ N <= T)%R -> (T - t0 <= len)%R -> 0 <= dt -> dt <= h0 ->
  exists ys, size ys = N.+1 /\ converges order C dt 0 z t0 N ys /\
    forall i, (i <= N)%N -> exists o', [/\ rrk_iter sys dt o i = Ok o', rk_t o' = t0 + dt *+ i &
      List.nth_error (rk_ys o') 0 = List.nth_error ys i].
