(* SpecConvRs2.v : C70, runs of the Rust driver that are proved to return. *)
From Coq Require Import Reals String.
From mathcomp Require Import all_ssreflect all_algebra.
From Verif Require Import Rstruct Summable MxBase MxSeries ModelHist ModelOps SpecOps SpecPhi ModelPhi ModelKrylov ModelInt SpecInt SpecProg SpecOrder SpecOrder2 SpecConv ModelRust SpecRust SpecConvRs.
Set Implicit Arguments.
Unset Strict Implicit.
Unset Printing Implicit Defensive.
Import Order.TTheory GRing.Theory Num.Theory.
Local Open Scope ring_scope.

(* As rs_exponential_converges, but the run is proved to return: the solution keeps a speed of at least c > 0
   (at an equilibrium the crate divides by zero), and the Krylov dimension is positive *)
Definition rs_exponential_returns (B rad len c : R) (m : string) (p : nat) (C h0 : R) : Prop :=
  forall n (gmres : ('cV[R]_n -> 'cV[R]_n) -> 'cV[R]_n -> 'cV[R]_n -> nat -> R -> option 'cV[R]_n)
    (sys : rsys [rcfType of R] n) (evals : string -> evaluator [rcfType of R]) z J H2 H3 t0 T dt del N kwds em dim iom tol o y0,
  rs_options kwds m em dim iom tol o -> (0 < dim)%N ->
  (forall s s' u, rs_frhs sys s u = rs_frhs sys s' u) ->
  smooth_tube p.-1 (rs_frhs sys) z t0 T rad B (fun _ _ => 0) J H2 H3 -> z t0 = y0 ->
  (forall s, t0 <= s -> s <= T -> exists i, c <= `|rs_frhs sys s (z s) i 0|) ->
  (forall s u, in_tube z t0 T rad s u -> forall v, rs_fjac sys s u v = J s u *m v) ->
  (forall s u, in_tube z t0 T rad s u -> rs_phi_accurate (evals em) dim iom (rs_fjac sys s u) (J s u) dt del) ->
  (m = "epi3"%string -> rs_epi3_accurate (evals em) dim iom sys z t0 T rad J dt del) ->
  (t0 + dt *+ N <= T)%R -> (T - t0 <= len)%R -> 0 < dt -> dt <= h0 -> 0 <= del -> del <= h0 ->
  exists ys ts, integrate_wrapper_rs gmres sys evals y0 t0 dt N kwds = Ok (ys, ts) /\
    rs_converges p C dt del z t0 o N ys.

(* As rs_implicit_converges, with a linear solver that also returns whenever there is a solution: the run returns *)
Definition rs_implicit_returns (B len : R) (m : string) (p : nat) (C h0 : R) : Prop :=
  forall n (gmres : ('cV[R]_n -> 'cV[R]_n) -> 'cV[R]_n -> 'cV[R]_n -> nat -> R -> option 'cV[R]_n)
    (sys : rsys [rcfType of R] n) (evals : string -> evaluator [rcfType of R]) (A : 'M[R]_n) b z t0 T dt N kwds em dim iom tol o y0,
  rs_options kwds m em dim iom tol o -> exact_solver gmres -> complete_solver gmres ->
  (forall s u, rs_frhs sys s u = A *m u + b) -> (forall s u v, rs_fjac sys s u v = A *m v) ->
  (forall s, t0 <= s -> s <= T -> vderiv z s (A *m z s + b)) -> z t0 = y0 ->
  (forall i, \sum_j `|A i j| <= B) -> (forall s, t0 <= s -> s <= T -> maxnorm_le (A *m z s + b) B) ->
  (t0 + dt *+ N <= T)%R -> (T - t0 <= len)%R -> 0 <= dt -> dt <= h0 ->
  exists ys ts, integrate_wrapper_rs gmres sys evals y0 t0 dt N kwds = Ok (ys, ts) /\
    rs_converges p C dt 0 z t0 o N ys.
