(* SpecOrder2.v : accuracy of the kernels a step calls, and the local error of a step made with
   kernels of relative accuracy del. *)
From Coq Require Import Reals String.
From mathcomp Require Import all_ssreflect all_algebra.
From mathcomp Require Import complex.
From Verif Require Import Rstruct ModelHist ModelOps SpecOps SpecPhi ModelPhi ModelKrylov ModelInt SpecInt SpecProg SpecOrder.
Set Implicit Arguments.
Unset Strict Implicit.
Unset Printing Implicit Defensive.
Import Order.TTheory GRing.Theory Num.Theory.
Local Open Scope ring_scope.

Section Spec.
Variable n : nat.
Notation vec := 'cV[R]_n.
(* f is Lipschitz in u near (t,y) *)
Definition lipschitz_near (f : R -> vec -> vec) (t : R) (y : vec) : Prop :=
  exists Lp rad : R, [/\ 0 <= Lp, 0 < rad &
    forall (s : R) (u u' : vec), `|s| <= rad -> maxnorm_le (u - y) rad -> maxnorm_le (u' - y) rad ->
    forall rho : R, maxnorm_le (u - u') rho -> maxnorm_le (f (t + s) u - f (t + s) u') (Lp * rho)].

(* local error o(dt^p) + C |dt| del, for kernels of accuracy del: [acc dt del] *)
Definition local_error (p : nat) (z : R -> vec) (t : R) (acc : R -> R -> Prop) (step : R -> vec -> Prop) : Prop :=
  exists C : R, 0 <= C /\ forall eps : R, 0 < eps -> exists h0 : R, 0 < h0 /\
    forall dt del : R, `|dt| <= h0 -> 0 <= del -> del <= 1 -> acc dt del ->
    exists v, step dt v /\ maxnorm_le (v - z (t + dt)) (eps * `|dt| ^+ p + C * `|dt| * del).

(* local error o(dt^p), no assumption on dt except that it is small *)
Definition step_order (p : nat) (z : R -> vec) (t : R) (step : R -> vec -> Prop) : Prop :=
  forall eps : R, 0 < eps -> exists h0 : R, 0 < h0 /\ forall dt : R, `|dt| <= h0 ->
    exists v, step dt v /\ maxnorm_le (v - z (t + dt)) (eps * `|dt| ^+ p).

Variables (K : kernels [rcfType of R]) (kdim iom : nat).
(* the Krylov evaluations of phi_k(c dt M) v, 0 <= c <= 1, 1 <= k <= 3, return and are accurate *)
Definition phi_accurate (M : 'M[R]_n) (dt del : R) : Prop :=
  forall (L : vec -> vec), (forall v, L v = M *m v) ->
  forall (c : R) k v, 0 <= c -> c <= 1 -> (0 < k)%N -> (k <= 3)%N ->
  exists w, phi_linop (k_expm K) (k_expk K) L (c * dt) v k kdim iom = Ok w /\
  forall P, is_phi k ((c * dt) *: M) P -> forall rho, maxnorm_le v rho -> maxnorm_le (w - P *m v) (del * rho).
(* the Krylov evaluations of phi_1(dt M) v_1 + ... + phi_p(dt M) v_p, p <= 4 *)
Definition kiops_accurate (M : 'M[R]_n) (dt del : R) : Prop :=
  forall (L : linop [rcfType of R] n), acts_as L M ->
  forall vs : seq vec, (0 < size vs)%N -> (size vs <= 4)%N ->
  exists w, kiops_fixedsteps (k_expm K) (k_expk K) L dt (0 :: vs) kdim iom = Ok w /\
  forall P : nat -> 'M[R]_n, are_phis (size vs) (dt *: M) P ->
  forall rho, (forall v, v \in vs -> maxnorm_le v rho) ->
  maxnorm_le (w - \sum_(j < size vs) P j.+1 *m nth 0 vs j) (del * rho).
(* the dense evaluations of phi_0, ..., phi_k of c dt M, k <= 2 *)
Definition dense_accurate (M : 'M[R]_n) (dt del : R) : Prop :=
  forall (c : R) k, 0 <= c -> c <= 1 -> (0 < k)%N -> (k <= 2)%N ->
  exists phis, k_sqall K ((dt * c) *: M) k = Some phis /\
  forall j P, (0 < j)%N -> (j <= k)%N -> is_phi j ((dt * c) *: M) P ->
  forall v rho, maxnorm_le v rho -> maxnorm_le ((nth 0 phis j - P) *m v) (del * rho).
(* a routine [ev k] for phi_k(dt M) v *)
Definition ev_accurate (ev : nat -> vec -> vec) (M : 'M[R]_n) (dt del : R) : Prop :=
  forall k P v rho, (0 < k)%N -> (k <= 2)%N -> is_phi k (dt *: M) P -> maxnorm_le v rho ->
  maxnorm_le (ev k v - P *m v) (del * rho).
End Spec.

(* sys computes f, and at (t,y) its Jacobian object reports f(t,y), J and df/dt *)
Definition smooth_system KW n (sys : odesys [rcfType of R] KW n) (f : R -> 'cV[R]_n -> 'cV[R]_n) (t : R)
    (y ft : 'cV[R]_n) (J : 'M[R]_n) : Prop :=
  (forall kw s u, os_frhs sys kw s u = f s u) /\
  (forall kw, let Jo := os_fjac sys kw t y in acts_as (jl_op Jo) J /\ jl_fdt Jo = ft /\ jl_frhs Jo = f t y).
