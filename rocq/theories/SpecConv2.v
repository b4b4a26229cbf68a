(* SpecConv2.v : C69, what it means for the runs of a method to converge with order p. *)
From Coq Require Import Reals String.
From mathcomp Require Import all_ssreflect all_algebra.
From mathcomp Require Import complex.
From Verif Require Import Rstruct ModelHist ModelOps SpecOps SpecPhi ModelPhi ModelKrylov ModelInt SpecInt SpecProg SpecOrder SpecOrder2 SpecConv.
Set Implicit Arguments.
Unset Strict Implicit.
Unset Printing Implicit Defensive.
Import Order.TTheory GRing.Theory Num.Theory.
Local Open Scope ring_scope.

(* the kernels a method calls for a Jacobian J at (s,u), with step dt, have relative accuracy del *)
Definition accuracy := forall KW n, rbopts [rcfType of R] -> kernels [rcfType of R] -> KW -> odesys [rcfType of R] KW n ->
  R -> 'cV[R]_n -> 'M[R]_n -> R -> R -> Prop.
(* Krylov evaluations: of single phi functions (all methods but epi2), of sums of them (the methods listed) *)
Definition krylov_kernels : accuracy := fun KW n o K kw0 sys s u J dt del =>
  (o_method o <> "epi2" -> phi_accurate K (o_kdim o) (o_iom o) J dt del)%string /\
  (List.In (o_method o) [:: "pexprb4"; "epi2"; "epi3"] -> kiops_accurate K (o_kdim o) (o_iom o) J dt del)%string.
(* the system gives its Jacobian as a matrix, and the dense phi functions are accurate *)
Definition dense_kernels : accuracy := fun KW n o K kw0 sys s u J dt del =>
  lo_dense (jl_op (os_fjac sys None s u)) = Ok J /\ dense_accurate K J dt del.
(* partial fractions *)
Definition pfd_kernels : accuracy := fun KW n o K kw0 sys s u J dt del =>
  (forall kw, lo_dense (jl_op (os_fjac sys (Some kw) s u)) = Ok J) /\
  ev_accurate (fun k v => f_phi_k_pfd (o_pfd o) (dt *: J) v k) J dt del.
Definition rs_kernels : accuracy := fun KW n o K kw0 sys s u J dt del =>
  [/\ o_rust o, lo_dense (jl_op (os_fjac sys None s u)) = Ok J & ev_accurate (fun k v => k_rs K J dt v k) J dt del].

(* Every run of the method m with a step dt <= h0 and kernels of accuracy del <= h0, from a point of a solution z
   of a problem that is smooth with constant B in the tube of radius rad around z over [t0,T], T - t0 <= len,
   succeeds and stays within C (dt^p + del) of z.  The tolerance gate of the time derivative is hypothesis
   number six: df/dt is zero or passes it. *)
Definition rosenbrock_converges (B rad len : R) (m : string) (p : nat) (C h0 : R) (acc : accuracy) : Prop :=
  forall KW (K : kernels [rcfType of R]) n (o : rbopts [rcfType of R]) (kw0 : KW) (sys : odesys [rcfType of R] KW n)
    f (z : R -> 'cV[R]_n) ft J H2 H3 t0 T dt del N W (cb1 cb2 : option (W -> R -> 'cV[R]_n -> W * KW)) h w y0,
  o_method o = m -> rb_new o t0 y0 = Ok h ->
  smooth_tube p.-1 f z t0 T rad B ft J H2 H3 -> z t0 = y0 ->
  (forall s u, in_tube z t0 T rad s u -> smooth_system sys f s u (ft s u) (J s u)) ->
  (forall s u, in_tube z t0 T rad s u -> ft s u = 0 \/ (0 <= o_tol o /\ ~ maxnorm_le (ft s u) (o_tol o))) ->
  (forall s u, in_tube z t0 T rad s u -> acc KW n o K kw0 sys s u (J s u) dt del) ->
  (t0 + dt *+ N <= T)%R -> (T - t0 <= len)%R -> 0 <= dt -> dt <= h0 -> 0 <= del -> del <= h0 ->
  exists d, integrate_ormatex (rb_step K o kw0 sys) (@hist_accept R 'cV[R]_n) cb1 cb2 h w y0 t0 dt N = Ok d /\
    converges p C dt del z t0 N (d_ys d).


(* the same for the split methods: M s u is the linear part the system reports at (s,u); it is bounded by B
   and need not be the Jacobian *)
Definition split_converges (B rad len : R) (m : string) (p : nat) (C h0 : R) : Prop :=
  forall KW (K : kernels [rcfType of R]) n kdim iom (sys : splitsys [rcfType of R] KW n)
    f (z : R -> 'cV[R]_n) ft J H2 H3 (M : R -> 'cV[R]_n -> 'M[R]_n) t0 T dt del N W
    (cb1 cb2 : option (W -> R -> 'cV[R]_n -> W * KW)) ob w y0,
  sp_new m t0 y0 = Ok ob ->
  smooth_tube (maxn p.-1 1) f z t0 T rad B ft J H2 H3 -> z t0 = y0 ->
  (forall kw s u, os_frhs (ss_sys sys) kw s u = f s u) ->
  (forall s u, in_tube z t0 T rad s u -> [/\ acts_as (ss_fl sys s u) (M s u), forall i, \sum_j `|M s u i j| <= B &
     phi_accurate K kdim iom (M s u) dt del]) ->
  (t0 + dt *+ N <= T)%R -> (T - t0 <= len)%R -> 0 <= dt -> dt <= h0 -> 0 <= del -> del <= h0 ->
  exists d, integrate_ormatex (sp_step K kdim iom m sys) (@sp_accept [rcfType of R] n) cb1 cb2 ob w y0 t0 dt N = Ok d /\
    converges p C dt del z t0 N (d_ys d).
(* the dense variants keep the phi matrices of the linear part M at the first point; the order does not suffer *)
Definition split_dense_converges (B rad len : R) (m : string) (p : nat) (C h0 : R) : Prop :=
  forall KW (K : kernels [rcfType of R]) n kdim iom (sys : splitsys [rcfType of R] KW n)
    f (z : R -> 'cV[R]_n) ft J H2 H3 (M : 'M[R]_n) t0 T dt del N W
    (cb1 cb2 : option (W -> R -> 'cV[R]_n -> W * KW)) ob w y0,
  sp_new m t0 y0 = Ok ob ->
  smooth_tube (maxn p.-1 1) f z t0 T rad B ft J H2 H3 -> z t0 = y0 ->
  (forall kw s u, os_frhs (ss_sys sys) kw s u = f s u) ->
  acts_as (ss_fl sys t0 y0) M -> lo_dense (ss_fl sys t0 y0) = Ok M -> (forall i, \sum_j `|M i j| <= B) ->
  dense_accurate K M dt del ->
  (t0 + dt *+ N <= T)%R -> (T - t0 <= len)%R -> 0 < dt -> dt <= h0 -> 0 <= del -> del <= h0 ->
  exists d, integrate_ormatex (sp_step K kdim iom m sys) (@sp_accept [rcfType of R] n) cb1 cb2 ob w y0 t0 dt N = Ok d /\
    converges p C dt del z t0 N (d_ys d).
(* rk4: no kernels; a run without a pre-step callback (the method rejects keyword arguments) *)
Definition rk4_converges (B rad len : R) (C h0 : R) : Prop :=
  forall KW n (sys : odesys [rcfType of R] KW n) f (z : R -> 'cV[R]_n) ft J H2 H3 t0 T dt N W
    (cb2 : option (W -> R -> 'cV[R]_n -> W * KW)) h w y0,
  rk_new "rk4" t0 y0 = Ok h ->
  smooth_tube 3 f z t0 T rad B ft J H2 H3 -> z t0 = y0 -> (forall kw s u, os_frhs sys kw s u = f s u) ->
  (t0 + dt *+ N <= T)%R -> (T - t0 <= len)%R -> 0 <= dt -> dt <= h0 ->
  exists d, integrate_ormatex (rk_step "rk4" sys) (@hist_accept R 'cV[R]_n) None cb2 h w y0 t0 dt N = Ok d /\
    converges 4 C dt 0 z t0 N (d_ys d).
