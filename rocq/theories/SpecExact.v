(* SpecExact.v : solutions of the linear inhomogeneous initial value problem, without any matrix
   function. *)
From Coq Require Import Reals String.
From mathcomp Require Import all_ssreflect all_algebra.
From Verif Require Import Rstruct ModelHist ModelOps SpecOps SpecPhi ModelKrylov ModelInt SpecProg.
Set Implicit Arguments.
Unset Strict Implicit.
Unset Printing Implicit Defensive.
Import Order.TTheory GRing.Theory Num.Theory.
Local Open Scope ring_scope.

(* z solves z' = A z + b + s g on the closed interval between t and t' (either order), z(t) = y *)
Definition solves_ivp n (A : 'M[R]_n) (b g : 'cV[R]_n) (t t' : R) (y : 'cV[R]_n) (z : R -> 'cV[R]_n) : Prop :=
  z t = y /\
  forall s, (Rmin t t' <= s)%R -> (s <= Rmax t t')%R -> vderiv z s (A *m z s + b + s *: g).
Arguments solves_ivp {n} A b g t t' y z : clear scopes.

(* the evaluations of phi functions made by method m at (t,y) with step dt return the exact
   values: Krylov phi_linop, Krylov kiops_fixedsteps, dense f_phi_k_sq_all *)
Definition kernels_exact_at (K : kernels [rcfType of R]) (o : rbopts [rcfType of R]) n
    (A : 'M[R]_n) (b g : 'cV[R]_n) (m : string) (dt t : R) (y : 'cV[R]_n) : Prop :=
  let f := A *m y + b + t *: g in
  forall P : nat -> 'M[R]_n, are_phis 2 (dt *: A) P ->
  (m <> "epi2"%string -> m <> "exprb2_dense"%string ->
     forall L : 'cV[R]_n -> 'cV[R]_n, (forall v, L v = A *m v) ->
     phi_linop (k_expm K) (k_expk K) L dt (dt *: f) 1 (o_kdim o) (o_iom o) = Ok (P 1%N *m (dt *: f)) /\
     phi_linop (k_expm K) (k_expk K) L dt g 2 (o_kdim o) (o_iom o) = Ok (P 2%N *m g)) /\
  (m = "epi2"%string \/ m = "epi3"%string ->
     forall L : linop [rcfType of R] n, acts_as L A ->
     kiops_fixedsteps (k_expm K) (k_expk K) L dt [:: 0; dt *: f; dt ^+ 2 *: g] (o_kdim o) (o_iom o)
       = Ok (P 1%N *m (dt *: f) + P 2%N *m (dt ^+ 2 *: g))) /\
  (m = "exprb2_dense"%string -> k_sqall K (dt *: A) 2 = Some [:: P 0%N; P 1%N; P 2%N]).
Arguments kernels_exact_at K o {n} A b g m dt t y : clear scopes.

(* relative accuracy of the Krylov evaluation of phi_j with m vectors in dimension n, th = ||dt A||:
   early stop at 1e-12, truncation to m < n vectors, dense phi by scaling and squaring *)
Definition krylov_err (n m j : nat) (th : R) : R_rcfType :=
  let tol := n%:R * breakdown_tol R_rcfType in
  let eta := n%:R * m%:R * th in
  tol * exp (th + tol)%R
  + (if (m < n)%N then ((m + j)`!%:R)^-1 * (th ^+ m * exp th + m%:R * (eta ^+ m * exp eta)) else 0)
  + m%:R * ((eta + 2%:R) / (8%:R ^+ 4 * 120%:R) * exp (eta + 2%:R)%R) * (0 < j)%N%:R.
(* the same for the augmented problem of kiops with p input vectors beyond the first *)
Definition kiops_err_bound (N m : nat) (th : R) : R_rcfType :=
  let tol := N%:R * breakdown_tol R_rcfType in
  let eta := N%:R * m%:R * th in
  2%:R * (tol * exp (th + tol)%R
     + (if (m < N)%N then ((m + 0)`!%:R)^-1 * (th ^+ m * exp th + m%:R * (eta ^+ m * exp eta)) else 0)).
(* accuracy of the dense phi_j, j > 0 (scaling and squaring from degree 4) *)
Definition dense_err (j : nat) (th : R) : R_rcfType :=
  (th / (8%:R ^+ 4 * 120%:R) + (8%:R ^+ (5 - j))^-1 / 120%:R) * exp th.
