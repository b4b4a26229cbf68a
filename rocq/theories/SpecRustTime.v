(* SpecRustTime.v : C71, the exponential integrators of the crate on y' = A y + b + t c. *)
From Coq Require Import Reals String.
From mathcomp Require Import all_ssreflect all_algebra.
From Verif Require Import Rstruct MxBase SpecPhi ModelHist ModelOps ModelPhi ModelKrylov ModelInt ModelRust.
Set Implicit Arguments.
Unset Strict Implicit.
Unset Printing Implicit Defensive.
Import Order.TTheory GRing.Theory Num.Theory.
Local Open Scope ring_scope.
(* sys is y' = A y + b + t c with its Jacobian *)
Definition rs_affine n (sys : rsys [rcfType of R] n) (A : 'M[R]_n) (b c : 'cV[R]_n) : Prop :=
  (forall (s : R) u, rs_frhs sys s u = A *m u + b + s *: c) /\ forall (s : R) u v, rs_fjac sys s u v = A *m v.
(* the Krylov evaluations an epirk step of method m makes at a point where the right-hand side is f return the exact values *)
Definition rs_evals_exact n (ev : evaluator [rcfType of R]) (dim iom : nat) (L : 'cV[R]_n -> 'cV[R]_n) (A : 'M[R]_n) (m : string)
    (dt : R) (f c : 'cV[R]_n) : Prop :=
  forall P : nat -> 'M[R]_n, are_phis 2 (dt *: A) P ->
  [/\ apply_phi_linop ev L dt (dt *: f) 1 dim iom = Ok (P 1%N *m (dt *: f)),
      (c != 0 -> apply_phi_linop ev L dt c 2 dim iom = Ok (P 2%N *m c)) &
      (m = "epi3"%string -> rkiops ev L dt 1 [:: 0; dt *: f; 0] dim iom = Ok (P 1%N *m (dt *: f)))].
(* the object switched to another method *)
Definition with_method (F : rcfType) n (o : epirk F n) (m : string) : epirk F n :=
  Epirk m (ep_t o) (ep_tol o) (ep_ys o) (ep_ts o) (ep_ev o) (ep_dim o) (ep_iom o).
