(* SpecConv.v : a smooth right-hand side along a solution, with the constants that the error bounds of C69 may
   depend on; convergence of a computed trajectory.  No method and no matrix function appears here. *)
From Coq Require Import Reals.
From mathcomp Require Import all_ssreflect all_algebra.
From Verif Require Import Rstruct SpecProg SpecPhi SpecInt SpecOrder SpecOrder2.
Set Implicit Arguments.
Unset Strict Implicit.
Unset Printing Implicit Defensive.
Import Order.TTheory GRing.Theory Num.Theory.
Local Open Scope ring_scope.

Section Spec.
Variable n : nat.
Notation vec := 'cV[R]_n.
(* (s,u) lies in the tube of radius rad around the curve z over [t0,T] *)
Definition in_tube (z : R -> vec) (t0 T rad : R) (s : R) (u : vec) : Prop :=
  [/\ t0 <= s, s <= T & maxnorm_le (u - z s) rad].
(* z solves z' = f(s,z) on [t0,T]; in the tube f, its time derivative ft, its Jacobian J and its higher derivatives
   (as far as the Taylor polynomial of degree k uses them) are bounded by B, and the remainder of that
   polynomial is at most B rho^(k+1) *)
Record smooth_tube (k : nat) (f : R -> vec -> vec) (z : R -> vec) (t0 T rad B : R) (ft : R -> vec -> vec)
    (J : R -> vec -> 'M[R]_n) (H2 : R -> vec -> 'I_(1 + n) -> 'I_(1 + n) -> vec)
    (H3 : R -> vec -> 'I_(1 + n) -> 'I_(1 + n) -> 'I_(1 + n) -> vec) : Prop := {
  st_sol : forall s, t0 <= s -> s <= T -> vderiv z s (f s (z s));
  st_sym : forall s u, in_tube z t0 T rad s u -> sym2 (H2 s u);
  st_f : forall s u, in_tube z t0 T rad s u -> maxnorm_le (f s u) B;
  st_ft : forall s u, in_tube z t0 T rad s u -> maxnorm_le (ft s u) B;
  st_J : forall s u, in_tube z t0 T rad s u -> forall i, \sum_j `|J s u i j| <= B;
  st_2 : (1 < k)%N -> forall s u, in_tube z t0 T rad s u ->
    forall x x' (rho rho' : R), maxnorm_le x rho -> maxnorm_le x' rho' ->
    maxnorm_le (diff2 (H2 s u) x x') (B * (rho * rho'));
  st_3 : (2 < k)%N -> forall s u, in_tube z t0 T rad s u ->
    forall x x' x'' (rho rho' rho'' : R), maxnorm_le x rho -> maxnorm_le x' rho' -> maxnorm_le x'' rho'' ->
    maxnorm_le (diff3 (H3 s u) x x' x'') (B * (rho * rho' * rho''));
  st_T : forall s u (sg : R) h (rho : R), in_tube z t0 T rad s u -> in_tube z t0 T rad (s + sg)%R (u + h) ->
    `|sg| <= rho -> maxnorm_le h rho ->
    maxnorm_le (f (s + sg)%R (u + h) - taylor_poly k (f s u) (ft s u) (J s u) (H2 s u) (H3 s u) sg h) (B * rho ^+ k.+1) }.

(* the i-th state of the trajectory ys is within C (dt^p + del) of the solution at t0 + i dt, 0 <= i <= N *)
Definition converges (p : nat) (C dt del : R) (z : R -> vec) (t0 : R) (N : nat) (ys : seq vec) : Prop :=
  forall i, (i <= N)%N -> exists y, List.nth_error ys i = Some y /\
    maxnorm_le (y - z (t0 + dt *+ i)%R) (C * (dt ^+ p + del)).
End Spec.
