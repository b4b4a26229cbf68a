(* SpecOrder.v : order of accuracy.  Small-o, Taylor expansions of a right-hand side, solutions of an
   initial value problem near a point; no method and no matrix function appears here. *)
From Coq Require Import Reals.
From mathcomp Require Import all_ssreflect all_algebra.
From Verif Require Import Rstruct SpecProg.
Set Implicit Arguments.
Unset Strict Implicit.
Unset Printing Implicit Defensive.
Import Order.TTheory GRing.Theory Num.Theory.
Local Open Scope ring_scope.

Section Spec.
Variable n : nat.
Notation vec := 'cV[R]_n.

(* the point (s, h) of time x space *)
Definition tx (s : R) (h : vec) : 'cV[R]_(1 + n) := col_mx s%:M h.
(* second and third differentials from the partial derivatives H2 i j, H3 i j k *)
Definition diff2 (H2 : 'I_(1 + n) -> 'I_(1 + n) -> vec) (x x' : 'cV[R]_(1 + n)) : vec :=
  \sum_i \sum_j (x i 0 * x' j 0) *: H2 i j.
Definition diff3 (H3 : 'I_(1 + n) -> 'I_(1 + n) -> 'I_(1 + n) -> vec) (x x' x'' : 'cV[R]_(1 + n)) : vec :=
  \sum_i \sum_j \sum_k (x i 0 * x' j 0 * x'' k 0) *: H3 i j k.
Definition sym2 (H2 : 'I_(1 + n) -> 'I_(1 + n) -> vec) : Prop := forall i j, H2 i j = H2 j i.
Definition sym3 (H3 : 'I_(1 + n) -> 'I_(1 + n) -> 'I_(1 + n) -> vec) : Prop :=
  forall i j k, H3 i j k = H3 j i k /\ H3 i j k = H3 i k j.

(* the Taylor polynomial of degree k <= 3 of f at (t,y): value, time derivative ft, Jacobian J, ... *)
Definition taylor_poly (k : nat) (f0 ft : vec) (J : 'M[R]_n) H2 H3 (s : R) (h : vec) : vec :=
  f0 + s *: ft + J *m h
  + (if (1 < k)%N then 2%:R^-1 *: diff2 H2 (tx s h) (tx s h) else 0)
  + (if (2 < k)%N then 6%:R^-1 *: diff3 H3 (tx s h) (tx s h) (tx s h) else 0).
(* f(t+s, y+h) equals it up to o(rho^k), rho a bound of |s| and of the entries of h *)
Definition has_taylor (k : nat) (f : R -> vec -> vec) (t : R) (y ft : vec) (J : 'M[R]_n) H2 H3 : Prop :=
  forall eps : R, 0 < eps -> exists del : R, 0 < del /\
    forall (s : R) (h : vec) (rho : R), `|s| <= rho -> (forall i, `|h i 0| <= rho) -> rho <= del ->
    forall i, `|(f (t + s) (y + h) - taylor_poly k (f t y) ft J H2 H3 s h) i 0| <= eps * rho ^+ k.

(* z solves z' = f(s, z) near t with z(t) = y *)
Definition solves_near (f : R -> vec -> vec) (t : R) (y : vec) (z : R -> vec) : Prop :=
  z t = y /\ exists del : R, 0 < del /\
    forall s : R, `|s| <= del -> vderiv z (t + s) (f (t + s) (z (t + s))).
End Spec.

(* Y approximates z(t + dt) with local error o(dt^p), for the step sizes dt that satisfy ok *)
Definition local_order n (p : nat) (z : R -> 'cV[R]_n) (t : R) (ok : R -> Prop)
    (Y : R -> 'cV[R]_n -> Prop) : Prop :=
  forall eps : R, 0 < eps -> exists del : R, 0 < del /\
    forall dt : R, `|dt| <= del -> ok dt -> forall v, Y dt v ->
    forall i, `|(v - z (t + dt)) i 0| <= eps * `|dt| ^+ p.
