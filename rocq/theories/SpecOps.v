(* SpecOps.v : specification vocabulary for linear operators *)
From mathcomp Require Import all_ssreflect all_algebra.
From Verif Require Import ModelHist ModelOps.
Set Implicit Arguments.
Unset Strict Implicit.
Unset Printing Implicit Defensive.
Import GRing.Theory.
Local Open Scope ring_scope.

(* a function of vectors is linear *)
Definition is_linear (F : ringType) m n (f : 'cV[F]_m -> 'cV[F]_n) : Prop :=
  forall (x : F) u v, f (x *: u + v) = x *: f u + f v.

(* an operator acts as the matrix A *)
Definition acts_as (F : realFieldType) n (L : linop F n) (A : 'M[F]_n) : Prop :=
  forall v, lo_mv L v = A *m v.

(* if dense() returns a matrix, that matrix acts like matvec *)
Definition dense_ok (F : realFieldType) n (L : linop F n) : Prop :=
  forall A, lo_dense L = Ok A -> acts_as L A.

(* the function f(t,u) = M u + c(t) *)
Definition affine_rhs (F : ringType) n (M : 'M[F]_n) (c : F -> 'cV[F]_n) : F -> 'cV[F]_n -> 'cV[F]_n :=
  fun t u => M *m u + c t.
