(* SpecLejaPow.v : Rayleigh quotients along the power sequence.  Definitions only. *)
From mathcomp Require Import all_ssreflect all_algebra.
Set Implicit Arguments.
Unset Strict Implicit.
Unset Printing Implicit Defensive.
Import Order.TTheory GRing.Theory Num.Theory.
Local Open Scope ring_scope.

Section Spec.
Variable F : rcfType.
(* the usual inner product and quadratic form of an operator *)
Definition ip n (u v : 'cV[F]_n) : F := (u^T *m v) 0 0.
Definition rayleigh n (mv : 'cV[F]_n -> 'cV[F]_n) (v : 'cV[F]_n) : F := ip v (mv v) / ip v v.
(* the estimate after k power iterations: Rayleigh quotient of A^(k-1) b; before any, 10^20 *)
Definition estimate n (mv : 'cV[F]_n -> 'cV[F]_n) (b : 'cV[F]_n) (k : nat) : F :=
  if k is k'.+1 then rayleigh mv (iter k' mv b) else 10%:R ^+ 20.
Definition self_adjoint n (mv : 'cV[F]_n -> 'cV[F]_n) : Prop := forall u v, ip u (mv v) = ip (mv u) v.
End Spec.
