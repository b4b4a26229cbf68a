(* SpecLejaPts.v : what fast Leja points are, independently of the program.  Definitions only. *)
From mathcomp Require Import all_ssreflect all_algebra.
Set Implicit Arguments.
Unset Strict Implicit.
Unset Printing Implicit Defensive.
Import Order.TTheory GRing.Theory Num.Theory.
Local Open Scope ring_scope.

Section Spec.
Variable F : realFieldType.
(* u and v are neighbours among the points s *)
Definition neighbours (s : seq F) (u v : F) : Prop :=
  [/\ u \in s, v \in s, u < v & forall x, x \in s -> ~~ ((u < x) && (x < v))].
(* the product of the distances from x to the points s *)
Definition dist_prod (s : seq F) (x : F) : F := \prod_(y <- s) `|x - y|.
(* from the fourth point on every point is the midpoint of two neighbours among the earlier ones *)
Definition midpoint_seq (s : seq F) : Prop :=
  forall i, (3 <= i < size s)%N ->
    exists u v, neighbours (take i s) u v /\ s`_i = (u + v) / 2%:R.
(* the fast Leja choice: among the midpoints of neighbours, a largest product of distances *)
Definition fast_leja_seq (s : seq F) : Prop :=
  forall i, (3 <= i < size s)%N ->
    forall u v, neighbours (take i s) u v -> dist_prod (take i s) ((u + v) / 2%:R) <= dist_prod (take i s) s`_i.
End Spec.
