(* ProofsOrder10.v : from kernels of accuracy O(dt^3) to the order of the step. *)
From Coq Require Import Reals String.
From mathcomp Require Import all_ssreflect all_algebra.
From mathcomp Require Import complex ring.
From Verif Require Import Rstruct ModelHist SpecHist SpecOps SpecPhi ModelPhi ModelOps ModelKrylov ModelInt SpecInt SpecProg SpecOrder SpecOrder2.
Set Implicit Arguments.
Unset Strict Implicit.
Unset Printing Implicit Defensive.
Import Order.TTheory GRing.Theory Num.Theory.
Local Open Scope ring_scope.

Lemma maxnorm_le_trans n (v : 'cV[R]_n) (a b : R) : maxnorm_le v a -> a <= b -> maxnorm_le v b.
Proof. by move=> h ab i; apply: le_trans (h i) ab. Qed.

Lemma local_to_order n (p q : nat) (z : R -> 'cV[R]_n) t (acc : R -> R -> Prop) step (C0 h1 : R) : (p <= q)%N -> (0 < q)%N ->
  0 <= C0 -> 0 < h1 -> (forall dt : R, `|dt| <= h1 -> acc dt (C0 * `|dt| ^+ q)) ->
  local_error p z t acc step -> step_order p z t step.
Proof.
move=> pq q0 C00 h10 hacc [C [C0' hC]] eps e0.
have e2 : 0 < eps / 2%:R by rewrite divr_gt0 ?ltr0n.
have [h0 [h00 hh]] := hC _ e2.
have d1 : 0 < C0 + 1 by rewrite ltr_spaddr // ltr01.
have d2 : 0 < C * C0 + 1 by rewrite ltr_spaddr ?mulr_ge0 // ltr01.
have q1 : 0 < (C0 + 1)^-1 by rewrite invr_gt0.
have q2 : 0 < eps / 2%:R / (C * C0 + 1) by rewrite divr_gt0.
exists (Num.min (Num.min h0 h1) (Num.min 1 (Num.min (C0 + 1)^-1 (eps / 2%:R / (C * C0 + 1))))); split.
  by rewrite !lt_minr h00 h10 ltr01 q1 q2.
move=> dt; rewrite !le_minr => /andP [/andP [a1 a2] /andP [a3 /andP [a4 a5]]].
have n0 := normr_ge0 dt.
have pw m : (0 < m)%N -> `|dt| ^+ m <= `|dt| by case: m => // m _; rewrite exprS ler_pimulr // exprn_ile1.
have b1 : C0 * `|dt| ^+ q <= 1.
  apply: le_trans (ler_wpmul2l C00 (pw _ q0)) _; apply: (@le_trans _ _ ((C0 + 1) * `|dt|)).
    by rewrite ler_wpmul2r // ler_addl ler01.
  by rewrite mulrC -ler_pdivl_mulr // mul1r.
have b0 : 0 <= C0 * `|dt| ^+ q by rewrite mulr_ge0 ?exprn_ge0.
have [v [sv ev]] := hh dt _ a1 b0 b1 (hacc dt a2); exists v; split=> //.
apply: maxnorm_le_trans ev _.
have b3 : C * `|dt| * (C0 * `|dt| ^+ q) <= (eps / 2%:R) * `|dt| ^+ p.
  have -> : C * `|dt| * (C0 * `|dt| ^+ q) = (C * C0) * `|dt| * `|dt| ^+ q.
    by move: (`|dt|) (`|dt| ^+ q) => u1 u2; rewrite mulrACA mulrA.
  apply: ler_pmul; rewrite ?mulr_ge0 ?exprn_ge0 //; last by apply: ler_wiexpn2l.
  apply: (@le_trans _ _ ((C * C0 + 1) * `|dt|)); first by rewrite ler_wpmul2r // ler_addl ler01.
  by rewrite mulrC -ler_pdivl_mulr.
apply: le_trans (ler_add (lexx _) b3) _; rewrite -mulrDl.
have -> : eps / 2%:R + eps / 2%:R = eps by field.
exact: lexx.
Qed.
