(* PropLejaAug.v : C21 for the Leja methods, the augmented system of build_a_tilde. *)
From Coq Require Import Reals.
From mathcomp Require Import all_ssreflect all_algebra.
From Verif Require Import Rstruct Summable MxBase MxSeries SpecPhi ModelHist ModelOps SpecOps ProofsOps.
From Verif Require Import ModelPhi ModelKrylov ModelLeja ProofsKiops.
Set Implicit Arguments.
Unset Strict Implicit.
Unset Printing Implicit Defensive.
Import Order.TTheory GRing.Theory Num.Theory.
Local Open Scope ring_scope.
(* the exponential of the operator built by build_a_tilde, applied to its vector, holds sum_j phi_j(dt A) vb_j in its first n rows *)
Theorem C21_build_a_tilde n (a_lo : linop R_rcfType n) (A : 'M[R]_n) (dt : R) (vb : seq 'cV[R]_n) :
  acts_as a_lo A -> (1 < size vb)%N ->
  let p := (size vb).-1 in let av := build_a_tilde p a_lo dt vb in
  exists M : 'M[R]_(n + p), acts_as av.1 M /\
  forall E P, is_expm M E -> are_phis p (dt *: A) P ->
    usubmx (E *m av.2) = \sum_(j < size vb) P j *m nth 0 vb j.
Proof.
move=> hA sv p av; exists (block_mx (dt *: A) (kiops_B p vb) 0 (kiops_K R_rcfType p)); split.
  exact: (aug_block dt (kiops_B p vb) (kiops_K R_rcfType p) hA).
move=> E P /is_phiP -> hP; rewrite [av.2]/= -[phi 0 _]/(expmx _) expmx_ktilde.
have es : size vb = p.+1 by rewrite /p; case: (size vb) sv.
rewrite -(big_mkord xpredT (fun j => P j *m nth 0 vb j)) es big_mkord big_ord_recl.
have hp j : (j <= p)%N -> P j = phi j (dt *: A) by move=> h; apply/is_phiP; apply: hP.
by rewrite hp //; congr (_ + _); apply: eq_bigr => q _; rewrite hp //; exact: ltn_ord.
Qed.
