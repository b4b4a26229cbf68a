(* SpecPhi.v : what the phi functions of a real matrix are, independently of the code.
   phi_0 is the matrix exponential. *)
From Coq Require Import Reals.
From Coquelicot Require Import Coquelicot.
From mathcomp Require Import all_ssreflect all_algebra.
From Verif Require Import Rstruct Summable MxBase MxSeries.
Set Implicit Arguments.
Unset Strict Implicit.
Unset Printing Implicit Defensive.
Import Order.TTheory GRing.Theory Num.Theory.
Local Open Scope ring_scope.

(* P = phi_k(Z) : every entry of  sum_{i<N} Z^i/(i+k)!  converges to that entry of P *)
Definition is_phi (k n : nat) (Z P : 'M[R]_n) : Prop :=
  forall a b, is_lim_seq
    (fun N => (\sum_(i < N) ((i + k)`!%:R)^-1 *: mxpow Z i) a b) (P a b).

(* P = exp(Z) *)
Definition is_expm (n : nat) (Z P : 'M[R]_n) : Prop := is_phi 0 Z P.

(* P_j = phi_j(Z) for all j <= k *)
Definition are_phis (k n : nat) (Z : 'M[R]_n) (P : nat -> 'M[R]_n) : Prop :=
  forall j, (j <= k)%N -> is_phi j Z (P j).

(* existence and uniqueness: the spec determines the value *)
Lemma is_phiP (k n : nat) (Z P : 'M[R]_n) : is_phi k Z P <-> P = phi k Z.
Proof.
split=> [h|->]; last by move=> a b; apply: (@phi_lim n k Z).
apply/matrixP => a b.
have h1 := is_lim_seq_unique _ _ (h a b).
have h2 := is_lim_seq_unique _ _ (@phi_lim n k Z a b).
by rewrite h1 in h2; case: h2.
Qed.
Lemma is_phi_phi k n (Z : 'M[R]_n) : is_phi k Z (phi k Z).
Proof. exact/is_phiP. Qed.
