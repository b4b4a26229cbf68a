(* PropPolySSR.v : C80 for the real exponential. *)
From Coq Require Import Reals.
From mathcomp Require Import all_ssreflect all_algebra.
From Verif Require Import Rstruct ModelHist ModelPolyX ModelPolySS PropPolyX PropPolySS.
Set Implicit Arguments.
Unset Strict Implicit.
Unset Printing Implicit Defensive.
Import GRing.Theory Num.Theory.
Local Open Scope ring_scope.

(* C80.  With the real exponential: squaring an exact table is exact, and the first coefficient is exp at the first point. *)
Theorem C80_ss_real lg (xs : seq R) (shift scale : R) (F : 'M[R]_(size xs)) :
  uniq xs -> scale != 0 -> exact (K := R_rcfType) exp F (ss_z (K := R_rcfType) lg xs shift scale) ->
  forall i j, ss_finish (K := R_rcfType) exp lg shift scale F i j =
  if (i <= j)%N then divdiff (K := R_rcfType) exp (fun k => shift + scale * nth 0 xs k) i (j - i) else 0.
Proof. by move=> ux s0 hF i j; apply: C80_ss_exact => //; exact: exp_plus. Qed.
Print Assumptions C80_ss_real.
