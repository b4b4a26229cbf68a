(* ModelPhiR.v : the number of squarings chosen by f_phi_k_sq_all, over the reals. *)
From Coq Require Import Reals.
From mathcomp Require Import all_ssreflect all_algebra.
From Verif Require Import Rstruct MxBase MxSeries ModelPhi.
Set Implicit Arguments.
Unset Strict Implicit.
Unset Printing Implicit Defensive.
Local Open Scope R_scope.

(* matexp_phi.py:137-142
     theta = jnp.linalg.norm(z, ord=inf); scale_fact = 16
     Nscale = floor(maximum(0, log2(theta*scale_fact))).astype(int)
   [ninf] is the infinity norm.  log2(0) = -inf gives 0 in the code; here ln 0 = 0 gives 0.
   Integer overflow of 2 ** Nscale (norms above about 2^58) is not modelled. *)
Definition nscale n (z : 'M[R]_n) : nat :=
  Z.to_nat (Int_part (Rmax 0 (ln (ninf z * 16) / ln 2))).

(* matexp_phi.py:129-166 and 168-174 with that choice *)
Definition f_phi_k_sq_all n (z : 'M[R]_n) (k : nat) : option (seq 'M[R]_n) :=
  f_phi_k_sq_all_at z k (nscale z).
Definition f_phi_k_sq n (z : 'M[R]_n) (k : nat) : option 'M[R]_n :=
  f_phi_k_sq_at z k (nscale z).

(* matexp_phi.py:210: the exponential f_phi_k_appl uses for k > 0, f_phi_k_sq(z_ext, k=0); the
   option is never None for k = 0 (PropPhi.C14_squaring_result) *)
Definition expk_code n (A : 'M[R]_n) : 'M[R]_n := odflt 0%R (f_phi_k_sq A 0).
