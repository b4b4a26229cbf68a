(* ModelLejaR.v : the number of squarings chosen by dd_exp_taylor (matexp_poly.py:147-150) and the
   real instances of the coefficient routines.  Definitions only. *)
From Coq Require Import Reals.
From mathcomp Require Import all_ssreflect all_algebra.
From Verif Require Import Rstruct MxBase MxSeries ModelLeja.
Set Implicit Arguments.
Unset Strict Implicit.
Unset Printing Implicit Defensive.
Local Open Scope R_scope.

(* jnp.max(jnp.abs(z)) of a matrix *)
Definition maxabs_of (F : Num.RealDomain.type) m n (z : 'M[F]_(m, n)) : F :=
  (\big[Order.max/0]_i \big[Order.max/0]_j `|z i j|)%R.
(* jnp.ceil *)
Definition rceil (x : R) : Z := Z.opp (Int_part (- x)).
(* matexp_poly.py:148-150: s = max(ceil(log(max|z|)/log(2)), 1).  log(0) = -inf gives 1 in the
   code (the cast of -inf is negative); here ln 0 = 0 gives 1 too. *)
Definition dd_nsq_of (mz : R) : nat := Z.to_nat (Z.max (rceil (ln mz / ln 2)) 1).
Definition dd_nsq (x : seq R) (shift scale h : R) : nat :=
  dd_nsq_of (maxabs_of (dd_z (K := R_fieldType) x shift scale h)).
(* matexp_poly.py:122-162 dd_exp_taylor(leja_x, shift, scale, h) with the default p = 20 *)
Definition dd_exp_taylor_R (x : seq R) (shift scale h : R) : seq R :=
  dd_exp_taylor (K := R_fieldType) exp (dd_nsq x shift scale h) x shift scale h 20.
(* matexp_poly.py:65-86 leja_coeffs_exp with the exact matrix exponential *)
Definition leja_coeffs_exp_R (x : seq R) (shift scale h : R) : seq R :=
  leja_coeffs_exp (K := R_fieldType) (fun n => @expmx n) x shift scale h.
(* matexp_poly.py:50-62 leja_coeffs_exp_dd *)
Definition leja_coeffs_exp_dd_R (x : seq R) (shift scale h : R) : seq R :=
  leja_coeffs_exp_dd (K := R_fieldType) exp x shift scale h.
