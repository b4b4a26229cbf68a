(* ModelRust2.v : the example systems of the crate. *)
From Coq Require Import Reals.
From mathcomp Require Import all_ssreflect all_algebra.
From Verif Require Import Rstruct MxBase ModelHist ModelOps ModelRust.
Set Implicit Arguments.
Unset Strict Implicit.
Unset Printing Implicit Defensive.
Import Order.TTheory GRing.Theory Num.Theory.
Local Open Scope ring_scope.
Section Sys.
Variable F : rcfType.
Definition vec3 (a b c : F) : 'cV[F]_3 := \col_i nth 0 [:: a; b; c] i.
(* ode_utils.rs:23-33 lv_sys_rhs, all constants 1 *)
Definition rlv_rhs (_ : F) (x : 'cV[F]_2) : 'cV[F]_2 :=
  \col_i nth 0 [:: 1 * x 0 0 - 1 * x 0 0 * x 1 0; 1 * x 0 0 * x 1 0 - 1 * x 1 0] i.
(* ode_utils.rs:36-57 lv_sys_jac *)
Definition rlv_jac (_ : F) (x : 'cV[F]_2) : 'M[F]_2 :=
  \matrix_(i, j) nth 0 (nth [::] [:: [:: 1 - 1 * x 1 0; - 1 * x 0 0]; [:: 1 * x 1 0; 1 * x 0 0 - 1]] i) j.
(* ode_utils.rs:61-81 bateman_sys_rhs: lambda_0 = 1e-3, lambda_1 = 1e1, lambda_2 = 1e-1 *)
Definition rbat_mat : 'M[F]_3 :=
  let l0 := (10%:R ^+ 3)^-1 in let l1 := 10%:R in let l2 := 10%:R^-1 in
  \matrix_(i, j) nth 0 (nth [::] [:: [:: - l0; l1; 0]; [:: 0; - l1; l2]; [:: 0; 0; - l2]] i) j.
Definition rbat_rhs (_ : F) (x : 'cV[F]_3) : 'cV[F]_3 := rbat_mat *m x.
(* ode_utils.rs:85-99 rob_sys_rhs *)
Definition rrob_rhs (_ : F) (x : 'cV[F]_3) : 'cV[F]_3 :=
  let c1 := 4%:R / 10%:R ^+ 2 in let c2 := 10%:R ^+ 4 in let c3 := 3%:R * 10%:R ^+ 7 in
  let x0 := x 0 0 in let y := x 1 0 in let z := x 2%:R 0 in
  vec3 (- c1 * x0 + c2 * y * z) (c1 * x0 - c2 * y * z - c3 * y ^+ 2) (c3 * y ^+ 2).
(* the default operator of a system without Jacobian, FdJacLinOp with scale 1 (ode_sys.rs:420-455), where it returns *)
Definition rfd_op n (f : F -> 'cV[F]_n -> 'cV[F]_n) (t : F) (x v : 'cV[F]_n) : 'cV[F]_n :=
  if rfd_apply f t x 1 None v is Ok w then w else 0.
Definition rfd_sys n (f : F -> 'cV[F]_n -> 'cV[F]_n) : rsys F n := RSys f (rfd_op f).
End Sys.
