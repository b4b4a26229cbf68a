(* ModelRad.v : the reaction-advection-diffusion systems RAD_SEM of progression/rad_1d_2s.py, rad_1d_3s.py and
   rad_1d_9s.py.  The assembled matrix A, the lumped masses Ml and the Dirichlet nodes are arguments (skfem). *)
From Coq Require Import Reals.
From mathcomp Require Import all_ssreflect all_algebra.
From Verif Require Import Rstruct ModelHist ModelOps ModelInt ModelProg ModelProg2.
Set Implicit Arguments.
Unset Strict Implicit.
Unset Printing Implicit Defensive.
Import Order.TTheory GRing.Theory Num.Theory.
Local Open Scope ring_scope.

Section Rad.
Variable F : rcfType.
(* N nodes, n species; both positive so that the flat vector can be indexed *)
Variables (N' n' : nat).
Notation N := N'.+1.
Notation n := n'.+1.
Variables (A : 'M[F]_N) (Ml : 'cV[F]_N) (dbd : pred 'I_N) (bat : 'M[F]_n).
(* ode_utils.py:22-27 stack_u(u, n) and flatten_u, order='F', on vectors of length N n (the sequence version is
   in ModelProg.v) *)
Definition stack_mx (u : 'cV[F]_(N * n)) : 'M[F]_(N, n) := \matrix_(k, s) u (inord (k + s * N)) 0.
Definition flatten_mx (U : 'M[F]_(N, n)) : 'cV[F]_(N * n) := \col_i U (inord (i %% N)) (inord (i %/ N)).
(* rad_1d_3s.py:78-88 _frhs with no source; rad_1d_2s.py:110-121 and rad_1d_9s.py:188-206 with a source *)
Definition rad_frhs (src : 'M[F]_(N, n) -> 'M[F]_(N, n)) (t : F) (u : 'cV[F]_(N * n)) : 'cV[F]_(N * n) :=
  let un := stack_mx u in
  let s := src un in
  let lub := un *m bat^T in
  let udot := lub + s - \matrix_(k, j) ((A *m un) k j / Ml k 0) in
  flatten_mx (\matrix_(k, j) (if dbd k then 0 else udot k j)).
(* jnp.kron of an n x n and an N x N matrix *)
Definition kron (X : 'M[F]_n) (Y : 'M[F]_N) : 'M[F]_(N * n) :=
  \matrix_(i, j) (X (inord (i %/ N)) (inord (j %/ N)) * Y (inord (i %% N)) (inord (j %% N))).
(* rad_1d_3s.py:91-104 _fl (the same in the other two) *)
Definition rad_fl (t : F) (u : 'cV[F]_(N * n)) : linop F (N * n) :=
  MatrixLinOp (kron 1%:M (\matrix_(k, j) (- A k j / Ml k 0))).
(* rad_1d_2s.py:89-108 and rad_1d_9s.py:156-168: a transfer between two species, node by node *)
Definition rad_transfer (rate : F -> F -> F) (a g : 'I_n) (un : 'M[F]_(N, n)) : 'M[F]_(N, n) :=
  \matrix_(k, j) (0 + (if j == a then rate (un k a) (un k g) else 0) + (if j == g then - rate (un k a) (un k g) else 0)).
End Rad.
(* rad_1d_2s.py:97-108 _source_nonlin_evap: k = 2, k_g = k_a = 1, k_s = 1e-12 by default *)
Definition rad2_src N' : 'M[R]_(N'.+1, 2) -> 'M[R]_(N'.+1, 2) :=
  @rad_transfer R_rcfType N' 1 (fun u_a u_g => mxf_liq_vapor_nonlin 2%:R 1 1 (10%:R ^- 12)%R u_a u_g) 0 1.
(* rad_1d_2s.py:49-53 and 85; rad_1d_3s.py:40-45; species are numbered from 1, 0 is 'none' *)
Definition rad2_lib : decay_lib R_rcfType nat_eqType :=
  [:: (1%N, Single 2%N (3%:R / 10%:R ^+ 3)%R); (2%N, Single 0%N (3%:R / 10%:R ^+ 2)%R)].
Definition rad3_lib : decay_lib R_rcfType nat_eqType :=
  [:: (1%N, Single 2%N (1%R : R)); (2%N, Single 3%N (100%:R)%R); (3%N, Single 0%N (1 / 10%:R ^+ 2)%R)].
