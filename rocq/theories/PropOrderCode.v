(* PropOrderCode.v : C66 with the matrix-function kernels of the code, and an example. *)
From Coq Require Import Reals String.
From mathcomp Require Import all_ssreflect all_algebra.
From mathcomp Require Import complex ring.
From Verif Require Import Rstruct Summable MxBase MxSeries ModelPhiR ProofsPhiErr ModelHist SpecHist ModelOps SpecOps SpecPhi ModelPhi ModelKrylov ModelDispatch ModelInt SpecInt ProofsInt SpecExact ProofsExact PropExact.
From Verif Require Import SpecProg SpecOrder SpecOrder2 ProofsOrder9 ProofsOrder10 PropOrder ProofsOrderEx.
Set Implicit Arguments.
Unset Strict Implicit.
Unset Printing Implicit Defensive.
Import Order.TTheory GRing.Theory Num.Theory.
Local Open Scope ring_scope.
Local Opaque breakdown_tol norm2 phi_linop f_phi_k_pfd kiops_fixedsteps f_phi_k_sq_all.

(* the dense methods with the code's phi_k routine: no hypothesis on the kernel is left *)
Theorem C66_dense_code_order KW (K : kernels [rcfType of R]) n (o : rbopts [rcfType of R]) (kw0 : KW) (sys : odesys [rcfType of R] KW n)
    (f : R -> 'cV[R]_n -> 'cV[R]_n) (t : R) (y ft : 'cV[R]_n) (J : 'M[R]_n) H2 H3 (z : R -> 'cV[R]_n) (h : hist R 'cV[R]_n) kw :
  k_sqall K = f_phi_k_sq_all ->
  smooth_system sys f t y ft J -> lo_dense (jl_op (os_fjac sys None t y)) = Ok J ->
  sym2 H2 -> has_taylor 1 f t y ft J H2 H3 -> solves_near f t y z ->
  o_method o = "exprb2_dense"%string -> current h t y ->
  step_order 2 z t (fun dt v => rb_step K o kw0 sys h dt kw = Ok (h, mkStep (t + dt) dt v (-1))).
Proof.
move=> hk smooth hd s2 HT sol hm cur.
have [C [h1 [C0 h0 ha]]] := code_dense_accurate J hk.
have X := C66_dense_order K kw0 smooth s2 sol kw hm cur hd HT.
have Y := local_to_order (isT : (2 <= 3)%N) isT C0 h0 ha X.
exact: Y.
Qed.
Theorem C66_split_dense_code_order KW (K : kernels [rcfType of R]) n (kdim iom : nat) (sys : splitsys [rcfType of R] KW n)
    (f : R -> 'cV[R]_n -> 'cV[R]_n) (t : R) (y ft : 'cV[R]_n) (J M : 'M[R]_n) H2 H3 (z : R -> 'cV[R]_n)
    (ob : R -> spobj [rcfType of R] n) kw m p :
  k_sqall K = f_phi_k_sq_all ->
  (forall kw s u, os_frhs (ss_sys sys) kw s u = f s u) ->
  sym2 H2 -> lipschitz_near f t y -> has_taylor (maxn p.-1 1) f t y ft J H2 H3 -> solves_near f t y z ->
  (forall dt, in_use K sys t y M m (ob dt) dt) ->
  List.In (m, p) [:: ("exp1_dense", 1%N); ("exp2_dense", 2%N); ("exp3_dense", 3%N)]%string ->
  step_order p z t (fun dt v => exists ob', sp_step K kdim iom m sys (ob dt) dt kw = Ok (ob', mkStep (t + dt) dt v (-1))).
Proof.
move=> hk hf s2 lip HT sol hu hm.
have [C [h1 [C0 h0 ha]]] := code_dense_accurate M hk.
have hp : (p <= 3)%N by case: hm => [[_ <-]|[[_ <-]|[[_ <-]|//]]].
exact: (local_to_order hp isT C0 h0 ha (C66_split_dense_order kdim iom hf s2 lip sol kw hu HT hm)).
Qed.

(* the Krylov kernels of the code satisfy the accuracy hypotheses of C66_krylov_order and
   C66_split_order, with the bounds of C19 and C21 *)
Theorem C66_krylov_kernels (K : kernels [rcfType of R]) n kdim iom (M : 'M[R]_n) (dt del : R) :
  (forall N (X : 'M[R]_N), is_expm X (k_expm K X)) -> k_expk K = expk_code -> (0 < kdim)%N ->
  (minn (n + 4) kdim <= iom.+1)%N ->
  n%:R * krylov_err n kdim 1 (ninf (dt *: M)) <= del ->
  (forall p, (p <= 4)%N -> n%:R * kiops_err_bound (n + p) kdim (ninf (dt *: M) + p%:R) <= del) ->
  phi_accurate K kdim iom M dt del /\ kiops_accurate K kdim iom M dt del.
Proof.
move=> he hk kd hi h1 h2; split; last exact: code_kiops_accurate.
have hi' : (minn n kdim <= iom.+1)%N.
  by apply: leq_trans hi; rewrite leq_min geq_minr andbT (leq_trans (geq_minl _ _)) // leq_addr.
move=> L hL c k v c0 c1 k0 k3.
have [w [e hw]] := code_phi_accurate he kd dt hk hi' hL v c0 c1 k0 k3; exists w; split=> // P hP rho hr i.
by apply: le_trans (hw P hP rho hr i) _; apply: ler_wpmul2r => //; exact: (entry_rho i hr).
Qed.

(* u' = u^2, u(0) = 1, with solution 1/(1-s): every hypothesis is met *)
Example C66_example_rk4 (h : hist R 'cV[R]_1) : current h 0 ric_y ->
  step_order 4 ric_z 0 (fun dt v => rk_step "rk4" ric_sys h dt None = Ok (h, mkStep (0 + dt) dt v (-1))).
Proof. by move=> cur; apply: (C66_rk4_order _ ric_sym (@ric_taylor 3 isT isT) ric_solves cur). Qed.
Example C66_example_krylov (o : rbopts [rcfType of R]) (h : hist R 'cV[R]_1) : current h 0 ric_y -> (0 < o_kdim o)%N ->
  o_method o = "exprb3"%string ->
  local_error 3 ric_z 0 (fun _ _ => True) (fun dt v => step_exprb3 ideal_kernels o ric_sys h dt tt = Ok (mkStep (0 + dt) dt v (-1))).
Proof.
move=> cur kd hm.
have := exprb3_order ideal_kernels (o := o) ric_smooth ric_sym ric_lip ric_solves (or_introl erefl) tt cur (@ric_taylor 2 isT isT).
case=> C [C0 hC]; exists C; split=> // eps e0; have [h0 [h00 hh]] := hC eps e0; exists h0; split=> // dt del a b c _.
by apply: (hh dt del a b c); apply: ideal_phi_accurate.
Qed.
Example C66_example_split (h : hist R 'cV[R]_1) : current h 0 ric_y ->
  let sys := SplitSys ric_sys (fun _ u => MatrixLinOp (const_mx 1)) in
  let K := Kernels (k_expm ideal_kernels) (k_expk ideal_kernels) f_phi_k_sq_all (k_rs ideal_kernels) in
  step_order 3 ric_z 0 (fun dt v => exists ob', sp_step K 5 5 "exp3_dense" sys (SpObj h None None) dt None = Ok (ob', mkStep (0 + dt) dt v (-1))).
Proof.
move=> cur sys K.
apply: (C66_split_dense_code_order (K := K) (sys := sys) (f := ric_f) (y := ric_y) (t := 0) (z := ric_z) (M := const_mx 1) (p := 3%N) (ob := fun=> SpObj h None None) 5 5 None erefl _ ric_sym ric_lip (@ric_taylor 2 isT isT) ric_solves) => //.
- by move=> dt; split=> //; left.
- by right; right; left.
Qed.
