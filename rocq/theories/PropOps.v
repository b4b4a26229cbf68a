(* PropOps.v : property theorems about linear operators (C08, C09, C10). *)
From mathcomp Require Import all_ssreflect all_algebra.
From Verif Require Import ModelHist ModelOps SpecOps ProofsOps.
Set Implicit Arguments.
Unset Strict Implicit.
Unset Printing Implicit Defensive.
Import Order.TTheory GRing.Theory Num.Theory.
Local Open Scope ring_scope.

(* C08.  Every operator class whose matvec is meant to be linear is linear; the automatic
   differentiation oracle is assumed linear in (dt,du); the augmented operator needs a linear
   inner operator. *)
Theorem C08_matvec_linear :
  forall (F : realFieldType) n,
  is_linear (lo_mv (EyeLinOp F n)) /\
  (forall d, is_linear (lo_mv (DiagLinOp (d : 'cV[F]_n)))) /\
  (forall a, is_linear (lo_mv (MatrixLinOp (a : 'M[F]_n)))) /\
  (forall p (L : linop F n) dt (B : 'M[F]_(n, p)) K, is_linear (lo_mv L) ->
     is_linear (lo_mv (AugMatrixLinOp L dt B K))) /\
  (forall t (u : 'cV[F]_n) f J fdt eps, is_linear (lo_mv (jl_op (CustomJacLinOp t u f J fdt eps)))) /\
  (forall t (u : 'cV[F]_n) f (jvp : jvp_fun F n),
     (forall x a b u v, jvp (x * a + b) (x *: u + v) = x *: jvp a u + jvp b v) ->
     is_linear (lo_mv (jl_op (AdJacLinOp t u f jvp)))).
Proof.
move=> F n; split; first exact: eye_linear.
split; first by move=> d; apply: diag_linear.
split; first by move=> a; apply: matrix_linear.
split; first by move=> p L dt B K; apply: aug_linear.
split; first by move=> t u f J fdt eps; apply: custom_linear.
by move=> t u f jvp; apply: ad_linear.
Qed.
Print Assumptions C08_matvec_linear.

(* C08.  dense() @ v = matvec(v) whenever dense() is offered. *)
Theorem C08_dense_is_matvec :
  forall (F : realFieldType) n,
  dense_ok (EyeLinOp F n) /\
  (forall d, dense_ok (DiagLinOp (d : 'cV[F]_n))) /\
  (forall a, dense_ok (MatrixLinOp (a : 'M[F]_n))) /\
  (forall t (u : 'cV[F]_n) f J fdt eps, dense_ok (jl_op (CustomJacLinOp t u f J fdt eps))) /\
  (forall t (u : 'cV[F]_n) f (jvp : jvp_fun F n),
     (forall x a b u v, jvp (x * a + b) (x *: u + v) = x *: jvp a u + jvp b v) ->
     dense_ok (jl_op (AdJacLinOp t u f jvp))) /\
  (* and it is offered by all of these *)
  (exists A, lo_dense (EyeLinOp F n) = Ok A) /\
  (forall d, exists A, lo_dense (DiagLinOp (d : 'cV[F]_n)) = Ok A) /\
  (forall a, exists A, lo_dense (MatrixLinOp (a : 'M[F]_n)) = Ok A) /\
  (forall t (u : 'cV[F]_n) f jvp, exists A, lo_dense (jl_op (AdJacLinOp t u f jvp)) = Ok A).
Proof.
move=> F n; split; first exact: eye_dense.
split; first by move=> d; apply: diag_dense.
split; first by move=> a; apply: matrix_dense.
split; first by move=> t u f J fdt eps; apply: matrix_dense.
split; first by move=> t u f jvp; apply: ad_dense.
by split; [|split; [|split]]; intros; eexists; reflexivity.
Qed.
Print Assumptions C08_dense_is_matvec.

(* C08 does not extend to the finite-difference operator: for a nonlinear right-hand side it
   is not linear, even in exact arithmetic *)
Theorem C08_fd_linear_refuted :
  forall F : realFieldType, exists (f : rhs_fun F 1) t u scale gamma eps,
  u != 0 /\ eps != 0 /\ ~ is_linear (lo_mv (jl_op (FdJacLinOp t u f scale gamma eps))).
Proof. exact: fd_not_linear. Qed.
Print Assumptions C08_fd_linear_refuted.

(* C09. *)
Theorem C09_augmented_is_block :
  forall (F : realFieldType) n p (L : linop F n) (A : 'M[F]_n) dt (B : 'M[F]_(n, p)) (K : 'M[F]_p),
  (forall v, lo_mv L v = A *m v) ->
  forall v, lo_mv (AugMatrixLinOp L dt B K) v = block_mx (dt *: A) B 0 K *m v.
Proof. move=> F n p L A dt B K h; exact: aug_block. Qed.
Print Assumptions C09_augmented_is_block.

(* C10.  f(t,u) = M u + c(t), any c. *)
Theorem C10_fd_exact_on_affine :
  forall (F : realFieldType) n (M : 'M[F]_n) (c : F -> 'cV[F]_n) t (u v : 'cV[F]_n) scale gamma eps,
  u != 0 -> eps != 0 ->
  lo_mv (jl_op (FdJacLinOp t u (fun s x => M *m x + c s) scale gamma eps)) v
  = scale *: (M *m v) + gamma *: v.
Proof. move=> F n M c t u v scale gamma eps; exact: fd_affine. Qed.
Print Assumptions C10_fd_exact_on_affine.

(* the time derivative is exact when c is affine in t *)
Theorem C10_fd_time_derivative :
  forall (F : realFieldType) n (M : 'M[F]_n) c0 g t (u : 'cV[F]_n) scale gamma eps, eps != 0 ->
  jl_fdt (FdJacLinOp t u (fun s x => M *m x + (c0 + s *: g)) scale gamma eps) = g.
Proof. move=> F n M c0 g t u scale gamma eps; exact: fd_fdt. Qed.
Print Assumptions C10_fd_time_derivative.

(* the same for the operator built from a user-supplied Jacobian without a time derivative; a
   supplied time derivative is used as it is, and the Jacobian and the cached value always are *)
Theorem C10_custom_operator :
  forall (F : realFieldType) n (J : 'M[F]_n) t (u : 'cV[F]_n) eps, eps != 0 ->
  (forall (M : 'M[F]_n) c0 g,
     jl_fdt (CustomJacLinOp t u (fun s x => M *m x + (c0 + s *: g)) J None eps) = g) /\
  (forall f d, jl_fdt (CustomJacLinOp t u f J (Some d) eps) = d) /\
  (forall f fdt v, lo_mv (jl_op (CustomJacLinOp t u f J fdt eps)) v = J *m v /\
     jl_frhs (CustomJacLinOp t u f J fdt eps) = f t u).
Proof.
move=> F n J t u eps e0; split=> // M c0 g.
by rewrite -[RHS](C10_fd_time_derivative M c0 g t u 1 0 e0).
Qed.
Print Assumptions C10_custom_operator.

(* the automatic differentiation operator, given the linearisation of f at (t, u): if
   f(t+a, u+v) = f(t,u) + jvp(a,v) + rest(a,v), then along the state directions the operator is the
   linear part and along the time direction the reported time derivative is *)
Theorem C10_ad_operator :
  forall (F : realFieldType) n t (u : 'cV[F]_n) (f : rhs_fun F n) (jvp : jvp_fun F n) (rest : F -> 'cV[F]_n -> 'cV[F]_n),
  (forall x a b u v, jvp (x * a + b) (x *: u + v) = x *: jvp a u + jvp b v) ->
  (forall a v, f (t + a) (u + v) = f t u + jvp a v + rest a v) ->
  let J := AdJacLinOp t u f jvp in
  (forall v, f t (u + v) = jl_frhs J + lo_mv (jl_op J) v + rest 0 v) /\
  (forall a, f (t + a) u = jl_frhs J + a *: jl_fdt J + rest a 0).
Proof.
move=> F n t u f jvp rest lin hf J; split=> [v|a] /=; first by rewrite -(hf 0 v) addr0.
have j00 : jvp 0 0 = 0.
  have := lin (-1) 0 0 0 0; rewrite !mulr0 !scaler0 !addr0 scaleN1r => h.
  by rewrite h addNr.
have e : jvp a 0 = a *: jvp 1 0 by have := lin a 1 0 0 0; rewrite mulr1 scaler0 !addr0 j00 addr0.
by rewrite -e -(hf a 0) addr0.
Qed.
Print Assumptions C10_ad_operator.

(* at the zero state the step is 0 for every eps (the code then divides 0 by 0) *)
Theorem C10_fd_zero_state :
  forall (F : realFieldType) n eps, fd_scaled_eps (0 : 'cV[F]_n) eps = 0.
Proof. exact: fd_zero_state. Qed.
Print Assumptions C10_fd_zero_state.

(* the hypotheses of C10 are met *)
Example C10_hypotheses_meet : (const_mx 1 : 'cV[rat]_3) != 0 /\ (2%:R^-1 : rat) != 0.
Proof.
split; last by [].
by apply/eqP => /matrixP /(_ 0 0); rewrite !mxE.
Qed.
