(* ProofsOps.v *)
From mathcomp Require Import all_ssreflect all_algebra.
From Verif Require Import ModelHist ModelOps SpecOps.
Set Implicit Arguments.
Unset Strict Implicit.
Unset Printing Implicit Defensive.
Import Order.TTheory GRing.Theory Num.Theory.
Local Open Scope ring_scope.

Section P.
Variable F : realFieldType.

Lemma linear0 m n (f : 'cV[F]_m -> 'cV[F]_n) : is_linear f -> f 0 = 0.
Proof. by move=> h; have := h (-1) 0 0; rewrite scaler0 addr0 scaleN1r addNr. Qed.
Lemma linearD m n (f : 'cV[F]_m -> 'cV[F]_n) u v : is_linear f -> f (u + v) = f u + f v.
Proof. by move=> h; have := h 1 u v; rewrite !scale1r. Qed.
Lemma linearZ' m n (f : 'cV[F]_m -> 'cV[F]_n) x u : is_linear f -> f (x *: u) = x *: f u.
Proof. by move=> h; have := h x u 0; rewrite (linear0 h) !addr0. Qed.
Lemma linear_sum m n (f : 'cV[F]_m -> 'cV[F]_n) I (r : seq I) (P : pred I) g : is_linear f ->
  f (\sum_(i <- r | P i) g i) = \sum_(i <- r | P i) f (g i).
Proof.
move=> h; elim: r => [|i r IH]; first by rewrite !big_nil (linear0 h).
by rewrite !big_cons; case: ifP => _ //; rewrite (linearD _ _ h) IH.
Qed.
Lemma mx_linear m n (A : 'M[F]_(n, m)) : is_linear (fun v => A *m v).
Proof. by move=> x u v; rewrite mulmxDr scalemxAr. Qed.
(* a linear function is multiplication by the matrix of its values on the unit vectors *)
Lemma linear_mx m n (f : 'cV[F]_m -> 'cV[F]_n) : is_linear f ->
  forall v, f v = (\matrix_(i, j) f (delta_mx j 0) i 0) *m v.
Proof.
move=> h v; have e : v = \sum_j v j 0 *: delta_mx j 0.
  rewrite {1}[v]matrix_sum_delta; apply: eq_bigr => j _.
  by rewrite big_ord1.
rewrite {1}e (linear_sum _ _ _ h); apply/matrixP => i z; rewrite !ord1 mxE summxE.
by apply: eq_bigr => j _; rewrite (linearZ' _ _ h) !mxE mulrC.
Qed.

Lemma eye_linear n : is_linear (lo_mv (EyeLinOp F n)).
Proof. by []. Qed.
Lemma eye_dense n : dense_ok (EyeLinOp F n).
Proof. by move=> A [<-] v; rewrite mul1mx. Qed.
Lemma diag_linear n (d : 'cV[F]_n) : is_linear (lo_mv (DiagLinOp d)).
Proof. by move=> x u v; apply/matrixP => i j; rewrite !mxE mulrDr mulrCA. Qed.
Lemma diag_dense n (d : 'cV[F]_n) : dense_ok (DiagLinOp d).
Proof.
by move=> A [<-] v; apply/matrixP => i j; rewrite !ord1 mul_diag_mx !mxE.
Qed.
Lemma matrix_linear n (a : 'M[F]_n) : is_linear (lo_mv (MatrixLinOp a)).
Proof. exact: mx_linear. Qed.
Lemma matrix_dense n (a : 'M[F]_n) : dense_ok (MatrixLinOp a).
Proof. by move=> A [<-] v. Qed.
Lemma aug_linear n p (L : linop F n) dt (B : 'M[F]_(n, p)) K : is_linear (lo_mv L) ->
  is_linear (lo_mv (AugMatrixLinOp L dt B K)).
Proof.
move=> h x u v; rewrite /=.
have -> : usubmx (x *: u + v) = x *: usubmx u + usubmx v by apply/matrixP => i j; rewrite !mxE.
have -> : dsubmx (x *: u + v) = x *: dsubmx u + dsubmx v by apply/matrixP => i j; rewrite !mxE.
rewrite h scale_col_mx add_col_mx !mulmxDr -!scalemxAr; congr col_mx.
by rewrite !scalerDr !scalerA [dt * x]mulrC addrACA.
Qed.
Lemma aug_block n p (L : linop F n) (A : 'M[F]_n) dt (B : 'M[F]_(n, p)) K : acts_as L A ->
  acts_as (AugMatrixLinOp L dt B K) (block_mx (dt *: A) B 0 K).
Proof.
move=> h v; rewrite /= h -[in RHS](vsubmxK v) mul_block_col mul0mx add0r.
by rewrite scalemxAl.
Qed.
Lemma custom_linear n t (u : 'cV[F]_n) f J fdt eps :
  is_linear (lo_mv (jl_op (CustomJacLinOp t u f J fdt eps))).
Proof. exact: mx_linear. Qed.
Lemma ad_linear n t (u : 'cV[F]_n) f (jvp : jvp_fun F n) :
  (forall x a b u v, jvp (x * a + b) (x *: u + v) = x *: jvp a u + jvp b v) ->
  is_linear (lo_mv (jl_op (AdJacLinOp t u f jvp))).
Proof. by move=> h x a b /=; have := h x 0 0 a b; rewrite mulr0 addr0. Qed.
Lemma ad_dense n t (u : 'cV[F]_n) f (jvp : jvp_fun F n) :
  (forall x a b u v, jvp (x * a + b) (x *: u + v) = x *: jvp a u + jvp b v) ->
  dense_ok (jl_op (AdJacLinOp t u f jvp)).
Proof. by move=> h A [<-] v; apply: linear_mx; apply: (ad_linear t u f h). Qed.

Lemma norm1_gt0 n (u : 'cV[F]_n) : u != 0 -> 0 < norm1 u.
Proof.
move=> u0; rewrite lt_neqAle sumr_ge0 // andbT eq_sym; apply: contra u0.
rewrite /norm1 psumr_eq0 // => /allP h; apply/eqP/matrixP => i j; rewrite ord1 mxE.
by apply/eqP; rewrite -normr_eq0; apply: h; rewrite mem_index_enum.
Qed.
Lemma fd_affine n (M : 'M[F]_n) c t (u v : 'cV[F]_n) scale gamma eps :
  u != 0 -> eps != 0 ->
  lo_mv (jl_op (FdJacLinOp t u (affine_rhs M c) scale gamma eps)) v = scale *: (M *m v) + gamma *: v.
Proof.
move=> u0 e0 /=; congr (_ + _); rewrite /affine_rhs.
have -> : M *m (u + fd_scaled_eps u eps *: v) + c t - (M *m u + c t) = fd_scaled_eps u eps *: (M *m v).
  by rewrite mulmxDr -scalemxAr opprD addrACA subrr addr0 addrAC subrr add0r.
rewrite scalerA divfK // /fd_scaled_eps mulf_neq0 //; apply: lt0r_neq0; exact: norm1_gt0.
Qed.
Lemma fd_fdt n (M : 'M[F]_n) c0 g t (u : 'cV[F]_n) scale gamma eps : eps != 0 ->
  jl_fdt (FdJacLinOp t u (affine_rhs M (fun t => c0 + t *: g)) scale gamma eps) = g.
Proof.
move=> e0; rewrite /= /affine_rhs.
have -> : M *m u + (c0 + (t + eps) *: g) - (M *m u + (c0 + t *: g)) = eps *: g.
  rewrite opprD addrACA subrr add0r opprD addrACA subrr add0r scalerDl.
  by rewrite addrAC subrr add0r.
by rewrite scalerA mulVf // scale1r.
Qed.
Lemma fd_zero_state n eps : fd_scaled_eps (0 : 'cV[F]_n) eps = 0.
Proof. by rewrite /fd_scaled_eps /norm1 big1 ?mulr0 // => i _; rewrite mxE normr0. Qed.

(* the finite-difference operator is not linear for a nonlinear rhs *)
Lemma fd_not_linear : exists (f : rhs_fun F 1) t u scale gamma eps,
  u != 0 /\ eps != 0 /\ ~ is_linear (lo_mv (jl_op (FdJacLinOp t u f scale gamma eps))).
Proof.
exists (fun _ u => \col_i (u i 0 ^+ 2)), 0, (const_mx 1), 1, 0, 1; split; last split.
- by apply/eqP => /matrixP/(_ 0 0); rewrite !mxE => /eqP; rewrite oner_eq0.
- by rewrite oner_eq0.
move=> h; have := linearZ' 2%:R (const_mx 1) h => /matrixP /(_ 0 0).
have e : norm1 (const_mx 1 : 'cV[F]_1) = 1 by rewrite /norm1 big_ord1 mxE normr1.
rewrite /= !scale0r !addr0 /fd_scaled_eps e mulr1 divr1 !scale1r !mxE !mulr1.
have e3 : 1 + 2%:R = 3%:R :> F by rewrite -[1]/(1%:R) -natrD.
have e2 : 1 + 1 = 2%:R :> F by [].
rewrite !expr1n e3 e2 -!natrX => /eqP.
have -> : (3 ^ 2)%:R - 1 = 8%:R :> F by rewrite -[1]/(1%:R) -natrB.
have -> : (2 ^ 2)%:R - 1 = 3%:R :> F by rewrite -[1]/(1%:R) -natrB.
by rewrite -natrM eqr_nat.
Qed.
End P.
