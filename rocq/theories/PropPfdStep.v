(* PropPfdStep.v : C67, the methods that evaluate phi functions by partial fractions. *)
From Coq Require Import Reals String.
From mathcomp Require Import all_ssreflect all_algebra.
From mathcomp Require Import complex ring.
From Verif Require Import Rstruct Summable MxBase MxSeries ModelHist SpecHist ModelOps SpecOps SpecPhi ModelPhi ProofsPfd ModelKrylov ModelDispatch ModelInt SpecInt ProofsInt ProofsInt2 ProofsInt5 SpecExact ProofsOde ProofsExact PropExact.
From Verif Require Import SpecProg SpecOrder SpecOrder2 ProofsOrder9.
Set Implicit Arguments.
Unset Strict Implicit.
Unset Printing Implicit Defensive.
Import Order.TTheory GRing.Theory Num.Theory.
Local Open Scope ring_scope.
Local Opaque breakdown_tol norm2 phi_linop f_phi_k_pfd kiops_fixedsteps.

(* the value phi_0(dt J) y computed by the two pure-linear methods *)
Definition phi0_eval (K : kernels [rcfType of R]) (o : rbopts [rcfType of R]) n (J : 'M[R]_n) (dt : R) (y : 'cV[R]_n) : 'cV[R]_n :=
  if String.eqb (o_method o) "exp_pfd" then f_phi_k_pfd (o_pfd o) (dt *: J) y 0 else k_rs K J dt y 0.

(* y' = A y: if the routine used for phi_0(dt A) y has relative error del, so has the step *)
Theorem C67_linear KW (K : kernels [rcfType of R]) n (o : rbopts [rcfType of R]) (kw0 : KW)
    (sys : odesys [rcfType of R] KW n) (A : 'M[R]_n) (t dt : R) (y : 'cV[R]_n) (h : hist R 'cV[R]_n) kw (del : R) :
  (o_method o = "exp_pfd" \/ (o_method o = "exp_pfd_rs" /\ o_rust o))%string ->
  affine_system sys A 0 0 -> (forall kw s u, lo_dense (jl_op (os_fjac sys kw s u)) = Ok A) -> current h t y ->
  (forall E, is_expm (dt *: A) E -> maxnorm_le (phi0_eval K o A dt y - E *m y) del) ->
  exists s, rb_step K o kw0 sys h dt kw = Ok (h, s) /\ sr_t s = t + dt /\
  forall z, solves_ivp A 0 0 t (t + dt) y z -> maxnorm_le (sr_y s - z (t + dt)) del.
Proof.
move=> hm aff hd cur hk.
have hz z : solves_ivp A 0 0 t (t + dt) y z -> z (t + dt) = phi 0 (dt *: A) *m y.
  move=> /ivp_value ->; rewrite ivp_step !scaler0 mulmx0 scaler0 !addr0.
  have := phi_rec 0 (dt *: A); rewrite /ifact fact0 invr1 scale1r => e.
  by rewrite e mulmxDl mul1mx phi_comm // -mulmxA -scalemxAl.
exists (mkStep (t + dt) dt (phi0_eval K o A dt y) (-1)); split; last first.
  split=> // z /hz ->; apply: hk; exact: is_phi_phi.
case: hm => [hm|[hm hr]]; rewrite /rb_step hm ?hr; cbn [rbind rb_step_routine String.eqb Ascii.eqb Bool.eqb rb_run andb].
  rewrite /step_exp_pfd (current_y cur); cbn [rbind]; rewrite (hd _ _ _); cbn [rbind].
  by rewrite /mkres (current_t cur) /phi0_eval hm.
rewrite /step_exp_pfd_rs (current_y cur); cbn [rbind]; rewrite (hd _ _ _); cbn [rbind].
by rewrite /mkres (current_t cur) /phi0_eval hm.
Qed.

Section AnyField.
Variables (F : rcfType) (KW : Type) (K : kernels F) (n : nat) (o : rbopts F) (kw0 : KW).
Notation vec := 'cV[F]_n.
Variables (sys : odesys F KW n) (h : hist F vec) (t dt : F) (y : vec) (kw : option KW) (J : 'M[F]_n).
Hypothesis cur : current h t y.
Hypothesis hd : lo_dense (jl_op (os_fjac sys (Some (odflt kw0 kw)) t y)) = Ok J.

(* with the implicit Euler and Crank-Nicolson tables exp_pfd is that method for y' = J y ... *)
Theorem C67_implicit_euler : o_method o = "exp_pfd"%string -> o_pfd o = pfd_IE F -> 1%:M - dt *: J \in unitmx ->
  exists v, rb_step K o kw0 sys h dt kw = Ok (h, mkStep (t + dt) dt v (-1)) /\ v - y = dt *: (J *m v).
Proof.
move=> hm ht u; exists (f_phi_k_pfd (o_pfd o) (dt *: J) y 0); split.
  rewrite /rb_step hm; cbn [rbind rb_step_routine String.eqb Ascii.eqb Bool.eqb rb_run andb].
  by rewrite /step_exp_pfd (current_y cur); cbn [rbind]; rewrite (current_t cur) hd; cbn [rbind]; rewrite /mkres (current_t cur).
rewrite ht pfd_IE_any //; set v := invmx _ *m y.
have <- : (1%:M - dt *: J) *m v = y by rewrite /v mulmxA mulmxV // mul1mx.
by rewrite mulmxBl mul1mx opprB addrCA subrr addr0 -scalemxAl.
Qed.
Theorem C67_crank_nicolson : o_method o = "exp_pfd"%string -> o_pfd o = pfd_CN F -> 1%:M - (dt / 2%:R) *: J \in unitmx ->
  exists v, rb_step K o kw0 sys h dt kw = Ok (h, mkStep (t + dt) dt v (-1)) /\ v - y = (dt / 2%:R) *: (J *m (v + y)).
Proof.
move=> hm ht u; exists (f_phi_k_pfd (o_pfd o) (dt *: J) y 0); split.
  rewrite /rb_step hm; cbn [rbind rb_step_routine String.eqb Ascii.eqb Bool.eqb rb_run andb].
  by rewrite /step_exp_pfd (current_y cur); cbn [rbind]; rewrite (current_t cur) hd; cbn [rbind]; rewrite /mkres (current_t cur).
have e : (2%:R)^-1 *: (dt *: J) = (dt / 2%:R) *: J by rewrite scalerA mulrC.
have u' : 1%:M - (2%:R)^-1 *: (dt *: J) \in unitmx by rewrite e.
have := mulmxA (1%:M - (2%:R)^-1 *: (dt *: J)) (invmx (1%:M - (2%:R)^-1 *: (dt *: J))) ((1%:M + (2%:R)^-1 *: (dt *: J)) *m y).
rewrite -pfd_CN0 // -ht mulmxV // mul1mx e; set v := f_phi_k_pfd _ _ _ _; set C := (dt / 2%:R) *: J.
rewrite mulmxBl mulmxDl !mul1mx => /eqP; rewrite subr_eq => /eqP hv.
by rewrite scalemxAl -/C mulmxDr {1}hv -addrA addrAC subrr add0r addrC.
Qed.
(* ... and exprb2_pfd with the implicit Euler table is the linearly implicit Euler step for f, with
   the time derivative added at full weight dt *)
Theorem C67_exprb2_implicit_euler : o_method o = "exprb2_pfd"%string -> o_pfd o = pfd_IE F -> 1%:M - dt *: J \in unitmx ->
  let Jo := os_fjac sys (Some (odflt kw0 kw)) t y in
  (jl_fdt Jo = 0 \/ (0 <= o_tol o /\ ~ maxnorm_le (jl_fdt Jo) (o_tol o))) ->
  exists v, rb_step K o kw0 sys h dt kw = Ok (h, mkStep (t + dt) dt v (-1)) /\
  v - y = dt *: (jl_frhs Jo + dt *: jl_fdt Jo + J *m (v - y)).
Proof.
move=> hm ht u Jo hg.
have hg' : jl_fdt Jo = 0 \/ gate_open (o_tol o) (jl_fdt Jo).
  by case: hg => [->|[h1 h2]]; [left|right; apply: gate_openP].
pose w := invmx (1%:M - dt *: J) *m (jl_frhs Jo + dt *: jl_fdt Jo).
exists (y + dt *: w); split.
  rewrite /rb_step hm; cbn [rbind rb_step_routine String.eqb Ascii.eqb Bool.eqb rb_run andb].
  rewrite /step_exprb2_pfd (current_y cur); cbn [rbind]; rewrite (current_t cur) hd -/Jo; cbn [rbind].
  rewrite /mkres (current_t cur) ht !pfd_IE_any //; do 5! f_equal.
  rewrite /w mulmxDr -scalemxAr; congr (_ + _ *: _).
  case: hg' => [->|]; first by rewrite mulmx0; case: ifP.
  by rewrite /gate_open => ->.
have -> : y + dt *: w - y = dt *: w by rewrite addrAC subrr add0r.
congr (_ *: _).
have <- : (1%:M - dt *: J) *m w = jl_frhs Jo + dt *: jl_fdt Jo by rewrite /w mulmxA mulmxV // mul1mx.
by rewrite mulmxBl mul1mx -scalemxAl -scalemxAr subrK.
Qed.
(* the pure-linear methods use the right-hand side only through its Jacobian *)
Theorem C67_ignores_rhs (sys' : odesys F KW n) :
  (o_method o = "exp_pfd" \/ o_method o = "exp_pfd_rs")%string ->
  (forall kw, lo_dense (jl_op (os_fjac sys' kw t y)) = lo_dense (jl_op (os_fjac sys kw t y))) ->
  rb_step K o kw0 sys' h dt kw = rb_step K o kw0 sys h dt kw.
Proof.
move=> hm e; case: hm => hm; rewrite /rb_step hm; cbn [rb_step_routine String.eqb Ascii.eqb Bool.eqb rb_run andb].
  by cbn [rbind rb_run]; rewrite /step_exp_pfd (current_y cur); cbn [rbind]; rewrite (current_t cur) e.
case: (o_rust o) => //; cbn [rbind rb_run andb]; rewrite /step_exp_pfd_rs (current_y cur); cbn [rbind].
by rewrite (current_t cur) e.
Qed.
End AnyField.

(* so they are wrong off pure linear systems: on y' = 1 - y the equilibrium 1 is left *)
Theorem C67_affine_refuted (K : kernels [rcfType of R]) (o : rbopts [rcfType of R]) (h : hist R 'cV[R]_1) (t dt : R) :
  o_method o = "exp_pfd"%string -> o_pfd o = pfd_IE [rcfType of R] -> 0 < dt -> current h t (const_mx 1) ->
  exists s, rb_step K o tt (aff_sys unit (const_mx (-1)) (const_mx 1) 0) h dt None = Ok (h, s) /\
  (forall z, solves_ivp (const_mx (-1) : 'M[R]_1) (const_mx 1) 0 t (t + dt) (const_mx 1) z -> z (t + dt) = const_mx 1) /\
  sr_y s = const_mx (1 + dt)^-1.
Proof.
move=> hm ht d0 cur.
have d1 : 1 + dt != 0 by rewrite lt0r_neq0 // addr_gt0 // ltr01.
have em : 1%:M - dt *: (const_mx (-1) : 'M[R]_1) = (1 + dt)%:M.
  by apply/matrixP => i j; rewrite (ord1 i) (ord1 j) !mxE mulrN1 opprK.
have u : 1%:M - dt *: (const_mx (-1) : 'M[R]_1) \in unitmx by rewrite em unitmxE det_scalar expr1 unitfE.
have [v [hs hv]] := @C67_implicit_euler [rcfType of R] unit K 1 o tt (aff_sys unit (const_mx (-1)) (const_mx 1) 0) h t dt (const_mx 1) None (const_mx (-1)) cur erefl hm ht u.
exists (mkStep (t + dt) dt v (-1)); split=> //; split.
  move=> z /ivp_value ->; rewrite ivp_step scaler0 addr0 mulmx0 scaler0 addr0.
  have -> : (const_mx (-1) : 'M[R]_1) *m const_mx 1 + const_mx 1 = 0 :> 'cV[R]_1.
    by apply/matrixP => i j; rewrite !mxE big_ord1 !mxE mulr1 addNr.
  by rewrite scaler0 mulmx0 addr0.
apply/matrixP => i j; rewrite (ord1 i) (ord1 j) [RHS]mxE /=.
move/matrixP: hv => /(_ 0 0); rewrite !mxE big_ord1 !mxE mulN1r => e.
apply: (mulIf d1); rewrite mulVf //; move: e; move: (v 0 0) => x e.
by rewrite mulrDr mulr1 [x * dt]mulrC -[dt * x]opprK -mulrN -e opprB addrC subrK.
Qed.
