(* ProofsInt2.v : affine systems, equilibria, linear invariants (C28, C30, C31) *)
From Coq Require Import String.
From mathcomp Require Import all_ssreflect all_algebra.
From mathcomp Require Import complex.
From mathcomp Require Import ring.
From Verif Require Import ModelHist SpecHist ProofsHist MxBase ModelOps SpecOps ProofsOps ModelPhi.
From Verif Require Import ModelKrylov ProofsKrylov ProofsKrylov2 ProofsKrylov3 ModelDispatch ModelInt SpecInt ProofsInt.
Set Implicit Arguments.
Unset Strict Implicit.
Unset Printing Implicit Defensive.
Import Order.TTheory GRing.Theory Num.Theory.
Local Open Scope ring_scope.
Local Opaque breakdown_tol norm2 phi_linop kiops_fixedsteps.

Section Affine.
Variable F : rcfType.
Variable KW : Type.
Variable K : kernels F.
Variable n : nat.
Notation vec := 'cV[F]_n.
Notation H := (hist F vec).
Variable sys : odesys F KW n.
Variables (A : 'M[F]_n) (b g : vec).
Hypothesis aff : affine_system sys A b g.
Variable o : rbopts F.
Hypothesis kd : (0 < o_kdim o)%N.
Implicit Types (h : H).

Lemma aff_odd kw t u v : lo_mv (jl_op (os_fjac sys kw t u)) (- v) = - lo_mv (jl_op (os_fjac sys kw t u)) v.
Proof. by have [_ /(_ kw t u) [hJ _]] := aff; rewrite !hJ mulmxN. Qed.

Lemma aff_phi2v kw t u dt c : g = 0 \/ gate_open (o_tol o) g ->
  exists p, phi2v_nonauto K o (os_fjac sys kw t u) dt c = Ok (p, g).
Proof.
move=> hg; have [_ /(_ kw t u) [hJ [hdt hf]]] := aff.
have [op|cl] := boolP (gate_open (o_tol o) g).
  rewrite phi2v_open hdt //.
  have [w ->] := phi_linop_ok (k_expm K) (k_expk K) (lo_mv (jl_op (os_fjac sys kw t u))) (c * dt) g 2 (o_iom o) kd.
  by eexists.
by case: hg cl => [g0 _|->//]; exists 0; rewrite phi2v_closed ?hdt g0 //; apply: gate_zero.
Qed.

Lemma aff_remf h t y tr yr kw : current h t y ->
  remf sys h tr yr (A *m y + b + t *: g) (jl_op (os_fjac sys kw t y)) g = Ok 0.
Proof.
move=> hc; have [_ /(_ kw t y) [hJ _]] := aff.
by rewrite (remf_affine tr yr g aff hJ hc) subrr scaler0.
Qed.

Lemma aff_exprb3 h dt kw : reachable h -> g = 0 \/ gate_open (o_tol o) g ->
  step_exprb3 K o sys h dt kw = step_exprb2 K o sys h dt kw.
Proof.
move=> /reachable_current [y hc] hg; rewrite /step_exprb3 /step_exprb2 (current_y hc) /=.
move: hc; set t := h_t h => hc.
have [_ /(_ (Some kw) t y) [hJ [hdt hf]]] := aff.
have [p -> /=] := aff_phi2v (Some kw) t y dt 1 hg.
rewrite (phi_linop_scale (aff_odd (Some kw) t y)) // hf.
case: (phi_linop _ _ _ _ _ _ _ _) => [w|e] //=.
by rewrite aff_remf //= phi_linop_0 /= scaler0 addr0.
Qed.

Lemma aff_pexprb4 h dt kw : reachable h -> g = 0 \/ gate_open (o_tol o) g ->
  step_pexprb4 K o sys h dt kw = step_exprb2 K o sys h dt kw.
Proof.
move=> /reachable_current [y hc] hg; rewrite /step_pexprb4 /step_exprb2 (current_y hc) /= /p4_stage.
move: hc; set t := h_t h => hc.
have [_ /(_ (Some kw) t y) [hJ [hdt hf]]] := aff.
have [p1 -> /=] := aff_phi2v (Some kw) t y dt 1 hg.
have [p2 -> /=] := aff_phi2v (Some kw) t y dt 2%:R^-1 hg.
rewrite (phi_linop_scale (aff_odd (Some kw) t y)) // hf !mul1r.
set L := lo_mv _.
have [w1 ->] := phi_linop_ok (k_expm K) (k_expk K) L (2%:R^-1 * dt) (A *m y + b + t *: g) 1 (o_iom o) kd.
have [w2 -> /=] := phi_linop_ok (k_expm K) (k_expk K) L dt (A *m y + b + t *: g) 1 (o_iom o) kd.
rewrite aff_remf //= aff_remf //= /p4_final /= !scaler0 subr0 scaler0 kiops_zero /= ?addr0 //.
by case=> [|[|[|[|[|i]]]]] //=; rewrite nth_nil.
Qed.

Lemma aff_epi3 h dt kw : reachable h -> hist_has_prev h ->
  step_epi3 K o sys h dt kw = step_epi2 K o sys h dt kw.
Proof.
move=> hr hp; have [y hc] := reachable_current hr; have [tp [yp hpr]] := has_prev_previous hr hp.
rewrite /step_epi3 /step_epi2 (current_y hc) /= (previous_y hpr) (previous_tm hpr) /=.
move: hc; set t := h_t h => hc.
have [_ /(_ (Some kw) t y) [hJ [hdt hf]]] := aff.
by rewrite hdt hf aff_remf //= scaler0 add0r.
Qed.
End Affine.

(* ------------------------------------------------------------------ *)
Section Equil.
Variable F : rcfType.
Variable KW : Type.
Variable K : kernels F.
Variable n : nat.
Notation vec := 'cV[F]_n.
Notation H := (hist F vec).

Lemma pfd_vec0 m tab (z : 'M[F]_n) k : (0 < k)%N -> f_phi_k_pfd tab z (0 : 'M[F]_(n, m)) k = 0.
Proof.
case: tab => pcs c0 k0 /=; rewrite (gtn_eqF k0); elim: pcs => //= pc pcs IH.
have -> : pfd_term z (0 : 'M[F]_(n, m)) k pc = 0.
  by rewrite /pfd_term; case: pc => p c; rewrite /cmx map_mx0 mulmx0 scaler0 /remx map_mx0.
by rewrite addr0 IH.
Qed.

Variable sys : odesys F KW n.
Variable y : vec.
Hypothesis eq : equilibrium sys y.

Lemma eq_remf h t tr kw : current h t y ->
  remf sys h tr y 0 (jl_op (os_fjac sys kw t y)) 0 = Ok 0.
Proof.
have [hf /(_ kw t) [_ [_ lin]]] := eq; move=> hc.
rewrite /remf (current_tm hc) (current_y hc) /= hf subrr (ProofsOps.linear0 lin) scaler0 !subr0.
by [].
Qed.

Lemma eq_phi2v o kw t dt c : phi2v_nonauto K o (os_fjac sys kw t y) dt c = Ok (0, 0).
Proof. by have [_ /(_ kw t) [_ [h0 _]]] := eq; rewrite phi2v_closed // h0 gate_zero. Qed.

(* all routines except the two that only multiply the state by phi_0 *)
Definition rb_rosenbrock (r : routine) : bool :=
  match r with
  | R_exprb2 | R_exprb3 | R_pexprb4 | R_epi2 | R_epi3 | R_exprb2_dense | R_exprb2_pfd | R_exprb2_pfd_rs => true
  | _ => false
  end.

Lemma eq_rb_run o r h t dt kw s : rb_rosenbrock r -> current h t y ->
  (r = R_epi3 -> exists tp, previous h tp y) ->
  (forall m (z : 'M[F]_m) d k, (0 < k)%N -> k_rs K z d (0 : 'cV[F]_m) k = 0) ->
  rb_run K o r sys h dt kw = Ok s -> sr_y s = y.
Proof.
move=> hr hc hp hrs; have et := current_t hc.
have [hf hj] := eq.
case: r hr hp => // _ hp; rewrite /rb_run.
- rewrite /step_exprb2 (current_y hc) /= et eq_phi2v /=.
  by have [-> _] := hj (Some kw) t; rewrite scaler0 phi_linop_0 /= => -[<-] /=; rewrite !addr0.
- rewrite /step_exprb3 (current_y hc) /= et eq_phi2v /=.
  have [e0 [e1 lin]] := hj (Some kw) t; rewrite e0 phi_linop_0 /= scaler0 !addr0 eq_remf //= phi_linop_0 /=.
  by case=> <- /=; rewrite scaler0 addr0.
- rewrite /step_pexprb4 (current_y hc) /= /p4_stage et eq_phi2v /=.
  have [e0 [e1 lin]] := hj (Some kw) t; rewrite e0 phi_linop_0 /= scaler0 !addr0 eq_remf //= eq_phi2v /=.
  rewrite phi_linop_0 /= scaler0 !addr0 eq_remf //= /p4_final /= !scaler0 subr0 scaler0 kiops_zero /=.
    by case=> <- /=; rewrite addr0.
  by case=> [|[|[|[|[|i]]]]] //=; rewrite nth_nil.
- rewrite /step_epi2 (current_y hc) /= et; have [-> [-> lin]] := hj (Some kw) t.
  rewrite !scaler0 kiops_zero /=; first by case=> <-; rewrite /= addr0.
  by case=> [|[|[|i]]] //=; rewrite nth_nil.
- have [tp hpr] := hp erefl.
  rewrite /step_epi3 (current_y hc) /= (previous_y hpr) (previous_tm hpr) /= et.
  have [-> [-> lin]] := hj (Some kw) t.
  rewrite eq_remf //= !scaler0 addr0 kiops_zero /=; first by case=> <-; rewrite /= addr0.
  by case=> [|[|[|i]]] //=; rewrite nth_nil.
- rewrite /step_exprb2_dense (current_y hc) /= et; have [-> [-> lin]] := hj None t.
  case: (lo_dense _) => //= J; case: (k_sqall K (dt *: J) 2) => // phis [<-] /=.
  by rewrite !mulmx0 scaler0 addr0 scaler0 addr0.
- rewrite /step_exprb2_pfd (current_y hc) /= et; have [-> [-> lin]] := hj (Some kw) t.
  case: (lo_dense _) => //= J [<-] /=; rewrite !pfd_vec0 //.
  by case: ifP; rewrite ?scaler0 ?addr0 ?scaler0 ?addr0.
- rewrite /step_exprb2_pfd_rs (current_y hc) /= et; have [-> [-> lin]] := hj None t.
  case: (lo_dense _) => //= J [<-] /=; rewrite !hrs //.
  by case: ifP; rewrite ?scaler0 ?addr0 ?scaler0 ?addr0.
Qed.

Lemma eq_rk4 h t dt s : current h t y -> step_rk4 sys h dt = Ok s -> sr_y s = y.
Proof.
have [hf _] := eq; move=> hc; rewrite /step_rk4 (current_y hc) /= hf !scaler0 !addr0 !hf !scaler0 !addr0 !hf.
by rewrite !scaler0 !addr0 hf !addr0 !scaler0 addr0 => -[<-].
Qed.
End Equil.

(* ------------------------------------------------------------------ *)
Section Split.
Variable F : rcfType.
Variable KW : Type.
Variable K : kernels F.
Variable n : nat.
Notation vec := 'cV[F]_n.
Variables (kd iom : nat).
Variable sys : splitsys F KW n.
Variable y : vec.
Hypothesis feq : forall kw t, os_frhs (ss_sys sys) kw t y = 0.
Hypothesis lin : forall t u, is_linear (lo_mv (ss_fl sys t u)).

Lemma sp_eq_remf (h : hist F vec) t tr (L : linop F n) : is_linear (lo_mv L) -> current h t y ->
  sp_remf sys h tr y 0 L = Ok 0.
Proof. by move=> hl hc; rewrite /sp_remf (current_y hc) /= feq subrr (ProofsOps.linear0 hl) !subr0. Qed.

Lemma sp_eq_run r ob t dt ob' s : current (sp_hist ob) t y ->
  (forall lop d, sp_cache ob = Some (lop, d) -> is_linear (lo_mv lop)) ->
  sp_run K kd iom r sys ob dt = Ok (ob', s) -> sr_y s = y.
Proof.
move=> hc hcache; have et := current_t hc; have hl := lin t y.
have upd cks oc : update_dense_phiLs K sys ob dt cks = Ok oc -> is_linear (lo_mv oc.2.1).
  rewrite /update_dense_phiLs; case: ifP => _.
    by case E: (sp_cache ob) => [[lop d]|] // [<-] /=; apply: (hcache lop d).
  by rewrite (current_y hc); rbs; case=> <- /=; rewrite et.
case: r => //; rewrite /sp_run.
- rewrite /step_exp1 (current_y hc) /= et feq scaler0 phi_linop_0 /= => -[_ <-] /=; by rewrite addr0.
- rewrite /step_exp2 (current_y hc) /= et feq scaler0 phi_linop_0 /= addr0.
  by rewrite (sp_eq_remf _ hl hc) /= !scaler0 phi_linop_0 /= => -[_ <-] /=; rewrite addr0.
- rewrite /step_exp3 (current_y hc) /= et feq !scaler0 phi_linop_0 /= addr0.
  rewrite (sp_eq_remf _ hl hc) /= !scaler0 phi_linop_0 /= addr0 (sp_eq_remf _ hl hc) /= !scaler0 phi_linop_0 /=.
  by rewrite phi_linop_0 /= => -[_ <-] /=; rewrite !addr0.
- rewrite /step_exp1_dense /sp_dense (current_y hc) /= et; case: (update_dense_phiLs _ _ _ _ _) => //= oc.
  by rewrite /exp1_jit feq; case: (@dict_get F n _ _) => //= p [_ <-] /=; rewrite mulmx0 scaler0 addr0.
- rewrite /step_exp2_dense /sp_dense (current_y hc) /= et.
  case E: (update_dense_phiLs _ _ _ _ _) => [oc|] //=; have hlin := upd _ _ E.
  rewrite /exp2_jit feq; case: (@dict_get F n _ _) => //= p; rewrite mulmx0 scaler0 addr0 feq !subrr (ProofsOps.linear0 hlin) subr0.
  case: (@dict_get F n _ _) => //= p1; case: (@dict_get F n _ _) => //= p2.
  by rewrite !mulmx0 scaler0 addr0 scaler0 addr0 => -[_ <-].
- rewrite /step_exp3_dense /sp_dense (current_y hc) /= et.
  case E: (update_dense_phiLs _ _ _ _ _) => [oc|] //=; have hlin := upd _ _ E.
  rewrite /exp3_jit feq; case: (@dict_get F n _ _) => //= p; rewrite mulmx0 scaler0 addr0 feq !subrr (ProofsOps.linear0 hlin) subr0.
  case: (@dict_get F n _ _) => //= p1; case: (@dict_get F n _ _) => //= p2.
  rewrite !mulmx0 !scaler0 addr0 scaler0 addr0 feq !subrr (ProofsOps.linear0 hlin) subr0.
  case: (@dict_get F n _ _) => //= p3.
  by rewrite !mulmx0 scaler0 addr0 scaler0 addr0 => -[_ <-].
Qed.
End Split.
