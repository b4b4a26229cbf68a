(* ProofsInt5.v : tolerance gate, callback parameters, start-up, totality, rk4 *)
From Coq Require Import String.
From mathcomp Require Import all_ssreflect all_algebra.
From mathcomp Require Import complex.
From mathcomp Require Import ring.
From Verif Require Import ModelHist SpecHist ProofsHist MxBase ModelOps SpecOps ProofsOps ModelPhi ProofsPhi.
From Verif Require Import ModelKrylov ProofsKrylov ProofsKrylov2 ModelDispatch ModelInt SpecInt ProofsInt ProofsInt2 ProofsInt3 ProofsInt4.
Set Implicit Arguments.
Unset Strict Implicit.
Unset Printing Implicit Defensive.
Import Order.TTheory GRing.Theory Num.Theory.
Local Open Scope ring_scope.
Local Opaque breakdown_tol norm2 phi_linop f_phi_k_pfd.

Section S.
Variable F : rcfType.
Variable KW : Type.
Variable K : kernels F.
Variable n : nat.
Notation vec := 'cV[F]_n.
Notation H := (hist F vec).
Implicit Types (h : H) (sys : odesys F KW n).

Lemma vinf_le (v : vec) c : 0 <= c -> (vinf v <= c) <-> maxnorm_le v c.
Proof.
move=> c0; split=> [h i|h].
  apply: le_trans h; rewrite /vinf; have: i \in index_enum [finType of 'I_n] by rewrite mem_index_enum.
  elim: (index_enum _) => //= j l IH; rewrite inE big_cons => /orP [/eqP <-|/IH h]; first by rewrite le_maxr lexx.
  by rewrite le_maxr h orbT.
by apply: (big_ind (fun x => x <= c)) => [|x y hx hy|i _] //; rewrite le_maxl hx.
Qed.
Lemma gate_closedP tol (v : vec) : tol < 0 \/ maxnorm_le v tol -> ~~ gate_open tol v.
Proof.
rewrite /gate_open negb_and -ltNge -leNgt => -[->//|h]; case: ltP => //= t0.
by apply/vinf_le.
Qed.
Lemma gate_openP tol (v : vec) : 0 <= tol -> ~ maxnorm_le v tol -> gate_open tol v.
Proof.
move=> t0 h; rewrite /gate_open t0 /= ltNge; apply/negP => h2; apply: h; exact/vinf_le.
Qed.
Lemma gate_open0 tol (v : vec) : gate_open tol v -> gate_open 0 v.
Proof. by rewrite /gate_open lexx /= => /andP[t0]; apply: le_lt_trans. Qed.

(* routines with the gate / routines that do not read the tolerance *)
Definition gated (r : routine) : bool :=
  match r with R_exprb2 | R_exprb3 | R_pexprb4 | R_exprb2_pfd | R_exprb2_pfd_rs => true | _ => false end.
Definition kw_of (r : routine) (kw : KW) : option KW :=
  match r with R_exprb2_dense | R_exprb2_pfd_rs | R_exp_pfd_rs => None | _ => Some kw end.

Lemma gatedP r : gated r ->
  r = R_exprb2 \/ r = R_exprb3 \/ r = R_pexprb4 \/ r = R_exprb2_pfd \/ r = R_exprb2_pfd_rs.
Proof. by case: r => //= _; tauto. Qed.

Lemma remf_without sys h tr yr f (J : linop F n) v :
  remf (without_fdt sys) h tr yr f J v = remf sys h tr yr f J v.
Proof. by []. Qed.

Lemma gate_closed_run o r sys h t y dt kw : gated r -> current h t y ->
  ~~ gate_open (o_tol o) (jl_fdt (os_fjac sys (kw_of r kw) t y)) ->
  rb_run K o r sys h dt kw = rb_run K o r (without_fdt sys) h dt kw.
Proof.
move=> hr hc; have et := current_t hc.
case: (gatedP hr) => [->|[->|[->|[->|->]]]] /= cl; have z := @gate_zero F n (o_tol o).
- by rewrite /step_exprb2 (current_y hc) et /= !phi2v_closed.
- by rewrite /step_exprb3 (current_y hc) et /= !phi2v_closed.
- by rewrite /step_pexprb4 (current_y hc) et /= /p4_stage !phi2v_closed.
- rewrite /step_exprb2_pfd (current_y hc) et /=; move: cl z; rewrite /gate_open.
  by move=> /negbTE -> /negbTE ->.
- rewrite /step_exprb2_pfd_rs (current_y hc) et /=; move: cl z; rewrite /gate_open.
  by move=> /negbTE -> /negbTE ->.
Qed.
Lemma phi2v_tol0 o (J : jaclop F n) dt c : gate_open (o_tol o) (jl_fdt J) ->
  phi2v_nonauto K o J dt c = phi2v_nonauto K (with_tol o 0) J dt c.
Proof. by move=> g; rewrite !phi2v_open //; apply: gate_open0 g. Qed.
Lemma gate_open_run o r sys h t y dt kw : gated r -> current h t y ->
  gate_open (o_tol o) (jl_fdt (os_fjac sys (kw_of r kw) t y)) ->
  rb_run K o r sys h dt kw = rb_run K (with_tol o 0) r sys h dt kw.
Proof.
move=> hr hc; have et := current_t hc.
case: (gatedP hr) => [->|[->|[->|[->|->]]]] /= op; have op0 := gate_open0 op.
- by rewrite /step_exprb2 (current_y hc) et /= (phi2v_tol0 _ _ op).
- by rewrite /step_exprb3 (current_y hc) et /= (phi2v_tol0 _ _ op).
- by rewrite /step_pexprb4 (current_y hc) et /= /p4_stage !(phi2v_tol0 _ _ op).
- rewrite /step_exprb2_pfd (current_y hc) et /=; move: op op0; rewrite /gate_open.
  by move=> -> ->.
- rewrite /step_exprb2_pfd_rs (current_y hc) et /=; move: op op0; rewrite /gate_open.
  by move=> -> ->.
Qed.
Lemma tol_unused o r tol sys h dt kw : ~~ gated r ->
  rb_run K o r sys h dt kw = rb_run K (with_tol o tol) r sys h dt kw.
Proof. by case: r. Qed.

(* parameters *)
Definition kw_routine (r : routine) : bool :=
  match r with R_exprb2 | R_epi2 | R_exprb2_pfd | R_exp_pfd => true | _ => false end.
Lemma kw_only o r sys1 sys2 h dt kw : kw_routine r ->
  (forall t u, os_fjac sys1 (Some kw) t u = os_fjac sys2 (Some kw) t u) ->
  rb_run K o r sys1 h dt kw = rb_run K o r sys2 h dt kw.
Proof.
move=> hr e; have {hr} : r = R_exprb2 \/ r = R_epi2 \/ r = R_exprb2_pfd \/ r = R_exp_pfd by case: r hr => //= _; tauto.
case=> [->|[->|[->|->]]]; rewrite /rb_run.
- by rewrite /step_exprb2; case: (hist_y h 0) => [y|er]; cbn [rbind]; [rewrite e | ].
- by rewrite /step_epi2; case: (hist_y h 0) => [y|er]; cbn [rbind]; [rewrite e | ].
- by rewrite /step_exprb2_pfd; case: (hist_y h 0) => [y|er]; cbn [rbind]; [rewrite e | ].
- by rewrite /step_exp_pfd; case: (hist_y h 0) => [y|er]; cbn [rbind]; [rewrite e | ].
Qed.

(* totality *)
Lemma kiops_ok (L : linop F n) dt vb m iom : (1 < size vb)%N -> (0 < m)%N ->
  exists x, kiops_fixedsteps (k_expm K) (k_expk K) L dt vb m iom = Ok x.
Proof.
move=> s1 m0; rewrite /kiops_fixedsteps; case: ifP => _; last by eexists.
case: vb s1 => [|v [|v' vb]] s1; try discriminate s1.
set p := _ == 0%N; have -> : p = false by []. cbv zeta.
set w := matexp_linop _ _ _ _ _ _ _; have [x ->] : exists x, w = Ok x by apply: phi_linop_ok.
by eexists.
Qed.
Lemma remf_ok sys h t y tr yr f (J : linop F n) v : current h t y -> exists x, remf sys h tr yr f J v = Ok x.
Proof. by move=> hc; rewrite /remf (current_tm hc) (current_y hc) /=; eexists. Qed.
Lemma phi2v_ok o (J : jaclop F n) dt c : (0 < o_kdim o)%N -> exists p, phi2v_nonauto K o J dt c = Ok p.
Proof.
move=> m0; rewrite /phi2v_nonauto; case: ifP => _; last by eexists.
case: ifP => _; last by eexists.
have [w ->] := phi_linop_ok (k_expm K) (k_expk K) (lo_mv (jl_op J)) (c * dt) (jl_fdt J) 2 (o_iom o) m0.
by eexists.
Qed.
Lemma stage_ok o sys h t y dt J yt fyt c : current h t y -> (0 < o_kdim o)%N ->
  exists p, p4_stage K o sys h dt J yt fyt c = Ok p.
Proof.
move=> hc m0; rewrite /p4_stage; have [p2 ->] := phi2v_ok J dt c m0.
rewrite [rbind (Ok _) _]/=.
have [w ->] := phi_linop_ok (k_expm K) (k_expk K) (lo_mv (jl_op J)) (c * dt) fyt 1 (o_iom o) m0.
rewrite [rbind (Ok _) _]/=.
have [x ->] := remf_ok sys (h_t h + c * dt) (yt + (c * dt) *: w + p2.1) fyt (jl_op J) p2.2 hc.
by eexists.
Qed.
Lemma rb_run_ok o r sys h dt kw : reachable h -> (0 < o_kdim o)%N ->
  (forall kw t u, exists A, lo_dense (jl_op (os_fjac sys kw t u)) = Ok A) ->
  (forall z : 'M[F]_n, exists p, k_sqall K z 2 = Some p) ->
  rb_step_routine (o_rust o) (hist_has_prev h) (o_method o) = Ok r ->
  exists s, rb_run K o r sys h dt kw = Ok s.
Proof.
move=> hr m0 hd hq hm; have [y hc] := reachable_current hr.
have phiok (J : jaclop F n) c v k := phi_linop_ok (k_expm K) (k_expk K) (lo_mv (jl_op J)) c v k (o_iom o) m0.
have hp : r = R_epi3 -> hist_has_prev h.
  move: hm; rewrite /rb_step_routine; do 4!(case: ifP => _; first by case=> <-).
  case: ifP => _; first by case: (hist_has_prev h) => // -[<-].
  do 3!(case: ifP => _; first by case=> <-); by do 2!(case: ifP => _; first by case=> <-).
have hrb : match r with R_exprb2 | R_exprb3 | R_pexprb4 | R_epi2 | R_epi3 | R_exprb2_dense | R_exprb2_pfd
   | R_exp_pfd | R_exprb2_pfd_rs | R_exp_pfd_rs => true | _ => false end.
  move: hm; rewrite /rb_step_routine; do 4!(case: ifP => _; first by case=> <-).
  case: ifP => _; first by case: (hist_has_prev h) => // -[<-].
  do 3!(case: ifP => _; first by case=> <-); by do 2!(case: ifP => _; first by case=> <-).
case: r hm hp hrb => // _ hp _; rewrite /rb_run.
- rewrite /step_exprb2 (current_y hc) [rbind (Ok _) _]/=.
  set J := os_fjac _ _ _ _; have [p ->] := phi2v_ok J dt 1 m0; rewrite [rbind (Ok _) _]/=.
  have [w ->] := phiok J dt (dt *: jl_frhs J) 1%N; by eexists.
- rewrite /step_exprb3 (current_y hc) [rbind (Ok _) _]/=.
  set J := os_fjac _ _ _ _; have [p ->] := phi2v_ok J dt 1 m0; rewrite [rbind (Ok _) _]/=.
  have [w ->] := phiok J dt (jl_frhs J) 1%N; rewrite [rbind (Ok _) _]/=.
  set y2 := _ + _ + _; have [x ->] := remf_ok sys (h_t h + dt) y2 (jl_frhs J) (jl_op J) p.2 hc.
  rewrite [rbind (Ok _) _]/=; have [w3 ->] := phiok J dt x 3%N; by eexists.
- rewrite /step_pexprb4 (current_y hc) [rbind (Ok _) _]/=; set J := os_fjac _ _ _ _.
  have [p2 ->] := stage_ok sys dt J y (jl_frhs J) 2%:R^-1 hc m0; rewrite [rbind (Ok _) _]/=.
  have [p3 ->] := stage_ok sys dt J y (jl_frhs J) 1 hc m0; rewrite [rbind (Ok _) _]/= /p4_final.
  set vb := [:: _; _; _; _; _].
  have [b ->] : exists b, kiops_fixedsteps (k_expm K) (k_expk K) (jl_op J) dt vb (o_kdim o) (o_iom o) = Ok b.
    by apply: kiops_ok.
  by eexists.
- rewrite /step_epi2 (current_y hc) [rbind (Ok _) _]/=; set J := os_fjac _ _ _ _.
  set vb := [:: _; _; _].
  have [b ->] : exists b, kiops_fixedsteps (k_expm K) (k_expk K) (jl_op J) dt vb (o_kdim o) (o_iom o) = Ok b.
    by apply: kiops_ok.
  by eexists.
- have [tp [yp pr]] := has_prev_previous hr (hp erefl).
  rewrite /step_epi3 (current_y hc) [rbind (Ok _) _]/= (previous_y pr) [rbind (Ok _) _]/= (previous_tm pr) [rbind (Ok _) _]/=.
  set J := os_fjac _ _ _ _; have [x ->] := remf_ok sys tp yp (jl_frhs J) (jl_op J) (jl_fdt J) hc.
  rewrite [rbind (Ok _) _]/=; set vb := [:: _; _; _].
  have [b ->] : exists b, kiops_fixedsteps (k_expm K) (k_expk K) (jl_op J) dt vb (o_kdim o) (o_iom o) = Ok b.
    by apply: kiops_ok.
  by eexists.
- rewrite /step_exprb2_dense (current_y hc) [rbind (Ok _) _]/=; have [A ->] := hd None (h_t h) y.
  by rewrite [rbind (Ok _) _]/=; have [p ->] := hq (dt *: A); eexists.
- rewrite /step_exprb2_pfd (current_y hc) [rbind (Ok _) _]/=; have [A ->] := hd (Some kw) (h_t h) y.
  by eexists.
- rewrite /step_exp_pfd (current_y hc) [rbind (Ok _) _]/=; have [A ->] := hd (Some kw) (h_t h) y.
  by eexists.
- rewrite /step_exprb2_pfd_rs (current_y hc) [rbind (Ok _) _]/=; have [A ->] := hd None (h_t h) y.
  by eexists.
- rewrite /step_exp_pfd_rs (current_y hc) [rbind (Ok _) _]/=; have [A ->] := hd None (h_t h) y.
  by eexists.
Qed.

(* rk4 *)
Lemma rk4_taylor sys (A : 'M[F]_n) h t y dt : (forall kw t u, os_frhs sys kw t u = A *m u) -> current h t y ->
  step_rk4 sys h dt = Ok (mkres h dt ((\sum_(i < 5) (i`!%:R)^-1 *: mxpow (dt *: A) i) *m y)).
Proof.
move=> hf hc; rewrite /step_rk4 (current_y hc) /= !hf; congr (Ok (mkres _ _ _)).
rewrite !big_ord_recl big_ord0 addr0 /= /bump /= !mulmxDl -!scalemxAl !mxpowS mxpow0 mulmx1 !add1n.
rewrite fact0 invr1 mul1mx -?mulmxA.
rewrite !(mulmxDr, mulmxDl) -?scalemxAl -?scalemxAr -?mulmxA.
rewrite !(mulmxDr, mulmxDl) -?scalemxAl -?scalemxAr -?mulmxA.
rewrite !(mulmxDr, mulmxDl) -?scalemxAl -?scalemxAr -?mulmxA.
set u1 := A *m y; set u2 := A *m u1; set u3 := A *m u2; set u4 := A *m u3.
move: u1 u2 u3 u4 => u1 u2 u3 u4.
apply/matrixP => i j; rewrite !mxE; vgen; rewrite !factS fact0; by field.
Qed.

(* Simpson's rule *)
Lemma deriv_size (P p : {poly F}) N : P^`() = p -> (size p <= N)%N -> (size P <= N.+1)%N.
Proof.
move=> e sp; apply/leq_sizeP => j; case: j => // j hj.
have : P^`()`_j = 0 by rewrite e; apply/leq_sizeP: j hj.
by rewrite coef_deriv -mulr_natr => /eqP; rewrite mulf_eq0 pnatr_eq0 orbF => /eqP.
Qed.
Lemma simpson (P p : {poly F}) t dt : P^`() = p -> (size p <= 4)%N ->
  P.[t + dt] - P.[t] = 6%:R^-1 * (dt * (p.[t] + 2%:R * p.[t + dt / 2%:R] + 2%:R * p.[t + dt / 2%:R] + p.[t + dt])).
Proof.
move=> e sp; have sP := deriv_size e sp.
rewrite !(horner_coef_wide _ sp) !(horner_coef_wide _ sP) -e.
rewrite !big_ord_recl !big_ord0 /= /bump /= !add1n !coef_deriv /= !addr0 !expr0 !expr1.
by field.
Qed.
Lemma rk4_cubic sys (p P : 'I_n -> {poly F}) h t y dt :
  (forall kw t u i, os_frhs sys kw t u i 0 = (p i).[t]) -> (forall i, (size (p i) <= 4)%N) ->
  (forall i, (P i)^`() = p i) -> current h t y ->
  step_rk4 sys h dt = Ok (mkres h dt (\col_i (y i 0 + ((P i).[t + dt] - (P i).[t])))).
Proof.
move=> hf sp hP hc; rewrite /step_rk4 (current_y hc) /=; congr (Ok (mkres _ _ _)).
apply/matrixP => i j; rewrite (ord1 j) !mxE (simpson _ _ (hP i) (sp i)) !hf (current_t hc).
by [].
Qed.
End S.
