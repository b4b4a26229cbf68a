(* ProofsInt.v : lemmas about the integrator steps of ModelInt.v *)
From Coq Require Import String.
From mathcomp Require Import all_ssreflect all_algebra.
From mathcomp Require Import complex.
From mathcomp Require Import ring.
From Verif Require Import ModelHist SpecHist ProofsHist MxBase ModelOps SpecOps ProofsOps ModelPhi.
From Verif Require Import ModelKrylov ProofsKrylov ProofsKrylov2 ProofsKrylov3 ModelDispatch ModelInt SpecInt.
Set Implicit Arguments.
Unset Strict Implicit.
Unset Printing Implicit Defensive.
Import Order.TTheory GRing.Theory Num.Theory.
Local Open Scope ring_scope.
Local Opaque breakdown_tol norm2.

(* ---------- histories ---------- *)
Section Reach.
Variables T Y : Type.
Implicit Types h : hist T Y.

Lemma reachable_init order t0 y0 h : hist_init order t0 y0 = Ok h -> reachable h.
Proof. by move=> e; exists order, t0, y0, h, nil. Qed.
Lemma reachable_do h o : reachable h -> reachable (hist_do h o).
Proof.
case=> [order [t0 [y0 [h0 [ops [e ->]]]]]]; exists order, t0, y0, h0, (ops ++ [:: o])%list.
by split=> //; rewrite List.fold_left_app.
Qed.
Lemma reachable_accept h s : reachable h -> reachable (hist_accept h s).
Proof. exact: (@reachable_do h (OpAccept s)). Qed.
Lemma reachable_reset h t y : reachable h -> reachable (hist_reset h t y).
Proof. exact: (@reachable_do h (OpReset t y)). Qed.

Lemma reachable_current h : reachable h -> exists y, current h (h_t h) y.
Proof.
case=> [order [t0 [y0 [h0 [ops [e ->]]]]]].
have [hr _] := represents_init e.
have [ne [pos [hts [hys ht]]]] := represents_ops ops hr.
set h' := List.fold_left _ _ _ in pos hts hys ht *.
set log := accepted_log _ _ in ne hts hys ht.
rewrite /current hts hys /newest; move: pos; case: (h_order h') => [/PeanoNat.Nat.lt_irrefl//|o] _.
case: (List.rev log) ht => [//|[t y] l] /= [->]; by exists y.
Qed.
Lemma current_tm h t y : current h t y -> hist_tm h 0 = Ok t.
Proof. by case=> _ []; rewrite /hist_tm; case: (h_ts h) => //= a l [->]. Qed.
Lemma current_y h t y : current h t y -> hist_y h 0 = Ok y.
Proof. by case=> _ [_]; rewrite /hist_y; case: (h_ys h) => //= a l [->]. Qed.
Lemma current_t h t y : current h t y -> h_t h = t. Proof. by case. Qed.
Lemma reachable_order h : reachable h -> (0 < h_order h)%coq_nat.
Proof.
case=> [order [t0 [y0 [h0 [ops [e ->]]]]]].
by have [hr _] := represents_init e; have [_ []] := represents_ops ops hr.
Qed.
Lemma accept_current h s : reachable h -> current (hist_accept h s) (sr_t s) (sr_y s).
Proof.
move=> /reachable_order; rewrite /current /hist_accept /appendleft /appendleftY /=.
by case: (h_order h) => [/PeanoNat.Nat.lt_irrefl//|o] _.
Qed.
Lemma reset_current h t y : reachable h -> current (hist_reset h t y) t y.
Proof.
move=> /reachable_order; rewrite /current /hist_reset /appendleft /appendleftY /=.
by case: (h_order h) => [/PeanoNat.Nat.lt_irrefl//|o] _.
Qed.
Lemma init_current order t0 y0 h : hist_init order t0 y0 = Ok h -> current h t0 y0.
Proof.
rewrite /hist_init; case: order => [|o] //= [<-]; by rewrite /current /appendleft /appendleftY.
Qed.
Lemma previous_y h t y : previous h t y -> hist_y h 1 = Ok y.
Proof. by case=> _; rewrite /hist_y => ->. Qed.
Lemma previous_tm h t y : previous h t y -> hist_tm h 1 = Ok t.
Proof. by case; rewrite /hist_tm => ->. Qed.
Lemma has_prev_previous h : reachable h -> hist_has_prev h -> exists t y, previous h t y.
Proof.
case=> [order [t0 [y0 [h0 [ops [e ->]]]]]].
have [hr _] := represents_init e.
have [ne [pos [hts [hys ht]]]] := represents_ops ops hr.
rewrite /hist_has_prev /previous hts hys; case: (newest _ _) => [|[t1 y1] [|[t2 y2] l]] //= _.
by exists t2, y2.
Qed.
End Reach.

Lemma rbindP A B (r : result A) (k : A -> result B) x : rbind r k = Ok x -> exists a, r = Ok a /\ k a = Ok x.
Proof. by case: r => [a|e] //= h; exists a. Qed.

(* take apart a successful sequence of binds, keeping the equations *)
Ltac rbs := cbv beta zeta; repeat (let a := fresh "a" in let e := fresh "e" in
  let h := fresh in intro h; apply rbindP in h; destruct h as [a [e h]]; revert h; cbv beta zeta).

(* equations between vectors, entry by entry *)
Ltac vgen := repeat match goal with |- context [@fun_of_matrix ?R ?m ?n ?M ?i ?j] =>
  let x := fresh "x" in move: (@fun_of_matrix R m n M i j); intro x end.
Ltac vring := let i := fresh "i" in let j := fresh "j" in
  apply/matrixP; intros i j; rewrite !mxE; vgen; ring.

Section Steps.
Variable F : rcfType.
Variable KW : Type.
Variable K : kernels F.
Variable n : nat.
Notation vec := 'cV[F]_n.
Notation H := (hist F vec).
Implicit Types (h : H) (sys : odesys F KW n).

Lemma mkres_t h dt (y : vec) : sr_t (mkres h dt y) = h_t h + dt. Proof. by []. Qed.

(* the reported time and step size *)
Lemma rb_run_t o r sys h dt kw s : rb_run K o r sys h dt kw = Ok s ->
  sr_t s = h_t h + dt /\ sr_dt s = dt /\ sr_err s = -1.
Proof.
case: r => //; rewrite /rb_run /step_exprb2 /step_exprb3 /step_pexprb4 /step_epi2 /step_epi3 /step_exprb2_dense
 /step_exprb2_pfd /step_exprb2_pfd_rs /step_exp_pfd_rs /step_exp_pfd /p4_final; rbs; do ?[by case=> <-].
by case: (k_sqall K (dt *: a0) 2) => // phis [<-].
Qed.
Lemma rb_step_t o kw0 sys h dt kw h' s : rb_step K o kw0 sys h dt kw = Ok (h', s) ->
  h' = h /\ sr_t s = h_t h + dt /\ sr_dt s = dt /\ sr_err s = -1.
Proof. by rewrite /rb_step; rbs; case=> <- <-; split=> //; apply: (rb_run_t e0). Qed.
Lemma rk_step_t m sys h dt kw h' s : rk_step m sys h dt kw = Ok (h', s) ->
  h' = h /\ sr_t s = h_t h + dt /\ sr_dt s = dt /\ sr_err s = -1.
Proof.
by rewrite /rk_step; rbs; case: a {e} => //; rbs; case=> <- <-; move: e; rewrite /step_rk4; rbs; case=> <-.
Qed.
Lemma update_hist (ssys : splitsys F KW n) (ob : spobj F n) dt cks oc :
  update_dense_phiLs K ssys ob dt cks = Ok oc -> sp_hist oc.1 = sp_hist ob.
Proof.
rewrite /update_dense_phiLs; case: ifP => _; first by case: (sp_cache ob) => // c [<-].
by rbs; case=> <-.
Qed.
Lemma sp_step_t kd iom m (sys : splitsys F KW n) ob dt kw ob' s :
  sp_step K kd iom m sys ob dt kw = Ok (ob', s) ->
  sp_hist ob' = sp_hist ob /\ sr_t s = h_t (sp_hist ob) + dt /\ sr_dt s = dt /\ sr_err s = -1.
Proof.
have dense cks f : sp_dense K sys ob dt cks f = Ok (ob', s) ->
  sp_hist ob' = sp_hist ob /\ sr_t s = h_t (sp_hist ob) + dt /\ sr_dt s = dt /\ sr_err s = -1.
  by rewrite /sp_dense; rbs; case=> <- <-; rewrite (update_hist e0).
rewrite /sp_step; rbs; case: a {e} => //; do ?exact: dense; rewrite /sp_run; rbs; case=> <- <-; move: e;
  by rewrite /step_exp1 /step_exp2 /step_exp3; rbs; case=> <-.
Qed.

(* ---------- gate ---------- *)
Definition gate_open (tol : F) (v : vec) : bool := (0 <= tol) && (tol < vinf v).
Lemma phi2v_closed o (J : jaclop F n) dt c : ~~ gate_open (o_tol o) (jl_fdt J) ->
  phi2v_nonauto K o J dt c = Ok (0, 0).
Proof. by rewrite /phi2v_nonauto /gate_open; case: ifP => //= _; case: ifP. Qed.
Lemma phi2v_open o (J : jaclop F n) dt c : gate_open (o_tol o) (jl_fdt J) ->
  phi2v_nonauto K o J dt c =
  rbind (phi_linop (k_expm K) (k_expk K) (lo_mv (jl_op J)) (c * dt) (jl_fdt J) 2 (o_kdim o) (o_iom o))
        (fun w => Ok ((c ^+ 2 * dt ^+ 2) *: w, jl_fdt J)).
Proof. by rewrite /phi2v_nonauto /gate_open => /andP[-> ->]. Qed.
Lemma vinf0 : vinf (0 : vec) = 0.
Proof.
apply: (big_ind (fun x : F => x = 0)) => //= [x y -> ->|i _]; first by rewrite maxxx.
by rewrite mxE normr0.
Qed.
Lemma gate_zero tol : ~~ gate_open tol (0 : vec).
Proof. by rewrite /gate_open vinf0; apply/negP => /andP[h]; rewrite ltNge h. Qed.

(* ---------- C28: remainder on affine systems ---------- *)
Lemma remf_affine sys A b g h t y tr (yr : vec) (J : linop F n) v : affine_system sys A b g ->
  acts_as J A -> current h t y ->
  remf sys h tr yr (A *m y + b + t *: g) J v = Ok ((tr - t) *: (g - v)).
Proof.
move=> [hf _] hJ hc; rewrite /remf (current_tm hc) (current_y hc) /= hf hJ mulmxBr; congr Ok.
rewrite scalerBr; move: (A *m yr) (A *m y) => p q; vring.
Qed.

Lemma kiops_zero (L : linop F n) dt vb m iom : (forall i, nth 0 vb i = 0) ->
  kiops_fixedsteps (k_expm K) (k_expk K) L dt vb m iom = Ok 0.
Proof.
move=> hz; rewrite /kiops_fixedsteps.
have -> // : 0 < maxnorm vb = false.
apply/negbTE; rewrite -leNgt; elim: vb hz => [|v vb IH] hz //=.
have /= -> := hz 0%N; rewrite le_maxl norm2_0 lexx /=; apply: IH => i; exact: (hz i.+1).
Qed.

End Steps.
