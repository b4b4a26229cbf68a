(* ProofsLejaStep.v : what a step of the Leja integrator returns: closure of the Leja products under
   subspaces, equilibria, linear invariants, polynomial form. *)
From Coq Require Import String.
From mathcomp Require Import all_ssreflect all_algebra.
From mathcomp Require Import complex.
From Verif Require Import ModelHist SpecHist ProofsHist ModelOps SpecOps ProofsOps ModelKrylov ModelDispatch ModelInt SpecInt.
From Verif Require Import ProofsInt ProofsInt2 ProofsInt3 ProofsInt6 ModelLeja SpecLeja ProofsLeja2.
Set Implicit Arguments.
Unset Strict Implicit.
Unset Printing Implicit Defensive.
Import Order.TTheory GRing.Theory Num.Theory.
Local Open Scope ring_scope.
Local Opaque max_substeps gen_leja_conjugate leja_shift_scale leja_max_power_iter norm2.

Section Closed.
Variables (F : rcfType) (m : nat) (mv : 'cV[F]_m -> 'cV[F]_m) (Q : 'cV[F]_m -> Prop).
Hypothesis qlin : forall (a : F) u v, Q u -> Q v -> Q (a *: u + v).
Hypothesis qmv : forall v, Q v -> Q (mv v).
Lemma qZ (a : F) u : Q u -> Q (a *: u).
Proof. by move=> h; have := qlin (a - 1) h h; rewrite scalerBl scale1r subrK. Qed.
Lemma qD u v : Q u -> Q v -> Q (u + v).
Proof. by move=> hu hv; have := qlin 1 hu hv; rewrite scale1r. Qed.
Lemma q_leja_mv dt x sc v : Q v -> Q (leja_mv mv dt x sc v).
Proof.
move=> h; apply: qZ; rewrite -scaleNr; apply: qD; apply: qZ => //; exact: qmv.
Qed.
Definition qst (s : lstate F m) := Q (l_vm s) /\ Q (l_pm s).
Lemma q_while f c (body : lstate F m -> lstate F m) s : (forall s, qst s -> qst (body s)) -> qst s ->
  qst (leja_while f c body s).
Proof. by move=> hb hs; apply: (leja_while_ind (P := qst)) => // s' h _; apply: hb. Qed.
Lemma q_real dt u sh sc x cs tol : Q u -> Q (real_leja_expmv mv dt u sh sc x cs tol).1.1.
Proof.
move=> hu; rewrite /real_leja_expmv /=; set s := leja_while _ _ _ _.
suff [] : qst s by [].
apply: q_while; last by split=> //=; apply: qZ.
move=> t [h1 h2]; have h3 := q_leja_mv dt (sh + sc * x`_(l_i t).-1) sc h1.
by split=> //=; apply: qD => //; apply: qZ.
Qed.
Lemma q_conj dt u sh sc x nr cs tol : Q u -> Q (complex_conj_leja_expmv mv dt u sh sc x nr cs tol).1.1.
Proof.
move=> hu; rewrite /complex_conj_leja_expmv; case: ifP => _; first exact: q_real.
set s := leja_while _ _ _ _; suff [] : qst s by [].
apply: q_while.
  move=> t [h1 h2]; rewrite /cj_pair_body /=.
  set xr := sh + _; have h3 := q_leja_mv dt xr sc h1; have h4 := q_leja_mv dt xr sc h3.
  split=> /=; first by apply: qD => //; apply: qZ.
  apply: qD; first by apply: qD => //; apply: qZ.
  by apply: qZ; apply: qD => //; apply: qZ.
clear s; have : qst (LState 1 u ((cRe cs)`_0 *: u) (2%:R * norm2 u) (norm2 u == 0)) by split=> //=; apply: qZ.
move: (LState _ _ _ _ _) => t; elim: nr => [//|k IH] ht; rewrite iterS.
have [h1 h2] := IH ht; have h3 := q_leja_mv dt (sh + sc * (cRe x)`_(l_i (iter k (cj_real_body mv dt sh sc x cs) t)).-1) sc h1.
by split=> //=; apply: qD => //; apply: qZ.
Qed.
Lemma q_substep (ex : F -> 'cV[F]_m -> 'cV[F]_m * nat * bool) sb tau v r :
  (forall t w, Q w -> Q (ex t w).1.1) -> Q v -> expmv_substep ex sb tau v = Ok r -> Q r.1.1.1.
Proof.
move=> hx; rewrite /expmv_substep; case: sb => /=; last first.
  by move=> hv; have := hx 1 v hv; case: (ex 1 v) => [[w it] c] /= h [<-].
suff H f d t k mx v' : Q v' -> substep_loop ex f d t v' k mx = Ok r -> Q r.1.1.1 by apply: H.
elim: f v' d t k mx => [|f IH] {}v d t k mx hv /=; have := hx d v hv; case: (ex d v) => [[w it] c] /= hw.
  by case: c => /=; case: ifP => // _ [<-].
by case: c => /=; case: ifP => _; (try by case=> <-); apply: IH.
Qed.
End Closed.

Section Step.
Variables (F : rcfType) (D : ldd F) (KW : Type) (n : nat) (o : lopts F n) (kw0 : KW).
Variable sys : odesys F KW n.
Notation vec := 'cV[F]_n.

(* a vector space property of the augmented vectors kept by the augmented operator holds of w *)
Definition krylov_like m (mv : 'cV[F]_m -> 'cV[F]_m) (v w : 'cV[F]_m) : Prop :=
  forall Q : 'cV[F]_m -> Prop, (forall (a : F) x y, Q x -> Q y -> Q (a *: x + y)) ->
    (forall x, Q x -> Q (mv x)) -> Q v -> Q w.

(* the second input vector of the augmented problem *)
Definition leja_vb2 (h : hist F vec) (dt : F) (J : jaclop F n) (v2 : vec) : Prop :=
  v2 = dt ^+ 2 *: jl_fdt J \/
  lp_method o = "epi3_leja_im"%string /\
  exists tp yp rn, [/\ hist_y h 1 = Ok yp, hist_tm h 1 = Ok tp, hist_has_prev h,
     remf sys h tp yp (jl_frhs J) (jl_op J) (jl_fdt J) = Ok rn &
     v2 = (dt * (2%:R / 3%:R)) *: rn + dt ^+ 2 *: jl_fdt J].

Lemma lj_step_out ob dt kw ob' s : lj_step D o kw0 sys ob dt kw = Ok (ob', s) ->
  exists yt v2 w, let J := os_fjac sys (Some (odflt kw0 kw)) (h_t (lj_hist ob)) yt in
    let av := build_a_tilde 2 (jl_op J) dt [:: 0; dt *: jl_frhs J; v2] in
    [/\ hist_y (lj_hist ob) 0 = Ok yt, lj_hist ob' = lj_hist ob, 
        s = mkres (lj_hist ob) dt (yt + usubmx w), leja_vb2 (lj_hist ob) dt J v2 &
        krylov_like (lo_mv av.1) av.2 w].
Proof.
rewrite /lj_step; case er : leja_step_routine => [r|e] //=; move: er; rewrite /leja_step_routine.
case: r => //.
- move=> _; rewrite /step_epi_re; case ey : hist_y => [yt|e] //=.
  set J := os_fjac _ _ _ _.
  case: (match lp_a o with Some _ => _ | None => _ end) => [[shift scale] bk].
  case E : real_leja_expmv_substep => [r|e] //=.
  case: r E => [[[w it] c] m] E /=; case: c E => //= E -[<- <-].
  exists yt, (dt ^+ 2 *: jl_fdt J), w; split=> //; first by left.
  move=> Q ql qm q0.
  have := @q_substep F (n + 2) Q _ _ _ _ (w, it, true, m) _ q0 E; apply=> t x hx.
  exact: q_real.
- move=> k hk; rewrite /step_epi_im; case ey : hist_y => [yt|e] //=.
  set J := os_fjac _ _ _ _.
  case ev : (if k == 2%N then _ else _) => [vb|e] //=.
  case: (match lp_a o with Some _ => _ | None => _ end) => [la bk].
  case: gen_leja_conjugate => [[[[x nr] scale] shift]|e] //=.
  case E : complex_conj_leja_expmv_substep => [r|e] //=.
  case: r E => [[[w it] c] m] E /=; case: c E => //= E -[<- <-].
  have [v2 [evb h2]] : exists v2, vb = [:: 0; dt *: jl_frhs J; v2] /\ leja_vb2 (lj_hist ob) dt J v2.
    move: ev; case: (k =P 2%N) => [_ [<-]|k2]; first by eexists; split; [reflexivity|left].
    case: (k =P 3%N) => // k3; case e1 : (hist_y _ 1) => [yp|e] //=; case e2 : (hist_tm _ 1) => [tp|e] //=.
    case e3 : remf => [rn|e] //= -[<-]; eexists; split; first reflexivity.
    right; move: hk; case: ifP => // _; case: ifP => [_ [ek]|_]; first by case: k2.
    case: (String.eqb_spec _ _) => // -> hk; split=> //; exists tp, yp, rn; split=> //.
    by move: hk; case: hist_has_prev => // -[ek]; case: k2.
  exists yt, v2, w; split=> //.
  rewrite evb in E; move=> Q ql qm q0.
  have := @q_substep F (n + 2) Q _ _ _ _ (w, it, true, m) _ q0 E; apply=> t z hz.
  exact: q_conj.
Qed.

Lemma lj_step_hist ob dt kw ob' s : lj_step D o kw0 sys ob dt kw = Ok (ob', s) ->
  [/\ lj_hist ob' = lj_hist ob, sr_t s = h_t (lj_hist ob) + dt & sr_dt s = dt].
Proof. by move/lj_step_out => [yt [v2 [w [_ -> -> _ _]]]]. Qed.

(* W annihilates the increment when W annihilates the inputs and its kernel is kept by J *)
Lemma lj_step_annih p (W : 'M[F]_(p, n)) ob dt kw ob' s yt :
  hist_y (lj_hist ob) 0 = Ok yt ->
  let J := os_fjac sys (Some (odflt kw0 kw)) (h_t (lj_hist ob)) yt in
  (forall v, W *m v = 0 -> W *m lo_mv (jl_op J) v = 0) -> W *m jl_frhs J = 0 ->
  (forall v2, leja_vb2 (lj_hist ob) dt J v2 -> W *m v2 = 0) ->
  lj_step D o kw0 sys ob dt kw = Ok (ob', s) -> W *m sr_y s = W *m yt.
Proof.
move=> ey /= h1 h2 h3 /lj_step_out [yt' [v2 [w /= [ey' _ -> hv kl]]]].
have ee : yt' = yt by move: ey'; rewrite ey => -[].
rewrite {}ee {ey'} in hv kl *; set J := os_fjac _ _ _ _ in h1 h2 h3 hv kl *.
rewrite /= mulmxDr -[RHS]addr0; congr (_ + _).
apply: (kl (fun w => W *m usubmx w = 0)).
- by move=> a x y hx hy; rewrite linearP /= mulmxDr -scalemxAr hx hy scaler0 addr0.
- move=> x hx; rewrite /= col_mxKu mulmxDr -scalemxAr h1 // scaler0 add0r mulmxA.
  suff -> : W *m kiops_B 2 [:: 0; dt *: jl_frhs J; v2] = 0 by rewrite mul0mx.
  apply/matrixP => i j; rewrite [RHS]mxE.
  have hv' : W *m nth 0 [:: 0; dt *: jl_frhs J; v2] (2 - j) = 0.
    case: j => -[|[|//]] hj /=; first exact: h3.
    by rewrite -scalemxAr h2 scaler0.
  have /matrixP /(_ i 0) := hv'; rewrite [RHS]mxE => ee; rewrite -[RHS]ee !mxE.
  by apply: eq_bigr => l _; rewrite !mxE.
- by rewrite /= col_mxKu mulmx0.
Qed.

Lemma lj_new_hist t0 y0 ob : lj_new o t0 y0 = Ok ob ->
  exists ord, hist_init ord t0 y0 = Ok (lj_hist ob).
Proof.
by rewrite /lj_new; case: leja_ctor => [ord|e] //=; case eh : hist_init => [h|e] //= [<-]; exists ord.
Qed.

(* ---- equilibria ---- *)
Lemma lj_eq_step y ob dt kw ob' s : equilibrium sys y -> all_y y (lj_hist ob) ->
  lj_step D o kw0 sys ob dt kw = Ok (ob', s) -> sr_y s = y /\ all_y y (hist_accept (lj_hist ob') s).
Proof.
move=> eq ha es; have hc := all_y_current ha.
have e1 : sr_y s = y.
  rewrite -[sr_y s]mul1mx -[RHS]mul1mx.
  have [e0 [e2 lin]] := eq.2 (Some (odflt kw0 kw)) (h_t (lj_hist ob)).
  apply: (lj_step_annih (current_y hc) _ _ _ es).
  - by move=> v; rewrite mul1mx => ->; rewrite (ProofsOps.linear0 lin) mulmx0.
  - by rewrite e0 mulmx0.
  - move=> v2 [->|[_ [tp [yp [rn [h1 h2 h3 h4 ->]]]]]]; first by rewrite e2 scaler0 mulmx0.
    have [tp' hp] := all_y_previous ha h3.
    move: h1 h2 h4; rewrite (previous_y hp) (previous_tm hp) => -[<-] -[<-].
    by rewrite e0 e2 (eq_remf eq _ _ hc) => -[<-]; rewrite !scaler0 addr0 mulmx0.
split=> //; have [-> _ _] := lj_step_hist es; exact: all_y_accept.
Qed.
Lemma lj_eq_traj y W (cb1 cb2 : option (W -> F -> vec -> W * KW)) ob w t0 dt N d :
  equilibrium sys y -> lj_new o t0 y = Ok ob ->
  integrate_ormatex (lj_step D o kw0 sys) (@lj_accept F n) cb1 cb2 ob w y t0 dt N = Ok d ->
  forall y', List.In y' (d_ys d) -> y' = y.
Proof.
move=> eq /lj_new_hist [ord hi] hrun.
have hs (c1 : ljobj F n) c c' r : all_y y (lj_hist c1) -> lj_step D o kw0 sys c1 dt c = Ok (c', r) ->
    sr_y r = y /\ all_y y (lj_hist (lj_accept c' r)).
  by move=> ha es; apply: lj_eq_step eq ha es.
by have [] := run_inv (Inv := fun c => all_y y (lj_hist c)) (P := fun z => z = y) hs (all_y_init hi) (erefl y) hrun.
Qed.

(* ---- linear invariants ---- *)
Lemma lj_inv_step (w : 'rV[F]_n) ob t y dt kw ob' s : rhs_invariant sys w -> jac_invariant sys w ->
  current (lj_hist ob) t y ->
  lj_step D o kw0 sys ob dt kw = Ok (ob', s) -> w *m sr_y s = w *m y.
Proof.
move=> hf hJ hc es.
have [j1 [j2 j3]] := hJ (Some (odflt kw0 kw)) (h_t (lj_hist ob)) y.
apply: (lj_step_annih (current_y hc) _ _ _ es) => //.
move=> v2 [->|[_ [tp [yp [rn [_ _ _ h4 ->]]]]]]; first by rewrite -scalemxAr j2 scaler0.
by rewrite mulmxDr -!scalemxAr j2 (inv_remf hf hJ j2 h4) !scaler0 addr0.
Qed.
Lemma lj_inv_traj (w : 'rV[F]_n) W (cb1 cb2 : option (W -> F -> vec -> W * KW)) ob wd t0 y0 dt N d :
  rhs_invariant sys w -> jac_invariant sys w -> lj_new o t0 y0 = Ok ob ->
  integrate_ormatex (lj_step D o kw0 sys) (@lj_accept F n) cb1 cb2 ob wd y0 t0 dt N = Ok d ->
  forall y, List.In y (d_ys d) -> w *m y = w *m y0.
Proof.
move=> hf hJ /lj_new_hist [ord hi] hrun.
pose Inv (c : ljobj F n) := reachable (lj_hist c) /\ exists y, current (lj_hist c) (h_t (lj_hist c)) y /\ w *m y = w *m y0.
have hs (c1 : ljobj F n) c c' r : Inv c1 -> lj_step D o kw0 sys c1 dt c = Ok (c', r) ->
    w *m sr_y r = w *m y0 /\ Inv (lj_accept c' r).
  move=> [rc [y [hc wy]]] es; have [eh _ _] := lj_step_hist es.
  have wx : w *m sr_y r = w *m y0 by rewrite -wy; apply: lj_inv_step hf hJ hc es.
  split=> //; split; rewrite /= eh; first exact: reachable_accept.
  exists (sr_y r); split=> //; exact: (accept_current r rc).
have i0 : Inv ob.
  split; first exact: reachable_init hi.
  by exists y0; split=> //; have hcur := init_current hi; rewrite (current_t hcur).
by have [] := run_inv (P := fun z => w *m z = w *m y0) hs i0 (erefl (w *m y0)) hrun.
Qed.
End Step.
