(* ProofsInt6.v : equilibria and linear invariants along runs *)
From Coq Require Import String.
From mathcomp Require Import all_ssreflect all_algebra.
From mathcomp Require Import complex.
From mathcomp Require Import ring.
From Verif Require Import ModelHist SpecHist ProofsHist MxBase ModelOps SpecOps ProofsOps ModelPhi ProofsPhi.
From Verif Require Import ModelKrylov ProofsKrylov ProofsKrylov2 ModelDispatch ModelInt SpecInt ProofsInt ProofsInt2 ProofsInt3 ProofsInt4 ProofsInt5.
Set Implicit Arguments.
Unset Strict Implicit.
Unset Printing Implicit Defensive.
Import Order.TTheory GRing.Theory Num.Theory.
Local Open Scope ring_scope.
Local Opaque breakdown_tol norm2 phi_linop f_phi_k_pfd kiops_fixedsteps.

Section S.
Variable F : rcfType.
Variable KW : Type.
Variable K : kernels F.
Variable n : nat.
Notation vec := 'cV[F]_n.
Notation H := (hist F vec).
Implicit Types (h : H) (sys : odesys F KW n).

Lemma routine_rosenbrock (o : rbopts F) prev r : o_method o <> "exp_pfd"%string -> o_method o <> "exp_pfd_rs"%string ->
  rb_step_routine (o_rust o) prev (o_method o) = Ok r -> rb_rosenbrock r.
Proof.
move=> n1 n2; rewrite /rb_step_routine; do 4!(case: ifP => _; first by case=> <-).
case: ifP => _; first by case: prev => // -[<-].
do 2!(case: ifP => _; first by case=> <-).
case: (String.eqb_spec _ _) => // _; case: ifP => _; first by case=> <-.
by case: (String.eqb_spec _ _).
Qed.

(* ---- equilibria ---- *)
Definition all_y (y : vec) h := reachable h /\ forall y', List.In y' (h_ys h) -> y' = y.
Lemma In_firstn T m (l : list T) x : List.In x (List.firstn m l) -> List.In x l.
Proof. elim: m l => [|m IH] [|a l]; rewrite /=; try tauto; by case=> [->|/IH]; [left|right]. Qed.
Lemma nth_error_In' T (l : list T) i x : List.nth_error l i = Some x -> List.In x l.
Proof. exact: List.nth_error_In. Qed.
Lemma all_y_init ord t0 y h : hist_init ord t0 y = Ok h -> all_y y h.
Proof.
move=> e; split; first exact: reachable_init e.
move: e; rewrite /hist_init; case: ifP => // _ [<-].
by move=> y' /= hy; have /= [->|] := In_firstn hy.
Qed.
Lemma all_y_accept y h s : all_y y h -> sr_y s = y -> all_y y (hist_accept h s).
Proof.
move=> [r a] es; split; first exact: reachable_accept.
by move=> y' /= hy; have /= [<-|/a] := In_firstn hy.
Qed.
Lemma all_y_current y h : all_y y h -> current h (h_t h) y.
Proof.
move=> [r a]; have [y' hc] := reachable_current r.
suff -> : y = y' by [].
by symmetry; apply: a; case: hc => _ [_]; case: (h_ys h) => //= b l [->]; left.
Qed.
Lemma all_y_previous y h : all_y y h -> hist_has_prev h -> exists tp, previous h tp y.
Proof.
move=> [r a] hp; have [tp [yp pr]] := has_prev_previous r hp; exists tp.
suff -> : y = yp by [].
by symmetry; apply: a; case: pr => _; apply: nth_error_In'.
Qed.
Lemma routine_epi3 (o : rbopts F) prev : rb_step_routine (o_rust o) prev (o_method o) = Ok R_epi3 -> prev.
Proof.
rewrite /rb_step_routine; do 4!(case: ifP => _ //); case: ifP => _; first by case: prev.
do 3!(case: ifP => _ //); by do 2!(case: ifP => _ //).
Qed.
Lemma eq_rb_step o kw0 sys y h dt kw h' s : o_method o <> "exp_pfd"%string -> o_method o <> "exp_pfd_rs"%string ->
  equilibrium sys y -> rs_zero K -> all_y y h ->
  rb_step K o kw0 sys h dt kw = Ok (h', s) -> sr_y s = y /\ h' = h.
Proof.
move=> n1 n2 eq rz ha; rewrite /rb_step; rbs; case=> <- <-; split=> //.
apply: (eq_rb_run eq (routine_rosenbrock n1 n2 e) (all_y_current ha) _ rz e0) => ea.
by apply: (all_y_previous ha); move: e; rewrite ea; apply: routine_epi3.
Qed.
Lemma eq_rb_traj o kw0 sys y W (cb1 cb2 : option (W -> F -> vec -> W * KW)) h w t0 dt N d :
  o_method o <> "exp_pfd"%string -> o_method o <> "exp_pfd_rs"%string ->
  equilibrium sys y -> rs_zero K -> rb_new o t0 y = Ok h ->
  integrate_ormatex (rb_step K o kw0 sys) (@hist_accept F vec) cb1 cb2 h w y t0 dt N = Ok d ->
  forall y', List.In y' (d_ys d) -> y' = y.
Proof.
move=> n1 n2 eq rz hn hrun; have [ord [_ hi]] := rb_new_hist hn.
have hs c1 c c' r : all_y y c1 -> rb_step K o kw0 sys c1 dt c = Ok (c', r) -> sr_y r = y /\ all_y y (hist_accept c' r).
  by move=> ha es; have [e1 e2] := eq_rb_step n1 n2 eq rz ha es; split=> //; rewrite e2; apply: all_y_accept.
by have [] := run_inv (P := fun z => z = y) hs (all_y_init hi) (erefl y) hrun.
Qed.
Lemma eq_rk_traj m sys y W (cb1 cb2 : option (W -> F -> vec -> W * KW)) h w t0 dt N d :
  equilibrium sys y -> rk_new m t0 y = Ok h ->
  integrate_ormatex (rk_step m sys) (@hist_accept F vec) cb1 cb2 h w y t0 dt N = Ok d ->
  forall y', List.In y' (d_ys d) -> y' = y.
Proof.
move=> eq hn hrun; have [ord [_ hi]] := rk_new_hist hn.
have hs c1 c c' r : all_y y c1 -> rk_step m sys c1 dt c = Ok (c', r) -> sr_y r = y /\ all_y y (hist_accept c' r).
  rewrite /rk_step => ha hb; have [a [ea {hb}hb]] := rbindP hb; case: a ea hb => // ea hb.
  have [x [ex [<- <-]]] := rbindP hb.
  have e1 := eq_rk4 eq (all_y_current ha) ex.
  by split=> //; apply: all_y_accept.
by have [] := run_inv (P := fun z => z = y) hs (all_y_init hi) (erefl y) hrun.
Qed.
Lemma eq_sp_traj kd iom m (sys : splitsys F KW n) y W (cb1 cb2 : option (W -> F -> vec -> W * KW)) ob w t0 dt N d :
  (forall kw t, os_frhs (ss_sys sys) kw t y = 0) -> (forall t u, is_linear (lo_mv (ss_fl sys t u))) ->
  sp_new m t0 y = Ok ob ->
  integrate_ormatex (sp_step K kd iom m sys) (@sp_accept F n) cb1 cb2 ob w y t0 dt N = Ok d ->
  forall y', List.In y' (d_ys d) -> y' = y.
Proof.
move=> eq lin hn hrun; have [ord [_ [hi [_ hc0]]]] := sp_new_hist hn.
pose Inv (c : spobj F n) := all_y y (sp_hist c) /\ forall lop d, sp_cache c = Some (lop, d) -> is_linear (lo_mv lop).
have hs c1 c c' r : Inv c1 -> sp_step K kd iom m sys c1 dt c = Ok (c', r) -> sr_y r = y /\ Inv (sp_accept c' r).
  { move=> [ha hl] es; have [eh _] := sp_step_t es.
  move: es; rewrite /sp_step => hb; have [a [ea {hb}hb]] := rbindP hb.
  have e1 := sp_eq_run eq lin (all_y_current ha) hl hb.
  split=> //; split; first by rewrite /= eh; apply: all_y_accept.
  rewrite /=; move: hb; case: a ea => //= ea; rewrite /step_exp1_dense /step_exp2_dense /step_exp3_dense /sp_dense.
  all: do ?[by rbs; case=> <- _].
  all: move=> hb; have [z1 [_ {hb}hb]] := rbindP hb; have [oc [e0 {hb}hb]] := rbindP hb; have [z2 [_ [<- _]]] := rbindP hb.
  all: move: e0; rewrite /update_dense_phiLs; case: ifP => _;
    first by case Ec: (sp_cache c1) => [[lop0 d0]|] // [<-] /=; apply: hl.
  all: by rbs; case=> <- /= lop d0 [<- _]. }
have i0 : Inv ob by split; [apply: all_y_init hi | rewrite hc0].
by have [] := run_inv (P := fun z => z = y) hs i0 (erefl y) hrun.
Qed.

(* ---- invariants ---- *)
Lemma code_keeps1 (w : 'rV[F]_n) : code_dense K ->
  forall (z : 'M[F]_n) k phis, w *m z = 0 -> k_sqall K z k = Some phis ->
     forall j (v : vec), w *m v = 0 -> w *m (nth 0 phis j *m v) = 0.
Proof.
move=> hc z k phis wz e j v wv; have [N eN] := hc n z k.
rewrite eN in e; have [c ec] := sq_all_annih wz e j.
by rewrite mulmxA ec -scalemxAl wv scaler0.
Qed.
Lemma code_keeps (w : 'rV[F]_n) : code_dense K -> rs_keeps K w -> dense_kernels_keep K w.
Proof. by move=> hc hr; split; [apply: code_keeps1 | apply: hr]. Qed.
Lemma inv_rb_traj o kw0 sys (w : 'rV[F]_n) W (cb1 cb2 : option (W -> F -> vec -> W * KW)) h wd t0 y0 dt N d :
  o_method o <> "exp_pfd"%string -> o_method o <> "exp_pfd_rs"%string ->
  rhs_invariant sys w -> jac_invariant sys w -> (forall kw t u, dense_ok (jl_op (os_fjac sys kw t u))) ->
  code_dense K -> rs_keeps K w -> rb_new o t0 y0 = Ok h ->
  integrate_ormatex (rb_step K o kw0 sys) (@hist_accept F vec) cb1 cb2 h wd y0 t0 dt N = Ok d ->
  forall y, List.In y (d_ys d) -> w *m y = w *m y0.
Proof.
move=> n1 n2 hf hJ hd hk hr hn hrun; have [ord [_ hi]] := rb_new_hist hn.
pose Inv (c : H) := reachable c /\ exists y, current c (h_t c) y /\ w *m y = w *m y0.
have hs c1 c c' r : Inv c1 -> rb_step K o kw0 sys c1 dt c = Ok (c', r) -> w *m sr_y r = w *m y0 /\ Inv (hist_accept c' r).
  move=> [rc [y [hc wy]]] es; have [-> _] := rb_step_t es.
  move: es; rewrite /rb_step => hb; have [a [ea {hb}hb]] := rbindP hb; have [x [ex [_ <-]]] := rbindP hb.
  have wx : w *m sr_y x = w *m y0.
    by rewrite -wy; apply: (inv_rb_run hf hJ hd (code_keeps hk hr) (routine_rosenbrock n1 n2 ea) hc ex).
  split=> //; split; first exact: reachable_accept.
  exists (sr_y x); split=> //; have hcur := accept_current x rc.
  by rewrite (current_t hcur).
have i0 : Inv h.
  split; first exact: reachable_init hi.
  by exists y0; split=> //; have hcur := init_current hi; rewrite (current_t hcur).
by have [] := run_inv (P := fun z => w *m z = w *m y0) hs i0 (erefl (w *m y0)) hrun.
Qed.
Lemma inv_rk_traj m sys (w : 'rV[F]_n) W (cb1 cb2 : option (W -> F -> vec -> W * KW)) h wd t0 y0 dt N d :
  rhs_invariant sys w -> rk_new m t0 y0 = Ok h ->
  integrate_ormatex (rk_step m sys) (@hist_accept F vec) cb1 cb2 h wd y0 t0 dt N = Ok d ->
  forall y, List.In y (d_ys d) -> w *m y = w *m y0.
Proof.
move=> hf hn hrun; have [ord [_ hi]] := rk_new_hist hn.
pose Inv (c : H) := reachable c /\ exists y, current c (h_t c) y /\ w *m y = w *m y0.
have hs c1 c c' r : Inv c1 -> rk_step m sys c1 dt c = Ok (c', r) -> w *m sr_y r = w *m y0 /\ Inv (hist_accept c' r).
  move=> [rc [y [hc wy]]] es; have [-> _] := rk_step_t es.
  move: es; rewrite /rk_step => hb; have [a [ea {hb}hb]] := rbindP hb; case: a ea hb => // ea hb.
  have [x [ex [_ <-]]] := rbindP hb.
  have wx : w *m sr_y x = w *m y0 by rewrite -wy; apply: (inv_rk4 hf hc ex).
  split=> //; split; first exact: reachable_accept.
  exists (sr_y x); split=> //; have hcur := accept_current x rc.
  by rewrite (current_t hcur).
have i0 : Inv h.
  split; first exact: reachable_init hi.
  by exists y0; split=> //; have hcur := init_current hi; rewrite (current_t hcur).
by have [] := run_inv (P := fun z => w *m z = w *m y0) hs i0 (erefl (w *m y0)) hrun.
Qed.
Lemma inv_sp_traj kd iom m (sys : splitsys F KW n) (w : 'rV[F]_n) W (cb1 cb2 : option (W -> F -> vec -> W * KW)) ob wd t0 y0 dt N d :
  rhs_invariant (ss_sys sys) w -> (forall t u v, w *m lo_mv (ss_fl sys t u) v = 0) ->
  (forall t u, dense_ok (ss_fl sys t u)) -> code_dense K -> sp_new m t0 y0 = Ok ob ->
  integrate_ormatex (sp_step K kd iom m sys) (@sp_accept F n) cb1 cb2 ob wd y0 t0 dt N = Ok d ->
  forall y, List.In y (d_ys d) -> w *m y = w *m y0.
Proof.
move=> hf hL hd hk hn hrun; have [ord [_ [hi [_ hc0]]]] := sp_new_hist hn.
pose K' := Kernels (k_expm K) (k_expk K) (k_sqall K) (fun n (z : 'M[F]_n) (d : F) (v : 'cV[F]_n) (k : nat) => (0 : 'cV[F]_n)).
have keep : dense_kernels_keep K' w by split; [apply: code_keeps1 | move=> *; rewrite mulmx0].
pose Inv (c : spobj F n) := reachable (sp_hist c) /\ cache_keeps w c /\
   exists y, current (sp_hist c) (h_t (sp_hist c)) y /\ w *m y = w *m y0.
have hs c1 c c' r : Inv c1 -> sp_step K kd iom m sys c1 dt c = Ok (c', r) -> w *m sr_y r = w *m y0 /\ Inv (sp_accept c' r).
  move=> [rc [ck [y [hc wy]]]] es; have [eh _] := sp_step_t es.
  move: es; rewrite /sp_step => hb; have [a [ea {hb}hb]] := rbindP hb.
  have [wx ck'] := @inv_sp_run F KW K' n w kd iom sys hf hL hd keep a c1 _ y dt c' r hc ck hb.
  split; first by rewrite wx.
  split; first by rewrite /= eh; apply: reachable_accept.
  split=> //; exists (sr_y r); rewrite wx; split=> //=; rewrite eh.
  have hcur := accept_current r rc.
  exact: hcur.
have i0 : Inv ob.
  split; first exact: reachable_init hi.
  split; first by rewrite /cache_keeps hc0.
  by exists y0; split=> //; have hcur := init_current hi; rewrite (current_t hcur).
by have [] := run_inv (P := fun z => w *m z = w *m y0) hs i0 (erefl (w *m y0)) hrun.
Qed.

(* a linear functional of a limit of difference quotients *)
Lemma functional_small (w : 'rV[F]_n) (v : vec) : (forall eps, 0 < eps -> exists q, w *m q = 0 /\ maxnorm_le (q - v) eps) -> w *m v = 0.
Proof.
move=> hv; set c := \sum_i `|w 0 i|; have c0 : 0 <= c by apply: sumr_ge0.
have hb eps : 0 < eps -> `|(w *m v) 0 0| <= c * eps.
  move=> e0; have [q [wq hq]] := hv _ e0.
  have -> : (w *m v) 0 0 = - (w *m (q - v)) 0 0 by rewrite mulmxBr wq sub0r; move: (w *m v) => x; rewrite mxE opprK.
  rewrite normrN mxE; apply: le_trans (ler_norm_sum _ _ _) _; rewrite /c mulr_suml; apply: ler_sum => i _.
  by rewrite normrM ler_wpmul2l // hq.
have z : (w *m v) 0 0 = 0.
  apply/eqP; rewrite -normr_eq0; apply/negPn/negP => nz.
  have pz : 0 < `|(w *m v) 0 0| by rewrite lt_def nz normr_ge0.
  have c1 : 0 < c + 1 by apply: ltr_spaddr.
  have := hb _ (divr_gt0 (divr_gt0 pz c1) (ltr0n _ 2)).
  apply/negP; rewrite -ltNge; set x := `|_| in pz *.
  rewrite [c * _]mulrC -!mulrA.
  rewrite -[X in _ < X]mulr1 ltr_pmul2l //.
  rewrite mulrC ltr_pdivr_mulr // mul1r mulrC; apply: (@le_lt_trans _ _ c); last by rewrite ltr_addl ltr01.
  by rewrite ler_pdivr_mulr ?ltr0n // ler_pemulr // ler1n.
by apply/matrixP => i j; rewrite (ord1 i) (ord1 j) z mxE.
Qed.
Lemma half_lt (del : F) : 0 < del -> 0 < `|del / 2%:R| < del.
Proof. move=> d0; rewrite gtr0_norm ?divr_gt0 ?ltr0n // ltr_pdivr_mulr ?ltr0n //. 
by rewrite ltr_pmulr ?ltr1n // divr_gt0 ?ltr0n. Qed.
Lemma exact_inv sys (w : 'rV[F]_n) : exact_jacobian sys -> rhs_invariant sys w -> jac_invariant sys w.
Proof.
move=> ex hf kw t u J; have [h1 [h2 h3]] := ex kw t u; split; [|split].
- move=> v; apply: functional_small => eps e0; have [del [d0 hd]] := h1 v _ e0.
  exists ((del / 2%:R)^-1 *: (os_frhs sys kw t (u + (del / 2%:R) *: v) - os_frhs sys kw t u)).
  by rewrite -scalemxAr mulmxBr !hf subr0 scaler0; split=> //; apply: hd; apply: half_lt.
- apply: functional_small => eps e0; have [del [d0 hd]] := h2 _ e0.
  exists ((del / 2%:R)^-1 *: (os_frhs sys kw (t + (del / 2%:R)) u - os_frhs sys kw t u)).
  by rewrite -scalemxAr mulmxBr !hf subr0 scaler0; split=> //; apply: hd; apply: half_lt.
- by rewrite h3 hf.
Qed.
Lemma fd_inv sys (w : 'rV[F]_n) : fd_jacobian sys -> rhs_invariant sys w -> jac_invariant sys w.
Proof.
move=> ex hf kw t u J; rewrite {}/J; have [sc [eps ->]] := ex kw t u; rewrite /=; split; [|split].
- by move=> v; rewrite mulmxDr -!scalemxAr mulmxBr !hf scale0r subr0 scaler0 addr0.
- by rewrite -!scalemxAr mulmxBr !hf subr0 scaler0.
- by rewrite hf.
Qed.
End S.
