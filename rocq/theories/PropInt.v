(* PropInt.v : property theorems about the Python time integrators: concrete C01/C04/C05, C28,
   C30, C31, C32, C34, C35, C36, C37, C49.  Proofs in ProofsInt*.v; counterexamples and concrete
   instances in PropIntEx.v. *)
From Coq Require Import String.
From mathcomp Require Import all_ssreflect all_algebra.
From mathcomp Require Import complex.
From Verif Require Import ModelHist SpecHist ProofsHist MxBase ModelOps SpecOps ProofsOps ModelPhi.
From Verif Require Import ModelKrylov ModelDispatch ModelInt SpecInt ProofsInt ProofsInt2 ProofsInt3 ProofsInt4 ProofsInt5 ProofsInt6.
Set Implicit Arguments.
Unset Strict Implicit.
Unset Printing Implicit Defensive.
Import Order.TTheory GRing.Theory Num.Theory.
Local Open Scope ring_scope.
Local Opaque breakdown_tol norm2 phi_linop f_phi_k_pfd kiops_fixedsteps.

Section Props.
Variable F : rcfType.
Variable KW : Type.
Variable K : kernels F.
Variable n : nat.
Notation vec := 'cV[F]_n.
Notation H := (hist F vec).
Implicit Types (sys : odesys F KW n) (ssys : splitsys F KW n) (o : rbopts F).

(* C01 for the package's integrators: the i-th time is t0 + i*dt *)
Theorem C01_rosenbrock_time_grid o kw0 sys W (cb1 cb2 : option (W -> F -> vec -> W * KW)) h w y0 t0 dt N d :
  rb_new o t0 y0 = Ok h ->
  integrate_ormatex (rb_step K o kw0 sys) (@hist_accept F vec) cb1 cb2 h w y0 t0 dt N = Ok d ->
  forall i, (i <= N)%coq_nat -> List.nth_error (d_ts d) i = Some (t0 + dt *+ i).
Proof. exact: rb_grid. Qed.
Theorem C01_rk4_time_grid m sys W (cb1 cb2 : option (W -> F -> vec -> W * KW)) h w y0 t0 dt N d :
  rk_new m t0 y0 = Ok h ->
  integrate_ormatex (rk_step m sys) (@hist_accept F vec) cb1 cb2 h w y0 t0 dt N = Ok d ->
  forall i, (i <= N)%coq_nat -> List.nth_error (d_ts d) i = Some (t0 + dt *+ i).
Proof. exact: rk_grid. Qed.
Theorem C01_split_time_grid kd iom m ssys W (cb1 cb2 : option (W -> F -> vec -> W * KW)) ob w y0 t0 dt N d :
  sp_new m t0 y0 = Ok ob ->
  integrate_ormatex (sp_step K kd iom m ssys) (@sp_accept F n) cb1 cb2 ob w y0 t0 dt N = Ok d ->
  forall i, (i <= N)%coq_nat -> List.nth_error (d_ts d) i = Some (t0 + dt *+ i).
Proof. exact: sp_grid. Qed.

(* C04: after any program run on an object built with method m, reset_ic gives exactly the
   freshly built object *)
Theorem C04_rosenbrock_reset o kw0 sys t0 y0 h prior l h' t1 y1 h1 :
  rb_new o t0 y0 = Ok h -> rb_new o t1 y1 = Ok h1 ->
  urun (rb_step K o kw0 sys) (@hist_accept F vec) (@hist_reset F vec) prior h = (l, Some h') ->
  hist_reset h' t1 y1 = h1.
Proof.
move=> /rb_new_hist [ord [eo hi]] /rb_new_hist [ord' [eo' hi']].
have {eo'} eo' : ord' = ord by move: eo'; rewrite eo => -[].
move=> hrun; apply: (@hist_reset_fresh F n ord); last by rewrite -eo'.
apply: (urun_inv (I := hist_of_order ord) _ _ (hist_of_init hi) hrun).
  by move=> s dt kw s' r hs es; have [-> _] := rb_step_t es; split=> //; apply: hist_of_accept.
by move=> s t y; apply: hist_of_reset.
Qed.
Theorem C04_rk4_reset m sys t0 y0 h prior l h' t1 y1 h1 :
  rk_new m t0 y0 = Ok h -> rk_new m t1 y1 = Ok h1 ->
  urun (rk_step m sys) (@hist_accept F vec) (@hist_reset F vec) prior h = (l, Some h') ->
  hist_reset h' t1 y1 = h1.
Proof.
move=> /rk_new_hist [ord [eo hi]] /rk_new_hist [ord' [eo' hi']].
have {eo'} eo' : ord' = ord by move: eo'; rewrite eo => -[].
move=> hrun; apply: (@hist_reset_fresh F n ord); last by rewrite -eo'.
apply: (urun_inv (I := hist_of_order ord) _ _ (hist_of_init hi) hrun).
  by move=> s dt kw s' r hs es; have [-> _] := rk_step_t es; split=> //; apply: hist_of_accept.
by move=> s t y; apply: hist_of_reset.
Qed.
(* the split object keeps a stale cache entry, which no later call can observe *)
Theorem C04_split_reset kd iom m ssys t0 y0 ob prior l ob' t1 y1 ob1 later :
  sp_new m t0 y0 = Ok ob -> sp_new m t1 y1 = Ok ob1 ->
  urun (sp_step K kd iom m ssys) (@sp_accept F n) (@sp_reset F n) prior ob = (l, Some ob') ->
  (urun (sp_step K kd iom m ssys) (@sp_accept F n) (@sp_reset F n) later (sp_reset ob' t1 y1)).1 =
  (urun (sp_step K kd iom m ssys) (@sp_accept F n) (@sp_reset F n) later ob1).1.
Proof.
move=> /sp_new_hist [ord [eo [hi _]]] /sp_new_hist [ord' [eo' [hi' [d1 c1]]]].
have {eo'} eo' : ord' = ord by move: eo'; rewrite eo => -[].
rewrite {}eo' in hi'; move=> hrun.
have ho : hist_of_order ord (sp_hist ob').
  apply: (urun_inv (I := fun ob => hist_of_order ord (sp_hist ob)) _ _ (hist_of_init hi) hrun).
    by move=> s dt kw s' r hs es; have [eh _] := sp_step_t es; rewrite /= eh; split=> //; apply: hist_of_accept.
  by move=> s t y; apply: hist_of_reset.
have [] // := @urun_bisim F vec (spobj F n) KW (sp_step K kd iom m ssys) (@sp_accept F n) (@sp_reset F n)
  (@same_but_unused F n) _ _ _ later (sp_reset ob' t1 y1) ob1.
- by move=> s1 s2 dt kw; apply: unused_step.
- by move=> s1 s2 r [e1 [e2 e3]]; rewrite /same_but_unused /sp_accept /= e1.
- by move=> s1 s2 t y [e1 [e2 e3]]; rewrite /same_but_unused /sp_reset /= e1.
- by rewrite /same_but_unused /sp_reset /= d1 (hist_reset_fresh ho hi').
Qed.

(* C05: a step whose result is discarded changes nothing a later call returns.  RB and RK
   objects are literally unchanged; the split object may have refilled its cache. *)
Theorem C05_rosenbrock_discard o kw0 sys h dt kw h' s :
  rb_step K o kw0 sys h dt kw = Ok (h', s) -> h' = h.
Proof. by move=> es; have [] := rb_step_t es. Qed.
Theorem C05_rk4_discard m sys h dt kw h' s : rk_step m sys h dt kw = Ok (h', s) -> h' = h.
Proof. by move=> es; have [] := rk_step_t es. Qed.
(* split, constant L(t,u) *)
Theorem C05_split_discard kd iom m ssys t0 y0 ob prior l ob1 dt kw ob2 s later :
  (forall t u t' u', ss_fl ssys t u = ss_fl ssys t' u') ->
  sp_new m t0 y0 = Ok ob ->
  urun (sp_step K kd iom m ssys) (@sp_accept F n) (@sp_reset F n) prior ob = (l, Some ob1) ->
  sp_step K kd iom m ssys ob1 dt kw = Ok (ob2, s) ->
  (urun (sp_step K kd iom m ssys) (@sp_accept F n) (@sp_reset F n) later ob2).1 =
  (urun (sp_step K kd iom m ssys) (@sp_accept F n) (@sp_reset F n) later ob1).1.
Proof.
move=> hL /sp_new_hist [ord [eo [hi [d0 _]]]] hrun es.
have [eh _] := sp_step_t es.
case er: (split_step_routine m) => [r|e]; last by move: es; rewrite /sp_step er.
have cs ob3 dt3 kw3 ob4 s4 : cache_ok K ssys r ob3 -> sp_step K kd iom m ssys ob3 dt3 kw3 = Ok (ob4, s4) -> cache_ok K ssys r ob4.
  by rewrite /sp_step er /=; apply: cache_step.
have c1 : cache_ok K ssys r ob1.
  apply: (urun_inv (I := cache_ok K ssys r) _ _ _ hrun).
  - by move=> s3 dt3 kw3 s4 r4 h3 h4; have h5 := cs _ _ _ _ _ h3 h4; split.
  - by move=> s3 t y h3 d.
  - by move=> d; rewrite d0.
have c2 := cs _ _ _ _ _ c1 es.
have [] // := @urun_bisim F vec (spobj F n) KW (sp_step K kd iom m ssys) (@sp_accept F n) (@sp_reset F n)
  (sp_rel K ssys r) _ _ _ later ob2 ob1.
- by move=> s1 s2 dt2 kw2; apply: sp_rel_step.
- by move=> s1 s2 r0 [e1 [h1 h2]]; rewrite /sp_rel /sp_accept /= e1.
- by move=> s1 s2 t y [e1 [h1 h2]]; rewrite /sp_rel /sp_reset /= e1.
Qed.
(* split, the Krylov (not dense) methods, any L: the object is unchanged *)
Theorem C05_split_krylov_discard kd iom m ssys ob dt kw ob' s :
  (m = "exp1" \/ m = "exp2" \/ m = "exp3")%string ->
  sp_step K kd iom m ssys ob dt kw = Ok (ob', s) -> ob' = ob.
Proof.
by case=> [->|[->|->]]; rewrite /sp_step => hb; have [r [[<-] {}hb]] := rbindP hb; have [x [_ [<-]]] := rbindP hb.
Qed.

(* C32: with constant L the cached dense integrator returns what an object without a cache would *)
Theorem C32_cache_transparent kd iom m ssys t0 y0 ob prior l ob1 dt kw :
  (forall t u t' u', ss_fl ssys t u = ss_fl ssys t' u') ->
  sp_new m t0 y0 = Ok ob ->
  urun (sp_step K kd iom m ssys) (@sp_accept F n) (@sp_reset F n) prior ob = (l, Some ob1) ->
  outcome (sp_step K kd iom m ssys ob1 dt kw) =
  outcome (sp_step K kd iom m ssys (SpObj (sp_hist ob1) None None) dt kw).
Proof.
move=> hL /sp_new_hist [ord [eo [hi [d0 _]]]] hrun.
case er: (split_step_routine m) => [r|e]; last by rewrite /sp_step er.
have c1 : cache_ok K ssys r ob1.
  apply: (urun_inv (I := cache_ok K ssys r) _ _ _ hrun).
  - move=> s3 dt3 kw3 s4 r4 h3; rewrite /sp_step er /= => h4.
    by have h5 := cache_step h3 h4; split.
  - by move=> s3 t y h3 d.
  - by move=> d; rewrite d0.
have := @cache_transparent F KW K n kd iom ssys hL r ob1 dt c1.
rewrite /sp_step er /= /fresh_of; case: (sp_run _ _ _ _ _ _ _) => [[a s]|e];
  by case: (sp_run _ _ _ _ _ _ _) => [[b s']|e'] // ->.
Qed.
(* C32: for any L, the matrices in use after a dense step belong to the step size just used and
   to an operator L(t,u) returned by the system *)
Theorem C32_cache_matches_step kd iom m r ssys t0 y0 ob prior l ob1 dt kw ob2 s :
  split_step_routine m = Ok r -> (r = R_exp1_dense \/ r = R_exp2_dense \/ r = R_exp3_dense) ->
  sp_new m t0 y0 = Ok ob ->
  urun (sp_step K kd iom m ssys) (@sp_accept F n) (@sp_reset F n) prior ob = (l, Some ob1) ->
  sp_step K kd iom m ssys ob1 dt kw = Ok (ob2, s) ->
  sp_dt ob2 = Some dt /\
  (dt != 0 -> exists cks t u L dict, cks_of F r = Some cks /\
     sp_cache ob2 = Some (ss_fl ssys t u, dict) /\ lo_dense (ss_fl ssys t u) = Ok L /\
     fill_dict K dt L cks [::] = Ok dict).
Proof.
move=> er hr /sp_new_hist [ord [eo [hi [d0 _]]]] hrun es.
have c1 : cache_ok K ssys r ob1.
  apply: (urun_inv (I := cache_ok K ssys r) _ _ _ hrun).
  - move=> s3 dt3 kw3 s4 r4 h3; rewrite /sp_step er /= => h4.
    by have h5 := cache_step h3 h4; split.
  - by move=> s3 t y h3 d.
  - by move=> d; rewrite d0.
move: es; rewrite /sp_step er /= => es; have c2 := cache_step c1 es.
have dt2 : sp_dt ob2 = Some dt.
  have dense cks f : sp_dense K ssys ob1 dt cks f = Ok (ob2, s) -> sp_dt ob2 = Some dt.
    rewrite /sp_dense => hb; have [a [_ {}hb]] := rbindP hb; have [oc [e0 {}hb]] := rbindP hb.
    have [z [_ [<- _]]] := rbindP hb; move: e0; rewrite /update_dense_phiLs; case: ifP => hit.
      case: (sp_cache ob1) => // c [<-] /=.
      by move: hit; rewrite /cache_hit; case: (sp_dt ob1) => // d /andP [_ /eqP ->].
    by rbs; case=> <-.
  by case: hr es => [->|[->|->]]; apply: dense.
split=> // dt0; have [cks hc] : exists cks, cks_of F r = Some cks by case: hr => [->|[->|->]]; eexists.
have [t [u [L [dict h4]]]] := c2 _ dt2 dt0 _ hc; by exists cks, t, u, L, dict.
Qed.

(* C28: the nonlinear remainder vanishes on affine systems, at every point *)
Theorem C28_remainder_zero sys A b g h t y kw tr yr :
  affine_system sys A b g -> current h t y ->
  let J := os_fjac sys kw t y in
  remf sys h tr yr (jl_frhs J) (jl_op J) (jl_fdt J) = Ok 0.
Proof.
move=> aff hc J; have [_ /(_ kw t y) [hJ [hdt hf]]] := aff.
by rewrite /J hf hdt (aff_remf aff tr yr kw hc).
Qed.
(* C28: hence exprb3, pexprb4 and epi3 give the Rosenbrock-Euler step (the time derivative must be
   zero or pass the tolerance gate; epi3 uses the kiops evaluation of that step after start-up) *)
Theorem C28_methods_reduce o kw0 sys A b g h dt kw :
  affine_system sys A b g -> (0 < o_kdim o)%N -> reachable h ->
  g = 0 \/ (0 <= o_tol o /\ ~ maxnorm_le g (o_tol o)) ->
  let step m := rb_step K (with_method o m) kw0 sys h dt kw in
  step "exprb3"%string = step "exprb2"%string /\
  step "pexprb4"%string = step "exprb2"%string /\
  step "epi3"%string = (if hist_has_prev h then step "epi2"%string else step "exprb2"%string).
Proof.
move=> aff kd hr hg /=.
have {}hg : g = 0 \/ gate_open (o_tol o) g by case: hg => [->|[h1 h2]]; [left|right; apply: gate_openP].
split; [|split]; rewrite /rb_step /=.
- by rewrite (@aff_exprb3 F KW K n sys A b g aff (with_method o "exprb3")).
- by rewrite (@aff_pexprb4 F KW K n sys A b g aff (with_method o "pexprb4")).
- case: ifP => hp /=.
    by rewrite (@aff_epi3 F KW K n sys A b g aff (with_method o "epi3")).
  by rewrite (@aff_exprb3 F KW K n sys A b g aff (with_method o "epi3")).
Qed.

(* C30: a run started at an equilibrium stays there *)
Theorem C30_rosenbrock_equilibrium o kw0 sys y W (cb1 cb2 : option (W -> F -> vec -> W * KW)) h w t0 dt N d :
  o_method o <> "exp_pfd"%string -> o_method o <> "exp_pfd_rs"%string ->
  equilibrium sys y -> rs_zero K -> rb_new o t0 y = Ok h ->
  integrate_ormatex (rb_step K o kw0 sys) (@hist_accept F vec) cb1 cb2 h w y t0 dt N = Ok d ->
  forall y', List.In y' (d_ys d) -> y' = y.
Proof. exact: eq_rb_traj. Qed.
Theorem C30_rk4_equilibrium m sys y W (cb1 cb2 : option (W -> F -> vec -> W * KW)) h w t0 dt N d :
  equilibrium sys y -> rk_new m t0 y = Ok h ->
  integrate_ormatex (rk_step m sys) (@hist_accept F vec) cb1 cb2 h w y t0 dt N = Ok d ->
  forall y', List.In y' (d_ys d) -> y' = y.
Proof. exact: eq_rk_traj. Qed.
Theorem C30_split_equilibrium kd iom m ssys y W (cb1 cb2 : option (W -> F -> vec -> W * KW)) ob w t0 dt N d :
  (forall kw t, os_frhs (ss_sys ssys) kw t y = 0) -> (forall t u, is_linear (lo_mv (ss_fl ssys t u))) ->
  sp_new m t0 y = Ok ob ->
  integrate_ormatex (sp_step K kd iom m ssys) (@sp_accept F n) cb1 cb2 ob w y t0 dt N = Ok d ->
  forall y', List.In y' (d_ys d) -> y' = y.
Proof. exact: eq_sp_traj. Qed.
(* C30, single step from any reachable history (the method may have visited other states) *)
Theorem C30_rosenbrock_step o kw0 sys y h t dt kw h' s :
  o_method o <> "exp_pfd"%string -> o_method o <> "exp_pfd_rs"%string -> o_method o <> "epi3"%string ->
  equilibrium sys y -> rs_zero K -> current h t y ->
  rb_step K o kw0 sys h dt kw = Ok (h', s) -> sr_y s = y.
Proof.
move=> n1 n2 n3 eq rz hc; rewrite /rb_step => hb; have [r [er {}hb]] := rbindP hb; have [x [ex [_ <-]]] := rbindP hb.
apply: (eq_rb_run eq (routine_rosenbrock n1 n2 er) hc _ rz ex) => e3; move: er; rewrite e3 => er.
exfalso; move: er; rewrite /rb_step_routine; do 4!(case: ifP => _ //).
case: (String.eqb_spec _ _) => // _; do 3!(case: ifP => _ //); by do 2!(case: ifP => _ //).
Qed.

(* C31: linear invariants along whole runs *)
Theorem C31_rosenbrock_invariant o kw0 sys (w : 'rV[F]_n) W (cb1 cb2 : option (W -> F -> vec -> W * KW)) h wd t0 y0 dt N d :
  o_method o <> "exp_pfd"%string -> o_method o <> "exp_pfd_rs"%string ->
  rhs_invariant sys w -> exact_jacobian sys \/ fd_jacobian sys ->
  (forall kw t u, dense_ok (jl_op (os_fjac sys kw t u))) ->
  code_dense K -> rs_keeps K w -> rb_new o t0 y0 = Ok h ->
  integrate_ormatex (rb_step K o kw0 sys) (@hist_accept F vec) cb1 cb2 h wd y0 t0 dt N = Ok d ->
  forall y, List.In y (d_ys d) -> w *m y = w *m y0.
Proof.
move=> n1 n2 hf hJ hd hc hr hn; apply: inv_rb_traj hn => //.
by case: hJ => hJ; [apply: exact_inv | apply: fd_inv].
Qed.
Theorem C31_rk4_invariant m sys (w : 'rV[F]_n) W (cb1 cb2 : option (W -> F -> vec -> W * KW)) h wd t0 y0 dt N d :
  rhs_invariant sys w -> rk_new m t0 y0 = Ok h ->
  integrate_ormatex (rk_step m sys) (@hist_accept F vec) cb1 cb2 h wd y0 t0 dt N = Ok d ->
  forall y, List.In y (d_ys d) -> w *m y = w *m y0.
Proof. exact: inv_rk_traj. Qed.
Theorem C31_split_invariant kd iom m ssys (w : 'rV[F]_n) W (cb1 cb2 : option (W -> F -> vec -> W * KW)) ob wd t0 y0 dt N d :
  rhs_invariant (ss_sys ssys) w -> (forall t u v, w *m lo_mv (ss_fl ssys t u) v = 0) ->
  (forall t u, dense_ok (ss_fl ssys t u)) -> code_dense K -> sp_new m t0 y0 = Ok ob ->
  integrate_ormatex (sp_step K kd iom m ssys) (@sp_accept F n) cb1 cb2 ob wd y0 t0 dt N = Ok d ->
  forall y, List.In y (d_ys d) -> w *m y = w *m y0.
Proof. exact: inv_sp_traj. Qed.

(* C34 *)
Theorem C34_rk4_quadrature sys (p P : 'I_n -> {poly F}) h t y dt :
  (forall kw t u i, os_frhs sys kw t u i 0 = (p i).[t]) -> (forall i, (size (p i) <= 4)%N) ->
  (forall i, (P i)^`() = p i) -> current h t y ->
  exists s, rk_step "rk4" sys h dt None = Ok (h, s) /\
    sr_t s = t + dt /\ forall i, sr_y s i 0 = y i 0 + ((P i).[t + dt] - (P i).[t]).
Proof.
move=> hf sp hP hc; rewrite /rk_step /= (rk4_cubic dt hf sp hP hc) /=; eexists; split; first by [].
by rewrite /= (current_t hc); split=> // i; rewrite mxE.
Qed.
Theorem C34_rk4_taylor sys (A : 'M[F]_n) h t y dt :
  (forall kw t u, os_frhs sys kw t u = A *m u) -> current h t y ->
  exists s, rk_step "rk4" sys h dt None = Ok (h, s) /\
    sr_y s = (\sum_(i < 5) (i`!%:R)^-1 *: mxpow (dt *: A) i) *m y.
Proof.
by move=> hf hc; rewrite /rk_step /= (rk4_taylor dt hf hc) /=; eexists; split.
Qed.

(* C35: epi3 behaves as exprb3 exactly when the log of accepted points has a single entry;
   afterwards the step is computed from the newest two entries only *)
Theorem C35_epi3_startup o kw0 sys order t0 y0 h0 ops dt kw :
  hist_init order t0 y0 = Ok h0 -> (1 < order)%coq_nat ->
  let h := List.fold_left (@hist_do F vec) ops h0 in
  accepted_log [:: (t0, y0)] ops = [:: (h_t h, List.hd y0 (h_ys h))] ->
  rb_step K (with_method o "epi3") kw0 sys h dt kw = rb_step K (with_method o "exprb3") kw0 sys h dt kw.
Proof.
move=> hi ord h hl; rewrite /rb_step /=.
have -> // : hist_has_prev h = false.
have [hr _] := represents_init hi; have [_ [_ [_ [hys _]]]] := represents_ops ops hr.
by rewrite /hist_has_prev hys hl /newest /=; case: (h_order _) => [|[|k]].
Qed.
Theorem C35_epi3_uses_previous o kw0 sys order t0 y0 h0 ops dt kw log tp yp t y :
  hist_init order t0 y0 = Ok h0 -> (1 < order)%coq_nat ->
  let h := List.fold_left (@hist_do F vec) ops h0 in
  accepted_log [:: (t0, y0)] ops = List.app log [:: (tp, yp); (t, y)] ->
  let J := os_fjac sys (Some (odflt kw0 kw)) t y in
  let f := os_frhs sys None in
  (* remainder at the previous point, linearised at the current one *)
  let rn := f tp yp - jl_frhs J - lo_mv (jl_op J) (yp - y) - (tp - t) *: jl_fdt J in
  rb_step K (with_method o "epi3") kw0 sys h dt kw =
  rbind (kiops_fixedsteps (k_expm K) (k_expk K) (jl_op J) dt
           [:: 0; dt *: jl_frhs J; (dt * (2%:R / 3%:R)) *: rn + dt ^+ 2 *: jl_fdt J] (o_kdim o) (o_iom o))
        (fun u => Ok (h, mkStep (t + dt) dt (y + u) (-1))).
Proof.
move=> hi ord h hl J f rn; rewrite /rb_step /=.
have [hr ho] := represents_init hi; have [_ [_ [hts [hys ht]]]] := represents_ops ops hr.
rewrite -/h in hts hys ht.
have oh : h_order h = order.
  have [_ [_ [_ [_]]]] := history_window ops hi; by rewrite -/h.
have [k ek] : exists k, order = k.+2 by move: ord; case: (order) => [|[|k]] /ssrnat.ltP //; exists k.
rewrite oh ek hl /newest !List.rev_app_distr /= in hts hys.
rewrite hl List.rev_app_distr /= in ht.
have -> : hist_has_prev h by rewrite /hist_has_prev hys.
case: ht => ht; rewrite /= /step_epi3 /hist_y /hist_tm hys hts /= ht -/J /remf /hist_y /hist_tm hys hts /= -/rn.
by case: (kiops_fixedsteps _ _ _ _ _ _ _) => [u|e] //=; rewrite /mkres ht.
Qed.

(* C36, positive part: with the parameters kw, a step of these methods depends on the system only
   through Jacobian objects built with kw *)
Theorem C36_parameters_reach o kw0 sys1 sys2 h dt kw :
  (o_method o = "exprb2" \/ o_method o = "epi2" \/ o_method o = "exprb2_pfd" \/ o_method o = "exp_pfd")%string ->
  (forall t u, os_fjac sys1 (Some kw) t u = os_fjac sys2 (Some kw) t u) ->
  rb_step K o kw0 sys1 h dt (Some kw) = rb_step K o kw0 sys2 h dt (Some kw).
Proof.
move=> hm e; rewrite /rb_step.
have [r [-> hr]] : exists r, rb_step_routine (o_rust o) (hist_has_prev h) (o_method o) = Ok r /\ kw_routine r.
  by case: hm => [->|[->|[->|->]]]; eexists; split; try by [].
by cbn [rbind odflt oapp]; rewrite (kw_only K o h dt hr e).
Qed.
(* C36 is false of the other methods: the parameters are ignored altogether *)
Theorem C36_parameters_ignored_refuted o kw0 sys h dt kw :
  (o_method o = "exprb2_dense" \/ o_method o = "exprb2_pfd_rs" \/ o_method o = "exp_pfd_rs")%string ->
  rb_step K o kw0 sys h dt (Some kw) = rb_step K o kw0 sys h dt None.
Proof. by move=> hm; rewrite /rb_step; case: hm => [->|[->|->]]; case: (o_rust o). Qed.
Theorem C36_split_ignores_parameters_refuted kd iom m ssys ob dt kw :
  sp_step K kd iom m ssys ob dt kw = sp_step K kd iom m ssys ob dt None.
Proof. by []. Qed.

(* C37: the gate.  Closed: df/dt has no influence; open: same step as with tolerance 0; the
   remaining methods do not read the tolerance. *)
Theorem C37_gate_closed o kw0 sys h t y dt kw :
  (o_method o = "exprb2" \/ o_method o = "exprb3" \/ o_method o = "pexprb4" \/ o_method o = "exprb2_pfd")%string ->
  current h t y ->
  o_tol o < 0 \/ maxnorm_le (jl_fdt (os_fjac sys (Some (odflt kw0 kw)) t y)) (o_tol o) ->
  rb_step K o kw0 sys h dt kw = rb_step K o kw0 (without_fdt sys) h dt kw.
Proof.
move=> hm hc hg; rewrite /rb_step.
have [r [-> [hr ek]]] : exists r, rb_step_routine (o_rust o) (hist_has_prev h) (o_method o) = Ok r /\
   gated r /\ kw_of r (odflt kw0 kw) = Some (odflt kw0 kw).
  by case: hm => [->|[->|[->|->]]]; eexists; split; try by [].
cbn [rbind]; rewrite (@gate_closed_run F KW K n o r sys h t y dt (odflt kw0 kw) hr hc) //.
by rewrite ek; apply: gate_closedP.
Qed.
Theorem C37_gate_open o kw0 sys h t y dt kw :
  (o_method o = "exprb2" \/ o_method o = "exprb3" \/ o_method o = "pexprb4" \/ o_method o = "exprb2_pfd")%string ->
  current h t y -> 0 <= o_tol o ->
  ~ maxnorm_le (jl_fdt (os_fjac sys (Some (odflt kw0 kw)) t y)) (o_tol o) ->
  rb_step K o kw0 sys h dt kw = rb_step K (with_tol o 0) kw0 sys h dt kw.
Proof.
move=> hm hc t0 hg; rewrite /rb_step.
have [r [er [hr ek]]] : exists r, rb_step_routine (o_rust o) (hist_has_prev h) (o_method o) = Ok r /\
   gated r /\ kw_of r (odflt kw0 kw) = Some (odflt kw0 kw).
  by case: hm => [->|[->|[->|->]]]; eexists; split; try by [].
rewrite [o_rust (with_tol _ _)]/= [o_method (with_tol _ _)]/= er.
cbn [rbind]; rewrite (@gate_open_run F KW K n o r sys h t y dt (odflt kw0 kw) hr hc) //.
by rewrite ek; apply: gate_openP.
Qed.
Theorem C37_no_gate o kw0 sys h tol dt kw :
  (o_method o = "epi2" \/ o_method o = "epi3" /\ hist_has_prev h \/ o_method o = "exprb2_dense" \/
   o_method o = "exp_pfd")%string ->
  rb_step K o kw0 sys h dt kw = rb_step K (with_tol o tol) kw0 sys h dt kw.
Proof.
move=> hm; rewrite /rb_step [o_rust (with_tol _ _)]/= [o_method (with_tol _ _)]/=.
have [r [-> hr]] : exists r, rb_step_routine (o_rust o) (hist_has_prev h) (o_method o) = Ok r /\ ~~ gated r.
  by case: hm => [->|[[-> ->]|[->|->]]]; eexists; split; try by [].
by cbn [rbind]; rewrite (tol_unused K o tol).
Qed.
(* what the added term is, for exprb2: dt^2 phi_2(dt J) df/dt as evaluated by phi_linop *)
Theorem C37_added_term o kw0 sys h t y dt kw :
  o_method o = "exprb2"%string -> current h t y -> o_tol o = 0 ->
  let J := os_fjac sys (Some (odflt kw0 kw)) t y in
  let phil v k := phi_linop (k_expm K) (k_expk K) (lo_mv (jl_op J)) dt v k (o_kdim o) (o_iom o) in
  outcome (rb_step K o kw0 sys h dt kw) =
  rbind (if jl_fdt J == 0 then Ok 0 else phil (jl_fdt J) 2%N) (fun p2 =>
  rbind (phil (dt *: jl_frhs J) 1%N) (fun p1 =>
  Ok (mkStep (t + dt) dt (y + p1 + dt ^+ 2 *: p2) (-1)))).
Proof.
move=> hm hc ho J phil; rewrite /rb_step hm /= /step_exprb2 (current_y hc) [rbind (Ok y) _]/= (current_t hc) -/J.
have [j0|j0] := eqVneq (jl_fdt J) 0.
  rewrite phi2v_closed ?j0 ?gate_zero // [rbind (Ok _) _]/= /phil.
  by case: (phi_linop _ _ _ _ _ _ _ _) => [p1|e] //=; rewrite /mkres (current_t hc) scaler0.
rewrite phi2v_open; last first.
  rewrite ho /gate_open lexx /= ltNge; apply/negP => /vinf_le; move=> /(_ (lexx 0)) h0.
  case/eqP: j0; apply/matrixP => i j; rewrite (ord1 j) mxE; apply/eqP; rewrite -normr_le0; exact: h0.
rewrite !mul1r expr1n mul1r /phil.
case: (phi_linop _ _ _ _ (jl_fdt J) _ _ _) => [p2|e] //; rewrite [rbind (rbind _ _) _]/= [rbind (Ok p2) _]/=.
by case: (phi_linop _ _ _ _ _ _ _ _) => [p1|e] //=; rewrite /mkres (current_t hc).
Qed.

(* C49: steps of a constructed object do not raise (positive Krylov dimension, a Jacobian that
   can be made dense, a dense kernel that accepts k = 2) *)
Theorem C49_rosenbrock_step_total o kw0 sys t0 y0 h0 ops dt kw :
  rb_new o t0 y0 = Ok h0 -> (0 < o_kdim o)%N ->
  (forall kw t u, exists A, lo_dense (jl_op (os_fjac sys kw t u)) = Ok A) ->
  (forall z : 'M[F]_n, exists p, k_sqall K z 2 = Some p) ->
  let h := List.fold_left (@hist_do F vec) ops h0 in
  exists s, rb_step K o kw0 sys h dt kw = Ok (h, s).
Proof.
move=> hn kd hd hq h; have [ord [eo hi]] := rb_new_hist hn.
have hr : reachable h by exists ord, t0, y0, h0, ops.
have [r er] : exists r, rb_step_routine (o_rust o) (hist_has_prev h) (o_method o) = Ok r.
  move: eo; rewrite /rb_ctor /rb_step_routine; case: ifP => // hm; move: hm; rewrite /mem /keys /rb_methods /=.
  move: (o_method o) => m; have [-> _ _|_] := String.eqb_spec m "exprb2"; first by eexists.
  have [-> _ _|_] := String.eqb_spec m "exprb3"; first by eexists.
  have [-> _ _|_] := String.eqb_spec m "pexprb4"; first by eexists.
  have [-> _ _|_] := String.eqb_spec m "epi2"; first by eexists.
  have [-> _ _|_] := String.eqb_spec m "epi3"; first by case: (hist_has_prev h); eexists.
  have [-> _ _|_] := String.eqb_spec m "exprb2_dense"; first by eexists.
  have [-> _ _|_] := String.eqb_spec m "exprb2_pfd"; first by eexists.
  have [-> _ _|_] := String.eqb_spec m "exp_pfd"; first by eexists.
  have [-> _|_] := String.eqb_spec m "exprb2_pfd_rs"; first by case: (o_rust o) => //; eexists.
  by have [-> _|_] := String.eqb_spec m "exp_pfd_rs"; first by case: (o_rust o) => //; eexists.
have [s es] := rb_run_ok dt (odflt kw0 kw) hr kd hd hq er.
by exists s; rewrite /rb_step er; cbn [rbind]; rewrite es.
Qed.
End Props.
