(* ModelInt.v : one time step of the Python integrators (ormatex_py/ode_exp.py ExpRBIntegrator and
   ExpSplitIntegrator, ormatex_py/ode_explicit.py RKIntegrator), in exact arithmetic over a real
   closed field.  Definitions only.  jit decorators, prints, dtypes and reshapes are not modelled.
   A step that raises is [Raise e]; partial mutations of the object before an exception are not
   kept (the driver aborts the run on an exception). *)
From Coq Require Import String.
From mathcomp Require Import all_ssreflect all_algebra.
From mathcomp Require Import complex.
From Verif Require Import ModelHist MxBase ModelOps ModelPhi ModelKrylov ModelDispatch.
Set Implicit Arguments.
Unset Strict Implicit.
Unset Printing Implicit Defensive.
Import Order.TTheory GRing.Theory Num.Theory.
Local Open Scope ring_scope.

Notation "x <- a ;; b" := (rbind a (fun x => b)) (at level 100, a at next level, right associativity).

Section Int.
Variable F : rcfType.
(* values of the dictionary returned by callback_before_step *)
Variable KW : Type.

(* ode_sys.py:362-423 OdeSys.  frhs(t,u,**kwargs) and fjac(t,u,**kwargs): [None] is a call without
   keyword arguments, [Some kw] a call with the keyword frhs_kwargs=kw, which is the only
   keyword the integrators ever pass. *)
Record odesys (n : nat) := OdeSys {
  os_frhs : option KW -> rhs_fun F n;
  os_fjac : option KW -> F -> 'cV[F]_n -> jaclop F n }.

(* ode_sys.py:426-475 OdeSplitSys: additionally fl(t,u); the integrators call it without
   keyword arguments *)
Record splitsys (n : nat) := SplitSys {
  ss_sys : odesys n;
  ss_fl : F -> 'cV[F]_n -> linop F n }.

(* ode_sys.py:412-418: the default fjac of OdeSys hands its keyword arguments, as a dictionary,
   to AdJacLinOp, which calls frhs with that dictionary expanded; so the user's frhs sees the
   same keyword frhs_kwargs.  jvp is the derivative computed by jax.linearize (oracle). *)
Definition default_fjac n (frhs : option KW -> rhs_fun F n)
    (jvp : option KW -> F -> 'cV[F]_n -> jvp_fun F n) : option KW -> F -> 'cV[F]_n -> jaclop F n :=
  fun kw t u => AdJacLinOp t u (frhs kw) (jvp kw t u).

(* external numerical routines and dense kernels, see ModelPhi.v / ModelPhiR.v:
   expm (jax.scipy.linalg.expm), f_phi_k_sq(.,k=0), f_phi_k_sq_all, and the Rust evaluator
   DensePhikvEvalRs.eval(J, dt, v, k) (src/ormatex_rspy.rs:381-415) *)
Record kernels := Kernels {
  k_expm : forall n, 'M[F]_n -> 'M[F]_n;
  k_expk : forall n, 'M[F]_n -> 'M[F]_n;
  k_sqall : forall n, 'M[F]_n -> nat -> option (seq 'M[F]_n);
  k_rs : forall n, 'M[F]_n -> F -> 'cV[F]_n -> nat -> 'cV[F]_n }.

(* ode_exp.py:43-66 options of ExpRBIntegrator; pfd_tab is pfd_dict[pfd_method] *)
Record rbopts := RbOpts {
  o_rust : bool;
  o_method : string;
  o_pfd : seq (F[i] * F[i]) * F;
  o_kdim : nat;
  o_iom : nat;
  o_tol : F }.

Section Steps.
Variable K : kernels.
Variable n : nat.
Notation vec := 'cV[F]_n.
Notation H := (hist F vec).
Notation SR := (step_result F vec).

(* norm(v, ord=inf) of a vector *)
Definition vinf (v : vec) : F := \big[Num.max/0]_i `|v i 0|.

(* ode_sys.py:566-577 IntegrateSys._remf.  The keyword arguments of the step are not passed on. *)
Definition remf (sys : odesys n) (h : H) (tr : F) (yr : vec) (frhs_yt : vec)
    (jac : linop F n) (v : vec) : result vec :=
  t <- hist_tm h 0;;
  yt <- hist_y h 0;;
  let dt := tr - t in
  let frhs_yr := os_frhs sys None tr yr in
  let jac_yd := lo_mv jac (yr - yt) in
  Ok (frhs_yr - frhs_yt - jac_yd - dt *: v).

Section RB.
Variable o : rbopts.
Let phil (lop : linop F n) dt v k := phi_linop (k_expm K) (k_expk K) (lo_mv lop) dt v k (o_kdim o) (o_iom o).
Let kiops (lop : linop F n) dt vb := kiops_fixedsteps (k_expm K) (k_expk K) lop dt vb (o_kdim o) (o_iom o).

(* ode_exp.py:71-90 _phi2v_nonauto; the pair of floats (0., 0.) is the pair of zero vectors *)
Definition phi2v_nonauto (J : jaclop F n) (dt c : F) : result (vec * vec) :=
  if 0 <= o_tol o then
    let fytt := jl_fdt J in
    if o_tol o < vinf fytt then
      w <- phil (jl_op J) (c * dt) fytt 2;;
      Ok ((c ^+ 2 * dt ^+ 2) *: w, fytt)
    else Ok (0, 0)
  else Ok (0, 0).

(* y_err = -1. in every method *)
Definition mkres (h : H) (dt : F) (y : vec) : SR := mkStep (h_t h + dt) dt y (-1).

(* ode_exp.py:92-110 _step_exprb2 *)
Definition step_exprb2 (sys : odesys n) (h : H) (dt : F) (kw : KW) : result SR :=
  let t := h_t h in
  yt <- hist_y h 0;;
  let J := os_fjac sys (Some kw) t yt in
  let fyt := jl_frhs J in
  p2 <- phi2v_nonauto J dt 1;;
  w <- phil (jl_op J) dt (dt *: fyt) 1;;
  Ok (mkres h dt (yt + w + p2.1)).

(* ode_exp.py:114-139 _step_epi2 *)
Definition step_epi2 (sys : odesys n) (h : H) (dt : F) (kw : KW) : result SR :=
  let t := h_t h in
  yt <- hist_y h 0;;
  let J := os_fjac sys (Some kw) t yt in
  let fyt := jl_frhs J in
  let fytt := jl_fdt J in
  upd <- kiops (jl_op J) dt [:: 0; dt *: fyt; dt ^+ 2 *: fytt];;
  Ok (mkres h dt (yt + upd)).

(* ode_exp.py:141-172 _step_epi3 *)
Definition step_epi3 (sys : odesys n) (h : H) (dt : F) (kw : KW) : result SR :=
  let t := h_t h in
  yt <- hist_y h 0;;
  yp <- hist_y h 1;;
  tp <- hist_tm h 1;;
  let J := os_fjac sys (Some kw) t yt in
  let fyt := jl_frhs J in
  let fytt := jl_fdt J in
  rn <- remf sys h tp yp fyt (jl_op J) fytt;;
  upd <- kiops (jl_op J) dt [:: 0; dt *: fyt; (dt * (2%:R / 3%:R)) *: rn + dt ^+ 2 *: fytt];;
  Ok (mkres h dt (yt + upd)).

(* ode_exp.py:174-209 _step_exprb3 *)
Definition step_exprb3 (sys : odesys n) (h : H) (dt : F) (kw : KW) : result SR :=
  let t := h_t h in
  yt <- hist_y h 0;;
  let J := os_fjac sys (Some kw) t yt in
  let fyt := jl_frhs J in
  p2 <- phi2v_nonauto J dt 1;;
  let t_2 := t + dt in
  w <- phil (jl_op J) dt fyt 1;;
  let y_2 := yt + dt *: w + p2.1 in
  r_2 <- remf sys h t_2 y_2 fyt (jl_op J) p2.2;;
  w3 <- phil (jl_op J) dt r_2 3;;
  Ok (mkres h dt (y_2 + (2%:R * dt) *: w3)).

(* ode_exp.py:236-255, the two closures f_u_n2 (c = 1/2, result r) and f_u_n3 (c = 1, result
   y, r); here both return (y, r) *)
Definition p4_stage (sys : odesys n) (h : H) (dt : F) (J : jaclop F n) (yt fyt : vec) (c : F)
  : result (vec * vec) :=
  let t := h_t h in
  let t_c := t + c * dt in
  p2 <- phi2v_nonauto J dt c;;
  w <- phil (jl_op J) (c * dt) fyt 1;;
  let y_c := yt + (c * dt) *: w + p2.1 in
  r_c <- remf sys h t_c y_c fyt (jl_op J) p2.2;;
  Ok (y_c, r_c).
(* ode_exp.py:211-276 _step_pexprb4, with the two pool tasks run one after the other; the
   arbitrary interleavings are in ModelPool.v *)
Definition p4_final (h : H) (dt : F) (J : jaclop F n) (r_2 y_3 r_3 : vec) : result SR :=
  b <- kiops (jl_op J) dt
    [:: 0; 0; 0; dt *: (16%:R *: r_2 - 2%:R *: r_3); dt *: (12%:R *: r_3 - 48%:R *: r_2)];;
  Ok (mkres h dt (y_3 + b)).
Definition step_pexprb4 (sys : odesys n) (h : H) (dt : F) (kw : KW) : result SR :=
  let t := h_t h in
  yt <- hist_y h 0;;
  let J := os_fjac sys (Some kw) t yt in
  let fyt := jl_frhs J in
  s2 <- p4_stage sys h dt J yt fyt (2%:R)^-1;;
  s3 <- p4_stage sys h dt J yt fyt 1;;
  p4_final h dt J s2.2 s3.1 s3.2.

(* ode_exp.py:278-305 _step_exprb2_jit / _step_exprb2_dense: fjac without keyword; a failed
   assertion of f_phi_k_sq_all is AssertionError (it cannot happen for k = 2) *)
Definition step_exprb2_dense (sys : odesys n) (h : H) (dt : F) : result SR :=
  let t := h_t h in
  yt <- hist_y h 0;;
  let J := os_fjac sys None t yt in
  let fyt := jl_frhs J in
  let fytt := jl_fdt J in
  Jd <- lo_dense (jl_op J);;
  if k_sqall K (dt *: Jd) 2 is Some phis then
    let phi1J := nth 0 phis 1 in
    let phi2J := nth 0 phis 2 in
    Ok (mkres h dt (yt + dt *: (phi1J *m fyt + dt *: (phi2J *m fytt))))
  else Raise AssertionError.

(* ode_exp.py:307-336 _step_exprb2_pfd *)
Definition step_exprb2_pfd (sys : odesys n) (h : H) (dt : F) (kw : KW) : result SR :=
  let t := h_t h in
  yt <- hist_y h 0;;
  let J := os_fjac sys (Some kw) t yt in
  let fyt := jl_frhs J in
  Jd <- lo_dense (jl_op J);;
  let fytt := jl_fdt J in
  let phi2J_fytt :=
    if (0 <= o_tol o) && (o_tol o < vinf fytt) then f_phi_k_pfd (o_pfd o) (dt *: Jd) fytt 2 else 0 in
  let phi1J_fyt := f_phi_k_pfd (o_pfd o) (dt *: Jd) fyt 1 in
  Ok (mkres h dt (yt + dt *: (phi1J_fyt + dt *: phi2J_fytt))).

(* ode_exp.py:338-367 _step_exprb2_pfd_rs *)
Definition step_exprb2_pfd_rs (sys : odesys n) (h : H) (dt : F) : result SR :=
  let t := h_t h in
  yt <- hist_y h 0;;
  let J := os_fjac sys None t yt in
  let fyt := jl_frhs J in
  Jd <- lo_dense (jl_op J);;
  let fytt := jl_fdt J in
  let phi2J_fytt :=
    if (0 <= o_tol o) && (o_tol o < vinf fytt) then k_rs K Jd dt fytt 2 else 0 in
  let phi1J_fyt := k_rs K Jd dt fyt 1 in
  Ok (mkres h dt (yt + dt *: (phi1J_fyt + dt *: phi2J_fytt))).

(* ode_exp.py:369-384 _step_exp_pfd_rs *)
Definition step_exp_pfd_rs (sys : odesys n) (h : H) (dt : F) : result SR :=
  let t := h_t h in
  yt <- hist_y h 0;;
  Jd <- lo_dense (jl_op (os_fjac sys None t yt));;
  Ok (mkres h dt (k_rs K Jd dt yt 0)).

(* ode_exp.py:385-400 _step_exp_pfd *)
Definition step_exp_pfd (sys : odesys n) (h : H) (dt : F) (kw : KW) : result SR :=
  let t := h_t h in
  yt <- hist_y h 0;;
  Jd <- lo_dense (jl_op (os_fjac sys (Some kw) t yt));;
  Ok (mkres h dt (f_phi_k_pfd (o_pfd o) (dt *: Jd) yt 0)).

(* ode_exp.py:402-427 step: the routine chosen by rb_step_routine (ModelDispatch.v) *)
Definition rb_run (r : routine) (sys : odesys n) (h : H) (dt : F) (kw : KW) : result SR :=
  match r with
  | R_exprb2 => step_exprb2 sys h dt kw
  | R_exprb3 => step_exprb3 sys h dt kw
  | R_pexprb4 => step_pexprb4 sys h dt kw
  | R_epi2 => step_epi2 sys h dt kw
  | R_epi3 => step_epi3 sys h dt kw
  | R_exprb2_dense => step_exprb2_dense sys h dt
  | R_exprb2_pfd => step_exprb2_pfd sys h dt kw
  | R_exp_pfd => step_exp_pfd sys h dt kw
  | R_exprb2_pfd_rs => step_exprb2_pfd_rs sys h dt
  | R_exp_pfd_rs => step_exp_pfd_rs sys h dt
  | _ => Raise NotImplementedError
  end.

(* step(dt, frhs_kwargs={}): the default dictionary is empty *)
Variable kw0 : KW.
Definition rb_step (sys : odesys n) (h : H) (dt : F) (kw : option KW) : result (H * SR) :=
  r <- rb_step_routine (o_rust o) (hist_has_prev h) (o_method o);;
  s <- rb_run r sys h dt (odflt kw0 kw);;
  Ok (h, s).
(* ode_exp.py:43-66 constructor: ModelDispatch.rb_ctor, then the base class constructor *)
Definition rb_new (t0 : F) (y0 : vec) : result H :=
  ord <- rb_ctor (o_rust o) (o_method o);; hist_init ord t0 y0.
End RB.

(* ------------------------------------------------------------------ *)
(* ode_explicit.py:33-48 _step_rk4_jit and 50-58 _step_rk4 *)
Definition step_rk4 (sys : odesys n) (h : H) (dt : F) : result SR :=
  let t := h_t h in
  yt <- hist_y h 0;;
  let f := os_frhs sys None in
  let f1 := f t yt in
  let f2 := f (t + dt / 2%:R) (yt + 2%:R^-1 *: (dt *: f1)) in
  let f3 := f (t + dt / 2%:R) (yt + 2%:R^-1 *: (dt *: f2)) in
  let f4 := f (t + dt) (yt + dt *: f3) in
  Ok (mkres h dt (yt + 6%:R^-1 *: (dt *: (f1 + 2%:R *: f2 + 2%:R *: f3 + f4)))).
(* ode_explicit.py:60-64 step; a keyword argument is a TypeError (rk_step_routine) *)
Definition rk_step (m : string) (sys : odesys n) (h : H) (dt : F) (kw : option KW) : result (H * SR) :=
  r <- rk_step_routine (if kw is Some _ then true else false) m;;
  match r with
  | R_rk4 => s <- step_rk4 sys h dt;; Ok (h, s)
  | _ => Raise NotImplementedError
  end.
(* ode_explicit.py:26-31 *)
Definition rk_new (m : string) (t0 : F) (y0 : vec) : result H :=
  ord <- rk_ctor m;; hist_init ord t0 y0.

(* ------------------------------------------------------------------ *)
(* ode_exp.py:627-890 ExpSplitIntegrator *)
Section Split.
Variables (kdim iom : nat).
Let phil (lop : linop F n) dt v k := phi_linop (k_expm K) (k_expk K) (lo_mv lop) dt v k kdim iom.

(* the object: history, _cached_dt, and _cached_sys_lop/_cached_phiLs (set together) *)
Definition phidict := seq ((F * nat) * 'M[F]_n).
Record spobj := SpObj {
  sp_hist : H;
  sp_dt : option F;
  sp_cache : option (linop F n * phidict) }.

(* ode_exp.py:649-659 _remf: frhs without keyword, no time-derivative term *)
Definition sp_remf (sys : splitsys n) (h : H) (tr : F) (yr frhs_yt : vec) (L : linop F n) : result vec :=
  yt <- hist_y h 0;;
  Ok (os_frhs (ss_sys sys) None tr yr - frhs_yt - lo_mv L (yr - yt)).

(* ode_exp.py:661-676 _step_exp1 *)
Definition step_exp1 (sys : splitsys n) (h : H) (dt : F) : result SR :=
  let t := h_t h in
  yt <- hist_y h 0;;
  let L := ss_fl sys t yt in
  let fyt := os_frhs (ss_sys sys) None t yt in
  w <- phil L dt (dt *: fyt) 1;;
  Ok (mkres h dt (yt + w)).

(* ode_exp.py:678-707 _step_exp2, c2 = 1 *)
Definition step_exp2 (sys : splitsys n) (h : H) (dt : F) : result SR :=
  let t := h_t h in
  yt <- hist_y h 0;;
  let L := ss_fl sys t yt in
  let fyt := os_frhs (ss_sys sys) None t yt in
  let c2 := 1 in
  let t_2 := t + c2 * dt in
  w <- phil L (c2 * dt) ((c2 * dt) *: fyt) 1;;
  let y_2 := yt + w in
  r_2 <- sp_remf sys h t_2 y_2 fyt L;;
  w2 <- phil L dt (c2^-1 *: (dt *: r_2)) 2;;
  Ok (mkres h dt (y_2 + w2)).

(* ode_exp.py:709-745 _step_exp3, c2 = 2/3 *)
Definition step_exp3 (sys : splitsys n) (h : H) (dt : F) : result SR :=
  let t := h_t h in
  yt <- hist_y h 0;;
  let L := ss_fl sys t yt in
  let fyt := os_frhs (ss_sys sys) None t yt in
  let c2 := 2%:R / 3%:R in
  let t_2 := t + c2 * dt in
  w <- phil L (dt * c2) (c2 *: (dt *: fyt)) 1;;
  let y_2 := yt + w in
  r_2 <- sp_remf sys h t_2 y_2 fyt L;;
  let t_3 := t + (2%:R / 3%:R) * dt in
  w3 <- phil L (dt * (2%:R / 3%:R)) ((4%:R / 9%:R / c2) *: (dt *: r_2)) 2;;
  let y_3 := y_2 + w3 in
  r_3 <- sp_remf sys h t_3 y_3 fyt L;;
  a <- phil L dt (dt *: fyt) 1;;
  b <- phil L dt ((3%:R / 2%:R) *: (dt *: r_3)) 2;;
  Ok (mkres h dt (yt + a + b)).

(* dictionary assignment d[key] = x and lookup d[key] (KeyError when absent) *)
Definition dict_set (key : F * nat) (x : 'M[F]_n) (d : phidict) : phidict := (key, x) :: d.
Definition dict_get (d : phidict) (key : F * nat) : result 'M[F]_n :=
  if [seq kv <- d | kv.1 == key] is kv :: _ then Ok kv.2 else Raise KeyErrorExn.

(* ode_exp.py:757-762 the loop filling _cached_phiLs; max(ks) *)
Fixpoint fill_dict (dt : F) (L : 'M[F]_n) (cks : seq (F * seq nat)) (d : phidict) : result phidict :=
  match cks with
  | [::] => Ok d
  | (c, ks) :: rest =>
      if k_sqall K ((dt * c) *: L) (foldr maxn 0%N ks) is Some phikLs then
        fill_dict dt L rest (foldl (fun d k => dict_set (c, k) (nth 0 phikLs k) d) d ks)
      else Raise AssertionError
  end.
(* ode_exp.py:748-764 _update_dense_phiLs: the new object and the operator/dictionary in use.
   "not (cached_dt and cached_dt == dt)": None and 0.0 are false. *)
Definition cache_hit (ob : spobj) (dt : F) : bool :=
  if sp_dt ob is Some d then (d != 0) && (d == dt) else false.
Definition update_dense_phiLs (sys : splitsys n) (ob : spobj) (dt : F) (cks : seq (F * seq nat))
  : result (spobj * (linop F n * phidict)) :=
  if cache_hit ob dt then
    (if sp_cache ob is Some c then Ok (ob, c) else Raise AttributeError)
  else
    yt <- hist_y (sp_hist ob) 0;;
    let lop := ss_fl sys (h_t (sp_hist ob)) yt in
    L <- lo_dense lop;;
    d <- fill_dict dt L cks [::];;
    Ok (SpObj (sp_hist ob) (Some dt) (Some (lop, d)), (lop, d)).

(* the lists cks of the three dense methods (ode_exp.py:784, 818-819, 862-864) *)
Definition cks1 : seq (F * seq nat) := [:: (1, [:: 1%N])].
Definition cks2 : seq (F * seq nat) := [:: (2%:R / 3%:R, [:: 1%N]); (1, [:: 1%N; 2%N])].
Definition cks3 : seq (F * seq nat) :=
  [:: (2%:R / 3%:R, [:: 1%N]); (2%:R / 3%:R, [:: 1%N; 2%N]); (1, [:: 1%N; 2%N])].

(* ode_exp.py:766-773 _step_exp1_jit *)
Definition exp1_jit (sys : splitsys n) (t dt : F) (yt : vec) (phiLs : phidict) : result vec :=
  let fyt := os_frhs (ss_sys sys) None t yt in
  p11 <- dict_get phiLs (1, 1%N);;
  Ok (yt + dt *: (p11 *m fyt)).
(* ode_exp.py:791-805 _step_exp2_jit *)
Definition exp2_jit (sys : splitsys n) (t dt : F) (yt : vec) (lop : linop F n) (phiLs : phidict) (c2 : F)
  : result vec :=
  let f := os_frhs (ss_sys sys) None in
  let fyt := f t yt in
  let t_2 := t + c2 * dt in
  p <- dict_get phiLs (c2, 1%N);;
  let y_2 := yt + (c2 * dt) *: (p *m fyt) in
  let r_2 := f t_2 y_2 - fyt - lo_mv lop (y_2 - yt) in
  p11 <- dict_get phiLs (1, 1%N);;
  p12 <- dict_get phiLs (1, 2%N);;
  Ok (yt + dt *: (p11 *m fyt + c2^-1 *: (p12 *m r_2))).
(* ode_exp.py:826-848 _step_exp3_jit *)
Definition exp3_jit (sys : splitsys n) (t dt : F) (yt : vec) (lop : linop F n) (phiLs : phidict) (c2 c3 : F)
  : result vec :=
  let f := os_frhs (ss_sys sys) None in
  let fyt := f t yt in
  let t_2 := t + c2 * dt in
  p <- dict_get phiLs (c2, 1%N);;
  let y_2 := yt + (c2 * dt) *: (p *m fyt) in
  let r_2 := f t_2 y_2 - fyt - lo_mv lop (y_2 - yt) in
  let t_3 := t + c3 * dt in
  p1 <- dict_get phiLs (c3, 1%N);;
  p2 <- dict_get phiLs (c3, 2%N);;
  let y_3 := yt + (c3 * dt) *: (p1 *m fyt + (2%:R / 3%:R / c2) *: (p2 *m r_2)) in
  let r_3 := f t_3 y_3 - fyt - lo_mv lop (y_3 - yt) in
  p11 <- dict_get phiLs (1, 1%N);;
  p12 <- dict_get phiLs (1, 2%N);;
  Ok (yt + dt *: (p11 *m fyt + (3%:R / 2%:R) *: (p12 *m r_3))).

(* ode_exp.py:775-789, 807-824, 850-869 the dense steps *)
Definition sp_dense (sys : splitsys n) (ob : spobj) (dt : F) (cks : seq (F * seq nat))
    (kernel : F -> vec -> linop F n -> phidict -> result vec) : result (spobj * SR) :=
  let h := sp_hist ob in
  yt <- hist_y h 0;;
  oc <- update_dense_phiLs sys ob dt cks;;
  y <- kernel (h_t h) yt oc.2.1 oc.2.2;;
  Ok (oc.1, mkres h dt y).
Definition step_exp1_dense sys ob dt : result (spobj * SR) :=
  sp_dense sys ob dt cks1 (fun t yt _ d => exp1_jit sys t dt yt d).
Definition step_exp2_dense sys ob dt : result (spobj * SR) :=
  sp_dense sys ob dt cks2 (fun t yt lop d => exp2_jit sys t dt yt lop d (2%:R / 3%:R)).
Definition step_exp3_dense sys ob dt : result (spobj * SR) :=
  sp_dense sys ob dt cks3 (fun t yt lop d => exp3_jit sys t dt yt lop d (2%:R / 3%:R) (2%:R / 3%:R)).

(* ode_exp.py:871-885 step: the keyword argument is accepted and ignored *)
Definition sp_run (r : routine) (sys : splitsys n) (ob : spobj) (dt : F) : result (spobj * SR) :=
  match r with
  | R_exp1 => s <- step_exp1 sys (sp_hist ob) dt;; Ok (ob, s)
  | R_exp2 => s <- step_exp2 sys (sp_hist ob) dt;; Ok (ob, s)
  | R_exp3 => s <- step_exp3 sys (sp_hist ob) dt;; Ok (ob, s)
  | R_exp1_dense => step_exp1_dense sys ob dt
  | R_exp2_dense => step_exp2_dense sys ob dt
  | R_exp3_dense => step_exp3_dense sys ob dt
  | _ => Raise NotImplementedError
  end.
Definition sp_step (m : string) (sys : splitsys n) (ob : spobj) (dt : F) (kw : option KW)
  : result (spobj * SR) :=
  r <- split_step_routine m;; sp_run r sys ob dt.
(* ode_exp.py:632-643 constructor, 645-647 reset_ic, 887-890 accept_step *)
Definition sp_new (m : string) (t0 : F) (y0 : vec) : result spobj :=
  ord <- split_ctor m;; h <- hist_init ord t0 y0;; Ok (SpObj h None None).
Definition sp_reset (ob : spobj) (t0 : F) (y0 : vec) : spobj :=
  SpObj (hist_reset (sp_hist ob) t0 y0) None (sp_cache ob).
Definition sp_accept (ob : spobj) (s : SR) : spobj :=
  SpObj (hist_accept (sp_hist ob) s) (sp_dt ob) (sp_cache ob).
End Split.
End Steps.
End Int.
