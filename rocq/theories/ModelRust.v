(* ModelRust.v : the Rust crate (src/): linear operators, Arnoldi and Krylov evaluation, Newton,
   the BDF/CN, Runge-Kutta and exponential integrators, and the driver exposed to Python.
   Definitions only; exact arithmetic over a real closed field.  A panic (index out of bounds,
   unwrap of Err/None, panic!) is [Raise RustPanic]; a StepError returned by step is
   [Raise RuntimeErrorExn]; a division by zero, which in IEEE arithmetic fills the result with
   NaN, is [Raise ZeroDivisionExn].  Mutable borrows, parallelism hints and scratch memory are
   not modelled; step takes &self and so does not change the object. *)
From Coq Require Import String.
From mathcomp Require Import all_ssreflect all_algebra.
From Verif Require Import ModelHist MxBase ModelOps ModelPhi ModelKrylov ModelInt.
Set Implicit Arguments.
Unset Strict Implicit.
Unset Printing Implicit Defensive.
Import Order.TTheory GRing.Theory Num.Theory.
Local Open Scope ring_scope.

(* v[i] of a Vec/VecDeque: panics out of range *)
Definition rnth T (l : seq T) (i : nat) : result T :=
  if List.nth_error l i is Some x then Ok x else Raise RustPanic.

Section Rust.
Variable F : rcfType.

(* ------------------------------------------------------------------ *)
(* ode_sys.rs:476-510 trait OdeSys: frhs(t,x) and fjac(t,x), a linear operator *)
Record rsys (n : nat) := RSys {
  rs_frhs : F -> 'cV[F]_n -> 'cV[F]_n;
  rs_fjac : F -> 'cV[F]_n -> 'cV[F]_n -> 'cV[F]_n }.

(* ode_sys.rs:303-320 ShiftedLinOp::apply: out = inner(rhs); out *= scale; out += gamma*rhs *)
Definition shifted_apply n (inner : 'cV[F]_n -> 'cV[F]_n) (scale : F) (gamma : option F)
    (v : 'cV[F]_n) : 'cV[F]_n :=
  let out := scale *: inner v in
  if gamma is Some g then out + g *: v else out.
(* ode_sys.rs:495-508 fjac_shifted *)
Definition fjac_shifted n (sys : rsys n) (t : F) (x : 'cV[F]_n) (scale : F) (gamma : option F) :=
  shifted_apply (rs_fjac sys t x) scale gamma.

(* norm_max of a column: largest absolute entry *)
Definition norm_max n (v : 'cV[F]_n) : F := \big[Num.max/0]_i `|v i 0|.

(* ode_sys.rs:420-455 FdJacLinOp::apply; eps = 0.5e-8 * norm_max(x), ieps = scale/eps *)
Definition fd_eps0 : F := (2%:R)^-1 * (10%:R ^+ 8)^-1.
Definition rfd_apply n (frhs : F -> 'cV[F]_n -> 'cV[F]_n) (t : F) (x : 'cV[F]_n) (scale : F)
    (gamma : option F) (v : 'cV[F]_n) : result 'cV[F]_n :=
  let eps := fd_eps0 * norm_max x in
  if eps == 0 then Raise ZeroDivisionExn else
  let ieps := scale * 1 / eps in
  let x_pert := x + eps *: v in
  let j_v := ieps *: (frhs t x_pert - frhs t x) in
  Ok (if gamma is Some g then j_v + g *: v else j_v).

(* ode_sys.rs:139-169 ExtendedLinOp::new: column k of bmat is vb[p-k] (k runs down from p-1 while
   i runs up from 1); kmat has ones on the superdiagonal.  Same blocks as kiops_B / kiops_K of
   ModelKrylov.v.  vb must have at least two entries (p-1 underflows otherwise). *)
Definition ext_bmat n p (vb : seq 'cV[F]_n) : 'M[F]_(n, p) :=
  foldl (fun (B : 'M[F]_(n, p)) (ki : nat * nat) =>
           \matrix_(r, c) (if (c : nat) == ki.1 then nth 0 vb ki.2 r 0 else B r c))
        0 (zip (rev (iota 0 p)) (iota 1 p)).
Definition ext_kmat p : 'M[F]_p := \matrix_(i, j) (if (i < p.-1)%N && (0 < j)%N then ((i : nat) == j.-1)%:R else 0).
(* ode_sys.rs:208-230 ExtendedLinOp::apply: ab_v = t*A v1 + B v2, k_v = K v2, where v2 is the last
   p rows *)
Definition ext_apply n p (inner : 'cV[F]_n -> 'cV[F]_n) (t : F) (B : 'M[F]_(n, p)) (K : 'M[F]_p)
    (v : 'cV[F]_(n + p)) : 'cV[F]_(n + p) :=
  col_mx (t *: inner (usubmx v) + B *m dsubmx v) (K *m dsubmx v).
(* ode_sys.rs:196-206 nrows and ncols are those of the inner operator *)
Definition ext_nrows (inner_nrows p : nat) : nat := inner_nrows.
(* ode_sys.rs:172-182 get_v *)
Definition ext_get_v n p (vb : seq 'cV[F]_n) : 'cV[F]_(n + p) :=
  col_mx (nth 0 vb 0) (\col_i ((i : nat) == p.-1)%:R).

(* ------------------------------------------------------------------ *)
(* arnoldi.rs:38-100 arnoldi_inner_lop; like arnoldi_mgs_lop of ModelKrylov.v except for the
   breakdown test, which is norm_v < 1e-12 here *)
Section Arnoldi.
Variable n : nat.
Definition rarn_inner (a_lo : 'cV[F]_n -> 'cV[F]_n) (a_scale : F) (m iom : nat)
    (hs : nat -> nat -> F) (qs : nat -> 'cV[F]_n) (k : nat)
    : (nat -> nat -> F) * (nat -> 'cV[F]_n) * bool :=
  let iom_depth := (k - iom)%N in
  let qv := a_scale *: a_lo (qs k) in
  let: (hs, qv) := foldl (body_ortho qs k) (hs, qv) (iota iom_depth (k.+1 - iom_depth)) in
  let norm_v := norm2 qv in
  let not_final_it := (k.+1 < m)%N in
  let hs := if not_final_it then upd2 hs k.+1 k norm_v else hs in
  let breakdown_flag := norm_v < breakdown_tol F in
  let qs := if not_final_it && ~~ breakdown_flag then upd1 qs k.+1 (norm_v^-1 *: qv) else qs in
  (hs, qs, breakdown_flag).
(* arnoldi.rs:127-134: for k in 0..m, counting passes, break on breakdown; [todo] passes left,
   [k] passes done *)
Fixpoint rarn_loop a_lo a_scale m iom (todo k : nat) hs qs : (nat -> nat -> F) * (nat -> 'cV[F]_n) * nat :=
  if todo is todo'.+1 then
    let: (hs', qs', bk) := rarn_inner a_lo a_scale m iom hs qs k in
    if bk then (hs', qs', k.+1) else rarn_loop a_lo a_scale m iom todo' k.+1 hs' qs'
  else (hs, qs, k).
(* arnoldi.rs:110-142 arnoldi_lop: b / norm(b) without a test; columns and rows 0..breakdown_n.
   With m = 0 writing column 0 panics. *)
Definition rarnoldi a_lo a_scale (b : 'cV[F]_n) (dim iom : nat)
  : result { k : nat & ('M[F]_(n, k) * 'M[F]_k)%type } :=
  let m := minn dim n in
  if m == 0%N then Raise RustPanic else
  let norm_b := norm2 b in
  if norm_b == 0 then Raise ZeroDivisionExn else
  let: (hs, qs, k) := rarn_loop a_lo a_scale m iom m 0 (fun _ _ => 0) (upd1 (fun _ => 0) 0%N (norm_b^-1 *: b)) in
  Ok (existT _ k (\matrix_(i, j) qs j i 0, \matrix_(i, j) hs i j)).
End Arnoldi.

(* matexp_pade.rs:24-26 trait DensePhikvEvaluator: phik_apply(a, dt, v0, k) *)
Definition evaluator := forall n, 'M[F]_n -> F -> 'cV[F]_n -> nat -> 'cV[F]_n.

(* matexp_krylov.rs:46-56 apply_linop: the operator is scaled by dt inside Arnoldi *)
Definition apply_linop (phik_apply : evaluator) n (a_lo : 'cV[F]_n -> 'cV[F]_n) (dt : F) (v0 : 'cV[F]_n) (dim iom : nat)
  : result 'cV[F]_n :=
  st <- rarnoldi a_lo dt v0 dim iom;;
  let: existT k (q, h) := st in
  Ok (norm2 v0 *: (q *m phik_apply k h 1 (e1v F k) 0%N)).
(* matexp_krylov.rs:59-71 apply_phi_linop: Arnoldi of the unscaled operator, dt given to the
   dense evaluator *)
Definition apply_phi_linop (phik_apply : evaluator) n (a_lo : 'cV[F]_n -> 'cV[F]_n) (dt : F) (v0 : 'cV[F]_n) (j dim iom : nat)
  : result 'cV[F]_n :=
  st <- rarnoldi a_lo 1 v0 dim iom;;
  let: existT k (q, h) := st in
  Ok (norm2 v0 *: (q *m phik_apply k h dt (e1v F k) j)).
(* matexp_krylov.rs:124-138 kiops_fixedsteps on the extended operator with its blocks *)
Definition rkiops (ev : evaluator) n (a_lo : 'cV[F]_n -> 'cV[F]_n) (t dt : F) (vb : seq 'cV[F]_n) (dim iom : nat)
  : result 'cV[F]_n :=
  let p := (size vb).-1 in
  w <- apply_linop ev (ext_apply a_lo t (ext_bmat p vb) (ext_kmat p)) dt (ext_get_v p vb) dim iom;;
  Ok (usubmx w).

(* ------------------------------------------------------------------ *)
Section Steps.
Variable n : nat.
Notation vec := 'cV[F]_n.
Notation SR := (step_result F vec).
(* StepResult::new(t+dt, dt, y, err); err = None is -1 *)
Definition rres (t dt : F) (y : vec) (err : F) : SR := mkStep (t + dt) dt y err.

(* faer_gmres::gmres(A, b, x, iters, tol): oracle, from operator, right-hand side and initial
   guess to the solution written to x; None when it returns Err (the caller unwraps) *)
Variable gmres : (vec -> vec) -> vec -> vec -> nat -> F -> option vec.

(* newton.rs:83-113 jac_newton; [a] is the previous correction, the initial guess of gmres *)
Fixpoint newton_loop (t : F) (frhs : F -> vec -> vec) (jac : F -> vec -> vec -> vec)
    (tol tol_lin : F) (iters_lin iters : nat) (x a : vec) : result vec :=
  if iters is i.+1 then
    let gfn_x := frhs t x in
    let x_old_norm := norm2 x in
    if gmres (jac t x) gfn_x a iters_lin tol_lin is Some a' then
      let x' := x - a' in
      let x_new_norm := norm2 x' in
      if x_old_norm - x_new_norm < tol then Ok x'
      else newton_loop t frhs jac tol tol_lin iters_lin i x' a'
    else Raise RustPanic
  else Raise RuntimeErrorExn.
Definition jac_newton t x0 frhs jac tol tol_lin iters iters_lin :=
  newton_loop t frhs jac tol tol_lin iters_lin iters x0 0.
(* constants at ode_bdf.rs:115-117 etc. *)
Definition nl_tol : F := (10%:R ^+ 6)^-1.
Definition lin_tol : F := (10%:R ^+ 8)^-1.

(* ode_bdf.rs:24-50 BdfIntegrator *)
Record bdf := Bdf { b_order : nat; b_t : F; b_ys : seq vec }.
(* ode_bdf.rs:55-65 new *)
Definition bdf_new (t0 : F) (y0 : vec) (order : nat) : bdf := Bdf order t0 [:: y0].
(* ode_bdf.rs:205-208 accept_step: push_front, nothing is popped *)
Definition bdf_accept (o : bdf) (s : SR) : bdf := Bdf (b_order o) (sr_t s) (sr_y s :: b_ys o).
(* ode_bdf.rs:210-214 reset_ic *)
Definition bdf_reset (o : bdf) (t0 : F) (y0 : vec) : bdf := Bdf (b_order o) t0 [:: y0].

Variable sys : rsys n.
(* ode_bdf.rs:67-77 _nonlin_gfn with order 2 *)
Definition gfn_bdf2 (y0 ym1 : vec) (dt : F) (t : F) (y : vec) : vec :=
  y - (4%:R / 3%:R) *: y0 + (1 / 3%:R) *: ym1 - (2%:R * dt / 3%:R) *: rs_frhs sys (t + dt) y.
(* ode_bdf.rs:104-106 *)
Definition gfn_bdf1 (y0 : vec) (dt : F) (t : F) (y : vec) : vec :=
  - dt *: rs_frhs sys (t + dt) y - y0 + y.
(* ode_bdf.rs:155-157 *)
Definition gfn_cn (y0 : vec) (dt : F) (t : F) (y : vec) : vec :=
  (- dt * 2%:R^-1) *: rs_frhs sys (t + dt) y - (dt * 2%:R^-1) *: rs_frhs sys t y0 - y0 + y.
Definition gfn_jac (scale dt : F) (t : F) (y : vec) : vec -> vec :=
  fjac_shifted sys (t + dt) y scale (Some 1).
(* ode_bdf.rs:92-121 *)
Definition bdf_step1 (o : bdf) (dt : F) : result SR :=
  let t := b_t o in
  y0 <- rnth (b_ys o) 0;;
  y_new <- jac_newton (t + dt) y0 (gfn_bdf1 y0 dt) (gfn_jac (- dt) dt) nl_tol lin_tol 100 1000;;
  Ok (rres t dt y_new (-1)).
(* ode_bdf.rs:124-142 (with self.order = 2) *)
Definition bdf_step2 (o : bdf) (dt : F) : result SR :=
  let t := b_t o in
  y0 <- rnth (b_ys o) 0;;
  ym1 <- rnth (b_ys o) 1;;
  y_new <- jac_newton (t + dt) y0 (gfn_bdf2 y0 ym1 dt) (gfn_jac (- 2%:R * dt / 3%:R) dt) nl_tol lin_tol 100 1000;;
  Ok (rres t dt y_new (-1)).
(* ode_bdf.rs:145-171 *)
Definition bdf_step_cn (o : bdf) (dt : F) : result SR :=
  let t := b_t o in
  y0 <- rnth (b_ys o) 0;;
  y_new <- jac_newton (t + dt) y0 (gfn_cn y0 dt) (gfn_jac (- 2%:R^-1 * dt) dt) nl_tol lin_tol 100 1000;;
  Ok (rres t dt y_new (-1)).
(* ode_bdf.rs:181-195 step *)
Definition bdf_step (o : bdf) (dt : F) : result SR :=
  match b_order o with
  | 1%N => bdf_step1 o dt
  | 2%N => if size (b_ys o) == 2%N then bdf_step2 o dt else bdf_step1 o dt
  | 3%N => bdf_step_cn o dt
  | _ => Raise RustPanic
  end.

(* ------------------------------------------------------------------ *)
(* ode_rk.rs:23-68 Butcher tableau and bt_factory *)
Record bt := BT { bt_c : seq F; bt_b : seq F; bt_a : seq (seq F) }.
Definition bt_factory (order : nat) : bt :=
  match order with
  | 4%N => BT [:: 0; 2%:R^-1; 2%:R^-1; 1] [:: 1 / 6%:R; 1 / 3%:R; 1 / 3%:R; 1 / 6%:R]
             [:: [:: 2%:R^-1; 0; 0]; [:: 0; 2%:R^-1; 0]; [:: 0; 0; 1]]
  | 3%N => BT [:: 0; 2%:R^-1; 1] [:: 1 / 6%:R; 2%:R / 3%:R; 1 / 6%:R]
             [:: [:: 2%:R^-1; 0]; [:: -1; 2%:R]]
  | 2%N => BT [:: 0; 2%:R^-1] [:: 0; 1] [:: [:: 2%:R^-1]]
  | _ => BT [:: 0] [:: 1] [:: [::]]
  end.
(* ode_rk.rs:71-92 RkIntegrator *)
Record rkint := RkInt { rk_order : nat; rk_bt : bt; rk_t : F; rk_ys : seq vec }.
(* ode_rk.rs:95-113 new *)
Definition rrk_new (t0 : F) (y0 : vec) (order : nat) : result rkint :=
  if (0 < order <= 4)%N then Ok (RkInt order (bt_factory order) t0 [:: y0]) else Raise RustPanic.
(* ode_rk.rs:120-130: stage i+1 from the stages k[0..i]; the time offset is c[i] *)
Definition rk_stage (b : bt) (t dt : F) (y0 : vec) (k : seq vec) (i : nat) : result (seq vec) :=
  row <- rnth (bt_a b) i;;
  y_delta <- foldl (fun acc j => y <- acc;; a <- rnth row j;; kj <- rnth k j;; Ok (y + (dt * a) *: kj))
                   (Ok y0) (iota 0 i.+1);;
  c <- rnth (bt_c b) i;;
  Ok (k ++ [:: rs_frhs sys (t + dt * c) y_delta]).
(* ode_rk.rs:115-135 step_rk *)
Definition rrk_step (o : rkint) (dt : F) : result SR :=
  let t := rk_t o in
  y0 <- rnth (rk_ys o) 0;;
  k <- foldl (fun acc i => k <- acc;; rk_stage (rk_bt o) t dt y0 k i)
             (Ok [:: rs_frhs sys t y0]) (iota 0 (rk_order o).-1);;
  acc <- foldl (fun acc i => y <- acc;; b <- rnth (bt_b (rk_bt o)) i;; ki <- rnth k i;; Ok (y + (dt * b) *: ki))
               (Ok y0) (iota 0 (rk_order o));;
  Ok (rres t dt acc (-1)).
(* ode_rk.rs:151-160 *)
Definition rrk_accept (o : rkint) (s : SR) : rkint := RkInt (rk_order o) (rk_bt o) (sr_t s) (sr_y s :: rk_ys o).
Definition rrk_reset (o : rkint) (t0 : F) (y0 : vec) : rkint := RkInt (rk_order o) (rk_bt o) t0 [:: y0].

(* ------------------------------------------------------------------ *)
(* ode_epirk.rs:31-59 EpirkIntegrator; evaluator, krylov_dim and iom are those of its KrylovExpm *)
Record epirk := Epirk { ep_method : string; ep_t : F; ep_tol : F; ep_ys : seq vec; ep_ts : seq F;
                        ep_ev : evaluator; ep_dim : nat; ep_iom : nat }.
(* ode_epirk.rs:65-86 new *)
Definition ep_valid (m : string) : bool :=
  String.eqb m "epi2" || String.eqb m "exprb2" || String.eqb m "epi3" || String.eqb m "exprb3".
Definition ep_new (t0 : F) (y0 : vec) (method : string) (ev : evaluator) (dim iom : nat) : result epirk :=
  if ep_valid method then Ok (Epirk method t0 (-1) [:: y0] [:: t0] ev dim iom) else Raise RustPanic.
(* ode_epirk.rs:89-96 with_opt("tol_fdt", v) *)
Definition ep_with_tol (o : epirk) (tol : F) : epirk :=
  Epirk (ep_method o) (ep_t o) tol (ep_ys o) (ep_ts o) (ep_ev o) (ep_dim o) (ep_iom o).
(* ode_epirk.rs:273-277 accept_step *)
Definition ep_accept (o : epirk) (s : SR) : epirk :=
  Epirk (ep_method o) (sr_t s) (ep_tol o) (sr_y s :: ep_ys o) (sr_t s :: ep_ts o) (ep_ev o) (ep_dim o) (ep_iom o).
(* ode_epirk.rs:279-284 reset_ic: y_hist is cleared, t_hist is not *)
Definition ep_reset (o : epirk) (t0 : F) (y0 : vec) : epirk :=
  Epirk (ep_method o) t0 (ep_tol o) [:: y0] (t0 :: ep_ts o) (ep_ev o) (ep_dim o) (ep_iom o).

Section Ep.
Variable o : epirk.
Let aphi (lop : vec -> vec) dt (v : vec) k := apply_phi_linop (ep_ev o) lop dt v k (ep_dim o) (ep_iom o).
(* ode_epirk.rs:100-118 remf, with v always given *)
Definition ep_remf (tr : F) (yr frhs_y0 : vec) (J : vec -> vec) (v : vec) : result vec :=
  t <- rnth (ep_ts o) 0;;
  y0 <- rnth (ep_ys o) 0;;
  let frhs_yr := rs_frhs sys tr yr in
  let jac_yd := J (yr - y0) in
  let dt := tr - t in
  Ok (frhs_yr - frhs_y0 - jac_yd - dt *: v).
(* ode_epirk.rs:121-126 frhs_fdt *)
Definition frhs_fdt (y0 fy0 : vec) (del_t : F) : vec :=
  del_t^-1 *: (rs_frhs sys (ep_t o + del_t) y0 - fy0).
(* 1e-8 *)
Definition del_t8 : F := (10%:R ^+ 8)^-1.
(* ode_epirk.rs:129-139 fphi2_v: returns (phi2_v, v); v is returned even below the threshold *)
Definition fphi2_v (y0 fy0 : vec) (J : vec -> vec) (dt : F) : result (vec * vec) :=
  if ep_tol o < 0 then Ok (0, 0) else
  let v := frhs_fdt y0 fy0 del_t8 in
  if ep_tol o < norm_max v then
    w <- aphi J dt v 2;; Ok (dt ^+ 2 *: w, v)
  else Ok (0, v).
(* ode_epirk.rs:142-163 step_order_2 *)
Definition ep_step2 (dt : F) : result SR :=
  let t := ep_t o in
  y0 <- rnth (ep_ys o) 0;;
  let J := rs_fjac sys t y0 in
  let fy0 := rs_frhs sys t y0 in
  let fy0_dt := dt *: fy0 in
  p <- fphi2_v y0 fy0 J dt;;
  w <- aphi J dt fy0_dt 1;;
  Ok (rres t dt (y0 + p.1 + w) (-1)).
(* ode_epirk.rs:167-200 step_exprb32; err is the l1 norm of y_new - y_2 *)
Definition ep_step_exprb32 (dt : F) : result SR :=
  let t := ep_t o in
  y0 <- rnth (ep_ys o) 0;;
  let J := rs_fjac sys t y0 in
  let fy0 := rs_frhs sys t y0 in
  let fy0_dt := dt *: fy0 in
  p <- fphi2_v y0 fy0 J dt;;
  w <- aphi J dt fy0_dt 1;;
  let t_2 := t + dt in
  let y_2 := y0 + p.1 + w in
  r_2 <- ep_remf t_2 y_2 fy0 J p.2;;
  w3 <- aphi J dt r_2 3;;
  let y_new := y_2 + (2%:R * dt) *: w3 in
  Ok (rres t dt y_new (`|norm1 (y_new - y_2)|)).
(* ode_epirk.rs:206-236 step_order_3 *)
Definition ep_step3 (dt : F) : result SR :=
  let t := ep_t o in
  y0 <- rnth (ep_ys o) 0;;
  yp <- rnth (ep_ys o) 1;;
  tp <- rnth (ep_ts o) 1;;
  let J := rs_fjac sys t y0 in
  let fy0 := rs_frhs sys t y0 in
  let fy0_dt := dt *: fy0 in
  p <- fphi2_v y0 fy0 J dt;;
  rn <- ep_remf tp yp fy0 J p.2;;
  let rn_dt := (dt * 2%:R / 3%:R) *: rn in
  u <- rkiops (ep_ev o) J dt 1 [:: 0; fy0_dt; rn_dt] (ep_dim o) (ep_iom o);;
  Ok (rres t dt (y0 + u + p.1) (-1)).
(* ode_epirk.rs:246-263 step *)
Definition ep_step (dt : F) : result SR :=
  if String.eqb (ep_method o) "epi2" || String.eqb (ep_method o) "exprb2" then ep_step2 dt
  else if String.eqb (ep_method o) "epi3" then
    (if (2 <= size (ep_ys o))%N then ep_step3 dt else ep_step2 dt)
  else if String.eqb (ep_method o) "exprb3" then ep_step_exprb32 dt
  else Raise RustPanic.
End Ep.

(* ------------------------------------------------------------------ *)
(* ormatex_rspy.rs:208-239 select_solver: a dyn IntegrateSys is one of two kinds of object *)
Inductive solver := SBdf (o : bdf) | SEpi (o : epirk).
Definition s_step (s : solver) (dt : F) : result SR :=
  match s with SBdf o => bdf_step o dt | SEpi o => ep_step o dt end.
Definition s_accept (s : solver) (r : SR) : solver :=
  match s with SBdf o => SBdf (bdf_accept o r) | SEpi o => SEpi (ep_accept o r) end.
Definition s_reset (s : solver) (t0 : F) (y0 : vec) : solver :=
  match s with SBdf o => SBdf (bdf_reset o t0 y0) | SEpi o => SEpi (ep_reset o t0 y0) end.
(* time() and state() = y_hist[0] *)
Definition s_time (s : solver) : F := match s with SBdf o => b_t o | SEpi o => ep_t o end.
Definition s_state (s : solver) : result vec :=
  match s with SBdf o => rnth (b_ys o) 0 | SEpi o => rnth (ep_ys o) 0 end.
(* the assertion krylov_dim > 0 of KrylovExpm::new panics *)
Definition select_solver (t0 : F) (y0 : vec) (method : string) (ev : evaluator) (dim iom : nat) (tol_fdt : F) : result solver :=
  if String.eqb method "bdf1" || String.eqb method "backeuler" then Ok (SBdf (bdf_new t0 y0 1))
  else if String.eqb method "bdf2" then Ok (SBdf (bdf_new t0 y0 2))
  else if String.eqb method "cn" then Ok (SBdf (bdf_new t0 y0 3))
  else if dim == 0%N then Raise RustPanic
  else o <- ep_new t0 y0 method ev dim iom;; Ok (SEpi (ep_with_tol o tol_fdt)).

(* values a caller can pass in **kwds, and their extraction as String / usize / f64 (an int is
   accepted as f64; a wrong type makes unwrap panic) *)
Inductive optval := OStr (s : string) | ONat (k : nat) | OFlt (x : F).
Definition opt_dict := seq (string * optval).
Fixpoint dict_get (d : opt_dict) (k : string) : option optval :=
  if d is (k', v) :: r then (if String.eqb k' k then Some v else dict_get r k) else None.
Definition get_str (d : opt_dict) (k default : string) : result string :=
  match dict_get d k with None => Ok default | Some (OStr s) => Ok s | _ => Raise RustPanic end.
Definition get_nat (d : opt_dict) (k : string) (default : nat) : result nat :=
  match dict_get d k with None => Ok default | Some (ONat x) => Ok x | _ => Raise RustPanic end.
Definition get_flt (d : opt_dict) (k : string) (default : F) : result F :=
  match dict_get d k with
  | None => Ok default | Some (OFlt x) => Ok x | Some (ONat x) => Ok (x%:R) | _ => Raise RustPanic end.

(* ormatex_rspy.rs:288-301, the loop: [todo] iterations left, i iterations done *)
Fixpoint rs_loop (osteps : nat) (dt : F) (todo i : nat) (s : solver) (ys : seq vec) (ts : seq F)
  : result (solver * seq vec * seq F) :=
  if todo is todo'.+1 then
    if osteps == 0%N then Raise RustPanic else
    out <- (if (i %% osteps == 0)%N then y <- s_state s;; Ok (ys ++ [:: y], ts ++ [:: s_time s])
            else Ok (ys, ts));;
    r <- s_step s dt;;
    rs_loop osteps dt todo' i.+1 (s_accept s r) out.1 out.2
  else Ok (s, ys, ts).
(* ormatex_rspy.rs:254-309 integrate_wrapper_rs; evals name is the dense evaluator chosen at
   224-230 for the name given in expmv_method.  The key read for tol_fdt is "tol". *)
Definition integrate_wrapper_rs (evals : string -> evaluator) (y0 : vec) (t0 dt : F) (nsteps : nat) (kwds : opt_dict)
  : result (seq vec * seq F) :=
  method <- get_str kwds "method"%string "epi2"%string;;
  expmv <- get_str kwds "expmv_method"%string "pade"%string;;
  dim <- get_nat kwds "max_krylov_dim"%string 100;;
  iom <- get_nat kwds "iom"%string 2;;
  tol <- get_flt kwds "tol"%string (10%:R ^+ 8)^-1;;
  tol_fdt <- get_flt kwds "tol"%string (10%:R ^+ 8)^-1;;
  osteps <- get_nat kwds "osteps"%string 1;;
  s <- select_solver t0 y0 method (evals expmv) dim iom tol_fdt;;
  res <- rs_loop osteps dt nsteps 0 s [::] [::];;
  let: (s', ys, ts) := res in
  y <- s_state s';;
  Ok (ys ++ [:: y], ts ++ [:: s_time s']).
End Steps.
End Rust.
