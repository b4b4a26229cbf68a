(* PropRust.v : properties C42-C46 and C55-C57, stated about the model of the Rust crate. *)
From Coq Require Import String.
From mathcomp Require Import all_ssreflect all_algebra.
From mathcomp Require Import ring.
From Verif Require Import ModelHist MxBase ModelOps ModelKrylov ModelInt ModelRust SpecRust ProofsKrylov.
From Verif Require Import ProofsRust ProofsRust2 ProofsRust3 ProofsRust4.
Set Implicit Arguments.
Unset Strict Implicit.
Unset Printing Implicit Defensive.
Import Order.TTheory GRing.Theory Num.Theory.
Local Open Scope ring_scope.
Local Opaque newton_loop jac_newton apply_phi_linop rkiops norm2.

(* y' = A y + b(t) with its exact Jacobian *)
Definition affine_rsys (F : rcfType) n (A : 'M[F]_n) (b : F -> 'cV[F]_n) : rsys F n :=
  RSys (fun t y => A *m y + b t) (fun _ _ v => A *m v).

Section P.
Variables (F : rcfType) (n : nat).
Notation vec := 'cV[F]_n.
Variable gmres : (vec -> vec) -> vec -> vec -> nat -> F -> option vec.

(* ---------------- C42 ---------------- *)
(* whatever was accepted or reset before, a bdf2 object takes the two-step formula on its second
   step since construction or reset, and backward Euler on every other step *)
Theorem C42_step_formula (A : 'M[F]_n) b t0 y0 l dt s :
  exact_solver gmres ->
  let f := fun t y => A *m y + b t in
  let o := bdf_run (bdf_new t0 y0 2) l in
  bdf_step gmres (affine_rsys A b) o dt = Ok s ->
  exists y hist, b_ys o = y :: hist /\
  if accepted_since l 0 == 1%N then
    exists ym, hist = [:: ym] /\
      sr_y s = (4%:R / 3%:R) *: y - (1 / 3%:R) *: ym + (2%:R * dt / 3%:R) *: f (b_t o + dt + dt) (sr_y s)
  else sr_y s = y + dt *: f (b_t o + dt + dt) (sr_y s).
Proof.
move=> ex f o; rewrite bdf2_dispatch ?bdf_run_order // -/o.
have sz : size (b_ys o) = (accepted_since l 0).+1 by apply: bdf_run_size.
rewrite sz eqSS; case e: (b_ys o) sz => [|y hist] //= [sz] h; exists y, hist; split=> //; move: h.
case: ifP => [/eqP h1|_] h.
  move: e sz; rewrite h1; case: hist => [|ym [|//]] // e _; exists ym; split=> //.
  by have [] := @step2_eq _ _ gmres ex A b (affine_rsys A b) (fun _ _ => erefl) (fun _ _ _ => erefl) o dt s y ym _ _ h; rewrite ?e.
by have [] := @step1_eq _ _ gmres ex A b (affine_rsys A b) (fun _ _ => erefl) (fun _ _ _ => erefl) o dt s y _ h; rewrite ?e.
Qed.

(* for an autonomous linear system every step from the third on is a backward Euler step *)
Theorem C42_backward_euler_forever (A : 'M[F]_n) t0 y0 dt i s s' :
  exact_solver gmres -> (2 <= i)%N ->
  let it := s_iter gmres (affine_rsys A (fun _ => 0)) dt (SBdf (bdf_new t0 y0 2)) in
  it i = Ok s -> it i.+1 = Ok s' ->
  exists y y', [/\ s_state s = Ok y, s_state s' = Ok y' & y' = y + dt *: (A *m y')].
Proof.
move=> ex i2 it h; rewrite /it s_iterS -/it h; cbn [rbind].
have [o [-> /= ho sz]] := s_iter_bdf h.
rewrite bdf2_dispatch // sz; case: eqP => [[]|_].
  by case: (i) i2 => [|[|?]].
case e: (bdf_step1 _ _ _ _) => [r|//]; cbn [rbind] => -[<-].
case ey: (b_ys o) sz => [|y hist] // _; exists y, (sr_y r); split=> //=; rewrite ?ey //.
have [] := @step1_eq _ _ gmres ex A (fun _ => 0) (affine_rsys A (fun _ => 0)) (fun _ _ => erefl) (fun _ _ _ => erefl) o dt r y _ e.
  by rewrite ey.
by move=> _ /= {1}->; rewrite addr0.
Qed.

(* ---------------- C43 ---------------- *)
Theorem C43_implicit_equations (A : 'M[F]_n) b (o : bdf F n) y hist dt s :
  exact_solver gmres -> b_ys o = y :: hist ->
  let f := fun t y => A *m y + b t in
  let t := b_t o in
  bdf_step gmres (affine_rsys A b) o dt = Ok s ->
  sr_t s = t + dt /\
  match b_order o with
  | 1%N => sr_y s = y + dt *: f (t + 2%:R * dt) (sr_y s)
  | 2%N => if hist is [:: ym] then
             sr_y s = (4%:R / 3%:R) *: y - (1 / 3%:R) *: ym + (2%:R * dt / 3%:R) *: f (t + 2%:R * dt) (sr_y s)
           else sr_y s = y + dt *: f (t + 2%:R * dt) (sr_y s)
  | 3%N => sr_y s = y + (dt / 2%:R) *: (f (t + 2%:R * dt) (sr_y s) + f (t + dt) y)
  | _ => False
  end.
Proof.
move=> ex ey f t h; split; first exact: (bdf_time h).
have tt : t + 2%:R * dt = t + dt + dt by rewrite mulr_natl mulr2n addrA.
have e0 : List.nth_error (b_ys o) 0 = Some y by rewrite ey.
have s1 : bdf_step1 gmres (affine_rsys A b) o dt = Ok s -> sr_y s = y + dt *: f (t + 2%:R * dt) (sr_y s).
  rewrite tt => {}h; exact: (proj2 (@step1_eq _ _ gmres ex A b (affine_rsys A b) (fun _ _ => erefl) (fun _ _ _ => erefl) o dt s y e0 h)).
move: h; rewrite /bdf_step; case: (b_order o) => [|[|[|[|k]]]]; [by []|exact: s1| | |by []].
  case: hist ey => [|ym [|z hist]] ey; rewrite ey; [exact: s1| |exact: s1].
  have e1 : List.nth_error (b_ys o) 1 = Some ym by rewrite ey.
  rewrite tt => h; exact: (proj2 (@step2_eq _ _ gmres ex A b (affine_rsys A b) (fun _ _ => erefl) (fun _ _ _ => erefl) o dt s y ym e0 e1 h)).
rewrite tt => h; exact: (proj2 (@stepcn_eq _ _ gmres ex A b (affine_rsys A b) (fun _ _ => erefl) (fun _ _ _ => erefl) o dt s y e0 h)).
Qed.
(* when the documented equation has a unique solution the step returns it *)
Theorem C43_step_returns (A : 'M[F]_n) b (o : bdf F n) y hist dt :
  exact_solver gmres -> complete_solver gmres -> b_ys o = y :: hist -> (0 < b_order o <= 3)%N ->
  (1%:M - dt *: A) \in unitmx -> (1%:M - (2%:R * dt / 3%:R) *: A) \in unitmx -> (1%:M - (dt / 2%:R) *: A) \in unitmx ->
  exists s, bdf_step gmres (affine_rsys A b) o dt = Ok s.
Proof.
move=> ex co ey ho u1 u2 u3; rewrite /bdf_step.
have e0 : List.nth_error (b_ys o) 0 = Some y by rewrite ey.
have st1 := @step1_total _ _ gmres ex A b (affine_rsys A b) (fun _ _ => erefl) (fun _ _ _ => erefl) co o dt y e0 u1.
case: (b_order o) ho => [|[|[|[|k]]]] ho; [by []|exact: st1| | |by []].
  case: hist ey => [|ym [|z hist]] ey; rewrite ey; [exact: st1| |exact: st1].
  rewrite [_ == _]/=.
  have e1 : List.nth_error (b_ys o) 1 = Some ym by rewrite ey.
  exact: (@step2_total _ _ gmres ex A b (affine_rsys A b) (fun _ _ => erefl) (fun _ _ _ => erefl) co o dt y ym e0 e1 u2).
exact: (@stepcn_total _ _ gmres ex A b (affine_rsys A b) (fun _ _ => erefl) (fun _ _ _ => erefl) co o dt y e0 u3).
Qed.
(* any system: the value returned by backward Euler is one Newton correction of a point xp: it
   solves the equation linearised at xp, whose norm it did not undershoot by more than 1e-6 *)
Theorem C43_newton_last (sys : rsys F n) (o : bdf F n) y hist dt s :
  exact_solver gmres -> b_order o = 1%N -> b_ys o = y :: hist -> bdf_step gmres sys o dt = Ok s ->
  let tt := b_t o + dt + dt in
  exists xp,
   (xp - sr_y s) - dt *: rs_fjac sys tt xp (xp - sr_y s) = xp - y - dt *: rs_frhs sys tt xp /\
   norm2 xp - norm2 (sr_y s) < (10%:R ^+ 6)^-1.
Proof.
move=> ex ho ey; rewrite /bdf_step ho /bdf_step1 /rnth ey; cbn [List.nth_error rbind].
Local Transparent jac_newton.
rewrite /jac_newton; case e: (newton_loop _ _ _ _ _ _ _ _ _ _) => [y'|//]; cbn [rbind] => -[<-]; set tt := b_t o + dt + dt.
have [xp [h1 h2]] := newton_last ex e; exists xp; cbn [sr_y rres]; split; last exact: h2.
move: h1; rewrite /gfn_jac /fjac_shifted /shifted_apply /gfn_bdf1 scale1r !scaleNr -/tt => h1.
by rewrite addrC h1 addrC -addrA [- _ - y]addrC addrA.
Qed.
Local Opaque jac_newton.

(* ---------------- C44 ---------------- *)
(* the exact acceptance rule of the Newton solver: the first iterate whose norm does not fall
   short of its predecessor's by tol or more, if one of the first N has that property *)
Theorem C44_acceptance_rule t (G : F -> vec -> vec) (J : F -> vec -> vec -> vec) tol tl N il x0 x :
  let it := newton_iter gmres (G t) (J t) il tl x0 in
  jac_newton gmres t x0 G J tol tl N il = Ok x <->
  exists k, (k < N)%N /\ exists xk xk', [/\ it k = Some xk, it k.+1 = Some xk', x = xk'.1,
    norm2 xk.1 - norm2 xk'.1 < tol &
    forall i xi xi', (i < k)%N -> it i = Some xi -> it i.+1 = Some xi' -> tol <= norm2 xi.1 - norm2 xi'.1].
Proof.
Local Transparent jac_newton.
move=> it; rewrite /jac_newton.
have := @newton_loopP F n gmres t G J tol tl il N x0 0 (x0, 0) erefl _ x => /(_ _)[]; first by [].
move=> h1 h2; split.
  move/h1 => [k [hk _ [xk [xk' [e1 e2 e3 e4 e5]]]]]; exists k; split; first by [].
  exists xk, xk'; split=> // i xi xi' hi f1 f2; rewrite leNgt; exact: (e5 i xi xi' hi f1 f2).
move=> [k [hk [xk [xk' [e1 e2 e3 e4 e5]]]]]; apply: h2; exists k; split=> //.
exists xk, xk'; split=> // i xi xi' hi f1 f2; rewrite -leNgt; exact: (e5 i xi xi' hi f1 f2).
Qed.

(* ---------------- C45 ---------------- *)
(* what one step computes for any right-hand side: stage i+1 uses the time of stage i *)
Theorem C45_step_value (sys : rsys F n) order t0 y0 o dt :
  let f := rs_frhs sys in
  rrk_new t0 y0 order = Ok o ->
  rrk_step sys o dt = Ok (mkStep (t0 + dt) dt
    (match order with
     | 1%N => y0 + dt *: f t0 y0
     | 2%N => y0 + dt *: f t0 (y0 + (dt / 2%:R) *: f t0 y0)
     | 3%N => let k1 := f t0 y0 in let k2 := f t0 (y0 + (dt / 2%:R) *: k1) in
              let k3 := f (t0 + dt / 2%:R) (y0 - dt *: k1 + (2%:R * dt) *: k2) in
              y0 + (dt / 6%:R) *: (k1 + 4%:R *: k2 + k3)
     | _ => let k1 := f t0 y0 in let k2 := f t0 (y0 + (dt / 2%:R) *: k1) in
            let k3 := f (t0 + dt / 2%:R) (y0 + (dt / 2%:R) *: k2) in
            let k4 := f (t0 + dt / 2%:R) (y0 + dt *: k3) in
            y0 + (dt / 6%:R) *: (k1 + 2%:R *: k2 + 2%:R *: k3 + k4)
     end) (-1)).
Proof.
rewrite /rrk_new; case: ifP => // ho [<-].
rewrite (@rrk_stepE F n sys (RkInt order (bt_factory F order) t0 [:: y0]) order y0 t0 dt ho) //.
by case: order ho => [|[|[|[|[|?]]]]].
Qed.
(* autonomous systems: after any sequence of accept_step and reset_ic calls a step from state y is
   the classical formula of that order *)
Definition rrk_do (o : rkint F n) (p : sop F n) : rkint F n :=
  match p with SAccept r => rrk_accept o r | SReset t y => rrk_reset o t y end.
Theorem C45_autonomous (sys : rsys F n) order t0 y0 o l dt y :
  (forall s s' u, rs_frhs sys s u = rs_frhs sys s' u) ->
  rrk_new t0 y0 order = Ok o ->
  let o' := foldl rrk_do o l in
  List.nth_error (rk_ys o') 0 = Some y ->
  rrk_step sys o' dt = Ok (mkStep (rk_t o' + dt) dt (rk_formula order (rs_frhs sys) (rk_t o') y dt) (-1)).
Proof.
move=> au; rewrite /rrk_new; case: ifP => // ho [<-]; set o' := foldl _ _ _ => hy.
have [h1 h2] : rk_order o' = order /\ rk_bt o' = bt_factory F order.
  rewrite /o'; move: (t0) [:: y0]; elim: l {o' hy} => //= p l IH tt ys; case: p => [r|t1 y1]; exact: IH.
by rewrite (@rrk_stepE F n sys o' order y (rk_t o') dt ho h1 h2 erefl hy) lagged_autonomous.
Qed.
Theorem C45_orders t0 y0 order : (exists o, rrk_new t0 y0 order = Ok o :> result (rkint F n)) <-> (0 < order <= 4)%N.
Proof. by rewrite /rrk_new; case: ifP => h; split=> //; [eexists|case]. Qed.

(* ---------------- C46 ---------------- *)
Theorem C46_methods t0 (y0 : vec) m ev dim iom tol :
  (exists s, select_solver t0 y0 m ev dim iom tol = Ok s) <->
  (m = "bdf1" \/ m = "backeuler" \/ m = "bdf2" \/ m = "cn" \/
   ((0 < dim)%N /\ (m = "epi2" \/ m = "exprb2" \/ m = "epi3" \/ m = "exprb3")))%string.
Proof.
rewrite /select_solver /ep_new /ep_valid.
split.
  have eb a : String.eqb m a -> m = a by move/String.eqb_eq.
  case: ifP => [/orP [/eb ->|/eb ->] _|_]; first by left.
    by right; left.
  case: ifP => [/eb -> _|_]; first by right; right; left.
  case: ifP => [/eb -> _|_]; first by right; right; right; left.
  case: dim => [|dim]; first by move=> [].
  case: ifP => [h _|_ []//]; right; right; right; right; split=> //.
  by case/orP: h => [/orP [/orP [/eb|/eb]|/eb]|/eb] ->; [left|right;left|right;right;left|right;right;right].
case=> [->|[->|[->|[->|[d0 h]]]]]; try by eexists.
have -> : (dim == 0)%N = false by case: (dim) d0.
by case: h => [->|[->|[->|->]]]; eexists.
Qed.
Theorem C46_schedule (sys : rsys F n) evals y0 t0 dt N kwds ys ts m em dim iom tol o :
  get_str kwds "method"%string "epi2"%string = Ok m -> get_str kwds "expmv_method"%string "pade"%string = Ok em ->
  get_nat kwds "max_krylov_dim"%string 100 = Ok dim -> get_nat kwds "iom"%string 2 = Ok iom ->
  get_flt kwds "tol"%string (10%:R ^+ 8)^-1 = Ok tol -> get_nat kwds "osteps"%string 1 = Ok o -> (0 < o)%N ->
  integrate_wrapper_rs gmres sys evals y0 t0 dt N kwds = Ok (ys, ts) ->
  exists s0, [/\ select_solver t0 y0 m (evals em) dim iom tol = Ok s0, s_state s0 = Ok y0,
    out_at gmres sys dt s0 (output_indices o N ++ [:: N]) ys ts &
    ts = [seq t0 + i%:R * dt | i <- output_indices o N ++ [:: N]]].
Proof.
move=> e1 e2 e3 e4 e5 e6 o0; rewrite /integrate_wrapper_rs e1; cbn [rbind]; rewrite e2; cbn [rbind]; rewrite e3; cbn [rbind];
rewrite e4; cbn [rbind]; rewrite e5; cbn [rbind]; rewrite e6; cbn [rbind].
case e: (select_solver _ _ _ _ _ _ _) => [s0|//]; cbn [rbind].
have [hst ht] : s_state s0 = Ok y0 /\ s_time s0 = t0.
  move: e; rewrite /select_solver; do 3 (case: ifP => _; first by case=> <-).
  by case: ifP => // _; rewrite /ep_new; case: ifP => // _; cbn [rbind] => -[<-].
case el: (rs_loop _ _ _ _ _ _ _ _ _) => [[[s' ys'] ts']|//]; cbn [rbind].
have hs : has_state s0 by exists y0.
have [_ /(_ _ _ _ el)] := @rs_loopE F n gmres sys o dt s0 o0 hs N 0 s0 [::] [::] erefl (out_nil _ _ _ _) RustPanic.
rewrite add0n => -[hN hout].
have [y hy] := s_iter_state hs hN; rewrite hy; cbn [rbind] => -[<- <-].
have hall : out_at gmres sys dt s0 (output_indices o N ++ [:: N]) (ys' ++ [:: y]) (ts' ++ [:: s_time s']).
  by apply: out_at_cat => //; apply: out_cons hN hy _; apply: out_nil.
exists s0; split=> //.
elim: hall => //= i l y1 ys1 ts1 s1 h1 _ _ ->; by rewrite (s_iter_time h1) ht.
Qed.
(* it fails exactly when one of the N steps fails, with that step's error *)
Theorem C46_failure (sys : rsys F n) evals y0 t0 dt N kwds m em dim iom tol o s0 e :
  get_str kwds "method"%string "epi2"%string = Ok m -> get_str kwds "expmv_method"%string "pade"%string = Ok em ->
  get_nat kwds "max_krylov_dim"%string 100 = Ok dim -> get_nat kwds "iom"%string 2 = Ok iom ->
  get_flt kwds "tol"%string (10%:R ^+ 8)^-1 = Ok tol -> get_nat kwds "osteps"%string 1 = Ok o -> (0 < o)%N ->
  select_solver t0 y0 m (evals em) dim iom tol = Ok s0 ->
  (integrate_wrapper_rs gmres sys evals y0 t0 dt N kwds = Raise e <-> s_iter gmres sys dt s0 N = Raise e).
Proof.
move=> e1 e2 e3 e4 e5 e6 o0 es; rewrite /integrate_wrapper_rs e1; cbn [rbind]; rewrite e2; cbn [rbind]; rewrite e3; cbn [rbind];
rewrite e4; cbn [rbind]; rewrite e5; cbn [rbind]; rewrite e6; cbn [rbind]; rewrite es; cbn [rbind].
have hst : s_state s0 = Ok y0.
  move: es; rewrite /select_solver; do 3 (case: ifP => _; first by case=> <-).
  by case: ifP => // _; rewrite /ep_new; case: ifP => // _; cbn [rbind] => -[<-].
have hs : has_state s0 by exists y0.
have [h1 h2] := @rs_loopE F n gmres sys o dt s0 o0 hs N 0 s0 [::] [::] erefl (out_nil _ _ _ _) e.
rewrite add0n in h1 h2; case el: (rs_loop _ _ _ _ _ _ _ _ _) h1 h2 => [[[s' ys'] ts']|e'] h1 h2; cbn [rbind].
  have [hN _] := h2 _ _ _ erefl; have [y hy] := s_iter_state hs hN; rewrite hy hN; cbn [rbind]; by split.
by rewrite -h1; split=> -[->].
Qed.
(* osteps = 0 panics as soon as there is a step to take *)
Theorem C46_osteps_zero (sys : rsys F n) evals y0 t0 dt N kwds :
  get_nat kwds "osteps"%string 1 = Ok 0%N -> (0 < N)%N ->
  exists e, integrate_wrapper_rs gmres sys evals y0 t0 dt N kwds = Raise e.
Proof.
move=> e6; case: N => // N _; rewrite /integrate_wrapper_rs.
do 5 (match goal with |- context [rbind ?x _] => case: x => [?|e]; [cbn [rbind]|by exists e] end).
rewrite e6; cbn [rbind].
match goal with |- context [rbind ?x _] => case: x => [?|e]; [cbn [rbind]|by exists e] end.
by exists RustPanic.
Qed.

(* ---------------- C55 ---------------- *)
(* reset_ic: whatever was done before, every later step, state and time is that of a new solver
   built with the same options from (t1, y1) *)
Theorem C55_reset_fresh (sys : rsys F n) t0 (y0 : vec) m ev dim iom tol s0 t1 y1 l1 :
  select_solver t0 y0 m ev dim iom tol = Ok s0 ->
  exists s1, select_solver t1 y1 m ev dim iom tol = Ok s1 /\
  forall l2 dt, let a := s_run (s_reset (s_run s0 l1) t1 y1) l2 in let b := s_run s1 l2 in
    [/\ s_step gmres sys a dt = s_step gmres sys b dt, s_state a = s_state b & s_time a = s_time b].
Proof.
move=> /(select_config t1 y1) [s1 [e1 h]]; exists s1; split=> // l2 dt a b.
have hs : same_solver a b by apply: same_run; apply: h.
by have [e2 e3] := same_state hs; split=> //; apply: same_step.
Qed.

(* ---------------- C56 ---------------- *)
(* the option tol_fdt has no effect: any two option lists that agree on the other keys give the
   same result *)
Theorem C56_tol_fdt_ignored (sys : rsys F n) evals y0 t0 dt N k1 k2 :
  (forall k, k <> "tol_fdt"%string -> dict_get k1 k = dict_get k2 k) ->
  integrate_wrapper_rs gmres sys evals y0 t0 dt N k1 = integrate_wrapper_rs gmres sys evals y0 t0 dt N k2.
Proof.
move=> h; rewrite /integrate_wrapper_rs /get_str /get_nat /get_flt.
by rewrite !(h "method"%string, h "expmv_method"%string, h "max_krylov_dim"%string, h "iom"%string, h "tol"%string, h "osteps"%string).
Qed.
End P.
