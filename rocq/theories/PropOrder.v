(* PropOrder.v : C66, the order of accuracy of the steps. *)
From Coq Require Import Reals String.
From mathcomp Require Import all_ssreflect all_algebra.
From mathcomp Require Import complex ring.
From Verif Require Import Rstruct Summable MxBase MxSeries ProofsPhiErr ModelHist SpecHist ModelOps SpecOps SpecPhi ModelPhi ModelKrylov ModelDispatch ModelInt SpecInt ProofsInt ProofsInt5 SpecExact ProofsExact.
From Verif Require Import SpecProg SpecOrder SpecOrder2 ProofsJet ProofsJet2 ProofsJet3 ProofsOrder ProofsOrder2 ProofsOrder3 ProofsOrder4 ProofsOrder5 ProofsOrder6 ProofsOrder7 ProofsOrder8.
Set Implicit Arguments.
Unset Strict Implicit.
Unset Printing Implicit Defensive.
Import Order.TTheory GRing.Theory Num.Theory.
Local Open Scope ring_scope.
Local Opaque breakdown_tol norm2 phi_linop f_phi_k_pfd kiops_fixedsteps.

Section RB.
Variables (KW : Type) (K : kernels [rcfType of R]) (n : nat).
Notation vec := 'cV[R]_n.
Notation H := (hist R vec).
Variables (o : rbopts [rcfType of R]) (kw0 : KW) (sys : odesys [rcfType of R] KW n).
Variables (f : R -> vec -> vec) (t : R) (y ft : vec) (J : 'M[R]_n).
Variables (H2 : 'I_(1 + n) -> 'I_(1 + n) -> vec) (H3 : 'I_(1 + n) -> 'I_(1 + n) -> 'I_(1 + n) -> vec).
Variable (z : R -> vec).
Hypothesis smooth : smooth_system sys f t y ft J.
Hypothesis s2 : sym2 H2.
Hypothesis lip : lipschitz_near f t y.
Hypothesis sol : solves_near f t y z.
(* the time derivative is zero or passes the tolerance gate *)
Hypothesis gate : ft = 0 \/ (0 <= o_tol o /\ ~ maxnorm_le ft (o_tol o)).
Notation f0 := (f t y).
Notation acc := (phi_accurate K (o_kdim o) (o_iom o) J).
Notation kacc := (kiops_accurate K (o_kdim o) (o_iom o) J).

Let hg : ft = 0 \/ gate_open (o_tol o) ft.
Proof. by case: gate => [?|[h1 h2]]; [left|right; apply: gate_openP]. Qed.

Lemma ker_OB (Om : Type) (dt del : Om -> R) (good : Om -> Prop) (P : Om -> 'M[R]_n) (W : Om -> vec) (v : vec) :
  (forall w, good w -> 0 <= del w /\ del w <= 1) ->
  (forall w, good w -> ninf (W w - P w *m v) <= del w * ninf v) -> OB dt good del (fun w => W w - P w *m v).
Proof. move=> d01 h; exact: (OB_ker1 d01 h (OB_cst dt good v)). Qed.

Lemma exprb2_order (h : H) kw : current h t y -> has_taylor 1 f t y ft J H2 H3 ->
  local_error 2 z t acc (fun dt v => step_exprb2 K o sys h dt kw = Ok (mkStep (t + dt) dt v (-1))).
Proof.
move=> cur HT.
pose good (w : om n) := (0 <= oe w /\ oe w <= 1) /\
  (ninf (a1 w - phi 1 (od w *: J) *m (od w *: f0)) <= oe w * ninf (od w *: f0) /\
   ninf (a2 w - phi 2 (od w *: J) *m ft) <= oe w * ninf ft).
have d01 w : good w -> 0 <= oe w /\ oe w <= 1 by case.
have k1 : OB (@od n) good (ddel (@od n) (@oe n)) (fun w => a1 w - phi 1 (od w *: J) *m (od w *: f0)).
  apply: (OB_kerdt d01) => [w [_ [? _]] //|]; exact: OB_dtv (OB_cst _ _ _).
have k2 : OB (@od n) good (@oe n) (fun w => a2 w - phi 2 (od w *: J) *m ft).
  by apply: (ker_OB _ d01) => w [_ [_ ?]].
apply: (finish (exprb2_err d01 k1 k2) (vj_inc2_sol f t y ft J H2 H3) (vj_sol s2 (ltn0Sn 0) isT HT sol)).
move=> d e ha e0 e1; have [w1 [w2 [hs b1 b2]]] := exprb2_step kw smooth cur hg ha e0.
by exists (Om6 d e w1 w2 0 0 0).
Qed.
Lemma exprb3_order (h : H) kw : current h t y -> has_taylor 2 f t y ft J H2 H3 ->
  local_error 3 z t acc (fun dt v => step_exprb3 K o sys h dt kw = Ok (mkStep (t + dt) dt v (-1))).
Proof.
move=> cur HT.
pose good (w : om n) := (0 <= oe w /\ oe w <= 1) /\
  [/\ ninf (a1 w - phi 1 ((r1 * od w) *: J) *m f0) <= oe w * ninf f0,
   ninf (a2 w - phi 2 ((r1 * od w) *: J) *m ft) <= oe w * ninf ft &
   ninf (a3 w - phi 3 (od w *: J) *m rc f t y ft J (@od n) r1 (@a1 n) (@a2 n) w)
     <= oe w * ninf (rc f t y ft J (@od n) r1 (@a1 n) (@a2 n) w)].
have d01 w : good w -> 0 <= oe w /\ oe w <= 1 by case.
have k1 : OB (@od n) good (@oe n) (fun w => a1 w - phi 1 ((r1 * od w) *: J) *m f0).
  by apply: (ker_OB _ d01) => w [_ []].
have k2 : OB (@od n) good (@oe n) (fun w => a2 w - phi 2 ((r1 * od w) *: J) *m ft).
  by apply: (ker_OB _ d01) => w [_ []].
have k3 w : good w -> ninf (a3 w - phi 3 (od w *: J) *m rc f t y ft J (@od n) r1 (@a1 n) (@a2 n) w)
     <= oe w * ninf (rc f t y ft J (@od n) r1 (@a1 n) (@a2 n) w) by case=> _ [].
apply: (finish (exprb3_err s2 d01 lip k1 k2 HT k3) (vj_inc3 s2 HT) (vj_sol s2 (ltn0Sn 1) isT HT sol)).
move=> d e ha e0 e1; have [w1 [w2 [w3 [hs b1 b2 b3]]]] := exprb3_step kw smooth cur hg ha e0.
by exists (Om6 d e w1 w2 w3 0 0).
Qed.
Lemma pexprb4_order (h : H) kw : current h t y -> has_taylor 3 f t y ft J H2 H3 ->
  local_error 4 z t (fun dt del => acc dt del /\ kacc dt del) (fun dt v => step_pexprb4 K o sys h dt kw = Ok (mkStep (t + dt) dt v (-1))).
Proof.
move=> cur HT.
pose rh := rc f t y ft J (@od n) half (@a1 n) (@a2 n).
pose rr := rc f t y ft J (@od n) r1 (@a3 n) (@a4 n).
pose V3 w := od w *: (16%:R *: rh w - 2%:R *: rr w).
pose V4 w := od w *: (12%:R *: rr w - 48%:R *: rh w).
pose good (w : om n) := (0 <= oe w /\ oe w <= 1) /\
  [/\ ninf (a1 w - phi 1 ((half * od w) *: J) *m f0) <= oe w * ninf f0,
   ninf (a2 w - phi 2 ((half * od w) *: J) *m ft) <= oe w * ninf ft,
   ninf (a3 w - phi 1 ((r1 * od w) *: J) *m f0) <= oe w * ninf f0,
   ninf (a4 w - phi 2 ((r1 * od w) *: J) *m ft) <= oe w * ninf ft &
   ninf (a5 w - (phi 3 (od w *: J) *m V3 w + phi 4 (od w *: J) *m V4 w)) <= oe w * (ninf (V3 w) + ninf (V4 w))].
have d01 w : good w -> 0 <= oe w /\ oe w <= 1 by case.
have k1 : OB (@od n) good (@oe n) (fun w => a1 w - phi 1 ((half * od w) *: J) *m f0).
  by apply: (ker_OB _ d01) => w [_ []].
have k2 : OB (@od n) good (@oe n) (fun w => a2 w - phi 2 ((half * od w) *: J) *m ft).
  by apply: (ker_OB _ d01) => w [_ []].
have k3 : OB (@od n) good (@oe n) (fun w => a3 w - phi 1 ((r1 * od w) *: J) *m f0).
  by apply: (ker_OB _ d01) => w [_ []].
have k4 : OB (@od n) good (@oe n) (fun w => a4 w - phi 2 ((r1 * od w) *: J) *m ft).
  by apply: (ker_OB _ d01) => w [_ []].
have k5 w : good w -> ninf (a5 w - (phi 3 (od w *: J) *m V3 w + phi 4 (od w *: J) *m V4 w)) <= oe w * (ninf (V3 w) + ninf (V4 w)).
  by case=> _ [].
apply: (finish (pexprb4_err s2 d01 lip k1 k2 k3 k4 HT k5) (vj_inc4 s2 HT) (vj_sol s2 (ltn0Sn 2) isT HT sol)).
move=> d e [ha hk] e0 e1; have [u1 [u2 [w1 [w2 [b [hs [b1 b2] b3 b4 b5]]]]]] := pexprb4_step kw smooth cur hg ha hk e0.
by exists (Om6 d e u1 u2 w1 w2 b).
Qed.
Lemma epi2_order (h : H) kw : current h t y -> has_taylor 1 f t y ft J H2 H3 ->
  local_error 2 z t kacc (fun dt v => step_epi2 K o sys h dt kw = Ok (mkStep (t + dt) dt v (-1))).
Proof.
move=> cur HT.
pose V2 (w : om n) := od w ^+ 2 *: ft.
pose good (w : om n) := (0 <= oe w /\ oe w <= 1) /\
  ninf (a1 w - (phi 1 (od w *: J) *m (od w *: f0) + phi 2 (od w *: J) *m V2 w)) <= oe w * (ninf (od w *: f0) + ninf (V2 w)).
have d01 w : good w -> 0 <= oe w /\ oe w <= 1 by case.
have k1 w : good w -> ninf (a1 w - (phi 1 (od w *: J) *m (od w *: f0) + phi 2 (od w *: J) *m V2 w)) <= oe w * (ninf (od w *: f0) + ninf (V2 w)) by case.
have kO : OB (@od n) good (adt (@od n)) V2.
  by apply: OB_ext (OB_dtv (OB_adt_one (OB_dtv (OB_cst _ _ ft)))) => w _; rewrite /V2 expr2 scalerA.
have kD : OB (@od n) good (ddel (@od n) (@oe n)) (fun w => V2 w - V2 w).
  exists 0; split; first exact: lexx.
  by apply: ev_all => w _; rewrite subrr ninf0 mul0r.
have ee := epi_err (y := y) d01 kO kD k1.
apply: (finish (F := inc2 f t y ft J) (v := fun w => y + a1 w) _ (vj_inc2_sol f t y ft J H2 H3) (vj_sol s2 (ltn0Sn 0) isT HT sol)).
  by apply: OB_ext ee => w _; rewrite /inc2 /V2 -!scalemxAr.
move=> d e ha e0 e1; have [w1 [hs b1]] := epi2_step kw smooth cur ha e0.
by exists (Om6 d e w1 0 0 0 0).
Qed.
Lemma epi3_order (h : R -> H) (yp : R -> vec) kw :
  (forall dt, current (h dt) t y /\ previous (h dt) (t - dt) (yp dt)) ->
  (forall eps : R, 0 < eps -> exists d : R, 0 < d /\ forall dt, `|dt| <= d -> maxnorm_le (yp dt - z (t - dt)) (eps * `|dt| ^+ 2)) ->
  has_taylor 2 f t y ft J H2 H3 ->
  local_error 3 z t kacc (fun dt v => step_epi3 K o sys (h dt) dt kw = Ok (mkStep (t + dt) dt v (-1))).
Proof.
move=> cur hyp HT.
pose hp s := yp s - y.
have Hz := vj_sol s2 (ltn0Sn 1) isT HT sol.
have Hh : vj 2 hp (fun k => (-1) ^+ k *: zco f t y ft J H2 H3 k).
  have Hm := vj_subst (-1 : R_ringType) (vj_le (isT : (2 <= 3)%N) Hz).
  move=> i; have ho : so 2 (fun s => (yp s - z (t - s)) i 0).
    by move=> eps e0; have [d [d0 hd]] := hyp eps e0; exists d; split=> // s hs; apply: hd.
  apply: sj_ext (sj_so (Hm i) ho) => s; rewrite /hp !mulN1r !mxE ?RplusE.
  by move: (z _ i 0) (yp s i 0) (y i 0) => u1 u2 u3; ring.
pose V2 (w : om n) := (od w * (2%:R / 3%:R)) *: (f (t - od w) (y + hp (od w)) - f0 - J *m hp (od w) + od w *: ft) + od w ^+ 2 *: ft.
pose good (w : om n) := (0 <= oe w /\ oe w <= 1) /\
  ninf (a1 w - (phi 1 (od w *: J) *m (od w *: f0) + phi 2 (od w *: J) *m V2 w)) <= oe w * (ninf (od w *: f0) + ninf (V2 w)).
have d01 w : good w -> 0 <= oe w /\ oe w <= 1 by case.
have k1 w : good w -> ninf (a1 w - (phi 1 (od w *: J) *m (od w *: f0) + phi 2 (od w *: J) *m V2 w)) <= oe w * (ninf (od w *: f0) + ninf (V2 w)) by case.
have kO : OB (@od n) good (adt (@od n)) V2.
  have [a [a0 Ha]] := vj_epi3V s2 HT Hh; exact: (OB_jet0 (@od n) good (ltn0Sn 2) Ha a0).
have kD : OB (@od n) good (ddel (@od n) (@oe n)) (fun w => V2 w - V2 w).
  exists 0; split; first exact: lexx.
  by apply: ev_all => w _; rewrite subrr ninf0 mul0r.
have ee := epi_err (y := y) d01 kO kD k1.
apply: (finish (F := epi3v f t y ft J hp) (v := fun w => y + a1 w) _ (vj_epi3 s2 HT Hh) Hz).
  by apply: OB_ext ee => w _; rewrite /epi3v /V2.
move=> d e ha e0 e1; have [c p] := cur d; have [w1 [hs b1]] := epi3_step kw smooth c ha e0 p.
exists (Om6 d e w1 0 0 0 0); split=> //; split=> //.
move: b1; rewrite /V2 /hp; cbn [od oe a1].
by rewrite [y + (yp d - y)]addrC subrK [t - d - t]addrAC subrr add0r scaleNr opprK.
Qed.
Lemma order2' (accu : R -> R -> Prop) (step : R -> result (step_result R vec)) : has_taylor 1 f t y ft J H2 H3 ->
  (forall d e, accu d e -> 0 <= e -> exists w1 w2 : vec,
    [/\ step d = Ok (mkStep (t + d) d (y + d *: (w1 + d *: w2)) (-1)),
      ninf (w1 - phi 1 (d *: J) *m f0) <= e * ninf f0 & ninf (w2 - phi 2 (d *: J) *m ft) <= e * ninf ft]) ->
  local_error 2 z t accu (fun dt v => step dt = Ok (mkStep (t + dt) dt v (-1))).
Proof.
move=> HT hstep.
pose good (w : om n) := (0 <= oe w /\ oe w <= 1) /\
  (ninf (a1 w - phi 1 (od w *: J) *m f0) <= oe w * ninf f0 /\
   ninf (a2 w - phi 2 (od w *: J) *m ft) <= oe w * ninf ft).
have d01 w : good w -> 0 <= oe w /\ oe w <= 1 by case.
have k1 : OB (@od n) good (@oe n) (fun w => a1 w - phi 1 (od w *: J) *m f0).
  by apply: (ker_OB _ d01) => w [_ [? _]].
have k2 : OB (@od n) good (@oe n) (fun w => a2 w - phi 2 (od w *: J) *m ft).
  by apply: (ker_OB _ d01) => w [_ [_ ?]].
apply: (finish (exprb2_err' d01 k1 k2) (vj_inc2_sol f t y ft J H2 H3) (vj_sol s2 (ltn0Sn 0) isT HT sol)).
move=> d e ha e0 e1; have [w1 [w2 [hs b1 b2]]] := hstep d e ha e0.
by exists (Om6 d e w1 w2 0 0 0).
Qed.

Lemma local_error_weaken p (a a' : R -> R -> Prop) (S S' : R -> vec -> Prop) :
  (forall d e, a' d e -> a d e) -> (forall d v, S d v -> S' d v) -> local_error p z t a S -> local_error p z t a' S'.
Proof.
move=> ha hS [C [C0 hC]]; exists C; split=> // eps e0; have [h0 [h00 hh]] := hC eps e0; exists h0; split=> // d e h1 h2 h3 h4.
by have [v [s b]] := hh d e h1 h2 h3 (ha _ _ h4); exists v; split; [exact: hS|].
Qed.

(* the Krylov methods; the second component is the order *)
Theorem C66_krylov_order (h : H) kw p : current h t y -> has_taylor p.-1 f t y ft J H2 H3 ->
  List.In (o_method o, p) [:: ("exprb2", 2%N); ("exprb3", 3%N); ("pexprb4", 4%N); ("epi2", 2%N)]%string ->
  local_error p z t (fun dt del => acc dt del /\ kacc dt del)
    (fun dt v => rb_step K o kw0 sys h dt kw = Ok (h, mkStep (t + dt) dt v (-1))).
Proof.
move=> cur HT /=.
case=> [[hm hp]|[[hm hp]|[[hm hp]|[[hm hp]|//]]]]; move: HT; rewrite -hp /= => HT.
- by apply: local_error_weaken (exprb2_order (odflt kw0 kw) cur HT) => [d e [] //|d v e]; rewrite /rb_step -hm /= e.
- by apply: local_error_weaken (exprb3_order (odflt kw0 kw) cur HT) => [d e [] //|d v e]; rewrite /rb_step -hm /= e.
- by apply: local_error_weaken (pexprb4_order (odflt kw0 kw) cur HT) => [d e //|d v e]; rewrite /rb_step -hm /= e.
- by apply: local_error_weaken (epi2_order (odflt kw0 kw) cur HT) => [d e [] //|d v e]; rewrite /rb_step -hm /= e.
Qed.
(* epi3: the first step is one of exprb3; a later one needs the previous point t - dt with a state
   within o(dt^2) of the solution *)
Theorem C66_epi3_first_order (h : H) kw : o_method o = "epi3"%string -> current h t y -> hist_has_prev h = false ->
  has_taylor 2 f t y ft J H2 H3 ->
  local_error 3 z t acc (fun dt v => rb_step K o kw0 sys h dt kw = Ok (h, mkStep (t + dt) dt v (-1))).
Proof.
move=> hm cur hp HT; apply: local_error_weaken (exprb3_order (odflt kw0 kw) cur HT) => [d e //|d v e].
by rewrite /rb_step hm /= hp /= e.
Qed.
Theorem C66_epi3_order (h : R -> H) (yp : R -> vec) kw : o_method o = "epi3"%string ->
  (forall dt, current (h dt) t y /\ previous (h dt) (t - dt) (yp dt)) ->
  (forall eps : R, 0 < eps -> exists d : R, 0 < d /\
     forall dt, `|dt| <= d -> maxnorm_le (yp dt - z (t - dt)) (eps * `|dt| ^+ 2)) ->
  has_taylor 2 f t y ft J H2 H3 ->
  local_error 3 z t kacc (fun dt v => rb_step K o kw0 sys (h dt) dt kw = Ok (h dt, mkStep (t + dt) dt v (-1))).
Proof.
move=> hm cur hyp HT; apply: local_error_weaken (epi3_order (odflt kw0 kw) cur hyp HT) => [d e //|d v e].
have hp : hist_has_prev (h d).
  by have [_ [_ e2]] := cur d; rewrite /hist_has_prev; move: e2; case: (h_ys (h d)) => [|x [|x' r]].
by rewrite /rb_step hm /= hp /= e.
Qed.
Theorem C66_dense_order (h : H) kw : o_method o = "exprb2_dense"%string -> current h t y ->
  lo_dense (jl_op (os_fjac sys None t y)) = Ok J -> has_taylor 1 f t y ft J H2 H3 ->
  local_error 2 z t (dense_accurate K J)
    (fun dt v => rb_step K o kw0 sys h dt kw = Ok (h, mkStep (t + dt) dt v (-1))).
Proof.
move=> hm cur hd HT.
apply: (local_error_weaken _ _ (order2' HT (fun d e => @dense_step _ K _ sys _ _ _ _ _ _ smooth cur d e hd))) => // d v e.
by rewrite /rb_step hm /= e.
Qed.
Theorem C66_pfd_order (h : H) kw : o_method o = "exprb2_pfd"%string -> current h t y ->
  lo_dense (jl_op (os_fjac sys (Some (odflt kw0 kw)) t y)) = Ok J -> has_taylor 1 f t y ft J H2 H3 ->
  local_error 2 z t (fun dt del => ev_accurate (fun k v => f_phi_k_pfd (o_pfd o) (dt *: J) v k) J dt del)
    (fun dt v => rb_step K o kw0 sys h dt kw = Ok (h, mkStep (t + dt) dt v (-1))).
Proof.
move=> hm cur hd HT.
apply: (local_error_weaken _ _ (order2' HT (fun d e => @pfd_step _ _ o sys _ _ _ _ _ _ (odflt kw0 kw) smooth cur hg d e hd))) => // d v e.
by rewrite /rb_step hm /= e.
Qed.
Theorem C66_pfd_rs_order (h : H) kw : o_method o = "exprb2_pfd_rs"%string -> o_rust o -> current h t y ->
  lo_dense (jl_op (os_fjac sys None t y)) = Ok J -> has_taylor 1 f t y ft J H2 H3 ->
  local_error 2 z t (fun dt del => ev_accurate (fun k v => k_rs K J dt v k) J dt del)
    (fun dt v => rb_step K o kw0 sys h dt kw = Ok (h, mkStep (t + dt) dt v (-1))).
Proof.
move=> hm hr cur hd HT.
apply: (local_error_weaken _ _ (order2' HT (fun d e => @pfd_rs_step _ K _ o sys _ _ _ _ _ _ smooth cur hg d e hd))) => // d v e.
by rewrite /rb_step hm hr /= e.
Qed.
End RB.

(* ------------------------------------------------------------------ *)
(* the split methods: M is whatever matrix the linear part (or the cached operator) acts as; it need
   not be related to the Jacobian J of the right-hand side *)
Section Split.
Variables (KW : Type) (K : kernels [rcfType of R]) (n : nat).
Notation vec := 'cV[R]_n.
Notation H := (hist R vec).
Variables (kdim iom : nat) (sys : splitsys [rcfType of R] KW n).
Variables (f : R -> vec -> vec) (t : R) (y ft : vec) (J M : 'M[R]_n).
Variables (H2 : 'I_(1 + n) -> 'I_(1 + n) -> vec) (H3 : 'I_(1 + n) -> 'I_(1 + n) -> 'I_(1 + n) -> vec).
Variable (z : R -> vec).
Hypothesis frhs : forall kw s u, os_frhs (ss_sys sys) kw s u = f s u.
Hypothesis s2 : sym2 H2.
Hypothesis lip : lipschitz_near f t y.
Hypothesis sol : solves_near f t y z.
Notation f0 := (f t y).
Notation srem := (srem f t y M).
Notation c := twothirds.

Section Any.
Variables (accu : R -> R -> Prop) (step : R -> vec -> Prop).
Notation ans d e cc k w v := (ninf (w - phi k ((cc * d) *: M) *m v) <= e * ninf v).
Lemma order1k : has_taylor 1 f t y ft J H2 H3 ->
  (forall d e, accu d e -> 0 <= e -> exists w1, step d (y + w1) /\ ans d e r1 1%N w1 ((r1 * d) *: f0)) ->
  local_error 1 z t accu step.
Proof.
move=> HT hs.
pose good (w : om n) := (0 <= oe w /\ oe w <= 1) /\ ans (od w) (oe w) r1 1%N (a1 w) ((r1 * od w) *: f0).
have d01 w : good w -> 0 <= oe w /\ oe w <= 1 by case.
have k1 := @term_ker _ _ (@od n) (@oe n) good d01 M 1 r1 r1 (@a1 n) (fun=> f0) (OB_cst _ _ _) (fun w gw => proj2 gw).
apply: (finish (F := sp1 f t y M) (v := fun w => y + a1 w) _ (vj_sp1_sol f t y ft J H2 H3 M)
  (vj_le (isT : (1 <= 2)%N) (vj_sol s2 (ltn0Sn 0) isT HT sol))).
  by apply: OB_ext k1 => w _; rewrite /sp1 ?mul1r; vl.
move=> d e ha e0 e1; have [w1 [h1 h2]] := hs d e ha e0.
by exists (Om6 d e w1 0 0 0 0).
Qed.
Lemma order2k : has_taylor 1 f t y ft J H2 H3 ->
  (forall d e, accu d e -> 0 <= e -> exists w1 w2, let r := srem (r1 * d) w1 in
    [/\ step d (y + w1 + w2), ans d e r1 1%N w1 ((r1 * d) *: f0) & ans d e r1 2%N w2 ((r1 * d) *: r)]) ->
  local_error 2 z t accu step.
Proof.
move=> HT hs.
pose good (w : om n) := (0 <= oe w /\ oe w <= 1) /\
  (ans (od w) (oe w) r1 1%N (a1 w) ((r1 * od w) *: f0) /\
   ans (od w) (oe w) r1 2%N (a2 w) ((r1 * od w) *: srem (r1 * od w) (a1 w))).
have d01 w : good w -> 0 <= oe w /\ oe w <= 1 by case.
have k1 := @term_ker _ _ (@od n) (@oe n) good d01 M 1 r1 r1 (@a1 n) (fun=> f0) (OB_cst _ _ _) (fun w gw => proj1 (proj2 gw)).
have r10 : r1 != 0 by exact: oner_neq0.
apply: (finish (sp2_err (W2 := @a2 n) s2 d01 lip r10 HT k1 k1 _) (vj_sp2 s2 M HT r10) (vj_sol s2 (ltn0Sn 0) isT HT sol)).
  move=> hO; have := @term_ker _ _ (@od n) (@oe n) good d01 M 2 r1 r1 (@a2 n) _ hO (fun w gw => proj2 (proj2 gw)).
  by apply: OB_ext => w _; rewrite invr1.
move=> d e ha e0 e1; have [w1 [w2 [h1 h2 h3]]] := hs d e ha e0.
by exists (Om6 d e w1 w2 0 0 0).
Qed.
Lemma order3k : has_taylor 2 f t y ft J H2 H3 ->
  (forall d e, accu d e -> 0 <= e -> exists w1 w3 a b, let r := srem (c * d) w1 in
    let r3 := srem (c * d) (w1 + w3) in
    [/\ step d (y + a + b), ans d e c 1%N w1 ((c * d) *: f0), ans d e c 2%N w3 ((c * d) *: r),
       ans d e r1 1%N a ((r1 * d) *: f0) & ans d e r1 2%N b ((3%:R / 2%:R * d) *: r3)]) ->
  local_error 3 z t accu step.
Proof.
move=> HT hs.
pose good (w : om n) := (0 <= oe w /\ oe w <= 1) /\
  [/\ ans (od w) (oe w) c 1%N (a1 w) ((c * od w) *: f0),
   ans (od w) (oe w) c 2%N (a2 w) ((c * od w) *: srem (c * od w) (a1 w)),
   ans (od w) (oe w) r1 1%N (a3 w) ((r1 * od w) *: f0) &
   ans (od w) (oe w) r1 2%N (a4 w) ((3%:R / 2%:R * od w) *: srem (c * od w) (a1 w + a2 w))].
have d01 w : good w -> 0 <= oe w /\ oe w <= 1 by case.
have g1 w : good w -> ans (od w) (oe w) c 1%N (a1 w) ((c * od w) *: f0) by case=> _ [].
have g2 w : good w -> ans (od w) (oe w) c 2%N (a2 w) ((c * od w) *: srem (c * od w) (a1 w)) by case=> _ [].
have g3 w : good w -> ans (od w) (oe w) r1 1%N (a3 w) ((r1 * od w) *: f0) by case=> _ [].
have g4 w : good w -> ans (od w) (oe w) r1 2%N (a4 w) ((3%:R / 2%:R * od w) *: srem (c * od w) (a1 w + a2 w)) by case=> _ [].
have k1 := @term_ker _ _ (@od n) (@oe n) good d01 M 1 c c (@a1 n) (fun=> f0) (OB_cst _ _ _) g1.
have k3 := @term_ker _ _ (@od n) (@oe n) good d01 M 1 r1 r1 (@a3 n) (fun=> f0) (OB_cst _ _ _) g3.
apply: (finish (sp3_err (x3 := fun w => a1 w + a2 w) (W2 := @a4 n) s2 d01 lip HT k1 k3 _ _) (vj_sp3 s2 M HT) (vj_sol s2 (ltn0Sn 1) isT HT sol)).
- move=> hO; have := @term_ker _ _ (@od n) (@oe n) good d01 M 2 c c (@a2 n) _ hO g2.
  by apply: OB_ext => w _; rewrite [a1 w + a2 w - _]addrAC subrr add0r.
- by move=> hO; exact: (term_ker d01 hO g4).
move=> d e ha e0 e1; have [w1 [w3 [a [b [h1 h2 h3 h4 h5]]]]] := hs d e ha e0.
by exists (Om6 d e w1 w3 a b 0).
Qed.
Lemma order2d : has_taylor 1 f t y ft J H2 H3 ->
  (forall d e, accu d e -> 0 <= e -> exists wc w1 w2, let r := srem (c * d) ((c * d) *: wc) in
    [/\ step d (y + (r1 * d) *: w1 + (c^-1 * d) *: w2), ans d e c 1%N wc f0, ans d e r1 1%N w1 f0 & ans d e r1 2%N w2 r]) ->
  local_error 2 z t accu step.
Proof.
move=> HT hs.
pose good (w : om n) := (0 <= oe w /\ oe w <= 1) /\
  [/\ ans (od w) (oe w) c 1%N (a1 w) f0, ans (od w) (oe w) r1 1%N (a2 w) f0 &
      ans (od w) (oe w) r1 2%N (a3 w) (srem (c * od w) ((c * od w) *: a1 w))].
have d01 w : good w -> 0 <= oe w /\ oe w <= 1 by case.
have g1 w : good w -> ans (od w) (oe w) c 1%N (a1 w) f0 by case=> _ [].
have g2 w : good w -> ans (od w) (oe w) r1 1%N (a2 w) f0 by case=> _ [].
have g3 w : good w -> ans (od w) (oe w) r1 2%N (a3 w) (srem (c * od w) ((c * od w) *: a1 w)) by case=> _ [].
have k1 := @term_ker' _ _ (@od n) (@oe n) good d01 M 1 c c (@a1 n) (fun=> f0) (OB_cst _ _ _) g1.
have k2 := @term_ker' _ _ (@od n) (@oe n) good d01 M 1 r1 r1 (@a2 n) (fun=> f0) (OB_cst _ _ _) g2.
apply: (finish (sp2_err (W2 := fun w => (c^-1 * od w) *: a3 w) s2 d01 lip c0 HT k1 k2 _) (vj_sp2 s2 M HT c0) (vj_sol s2 (ltn0Sn 0) isT HT sol)).
  by move=> hO; exact: (term_ker' d01 _ hO g3).
move=> d e ha e0 e1; have [wc [w1 [w2 [h1 h2 h3 h4]]]] := hs d e ha e0.
by exists (Om6 d e wc w1 w2 0 0).
Qed.
Lemma order3d : has_taylor 2 f t y ft J H2 H3 ->
  (forall d e, accu d e -> 0 <= e -> exists wc w3 w1 w2, let r := srem (c * d) ((c * d) *: wc) in
    let r3 := srem (c * d) ((c * d) *: wc + (c * d) *: w3) in
    [/\ step d (y + (r1 * d) *: w1 + (3%:R / 2%:R * d) *: w2), ans d e c 1%N wc f0, ans d e c 2%N w3 r,
       ans d e r1 1%N w1 f0 & ans d e r1 2%N w2 r3]) ->
  local_error 3 z t accu step.
Proof.
move=> HT hs.
pose good (w : om n) := (0 <= oe w /\ oe w <= 1) /\
  [/\ ans (od w) (oe w) c 1%N (a1 w) f0,
   ans (od w) (oe w) c 2%N (a2 w) (srem (c * od w) ((c * od w) *: a1 w)),
   ans (od w) (oe w) r1 1%N (a3 w) f0 &
   ans (od w) (oe w) r1 2%N (a4 w) (srem (c * od w) ((c * od w) *: a1 w + (c * od w) *: a2 w))].
have d01 w : good w -> 0 <= oe w /\ oe w <= 1 by case.
have g1 w : good w -> ans (od w) (oe w) c 1%N (a1 w) f0 by case=> _ [].
have g2 w : good w -> ans (od w) (oe w) c 2%N (a2 w) (srem (c * od w) ((c * od w) *: a1 w)) by case=> _ [].
have g3 w : good w -> ans (od w) (oe w) r1 1%N (a3 w) f0 by case=> _ [].
have g4 w : good w -> ans (od w) (oe w) r1 2%N (a4 w) (srem (c * od w) ((c * od w) *: a1 w + (c * od w) *: a2 w)) by case=> _ [].
have k1 := @term_ker' _ _ (@od n) (@oe n) good d01 M 1 c c (@a1 n) (fun=> f0) (OB_cst _ _ _) g1.
have k3 := @term_ker' _ _ (@od n) (@oe n) good d01 M 1 r1 r1 (@a3 n) (fun=> f0) (OB_cst _ _ _) g3.
apply: (finish (sp3_err (x3 := fun w => (c * od w) *: a1 w + (c * od w) *: a2 w) (W2 := fun w => (3%:R / 2%:R * od w) *: a4 w)
   s2 d01 lip HT k1 k3 _ _) (vj_sp3 s2 M HT) (vj_sol s2 (ltn0Sn 1) isT HT sol)).
- move=> hO; have := @term_ker' _ _ (@od n) (@oe n) good d01 M 2 c c (@a2 n) _ hO g2.
  by apply: OB_ext => w _; rewrite [_ + _ *: a2 w - _]addrAC subrr add0r.
- by move=> hO; exact: (term_ker' d01 _ hO g4).
move=> d e ha e0 e1; have [wc [w3 [a [b [h1 h2 h3 h4 h5]]]]] := hs d e ha e0.
by exists (Om6 d e wc w3 a b 0).
Qed.
End Any.

(* Krylov: exp1, exp2, exp3 *)
Theorem C66_split_order (ob : spobj [rcfType of R] n) kw m p : current (sp_hist ob) t y ->
  acts_as (ss_fl sys t y) M -> has_taylor (maxn p.-1 1) f t y ft J H2 H3 ->
  List.In (m, p) [:: ("exp1", 1%N); ("exp2", 2%N); ("exp3", 3%N)]%string ->
  local_error p z t (phi_accurate K kdim iom M)
    (fun dt v => sp_step K kdim iom m sys ob dt kw = Ok (ob, mkStep (t + dt) dt v (-1))).
Proof.
move=> cur hl HT /=.
case=> [[<- hp]|[[<- hp]|[[<- hp]|//]]]; move: HT; rewrite -hp /= => HT.
- apply: (order1k HT) => d e ha e0; have [w1 [h1 h2]] := exp1_step frhs hl cur ha e0.
  by exists w1; rewrite /sp_step /= h1.
- apply: (order2k HT) => d e ha e0; have [w1 [w2 [h1 h2 h3]]] := exp2_step frhs hl cur ha e0.
  by exists w1, w2; split=> //; rewrite /sp_step /= h1.
- apply: (order3k HT) => d e ha e0; have [w1 [w3 [a [b [h1 h2 h3 h4 h5]]]]] := exp3_step frhs hl cur ha e0.
  by exists w1, w3, a, b; split=> //; rewrite /sp_step /= h1.
Qed.

(* the dense variants.  [in_use]: the object has no cache yet and the linear part at (t,y) acts as M,
   or it holds the operator and phi matrices of M computed earlier for this step size (at whatever
   time and state: the cache is not refreshed, C32) *)
Definition in_use (m : string) (ob : spobj [rcfType of R] n) (dt : R) : Prop :=
  current (sp_hist ob) t y /\
  ((sp_dt ob = None /\ acts_as (ss_fl sys t y) M /\ lo_dense (ss_fl sys t y) = Ok M) \/
   (exists lop d, [/\ sp_dt ob = Some dt, dt != 0, sp_cache ob = Some (lop, d), acts_as lop M &
      forall cks, List.In (m, cks) [:: ("exp1_dense"%string, cks1 _); ("exp2_dense"%string, cks2 _); ("exp3_dense"%string, cks3 _)] ->
        fill_dict K dt M cks [::] = Ok d])).
Lemma in_use_upd m ob dt cks : in_use m ob dt ->
  List.In (m, cks) [:: ("exp1_dense"%string, cks1 _); ("exp2_dense"%string, cks2 _); ("exp3_dense"%string, cks3 _)] ->
  exists lop, acts_as lop M /\ exists f' : phidict [rcfType of R] n -> spobj [rcfType of R] n,
  forall d, fill_dict K dt M cks [::] = Ok d -> update_dense_phiLs K sys ob dt cks = Ok (f' d, (lop, d)).
Proof.
move=> [cur hu] hm; case: hu => [[e1 [e2 e3]]|[lop [d [e1 e2 e3 e4 /(_ _ hm) e5]]]].
  exists (ss_fl sys t y); split=> //.
  exists (fun d => SpObj (sp_hist ob) (Some dt) (Some (ss_fl sys t y, d))) => d hd.
  by rewrite /update_dense_phiLs /cache_hit e1 (current_y cur); cbn [rbind]; rewrite (current_t cur) e3; cbn [rbind]; rewrite hd.
exists lop; split=> //; exists (fun=> ob) => d'; rewrite e5 => -[<-].
by rewrite /update_dense_phiLs /cache_hit e1 e2 eqxx e3.
Qed.
Theorem C66_split_dense_order (ob : R -> spobj [rcfType of R] n) kw m p : (forall dt, in_use m (ob dt) dt) ->
  has_taylor (maxn p.-1 1) f t y ft J H2 H3 ->
  List.In (m, p) [:: ("exp1_dense", 1%N); ("exp2_dense", 2%N); ("exp3_dense", 3%N)]%string ->
  local_error p z t (dense_accurate K M)
    (fun dt v => exists ob', sp_step K kdim iom m sys (ob dt) dt kw = Ok (ob', mkStep (t + dt) dt v (-1))).
Proof.
move=> hu HT /=.
case=> [[hm hp]|[[hm hp]|[[hm hp]|//]]]; move: HT hu; rewrite -hp -hm /= => HT hu.
- apply: (order1k HT) => d e ha e0.
  have [lop [hl [f' hf]]] := in_use_upd (hu d) (or_introl erefl).
  have [D hD] : exists D, fill_dict K d M (cks1 _) [::] = Ok D by have [D [P [? _ _]]] := fill1 ha e0; exists D.
  have hf' : forall D', fill_dict K d M (cks1 _) [::] = Ok D' -> update_dense_phiLs K sys (ob d) d (cks1 _) = Ok (f' D, (lop, D')).
    by move=> D' hD'; rewrite (hf D' hD'); move: hD; rewrite hD' => -[->].
  have [w1 [h1 h2]] := exp1_dense_step frhs (proj1 (hu d)) ha e0 hf'.
  exists ((r1 * d) *: w1); split; first by exists (f' D); rewrite /sp_step /= h1.
  by rewrite -scalemxAr -scalerBr !ninfZ mulrCA ler_wpmul2l.
- apply: (order2d HT) => d e ha e0.
  have [lop [hl [f' hf]]] := in_use_upd (hu d) (or_intror (or_introl erefl)).
  have [D hD] : exists D, fill_dict K d M (cks2 _) [::] = Ok D by have [D [? [? [? [? _ _ _ _]]]]] := fill2 ha e0; exists D.
  have hf' : forall D', fill_dict K d M (cks2 _) [::] = Ok D' -> update_dense_phiLs K sys (ob d) d (cks2 _) = Ok (f' D, (lop, D')).
    by move=> D' hD'; rewrite (hf D' hD'); move: hD; rewrite hD' => -[->].
  have [wc [w1 [w2 [h1 h2 h3 h4]]]] := exp2_dense_step frhs (proj1 (hu d)) hl ha e0 hf'.
  by exists wc, w1, w2; split=> //; exists (f' D); rewrite /sp_step /= h1.
- apply: (order3d HT) => d e ha e0.
  have [lop [hl [f' hf]]] := in_use_upd (hu d) (or_intror (or_intror (or_introl erefl))).
  have [D hD] : exists D, fill_dict K d M (cks3 _) [::] = Ok D by have [D [? [? [? [? [? _ _ _ _]]]]]] := fill3 ha e0; exists D.
  have hf' : forall D', fill_dict K d M (cks3 _) [::] = Ok D' -> update_dense_phiLs K sys (ob d) d (cks3 _) = Ok (f' D, (lop, D')).
    by move=> D' hD'; rewrite (hf D' hD'); move: hD; rewrite hD' => -[->].
  have [wc [w3 [w1 [w2 [h1 h2 h3 h4 h5]]]]] := exp3_dense_step frhs (proj1 (hu d)) hl ha e0 hf'.
  by exists wc, w3, w1, w2; split=> //; exists (f' D); rewrite /sp_step /= h1.
Qed.
End Split.

(* rk4 *)
Theorem C66_rk4_order KW n (sys : odesys [rcfType of R] KW n) (f : R -> 'cV[R]_n -> 'cV[R]_n) (t : R) (y ft : 'cV[R]_n)
    (J : 'M[R]_n) H2 H3 (z : R -> 'cV[R]_n) (h : hist R 'cV[R]_n) :
  (forall kw s u, os_frhs sys kw s u = f s u) -> sym2 H2 -> has_taylor 3 f t y ft J H2 H3 ->
  solves_near f t y z -> current h t y ->
  step_order 4 z t (fun dt v => rk_step "rk4" sys h dt None = Ok (h, mkStep (t + dt) dt v (-1))).
Proof.
move=> frhs s2 HT sol cur eps e0; have [d [d0 hd]] := vj_diff (vj_rk4 s2 HT) (vj_sol s2 (ltn0Sn 2) isT HT sol) e0.
exists d; split=> // s hs; exists (y + rk4v f t y s); split; first by rewrite /rk_step /= (rk4_step s frhs cur).
apply/maxnorm_ninf; first by rewrite mulr_ge0 ?exprn_ge0 ?normr_ge0 // ltW.
by apply: le_trans (hd s hs); rewrite opprB addrCA addrA.
Qed.
