(* PropRustInv.v : C72, linear invariants in runs of the crate's integrators. *)
From Coq Require Import Reals String.
From mathcomp Require Import all_ssreflect all_algebra.
From mathcomp Require Import ring.
From Verif Require Import Rstruct MxBase ModelHist ModelOps ModelPhi ModelKrylov ModelInt ModelRust SpecRust.
From Verif Require Import ProofsKrylov ProofsKrylov2 ProofsRust ProofsRust2 ProofsRust3 ProofsRust5 PropRust.
Set Implicit Arguments.
Unset Strict Implicit.
Unset Printing Implicit Defensive.
Import Order.TTheory GRing.Theory Num.Theory.
Local Open Scope ring_scope.
Local Opaque newton_loop norm2 breakdown_tol.

(* w.y is a linear invariant of sys: w annihilates the right-hand side and every Jacobian-vector product (the operator
   need not be linear: finite differences of such a right-hand side qualify) *)
Definition rs_invariant (F : rcfType) n (sys : rsys F n) (w : 'rV[F]_n) : Prop :=
  (forall t u, w *m rs_frhs sys t u = 0) /\ forall t u v, w *m rs_fjac sys t u v = 0.

Section Ann.
Variable F : rcfType.
Lemma rarn_ann n (w : 'rV[F]_n) L s m iom todo k hs qs : (forall v, w *m L v = 0) -> (forall j, w *m qs j = 0) ->
  forall j, w *m (rarn_loop L s m iom todo k hs qs).1.2 j = 0.
Proof.
move=> hL; elim: todo k hs qs => [|todo IH] k hs qs hq //=.
case e: rarn_inner => [[hs' qs'] bk].
have hq' j : w *m qs' j = 0.
  move: e; rewrite /rarn_inner.
  have := @mgs_annih F n w qs k (iota (k - iom) (k.+1 - (k - iom))) hs (s *: L (qs k)) hq.
  rewrite -scalemxAr hL scaler0 => /(_ erefl); case: foldl => hs1 qv /= hv [_ <- _].
  by case: ifP => // _; rewrite /upd1; case: ifP => // _; rewrite -scalemxAr hv scaler0.
by case: (bk) => //=; apply: IH.
Qed.
Lemma Q_ann n k (w : 'rV[F]_n) (qs : nat -> 'cV[F]_n) (x : 'cV[F]_k) : (forall j, w *m qs j = 0) -> w *m ((\matrix_(i, j) qs j i 0) *m x) = 0.
Proof.
move=> hq; rewrite mulmxA; have -> : w *m \matrix_(i < n, j < k) qs j i 0 = 0; last by rewrite mul0mx.
apply/matrixP => i j; rewrite !mxE; have /matrixP /(_ i 0) := hq j; rewrite !mxE => h; rewrite -[RHS]h.
by apply: eq_bigr => l _; rewrite mxE.
Qed.
Lemma rarnoldi_ann n (w : 'rV[F]_n) L s b dim iom st : (forall v, w *m L v = 0) -> w *m b = 0 ->
  rarnoldi L s b dim iom = Ok st -> let: existT k (Q, H) := st in forall x : 'cV[F]_k, w *m (Q *m x) = 0.
Proof.
move=> hL hb; rewrite /rarnoldi; case: ifP => // _; case: ifP => // _.
set q := upd1 _ _ _; have hq j : w *m q j = 0 by rewrite /q /upd1; case: ifP => _; rewrite ?mulmx0 // -scalemxAr hb scaler0.
have := rarn_ann s (minn dim n) iom (minn dim n) 0 (fun _ _ => 0) hL hq.
by case: rarn_loop => [[hs qs] k'] /= hqs [<-] x /=; apply: Q_ann.
Qed.
Lemma aphi_ann n (w : 'rV[F]_n) (ev : evaluator F) L dt v j dim iom x : (forall v, w *m L v = 0) -> w *m v = 0 ->
  apply_phi_linop ev L dt v j dim iom = Ok x -> w *m x = 0.
Proof.
move=> hL hv; rewrite /apply_phi_linop; case e: rarnoldi => [st|//]; have := rarnoldi_ann hL hv e.
by case: st {e} => k [q h] /= H [<-]; rewrite -scalemxAr H scaler0.
Qed.
Lemma alin_ann n (w : 'rV[F]_n) (ev : evaluator F) L dt v dim iom x : (forall v, w *m L v = 0) -> w *m v = 0 ->
  apply_linop ev L dt v dim iom = Ok x -> w *m x = 0.
Proof.
move=> hL hv; rewrite /apply_linop; case e: rarnoldi => [st|//]; have := rarnoldi_ann hL hv e.
by case: st {e} => k [q h] /= H [<-]; rewrite -scalemxAr H scaler0.
Qed.
Lemma bmat_ann n p (w : 'rV[F]_n) (vb : seq 'cV[F]_n) : (forall i, w *m nth 0 vb i = 0) -> w *m ext_bmat p vb = 0.
Proof.
move=> hv; rewrite /ext_bmat; have : w *m (0 : 'M[F]_(n, p)) = 0 by rewrite mulmx0.
elim: (zip _ _) (0 : 'M[F]_(n, p)) => [|ki l IH] B hB //=; apply: IH.
apply/matrixP => i j; rewrite !mxE; case: (altP ((j : nat) =P ki.1)) => e.
  have /matrixP /(_ i 0) := hv ki.2; rewrite !mxE => h; rewrite -[RHS]h.
  by apply: eq_bigr => l' _; rewrite mxE e eqxx.
have /matrixP /(_ i j) := hB; rewrite !mxE => h; rewrite -[RHS]h.
by apply: eq_bigr => l' _; rewrite mxE (negPf e).
Qed.
Lemma kiops_ann n (w : 'rV[F]_n) (ev : evaluator F) L t dt vb dim iom x : (forall v, w *m L v = 0) -> (forall i, w *m nth 0 vb i = 0) ->
  rkiops ev L t dt vb dim iom = Ok x -> w *m x = 0.
Proof.
move=> hL hv; rewrite /rkiops; set p := (size vb).-1; case e: apply_linop => [y|//] [<-].
suff : row_mx w 0 *m y = 0 by rewrite -[y in _ *m y]vsubmxK mul_row_col mul0mx addr0.
apply: alin_ann e.
  by move=> v; rewrite /ext_apply mul_row_col mul0mx addr0 mulmxDr -scalemxAr hL scaler0 add0r mulmxA bmat_ann ?mul0mx.
by rewrite /ext_get_v mul_row_col mul0mx addr0.
Qed.
End Ann.
Local Opaque apply_phi_linop rkiops.

Section Inv.
Variables (F : rcfType) (n : nat) (sys : rsys F n) (w : 'rV[F]_n).
Hypothesis hi : rs_invariant sys w.
Notation vec := 'cV[F]_n.
(* every state kept by an object has the value q *)
Definition all_ys (q : 'M[F]_1) (ys : seq vec) : Prop := forall i y, List.nth_error ys i = Some y -> w *m y = q.
Lemma all_ys_cons q y ys : w *m y = q -> all_ys q ys -> all_ys q (y :: ys).
Proof. by move=> h1 h2 [|i] y' => [[<-]|]; [exact: h1|exact: h2]. Qed.
Lemma rnth_ys q ys i y : all_ys q ys -> rnth ys i = Ok y -> w *m y = q.
Proof. by rewrite /rnth => h; case e: List.nth_error => [y'|//] [<-]; exact: h e. Qed.
Lemma fphi2_ann o y J dt p : (forall v, w *m J v = 0) -> fphi2_v sys o y (rs_frhs sys (ep_t o) y) J dt = Ok p -> w *m p.1 = 0 /\ w *m p.2 = 0.
Proof.
move=> hJ; rewrite /fphi2_v; case: ifP => [_ [<-]|_]; first by rewrite !mulmx0.
have hv : w *m frhs_fdt sys o y (rs_frhs sys (ep_t o) y) (del_t8 F) = 0 by rewrite /frhs_fdt -scalemxAr mulmxBr !hi.1 subr0 scaler0.
case: ifP => [_|_ [<-]]; last by rewrite mulmx0.
by case e: apply_phi_linop => [x|//] [<-]; rewrite -scalemxAr (aphi_ann hJ hv e) scaler0.
Qed.
Lemma remf_ann o tr yr y J v r : (forall v, w *m J v = 0) -> w *m v = 0 -> ep_remf sys o tr yr (rs_frhs sys (ep_t o) y) J v = Ok r -> w *m r = 0.
Proof.
move=> hJ hv; rewrite /ep_remf; case: (rnth _ _) => [t|//]; cbn [rbind]; case: (rnth _ _) => [y1|//]; cbn [rbind] => -[<-].
by rewrite !mulmxBr !hi.1 hJ -scalemxAr hv scaler0 !subr0.
Qed.
Lemma ep_ann o q dt r : all_ys q (ep_ys o) -> ep_step sys o dt = Ok r -> w *m sr_y r = q.
Proof.
move=> hq; have hJ t y v : w *m rs_fjac sys t y v = 0 by exact: hi.2.
have s2 : ep_step2 sys o dt = Ok r -> w *m sr_y r = q.
  rewrite /ep_step2; case ey: (rnth _ _) => [y|//]; cbn [rbind]; case ep: (fphi2_v _ _ _ _ _ _) => [p|//]; cbn [rbind].
  case ea: (apply_phi_linop _ _ _ _ _ _ _) => [x|//]; cbn [rbind] => -[<-]; cbn [rres sr_y].
  have [h1 _] := fphi2_ann (hJ _ _) ep; rewrite !mulmxDr h1 (aphi_ann (hJ _ _) _ ea) ?addr0; first exact: rnth_ys hq ey.
  by rewrite -scalemxAr hi.1 scaler0.
rewrite /ep_step; case: ifP => // _; case: ifP => [_|_].
  case: ifP => // _; rewrite /ep_step3; case ey: (rnth _ 0) => [y|//]; cbn [rbind].
  case ey1: (rnth (ep_ys o) 1) => [yp|//]; cbn [rbind]; case: (rnth (ep_ts o) 1) => [tp|//]; cbn [rbind].
  case ep: (fphi2_v _ _ _ _ _ _) => [p|//]; cbn [rbind]; have [h1 h2] := fphi2_ann (hJ _ _) ep.
  case er: (ep_remf _ _ _ _ _ _ _) => [rn|//]; cbn [rbind]; have h3 := remf_ann (hJ _ _) h2 er.
  case ek: (rkiops _ _ _ _ _ _ _) => [x|//]; cbn [rbind] => -[<-]; cbn [rres sr_y].
  rewrite !mulmxDr h1 (kiops_ann (hJ _ _) _ ek) ?addr0; first exact: rnth_ys hq ey.
  by move=> [|[|[|[|i]]]]; cbn [nth]; rewrite ?mulmx0 // -scalemxAr ?hi.1 ?h3 scaler0.
case: ifP => // _; rewrite /ep_step_exprb32; case ey: (rnth _ 0) => [y|//]; cbn [rbind].
case ep: (fphi2_v _ _ _ _ _ _) => [p|//]; cbn [rbind]; have [h1 h2] := fphi2_ann (hJ _ _) ep.
case ea: (apply_phi_linop _ _ _ _ 1 _ _) => [x|//]; cbn [rbind].
case er: (ep_remf _ _ _ _ _ _ _) => [rn|//]; cbn [rbind]; have h3 := remf_ann (hJ _ _) h2 er.
case e3: (apply_phi_linop _ _ _ _ 3 _ _) => [x3|//]; cbn [rbind] => -[<-]; cbn [rres sr_y].
rewrite !mulmxDr -[w *m (_ *: _)]scalemxAr h1 (aphi_ann (hJ _ _) h3 e3) (aphi_ann (hJ _ _) _ ea) ?scaler0 ?addr0; first exact: rnth_ys hq ey.
by rewrite -scalemxAr hi.1 scaler0.
Qed.
Variable gmres : (vec -> vec) -> vec -> vec -> nat -> F -> option vec.
(* each Newton correction with an exact solution of its linear system restores the invariant *)
Lemma newton_ann t (G : F -> vec -> vec) sc dt tol tl il N x a x' q : exact_solver gmres ->
  (forall y, w *m G t y = w *m y - q) -> newton_loop gmres t G (gfn_jac sys sc dt) tol tl il N x a = Ok x' -> w *m x' = q.
Proof.
move=> ex hG h; have [xp [e _]] := newton_last ex h.
have : w *m gfn_jac sys sc dt t xp (xp - x') = w *m G t xp by rewrite e.
rewrite hG /gfn_jac /fjac_shifted /shifted_apply scale1r mulmxDr -scalemxAr hi.2 scaler0 add0r mulmxBr.
by move/addrI/oppr_inj.
Qed.
Lemma bdf_ann o q dt r : exact_solver gmres -> all_ys q (b_ys o) -> bdf_step gmres sys o dt = Ok r -> w *m sr_y r = q.
Proof.
move=> ex hq.
have s1 : bdf_step1 gmres sys o dt = Ok r -> w *m sr_y r = q.
  rewrite /bdf_step1; case ey: (rnth _ _) => [y|//]; cbn [rbind]; rewrite /jac_newton.
  case e: newton_loop => [x|//]; cbn [rbind] => -[<-]; cbn [rres sr_y]; apply: newton_ann ex _ e => y'.
  by rewrite /gfn_bdf1 mulmxDr mulmxBr -scalemxAr hi.1 scaler0 sub0r (rnth_ys hq ey) addrC.
rewrite /bdf_step; case: (b_order o) => [|[|[|[|k]]]]; [discriminate|exact: s1| | |discriminate].
  case: ifP => _; last exact: s1.
  rewrite /bdf_step2; case ey: (rnth _ 0) => [y|//]; cbn [rbind]; case ey1: (rnth _ 1) => [y1|//]; cbn [rbind].
  rewrite /jac_newton; case e: newton_loop => [x|//]; cbn [rbind] => -[<-]; cbn [rres sr_y]; apply: newton_ann ex _ e => y'.
  rewrite /gfn_bdf2 !(mulmxBr, mulmxDr) -!scalemxAr hi.1 scaler0 (rnth_ys hq ey) (rnth_ys hq ey1).
  move: (w *m y') => u; apply/matrixP => i j; rewrite !mxE; move: (u i j) (q i j) => a b; by field.
rewrite /bdf_step_cn; case ey: (rnth _ 0) => [y|//]; cbn [rbind].
rewrite /jac_newton; case e: newton_loop => [x|//]; cbn [rbind] => -[<-]; cbn [rres sr_y]; apply: newton_ann ex _ e => y'.
by rewrite /gfn_cn !(mulmxBr, mulmxDr) -!scalemxAr !hi.1 !scaler0 subr0 sub0r (rnth_ys hq ey) addrC.
Qed.
(* the states of a solver object *)
Definition s_ys (s : solver F n) : seq vec := match s with SBdf o => b_ys o | SEpi o => ep_ys o end.
Lemma s_ann s q dt r : (forall o, s = SBdf o -> exact_solver gmres) -> all_ys q (s_ys s) -> s_step gmres sys s dt = Ok r -> w *m sr_y r = q.
Proof. by case: s => o hx; [apply: bdf_ann; exact: hx|move=> hq h; exact: ep_ann hq h]. Qed.
Lemma loop_ann o q dt todo i s ys ts s' ys' ts' : (forall o, s = SBdf o -> exact_solver gmres) -> all_ys q (s_ys s) ->
  (forall y, List.In y ys -> w *m y = q) -> rs_loop gmres sys o dt todo i s ys ts = Ok (s', ys', ts') ->
  all_ys q (s_ys s') /\ forall y, List.In y ys' -> w *m y = q.
Proof.
elim: todo i s ys ts => [|todo IH] i s ys ts hx hq hy; first by move=> [<- <- _].
rewrite [rs_loop _ _ _ _ _ _ _ _ _]/=; case: ifP => // _.
have st y : s_state s = Ok y -> w *m y = q by case: (s) hq => ob hq h; exact: rnth_ys hq h.
case eo: (if _ then _ else _) => [[ys1 ts1]|//]; cbn [rbind fst snd].
have hy1 y : List.In y ys1 -> w *m y = q.
  move: eo; case: ifP => [_|_ [<- _]]; last exact: hy.
  case ey: s_state => [y1|//]; cbn [rbind] => -[<- _] /List.in_app_iff [|[<-|//]]; [exact: hy|exact: st].
case er: s_step => [r|//]; cbn [rbind]; have hr := s_ann hx hq er; apply: IH => //.
  by case: (s) hx => ob h1 o' //= _; exact: h1 ob erefl.
by case: (s) hq => ob h2; apply: all_ys_cons.
Qed.
End Inv.

(* Every state returned by the driver has the value of the invariant at the initial state: exponential methods with any
   dense evaluator, Krylov dimension and orthogonalisation depth; implicit methods with a solver returning exact solutions *)
Theorem C72_driver_invariant (F : rcfType) n gmres (sys : rsys F n) (w : 'rV[F]_n) evals y0 t0 dt N kwds ys ts :
  rs_invariant sys w ->
  (forall m, get_str kwds "method"%string "epi2"%string = Ok m -> List.In m [:: "bdf1"; "backeuler"; "bdf2"; "cn"]%string -> exact_solver gmres) ->
  integrate_wrapper_rs gmres sys evals y0 t0 dt N kwds = Ok (ys, ts) ->
  forall y, List.In y ys -> w *m y = w *m y0.
Proof.
move=> hi hx h.
move: h; rewrite /integrate_wrapper_rs.
case e1: get_str hx => [m|//] hx; cbn [rbind]; case: get_str => [em|//]; cbn [rbind]; case: get_nat => [dim|//]; cbn [rbind].
case: get_nat => [iom|//]; cbn [rbind]; case: get_flt => [tol|//]; cbn [rbind]; case: get_nat => [o|//]; cbn [rbind].
case es: select_solver => [s0|//]; cbn [rbind]; case el: rs_loop => [[[s' ys'] ts']|//]; cbn [rbind].
case ey: s_state => [y'|//]; cbn [rbind] => -[<- _].
have hx0 ob : s0 = SBdf ob -> exact_solver gmres.
  move=> e; apply: hx erefl _; move: es; rewrite e /select_solver.
  case: ifP => [/orP[/String.eqb_eq ->|/String.eqb_eq ->] _|_]; [by left|by right; left|].
  case: ifP => [/String.eqb_eq -> _|_]; first by right; right; left.
  case: ifP => [/String.eqb_eq -> _|_]; first by right; right; right; left.
  by case: ifP => // _; rewrite /ep_new; case: ifP.
have hq0 : all_ys w (w *m y0) (s_ys s0).
  have h1 : all_ys w (w *m y0) [:: y0] by apply: all_ys_cons => // -[].
  move: es; rewrite /select_solver; do 3 (case: ifP => _; first by move=> [<-]).
  by case: ifP => // _; rewrite /ep_new; case: ifP => // _; cbn [rbind] => -[<-].
have [h1 h2] := loop_ann hi hx0 hq0 (fun y (H : List.In y [::]) => False_ind _ H) el.
move=> y /List.in_app_iff [|[<-|//]]; first exact: h2.
by case: (s') h1 ey => ob h1 h; exact: rnth_ys h1 h.
Qed.
(* the Runge-Kutta objects keep it too, after any sequence of steps taken from them *)
Fixpoint rk_rounds (F : rcfType) n (sys : rsys F n) (dts : seq F) (o : rkint F n) : result (rkint F n) :=
  if dts is dt :: r then s <- rrk_step sys o dt;; rk_rounds sys r (rrk_accept o s) else Ok o.
Theorem C72_rk_invariant (F : rcfType) n (sys : rsys F n) (w : 'rV[F]_n) order t0 y0 o dts o' :
  (forall t u, w *m rs_frhs sys t u = 0) -> rrk_new t0 y0 order = Ok o -> rk_rounds sys dts o = Ok o' ->
  size (rk_ys o') = (size dts).+1 /\ forall y, List.In y (rk_ys o') -> w *m y = w *m y0.
Proof.
move=> hf; rewrite /rrk_new; case: ifP => // ho [<-].
suff gen ob : rk_order ob = order -> rk_bt ob = bt_factory F order -> (0 < size (rk_ys ob))%N -> (forall y, List.In y (rk_ys ob) -> w *m y = w *m y0) ->
    rk_rounds sys dts ob = Ok o' -> size (rk_ys o') = (size dts + size (rk_ys ob))%N /\ forall y, List.In y (rk_ys o') -> w *m y = w *m y0.
  by move=> /gen; rewrite addn1; apply=> // y [<-|].
elim: dts ob => [|dt dts IH] ob hb1 hb2 s0 hq /=; first by move=> [<-].
case er: rrk_step => [r|//]; cbn [rbind]; rewrite addSnnS; apply: IH => //=.
move=> y [<-|]; last exact: hq.
move: er; case ey: (rk_ys ob) s0 => [//|y1 hist] _.
rewrite (@rrk_stepE F n sys ob order y1 (rk_t ob) dt ho hb1 hb2 erefl) ?ey // => -[<-]; cbn [sr_y].
have h1 : w *m y1 = w *m y0 by apply: hq; rewrite ey; left.
rewrite /lagged_step; case: (order) => [|[|[|[|[|k]]]]]; rewrite mulmxDr h1 -scalemxAr ?mulmxDr -?scalemxAr !hf ?scaler0 ?addr0 ?scaler0 ?addr0 //.
Qed.
