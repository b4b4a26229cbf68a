(* ProofsConvRs3.v : the states of a run of the Rust driver and of the Runge-Kutta object as a sequence. *)
From Coq Require Import Reals String.
From mathcomp Require Import all_ssreflect all_algebra.
From mathcomp Require Import ring.
From Verif Require Import Rstruct ModelHist MxBase ModelOps ModelKrylov ModelInt SpecPhi SpecConv ModelRust SpecRust SpecConvRs ProofsKrylov ProofsRust ProofsRust2 ProofsRust3 ProofsRust4 PropRust.
Set Implicit Arguments.
Unset Strict Implicit.
Unset Printing Implicit Defensive.
Import Order.TTheory GRing.Theory Num.Theory.
Local Open Scope ring_scope.
Local Opaque newton_loop jac_newton apply_phi_linop rkiops norm2.

Section Seq.
Variables (F : rcfType) (n : nat).
Notation vec := 'cV[F]_n.
Variable gmres : (vec -> vec) -> vec -> vec -> nat -> F -> option vec.
Variables (sys : rsys F n) (dt : F) (s0 : solver F n).
Notation it := (s_iter gmres sys dt s0).
Definition it_state i : vec := if it i is Ok s then (if s_state s is Ok y then y else 0) else 0.
Lemma it_prefix i j s : (j <= i)%N -> it i = Ok s -> exists s', it j = Ok s'.
Proof.
elim: i s => [|i IH] s; first by rewrite leqn0 => /eqP -> h; exists s.
rewrite leq_eqVlt ltnS => /orP[/eqP ->|ji]; first by move=> h; exists s.
by rewrite s_iterS; case e: (it i) => [s'|//] _; apply: IH ji e.
Qed.
Lemma out_at_nth l ys ts : out_at gmres sys dt s0 l ys ts -> size ys = size l /\
  forall j i, List.nth_error l j = Some i -> List.nth_error ys j = Some (it_state i).
Proof.
elim=> [|i l' y ys' ts' s' h1 h2 _ [IH1 IH2]]; first by split=> // -[|j].
split; first by rewrite /= IH1.
case=> [|j] i' /=; last exact: IH2.
by move=> [<-]; rewrite /it_state h1 h2.
Qed.
Lemma out_at_last l N ys ts : out_at gmres sys dt s0 (l ++ [:: N]) ys ts -> exists s, it N = Ok s.
Proof.
elim: l ys ts => [|i l IH] ys ts h; inversion h; subst; first by eexists; eassumption.
by apply: IH; eassumption.
Qed.
End Seq.

Section Epi.
Variables (F : rcfType) (n : nat).
Notation vec := 'cV[F]_n.
Variable gmres : (vec -> vec) -> vec -> vec -> nat -> F -> option vec.
Variables (sys : rsys F n) (dt : F) (t0 : F) (y0 : vec) (m : string) (ev : evaluator F) (dim iom : nat) (tol : F).
Definition epi0 : epirk F n := Epirk m t0 tol [:: y0] [:: t0] ev dim iom.
Notation it := (s_iter gmres sys dt (SEpi epi0)).
Notation yv := (it_state gmres sys dt (SEpi epi0)).
Record epi_at (i : nat) (o : epirk F n) : Prop := {
  ea_m : ep_method o = m; ea_tol : ep_tol o = tol; ea_ev : ep_ev o = ev; ea_dim : ep_dim o = dim; ea_iom : ep_iom o = iom;
  ea_t : ep_t o = t0 + dt *+ i;
  ea_y0 : List.nth_error (ep_ys o) 0 = Some (yv i);
  ea_t0 : List.nth_error (ep_ts o) 0 = Some (t0 + dt *+ i);
  ea_sz : size (ep_ys o) = i.+1;
  ea_y1 : (0 < i)%N -> List.nth_error (ep_ys o) 1 = Some (yv i.-1);
  ea_t1 : (0 < i)%N -> List.nth_error (ep_ts o) 1 = Some (t0 + dt *+ i - dt) }.
Lemma ep_step_t (o : epirk F n) r : ep_step sys o dt = Ok r -> sr_t r = ep_t o + dt.
Proof.
have rr (P : result (step_result F vec)) : (exists y e, P = Ok (rres (ep_t o) dt y e)) \/ (exists e, P = Raise e) -> P = Ok r -> sr_t r = ep_t o + dt.
  by case=> [[y [e ->]] [<-] //|[e -> //]].
rewrite /ep_step; case: ifP => _.
  rewrite /ep_step2; case: (rnth _ _) => [y|//]; cbn [rbind].
  case: (fphi2_v _ _ _ _ _ _) => [p|//]; cbn [rbind]; case: (apply_phi_linop _ _ _ _ _ _ _) => [w|//]; cbn [rbind].
  by move=> [<-].
case: ifP => _.
  case: ifP => _.
    rewrite /ep_step3; case: (rnth _ 0) => [y|//]; cbn [rbind]; case: (rnth _ 1) => [y1|//]; cbn [rbind]; case: (rnth _ 1) => [t1|//]; cbn [rbind].
    case: (fphi2_v _ _ _ _ _ _) => [p|//]; cbn [rbind]; case: (ep_remf _ _ _ _ _ _ _) => [q|//]; cbn [rbind].
    case: (rkiops _ _ _ _ _ _ _) => [w|//]; cbn [rbind].
    by move=> [<-].
  rewrite /ep_step2; case: (rnth _ _) => [y|//]; cbn [rbind].
  case: (fphi2_v _ _ _ _ _ _) => [p|//]; cbn [rbind]; case: (apply_phi_linop _ _ _ _ _ _ _) => [w|//]; cbn [rbind].
  by move=> [<-].
case: ifP => // _.
rewrite /ep_step_exprb32; case: (rnth _ _) => [y|//]; cbn [rbind].
case: (fphi2_v _ _ _ _ _ _) => [p|//]; cbn [rbind]; case: (apply_phi_linop _ _ _ _ _ _ _) => [w|//]; cbn [rbind].
case: (ep_remf _ _ _ _ _ _ _) => [q|//]; cbn [rbind]; case: (apply_phi_linop _ _ _ _ _ _ _) => [w'|//]; cbn [rbind].
by move=> [<-].
Qed.
Lemma it_epi i s : it i = Ok s -> exists o, s = SEpi o /\ epi_at i o.
Proof.
elim: i s => [|i IH] s.
  by move=> [<-]; exists epi0; split=> //; split=> //=; rewrite ?mulr0n ?addr0.
rewrite s_iterS; case e: (it i) => [s'|//]; cbn [rbind].
have [o [es ho]] := IH s' e; case er: (s_step _ _ _ _) => [r|//]; cbn [rbind] => -[hs].
rewrite es in er hs; have ht := ep_step_t er.
have et : t0 + dt *+ i + dt = t0 + dt *+ i.+1 by rewrite mulrSr addrA.
exists (ep_accept o r); split; first by rewrite -hs.
have hy : yv i.+1 = sr_y r by rewrite /it_state s_iterS e es; cbn [rbind]; rewrite er.
case: ho => h1 h2 h3 h4 h5 h6 h7 h8 h9 h10 h11.
split=> //=; rewrite ?hy ?ht ?h6 ?et ?h9 //.
by move=> _; rewrite -et addrK -h8; case: (ep_ts o).
Qed.
Lemma it_epi_step i s : it i.+1 = Ok s -> exists o r, [/\ it i = Ok (SEpi o), epi_at i o, ep_step sys o dt = Ok r & yv i.+1 = sr_y r].
Proof.
rewrite s_iterS; case e: (it i) => [s'|//]; cbn [rbind].
have [o [es ho]] := it_epi e; case er: (s_step _ _ _ _) => [r|//]; cbn [rbind] => _.
rewrite es in er; exists o, r; split=> //; first by rewrite -es.
by rewrite /it_state s_iterS e es; cbn [rbind]; rewrite er.
Qed.
(* the value of a step for an autonomous system *)
Hypothesis aut : forall s s' u, rs_frhs sys s u = rs_frhs sys s' u.
Lemma aut_fdt (o : epirk F n) y J : fphi2_v sys o y (rs_frhs sys (ep_t o) y) J dt = Ok (0, 0).
Proof.
rewrite /fphi2_v; case: ifP => // h; rewrite /frhs_fdt (aut _ (ep_t o)) subrr scaler0.
have -> : norm_max (0 : vec) = 0.
  by rewrite /norm_max; elim/big_ind: _ => [//|x y' -> ->|i _]; rewrite ?maxxx ?mxE ?normr0.
by rewrite h.
Qed.
Definition fr s y := rs_frhs sys s y.
Section Val.
Variables (i : nat) (o : epirk F n).
Hypothesis ho : epi_at i o.
Notation t := (t0 + dt *+ i).
Notation y := (yv i).
Notation J := (rs_fjac sys t y).
Lemma v_step2 r : ep_step2 sys o dt = Ok r -> exists w, apply_phi_linop ev J dt (dt *: fr t y) 1 dim iom = Ok w /\ sr_y r = y + w.
Proof.
case: ho => h1 h2 h3 h4 h5 h6 h7 h8 h9 h10 h11.
rewrite /ep_step2 /rnth h7; cbn [rbind]; rewrite aut_fdt; cbn [rbind]; rewrite h3 h4 h5 h6.
case e: (apply_phi_linop _ _ _ _ _ _ _) => [w|//]; cbn [rbind] => -[<-]; exists w; split=> //.
by cbn [rres sr_y]; rewrite addr0.
Qed.
Lemma v_step32 r : ep_step_exprb32 sys o dt = Ok r -> exists w w3,
  let y2 := y + w in
  [/\ apply_phi_linop ev J dt (dt *: fr t y) 1 dim iom = Ok w,
      apply_phi_linop ev J dt (fr (t + dt) y2 - fr t y - J (y2 - y)) 3 dim iom = Ok w3 & sr_y r = y2 + (2%:R * dt) *: w3].
Proof.
case: ho => h1 h2 h3 h4 h5 h6 h7 h8 h9 h10 h11.
rewrite /ep_step_exprb32 /rnth h7; cbn [rbind]; rewrite aut_fdt; cbn [rbind]; rewrite h3 h4 h5 h6.
case e: (apply_phi_linop _ _ _ _ _ _ _) => [w|//]; cbn [rbind].
rewrite /ep_remf /rnth h8 h7; cbn [rbind]; rewrite [(0, 0).1]/= [(0, 0).2]/= addr0 scaler0 subr0.
case e3: (apply_phi_linop _ _ _ _ 3 _ _) => [w3|//]; cbn [rbind] => -[<-]; exists w, w3; split=> //.
Qed.
Lemma v_step3 r : (0 < i)%N -> ep_step3 sys o dt = Ok r -> exists u,
  rkiops ev J dt 1 [:: 0; dt *: fr t y; (dt * 2%:R / 3%:R) *: (fr (t - dt) (yv i.-1) - fr t y - J (yv i.-1 - y))] dim iom = Ok u /\
  sr_y r = y + u.
Proof.
move=> i0; case: ho => h1 h2 h3 h4 h5 h6 h7 h8 h9 h10 h11; have {}h10 := h10 i0; have {}h11 := h11 i0.
rewrite /ep_step3 /rnth h7 h10 h11; cbn [rbind]; rewrite aut_fdt; cbn [rbind]; rewrite h3 h4 h5 h6.
rewrite /ep_remf /rnth h8 h7; cbn [rbind]; rewrite [(0, 0).1]/= [(0, 0).2]/= scaler0 subr0.
case e3: (rkiops _ _ _ _ _ _ _) => [w3|//]; cbn [rbind] => -[<-]; exists w3; split=> //.
by cbn [rres sr_y]; rewrite addr0.
Qed.
End Val.
End Epi.
