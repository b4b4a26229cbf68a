(* ProofsRust4.v : BDF object histories, driver results, reset, options. *)
From Coq Require Import String.
From mathcomp Require Import all_ssreflect all_algebra.
From mathcomp Require Import ring.
From Verif Require Import ModelHist MxBase ModelOps ModelKrylov ModelInt ModelRust SpecRust ProofsRust ProofsRust2 ProofsRust3.
Set Implicit Arguments.
Unset Strict Implicit.
Unset Printing Implicit Defensive.
Import Order.TTheory GRing.Theory Num.Theory.
Local Open Scope ring_scope.
Local Opaque newton_loop jac_newton apply_phi_linop rkiops.

Section Obj.
Variables (F : rcfType) (n : nat).
Notation vec := 'cV[F]_n.
Variable gmres : (vec -> vec) -> vec -> vec -> nat -> F -> option vec.
Variable sys : rsys F n.

Lemma bdf_run_size (o : bdf F n) l k : size (b_ys o) = k.+1 -> size (b_ys (bdf_run o l)) = (accepted_since l k).+1.
Proof. by elim: l o k => //= -[s|t y] l IH o k h; apply: IH => //=; rewrite h. Qed.
Lemma bdf_run_order (o : bdf F n) l : b_order (bdf_run o l) = b_order o.
Proof. by elim: l o => //= -[s|t y] l IH o; rewrite IH. Qed.
Lemma bdf2_dispatch (o : bdf F n) dt : b_order o = 2%N ->
  bdf_step gmres sys o dt = if size (b_ys o) == 2%N then bdf_step2 gmres sys o dt else bdf_step1 gmres sys o dt.
Proof. by rewrite /bdf_step => ->. Qed.

(* the BDF object after i rounds *)
Lemma s_iter_bdf dt o i s : s_iter gmres sys dt (SBdf o) i = Ok s ->
  exists o', [/\ s = SBdf o', b_order o' = b_order o & size (b_ys o') = (size (b_ys o) + i)%N].
Proof.
elim: i s => [|i IH] s /=; first by case=> <-; exists o; rewrite addn0.
case e: (s_iter _ _ _ _ i) => [u|//]; cbn [rbind]; case e2: (s_step _ _ _ _) => [r|//]; cbn [rbind] => -[<-].
have [o' [eu h1 h2]] := IH _ e; rewrite eu; exists (bdf_accept o' r); split=> //=.
by rewrite h2 addnS.
Qed.
(* ------------------------------------------------------------------ *)
(* reset *)
Definition same_epi (a b : epirk F n) : Prop :=
  [/\ ep_method a = ep_method b, ep_t a = ep_t b, ep_tol a = ep_tol b, ep_ys a = ep_ys b &
   [/\ ep_ev a = ep_ev b, ep_dim a = ep_dim b, ep_iom a = ep_iom b, ((size (ep_ys a) <= size (ep_ts a)) && (size (ep_ys a) <= size (ep_ts b)))%N &
       forall i, (i < size (ep_ys a))%N -> List.nth_error (ep_ts a) i = List.nth_error (ep_ts b) i]].
Definition same_solver (a b : solver F n) : Prop :=
  match a, b with SBdf x, SBdf y => x = y | SEpi x, SEpi y => same_epi x y | _, _ => False end.
Lemma nth_error_ge T (l : seq T) i : (size l <= i)%N -> List.nth_error l i = None.
Proof. by elim: l i => [|x l IH] [|i] //= /IH. Qed.
Lemma same_step a b dt : same_solver a b -> s_step gmres sys a dt = s_step gmres sys b dt.
Proof.
case: a b => [a|a] [b|b] //=; first by move=> ->.
case: a b => ma ta tola ysa tsa eva da ia [mb tb tolb ysb tsb evb db ib] [/= <- <- <- <- [<- <- <- _ h]].
have h1 v w (J : vec -> vec) z : (1 <= size ysa)%N -> ep_remf sys (Epirk ma ta tola ysa tsa eva da ia) v w z J = ep_remf sys (Epirk ma ta tola ysa tsb eva da ia) v w z J.
  move=> ge1; rewrite /ep_remf; cbn [ep_ts ep_ys].
  by have -> : rnth tsb 0 = rnth tsa 0 by rewrite /rnth -h.
rewrite /ep_step /=; case: ifP => _; first by [].
case: ifP => _.
  case: ifP => // ge2; rewrite /ep_step3 /=.
  have -> : rnth tsb 1 = rnth tsa 1 by rewrite /rnth -h.
  case: (rnth ysa 0) => [y0|//]; cbn [rbind]; case: (rnth ysa 1) => [y1|//]; cbn [rbind].
  case: (rnth tsa 1) => [t1|//]; cbn [rbind].
  rewrite -[fphi2_v sys (Epirk _ _ _ _ tsb _ _ _)]/(fphi2_v sys (Epirk ma ta tola ysa tsa eva da ia)).
  case: (fphi2_v _ _ _ _ _) => [p|//]; cbn [rbind].
  by rewrite h1 // (ltnW ge2).
case: ifP => // _; rewrite /ep_step_exprb32 /=.
case e0: (rnth ysa 0) => [y0|//]; cbn [rbind].
have ge1 : (1 <= size ysa)%N by move: e0; case: (ysa).
rewrite -[fphi2_v sys (Epirk _ _ _ _ tsb _ _ _)]/(fphi2_v sys (Epirk ma ta tola ysa tsa eva da ia)).
case: (fphi2_v _ _ _ _ _) => [p|//]; cbn [rbind].
case: (apply_phi_linop _ _ _ _ _ _ _) => [w|//]; cbn [rbind].
by rewrite h1.
Qed.
Lemma same_state a b : same_solver a b -> s_state a = s_state b /\ s_time a = s_time b.
Proof. by case: a b => [a|a] [b|b] //=; [move=> -> | case=> _ -> _ -> _]. Qed.
Lemma same_do a b p : same_solver a b -> same_solver (s_do a p) (s_do b p).
Proof.
case: a b => [a|a] [b|b] //=; first by move=> ->; case: p.
case: a b => ma ta tola ysa tsa eva da ia [mb tb tolb ysb tsb evb db ib] [/= <- <- <- <- [<- <- <- h1 h]].
case: p => [r|t y] /=; split=> //=; split=> //=.
  by case=> [|i] //= hi; apply: h.
by case.
Qed.
Lemma same_run a b l : same_solver a b -> same_solver (s_run a l) (s_run b l).
Proof. by elim: l a b => //= p l IH a b h; apply: IH; apply: same_do. Qed.
Lemma same_iter a b dt i : same_solver a b ->
  match s_iter gmres sys dt a i, s_iter gmres sys dt b i with
  | Ok x, Ok y => same_solver x y | Raise e, Raise e' => e = e' | _, _ => False end.
Proof.
move=> h; elim: i => //= i; case: (s_iter _ _ _ a i) => [x|e]; case: (s_iter _ _ _ b i) => [y|e'] //= {}h.
rewrite (same_step dt h); case: (s_step _ _ y dt) => [r|//] /=.
exact: (same_do (SAccept r) h).
Qed.

(* the configuration of a solver: everything the constructor fixes besides the initial condition *)
Definition config (s : solver F n) : (nat + (string * F * evaluator F * nat * nat)) :=
  match s with SBdf o => inl (b_order o) | SEpi o => inr (ep_method o, ep_tol o, ep_ev o, ep_dim o, ep_iom o) end.
Lemma run_config s l : config (s_run s l) = config s.
Proof. by elim: l s => //= p l IH s; rewrite IH; case: s => o; case: p. Qed.
Lemma bdf_reset_same t0 y0 k l t1 y1 :
  same_solver (s_reset (s_run (SBdf (bdf_new t0 y0 k)) l) t1 y1) (SBdf (bdf_new t1 y1 k)).
Proof.
have := run_config (SBdf (bdf_new t0 y0 k)) l; case: (s_run _ _) => // o /= [e].
by rewrite /bdf_reset e.
Qed.
Lemma select_config t0 y0 t1 y1 m ev dim iom tol s0 : select_solver t0 y0 m ev dim iom tol = Ok s0 ->
  exists s1, select_solver t1 y1 m ev dim iom tol = Ok s1 /\
   forall l, same_solver (s_reset (s_run s0 l) t1 y1) s1.
Proof.
rewrite /select_solver; do 3 (case: ifP => _; [case=> <-; eexists; split=> // l; exact: bdf_reset_same|]).
case: ifP => // _; rewrite /ep_new; case: ifP => // _; cbn [rbind] => -[<-]; eexists; split=> // l.
have := run_config (SEpi (ep_with_tol (Epirk m t0 (-1) [:: y0] [:: t0] ev dim iom) tol)) l.
case: (s_run _ _) => // o /= [h1 h2 h3 h4 h5]; split=> //=; split=> //.
by case.
Qed.
End Obj.
