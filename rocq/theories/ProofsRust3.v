(* ProofsRust3.v : Runge-Kutta steps and the Rust driver. *)
From Coq Require Import String.
From mathcomp Require Import all_ssreflect all_algebra.
From mathcomp Require Import ring.
From Verif Require Import ModelHist MxBase ModelOps ModelKrylov ModelInt ModelRust SpecRust ProofsRust ProofsRust2.
Set Implicit Arguments.
Unset Strict Implicit.
Unset Printing Implicit Defensive.
Import Order.TTheory GRing.Theory Num.Theory.
Local Open Scope ring_scope.
Local Opaque newton_loop jac_newton.

Section RK.
Variables (F : rcfType) (n : nat) (sys : rsys F n).
Notation f := (rs_frhs sys).
(* what the code computes: the stage times lag one stage behind *)
Definition lagged_step (order : nat) (t : F) (y : 'cV[F]_n) (dt : F) : 'cV[F]_n :=
  match order with
  | 4%N => let k1 := f t y in let k2 := f t (y + (dt / 2%:R) *: k1) in
           let k3 := f (t + dt / 2%:R) (y + (dt / 2%:R) *: k2) in
           let k4 := f (t + dt / 2%:R) (y + dt *: k3) in
           y + (dt / 6%:R) *: (k1 + 2%:R *: k2 + 2%:R *: k3 + k4)
  | 3%N => let k1 := f t y in let k2 := f t (y + (dt / 2%:R) *: k1) in
           let k3 := f (t + dt / 2%:R) (y - dt *: k1 + (2%:R * dt) *: k2) in
           y + (dt / 6%:R) *: (k1 + 4%:R *: k2 + k3)
  | 2%N => y + dt *: f t (y + (dt / 2%:R) *: f t y)
  | _ => y + dt *: f t y
  end.
Lemma rrk_stepE o order y0 t dt : (0 < order <= 4)%N -> rk_order o = order -> rk_bt o = bt_factory F order ->
  rk_t o = t -> List.nth_error (rk_ys o) 0 = Some y0 ->
  rrk_step sys o dt = Ok (mkStep (t + dt) dt (lagged_step order t y0 dt) (-1)).
Proof.
rewrite /rrk_step /rnth => ho -> -> -> ->; cbn [rbind].
case: order ho => [|[|[|[|[|//]]]]] // _;
 rewrite /rk_stage /bt_factory /rnth; cbn [rbind foldl iota List.nth_error bt_a bt_b bt_c cat predn]; congr Ok; rewrite /rres; congr (mkStep _ _ _ _).
- by rewrite mulr1.
- by rewrite mulr0 addr0 mulr1 scale0r addr0.
- rewrite /lagged_step [2%:R * dt]mulrC !mulr0 !addr0 !mulrN1 scaleNr.
  set k1 := f t y0; set k2 := f t _; set k3 := f (t + _) _.
  by apply/matrixP => i j; rewrite !mxE; move: (k1 i j) (k2 i j) (k3 i j) (y0 i j) => *; field.
rewrite /lagged_step !mulr0 !addr0 !mulr1 !scale0r !addr0.
set k1 := f t y0; set k2 := f t _; set k3 := f (t + _) (y0 + _ *: k2); set k4 := f (t + _) (y0 + _ *: k3).
by apply/matrixP => i j; rewrite !mxE; move: (k1 i j) (k2 i j) (k3 i j) (k4 i j) (y0 i j) => *; field.
Qed.
Lemma lagged_autonomous order t y dt : (forall s s' u, f s u = f s' u) -> (0 < order <= 4)%N ->
  lagged_step order t y dt = rk_formula order f t y dt.
Proof.
move=> au; have e s u : f s u = f t u by apply: au.
case: order => [|[|[|[|[|//]]]]] // _; rewrite /lagged_step /rk_formula /euler_step /midpoint_step /kutta3_step /classical_rk4_step;
 by rewrite !(e (_ + _)).
Qed.
End RK.

(* ------------------------------------------------------------------ *)
Section Driver.
Variables (F : rcfType) (n : nat).
Notation vec := 'cV[F]_n.
Variable gmres : (vec -> vec) -> vec -> vec -> nat -> F -> option vec.
Variable sys : rsys F n.
Notation step := (s_step gmres sys).

(* a solver always has a current state *)
Definition has_state (s : solver F n) : Prop := exists y, s_state s = Ok y.
Lemma accept_state (s : solver F n) r : s_state (s_accept s r) = Ok (sr_y r).
Proof. by case: s. Qed.
Lemma accept_time (s : solver F n) r : s_time (s_accept s r) = sr_t r.
Proof. by case: s. Qed.
Lemma reset_state (s : solver F n) t y : s_state (s_reset s t y) = Ok y.
Proof. by case: s. Qed.
Lemma reset_time (s : solver F n) t y : s_time (s_reset s t y) = t.
Proof. by case: s. Qed.
Lemma bdf1_time o dt r : bdf_step1 gmres sys o dt = Ok r -> sr_t r = b_t o + dt.
Proof. by rewrite /bdf_step1; case: (rnth _ _) => [y|//]; cbn [rbind]; case: jac_newton => [z|//]; cbn [rbind] => -[<-]. Qed.
Lemma bdf2_time o dt r : bdf_step2 gmres sys o dt = Ok r -> sr_t r = b_t o + dt.
Proof.
rewrite /bdf_step2; case: (rnth _ _) => [y|//]; cbn [rbind]; case: (rnth _ _) => [y'|//]; cbn [rbind].
by case: jac_newton => [z|//]; cbn [rbind] => -[<-].
Qed.
Lemma cn_time o dt r : bdf_step_cn gmres sys o dt = Ok r -> sr_t r = b_t o + dt.
Proof. by rewrite /bdf_step_cn; case: (rnth _ _) => [y|//]; cbn [rbind]; case: jac_newton => [z|//]; cbn [rbind] => -[<-]. Qed.
Lemma bdf_time o dt r : bdf_step gmres sys o dt = Ok r -> sr_t r = b_t o + dt.
Proof.
rewrite /bdf_step; case: (b_order o) => [|[|[|[|k]]]] //; [exact: bdf1_time| |exact: cn_time].
by case: ifP => _; [exact: bdf2_time|exact: bdf1_time].
Qed.
Local Opaque apply_phi_linop rkiops.
Lemma ep2_time o dt r : ep_step2 sys o dt = Ok r -> sr_t r = ep_t o + dt.
Proof.
rewrite /ep_step2; case: (rnth _ _) => [y|//]; cbn [rbind]; case: fphi2_v => [p|//]; cbn [rbind].
by case: apply_phi_linop => [z|//]; cbn [rbind] => -[<-].
Qed.
Lemma ep_time o dt r : ep_step sys o dt = Ok r -> sr_t r = ep_t o + dt.
Proof.
rewrite /ep_step; case: ifP => _; first exact: ep2_time.
case: ifP => _.
  case: ifP => _; last exact: ep2_time.
  rewrite /ep_step3; case: (rnth _ _) => [y|//]; cbn [rbind]; case: (rnth _ _) => [y'|//]; cbn [rbind].
  case: (rnth _ _) => [tp|//]; cbn [rbind]; case: fphi2_v => [p|//]; cbn [rbind]; case: ep_remf => [p'|//]; cbn [rbind].
  by case: rkiops => [z|//]; cbn [rbind] => -[<-].
case: ifP => // _; rewrite /ep_step_exprb32; case: (rnth _ _) => [y|//]; cbn [rbind].
case: fphi2_v => [p|//]; cbn [rbind]; case: apply_phi_linop => [z|//]; cbn [rbind]; case: ep_remf => [p'|//]; cbn [rbind].
by case: apply_phi_linop => [z'|//]; cbn [rbind] => -[<-].
Qed.
Lemma step_time s dt r : step s dt = Ok r -> sr_t r = s_time s + dt.
Proof. by case: s => o; [exact: bdf_time|exact: ep_time]. Qed.

Notation iter := (s_iter gmres sys).
Lemma s_iterS dt s i : iter dt s i.+1 = (s' <- iter dt s i;; r <- step s' dt;; Ok (s_accept s' r)).
Proof. by []. Qed.
Lemma s_iter_time dt s i s' : iter dt s i = Ok s' -> s_time s' = s_time s + i%:R * dt.
Proof.
elim: i s' => [|i IH] s' /=; first by case=> <-; rewrite mul0r addr0.
case e: (iter dt s i) => [u|] //=; case e2: (step u dt) => [r|] //= [<-].
by rewrite accept_time (step_time e2) (IH _ e) mulrSr mulrDl mul1r addrA.
Qed.
Lemma s_iter_state dt s i s' : has_state s -> iter dt s i = Ok s' -> has_state s'.
Proof.
move=> hs; case: i => [|i] /=; first by case=> <-.
case e: (iter dt s i) => [u|] //=; case e2: (step u dt) => [r|] //= [<-].
by exists (sr_y r); rewrite accept_state.
Qed.

Notation out_at := (out_at gmres sys).
Lemma out_at_cat dt s l1 ys1 ts1 l2 ys2 ts2 : out_at dt s l1 ys1 ts1 -> out_at dt s l2 ys2 ts2 ->
  out_at dt s (l1 ++ l2) (ys1 ++ ys2) (ts1 ++ ts2).
Proof. by move=> h h2; elim: h => //= i l y ys ts s' e1 e2 _ IH; apply: out_cons. Qed.

Lemma rs_loopE o dt s : (0 < o)%N -> has_state s -> forall todo i s_i ys ts, iter dt s i = Ok s_i ->
  out_at dt s (output_indices o i) ys ts ->
  forall e, (rs_loop gmres sys o dt todo i s_i ys ts = Raise e <-> iter dt s (i + todo) = Raise e) /\
  (forall s' ys' ts', rs_loop gmres sys o dt todo i s_i ys ts = Ok (s', ys', ts') ->
    iter dt s (i + todo) = Ok s' /\ out_at dt s (output_indices o (i + todo)) ys' ts').
Proof.
move=> o0 hs; elim=> [|todo IH] i si ys ts hi ho e.
  by rewrite addn0 hi; split=> // s' ys' ts' [<- <- <-].
have on : (o == 0)%N = false by case: (o) o0.
cbn [rs_loop]; rewrite on.
have [y hy] := s_iter_state hs hi.
have oi : output_indices o i.+1 = output_indices o i ++ (if (i %% o == 0)%N then [:: i] else [::]).
  by rewrite /output_indices -addn1 iotaD filter_cat /= add0n.
rewrite hy; cbn [rbind].
have nxt : exists ys1 ts1, (if (i %% o == 0)%N then Ok (ys ++ [:: y], ts ++ [:: s_time si]) else Ok (ys, ts)) = Ok (ys1, ts1)
   /\ out_at dt s (output_indices o i.+1) ys1 ts1.
  rewrite oi; case: ifP => _.
    exists (ys ++ [:: y]), (ts ++ [:: s_time si]); split=> //; apply: out_at_cat => //.
    by apply: out_cons hi hy _; apply: out_nil.
  by exists ys, ts; rewrite cats0.
move: nxt => [ys1 [ts1 [-> ho1]]]; cbn [rbind fst snd].
case e2: (step si dt) => [r|er]; cbn [rbind].
  have h1 : iter dt s i.+1 = Ok (s_accept si r) by rewrite s_iterS hi; cbn [rbind]; rewrite e2.
  by have := IH i.+1 _ ys1 ts1 h1 ho1 e; rewrite addSnnS.
have stuck k : iter dt s (i + k.+1) = Raise er.
  elim: k => [|k IHk]; first by rewrite addn1 s_iterS hi; cbn [rbind]; rewrite e2.
  by rewrite addnS s_iterS IHk.
rewrite stuck; split=> //; by split=> -[->].
Qed.
End Driver.
