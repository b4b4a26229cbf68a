(* ProofsExact.v : one step of the exponential Rosenbrock/EPI methods on y' = A y + b + t g *)
From Coq Require Import Reals String.
From mathcomp Require Import all_ssreflect all_algebra.
From mathcomp Require Import ring.
From Verif Require Import Rstruct ModelHist SpecHist ProofsHist Summable MxBase MxSeries SpecPhi ProofsPhiErr.
From Verif Require Import ModelOps SpecOps ProofsOps ModelPhi ModelPhiR ModelKrylov ProofsKrylov ModelDispatch ModelInt SpecInt.
From Verif Require Import ProofsInt ProofsInt2 ProofsInt3 ProofsInt4 ProofsInt5 SpecProg SpecExact ProofsOde.
Set Implicit Arguments.
Unset Strict Implicit.
Unset Printing Implicit Defensive.
Import Order.TTheory GRing.Theory Num.Theory.
Local Open Scope ring_scope.
Local Opaque breakdown_tol norm2 phi_linop f_phi_k_pfd kiops_fixedsteps.

Section Exact.
Variables (KW : Type) (K : kernels [rcfType of R]) (n : nat).
Notation vec := 'cV[R]_n.
Notation H := (hist R vec).
Variables (o : rbopts [rcfType of R]) (sys : odesys [rcfType of R] KW n) (A : 'M[R]_n) (b g : vec).
Hypothesis aff : affine_system sys A b g.

Lemma ivp_step (t dt : R) (y : vec) : ivp_sol A b g t y (t + dt) =
  y + phi 1 (dt *: A) *m (dt *: (A *m y + b + t *: g)) + dt ^+ 2 *: (phi 2 (dt *: A) *m g).
Proof. by rewrite /ivp_sol (_ : t + dt - t = dt) ?scalemxAr // addrAC subrr add0r. Qed.

(* the result of exprb2 in terms of the kernel's values *)
Lemma exprb2_val (h : H) t y (dt : R) kw w1 w2 :
  current h t y -> g = 0 \/ gate_open (o_tol o) g ->
  (forall L : vec -> vec, (forall v, L v = A *m v) ->
     phi_linop (k_expm K) (k_expk K) L dt (dt *: (A *m y + b + t *: g)) 1 (o_kdim o) (o_iom o) = Ok w1 /\
     phi_linop (k_expm K) (k_expk K) L dt g 2 (o_kdim o) (o_iom o) = Ok w2) ->
  step_exprb2 K o sys h dt kw = Ok (mkStep (t + dt) dt (y + w1 + (if g == 0 then 0 else dt ^+ 2 *: w2)) (-1)).
Proof.
move=> hc hg hk; rewrite /step_exprb2 (current_y hc).
have et : h_t h = t by case: hc.
cbn [rbind]; rewrite et.
have [_ /(_ (Some kw) t y) [hJ [hdt hf]]] := aff.
have [k1 k2] := hk _ hJ.
have [op|cl] := boolP (gate_open (o_tol o) g).
  rewrite phi2v_open hdt // mul1r k2; cbn [rbind]; rewrite hf k1; cbn [rbind fst].
  rewrite /mkres et expr1n mul1r; case: eqP => // g0; exfalso.
  by move: op; rewrite g0 /gate_open => /andP[t0]; rewrite vinf0 ltNge t0.
rewrite phi2v_closed ?hdt //; cbn [rbind]; rewrite hf k1; cbn [rbind fst].
have -> : g = 0 by case: hg => // op; rewrite op in cl.
by rewrite eqxx /mkres et.
Qed.
Lemma epi2_val (h : H) t y (dt : R) kw w :
  current h t y ->
  (forall L : linop [rcfType of R] n, acts_as L A ->
     kiops_fixedsteps (k_expm K) (k_expk K) L dt [:: 0; dt *: (A *m y + b + t *: g); dt ^+ 2 *: g] (o_kdim o) (o_iom o) = Ok w) ->
  step_epi2 K o sys h dt kw = Ok (mkStep (t + dt) dt (y + w) (-1)).
Proof.
move=> hc hk; rewrite /step_epi2 (current_y hc).
have et : h_t h = t by case: hc.
cbn [rbind]; rewrite et.
have [_ /(_ (Some kw) t y) [hJ [hdt hf]]] := aff.
by rewrite hdt hf (hk _ hJ) /= /mkres et.
Qed.
Lemma dense_val (h : H) t y (dt : R) phis :
  current h t y -> (forall kw t u, lo_dense (jl_op (os_fjac sys kw t u)) = Ok A) ->
  k_sqall K (dt *: A) 2 = Some phis ->
  step_exprb2_dense K sys h dt = Ok (mkStep (t + dt) dt
     (y + nth 0 phis 1 *m (dt *: (A *m y + b + t *: g)) + dt ^+ 2 *: (nth 0 phis 2 *m g)) (-1)).
Proof.
move=> hc hd hk; rewrite /step_exprb2_dense (current_y hc).
have et : h_t h = t by case: hc.
cbn [rbind]; rewrite et hd; cbn [rbind]; rewrite hk.
have [_ /(_ None t y) [hJ [hdt hf]]] := aff.
by rewrite hdt hf /mkres et scalerDr scalerA -expr2 addrA -scalemxAr.
Qed.
End Exact.

(* trajectories: an indexed invariant of the object and of the returned states *)
Lemma traj_ind (T Y S C W : Type) (step : S -> T -> option C -> result (S * step_result T Y)) accept
   (cb1 cb2 : option (W -> T -> Y -> W * C)) N s w t0 y0 dt d (Inv : nat -> S -> Prop) (P : nat -> Y -> Prop) :
  (forall i s c s' r, Inv i s -> step s dt c = Ok (s', r) -> Inv i.+1 (accept s' r) /\ P i.+1 (sr_y r)) ->
  Inv 0%N s -> P 0%N y0 ->
  integrate_ormatex step accept cb1 cb2 s w y0 t0 dt N = Ok d ->
  forall i, (i <= N)%N -> exists y, List.nth_error (d_ys d) i = Some y /\ P i y.
Proof.
move=> hs i0 p0; rewrite /integrate_ormatex => hrun.
suff : Inv N (d_int d) /\ List.length (d_ys d) = N.+1 /\
   forall i, (i <= N)%N -> exists y, List.nth_error (d_ys d) i = Some y /\ P i y by case=> _ [].
elim: N d hrun => [|N IH] d.
  move=> [<-] /=; split=> //; split=> // i; rewrite leqn0 => /eqP ->; by exists y0.
rewrite drv_loop_snoc => hb; have [d1 [e1 e2]] := rbindP hb.
have [iN [lN hN]] := IH _ e1.
have [w1 [kw [s' [r [_ [es [_ [ey [ei _]]]]]]]]] := drv_iter_ok e2.
have [iS pS] := hs _ _ _ _ _ iN es.
rewrite ei; split=> //; rewrite ey List.app_length lN PeanoNat.Nat.add_1_r; split=> // i.
rewrite leq_eqVlt => /orP[/eqP ->|le]; last first.
  have [y [h1 h2]] := hN i le; exists y; split=> //; rewrite List.nth_error_app1 // lN.
  exact/ssrnat.ltP.
exists (sr_y r); split=> //; rewrite List.nth_error_app2 lN //; by rewrite PeanoNat.Nat.sub_diag.
Qed.
Lemma traj_total (T Y S C W : Type) (step : S -> T -> option C -> result (S * step_result T Y)) accept
   (cb1 cb2 : option (W -> T -> Y -> W * C)) N s w t0 y0 dt (Inv : nat -> S -> Prop) (P : nat -> Y -> Prop) :
  (forall i s c, (i < N)%N -> Inv i s ->
     exists s' r, step s dt c = Ok (s', r) /\ Inv i.+1 (accept s' r) /\ P i.+1 (sr_y r)) ->
  Inv 0%N s -> P 0%N y0 ->
  exists d, integrate_ormatex step accept cb1 cb2 s w y0 t0 dt N = Ok d /\
  forall i, (i <= N)%N -> exists y, List.nth_error (d_ys d) i = Some y /\ P i y.
Proof.
move=> hs i0 p0; rewrite /integrate_ormatex.
suff : exists d, drv_loop step accept cb1 cb2 N t0 y0 dt (drv_init C s w t0 y0) = Ok d /\ Inv N (d_int d) /\ List.length (d_ys d) = N.+1 /\
   forall i, (i <= N)%N -> exists y, List.nth_error (d_ys d) i = Some y /\ P i y.
  by case=> d [e [_ [_ h]]]; exists d.
elim: N hs => [|N IH] hs.
  exists (drv_init C s w t0 y0); split=> //; split=> //; split=> // i; rewrite leqn0 => /eqP ->; by exists y0.
have [|d1 [e1 [iN [lN hN]]]] := IH; first by move=> i u c lt; apply: hs; apply: ltnW.
rewrite drv_loop_snoc e1; cbn [rbind].
have [d e2] : exists d, drv_iter step accept cb1 cb2 t0 y0 dt d1 = Ok d.
  rewrite /drv_iter; case: cb1 {IH e1} => [f|].
    case: (f _ _ _) => w' c; have [s' [r [-> _]]] := hs N (d_int d1) (Some c) (ltnSn N) iN; cbn [rbind].
    by case: cb2 => [f'|]; [case: (f' _ _ _) => ? ?|]; eexists.
  have [s' [r [-> _]]] := hs N (d_int d1) None (ltnSn N) iN; cbn [rbind].
  by case: cb2 => [f'|]; [case: (f' _ _ _) => ? ?|]; eexists.
exists d; split=> //.
have [w1 [kw [s' [r [_ [es [_ [ey [ei _]]]]]]]]] := drv_iter_ok e2.
have [s2 [r2 [es2 [iS pS]]]] := hs N _ kw (ltnSn N) iN.
have [q1 q2] : s2 = s' /\ r2 = r by move: es2; rewrite es => -[-> ->].
rewrite q1 q2 in iS pS.
rewrite ei; split=> //; rewrite ey List.app_length lN PeanoNat.Nat.add_1_r; split=> // i.
rewrite leq_eqVlt => /orP[/eqP ->|le]; last first.
  have [y [h1 h2]] := hN i le; exists y; split=> //; rewrite List.nth_error_app1 // lN.
  exact/ssrnat.ltP.
exists (sr_y r); split=> //; rewrite List.nth_error_app2 lN //; by rewrite PeanoNat.Nat.sub_diag.
Qed.

(* sub-intervals of a grid *)
Lemma ivp_sub n (A : 'M[R]_n) b g (t0 dt : R) N y z i : solves_ivp A b g t0 (t0 + dt *+ N) y z -> (i < N)%N ->
  solves_ivp A b g (t0 + dt *+ i) (t0 + dt *+ i + dt) (z (t0 + dt *+ i)) z.
Proof.
move=> [_ h] iN; split=> // s h1 h2.
have e1 : t0 + dt *+ i + dt = t0 + dt *+ i.+1 by rewrite mulrSr addrA.
have [p|p] := lerP 0 dt.
  have m a b' : (a <= b')%N -> t0 + dt *+ a <= t0 + dt *+ b' by move=> ab; rewrite ler_add2l ler_wpmuln2l.
  apply: h.
    apply: le_trans h1; apply/RleP; apply: Rle_trans (Rmin_l _ _) _; apply: Rmin_glb; apply/RleP.
      by have := m 0%N i (leq0n _); rewrite mulr0n addr0.
    by rewrite e1; have := m 0%N i.+1 (leq0n _); rewrite mulr0n addr0.
  apply: (le_trans h2); apply/RleP; apply: Rle_trans (Rmax_r _ _); apply: Rmax_lub; apply/RleP.
    exact/m/ltnW.
  by rewrite e1; apply: m.
have m a b' : (a <= b')%N -> t0 + dt *+ b' <= t0 + dt *+ a.
  by move=> ab; rewrite ler_add2l ler_wnmuln2l // ltW.
apply: h.
  apply: le_trans h1; apply/RleP; apply: Rle_trans (Rmin_r _ _) _; apply: Rmin_glb; apply/RleP.
    exact/m/ltnW.
  by rewrite e1; apply: m.
apply: (le_trans h2); apply/RleP; apply: Rle_trans (Rmax_l _ _); apply: Rmax_lub; apply/RleP.
  by have := m 0%N i (leq0n _); rewrite mulr0n addr0.
by rewrite e1; have := m 0%N i.+1 (leq0n _); rewrite mulr0n addr0.
Qed.
