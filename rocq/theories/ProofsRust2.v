(* ProofsRust2.v : BDF / Crank-Nicolson steps on affine systems; Runge-Kutta steps; driver. *)
From Coq Require Import String.
From mathcomp Require Import all_ssreflect all_algebra.
From mathcomp Require Import ring.
From Verif Require Import ModelHist MxBase ModelOps ModelKrylov ModelInt ModelRust SpecRust ProofsRust.
Set Implicit Arguments.
Unset Strict Implicit.
Unset Printing Implicit Defensive.
Import Order.TTheory GRing.Theory Num.Theory.
Local Open Scope ring_scope.
Local Opaque newton_loop.

Lemma nl_tol_gt0 (F : rcfType) : 0 < nl_tol F.
Proof. by rewrite invr_gt0 exprn_gt0 ?ltr0n. Qed.

Section Affine.
Variable F : rcfType.
Variable n : nat.
Notation vec := 'cV[F]_n.
Variable gmres : (vec -> vec) -> vec -> vec -> nat -> F -> option vec.
Hypothesis ex : exact_solver gmres.
Variables (A : 'M[F]_n) (b : F -> vec).
Variable sys : rsys F n.
Hypothesis hf : forall t y, rs_frhs sys t y = A *m y + b t.
Hypothesis hj : forall t y v, rs_fjac sys t y v = A *m v.

Let M c : vec -> vec := fun v => v - c *: (A *m v).
Lemma Mlin c a u v : M c (a *: u + v) = a *: M c u + M c v.
Proof. by rewrite /M mulmxDr -scalemxAr scalerBr scalerDr opprD !scalerA [c * a]mulrC addrACA. Qed.
Lemma jacM c dt t y v : gfn_jac sys (- c) dt t y v = M c v.
Proof. by rewrite /gfn_jac /fjac_shifted /shifted_apply hj scale1r scaleNr addrC. Qed.

Lemma g1E y0 dt t y : gfn_bdf1 sys y0 dt t y = M dt y + (- dt *: b (t + dt) - y0).
Proof. by rewrite /gfn_bdf1 hf scalerDr scaleNr /M addrC !addrA. Qed.
Lemma g2E y0 ym dt t y : gfn_bdf2 sys y0 ym dt t y =
  M (2%:R * dt / 3%:R) y + ((1 / 3%:R) *: ym - (4%:R / 3%:R) *: y0 - (2%:R * dt / 3%:R) *: b (t + dt)).
Proof.
rewrite /gfn_bdf2 hf scalerDr opprD /M; apply/matrixP => i j; rewrite !mxE.
by move: (\sum_ _ _) => w; ring.
Qed.
Lemma gcE y0 dt t y : gfn_cn sys y0 dt t y =
  M (dt * 2%:R^-1) y + (- (dt * 2%:R^-1) *: b (t + dt) - (dt * 2%:R^-1) *: (A *m y0 + b t) - y0).
Proof.
rewrite /gfn_cn !hf /M; move: (A *m y) (A *m y0) => w w'; apply/matrixP => i j; rewrite !mxE.
move: (w i j) (w' i j) (b (t + dt) i j) (b t i j) (y0 i j) (y i j) (2%:R^-1) => *; ring.
Qed.

Lemma step1_eq o dt s y0 : List.nth_error (b_ys o) 0 = Some y0 -> bdf_step1 gmres sys o dt = Ok s ->
  sr_t s = b_t o + dt /\ sr_y s = y0 + dt *: rs_frhs sys (b_t o + dt + dt) (sr_y s).
Proof.
rewrite /bdf_step1 /rnth => -> /=; rewrite /jac_newton.
case e: (newton_loop _ _ _ _ _ _ _ _ _ _) => [y|] //= [<-] /=; split=> //.
have := newton_affine (Mlin dt) (g1E y0 dt (b_t o + dt)) (jacM dt dt (b_t o + dt)) ex e.
by rewrite /gfn_bdf1 scaleNr => /eqP; rewrite addrC -opprD subr_eq0 addrC => /eqP.
Qed.
Lemma step2_eq o dt s y0 ym : List.nth_error (b_ys o) 0 = Some y0 -> List.nth_error (b_ys o) 1 = Some ym ->
  bdf_step2 gmres sys o dt = Ok s ->
  sr_t s = b_t o + dt /\ sr_y s = (4%:R / 3%:R) *: y0 - (1 / 3%:R) *: ym + (2%:R * dt / 3%:R) *: rs_frhs sys (b_t o + dt + dt) (sr_y s).
Proof.
rewrite /bdf_step2 /rnth => -> -> /=; rewrite /jac_newton.
case e: (newton_loop _ _ _ _ _ _ _ _ _ _) => [y|] //= [<-] /=; split=> //.
have hJ x v : gfn_jac sys (- 2%:R * dt / 3%:R) dt (b_t o + dt) x v = M (2%:R * dt / 3%:R) v.
  by rewrite !mulNr jacM.
have := newton_affine (Mlin _) (g2E y0 ym dt (b_t o + dt)) hJ ex e.
rewrite /gfn_bdf2 => /eqP; rewrite subr_eq0 => /eqP <-.
apply/matrixP => i j; rewrite !mxE; move: (y i j) (y0 i j) (ym i j) (4%:R / 3%:R) (1 / 3%:R) => *; ring.
Qed.
Lemma stepcn_eq o dt s y0 : List.nth_error (b_ys o) 0 = Some y0 -> bdf_step_cn gmres sys o dt = Ok s ->
  sr_t s = b_t o + dt /\ sr_y s = y0 + (dt / 2%:R) *: (rs_frhs sys (b_t o + dt + dt) (sr_y s) + rs_frhs sys (b_t o + dt) y0).
Proof.
rewrite /bdf_step_cn /rnth => -> /=; rewrite /jac_newton.
case e: (newton_loop _ _ _ _ _ _ _ _ _ _) => [y|] //= [<-] /=; split=> //.
have hJ x v : gfn_jac sys (- 2%:R^-1 * dt) dt (b_t o + dt) x v = M (dt * 2%:R^-1) v.
  by rewrite mulNr mulrC jacM.
have := newton_affine (Mlin _) (gcE y0 dt (b_t o + dt)) hJ ex e.
rewrite /gfn_cn mulNr scaleNr => h; apply/eqP; rewrite -subr_eq0 -[X in _ == X]h scalerDr; apply/eqP.
move: (rs_frhs _ _ y) (rs_frhs _ _ y0) => f1 f2; apply/matrixP => i j; rewrite !mxE; move: (y i j) (y0 i j) (f1 i j) (f2 i j) (2%:R^-1) => *; ring.
Qed.

(* totality: the step returns when the implicit equation is uniquely solvable *)
Hypothesis co : complete_solver gmres.
Lemma M_surj c : (1%:M - c *: A) \in unitmx -> (forall v, M c v = 0 -> v = 0) /\ (forall w, exists v, M c v = w).
Proof.
move=> u; have e v : M c v = (1%:M - c *: A) *m v by rewrite /M mulmxBl mul1mx scalemxAl.
split=> [v|w]; first by rewrite e => h; rewrite -(mulKmx u v) h mulmx0.
by exists (invmx (1%:M - c *: A) *m w); rewrite e mulKVmx.
Qed.
Lemma step1_total o dt y0 : List.nth_error (b_ys o) 0 = Some y0 -> (1%:M - dt *: A) \in unitmx ->
  exists s, bdf_step1 gmres sys o dt = Ok s.
Proof.
rewrite /bdf_step1 /rnth => -> /= /M_surj [h1 h2]; rewrite /jac_newton.
have [y [e _]] := newton_affine_total (lin_tol F) 1000 (Mlin dt) (g1E y0 dt (b_t o + dt)) (jacM dt dt (b_t o + dt)) ex 98 y0 0 co h1 h2 (nl_tol_gt0 F).
by rewrite e; eexists.
Qed.
Lemma step2_total o dt y0 ym : List.nth_error (b_ys o) 0 = Some y0 -> List.nth_error (b_ys o) 1 = Some ym ->
  (1%:M - (2%:R * dt / 3%:R) *: A) \in unitmx -> exists s, bdf_step2 gmres sys o dt = Ok s.
Proof.
rewrite /bdf_step2 /rnth => -> -> /= /M_surj [h1 h2]; rewrite /jac_newton.
have hJ x v : gfn_jac sys (- 2%:R * dt / 3%:R) dt (b_t o + dt) x v = M (2%:R * dt / 3%:R) v.
  by rewrite !mulNr jacM.
have [y [e _]] := newton_affine_total (lin_tol F) 1000 (Mlin _) (g2E y0 ym dt (b_t o + dt)) hJ ex 98 y0 0 co h1 h2 (nl_tol_gt0 F).
by rewrite e; eexists.
Qed.
Lemma stepcn_total o dt y0 : List.nth_error (b_ys o) 0 = Some y0 ->
  (1%:M - (dt / 2%:R) *: A) \in unitmx -> exists s, bdf_step_cn gmres sys o dt = Ok s.
Proof.
rewrite /bdf_step_cn /rnth => -> /= /M_surj [h1 h2]; rewrite /jac_newton.
have hJ x v : gfn_jac sys (- 2%:R^-1 * dt) dt (b_t o + dt) x v = M (dt * 2%:R^-1) v.
  by rewrite mulNr mulrC jacM.
have [y [e _]] := newton_affine_total (lin_tol F) 1000 (Mlin _) (gcE y0 dt (b_t o + dt)) hJ ex 98 y0 0 co h1 h2 (nl_tol_gt0 F).
by rewrite e; eexists.
Qed.
End Affine.
