(* PropRustEx.v : concrete runs of the Rust integrators that contradict the documented formulas,
   and non-vacuity of the hypotheses of PropRust.v. *)
From Coq Require Import String.
From mathcomp Require Import all_ssreflect all_algebra.
From mathcomp Require Import ring.
From Verif Require Import ModelHist MxBase ModelOps ModelKrylov ModelInt ModelRust SpecRust ProofsKrylov.
From Verif Require Import ProofsRust ProofsRust2 ProofsRust3 ProofsRust4 PropRust.
Set Implicit Arguments.
Unset Strict Implicit.
Unset Printing Implicit Defensive.
Import Order.TTheory GRing.Theory Num.Theory.
Local Open Scope ring_scope.
Local Opaque newton_loop jac_newton apply_phi_linop rkiops norm2 nl_tol lin_tol.

Section E.
Variable F : rcfType.
Notation vec := 'cV[F]_1.
Definition sc (x : F) : vec := const_mx x.
Lemma sc_inj x y : sc x = sc y -> x = y.
Proof. by move/matrixP/(_ 0 0); rewrite !mxE. Qed.
Lemma scE (v : vec) : v = sc (v 0 0).
Proof. by apply/matrixP => i j; rewrite !mxE !ord1. Qed.

(* exact and complete solvers exist *)
Theorem solvers_exist n : exists g, exact_solver (F := F) (n := n) g /\ complete_solver g.
Proof. by exists (@ideal_solver F n); split; [exact: ideal_exact|exact: ideal_complete]. Qed.

Variable gmres : (vec -> vec) -> vec -> vec -> nat -> F -> option vec.
Hypotheses (ex : exact_solver gmres) (co : complete_solver gmres).

Lemma natn0 k : k.+1%:R != 0 :> F. Proof. by rewrite pnatr_eq0. Qed.
Lemma unit_1c (c : F) : 1 + c != 0 -> 1%:M - c *: (- 1%:M) \in @unitmx F 1.
Proof. by move=> h; rewrite scalerN opprK -[X in X + _]scale1r -scalerDl unitmxZ ?unitmx1 // unitfE. Qed.

(* y' = -y, y(0) = 1, dt = 1, method bdf2: the values after one, two and three steps are 1/2, 1/5
   and 1/10; the third is not the BDF2 value *)
Theorem C42_refuted :
  let it := s_iter gmres (affine_rsys (- 1%:M) (fun _ => 0)) 1 (SBdf (bdf_new 0 (sc 1) 2)) in
  exists s1 s2 s3, [/\ it 1%N = Ok s1 /\ s_state s1 = Ok (sc (1 / 2%:R)),
    it 2%N = Ok s2 /\ s_state s2 = Ok (sc (1 / 5%:R)),
    it 3%N = Ok s3 /\ s_state s3 = Ok (sc (1 / 10%:R)) &
    forall y3 : F, y3 = (4%:R / 3%:R) * (1 / 5%:R) - (1 / 3%:R) * (1 / 2%:R) + (2%:R / 3%:R) * (- y3) -> y3 <> 1 / 10%:R].
Proof.
set sys := affine_rsys _ _; move=> it.
have n2 : 1 + (1 : F) != 0 by rewrite -mulr2n natn0.
have step (o : bdf F 1) y hist : b_ys o = y :: hist -> b_order o = 2%N -> exists s, bdf_step gmres sys o 1 = Ok s /\
   if hist is [:: ym] then sr_y s = (5%:R^-1) *: (4%:R *: y - ym) else sr_y s = (2%:R)^-1 *: y.
  move=> ey o2.
  have [||||s hs] := @C43_step_returns F 1 gmres (- 1%:M) (fun _ => 0) o y hist 1 ex co ey.
  - by rewrite o2.
  - exact: unit_1c.
  - apply: unit_1c; rewrite mulr1; apply/eqP => h; have : 5%:R = 0 :> F.
      have -> : 5%:R = 3%:R * (1 + 2%:R / 3%:R) :> F by field.
      by rewrite h mulr0.
    by move/eqP; rewrite (negPf (natn0 4)).
  - apply: unit_1c; apply/eqP => h; have : 3%:R = 0 :> F.
      have -> : 3%:R = 2%:R * (1 + 1 / 2%:R) :> F by field.
      by rewrite h mulr0.
    by move/eqP; rewrite (negPf (natn0 2)).
  exists s; split=> //.
  have [_] := @C43_implicit_equations F 1 gmres (- 1%:M) (fun _ => 0) o y hist 1 s ex ey hs.
  rewrite o2; case: hist ey => [|ym [|z hist]] ey /= h; apply/matrixP => i j; move/matrixP/(_ i j): h;
    rewrite mulNmx mul1mx addr0 !mxE; move: (sr_y s i j) (y i j) => a b h.
  - have : 2%:R * a = b by rewrite {1}mulr_natl mulr2n {1}h; ring.
    by move=> <-; rewrite mulrA mulVf ?natn0 ?mul1r.
  - move: (ym i j) h => c h; have : 5%:R * a = 4%:R * b - c.
      have -> : 5%:R * a = 3%:R * (a + 2%:R * 1 / 3%:R * a) by field.
      by rewrite {1}h; field.
    by move=> <-; rewrite mulrA mulVf ?natn0 ?mul1r.
  have : 2%:R * a = b by rewrite {1}mulr_natl mulr2n {1}h; ring.
  by move=> <-; rewrite mulrA mulVf ?natn0 ?mul1r.
have sce c (x : F) : c *: sc x = sc (c * x) by apply/matrixP => i j; rewrite !mxE.
have [r1 [f1 /= g1]] := @step (bdf_new 0 (sc 1) 2) (sc 1) [::] erefl erefl.
have i1 : it 1%N = Ok (SBdf (bdf_accept (bdf_new 0 (sc 1) 2) r1)).
  by rewrite /it s_iterS; cbn [rbind s_iter s_step]; rewrite f1.
set o1 := bdf_accept _ _ in i1.
have [r2 [f2 /= g2]] := @step o1 (sr_y r1) [:: sc 1] erefl erefl.
have i2 : it 2%N = Ok (SBdf (bdf_accept o1 r2)).
  by rewrite /it s_iterS -/it i1; cbn [rbind s_iter s_step]; rewrite f2.
set o2 := bdf_accept _ _ in i2.
have [r3 [f3 /= g3]] := @step o2 (sr_y r2) [:: sr_y r1; sc 1] erefl erefl.
have i3 : it 3%N = Ok (SBdf (bdf_accept o2 r3)).
  by rewrite /it s_iterS -/it i2; cbn [rbind s_iter s_step]; rewrite f3.
have g1' : sr_y r1 = sc (1 / 2%:R) by rewrite g1 sce mul1r mulr1.
have g2' : sr_y r2 = sc (1 / 5%:R).
  by rewrite g2 g1' sce; apply/matrixP => i j; rewrite !mxE; field.
have g3' : sr_y r3 = sc (1 / 10%:R).
  rewrite g3 g2' sce; congr sc; by field.
exists (SBdf o1), (SBdf o2), (SBdf (bdf_accept o2 r3)); split; first by split=> //=; rewrite /rnth /= g1'.
- by split=> //=; rewrite /rnth /= g2'.
- by split=> //=; rewrite /rnth /= g3'.
move=> y3 h ey.
have : 5%:R * y3 = 3%:R / 10%:R.
  have -> : 5%:R * y3 = 3%:R * (y3 + 2%:R / 3%:R * y3) by field.
  rewrite {1}h; by field.
rewrite ey => e10; have : 2%:R = 0 :> F.
  have -> : 2%:R = 10%:R * (5%:R * (1 / 10%:R)) - 3%:R :> F by field.
  by rewrite e10; field.
by move/eqP; rewrite (negPf (natn0 1)).
Qed.

(* y' = t: backward Euler from t = 0 with dt = 1 gives y0 + 2, not y0 + 1 *)
Theorem C43_refuted :
  exists s, bdf_step gmres (affine_rsys 0 (fun t => sc t)) (bdf_new 0 (sc 0) 1) 1 = Ok s /\
  sr_y s = sc 2%:R /\ sr_y s <> sc 0 + 1 *: sc (0 + 1).
Proof.
have u c : 1%:M - c *: (0 : 'M[F]_1) \in unitmx by rewrite scaler0 subr0 unitmx1.
have [s hs] := @C43_step_returns F 1 gmres 0 (fun t => sc t) (bdf_new 0 (sc 0) 1) (sc 0) [::] 1 ex co erefl erefl (u _) (u _) (u _).
exists s; split=> //.
have [_ /=] := @C43_implicit_equations F 1 gmres 0 (fun t => sc t) (bdf_new 0 (sc 0) 1) (sc 0) [::] 1 s ex erefl hs.
rewrite mul0mx add0r mulr1 add0r scale1r => h.
have e : sr_y s = sc 2%:R by rewrite h; apply/matrixP => i j; rewrite !mxE add0r.
split=> //; rewrite e => /matrixP /(_ 0 0); rewrite !mxE => h2.
have : 1 = 0 :> F.
  have -> : 1 = 2%:R - (0 + 1 * (0 + 1)) :> F by ring.
  by rewrite h2 subrr.
by move/eqP; rewrite oner_eq0.
Qed.

(* y' = y^2, y(0) = 1, dt = 1/8: the Newton iteration stops after one correction of size 1/6, at
   a point where the backward Euler equation still has residual -1/288 *)
Definition sq_rsys : rsys F 1 := RSys (fun _ y => sc (y 0 0 ^+ 2)) (fun _ y v => sc (2%:R * y 0 0 * v 0 0)).
Lemma norm2_sc (x : F) : norm2 (sc x) = `|x|.
Proof. Local Transparent norm2. by rewrite /norm2 /dotv big_ord1 mxE -expr2 sqrtr_sqr. Qed.
Theorem C44_refuted :
  exists s, bdf_step gmres sq_rsys (bdf_new 0 (sc 1) 1) (1 / 8%:R) = Ok s /\
  sr_y s - sc 1 = sc (1 / 6%:R) /\
  sr_y s - sc 1 - (1 / 8%:R) *: rs_frhs sq_rsys (0 + 1 / 8%:R) (sr_y s) = sc (- (1 / 288%:R)).
Proof.
rewrite /bdf_step /bdf_step1 /rnth; cbn [bdf_new b_order b_ys b_t List.nth_error rbind].
set G := gfn_bdf1 _ _ _; set J := gfn_jac _ _ _; set t := 0 + _.
have hJ y v : J t y v = sc ((1 - 1 / 8%:R * (2%:R * y 0 0)) * v 0 0).
  rewrite /J /gfn_jac /fjac_shifted /shifted_apply /=; apply/matrixP => i j; rewrite !mxE !ord1.
  move: (y 0 0) (v 0 0) => a b; by field.
have hG y : G t y = sc (y 0 0 - 1 - 1 / 8%:R * y 0 0 ^+ 2).
  rewrite /G /gfn_bdf1 /=; apply/matrixP => i j; rewrite !mxE !ord1; move: (y 0 0) => a; by field.
case e: (gmres (J t (sc 1)) (G t (sc 1)) 0 1000 (lin_tol F)) => [a|]; last first.
  case: (co (A := J t (sc 1)) (b := G t (sc 1)) _ e); exists (sc (- (1 / 6%:R))).
  by rewrite hJ hG !mxE; congr sc; field.
have ha : sc 1 - a = sc (7%:R / 6%:R).
  have := ex e; rewrite hJ hG [sc 1 0 0]mxE => /sc_inj h; rewrite [a]scE; apply/matrixP => i j; rewrite !mxE.
  have -> : a 0 0 = (4%:R / 3%:R) * ((1 - 1 / 8%:R * (2%:R * 1)) * a 0 0) by move: (a 0 0) => z; field.
  by rewrite h; field.
have step : jac_newton gmres t (sc 1) G J (nl_tol F) (lin_tol F) 100 1000 = Ok (sc (7%:R / 6%:R)).
  apply/(@C44_acceptance_rule F 1 gmres t G J (nl_tol F) (lin_tol F) 100 1000 (sc 1) _).2.
  exists 0%N; split=> //; exists (sc 1, 0), (sc (7%:R / 6%:R), a); split=> //.
    by rewrite /= e ha.
  cbn [fst]; rewrite !norm2_sc normr1 ger0_norm ?divr_ge0 ?ler0n //.
  apply: le_lt_trans (nl_tol_gt0 F); rewrite subr_le0 ler_pdivl_mulr ?ltr0n // mul1r ler_nat; by [].
rewrite step; cbn [rbind]; eexists; split; first reflexivity.
cbn [sr_y rres]; split; apply/matrixP => i j; rewrite !mxE /=; by field.
Qed.

(* y' = t: one step of the fourth-order scheme from t = 0, y = 0 with dt = 1 gives 1/4, the
   classical formula gives 1/2 *)
Theorem C45_refuted :
  exists o s, [/\ rrk_new 0 (sc 0) 4 = Ok o, rrk_step (affine_rsys 0 (fun t => sc t)) o 1 = Ok s,
    sr_y s = sc (1 / 4%:R) & classical_rk4_step (fun t _ => sc t) 0 (sc 0) 1 = sc (1 / 2%:R)].
Proof.
have eo : rrk_new 0 (sc 0) 4 = Ok (RkInt 4 (bt_factory F 4) 0 [:: sc 0]) by [].
have es := @C45_step_value F 1 (affine_rsys 0 (fun t => sc t)) 4 0 (sc 0) _ 1 eo.
eexists; eexists; split; [exact: eo|exact: es| |].
  cbn [sr_y affine_rsys rs_frhs]; rewrite !mul0mx !add0r; apply/matrixP => i j; rewrite !mxE; by field.
rewrite /classical_rk4_step; apply/matrixP => i j; rewrite !mxE; by field.
Qed.
End E.
