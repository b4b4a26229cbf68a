(* ProofsConvRs.v : one-step errors, uniform in the problem, of the explicit Runge-Kutta formulas of order 1 to 4 and
   of the theta formula on affine problems. *)
From Coq Require Import Reals String.
From mathcomp Require Import all_ssreflect all_algebra.
From mathcomp Require Import complex ring.
From Verif Require Import Rstruct Summable MxBase MxSeries ProofsPhiErr ModelHist SpecHist ModelOps SpecOps SpecPhi ModelPhi ModelKrylov ModelDispatch ModelInt SpecInt ProofsInt ProofsInt5 SpecExact ProofsExact.
From Verif Require Import SpecProg SpecOrder SpecOrder2 SpecConv ProofsJet ProofsJet2 ProofsJet3 ProofsOrder ProofsOrder2 ProofsOrder3 ProofsOrder4 ProofsOrder5 ProofsOrder6 ProofsOrder7 ProofsOrder8.
From Verif Require Import ProofsUJ ProofsUJ2 ProofsConv ProofsConv2 ProofsConv3 ProofsConv4 ProofsConv5 ProofsConv6 ProofsConv7 ModelRust SpecRust.
Set Implicit Arguments.
Unset Strict Implicit.
Unset Printing Implicit Defensive.
Import Order.TTheory GRing.Theory Num.Theory.
Local Open Scope ring_scope.
Local Opaque breakdown_tol norm2 phi_linop f_phi_k_pfd kiops_fixedsteps.

Section Rk.
Variables (Om : Type) (dt eta : Om -> R) (good : Om -> Prop).
Hypothesis dt0 : forall w, good w -> 0 <= dt w.
Hypothesis eta0 : forall w, good w -> 0 <= eta w.
Variables (pr : Om -> prob) (k : nat) (B r : R).
Hypothesis B0 : 0 <= B.
Hypothesis r0 : 0 < r.
Hypothesis k0 : (0 < k)%N.
Hypothesis k3 : (k <= 3)%N.
Hypothesis pg : forall w, good w -> pgood k B r (pr w).
Hypothesis hin : forall w, good w -> ptin (pr w) (dt w).
Notation UJ := (UJ dt eta good).
Notation vec w := 'cV[R]_(pn (pr w)).
Notation Fx w := (pf0 (pr w)).
Notation Ft w := (pft (pr w)).
Notation J w := (pJ (pr w)).
Notation zc := (fun m w => pzc (pr w) m).
Let Cf p b : UJ p b (fun w => Fx w) (fun m w => cst (Fx w) m) := C_f dt0 eta0 B0 pg p b.
Notation hinc := (hinc dt0 pg hin).
Let hh0 : 0 <= (half : R). Proof. by rewrite invr_ge0 ler0n. Qed.
Let hh1 : (half : R) <= 1. Proof. by rewrite invf_le1 ?ltr0n // ler1n. Qed.
Let HF c h (a : nat -> forall w, vec w) c0 c1 := @UJ_f _ _ _ _ dt0 eta0 pr k B r B0 r0 k3 pg k true c h a k0 (leqnn k) (fun w => @hinc c w c0 c1).

Lemma U_rk1 : UJ 1 true (fun w => dt w *: Fx w) zc.
Proof.
apply: UJ_eq (UJ_s dt0 eta0 (Cf 0 true)) => m w.
by case: m => [|[|m]] // _ _; rewrite /shift /cst /pzc /zco.
Qed.
Definition kk2 w : vec w := pf (pt (pr w) + half * dt w)%R (py (pr w) + (half * dt w) *: Fx w).
Definition a2 m w : vec w := pfc (pr w) half (fun j => half *: shift (cst (Fx w)) j) m.
Lemma U_k2 : UJ k true kk2 a2.
Proof.
have H := UJ_le dt0 eta0 (leqnSn k) (UJ_sc dt0 eta0 half (Cf k true)).
by apply: (HF hh0 hh1 H) => w _; rewrite /= scaler0.
Qed.
Lemma U_rk2 : UJ 2 true (fun w => dt w *: kk2 w) zc.
Proof.
have H := UJ_s dt0 eta0 (UJ_le dt0 eta0 k0 U_k2).
apply: UJ_eq H => m w.
case: m => [|[|[|m]]] // _ _; rewrite /a2 /pfc /fcoc /shift /cst /pzc /zco /half.
by vlin; field.
Qed.
Hypothesis k2 : (1 < k)%N.
Definition kk3 w : vec w := pf (pt (pr w) + r1 * dt w)%R (py (pr w) + (dt w *: (2%:R *: kk2 w - Fx w))).
Lemma U_rk3 : UJ 3 true (fun w => dt w *: (6%:R^-1 *: (Fx w + 4%:R *: kk2 w + kk3 w))) zc.
Proof.
have H1 : UJ k true (fun w => 2%:R *: kk2 w - Fx w) (fun m w => 2%:R *: a2 m w - cst (Fx w) m).
  exact: UJB (UJZ (2%:R : R_fieldType) U_k2) (Cf k true).
have H2 := UJ_le dt0 eta0 (leqnSn k) (UJ_s dt0 eta0 H1).
have H3 := HF ler01 (lexx _) H2 (fun w _ => erefl).
have H := UJ_s dt0 eta0 (UJ_le dt0 eta0 k2 (UJZ (6%:R^-1 : R_fieldType) (UJD (UJD (Cf k true) (UJZ (4%:R : R_fieldType) U_k2)) H3))).
apply: UJ_eq H => m w.
have D2h x : D2 (@pH2 (pr w)) (half *: x, half) (half *: x, half) = half ^+ 2 *: D2 (@pH2 (pr w)) (x, r1) (x, r1).
  have e : tx half (half *: x) = half *: tx r1 x by rewrite -tx_scale mulr1.
  by rewrite /D2 /= e diff2Sl diff2Sr scalerA expr2.
case: m => [|[|[|[|m]]]] // _ _; rewrite /a2 /pfc /fcoc /shift /cst /pzc /zco ?D2h.
- by vlin; field.
- by rewrite /half; vlin; field.
- have -> : 2%:R *: Fx w - Fx w = Fx w by rewrite scaler_nat mulr2n addrK.
  move: (D2 _ _ _) => q; rewrite /half; by vlin; field.
Qed.
End Rk.

(* the theta formula for a problem that is affine and autonomous: x = dt F + theta dt J x *)
Section Theta.
Variables (Om : Type) (dt eta : Om -> R) (good : Om -> Prop).
Hypothesis dt0 : forall w, good w -> 0 <= dt w.
Hypothesis eta0 : forall w, good w -> 0 <= eta w.
Variables (pr : Om -> prob) (B r : R).
Hypothesis B0 : 0 <= B.
Hypothesis pg : forall w, good w -> pgood 1 B r (pr w).
Hypothesis ft0 : forall w, good w -> pft (pr w) = 0.
Notation UJ := (UJ dt eta good).
Notation vec w := 'cV[R]_(pn (pr w)).
Notation Fx w := (pf0 (pr w)).
Notation J w := (pJ (pr w)).
Notation zc := (fun m w => pzc (pr w) m).
Let Cf p b : UJ p b (fun w => Fx w) (fun m w => cst (Fx w) m) := C_f dt0 eta0 B0 pg p b.
Variables (theta : R) (x : forall w, vec w).
Hypothesis th0 : 0 <= theta.
Hypothesis th1 : theta <= 1.
Hypothesis hx : forall w, good w -> x w = dt w *: Fx w + (theta * dt w) *: (J w *m x w).
Lemma theta_small : UO dt eta good (wt dt eta 1 true) x.
Proof.
have B1 : 0 < 2%:R * (1 + B) by rewrite mulr_gt0 ?ltr0n // ltr_spaddl // ltr01.
exists (2%:R * B)%R; split; first by rewrite mulr_ge0 ?ler0n.
have h2 : 0 < (2%:R * (1 + B))^-1 by rewrite invr_gt0.
apply: uev_imp (uev_small dt eta good h2) => w gw [d1 _].
have d0 := dt0 gw; have g := pg gw; have hF := pg_f g; have hJ := pg_J g.
have X0 := ninf_ge0 (x w).
have e1 : ninf (x w) <= dt w * B + 2%:R^-1 * ninf (x w).
  rewrite {1}(hx gw); apply: le_trans (ninfD _ _) _; apply: ler_add.
    by rewrite ninfZ ger0_norm // ler_wpmul2l.
  rewrite ninfZ ger0_norm ?mulr_ge0 //; apply: (@le_trans _ _ (dt w * (B * ninf (x w)))).
    apply: ler_pmul; rewrite ?mulr_ge0 ?ninf_ge0 //; first by rewrite ler_pimull.
    by apply: le_trans (ninfM _ _) _; rewrite ler_wpmul2r.
  rewrite mulrA ler_wpmul2r //.
  have : dt w * (2%:R * (1 + B)) <= 1 by move: d1; rewrite -[X in _ <= X]mul1r ler_pdivl_mulr.
  move=> h; rewrite -[2%:R^-1]mul1r ler_pdivl_mulr ?ltr0n //; apply: le_trans h.
  by rewrite -mulrA ler_wpmul2l // mulrC ler_wpmul2l ?ler0n // ler_addr ler01.
have e2 : ninf (x w) <= 2%:R * B * dt w.
  have : ninf (x w) - 2%:R^-1 * ninf (x w) <= dt w * B by rewrite ler_subl_addr.
  have -> : ninf (x w) - 2%:R^-1 * ninf (x w) = 2%:R^-1 * ninf (x w) by move: (ninf (x w)) => q; field.
  by rewrite ler_pdivr_mull ?ltr0n // => h; apply: le_trans h _; rewrite mulrA mulrAC.
apply: le_trans e2 _; rewrite ler_wpmul2l ?mulr_ge0 ?ler0n // /wt expr1 ler_addl.
by rewrite mulr_ge0 ?eta0.
Qed.
Let X0 : UJ 0 true x (fun m w => 0).
Proof. by apply: UO_small theta_small _. Qed.
Lemma theta_up p a : UJ p true x a ->
  UJ p.+1 true x (fun m w => shift (cst (Fx w)) m + theta *: shift (fun j => J w *m a j w) m).
Proof.
move=> H; have HJ := UJ_mx (C_J dt eta B0 pg) H.
have := UJD (UJ_s dt0 eta0 (Cf p true)) (UJ_sc dt0 eta0 theta HJ).
apply: UJ_ext => w gw; exact: esym (hx gw).
Qed.
Lemma U_theta1 : UJ 1 true x zc.
Proof.
apply: UJ_eq (theta_up X0) => m w.
by case: m => [|[|m]] // _ _; rewrite /shift /cst /pzc /zco ?mulmx0 ?scaler0 ?addr0.
Qed.
Lemma U_theta2 : theta = 2%:R^-1 -> UJ 2 true x zc.
Proof.
move=> et; apply: UJ_eq (theta_up (theta_up X0)) => m w.
case: m => [|[|[|m]]] // _ gw; rewrite /shift /cst /pzc /zco ?mulmx0 ?scaler0 ?addr0 ?ft0 //.
- by rewrite mulmx0 scaler0 addr0.
- by rewrite !add0r et.
Qed.
End Theta.

Section Methods.
Variables (B r : R).
Hypothesis B0 : 0 <= B.
Hypothesis r0 : 0 < r.
Notation good k S := (fun w => ubase k B r (uq w) (ud w) (ue w) /\ S w).
Notation GD k := (@gd k B r _).
Notation GE k := (@ge k B r _).
Notation GP k := (@gp k B r _).
Notation GI k := (@gi k B r _).
Definition rkv (order : nat) w : un w := rk_formula order (@pf (uq w)) (pt (uq w)) (py (uq w)) (ud w).
Lemma one_rk order : (0 < order <= 4)%N -> unif (maxn order.-1 1) B r (fun=> True) order (rkv order).
Proof.
have eh w : ud w / 2%:R = half * ud w by rewrite mulrC.
case: order => [|[|[|[|[|//]]]]] // _.
- apply: unif_of => //; apply: UJ_ext (U_rk1 (GD 1) (GE 1) B0 (GP 1) (good := good 1%N (fun=> True))) => w _.
  by rewrite /rkv /= /euler_step addrAC subrr add0r.
- apply: unif_of => //; apply: UJ_ext (U_rk2 (k := 1%N) (GD 1) (GE 1) B0 r0 isT isT (GP 1) (GI 1) (good := good 1%N (fun=> True))) => w _.
  by rewrite /rkv /= /midpoint_step addrAC subrr add0r eh.
- apply: unif_of => //; apply: UJ_ext (U_rk3 (k := 2%N) (GD 2) (GE 2) B0 r0 isT isT (GP 2) (GI 2) isT (good := good 2%N (fun=> True))) => w _.
  rewrite /rkv /= /kutta3_step eh -/(kk2 ud uq w) [X in _ = X]addrAC subrr add0r -scalerA /kk3 mul1r; set k2 := kk2 _ _ _.
  have -> : py (uq w) - ud w *: Fxu w + (2%:R * ud w) *: k2 = py (uq w) + ud w *: (2%:R *: k2 - Fxu w).
    by rewrite scalerBr scalerA [ud w * _]mulrC -addrA [- _ + _]addrC.
  by [].
- apply: unif_of => //; apply: UJ_ext (U_rk4 (GD 3) (GE 3) B0 r0 (GP 3) (GI 3) (good := good 3%N (fun=> True))) => w _.
  by rewrite /rkv /= /classical_rk4_step [X in _ = X]addrAC subrr add0r /rk4v /k4v /k3v /k2v eh -[ud w / _]mulrC.
Qed.
(* theta formula: u1 is the increment *)
Definition S_theta (theta : R) w : Prop := pft (uq w) = 0 /\ u1 w = ud w *: Fxu w + (theta * ud w) *: (Ju w *m u1 w).
Lemma one_theta theta : 0 <= theta -> theta <= 1 -> unif 1 B r (S_theta theta) 1 (fun w => py (uq w) + u1 w).
Proof.
move=> t0 t1; apply: unif_of => //.
have H := @U_theta1 _ ud ue (good 1%N (S_theta theta)) (GD 1) (GE 1) uq B r B0 (GP 1) theta u1 t0 t1.
apply: UJ_ext (H _) => [w _|w [_ [_ h]] //]; exact: dif2.
Qed.
Lemma one_theta2 theta : theta = 2%:R^-1 -> unif 1 B r (S_theta theta) 2 (fun w => py (uq w) + u1 w).
Proof.
move=> et; have [t0 t1] : 0 <= theta /\ theta <= 1 by rewrite et invr_ge0 ler0n invf_le1 ?ltr0n // ler1n.
apply: unif_of => //.
have H := @U_theta2 _ ud ue (good 1%N (S_theta theta)) (GD 1) (GE 1) uq B r B0 (GP 1) _ theta u1 t0 t1.
apply: UJ_ext (H _ _ et) => [w _|w [_ []] //|w [_ [_ h]] //]; exact: dif2.
Qed.
End Methods.
