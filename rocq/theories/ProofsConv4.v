(* ProofsConv4.v : expansions of the exponential Rosenbrock steps with perturbed kernel answers, uniform over
   a family of problems. *)
From Coq Require Import Reals.
From mathcomp Require Import all_ssreflect all_algebra.
From mathcomp Require Import ring.
From Verif Require Import Rstruct Summable MxBase MxSeries ProofsPhiErr SpecProg SpecOrder ProofsJet2 ProofsJet3 ProofsOrder ProofsUJ ProofsUJ2 ProofsConv ProofsConv2 ProofsConv3.
Set Implicit Arguments.
Unset Strict Implicit.
Unset Printing Implicit Defensive.
Import Order.TTheory GRing.Theory Num.Theory.
Local Open Scope ring_scope.

Section RB.
Variables (Om : Type) (dt eta : Om -> R) (good : Om -> Prop).
Hypothesis dt0 : forall w, good w -> 0 <= dt w.
Hypothesis eta0 : forall w, good w -> 0 <= eta w.
Variables (pr : Om -> prob) (k : nat) (B r : R).
Hypothesis B0 : 0 <= B.
Hypothesis r0 : 0 < r.
Hypothesis k0 : (0 < k)%N.
Hypothesis k3 : (k <= 3)%N.
Hypothesis pg : forall w, good w -> pgood k B r (pr w).
Hypothesis hin : forall w, good w -> ptin (pr w) (dt w).
Notation UJ := (UJ dt eta good).
Notation UO := (UO dt eta good).
Notation vec w := 'cV[R]_(pn (pr w)).
Let n w := pn (pr w).
Let Fx w := pf0 (pr w).
Let Ft w := pft (pr w).
Let J w := pJ (pr w).
Let zc m w := pzc (pr w) m.
Let e2 m w : vec w := e2c (@pf (pr w)) (pt (pr w)) (py (pr w)) (Ft w) (J w) m.
Let rcc m w : vec w := rco (@pf (pr w)) (pt (pr w)) (py (pr w)) (Ft w) (J w) (@pH2 (pr w)) (@pH3 (pr w)) m.

Lemma hinc (c : R) w : 0 <= c -> c <= 1 -> good w -> ptin (pr w) (c * dt w)%R.
Proof.
move=> c0 c1 gw; have := @ptin_mul (pr w) 1 (dt w) (c * dt w)%R; rewrite !mul1r; apply.
- exact: pg_0 (pg gw).
- exact: hin.
- by rewrite mulr_ge0 ?dt0.
- by rewrite ler_pimull ?dt0.
Qed.
(* an answer with error eta relative to two arguments that vanish with dt *)
Lemma UJ_ker2 p (d : Om -> nat) (g1 g2 W P : forall w, 'cV[R]_(d w)) a1 a2 a' : UJ p true P a' -> UJ p true g1 a1 -> UJ p true g2 a2 ->
  (forall w, good w -> a1 0%N w = 0) -> (forall w, good w -> a2 0%N w = 0) ->
  (forall w, good w -> ninf (W w - P w) <= eta w * (ninf (g1 w) + ninf (g2 w))) -> UJ p true W a'.
Proof.
move=> HP He1 He2 z1 z2 hW; apply: UJ_pert HP _.
have [C [C0 HC]] := UJ_small dt0 eta0 z1 He1; have [D [D0 HD]] := UJ_small dt0 eta0 z2 He2.
exists ((C + D) * 2%:R); split; first by rewrite mulr_ge0 ?ler0n ?addr_ge0.
apply: uev_imp (uev_and (uev_and HC HD) (uev1 _ _ _)) => w gw [[h1 h2] [h3 h4]].
have w0 := dt0 gw; have e0 := eta0 gw.
apply: le_trans (hW w gw) _.
have h5 : ninf (g1 w) + ninf (g2 w) <= (C + D) * (dt w + dt w * eta w).
  by rewrite mulrDl -[X in C * (X + _)]expr1 -[X in D * (X + _)]expr1; apply: ler_add.
apply: le_trans (ler_wpmul2l e0 h5) _; rewrite /wt /= mulrCA -[X in _ <= X]mulrA; apply: ler_wpmul2l; first exact: addr_ge0.
have -> : eta w * (dt w + dt w * eta w) = dt w * eta w * (1 + eta w) by move: (eta w) (dt w) => x1 x2; ring.
apply: (@le_trans _ _ (dt w * eta w * 2%:R)).
  by apply: ler_wpmul2l; [exact: mulr_ge0|rewrite -[2%:R]/(1 + 1) ler_add2l].
by rewrite [X in _ <= X]mulrC; apply: ler_wpmul2r; rewrite ?ler0n // ler_addr exprn_ge0.
Qed.
Lemma C_f p b : UJ p b Fx (fun m w => cst (Fx w) m). Proof. exact: (UJ_cst dt0 eta0 _ _ (F_f _ _ B0 pg)). Qed.
Lemma C_ft p b : UJ p b Ft (fun m w => cst (Ft w) m). Proof. exact: (UJ_cst dt0 eta0 _ _ (F_ft _ _ B0 pg)). Qed.
Lemma C_J : ubm dt eta good J. Proof. exact: (F_J _ _ B0 pg). Qed.

(* one stage at node c *)
Section Stage.
Variables (c : R) (W1 W2 : forall w, vec w).
Hypothesis c0 : 0 <= c.
Hypothesis c1 : c <= 1.
Hypothesis h1 : forall w, good w -> ninf (W1 w - phi 1 ((c * dt w) *: J w) *m Fx w) <= eta w * ninf (Fx w).
Hypothesis h2 : forall w, good w -> ninf (W2 w - phi 2 ((c * dt w) *: J w) *m Ft w) <= eta w * ninf (Ft w).
Definition sti w : vec w := (c * dt w) *: W1 w + (c ^+ 2 * dt w ^+ 2) *: W2 w.
Lemma U_sti p : (p <= 4)%N -> UJ p true sti (fun m w => c ^+ m *: e2 m w).
Proof.
move=> p4; apply: (UJ_le dt0 eta0 p4).
have A1 : UJ 3 false W1 (fun m w => phc c 1 (J w) (cst (Fx w)) m).
  exact: UJ_ker (UJ_phi dt0 eta0 1 c C_J (C_f 3 true)) (C_f 3 true) h1.
have A2 : UJ 3 false W2 (fun m w => phc c 2 (J w) (cst (Ft w)) m).
  exact: UJ_ker (UJ_phi dt0 eta0 2 c C_J (C_ft 3 true)) (C_ft 3 true) h2.
have H := UJD (UJ_sc dt0 eta0 c A1) (UJ_sc dt0 eta0 c (UJ_le dt0 eta0 (leqnSn 3) (UJ_sc dt0 eta0 c A2))).
apply: UJ_eq (UJ_ext _ H) => [m w|w _]; last first.
  by rewrite /sti scalerA; congr (_ + _ *: _); rewrite !expr2; move: (dt w) => x; ring.
case: m => [|[|[|[|[|m]]]]] // _ _; rewrite /e2 /shift ?phcE0 ?phcE1 ?phcE2 ?phcE3 /cst ?fE /e2c ?mulmx0 ?scaler0 ?addr0 ?add0r // -/(Fx w); vlin; by field.
Qed.
Definition str w : vec w := pf (pt (pr w) + c * dt w)%R (py (pr w) + sti w) - Fx w - J w *m sti w - (c * dt w) *: Ft w.
Lemma U_str : UJ k true str (fun m w => c ^+ m *: rcc m w).
Proof.
have k4 : (k <= 4)%N by apply: leq_trans k3 _.
have z0 w : good w -> c ^+ 0 *: e2 0%N w = 0 by rewrite /e2 /= scaler0.
have Hf := UJ_f dt0 eta0 B0 r0 k3 pg k0 (leqnn k) (fun w => @hinc c w c0 c1) (U_sti k4) z0.
have H := UJB (UJB (UJB Hf (C_f k true)) (UJ_mx C_J (U_sti k4))) (UJ_le dt0 eta0 (leqnSn k) (UJ_sc dt0 eta0 c (C_ft k true))).
apply: UJ_eq H => m w mk gw.
rewrite (pfc_pow c (fun i => e2 i w) (leq_trans mk k3)).
have := leq_trans mk k3; case: m mk => [|[|[|[|m]]]] // mk _; rewrite /cst /shift /pfc /fcoc /rcc /rco /e2 /e2c -/(Fx w) /D2 /D3; vlin; by rewrite ?mulr1; field.
Qed.
End Stage.

Section Exprb2.
Variables (W1 W2 : forall w, vec w).
Hypothesis h1 : forall w, good w -> ninf (W1 w - phi 1 (dt w *: J w) *m (dt w *: Fx w)) <= eta w * ninf (dt w *: Fx w).
Hypothesis h2 : forall w, good w -> ninf (W2 w - phi 2 (dt w *: J w) *m Ft w) <= eta w * ninf (Ft w).
Lemma U_exprb2 : UJ 2 true (fun w => W1 w + dt w ^+ 2 *: W2 w) zc.
Proof.
have F1 := UJ_s dt0 eta0 (C_f 1 true).
have A1 : UJ 2 true W1 (fun m w => phc r1 1 (J w) (shift (cst (Fx w))) m).
  apply: (UJ_ker1 dt0 eta0 (UJ_phi dt0 eta0 1 r1 C_J F1) F1) => // w gw.
  by rewrite mul1r; apply: h1.
have A2 : UJ 1 false W2 (fun m w => phc r1 2 (J w) (cst (Ft w)) m).
  apply: (UJ_ker dt0 eta0 (UJ_phi dt0 eta0 2 r1 C_J (C_ft 1 true)) (C_ft 1 true)) => w gw.
  by rewrite mul1r; apply: h2.
have H := UJD A1 (UJ_le dt0 eta0 (leqnSn 2) (UJ_s dt0 eta0 (UJ_s dt0 eta0 A2))).
apply: UJ_eq (UJ_ext _ H) => [m w|w _]; last by rewrite scalerA expr2.
case: m => [|[|[|m]]] // _ _; rewrite /zc /pzc /zco ?phcE0 ?phcE1 ?phcE2 /shift ?phcE0 ?phcE1 ?phcE2 /cst ?fE -/(Fx w) -/(Ft w) -/(J w); vlin; by field.
Qed.
End Exprb2.
(* dense phi functions, partial fractions *)
Section Dense.
Variables (W1 W2 : forall w, vec w).
Hypothesis h1 : forall w, good w -> ninf (W1 w - phi 1 (dt w *: J w) *m Fx w) <= eta w * ninf (Fx w).
Hypothesis h2 : forall w, good w -> ninf (W2 w - phi 2 (dt w *: J w) *m Ft w) <= eta w * ninf (Ft w).
Lemma U_dense : UJ 2 true (fun w => dt w *: (W1 w + dt w *: W2 w)) zc.
Proof.
have h1' w : good w -> ninf (W1 w - phi 1 ((r1 * dt w) *: J w) *m Fx w) <= eta w * ninf (Fx w) by rewrite mul1r; exact: h1.
have h2' w : good w -> ninf (W2 w - phi 2 ((r1 * dt w) *: J w) *m Ft w) <= eta w * ninf (Ft w) by rewrite mul1r; exact: h2.
apply: UJ_eq (UJ_ext _ (U_sti h1' h2' (isT : (2 <= 4)%N))) => [m w|w _]; last first.
  by rewrite /sti !mul1r expr1n mul1r scalerDr scalerA expr2.
by case: m => [|[|[|m]]] // _ _; rewrite expr1n scale1r.
Qed.
End Dense.
Section Exprb3.
Variables (W1 W2 W3 : forall w, vec w).
Hypothesis k2 : k = 2%N.
Hypothesis h1 : forall w, good w -> ninf (W1 w - phi 1 ((r1 * dt w) *: J w) *m Fx w) <= eta w * ninf (Fx w).
Hypothesis h2 : forall w, good w -> ninf (W2 w - phi 2 ((r1 * dt w) *: J w) *m Ft w) <= eta w * ninf (Ft w).
Hypothesis h3 : forall w, good w -> ninf (W3 w - phi 3 (dt w *: J w) *m str r1 W1 W2 w) <= eta w * ninf (str r1 W1 W2 w).
Lemma U_exprb3 : UJ 3 true (fun w => sti r1 W1 W2 w + (2%:R * dt w) *: W3 w) zc.
Proof.
have A0 := U_str ler01 (lexx (1 : R)) h1 h2; rewrite k2 in A0.
have A3 : UJ 2 false W3 (fun m w => phc r1 3 (J w) (fun j => r1 ^+ j *: rcc j w) m).
  apply: (UJ_ker dt0 eta0 (UJ_phi dt0 eta0 3 r1 C_J A0) A0) => w gw.
  by rewrite mul1r; apply: h3.
have H := UJD (U_sti h1 h2 (isT : (3 <= 4)%N)) (UJ_sc dt0 eta0 2%:R A3).
apply: UJ_eq H => m w.
case: m => [|[|[|[|m]]]] // _ _; rewrite /zc /pzc /e2 /rcc /shift ?phcE0 ?phcE1 ?phcE2 ?phcE3 /rco ?fE /e2c /zco /D2 /D3 -/(Fx w) ?expr1n ?scale1r ?mulmx0 ?scaler0 ?addr0 ?add0r //; vlin; by field.
Qed.
End Exprb3.
Section Pexprb4.
Variables (W1 W2 V1 V2 b : forall w, vec w).
Hypothesis k2 : k = 3%N.
Hypothesis h1 : forall w, good w -> ninf (W1 w - phi 1 ((r1 * dt w) *: J w) *m Fx w) <= eta w * ninf (Fx w).
Hypothesis h2 : forall w, good w -> ninf (W2 w - phi 2 ((r1 * dt w) *: J w) *m Ft w) <= eta w * ninf (Ft w).
Hypothesis g1 : forall w, good w -> ninf (V1 w - phi 1 ((half * dt w) *: J w) *m Fx w) <= eta w * ninf (Fx w).
Hypothesis g2 : forall w, good w -> ninf (V2 w - phi 2 ((half * dt w) *: J w) *m Ft w) <= eta w * ninf (Ft w).
Let X3 w : vec w := dt w *: (16%:R *: str half V1 V2 w - 2%:R *: str r1 W1 W2 w).
Let X4 w : vec w := dt w *: (12%:R *: str r1 W1 W2 w - 48%:R *: str half V1 V2 w).
Hypothesis hb : forall w, good w -> ninf (b w - (phi 3 (dt w *: J w) *m X3 w + phi 4 (dt w *: J w) *m X4 w)) <= eta w * (ninf (X3 w) + ninf (X4 w)).
Lemma U_pexprb4 : UJ 4 true (fun w => sti r1 W1 W2 w + b w) zc.
Proof.
have hh0 : 0 <= (half : R) by rewrite invr_ge0 ler0n.
have hh1 : (half : R) <= 1 by rewrite invf_le1 ?ltr0n // ler1n.
have A0 := U_str ler01 (lexx (1 : R)) h1 h2; rewrite k2 in A0.
have Ah := U_str hh0 hh1 g1 g2; rewrite k2 in Ah.
have B3 := UJ_s dt0 eta0 (UJB (UJZ 16%:R Ah) (UJZ 2%:R A0)).
have B4 := UJ_s dt0 eta0 (UJB (UJZ 12%:R A0) (UJZ 48%:R Ah)).
have P := UJD (UJ_phi dt0 eta0 3 r1 C_J B3) (UJ_phi dt0 eta0 4 r1 C_J B4).
have Hb := UJ_ker2 P B3 B4 (fun w _ => erefl) (fun w _ => erefl).
lapply (Hb b); [move=> {}Hb|by move=> w gw; rewrite mul1r; apply: hb].
apply: UJ_eq (UJD (U_sti h1 h2 (isT : (4 <= 4)%N)) Hb) => m w.
case: m => [|[|[|[|[|m]]]]] // _ _; rewrite /zc /pzc /e2 /rcc ?phcE0 ?phcE1 ?phcE2 ?phcE3 ?phcE4 /shift /rco ?fE /e2c /zco /D2 /D3 -/(Fx w) ?expr1n ?scale1r ?mulmx0 ?scaler0 ?subr0 ?mulmx0 ?scaler0 ?addr0 ?add0r ?subr0 //; rewrite /half; vlin; by field.
Qed.
End Pexprb4.
Section Epi.
Variable b : forall w, vec w.
Lemma U_epi2 : (forall w, good w -> ninf (b w - (phi 1 (dt w *: J w) *m (dt w *: Fx w) + phi 2 (dt w *: J w) *m (dt w ^+ 2 *: Ft w)))
    <= eta w * (ninf (dt w *: Fx w) + ninf (dt w ^+ 2 *: Ft w))) -> UJ 2 true b zc.
Proof.
move=> hb; have F1 := UJ_s dt0 eta0 (C_f 1 true).
have F2 : UJ 2 true (fun w => dt w ^+ 2 *: Ft w) (fun m w => shift (shift (cst (Ft w))) m).
  by apply: UJ_ext (UJ_s dt0 eta0 (UJ_s dt0 eta0 (C_ft 0 true))) => w _; rewrite scalerA expr2.
have P := UJD (UJ_phi dt0 eta0 1 r1 C_J F1) (UJ_phi dt0 eta0 2 r1 C_J F2).
have Hb := UJ_ker2 P F1 F2 (fun w _ => erefl) (fun w _ => erefl).
lapply (Hb b); [move=> {}Hb|by move=> w gw; rewrite mul1r; apply: hb].
apply: UJ_eq Hb => m w.
case: m => [|[|[|m]]] // _ _; rewrite /zc /pzc /zco ?phcE0 ?phcE1 ?phcE2 /shift ?phcE0 ?phcE1 ?phcE2 /cst ?fE -/(Fx w) -/(Ft w) -/(J w); vlin; by field.
Qed.
Variable yp : forall w, vec w.
Let V2 w : vec w := (dt w * (2%:R / 3%:R)) *: (pf (pt (pr w) - dt w)%R (yp w) - Fx w - J w *m (yp w - py (pr w)) - (pt (pr w) - dt w - pt (pr w)) *: Ft w)
   + dt w ^+ 2 *: Ft w.
Lemma U_epi3 : k = 2%N -> (forall w, good w -> ptin (pr w) (- dt w)) ->
  (forall w, good w -> ninf (pz (pr w) (pt (pr w)) - py (pr w)) <= eta w) ->
  (forall w, good w -> ninf (yp w - pz (pr w) (pt (pr w) - dt w)%R) <= eta w) ->
  (forall w, good w -> ninf (b w - (phi 1 (dt w *: J w) *m (dt w *: Fx w) + phi 2 (dt w *: J w) *m V2 w))
    <= eta w * (ninf (dt w *: Fx w) + ninf (V2 w))) -> UJ 3 true b zc.
Proof.
move=> k2 hm hy hp hb; have F1 := UJ_s dt0 eta0 (C_f 2 true).
have Hh := prev_point dt0 eta0 B0 r0 k0 k3 pg hy hm hp; rewrite k2 in Hh.
have z0 w : good w -> (-1) ^+ 0 *: zc 0%N w = 0 by rewrite /zc /= scaler0.
have hm' w : good w -> ptin (pr w) (-1 * dt w)%R by rewrite mulN1r; apply: hm.
have k2' : (2 <= k)%N by rewrite k2.
have Hf := UJ_f dt0 eta0 B0 r0 k3 pg (ltn0Sn 1) k2' hm' Hh z0.
have Hs : UJ 2 false (fun w => dt w *: Ft w) (fun m w => shift (cst (Ft w)) m).
  by apply: (UJ_weak eta0); apply: (UJ_s dt0 eta0 (C_ft 1 true)).
have Hr := UJD (UJB (UJB Hf (C_f 2 false)) (UJ_mx C_J Hh)) Hs.
have Hq : UJ 3 true (fun w => dt w ^+ 2 *: Ft w) (fun m w => shift (shift (cst (Ft w))) m).
  by apply: UJ_ext (UJ_s dt0 eta0 (UJ_s dt0 eta0 (C_ft 1 true))) => w _; rewrite scalerA expr2.
have F2 := UJD (UJ_sc dt0 eta0 (2%:R / 3%:R)%R Hr) Hq.
have P := UJD (UJ_phi dt0 eta0 1 r1 C_J F1) (UJ_phi dt0 eta0 2 r1 C_J F2).
have Hb := @UJ_ker2 3 _ _ _ b _ _ _ _ P F1 F2 (fun w _ => erefl).
lapply Hb; [move=> {}Hb|by move=> w _; rewrite /= scaler0 addr0].
lapply Hb; [move=> {}Hb|move=> w gw]; last first.
  rewrite mul1r; have := hb w gw.
  suff <- : (2%:R / 3%:R * dt w) *: (pf (pt (pr w) + -1 * dt w)%R (py (pr w) + (yp w - py (pr w))) - Fx w - J w *m (yp w - py (pr w)) + dt w *: Ft w)
     + dt w ^+ 2 *: Ft w = V2 w by exact.
  by rewrite /V2 mulN1r [py _ + _]addrC subrK [_ * dt w]mulrC [pt (pr w) - dt w - _]addrAC subrr add0r scaleNr opprK.
apply: UJ_eq Hb => m w.
case: m => [|[|[|[|m]]]] // _ gw; rewrite ?phcE0 ?phcE1 ?phcE2 ?phcE3 /shift ?(pfc_pow (-1)%R (fun i => zc i w) (isT : (0 <= 3)%N)) ?(pfc_pow (-1)%R (fun i => zc i w) (isT : (1 <= 3)%N)) ?(pfc_pow (-1)%R (fun i => zc i w) (isT : (2 <= 3)%N)) /cst /pfc /fcoc /zc /pzc ?fE /zco /D2 /D3 -/(Fx w) -/(Ft w) -/(J w) ?mulmx0 ?scaler0 ?subr0 ?mulmx0 ?scaler0 ?addr0 ?add0r ?subr0 //; vlin; rewrite ?mulr1; by field.
Qed.
End Epi.
End RB.
