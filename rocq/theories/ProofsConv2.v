(* ProofsConv2.v : the solution near a point of the tube against its Taylor polynomial, uniformly over a
   family of problems; from the expansion of a step to its one-step error. *)
From Coq Require Import Reals.
From mathcomp Require Import all_ssreflect all_algebra.
From mathcomp Require Import ring.
From Verif Require Import Rstruct Summable MxBase MxSeries ProofsPhiErr SpecProg SpecOrder ProofsJet2 ProofsJet3 ProofsOrder ProofsUJ ProofsUJ2 ProofsConv.
Set Implicit Arguments.
Unset Strict Implicit.
Unset Printing Implicit Defensive.
Import Order.TTheory GRing.Theory Num.Theory.
Local Open Scope ring_scope.

(* a right-hand side at a point (t,y), its derivatives there, a solution z, and a time interval *)
Record prob := Prob {
  pn : nat;
  pf : R -> 'cV[R]_pn -> 'cV[R]_pn;
  pt : R; py : 'cV[R]_pn; pft : 'cV[R]_pn; pJ : 'M[R]_pn;
  pH2 : 'I_(1 + pn) -> 'I_(1 + pn) -> 'cV[R]_pn;
  pH3 : 'I_(1 + pn) -> 'I_(1 + pn) -> 'I_(1 + pn) -> 'cV[R]_pn;
  pz : R -> 'cV[R]_pn; plo : R; phg : R }.
Definition ptin (q : prob) (s : R) : Prop := plo q <= pt q + s /\ pt q + s <= phg q.
Notation pf0 q := (pf (pt q) (py q)).
Record pgood (k : nat) (B r : R) (q : prob) : Prop := {
  pg_sym : sym2 (@pH2 q);
  pg_f : ninf (pf0 q) <= B;
  pg_ft : ninf (pft q) <= B;
  pg_J : ninf (pJ q) <= B;
  pg_2 : (1 < k)%N -> forall x z, ninf (diff2 (@pH2 q) x z) <= B * (ninf x * ninf z);
  pg_3 : (2 < k)%N -> forall x z u, ninf (diff3 (@pH3 q) x z u) <= B * (ninf x * ninf z * ninf u);
  pg_T : forall (s : R) h (rho : R), ptin q s -> `|s| <= rho -> ninf h <= rho -> rho <= r ->
    ninf (pf (pt q + s)%R (py q + h) - taylor_poly k (pf0 q) (pft q) (pJ q) (@pH2 q) (@pH3 q) s h) <= B * rho ^+ k.+1;
  pg_L : forall (s : R) u u', ptin q s -> `|s| <= r -> ninf (u - py q) <= r -> ninf (u' - py q) <= r ->
    ninf (pf (pt q + s)%R u - pf (pt q + s)%R u') <= B * ninf (u - u');
  pg_z : forall s, ptin q s -> vderiv (@pz q) (pt q + s)%R (pf (pt q + s)%R (pz q (pt q + s)%R)) ;
  pg_zb : forall s, ptin q s -> ninf (pf (pt q + s)%R (pz q (pt q + s)%R)) <= B;
  pg_0 : ptin q 0 }.
Definition pzc (q : prob) : nat -> 'cV[R]_(pn q) := zco (@pf q) (pt q) (py q) (pft q) (pJ q) (@pH2 q) (@pH3 q).
Definition pfc (q : prob) (c : R) (a : nat -> 'cV[R]_(pn q)) (m : nat) : 'cV[R]_(pn q) :=
  @fcoc prob pn pf pt py pft pJ pH2 pH3 q c a m.
Arguments pfc : clear implicits.
Lemma ptin_mul q (c s x : R) : ptin q 0 -> ptin q (c * s)%R -> 0 <= x -> x <= s -> ptin q (c * x)%R.
Proof.
move=> [a1 a2] [b1 b2] x0 xs; rewrite addr0 in a1 a2.
have [s0|s0] := eqVneq s 0.
  have -> : x = 0 by apply/eqP; rewrite eq_le x0 -{1}s0 xs.
  by rewrite mulr0; split; rewrite addr0.
have sp : 0 < s by rewrite lt_neqAle eq_sym s0 (le_trans x0).
pose l := x / s; have l0 : 0 <= l by rewrite divr_ge0 // ltW.
have l1 : l <= 1 by rewrite ler_pdivr_mulr // mul1r.
have e : pt q + c * x = (1 - l) * pt q + l * (pt q + c * s).
  have -> : x = l * s by rewrite divfK.
  by move: (l) (pt q) (s) (c) => u1 u2 u3 u4; ring.
have l1' : 0 <= 1 - l by rewrite subr_ge0.
rewrite /ptin e; split.
  rewrite {1}(_ : plo q = (1 - l) * plo q + l * plo q); last by rewrite -mulrDl subrK mul1r.
  by apply: ler_add; apply: ler_wpmul2l.
rewrite [X in _ <= X](_ : phg q = (1 - l) * phg q + l * phg q); last by rewrite -mulrDl subrK mul1r.
by apply: ler_add; apply: ler_wpmul2l.
Qed.

Section Fam.
Variables (Om : Type) (dt eta : Om -> R) (good : Om -> Prop).
Hypothesis dt0 : forall w, good w -> 0 <= dt w.
Hypothesis eta0 : forall w, good w -> 0 <= eta w.
Variables (pr : Om -> prob) (k : nat) (B r : R).
Hypothesis B0 : 0 <= B.
Hypothesis r0 : 0 < r.
Hypothesis k0 : (0 < k)%N.
Hypothesis k3 : (k <= 3)%N.
Hypothesis pg : forall w, good w -> pgood k B r (pr w).
Notation uev := (uev dt eta good).
Notation UO := (UO dt eta good).
Notation UJ := (UJ dt eta good).
Notation uone := (@uone Om).
Let d w := pn (pr w).
Lemma F_f : @UO d uone (fun w => pf0 (pr w)).
Proof. by exists B; split=> //; apply: uev_all => w /pg h; rewrite mulr1; apply: pg_f h. Qed.
Lemma F_ft : @UO d uone (fun w => pft (pr w)).
Proof. by exists B; split=> //; apply: uev_all => w /pg h; rewrite mulr1; apply: pg_ft h. Qed.
Lemma F_J : @ubm Om dt eta good d d (fun w => pJ (pr w)).
Proof. by exists B; split=> //; apply: uev_all => w /pg h; apply: pg_J h. Qed.
Lemma F_2 : (1 < k)%N -> ub2 dt eta good (fun w => @pH2 (pr w)).
Proof. by move=> k1; exists B; split=> //; apply: uev_all => w /pg h; apply: pg_2 h k1. Qed.
Lemma F_3 : (2 < k)%N -> ub3 dt eta good (fun w => @pH3 (pr w)).
Proof. by move=> k1; exists B; split=> //; apply: uev_all => w /pg h; apply: pg_3 h k1. Qed.
Lemma F_T : uT good (fun w => @pf (pr w)) (fun w => pt (pr w)) (fun w => py (pr w)) (fun w => pft (pr w)) (fun w => pJ (pr w))
   (fun w => @pH2 (pr w)) (fun w => @pH3 (pr w)) (fun w => ptin (pr w)) k.
Proof. by exists B, r; split=> // w /pg h s hh rho; apply: pg_T h s hh rho. Qed.
(* f(t + c dt, y + h) *)
Lemma UJ_f j b (c : R) (h : forall w, 'cV[R]_(d w)) a : (0 < j)%N -> (j <= k)%N ->
  (forall w, good w -> ptin (pr w) (c * dt w)%R) -> UJ j b h a -> (forall w, good w -> a 0%N w = 0) ->
  UJ j b (fun w => pf (pt (pr w) + c * dt w)%R (py (pr w) + h w)) (fun m w => pfc (pr w) c (fun i => a i w) m).
Proof.
move=> j0 jk hin Ha a0.
exact: (UJ_fcomp dt0 eta0 (fun w gw => pg_sym (pg gw)) F_f F_ft F_J j0 jk k3 F_2 F_3 F_T hin Ha a0).
Qed.
Lemma UO_D2 (x z : forall w, 'cV[R]_(d w)) (a b : R) : (1 < k)%N -> UO uone x -> UO uone z ->
  UO uone (fun w => D2 (@pH2 (pr w)) (x w, a) (z w, b)).
Proof.
move=> k1 [C [C0 HC]] [D [D0 HD]].
have S (u : forall w, 'cV[R]_(d w)) (e M : R) : 0 <= M -> uev (fun w => ninf (u w) <= M * uone w) -> @UO (fun w => (1 + d w)%N) uone (fun w => tx e (u w)).
  move=> M0 H; exists (M + `|e|); split; first exact: addr_ge0.
  apply: uev_imp H => w gw; rewrite !mulr1 => h; apply: ninf_tx; first by rewrite ler_addr.
  by apply: le_trans h _; rewrite ler_addl.
exact: (UO_bil (bil2 (F_2 k1)) (S _ a C C0 HC) (S _ b D D0 HD)).
Qed.
Lemma UO_D3 (x : forall w, 'cV[R]_(d w)) (a : R) : (2 < k)%N -> UO uone x -> UO uone (fun w => D3 (@pH3 (pr w)) (x w, a)).
Proof.
move=> k1 [C [C0 HC]].
have S : @UO (fun w => (1 + d w)%N) uone (fun w => tx a (x w)).
  exists (C + `|a|); split; first exact: addr_ge0.
  apply: uev_imp HC => w gw; rewrite !mulr1 => h; apply: ninf_tx; first by rewrite ler_addr.
  by apply: le_trans h _; rewrite ler_addl.
exact: (UO_bil (bil3 (F_3 k1) S) S S).
Qed.
Lemma UO_zc m : (m <= k.+1)%N -> UO uone (fun w => pzc (pr w) m).
Proof.
have z0 : UO uone (fun w => 0 : 'cV[R]_(d w)) by apply: UO_0 => w _; exact: ler01.
have e2 : UO uone (fun w => pft (pr w) + pJ (pr w) *m pf0 (pr w)) by apply: UO_add F_ft (UO_mx F_J F_f).
have e3 : (1 < k)%N -> UO uone (fun w => pJ (pr w) *m (2%:R^-1 *: (pft (pr w) + pJ (pr w) *m pf0 (pr w)))
   + 2%:R^-1 *: D2 (@pH2 (pr w)) (pf0 (pr w), 1) (pf0 (pr w), 1)).
  move=> k1; apply: UO_add; first by apply: UO_mx F_J _; apply: UO_scal.
  by apply: UO_scal; apply: UO_D2 => //; exact: F_f.
case: m => [|[|[|[|[|m]]]]] hm //.
- exact: F_f.
- by apply: UO_scal.
- by apply: UO_scal; apply: e3.
- apply: UO_scal; apply: UO_add; last by apply: UO_scal; apply: UO_D3 => //; exact: F_f.
  apply: UO_add; first by apply: UO_mx F_J _; apply: UO_scal; apply: e3; exact: ltnW.
  by apply: UO_D2; [exact: ltnW|exact: F_f|apply: UO_scal].
Qed.
End Fam.

Lemma pfc_pow q (c : R) (a : nat -> 'cV[R]_(pn q)) m : (m <= 3)%N ->
  pfc q c (fun i => c ^+ i *: a i) m = c ^+ m *: pfc q 1 a m.
Proof.
have D2e x z (e1 e2 b1 b2 : R) : D2 (@pH2 q) (e1 *: x, (e1 * b1)%R) (e2 *: z, (e2 * b2)%R) = (e1 * e2) *: D2 (@pH2 q) (x, b1) (z, b2).
  by rewrite /D2 /= !tx_scale diff2Sl diff2Sr scalerA.
have D3e x (e1 b1 : R) : D3 (@pH3 q) (e1 *: x, (e1 * b1)%R) = (e1 ^+ 3) *: D3 (@pH3 q) (x, b1).
  by rewrite /D3 /= !tx_scale diff3S1 diff3S2 diff3S3 !scalerA; congr (_ *: _); rewrite !exprS expr0 mulr1 mulrA.
case: m => [|[|[|[|//]]]] _; rewrite /pfc /=.
- by rewrite expr0 scale1r.
- by rewrite expr1 -scalemxAr scale1r scalerDr.
- have := D2e (a 1%N) (a 1%N) c c 1 1; rewrite !mulr1 expr1 => ->.
  by rewrite -scalemxAr scalerDr expr2 !scalerA [2%:R^-1 * _]mulrC.
- have := D2e (a 1%N) (a 2%N) c (c ^+ 2) 1 0; rewrite mulr1 mulr0 expr1 => ->.
  have := D3e (a 1%N) c 1; rewrite mulr1 => ->.
  by rewrite -scalemxAr !scalerDr !scalerA [6%:R^-1 * _]mulrC exprS.
Qed.
Lemma pzc_rec q m : (m <= 3)%N -> m.+1%:R *: pzc q m.+1 = pfc q 1 (pzc q) m.
Proof.
have h j : (0 < j)%N -> (j%:R : R) != 0 by rewrite pnatr_eq0 lt0n.
case: m => [|[|[|[|//]]]] _; rewrite /pfc /pzc /=.
- by rewrite scale1r.
- by rewrite scale1r scalerA divff ?h // scale1r.
- by rewrite scalerA divff ?h // scale1r.
- by rewrite scalerA divff ?h // scale1r.
Qed.

Lemma vderivB n (u v : R -> 'cV[R]_n) s du dv : vderiv u s du -> vderiv v s dv -> vderiv (fun x => u x - v x) s (du - dv).
Proof.
move=> h1 h2 i; have := derivable_pt_lim_minus _ _ _ _ _ (h1 i) (h2 i).
have -> : (du - dv) i ord0 = Rminus (du i ord0) (dv i ord0) by rewrite !mxE.
by apply: derivable_pt_lim_ext => x; rewrite !mxE.
Qed.
Lemma vderiv_cst n (v : 'cV[R]_n) s : vderiv (fun=> v) s 0.
Proof. by move=> i; rewrite mxE; exact: derivable_pt_lim_const. Qed.

Section Defect.
Variables (Om : Type) (dt eta : Om -> R) (good : Om -> Prop).
Hypothesis dt0 : forall w, good w -> 0 <= dt w.
Hypothesis eta0 : forall w, good w -> 0 <= eta w.
Variables (pr : Om -> prob) (k : nat) (B r : R).
Hypothesis B0 : 0 <= B.
Hypothesis r0 : 0 < r.
Hypothesis k0 : (0 < k)%N.
Hypothesis k3 : (k <= 3)%N.
Hypothesis pg : forall w, good w -> pgood k B r (pr w).
Variable c : R.
Hypothesis c1 : `|c| <= 1.
Hypothesis hin : forall w, good w -> ptin (pr w) (c * dt w)%R.
Hypothesis hy : forall w, good w -> ninf (pz (pr w) (pt (pr w)) - py (pr w)) <= eta w.
Notation uev := (uev dt eta good).

Definition zpoly (q : prob) (s : R) : 'cV[R]_(pn q) := py q + \sum_(m < k.+1) s ^+ m.+1 *: (c ^+ m.+1 *: pzc q m.+1).
Let good' (u : Om * R) : Prop := [/\ good u.1, 0 <= u.2 & u.2 <= dt u.1].
Let h' (u : Om * R) : 'cV[R]_(pn (pr u.1)) := \sum_(m < k.+1) u.2 ^+ m.+1 *: (c ^+ m.+1 *: pzc (pr u.1) m.+1).
Let a' (i : nat) (u : Om * R) : 'cV[R]_(pn (pr u.1)) := c ^+ i *: pzc (pr u.1) i.
Let pg' u : good' u -> pgood k B r (pr u.1). Proof. by case=> gu _ _; apply: pg. Qed.
Let UZ m (H : (m <= k.+1)%N) := @UO_zc _ (fun u => u.2) (fun=> 0) good' (fun u => pr u.1) k B r B0 pg' m H.
Let Hh : UJ (fun u => u.2) (fun=> 0) good' k true h' a'.
Proof.
split=> [i ik|].
  by apply: UO_scal; apply: UZ; exact: leqW.
have [C [C0 HC]] : UO (fun u => u.2) (fun=> 0) good' (@uone _) (fun u => c ^+ k.+1 *: pzc (pr u.1) k.+1).
  by apply: UO_scal; apply: UZ.
exists C; split=> //; apply: uev_imp HC => u [gu u0 ud]; rewrite mulr1 => h.
have z0 : pzc (pr u.1) 0 = 0 by [].
rewrite /h' big_ord_recr [X in _ - X]big_ord_recl; cbn [nat_of_ord]; rewrite /a' z0 !scaler0 add0r.
rewrite addrAC subrr add0r ninfZ ger0_norm ?exprn_ge0 // mulrC.
rewrite /wt /= mulr0 addr0; exact: ler_wpmul2r (exprn_ge0 _ u0) _ _ h.
Qed.
Let d0' u : good' u -> 0 <= u.2. Proof. by case. Qed.
Let e0' (u : Om * R) : good' u -> 0 <= (0 : R). Proof. by []. Qed.
Let in' u : good' u -> ptin (pr u.1) (c * u.2)%R.
Proof. by case=> gu u0 ud; apply: ptin_mul u0 ud; [exact: pg_0 (pg gu)|exact: hin]. Qed.
Lemma defect_uniform : exists C : R, 0 <= C /\
  uev (fun w => ninf (pz (pr w) (pt (pr w) + c * dt w)%R - zpoly (pr w) (dt w)) <=
     (1 + C * dt w) * (ninf (pz (pr w) (pt (pr w)) - py (pr w)) + dt w * (C * dt w ^+ k.+1))).
Proof.
have a0 u : good' u -> a' 0%N u = 0 by move=> _; rewrite /a' expr0 scale1r.
have [_ [C [C0 [d1 [d1p H1]]]]] := UJ_f d0' e0' B0 r0 k3 pg' k0 (leqnn k) in' Hh a0.
have [D [D0 [d2 [d2p H2]]]] := UJ_small d0' e0' a0 Hh.
pose L := B; pose M := Num.max C (2%:R * B).
have M0 : 0 <= M by rewrite le_maxr C0.
have q0 : 0 < r / 2%:R by rewrite divr_gt0 ?ltr0n.
pose dd := Num.min (Num.min d1 d2) (Num.min (r / 2%:R / (1 + B + D)) (Num.min (2%:R^-1 / (1 + B)) (r / 2%:R))).
have pB : 0 < 1 + B by rewrite ltr_spaddl ?ltr01.
have pBD : 0 < 1 + B + D by rewrite ltr_spaddl.
have ddp : 0 < dd by rewrite !lt_minr d1p d2p /= !divr_gt0 ?invr_gt0 ?ltr0n.
exists M; split=> //; exists dd; split=> // w gw hd he.
move: hd; rewrite /dd !le_minr => /andP[/andP[hd1 hd2] /andP[hd3 /andP[hd4 hd5]]].
have her : eta w <= r / 2%:R by move: he; rewrite /dd !le_minr => /andP[_ /andP[_ /andP[_ ->]]].
set q := pr w in H1 H2 *; have g := pg gw; have w0 := dt0 gw.
have hB s : 0 <= s -> s <= dt w -> ptin q (c * s)%R by move=> s0 sd; apply: ptin_mul s0 sd; [exact: pg_0 g|exact: hin].
have k1 : dt w * (1 + B) <= 2%:R^-1 by move: hd4; rewrite ler_pdivl_mulr.
have LB : B * dt w <= 2%:R^-1 by apply: le_trans k1; rewrite mulrC ler_wpmul2l // ler_addr ler01.
have k2 : dt w * (1 + B + D) <= r / 2%:R by move: hd3; rewrite ler_pdivl_mulr.
have r2 : r = r / 2%:R + r / 2%:R by field.
pose Z s := pz q (pt q + c * s)%R.
have dZ s : 0 <= s -> s <= dt w -> vderiv Z s (c *: pf (pt q + c * s)%R (Z s)).
  by move=> s0 sd; apply: vderiv_aff; apply: pg_z g _ (hB s s0 sd).
have nZ s : 0 <= s -> s <= dt w -> ninf (Z s - py q) <= r.
  move=> s0 sd.
  have /(_ s s0 sd) : forall s, 0 <= s -> s <= dt w -> ninf (Z s - Z 0) <= (1 + 2%:R * 0 * dt w) * (ninf (Z 0 - Z 0) + dt w * B).
    apply: (small_gronwall (g' := fun s => c *: pf (pt q + c * s)%R (Z s) - 0)) => //.
    - by rewrite mul0r invr_ge0 ler0n.
    - by move=> x x0 xd; apply: vderivB; [exact: dZ|exact: vderiv_cst].
    - move=> x x0 xd; rewrite subr0 mul0r add0r ninfZ -[X in _ <= X]mul1r; apply: ler_pmul; rewrite ?ninf_ge0 //.
      exact: (pg_zb g (hB x x0 xd)).
  rewrite mulr0 mul0r addr0 mul1r subrr ninf0 add0r => h.
  have -> : Z s - py q = (Z s - Z 0) + (Z 0 - py q) by rewrite addrA subrK.
  rewrite r2; apply: le_trans (ninfD _ _) _; apply: ler_add.
    apply: le_trans h _; apply: le_trans k2; apply: ler_wpmul2l => //.
    by rewrite addrAC ler_addr addr_ge0 // ler01.
  by rewrite /Z mulr0 addr0; apply: le_trans (hy gw) her.
have nP s : 0 <= s -> s <= dt w -> ninf (zpoly q s - py q) <= r.
  move=> s0 sd; have gu : good' (w, s) by split.
  rewrite /zpoly addrAC subrr add0r; apply: le_trans (H2 (w, s) gu (le_trans sd hd2) (ltW d2p)) _.
  rewrite /wt /= mulr0 addr0 expr1 r2; apply: le_trans (_ : dt w * (1 + B + D) <= _); last first.
    by apply: le_trans k2 _; rewrite ler_addl ltW.
  rewrite mulrC; apply: ler_pmul => //; by rewrite ler_addr addr_ge0 // ler01.
pose g' s := c *: pf (pt q + c * s)%R (Z s) - \sum_(m < k.+1) s ^+ m *: (m.+1%:R *: (c ^+ m.+1 *: pzc q m.+1)).
have main : ninf (Z (dt w) - zpoly q (dt w)) <= (1 + 2%:R * B * dt w) * (ninf (Z 0 - zpoly q 0) + dt w * (C * dt w ^+ k.+1)).
  apply: (small_gronwall (g := fun s => Z s - zpoly q s) (g' := g')) => //.
  - by rewrite mulr_ge0 // exprn_ge0.
  - move=> s s0 sd; apply: vderivB; first exact: dZ.
    exact: (vderiv_poly (py q) k.+1 (fun m => c ^+ m.+1 *: pzc q m.+1) s).
  move=> s s0 sd; have gu : good' (w, s) by split.
  rewrite /g'; have -> : \sum_(m < k.+1) s ^+ m *: (m.+1%:R *: (c ^+ m.+1 *: pzc q m.+1)) =
     c *: \sum_(m < k.+1) s ^+ m *: pfc q c (a'^~ (w, s)) m.
    rewrite scaler_sumr; apply: eq_bigr => -[m mk] _ /=.
    have m3 : (m <= 3)%N by apply: leq_trans k3.
    rewrite /a' /= -/q (pfc_pow c (pzc q) m3) -pzc_rec //.
    by rewrite !scalerA; congr (_ *: _); rewrite exprS; move: (c ^+ m) (s ^+ m) (m.+1%:R) => u1 u2 u3; ring.
  rewrite -scalerBr ninfZ.
  set F := pf _ (Z s); set S := \sum_(m < _) _.
  have -> : F - S = (F - pf (pt q + c * s)%R (zpoly q s)) + (pf (pt q + c * s)%R (zpoly q s) - S) by rewrite addrA subrK.
  apply: (@le_trans _ _ (1 * (B * ninf (Z s - zpoly q s) + C * dt w ^+ k.+1))); last by rewrite mul1r.
  apply: ler_pmul; rewrite ?ninf_ge0 //.
  apply: le_trans (ninfD _ _) _; apply: ler_add.
    apply: (pg_L g (hB s s0 sd)); [|exact: nZ|exact: nP].
    rewrite normrM [`|s|]ger0_norm // r2; apply: le_trans (_ : dt w <= _); last by apply: le_trans hd5 _; rewrite ler_addl ltW.
    by apply: le_trans sd; rewrite ler_pimull.
  apply: le_trans (H1 (w, s) gu (le_trans sd hd1) (ltW d1p)) _.
  rewrite /wt /= mulr0 addr0; apply: ler_wpmul2l => //.
  by apply: ler_expn2r; rewrite ?nnegrE.
have z0 : zpoly q 0 = py q.
  by rewrite /zpoly big1 ?addr0 // => m _; rewrite expr0n scale0r.
move: main; rewrite z0 /Z mulr0 addr0 => main; apply: le_trans main _.
have n0 := ninf_ge0 (pz q (pt q) - py q).
have p0 : 0 <= dt w ^+ k.+1 by rewrite exprn_ge0.
have CM : C <= M by rewrite le_maxr lexx.
have BM : 2%:R * B <= M by rewrite le_maxr lexx orbT.
have B2 : 0 <= 2%:R * B by rewrite mulr_ge0 ?ler0n.
apply: ler_pmul.
- by apply: addr_ge0; [exact: ler01|exact: mulr_ge0].
- by rewrite addr_ge0 // !mulr_ge0.
- by rewrite ler_add2l ler_wpmul2r.
- by rewrite ler_add2l ler_wpmul2l // ler_wpmul2r.
Qed.
End Defect.
