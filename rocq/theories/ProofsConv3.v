(* ProofsConv3.v : from the expansion of a step to its one-step error, and the previous point of the grid. *)
From Coq Require Import Reals.
From mathcomp Require Import all_ssreflect all_algebra.
From mathcomp Require Import ring.
From Verif Require Import Rstruct Summable MxBase MxSeries ProofsPhiErr SpecProg SpecOrder ProofsJet2 ProofsJet3 ProofsOrder ProofsUJ ProofsUJ2 ProofsConv ProofsConv2.
Set Implicit Arguments.
Unset Strict Implicit.
Unset Printing Implicit Defensive.
Import Order.TTheory GRing.Theory Num.Theory.
Local Open Scope ring_scope.

Section OneStep.
Variables (Om : Type) (dt eta : Om -> R) (good : Om -> Prop).
Hypothesis dt0 : forall w, good w -> 0 <= dt w.
Hypothesis eta0 : forall w, good w -> 0 <= eta w.
Variables (pr : Om -> prob) (k : nat) (B r : R).
Hypothesis B0 : 0 <= B.
Hypothesis r0 : 0 < r.
Hypothesis k0 : (0 < k)%N.
Hypothesis k3 : (k <= 3)%N.
Hypothesis pg : forall w, good w -> pgood k B r (pr w).
Hypothesis hy : forall w, good w -> ninf (pz (pr w) (pt (pr w)) - py (pr w)) <= eta w.
Notation uev := (uev dt eta good).
Notation UJ := (UJ dt eta good).

Lemma one_step j (v : forall w, 'cV[R]_(pn (pr w))) : (j <= k.+1)%N ->
  (forall w, good w -> ptin (pr w) (dt w)) ->
  UJ j true (fun w => v w - py (pr w)) (fun m w => pzc (pr w) m) ->
  exists C : R, 0 <= C /\ uev (fun w => ninf (v w - pz (pr w) (pt (pr w) + dt w)%R) <=
     (1 + C * dt w) * ninf (py (pr w) - pz (pr w) (pt (pr w))) + C * dt w * (dt w ^+ j + eta w)).
Proof.
move=> jk hin Hv.
have c1 : `|1 : R| <= 1 by rewrite normr1.
have hin1 w : good w -> ptin (pr w) (1 * dt w)%R by rewrite mul1r; exact: hin.
have [D [D0 HD]] := @defect_uniform _ _ _ _ dt0 pr k B r B0 r0 k0 k3 pg 1 c1 hin1 hy.
pose P w := zpoly k 1 (pr w) (dt w).
have HP : UJ k.+1 true (fun w => P w - py (pr w)) (fun m w => pzc (pr w) m).
  split=> [m mk|]; first exact: (UO_zc _ _ B0 pg mk).
  apply: UO_ext (UO_0 dt eta _ (wt0 dt0 eta0 k.+2 true)) => w gw; symmetry; apply/eqP; rewrite subr_eq0; apply/eqP.
  have z0 : pzc (pr w) 0 = 0 by [].
  rewrite [RHS]big_ord_recl; cbn [nat_of_ord]; rewrite z0 scaler0 add0r /P /zpoly addrAC subrr add0r.
  by apply: eq_bigr => m _; rewrite expr1n scale1r.
have [_ [C [C0 HC]]] := UJB Hv (UJ_le dt0 eta0 jk HP).
exists (C + D * (1 + D)); split; first by rewrite addr_ge0 // mulr_ge0 // addr_ge0 // ler01.
apply: uev_imp (uev_and (uev_and HC HD) (uev_dt1 _ _ _)) => w gw [[]].
rewrite mul1r => h1 h2 d1; have w0 := dt0 gw; have e0 := eta0 gw.
set q := pr w in h1 h2 *; rewrite -/(P w) in h2.
have e1 : v w - pz q (pt q + dt w)%R = (v w - P w) - (pz q (pt q + dt w)%R - P w) by rewrite opprB addrA subrK.
have h1' : ninf (v w - P w) <= C * (dt w * (dt w ^+ j + eta w)).
  have -> : dt w * (dt w ^+ j + eta w) = wt dt eta j.+1 true w by rewrite /wt /= mulrDr -exprS.
  apply: le_trans h1; rewrite le_eqVlt; apply/orP; left; apply/eqP; congr ninf.
  rewrite big1; last by move=> i _; rewrite subrr scaler0.
  by rewrite subr0 opprB addrA subrK.
have h2' : ninf (pz q (pt q + dt w)%R - P w) <= (1 + D * dt w) * (ninf (pz q (pt q) - py q) + dt w * (D * dt w ^+ j)).
  apply: le_trans h2 _; apply: ler_wpmul2l; first by apply: addr_ge0; [exact: ler01|exact: mulr_ge0].
  rewrite ler_add2l; apply: ler_wpmul2l => //; apply: ler_wpmul2l => //.
  by rewrite -(subnK jk) exprD ler_pimull ?exprn_ge0 // exprn_ile1.
rewrite e1; apply: le_trans (ninfD _ _) _; rewrite ninfN.
apply: le_trans (ler_add h1' h2') _; rewrite -[ninf (py q - _)]ninfN opprB.
have := ninf_ge0 (pz q (pt q) - py q); move: (ninf _) => u u0.
have p0 : 0 <= dt w ^+ j by rewrite exprn_ge0.
move: (dt w ^+ j) p0 w0 d1 e0 => p p0 w0 d1 e0; move: (dt w) (eta w) w0 d1 e0 => x e x0 x1 e0.
have -> : (1 + (C + D * (1 + D)) * x) * u + (C + D * (1 + D)) * x * (p + e) =
  (C * (x * (p + e)) + (1 + D * x) * (u + x * (D * p))) + ((C + D * D) * x * u + D * (1 + D) * x * e + D * D * (x * p * (1 - x))).
  by ring.
have D1 : 0 <= 1 + D by rewrite addr_ge0 ?ler01.
have x1' : 0 <= 1 - x by rewrite subr_ge0.
rewrite ler_addl; apply: addr_ge0; last by rewrite !mulr_ge0.
by apply: addr_ge0; rewrite !mulr_ge0 // addr_ge0 // mulr_ge0.
Qed.

(* the previous point yp of the grid, within eta of the solution there *)
Lemma prev_point (yp : forall w, 'cV[R]_(pn (pr w))) :
  (forall w, good w -> ptin (pr w) (- dt w)) ->
  (forall w, good w -> ninf (yp w - pz (pr w) (pt (pr w) - dt w)%R) <= eta w) ->
  UJ k false (fun w => yp w - py (pr w)) (fun m w => (-1) ^+ m *: pzc (pr w) m).
Proof.
move=> hin hp.
have c1 : `|-1 : R| <= 1 by rewrite normrN normr1.
have hin1 w : good w -> ptin (pr w) (-1 * dt w)%R by rewrite mulN1r; exact: hin.
have [D [D0 HD]] := @defect_uniform _ _ _ _ dt0 pr k B r B0 r0 k0 k3 pg (-1) c1 hin1 hy.
split=> [m mk|]; first by apply: UO_scal; apply: (UO_zc _ _ B0 pg); exact: leqW.
have [C [C0 HC]] := UO_scal ((-1) ^+ k.+1) (@UO_zc _ dt eta good pr k B r B0 pg k.+1 (leqnn _)).
exists ((1 + D) * (1 + D) + C + 1); split; first by rewrite !addr_ge0 ?mulr_ge0 ?addr_ge0 ?ler01.
apply: uev_imp (uev_and (uev_and HC HD) (uev_dt1 _ _ _)) => w gw [[]].
rewrite mulr1 mulN1r => h1 h2 d1; have w0 := dt0 gw; have e0 := eta0 gw; have hpw := hp w gw; have hyw := hy gw.
set q := pr w in h1 h2 hpw hyw *; set P := zpoly k (-1) q (dt w) in h2.
have z0 : pzc (pr w) 0 = 0 by [].
have -> : yp w - py q - \sum_(i < k.+1) dt w ^+ i *: ((-1) ^+ i *: pzc (pr w) i) =
   (yp w - pz q (pt q - dt w)%R) + (pz q (pt q - dt w)%R - P) + dt w ^+ k.+1 *: ((-1) ^+ k.+1 *: pzc q k.+1).
  rewrite [X in _ - _ - X]big_ord_recl; cbn [nat_of_ord]; rewrite z0 !scaler0 add0r addrA subrK /P /zpoly big_ord_recr opprD addrA opprD addrA.
  by rewrite /= subrK.
apply: le_trans (ninfD _ _) _.
have h3 : ninf (dt w ^+ k.+1 *: ((-1) ^+ k.+1 *: pzc q k.+1)) <= C * dt w ^+ k.+1.
  by rewrite ninfZ ger0_norm ?exprn_ge0 // mulrC ler_wpmul2r ?exprn_ge0.
apply: le_trans (ler_add (ninfD _ _) h3) _.
apply: le_trans (ler_add (ler_add hpw h2) (lexx _)) _.
have D1 : 0 <= 1 + D by rewrite addr_ge0 ?ler01.
have p0 : 0 <= dt w ^+ k.+1 by rewrite exprn_ge0.
have h4 : (1 + D * dt w) * (ninf (pz q (pt q) - py q) + dt w * (D * dt w ^+ k.+1)) <= (1 + D) * (eta w + (1 + D) * dt w ^+ k.+1).
  apply: ler_pmul.
  - by apply: addr_ge0; [exact: ler01|exact: mulr_ge0].
  - by rewrite addr_ge0 ?ninf_ge0 // !mulr_ge0.
  - by rewrite ler_add2l -[X in _ <= X]mulr1 ler_wpmul2l.
  apply: ler_add => //; rewrite mulrA; apply: ler_wpmul2r => //.
  by apply: le_trans (_ : D <= _); rewrite ?ler_pimull // ler_addr ler01.
apply: le_trans (ler_add (ler_add (lexx _) h4) (lexx _)) _.
rewrite /wt /=; move: (dt w ^+ k.+1) p0 (eta w) e0 => p p0 e e0.
have -> : ((1 + D) * (1 + D) + C + 1) * (p + e) = (e + (1 + D) * (e + (1 + D) * p) + C * p) + (p + (D * (1 + D) + C) * e) by ring.
by rewrite ler_addl !addr_ge0 ?mulr_ge0 ?addr_ge0 ?mulr_ge0.
Qed.
End OneStep.
