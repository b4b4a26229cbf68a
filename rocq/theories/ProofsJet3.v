(* ProofsJet3.v : expansion of s |-> f(t+s, y+h(s)) and of the solution of z' = f(s, z). *)
From Coq Require Import Reals Lra.
From mathcomp Require Import all_ssreflect all_algebra.
From mathcomp Require Import ring.
From Verif Require Import Rstruct Summable MxBase MxSeries ProofsPhiErr SpecProg SpecOrder ProofsJet ProofsJet2.
Set Implicit Arguments.
Unset Strict Implicit.
Unset Printing Implicit Defensive.
Import Order.TTheory GRing.Theory Num.Theory.
Local Open Scope ring_scope.

Section Forms.
Variable n : nat.
Notation vec := 'cV[R]_n.
Lemma vj_tx p (h : R -> vec) a : vj p h a ->
  vj p (fun s => tx s (h s)) (fun k => tx (k == 1%N)%:R (a k)).
Proof.
move=> H i; case: (split_ordP i) => j ->.
  apply: (@sj_eqp p _ 'X); last by apply: sj_ext (sj_poly p 'X) => s; rewrite hornerX col_mxEu mxE (ord1 j) mulr1n.
  by move=> k hk; rewrite cfpE // col_mxEu mxE (ord1 j) mulr1n coefX.
apply: (@sj_eqp p _ (cfp p (fun k => a k j 0))); last by apply: sj_ext (H j) => s; rewrite col_mxEd.
by move=> k hk; rewrite !cfpE // col_mxEd.
Qed.
Lemma vj_quad p (H2 : 'I_(1 + n) -> 'I_(1 + n) -> vec) x x' a b : vj p x a -> vj p x' b ->
  vj p (fun s => diff2 H2 (x s) (x' s)) (fun m => \sum_(k < m.+1) diff2 H2 (a k) (b (m - k)%N)).
Proof.
move=> Ha Hb.
apply: (vjI (Q := fun e => \sum_i \sum_j (H2 i j e 0 *: (cfp p (fun k => a k i 0) * cfp p (fun k => b k j 0))))) => [e|e m hm].
  apply: sj_ext (sj_sum (fun i => sj_sum (fun j => sjZ (H2 i j e 0) (sjM (Ha i) (Hb j))))) => s.
  rewrite /diff2 summxE; apply: eq_bigr => i _; rewrite summxE; apply: eq_bigr => j _.
  by rewrite mxE mulrC.
rewrite coef_sum summxE [RHS](eq_bigr (fun k : 'I_m.+1 => \sum_i \sum_j (a k i 0 * b (m - k)%N j 0 * H2 i j e 0))); last first.
  move=> k _; rewrite /diff2 summxE; apply: eq_bigr => i _; rewrite summxE; apply: eq_bigr => j _.
  by rewrite mxE.
rewrite exchange_big; apply: eq_bigr => i _; rewrite coef_sum exchange_big; apply: eq_bigr => j _.
rewrite coefZ coefM mulr_sumr; apply: eq_bigr => k _.
rewrite !cfpE; first by rewrite mulrC.
- by apply: leq_trans (leq_subr _ _) hm.
- by apply: leq_trans hm; rewrite -ltnS.
Qed.
Lemma mul3_coef (P Q S : {poly R}) : P`_0 = 0 -> Q`_0 = 0 -> S`_0 = 0 -> forall m, (m <= 3)%N ->
  (P * Q * S)`_m = if m == 3%N then P`_1 * Q`_1 * S`_1 else 0.
Proof.
move=> p0 q0 s0.
have pq0 : (P * Q)`_0 = 0 by rewrite coefM !big_ord_recl big_ord0 /= p0 mul0r addr0.
have pq1 : (P * Q)`_1 = 0 by rewrite coefM !big_ord_recl big_ord0 /= /bump /= p0 q0 mul0r mulr0 !addr0.
have pq2 : (P * Q)`_2 = P`_1 * Q`_1.
  by rewrite coefM !big_ord_recl big_ord0 /= /bump /= p0 q0 mul0r mulr0 !addr0 add0r.
by case=> [|[|[|[|//]]]] _; rewrite coefM !big_ord_recl big_ord0 /= /bump /= ?subnn ?pq0 ?pq1 ?pq2 ?s0 ?mul0r ?mulr0 ?addr0 ?add0r.
Qed.
Lemma vj_cube p (H3 : 'I_(1 + n) -> 'I_(1 + n) -> 'I_(1 + n) -> vec) x a : (p <= 3)%N -> vj p x a -> a 0%N = 0 ->
  vj p (fun s => diff3 H3 (x s) (x s) (x s))
    (fun m => if m == 3%N then diff3 H3 (a 1%N) (a 1%N) (a 1%N) else 0).
Proof.
move=> p3 Ha a0; pose P i := cfp p (fun k => a k i 0).
apply: (vjI (Q := fun e => \sum_i \sum_j \sum_l (H3 i j l e 0 *: (P i * P j * P l)))) => [e|e m hm].
  apply: sj_ext (sj_sum (fun i => sj_sum (fun j => sj_sum (fun l => sjZ (H3 i j l e 0) (sjM (sjM (Ha i) (Ha j)) (Ha l)))))) => s.
  rewrite /diff3 summxE; apply: eq_bigr => i _; rewrite summxE; apply: eq_bigr => j _.
  by rewrite summxE; apply: eq_bigr => l _; rewrite mxE mulrC.
have P0 i : (P i)`_0 = 0 by rewrite cfpE // a0 mxE.
have m3 := leq_trans hm p3.
have eP i j l : (P i * P j * P l)`_m = if m == 3%N then a 1%N i 0 * a 1%N j 0 * a 1%N l 0 else 0.
  rewrite mul3_coef //; case: eqP => // e3; rewrite !cfpE //; by rewrite e3 in hm; apply: leq_trans hm.
rewrite coef_sum [LHS](eq_bigr (fun i => \sum_j \sum_l (H3 i j l e 0 * (if m == 3%N then a 1%N i 0 * a 1%N j 0 * a 1%N l 0 else 0)))).
  case: eqP => _.
    rewrite /diff3 summxE; apply: eq_bigr => i _; rewrite summxE; apply: eq_bigr => j _.
    by rewrite summxE; apply: eq_bigr => l _; rewrite mxE mulrC.
  rewrite mxE big1 // => i _; rewrite big1 // => j _; rewrite big1 // => l _; exact: mulr0.
by move=> i _; rewrite coef_sum; apply: eq_bigr => j _; rewrite coef_sum; apply: eq_bigr => l _; rewrite coefZ eP.
Qed.

Lemma tx0 : tx 0 (0 : vec) = 0.
Proof. by apply/matrixP => i j; rewrite (ord1 j); case: (split_ordP i) => k ->; rewrite ?col_mxEu ?col_mxEd !mxE // (ord1 k). Qed.
Lemma diff20l (H2 : 'I_(1 + n) -> 'I_(1 + n) -> vec) x : diff2 H2 0 x = 0.
Proof. by rewrite /diff2 big1 // => i _; rewrite big1 // => j _; rewrite mxE mul0r scale0r. Qed.
Lemma diff20r (H2 : 'I_(1 + n) -> 'I_(1 + n) -> vec) x : diff2 H2 x 0 = 0.
Proof. by rewrite /diff2 big1 // => i _; rewrite big1 // => j _; rewrite mxE mulr0 scale0r. Qed.
Lemma diff2C (H2 : 'I_(1 + n) -> 'I_(1 + n) -> vec) x x' : sym2 H2 -> diff2 H2 x x' = diff2 H2 x' x.
Proof.
move=> h; rewrite /diff2 exchange_big; apply: eq_bigr => i _; apply: eq_bigr => j _.
by rewrite h mulrC.
Qed.
End Forms.

Section Comp.
Variable n : nat.
Notation vec := 'cV[R]_n.
Variables (f : R -> vec -> vec) (t : R) (y ft : vec) (J : 'M[R]_n).
Variables (H2 : 'I_(1 + n) -> 'I_(1 + n) -> vec) (H3 : 'I_(1 + n) -> 'I_(1 + n) -> 'I_(1 + n) -> vec).
Hypothesis s2 : sym2 H2.
Notation f0 := (f t y).
Definition D2 (a b : vec * R) := diff2 H2 (tx a.2 a.1) (tx b.2 b.1).
Definition D3 (a : vec * R) := diff3 H3 (tx a.2 a.1) (tx a.2 a.1) (tx a.2 a.1).
(* the coefficients of f(t+s, y+h(s)), h(s) = a_1 s + a_2 s^2 + a_3 s^3 + ... *)
Definition fco (a : nat -> vec) (m : nat) : vec :=
  match m with
  | 0 => f0
  | 1 => ft + J *m a 1%N
  | 2 => J *m a 2%N + 2%:R^-1 *: D2 (a 1%N, 1) (a 1%N, 1)
  | 3 => J *m a 3%N + D2 (a 1%N, 1) (a 2%N, 0) + 6%:R^-1 *: D3 (a 1%N, 1)
  | _ => 0
  end.
Lemma vj_taylor j k h a : (0 < j)%N -> (j <= k)%N -> (k <= 3)%N -> vj j h a -> a 0%N = 0 ->
  vj j (fun s => taylor_poly k f0 ft J H2 H3 s (h s)) (fco a).
Proof.
move=> j0 jk k3 Ha a0; have j3 := leq_trans jk k3.
have Hx := vj_tx Ha.
have x0 : tx ((0 == 1)%N)%:R (a 0%N) = 0 by rewrite a0; exact: tx0.
have HQ := vjZ 2%:R^-1 (vj_quad H2 Hx Hx).
have HC := vjZ 6%:R^-1 (vj_cube H3 j3 Hx x0).
have Hs : vj j (fun s => s *: ft) (shift (cst ft)).
  by rewrite -(prednK j0); apply: vj_s; apply: vj_cst.
have HL := vjD (vjD (vj_cst j f0) Hs) (vj_mx J Ha).
have HQ' : vj j (fun s => if (1 < k)%N then 2%:R^-1 *: diff2 H2 (tx s (h s)) (tx s (h s)) else 0)
   (fun m => if (1 < k)%N then 2%:R^-1 *: (\sum_(l < m.+1) diff2 H2 (tx (l == 1 :> nat)%N%:R (a l)) (tx ((m - l)%N == 1)%N%:R (a (m - l)%N))) else 0).
  by case: (1 < k)%N => //; apply: vj_eq (vj_cst j 0) => -[|m].
have HC' : vj j (fun s => if (2 < k)%N then 6%:R^-1 *: diff3 H3 (tx s (h s)) (tx s (h s)) (tx s (h s)) else 0)
   (fun m => if (2 < k)%N then 6%:R^-1 *: (if m == 3%N then diff3 H3 (tx 1 (a 1%N)) (tx 1 (a 1%N)) (tx 1 (a 1%N)) else 0) else 0).
  by case: (2 < k)%N => //; apply: vj_eq (vj_cst j 0) => -[|m].
apply: vj_eq (vjD (vjD HL HQ') HC') => m hm; have := leq_trans hm jk => mk.
case: m hm mk => [|[|[|[|m]]]] hm mk; last by have := leq_trans hm j3.
- rewrite /= /cst /shift a0 mulmx0 !addr0 big_ord1 /= a0 tx0 diff20l scaler0 !if_same !addr0.
  by rewrite scaler0 if_same addr0.
- rewrite /= /cst /shift add0r !big_ord_recl big_ord0 /= /bump /= a0 tx0 diff20l diff20r !addr0 !scaler0 !if_same.
  by rewrite !addr0.
- rewrite /= /cst /shift !add0r mk !big_ord_recl big_ord0 /= /bump /= a0 tx0 diff20l diff20r addr0 add0r addr0.
  by rewrite scaler0 if_same addr0.
- rewrite /= /cst /shift !add0r mk (ltn_trans _ mk) // !big_ord_recl big_ord0 /= /bump /= a0 tx0 diff20l diff20r addr0 add0r addr0.
  rewrite [diff2 H2 (tx _ (a 2%N)) _]diff2C // -mulr2n -scaler_nat scalerA mulVf ?pnatr_eq0 // scale1r.
  by rewrite -!addrA.
Qed.
Lemma vj_fcomp j k h a : (0 < j)%N -> (j <= k)%N -> (k <= 3)%N -> has_taylor k f t y ft J H2 H3 ->
  vj j h a -> a 0%N = 0 -> vj j (fun s => f (t + s) (y + h s)) (fco a).
Proof.
move=> j0 jk k3 HT Ha a0; apply: vj_so (vj_taylor j0 jk k3 Ha a0) _ => i.
have [C [d [C1 d0 hC]]] := vj_Os j0 Ha a0.
have C0 : 0 < C by apply: lt_le_trans C1; exact: ltr01.
apply: (@so_le k) => //; move=> eps e0.
have [d' [d'0 hT]] := HT (eps / C ^+ k) (divr_gt0 e0 (exprn_gt0 _ C0)).
exists (Num.min d (d' / C)); split; first by rewrite lt_minr d0 divr_gt0.
move=> s; rewrite le_minr => /andP[e1 e2].
have := hT s (h s) (C * `|s|) _ (hC s e1) _ i.
rewrite exprMn mulrA divfK ?expf_neq0 ?gt_eqF //; apply.
  by rewrite ler_pemull.
by rewrite mulrC -ler_pdivl_mulr.
Qed.
(* the solution *)
Fixpoint zco (m : nat) : vec :=
  match m with
  | 0 => 0
  | 1 => f0
  | 2 => 2%:R^-1 *: (ft + J *m f0)
  | 3 => 3%:R^-1 *: (J *m (2%:R^-1 *: (ft + J *m f0)) + 2%:R^-1 *: D2 (f0, 1) (f0, 1))
  | 4 => 4%:R^-1 *: (J *m (3%:R^-1 *: (J *m (2%:R^-1 *: (ft + J *m f0)) + 2%:R^-1 *: D2 (f0, 1) (f0, 1)))
           + D2 (f0, 1) (2%:R^-1 *: (ft + J *m f0), 0) + 6%:R^-1 *: D3 (f0, 1))
  | _ => 0
  end.
Lemma vj_int p (z : R -> vec) z' a : (forall i, z 0 i 0 = 0) ->
  (exists del : R, 0 < del /\ forall s, `|s| <= del -> vderiv z s (z' s)) -> vj p z' a ->
  vj p.+1 z (fun m => if m is j.+1 then j.+1%:R^-1 *: a j else 0).
Proof.
move=> z0 [d [d0 hd]] H; apply: (vjI (Q := fun i => pint (cfp p (fun k => a k i 0)))) => [i|i [|k] hk].
- by apply: (sj_int (z0 i) _ (H i)); exists d; split=> // s /hd.
- by rewrite pint_coef mxE.
- by rewrite pint_coef cfpE // mxE mulrC.
Qed.
Lemma vj_sol k z : (0 < k)%N -> (k <= 3)%N -> has_taylor k f t y ft J H2 H3 -> solves_near f t y z ->
  vj k.+1 (fun s => z (t + s) - y) zco.
Proof.
move=> k0 k3 HT [z0 [d [d0 hz]]].
pose h := fun s => z (t + s) - y.
have h0 i : h 0 i 0 = 0 by rewrite /h addr0 z0 subrr mxE.
have hd : exists del : R, 0 < del /\ forall s, `|s| <= del -> vderiv h s (f (t + s) (y + h s)).
  exists d; split=> // s hs i; have := hz s hs i; rewrite /h [y + _]addrC subrK => H.
  move=> eps e0; have [del hdel] := H eps e0; exists del => x x0 xd; have := hdel x x0 xd.
  rewrite !mxE !RplusE ?addrA !RminusE.
  by rewrite (_ : z (t + s + x) i ord0 - y i ord0 - (z (t + s) i ord0 - y i ord0) = z (t + s + x) i ord0 - z (t + s) i ord0) // opprD addrACA opprK [- _ + _]addrC subrr addr0.
have H1 : vj 1 h zco.
  move=> i eps e0; have [e [e'0 he]] := hd; have h00 : `|0 : R| <= e by rewrite normr0 ltW.
  have e0' : Rlt 0 eps by apply/RltP.
  have [del hdel] := he 0 h00 i eps e0'.
  have dl0 : 0 < (pos del : R) by apply/RltP; exact: cond_pos.
  move: (pos del) dl0 hdel => dl dl0 hdel.
  exists (dl / 2%:R); split; first by rewrite divr_gt0 ?ltr0n.
  move=> s hs; have [->|s0] := eqVneq s 0.
    by rewrite normr0 expr1 mulr0 h0 /cfp horner_poly !big_ord_recl big_ord0 /= mxE mul0r expr1 mulr0 !addr0 subrr normr0.
  have sd : Rlt (Rabs s) dl.
    apply/RltP; rewrite RabsE; apply: le_lt_trans hs _; rewrite ltr_pdivr_mulr ?ltr0n //.
    by rewrite mulr_natr mulr2n ltr_addl.
  have := hdel s (fun e0 => negP s0 (introT eqP e0)) sd.
  have hv0 : h 0 = 0 by rewrite /h addr0 z0 subrr.
  have ef0 : f (t + 0) (y + h 0) = f0.
    by rewrite hv0 RplusE !addr0.
  rewrite ef0 !RplusE add0r h0 => /RltP/ltW; rewrite RabsE RminusE RminusE RdivE // subr0 => hb.
  rewrite expr1 -ler_pdivr_mulr ?normr_gt0 // -normf_div /cfp horner_poly !big_ord_recl big_ord0 /= [(0 : vec) i 0]mxE mul0r add0r addr0 expr1.
  by rewrite mulrBl mulfK.
have zs j : (0 < j)%N -> (j <= 3)%N -> forall m, (m <= j.+1)%N ->
    (if m is q.+1 then q.+1%:R^-1 *: fco zco q else 0) = zco m.
  move=> _ j3 [|[|[|[|[|m]]]]] hm //=; first by rewrite invr1 scale1r.
  by move: (leq_trans hm (j3 : (j.+1 <= 4)%N)); rewrite !ltnS ltn0.
have step j : (0 < j)%N -> (j <= k)%N -> vj j h zco -> vj j.+1 h zco.
  move=> j0 jk Hj; apply: vj_eq (vj_int h0 hd (vj_fcomp j0 jk k3 HT Hj _)) => // m hm.
  by rewrite (zs j) // (leq_trans jk).
have : vj 1 h zco by []. 
move: k k0 k3 HT step => [//|[|[|[|//]]]] _ k3 HT step H.
- exact: step.
- exact: (step 2%N isT isT (step 1%N isT isT H)).
- exact: (step 3%N isT isT (step 2%N isT isT (step 1%N isT isT H))).
Qed.
End Comp.
