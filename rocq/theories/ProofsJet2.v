(* ProofsJet2.v : expansions of vector functions: sums, matrix products, quadratic and cubic forms,
   phi functions of s A. *)
From Coq Require Import Reals Lra.
From mathcomp Require Import all_ssreflect all_algebra.
From mathcomp Require Import ring.
From Verif Require Import Rstruct Summable MxBase MxSeries ProofsPhiErr SpecProg SpecOrder ProofsJet.
Set Implicit Arguments.
Unset Strict Implicit.
Unset Printing Implicit Defensive.
Import Order.TTheory GRing.Theory Num.Theory.
Local Open Scope ring_scope.

Definition cfp (p : nat) (u : nat -> R) : {poly R} := \poly_(k < p.+1) u k.
Lemma cfpE p u k : (k <= p)%N -> (cfp p u)`_k = u k.
Proof. by rewrite coef_poly ltnS => ->. Qed.

Section Vec.
Variable n : nat.
Implicit Types (g h : R -> 'cV[R]_n) (a b : nat -> 'cV[R]_n).
Definition vj (p : nat) g a : Prop := forall i, sj p (fun s => g s i 0) (cfp p (fun k => a k i 0)).
Lemma vjI p g a (Q : 'I_n -> {poly R}) : (forall i, sj p (fun s => g s i 0) (Q i)) ->
  (forall i k, (k <= p)%N -> (Q i)`_k = a k i 0) -> vj p g a.
Proof. by move=> H e i; apply: sj_eqp (H i) => k hk; rewrite cfpE // e. Qed.
Lemma vj_ext p g h a : (forall s, g s = h s) -> vj p g a -> vj p h a.
Proof. by move=> e H i; apply: sj_ext (H i) => s; rewrite e. Qed.
Lemma vj_near p g h a : (exists del : R, 0 < del /\ forall s, `|s| <= del -> g s = h s) -> vj p g a -> vj p h a.
Proof. by move=> [d [d0 e]] H i; apply: sj_near (H i); exists d; split=> // s hs; rewrite e. Qed.
Lemma vj_eq p g a b : (forall k, (k <= p)%N -> a k = b k) -> vj p g a -> vj p g b.
Proof. by move=> e H i; apply: sj_eqp (H i) => k hk; rewrite !cfpE // e. Qed.
Lemma vj_le p q g a : (q <= p)%N -> vj p g a -> vj q g a.
Proof. by move=> qp H i; apply: sj_eqp (sj_le qp (H i)) => k hk; rewrite !cfpE //; apply: leq_trans qp. Qed.
Lemma vjD p g h a b : vj p g a -> vj p h b -> vj p (fun s => g s + h s) (fun k => a k + b k).
Proof.
move=> Ha Hb; apply: (vjI (Q := fun i => cfp p (fun k => a k i 0) + cfp p (fun k => b k i 0))) => [i|i k hk].
  by apply: sj_ext (sjD (Ha i) (Hb i)) => s; rewrite mxE.
by rewrite coefD !cfpE // mxE.
Qed.
Lemma vjZ p c g a : vj p g a -> vj p (fun s => c *: g s) (fun k => c *: a k).
Proof.
move=> Ha; apply: (vjI (Q := fun i => c *: cfp p (fun k => a k i 0))) => [i|i k hk].
  by apply: sj_ext (sjZ c (Ha i)) => s; rewrite mxE.
by rewrite coefZ cfpE // mxE.
Qed.
Lemma vjN p g a : vj p g a -> vj p (fun s => - g s) (fun k => - a k).
Proof.
move=> Ha; apply: vj_eq (vj_ext _ (vjZ (-1) Ha)) => [k _|s]; by rewrite scaleN1r.
Qed.
Lemma vjB p g h a b : vj p g a -> vj p h b -> vj p (fun s => g s - h s) (fun k => a k - b k).
Proof. by move=> Ha Hb; apply: vjD Ha _; apply: vjN. Qed.
Definition cst (v : 'cV[R]_n) (k : nat) : 'cV[R]_n := if k is 0%N then v else 0.
Lemma vj_cst p v : vj p (fun=> v) (cst v).
Proof.
apply: (vjI (Q := fun i => (v i 0)%:P)) => [i|i [|k] hk]; last first.
- by rewrite coefC /= mxE.
- by rewrite coefC.
- by apply: sj_ext (sj_poly p _) => s; rewrite hornerC.
Qed.
Definition shift a (k : nat) : 'cV[R]_n := if k is j.+1 then a j else 0.
Lemma vj_s p g a : vj p g a -> vj p.+1 (fun s => s *: g s) (shift a).
Proof.
move=> Ha; apply: (vjI (Q := fun i => 'X * cfp p (fun k => a k i 0))) => [i|i [|k] hk].
- by apply: sj_ext (sjX (Ha i)) => s; rewrite mxE.
- by rewrite coefXM /= mxE.
- by rewrite coefXM /= cfpE.
Qed.
Lemma vj_sum (I : finType) p (g : I -> R -> 'cV[R]_n) (a : I -> nat -> 'cV[R]_n) :
  (forall x, vj p (g x) (a x)) -> vj p (fun s => \sum_x g x s) (fun k => \sum_x a x k).
Proof.
move=> H; apply: (vjI (Q := fun i => \sum_x cfp p (fun k => a x k i 0))) => [i|i k hk].
  by apply: sj_ext (sj_sum (fun x => H x i)) => s; rewrite summxE.
by rewrite coef_sum summxE; apply: eq_bigr => x _; rewrite cfpE.
Qed.
(* jets of scalar times constant vector *)
Lemma vj_sv p (u : R -> R) (w : nat -> R) (v : 'cV[R]_n) : sj p u (cfp p w) ->
  vj p (fun s => u s *: v) (fun k => w k *: v).
Proof.
move=> Hu; apply: (vjI (Q := fun i => v i 0 *: cfp p w)) => [i|i k hk].
  by apply: sj_ext (sjZ (v i 0) Hu) => s; rewrite mxE mulrC.
by rewrite coefZ cfpE // mxE mulrC.
Qed.
(* only remainders of order p *)
Lemma vj_so p g h a : vj p g a -> (forall i, so p (fun s => (h s - g s) i 0)) -> vj p h a.
Proof.
move=> Ha Hs i; apply: sj_ext (sj_so (Ha i) (Hs i)) => s.
by rewrite !mxE addrC subrK.
Qed.
Lemma vj0_so p h : (forall i, so p (fun s => h s i 0)) -> vj p h (fun=> 0).
Proof.
move=> H; apply: (@vj_so p (fun=> 0)) => [|i]; last by apply: so_ext (H i) => s; rewrite subr0.
by apply: vj_eq (vj_cst p 0) => -[|k].
Qed.
(* size near 0 *)
Lemma vj_Os p g a : (0 < p)%N -> vj p g a -> a 0%N = 0 ->
  exists C del : R, [/\ 1 <= C, 0 < del & forall s, `|s| <= del -> forall i, `|g s i 0| <= C * `|s|].
Proof.
move=> p0 H a0.
pose S := \sum_i `|a 1%N i 0|.
have S0 : 0 <= S by apply: sumr_ge0.
have hi i : `|a 1%N i 0| <= S by rewrite /S (bigD1 i) //= ler_addl sumr_ge0.
have H1 i : so 1 (fun s => g s i 0 - s * a 1%N i 0).
  apply: so_ext (vj_le p0 H i) => s; rewrite /cfp horner_poly !big_ord_recl big_ord0 /= a0 mxE.
  by rewrite mul0r add0r addr0 expr1 mulrC.
have [d [d0 hd]] : exists d : R, 0 < d /\ forall i s, `|s| <= d -> `|g s i 0 - s * a 1%N i 0| <= 1 * `|s| ^+ 1.
  pose P (i : 'I_n) (d : R) := 0 < d /\ forall s, `|s| <= d -> `|g s i 0 - s * a 1%N i 0| <= 1 * `|s| ^+ 1.
  have hP i : exists d, P i d by apply: H1; exact: ltr01.
  suff [d [d0 hd]] : exists d : R, 0 < d /\ forall i, i \in enum 'I_n -> P i d.
    by exists d; split=> // i s; apply: (proj2 (hd i _)); rewrite mem_enum.
  elim: (enum 'I_n) => [|i r [d [d0 IH]]]; first by exists 1; split=> //; exact: ltr01.
  have [e [e0 he]] := hP i; exists (Num.min d e); split; first by rewrite lt_minr d0 e0.
  move=> j; rewrite inE => /orP[/eqP->|/IH[_ hj]]; split; rewrite ?lt_minr ?d0 ?e0 // => s; rewrite le_minr => /andP[s1 s2].
    exact: he.
  exact: hj.
exists (1 + S), d; split=> //; first by rewrite ler_addl.
move=> s hs i; have := hd i s hs; rewrite expr1 mul1r => h1.
rewrite -[g s i 0](subrK (s * a 1%N i 0)); apply: le_trans (ler_norm_add _ _) _.
rewrite mulrDl mul1r; apply: ler_add => //; rewrite normrM mulrC ler_wpmul2r //.
Qed.
End Vec.
Arguments cst {n} v k.
Arguments shift {n} a k.

Section Mx.
Variables (m n : nat).
Lemma vj_mx p (A : 'M[R]_(m, n)) (g : R -> 'cV[R]_n) a : vj p g a ->
  vj p (fun s => A *m g s) (fun k => A *m a k).
Proof.
move=> Ha; apply: (vjI (Q := fun i => \sum_j A i j *: cfp p (fun k => a k j 0))) => [i|i k hk].
  by apply: sj_ext (sj_sum (fun j => sjZ (A i j) (Ha j))) => s; rewrite mxE.
by rewrite coef_sum mxE; apply: eq_bigr => j _; rewrite coefZ cfpE.
Qed.
End Mx.

Section Phi.
Variable n : nat.
Implicit Types (g : R -> 'cV[R]_n) (a : nat -> 'cV[R]_n) (A : 'M[R]_n).
Definition phc (c : R) k A a (m : nat) : 'cV[R]_n :=
  \sum_(i < m.+1) (c ^+ i * ifact _ (i + k)) *: (mxpow A i *m a (m - i)%N).
Lemma vj_sX p j g a : vj p g a -> vj p (fun s => s ^+ j *: g s) (iter j shift a).
Proof.
move=> Ha; elim: j => [|j IH]; first by apply: vj_ext Ha => s; rewrite expr0 scale1r.
by apply: vj_ext (vj_le (leqnSn p) (vj_s IH)) => s; rewrite scalerA exprS.
Qed.
Lemma iter_shift j a m : iter j shift a m = if (j <= m)%N then a (m - j)%N else 0.
Proof.
elim: j m => [|j IH] m; first by rewrite subn0.
by rewrite iterS; case: m => [|m] //=; rewrite IH ltnS subSS.
Qed.
Lemma mxpow_scale (s : R) A i : mxpow (s *: A) i = s ^+ i *: mxpow A i.
Proof.
elim: i => [|i IH]; first by rewrite expr0 scale1r.
by rewrite !mxpowS IH -scalemxAl -scalemxAr scalerA exprS.
Qed.
Lemma vj_bnd p g a : vj p g a -> exists M del : R, [/\ 0 <= M, 0 < del & forall s, `|s| <= del -> ninf (g s) <= M].
Proof.
move=> H.
suff [M [d [M0 d0 hd]]] : exists M d : R, [/\ 0 <= M, 0 < d & forall s, `|s| <= d -> \sum_i `|g s i 0| <= M].
  exists M, d; split=> // s /hd h; apply: ninf_le => // i; rewrite big_ord1; apply: le_trans h.
  by rewrite (bigD1 i) //= ler_addl sumr_ge0.
have hb i : bnd (fun s => `|g s i 0|).
  by have [M [d [M0 d0 hd]]] := sj_bnd (H i); exists M, d; split=> // s /hd; rewrite normr_id.
suff : forall r : seq 'I_n, exists M d : R, [/\ 0 <= M, 0 < d & forall s, `|s| <= d -> \sum_(i <- r) `|g s i 0| <= M].
  exact.
elim=> [|i r [M [d [M0 d0 hd]]]].
  by exists 0, 1; split=> // [|s _]; [exact: ltr01|rewrite big_nil].
have [N [e [N0 e0 he]]] := hb i; exists (N + M), (Num.min d e); split; first exact: addr_ge0.
  by rewrite lt_minr d0 e0.
move=> s; rewrite le_minr => /andP[s1 s2]; rewrite big_cons ler_add ?hd //.
by have := he s s2; rewrite normr_id.
Qed.
Lemma vj_phi p k (c : R) A g a : vj p g a -> vj p (fun s => phi k ((c * s) *: A) *m g s) (phc c k A a).
Proof.
move=> Ha.
have H1 : vj p (fun s => \sum_(i < p.+1) (c ^+ i * ifact _ (i + k)) *: (mxpow A i *m (s ^+ i *: g s)))
   (fun m => \sum_(i < p.+1) (c ^+ i * ifact _ (i + k)) *: (mxpow A i *m iter i shift a m)).
  by apply: vj_sum => i; apply: vjZ; apply: vj_mx; apply: vj_sX.
have H2 : vj p (fun s => \sum_(i < p.+1) (c ^+ i * ifact _ (i + k)) *: (mxpow A i *m (s ^+ i *: g s))) (phc c k A a).
  apply: vj_eq H1 => m hm; rewrite /phc (big_ord_widen p.+1 (fun i => (c ^+ i * ifact _ (i + k)) *: (mxpow A i *m a (m - i)%N))) ?ltnS //.
  rewrite [RHS]big_mkcond; apply: eq_bigr => i _; rewrite iter_shift ltnS.
  by case: ifP => // _; rewrite mulmx0 scaler0.
apply: vj_so H2 _ => i.
pose E := fun s : R => mxpow A p.+1 *m (phi (p.+1 + k) ((c * s) *: A) *m g s).
apply: (@so_ext p (fun s => s ^+ p.+1 * (c ^+ p.+1 * E s i 0))) => [s|].
  have eT : phi_psum k p.+1 ((c * s) *: A) *m g s =
     \sum_(i < p.+1) (c ^+ i * ifact _ (i + k)) *: (mxpow A i *m (s ^+ i *: g s)).
    rewrite /phi_psum mulmx_suml; apply: eq_bigr => j _.
    rewrite mxpow_scale -!scalemxAl -scalemxAr !scalerA exprMn; congr (_ *: _).
    by rewrite [RHS]mulrAC [RHS]mulrC mulrA.
  rewrite (phi_remainder ((c * s) *: A) k p.+1) mulmxDl eT addrAC subrr add0r mxpow_scale.
  by rewrite -!scalemxAl exprMn -mulmxA mulrA [s ^+ _ * _]mulrC [in RHS]mxE.
have [M [d [M0 d0 hM]]] := vj_bnd Ha.
have hE : bnd (fun s => c ^+ p.+1 * E s i 0).
  exists (`|c| ^+ p.+1 * (ninf (mxpow A p.+1) * (exp (`|c| * ninf A)%R * M))), (Num.min d 1); split.
  - by rewrite !mulr_ge0 ?exprn_ge0 ?ninf_ge0 ?exp_ge0.
  - by rewrite lt_minr d0 ltr01.
  - move=> s; rewrite le_minr => /andP[s1 s2]; rewrite normrM normrX ler_wpmul2l ?exprn_ge0 //.
    apply: le_trans (ninf_entry _ _ _) _; apply: le_trans (ninfM _ _) _.
    rewrite ler_wpmul2l ?ninf_ge0 //; apply: le_trans (ninfM _ _) _.
    rewrite ler_pmul ?ninf_ge0 ?hM //; apply: le_trans (ninf_phi _ _) _.
    apply: (@le_trans _ _ (1 * exp (ninf ((c * s) *: A)))).
      by rewrite ler_wpmul2r ?exp_ge0 ?ifact_le1.
    rewrite mul1r; apply: exp_le; rewrite ninfZ normrM ler_wpmul2r ?ninf_ge0 //.
    by rewrite ler_pimulr.
apply: so_ext (so_bmul hE (_ : so p (fun s => s ^+ p.+1))) => [s|]; first by rewrite mulrC.
move=> eps e0; exists eps; split=> // s hs; rewrite normrX exprS ler_wpmul2r ?exprn_ge0 //.
Qed.
End Phi.
