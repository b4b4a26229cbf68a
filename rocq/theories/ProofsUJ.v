(* ProofsUJ.v : expansions in the step size that hold uniformly over a family of problems.  [w : Om] is one
   member of the family, dt w its step size, eta w the size of a perturbation; [good] delimits the family. *)
From Coq Require Import Reals.
From mathcomp Require Import all_ssreflect all_algebra.
From mathcomp Require Import ring.
From Verif Require Import Rstruct Summable MxBase MxSeries ProofsPhiErr SpecProg SpecOrder ProofsJet2.
Set Implicit Arguments.
Unset Strict Implicit.
Unset Printing Implicit Defensive.
Import Order.TTheory GRing.Theory Num.Theory.
Local Open Scope ring_scope.

Section U.
Variables (Om : Type) (dt eta : Om -> R) (good : Om -> Prop).
Hypothesis dt0 : forall w, good w -> 0 <= dt w.
Hypothesis eta0 : forall w, good w -> 0 <= eta w.
Definition uev (P : Om -> Prop) : Prop :=
  exists d : R, 0 < d /\ forall w, good w -> dt w <= d -> eta w <= d -> P w.
Lemma uev_and (P Q : Om -> Prop) : uev P -> uev Q -> uev (fun w => P w /\ Q w).
Proof.
move=> [d [d0 hd]] [e [e0 he]]; exists (Num.min d e); split; first by rewrite lt_minr d0 e0.
by move=> w gw; rewrite !le_minr => /andP[h1 h2] /andP[h3 h4]; split; [exact: hd|exact: he].
Qed.
Lemma uev_imp (P Q : Om -> Prop) : (forall w, good w -> P w -> Q w) -> uev P -> uev Q.
Proof. by move=> h [d [d0 hd]]; exists d; split=> // w gw h1 h2; apply: h => //; apply: hd. Qed.
Lemma uev_all (P : Om -> Prop) : (forall w, good w -> P w) -> uev P.
Proof. by move=> h; exists 1; split=> [|w gw _ _]; [exact: ltr01|exact: h]. Qed.
Lemma uev_small (r : R) : 0 < r -> uev (fun w => dt w <= r /\ eta w <= r).
Proof. by move=> r0; exists r; split. Qed.
Lemma uev_dt1 : uev (fun w => dt w <= 1).
Proof.
have h1 : 0 < (1 : R) by exact: ltr01.
by apply: uev_imp (uev_small h1) => w _ [].
Qed.

Section OB.
Variable d : Om -> nat.
Notation fam := (forall w, 'cV[R]_(d w)).
Implicit Types e : fam.
Definition UO (wt : Om -> R) (e : fam) : Prop :=
  exists C : R, 0 <= C /\ uev (fun w => ninf (e w) <= C * wt w).
Lemma UO_ext wt e e' : (forall w, good w -> e w = e' w) -> UO wt e -> UO wt e'.
Proof. by move=> h [C [C0 H]]; exists C; split=> //; apply: uev_imp H => w gw; rewrite h. Qed.
Lemma UO_w wt wt' (c : R) e : 0 <= c -> uev (fun w => wt w <= c * wt' w) -> UO wt e -> UO wt' e.
Proof.
move=> c0 h [C [C0 H]]; exists (C * c); split; first exact: mulr_ge0.
apply: uev_imp (uev_and h H) => w gw [h1 h2]; apply: le_trans h2 _; rewrite -mulrA.
exact: ler_wpmul2l.
Qed.
Lemma UO_add wt e e' : UO wt e -> UO wt e' -> UO wt (fun w => e w + e' w).
Proof.
move=> [C [C0 H]] [D [D0 H']]; exists (C + D); split; first exact: addr_ge0.
apply: uev_imp (uev_and H H') => w gw [h1 h2]; apply: le_trans (ninfD _ _) _.
by rewrite mulrDl ler_add.
Qed.
Lemma UO_scal wt (c : R) e : UO wt e -> UO wt (fun w => c *: e w).
Proof.
move=> [C [C0 H]]; exists (`|c| * C); split; first exact: mulr_ge0.
by apply: uev_imp H => w gw h; rewrite ninfZ -mulrA ler_wpmul2l.
Qed.
Lemma UO_opp wt e : UO wt e -> UO wt (fun w => - e w).
Proof. by move=> [C [C0 H]]; exists C; split=> //; apply: uev_imp H => w gw; rewrite ninfN. Qed.
Lemma UO_sub wt e e' : UO wt e -> UO wt e' -> UO wt (fun w => e w - e' w).
Proof. by move=> h h'; apply: UO_add h _; apply: UO_opp. Qed.
Lemma UO_0 wt : (forall w, good w -> 0 <= wt w) -> UO wt (fun=> 0).
Proof. by move=> h; exists 0; split=> //; apply: uev_all => w gw; rewrite ninf0 mul0r. Qed.
Lemma UO_sum wt m (e : nat -> fam) : (forall w, good w -> 0 <= wt w) -> (forall i, (i < m)%N -> UO wt (e i)) ->
  UO wt (fun w => \sum_(i < m) e i w).
Proof.
move=> h0; elim: m => [|m IH] H; first by apply: UO_ext (UO_0 h0) => w _; rewrite big_ord0.
have H1 := IH (fun i lt => H i (ltnW lt)).
by apply: UO_ext (UO_add H1 (H m (ltnSn m))) => w _; rewrite big_ord_recr.
Qed.
(* multiplication by a scalar family *)
Lemma UO_mulw wt (u : Om -> R) e : UO wt e -> (forall w, good w -> 0 <= u w) -> UO (fun w => u w * wt w) (fun w => u w *: e w).
Proof.
move=> [C [C0 H]] u0; exists C; split=> //; apply: uev_imp H => w gw h.
by rewrite ninfZ ger0_norm ?u0 // mulrCA ler_wpmul2l ?u0.
Qed.
End OB.
Definition uone (w : Om) : R_ringType := 1.

Section Mat.
Variables d d' : Om -> nat.
Definition ubm (A : forall w, 'M[R]_(d' w, d w)) : Prop := exists C : R, 0 <= C /\ uev (fun w => ninf (A w) <= C).
Lemma UO_mx wt A (e : forall w, 'cV[R]_(d w)) : ubm A -> UO wt e -> UO wt (fun w => A w *m e w).
Proof.
move=> [C [C0 H]] [D [D0 H']]; exists (C * D); split; first exact: mulr_ge0.
apply: uev_imp (uev_and H H') => w gw [h1 h2]; apply: le_trans (ninfM _ _) _.
by rewrite -mulrA; apply: ler_pmul; rewrite ?ninf_ge0.
Qed.
End Mat.
Lemma ubm_phi (d : Om -> nat) (A : forall w, 'M[R]_(d w)) (c : R) k : ubm A -> ubm (fun w => phi k ((c * dt w) *: A w)).
Proof.
move=> [C [C0 H]]; exists (exp (`|c| * C)%R); split; first exact: exp_ge0.
apply: uev_imp (uev_and H uev_dt1) => w gw [h1 h2]; apply: le_trans (ninf_phi _ _) _.
apply: (@le_trans _ _ (1 * exp (ninf ((c * dt w) *: A w)))).
  by rewrite ler_wpmul2r ?exp_ge0 ?ifact_le1.
rewrite mul1r; apply: exp_le; rewrite ninfZ normrM [`|dt w|]ger0_norm ?dt0 //.
apply: ler_pmul => //; rewrite ?mulr_ge0 ?ninf_ge0 ?dt0 //.
by rewrite ler_pimulr.
Qed.

Lemma ubm_pow (d : Om -> nat) (A : forall w, 'M[R]_(d w)) i : ubm A -> ubm (fun w => mxpow (A w) i).
Proof.
move=> [C [C0 H]]; elim: i => [|i [D [D0 IH]]].
  exists 1; split; first exact: ler01.
  by apply: uev_all => w gw; apply: ninf1.
exists (C * D); split; first exact: mulr_ge0.
apply: uev_imp (uev_and H IH) => w gw [h1 h2]; rewrite mxpowS; apply: le_trans (ninfM _ _) _.
by apply: ler_pmul; rewrite ?ninf_ge0.
Qed.

(* the perturbation: eta (b = false) or dt * eta (b = true) *)
Definition th (b : bool) (w : Om) : R_ringType := if b then dt w * eta w else eta w.
Definition wt (p : nat) (b : bool) (w : Om) : R_ringType := dt w ^+ p + th b w.
Lemma th0 b w : good w -> 0 <= th b w.
Proof. by move=> gw; case: b; rewrite /th ?mulr_ge0 ?dt0 ?eta0. Qed.
Lemma wt0 p b w : good w -> 0 <= wt p b w.
Proof. by move=> gw; rewrite addr_ge0 ?exprn_ge0 ?th0 ?dt0. Qed.
Lemma th_le b w : good w -> dt w <= 1 -> th b w <= eta w.
Proof. by move=> gw h; case: b => //=; rewrite ler_pimull ?eta0. Qed.
Lemma uev1 : uev (fun w => dt w <= 1 /\ eta w <= 1).
Proof. by have h1 : 0 < (1 : R) by [exact: ltr01]; exact: uev_small h1. Qed.

Section UJ.
Variable d : Om -> nat.
Notation fam := (forall w, 'cV[R]_(d w)).
Implicit Types (e : fam) (a : nat -> fam).
Definition UJ (p : nat) (b : bool) e a : Prop :=
  (forall k, (k <= p)%N -> UO uone (a k)) /\
  UO (wt p.+1 b) (fun w => e w - \sum_(k < p.+1) dt w ^+ k *: a k w).
Lemma UJ_ext p b e e' a : (forall w, good w -> e w = e' w) -> UJ p b e a -> UJ p b e' a.
Proof. by move=> h [H1 H2]; split=> //; apply: UO_ext H2 => w gw; rewrite h. Qed.
Lemma UJ_eq p b e a a' : (forall k w, (k <= p)%N -> good w -> a k w = a' k w) -> UJ p b e a -> UJ p b e a'.
Proof.
move=> h [H1 H2]; split=> [k kp|].
  by apply: UO_ext (H1 k kp) => w gw; apply: h.
apply: UO_ext H2 => w gw; congr (_ - _); apply: eq_bigr => k _; rewrite h //; by rewrite -ltnS.
Qed.
Lemma UJ_weak p b e a : UJ p true e a -> UJ p b e a.
Proof.
move=> [H1 H2]; split=> //; apply: (UO_w ler01) H2.
apply: uev_imp uev_dt1 => w gw h; rewrite mul1r ler_add2l; case: b => //; exact: th_le.
Qed.
Lemma UJ_O p b e a : UJ p b e a -> UO uone e.
Proof.
move=> [H1 H2].
have S : UO uone (fun w => \sum_(k < p.+1) dt w ^+ k *: a k w).
  apply: (@UO_sum d uone p.+1 (fun k w => dt w ^+ k *: a k w)) => [w _|k kp]; first exact: ler01.
  have := UO_mulw (H1 k kp) (fun w gw => exprn_ge0 k (dt0 gw)).
  apply: (UO_w ler01); apply: uev_imp uev_dt1 => w gw h.
  by rewrite /uone mulr1 mul1r exprn_ile1 ?dt0.
have H3 : UO uone (fun w => e w - \sum_(k < p.+1) dt w ^+ k *: a k w).
  apply: (@UO_w d _ _ 2%:R _ (ler0n _ 2)) H2; apply: uev_imp uev1 => w gw [h1 h2].
  rewrite mulr1 [2%:R](_ : _ = 1 + 1 :> R_ringType) //; apply: ler_add.
    by rewrite exprn_ile1 ?dt0.
  by apply: le_trans (th_le b gw h1) h2.
by apply: UO_ext (UO_add H3 S) => w _; rewrite subrK.
Qed.
Lemma UJ_le p q b e a : (q <= p)%N -> UJ p b e a -> UJ q b e a.
Proof.
move=> qp [H1 H2]; split=> [k kq|]; first exact/H1/(leq_trans kq).
have S : UO (wt q.+1 b) (fun w => \sum_(k < p - q) dt w ^+ (q.+1 + k) *: a (q.+1 + k)%N w).
  apply: (@UO_sum d _ (p - q) (fun k w => dt w ^+ (q.+1 + k) *: a (q.+1 + k)%N w)) => [w|k kp]; first exact: wt0.
  have kk : (q.+1 + k <= p)%N by rewrite addSnnS -(subnKC qp) leq_add2l.
  have := UO_mulw (H1 _ kk) (fun w gw => exprn_ge0 (q.+1 + k) (dt0 gw)).
  apply: (UO_w ler01); apply: uev_imp uev_dt1 => w gw h; rewrite /uone mulr1 mul1r.
  apply: (@le_trans _ _ (dt w ^+ q.+1)); last by rewrite ler_addl th0.
  by rewrite exprD ler_pimulr ?exprn_ge0 ?exprn_ile1 ?dt0.
have H3 : UO (wt q.+1 b) (fun w => e w - \sum_(k < p.+1) dt w ^+ k *: a k w).
  apply: (UO_w ler01) H2; apply: uev_imp uev_dt1 => w gw h; rewrite mul1r ler_add2r.
  by rewrite ler_wiexpn2l ?dt0.
apply: UO_ext (UO_add H3 S) => w _; rewrite -addrA; congr (_ + _).
have -> : p.+1 = (q.+1 + (p - q))%N by rewrite addSn subnKC.
by rewrite big_split_ord /= opprD subrK.
Qed.
Lemma UJD p b e e' a a' : UJ p b e a -> UJ p b e' a' -> UJ p b (fun w => e w + e' w) (fun k w => a k w + a' k w).
Proof.
move=> [H1 H2] [H3 H4]; split=> [k kp|]; first exact: UO_add (H1 k kp) (H3 k kp).
apply: UO_ext (UO_add H2 H4) => w _; rewrite addrACA -opprD -big_split; congr (_ - _).
by apply: eq_bigr => k _; rewrite scalerDr.
Qed.
Lemma UJZ p b (c : R) e a : UJ p b e a -> UJ p b (fun w => c *: e w) (fun k w => c *: a k w).
Proof.
move=> [H1 H2]; split=> [k kp|]; first exact: UO_scal (H1 k kp).
apply: UO_ext (UO_scal c H2) => w _; rewrite scalerBr scaler_sumr; congr (_ - _).
by apply: eq_bigr => k _; rewrite !scalerA mulrC.
Qed.
Lemma UJN p b e a : UJ p b e a -> UJ p b (fun w => - e w) (fun k w => - a k w).
Proof.
move=> H; apply: (UJ_eq (a := fun k w => -1 *: a k w)) => [k w _ _|]; first by rewrite scaleN1r.
by apply: UJ_ext (UJZ (-1) H) => w _; rewrite scaleN1r.
Qed.
Lemma UJB p b e e' a a' : UJ p b e a -> UJ p b e' a' -> UJ p b (fun w => e w - e' w) (fun k w => a k w - a' k w).
Proof. by move=> H H'; apply: UJD H _; apply: UJN. Qed.
(* a perturbation of the order of the remainder *)
Lemma UJ_pert p b e e' a : UJ p b e a -> UO (wt p.+1 b) (fun w => e' w - e w) -> UJ p b e' a.
Proof.
move=> [H1 H2] H; split=> //; apply: UO_ext (UO_add H H2) => w _; by rewrite addrA subrK.
Qed.
Definition ucst e (k : nat) : fam := fun w => cst (e w) k.
Lemma UJ_cst p b e : UO uone e -> UJ p b e (fun k w => cst (e w) k).
Proof.
move=> H; split=> [[|k] kp|] //; first by apply: UO_ext (UO_0 d (fun w _ => ler01 : 0 <= uone w)) => w _.
apply: UO_ext (UO_0 d (wt0 p.+1 b)) => w _.
rewrite big_ord_recl expr0 scale1r /= big1 ?addr0 ?subrr // => k _.
by rewrite /bump /= scaler0.
Qed.
Lemma UJ_s p b e a : UJ p b e a -> UJ p.+1 true (fun w => dt w *: e w) (fun k w => shift (fun j => a j w) k).
Proof.
move=> [H1 H2]; split=> [[|k] kp|] //; [|exact: H1|].
  by apply: UO_ext (UO_0 d (fun w _ => ler01 : 0 <= uone w)) => w _.
apply: UO_ext (UO_w ler01 _ (UO_mulw H2 dt0)) => [w _|].
  rewrite scalerBr scaler_sumr [in RHS]big_ord_recl scaler0 add0r; congr (_ - _); apply: eq_bigr => k _.
  by rewrite scalerA -exprS.
apply: uev_imp uev_dt1 => w gw h; rewrite mul1r /wt mulrDr -exprS ler_add2l.
by case: b {H2} => //=; rewrite ler_wpmul2l ?dt0 // ler_pimull ?eta0.
Qed.
Lemma UJ_sc p b (c : R) e a : UJ p b e a ->
  UJ p.+1 true (fun w => (c * dt w) *: e w) (fun k w => c *: shift (fun j => a j w) k).
Proof. by move=> H; apply: UJ_ext (UJZ c (UJ_s H)) => w _; rewrite scalerA. Qed.
Lemma UJ_s1 p b e a : (0 < p)%N -> UJ p.-1 b e a -> UJ p true (fun w => dt w *: e w) (fun k w => shift (fun j => a j w) k).
Proof. by case: p => // p _; apply: UJ_s. Qed.
Lemma UJ_sum p b m (e : nat -> fam) (a : nat -> nat -> fam) : (forall i, (i < m)%N -> UJ p b (e i) (a i)) ->
  UJ p b (fun w => \sum_(i < m) e i w) (fun k w => \sum_(i < m) a i k w).
Proof.
elim: m => [|m IH] H.
  apply: (UJ_eq (a := fun k w => cst 0 k)) => [[|k] w _ _|]; rewrite ?big_ord0 //.
  apply: UJ_ext (UJ_cst p b (UO_0 d (fun w _ => ler01 : 0 <= uone w))) => w _; by rewrite big_ord0.
have H1 := IH (fun i lt => H i (ltnW lt)).
apply: (UJ_eq (a := fun k w => (\sum_(i < m) a i k w) + a m k w)) => [k w _ _|]; first by rewrite big_ord_recr.
by apply: UJ_ext (UJD H1 (H m (ltnSn m))) => w _; rewrite big_ord_recr.
Qed.
Lemma UJ_sX p b j e a : UJ p b e a -> UJ p b (fun w => dt w ^+ j *: e w) (fun k w => iter j shift (fun i => a i w) k).
Proof.
move=> H; elim: j => [|j IH]; first by apply: UJ_ext H => w _; rewrite expr0 scale1r.
apply: UJ_ext (UJ_le (leqnSn p) (UJ_weak b (UJ_s IH))) => w _; by rewrite scalerA exprS.
Qed.
(* the leading size of an expansion without constant term *)
Lemma UJ_small p b e a : (forall w, good w -> a 0%N w = 0) -> UJ p b e a -> UO (wt 1 b) e.
Proof.
move=> a0 /(UJ_le (leq0n p)) [_ H]; apply: UO_ext H => w gw; by rewrite big_ord1 a0 // scaler0 subr0.
Qed.
Lemma UO_small p b e a : UO (wt p.+1 b) e -> (forall k, (k <= p)%N -> forall w, good w -> a k w = 0) -> UJ p b e a.
Proof.
move=> H a0; split=> [k kp|].
  by apply: UO_ext (UO_0 d (fun w _ => ler01 : 0 <= uone w)) => w gw; rewrite a0.
apply: UO_ext H => w gw; rewrite big1 ?subr0 // => k _; rewrite a0 ?scaler0 //; by rewrite -ltnS.
Qed.
End UJ.

Section UJm.
Variables d d' : Om -> nat.
Lemma UJ_mx p b (A : forall w, 'M[R]_(d' w, d w)) (e : forall w, 'cV[R]_(d w)) a : ubm A -> UJ p b e a ->
  UJ p b (fun w => A w *m e w) (fun k w => A w *m a k w).
Proof.
move=> hA [H1 H2]; split=> [k kp|]; first exact: UO_mx hA (H1 k kp).
apply: UO_ext (UO_mx hA H2) => w _; rewrite mulmxBr mulmx_sumr; congr (_ - _).
by apply: eq_bigr => k _; rewrite scalemxAr.
Qed.
End UJm.

Section UJphi.
Variable d : Om -> nat.
Lemma UJ_phi p b k (c : R) (A : forall w, 'M[R]_(d w)) (e : forall w, 'cV[R]_(d w)) a : ubm A -> UJ p b e a ->
  UJ p b (fun w => phi k ((c * dt w) *: A w) *m e w) (fun m w => phc c k (A w) (fun j => a j w) m).
Proof.
move=> hA H.
have H1 : UJ p b (fun w => \sum_(i < p.+1) (c ^+ i * ifact _ (i + k)) *: (mxpow (A w) i *m (dt w ^+ i *: e w)))
   (fun m w => \sum_(i < p.+1) (c ^+ i * ifact _ (i + k)) *: (mxpow (A w) i *m iter i shift (fun j => a j w) m)).
  apply: (@UJ_sum d p b p.+1 (fun i w => (c ^+ i * ifact _ (i + k)) *: (mxpow (A w) i *m (dt w ^+ i *: e w)))
     (fun i m w => (c ^+ i * ifact _ (i + k)) *: (mxpow (A w) i *m iter i shift (fun j => a j w) m))) => i _.
  by apply: UJZ; apply: UJ_mx (ubm_pow i hA) _; apply: UJ_sX.
have H2 : UJ p b (fun w => \sum_(i < p.+1) (c ^+ i * ifact _ (i + k)) *: (mxpow (A w) i *m (dt w ^+ i *: e w)))
   (fun m w => phc c k (A w) (fun j => a j w) m).
  apply: UJ_eq H1 => m w hm _; rewrite /phc (big_ord_widen p.+1 (fun i => (c ^+ i * ifact _ (i + k)) *: (mxpow (A w) i *m a (m - i)%N w))) ?ltnS //.
  rewrite [RHS]big_mkcond; apply: eq_bigr => i _; rewrite iter_shift ltnS.
  by case: ifP => // _; rewrite mulmx0 scaler0.
apply: UJ_pert H2 _.
pose E := fun w => mxpow (A w) p.+1 *m (phi (p.+1 + k) ((c * dt w) *: A w) *m e w).
have HE : UO uone E by apply: UO_mx (ubm_pow p.+1 hA) _; apply: UO_mx (ubm_phi _ _ hA) (UJ_O H).
have HE2 := UO_mulw (UO_scal (c ^+ p.+1) HE) (fun w gw => exprn_ge0 p.+1 (dt0 gw)).
apply: UO_ext (UO_w ler01 _ HE2) => [w _|]; last first.
  by apply: uev_all => w gw; rewrite /uone mulr1 mul1r ler_addl th0.
have eT : phi_psum k p.+1 ((c * dt w) *: A w) *m e w =
   \sum_(i < p.+1) (c ^+ i * ifact _ (i + k)) *: (mxpow (A w) i *m (dt w ^+ i *: e w)).
  rewrite /phi_psum mulmx_suml; apply: eq_bigr => j _.
  rewrite mxpow_scale -!scalemxAl -scalemxAr !scalerA exprMn; congr (_ *: _).
  by rewrite [RHS]mulrAC [RHS]mulrC mulrA.
rewrite (phi_remainder ((c * dt w) *: A w) k p.+1) mulmxDl eT addrAC subrr add0r mxpow_scale.
by rewrite -!scalemxAl exprMn -mulmxA scalerA mulrC.
Qed.
(* a kernel answer with relative error del <= eta *)
Lemma UJ_ker p b (e W P : forall w, 'cV[R]_(d w)) a a' : UJ p b P a' -> UJ p b e a ->
  (forall w, good w -> ninf (W w - P w) <= eta w * ninf (e w)) -> UJ p false W a'.
Proof.
move=> HP He hW; have HP' : UJ p false P a' by case: b HP {He} => //; apply: UJ_weak.
apply: UJ_pert HP' _; have [C [C0 H]] := UJ_O He; exists C; split=> //.
apply: uev_imp H => w gw h; apply: le_trans (hW w gw) _.
rewrite /uone mulr1 in h; rewrite mulrC /wt mulrDr; apply: (@le_trans _ _ (C * eta w)).
  by rewrite ler_wpmul2r ?eta0.
by rewrite ler_addr mulr_ge0 ?exprn_ge0 ?dt0.
Qed.
Lemma UJ_ker1 p b (e W P : forall w, 'cV[R]_(d w)) a a' : UJ p b P a' -> UJ p true e a -> (forall w, good w -> a 0%N w = 0) ->
  (forall w, good w -> ninf (W w - P w) <= eta w * ninf (e w)) -> UJ p b W a'.
Proof.
move=> HP He a0 hW; apply: UJ_pert HP _.
have [C [C0 H]] := UJ_small a0 He; exists (2%:R * C); split; first by rewrite mulr_ge0 ?ler0n.
apply: uev_imp (uev_and H uev1) => w gw [h [h1 h2]]; apply: le_trans (hW w gw) _.
have hd : ninf (e w) <= C * (dt w * 2%:R).
  apply: le_trans h _; rewrite ler_wpmul2l // /wt expr1 mulr_natr mulr2n ler_add2l.
  by rewrite /th ler_pimulr ?dt0.
apply: le_trans (ler_wpmul2l (eta0 gw) hd) _.
rewrite (_ : eta w * (C * (dt w * 2%:R)) = 2%:R * C * (dt w * eta w)); last first.
  by rewrite [dt w * 2%:R]mulrC mulrCA [eta w * _]mulrCA [eta w * _]mulrC !mulrA [C * _]mulrC.
rewrite ler_wpmul2l ?mulr_ge0 ?ler0n // /wt; apply: (@le_trans _ _ (th b w)).
  by case: b => //=; rewrite ler_pimull ?eta0.
by rewrite ler_addr exprn_ge0 ?dt0.
Qed.
End UJphi.
End U.
