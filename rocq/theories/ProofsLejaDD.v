(* ProofsLejaDD.v : the matrix routines for the Newton coefficients (matexp_poly.py:65-162). *)
From mathcomp Require Import all_ssreflect all_algebra.
From mathcomp Require Import ring.
From mathcomp Require Import complex.
From Verif Require Import ModelHist MxBase ModelLeja SpecLeja ProofsLeja.
Set Implicit Arguments.
Unset Strict Implicit.
Unset Printing Implicit Defensive.
Import Order.TTheory GRing.Theory Num.Theory.
Local Open Scope ring_scope.

Section DD.
Variable K : fieldType.
Implicit Types (x c : seq K).

(* the row of values of the Newton basis at the point a *)
Definition wrow x (a : K) : 'rV[K]_(size x) := \row_j (newton_basis x j).[a].

Lemma wrow_Xi x i : (i < size x)%N -> wrow x x`_i *m leja_Xi x = x`_i *: wrow x x`_i.
Proof.
move=> hi; apply/rowP=> j; rewrite !mxE.
under eq_bigr => k _ do rewrite !mxE.
have hj := ltn_ord j.
rewrite (bigD1 j) //= eqxx mul1r.
have -> : (j == j.+1 :> nat) = false by apply/ltn_eqF/ltnSn.
rewrite addr0.
case: (ltnP j.+1 (size x)) => hj1.
  rewrite (bigD1 (Ordinal hj1)) /=; last first.
    by apply/eqP => /(congr1 (@nat_of_ord _)) /= h; move/eqP: h; rewrite gtn_eqF.
  rewrite big1 ?addr0; last first.
    move=> k /andP [h1 h2].
    have -> : (k == j) = false by apply/negbTE.
    have -> : (k == j.+1 :> nat) = false.
      by apply/eqP => h; move/eqP: h2; apply; apply: val_inj.
    by rewrite mul0r add0r mulr0.
  rewrite eqxx /=.
  have -> : (Ordinal hj1 == j) = false.
    by apply/eqP => /(congr1 (@nat_of_ord _)) /= h; move/eqP: h; rewrite gtn_eqF.
  rewrite mul0r add0r mulr1 newton_basisS hornerM hornerXsubC.
  move: (newton_basis x j).[x`_i] => p; move: (x`_i) (x`_j) => a b; ring.
rewrite big1 ?addr0; last first.
  move=> k h1.
  have -> : (k == j) = false by apply/negbTE.
  have -> : (k == j.+1 :> nat) = false.
    by apply/eqP => h; have := ltn_ord k; rewrite h ltnNge hj1.
  by rewrite mul0r add0r mulr0.
have ej : j.+1 = size x by apply/eqP; rewrite eqn_leq hj hj1.
have : (newton_basis x j.+1).[x`_i] = 0 by apply: newton_basis_root; rewrite ej.
rewrite newton_basisS hornerM hornerXsubC.
move: (newton_basis x j).[x`_i] => p; move: (x`_i) (x`_j) => a b h.
have -> : p * b = a * p - p * (a - b) by ring.
by rewrite h subr0.
Qed.

Lemma wrow_shift x shift scale i : (i < size x)%N ->
  wrow x x`_i *m leja_Xi_shift x shift scale = (shift + scale * x`_i) *: wrow x x`_i.
Proof.
move=> hi; rewrite /leja_Xi_shift mulmxDr -scalemxAr wrow_Xi // mul_mx_scalar scalerA -scalerDl //.
Qed.

(* first column of M when the rows of Newton basis values are left eigenvectors of M *)
Lemma first_col_size m (M : 'M[K]_m) : size (first_col M) = m.
Proof.
rewrite /first_col; case: insubP => [z _ _|]; first by rewrite size_image card_ord.
by rewrite -leqNgt leqn0 => /eqP ->.
Qed.
Lemma first_col_nth m (M : 'M[K]_m) (z j : 'I_m) : z = 0%N :> nat -> (first_col M)`_j = M j z.
Proof.
move=> hz; rewrite /first_col; case: insubP => [z' _ ez|]; last by rewrite -leqNgt leqn0 => /eqP h; have : (0 < m)%N by [apply: leq_ltn_trans (ltn_ord j)]; rewrite {1}h.
have -> : z' = z by apply: val_inj; rewrite /= ez /= hz.
rewrite (nth_map z) ?size_enum_ord // nth_ord_enum //.
Qed.

Lemma first_col_interp x (M : 'M[K]_(size x)) (v : seq K) :
  (forall i, (i < size x)%N -> wrow x x`_i *m M = v`_i *: wrow x x`_i) ->
  interpolates (newton_poly x (first_col M) (size x)) x v (size x).
Proof.
move=> h i hi.
have hz : (0 < size x)%N by apply: leq_ltn_trans hi.
pose z := Ordinal hz.
have := congr1 (fun r : 'rV__ => r 0 z) (h i hi).
rewrite !mxE newton_basis0 hornerC mulr1 => <-.
rewrite /newton_poly horner_sum; apply: eq_bigr => j _.
by rewrite hornerZ mxE (@first_col_nth _ _ z) // mulrC.
Qed.

(* ---- leja_coeffs_exp *)
Definition left_eig_exp (ex : K -> K) (expm : forall m, 'M[K]_m -> 'M[K]_m) : Prop :=
  forall m (M : 'M[K]_m) (w : 'rV[K]_m) lam, w *m M = lam *: w -> w *m expm m M = ex lam *: w.

Lemma leja_coeffs_exp_interp ex expm x shift scale h : left_eig_exp ex expm ->
  interpolates (newton_poly x (leja_coeffs_exp expm x shift scale h) (size x)) x
    [seq ex (h * (shift + scale * xi)) | xi <- x] (size x).
Proof.
move=> he; apply: first_col_interp => i hi.
rewrite (nth_map 0) //; apply: he.
by rewrite -scalemxAr wrow_shift // scalerA.
Qed.

(* ---- dd_exp_taylor *)
Definition tpoly (p : nat) (y : K) : K := \sum_(k < p.+1) (k`!%:R)^-1 * y ^+ k.

Lemma taylor_loop_eig m (A ts M : 'M[K]_m) (w : 'rV[K]_m) lam t i p :
  w *m A = lam *: w -> w *m ts = t *: w -> w *m M = lam ^+ i.+1 *: w ->
  w *m taylor_loop A ts M i p = (t + \sum_(k < p) (((i + k).+1)`!%:R)^-1 * lam ^+ (i + k).+1) *: w.
Proof.
move=> hA; elim: p i ts M t => [|p IH] i ts M t hts hM /=; first by rewrite big_ord0 addr0.
rewrite (IH i.+1 _ _ (t + ((i.+1)`!%:R)^-1 * lam ^+ i.+1)).
- congr (_ *: _); rewrite big_ord_recl /= addn0 -addrA; congr (_ + (_ + _)).
  by apply: eq_bigr => k _; rewrite /bump /= add1n addnS addSn.
- by rewrite mulmxDr hts -scalemxAr hM scalerA -scalerDl.
- by rewrite mulmxA hA -scalemxAl hM scalerA -exprS.
Qed.

Lemma expm_taylor_eig ex m (A : 'M[K]_m) (w : 'rV[K]_m) lam p : ex 0 = 1 ->
  w *m A = lam *: w -> w *m expm_taylor ex A 0 1 p = tpoly p lam *: w.
Proof.
move=> e0 hA; rewrite /expm_taylor e0 scale1r scale1r.
rewrite (@taylor_loop_eig _ A 1%:M A w lam 1 0 p) ?mulmx1 ?scale1r ?expr1 //.
congr (_ *: _); rewrite /tpoly big_ord_recl fact0 invr1 mul1r expr0; congr (_ + _).
Qed.

Lemma squarings_eig m s (M : 'M[K]_m) (w : 'rV[K]_m) lam :
  w *m M = lam *: w -> w *m squarings s M = lam ^+ (2 ^ s) *: w.
Proof.
elim: s M lam => [|s IH] M lam hM /=; first by rewrite expr1.
rewrite (IH _ (lam ^+ 2)); last by rewrite mulmxA hM -scalemxAl hM scalerA expr2.
by rewrite -exprM expnS.
Qed.

Lemma dd_taylor_size ex nsq x shift scale h p : size (dd_exp_taylor ex nsq x shift scale h p) = size x.
Proof. by rewrite /dd_exp_taylor size_map first_col_size. Qed.

Lemma scale_newton x c a m : newton_poly x [seq a * ci | ci <- c] m = a *: newton_poly x c m.
Proof.
rewrite /newton_poly scaler_sumr; apply: eq_bigr => j _; rewrite scalerA; congr (_ *: _).
case: (ltnP j (size c)) => h; first by rewrite (nth_map 0).
by rewrite !nth_default ?size_map // mulr0.
Qed.

Lemma dd_taylor_interp ex nsq x shift scale h p : ex 0 = 1 ->
  let mu := dd_mu x shift scale h in
  interpolates (newton_poly x (dd_exp_taylor ex nsq x shift scale h p) (size x)) x
    [seq ex (h * mu) * tpoly p (h * (shift + scale * xi - mu) / 2%:R ^+ nsq) ^+ (2 ^ nsq) | xi <- x]
    (size x).
Proof.
move=> e0 mu i hi; rewrite /dd_exp_taylor scale_newton hornerZ (nth_map 0) //; congr (_ * _).
pose v := [seq tpoly p (h * (shift + scale * xi - mu) / 2%:R ^+ nsq) ^+ (2 ^ nsq) | xi <- x].
have -> : tpoly p (h * (shift + scale * x`_i - mu) / 2%:R ^+ nsq) ^+ (2 ^ nsq) = v`_i by rewrite (nth_map 0).
apply: first_col_interp hi => {}i hi; rewrite (nth_map 0) //.
apply: squarings_eig; apply: expm_taylor_eig => //.
rewrite -scalemxAr /dd_z mulmxBr wrow_shift // mul_mx_scalar -scalerBl scalerA.
have e (a b c : K) : 1 / a * b * c = b * c / a by rewrite mul1r -mulrA mulrC.
by rewrite e.
Qed.

Lemma same_coeffs x c d : uniq x -> size c = size x -> size d = size x -> forall v,
  interpolates (newton_poly x c (size x)) x v (size x) ->
  interpolates (newton_poly x d (size x)) x v (size x) -> c = d.
Proof.
move=> ux sc sd v hc hd; apply: (@eq_from_nth _ 0) => [|i]; rewrite sc ?sd // => hi.
by apply: (newton_coef_unique ux (leqnn _)) hi => j hj; rewrite hc // hd.
Qed.
End DD.
