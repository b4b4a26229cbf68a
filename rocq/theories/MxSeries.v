(* MxSeries.v : power series of real square matrices; the matrix exponential and the phi
   functions as genuine limits.  No code of /repo is modelled here: this is the mathematics
   the properties refer to. *)
From Coq Require Import Reals.
From Coquelicot Require Import Coquelicot.
From mathcomp Require Import all_ssreflect all_algebra.
From mathcomp Require Import ring.
From Verif Require Import Rstruct Summable MxBase.
Set Implicit Arguments.
Unset Strict Implicit.
Unset Printing Implicit Defensive.
Import Order.TTheory GRing.Theory Num.Theory.
Local Open Scope ring_scope.

(* infinity norm (largest row sum of absolute values) *)
Definition ninf (F : realDomainType) m n (A : 'M[F]_(m, n)) : F :=
  \big[Num.max/0]_(a < m) \sum_(b < n) `|A a b|.

Section Ninf.
Variable F : realDomainType.
Lemma ninf_ge0 m n (A : 'M[F]_(m, n)) : 0 <= ninf A.
Proof.
rewrite /ninf; elim/big_ind: _ => // [x y x0 y0|a _]; first by rewrite le_maxr x0.
exact: sumr_ge0.
Qed.
Lemma ninf_row m n (A : 'M[F]_(m, n)) a : \sum_b `|A a b| <= ninf A.
Proof.
rewrite /ninf; have : a \in index_enum (ordinal_finType m) by rewrite mem_index_enum.
elim: (index_enum _) => [//|i r IH]; rewrite inE big_cons le_maxr => /orP[/eqP <-|/IH ->].
  by rewrite lexx.
by rewrite orbT.
Qed.
Lemma ninf_le m n (A : 'M[F]_(m, n)) x : 0 <= x -> (forall a, \sum_b `|A a b| <= x) -> ninf A <= x.
Proof.
move=> x0 h; rewrite /ninf; elim/big_ind: _ => // y z yx zx; by rewrite le_maxl yx zx.
Qed.
Lemma ninf_entry m n (A : 'M[F]_(m, n)) a b : `|A a b| <= ninf A.
Proof.
apply: le_trans (ninf_row A a).
by rewrite (bigD1 b) //= ler_addl sumr_ge0.
Qed.
Lemma ninfM m n p (A : 'M[F]_(m, n)) (B : 'M[F]_(n, p)) : ninf (A *m B) <= ninf A * ninf B.
Proof.
apply: ninf_le => [|a]; first by rewrite mulr_ge0 ?ninf_ge0.
apply: (@le_trans _ _ (\sum_b \sum_j `|A a j| * `|B j b|)).
  apply: ler_sum => b _; rewrite mxE; apply: le_trans (ler_norm_sum _ _ _) _.
  by apply: ler_sum => j _; rewrite normrM.
rewrite exchange_big /=; apply: (@le_trans _ _ (\sum_j `|A a j| * ninf B)).
  by apply: ler_sum => j _; rewrite -mulr_sumr ler_wpmul2l // ninf_row.
by rewrite -mulr_suml ler_wpmul2r ?ninf_ge0 // ninf_row.
Qed.
Lemma ninfD m n (A B : 'M[F]_(m, n)) : ninf (A + B) <= ninf A + ninf B.
Proof.
apply: ninf_le => [|a]; first by rewrite addr_ge0 ?ninf_ge0.
apply: le_trans (ler_add (ninf_row A a) (ninf_row B a)).
rewrite -big_split /=; apply: ler_sum => b _; rewrite mxE; exact: ler_norm_add.
Qed.
Lemma ninfZ m n c (A : 'M[F]_(m, n)) : ninf (c *: A) = `|c| * ninf A.
Proof.
have e a : \sum_b `|(c *: A) a b| = `|c| * \sum_b `|A a b|.
  by rewrite mulr_sumr; apply: eq_bigr => b _; rewrite mxE normrM.
rewrite /ninf; under eq_bigr do rewrite e.
elim/big_rec2: _ => [|a x y _ ->]; first by rewrite mulr0.
by rewrite maxr_pmulr.
Qed.
Lemma ninf1 n : ninf (1%:M : 'M[F]_n) <= 1.
Proof.
apply: ninf_le => // a; rewrite (bigD1 a) //= mxE eqxx normr1 big1 ?addr0 // => b ba.
by rewrite mxE eq_sym (negPf ba) normr0.
Qed.
Lemma ninf0 m n : ninf (0 : 'M[F]_(m, n)) = 0.
Proof. by rewrite -(scale0r (0 : 'M_(m, n))) ninfZ normr0 mul0r. Qed.
Lemma ninfN m n (A : 'M[F]_(m, n)) : ninf (- A) = ninf A.
Proof. by rewrite -scaleN1r ninfZ normrN1 mul1r. Qed.
Lemma ninf_eq0 m n (A : 'M[F]_(m, n)) : ninf A = 0 -> A = 0.
Proof.
move=> e; apply/matrixP => a b; rewrite mxE; apply/eqP; rewrite -normr_eq0.
by rewrite eq_le normr_ge0 -e ninf_entry.
Qed.
Lemma ninf_pow n (Z : 'M[F]_n) i : ninf (mxpow Z i) <= ninf Z ^+ i.
Proof.
elim: i => [|i IH]; first by rewrite mxpow0 expr0 ninf1.
rewrite mxpowS exprS; apply: le_trans (ninfM _ _) _.
by rewrite ler_wpmul2l ?ninf_ge0.
Qed.
Lemma ninf_sum (I : Type) (r : seq I) (P : pred I) m n (f : I -> 'M[F]_(m, n)) :
  ninf (\sum_(i <- r | P i) f i) <= \sum_(i <- r | P i) ninf (f i).
Proof.
elim/big_rec2: _ => [|i x y _ h]; first by rewrite ninf0.
by apply: le_trans (ninfD _ _) _; rewrite ler_add2l.
Qed.
End Ninf.

(* coefficient sequences of entire functions *)
Definition entire (c : nat -> R) : Prop := forall x : R, summable (fun i => c i * x ^+ i).
(* sum_i c_i Z^i, entry by entry *)
Definition mxser (c : nat -> R) n (Z : 'M[R]_n) : 'M[R]_n :=
  \matrix_(a, b) ssum (fun i => c i * mxpow Z i a b).
(* phi_k(Z) = sum_i Z^i/(i+k)! ; expmx = phi_0 *)
Definition phi (k : nat) n (Z : 'M[R]_n) : 'M[R]_n := mxser (fun i => ifact _ (i + k)) Z.
Definition expmx n (Z : 'M[R]_n) : 'M[R]_n := phi 0 Z.
Definition conv (c d : nat -> R) (m : nat) : R := \sum_(i < m.+1) c i * d (m - i)%N.

Section Ser.
Variable n : nat.
Implicit Types (Z : 'M[R]_n) (c d : nat -> R).

Lemma ser_summable c Z a b : entire c -> summable (fun i => c i * mxpow Z i a b).
Proof.
move=> ec; have h := ec (ninf Z).
apply: (@summable_le _ (fun i => `|c i * ninf Z ^+ i|)) => [i|]; last exact: h.
rewrite !normrM ler_wpmul2l // (le_trans (ninf_entry _ a b)) // (le_trans (ninf_pow _ _)) //.
exact: ler_norm.
Qed.
Lemma mxser_ext c d Z : c =1 d -> mxser c Z = mxser d Z.
Proof. by move=> e; apply/matrixP => a b; rewrite !mxE; apply: ssum_ext => i; rewrite e. Qed.
Lemma entire_ext c d : c =1 d -> entire c -> entire d.
Proof. by move=> e h x; apply: summable_ext (h x) => i; rewrite e. Qed.
Lemma entireD c d : entire c -> entire d -> entire (fun i => c i + d i).
Proof. by move=> hc hd x; apply: summable_ext (summableD (hc x) (hd x)) => i; rewrite mulrDl. Qed.
Lemma entireZ s c : entire c -> entire (fun i => s * c i).
Proof. by move=> hc x; apply: summable_ext (summableZ s (hc x)) => i; rewrite mulrA. Qed.
Lemma entire_scale s c : entire c -> entire (fun i => c i * s ^+ i).
Proof. by move=> hc x; apply: summable_ext (hc (s * x)) => i; rewrite exprMn mulrA. Qed.
Lemma mxserD c d Z : entire c -> entire d -> mxser (fun i => c i + d i) Z = mxser c Z + mxser d Z.
Proof.
move=> hc hd; apply/matrixP => a b; rewrite !mxE -ssumD; try exact: ser_summable.
by apply: ssum_ext => i; rewrite mulrDl.
Qed.
Lemma mxserZ s c Z : mxser (fun i => s * c i) Z = s *: mxser c Z.
Proof.
apply/matrixP => a b; rewrite !mxE -ssumZ; apply: ssum_ext => i; by rewrite mulrA.
Qed.
Lemma entire_sum (I : Type) (r : seq I) (P : pred I) (f : I -> nat -> R) :
  (forall j, P j -> entire (f j)) -> entire (fun i => \sum_(j <- r | P j) f j i).
Proof.
move=> h x.
have := @summable_sum I r P (fun j i => f j i * x ^+ i) (fun j Pj => h j Pj x).
by apply: summable_ext => i; rewrite mulr_suml.
Qed.
Lemma mxser_sum (I : Type) (r : seq I) (P : pred I) (f : I -> nat -> R) Z :
  (forall j, P j -> entire (f j)) ->
  mxser (fun i => \sum_(j <- r | P j) f j i) Z = \sum_(j <- r | P j) mxser (f j) Z.
Proof.
move=> h; apply/matrixP => a b; rewrite mxE summxE.
rewrite (eq_bigr (fun j => ssum (fun i => f j i * mxpow Z i a b))); last by move=> j _; rewrite mxE.
rewrite -(@ssum_sum I r P (fun j i => f j i * mxpow Z i a b)); last by move=> j Pj; apply/ser_summable/h.
by apply: ssum_ext => i; rewrite mulr_suml.
Qed.
Lemma mxser_scale s c Z : mxser c (s *: Z) = mxser (fun i => c i * s ^+ i) Z.
Proof.
by apply/matrixP => a b; rewrite !mxE; apply: ssum_ext => i; rewrite mxpowZ mxE mulrA.
Qed.
Lemma entireS c : entire c -> entire (fun i => c i.+1).
Proof.
move=> hc x; have [->|x0] := eqVneq x 0.
  apply/summableS; apply: summable_ext summable0 => i; by rewrite exprS mul0r mulr0.
have /summableS/(summableZ x^-1) := hc x.
by apply: summable_ext => i; rewrite exprS mulrCA mulKf.
Qed.
Lemma entire_shift k c : entire c -> entire (fun i => c (i + k)%N).
Proof.
move=> hc; elim: k => [|k IH]; first by apply: entire_ext hc => i; rewrite addn0.
by apply: entire_ext (entireS IH) => i; rewrite addSnnS.
Qed.
Lemma mxser_shift c Z : entire c ->
  mxser c Z = c 0%N *: 1%:M + Z *m mxser (fun i => c i.+1) Z.
Proof.
move=> hc; apply/matrixP => a b; rewrite !mxE ssumS; last exact: ser_summable.
rewrite mxpow0 mxE; congr (_ + _).
rewrite (eq_bigr (fun j => ssum (fun i => Z a j * (c i.+1 * mxpow Z i j b)))); last first.
  by move=> j _; rewrite ssumZ mxE.
rewrite -(@ssum_sum _ _ _ (fun j i => Z a j * (c i.+1 * mxpow Z i j b))); last first.
  by move=> j _; apply: summableZ; apply: ser_summable; apply: entireS.
apply: ssum_ext => i; rewrite mxpowS mxE mulr_sumr; apply: eq_bigr => j _.
by rewrite mulrCA.
Qed.

Lemma mxser_intertwine m c (Y : 'M[R]_m) Z (P : 'M[R]_(m, n)) :
  entire c -> Y *m P = P *m Z -> mxser c Y *m P = P *m mxser c Z.
Proof.
move=> hc h; apply/matrixP => a b; rewrite !mxE.
rewrite (eq_bigr (fun j => ssum (fun i => P j b * (c i * mxpow Y i a j)))); last first.
  by move=> j _; rewrite ssumZ mxE mulrC.
rewrite [in RHS](eq_bigr (fun j => ssum (fun i => P a j * (c i * mxpow Z i j b)))); last first.
  by move=> j _; rewrite ssumZ mxE.
rewrite -(@ssum_sum _ _ _ (fun j i => P j b * (c i * mxpow Y i a j))); last first.
  move=> j _; apply: summableZ.
  have h2 := hc (ninf Y).
  apply: (@summable_le _ (fun i => `|c i * ninf Y ^+ i|)) => [i|]; last exact: h2.
  rewrite !normrM ler_wpmul2l // (le_trans (ninf_entry _ a j)) // (le_trans (ninf_pow _ _)) //.
  exact: ler_norm.
rewrite -(@ssum_sum _ _ _ (fun j i => P a j * (c i * mxpow Z i j b))); last first.
  by move=> j _; apply: summableZ; apply: ser_summable.
apply: ssum_ext => i.
have /matrixP/(_ a b) := mxpow_intertwine i h; rewrite !mxE => e.
transitivity (c i * \sum_j mxpow Y i a j * P j b).
  by rewrite mulr_sumr; apply: eq_bigr => j _; rewrite mulrC mulrA.
by rewrite e mulr_sumr; apply: eq_bigr => j _; rewrite mulrCA.
Qed.
Lemma mxser_comm c Z A : entire c -> A *m Z = Z *m A -> A *m mxser c Z = mxser c Z *m A.
Proof. by move=> hc h; rewrite (@mxser_intertwine n c Z Z A hc). Qed.

Lemma entire_conv c d : entire c -> entire d -> entire (conv c d).
Proof.
move=> hc hd x; have [h _] := cauchy_prod (hc x) (hd x).
apply: summable_ext h => m; rewrite /conv mulr_suml; apply: eq_bigr => i _.
by rewrite mulrACA -exprD subnKC // -ltnS.
Qed.
Lemma mxserM c d Z : entire c -> entire d -> mxser c Z *m mxser d Z = mxser (conv c d) Z.
Proof.
move=> hc hd; apply/matrixP => a b; rewrite !mxE.
rewrite (eq_bigr (fun j => ssum (fun m => \sum_(i < m.+1)
   (c i * mxpow Z i a j) * (d (m - i)%N * mxpow Z (m - i) j b)))); last first.
  move=> j _; have [_ ->] := cauchy_prod (ser_summable Z a j hc) (ser_summable Z j b hd).
  by rewrite !mxE.
rewrite -(@ssum_sum _ _ _ (fun j m => \sum_(i < m.+1)
   (c i * mxpow Z i a j) * (d (m - i)%N * mxpow Z (m - i) j b))); last first.
  by move=> j _; have [] := cauchy_prod (ser_summable Z a j hc) (ser_summable Z j b hd).
apply: ssum_ext => m; rewrite exchange_big /conv mulr_suml; apply: eq_bigr => i _ /=.
have -> : mxpow Z m = mxpow Z i *m mxpow Z (m - i) by rewrite -mxpowD subnKC // -ltnS.
rewrite mxE mulr_sumr; apply: eq_bigr => j _; by rewrite mulrACA.
Qed.

Lemma ninf_mxser c Z : entire c -> ninf (mxser c Z) <= ssum (fun i => `|c i| * ninf Z ^+ i).
Proof.
move=> hc.
have S1 : summable (fun i => `|c i| * ninf Z ^+ i).
  apply: summable_ext (summable_abs (hc (ninf Z))) => i.
  by rewrite normrM normrX [`|ninf Z|]ger0_norm ?ninf_ge0.
apply: ninf_le => [|a].
  by apply: ssum_ge0 => // i; rewrite mulr_ge0 // exprn_ge0 // ninf_ge0.
apply: (@le_trans _ _ (\sum_b ssum (fun i => `|c i * mxpow Z i a b|))).
  by apply: ler_sum => b _; rewrite mxE; apply: ler_ssum_abs; apply: ser_summable.
rewrite -ssum_sum; last by move=> b _; apply: summable_abs; apply: ser_summable.
apply: ssum_le => // [|i].
  by apply: summable_sum => b _; apply: summable_abs; apply: ser_summable.
under eq_bigr do rewrite normrM.
rewrite -mulr_sumr ler_wpmul2l // (le_trans (ninf_row _ a)) //; exact: ninf_pow.
Qed.

(* entries are limits of partial sums *)
Lemma mxser_lim c Z a b : entire c ->
  is_lim_seq (fun N => (\sum_(i < N) c i *: mxpow Z i) a b) (mxser c Z a b).
Proof.
move=> hc; rewrite mxE.
have h := ssum_lim (ser_summable Z a b hc).
apply: is_lim_seq_ext h => N; rewrite summxE; apply: eq_bigr => i _; by rewrite mxE.
Qed.
End Ser.

Lemma entire_ifact k : entire (fun i => ifact _ (i + k)).
Proof. by apply: (@entire_shift k (ifact _)) => x; apply: summable_ext (summable_exp x) => i; rewrite mulrC. Qed.

Section Phi.
Variable n : nat.
Implicit Types Z : 'M[R]_n.

(* the specification in terms of the partial sums of the defining series *)
Lemma phi_lim k Z a b : is_lim_seq (fun N => phi_psum k N Z a b) (phi k Z a b).
Proof. exact: (@mxser_lim n _ Z a b (entire_ifact k)). Qed.

Lemma phi_rec k Z : phi k Z = ifact _ k *: 1%:M + Z *m phi k.+1 Z.
Proof.
rewrite {1}/phi mxser_shift; last exact: entire_ifact.
by congr (_ *: _ + _ *m _); apply: mxser_ext => i; rewrite addSnnS.
Qed.
Lemma phi_comm k Z A : A *m Z = Z *m A -> A *m phi k Z = phi k Z *m A.
Proof. by move=> h; apply: mxser_comm => //; apply: entire_ifact. Qed.
Lemma phi_at0 k : phi k (0 : 'M[R]_n) = ifact _ k *: 1%:M.
Proof. by rewrite phi_rec mul0mx addr0. Qed.
Lemma phi_intertwine m k (Y : 'M[R]_m) Z (P : 'M[R]_(m, n)) :
  Y *m P = P *m Z -> phi k Y *m P = P *m phi k Z.
Proof. by move=> h; apply: mxser_intertwine => //; apply: entire_ifact. Qed.

Lemma expmx_add s t Z : expmx (s *: Z) *m expmx (t *: Z) = expmx ((s + t) *: Z).
Proof.
have e k : entire (fun i => ifact _ (i + k)) by apply: entire_ifact.
rewrite /expmx /phi !mxser_scale mxserM; try exact: entire_scale.
apply: mxser_ext => m; rewrite /conv exprDn_comm ?mulr_sumr; last exact: mulrC.
rewrite (reindex_inj rev_ord_inj) /=; apply: eq_bigr => i _.
have im : (i <= m)%N by rewrite -ltnS.
rewrite !addn0 !subSS subKn // /ifact -(bin_fact im) !natrM -mulr_natr.
have h1 := fact_neq0 [numFieldType of R] i; have h2 := fact_neq0 [numFieldType of R] (m - i).
have h3 : ('C(m, i)%:R : R) != 0 by rewrite pnatr_eq0 -lt0n bin_gt0.
by field; rewrite h1 h2 h3.
Qed.
Lemma expmx0 : expmx (0 : 'M[R]_n) = 1%:M.
Proof. by rewrite /expmx phi_at0 ifact0 scale1r. Qed.
Lemma expmxN Z : expmx (- Z) *m expmx Z = 1%:M.
Proof.
by rewrite -[Z in X in _ *m X]scale1r -[- Z]scaleN1r expmx_add addNr scale0r expmx0.
Qed.
End Phi.
