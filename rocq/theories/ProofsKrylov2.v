(* ProofsKrylov2.v : matrix form of the Arnoldi relation, Krylov exactness *)
From mathcomp Require Import all_ssreflect all_algebra.
From Verif Require Import ModelHist MxBase ModelOps SpecOps ProofsOps ModelPhi ModelKrylov ProofsKrylov.
Set Implicit Arguments.
Unset Strict Implicit.
Unset Printing Implicit Defensive.
Import Order.TTheory GRing.Theory Num.Theory.
Local Open Scope ring_scope.
Local Opaque breakdown_tol norm2.

(* last unit row vector *)
Definition elast (F : rcfType) k : 'rV[F]_k := \row_j ((j : nat) == k.-1)%:R.

Section Mat.
Variable F : rcfType.
Variable n : nat.
Variable L : 'cV[F]_n -> 'cV[F]_n.
Variables (A : 'M[F]_n) (s : F) (m iom k : nat).
Variables (hs : nat -> nat -> F) (qs : nat -> 'cV[F]_n) (nb : bool).
Hypothesis LA : forall v, L v = A *m v.
Variable sub_ok : F -> bool.
Hypothesis fin : gfinished L s m iom sub_ok k hs qs nb.

Definition Qm : 'M[F]_(n, k) := \matrix_(i, j) qs j i 0.
Definition Hm : 'M[F]_k := \matrix_(i, j) hs i j.
Definition rm : 'cV[F]_n := resid L s k hs qs.

Lemma Qm_col (j : 'I_k) : col j Qm = qs j.
Proof. by apply/matrixP => i z; rewrite !mxE ord1. Qed.
Lemma Qm_mul (x : 'cV[F]_k) : Qm *m x = \sum_(j < k) x j 0 *: qs j.
Proof.
apply/matrixP => i z; rewrite ord1 mxE summxE; apply: eq_bigr => j _.
by rewrite !mxE mulrC.
Qed.

Lemma arn_rel : (s *: A) *m Qm = Qm *m Hm + rm *m elast F k.
Proof.
apply/matrixP => a j.
have -> : ((s *: A) *m Qm) a j = (s *: L (qs j)) a 0.
  by rewrite LA scalemxAl !mxE; apply: eq_bigr => i _; rewrite !mxE.
have kpos : (0 < k)%N by case/andP: (fin_pos fin).
have jk := ltn_ord j.
have QH : (Qm *m Hm) a j = (\sum_(0 <= i < k) hs i j *: qs i) a 0.
  rewrite big_mkord summxE mxE; apply: eq_bigr => i _; rewrite !mxE mulrC //.
rewrite [RHS]mxE QH [(rm *m _) a j]mxE big_ord1 [elast _ _ _ _]mxE.
case: (eqVneq (j : nat) k.-1) => [e|ne].
  have -> : rm = s *: L (qs j) - \sum_(0 <= i < k) hs i j *: qs i by rewrite /rm /resid -e.
  have sub (X Y : 'cV[F]_n) : (X - Y) a 0 = X a 0 - Y a 0 by rewrite !mxE.
  by rewrite mulr1 sub addrC subrK.
have j1k : (j.+1 < k)%N.
  by rewrite ltn_neqAle jk andbT; apply: contra ne => /eqP e; apply/eqP; exact: (congr1 predn e).
rewrite mulr0 addr0 (fin_rel fin j1k) (@big_cat_nat _ _ _ j.+2 0 k) //=.
rewrite [X in _ = fun_of_matrix (_ + X) _ _]big1_seq ?addr0 // => i /andP[_].
rewrite mem_index_iota => /andP[ji ik]; rewrite (fin_zero fin) ?scale0r //.
by rewrite (leqNgt i) ji /= andbF.
Qed.

Lemma Hm_hess (i j : 'I_k) : (j.+1 < i)%N || (i + iom < j)%N -> Hm i j = 0.
Proof.
move=> h; rewrite mxE; apply: (fin_zero fin).
by case/orP: h => h; rewrite ?(leqNgt i) ?(leqNgt j) h ?andbF.
Qed.

(* full orthogonalisation *)
Lemma Qm_orth : (k <= iom.+2)%N -> Qm^T *m Qm = 1%:M.
Proof.
move=> ki; apply/matrixP => i j; rewrite !mxE.
have -> : \sum_l Qm^T i l * Qm l j = dotv (qs i) (qs j).
  by apply: eq_bigr => l _; rewrite !mxE.
have dist (x y : 'I_k) : (y - x <= iom.+1)%N.
  by rewrite leq_subLR addnC; apply: leq_trans (leq_addr _ _); rewrite -ltnS (leq_trans (ltn_ord y)).
have [->|ne] := eqVneq i j; first by rewrite (fin_unit fin).
move: ne; rewrite -val_eqE neq_ltn => /orP[ij|ji].
  by apply: (fin_orth fin); rewrite ?dist // ij /=.
by rewrite dotvC; apply: (fin_orth fin); rewrite ?dist // ji /=.
Qed.
Lemma Qm_rm : (k <= iom.+1)%N -> Qm^T *m rm = 0.
Proof.
move=> ki; apply/matrixP => i j; rewrite ord1 !mxE.
have -> : \sum_l Qm^T i l * rm l 0 = dotv rm (qs i).
  by apply: eq_bigr => l _; rewrite !mxE mulrC.
apply: (fin_orthr fin); rewrite ltn_ord andbT.
by rewrite leq_subLR; apply: leq_trans (leq_addr _ _); rewrite -ltnS prednK //; case/andP: (fin_pos fin).
Qed.
End Mat.

Lemma orth_full (F : rcfType) n k (Q : 'M[F]_(n, k)) (r : 'cV[F]_n) : k = n ->
  Q^T *m Q = 1%:M -> Q^T *m r = 0 -> r = 0.
Proof.
move=> e; subst k => h1 h2; have h3 : Q *m Q^T = 1%:M by apply: mulmx1C.
by rewrite -[r]mul1mx -h3 -mulmxA h2 mulmx0.
Qed.

Section Pow.
Variable F : rcfType.
Variables (n k : nat).
Variables (S : 'M[F]_n) (Q : 'M[F]_(n, k)) (H : 'M[F]_k) (r : 'cV[F]_n).
Hypothesis rel : S *m Q = Q *m H + r *m elast F k.
Hypothesis hess : forall i j : 'I_k, (j.+1 < i)%N -> H i j = 0.

Lemma pow_support i (j : 'I_k) : (i < j)%N -> (mxpow H i *m e1v F k) j 0 = 0.
Proof.
elim: i j => [|i IH] j ij.
  by rewrite mxpow0 mul1mx mxE gtn_eqF.
rewrite mxpowS -mulmxA mxE big1 // => l _.
case: (leqP l i) => li; last by rewrite IH ?mulr0.
by rewrite hess ?mul0r // (leq_trans _ ij).
Qed.
Lemma kry_pow i : (i < k)%N -> mxpow S i *m (Q *m e1v F k) = Q *m (mxpow H i *m e1v F k).
Proof.
elim: i => [|i IH] ik; first by rewrite !mxpow0 !mul1mx.
rewrite !mxpowS -!mulmxA IH ?(ltnW ik) // mulmxA rel mulmxDl -!mulmxA.
rewrite [elast F k *m _]mx11_scalar mxE big1 ?raddf0 ?mulmx0 ?addr0 // => l _.
rewrite [elast _ _ _ _]mxE; case: eqP => [e|_]; last by rewrite mul0r.
by rewrite pow_support ?mulr0 // e -ltnS prednK // (leq_trans _ ik).
Qed.
Lemma kry_pow0 i : r = 0 -> mxpow S i *m Q = Q *m mxpow H i.
Proof. by move=> r0; apply: mxpow_intertwine; rewrite rel r0 mul0mx addr0. Qed.
Lemma kry_poly d (c : nat -> F) : (d <= k)%N ->
  (\sum_(i < d) c i *: mxpow S i) *m (Q *m e1v F k)
  = Q *m ((\sum_(i < d) c i *: mxpow H i) *m e1v F k).
Proof.
move=> dk; rewrite !mulmx_suml mulmx_sumr; apply: eq_bigr => i _.
by rewrite -!scalemxAl -scalemxAr kry_pow // (leq_trans (ltn_ord i)).
Qed.
Lemma kry_poly0 d (c : nat -> F) : r = 0 ->
  (\sum_(i < d) c i *: mxpow S i) *m (Q *m e1v F k)
  = Q *m ((\sum_(i < d) c i *: mxpow H i) *m e1v F k).
Proof.
move=> r0; rewrite !mulmx_suml mulmx_sumr; apply: eq_bigr => i _.
by rewrite -!scalemxAl -scalemxAr mulmxA kry_pow0 // -mulmxA.
Qed.
End Pow.

(* first column of Q *)
Lemma body_q0 (F : rcfType) n (L : 'cV[F]_n -> 'cV[F]_n) s m iom st :
  a_qs (body_arnoldi L s m iom st) 0%N = a_qs st 0%N.
Proof.
rewrite /body_arnoldi /arnoldi_mgs_lop; case: foldl => hs qv /=.
by case: ifP.
Qed.
Lemma while_q0 (F : rcfType) n (L : 'cV[F]_n -> 'cV[F]_n) s m iom fuel st :
  a_qs (arn_while L s m iom fuel st) 0%N = a_qs st 0%N.
Proof.
by elim: fuel st => [|f IH] st //=; case: ifP => _ //; rewrite IH body_q0.
Qed.
Lemma arnoldi_q0 (F : rcfType) n (L : 'cV[F]_n -> 'cV[F]_n) s b m iom : b != 0 ->
  a_qs (arnoldi_lop_jit L s b m iom) 0%N = (norm2 b)^-1 *: b.
Proof. by move=> b0; rewrite /arnoldi_lop_jit while_q0 /= /upd1 eqxx norm2_gt0 b0. Qed.
Lemma Q_e1 (F : rcfType) n (st : astate F n) : (0 < a_k st)%N ->
  aQ st *m e1v F (a_k st) = a_qs st 0%N.
Proof.
move=> k0; apply/matrixP => i j; rewrite ord1 mxE (bigD1 (Ordinal k0)) //= big1 ?addr0.
  by rewrite !mxE eqxx mulr1.
by move=> l; rewrite -val_eqE /= => ne; rewrite !mxE (negPf ne) mulr0.
Qed.

(* the Krylov columns stay in any subspace {x | w x = 0} that contains b and is mapped to
   itself in the sense w*A = 0 : no matter the dimension, breakdown or orthogonalisation depth *)
Lemma mgs_annih (F : rcfType) n (w : 'rV[F]_n) (qs : nat -> 'cV[F]_n) k l hs qv :
  (forall i, w *m qs i = 0) -> w *m qv = 0 ->
  w *m (foldl (body_ortho qs k) (hs, qv) l).2 = 0.
Proof.
move=> hq; elim: l hs qv => [|i l IH] hs qv hv //=.
by apply: IH; rewrite mulmxBr hv -scalemxAr hq scaler0 subr0.
Qed.
Lemma while_annih (F : rcfType) n (L : 'cV[F]_n -> 'cV[F]_n) s m iom (w : 'rV[F]_n) fuel st :
  (forall v, w *m L v = 0) -> (forall i, w *m a_qs st i = 0) ->
  forall i, w *m a_qs (arn_while L s m iom fuel st) i = 0.
Proof.
move=> hL; elim: fuel st => [|f IH] st hq //=; case: ifP => _ //.
apply: IH => i; rewrite /body_arnoldi /arnoldi_mgs_lop.
have := @mgs_annih F n w (a_qs st) (a_k st) (iota (a_k st - iom) ((a_k st).+1 - (a_k st - iom)))
  (a_hs st) (s *: L (a_qs st (a_k st))) hq.
case: foldl => hs qv /= h; case: ifP => _; last exact: hq.
rewrite /upd1; case: eqP => _; last exact: hq.
by rewrite -scalemxAr h ?scaler0 // -scalemxAr hL scaler0.
Qed.
Lemma arnoldi_annih (F : rcfType) n (L : 'cV[F]_n -> 'cV[F]_n) s b m iom (w : 'rV[F]_n) :
  (forall v, w *m L v = 0) -> w *m b = 0 ->
  w *m aQ (arnoldi_lop_jit L s b m iom) = 0.
Proof.
move=> hL hb; set st := arnoldi_lop_jit _ _ _ _ _.
have h i : w *m a_qs st i = 0.
  apply: while_annih => // j /=; rewrite /upd1; case: eqP => _; last by rewrite mulmx0.
  by case: ifP => _; rewrite -?scalemxAr hb ?scaler0.
apply/matrixP => i j; rewrite !ord1 [RHS]mxE.
have := h j => /matrixP /(_ 0 0); rewrite [RHS]mxE => hj; rewrite -[RHS]hj !mxE.
by apply: eq_bigr => l _; rewrite !mxE.
Qed.

Section PhiLinop.
Variable F : rcfType.
Variable expm expk : forall n, 'M[F]_n -> 'M[F]_n.

Lemma phi_linop_0 n (L : 'cV[F]_n -> 'cV[F]_n) dt k m iom :
  phi_linop expm expk L dt 0 k m iom = Ok 0.
Proof. by rewrite /phi_linop norm2_0 ltxx. Qed.
Lemma phi_linop_pos n (L : 'cV[F]_n -> 'cV[F]_n) dt v k m iom c : 0 < c ->
  phi_linop expm expk L dt (c *: v) k m iom
  = rbind (phi_linop expm expk L dt v k m iom) (fun w => Ok (c *: w)).
Proof.
move=> c0; rewrite /phi_linop norm2Z gtr0_norm // pmulr_rgt0 //.
case: ifP => nv /=; last by rewrite scaler0.
have -> : (c * norm2 v)^-1 *: (c *: v) = (norm2 v)^-1 *: v.
  by rewrite scalerA invfM mulrAC mulVf ?mul1r // gt_eqF.
by case: ifP => _ //=; rewrite scalerA.
Qed.
(* raises exactly when the Krylov dimension is 0 and the vector is not *)
Lemma arnoldi_k_gt0 n (L : 'cV[F]_n -> 'cV[F]_n) s b m iom : b != 0 -> (0 < m)%N ->
  (0 < a_k (arnoldi_lop_jit L s b m iom))%N.
Proof. by move=> b0 m0; have [/andP[]] := arnoldi_finished L s iom b0 m0. Qed.
Lemma normalised_neq0 n (v : 'cV[F]_n) : v != 0 -> (norm2 v)^-1 *: v != 0.
Proof.
move=> v0; rewrite scaler_eq0 negb_or v0 andbT invr_eq0.
by apply: lt0r_neq0; rewrite norm2_gt0.
Qed.
Lemma phi_linop_ok n (L : 'cV[F]_n -> 'cV[F]_n) dt v k m iom : (0 < m)%N ->
  exists w, phi_linop expm expk L dt v k m iom = Ok w.
Proof.
move=> m0; rewrite /phi_linop norm2_gt0; case: eqP => [_|/eqP v0] /=; first by exists 0.
by rewrite arnoldi_k_gt0 ?normalised_neq0 //; eexists.
Qed.
Lemma phi_linop_annih n (L : 'cV[F]_n -> 'cV[F]_n) dt v k m iom (w : 'rV[F]_n) x :
  (forall v, w *m L v = 0) -> w *m v = 0 ->
  phi_linop expm expk L dt v k m iom = Ok x -> w *m x = 0.
Proof.
move=> hL hv; rewrite /phi_linop; case: ifP => _; last by case=> <-; rewrite mulmx0.
case: ifP => // _ [<-]; rewrite -scalemxAr mulmxA arnoldi_annih ?mul0mx ?scaler0 //.
by rewrite -scalemxAr hv scaler0.
Qed.
Lemma normalised_norm n (v : 'cV[F]_n) : v != 0 -> norm2 ((norm2 v)^-1 *: v) = 1.
Proof. by move=> v0; apply: norm2_1; apply: normalised. Qed.
(* what phi_linop returns for a nonzero vector *)
Lemma phi_linopE n (L : 'cV[F]_n -> 'cV[F]_n) dt v k m iom : v != 0 -> (0 < m)%N ->
  let st := arnoldi_lop_jit L dt ((norm2 v)^-1 *: v) m iom in
  phi_linop expm expk L dt v k m iom =
    Ok (norm2 v *: (aQ st *m f_phi_k_appl expm expk (aH st) (e1v F (a_k st)) k)) /\
  norm2 v *: (aQ st *m e1v F (a_k st)) = v.
Proof.
move=> v0 m0 st; rewrite /phi_linop norm2_gt0 v0 -/st.
have k0 : (0 < a_k st)%N by apply: arnoldi_k_gt0 => //; apply: normalised_neq0.
rewrite k0; split=> //; rewrite Q_e1 // arnoldi_q0 ?normalised_neq0 //.
rewrite normalised_norm // invr1 scale1r scalerA mulfV ?scale1r //.
by apply: lt0r_neq0; rewrite norm2_gt0.
Qed.
End PhiLinop.
