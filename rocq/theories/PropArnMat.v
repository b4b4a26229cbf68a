(* PropArnMat.v : C78, the matrix-only Arnoldi process of mat_utils.rs. *)
From mathcomp Require Import all_ssreflect all_algebra.
From mathcomp Require Import ring.
From Verif Require Import ModelHist MxBase ModelOps ModelPhi ModelKrylov ModelInt ModelRust ModelMatUtils.
From Verif Require Import ProofsKrylov PropMatUtils ModelArnMat.
Set Implicit Arguments.
Unset Strict Implicit.
Unset Printing Implicit Defensive.
Import Order.TTheory GRing.Theory Num.Theory.
Local Open Scope ring_scope.

Section ArnMat.
Variables (F : rcfType) (n : nat).
Notation vec := 'cV[F]_n.
Variables (a : 'M[F]_n) (b : vec) (N : nat).
(* b lies in an a-invariant subspace of dimension at most m (the columns of W span it) *)
Definition invariant_of_dim (m : nat) : Prop :=
  exists (W : 'M[F]_(n, m)) (H : 'M[F]_m) (c : 'cV[F]_m), b = W *m c /\ a *m W = W *m H.
(* column c of H is exact: a v_c = sum_(r <= c+1) H_rc v_r, with a positive subdiagonal entry *)
Definition col_exact (vs : seq vec) (h : seq F) (c : nat) : Prop :=
  [/\ size h = c.+2, a *m nth 0 vs c = \sum_(r < c.+2) nth 0 h r *: nth 0 vs r & 0 < nth 0 h c.+1].
Definition mcols_ok (vs : seq vec) (hs : seq (seq F)) : Prop :=
  forall c, (c < size hs)%N -> col_exact vs (nth [::] hs c) c.
Definition arn_spec (vs : seq vec) (hs : seq (seq F)) : Prop :=
  [/\ orthonormal vs, size vs = N /\ size hs = N, nth 0 vs 0 = (norm2 b)^-1 *: b,
      forall c, (c.+1 < N)%N -> col_exact vs (nth [::] hs c) c
    & size (last [::] hs) = N /\ exists res : vec, a *m nth 0 vs N.-1 = \sum_(r < N) nth 0 (last [::] hs) r *: nth 0 vs r + res /\
        forall i, (i < N)%N -> dotv res (nth 0 vs i) = 0].

Lemma sub_inv vs hs : b != 0 -> nth 0 vs 0 = (norm2 b)^-1 *: b -> size vs = (size hs).+1 -> mcols_ok vs hs ->
  forall h, a *m nth 0 vs (size hs) = \sum_(r < size vs) nth 0 h r *: nth 0 vs r -> invariant_of_dim (size vs).
Proof.
move=> b0 h0 sv hc h hl.
pose W : 'M[F]_(n, size vs) := \matrix_(i, j) nth 0 vs j i 0.
pose H : 'M[F]_(size vs) := \matrix_(r, c) (if c == size hs :> nat then nth 0 h r
   else if (r < c.+2)%N then nth 0 (nth [::] hs c) r else 0).
have wcol x : W *m x = \sum_j x j 0 *: nth 0 vs j.
  by apply/matrixP => i j; rewrite (ord1 j) mxE summxE; apply: eq_bigr => k _; rewrite !mxE mulrC.
have s0 : (0 < size vs)%N by rewrite sv.
exists W, H, (norm2 b *: delta_mx (Ordinal s0) 0); split.
  rewrite wcol (bigD1 (Ordinal s0)) //= big1 ?addr0 => [|j hj]; last by rewrite !mxE (negbTE hj) mulr0 scale0r.
  by rewrite !mxE eqxx mulr1 h0 scalerA mulfV ?scale1r // gt_eqF // norm2_gt0.
apply/matrixP => i c.
have -> : (a *m W) i c = (a *m nth 0 vs c) i 0 by rewrite !mxE; apply: eq_bigr => j _; rewrite !mxE.
have -> : (W *m H) i c = (W *m col c H) i 0 by rewrite !mxE; apply: eq_bigr => j _; rewrite !mxE.
rewrite wcol; congr (fun_of_matrix _ i 0).
case: (eqVneq (c : nat) (size hs)) => hcs.
  by rewrite hcs hl; apply: eq_bigr => j _; rewrite !mxE hcs eqxx.
have hlt : (c < size hs)%N by rewrite ltn_neqAle hcs -ltnS; have := ltn_ord c; rewrite {2}sv.
have [h1 h2 _] := hc _ hlt; rewrite h2.
have le : (c.+2 <= size vs)%N by move: hlt; rewrite -ltnS -sv.
rewrite (big_ord_widen _ (fun r => nth 0 (nth [::] hs c) r *: nth 0 vs r) le) big_mkcond /=.
by apply: eq_bigr => j _; rewrite !mxE (negbTE hcs); case: ifP => // _; rewrite scale0r.
Qed.

Lemma loop_ok todo k vs hs : b != 0 -> (0 < todo)%N -> (todo + k = N)%N -> size vs = k.+1 -> size hs = k ->
  orthonormal vs -> mcols_ok vs hs -> nth 0 vs 0 = (norm2 b)^-1 *: b ->
  match arn_loop a N todo k vs hs with
  | Ok (vs', hs') => arn_spec vs' hs'
  | Raise e => e = ZeroDivisionExn /\ exists2 m, (m < N)%N & invariant_of_dim m
  end.
Proof.
move=> b0; elim: todo k vs hs => // todo ih k vs hs _ hN sv sh ho hc h0 /=.
rewrite /arn_inner take_oversize ?sv //.
have := mgs_sum vs (a *m nth 0 vs k); have := mgs_size vs (a *m nth 0 vs k).
have := @mgs_perp _ _ [::] vs (a *m nth 0 vs k) ho (fun i h => False_ind _ (notF h)).
case: (mgs vs _) => h r /= hp hsz hsum.
have kN : (k < N)%N by rewrite -hN addSn ltnS leq_addl.
case: (ltnP k.+1 N) => hk; last first.
  have t0 : todo = 0%N by apply/eqP; rewrite -leqn0 -(leq_add2r k.+1) add0n addnS -addSn hN.
  have eN : N = k.+1 by apply/eqP; rewrite eqn_leq hk kN.
  rewrite t0 /=; split=> //; rewrite ?size_rcons ?sh ?sv ?last_rcons ?eN //.
    by move=> c; rewrite ltnS => hk'; rewrite nth_rcons sh hk'; apply: hc; rewrite sh.
  split; first by rewrite hsz sv.
  by exists r; split; [rewrite /= -sv -hsum | move=> i hi; apply: hp; rewrite sv].
case: eqP => r0 /=.
  split=> //; exists (size vs); first by rewrite sv.
  apply: (@sub_inv vs hs b0 h0 _ hc h); first by rewrite sv sh.
  have rz : r = 0 by apply/eqP; apply: contraTT isT => rn; have := rn; rewrite -norm2_gt0 r0 ltxx.
  by rewrite sh hsum rz addr0.
have r0' : norm2 r != 0 by apply/eqP.
have rn0 : r != 0 by apply: contraNN r0' => /eqP ->; rewrite norm2_0.
apply: ih => //=.
- by move: hk; rewrite -hN addSn ltnS -[X in (X < _)%N]add0n ltn_add2r.
- by rewrite addnS -addSn.
- by rewrite size_rcons sv.
- by rewrite size_rcons sh.
- apply: orth_rcons => //; last by rewrite mul1r; exact: normalised.
  by move=> i hi; rewrite dotvZl hp // mulr0.
- move=> c; rewrite size_rcons ltnS sh leq_eqVlt => /orP [/eqP ->|hck].
    rewrite nth_rcons sh ltnn eqxx; split; rewrite ?size_rcons ?hsz ?sv //.
      rewrite !nth_rcons sv ltnS leqnn big_ord_recr /= !nth_rcons hsz sv ltnn eqxx scalerA mul1r mulfV // scale1r.
      rewrite [LHS]hsum sv; congr (_ + _); apply: eq_bigr => i _.
      by rewrite !nth_rcons hsz sv ltn_ord.
    by rewrite nth_rcons hsz sv ltnn eqxx norm2_gt0.
  have hcs : (c < size hs)%N by rewrite sh.
  have [h1 h2 h3] := hc c hcs.
  rewrite nth_rcons sh hck; split=> //; rewrite nth_rcons sv ltnW ?ltnS ?(ltnW hck) //.
  rewrite h2; apply: eq_bigr => i _; rewrite [nth 0 (rcons vs _) i]nth_rcons sv.
  by rewrite (leq_trans (ltn_ord i)).
- by rewrite nth_rcons sv.
Qed.

(* an invariant subspace of dimension below N excludes a full set of vectors *)
Lemma no_spec vs hs m : b != 0 -> (0 < N)%N -> (m < N)%N -> invariant_of_dim m -> arn_spec vs hs -> False.
Proof.
move=> b0 N0 hm [W [H [c [hb hW]]]] [ho [sv sh] h0 hc _].
have inW k : (k < N)%N -> forall j, (j <= k)%N -> exists x, nth 0 vs j = W *m x.
  elim: k => [|k ih] hk j.
    by rewrite leqn0 => /eqP ->; exists ((norm2 b)^-1 *: c); rewrite h0 {2}hb scalemxAr.
  rewrite leq_eqVlt => /orP [/eqP ->|]; last by move=> h; apply: ih => //; exact: ltnW.
  have [s1 e1 p1] := hc _ hk; have ih' := ih (ltnW hk).
  move: e1; rewrite big_ord_recr /=; set S := \sum_(_ < _) _ => e1.
  have [y hy] : exists y, S = W *m y.
    rewrite /S; elim/big_ind: _ => [|u v [x ->] [y ->]|i _]; first by exists 0; rewrite mulmx0.
      by exists (x + y); rewrite mulmxDr.
    have [x ->] := ih' i (ltn_ord i); exists (nth 0 (nth [::] hs k) i *: x); by rewrite scalemxAr.
  have [x hx] := ih' k (leqnn k).
  exists ((nth 0 (nth [::] hs k) k.+1)^-1 *: (H *m x - y)).
  rewrite -scalemxAr mulmxBr mulmxA -hW -mulmxA -hx -hy e1 addrAC subrr add0r scalerA mulVf ?scale1r //.
  by rewrite gt_eqF.
pose Q : 'M[F]_(n, N) := \matrix_(i, j) nth 0 vs j i 0.
have hQ : (Q^T <= W^T)%MS.
  apply/row_subP => j; have [x hx] := inW _ (ltn_ord j) j (leqnn j).
  have -> : row j Q^T = x^T *m W^T by rewrite -trmx_mul -hx; apply/matrixP => i k; rewrite !mxE (ord1 i).
  exact: submxMl.
have [D hD] := submxP hQ.
have : D *m (W^T *m Q) = 1%:M.
  rewrite mulmxA -hD; apply/matrixP => i j; rewrite !mxE -(ho i j) ?sv //.
  by rewrite /dotv; apply: eq_bigr => k _; rewrite !mxE.
by move/mulmx1_min; rewrite leqNgt hm.
Qed.
End ArnMat.

(* C78.  The matrix-only arnoldi.  For b != 0 and N > 0 it either returns N orthonormal vectors starting with
   b / |b| and an N x N upper Hessenberg matrix with positive subdiagonal, a V = V H up to a last residual
   orthogonal to all the vectors; or its values are not finite, and this is so exactly when b lies in an
   a-invariant subspace of dimension below N. *)
Theorem C78_arnoldi_matrix (F : rcfType) n (a : 'M[F]_n) (b : 'cV[F]_n) (N : nat) : b != 0 -> (0 < N)%N ->
  (forall vs hs, arnoldi_mat a b N = Ok (vs, hs) -> arn_spec a b N vs hs) /\
  ((exists r, arnoldi_mat a b N = Ok r) \/ arnoldi_mat a b N = Raise ZeroDivisionExn) /\
  (arnoldi_mat a b N = Raise ZeroDivisionExn <-> exists2 m, (m < N)%N & invariant_of_dim a b m).
Proof.
move=> b0 N0; rewrite /arnoldi_mat.
have -> : (norm2 b == 0) = false by rewrite gt_eqF // norm2_gt0.
have := @loop_ok F n a b N N 0 [:: (1 / norm2 b) *: b] [::] b0 N0 (addn0 N) erefl erefl.
case: arn_loop => [[vs hs]|e] /= h.
  have {h} hs1 : arn_spec a b N vs hs.
    apply: h => //; last by rewrite mul1r.
    by move=> [|i] [|j] //= _ _; rewrite mul1r normalised.
  have -> : has (fun h : seq F => (size (last [::] hs) < size h)%N) hs = false.
    case: (hs1) => _ [_ sh] _ h3 [h2 _].
    apply/negbTE/hasPn => h /(nthP [::]) [c hc <-]; rewrite -leqNgt h2.
    rewrite sh in hc; case: (ltnP c.+1 N) => hcv; first by have [-> _ _] := h3 _ hcv.
    have -> : c = (size hs).-1 by rewrite sh; case: (N) hc hcv => // N1; rewrite !ltnS => u v; apply/eqP; rewrite eqn_leq u v.
    by rewrite nth_last h2.
  split; first by move=> ? ? [<- <-].
  split; first by left; eexists.
  by split=> // -[m hm hi]; case: (no_spec b0 N0 hm hi hs1).
have {h} [-> h] : e = ZeroDivisionExn /\ exists2 m, (m < N)%N & invariant_of_dim a b m.
  apply: h => //; last by rewrite mul1r.
  by move=> [|i] [|j] //= _ _; rewrite mul1r normalised.
by split=> //; split; [right|split].
Qed.
Print Assumptions C78_arnoldi_matrix.

(* C78.  More iterations than unknowns never succeed. *)
Theorem C78_arnoldi_matrix_size (F : rcfType) n (a : 'M[F]_n) (b : 'cV[F]_n) (N : nat) : b != 0 -> (n < N)%N ->
  arnoldi_mat a b N = Raise ZeroDivisionExn.
Proof.
move=> b0 hN; have N0 : (0 < N)%N by exact: leq_ltn_trans hN.
have [_ [_ ->]] := C78_arnoldi_matrix a b0 N0; exists n => //.
by exists 1%:M, a, b; rewrite !mul1mx mulmx1.
Qed.
Print Assumptions C78_arnoldi_matrix_size.

(* both cases occur: a shift of the plane with two iterations, and the identity *)
Lemma C78_arnoldi_matrix_example (F : rcfType) :
  (exists r, arnoldi_mat (\matrix_(i, j) (i != j)%:R : 'M[F]_2) (delta_mx 0 0) 2 = Ok r) /\
  arnoldi_mat (1%:M : 'M[F]_2) (delta_mx 0 0) 2 = Raise ZeroDivisionExn.
Proof.
have b0 : (delta_mx 0 0 : 'cV[F]_2) != 0 by apply/eqP => /matrixP /(_ 0 0); rewrite !mxE eqxx => /eqP; rewrite oner_eq0.
split; last first.
  have [_ [_ ->]] := @C78_arnoldi_matrix F 2 1%:M (delta_mx 0 0) 2 b0 isT; exists 1%N => //.
  by exists (delta_mx 0 0), 1%:M, 1%:M; rewrite !mulmx1 mul1mx.
have [_ [[]// h [h1 _]]] := @C78_arnoldi_matrix F 2 (\matrix_(i, j) (i != j)%:R) (delta_mx 0 0) 2 b0 isT.
have [m hm [W [H [c [hb hW]]]]] := h1 h.
exfalso; have : (1%:M : 'M[F]_2) = W *m row_mx c (H *m c).
  rewrite mul_mx_row -hb mulmxA -hW -mulmxA -hb; apply/matrixP => i j; rewrite !mxE.
  case: splitP => k /= ek; rewrite ?mxE ?big_ord_recl ?big_ord0 ?mxE /= ?(ord1 k).
    have -> : j = 0 by apply: val_inj; rewrite /= ek (ord1 k).
    by rewrite andbT.
  have -> : j = 1 by apply: val_inj; rewrite /= ek (ord1 k).
  by case: i => [[|[|i]] hi] //=; rewrite ?(mulr0, mul0r, addr0, add0r, mulr1).
by move/esym/mulmx1_min; rewrite leqNgt hm.
Qed.
