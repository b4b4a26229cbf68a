(* PropRustKry2.v : C59, the phi sum of the crate is not scaled: contributions below the breakdown tolerance are lost.
   The Python routine scales its vectors first. *)
From Coq Require Import Reals String.
From mathcomp Require Import all_ssreflect all_algebra.
From Verif Require Import Rstruct Summable MxBase MxSeries ModelHist ModelOps SpecOps ModelPhi SpecPhi ModelKrylov ModelInt ModelRust SpecRust.
From Verif Require Import ProofsKrylov ProofsKrylov2 ProofsKrylov3 ProofsKiops ProofsRust3 ProofsRust5 PropRustKry.
Set Implicit Arguments.
Unset Strict Implicit.
Unset Printing Implicit Defensive.
Import Order.TTheory GRing.Theory Num.Theory.
Local Open Scope ring_scope.
Lemma tol_le1 (F : rcfType) : breakdown_tol F <= 1.
Proof. by rewrite /breakdown_tol invf_le1 ?exprn_gt0 ?ltr0n // exprn_ege1 // ler1n. Qed.
Local Opaque breakdown_tol norm2.

Section Lost.
Variables (F : rcfType) (n : nat) (L : 'cV[F]_n -> 'cV[F]_n) (A : 'M[F]_n) (t : F) (v2 : 'cV[F]_n).
Hypothesis LA : forall v, L v = A *m v.
Let vb := [:: 0; 0; v2].
Let L' := ext_apply L t (ext_bmat 2 vb) (ext_kmat F 2).
Let ee (i : nat) : 'cV[F]_(n + 2) := col_mx 0 (\col_j ((j : nat) == i)%:R).
Lemma L'0 : L' (ee 1) = ee 0.
Proof.
rewrite /L' /ext_apply /ee col_mxKu col_mxKd LA mulmx0 scaler0 add0r ext_bmatE; congr col_mx; apply/matrixP => i j; rewrite !mxE.
  by rewrite !big_ord_recl big_ord0 /= !mxE !mulr0 /= mul0r !addr0.
rewrite !big_ord_recl big_ord0 /= !mxE /= mulr0 mulr1 addr0 add0r.
by case: i => -[|[|//]] /=.
Qed.
Lemma L'1 : L' (ee 0) = col_mx v2 0.
Proof.
rewrite /L' /ext_apply /ee col_mxKu col_mxKd LA mulmx0 scaler0 add0r ext_bmatE; congr col_mx; apply/matrixP => i j; rewrite !mxE.
  by rewrite !big_ord_recl big_ord0 /= !mxE mulr1 !mulr0 !addr0 (ord1 j).
by rewrite !big_ord_recl big_ord0 /= !mxE /= andbF mul0r mulr0 !addr0.
Qed.
Lemma dot_ee i j : (i < 2)%N -> (j < 2)%N -> dotv (ee i) (ee j) = (i == j)%:R.
Proof.
move=> i2 j2; rewrite /dotv big_split_ord /= big1 ?add0r; last by move=> k _; rewrite /ee !col_mxEu mxE mul0r.
rewrite !big_ord_recl big_ord0 /= /ee !col_mxEd !mxE addr0.
by case: i i2 => [|[|//]] _; case: j j2 => [|[|//]] _ /=; rewrite ?mulr0 ?mulr1 ?addr0 ?add0r.
Qed.
Lemma dot_top i : dotv (col_mx v2 0) (ee i) = 0.
Proof. by rewrite /dotv big_split_ord /= !big1 ?addr0 // => k _; rewrite /ee ?col_mxEu ?col_mxEd mxE ?mul0r ?mulr0. Qed.
Lemma norm_ee i : (i < 2)%N -> norm2 (ee i) = 1.
Proof. by move=> h; apply: norm2_1; rewrite dot_ee // eqxx. Qed.
Lemma norm_top : norm2 (col_mx v2 (0 : 'cV[F]_2)) = norm2 v2.
Proof.
Local Transparent norm2.
rewrite /norm2 /dotv big_split_ord /= [X in _ + X]big1 ?addr0; last by move=> k _; rewrite !col_mxEd !mxE mul0r.
by congr Num.sqrt; apply: eq_bigr => k _; rewrite !col_mxEu.
Local Opaque norm2.
Qed.
Local Opaque dotv.
(* phi_1(tA) 0 + phi_2(tA) v2 is computed as 0 as soon as |v2| < 1e-12, by every evaluator and at every Krylov size *)
Theorem C59_small_vectors_lost ev dim iom : (0 < n)%N -> (0 < dim)%N -> norm2 v2 < breakdown_tol F ->
  rkiops ev L t 1 [:: 0; 0; v2] dim iom = Ok 0.
Proof.
move=> n0 d0 small; rewrite /rkiops -/vb /= -/L' /apply_linop.
have -> : ext_get_v 2 vb = ee 1 by [].
rewrite /rarnoldi; have m0 : (0 < minn dim (n + 2))%N by rewrite leq_min d0 addn2.
rewrite (gtn_eqF m0) norm_ee // oner_eq0 invr1 scale1r.
set q := upd1 _ _ _.
have q0 : q 0%N = ee 1 by [].
have top k (qs : nat -> 'cV[F]_(n + 2)) (x : 'cV[F]_k) : (forall i, (i < k)%N -> usubmx (qs i) = 0) ->
    usubmx (1 *: ((\matrix_(i, j) qs j i 0) *m x)) = 0.
  move=> h; rewrite scale1r; apply/matrixP => i j; rewrite !mxE big1 // => l _.
  have := congr1 (fun v : 'cV[F]_n => v i 0) (h l (ltn_ord l)); by rewrite !mxE => ->; rewrite mul0r.
have u0 i : usubmx (ee i) = 0 by rewrite /ee col_mxKu.
have inn0 m hs : (0 < m)%N -> exists hs', rarn_inner L' 1 m iom hs q 0 = (hs', if (1 < m)%N then upd1 q 1 (ee 0) else q, false).
  move=> _; rewrite /rarn_inner subn0 sub0n /= q0 L'0 scale1r dot_ee // scale0r subr0 norm_ee //.
  have -> : (1 < breakdown_tol F) = false by apply/negbTE; rewrite -leNgt tol_le1.
  by eexists; rewrite andbT invr1 scale1r.
case: (minn dim (n + 2)) m0 => // m _.
cbn [rarn_loop]; have [hs' ->] := inn0 m.+1 (fun _ _ => 0) isT.
case: m => [|m]; first by cbn [rarn_loop]; cbn [rbind]; rewrite top // => i; rewrite ltnS leqn0 => /eqP ->; rewrite q0 u0.
change (if (1 < m.+2)%N then upd1 q 1 (ee 0) else q) with (upd1 q 1 (ee 0)).
cbn [rarn_loop]; set q1 := upd1 q 1 _.
have [e0 e1] : q1 0%N = ee 1 /\ q1 1%N = ee 0 by [].
have [hs2 ->] : exists hs2, rarn_inner L' 1 m.+2 iom hs' q1 1 = (hs2, q1, true).
  rewrite /rarn_inner e1 L'1 scale1r.
  have -> : foldl (body_ortho q1 1) (hs', col_mx v2 0) (iota (1 - iom) (2 - (1 - iom))) =
            ((foldl (body_ortho q1 1) (hs', col_mx v2 0) (iota (1 - iom) (2 - (1 - iom)))).1, col_mx v2 0).
    have st h i : (i < 2)%N -> (body_ortho q1 1 (h, col_mx v2 0) i) = (upd2 h i 1 0, col_mx v2 0).
      by case: i => [|[|//]] _; rewrite /body_ortho ?e0 ?e1 dot_top scale0r subr0.
    have gen l h : all (fun i => i < 2)%N l -> (foldl (body_ortho q1 1) (h, col_mx v2 0) l).2 = col_mx v2 0.
      by elim: l h => [|i l IH] h //=  /andP[i2 hl]; have := st h i i2; rewrite /body_ortho => ->; exact: IH.
    rewrite {1}[foldl _ _ _]surjective_pairing gen //.
    by apply/allP => i; rewrite mem_iota => /andP[_]; case: (iom) => [|k]; rewrite ?subn0 ?subSS ?sub0n.
  case: (foldl _ _ _) => h1 x /=; rewrite norm_top small andbF; by eexists.
by cbn [rbind]; rewrite top // => -[|[|//]] _; rewrite ?e0 ?e1 u0.
Qed.
End Lost.

(* so the relative error is not small for any exact evaluator: the exact value is phi_2(0) v2 = v2/2 *)
Theorem C59_small_vectors_refute (ev : evaluator R_rcfType) n (v2 : 'cV[R]_n) dim iom : exact_evaluator ev ->
  (0 < n)%N -> (0 < dim)%N -> v2 != 0 -> norm2 v2 < breakdown_tol R_rcfType ->
  exists w, [/\ rkiops ev (fun _ => 0) 1 1 [:: 0; 0; v2] dim iom = Ok w,
    are_phis 2 (1 *: (0 : 'M[R]_n)) (fun j => (j`!%:R)^-1%:M) &
    w - (1%:M *m 0 + (2`!%:R)^-1%:M *m v2) = - 2%:R^-1 *: v2].
Proof.
move=> hev n0 d0 v20 small; exists 0; split.
- by apply: (C59_small_vectors_lost (A := 0)) => // v; rewrite mul0mx.
- by move=> j _; apply/is_phiP; rewrite scaler0 phi_at0 /ifact scalemx1.
by rewrite mulmx0 sub0r add0r mul_scalar_mx scaleNr.
Qed.

(* The Python routine is homogeneous: vectors of any size are treated alike *)
Theorem C59_python_homogeneous (F : rcfType) (expm : forall n, 'M[F]_n -> 'M[F]_n) expk n (a_lo : linop F n) (dt c : F) vb dim iom :
  0 < c -> kiops_fixedsteps expm expk a_lo dt [seq c *: v | v <- vb] dim iom =
  match kiops_fixedsteps expm expk a_lo dt vb dim iom with Ok w => Ok (c *: w) | Raise e => Raise e end.
Proof.
move=> c0; rewrite /kiops_fixedsteps size_map.
have n2Z (v : 'cV[F]_n) : norm2 (c *: v) = c * norm2 v.
Local Transparent norm2.
  by rewrite /norm2 dotvZl dotvZr mulrA -expr2 sqrtrM ?sqr_ge0 // sqrtr_sqr gtr0_norm.
Local Opaque norm2.
have eN : maxnorm [seq c *: v | v <- vb] = c * maxnorm vb.
  rewrite /maxnorm; elim: vb => [|v vb IH] /=; first by rewrite mulr0.
  by rewrite IH n2Z maxr_pmulr // ltW.
rewrite eN pmulr_rgt0 //; case: ifP => [N0|_]; last by rewrite scaler0.
case: ifP => // p0.
have cn : c != 0 by rewrite gt_eqF.
have sc (v : 'cV[F]_n) : (c * maxnorm vb)^-1 *: (c *: v) = (maxnorm vb)^-1 *: v.
  by rewrite scalerA invfM mulrAC mulVf // mul1r.
have nthc j : nth 0 [seq c *: v | v <- vb] j = c *: nth 0 vb j.
  by elim: vb j {eN N0 p0 sc} => [|v vb IH] [|j] //=; rewrite scaler0.
have -> : (c * maxnorm vb)^-1 *: kiops_B (size vb).-1 [seq c *: v | v <- vb] = (maxnorm vb)^-1 *: kiops_B (size vb).-1 vb.
  by apply/matrixP => i j; rewrite !mxE nthc mxE mulrA; congr (_ * _); rewrite invfM mulrAC mulVf // mul1r.
rewrite nthc sc; case: (matexp_linop _ _ _ _ _ _ _) => [w|e] //=.
by rewrite scalerA.
Qed.
