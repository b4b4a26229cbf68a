(* ProofsKiops.v : unified error bound of phi_linop and of kiops_fixedsteps *)
From Coq Require Import Reals.
From Coquelicot Require Import Coquelicot.
From mathcomp Require Import all_ssreflect all_algebra.
From mathcomp Require Import ring.
From Verif Require Import Rstruct Summable MxBase MxSeries ModelHist ModelOps SpecOps ProofsOps.
From Verif Require Import ModelPhi ProofsPhiR ProofsPhiErr ModelKrylov ProofsKrylov ProofsKrylov2 ProofsKrylov3.
Set Implicit Arguments.
Unset Strict Implicit.
Unset Printing Implicit Defensive.
Import Order.TTheory GRing.Theory Num.Theory.
Local Open Scope ring_scope.
Local Opaque breakdown_tol norm2.

(* the two contributions to the error of one phi_linop call *)
Definition stop_err (n : nat) (th : R) : R :=
  (n%:R * breakdown_tol R_rcfType * exp (th + n%:R * breakdown_tol R_rcfType))%R.
Definition trunc_err (n m j : nat) (th : R) : R :=
  (if (m < n)%N then
    ifact _ (m + j) * (th ^+ m * exp th + m%:R * ((n%:R * m%:R * th) ^+ m * exp (n%:R * m%:R * th)))
  else 0)%R.
Lemma stop_err_ge0 n th : 0 <= stop_err n th.
Proof. by rewrite mulr_ge0 ?exp_ge0 // mulr_ge0 ?ler0n // ltW // tol_gt0. Qed.
Lemma trunc_err_ge0 n m j th : 0 <= th -> 0 <= trunc_err n m j th.
Proof.
move=> h; rewrite /trunc_err; case: ifP => _ //; rewrite mulr_ge0 ?ifact_ge0 //.
by rewrite addr_ge0 // ?mulr_ge0 ?exprn_ge0 ?exp_ge0 ?ler0n // mulr_ge0 ?ler0n // mulr_ge0 ?ler0n.
Qed.

Section Err.
Variable expm expk : forall n, 'M[R]_n -> 'M[R]_n.
Hypothesis expmE : forall n (A : 'M[R]_n), expm A = expmx A.
Hypothesis expkE : forall n (A : 'M[R]_n), expk A = expmx A.

Lemma phi_linop_err n (L : 'cV[R]_n -> 'cV[R]_n) (A : 'M[R]_n) (dt : R) v m iom j :
  (forall v, L v = A *m v) -> (0 < m)%N -> (minn n m <= iom.+1)%N ->
  let th := ninf (dt *: A) in
  exists w, phi_linop expm expk L dt v j m iom = Ok w /\
  ninf (w - phi j (dt *: A) *m v) <= norm2 v * (stop_err n th + trunc_err n m j th).
Proof.
move=> LA m0 h th.
have th0 : 0 <= th by apply: ninf_ge0.
have b0 : 0 <= norm2 v * (stop_err n th + trunc_err n m j th).
  by rewrite mulr_ge0 ?norm2_ge0 // addr_ge0 ?stop_err_ge0 ?trunc_err_ge0.
have [->|v0] := eqVneq v 0.
  exists 0; rewrite phi_linop_0 mulmx0 subr0 ninf0; split=> //.
  by rewrite mulr_ge0 ?norm2_ge0 // addr_ge0 ?stop_err_ge0 ?trunc_err_ge0.
have [e|e] := st_end L dt iom v0 m0.
  have [mn|nm] := ltnP m n.
    have km : a_k (arnoldi_lop_jit L dt ((norm2 v)^-1 *: v) m iom) = m.
      by rewrite e; apply/minn_idPr; apply: ltnW.
    have [w [hw hb]] := phi_linop_trunc expmE expkE LA v0 m0 j km h.
    exists w; split=> //; apply: le_trans hb _; rewrite -mulrA ler_wpmul2l ?norm2_ge0 //.
    by rewrite /trunc_err mn ler_addr stop_err_ge0.
  have kn : a_k (arnoldi_lop_jit L dt ((norm2 v)^-1 *: v) m iom) = n.
    by rewrite e; apply/minn_idPl.
  have h' : (n <= iom.+1)%N by move: h; rewrite (minn_idPl nm).
  by rewrite (phi_linop_full expmE expkE LA v0 m0 j kn h'); eexists; split; first by []; rewrite subrr ninf0.
have [E [hE ->]] := phi_linop_back expmE expkE LA v0 m0 j e h.
eexists; split; first by [].
rewrite -mulmxBl; apply: le_trans (ninfM _ _) _; rewrite mulrC; apply: ler_pmul; rewrite ?ninf_ge0 ?ninf_col //.
set tt := (th + n%:R * breakdown_tol R_rcfType)%R.
have hX : ninf (dt *: A - E) <= tt.
  by apply: le_trans (ninfD _ _) _; rewrite ninfN /tt; apply: ler_add.
have hY : ninf (dt *: A) <= tt.
  by rewrite /tt ler_addl mulr_ge0 ?ler0n // ltW // tol_gt0.
apply: le_trans (phi_diff j hX hY) _.
apply: (@le_trans _ _ (stop_err n th)); last by rewrite ler_addl trunc_err_ge0.
rewrite /stop_err -/tt ler_wpmul2r ?exp_ge0 //.
by rewrite addrAC subrr add0r ninfN.
Qed.
End Err.

(* ---- the block matrix of kiops ---- *)
Section Block.
Variable F : rcfType.
Variables n p : nat.
Variable vb : seq 'cV[F]_n.
Variable X : 'M[F]_n.

Lemma K_pow_e q (i : 'I_p) :
  (mxpow (kiops_K F p) q *m kiops_e F p) i 0 = (i + q == p.-1)%N%:R.
Proof.
elim: q i => [|q IH] i; first by rewrite mxpow0 mul1mx mxE addn0.
rewrite mxpowS -mulmxA mxE.
case: (ltnP i.+1 p) => ip.
  rewrite (bigD1 (Ordinal ip)) //= big1 ?addr0 => [|l].
    by rewrite IH /= mxE eqxx mul1r addSnnS.
  by rewrite -val_eqE /= => ne; rewrite mxE eq_sym (negPf ne) mul0r.
rewrite big1 => [|l _]; last first.
  by rewrite mxE gtn_eqF ?mul0r // (leq_trans (ltn_ord l)).
rewrite gtn_eqF // addnS ltnS; apply: leq_trans (leq_addr q i).
by rewrite -subn1 leq_subLR add1n.
Qed.
Lemma B_K_e q : kiops_B p vb *m (mxpow (kiops_K F p) q *m kiops_e F p)
  = if (q < p)%N then nth 0 vb q.+1 else 0.
Proof.
apply/matrixP => a b; rewrite ord1 mxE; case: ltnP => qp.
  have hi : (p.-1 - q < p)%N by rewrite (leq_ltn_trans (leq_subr _ _)) // prednK // (leq_ltn_trans _ qp).
  have qp' : (q <= p.-1)%N by rewrite -ltnS prednK // (leq_ltn_trans _ qp).
  rewrite (bigD1 (Ordinal hi)) //= big1 ?addr0 => [|l].
    rewrite K_pow_e /= subnK // eqxx mulr1 mxE /=.
    have -> // : (p - (p.-1 - q) = q.+1)%N.
    by case: (p) qp qp' => // p' _ qp' /=; rewrite subSn ?leq_subr // subKn.
  rewrite -val_eqE /= K_pow_e => ne; case: eqP => e; last by rewrite mulr0.
  by move: ne; rewrite -e addnK eqxx.
rewrite mxE big1 // => l _; rewrite K_pow_e gtn_eqF ?mulr0 //.
apply: (@leq_trans q); last by rewrite leq_addl.
by apply: leq_trans qp; rewrite prednK // (leq_ltn_trans _ (ltn_ord l)).
Qed.
Lemma ktilde_pow i (u : 'cV[F]_n) :
  usubmx (mxpow (block_mx X (kiops_B p vb) 0 (kiops_K F p)) i *m col_mx u (kiops_e F p))
  = mxpow X i *m u + \sum_(q < p) (if (q < i)%N then mxpow X (i.-1 - q) *m nth 0 vb q.+1 else 0).
Proof.
set T := block_mx _ _ _ _.
have full j : mxpow T j *m col_mx u (kiops_e F p)
   = col_mx (mxpow X j *m u + \sum_(q < p) (if (q < j)%N then mxpow X (j.-1 - q) *m nth 0 vb q.+1 else 0))
            (mxpow (kiops_K F p) j *m kiops_e F p).
  elim: j => [|j IH].
    by rewrite !mxpow0 !mul1mx big1 ?addr0.
  rewrite mxpowS -mulmxA IH mul_block_col mul0mx add0r; congr col_mx; last by rewrite mulmxA -mxpowS.
  rewrite mulmxDr mulmxA -mxpowS -addrA; congr (_ + _).
  rewrite B_K_e mulmx_sumr.
  have -> : (if (j < p)%N then nth 0 vb j.+1 else 0)
     = \sum_(q < p) (if (q : nat) == j then nth 0 vb q.+1 else 0).
    case: ltnP => jp; last by rewrite big1 // => q _; rewrite ltn_eqF // (leq_trans (ltn_ord q)).
    rewrite (bigD1 (Ordinal jp)) //= eqxx big1 ?addr0 // => q.
    by rewrite -val_eqE /= => /negPf->.
  rewrite -big_split; apply: eq_bigr => q _ /=.
  have -> : (q < j.+1)%N = ((q : nat) == j) || (q < j)%N by rewrite ltnS leq_eqVlt.
  case: (ltngtP q j) => [qj|qj|->].
  - rewrite addr0 mulmxA -mxpowS; congr (mxpow X _ *m _).
    by case: (j) qj => // j'; rewrite ltnS => qj /=; rewrite subSn.
  - by rewrite mulmx0 addr0.
  - by rewrite mulmx0 add0r subnn mxpow0 mul1mx.
by rewrite full col_mxKu.
Qed.
End Block.

(* exp of the block matrix acts as the phi sum *)
Lemma expmx_ktilde n p (vb : seq 'cV[R]_n) (X : 'M[R]_n) (u : 'cV[R]_n) :
  usubmx (expmx (block_mx X (kiops_B p vb) 0 (kiops_K R_rcfType p)) *m col_mx u (kiops_e R_rcfType p))
  = phi 0 X *m u + \sum_(q < p) phi q.+1 X *m nth 0 vb q.+1.
Proof.
set T := block_mx _ _ _ _; set x := col_mx _ _.
have E k : entire (fun i => ifact _ (i + k)) by apply: entire_ifact.
have actE N (Z : 'M[R]_N) (y : 'cV[R]_N) k a :
  (phi k Z *m y) a 0 = ssum (fun i => ifact _ (i + k) * (mxpow Z i *m y) a 0)
  /\ summable (fun i => ifact R_numFieldType (i + k) * (mxpow Z i *m y) a 0).
  have S b : true -> summable (fun i => y b 0 * (ifact R_numFieldType (i + k) * mxpow Z i a b)).
    by move=> _; apply: summableZ; apply: ser_summable.
  have ex i : \sum_b y b 0 * (ifact R_numFieldType (i + k) * mxpow Z i a b)
     = ifact R_numFieldType (i + k) * (mxpow Z i *m y) a 0.
    by rewrite mxE mulr_sumr; apply: eq_bigr => b _; rewrite mulrCA mulrA [mxpow _ _ _ _ * _]mulrC mulrA.
  split; last by have := summable_sum (index_enum _) S; apply: summable_ext => i; rewrite ex.
  rewrite mxE (eq_bigr (fun b => ssum (fun i => y b 0 * (ifact R_numFieldType (i + k) * mxpow Z i a b)))); last first.
    by move=> b _; rewrite ssumZ mxE mulrC.
  by rewrite -(@ssum_sum _ _ _ (fun b i => y b 0 * (ifact R_numFieldType (i + k) * mxpow Z i a b))) //; apply: ssum_ext => i; rewrite ex.
apply/matrixP => a b; rewrite ord1 mxE /expmx (actE _ T x 0%N _).1.
pose g q i := if (q < i)%N then ifact R_numFieldType i * (mxpow X (i - q.+1) *m nth 0 vb q.+1) a 0 else 0.
have gS q : summable (g q) /\ ssum (g q) = (phi q.+1 X *m nth 0 vb q.+1) a 0.
  have [e s] := actE _ X (nth 0 vb q.+1) q.+1 a.
  have eg : g q =1 (fun i => if (q.+1 <= i)%N then ifact R_numFieldType (i - q.+1 + q.+1) * (mxpow X (i - q.+1) *m nth 0 vb q.+1) a 0 else 0).
    by move=> i; rewrite /g; case: ltnP => h //; rewrite subnK.
  split; first by apply: summable_ext (summable_delay q.+1 s) => i; rewrite eg.
  by rewrite e -(ssum_delay q.+1 s); apply: ssum_ext.
have [e0 s0] := actE _ X u 0%N a.
have hsum : summable (fun i => \sum_(q < p) g q i) by apply: (@summable_sum _ _ _ (fun (q : 'I_p) i => g q i)) => q _; case: (gS q).
rewrite (ssum_ext (v := fun i => ifact R_numFieldType (i + 0) * (mxpow X i *m u) a 0 + \sum_(q < p) g q i)); last first.
  move=> i; have -> : (mxpow T i *m x) (lshift p a) 0 = usubmx (mxpow T i *m x) a 0 by rewrite [RHS]mxE.
  rewrite ktilde_pow mxE mulrDr; congr (_ + _); rewrite summxE mulr_sumr; apply: eq_bigr => q _.
  rewrite /g; case: ltnP => h; last by rewrite mxE mulr0.
  by rewrite addn0; have -> : (i.-1 - q = i - q.+1)%N by case: (i).
rewrite ssumD // -e0 [RHS]mxE; congr (_ + _).
rewrite (@ssum_sum _ _ _ (fun (q : 'I_p) i => g q i)); last by move=> q _; case: (gS q).
by rewrite summxE; apply: eq_bigr => q _; case: (gS q).
Qed.

Lemma stop_err_le n (a b : R) : a <= b -> stop_err n a <= stop_err n b.
Proof.
move=> ab; rewrite /stop_err ler_wpmul2l //; first by rewrite mulr_ge0 ?ler0n // ltW // tol_gt0.
by apply: exp_le; rewrite ler_add2r.
Qed.
Lemma trunc_err_le n m j (a b : R) : 0 <= a -> a <= b -> trunc_err n m j a <= trunc_err n m j b.
Proof.
move=> a0 ab; rewrite /trunc_err; case: ifP => _ //.
have b0 : 0 <= b by apply: le_trans ab.
have nm0 : 0 <= n%:R * m%:R :> R by rewrite mulr_ge0 ?ler0n.
have sc (x y : R) : 0 <= x -> x <= y -> x ^+ m * exp x <= y ^+ m * exp y.
  move=> x0 xy; apply: ler_pmul; rewrite ?exprn_ge0 ?exp_ge0 //; last exact: exp_le.
  by apply: ler_expn2r; rewrite ?nnegrE // (le_trans x0).
apply: ler_wpmul2l; first exact: ifact_ge0.
apply: ler_add; first exact: sc.
apply: ler_wpmul2l; first exact: ler0n.
by apply: sc; [apply: mulr_ge0|apply: ler_wpmul2l].
Qed.

(* maxnorm *)
Lemma maxnorm_ge0 (F : rcfType) n (vb : seq 'cV[F]_n) : 0 <= maxnorm vb.
Proof. by case: vb => [|v vb] //=; rewrite le_maxr norm2_ge0. Qed.
Lemma maxnorm_nth (F : rcfType) n (vb : seq 'cV[F]_n) i : norm2 (nth 0 vb i) <= maxnorm vb.
Proof.
elim: vb i => [|v vb IH] [|i] /=; rewrite ?norm2_0 ?le_maxr ?lexx //.
by rewrite -/(maxnorm vb) IH orbT.
Qed.
Lemma maxnorm_0 (F : rcfType) n (vb : seq 'cV[F]_n) i : ~~ (0 < maxnorm vb) -> nth 0 vb i = 0.
Proof.
rewrite -leNgt => h; apply: norm2_eq0; apply/eqP; rewrite eq_le norm2_ge0 andbT.
exact: le_trans (maxnorm_nth vb i) h.
Qed.

Section KiopsSum.
Variable expm expk : forall n, 'M[R]_n -> 'M[R]_n.
Hypothesis expmE : forall n (A : 'M[R]_n), expm A = expmx A.
Hypothesis expkE : forall n (A : 'M[R]_n), expk A = expmx A.
Variables (n : nat) (a_lo : linop R_realFieldType n) (A : 'M[R]_n) (dt : R).
Hypothesis hA : acts_as a_lo A.
Variable vb : seq 'cV[R]_n.
Let p := (size vb).-1.
Hypothesis p0 : (0 < p)%N.
Let beta := maxnorm vb.
Let T := block_mx (dt *: A) (beta^-1 *: kiops_B p vb) 0 (kiops_K R_rcfType p).
Let v := col_mx (beta^-1 *: nth 0 vb 0) (kiops_e R_rcfType p).
Let ksum := \sum_(j < p.+1) phi j (dt *: A) *m nth 0 vb j.

Lemma kiops_BZ (c : R) : c *: kiops_B p vb = kiops_B p (map (fun w => c *: w) vb).
Proof.
apply/matrixP => i j; rewrite !mxE.
have hj : (p - j < size vb)%N.
  by apply: leq_ltn_trans (leq_subr _ _) _; move: p0; rewrite /p; case: (size vb).
by rewrite (nth_map 0) // mxE.
Qed.
Lemma kiops_exp : 0 < beta -> beta *: usubmx (expmx T *m v) = ksum.
Proof.
move=> b0; have bn : beta != 0 by apply: lt0r_neq0.
rewrite /T /v kiops_BZ expmx_ktilde scalerDr /ksum big_ord_recl; congr (_ + _).
  by rewrite -scalemxAr scalerA mulfV // scale1r.
rewrite scaler_sumr; apply: eq_bigr => q _.
have hq : (q.+1 < size vb)%N 
  by apply: (@leq_ltn_trans p); [exact: ltn_ord|move: p0; rewrite /p; case: (size vb)].
by rewrite (nth_map 0) // -scalemxAr scalerA mulfV // scale1r.
Qed.
Lemma T_norm : 0 < beta -> ninf T <= ninf (dt *: A) + p%:R.
Proof.
move=> b0; apply: ninf_le => [|a]; first by rewrite addr_ge0 ?ninf_ge0 ?ler0n.
rewrite big_split_ord /=; have [i ->|i ->] := split_ordP a.
  apply: ler_add.
    apply: le_trans (ninf_row _ i); apply: ler_sum => b _; by rewrite block_mxEul.
  apply: (@le_trans _ _ (\sum_(j < p) 1)); last by rewrite sumr_const card_ord.
  apply: ler_sum => j _; rewrite block_mxEur mxE normrM normfV (ger0_norm (ltW b0)) mulrC.
  rewrite ler_pdivr_mulr // mul1r mxE; apply: le_trans (entry_le_norm2 _ _) _; exact: maxnorm_nth.
rewrite big1 ?add0r => [|b _]; last by rewrite block_mxEdl mxE normr0.
apply: (@le_trans _ _ (\sum_(j < p) 1)); last first.
  by rewrite sumr_const card_ord ler_addr ninf_ge0.
apply: ler_sum => j _; rewrite block_mxEdr mxE normr_nat; by case: eqP => _; rewrite ?ler01 ?lexx.
Qed.
Lemma v_norm : 0 < beta -> norm2 v <= 2%:R.
Proof.
move=> b0; rewrite -(@ler_pexpn2r _ 2) ?nnegrE ?norm2_ge0 ?ler0n // norm2_sqr.
have p1 : (p.-1 < p)%N by rewrite prednK.
have -> : dotv v v = dotv (beta^-1 *: nth 0 vb 0) (beta^-1 *: nth 0 vb 0) + 1.
  rewrite {1}/dotv big_split_ord /=; congr (_ + _).
    by apply: eq_bigr => i _; rewrite col_mxEu.
  rewrite (bigD1 (Ordinal p1)) //= big1 ?addr0 => [|l].
    by rewrite col_mxEd mxE eqxx mulr1.
  by rewrite -val_eqE /= => /negPf ne; rewrite col_mxEd mxE ne mulr0.
have : dotv (beta^-1 *: nth 0 vb 0) (beta^-1 *: nth 0 vb 0) <= 1.
  rewrite -norm2_sqr norm2Z normfV (ger0_norm (ltW b0)) exprn_ile1 ?mulr_ge0 ?norm2_ge0 ?invr_ge0 ?(ltW b0) //.
  by rewrite mulrC ler_pdivr_mulr // mul1r maxnorm_nth.
move=> h; apply: (@le_trans _ _ (1 + 1)); first by rewrite ler_add2r.
by have -> : 1 + 1 = 2%:R :> R by []; rewrite -natrX ler_nat.
Qed.

Lemma kiops_err m iom : (0 < m)%N -> (minn (n + p) m <= iom.+1)%N ->
  let th := ninf (dt *: A) + p%:R in
  exists w, kiops_fixedsteps expm expk a_lo dt vb m iom = Ok w /\
  ninf (w - ksum) <= beta * (2%:R * (stop_err (n + p) th + trunc_err (n + p) m 0 th)).
Proof.
move=> m0 hm th; have th0 : 0 <= th by rewrite addr_ge0 ?ninf_ge0 ?ler0n.
rewrite /kiops_fixedsteps -/beta -/p; case: ifP => b0; last first.
  exists 0; split=> //.
  have -> : ksum = 0.
    by rewrite /ksum big1 // => j _; rewrite maxnorm_0 ?mulmx0 // -/beta b0.
  rewrite subrr ninf0 mulr_ge0 ?maxnorm_ge0 // mulr_ge0 ?ler0n //.
  by rewrite addr_ge0 ?stop_err_ge0 ?trunc_err_ge0.
rewrite (negPf (lt0n_neq0 p0)).
have hT := aug_block dt (beta^-1 *: kiops_B p vb) (kiops_K R_rcfType p) hA.
have [w [hw he]] := @phi_linop_err expm expk expmE expkE (n + p) _ T 1 v m iom 0 hT m0 hm.
rewrite /matexp_linop -/p -/v hw /=; eexists; split; first by [].
rewrite scale1r in he; rewrite -kiops_exp // -scalerBr ninfZ ger0_norm ?(ltW b0) // ler_wpmul2l ?(ltW b0) //.
have -> : usubmx w - usubmx (expmx T *m v) = usubmx (w - phi 0 T *m v).
  by apply/matrixP => a b; rewrite !mxE.
apply: (@le_trans _ _ (ninf (w - phi 0 T *m v))).
  apply: ninf_le => [|a]; first exact: ninf_ge0.
  apply: le_trans (ninf_row _ (lshift p a)); apply: ler_sum => b _; by rewrite mxE.
apply: le_trans he _; apply: ler_pmul; rewrite ?norm2_ge0 ?v_norm //.
  by rewrite addr_ge0 ?stop_err_ge0 ?trunc_err_ge0 ?ninf_ge0.
have hTn := T_norm b0.
by apply: ler_add; [apply: stop_err_le|apply: trunc_err_le => //; apply: ninf_ge0].
Qed.

Lemma kiops_full m iom : (0 < m)%N -> (n + p <= iom.+1)%N ->
  (0 < beta -> a_k (arnoldi_lop_jit (lo_mv (AugMatrixLinOp a_lo dt (beta^-1 *: kiops_B p vb) (kiops_K _ p)))
       1 ((norm2 v)^-1 *: v) m iom) = (n + p)%N) ->
  kiops_fixedsteps expm expk a_lo dt vb m iom = Ok ksum.
Proof.
move=> m0 hm hk; rewrite /kiops_fixedsteps -/beta -/p; case: ifP => b0; last first.
  congr Ok; rewrite /ksum big1 // => j _; by rewrite maxnorm_0 ?mulmx0 // -/beta b0.
rewrite (negPf (lt0n_neq0 p0)).
have hT := aug_block dt (beta^-1 *: kiops_B p vb) (kiops_K R_rcfType p) hA.
have v0 : v != 0.
  apply/eqP => e; have p1 : (p.-1 < p)%N by rewrite prednK.
  have := congr1 (fun x : 'cV[R]_(n + p) => x (rshift n (Ordinal p1)) 0) e.
  by rewrite col_mxEd !mxE eqxx => /eqP; rewrite oner_eq0.
rewrite /matexp_linop -/v (phi_linop_full expmE expkE hT v0 m0 0 (hk b0) hm) /= scale1r.
by rewrite kiops_exp.
Qed.
End KiopsSum.
