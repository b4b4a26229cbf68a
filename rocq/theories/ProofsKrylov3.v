(* ProofsKrylov3.v : Krylov evaluation of phi functions of real matrices: exactness, backward
   error after an early stop, truncation error; sign symmetry *)
From Coq Require Import Reals.
From Coquelicot Require Import Coquelicot.
From mathcomp Require Import all_ssreflect all_algebra.
From mathcomp Require Import ring.
From Verif Require Import Rstruct Summable MxBase MxSeries ModelHist ModelOps SpecOps ProofsOps.
From Verif Require Import ModelPhi ProofsPhiR ProofsPhiErr ModelKrylov ProofsKrylov ProofsKrylov2.
Set Implicit Arguments.
Unset Strict Implicit.
Unset Printing Implicit Defensive.
Import Order.TTheory GRing.Theory Num.Theory.
Local Open Scope ring_scope.
Local Opaque breakdown_tol norm2.

(* ---- perturbation of phi ---- *)
Lemma phi_diff n (X Y : 'M[R]_n) j (M : R) : ninf X <= M -> ninf Y <= M ->
  ninf (phi j X - phi j Y) <= ninf (X - Y) * exp M.
Proof.
move=> hX hY.
have M0 : 0 <= M by apply: le_trans hX; apply: ninf_ge0.
have E k : entire (fun i => ifact _ (i + k)) by apply: entire_ifact.
have E0 : entire (fun i => ifact _ i) by apply: entire_ext (E 0%N) => i; rewrite addn0.
pose c i := ifact [numFieldType of R] (i + j).
have c0 i : 0 <= c i by apply: ifact_ge0.
have d0 : 0 <= ninf (X - Y) by apply: ninf_ge0.
have ent a b : (phi j X - phi j Y) a b = ssum (fun i => c i * (mxpow X i - mxpow Y i) a b).
  rewrite !mxE -ssumN -ssumD; try exact: ser_summable; last first.
    by apply: summableN; apply: ser_summable.
  by apply: ssum_ext => i; rewrite !mxE mulrBr.
have S1 a b : summable (fun i => c i * (mxpow X i - mxpow Y i) a b).
  have := summableD (ser_summable X a b (E j)) (summableN (ser_summable Y a b (E j))).
  by apply: summable_ext => i; rewrite !mxE mulrBr.
pose g (i : nat) : R := if i is i'.+1 then ninf (X - Y) * (ifact _ i' * M ^+ i') else 0.
have Sg : summable g by apply/summableS; apply: summableZ; apply: E0.
have gsum : ssum g = ninf (X - Y) * exp M by rewrite ssumS // add0r /= ssumZ -exp_ssum.
apply: ninf_le => [|a]; first by rewrite mulr_ge0 // exp_ge0.
rewrite -gsum.
apply: (@le_trans _ _ (\sum_b ssum (fun i => `|c i * (mxpow X i - mxpow Y i) a b|))).
  by apply: ler_sum => b _; rewrite ent; apply: ler_ssum_abs.
rewrite -ssum_sum; last by move=> b _; apply: summable_abs.
apply: ssum_le => // [|i]; first by apply: summable_sum => b _; apply: summable_abs.
under eq_bigr do rewrite normrM (ger0_norm (c0 i)).
rewrite -mulr_sumr.
apply: (@le_trans _ _ (c i * (i%:R * ninf (X - Y) * M ^+ i.-1))).
  rewrite ler_wpmul2l //; apply: le_trans (ninf_row _ a) _; exact: pow_diff.
case: i => [|i] /=; first by rewrite !mul0r mulr0.
have -> : c i.+1 * (i.+1%:R * ninf (X - Y) * M ^+ i) = ninf (X - Y) * ((i.+1%:R * c i.+1) * M ^+ i).
  by ring.
rewrite ler_wpmul2l // ler_wpmul2r ?exprn_ge0 //.
apply: (@le_trans _ _ (i.+1%:R * ifact _ i.+1)); last by rewrite ifactS'.
rewrite ler_wpmul2l ?ler0n //.
apply: le_trans (ifactD_le i.+1 j) _; rewrite -[X in _ <= X]mul1r ler_wpmul2r ?ifact_ge0 //; exact: ifact_le1.
Qed.

(* ---- entries and the 2-norm ---- *)
Lemma entry_le_norm2 (F : rcfType) n (u : 'cV[F]_n) i : `|u i 0| <= norm2 u.
Proof.
rewrite -(@ler_pexpn2r _ 2) ?nnegrE ?norm2_ge0 // norm2_sqr real_normK ?num_real //.
rewrite /dotv (bigD1 i) //= -expr2 ler_addl; apply: sumr_ge0 => l _; by rewrite -expr2 sqr_ge0.
Qed.
Lemma ninf_cst m n (A : 'M[R]_(m, n)) (c : R) : 0 <= c -> (forall a b, `|A a b| <= c) -> ninf A <= n%:R * c.
Proof.
move=> c0 h; apply: ninf_le => [|a]; first by rewrite mulr_ge0 ?ler0n.
apply: (@le_trans _ _ (\sum_(b < n) c)); first by apply: ler_sum.
by rewrite sumr_const card_ord mulr_natl.
Qed.
Lemma ninf_col n (u : 'cV[R]_n) : ninf u <= norm2 u.
Proof.
rewrite -[X in _ <= X]mul1r; apply: (@ninf_cst _ 1) => [|a b]; first exact: norm2_ge0.
by rewrite ord1 entry_le_norm2.
Qed.

Section Kry.
Variable expm expk : forall n, 'M[R]_n -> 'M[R]_n.
Hypothesis expmE : forall n (A : 'M[R]_n), expm A = expmx A.
Hypothesis expkE : forall n (A : 'M[R]_n), expk A = expmx A.
Variables (n : nat) (L : 'cV[R]_n -> 'cV[R]_n) (A : 'M[R]_n) (dt : R).
Hypothesis LA : forall v, L v = A *m v.

Lemma phi_linop_eq v m iom j (S' : 'M[R]_n) : v != 0 -> (0 < m)%N ->
  let st := arnoldi_lop_jit L dt ((norm2 v)^-1 *: v) m iom in
  S' *m aQ st = aQ st *m aH st ->
  phi_linop expm expk L dt v j m iom = Ok (phi j S' *m v).
Proof.
move=> v0 m0 st h; have [-> e] := phi_linopE expm expk L dt j iom v0 m0.
rewrite -/st in e *; congr Ok.
rewrite (f_phi_k_appl_phi expmE _ _ _ expkE) mulmxA -(phi_intertwine _ h) -mulmxA scalemxAr.
by rewrite e.
Qed.

Section St.
Variables (v : 'cV[R]_n) (m iom : nat).
Hypothesis v0 : v != 0.
Hypothesis m0 : (0 < m)%N.
Let st := arnoldi_lop_jit L dt ((norm2 v)^-1 *: v) m iom.
Let fin := arnoldi_finished L dt iom (normalised_neq0 v0) m0.
Let k := a_k st.
Let r := rm L dt (a_k st) (a_hs st) (a_qs st).

Lemma st_rel : (dt *: A) *m aQ st = aQ st *m aH st + r *m elast R_rcfType k.
Proof. exact: (arn_rel LA fin). Qed.
Lemma st_k : (0 < k <= minn n m)%N. Proof. exact: (fin_pos fin). Qed.
Lemma st_orth : (minn n m <= iom.+1)%N -> (aQ st)^T *m aQ st = 1%:M.
Proof.
move=> h; apply: (Qm_orth fin); have /andP[_ hk] := st_k.
exact: leq_trans hk (leqW h).
Qed.
Lemma st_orthr : (minn n m <= iom.+1)%N -> (aQ st)^T *m r = 0.
Proof.
move=> h; apply: (Qm_rm fin); have /andP[_ hk] := st_k; exact: leq_trans hk h.
Qed.
Lemma st_end : k = minn n m \/ norm2 r <= breakdown_tol _.
Proof. exact: (fin_end fin). Qed.
Lemma st_Q1 (a : 'I_n) (b : 'I_k) : `|aQ st a b| <= 1.
Proof.
rewrite mxE (le_trans (entry_le_norm2 _ a)) // norm2_1 //; apply: (fin_unit fin); exact: ltn_ord.
Qed.

(* full space *)
Lemma st_full : k = n -> (minn n m <= iom.+1)%N -> r = 0.
Proof.
move=> kn h; apply: (orth_full (Q := aQ st) kn); [exact: st_orth|exact: st_orthr].
Qed.
Lemma phi_linop_full j : k = n -> (n <= iom.+1)%N ->
  phi_linop expm expk L dt v j m iom = Ok (phi j (dt *: A) *m v).
Proof.
move=> kn h; apply: phi_linop_eq => //; rewrite st_rel st_full ?mul0mx ?addr0 //.
by apply: leq_trans (geq_minl _ _) h.
Qed.

(* early stop: backward error *)
Lemma phi_linop_back j : norm2 r <= breakdown_tol _ -> (minn n m <= iom.+1)%N ->
  exists E : 'M[R]_n, ninf E <= n%:R * breakdown_tol _ /\
  phi_linop expm expk L dt v j m iom = Ok (phi j (dt *: A - E) *m v).
Proof.
move=> hr h; exists (r *m (elast R_rcfType k *m (aQ st)^T)); split.
  apply: ninf_cst => [|a b]; first exact: (ltW (tol_gt0 _)).
  rewrite mxE big_ord1 normrM -[X in _ <= X]mulr1 ler_pmul //.
    exact: le_trans (entry_le_norm2 _ _) hr.
  rewrite mxE; have /andP[k0 _] := st_k.
  have k1 : (k.-1 < k)%N by rewrite prednK.
  rewrite (bigD1 (Ordinal k1)) //= big1 ?addr0.
    by rewrite !mxE eqxx mul1r; have := st_Q1 b (Ordinal k1); rewrite mxE.
  by move=> l; rewrite -val_eqE /= => ne; rewrite !mxE (negPf ne) mul0r.
apply: phi_linop_eq => //; rewrite mulmxBl st_rel -!mulmxA st_orth // mulmx1.
by rewrite addrK.
Qed.

Lemma st_Hn : (minn n m <= iom.+1)%N -> ninf (aH st) <= n%:R * m%:R * ninf (dt *: A).
Proof.
move=> h.
have -> : aH st = (aQ st)^T *m ((dt *: A) *m aQ st).
  by rewrite st_rel mulmxDr !mulmxA st_orth // mul1mx st_orthr // mul0mx addr0.
apply: le_trans (ninfM _ _) _; rewrite -mulrA ler_pmul ?ninf_ge0 //.
  by rewrite -[X in _ <= X]mulr1; apply: (ninf_cst ler01) => a b; rewrite mxE st_Q1.
apply: le_trans (ninfM _ _) _; rewrite mulrC ler_wpmul2r ?ninf_ge0 //.
apply: (@le_trans _ _ k%:R).
  by rewrite -[X in _ <= X]mulr1; apply: (ninf_cst ler01) => a b; rewrite st_Q1.
have /andP[_ hk] := st_k; by rewrite ler_nat (leq_trans hk) // geq_minr.
Qed.

(* truncated space *)
Lemma phi_linop_trunc j : k = m -> (minn n m <= iom.+1)%N ->
  let th := ninf (dt *: A) in let eta := n%:R * m%:R * th in
  exists w, phi_linop expm expk L dt v j m iom = Ok w /\
  ninf (w - phi j (dt *: A) *m v) <=
    norm2 v * ifact _ (m + j) * (th ^+ m * exp th + m%:R * (eta ^+ m * exp eta)).
Proof.
move=> km h th eta; have [-> ev] := phi_linopE expm expk L dt j iom v0 m0.
rewrite -/st in ev *; eexists; split; first by [].
have hH := st_Hn h; rewrite -/th -/eta in hH.
have eta0 : 0 <= eta by apply: le_trans hH; apply: ninf_ge0.
rewrite (f_phi_k_appl_phi expmE _ _ _ expkE).
set e1 := e1v _ _ in ev *; set Q := aQ st in ev *; set H := aH st in hH *.
have -> : phi j (dt *: A) *m v = norm2 v *: (phi j (dt *: A) *m (Q *m e1)).
  by rewrite -{1}ev -scalemxAr.
rewrite -scalerBr ninfZ ger0_norm ?norm2_ge0 // -mulrA ler_wpmul2l ?norm2_ge0 //.
rewrite (phi_remainder H j m) (phi_remainder (dt *: A) j m) !mulmxDl mulmxDr.
have hess (a b : 'I_k) : (b.+1 < a)%N -> H a b = 0.
  by move=> hab; apply: (Hm_hess fin); rewrite hab.
have -> : Q *m (phi_psum j m H *m e1) = phi_psum j m (dt *: A) *m (Q *m e1).
  symmetry; apply: (kry_poly st_rel hess (fun i => ifact _ (i + j)) _); by rewrite -/k km.
rewrite opprD addrACA subrr add0r; apply: le_trans (ninfD _ _) _; rewrite ninfN addrC.
have fac : 0 <= ifact [numFieldType of R] (m + j) by apply: ifact_ge0.
have pw N (Z : 'M[R]_N) (th' : R) : ninf Z <= th' ->
   ninf (mxpow Z m *m phi (m + j) Z) <= ifact _ (m + j) * (th' ^+ m * exp th').
  move=> hZ; have th0 : 0 <= th' by apply: le_trans hZ; apply: ninf_ge0.
  apply: le_trans (ninfM _ _) _.
  rewrite mulrCA; apply: ler_pmul; rewrite ?ninf_ge0 //.
    apply: le_trans (ninf_pow _ _) _; apply: ler_expn2r; rewrite ?nnegrE ?ninf_ge0 //.
  apply: le_trans (ninf_phi _ _) _; rewrite ler_wpmul2l //; exact: exp_le.
rewrite mulrDr; apply: ler_add.
  apply: le_trans (ninfM _ _) _; rewrite -[X in _ <= X]mulr1; apply: ler_pmul; rewrite ?ninf_ge0 //.
    exact: pw.
  rewrite Q_e1; last by case/andP: st_k.
  rewrite arnoldi_q0 ?normalised_neq0 // normalised_norm // invr1 scale1r.
  by apply: le_trans (ninf_col _) _; rewrite normalised_norm.
apply: le_trans (ninfM _ _) _; rewrite mulrCA; apply: ler_pmul; rewrite ?ninf_ge0 //.
  rewrite -[X in _ <= X]mulr1 -km; apply: (ninf_cst ler01) => a b; exact: st_Q1.
apply: le_trans (ninfM _ _) _; rewrite -[X in _ <= X]mulr1; apply: ler_pmul; rewrite ?ninf_ge0 //.
  exact: pw.
rewrite -[X in _ <= X]mulr1; apply: (@ninf_cst _ 1 _ _ ler01) => a b; rewrite mxE normr_nat.
by case: eqP => _; rewrite ?ler01 ?lexx.
Qed.
End St.
End Kry.

(* ---- sign symmetry: starting vector -b ---- *)
Section Neg.
Variable F : rcfType.
Variable n : nat.
Variable L : 'cV[F]_n -> 'cV[F]_n.
Hypothesis LN : forall v, L (- v) = - L v.
Definition negst (st st' : astate F n) : Prop :=
  [/\ forall i j, a_hs st' i j = a_hs st i j, forall i, a_qs st' i = - a_qs st i,
      a_k st' = a_k st & a_nb st' = a_nb st].
Lemma dotvNN (u v : 'cV[F]_n) : dotv (- u) (- v) = dotv u v.
Proof. by rewrite /dotv; apply: eq_bigr => i _; rewrite !mxE mulrNN. Qed.
Lemma norm2N (u : 'cV[F]_n) : norm2 (- u) = norm2 u.
Proof. by rewrite -scaleN1r norm2Z normrN1 mul1r. Qed.
Lemma ortho_neg (qs qs' : nat -> 'cV[F]_n) k l hs hs' qv qv' :
  (forall i, qs' i = - qs i) -> (forall i j, hs' i j = hs i j) -> qv' = - qv ->
  let x := foldl (body_ortho qs k) (hs, qv) l in
  let x' := foldl (body_ortho qs' k) (hs', qv') l in
  (forall i j, x'.1 i j = x.1 i j) /\ x'.2 = - x.2.
Proof.
move=> hq; elim: l hs hs' qv qv' => [|i l IH] hs hs' qv qv' hh hv //=.
apply: IH; first by move=> a b; rewrite /upd2 hv hq dotvNN hh.
by rewrite hv hq dotvNN scalerN opprB opprK addrC.
Qed.
Lemma body_neg s m iom st st' : negst st st' ->
  negst (body_arnoldi L s m iom st) (body_arnoldi L s m iom st').
Proof.
case: st => hs qs k nb; case: st' => hs' qs' k' nb' [/= h1 h2 -> _].
rewrite /body_arnoldi /arnoldi_mgs_lop /=.
have hv : s *: L (qs' k) = - (s *: L (qs k)) by rewrite h2 LN scalerN.
have := @ortho_neg qs qs' k (iota (k - iom) (k.+1 - (k - iom))) hs hs' _ _ h2 h1 hv.
case: foldl => hs1 qv; case: foldl => hs1' qv' /= [e1 e2].
rewrite e2 norm2N; split=> //= [i j|i].
  by case: ifP => _; rewrite /upd2 ?e1 //; case: ifP.
case: ifP => _; rewrite /upd1 ?h2 //; case: ifP => _ //; by rewrite scalerN.
Qed.
Lemma while_neg s m iom fuel st st' : negst st st' ->
  negst (arn_while L s m iom fuel st) (arn_while L s m iom fuel st').
Proof.
elim: fuel st st' => [|f IH] st st' h //=.
have [_ _ hk hb] := h; rewrite /cond_arnoldi hk hb; case: ifP => _ //.
by apply: IH; apply: body_neg.
Qed.
Lemma arnoldi_neg s b m iom :
  negst (arnoldi_lop_jit L s b m iom) (arnoldi_lop_jit L s (- b) m iom).
Proof.
apply: while_neg; rewrite /arnoldi_init norm2N; split=> //= i.
by rewrite /upd1; case: ifP => _; rewrite ?oppr0 //; case: ifP => _ //; rewrite scalerN.
Qed.
Variable expm expk : forall n, 'M[F]_n -> 'M[F]_n.
Lemma negst_out (st st' : astate F n) j : negst st st' ->
  aQ st' *m f_phi_k_appl expm expk (aH st') (e1v F (a_k st')) j
  = - (aQ st *m f_phi_k_appl expm expk (aH st) (e1v F (a_k st)) j).
Proof.
case: st => hs qs k nb; case: st' => hs' qs' k' nb' [/= h1 h2 hk _]; subst k'.
rewrite /aQ /aH /=.
have -> : \matrix_(i < k, j < k) hs' i j = \matrix_(i < k, j < k) hs i j.
  by apply/matrixP => a b; rewrite !mxE h1.
rewrite -mulNmx; congr (_ *m _); apply/matrixP => a b; by rewrite !mxE h2 mxE.
Qed.
Lemma phi_linop_neg dt v j m iom :
  phi_linop expm expk L dt (- v) j m iom
  = rbind (phi_linop expm expk L dt v j m iom) (fun w => Ok (- w)).
Proof.
rewrite /phi_linop norm2N; case: ifP => nv /=; last by rewrite oppr0.
rewrite scalerN; set b := _ *: v.
have h := arnoldi_neg dt b m iom; have [_ _ hk _] := h.
rewrite (negst_out j h) scalerN.
have -> : (0 < a_k (arnoldi_lop_jit L dt (- b) m iom))%N = (0 < a_k (arnoldi_lop_jit L dt b m iom))%N by rewrite hk.
by case: ifP.
Qed.
Lemma phi_linop_scale dt v j m iom c : (0 < m)%N ->
  phi_linop expm expk L dt (c *: v) j m iom
  = rbind (phi_linop expm expk L dt v j m iom) (fun w => Ok (c *: w)).
Proof.
move=> m0; have [c0|c0|->] := ltrgtP c 0.
- have -> : c *: v = - ((- c) *: v) by rewrite scaleNr opprK.
  rewrite phi_linop_neg phi_linop_pos ?oppr_gt0 //.
  have [w ->] := phi_linop_ok expm expk L dt v j iom m0; rewrite /=.
  by rewrite scaleNr opprK.
- exact: phi_linop_pos.
- rewrite scale0r phi_linop_0; have [w ->] := phi_linop_ok expm expk L dt v j iom m0.
  by rewrite /= scale0r.
Qed.
End Neg.
