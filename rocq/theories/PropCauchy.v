(* PropCauchy.v : C76, the rational evaluators (CRAM, parabolic contour) of the Rust crate. *)
From Coq Require Import Reals ZArith String.
From mathcomp Require Import all_ssreflect all_algebra.
From mathcomp Require Import complex.
From mathcomp Require Import ring.
From Verif Require Import Rstruct ModelHist ModelOps ModelInt ModelPade ModelCauchy.
Set Implicit Arguments.
Unset Strict Implicit.
Unset Printing Implicit Defensive.
Import Order.TTheory GRing.Theory Num.Theory.
Local Open Scope ring_scope.

(* specification *)
(* a real matrix seen as a complex one *)
Definition cof n m (A : 'M[R]_(n, m)) : 'M[R[i]]_(n, m) := map_mx (real_complex R) A.
(* the sum over the poles and their conjugates of w_k / (t_k^l (z - t_k)) *)
Definition pole_sum (ts ws : seq R[i]) (l : nat) (z : R[i]) : R[i] :=
  \sum_(k < size ts) (let t := nth 0 ts k in let w := nth 0 ws k in
    w / (t ^+ l * (z - t)) + conjc w / (conjc t ^+ l * (z - conjc t))).
(* no pole is an eigenvalue of Z *)
Definition pole_free n (ts : seq R[i]) (Z : 'M[R]_n) : Prop :=
  forall t, t \in ts -> forall x : 'cV[R[i]]_n, cof Z *m x = t *: x -> x = 0.
(* one way of splitting and joining the range of the s poles *)
Definition schedule (s : nat) (sch : par_tree) : Prop := par_leaves sch = iota 0 s.

Lemma par_reduceE (V : zmodType) (f : nat -> V) t : par_reduce f t = \sum_(k <- par_leaves t) f k.
Proof. by elim: t => [k|l hl r hr] /=; rewrite ?big_seq1 // big_cat hl hr. Qed.
Lemma reduceE (V : zmodType) (f : nat -> V) s sch : (0 < s)%N -> schedule s sch ->
  reduce_with s sch f = Ok (\sum_(k < s) f k).
Proof.
by case: s => // s _ h; rewrite /reduce_with par_reduceE h -(big_mkord xpredT f).
Qed.

Section Fix.
Variables (c : cauchy) (n : nat) (A : 'M[R]_n) (dt : R).
Notation ts := (c_theta c).
Notation ws := (c_alpha c).
Notation a0 := (complex.Re (c_alpha0 c)).
Hypothesis ts0 : (0 < size ts)%N.
Hypothesis hp : pole_free ts (dt *: A).
Let Z : 'M[R[i]]_n := cof (dt *: A).
Let th k : R[i] := nth 0 ts k.
Let al k : R[i] := nth 0 ws k.
Let Rk k : 'M[R[i]]_n := invmx (Z - (th k)%:M).

Lemma scaleE m k (B : 'M[R]_(m, k)) d : complex_mat_scale B d = cof (d *: B).
Proof. by apply/matrixP => i j; rewrite !mxE -rmorphM mulrC. Qed.
Lemma Zunit k : (k < size ts)%N -> Z - (th k)%:M \in unitmx.
Proof.
move=> hk; rewrite -unitmx_tr -row_free_unit; apply: inj_row_free => v hv.
apply: (can_inj (@trmxK _ _ _)); rewrite trmx0; apply: (hp (mem_nth 0 hk)).
have := congr1 trmx hv; rewrite trmx_mul trmxK trmx0 mulmxBl mul_scalar_mx => /eqP.
by rewrite subr_eq0 => /eqP.
Qed.
Lemma conjZ : map_mx (@conjc R_ringType) Z = Z.
Proof. by apply/matrixP => i j; rewrite !mxE; exact: conjc_real. Qed.
Lemma Zcunit k : (k < size ts)%N -> Z - (conjc (th k))%:M \in unitmx.
Proof.
move=> hk; have := Zunit hk; rewrite -(map_unitmx (conjc_rmorphism R_rcfType)).
by rewrite map_mxB map_scalar_mx conjZ.
Qed.
Lemma conjRk k : map_mx (conjc_rmorphism R_rcfType) (Rk k) = invmx (Z - (conjc (th k))%:M).
Proof. by rewrite /Rk map_invmx map_mxB map_scalar_mx conjZ. Qed.
Lemma cof_real m k (X : 'M[R[i]]_(m, k)) :
  cof (2%:R *: real_mat X) = X + map_mx (conjc_rmorphism R_rcfType) X.
Proof.
apply/matrixP => i j; rewrite !mxE rmorphM rmorph_nat.
exact: (esym (@addcJ R_rcfType (X i j))).
Qed.
Lemma real_add m k (X Y : 'M[R[i]]_(m, k)) : real_mat (X + Y) = real_mat X + real_mat Y.
Proof. by apply/matrixP => i j; rewrite !mxE raddfD. Qed.
Lemma real_mulC m k p (X : 'M[R[i]]_(m, k)) (v : 'M[R]_(k, p)) : real_mat (X *m cof v) = real_mat X *m v.
Proof.
apply/matrixP => i j; rewrite !mxE raddf_sum; apply: eq_bigr => l _; rewrite !mxE.
by case: (X i l) => a b /=; rewrite mulr0 subr0.
Qed.
Lemma real1 m : real_mat (1%:M : 'M[R[i]]_m) = 1%:M.
Proof. by apply/matrixP => i j; rewrite !mxE; case: eqP. Qed.

(* the operator behind the l-th evaluation *)
Definition Fl (l : nat) : 'M[R]_n := 2%:R *: real_mat (\sum_(k < size ts) (al k / th k ^+ l) *: Rk k).

Lemma cof_Fl l : cof (Fl l) = \sum_(k < size ts)
  ((al k / th k ^+ l) *: Rk k + (conjc (al k) / conjc (th k) ^+ l) *: invmx (Z - (conjc (th k))%:M)).
Proof.
rewrite /Fl cof_real raddf_sum /= -big_split /=; apply: eq_bigr => k _; congr (_ + _).
rewrite map_mxZ conjRk; congr (_ *: _).
by rewrite rmorphM fmorphV rmorphX.
Qed.

Lemma inv_eig (t lam : R[i]) (x : 'cV[R[i]]_n) : Z - t%:M \in unitmx -> Z *m x = lam *: x ->
  invmx (Z - t%:M) *m x = (lam - t)^-1 *: x.
Proof.
move=> hu hx; case: (eqVneq lam t) => [e|ne].
  have : (Z - t%:M) *m x = 0 by rewrite mulmxBl hx mul_scalar_mx e subrr.
  by move=> h; rewrite -[x](mulKmx hu) h mulmx0 mulmx0 scaler0.
apply: (can_inj (mulKmx hu)); rewrite mulKVmx // -scalemxAr mulmxBl hx mul_scalar_mx -scalerBl scalerA mulVf ?scale1r //.
by rewrite subr_eq0.
Qed.
Lemma Fl_eig l (lam : R[i]) (x : 'cV[R[i]]_n) : Z *m x = lam *: x ->
  cof (Fl l) *m x = pole_sum ts ws l lam *: x.
Proof.
move=> hx; rewrite cof_Fl mulmx_suml scaler_suml; apply: eq_bigr => k _.
rewrite mulmxDl -!scalemxAl (inv_eig (Zunit (ltn_ord k)) hx) (inv_eig (Zcunit (ltn_ord k)) hx).
by cbv zeta; rewrite !scalerA -scalerDl !invfM !mulrA.
Qed.
Lemma cof_add m k (X Y : 'M[R]_(m, k)) : cof (X + Y) = cof X + cof Y. Proof. exact: map_mxD. Qed.
Lemma cof_mul m k p (X : 'M[R]_(m, k)) (Y : 'M[R]_(k, p)) : cof (X *m Y) = cof X *m cof Y. Proof. exact: map_mxM. Qed.
Lemma cof_scale m k a (X : 'M[R]_(m, k)) : cof (a *: X) = (a%:C)%C *: cof X. Proof. exact: map_mxZ. Qed.
Lemma cof_inj m k : injective (@cof m k).
Proof. by move=> X Y /matrixP h; apply/matrixP => i j; have := h i j; rewrite !mxE => -[]. Qed.

Lemma dense_run sch : schedule (size ts) sch -> matexp_dense_cauchy c sch A dt = Ok (Fl 0 + a0 *: 1%:M).
Proof.
move=> hs; rewrite /matexp_dense_cauchy (reduceE _ ts0 hs) /= real1; congr (Ok (_ *: real_mat _ + _)).
by apply: eq_bigr => k _; rewrite expr0 divr1 scaleE scalemx1.
Qed.
Lemma phik_run sch m (v : 'M[R]_(n, m)) l : schedule (size ts) sch -> (l = 0%N \/ 0 \notin ts) ->
  phik_dense_apply_cauchy c sch A dt v l = Ok (Fl l *m v + a0 *: v).
Proof.
move=> hs hl; rewrite /phik_dense_apply_cauchy (reduceE _ ts0 hs) /= /Fl -scalemxAl -real_mulC mulmx_suml.
congr (Ok (_ *: real_mat _ + _)); apply: eq_bigr => k _.
have t0 : th k ^+ l != 0.
  case: hl => [->|/memPn h]; first by rewrite expr0 oner_eq0.
  by rewrite expf_neq0 // h // mem_nth.
rewrite !scaleE scale1r scalemx1 -/(th k) -/Z invmxZ; last by rewrite unitmxZ ?Zunit ?unitfE.
by rewrite -scalemxAl -scalemxAr scalerA -scalemxAl -/(Rk k) mulrC.
Qed.
Lemma apply_run sch m (v : 'M[R]_(n, m)) : schedule (size ts) sch ->
  matexp_dense_apply_cauchy c sch A dt v = Ok ((Fl 0 + a0 *: 1%:M) *m v).
Proof.
move=> hs; rewrite mulmxDl -scalemxAl mul1mx -(phik_run v hs (or_introl erefl)).
rewrite /matexp_dense_apply_cauchy /phik_dense_apply_cauchy !(reduceE _ ts0 hs) /=.
congr (Ok (_ *: real_mat _ + _)); apply: eq_bigr => k _; by rewrite expr0 scale1r.
Qed.
Lemma Rk_step k : (k < size ts)%N -> Z *m Rk k = 1%:M + th k *: Rk k.
Proof.
move=> hk; have := mulmxV (Zunit hk); rewrite -/(Rk k) mulmxBl mul_scalar_mx => /eqP.
by rewrite subr_eq => /eqP.
Qed.
Lemma Rk_comm k : (k < size ts)%N -> Rk k *m Z = Z *m Rk k.
Proof.
move=> hk; rewrite (Rk_step hk); have := mulVmx (Zunit hk); rewrite -/(Rk k) mulmxBr mul_mx_scalar => /eqP.
by rewrite subr_eq => /eqP.
Qed.
Definition ml (l : nat) : R := complex.Re (pole_sum ts ws l 0).
Lemma pole0E l : pole_sum ts ws l 0 = \sum_(k < size ts)
   (- (al k / th k ^+ l.+1) - conjc (al k) / conjc (th k) ^+ l.+1).
Proof.
by apply: eq_bigr => k _; cbv zeta; rewrite !sub0r !mulrN !invrN !mulrN -!exprSr.
Qed.
Lemma mlE l : (ml l)%:C%C = pole_sum ts ws l 0.
Proof.
rewrite /ml pole0E.
have -> : \sum_(k < size ts) (- (al k / th k ^+ l.+1) - conjc (al k) / conjc (th k) ^+ l.+1) =
  \sum_(k < size ts) (- (2%:R * complex.Re (al k / th k ^+ l.+1)))%:C%C :> R[i].
  apply: eq_bigr => k _; rewrite -opprD rmorphN rmorphM rmorph_nat; congr (- _).
  rewrite -(@addcJ R_rcfType); congr (_ + _).
  by rewrite (rmorphM (conjc_rmorphism R_rcfType)) (fmorphV (conjc_rmorphism R_rcfType)) (rmorphX (conjc_rmorphism R_rcfType)).
by rewrite -rmorph_sum /=.
Qed.
Lemma cof_scalar m (a : R) : cof (a%:M : 'M_m) = ((a%:C)%C)%:M.
Proof. by rewrite /cof map_scalar_mx. Qed.
Lemma Fl_rec l : 0 \notin ts -> (dt *: A) *m Fl l.+1 = Fl l - (ml l)%:M.
Proof.
move=> /memPn h0; apply: cof_inj; rewrite cof_mul -/Z.
have -> : cof (Fl l - (ml l)%:M) = cof (Fl l) - cof (ml l)%:M by rewrite /cof map_mxB.
rewrite cof_scalar mlE pole0E !cof_Fl mulmx_sumr raddf_sum -sumrB; apply: eq_bigr => k _ /=.
have hk := ltn_ord k; have t0 : th k != 0 by rewrite h0 // mem_nth.
have t0' : conjc (th k) != 0 by rewrite fmorph_eq0.
have e1 : Z *m Rk k = 1%:M + th k *: Rk k := Rk_step hk.
have e2 : Z *m invmx (Z - (conjc (th k))%:M) = 1%:M + conjc (th k) *: invmx (Z - (conjc (th k))%:M).
  have := mulmxV (Zcunit hk); rewrite mulmxBl mul_scalar_mx => /eqP.
  by rewrite subr_eq => /eqP.
rewrite mulmxDr -!scalemxAr e1 e2 !scalerDr !scalerA !scalemx1.
have f (a t : R[i]) : t != 0 -> a / t ^+ l.+1 * t = a / t ^+ l.
  by move=> tn; rewrite exprSr invfM mulrA mulrAC mulfK // mulrC.
rewrite !f // raddfD !raddfN opprD !opprK addrACA [RHS]addrC; congr (_ + _).
Qed.
Lemma Fl_comm l : (dt *: A) *m Fl l = Fl l *m (dt *: A).
Proof.
apply: cof_inj; rewrite !cof_mul -/Z cof_Fl mulmx_sumr mulmx_suml; apply: eq_bigr => k _.
have hk := ltn_ord k.
have e2 : Z *m invmx (Z - (conjc (th k))%:M) = invmx (Z - (conjc (th k))%:M) *m Z.
  have h1 := mulmxV (Zcunit hk); have := mulVmx (Zcunit hk).
  rewrite mulmxBr mul_mx_scalar => /eqP; rewrite subr_eq => /eqP ->.
  by move: h1; rewrite mulmxBl mul_scalar_mx => /eqP; rewrite subr_eq => /eqP ->.
by rewrite mulmxDr mulmxDl -!scalemxAr -!scalemxAl e2 (Rk_comm hk).
Qed.
End Fix.

Lemma invmx_eq (F : fieldType) n (M N : 'M[F]_n) : M *m N = 1%:M -> invmx M = N.
Proof. by move=> h; have [u _] := mulmx1_unit h; rewrite -[invmx M]mulmx1 -h mulKmx. Qed.

Lemma real_scale m k (d : R) (X : 'M[R[i]]_(m, k)) : real_mat ((d%:C)%C *: X) = d *: real_mat X.
Proof. by apply/matrixP => i j; rewrite !mxE; case: (X i j) => a b /=; rewrite mul0r subr0. Qed.

Section Ext.
Variables (c : cauchy) (n : nat) (A : 'M[R]_n) (dt : R).
Hypothesis ts0 : (0 < size (c_theta c))%N.
Hypothesis hp : pole_free (c_theta c) (dt *: A).
Hypothesis h0 : 0 \notin c_theta c.
Let B : 'M[R]_(n + n) := block_mx A 1%:M 0 0.
Lemma cofB : cof (dt *: B) = block_mx (cof (dt *: A)) ((dt%:C)%C)%:M 0 0.
Proof.
rewrite /B scale_block_mx !scaler0 scalemx1 /cof map_block_mx; congr block_mx; rewrite ?map_mx0 //.
by rewrite map_scalar_mx.
Qed.
Lemma hpB : pole_free (c_theta c) (dt *: B).
Proof.
move=> t ht x; rewrite cofB -[x]vsubmxK mul_block_col scale_col_mx !mul0mx addr0 => /eq_col_mx [e1 e2].
have t0 : t != 0 by apply: contraNneq h0 => <-.
have d0 : dsubmx x = 0.
  by apply/eqP; move/esym/eqP: e2; rewrite scaler_eq0 (negPf t0).
by rewrite d0 (hp ht (x := usubmx x)) ?col_mx0 //; move: e1; rewrite d0 mulmx0 addr0.
Qed.
Lemma ext_inv k : (k < size (c_theta c))%N ->
  let t := nth 0 (c_theta c) k in
  ursubmx (invmx (cof (dt *: B) - t%:M)) = ((dt%:C)%C / t) *: invmx (cof (dt *: A) - t%:M).
Proof.
move=> hk t; have t0 : t != 0 by apply: contraNneq h0 => <-; rewrite mem_nth.
have u := Zunit hp hk; rewrite -/t in u.
set N := invmx (cof (dt *: A) - t%:M).
rewrite (@invmx_eq _ _ _ (block_mx N (((dt%:C)%C / t) *: N) 0 (- t^-1)%:M)) ?block_mxKur //.
rewrite cofB (scalar_mx_block n n t) opp_block_mx add_block_mx !oppr0 !addr0 !add0r mulmx_block.
rewrite !mul0mx !mulmx0 !addr0 !add0r -scalemxAr /N mulmxV // -scalar_mxM.
rewrite mulrN raddfN /= scalemx1 subrr.
have -> : - t%:M *m (- t^-1)%:M = 1%:M :> 'M_n by rewrite mulNmx -scalar_mxM mulrN mulfV // raddfN /= opprK.
by rewrite -scalar_mx_block.
Qed.
Lemma ext_run sch : schedule (size (c_theta c)) sch -> phik_dense_cauchy c sch A dt 1 = Ok (dt *: Fl c A dt 1).
Proof.
move=> hs; rewrite /phik_dense_cauchy /= /cauchy_phi_ext /mat_pow /= mulmx1 (dense_run B dt ts0 hs) /=; congr Ok.
have -> : ursubmx (Fl c B dt 0 + complex.Re (c_alpha0 c) *: 1%:M) =
  ursubmx (Fl c B dt 0) + complex.Re (c_alpha0 c) *: ursubmx (1%:M : 'M_(n + n)) by apply/matrixP => i j; rewrite !mxE.
rewrite (scalar_mx_block n n) block_mxKur scaler0 addr0.
have -> : ursubmx (Fl c B dt 0) = 2%:R *: real_mat (\sum_(k < size (c_theta c)) ursubmx (((nth 0 (c_alpha c) k / nth 0 (c_theta c) k ^+ 0) *: invmx (cof (dt *: B) - (nth 0 (c_theta c) k)%:M)))).
  rewrite /Fl; apply/matrixP => i j; rewrite !mxE !summxE; congr (_ * complex.Re _).
  by apply: eq_bigr => k _; rewrite [RHS]mxE [RHS]mxE.
rewrite /Fl scalerA mulrC -scalerA; congr (_ *: _).
rewrite -real_scale.
rewrite scaler_sumr; congr real_mat; apply: eq_bigr => k _.
rewrite expr0 divr1 expr1 scalerA -[ursubmx _]/(ursubmx _).
have -> : ursubmx (nth 0 (c_alpha c) k *: invmx (cof (dt *: B) - (nth 0 (c_theta c) k)%:M)) =
  nth 0 (c_alpha c) k *: ursubmx (invmx (cof (dt *: B) - (nth 0 (c_theta c) k)%:M)).
  by apply/matrixP => i j; rewrite !mxE.
rewrite (ext_inv (ltn_ord k)) scalerA; congr (_ *: _).
by rewrite mulrCA.
Qed.
End Ext.

(* C76.  For every set of poles and weights, every matrix none of whose eigenvalues is a pole, and every
   way rayon splits and joins the sum over the poles: matexp_dense_cauchy returns one and the same matrix
   E, a rational function of dt A: E commutes with dt A and multiplies every (real or complex) eigenvector
   by Re alpha_0 + the sum over the poles and their conjugates; matexp_dense_apply_cauchy returns E v. *)
Theorem C76_exponential (c : cauchy) n (A : 'M[R]_n) (dt : R) :
  (0 < size (c_theta c))%N -> pole_free (c_theta c) (dt *: A) ->
  exists E : 'M[R]_n,
  [/\ forall sch, schedule (size (c_theta c)) sch -> matexp_dense_cauchy c sch A dt = Ok E,
      forall sch m (v : 'M[R]_(n, m)), schedule (size (c_theta c)) sch ->
        matexp_dense_apply_cauchy c sch A dt v = Ok (E *m v),
      (dt *: A) *m E = E *m (dt *: A)
    & forall (lam : R[i]) (x : 'cV[R[i]]_n), cof (dt *: A) *m x = lam *: x ->
        cof E *m x = (((complex.Re (c_alpha0 c))%:C)%C + pole_sum (c_theta c) (c_alpha c) 0 lam) *: x].
Proof.
move=> ts0 hp; exists (Fl c A dt 0 + complex.Re (c_alpha0 c) *: 1%:M); split.
- by move=> sch hs; exact: dense_run.
- by move=> sch m v hs; exact: apply_run.
- by rewrite mulmxDr mulmxDl (Fl_comm hp) scalemx1 mul_mx_scalar mul_scalar_mx.
- move=> lam x hx; rewrite cof_add mulmxDl (Fl_eig hp _ hx) cof_scale -scalemxAl.
  by rewrite /cof map_mx1 mul1mx -scalerDl addrC.
Qed.
Print Assumptions C76_exponential.

(* C76.  phik_apply(A, dt, v, l) returns F_l v + Re(alpha_0) v, where the F_l satisfy the recurrence of
   the phi functions, dt A F_{l+1} = F_l - m_l with m_l the value of the l-th rational function at 0 in
   place of 1/l!; phik_dense_cauchy(A, dt, 1) returns dt F_1 : a factor dt more than phik_apply(.., 1),
   and no offset. *)
Theorem C76_phi (c : cauchy) n (A : 'M[R]_n) (dt : R) :
  (0 < size (c_theta c))%N -> 0 \notin c_theta c -> pole_free (c_theta c) (dt *: A) ->
  exists (F : nat -> 'M[R]_n) (m : nat -> R),
  [/\ forall sch l k (v : 'M[R]_(n, k)), schedule (size (c_theta c)) sch ->
        phik_dense_apply_cauchy c sch A dt v l = Ok (F l *m v + complex.Re (c_alpha0 c) *: v),
      forall l (lam : R[i]) (x : 'cV[R[i]]_n), cof (dt *: A) *m x = lam *: x ->
        cof (F l) *m x = pole_sum (c_theta c) (c_alpha c) l lam *: x,
      forall l, (dt *: A) *m F l.+1 = F l - (m l)%:M,
      forall l, ((m l)%:C)%C = pole_sum (c_theta c) (c_alpha c) l 0
    & forall sch, schedule (size (c_theta c)) sch ->
        phik_dense_cauchy c sch A dt 1 = Ok (dt *: F 1%N)].
Proof.
move=> ts0 h0 hp; exists (Fl c A dt), (ml c); split.
- by move=> sch l k v hs; apply: phik_run => //; right.
- by move=> l lam x; exact: Fl_eig.
- by move=> l; exact: Fl_rec.
- by move=> l; exact: mlE.
- by move=> sch hs; exact: ext_run.
Qed.
Print Assumptions C76_phi.

(* C76.  The refusals. *)
Theorem C76_refusals :
  [/\ forall ts ws a, (exists c, cauchy_new ts ws a = Ok c) <-> size ts = size ws,
      forall c sch n (A : 'M[R]_n) dt k, (1 < k)%N -> phik_dense_cauchy c sch A dt k = Raise RustPanic,
      forall c sch n (A : 'M[R]_n) dt l (v : 'cV[R]_n), size (c_theta c) = 0%N ->
        matexp_dense_cauchy c sch A dt = Raise RustPanic /\ phik_dense_apply_cauchy c sch A dt v l = Raise RustPanic,
      forall order, (exists c, gen_cram_expm order = Ok c) <-> order = 16%N
    & forall order, (exists c, gen_parabolic_expm order = Ok c) <-> ~~ odd order].
Proof.
split.
- move=> ts ws a; rewrite /cauchy_new; case: eqP => e; split=> //; last by case.
  by move=> _; exists (Cauchy ts ws a).
- by move=> c sch n A dt k; rewrite /phik_dense_cauchy ltnNge => ->.
- by move=> c sch n A dt l v h; rewrite /matexp_dense_cauchy /phik_dense_apply_cauchy /reduce_with h.
- move=> order; rewrite /gen_cram_expm; case: eqP => e; split=> //; last by case.
  by move=> _; exists (Cauchy cram_theta cram_alpha cram_alpha0).
- move=> order; rewrite /gen_parabolic_expm; case: (odd order); split=> //; first by case.
  by move=> _; rewrite /cauchy_new !size_map eqxx /=; eexists.
Qed.
Print Assumptions C76_refusals.

(* the contour: N (0.1309 - 0.1194 s^2 + 0.25 i s) at the angle s *)
Definition contour (N : nat) (s : R) : R[i] :=
  ((N%:R * (1309%:R / 10%:R ^+ 4 - 1194%:R / 10%:R ^+ 4 * s ^+ 2))%R +i* (N%:R * (25%:R / 10%:R ^+ 2 * s))%R)%C.
Definition contour' (N : nat) (s : R) : R[i] :=
  ((N%:R * (- (2%:R * (1194%:R / 10%:R ^+ 4) * s)))%R +i* (N%:R * (25%:R / 10%:R ^+ 2))%R)%C.

Lemma odd_iota m : [seq i <- iota 1 m.*2 | odd i] = [seq k.*2.+1 | k <- iota 0 m].
Proof.
elim: m => // m ih; rewrite doubleS -[m.*2.+2]addn2 iotaD filter_cat ih add1n /= odd_double /=.
by rewrite -[RHS]/[seq k.*2.+1 | k <- iota 0 m.+1] -[in RHS]addn1 iotaD map_cat.
Qed.
Lemma odd_iota1 m : [seq i <- iota 1 m.*2.-1 | odd i] = [seq k.*2.+1 | k <- iota 0 m].
Proof.
rewrite -odd_iota; case: m => // m; rewrite doubleS succnK -[m.*2.+2]addn1 iotaD filter_cat add1n.
have -> : [seq i <- iota m.*2.+2 1 | odd i] = [::] by rewrite /= odd_double.
by rewrite cats0.
Qed.
Lemma decE (m k : nat) : dec (Z.of_nat m) k = m%:R / 10%:R ^+ k :> R.
Proof.
have e : (pow (IZR 10) k : R) = 10%:R ^+ k :> R by rewrite powE -(INRE 10) INR_IZR_INZ.
rewrite /dec RdivE e; last by rewrite expf_neq0 // pnatr_eq0.
by rewrite -INR_IZR_INZ INRE.
Qed.
Lemma d1 : dec 1309 4 = 1309%:R / 10%:R ^+ 4. Proof. exact: (@decE 1309 4). Qed.
Lemma d2 : dec 1194 4 = 1194%:R / 10%:R ^+ 4. Proof. exact: (@decE 1194 4). Qed.
Lemma d3 : dec 25 2 = 25%:R / 10%:R ^+ 2. Proof. exact: (@decE 25 2). Qed.
Lemma phiE N s : parabolic_phi N (s%:C)%C = contour N s.
Proof.
rewrite /parabolic_phi /contour d1 d2 d3; move: (_ / _) (_ / _) (_ / _) (N%:R : R) => a b d M.
rewrite expr2; apply/eqP; rewrite eq_complex /=; apply/andP; split; apply/eqP; ring.
Qed.
Lemma phi'E N s : parabolic_phi_prime N (s%:C)%C = contour' N s.
Proof.
rewrite /parabolic_phi_prime /contour' d2 d3; move: (_ / _) (_ / _) (N%:R : R) => a b M.
apply/eqP; rewrite eq_complex /=; apply/andP; split; apply/eqP; ring.
Qed.
Lemma contour_der N s :
  derivable_pt_lim (fun s => complex.Re (contour N s)) s (complex.Re (contour' N s)) /\
  derivable_pt_lim (fun s => complex.Im (contour N s)) s (complex.Im (contour' N s)).
Proof.
rewrite /contour /contour' /=; move: (1309%:R / _) (1194%:R / _) (25%:R / _) (N%:R : R) => a b d M; split.
- have -> : M * (- (2%:R * b * s)) = M * (0 - b * (1 * s + s * 1)) :> R by ring.
  apply: (@derivable_pt_lim_scal (fun s => a - b * s ^+ 2)).
  apply: (@derivable_pt_lim_minus (fun=> a) (fun s => b * s ^+ 2)); first exact: derivable_pt_lim_const.
  apply: (@derivable_pt_lim_scal (fun s : R => s ^+ 2)).
  exact: (@derivable_pt_lim_mult id id s 1 1 (derivable_pt_lim_id s) (derivable_pt_lim_id s)).
- have -> : M * d = M * (d * 1) :> R by ring.
  apply: (@derivable_pt_lim_scal (fun s => d * s)); apply: (@derivable_pt_lim_scal id); exact: derivable_pt_lim_id.
Qed.

(* C76.  gen_parabolic_expm of an even order 2m: the poles are the points of the parabolic contour at the
   m midpoint angles pi (2k+1) / (2m), all above the real axis; each weight is (i / 2m) e^pole times the
   derivative of the contour; the offset is 0. *)
Theorem C76_parabolic (m : nat) :
  exists c, gen_parabolic_expm m.*2 = Ok c /\
  [/\ size (c_theta c) = m, size (c_alpha c) = m, c_alpha0 c = 0,
      forall k, (k < m)%N -> let s : R := (PI * k.*2.+1%:R / m.*2%:R)%R in
        [/\ nth 0 (c_theta c) k = contour m.*2 s,
            nth 0 (c_alpha c) k = 'i%C / ((m.*2%:R : R)%:C)%C * (cexp (contour m.*2 s) * contour' m.*2 s)
          & 0 < complex.Im (nth 0 (c_theta c) k)]
    & forall N s, derivable_pt_lim (fun s => complex.Re (contour N s)) s (complex.Re (contour' N s)) /\
                  derivable_pt_lim (fun s => complex.Im (contour N s)) s (complex.Im (contour' N s))].
Proof.
have e : parabolic_angles m.*2 = [seq (((PI * k.*2.+1%:R / m.*2%:R)%R : R)%:C)%C | k <- iota 0 m].
  by rewrite /parabolic_angles odd_iota1 -map_comp.
rewrite /gen_parabolic_expm odd_double /cauchy_new e !size_map eqxx /=; eexists; split; first by [].
split=> /=; rewrite ?size_map ?size_iota //; last exact: contour_der.
move=> k hk; pose s : R := (PI * k.*2.+1%:R / m.*2%:R)%R; rewrite -/s.
have ek (f : R[i] -> R[i]) : nth 0 [seq f th | th <- [seq (((PI * k.*2.+1%:R / m.*2%:R)%R : R)%:C)%C | k <- iota 0 m]] k
   = f ((s%:C)%C).
  by rewrite -map_comp (nth_map 0%N) ?size_iota //= nth_iota.
rewrite !ek phiE; split=> //; first by rewrite /parabolic_alpha phiE phi'E.
rewrite /contour /=; apply: mulr_gt0; first by rewrite ltr0n double_gt0; case: (m) hk.
apply: mulr_gt0; first by rewrite divr_gt0 ?exprn_gt0 ?ltr0n.
rewrite /s divr_gt0 ?ltr0n ?double_gt0 //; last by case: (m) hk.
by rewrite mulr_gt0 ?ltr0n //; apply/RltP; exact: PI_RGT_0.
Qed.
Print Assumptions C76_parabolic.

(* a schedule exists for every number of poles *)
Fixpoint left_comb (s : nat) : par_tree := if s is s'.+1 then PNode (left_comb s') (PLeaf s) else PLeaf 0.
Lemma left_comb_ok s : schedule s.+1 (left_comb s).
Proof. by elim: s => // s ih; rewrite /schedule -[par_leaves _]/(par_leaves (left_comb s) ++ [:: s.+1]) ih -[in RHS]addn1 iotaD. Qed.

(* matrices with real eigenvalues (in particular similar to a real diagonal matrix) meet the hypothesis on
   the poles when no pole is real *)
Lemma diag_pole_free n (P : 'M[R]_n) (d : 'rV[R]_n) (Z : 'M[R]_n) ts :
  P \in unitmx -> Z *m P = P *m diag_mx d -> (forall t, t \in ts -> complex.Im t != 0) -> pole_free ts Z.
Proof.
move=> hP hZ ht t tin x hx.
have hcP : cof P \in unitmx by rewrite map_unitmx.
pose y := invmx (cof P) *m x.
have xE : x = cof P *m y by rewrite /y mulKVmx.
have hy : cof (diag_mx d) *m y = t *: y.
  apply: (can_inj (mulKmx hcP)); rewrite mulmxA -cof_mul -hZ cof_mul -mulmxA -xE hx.
  by rewrite -scalemxAr -xE.
clearbody y; rewrite xE; suff -> : y = 0 by rewrite mulmx0.
apply/matrixP => i j; have := congr1 (fun M : 'cV_n => M i j) hy.
have -> : (cof (diag_mx d) *m y) i j = ((d 0 i)%:C)%C * y i j.
  by rewrite /cof map_diag_mx mul_diag_mx !mxE.
rewrite !mxE => /eqP; rewrite -subr_eq0 -mulrBl mulf_eq0 => /orP [|/eqP //].
rewrite subr_eq0 => /eqP e; have := ht t tin; rewrite -e /= eqxx //.
Qed.
