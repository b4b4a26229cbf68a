(* PropCram2.v : C77, the CRAM evaluators on matrices. *)
From Coq Require Import Reals ZArith String.
From mathcomp Require Import all_ssreflect all_algebra.
From mathcomp Require Import complex.
From Verif Require Import Rstruct MxBase MxSeries SpecPhi ModelHist ModelOps ModelInt ModelPade ModelCauchy PropCauchy.
From Verif Require Import ProofsLejaDD2 PropCram.
Set Implicit Arguments.
Unset Strict Implicit.
Unset Printing Implicit Defensive.
Import Order.TTheory GRing.Theory Num.Theory.
Local Open Scope ring_scope.

Definition cram : cauchy := Cauchy cram_theta cram_alpha cram_alpha0.
Lemma cram_ok : gen_cram_expm 16 = Ok cram. Proof. by []. Qed.
Lemma cram_nz : 0 \notin cram_theta.
Proof. by apply/negP => /cram_off; rewrite /= eqxx. Qed.

(* a matrix that multiplies the columns of P by small numbers *)
Lemma spec_bound n m (P M : 'M[R]_n) (e : 'I_n -> R) (b : R) (v : 'M[R]_(n, m)) : P \in unitmx ->
  (forall k, M *m col k P = e k *: col k P) -> (forall k, `|e k| <= b) ->
  forall i j, `|(M *m v) i j| <= b * \sum_k `|P i k| * `|(invmx P *m v) k j|.
Proof.
move=> hP hM hb i j.
have hMP : M *m P = P *m diag_mx (\row_k e k).
  apply/matrixP => a k; rewrite mul_mx_diag !mxE; move: (congr1 (fun Y : 'cV_n => Y a 0) (hM k)).
  by rewrite !mxE mulrC => <-; apply: eq_bigr => q _; rewrite !mxE.
have -> : M *m v = P *m (diag_mx (\row_k e k) *m (invmx P *m v)).
  by rewrite !mulmxA -hMP -[X in _ = X *m _]mulmxA mulmxV // mulmx1.
rewrite mxE; apply: le_trans (ler_norm_sum _ _ _) _; rewrite mulr_sumr; apply: ler_sum => k _.
rewrite mul_diag_mx !mxE !normrM mulrCA; apply: ler_wpmul2r => //.
by rewrite mulr_ge0.
Qed.

Lemma phi1_scalar (x : R) : phi 1 (x%:M : 'M[R]_1) = (phi1R x)%:M.
Proof.
rewrite /phi1R; case: eqP => [->|/eqP x0].
  by rewrite raddf0 phi_at0 /ifact /= invr1 scale1r.
have h := phi_rec 0 (x%:M : 'M[R]_1); rewrite -/(expmx _) expmx_scalar in h.
have {}h : x *: phi 1 (x%:M : 'M[R]_1) = (exp x - 1)%:M.
  rewrite raddfB /= h /ifact /= invr1 scale1r addrAC subrr add0r mul_scalar_mx //.
by rewrite mulrC -scale_scalar_mx -h scalerA mulVf // scale1r.
Qed.
Definition phiR (l : nat) (x : R) : R := (if l is 0 then exp x else phi1R x)%R.
Lemma phi_col n (P Z : 'M[R]_n) (d : 'I_n -> R) l k : (l <= 1)%N ->
  Z *m col k P = d k *: col k P -> phi l Z *m col k P = phiR l (d k) *: col k P.
Proof.
move=> hl h.
have h1 : Z *m col k P = col k P *m (d k)%:M by rewrite mul_mx_scalar.
rewrite (phi_intertwine l h1); case: l hl => [|[|l]] // _ /=.
  by rewrite -/(expmx _) expmx_scalar mul_mx_scalar.
by rewrite phi1_scalar mul_mx_scalar.
Qed.
Lemma diag_col n (P Z : 'M[R]_n) (d : 'rV[R]_n) k : Z *m P = P *m diag_mx d -> Z *m col k P = d 0 k *: col k P.
Proof.
move=> h; apply/matrixP => i j; rewrite [in RHS]mxE [col k P i j]mxE mulrC.
have := congr1 (fun Y : 'M_n => Y i k) h; rewrite mul_mx_diag [RHS]mxE => <-.
by rewrite !mxE; apply: eq_bigr => q _; rewrite mxE.
Qed.

Section Mx.
Variables (n : nat) (A : 'M[R]_n) (dt : R).
Lemma cram_real_eig l (x : R) (v : 'cV[R]_n) (r : R) : pole_free cram_theta (dt *: A) ->
  (dt *: A) *m v = x *: v -> pole_sum cram_theta cram_alpha l (x%:C)%C = (r%:C)%C ->
  Fl cram A dt l *m v = r *: v.
Proof.
move=> hp hv hr; apply: cof_inj; rewrite cof_mul cof_scale.
have hv' : cof (dt *: A) *m cof v = ((x%:C)%C) *: cof v by rewrite -cof_mul hv cof_scale.
by rewrite (@Fl_eig cram _ _ _ hp l _ _ hv') hr.
Qed.
End Mx.

Lemma a0_small : `|complex.Re cram_alpha0| <= 1 / 10%:R ^+ 14.
Proof.
rewrite a0E normrM normfV (ger0_norm (ltW (ten_gt0 35))) ler_pdivr_mulr ?ten_gt0 //.
have -> : 1 / 10%:R ^+ 14 * tenk 35 = tenk 21 :> R.
  by rewrite /tenk (_ : 35 = 14 + 21)%N // exprD mul1r mulKf // expf_neq0 // pnatr_eq0.
have h1 : Rle (IZR 0) (IZR 21248537104952237488) by apply IZR_le; apply Zle_bool_imp_le.
have h2 : Rle (IZR 21248537104952237488) (IZR (Z.pow 10 (Z.of_nat 21))) by apply IZR_le; apply Zle_bool_imp_le.
move: h1 h2; rewrite (tenE 21); move: (IZR 21248537104952237488) (tenk 21) => a b h1 h2.
by rewrite ger0_norm; apply/RleP.
Qed.

Section Mx2.
Variables (n : nat) (A : 'M[R]_n) (dt : R) (P : 'M[R]_n) (d : 'rV[R]_n).
Hypotheses (hP : P \in unitmx) (hA : (dt *: A) *m P = P *m diag_mx d) (hd : forall k, d 0 k <= 0).
Lemma hpf : pole_free cram_theta (dt *: A).
Proof. exact: diag_pole_free hP hA cram_off. Qed.
Definition Err l : 'M[R]_n := Fl cram A dt l + complex.Re cram_alpha0 *: 1%:M - phi l (dt *: A).
Lemma pole0r (x : R) : pole_sum cram_theta cram_alpha 0 (x%:C)%C = ((cram_r x - complex.Re cram_alpha0)%:C)%C.
Proof. by rewrite raddfB /= -cram_rE addrAC subrr add0r. Qed.
Lemma Err0 k : Err 0 *m col k P = (cram_r (d 0 k) - exp (d 0 k)) *: col k P.
Proof.
have hc := diag_col k hA.
rewrite /Err mulmxBl mulmxDl (@phi_col n P (dt *: A) (fun k => d 0 k) 0 k) //.
rewrite (cram_real_eig hpf hc (pole0r _)) -scalemxAl mul1mx -scalerDl subrK -scalerBl //.
Qed.
Lemma Err1 k : Err 1 *m col k P = (cram_r1 (d 0 k) + complex.Re cram_alpha0 - phi1R (d 0 k)) *: col k P.
Proof.
have hc := diag_col k hA.
rewrite /Err mulmxBl mulmxDl (@phi_col n P (dt *: A) (fun k => d 0 k) 1 k) //.
rewrite (cram_real_eig hpf hc (cram_r1E _)) -scalemxAl mul1mx -scalerDl -scalerBl //.
Qed.
End Mx2.
Lemma ten13 : 9%:R / 10%:R ^+ 14 + 1 / 10%:R ^+ 14 = 1 / 10%:R ^+ 13 :> R.
Proof.
rewrite -mulrDl -(natrD _ 9 1) [10%:R ^+ 14]exprS invfM mulrA mulfV ?mul1r //.
by rewrite pnatr_eq0.
Qed.

(* C77.  Every matrix with an eigenvector basis P and real eigenvalues <= 0 of dt A, every schedule: the
   dense exponential of CRAM is within 5e-14 |P| |P^-1|, entry by entry, of the exponential of dt A, and
   its application to v within 5e-14 |P| |P^-1 v|. *)
Theorem C77_matrix : exists c, gen_cram_expm 16 = Ok c /\
  forall n (A P : 'M[R]_n) (dt : R) (d : 'rV[R]_n) sch (X : 'M[R]_n),
  P \in unitmx -> (dt *: A) *m P = P *m diag_mx d -> (forall k, d 0 k <= 0) ->
  schedule (size (c_theta c)) sch -> is_expm (dt *: A) X ->
  (exists E, matexp_dense_cauchy c sch A dt = Ok E /\
     forall i j, `|(E - X) i j| <= 5%:R / 10%:R ^+ 14 * \sum_k `|P i k| * `|(invmx P) k j|) /\
  forall m (v : 'M[R]_(n, m)), exists w, matexp_dense_apply_cauchy c sch A dt v = Ok w /\
     forall i j, `|(w - X *m v) i j| <= 5%:R / 10%:R ^+ 14 * \sum_k `|P i k| * `|(invmx P *m v) k j|.
Proof.
exists cram; split; first exact: cram_ok.
move=> n A P dt d sch X hP hA hd hs /is_phiP ->.
have hp := hpf hP hA.
have hb m (v : 'M[R]_(n, m)) i j : `|(Err A dt 0 *m v) i j| <= 5%:R / 10%:R ^+ 14 * \sum_k `|P i k| * `|(invmx P *m v) k j|.
  by apply: (spec_bound _ hP (Err0 hP hA)) => k; exact: axis_err.
split.
  exists (Fl cram A dt 0 + complex.Re cram_alpha0 *: 1%:M); split; first exact: (@dense_run cram).
  by move=> i j; have := hb n 1%:M i j; rewrite !mulmx1.
move=> m v; exists ((Fl cram A dt 0 + complex.Re cram_alpha0 *: 1%:M) *m v); split; first exact: (@apply_run cram).
by move=> i j; rewrite -mulmxBl; exact: hb.
Qed.
Print Assumptions C77_matrix.

(* C77.  The evaluator exposed to Python: DensePhikvEvalRs("cram" or "cram_16", 16).eval(A, dt, v, l), for
   l = 0 and 1, is within 1e-13 |P| |P^-1 v| of phi_l(dt A) v. *)
Theorem C77_phi_apply (method : string) n (A P : 'M[R]_n) (dt : R) (d : 'rV[R]_n) sch (l : nat) (X : 'M[R]_n) (v : 'cV[R]_n) :
  method = "cram"%string \/ method = "cram_16"%string -> (l <= 1)%N ->
  P \in unitmx -> (dt *: A) *m P = P *m diag_mx d -> (forall k, d 0 k <= 0) ->
  schedule 8 sch -> is_phi l (dt *: A) X ->
  exists ev w, [/\ dense_phikv_eval_new method 16 = Ok ev, dense_phikv_eval ev sch A dt v l = Ok w &
  forall i, `|(w - X *m v) i 0| <= 1 / 10%:R ^+ 13 * \sum_k `|P i k| * `|(invmx P *m v) k 0|].
Proof.
move=> hm hl hP hA hd hs /is_phiP ->.
have hp := hpf hP hA.
exists (Some cram), (Fl cram A dt l *m v + complex.Re cram_alpha0 *: v); split.
- by case: hm => ->.
- by apply: (@phik_run cram) => //; right; exact: cram_nz.
move=> i.
rewrite (_ : _ - _ = Err A dt l *m v); last by rewrite /Err mulmxBl mulmxDl -scalemxAl mul1mx.
case: l hl => [|[|l]] // _.
  apply: (spec_bound _ hP (Err0 hP hA)) => k; apply: le_trans (axis_err (hd k)) _.
  rewrite -ten13 -[X in X <= _]addr0; apply: ler_add; last by rewrite mul1r invr_ge0; exact: (ltW (ten_gt0 14)).
  by apply: ler_wpmul2r; [rewrite invr_ge0; exact: (ltW (ten_gt0 14))|rewrite ler_nat].
apply: (spec_bound _ hP (Err1 hP hA)) => k; rewrite addrAC -ten13.
by apply: le_trans (ler_norm_add _ _) _; apply: ler_add; [exact: axis1_err|exact: a0_small].
Qed.
Print Assumptions C77_phi_apply.

(* C77.  Conservation, for every matrix no pole of CRAM is an eigenvalue of: one number r within 3e-16 of 1
   such that u (E v) = r (u v) for every conserved row u (u A = 0), and E v = r v for every equilibrium
   (A v = 0). *)
Theorem C77_conservation : exists c (r : R), [/\ gen_cram_expm 16 = Ok c, `|r - 1| <= 3%:R / 10%:R ^+ 16 &
  forall n (A : 'M[R]_n) (dt : R) sch m (v : 'M[R]_(n, m)), pole_free (c_theta c) (dt *: A) ->
  schedule (size (c_theta c)) sch -> exists w,
  [/\ matexp_dense_apply_cauchy c sch A dt v = Ok w,
      forall k (u : 'M[R]_(k, n)), u *m A = 0 -> u *m w = r *: (u *m v)
    & A *m v = 0 -> w = r *: v]].
Proof.
exists cram, (cram_r 0); split; [exact: cram_ok|exact: axis0|].
move=> n A dt sch m v hp hs.
exists ((Fl cram A dt 0 + complex.Re cram_alpha0 *: 1%:M) *m v).
have hr := @Fl_rec cram n A dt hp 0 cram_nz.
have hm : ml cram 0 = cram_r 0 - complex.Re cram_alpha0.
  by apply: complexI; rewrite mlE; have := pole0r 0; rewrite rmorph0.
have e0 : Fl cram A dt 0 = (ml cram 0)%:M + (dt *: A) *m Fl cram A dt 1 by rewrite hr addrC subrK.
have e1 : Fl cram A dt 0 + complex.Re cram_alpha0 *: 1%:M = (cram_r 0)%:M + (dt *: A) *m Fl cram A dt 1.
  by rewrite e0 hm addrAC scalemx1 -raddfD subrK.
rewrite e1; split.
- rewrite -e1; exact: (@apply_run cram).
- move=> k u hu; have hz : u *m (dt *: A) = 0 by rewrite -scalemxAr hu scaler0.
  by rewrite mulmxDl mulmxDr !mulmxA hz !mul0mx addr0 mul_mx_scalar -scalemxAl.
- move=> hv; have hz : (dt *: A) *m v = 0 by rewrite -scalemxAl hv scaler0.
  by rewrite (@Fl_comm cram _ _ _ hp) mulmxDl -mulmxA hz mulmx0 addr0 mul_scalar_mx.
Qed.
Print Assumptions C77_conservation.

(* the hypotheses are met: diag(-1, 0) with the identity basis; a schedule for the 8 poles; and the
   conserved row (0, 1) of that matrix *)
Lemma C77_example : exists (A P : 'M[R]_2) (d : 'rV[R]_2) (u : 'rV[R]_2),
  [/\ P \in unitmx, (1 *: A) *m P = P *m diag_mx d, forall k, d 0 k <= 0, schedule 8 (left_comb 7)
    & u *m A = 0 /\ u != 0 /\ A != 0].
Proof.
pose d : 'rV[R]_2 := \row_j (if j == 0 then -1 else 0).
exists (diag_mx d), 1%:M, d, (\row_j (if j == 0 then 0 else 1)); split.
- exact: unitmx1.
- by rewrite scale1r mulmx1 mul1mx.
- by move=> k; rewrite mxE; case: (k == 0) => //; rewrite oppr_le0 ler01.
- exact: left_comb_ok.
split; last split.
- apply/matrixP => i j; rewrite mul_mx_diag !mxE; case: (j == 0); rewrite ?mul0r ?mulr0 //.
- by apply/eqP => /matrixP /(_ 0 1); rewrite !mxE /= => /eqP; rewrite oner_eq0.
- by apply/eqP => /matrixP /(_ 0 0); rewrite !mxE /= => /eqP; rewrite mulr1n oppr_eq0 oner_eq0.
Qed.
