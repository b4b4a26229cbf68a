(* ProofsOrderEx.v : the scalar Riccati equation u' = u^2, u(0) = 1, solution 1/(1-s): the data of
   C66 for it. *)
From Coq Require Import Reals String Lra.
From mathcomp Require Import all_ssreflect all_algebra.
From mathcomp Require Import complex ring.
From Verif Require Import Rstruct Summable MxBase MxSeries ModelHist SpecHist ModelOps SpecOps SpecPhi ModelPhi ModelKrylov ModelInt SpecInt SpecProg SpecOrder SpecOrder2.
From Verif Require Import ProofsKrylov ProofsKrylov2 ProofsKrylov3 ProofsKryCode PropExact ProofsOrder9.
Set Implicit Arguments.
Unset Strict Implicit.
Unset Printing Implicit Defensive.
Import Order.TTheory GRing.Theory Num.Theory.
Local Open Scope ring_scope.

Definition ric_f (s : R) (u : 'cV[R]_1) : 'cV[R]_1 := const_mx (u 0 0 ^+ 2).
Definition ric_J (u : 'cV[R]_1) : 'M[R]_1 := const_mx (2%:R * u 0 0).
Definition ric_sys : odesys [rcfType of R] unit 1 :=
  OdeSys (fun _ => ric_f) (fun _ t u => JacLop (MatrixLinOp (ric_J u)) 0 (ric_f t u)).
Definition ric_y : 'cV[R]_1 := const_mx 1.
Definition ric_z (s : R) : 'cV[R]_1 := const_mx (1 - s)^-1.
Definition ric_H2 (i j : 'I_(1 + 1)) : 'cV[R]_1 := if (i == 1) && (j == 1) then const_mx 2%:R else 0.
Definition ric_H3 (i j k : 'I_(1 + 1)) : 'cV[R]_1 := 0.

Lemma ric_smooth : smooth_system ric_sys ric_f 0 ric_y 0 (ric_J ric_y).
Proof. by []. Qed.
Lemma ric_sym : sym2 ric_H2.
Proof. by move=> i j; rewrite /ric_H2 andbC. Qed.
Lemma ric_diff2 s h : diff2 ric_H2 (tx s h) (tx s h) = const_mx (2%:R * h 0 0 ^+ 2).
Proof.
have e1 : tx s h (lift ord0 ord0) 0 = h 0 0.
  by have := col_mxEd (s%:M : 'cV[R]_1) h 0 0; rewrite /tx => <-; congr (_ _ _); apply: val_inj.
rewrite /diff2 /= !big_ord_recl !big_ord0 /= /ric_H2 /= !scaler0 !add0r !addr0 e1.
by apply/matrixP => i j; rewrite !mxE /=; move: (h 0 0) => u; ring.
Qed.
Lemma ric_taylor k : (0 < k)%N -> (k <= 3)%N -> has_taylor k ric_f 0 ric_y 0 (ric_J ric_y) ric_H2 ric_H3.
Proof.
move=> k0 k3 eps e0; exists eps; split=> // s h rho hs hh hr i; rewrite (ord1 i).
have r0 := le_trans (normr_ge0 _) hs.
rewrite /taylor_poly ric_diff2 /diff3 /ric_H3.
have -> : (if (2 < k)%N then 6%:R^-1 *: (\sum_i0 \sum_j \sum_k0 (tx s h i0 0 * tx s h j 0 * tx s h k0 0) *: 0) else 0) = 0 :> 'cV[R]_1.
  case: ifP => // _; rewrite big1 ?scaler0 // => a _; rewrite big1 // => b _; rewrite big1 // => c _; exact: scaler0.
case: ltnP => hk.
  suff -> : (ric_f (0 + s) (ric_y + h) - (ric_f 0 ric_y + s *: 0 + ric_J ric_y *m h + 2%:R^-1 *: const_mx (2%:R * h 0 0 ^+ 2) + 0)) 0 0 = 0 :> R.
    by rewrite normr0 mulr_ge0 ?exprn_ge0 // ltW.
  rewrite !mxE big_ord1 !mxE; move: (h 0 0) => u; by field.
have -> : (k = 1)%N by case: k k0 hk {k3} => [|[]].
suff -> : (ric_f (0 + s) (ric_y + h) - (ric_f 0 ric_y + s *: 0 + ric_J ric_y *m h + 0 + 0)) 0 0 = h 0 0 ^+ 2 :> R.
  by rewrite normrX expr1 expr2 ler_pmul ?normr_ge0 // (le_trans (hh _)).
rewrite !mxE big_ord1 !mxE; move: (h 0 0) => u; by ring.
Qed.
Lemma ric_lip : lipschitz_near ric_f 0 ric_y.
Proof.
exists 4%:R, 1; split; [exact: ler0n|exact: ltr01|].
move=> s u u' _ hu hu' rho hr i; rewrite !mxE subr_sqr normrM mulrC.
have b (w : 'cV[R]_1) : maxnorm_le (w - ric_y) 1 -> `|w 0 0| <= 2%:R.
  move=> /(_ 0); rewrite !mxE => h; rewrite -[w 0 0](subrK 1); apply: le_trans (ler_norm_add _ _) _.
  by rewrite normr1 (natrD _ 1 1) ler_add2r.
apply: ler_pmul; rewrite ?normr_ge0 //.
  by apply: le_trans (ler_norm_add _ _) _; rewrite (natrD _ 2 2) ler_add // b.
by have := hr 0; rewrite !mxE.
Qed.
Lemma RinvE' (x : R) : Rinv x = x^-1 :> R.
Proof. by have [->|x0] := eqVneq x 0; [rewrite invr0 Rinv_0|exact: RinvE]. Qed.
Lemma ric_solves : solves_near ric_f 0 ric_y ric_z.
Proof.
split; first by apply/matrixP => i j; rewrite !mxE subr0 invr1.
exists 2%:R^-1; split; first by rewrite invr_gt0 ltr0n.
move=> s hs i; rewrite ?RplusE !add0r /= !mxE ?RplusE ?add0r.
have s1 : 1 - s != 0.
  apply/eqP => e; have es : s = 1 by apply/esym/eqP; rewrite -subr_eq0 e.
  move: hs; rewrite es normr1 => /le_gtF; by rewrite invf_lt1 ?ltr0n // ltr1n.
have h := derivable_pt_lim_div _ _ _ _ _ (derivable_pt_lim_const 1 s) (derivable_pt_lim_minus _ _ _ _ _ (derivable_pt_lim_const 1 s) (derivable_pt_lim_id s)).
have {h} h := h (elimN eqP s1).
rewrite (_ : (1 - s)^-1 ^+ 2 = Rdiv (Rminus (Rmult 0 (minus_fct (fct_cte 1) Ranalysis1.id s)) (Rmult (Rminus 0 1) (fct_cte 1 s))) (Rsqr (minus_fct (fct_cte 1) Ranalysis1.id s))).
  apply: (ProofsOde.dlim_ext _ h) => x; rewrite /div_fct /minus_fct /fct_cte /Ranalysis1.id mxE /Rdiv (RinvE' (1 - x)%R).
  exact: mul1r.
rewrite /Rdiv /minus_fct /fct_cte /Ranalysis1.id (RinvE' (Rsqr _)) /Rsqr ?RmultE ?RminusE !mul0r !sub0r mulN1r opprK mul1r.
by rewrite exprVn expr2.
Qed.
Lemma ideal_phi_accurate kdim iom (M : 'M[R]_1) (dt del : R) : (0 < kdim)%N -> 0 <= del -> phi_accurate ideal_kernels kdim iom M dt del.
Proof.
move=> kd d0 L hL c k v c0 c1 k0 k3; exists (phi k ((c * dt) *: M) *m v); split.
  have [->|v0] := eqVneq v 0; first by rewrite phi_linop_0 mulmx0.
  apply: (phi_linop_full (fun _ _ => erefl) (fun _ _ => erefl) hL v0 kd) => //.
  have := st_k L (c * dt) iom v0 kd; rewrite (minn_idPl kd).
  by case: (a_k _) => [|[]].
move=> P /is_phiP -> rho hr i; rewrite subrr mxE normr0 mulr_ge0 //.
exact: (entry_rho i hr).
Qed.
