(* ProofsProg3.v : GLL quadrature tables, torus distance, exponentials of Metzler matrices. *)
From Coq Require Import Reals Lra Lia ZArith.
From Coquelicot Require Import Coquelicot.
From mathcomp Require Import all_ssreflect all_algebra.
From mathcomp Require Import ring.
From Verif Require Import Rstruct ModelHist Summable MxBase MxSeries SpecPhi ModelProg SpecProg ProofsProg2.
Set Implicit Arguments.
Unset Strict Implicit.
Unset Printing Implicit Defensive.
Import Order.TTheory GRing.Theory Num.Theory.
Local Open Scope ring_scope.

Section GLL.
Variable F : rcfType.
Lemma half_pair (a : F) : (1 + a) / 2%:R + (1 + - a) / 2%:R = 1.
Proof. by field. Qed.
Lemma half_prod (a : F) : (1 + a) / 2%:R * ((1 + - a) / 2%:R) = (1 - a ^+ 2) / 4%:R.
Proof. by field. Qed.

Definition psums (x y c : F) := (pow_sum 0 (c:=c) (x:=x) (y:=y)).
Lemma ps (x y c : F) : x + y = 1 -> x * y = c ->
  [/\ x ^+ 2 + y ^+ 2 = 1 - 2%:R * c,
      x ^+ 3 + y ^+ 3 = 1 - 3%:R * c,
      x ^+ 4 + y ^+ 4 = 1 - 4%:R * c + 2%:R * c ^+ 2,
      x ^+ 5 + y ^+ 5 = 1 - 5%:R * c + 5%:R * c ^+ 2 &
      x ^+ 6 + y ^+ 6 = 1 - 6%:R * c + 9%:R * c ^+ 2 - 2%:R * c ^+ 3 /\
      x ^+ 7 + y ^+ 7 = 1 - 7%:R * c + 14%:R * c ^+ 2 - 7%:R * c ^+ 3].
Proof.
move=> h1 <-; have -> : y = 1 - x by rewrite -h1 addrC addKr.
by split; [| | | |split]; ring.
Qed.
Lemma zero_half : (1 + -1) / 2%:R = 0 :> F. Proof. by rewrite subrr mul0r. Qed.
Lemma one_half : (1 + 1) / 2%:R = 1 :> F. Proof. by field. Qed.

Lemma gll_ok k X W : GLL_quad F k = Ok (X, W) ->
  [/\ size X = k, size W = k, nth 0 X 0 = 0, nth 0 X 1 = 1 & all (fun w => 0 < w) W] /\
  forall i, (i < 2 * k - 2)%N -> \sum_(xw <- zip X W) xw.2 * xw.1 ^+ i = (i.+1)%:R^-1.
Proof.
case: k => [|[|[|[|[|[|k]]]]]] //; rewrite /GLL_quad /= /swap_1_last /mkseq /= => -[<- <-];
  rewrite /= ?zero_half ?one_half; (split; [split=> //=|]).
- by rewrite !divr_gt0 ?ltr01 ?ltr0n // !divr_gt0 ?ltr01 ?ltr0n.
- case=> [|[|i]] // _; rewrite !big_cons big_nil /= ?expr0n ?expr1n /=; by field.
- by rewrite !divr_gt0 ?ltr01 ?ltr0n // !divr_gt0 ?ltr01 ?ltr0n.
- rewrite addr0; case=> [|[|[|[|i]]]] // _; rewrite !big_cons big_nil /= ?expr0n ?expr1n /=; by field.
- by rewrite !divr_gt0 ?ltr01 ?ltr0n // !divr_gt0 ?ltr01 ?ltr0n.
- set r := Num.sqrt _; have r2 : r ^+ 2 = 5%:R by rewrite sqr_sqrtr ?ler0n.
  have r0 : r != 0 by apply: contra_eq_neq r2 => ->; rewrite expr0n /= eq_sym pnatr_eq0.
  rewrite mulN1r [1 / r]div1r; set x := (1 + r^-1) / _; set y := (1 + - r^-1) / _.
  have h1 : x + y = 1 by apply: half_pair.
  have h2 : x * y = 5%:R^-1.
    by rewrite half_prod exprVn r2; field.
  have [p2 p3 p4 p5 _] := ps h1 h2.
  have fin i : \sum_(xw <- [:: (0, 1 / 6%:R / 2%:R); (1, 1 / 6%:R / 2%:R); (x, 5%:R / 6%:R / 2%:R); (y, 5%:R / 6%:R / 2%:R)]) xw.2 * xw.1 ^+ i =
     1 / 6%:R / 2%:R * (i == 0%N)%:R + 1 / 6%:R / 2%:R + 5%:R / 6%:R / 2%:R * (x ^+ i + y ^+ i).
    by rewrite !big_cons big_nil /= expr0n expr1n mulr1 mulrDr addr0 !addrA.
  case=> [|[|[|[|[|[|i]]]]]] // _; rewrite fin ?p2 ?p3 ?p4 ?p5 ?expr0 ?expr1 ?h1 /=; by field.
- by rewrite !divr_gt0 ?ltr01 ?ltr0n // !divr_gt0 ?ltr01 ?ltr0n.
- set r := Num.sqrt _; have r2 : r ^+ 2 = 3%:R / 7%:R by rewrite sqr_sqrtr ?divr_ge0 ?ler0n.
  rewrite addr0; set x := (1 + r) / _; set y := (1 + - r) / _.
  have h1 : x + y = 1 by apply: half_pair.
  have h2 : x * y = 7%:R^-1.
    by rewrite half_prod r2; field.
  have [p2 p3 p4 p5 [p6 p7]] := ps h1 h2.
  have fin i : \sum_(xw <- [:: (0, 1 / 10%:R / 2%:R); (1, 1 / 10%:R / 2%:R); (1 / 2%:R, 32%:R / 45%:R / 2%:R); (x, 49%:R / 90%:R / 2%:R); (y, 49%:R / 90%:R / 2%:R)]) xw.2 * xw.1 ^+ i =
     1 / 10%:R / 2%:R * (i == 0%N)%:R + 1 / 10%:R / 2%:R + 32%:R / 45%:R / 2%:R * (1 / 2%:R) ^+ i + 49%:R / 90%:R / 2%:R * (x ^+ i + y ^+ i).
    by rewrite !big_cons big_nil /= expr0n expr1n mulr1 mulrDr addr0 !addrA.
  case=> [|[|[|[|[|[|[|[|i]]]]]]]] // _; rewrite fin ?p2 ?p3 ?p4 ?p5 ?p6 ?p7 ?expr0 ?expr1 ?h1 /=; by field.
Qed.
End GLL.

(* ------------------------------------------------------------------ *)
Section Torus.
Delimit Scope Z_scope with CZ.
Local Open Scope R_scope.
Definition td (x xp : R) : R :=
  let dx := Rabs ((x - IZR (Int_part x)) - (xp - IZR (Int_part xp))) in
  if Rlt_dec (/ 2) dx then 1 - dx else dx.
Lemma torusE x xp : torus_distance x xp = td x xp.
Proof.
rewrite /torus_distance /torus_distance_of /td.
have e : (GRing.mul 1 (GRing.inv (GRing.natmul 1 2)) : R) = / 2.
  rewrite GRing.mul1r -RinvE; last by rewrite Num.Theory.pnatr_eq0.
  by rewrite -INRE.
rewrite {}e; case: Rlt_dec => h.
  by have -> : (/ 2 < Num.norm (x - IZR (Int_part x) - (xp - IZR (Int_part xp))))%O by apply/RltP.
case: ifP => // /RltP h'; by case: h.
Qed.
Lemma frac_bounds x : 0 <= x - IZR (Int_part x) < 1.
Proof. by have [h1 h2] := base_Int_part x; lra. Qed.
Lemma int_far (j : Z) : j = 0%CZ \/ 1 <= IZR j \/ IZR j <= -1.
Proof.
have [h|[h|h]] : (j = 0 \/ 1 <= j \/ j <= -1)%CZ by lia.
- by left.
- by right; left; apply: IZR_le.
- by right; right; apply: IZR_le.
Qed.
Lemma td_dist x xp : 0 <= td x xp <= / 2 /\ (forall k, td x xp <= Rabs (x - xp + IZR k)) /\
  exists k, td x xp = Rabs (x - xp + IZR k).
Proof.
rewrite /td; have := frac_bounds x; have := frac_bounds xp.
set m := Int_part x; set m' := Int_part xp => hb ha.
have e k : x - xp + IZR k = ((x - IZR m) - (xp - IZR m')) + IZR (m - m' + k)%CZ.
  by rewrite plus_IZR minus_IZR; lra.
move: (x - IZR m) (xp - IZR m') ha hb e => a b ha hb e.
split; [|split].
- by rewrite /Rabs; case: Rcase_abs => ?; case: Rlt_dec => ? /=; lra.
- move=> k; rewrite e; have [-> |h] := int_far (m - m' + k).
    by rewrite Rplus_0_r /Rabs; case: Rcase_abs => ?; case: Rlt_dec => ? /=; lra.
  move: (IZR (m - m' + k)%CZ) h => j [h|h].
    by rewrite /Rabs; do 2!case: Rcase_abs => ?; case: Rlt_dec => ? /=; lra.
  by rewrite /Rabs; do 2!case: Rcase_abs => ?; case: Rlt_dec => ? /=; lra.
- case: Rlt_dec => h /=; last by exists (m' - m)%CZ; rewrite e (_ : (m - m' + (m' - m) = 0)%CZ) ?Rplus_0_r //; lia.
  have [h0|h0] := Rlt_or_le (a - b) 0.
    exists (m' - m + 1)%CZ; rewrite e (_ : (m - m' + (m' - m + 1) = 1)%CZ); last by lia.
    by move: h; rewrite /Rabs; case: Rcase_abs => ? h; case: Rcase_abs => ?; lra.
  exists (m' - m - 1)%CZ; rewrite e (_ : (m - m' + (m' - m - 1) = -1)%CZ); last by lia.
  by move: h; rewrite /Rabs; case: Rcase_abs => ? h; case: Rcase_abs => ?; lra.
Qed.
End Torus.

(* ------------------------------------------------------------------ *)
(* exp(Z + c I) = e^c exp(Z), and exponentials of Metzler matrices are nonnegative *)
Lemma mxpowE n (Z : 'M[R]_n.+1) k : mxpow Z k = Z ^+ k.
Proof. by elim: k => [|k IH]; rewrite ?mxpow0 // mxpowS IH exprS. Qed.
Lemma mxpow_shift n (Z : 'M[R]_n) c m :
  mxpow (Z + c%:M) m = \sum_(i < m.+1) (c ^+ i *+ 'C(m, i)) *: mxpow Z (m - i).
Proof.
case: n Z => [|n] Z; first by apply/matrixP => -[].
rewrite mxpowE exprDn_comm; last by rewrite /GRing.comm; rewrite [LHS]mul_mx_scalar [RHS]mul_scalar_mx.
apply: eq_bigr => i _; rewrite mxpowE.
have -> : (c%:M : 'M[R]_n.+1) ^+ i = (c ^+ i)%:M.
  by elim: (nat_of_ord i) => [|k IH]; rewrite ?expr0 // !exprS IH scalar_mxM.
by rewrite -scalerMnl; congr (_ *+ _); apply: mul_mx_scalar.
Qed.

Lemma exp_ser (c : R) : exp c = ssum (fun i => ifact _ i * c ^+ i).
Proof.
apply/esym/ssum_unique; have h := is_exp_Reals c; apply: is_series_ext h => i.
rewrite pow_n_pow /scal /= /mult /= powE /ifact mulrC coq_factE INRE.
by rewrite RmultE RinvE // pnatr_eq0 -lt0n fact_gt0.
Qed.
Lemma expmx_shift n (Z : 'M[R]_n) c : expmx (Z + c%:M) = exp c *: expmx Z.
Proof.
apply/matrixP => a b; rewrite exp_ser !mxE.
have e0 : entire (fun i => ifact _ (i + 0)) := entire_ifact 0.
have h1 : summable (fun i => ifact _ i * c ^+ i) by apply: summable_ext (e0 c) => i; rewrite addn0.
have h2 : summable (fun i => ifact _ (i + 0) * mxpow Z i a b) by apply: ser_summable.
have [_ <-] := cauchy_prod h1 h2; apply: ssum_ext => m.
rewrite mxpow_shift summxE mulr_sumr; apply: eq_bigr => i _; rewrite mxE.
have im : (i <= m)%N by rewrite -ltnS.
rewrite !addn0 /ifact -(bin_fact im) !natrM -mulr_natr.
have h3 := fact_neq0 [numFieldType of R] i; have h4 := fact_neq0 [numFieldType of R] (m - i).
have h5 : ('C(m, i)%:R : R) != 0 by rewrite pnatr_eq0 -lt0n bin_gt0.
by move: (mxpow _ _ _ _) => z; field; rewrite h3 h4 h5.
Qed.
Lemma mxpow_ge0 n (Z : 'M[R]_n) : (forall a b, 0 <= Z a b) -> forall k a b, 0 <= mxpow Z k a b.
Proof.
move=> h; elim=> [|k IH] a b; first by rewrite mxpow0 mxE ler0n.
by rewrite mxpowS mxE sumr_ge0 // => j _; rewrite mulr_ge0.
Qed.
Lemma expmx_ge0 n (Z : 'M[R]_n) : (forall a b, 0 <= Z a b) -> forall a b, 0 <= expmx Z a b.
Proof.
move=> h a b; rewrite mxE; apply: ssum_ge0; first by apply: ser_summable; apply: entire_ifact.
by move=> i; rewrite mulr_ge0 ?invr_ge0 ?ler0n ?mxpow_ge0.
Qed.
Lemma expmx_metzler n (Z : 'M[R]_n) : (forall a b, a != b -> 0 <= Z a b) -> forall a b, 0 <= expmx Z a b.
Proof.
move=> h a b; pose c := \sum_i `|Z i i|.
have e : expmx Z = exp (- c) *: expmx (Z + c%:M).
  by rewrite expmx_shift scalerA -RmultE -exp_plus Rplus_opp_l exp_0 scale1r.
rewrite e mxE mulr_ge0 //; first by apply/RleP; left; apply: exp_pos.
apply: expmx_ge0 => i j; rewrite !mxE; have [<-|hij] := eqVneq i j; last by rewrite addr0 h.
rewrite mulr1n addrC -[X in 0 <= _ + X]opprK subr_ge0 (le_trans (ler_norm _)) // normrN.
by rewrite /c (bigD1 i) //= ler_addl sumr_ge0.
Qed.
