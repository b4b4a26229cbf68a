(* ProofsPade2.v : the Pade denominator is regular on a ball, by a rational computation. *)
From Coq Require Import Reals ZArith QArith Qreals Lra Lia.
From mathcomp Require Import all_ssreflect all_algebra.
From mathcomp Require Import ring.
From Verif Require Import Rstruct Summable MxBase MxSeries ProofsPhiErr ProofsPade.
Set Implicit Arguments.
Unset Strict Implicit.
Unset Printing Implicit Defensive.
Import Order.TTheory GRing.Theory Num.Theory.
Local Open Scope ring_scope.

Fixpoint dbl (c : Z) (bs : seq Z) : seq Z := if bs is b :: bs' then Z.mul b c :: dbl (Z.mul 2 c) bs' else [::].
Lemma size_dbl c bs : size (dbl c bs) = size bs.
Proof. by elim: bs c => //= b bs IH c; rewrite IH. Qed.
Lemma cb_dbl c bs i : cb (dbl c bs) i = cb bs i * (IZR c * 2%:R ^+ i).
Proof.
rewrite /cb; elim: bs c i => [|b bs IH] c i; first by rewrite !nth_nil mul0r.
case: i => [|i]; cbn [dbl nth]; first by rewrite IZR_mul expr0 mulr1.
rewrite IH IZR_mul exprS; congr (_ * _); rewrite mulrCA mulrA; congr (_ * _); by rewrite -mulrA.
Qed.

(* Neumann *)
Lemma neumann n (D : 'M[R]_n) : ninf D <= 2%:R^-1 ->
  (1%:M + D \in unitmx) /\ ninf (invmx (1%:M + D)) <= 2%:R.
Proof.
move=> hD.
have hu : 1%:M + D \in unitmx.
  rewrite -row_free_unit -kermx_eq0; apply/eqP/row_matrixP => i; rewrite row0.
  set x := row i _; have hx : x *m (1%:M + D) = 0.
    by apply/eqP; rewrite -sub_kermx /x row_sub.
  move: hx; rewrite mulmxDr mulmx1 => /eqP; rewrite addr_eq0 => /eqP hx.
  apply: ninf_eq0; apply/eqP; rewrite eq_le ninf_ge0 andbT.
  have : ninf x <= ninf x * 2%:R^-1.
    by rewrite {1}hx ninfN; apply: le_trans (ninfM _ _) _; rewrite ler_wpmul2l ?ninf_ge0.
  by rewrite ler_pdivl_mulr ?ltr0n // mulr_natr mulr2n ger_addl.
split=> //; set Y := invmx _.
have e : Y = 1%:M - D *m Y.
  have : (1%:M + D) *m Y = 1%:M by rewrite mulmxV.
  by rewrite mulmxDl mul1mx => <-; rewrite addrK.
have h : ninf Y <= 1 + 2%:R^-1 * ninf Y.
  rewrite {1}e; apply: le_trans (ninfD _ _) _; rewrite ninfN ler_add ?ninf1 //.
  by apply: le_trans (ninfM _ _) _; rewrite ler_wpmul2r ?ninf_ge0.
have : ninf Y - 2%:R^-1 * ninf Y <= 1 by rewrite ler_subl_addr.
have -> : ninf Y - 2%:R^-1 * ninf Y = ninf Y / 2%:R by move: (ninf Y) => y; by field.
by rewrite ler_pdivr_mulr ?ltr0n // mul1r.
Qed.

Fixpoint numq (bs2 : seq Z) (th : Q) (fuel : nat) (k : Z) (w : Q) : Q :=
  if fuel is f.+1 then
    Qred (Qplus (Qmult (inject_Z (Z.abs (hz bs2 k 0))) w) (numq bs2 th f (Z.add k 1) (Qred (Qdiv (Qmult w th) (inject_Z (Z.mul 2 (Z.add k 1)))))))
  else Qmake Z0 1.
Fixpoint tailq (th : Q) (fuel : nat) (k : Z) (w : Q) : Q :=
  if fuel is f.+1 then tailq th f (Z.add k 1) (Qred (Qdiv (Qmult w th) (inject_Z (Z.add k 1)))) else w.

Lemma Q2R_red q : Q2R (Qred q) = Q2R q. Proof. exact: Qeq_eqR (Qred_correct q). Qed.
Lemma Q2R_inj z : Q2R (inject_Z z) = IZR z. Proof. by rewrite /Q2R /= Rinv_1 Rmult_1_r. Qed.
Lemma Q2R_divz q z : z <> Z0 -> Q2R (Qdiv q (inject_Z z)) = Q2R q / IZR z :> R.
Proof.
move=> hz0; rewrite Q2R_div; last first.
  by move=> h; apply: hz0; move: (Qeq_eqR _ _ h); rewrite Q2R_inj /Q2R /= Rmult_0_l; exact: eq_IZR.
by rewrite Q2R_inj RdivE //; apply/eqP => e; apply: hz0; apply: eq_IZR.
Qed.

Lemma half_Q : Q2R (Qmake 1 2) = 2%:R^-1 :> R.
Proof.
rewrite /Q2R; cbn [Qnum Qden]; rewrite Rmult_1_l.
have e : IZR 2 = 2%:R :> R by rewrite -(IZR_nat 2).
by rewrite e RinvE // pnatr_eq0.
Qed.

Section Reg.
Variables (bs : seq Z) (m : nat).
Hypothesis sz : size bs = m.+1.
Notation b0 := (cb bs 0).
Hypothesis b0p : 0 < b0.
Hypothesis hpos : forall j, (j <= m)%N -> 0 <= cb bs j /\ cb bs j * (2%:R ^+ j * j`!%:R) <= b0.
Notation bs2 := (dbl 1 bs).
Definition ec (k : nat) : R_ringType := IZR (hz bs2 (Z.of_nat k) 0) / (b0 * (2%:R ^+ k * k`!%:R)).

Definition half_if (i : nat) : R_ringType := ifact _ i * 2%:R^-1 ^+ i.
Lemma ent_half : entire half_if.
Proof. by apply: entire_scale; exact: ent_if. Qed.
Lemma exp_half n (Z : 'M[R]_n) : expmx (2%:R^-1 *: Z) = mxser half_if Z.
Proof. by rewrite expmx_ser mxser_scale. Qed.
Lemma conv_ec k : conv (sg (cb bs)) half_if k = b0 * ec k.
Proof.
have t0 j : (2%:R ^+ j : R) != 0 by rewrite expf_neq0 // pnatr_eq0.
have f0 j : (j`!%:R : R) != 0 by rewrite pnatr_eq0 -lt0n fact_gt0.
have -> : conv (sg (cb bs)) half_if k = 2%:R^-1 ^+ k * conv (sg (cb bs2)) (fun i => ifact _ i) k.
  rewrite /conv mulr_sumr; apply: eq_bigr => i _; rewrite /sg /half_if cb_dbl mul1r.
  have ik : (i <= k)%N by rewrite -ltnS.
  have -> : 2%:R^-1 ^+ k = 2%:R^-1 ^+ i * 2%:R^-1 ^+ (k - i) :> R by rewrite -exprD subnKC.
  have h : 2%:R^-1 ^+ i * 2%:R ^+ i = 1 :> R by rewrite exprVn mulVf.
  move: (2%:R^-1 ^+ i : R) (2%:R ^+ i : R) h (2%:R^-1 ^+ (k - i) : R) ((-1) ^+ i : R) (ifact [fieldType of R] (k - i) : R) (cb bs i : R) => d c h e a f b.
  transitivity ((a * b) * (f * e) * (d * c)); first by rewrite h mulr1.
  by ring.
rewrite conv_hz /ec exprVn.
have b0' : (b0 : R) != 0 by rewrite gt_eqF.
move: (t0 k) (f0 k) b0'; move: (2%:R ^+ k : R) (k`!%:R : R) (b0 : R) (IZR _) => a b c d a0 b0' c0.
have e : c * (a * b) != 0 by rewrite !mulf_neq0.
by rewrite ?RmultE; field; rewrite a0 b0' c0.
Qed.
Lemma binsum k : \sum_(i < k.+1) ifact _ i * ifact _ (k - i) = 2%:R ^+ k * ifact _ k :> R.
Proof.
have f0 m' : (m'`!%:R : R) != 0 by rewrite pnatr_eq0 -lt0n fact_gt0.
have e : (2 ^ k)%N = (\sum_(i < k.+1) 'C(k, i))%N.
  by rewrite -[2%N]/(1 + 1)%N expnDn; apply: eq_bigr => i _; rewrite !exp1n !muln1.
rewrite -natrX e natr_sum mulr_suml; apply: eq_bigr => i _; rewrite /ifact.
have ik : (i <= k)%N by rewrite -ltnS.
have /(congr1 (fun x => x%:R : R)) := bin_fact ik; rewrite !natrM => h.
by rewrite -h; move: (f0 i) (f0 (k - i)%N) (f0 k); rewrite -h !mulf_eq0 !negb_or => h1 h2 /andP [h3 _];
  move: (_%:R) (_%:R) (_%:R) h1 h2 h3 => a b c h1 h2 h3; field; rewrite h1 h2 h3.
Qed.
Lemma ec_le k : `|ec k| <= ifact _ k.
Proof.
have h : b0 * `|ec k| <= b0 * ifact _ k.
  rewrite -[X in X * `|_|]gtr0_norm // -normrM -conv_ec /conv.
  apply: le_trans (ler_norm_sum _ _ _) _.
  have -> : b0 * ifact _ k = \sum_(i < k.+1) b0 * (2%:R^-1 ^+ k * (ifact _ i * ifact _ (k - i))) :> R.
    by rewrite -mulr_sumr -mulr_sumr binsum [2%:R^-1 ^+ k * _]mulrA -exprMn mulVf ?pnatr_eq0 // expr1n mul1r.
  apply: ler_sum => i _; rewrite /sg /half_if !normrM normrX normrN1 expr1n mul1r.
  have ik : (i <= k)%N by rewrite -ltnS.
  have -> : 2%:R^-1 ^+ k = 2%:R^-1 ^+ i * 2%:R^-1 ^+ (k - i) :> R by rewrite -exprD subnKC.
  have i0 j : 0 <= ifact [fieldType of R] j :> R by rewrite /ifact invr_ge0 ler0n.
  have v0 j : 0 <= (2%:R^-1 : R) ^+ j by rewrite exprn_ge0 // invr_ge0 ler0n.
  rewrite normrX [`|2%:R^-1|]ger0_norm ?invr_ge0 ?ler0n // [`|ifact _ (k - i)|]ger0_norm //.
  have -> : b0 * (2%:R^-1 ^+ i * 2%:R^-1 ^+ (k - i) * (ifact _ i * ifact _ (k - i))) =
    (b0 * (2%:R^-1 ^+ i * ifact _ i)) * (ifact _ (k - i) * 2%:R^-1 ^+ (k - i)) :> R.
    by move: (b0 : R) (2%:R^-1 ^+ i) (2%:R^-1 ^+ (k - i)) (ifact _ i) (ifact _ (k - i)) => *; ring.
  apply: ler_wpmul2r; first by rewrite mulr_ge0.
  have [im|mi] := leqP i m; last by rewrite /cb nth_default ?sz // normr0 mulr_ge0 ?mulr_ge0 // ltW.
  have [c0 c1] := hpos im; rewrite ger0_norm // exprVn /ifact -invfM.
  by rewrite ler_pdivl_mulr // mulr_gt0 ?exprn_gt0 ?ltr0n ?fact_gt0.
by rewrite ler_pmul2l in h.
Qed.
Lemma ec0 : ec 0 = 1.
Proof.
have h := conv_ec 0; rewrite /conv big_ord1 /sg /half_if /ifact subnn fact0 !expr0 invr1 mul1r !mulr1 in h.
have b0' : (b0 : R) != 0 by rewrite gt_eqF.
by apply: (mulfI b0'); rewrite -h mulr1.
Qed.

Lemma ssum_split N (u : nat -> R) : summable u -> ssum u = \sum_(i < N) u i + ssum (fun i => u (i + N)%N).
Proof.
elim: N => [|N IH] su; first by rewrite big_ord0 add0r; apply: ssum_ext => i; rewrite addn0.
rewrite IH // big_ord_recr /= -addrA; congr (_ + _).
rewrite ssumS; first by congr (_ + _); apply: ssum_ext => i; rewrite addnS addSn.
exact: (proj1 (summable_shift N u) su).
Qed.

Lemma numqE (th : Q) f k w : Q2R w = Q2R th ^+ k / (2%:R ^+ k * k`!%:R) :> R ->
  Q2R (numq bs2 th f (Z.of_nat k) w) = \sum_(i < f) (b0 * (`|ec (k + i)| * Q2R th ^+ (k + i))) :> R.
Proof.
have t0 j : (2%:R ^+ j : R) != 0 by rewrite expf_neq0 // pnatr_eq0.
have f0 j : (j`!%:R : R) != 0 by rewrite pnatr_eq0 -lt0n fact_gt0.
elim: f k w => [|f IH] k w hw; first by rewrite big_ord0 /= /Q2R /= Rmult_0_l.
cbn [numq]; rewrite Q2R_red Q2R_plus Q2R_mult Q2R_inj big_ord_recl addn0 RplusE RmultE.
have kS : Z.add (Z.of_nat k) 1 = Z.of_nat k.+1 by rewrite Nat2Z.inj_succ.
rewrite kS IH; last first.
  rewrite Q2R_red Q2R_divz; last by move/Z.mul_eq_0 => [] //; rewrite Nat2Z.inj_succ => h; have := Nat2Z.is_nonneg k; lia.
  have e2 : IZR 2 = 2%:R :> R by rewrite -(IZR_nat 2).
  rewrite Q2R_mult hw IZR_mul IZR_nat e2 RmultE !exprS factS natrM.
  have k0 : (k.+1%:R : R) != 0 by rewrite pnatr_eq0.
  move: (t0 k) (f0 k) k0; move: (2%:R ^+ k : R) (k`!%:R : R) (Q2R th ^+ k : R) (Q2R th : R) (k.+1%:R : R) => a b c d e a0 b0' e0.
  by field; rewrite a0 b0' e0 ?pnatr_eq0.
congr (_ + _); last by apply: eq_bigr => i _; rewrite /= /bump /= add1n addnS addSn.
rewrite hw /ec abs_IZR RabsE !normrM normfV !normrM.
have b0' : (b0 : R) != 0 by rewrite gt_eqF.
rewrite [`|b0|]gtr0_norm // [`|2%:R ^+ k|]gtr0_norm ?exprn_gt0 ?ltr0n // [`|k`!%:R|]gtr0_norm ?ltr0n ?fact_gt0 //.
move: (t0 k) (f0 k) b0'; move: (2%:R ^+ k : R) (k`!%:R : R) (b0 : R) (Q2R th ^+ k : R) (`|_|) => a b c d e a0 b0' c0.
by field; rewrite a0 b0' c0.
Qed.

Lemma tailqE (th : Q) f k w : Q2R w = Q2R th ^+ k / k`!%:R :> R ->
  Q2R (tailq th f (Z.of_nat k) w) = Q2R th ^+ (k + f) / (k + f)`!%:R :> R.
Proof.
have f0 j : (j`!%:R : R) != 0 by rewrite pnatr_eq0 -lt0n fact_gt0.
elim: f k w => [|f IH] k w hw; first by rewrite addn0.
cbn [tailq]; have kS : Z.add (Z.of_nat k) 1 = Z.of_nat k.+1 by rewrite Nat2Z.inj_succ.
rewrite kS IH ?addnS // Q2R_red Q2R_divz; last by rewrite Nat2Z.inj_succ => h; have := Nat2Z.is_nonneg k; lia.
rewrite Q2R_mult hw IZR_nat RmultE exprS factS natrM.
have k0 : (k.+1%:R : R) != 0 by rewrite pnatr_eq0.
move: (f0 k) k0; move: (k`!%:R : R) (Q2R th ^+ k : R) (Q2R th : R) (k.+1%:R : R) => b c d e b0' e0.
by field; rewrite b0' e0.
Qed.

Definition reg_ok (th : Q) (N : nat) : bool :=
  Qle_bool (Qplus (numq bs2 th N 1 (Qmult th (Qmake 1 2)))
                  (Qmult (Qmult (inject_Z (nth Z0 bs 0)) (inject_Z 729)) (tailq th N.+1 0 (Qmake 1 1))))
           (Qmult (inject_Z (nth Z0 bs 0)) (Qmake 1 2)).

Lemma regular n (Z : 'M[R]_n) (th : Q) N : ninf Z <= Q2R th -> exp (Q2R th) <= IZR 729 -> reg_ok th N ->
  (qmx bs Z \in unitmx) /\ ninf (invmx (qmx bs Z)) <= 2%:R * exp (2%:R^-1 * ninf Z) / b0.
Proof.
move=> hZ he hok; set t := Q2R th in hZ he.
have z0 : 0 <= ninf Z by exact: ninf_ge0.
have t0 : 0 <= t by apply: le_trans hZ.
have b0n : (b0 : R) != 0 by rewrite gt_eqF.
have [eq _] := mxser_fin Z (sg0 sz).
have eec : entire ec.
  have h := entireZ b0^-1 (entire_conv eq ent_half); apply: entire_ext h => k.
  by rewrite conv_ec mulKf.
have prod : qmx bs Z *m expmx (2%:R^-1 *: Z) = b0 *: mxser ec Z.
  rewrite exp_half /qmx mxserM //; last exact: ent_half.
  by rewrite -mxserZ; apply: mxser_ext => k; rewrite conv_ec.
set D := Z *m mxser (fun i => ec i.+1) Z.
have eD : mxser ec Z = 1%:M + D by rewrite mxser_shift // ec0 scale1r.
have i0 j : 0 <= ifact [fieldType of R] j :> R by rewrite /ifact invr_ge0 ler0n.
have hD : ninf D <= 2%:R^-1.
  apply: le_trans (ninfM _ _) _.
  have eS := entireS eec.
  apply: le_trans (ler_wpmul2l z0 (ninf_mxser Z eS)) _; rewrite -ssumZ.
  pose u (i : nat) : R := `|ec i.+1| * t ^+ i.+1.
  have su : summable u.
    have h := summable_abs (proj1 (summableS _) (eec t)); apply: summable_ext h => i.
    by rewrite normrM normrX [`|t|]ger0_norm.
  apply: (@le_trans _ _ (ssum u)).
    apply: ssum_le => //.
      apply: summableZ; have h := summable_abs (eS (ninf Z)); apply: summable_ext h => i.
      by rewrite normrM normrX [`|ninf Z|]ger0_norm.
    move=> i; rewrite /u mulrCA -exprS ler_wpmul2l //.
    by rewrite ler_expn2r // nnegrE.
  rewrite (ssum_split N su).
  have hn : Q2R (numq bs2 th N 1 (Qmult th (Qmake 1 2))) = b0 * \sum_(i < N) u i :> R.
    rewrite mulr_sumr (@numqE th N 1) //.
    by rewrite Q2R_mult half_Q expr1 expr1 mulr1.
  have ht : Q2R (tailq th N.+1 0 (Qmake 1 1)) = t ^+ N.+1 / N.+1`!%:R :> R.
    rewrite (@tailqE th N.+1 0) ?add0n // expr0 fact0 divr1 /Q2R; cbn [Qnum Qden].
    by rewrite Rinv_1 Rmult_1_l.
  have hq : Q2R (Qmult (inject_Z (nth Z0 bs 0)) (Qmake 1 2)) = b0 * 2%:R^-1 :> R.
    by rewrite Q2R_mult Q2R_inj half_Q.
  have /RleP := Qle_Rle _ _ (proj1 (Qle_bool_iff _ _) hok).
  rewrite hq Q2R_plus RplusE hn !Q2R_mult ht !Q2R_inj !RmultE.
  have -> : IZR (nth Z0 bs 0) = b0 by [].
  rewrite -mulrA -mulrDr ler_pmul2l //; apply: le_trans.
  rewrite ler_add2l.
  pose w (i : nat) : R := t ^+ N.+1 / N.+1`!%:R * (ifact _ i * t ^+ i).
  have sw : summable w by apply: summableZ; exact: (ent_if t).
  apply: (@le_trans _ _ (ssum w)).
    apply: ssum_le => //; first exact: (proj1 (summable_shift N u) su).
    move=> i; rewrite /u /w -addnS addnC exprD -mulrA mulrCA ler_wpmul2l ?exprn_ge0 //.
    rewrite mulrA ler_wpmul2r ?exprn_ge0 //; apply: le_trans (ec_le _) _.
    rewrite /ifact -invfM -natrM lef_pinv ?posrE ?ltr0n ?muln_gt0 ?fact_gt0 // ler_nat.
    have := bin_fact (leq_addr i N.+1); rewrite addKn => <-.
    by rewrite leq_pmull // bin_gt0 leq_addr.
  rewrite /w ssumZ -exp_ssum mulrC ler_wpmul2r ?divr_ge0 ?exprn_ge0 ?ler0n //.
have [u1 n1] := neumann hD; rewrite eD in prod.
have ue : b0 *: (1%:M + D) \in unitmx by rewrite unitmxZ // unitfE.
have uq : qmx bs Z \in unitmx by move: ue; rewrite -prod unitmx_mul => /andP [].
split=> //.
have e : invmx (qmx bs Z) = b0^-1 *: (expmx (2%:R^-1 *: Z) *m invmx (1%:M + D)).
  have h1 : qmx bs Z *m (b0^-1 *: (expmx (2%:R^-1 *: Z) *m invmx (1%:M + D))) = 1%:M.
    by rewrite -scalemxAr mulmxA prod -scalemxAl mulmxV // scalerA mulVf // scale1r.
  by rewrite -[RHS](mulKmx uq) h1 mulmx1.
rewrite e ninfZ gtr0_norm ?invr_gt0 // mulrC ler_wpmul2r ?invr_ge0 ?(ltW b0p) //.
apply: le_trans (ninfM _ _) _; rewrite mulrC ler_pmul ?ninf_ge0 //.
have := ninf_phi (2%:R^-1 *: Z) 0; rewrite ifact0 mul1r => h; apply: le_trans h _; apply: exp_le.
by rewrite ninfZ ger0_norm ?invr_ge0 ?ler0n.
Qed.
End Reg.
