(* ProofsPade5.v : matexp of matexp_pade.rs: the denominators are regular and the error is at most
   ((1 + 3e-14)^(2^alpha) - 1) exp(|dt A|). *)
From Coq Require Import Reals ZArith QArith Qreals Lra Lia.
From mathcomp Require Import all_ssreflect all_algebra.
From mathcomp Require Import ring.
From Verif Require Import Rstruct Summable MxBase MxSeries ModelPhi ModelPade ProofsPhiErr ProofsPade ProofsPade2 ProofsPadeZ ProofsPade3 ProofsPade4.
Set Implicit Arguments.
Unset Strict Implicit.
Unset Printing Implicit Defensive.
Import Order.TTheory GRing.Theory Num.Theory.
Local Open Scope ring_scope.
Delimit Scope R_scope with coqR.

Definition tq3 : Q := Qmake 1 64.
Definition tq5 : Q := Qmake 33 128.
Definition tq7 : Q := Qmake 61 64.
Definition tq9 : Q := Qmake 17 8.
Definition tq13 : Q := Qmake 43 8.
Lemma r3 : reg_ok bs3 tq3 10. Proof. by vm_compute. Qed.
Lemma r5 : reg_ok bs5 tq5 12. Proof. by vm_compute. Qed.
Lemma r7 : reg_ok bs7 tq7 20. Proof. by vm_compute. Qed.
Lemma r9 : reg_ok bs9 tq9 30. Proof. by vm_compute. Qed.
Lemma r13 : reg_ok bs13 tq13 40. Proof. by vm_compute. Qed.
Lemma e3 : eps_ok bs3 3 tq3. Proof. by vm_compute. Qed.
Lemma e5 : eps_ok bs5 5 tq5. Proof. by vm_compute. Qed.
Lemma e7 : eps_ok bs7 7 tq7. Proof. by vm_compute. Qed.
Lemma e9 : eps_ok bs9 9 tq9. Proof. by vm_compute. Qed.
Lemma e13 : eps_ok bs13 13 tq13. Proof. by vm_compute. Qed.
Lemma t3E : th3 <= Q2R tq3. Proof. by rewrite /Q2R /th3; apply/RleP; rewrite -RdivE; [cbn [Qnum Qden tq3]; lra|apply/eqP => /eq_IZR]. Qed.
Lemma t5E : th5 <= Q2R tq5. Proof. by rewrite /Q2R /th5; apply/RleP; rewrite -RdivE; [cbn [Qnum Qden tq5]; lra|apply/eqP => /eq_IZR]. Qed.
Lemma t7E : th7 <= Q2R tq7. Proof. by rewrite /Q2R /th7; apply/RleP; rewrite -RdivE; [cbn [Qnum Qden tq7]; lra|apply/eqP => /eq_IZR]. Qed.
Lemma t9E : th9 <= Q2R tq9. Proof. by rewrite /Q2R /th9; apply/RleP; rewrite -RdivE; [cbn [Qnum Qden tq9]; lra|apply/eqP => /eq_IZR]. Qed.
Lemma t13E : th13 <= Q2R tq13. Proof. by rewrite /Q2R /th13; apply/RleP; rewrite -RdivE; [cbn [Qnum Qden tq13]; lra|apply/eqP => /eq_IZR]. Qed.

Lemma le_six q : Qle_bool q (inject_Z 6) -> Q2R q <= IZR 6.
Proof. by move=> h; apply/RleP; rewrite -(Q2R_inj 6); apply: Qle_Rle; apply/Qle_bool_iff. Qed.

Lemma ninf_l1 n (A : 'M[R]_n) : ninf A <= norm_l1 A.
Proof.
have h0 i : 0 <= \sum_j `|A i j| by apply: sumr_ge0.
apply: ninf_le => [|a]; first by apply: sumr_ge0.
by rewrite /norm_l1 [X in _ <= X](bigD1 a) //= ler_addl; apply: sumr_ge0.
Qed.

Lemma frexp_pos (r : R) : Rlt 0 r -> (r < 2 ^ Z.to_nat (frexp_e r))%coqR /\
  (Z.to_nat (frexp_e r) = 0%N \/ (2 ^ (Z.to_nat (frexp_e r)).-1 <= r)%coqR).
Proof.
move=> r0; rewrite /frexp_e.
have l2 : Rlt 0 (ln 2) by rewrite -ln_1; apply: ln_increasing; lra.
set L := Rdiv (ln r) (ln 2); have [h1 h2] := base_Int_part L.
have eL : (L * ln 2 = ln r)%coqR by rewrite /L /Rdiv Rmult_assoc Rinv_l; lra.
have e2 N : (2 ^ N = exp (INR N * ln 2))%coqR by rewrite -Rpower_pow; [|lra].
have er : r = exp (L * ln 2)%coqR by rewrite eL exp_ln.
move: (Int_part L) h1 h2 => k h1 h2.
have [kn|kp] := Z.lt_ge_cases k 0.
  have -> : Z.to_nat (Z.add k 1) = 0%N by move: kn; clear; lia.
  split; last by left.
  have kl : (IZR k <= -1)%coqR by apply: IZR_le; lia.
  rewrite /= er -exp_0; apply: exp_increasing.
  have lneg : (L < 0)%coqR by lra.
  by move: (Rmult_lt_compat_r _ _ _ l2 lneg); rewrite Rmult_0_l.
have eN : INR (Z.to_nat (Z.add k 1)) = (IZR k + 1)%coqR.
  by rewrite INR_IZR_INZ Z2Nat.id ?plus_IZR; [|lia].
split.
  rewrite e2 eN er; apply: exp_increasing; apply: Rmult_lt_compat_r => //; lra.
right; have -> : (Z.to_nat (Z.add k 1)).-1 = Z.to_nat k by lia.
rewrite e2 INR_IZR_INZ Z2Nat.id // er.
have h : (IZR k * ln 2 <= L * ln 2)%coqR by apply: Rmult_le_compat_r; lra.
case: h => [h|->]; [left; exact: exp_increasing|right; reflexivity].
Qed.

Lemma th13_gt0 : 0 < th13.
Proof. by rewrite /th13 divr_gt0 //; apply/RltP; apply: IZR_lt. Qed.
Lemma alpha_bound (x : R) : 0 < x ->
  x / 2%:R ^+ pade_alpha x < th13 /\ (pade_alpha x = 0%N \/ th13 * 2%:R ^+ pade_alpha x <= 2%:R * x).
Proof.
move=> x0; have t0 := th13_gt0.
have r0 : Rlt 0 (x / th13)%R by apply/RltP; rewrite divr_gt0.
have [h1 h2] := frexp_pos r0; rewrite -/(pade_alpha x) in h1 h2.
have e2 : IZR 2 = 2%:R :> R by rewrite -(IZR_nat 2).
split.
  move/RltP: h1; rewrite powE e2 ltr_pdivr_mulr // => h1.
  by rewrite ltr_pdivr_mulr ?exprn_gt0 ?ltr0n // mulrC.
case: h2 => [->|/RleP h2]; first by left.
case: (pade_alpha x) h2 => [|a] h2; first by left.
right; rewrite powE e2 /= ler_pdivl_mulr // in h2.
by rewrite exprS mulrCA ler_pmul2l ?ltr0n // mulrC.
Qed.

Lemma squaringsE n al (r : 'M[R]_n) : squarings al r = mxpow r (2 ^ al).
Proof. by elim: al r => [|al IH] r /=; rewrite ?mxpow1 // IH expnS mxpowM mxpowS mxpow1. Qed.

Lemma expmx_pow n (X : 'M[R]_n) N : mxpow (expmx X) N = expmx (N%:R *: X).
Proof.
elim: N => [|N IH]; first by rewrite mxpow0 scale0r /expmx phi_at0 ifact0 scale1r.
rewrite mxpowS IH -{1}[X]scale1r expmx_add; congr expmx; congr (_ *: _).
by rewrite -addn1 natrD addrC.
Qed.

Lemma rel_pow n (A B : 'M[R]_n) (a e : R) N : 0 <= e -> ninf B <= a -> ninf (A - B) <= e * a ->
  ninf (mxpow A N - mxpow B N) <= ((1 + e) ^+ N - 1) * a ^+ N.
Proof.
move=> he hB hAB; have a0 : 0 <= a by apply: le_trans hB; exact: ninf_ge0.
elim: N => [|N IH]; first by rewrite !mxpow0 subrr ninf0 !expr0 subrr mul0r.
have -> : mxpow A N.+1 - mxpow B N.+1 = A *m (mxpow A N - mxpow B N) + (A - B) *m mxpow B N.
  by rewrite mulmxBr mulmxBl addrA subrK -!mxpowS.
have hA : ninf A <= (1 + e) * a.
  have -> : A = (A - B) + B by rewrite subrK.
  by apply: le_trans (ninfD _ _) _; rewrite mulrDl mul1r addrC ler_add.
apply: le_trans (ninfD _ _) _.
have -> : ((1 + e) ^+ N.+1 - 1) * a ^+ N.+1 = ((1 + e) * a) * (((1 + e) ^+ N - 1) * a ^+ N) + (e * a) * a ^+ N.
  rewrite !exprS; move: ((1 + e) ^+ N) (a ^+ N) => x y; ring.
apply: ler_add; apply: le_trans (ninfM _ _) _; apply: ler_pmul; rewrite ?ninf_ge0 //.
apply: le_trans (ninf_pow _ _) _; apply: ler_expn2r; rewrite ?nnegrE ?ninf_ge0 //.
Qed.

Lemma eps_ge0 : 0 <= eps.
Proof. by apply/RleP; rewrite /eps; apply: Rlt_le; apply: Rdiv_lt_0_compat; apply: IZR_lt. Qed.

(* the approximant chosen by matexp_pade: regular denominator, relative error eps *)
Lemma pade_choice n (a : 'M[R]_n) : let: (u, v, al) := matexp_pade a in
  let X := (2%:R ^+ al)^-1 *: a in
  [/\ v - u \in unitmx, ninf (invmx (v - u) *m (u + v) - expmx X) <= eps * exp (ninf X) &
      al = 0%N \/ th13 * 2%:R ^+ al <= 2%:R * norm_l1 a].
Proof.
rewrite /matexp_pade; have hl := ninf_l1 a.
have sc1 : (2%:R ^+ 0)^-1 *: a = a by rewrite expr0 invr1 scale1r.
case: ltP => h3.
  have hz : ninf a <= Q2R tq3 by apply: le_trans t3E; apply: le_trans hl (ltW h3).
  have [] := pade_one ok3 id3 (le_six (isT : Qle_bool tq3 (inject_Z 6))) r3 e3 hz.
  have [-> ->] := q3 a; case: (pade3 _ _) => u v /=; rewrite sc1 => h1 _ h2.
  by split=> //; left.
case: ltP => h5.
  have hz : ninf a <= Q2R tq5 by apply: le_trans t5E; apply: le_trans hl (ltW h5).
  have [] := pade_one ok5 id5 (le_six (isT : Qle_bool tq5 (inject_Z 6))) r5 e5 hz.
  have [-> ->] := q5 a; case: (pade5 _ _ _) => u v /=; rewrite sc1 => h1 _ h2.
  by split=> //; left.
case: ltP => h7.
  have hz : ninf a <= Q2R tq7 by apply: le_trans t7E; apply: le_trans hl (ltW h7).
  have [] := pade_one ok7 id7 (le_six (isT : Qle_bool tq7 (inject_Z 6))) r7 e7 hz.
  have [-> ->] := q7 a; case: (pade7 _ _ _ _) => u v /=; rewrite sc1 => h1 _ h2.
  by split=> //; left.
case: ltP => h9.
  have hz : ninf a <= Q2R tq9 by apply: le_trans t9E; apply: le_trans hl (ltW h9).
  have [] := pade_one ok9 id9 (le_six (isT : Qle_bool tq9 (inject_Z 6))) r9 e9 hz.
  have [-> ->] := q9 a; case: (pade9 _ _ _ _ _) => u v /=; rewrite sc1 => h1 _ h2.
  by split=> //; left.
have x0 : 0 < norm_l1 a.
  by apply: lt_le_trans h9; rewrite /th9 divr_gt0 //; apply/RltP; apply: IZR_lt.
have [b1 b2] := alpha_bound x0; set al := pade_alpha _ in b1 b2 *.
rewrite div1r; set X := _ *: a.
have p0 : 0 < (2%:R ^+ al : R) by rewrite exprn_gt0 // ltr0n.
have hz : ninf X <= Q2R tq13.
  apply: le_trans t13E; rewrite ninfZ ger0_norm ?invr_ge0 ?(ltW p0) // mulrC.
  by apply: le_trans (ltW b1); rewrite ler_wpmul2r // invr_ge0 ltW.
have [] := pade_one ok13 id13 (le_six (isT : Qle_bool tq13 (inject_Z 6))) r13 e13 hz.
have [-> ->] := q13 X; case: (pade13 _ _ _ _) => u v /= h1 _ h2.
by split.
Qed.

Lemma exp_pown (x : R) N : exp x ^+ N = exp (N%:R * x)%R :> R.
Proof.
elim: N => [|N IH]; first by rewrite expr0 mul0r; symmetry; exact: exp_0.
rewrite exprS IH; have -> : (N.+1%:R * x = x + N%:R * x)%R by rewrite -addn1 natrD mulrDl mul1r addrC.
by symmetry; exact: exp_plus.
Qed.

Lemma matexp_err n (A : 'M[R]_n) dt : let al := (matexp_pade (dt *: A)).2 in
  ninf (matexp A dt - expmx (dt *: A)) <= ((1 + eps) ^+ (2 ^ al) - 1) * exp (ninf (dt *: A)).
Proof.
rewrite /matexp; have := pade_choice (dt *: A); case: (matexp_pade _) => [[u v] al] /=.
set X := _ *: (_ *: _) => - [_ h _].
rewrite squaringsE.
have p0 : 0 < (2%:R ^+ al : R) by rewrite exprn_gt0 // ltr0n.
have eX : (2 ^ al)%:R *: X = dt *: A by rewrite scalerA natrX mulfV ?scale1r // gt_eqF.
rewrite -eX -expmx_pow.
have hE : ninf (expmx X) <= exp (ninf X) by have := ninf_phi X 0; rewrite ifact0 mul1r.
have := rel_pow (2 ^ al) eps_ge0 hE h.
have -> : exp (ninf X) ^+ (2 ^ al) = exp (ninf (((2 ^ al)%N%:R : R) *: X)) :> R.
  by rewrite exp_pown (ninfZ _ X) ger0_norm ?ler0n.
by [].
Qed.
