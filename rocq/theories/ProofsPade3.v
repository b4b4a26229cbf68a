(* ProofsPade3.v : the five Pade approximants of matexp_pade.rs: coefficients, regularity, error. *)
From Coq Require Import Reals ZArith QArith Qreals Lra Lia.
From mathcomp Require Import all_ssreflect all_algebra.
From mathcomp Require Import ring.
From Verif Require Import Rstruct Summable MxBase MxSeries ModelPhi ModelPade ProofsPhiErr ProofsPade ProofsPade2 ProofsPadeZ.
Set Implicit Arguments.
Unset Strict Implicit.
Unset Printing Implicit Defensive.
Import Order.TTheory GRing.Theory Num.Theory.
Local Open Scope ring_scope.
Delimit Scope R_scope with coqR.

Lemma fzE k : Z.of_nat k`! = fz k.
Proof. by elim: k => [|k IH] //; cbn [fz]; rewrite -IH -Nat2Z.inj_mul factS. Qed.
Lemma tzE k : IZR (tz k) = 2%:R ^+ k :> R.
Proof.
have e : IZR 2 = 2%:R :> R by rewrite -(IZR_nat 2).
by elim: k => [|k IH] //; cbn [tz]; rewrite IZR_mul IH exprS e.
Qed.

Lemma IZR_leP a b : reflect (Z.le a b) (IZR a <= IZR b :> R).
Proof. by apply: (iffP idP) => [/RleP h|h]; [exact: le_IZR|apply/RleP; exact: IZR_le]. Qed.

Lemma exp_3 : Rle (exp 3) 27.
Proof.
have h := exp_le_3; have p := exp_pos 1.
have -> : (3 = 1 + (1 + 1))%coqR by lra.
rewrite !exp_plus; move: (exp 1) h p => e h p.
have h2 : Rle (e * e)%coqR (3 * 3)%coqR by apply: Rmult_le_compat; lra.
have h3 : Rle (e * (e * e))%coqR (3 * (3 * 3))%coqR by apply: Rmult_le_compat => //; try lra; apply: Rmult_le_pos; lra.
lra.
Qed.
Lemma exp_6 : Rle (exp 6) 729.
Proof.
have h := exp_3; have p := exp_pos 3.
have -> : (6 = 3 + 3)%coqR by lra.
have h2 : Rle (exp 3 * exp 3)%coqR (27 * 27)%coqR by apply: Rmult_le_compat; lra.
rewrite exp_plus; lra.
Qed.
Lemma expm_le (x y : R) : x <= y -> Rle (exp x) (exp y).
Proof. by move=> h; apply/RleP; apply: exp_le. Qed.

Definition pade_const (bs : seq Z) (m : nat) : R := (2%:R * m`!%:R / (cb bs 0 * (2 * m).+1`!%:R))%R.
Definition eps : R := (IZR 3 / IZR 100000000000000)%coqR.
Fixpoint qpow (q : Q) k : Q := if k is k'.+1 then Qred (Qmult q (qpow q k')) else Qmake 1 1.
Lemma qpowE q k : Q2R (qpow q k) = Q2R q ^+ k :> R.
Proof.
elim: k => [|k IH]; first by rewrite /Q2R /= Rinv_1 Rmult_1_l.
by cbn [qpow]; rewrite Q2R_red Q2R_mult IH exprS.
Qed.
Definition eps_ok (bs : seq Z) (m : nat) (th : Q) : bool :=
  Qle_bool (Qmult (Qmult (inject_Z (Z.mul 54 (fz m))) (qpow th (2 * m).+1)) (inject_Z 100000000000000))
           (inject_Z (Z.mul 3 (Z.mul (nth Z0 bs 0) (fz (2 * m).+1)))).

Section One.
Variables (bs : seq Z) (m : nat) (th : Q) (N : nat).
Hypothesis cok : coef_ok bs m.
Hypothesis hid : forall k : Z, hz bs k 0 = prodz (Z.of_nat m.+1) m k.
Hypothesis th6 : Q2R th <= IZR 6.
Hypothesis rok : reg_ok bs th N.
Hypothesis eok : eps_ok bs m th.

Lemma pade_one n (Z : 'M[R]_n) : ninf Z <= Q2R th ->
  [/\ qmx bs Z \in unitmx,
      ninf (invmx (qmx bs Z) *m pmx bs Z - expmx Z) <= pade_const bs m * ninf Z ^+ (2 * m).+1 * exp (3%:R / 2%:R * ninf Z)%R &
      ninf (invmx (qmx bs Z) *m pmx bs Z - expmx Z) <= eps * exp (ninf Z)].
Proof.
move=> hZ; case/and4P: cok => /eqP sz /Z.ltb_lt b0z hl hp.
have b0 : 0 < cb bs 0 by apply/RltP; exact: IZR_lt.
have hlow k : (k <= m)%N -> Z.mul (nth Z0 bs k) (Z.of_nat k`!) = prodz (Z.of_nat m.+1) m (Z.of_nat k).
  by move=> km; rewrite fzE; have /allP /(_ k) := hl; rewrite mem_iota ltnS km => /(_ isT) /Z.eqb_eq.
have hpos j : (j <= m)%N -> 0 <= cb bs j /\ cb bs j * (2%:R ^+ j * j`!%:R) <= cb bs 0.
  move=> jm; have /allP /(_ j) := hp; rewrite mem_iota ltnS jm => /(_ isT) /andP [/Z.leb_le h1 /Z.leb_le h2].
  split; first exact/IZR_leP.
  by move/IZR_leP: h2; rewrite IZR_mul IZR_mul tzE -fzE IZR_nat.
have h0 : 0 <= ninf Z by exact: ninf_ge0.
have e729 : exp (Q2R th) <= IZR 729.
  by apply: le_trans (exp_le th6) _; apply/RleP; exact: exp_6.
have [uq nq] := regular sz b0 hpos hZ e729 rok.
set h := ninf Z in h0 hZ nq *.
have key : ninf (invmx (qmx bs Z) *m pmx bs Z - expmx Z) <= 
   (2%:R * exp (2%:R^-1 * h) / cb bs 0) * (m`!%:R / (2 * m).+1`!%:R * (h ^+ (2 * m).+1 * exp h)).
  have -> : invmx (qmx bs Z) *m pmx bs Z - expmx Z = - (invmx (qmx bs Z) *m (qmx bs Z *m expmx Z - pmx bs Z)).
    by rewrite mulmxBr mulKmx // opprB.
  rewrite ninfN; apply: le_trans (ninfM _ _) _.
  by apply: ler_pmul => //; rewrite ?ninf_ge0 // (pade_remainder sz hid hlow).
have f0 : 0 < ((2 * m).+1`!%:R : R) by rewrite ltr0n fact_gt0.
have b0n : (cb bs 0 : R) != 0 by rewrite gt_eqF.
split=> //.
  apply: le_trans key _; rewrite /pade_const.
  have -> : 3%:R / 2%:R * h = 2%:R^-1 * h + h :> R by field.
  have -> : exp (2%:R^-1 * h + h)%R = exp (2%:R^-1 * h)%R * exp h :> R by exact: exp_plus.
  rewrite le_eqVlt; apply/orP; left; apply/eqP.
  rewrite ?RmultE; move: (gt_eqF f0) b0n => /negbT; move: ((2 * m).+1`!%:R : R) (m`!%:R : R) (exp (2%:R^-1 * h)%R : R) (exp h : R) (h ^+ (2 * m).+1 : R) (cb bs 0 : R) => f a b c d e f1 e1.
  by field; rewrite f1 e1.
apply: le_trans key _; rewrite !mulrA ler_wpmul2r ?exp_ge0 //.
have e27 : exp (2%:R^-1 * h) <= IZR 27.
  apply: (@le_trans _ _ (exp (IZR 3))); last by apply/RleP; exact: exp_3.
  apply: exp_le; rewrite RmultE mulrC ler_pdivr_mulr ?ltr0n //; apply: le_trans hZ _; apply: le_trans th6 _.
  have -> : IZR 6 = (IZR 3 * IZR 2)%coqR :> R by lra.
  have -> : IZR 2 = 2%:R :> R by rewrite -(IZR_nat 2).
  by rewrite RmultE.
have hh : h ^+ (2 * m).+1 <= Q2R th ^+ (2 * m).+1.
  by rewrite ler_expn2r // nnegrE // (le_trans h0).
have eokR : (IZR 54 * m`!%:R) * Q2R th ^+ (2 * m).+1 * IZR 100000000000000 <= IZR 3 * (cb bs 0 * (2 * m).+1`!%:R).
  have /RleP := Qle_Rle _ _ (proj1 (Qle_bool_iff _ _) eok).
  by rewrite !Q2R_mult !Q2R_inj qpowE (IZR_mul 54) (IZR_mul 3) (IZR_mul (nth _ _ _)) -!fzE !IZR_nat !RmultE.
have p14 : 0 < IZR 100000000000000 :> R by apply/RltP; exact: IZR_lt.
have eE : eps = IZR 3 / IZR 100000000000000.
  by rewrite /eps RdivE // gt_eqF.
rewrite eE ler_pdivl_mulr //.
apply: (@le_trans _ _ (2%:R * IZR 27 / cb bs 0 * m`!%:R / (2 * m).+1`!%:R * Q2R th ^+ (2 * m).+1 * IZR 100000000000000)).
  rewrite ler_wpmul2r ?(ltW p14) //.
  apply: ler_pmul => //; rewrite ?exprn_ge0 ?divr_ge0 ?mulr_ge0 ?exp_ge0 ?ler0n ?invr_ge0 ?(ltW b0) //.
  by rewrite ler_wpmul2r ?invr_ge0 ?ler0n // ler_wpmul2r ?ler0n // ler_wpmul2r ?invr_ge0 ?(ltW b0) // ler_wpmul2l ?ler0n.
have -> : 2%:R * IZR 27 / cb bs 0 * m`!%:R / (2 * m).+1`!%:R * Q2R th ^+ (2 * m).+1 * IZR 100000000000000 =
   (IZR 54 * m`!%:R) * Q2R th ^+ (2 * m).+1 * IZR 100000000000000 / (cb bs 0 * (2 * m).+1`!%:R) :> R.
  have e54 : IZR 54 = 2%:R * IZR 27 :> R.
    have e2 : IZR 2 = 2%:R :> R by rewrite -(IZR_nat 2).
    by rewrite -e2 -IZR_mul.
  rewrite e54.
  move: (gt_eqF f0) b0n => /negbT; move: ((2 * m).+1`!%:R : R) (m`!%:R : R) (Q2R th ^+ _) (IZR 27) (IZR 100000000000000) (cb bs 0) => f a b c d e f1 e1.
  by field; rewrite f1 e1.
by rewrite ler_pdivr_mulr ?mulr_gt0.
Qed.
End One.
