(* ProofsLeja3.v : the real-arithmetic recurrence over conjugate pairs of nodes. *)
From mathcomp Require Import all_ssreflect all_algebra.
From mathcomp Require Import ring.
From mathcomp Require Import complex.
From Verif Require Import ModelHist ModelOps ModelKrylov ModelLeja SpecLeja ProofsLeja ProofsLeja2.
Set Implicit Arguments.
Unset Strict Implicit.
Unset Printing Implicit Defensive.
Import Order.TTheory GRing.Theory Num.Theory.
Local Open Scope ring_scope.

Section CPoly.
Variable F : rcfType.
Local Notation C := F[i].
Local Notation toC := (map_poly (real_complex F)).
Definition J : C := 'i%C.
Lemma JJ : J * J = -1. Proof. by rewrite /J -expr2 sqr_i. Qed.
Lemma complexJ (c : C) : c = (complex.Re c)%:C%C + J * (complex.Im c)%:C%C.
Proof. exact: complexE. Qed.

Lemma re_poly_decomp (A D : {poly F}) : map_poly (@complex.Re F) (toC A + J *: toC D) = A.
Proof.
apply/polyP => k; rewrite coef_map_id0 // coefD coefZ !coef_map /=.
by rewrite /J; simpc.
Qed.
Lemma toC_inj : injective toC.
Proof. by apply: map_poly_inj => a b []. Qed.

Definition lfac (shift scale a : F) : {poly F} := scale^-1 *: ('X - (shift + scale * a)%:P).

Lemma toC_lfac (shift scale a : F) :
  toC (lfac shift scale a) = (scale%:C%C)^-1 *: ('X - (shift%:C%C + scale%:C%C * a%:C%C)%:P).
Proof. by rewrite /lfac map_polyZ /= rmorphB /= map_polyX map_polyC /= rmorphD rmorphM fmorphV. Qed.

Lemma cfac (shift scale : F) (x : C) : scale != 0 ->
  (scale%:C%C)^-1 *: ('X - (shift%:C%C + scale%:C%C * x)%:P) =
  toC (lfac shift scale (complex.Re x)) - (J * (complex.Im x)%:C%C)%:P.
Proof.
move=> s0; have s0' : scale%:C%C != 0 :> C by rewrite fmorph_eq0.
rewrite toC_lfac {1}(complexJ x) mulrDr addrA [(_ + scale%:C%C * (J * _))%:P]rmorphD /= opprD addrA.
rewrite [LHS]scalerDr scalerN; congr (_ - _).
by rewrite -mul_polyC -rmorphM /= mulKf.
Qed.
End CPoly.

Section Conj.
Variables (F : rcfType) (n : nat) (mv : 'cV[F]_n -> 'cV[F]_n).
Hypothesis lin : linear mv.
Variables (dt : F) (u : 'cV[F]_n) (shift scale : F) (x coeffs : seq F[i]) (tol : F) (nr : nat).
Hypothesis sc0 : scale != 0.
Local Notation toC := (map_poly (real_complex F)).
Let B := fun v => dt *: mv v.
Let Nb j : {poly F[i]} := newton_basis_sc shift%:C%C scale%:C%C x j.
Let Pn m : {poly F[i]} := newton_poly_sc shift%:C%C scale%:C%C x coeffs m.

Lemma leja_mv_lfac a (p : {poly F}) :
  leja_mv mv dt (shift + scale * a) scale (papply B p u) = papply B (p * lfac shift scale a) u.
Proof. by rewrite /lfac -scalerAr papplyZ papply_XsubC //; apply: linB. Qed.

Definition cj_inv (s : lstate F n) :=
  exists N0 A D : {poly F},
  [/\ (0 < l_i s)%N, Nb (l_i s).-1 = toC N0, l_vm s = papply B N0 u,
      Pn (l_i s) = toC A + J F *: toC D & l_pm s = papply B A u].

Lemma cRe_nth (c : seq F[i]) j : (cRe c)`_j = complex.Re c`_j.
Proof.
case: (ltnP j (size c)) => h; first by rewrite (nth_map 0).
by rewrite !nth_default ?size_map.
Qed.
Lemma cIm_nth (c : seq F[i]) j : (cIm c)`_j = complex.Im c`_j.
Proof.
case: (ltnP j (size c)) => h; first by rewrite (nth_map 0).
by rewrite !nth_default ?size_map.
Qed.

Lemma cterm (c : F[i]) (p : {poly F}) :
  c *: toC p = toC (complex.Re c *: p) + J F *: toC (complex.Im c *: p).
Proof. by rewrite {1}(complexJ c) scalerDl -scalerA !map_polyZ. Qed.

Lemma rterm (r : F) (p q : {poly F}) :
  r%:C%C *: (toC p + J F *: toC q) = toC (r *: p) + J F *: toC (r *: q).
Proof. by rewrite !map_polyZ scalerDr !scalerA mulrC. Qed.

Lemma cj_inv0 e cv : cj_inv (LState 1 u ((cRe coeffs)`_0 *: u) e cv).
Proof.
exists 1, (complex.Re coeffs`_0)%:P, (complex.Im coeffs`_0)%:P; split=> //=.
- by rewrite /Nb newton_basis_sc0 rmorph1.
- by rewrite papply1.
- rewrite /Pn newton_poly_scS /newton_poly_sc big_ord0 add0r newton_basis_sc0.
  have -> : (1 : {poly F[i]}) = toC 1 by rewrite rmorph1.
  have e1 (r : F) : r *: (1 : {poly F}) = r%:P by rewrite -mul_polyC mulr1.
  by rewrite (cterm coeffs`_0 1) !e1.
- by rewrite papplyC cRe_nth.
Qed.

Lemma cj_real_step s : complex.Im x`_(l_i s).-1 = 0 -> cj_inv s ->
  cj_inv (cj_real_body mv dt shift scale x coeffs s).
Proof.
case: s => [[|i] vm pm e cv] /= him [N0 [A [D [/= h0 hN hv hP hp]]]] //.
have hN1 : Nb i.+1 = toC (N0 * lfac shift scale (complex.Re x`_i)).
  rewrite /Nb newton_basis_scS -/(Nb i) hN cfac // him.
  by rewrite (_ : J F * 0%:C%C = 0) ?mulr0 // polyC0 subr0 rmorphM.
exists (N0 * lfac shift scale (complex.Re x`_i)).
exists (A + complex.Re coeffs`_i.+1 *: (N0 * lfac shift scale (complex.Re x`_i))).
exists (D + complex.Im coeffs`_i.+1 *: (N0 * lfac shift scale (complex.Re x`_i))).
split=> //=.
- by rewrite hv cRe_nth leja_mv_lfac.
- rewrite /Pn newton_poly_scS -/(Pn i.+1) hP -/(Nb i.+1) hN1 (cterm coeffs`_i.+1) !rmorphD /= scalerDr.
  by rewrite addrACA.
- by rewrite hp hv !cRe_nth leja_mv_lfac papplyD papplyZ.
Qed.

Lemma cj_pair_step nu s :
  x`_(l_i s) = conjc x`_(l_i s).-1 -> complex.Im coeffs`_(l_i s) = 0 -> cj_inv s ->
  cj_inv (cj_pair_body mv dt shift scale x coeffs tol nu s).
Proof.
case: s => [[|i] vm pm e cv] /= hcj hcr [N0 [A [D [/= h0 hN hv hP hp]]]] //.
have hre : complex.Re x`_i.+1 = complex.Re x`_i by rewrite hcj; case: (x`_i).
have him : complex.Im x`_i.+1 = - complex.Im x`_i by rewrite hcj; case: (x`_i).
set a := complex.Re x`_i in hre *; set b := complex.Im x`_i in him *.
have [L eL] : {L | L = lfac shift scale a} by eexists.
have hN1 : Nb i.+1 = toC (N0 * L) + J F *: toC (- b *: N0).
  rewrite /Nb newton_basis_scS -/(Nb i) hN cfac // -/a -/b -eL mulrBr -rmorphM; congr (_ + _).
  by rewrite mulrC mul_polyC !map_polyZ /= scalerA rmorphN mulrN scaleNr.
have hN2 : Nb i.+2 = toC (N0 * L * L + b ^+ 2 *: N0).
  rewrite /Nb !newton_basis_scS -/(Nb i) hN !cfac // hre him -/a -/b -eL.
  rewrite [(- b)%:C%C]rmorphN mulrN polyCN opprK [RHS]rmorphD /= (map_polyZ _ (b ^+ 2)) /= [toC (N0 * L * L)]rmorphM /= [toC (N0 * L)]rmorphM /= -mul_polyC.
  have -> : (real_complex F (b ^+ 2))%:P = - ((J F * b%:C%C)%:P * (J F * b%:C%C)%:P) :> {poly F[i]}.
    by rewrite -polyCM mulrACA JJ mulN1r polyCN opprK rmorphX.
  by move: (J F * b%:C%C)%:P (toC N0) (toC L) => w n0 l; ring.
exists (N0 * L * L + b ^+ 2 *: N0).
exists (A + complex.Re coeffs`_i.+1 *: (N0 * L) + complex.Re coeffs`_i.+2 *: (N0 * L * L + b ^+ 2 *: N0)).
exists (D + complex.Re coeffs`_i.+1 *: (- b *: N0) + complex.Im coeffs`_i.+2 *: (N0 * L * L + b ^+ 2 *: N0)).
have eq1 : leja_mv mv dt (shift + scale * (cRe x)`_i) scale vm = papply B (N0 * L) u.
  by rewrite hv cRe_nth leja_mv_lfac eL.
have eq2 : leja_mv mv dt (shift + scale * (cRe x)`_i) scale (papply B (N0 * L) u) +
    (scale * (cIm x)`_i / scale) ^+ 2 *: vm = papply B (N0 * L * L + b ^+ 2 *: N0) u.
  rewrite cRe_nth leja_mv_lfac -/a -eL cIm_nth -/b hv papplyD papplyZ.
  by rewrite [scale * b]mulrC mulfK.
split=> //=.
- by rewrite eq1 eq2.
- rewrite /Pn newton_poly_scS newton_poly_scS -/(Pn i.+1) -/(Nb i.+1) -/(Nb i.+2) hN2 hN1 hP.
  have -> : coeffs`_i.+1 = (complex.Re coeffs`_i.+1)%:C%C.
    by rewrite [LHS]complexJ hcr (_ : J F * 0%:C%C = 0) ?mulr0 // addr0.
  rewrite rterm (cterm coeffs`_i.+2).
  have -> : complex.Re (complex.Re coeffs`_i.+1)%:C%C = complex.Re coeffs`_i.+1 by [].
  move: (_ *: (N0 * L)) (_ *: (- b *: N0)) (_ *: (_ + _)) (_ *: (_ + _)) => p1 p2 p3 p4.
  rewrite !rmorphD /= !scalerDr.
  by move: (toC _) (toC _) (toC _) (J F *: _) (J F *: _) (J F *: _) => *; ring.
- by rewrite eq1 eq2 hp !cRe_nth !papplyD !papplyZ papplyD papplyZ.
Qed.
End Conj.
