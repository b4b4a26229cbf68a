(* ProofsOrder.v : the expansions of the methods with exact phi functions agree with the expansion of
   the solution. *)
From Coq Require Import Reals Lra.
From mathcomp Require Import all_ssreflect all_algebra.
From mathcomp Require Import ring.
From Verif Require Import Rstruct Summable MxBase MxSeries ProofsPhiErr SpecProg SpecOrder ProofsJet ProofsJet2 ProofsJet3.
Set Implicit Arguments.
Unset Strict Implicit.
Unset Printing Implicit Defensive.
Import Order.TTheory GRing.Theory Num.Theory.
Local Open Scope ring_scope.

(* substitution s := c s *)
Lemma so_subst p (c : R) g : so p g -> so p (fun s => g (c * s)).
Proof.
have [->|c0] := eqVneq c 0.
  move=> H; have [|d [d0 hd]] := H 1; first exact: ltr01.
  case: p H d d0 hd => [|p] H d d0 hd; last first.
    have g0 : g 0 = 0.
      have := hd 0; rewrite normr0 expr0n mulr0 => /(_ (ltW d0)) h.
      by apply/eqP; rewrite -normr_le0.
    by apply: so_ext (so0 p.+1) => s; rewrite mul0r g0.
  move=> eps e0; have [d' [d'0 hd']] := H _ e0; exists 1; split=> [|s _]; first exact: ltr01.
  by rewrite mul0r expr0; have := hd' 0; rewrite normr0 expr0 => /(_ (ltW d'0)).
move=> H eps e0; have c1 : 0 < `|c| by rewrite normr_gt0.
have [d [d0 hd]] := H (eps / `|c| ^+ p) (divr_gt0 e0 (exprn_gt0 _ c1)).
exists (d / `|c|); split; first by rewrite divr_gt0.
move=> s hs; have := hd (c * s); rewrite normrM exprMn mulrA divfK ?expf_neq0 ?gt_eqF //; apply.
by rewrite mulrC -ler_pdivl_mulr.
Qed.
Lemma vj_subst n p (c : R) (g : R -> 'cV[R]_n) a : vj p g a -> vj p (fun s => g (c * s)) (fun k => c ^+ k *: a k).
Proof.
move=> H i; apply: so_ext (so_subst c (H i)) => s; congr (_ - _).
rewrite /cfp !horner_poly; apply: eq_bigr => k _; rewrite mxE exprMn.
by rewrite mulrA [a k i 0 * _]mulrC.
Qed.

(* identities of vectors by coordinates; products with matrices and differentials are atoms *)
Ltac vlin :=
  rewrite ?(mulmxDr, mulmxBr, mulmxN, =^~ scalemxAr, scalerDr, scalerBr, scalerN, scalerA, mulmx0, scaler0, addr0, add0r, subr0);
  repeat match goal with |- context [mulmx ?A ?v] => let w := fresh "w" in set w := (mulmx A v); clearbody w end;
  repeat match goal with |- context [diff2 ?A ?v ?u] => let w := fresh "w" in set w := (diff2 A v u); clearbody w end;
  repeat match goal with |- context [diff3 ?A ?v ?u ?x] => let w := fresh "w" in set w := (diff3 A v u x); clearbody w end;
  let i := fresh "i" in apply/colP => i; rewrite !mxE;
  repeat match goal with |- context [fun_of_matrix ?v i ?j] => let w := fresh "w" in set w := (fun_of_matrix v i j); clearbody w end.


Lemma fE : ((0`! = 1%N) * (1`! = 1%N) * (2`! = 2%N) * (3`! = 6%N) * (4`! = 24%N) * (5`! = 120%N) * (6`! = 720%N))%type.
Proof. by []. Qed.
Section Phc.
Variable n : nat.
Implicit Types (A : 'M[R]_n) (a : nat -> 'cV[R]_n) (c : R).
Lemma phcE0 c k A a : phc c k A a 0 = (k`!%:R)^-1 *: a 0%N.
Proof. by rewrite /phc big_ord1 expr0 mul1r mxpow0 mul1mx. Qed.
Lemma phcE1 c k A a : phc c k A a 1 = (k`!%:R)^-1 *: a 1%N + (c * (k.+1`!%:R)^-1) *: (A *m a 0%N).
Proof. by rewrite /phc !big_ord_recl big_ord0 /= /bump /= !addn0 expr0 mul1r mxpow0 mul1mx mxpow1 addr0 expr1. Qed.
Lemma phcE2 c k A a : phc c k A a 2 = (k`!%:R)^-1 *: a 2%N + (c * (k.+1`!%:R)^-1) *: (A *m a 1%N)
  + (c ^+ 2 * (k.+2`!%:R)^-1) *: (A *m (A *m a 0%N)).
Proof.
rewrite /phc !big_ord_recl big_ord0 /= /bump /= !addn0 expr0 mul1r mxpow0 mul1mx mxpow1 addr0 expr1 addrA.
by rewrite mxpowS mxpow1 mulmxA.
Qed.
Lemma phcE3 c k A a : phc c k A a 3 = (k`!%:R)^-1 *: a 3%N + (c * (k.+1`!%:R)^-1) *: (A *m a 2%N)
  + (c ^+ 2 * (k.+2`!%:R)^-1) *: (A *m (A *m a 1%N)) + (c ^+ 3 * (k.+3`!%:R)^-1) *: (A *m (A *m (A *m a 0%N))).
Proof.
rewrite /phc !big_ord_recl big_ord0 /= /bump /= !addn0 expr0 mul1r mxpow0 mul1mx mxpow1 addr0 expr1 !addrA.
by rewrite !mxpowS mxpow0 mulmx1 !mulmxA.
Qed.
Lemma phcE4 c k A a : phc c k A a 4 = (k`!%:R)^-1 *: a 4%N + (c * (k.+1`!%:R)^-1) *: (A *m a 3%N)
  + (c ^+ 2 * (k.+2`!%:R)^-1) *: (A *m (A *m a 2%N)) + (c ^+ 3 * (k.+3`!%:R)^-1) *: (A *m (A *m (A *m a 1%N)))
  + (c ^+ 4 * (k.+4`!%:R)^-1) *: (A *m (A *m (A *m (A *m a 0%N)))).
Proof.
rewrite /phc !big_ord_recl big_ord0 /= /bump /= !addn0 expr0 mul1r mxpow0 mul1mx mxpow1 addr0 expr1 !addrA.
by rewrite !mxpowS mxpow0 mulmx1 !mulmxA.
Qed.
End Phc.
Notation r1 := (GRing.one [ringType of R]).
Section Ideal.
Variable n : nat.
Notation vec := 'cV[R]_n.
Variables (f : R -> vec -> vec) (t : R) (y ft : vec) (J : 'M[R]_n).
Variables (H2 : 'I_(1 + n) -> 'I_(1 + n) -> vec) (H3 : 'I_(1 + n) -> 'I_(1 + n) -> 'I_(1 + n) -> vec).
Hypothesis s2 : sym2 H2.
Notation f0 := (f t y).
Notation zc := (zco f t y ft J H2 H3).
Notation fc := (fco f t y ft J H2 H3).

(* the increment of exprb2 *)
Definition inc2 (s : R) : vec := s *: (phi 1 (s *: J) *m f0) + s ^+ 2 *: (phi 2 (s *: J) *m ft).
Definition e2c (m : nat) : vec :=
  match m with
  | 0 => 0
  | 1 => f0
  | 2 => 2%:R^-1 *: (ft + J *m f0)
  | 3 => 6%:R^-1 *: (J *m (ft + J *m f0))
  | 4 => 24%:R^-1 *: (J *m (J *m (ft + J *m f0)))
  | _ => inc2 0
  end.
Lemma vj_inc2 p : (p <= 4)%N -> vj p inc2 e2c.
Proof.
move=> p4; apply: (vj_le p4).
have H1 := vj_s (vj_phi 1 r1 J (vj_cst 3 f0)).
have H2' := vj_s (vj_s (vj_phi 2 r1 J (vj_cst 2 ft))).
apply: vj_eq (vj_ext _ (vjD H1 H2')) => [m|s]; last by rewrite /inc2 mul1r exprS expr1 scalerA.
case: m => [|[|[|[|[|m]]]]] // _; rewrite /shift ?phcE0 ?phcE1 ?phcE2 ?phcE3 /cst ?fE /e2c ?mulmx0 ?scaler0 ?addr0 ?add0r //; vlin; by field.
Qed.

Definition half : R_fieldType := 2%:R^-1.
Definition twothirds : R_fieldType := 2%:R / 3%:R.
Definition rem2 (s : R) : vec := f (t + s) (y + inc2 s) - f0 - J *m inc2 s - s *: ft.
Definition rco (m : nat) : vec :=
  match m with
  | 2 => 2%:R^-1 *: D2 H2 (f0, r1) (f0, r1)
  | 3 => D2 H2 (f0, r1) (2%:R^-1 *: (ft + J *m f0), 0) + 6%:R^-1 *: D3 H3 (f0, r1)
  | _ => 0
  end.
Lemma vj_s1 p (g : R -> vec) a : (0 < p)%N -> vj p.-1 g a -> vj p (fun s => s *: g s) (shift a).
Proof. by case: p => // p _; apply: vj_s. Qed.
Lemma vj_rem2 k : (0 < k)%N -> (k <= 3)%N -> has_taylor k f t y ft J H2 H3 -> vj k rem2 rco.
Proof.
move=> k0 k3 HT; have k4 : (k <= 4)%N by apply: leq_trans k3 _.
have Hf := vj_fcomp s2 k0 (leqnn k) k3 HT (vj_inc2 k4) (erefl _).
have H := vjB (vjB (vjB Hf (vj_cst k f0)) (vj_mx J (vj_inc2 k4))) (vj_s1 k0 (vj_cst k.-1 ft)).
apply: vj_eq H => m mk; have := leq_trans mk k3; case: m mk => [|[|[|[|m]]]] // mk _; rewrite /cst /shift /fco /rco /e2c.
- by rewrite mulmx0 !subr0 subrr.
- by rewrite subr0 addrK subrr.
- by rewrite !subr0 addrAC subrr add0r.
- by rewrite !subr0 -addrA addrAC subrr add0r.
Qed.
(* exprb3 *)
Definition inc3 (s : R) : vec := inc2 s + (2%:R * s) *: (phi 3 (s *: J) *m rem2 s).
Lemma vj_inc3 : has_taylor 2 f t y ft J H2 H3 -> vj 3 inc3 zc.
Proof.
move=> HT; have Hr := vjZ (2%:R : R_ringType) (vj_s (vj_phi 3 r1 J (vj_rem2 (ltn0Sn 1) isT HT))).
apply: vj_eq (vj_ext _ (vjD (vj_inc2 (isT : (3 <= 4)%N)) Hr)) => [m|s]; last by rewrite /inc3 mul1r scalerA.
case: m => [|[|[|[|m]]]] // _; rewrite /shift ?phcE0 ?phcE1 ?phcE2 ?phcE3 /rco ?fE /e2c /zco /D2 /D3 ?mulmx0 ?scaler0 ?addr0 ?add0r //; vlin; by field.
Qed.
Lemma vj_inc2_sol : vj 2 inc2 zc.
Proof. by apply: vj_eq (vj_inc2 (isT : (2 <= 4)%N)) => -[|[|[|m]]]. Qed.
(* pexprb4 *)
Definition rc2 (c s : R) : vec := rem2 (c * s).
Definition inc4 (s : R) : vec := inc2 s
  + (phi 3 (s *: J) *m (s *: (16%:R *: rem2 (half * s) - 2%:R *: rem2 s))
     + phi 4 (s *: J) *m (s *: (12%:R *: rem2 s - 48%:R *: rem2 (half * s)))).
Lemma vj_inc4 : has_taylor 3 f t y ft J H2 H3 -> vj 4 inc4 zc.
Proof.
move=> HT; have H1 := vj_rem2 (ltn0Sn 2) isT HT; have Hh := vj_subst half H1.
have Ha := vj_phi 3 r1 J (vj_s (vjB (vjZ (16%:R : R_ringType) Hh) (vjZ (2%:R : R_ringType) H1))).
have Hb := vj_phi 4 r1 J (vj_s (vjB (vjZ (12%:R : R_ringType) H1) (vjZ (48%:R : R_ringType) Hh))).
apply: vj_eq (vj_ext _ (vjD (vj_inc2 (isT : (4 <= 4)%N)) (vjD Ha Hb))) => [m|s]; last by rewrite /inc4 mul1r.
case: m => [|[|[|[|[|m]]]]] // _; rewrite ?phcE0 ?phcE1 ?phcE2 ?phcE3 ?phcE4 /shift /rco ?fE /e2c /zco /D2 /D3 /half ?mulmx0 ?scaler0 ?subr0 ?mulmx0 ?scaler0 ?addr0 ?add0r ?subr0 //; vlin; by field.
Qed.
(* epi3: the remainder at a previous point yp = y + h, h(s) = z(t-s) - y + o(s^2) *)
Definition epi3v (h : R -> vec) (s : R) : vec :=
  phi 1 (s *: J) *m (s *: f0)
  + phi 2 (s *: J) *m ((s * (2%:R / 3%:R)) *: (f (t - s) (y + h s) - f0 - J *m h s + s *: ft) + s ^+ 2 *: ft).
Lemma vj_epi3 h : has_taylor 2 f t y ft J H2 H3 -> vj 2 h (fun k => (-1) ^+ k *: zc k) -> vj 3 (epi3v h) zc.
Proof.
move=> HT Hh.
have Hh' : vj 2 (fun s => h (-1 * s)) zc.
  apply: vj_eq (vj_subst (-1) Hh) => k _; by rewrite scalerA -exprMn mulrNN mulr1 expr1n scale1r.
have Hf := vj_subst (-1 : R_ringType) (vj_fcomp s2 (ltn0Sn 1) (leqnn 2) isT HT Hh' (erefl _)).
have Hf2 : vj 2 (fun s => f (t - s) (y + h s)) (fun k => (-1) ^+ k *: fc zc k).
  by apply: vj_ext Hf => s; rewrite !mulN1r opprK RplusE.
have Hr := vjD (vjB (vjB Hf2 (vj_cst 2 f0)) (vj_mx J Hh)) (vj_s1 (ltn0Sn 1) (vj_cst 1 ft)).
have Hr3 := vjZ (twothirds : R_ringType) (vj_s Hr).
have Hs := vj_s (vj_s (vj_cst 1 ft)).
have H := vjD (vj_phi 1 r1 J (vj_s (vj_cst 2 f0))) (vj_phi 2 r1 J (vjD Hr3 Hs)).
apply: vj_eq (vj_ext _ H) => [m|s]; last first.
  rewrite /epi3v mul1r; congr (_ + _ *m (_ + _)); last by rewrite scalerA expr2.
  by rewrite scalerA; congr (_ *: _); rewrite mulrC.
case: m => [|[|[|[|m]]]] // _; rewrite ?phcE0 ?phcE1 ?phcE2 ?phcE3 /shift /cst /fco ?fE /zco /D2 /D3 /twothirds ?mulmx0 ?scaler0 ?subr0 ?mulmx0 ?scaler0 ?addr0 ?add0r ?subr0 //.
- vlin; by field.
- vlin; by field.
- vlin; by field.
- vlin; by field.
Qed.
Lemma vj_epi3V h : has_taylor 2 f t y ft J H2 H3 -> vj 2 h (fun k => (-1) ^+ k *: zc k) -> exists a, a 0%N = 0 /\
  vj 3 (fun s => (s * (2%:R / 3%:R)) *: (f (t - s) (y + h s) - f0 - J *m h s + s *: ft) + s ^+ 2 *: ft) a.
Proof.
move=> HT Hh.
have Hh' : vj 2 (fun s => h (-1 * s)) zc.
  apply: vj_eq (vj_subst (-1) Hh) => k _; by rewrite scalerA -exprMn mulrNN mulr1 expr1n scale1r.
have Hf := vj_subst (-1 : R_ringType) (vj_fcomp s2 (ltn0Sn 1) (leqnn 2) isT HT Hh' (erefl _)).
have Hf2 : vj 2 (fun s => f (t - s) (y + h s)) (fun k => (-1) ^+ k *: fc zc k).
  by apply: vj_ext Hf => s; rewrite !mulN1r opprK RplusE.
have Hr := vjD (vjB (vjB Hf2 (vj_cst 2 f0)) (vj_mx J Hh)) (vj_s1 (ltn0Sn 1) (vj_cst 1 ft)).
have Hr3 := vjZ (twothirds : R_ringType) (vj_s Hr).
have Hs := vj_s (vj_s (vj_cst 1 ft)).
eexists; split; last first.
  apply: vj_ext (vjD Hr3 Hs) => s; congr (_ + _); last by rewrite scalerA expr2.
  by rewrite scalerA; congr (_ *: _); rewrite mulrC.
by rewrite /= scaler0 addr0.
Qed.
End Ideal.
