(* ProofsOrder2.v : expansions of the split methods (any linear part M) and of rk4. *)
From Coq Require Import Reals Lra.
From mathcomp Require Import all_ssreflect all_algebra.
From mathcomp Require Import ring.
From Verif Require Import Rstruct Summable MxBase MxSeries ProofsPhiErr SpecProg SpecOrder ProofsJet ProofsJet2 ProofsJet3 ProofsOrder.
Set Implicit Arguments.
Unset Strict Implicit.
Unset Printing Implicit Defensive.
Import Order.TTheory GRing.Theory Num.Theory.
Local Open Scope ring_scope.

Section Split.
Variable n : nat.
Notation vec := 'cV[R]_n.
Variables (f : R -> vec -> vec) (t : R) (y ft : vec) (J : 'M[R]_n).
Variables (H2 : 'I_(1 + n) -> 'I_(1 + n) -> vec) (H3 : 'I_(1 + n) -> 'I_(1 + n) -> 'I_(1 + n) -> vec).
Hypothesis s2 : sym2 H2.
Notation f0 := (f t y).
Notation zc := (zco f t y ft J H2 H3).
Notation fc := (fco f t y ft J H2 H3).
Variable M : 'M[R]_n.

(* the remainder with respect to M at time t + s of the increment h *)
Definition srem (s : R) (h : vec) : vec := f (t + s) (y + h) - f0 - M *m h.
Definition sp1 (s : R) : vec := s *: (phi 1 (s *: M) *m f0).
Lemma vj_sp1 p c : vj p (fun s => (c * s) *: (phi 1 ((c * s) *: M) *m f0)) (fun k => c ^+ k *: shift (phc r1 1 M (cst f0)) k).
Proof.
apply: (vj_le (leqnSn p)); apply: vj_ext (vj_subst c (vj_s (vj_phi 1 r1 M (vj_cst p f0)))) => s.
by rewrite mul1r.
Qed.
Lemma vj_sp1_sol : vj 1 sp1 zc.
Proof.
apply: vj_eq (vj_ext _ (vj_sp1 1 r1)) => [m|s]; last by rewrite /sp1 mul1r.
by case: m => [|[|m]] // _; rewrite /shift ?phcE0 /cst ?fE /zco /=; vlin; field.
Qed.
(* second order with node c *)
Definition sp2 (c s : R) : vec :=
  s *: (phi 1 (s *: M) *m f0 + c^-1 *: (phi 2 (s *: M) *m srem (c * s) (sp1 (c * s)))).
Lemma vj_srem k (c : R) h a : (0 < k)%N -> (k <= 3)%N -> has_taylor k f t y ft J H2 H3 -> c != 0 -> vj k h a -> a 0%N = 0 ->
  vj k (fun s => srem (c * s) (h s))
    (fun m => c ^+ m *: fc (fun j => c^-1 ^+ j *: a j) m - cst f0 m - M *m a m).
Proof.
move=> k0 k3 HT c0 Hh a0.
have Hh' := vj_subst c^-1 Hh.
have e0 : c^-1 ^+ 0 *: a 0%N = 0 by rewrite a0 scaler0.
have Hf := vj_subst c (vj_fcomp s2 k0 (leqnn k) k3 HT Hh' e0).
apply: vj_ext (vjB (vjB Hf (vj_cst k f0)) (vj_mx M Hh)) => s.
by rewrite /srem mulrA mulVf // mul1r.
Qed.
Lemma vj_sp2 (c : R) : has_taylor 1 f t y ft J H2 H3 -> c != 0 -> vj 2 (sp2 c) zc.
Proof.
move=> HT c0.
have Hr := vj_srem (ltn0Sn 0) isT HT c0 (vj_sp1 1 c) (scaler0 _ _).
have H := vj_s (vjD (vj_phi 1 r1 M (vj_cst 1 f0)) (vjZ c^-1 (vj_phi 2 r1 M Hr))).
apply: vj_eq (vj_ext _ H) => [m|s]; last by rewrite /sp2 /sp1 mul1r.
case: m => [|[|[|m]]] // _; rewrite /shift ?phcE0 ?phcE1 ?phcE2 ?phcE3 /cst /fco ?fE /zco /D2 /D3 ?phcE0 ?fE.
- by vlin; field.
- by vlin; field.
Qed.
(* third order, c = 2/3 *)
Notation c := twothirds.
Definition sp3b (s : R) : vec := sp1 (c * s) + (c * s) *: (phi 2 ((c * s) *: M) *m srem (c * s) (sp1 (c * s))).
Definition sp3 (s : R) : vec :=
  s *: (phi 1 (s *: M) *m f0 + (3%:R / 2%:R) *: (phi 2 (s *: M) *m srem (c * s) (sp3b s))).
Lemma c0 : c != 0 :> R.
Proof. by rewrite mulf_neq0 ?invr_eq0 ?pnatr_eq0. Qed.
Lemma vj_sp3 : has_taylor 2 f t y ft J H2 H3 -> vj 3 sp3 zc.
Proof.
move=> HT.
have Hr := vj_srem (ltn0Sn 1) isT HT c0 (vj_sp1 2 c) (scaler0 _ _).
have Hb : vj 2 sp3b (fun k => if k is k'.+1 then if k' is k''.+1 then if k'' is 0%N then (c ^+ 2 / 2%:R) *: (ft + J *m f0) else 0 else c *: f0 else 0).
  have H := vjD (vj_sp1 2 c) (vjZ c (vj_le (leqnSn 2) (vj_s (vj_phi 2 c M Hr)))).
  apply: vj_eq (vj_ext _ H) => [m|s]; last by rewrite /sp3b /sp1 scalerA.
  case: m => [|[|[|m]]] // _; rewrite /shift ?phcE0 ?phcE1 ?phcE2 ?phcE3 /cst /fco ?fE /zco /D2 /D3 ?phcE0 ?phcE1 ?fE /c.
  - by vlin; field.
  - by vlin; field.
  - by vlin; field.
have Hr3 := vj_srem (ltn0Sn 1) isT HT c0 Hb (erefl _).
have H := vj_s (vjD (vj_phi 1 r1 M (vj_cst 2 f0)) (vjZ (3%:R / 2%:R : R_fieldType) (vj_phi 2 r1 M Hr3))).
apply: vj_eq (vj_ext _ H) => [m|s]; last by rewrite /sp3 mul1r.
have ec : twothirds^-1 *: (twothirds *: f0) = f0 by rewrite scalerA mulVf ?c0 ?scale1r.
case: m => [|[|[|[|m]]]] // _; rewrite /shift ?phcE0 ?phcE1 ?phcE2 ?phcE3 /cst /fco ?fE /zco /D2 /D3 ?expr1 ?ec /c //.
- by vlin; field.
- by vlin; field.
- by vlin; field.
Qed.

(* rk4 *)
Definition k2v (s : R) := f (t + half * s) (y + (half * s) *: f0).
Definition k3v (s : R) := f (t + half * s) (y + (half * s) *: k2v s).
Definition k4v (s : R) := f (t + s) (y + s *: k3v s).
Definition rk4v (s : R) : vec := (6%:R^-1 * s) *: (f0 + 2%:R *: k2v s + 2%:R *: k3v s + k4v s).
Lemma diff2Zr (x1 x2 : 'cV[R]_(1 + n)) (r : R) : diff2 H2 x1 (r *: x2) = r *: diff2 H2 x1 x2.
Proof.
rewrite /diff2 scaler_sumr; apply: eq_bigr => i _; rewrite scaler_sumr; apply: eq_bigr => j _.
by rewrite mxE scalerA mulrCA.
Qed.
Lemma txZ (r : R) (v : vec) : tx 0 (r *: v) = r *: tx 0 v.
Proof. by rewrite /tx scale_col_mx scale_scalar_mx mulr0. Qed.
Lemma half0 : half != 0. Proof. by rewrite invr_eq0 pnatr_eq0. Qed.
Definition u2 (m : nat) : vec := fc (fun k => if k is 1%N then f0 else 0) m.
Definition u3 (m : nat) : vec := fc (shift u2) m.
Definition u4 (m : nat) : vec := fc (shift (fun k => half ^+ k *: u3 k)) m.
Lemma vj_rk4 : has_taylor 3 f t y ft J H2 H3 -> vj 4 rk4v zc.
Proof.
move=> HT.
have HF := fun h a => @vj_fcomp _ f t y ft J H2 H3 s2 3 3 h a isT isT isT HT.
have h1 : vj 3 (fun s => s *: f0) (fun k => if k is 1%N then f0 else 0).
  by apply: vj_eq (vj_s (vj_cst 2 f0)) => -[|[|k]].
have H2' : vj 3 (fun s => f (t + s) (y + s *: f0)) u2 by apply: HF h1 _.
have H3' : vj 3 (fun s => f (t + s) (y + s *: f (t + s) (y + s *: f0))) u3.
  by apply: HF => //; apply: vj_s; apply: vj_le H2'.
have Hk2 := vj_subst half H2'; have Hk3 := vj_subst half H3'.
have H4' : vj 3 (fun s => f (t + s) (y + s *: k3v s)) u4.
  by apply: HF => //; apply: vj_s; apply: vj_le Hk3.
have H := vjZ (6%:R^-1 : R_fieldType) (vj_s (vjD (vjD (vjD (vj_cst 3 f0) (vjZ (2%:R : R_ringType) Hk2)) (vjZ (2%:R : R_ringType) Hk3)) H4')).
apply: vj_eq (vj_ext _ H) => [m|s]; last by rewrite scalerA.
case: m => [|[|[|[|[|m]]]]] // _; rewrite /u4 /u3 /u2 /shift /cst /fco /zco /D2 /D3 ?expr0 ?scale1r /=.
- by vlin; field.
- by vlin; field.
- rewrite /half; by vlin; field.
- rewrite /half; by vlin; field.
- rewrite /half ?(txZ, diff2Zr, tx0, diff20r); by vlin; field.
Qed.
End Split.
