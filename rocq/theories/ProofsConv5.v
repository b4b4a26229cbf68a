(* ProofsConv5.v : the same for the splitting steps and for rk4. *)
From Coq Require Import Reals.
From mathcomp Require Import all_ssreflect all_algebra.
From mathcomp Require Import ring.
From Verif Require Import Rstruct Summable MxBase MxSeries ProofsPhiErr SpecProg SpecOrder ProofsJet2 ProofsJet3 ProofsOrder ProofsOrder2 ProofsUJ ProofsUJ2 ProofsConv ProofsConv2 ProofsConv3 ProofsConv4.
Set Implicit Arguments.
Unset Strict Implicit.
Unset Printing Implicit Defensive.
Import Order.TTheory GRing.Theory Num.Theory.
Local Open Scope ring_scope.

Section Sp.
Variables (Om : Type) (dt eta : Om -> R) (good : Om -> Prop).
Hypothesis dt0 : forall w, good w -> 0 <= dt w.
Hypothesis eta0 : forall w, good w -> 0 <= eta w.
Variables (pr : Om -> prob) (k : nat) (B r : R).
Hypothesis B0 : 0 <= B.
Hypothesis r0 : 0 < r.
Hypothesis k0 : (0 < k)%N.
Hypothesis k3 : (k <= 3)%N.
Hypothesis pg : forall w, good w -> pgood k B r (pr w).
Hypothesis hin : forall w, good w -> ptin (pr w) (dt w).
Notation UJ := (UJ dt eta good).
Notation UO := (UO dt eta good).
Notation vec w := 'cV[R]_(pn (pr w)).
Notation Fx w := (pf0 (pr w)).
Notation Ft w := (pft (pr w)).
Notation J w := (pJ (pr w)).
Notation zc := (fun m w => pzc (pr w) m).
Let Cf p b : UJ p b (fun w => Fx w) (fun m w => cst (Fx w) m) := C_f dt0 eta0 B0 pg p b.
Variable M : forall w, 'M[R]_(pn (pr w)).
Hypothesis CM : ubm dt eta good M.
Notation hinc := (hinc dt0 pg hin).

Definition s1c (c : R) m w : vec w := c *: shift (phc c 1 (M w) (cst (Fx w))) m.
Lemma S1_k (c : R) (x : forall w, vec w) :
  (forall w, good w -> ninf (x w - phi 1 ((c * dt w) *: M w) *m ((c * dt w) *: Fx w)) <= eta w * ninf ((c * dt w) *: Fx w)) ->
  UJ 3 true x (s1c c).
Proof.
move=> h; have P := UJ_sc dt0 eta0 c (UJ_phi dt0 eta0 1 c CM (Cf 2 true)).
apply: (UJ_ker1 dt0 eta0 P (UJ_sc dt0 eta0 c (Cf 2 true))) => w gw; first by rewrite /= scaler0.
by rewrite scalemxAr; apply: h.
Qed.
Lemma S1_d (c : R) (W : forall w, vec w) :
  (forall w, good w -> ninf (W w - phi 1 ((c * dt w) *: M w) *m Fx w) <= eta w * ninf (Fx w)) ->
  UJ 3 true (fun w => (c * dt w) *: W w) (s1c c).
Proof.
by move=> h; apply: (UJ_sc dt0 eta0 c); apply: (UJ_ker dt0 eta0 (UJ_phi dt0 eta0 1 c CM (Cf 2 true)) (Cf 2 true)).
Qed.
Definition s2c (c d : R) (a : nat -> forall w, vec w) m w : vec w := d *: shift (phc c 2 (M w) (fun j => a j w)) m.
Lemma S2_k p (c d : R) (rr x : forall w, vec w) a : UJ p true rr a ->
  (forall w, good w -> ninf (x w - phi 2 ((c * dt w) *: M w) *m ((d * dt w) *: rr w)) <= eta w * ninf ((d * dt w) *: rr w)) ->
  UJ p.+1 true x (s2c c d a).
Proof.
move=> Hr h; have P := UJ_sc dt0 eta0 d (UJ_phi dt0 eta0 2 c CM Hr).
apply: (UJ_ker1 dt0 eta0 P (UJ_sc dt0 eta0 d Hr)) => w gw; first by rewrite /= scaler0.
by rewrite scalemxAr; apply: h.
Qed.
Lemma S2_d p (c d : R) (rr W : forall w, vec w) a : UJ p true rr a ->
  (forall w, good w -> ninf (W w - phi 2 ((c * dt w) *: M w) *m rr w) <= eta w * ninf (rr w)) ->
  UJ p.+1 true (fun w => (d * dt w) *: W w) (s2c c d a).
Proof.
by move=> Hr h; apply: (UJ_sc dt0 eta0 d); apply: (UJ_ker dt0 eta0 (UJ_phi dt0 eta0 2 c CM Hr) Hr).
Qed.
Definition srm (c : R) (x : forall w, vec w) w : vec w := srem (@pf (pr w)) (pt (pr w)) (py (pr w)) (M w) (c * dt w)%R (x w).
Definition src (c : R) (a : nat -> forall w, vec w) m w : vec w := pfc (pr w) c (fun i => a i w) m - cst (Fx w) m - M w *m a m w.
Lemma U_srm (c : R) x a : 0 <= c -> c <= 1 -> UJ k true x a -> (forall w, good w -> a 0%N w = 0) -> UJ k true (srm c x) (src c a).
Proof.
move=> c0 c1 Hx a0.
have Hf := UJ_f dt0 eta0 B0 r0 k3 pg k0 (leqnn k) (fun w => @hinc c w c0 c1) Hx a0.
exact: UJB (UJB Hf (Cf k true)) (UJ_mx CM Hx).
Qed.
Lemma s1c0 (c : R) w : good w -> s1c c 0 w = 0. Proof. by rewrite /s1c /= scaler0. Qed.
Lemma U_exp1 x : UJ 3 true x (s1c r1) -> UJ 1 true x zc.
Proof.
move=> H; apply: UJ_eq (UJ_le dt0 eta0 (isT : (1 <= 3)%N) H) => m w.
by case: m => [|[|m]] // _ _; rewrite /s1c /shift ?phcE0 /cst ?fE /pzc /zco; vlin; field.
Qed.
Lemma U_exp2 (c : R) x1 x2 : c != 0 -> UJ 3 true x1 (s1c r1) ->
  UJ 2 true x2 (s2c r1 c^-1 (src c (s1c c))) -> UJ 2 true (fun w => x1 w + x2 w) zc.
Proof.
move=> cn H1 H2.
apply: UJ_eq (UJD (UJ_le dt0 eta0 (isT : (2 <= 3)%N) H1) H2) => m w.
case: m => [|[|[|m]]] // _ _; rewrite /s2c /src /s1c /shift ?phcE0 ?phcE1 ?phcE2 /pfc /fcoc /cst ?fE /pzc /zco ?phcE0 ?fE.
- by vlin; field.
- by vlin; field.
- by vlin; field.
Qed.
Notation c := twothirds.
Lemma U_exp3 x1 x2 : UJ 3 true x1 (s1c r1) ->
  UJ 3 true x2 (s2c r1 (3%:R / 2%:R)%R (src c (fun m w => s1c c m w + s2c c c (src c (s1c c)) m w))) -> UJ 3 true (fun w => x1 w + x2 w) zc.
Proof.
move=> H1 H2; apply: UJ_eq (UJD H1 H2) => m w.
pose b i := s1c c i w + s2c c c (src c (s1c c)) i w.
have b0 : b 0%N = 0 by rewrite /b /s1c /s2c /= !scaler0 addr0.
have b1 : b 1%N = c *: Fx w.
  by rewrite /b /s1c /s2c /shift ?phcE0 /src /pfc /fcoc /s1c /cst /shift ?fE /twothirds; vlin; field.
have b2 : b 2%N = (c ^+ 2 / 2%:R) *: (Ft w + J w *m Fx w).
  by rewrite /b /s1c /s2c /shift ?phcE0 ?phcE1 /src /pfc /fcoc /s1c /cst /shift ?phcE0 ?fE /twothirds; vlin; field.
have D2c x : D2 (@pH2 (pr w)) (c *: x, c) (c *: x, c) = c ^+ 2 *: D2 (@pH2 (pr w)) (x, r1) (x, r1).
  have e : tx c (c *: x) = c *: tx r1 x by rewrite -tx_scale mulr1.
  by rewrite /D2 /= e diff2Sl diff2Sr scalerA expr2.
have q0 : src c (fun m w => s1c c m w + s2c c c (src c (s1c c)) m w) 0 w = 0.
  by rewrite /src -/(b 0%N) b0 /pfc /fcoc /cst subrr mulmx0 subr0.
have q1 : src c (fun m w => s1c c m w + s2c c c (src c (s1c c)) m w) 1 w = c *: (Ft w + J w *m Fx w - M w *m Fx w).
  by rewrite /src /pfc /fcoc -/(b 1%N) b1 /cst; vlin; ring.
have q2 : src c (fun m w => s1c c m w + s2c c c (src c (s1c c)) m w) 2 w =
   c ^+ 2 *: (2%:R^-1 *: (J w *m (Ft w + J w *m Fx w) - M w *m (Ft w + J w *m Fx w) + D2 (@pH2 (pr w)) (Fx w, r1) (Fx w, r1))).
  by rewrite /src /pfc /fcoc -/(b 1%N) -/(b 2%N) b1 b2 /cst D2c /D2; vlin; field.
case: m => [|[|[|[|m]]]] // _ _; rewrite {1}/s2c {1}/s1c /shift ?phcE0 ?phcE1 ?phcE2 ?q0 ?q1 ?q2 /cst ?fE /pzc /zco /D2 /twothirds.
- by vlin; field.
- by vlin; field.
- by vlin; field.
- by vlin; field.
Qed.
End Sp.
Section Rk.
Variables (Om : Type) (dt eta : Om -> R) (good : Om -> Prop).
Hypothesis dt0 : forall w, good w -> 0 <= dt w.
Hypothesis eta0 : forall w, good w -> 0 <= eta w.
Variables (pr : Om -> prob) (B r : R).
Hypothesis B0 : 0 <= B.
Hypothesis r0 : 0 < r.
Hypothesis pg : forall w, good w -> pgood 3 B r (pr w).
Hypothesis hin : forall w, good w -> ptin (pr w) (dt w).
Notation UJ := (UJ dt eta good).
Notation vec w := 'cV[R]_(pn (pr w)).
Notation Fx w := (pf0 (pr w)).
Notation zc := (fun m w => pzc (pr w) m).
Let Cf p b : UJ p b (fun w => Fx w) (fun m w => cst (Fx w) m) := C_f dt0 eta0 B0 pg p b.
Notation hinc := (hinc dt0 pg hin).
Let w2 m w : vec w := pfc (pr w) r1 (shift (cst (Fx w))) m.
Let w3 m w : vec w := pfc (pr w) r1 (shift (fun j => w2 j w)) m.
Let w4 m w : vec w := pfc (pr w) r1 (shift (fun j => half ^+ j *: w3 j w)) m.
Lemma U_rk4 : UJ 4 true (fun w => rk4v (@pf (pr w)) (pt (pr w)) (py (pr w)) (dt w)) zc.
Proof.
have hh0 : 0 <= (half : R) by rewrite invr_ge0 ler0n.
have hh1 : (half : R) <= 1 by rewrite invf_le1 ?ltr0n // ler1n.
have HF c h (a : nat -> forall w, vec w) c0 c1 := @UJ_f _ _ _ _ dt0 eta0 pr 3 B r B0 r0 isT pg 3 true c h a isT isT (fun w => @hinc c w c0 c1).
have sh (a : nat -> forall w, vec w) h : UJ 2 true h (fun m w => half ^+ m *: a m w) ->
   UJ 3 true (fun w => (half * dt w) *: h w) (fun m w => half ^+ m *: shift (fun j => a j w) m).
  move=> H; apply: UJ_eq (UJ_sc dt0 eta0 half H) => m w _ _.
  by case: m => [|m]; rewrite /shift ?scaler0 // scalerA exprS.
have K2 : UJ 3 true (fun w => k2v (@pf (pr w)) (pt (pr w)) (py (pr w)) (dt w)) (fun m w => half ^+ m *: w2 m w).
  have H : UJ 2 true (fun w => Fx w) (fun m w => half ^+ m *: cst (Fx w) m).
    by apply: UJ_eq (Cf 2 true) => -[|m] w _ _; rewrite /cst ?expr0 ?scale1r ?scaler0.
  apply: UJ_eq (HF half _ _ hh0 hh1 (sh _ _ H) _) => [m w m3 _|w _]; last by rewrite /= scaler0.
  exact: pfc_pow.
have K3 : UJ 3 true (fun w => k3v (@pf (pr w)) (pt (pr w)) (py (pr w)) (dt w)) (fun m w => half ^+ m *: w3 m w).
  apply: UJ_eq (HF half _ _ hh0 hh1 (sh _ _ (UJ_le dt0 eta0 (leqnSn 2) K2)) _) => [m w m3 _|w _]; last by rewrite /= scaler0.
  exact: pfc_pow.
have K4 : UJ 3 true (fun w => k4v (@pf (pr w)) (pt (pr w)) (py (pr w)) (dt w)) w4.
  have H := HF r1 _ _ ler01 (lexx _) (UJ_s dt0 eta0 (UJ_le dt0 eta0 (leqnSn 2) K3)) (fun w _ => erefl).
  by apply: UJ_ext H => w _; rewrite mul1r.
have H := UJ_sc dt0 eta0 (6%:R^-1 : R_fieldType) (UJD (UJD (UJD (Cf 3 true) (UJZ (2%:R : R_fieldType) K2)) (UJZ (2%:R : R_fieldType) K3)) K4).
apply: UJ_eq H => m w.
case: m => [|[|[|[|[|m]]]]] // _ _; rewrite /w4 /w3 /w2 /pfc /fcoc /shift /cst /pzc /zco /D2 /D3 ?expr0 ?scale1r /=.
- by vlin; field.
- by vlin; field.
- rewrite /half; by vlin; field.
- rewrite /half; by vlin; field.
- rewrite /half ?(txZ, diff2Zr, tx0, diff20r); by vlin; field.
Qed.
End Rk.
