(* ProofsConv7.v : one-step error of each method with constants that depend on the bounds of the problem only. *)
From Coq Require Import Reals String.
From mathcomp Require Import all_ssreflect all_algebra.
From mathcomp Require Import complex ring.
From Verif Require Import Rstruct Summable MxBase MxSeries ProofsPhiErr ModelHist SpecHist ModelOps SpecOps SpecPhi ModelPhi ModelKrylov ModelDispatch ModelInt SpecInt ProofsInt ProofsInt5 SpecExact ProofsExact.
From Verif Require Import SpecProg SpecOrder SpecOrder2 SpecConv ProofsJet ProofsJet2 ProofsJet3 ProofsOrder ProofsOrder2 ProofsOrder3 ProofsOrder4 ProofsOrder5 ProofsOrder6 ProofsOrder7 ProofsOrder8.
From Verif Require Import ProofsUJ ProofsUJ2 ProofsConv ProofsConv2 ProofsConv3 ProofsConv4 ProofsConv5 ProofsConv6.
Set Implicit Arguments.
Unset Strict Implicit.
Unset Printing Implicit Defensive.
Import Order.TTheory GRing.Theory Num.Theory.
Local Open Scope ring_scope.
Local Opaque breakdown_tol norm2 phi_linop f_phi_k_pfd kiops_fixedsteps.

(* a problem at a point, a step size, an error level, and the answers of the kernels *)
Record uom := UOm { uq : prob; ud : R; ue : R;
  u1 : 'cV[R]_(pn uq); u2 : 'cV[R]_(pn uq); u3 : 'cV[R]_(pn uq); u4 : 'cV[R]_(pn uq); u5 : 'cV[R]_(pn uq);
  uM : 'M[R]_(pn uq) }.
Notation un w := 'cV[R]_(pn (uq w)).
Record ubase (k : nat) (B r : R) (q : prob) (d e : R) : Prop := {
  ub_p : pgood k B r q;
  ub_d : 0 <= d;
  ub_e : 0 <= e;
  ub_i : ptin q d;
  ub_y : ninf (pz q (pt q) - py q) <= e }.
Definition err1 (j : nat) (C : R) (q : prob) (d e : R) (v : 'cV[R]_(pn q)) : Prop :=
  ninf (v - pz q (pt q + d)%R) <= (1 + C * d) * ninf (py q - pz q (pt q)) + C * d * (d ^+ j + e).

Section Unif.
Variables (k : nat) (B r : R).
Hypothesis B0 : 0 <= B.
Hypothesis r0 : 0 < r.
Hypothesis k0 : (0 < k)%N.
Hypothesis k3 : (k <= 3)%N.
Notation good S := (fun w => ubase k B r (uq w) (ud w) (ue w) /\ S w).
Definition unif (S : uom -> Prop) (j : nat) (v : forall w, un w) : Prop :=
  exists C h0 : R, [/\ 0 <= C, 0 < h0 & forall w, ubase k B r (uq w) (ud w) (ue w) -> S w ->
    ud w <= h0 -> ue w <= h0 -> err1 j C (ud w) (ue w) (v w)].
Lemma unif_of S j (v : forall w, un w) : (j <= k.+1)%N ->
  UJ ud ue (good S) j true (fun w => v w - py (uq w)) (fun m w => pzc (uq w) m) -> unif S j v.
Proof.
move=> jk H.
have [C [C0 [h0 [h00 HC]]]] := @one_step _ ud ue (good S) (fun w g => ub_d (proj1 g)) (fun w g => ub_e (proj1 g)) uq k B r B0 r0 k0 k3
  (fun w g => ub_p (proj1 g)) (fun w g => ub_y (proj1 g)) j v jk (fun w g => ub_i (proj1 g)) H.
by exists C, h0; split=> // w hb hS h1 h2; apply: HC.
Qed.
End Unif.
Notation Fxu w := (pf (pt (uq w)) (py (uq w))).
Notation Ftu w := (pft (uq w)).
Notation Ju w := (pJ (uq w)).
Notation answ d e c k M W v := (ninf (W - phi k ((c * d) *: M) *m v) <= e * ninf v).
Lemma gd k B r (S : uom -> Prop) w : ubase k B r (uq w) (ud w) (ue w) /\ S w -> 0 <= ud w. Proof. by case=> /ub_d. Qed.
Lemma ge k B r (S : uom -> Prop) w : ubase k B r (uq w) (ud w) (ue w) /\ S w -> 0 <= ue w. Proof. by case=> /ub_e. Qed.
Lemma gp k B r (S : uom -> Prop) w : ubase k B r (uq w) (ud w) (ue w) /\ S w -> pgood k B r (uq w). Proof. by case=> /ub_p. Qed.
Lemma gi k B r (S : uom -> Prop) w : ubase k B r (uq w) (ud w) (ue w) /\ S w -> ptin (uq w) (ud w). Proof. by case=> /ub_i. Qed.
Lemma gy k B r (S : uom -> Prop) w : ubase k B r (uq w) (ud w) (ue w) /\ S w -> ninf (pz (uq w) (pt (uq w)) - py (uq w)) <= ue w. Proof. by case=> /ub_y. Qed.

Lemma dif2 n (a b : 'cV[R]_n) : b = a + b - a. Proof. by rewrite addrAC subrr add0r. Qed.
Lemma dif3 n (a b b' : 'cV[R]_n) : b + b' = a + b + b' - a. Proof. by rewrite -[a + b + b']addrA addrAC subrr add0r. Qed.
Section Methods.
Variables (B r : R).
Hypothesis B0 : 0 <= B.
Hypothesis r0 : 0 < r.
Notation good k S := (fun w => ubase k B r (uq w) (ud w) (ue w) /\ S w).
Notation GD k := (@gd k B r _).
Notation GE k := (@ge k B r _).
Notation GP k := (@gp k B r _).
Notation GI k := (@gi k B r _).

Definition S_exprb2 w : Prop := answ (ud w) (ue w) r1 1%N (Ju w) (u1 w) (ud w *: Fxu w) /\ answ (ud w) (ue w) r1 2%N (Ju w) (u2 w) (Ftu w).
Lemma one_exprb2 : unif 1 B r S_exprb2 2 (fun w => py (uq w) + u1 w + ud w ^+ 2 *: u2 w).
Proof.
apply: unif_of => //.
have H := U_exprb2 (GD 1) (GE 1) B0 (GP 1) (W1 := u1) (W2 := u2) (good := good 1%N S_exprb2).
apply: UJ_ext (H _ _) => [w _|w [_ [h _]]|w [_ [_ h]]].
- exact: dif3.
- by rewrite mul1r in h.
- by rewrite mul1r in h.
Qed.
Definition S_dense w : Prop := answ (ud w) (ue w) r1 1%N (Ju w) (u1 w) (Fxu w) /\ answ (ud w) (ue w) r1 2%N (Ju w) (u2 w) (Ftu w).
Lemma one_dense : unif 1 B r S_dense 2 (fun w => py (uq w) + ud w *: (u1 w + ud w *: u2 w)).
Proof.
apply: unif_of => //.
have H := U_dense (GD 1) (GE 1) B0 (GP 1) (W1 := u1) (W2 := u2) (good := good 1%N S_dense).
apply: UJ_ext (H _ _) => [w _|w [_ [h _]]|w [_ [_ h]]].
- exact: dif2.
- by rewrite mul1r in h.
- by rewrite mul1r in h.
Qed.
(* a stage at node c *)
Definition ysti (c : R) (W1 W2 : forall w, un w) w : un w := py (uq w) + (c * ud w) *: W1 w + (c ^+ 2 * ud w ^+ 2) *: W2 w.
Definition yrem (c : R) (W1 W2 : forall w, un w) w : un w :=
  pf (pt (uq w) + c * ud w)%R (ysti c W1 W2 w) - Fxu w - Ju w *m (ysti c W1 W2 w - py (uq w)) - (c * ud w) *: Ftu w.
Lemma ystiE c W1 W2 w : ysti c W1 W2 w = py (uq w) + sti ud c W1 W2 w. Proof. by rewrite /ysti /sti addrA. Qed.
Lemma yremE c W1 W2 w : yrem c W1 W2 w = str ud c W1 W2 w.
Proof. by rewrite /yrem /str ystiE [py _ + _ - py _]addrAC subrr add0r. Qed.
Definition S_exprb3 w : Prop :=
  [/\ answ (ud w) (ue w) r1 1%N (Ju w) (u1 w) (Fxu w), answ (ud w) (ue w) r1 2%N (Ju w) (u2 w) (Ftu w) &
      answ (ud w) (ue w) r1 3%N (Ju w) (u3 w) (yrem r1 u1 u2 w)].
Lemma one_exprb3 : unif 2 B r S_exprb3 3 (fun w => ysti r1 u1 u2 w + (2%:R * ud w) *: u3 w).
Proof.
apply: unif_of => //.
have H := U_exprb3 (k := 2%N) (GD 2) (GE 2) B0 r0 isT isT (GP 2) (GI 2) (W1 := u1) (W2 := u2) (W3 := u3) (good := good 2%N S_exprb3) erefl.
apply: UJ_ext (H _ _ _) => [w _|w [_ [h _ _]] //|w [_ [_ h _]] //|w [_ [_ _ h]]].
- by rewrite ystiE -dif3.
- by rewrite yremE mul1r in h.
Qed.
Notation X3 w := (ud w *: (16%:R *: yrem half u1 u2 w - 2%:R *: yrem r1 u3 u4 w)).
Notation X4 w := (ud w *: (12%:R *: yrem r1 u3 u4 w - 48%:R *: yrem half u1 u2 w)).
Definition S_pexprb4 w : Prop :=
  [/\ answ (ud w) (ue w) half 1%N (Ju w) (u1 w) (Fxu w), answ (ud w) (ue w) half 2%N (Ju w) (u2 w) (Ftu w),
      answ (ud w) (ue w) r1 1%N (Ju w) (u3 w) (Fxu w), answ (ud w) (ue w) r1 2%N (Ju w) (u4 w) (Ftu w) &
      ninf (u5 w - (phi 3 (ud w *: Ju w) *m X3 w + phi 4 (ud w *: Ju w) *m X4 w)) <= ue w * (ninf (X3 w) + ninf (X4 w))].
Lemma one_pexprb4 : unif 3 B r S_pexprb4 4 (fun w => ysti r1 u3 u4 w + u5 w).
Proof.
apply: unif_of => //.
have H := U_pexprb4 (k := 3%N) (GD 3) (GE 3) B0 r0 isT isT (GP 3) (GI 3) (W1 := u3) (W2 := u4) (V1 := u1) (V2 := u2) (b := u5) (good := good 3%N S_pexprb4) erefl.
apply: UJ_ext (H _ _ _ _ _) => [w _|w [_ []] //|w [_ []] //|w [_ []] //|w [_ []] //|w [_ [_ _ _ _ h]]].
- by rewrite ystiE -dif3.
- by move: h; rewrite !yremE.
Qed.
Definition S_epi2 w : Prop := ninf (u1 w - (phi 1 (ud w *: Ju w) *m (ud w *: Fxu w) + phi 2 (ud w *: Ju w) *m (ud w ^+ 2 *: Ftu w)))
    <= ue w * (ninf (ud w *: Fxu w) + ninf (ud w ^+ 2 *: Ftu w)).
Lemma one_epi2 : unif 1 B r S_epi2 2 (fun w => py (uq w) + u1 w).
Proof.
apply: unif_of => //.
have H := U_epi2 (GD 1) (GE 1) B0 (GP 1) (b := u1) (good := good 1%N S_epi2).
apply: UJ_ext (H _) => [w _|w [_ h] //].
exact: dif2.
Qed.
Notation V2 w := ((ud w * (2%:R / 3%:R)) *: (pf (pt (uq w) - ud w)%R (u2 w) - Fxu w - Ju w *m (u2 w - py (uq w)) - (pt (uq w) - ud w - pt (uq w)) *: Ftu w)
   + ud w ^+ 2 *: Ftu w).
Definition S_epi3 w : Prop :=
  [/\ ptin (uq w) (- ud w), ninf (u2 w - pz (uq w) (pt (uq w) - ud w)%R) <= ue w &
   ninf (u1 w - (phi 1 (ud w *: Ju w) *m (ud w *: Fxu w) + phi 2 (ud w *: Ju w) *m V2 w)) <= ue w * (ninf (ud w *: Fxu w) + ninf (V2 w))].
Lemma one_epi3 : unif 2 B r S_epi3 3 (fun w => py (uq w) + u1 w).
Proof.
apply: unif_of => //.
have H := U_epi3 (k := 2%N) (GD 2) (GE 2) B0 r0 isT isT (GP 2) (b := u1) (yp := u2) (good := good 2%N S_epi3) erefl.
apply: UJ_ext (H _ _ _ _) => [w _|w [_ []] //|w [/ub_y] //|w [_ []] //|w [_ []] //].
exact: dif2.
Qed.
Lemma one_rk4 : unif 3 B r (fun=> True) 4 (fun w => py (uq w) + rk4v (@pf (uq w)) (pt (uq w)) (py (uq w)) (ud w)).
Proof.
apply: unif_of => //.
have H := U_rk4 (GD 3) (GE 3) B0 r0 (GP 3) (GI 3) (good := good 3%N (fun=> True)).
by apply: UJ_ext H => w _; rewrite addrAC subrr add0r.
Qed.
(* split methods: any bounded matrix M *)
Notation Mb w := (ninf (uM w) <= B).
Notation c := twothirds.
Notation srm c x := (srm ud uM c x).
Lemma CM k (S : uom -> Prop) : (forall w, S w -> Mb w) -> ubm ud ue (good k S) uM.
Proof. by move=> h; exists B; split=> //; apply: uev_all => w [_ /h]. Qed.
Definition S_exp1 w : Prop := Mb w /\ answ (ud w) (ue w) r1 1%N (uM w) (u1 w) ((r1 * ud w) *: Fxu w).
Lemma one_exp1 : unif 1 B r S_exp1 1 (fun w => py (uq w) + u1 w).
Proof.
apply: unif_of => //.
have cm : ubm ud ue (good 1%N S_exp1) uM by apply: CM => w [].
have A1 := S1_k (GD 1) (GE 1) B0 (GP 1) cm (x := u1) (c := r1).
lapply A1; [move=> {}A1|by move=> w [_ []]].
apply: UJ_ext (U_exp1 (GD 1) (GE 1) A1) => w _; exact: dif2.
Qed.
Definition S_exp2 w : Prop := [/\ Mb w, answ (ud w) (ue w) r1 1%N (uM w) (u1 w) ((r1 * ud w) *: Fxu w) &
   answ (ud w) (ue w) r1 2%N (uM w) (u2 w) ((r1 * ud w) *: srm r1 u1 w)].
Lemma r1inv : r1^-1 = r1 :> R. Proof. exact: invr1. Qed.
Lemma one_exp2 : unif 1 B r S_exp2 2 (fun w => py (uq w) + u1 w + u2 w).
Proof.
apply: unif_of => //.
have cm : ubm ud ue (good 1%N S_exp2) uM by apply: CM => w [].
have A1 := S1_k (GD 1) (GE 1) B0 (GP 1) cm (x := u1) (c := r1).
lapply A1; [move=> {}A1|by move=> w [_ []]].
have A1' := UJ_le (GD 1) (GE 1) (isT : (1 <= 3)%N) A1.
have R1 := U_srm (k := 1%N) (GD 1) (GE 1) B0 r0 isT isT (GP 1) (GI 1) cm ler01 (lexx _) A1' (@s1c0 _ _ _ _ _).
have A2 := S2_k (GD 1) (GE 1) cm (x := u2) (c := r1) (d := r1) R1.
lapply A2; [move=> {}A2|by move=> w [_ []]].
have r10 : r1 != 0 by exact: oner_neq0.
have H := U_exp2 (GD 1) (GE 1) r10 A1; rewrite r1inv in H.
apply: UJ_ext (H _ A2) => w _; exact: dif3.
Qed.
Notation X2 := (fun w => u1 w + u2 w).
Definition S_exp3 w : Prop := Mb w /\ [/\ answ (ud w) (ue w) c 1%N (uM w) (u1 w) ((c * ud w) *: Fxu w),
   answ (ud w) (ue w) c 2%N (uM w) (u2 w) ((c * ud w) *: srm c u1 w),
   answ (ud w) (ue w) r1 1%N (uM w) (u3 w) ((r1 * ud w) *: Fxu w) &
   answ (ud w) (ue w) r1 2%N (uM w) (u4 w) ((3%:R / 2%:R * ud w) *: srm c X2 w)].
Lemma one_exp3 : unif 2 B r S_exp3 3 (fun w => py (uq w) + u3 w + u4 w).
Proof.
apply: unif_of => //; have [c0 c1] := tt01.
have cm : ubm ud ue (good 2%N S_exp3) uM by apply: CM => w [].
have A1 := S1_k (GD 2) (GE 2) B0 (GP 2) cm (x := u1) (c := c).
lapply A1; [move=> {}A1|by move=> w [_ [_ []]]].
have A3 := S1_k (GD 2) (GE 2) B0 (GP 2) cm (x := u3) (c := r1).
lapply A3; [move=> {}A3|by move=> w [_ [_ []]]].
have A1' := UJ_le (GD 2) (GE 2) (isT : (2 <= 3)%N) A1.
have R1 := U_srm (k := 2%N) (GD 2) (GE 2) B0 r0 isT isT (GP 2) (GI 2) cm c0 c1 A1' (@s1c0 _ _ _ _ _).
have A2 := S2_k (GD 2) (GE 2) cm (x := u2) (c := c) (d := c) R1.
lapply A2; [move=> {}A2|by move=> w [_ [_ []]]].
have A12 := UJ_le (GD 2) (GE 2) (isT : (2 <= 3)%N) (UJD A1 A2).
have R2 := U_srm (k := 2%N) (GD 2) (GE 2) B0 r0 isT isT (GP 2) (GI 2) cm c0 c1 A12.
lapply R2; [move=> {}R2|by move=> w _; rewrite /s1c /s2c /= !scaler0 addr0].
have A4 := S2_k (GD 2) (GE 2) cm (x := u4) (c := r1) (d := (3%:R / 2%:R)%R) R2.
lapply A4; [move=> {}A4|by move=> w [_ [_ []]]].
apply: UJ_ext (U_exp3 A3 A4) => w _; exact: dif3.
Qed.
(* the same with dense phi matrices *)
Notation cx := (fun w => (c * ud w) *: u1 w).
Definition S_exp1d w : Prop := Mb w /\ answ (ud w) (ue w) r1 1%N (uM w) (u1 w) (Fxu w).
Lemma one_exp1d : unif 1 B r S_exp1d 1 (fun w => py (uq w) + (r1 * ud w) *: u1 w).
Proof.
apply: unif_of => //.
have cm : ubm ud ue (good 1%N S_exp1d) uM by apply: CM => w [].
have A1 := S1_d (GD 1) (GE 1) B0 (GP 1) cm (W := u1) (c := r1).
lapply A1; [move=> {}A1|by move=> w [_ []]].
apply: UJ_ext (U_exp1 (GD 1) (GE 1) A1) => w _; exact: dif2.
Qed.
Definition S_exp2d w : Prop := [/\ Mb w, answ (ud w) (ue w) c 1%N (uM w) (u1 w) (Fxu w),
   answ (ud w) (ue w) r1 1%N (uM w) (u2 w) (Fxu w) & answ (ud w) (ue w) r1 2%N (uM w) (u3 w) (srm c cx w)].
Lemma one_exp2d : unif 1 B r S_exp2d 2 (fun w => py (uq w) + (r1 * ud w) *: u2 w + (c^-1 * ud w) *: u3 w).
Proof.
apply: unif_of => //; have [c0 c1] := tt01.
have cm : ubm ud ue (good 1%N S_exp2d) uM by apply: CM => w [].
have A1 := S1_d (GD 1) (GE 1) B0 (GP 1) cm (W := u1) (c := c).
lapply A1; [move=> {}A1|by move=> w [_ []]].
have A2 := S1_d (GD 1) (GE 1) B0 (GP 1) cm (W := u2) (c := r1).
lapply A2; [move=> {}A2|by move=> w [_ []]].
have A1' := UJ_le (GD 1) (GE 1) (isT : (1 <= 3)%N) A1.
have R1 := U_srm (k := 1%N) (GD 1) (GE 1) B0 r0 isT isT (GP 1) (GI 1) cm c0 c1 A1' (@s1c0 _ _ _ _ _).
have A3 := S2_d (GD 1) (GE 1) cm (W := u3) (c := r1) (c^-1) R1.
lapply A3; [move=> {}A3|by move=> w [_ []]].
have cn : c != 0 by rewrite mulf_neq0 ?invr_eq0 ?pnatr_eq0.
apply: UJ_ext (U_exp2 (GD 1) (GE 1) cn A2 A3) => w _; exact: dif3.
Qed.
Notation cx2 := (fun w => (c * ud w) *: u1 w + (c * ud w) *: u2 w).
Definition S_exp3d w : Prop := Mb w /\ [/\ answ (ud w) (ue w) c 1%N (uM w) (u1 w) (Fxu w),
   answ (ud w) (ue w) c 2%N (uM w) (u2 w) (srm c cx w),
   answ (ud w) (ue w) r1 1%N (uM w) (u3 w) (Fxu w) & answ (ud w) (ue w) r1 2%N (uM w) (u4 w) (srm c cx2 w)].
Lemma one_exp3d : unif 2 B r S_exp3d 3 (fun w => py (uq w) + (r1 * ud w) *: u3 w + (3%:R / 2%:R * ud w) *: u4 w).
Proof.
apply: unif_of => //; have [c0 c1] := tt01.
have cm : ubm ud ue (good 2%N S_exp3d) uM by apply: CM => w [].
have A1 := S1_d (GD 2) (GE 2) B0 (GP 2) cm (W := u1) (c := c).
lapply A1; [move=> {}A1|by move=> w [_ [_ []]]].
have A3 := S1_d (GD 2) (GE 2) B0 (GP 2) cm (W := u3) (c := r1).
lapply A3; [move=> {}A3|by move=> w [_ [_ []]]].
have A1' := UJ_le (GD 2) (GE 2) (isT : (2 <= 3)%N) A1.
have R1 := U_srm (k := 2%N) (GD 2) (GE 2) B0 r0 isT isT (GP 2) (GI 2) cm c0 c1 A1' (@s1c0 _ _ _ _ _).
have A2 := S2_d (GD 2) (GE 2) cm (W := u2) (c := c) (c) R1.
lapply A2; [move=> {}A2|by move=> w [_ [_ []]]].
have A12 := UJ_le (GD 2) (GE 2) (isT : (2 <= 3)%N) (UJD A1 A2).
have R2 := U_srm (k := 2%N) (GD 2) (GE 2) B0 r0 isT isT (GP 2) (GI 2) cm c0 c1 A12.
lapply R2; [move=> {}R2|by move=> w _; rewrite /s1c /s2c /= !scaler0 addr0].
have A4 := S2_d (GD 2) (GE 2) cm (W := u4) (c := r1) ((3%:R / 2%:R)%R) R2.
lapply A4; [move=> {}A4|by move=> w [_ [_ []]]].
apply: UJ_ext (U_exp3 A3 A4) => w _; exact: dif3.
Qed.
End Methods.
