(* ProofsOrder5.v : error of one step of every method in terms of the answers of the kernels. *)
From Coq Require Import Reals Lra.
From mathcomp Require Import all_ssreflect all_algebra.
From mathcomp Require Import ring.
From Verif Require Import Rstruct Summable MxBase MxSeries ProofsPhiErr SpecPhi SpecInt SpecProg SpecOrder SpecOrder2 ProofsJet ProofsJet2 ProofsJet3 ProofsOrder ProofsOrder2 ProofsOrder3 ProofsOrder4.
Set Implicit Arguments.
Unset Strict Implicit.
Unset Printing Implicit Defensive.
Import Order.TTheory GRing.Theory Num.Theory.
Local Open Scope ring_scope.

Ltac vl :=
  repeat match goal with |- context [@mulmx ?R ?a ?b ?c ?A ?v] => let w := fresh "w" in set w := (@mulmx R a b c A v); clearbody w end;
  let i := fresh "i" in apply/colP => i; rewrite !mxE;
  repeat match goal with |- context [fun_of_matrix ?v i ?j] => let w := fresh "w" in set w := (fun_of_matrix v i j); clearbody w end;
  ring.
Section Methods.
Variable n : nat.
Notation vec := 'cV[R]_n.
Variables (f : R -> vec -> vec) (t : R) (y ft : vec) (J : 'M[R]_n).
Variables (H2 : 'I_(1 + n) -> 'I_(1 + n) -> vec) (H3 : 'I_(1 + n) -> 'I_(1 + n) -> 'I_(1 + n) -> vec).
Hypothesis s2 : sym2 H2.
Notation f0 := (f t y).
Variables (Om : Type) (dt del : Om -> R) (good : Om -> Prop).
Hypothesis del01 : forall w, good w -> 0 <= del w /\ del w <= 1.
Notation OB := (OB dt good).
Notation ddel := (ddel dt del).
Notation adt := (adt dt).
Hypothesis lip : lipschitz_near f t y.
Notation inc2 := (inc2 f t y ft J).
Notation rem2 := (rem2 f t y ft J).

Lemma OB_dtv (r : Om -> vec) : OB one_ r -> OB adt (fun w => dt w *: r w).
Proof. by move=> h; apply: OB_ext (OB_dt1 r1 h) => w _; rewrite mul1r. Qed.
Lemma OB_dtdel (r : Om -> vec) : OB del r -> OB ddel (fun w => dt w *: r w).
Proof. by move=> h; apply: OB_ext (OB_dt r1 h) => w _; rewrite mul1r. Qed.
Lemma OB_dtdd (r : Om -> vec) : OB ddel r -> OB ddel (fun w => dt w *: r w).
Proof. by move=> h; apply: OB_dtdel; apply: OB_ddel_del. Qed.
Lemma OB_phi1 wt k (A : 'M[R]_n) e : OB wt e -> OB wt (fun w => phi k (dt w *: A) *m e w).
Proof. by move=> h; apply: OB_ext (OB_phi k r1 A h) => w _; rewrite mul1r. Qed.

Section Rosenbrock.
(* exprb2: w1 answers phi_1(dt J)(dt f), w2 answers phi_2(dt J) ft *)
Lemma exprb2_err (w1 w2 : Om -> vec) :
  OB ddel (fun w => w1 w - phi 1 (dt w *: J) *m (dt w *: f0)) ->
  OB del (fun w => w2 w - phi 2 (dt w *: J) *m ft) ->
  OB ddel (fun w => y + w1 w + dt w ^+ 2 *: w2 w - (y + inc2 (dt w))).
Proof.
move=> e1 e2.
apply: OB_ext (OB_add e1 (OB_dtdd (OB_dtdel e2))) => w _; rewrite /inc2 -scalemxAr; vl.
Qed.
Lemma exprb2_err' (w1 w2 : Om -> vec) :
  OB del (fun w => w1 w - phi 1 (dt w *: J) *m f0) -> OB del (fun w => w2 w - phi 2 (dt w *: J) *m ft) ->
  OB ddel (fun w => y + dt w *: (w1 w + dt w *: w2 w) - (y + inc2 (dt w))).
Proof.
move=> e1 e2; have h : OB ddel (fun w => dt w *: w1 w - phi 1 (dt w *: J) *m (dt w *: f0)).
  by apply: OB_ext (OB_dtdel e1) => w _; rewrite scalerBr -scalemxAr.
by apply: OB_ext (exprb2_err h e2) => w _; vl.
Qed.
Section R3.
Variables (w1 w2 w3 : Om -> vec).
Hypothesis e1 : OB del (fun w => w1 w - phi 1 ((r1 * dt w) *: J) *m f0).
Hypothesis e2 : OB del (fun w => w2 w - phi 2 ((r1 * dt w) *: J) *m ft).
Notation yc := (yc y dt r1 w1 w2).
Notation rc := (rc f t y ft J dt r1 w1 w2).
Lemma exprb3_err : has_taylor 2 f t y ft J H2 H3 ->
  (forall w, good w -> ninf (w3 w - phi 3 (dt w *: J) *m rc w) <= del w * ninf (rc w)) ->
  OB ddel (fun w => yc w + (2%:R * dt w) *: w3 w - (y + inc3 f t y ft J (dt w))).
Proof.
move=> HT h3.
have hy := stage_y e1 e2; have hr := stage_r (J := J) del01 lip e1 e2.
have hrO := stage_rO s2 del01 lip e1 e2 (ltn0Sn 1) isT HT.
have k3 := OB_ker1 del01 h3 hrO.
have k3' := OB_add k3 (OB_phi1 3 J (OB_ddel_del del01 hr)).
apply: OB_ext (OB_add hy (OB_dt (2%:R : R_ringType) k3')) => w _; rewrite /inc3 ?RmultE ?mul1r; move: (rc w) (yc w) => u v; rewrite mulmxBr; vl.
Qed.
End R3.

(* pexprb4: stages at half (u1,u2) and at 1 (w1,w2); b answers phi_3 V3 + phi_4 V4 *)
Section R4.
Variables (u1 u2 w1 w2 b : Om -> vec).
Hypothesis d1 : OB del (fun w => u1 w - phi 1 ((half * dt w) *: J) *m f0).
Hypothesis d2 : OB del (fun w => u2 w - phi 2 ((half * dt w) *: J) *m ft).
Hypothesis e1 : OB del (fun w => w1 w - phi 1 ((r1 * dt w) *: J) *m f0).
Hypothesis e2 : OB del (fun w => w2 w - phi 2 ((r1 * dt w) *: J) *m ft).
Notation yc := (yc y dt r1 w1 w2).
Notation rc := (rc f t y ft J dt r1 w1 w2).
Notation rh := (ProofsOrder4.rc f t y ft J dt half u1 u2).
Notation V3 := (fun w => dt w *: (16%:R *: rh w - 2%:R *: rc w)).
Notation V4 := (fun w => dt w *: (12%:R *: rc w - 48%:R *: rh w)).
Lemma pexprb4_err : has_taylor 3 f t y ft J H2 H3 ->
  (forall w, good w -> ninf (b w - (phi 3 (dt w *: J) *m V3 w + phi 4 (dt w *: J) *m V4 w)) <= del w * (ninf (V3 w) + ninf (V4 w))) ->
  OB ddel (fun w => yc w + b w - (y + inc4 f t y ft J (dt w))).
Proof.
move=> HT hb.
have hy := stage_y e1 e2; have hr := stage_r (J := J) del01 lip e1 e2.
have hh := stage_r (J := J) del01 lip d1 d2.
have hrO := stage_rO s2 del01 lip e1 e2 (ltn0Sn 2) isT HT.
have hhO := stage_rO s2 del01 lip d1 d2 (ltn0Sn 2) isT HT.
have O3 := OB_dtv (OB_sub (OB_scal (16%:R : R_ringType) hhO) (OB_scal (2%:R : R_ringType) hrO)).
have O4 := OB_dtv (OB_sub (OB_scal (12%:R : R_ringType) hrO) (OB_scal (48%:R : R_ringType) hhO)).
have kb : OB ddel (fun w => b w - (phi 3 (dt w *: J) *m V3 w + phi 4 (dt w *: J) *m V4 w)).
  have [C3 [C30 h3]] := O3; have [C4 [C40 h4]] := O4; exists (C3 + C4); split; first exact: addr_ge0.
  apply: ev_imp (ev_and h3 h4) => w gw [h31 h41]; apply: le_trans (hb w gw) _.
  rewrite /ProofsOrder3.ddel mulrA mulrC ler_wpmul2r; [|by case: (del01 gw)|].
    by [].
  by rewrite mulrDl; apply: ler_add.
have D3 := OB_phi1 3 J (OB_dtdd (OB_sub (OB_scal (16%:R : R_ringType) hh) (OB_scal (2%:R : R_ringType) hr))).
have D4 := OB_phi1 4 J (OB_dtdd (OB_sub (OB_scal (12%:R : R_ringType) hr) (OB_scal (48%:R : R_ringType) hh))).
apply: OB_ext (OB_add hy (OB_add kb (OB_add D3 D4))) => w _; rewrite /inc4 ?RmultE ?mul1r.
move: (rc w) (rh w) (yc w) (rem2 (dt w)) (rem2 (half * dt w)) (inc2 (dt w)) => a c d e g x.
by rewrite ?(mulmxBr, =^~ scalemxAr); vl.
Qed.
End R4.
(* epi2, epi3: b answers phi_1 (dt f) + phi_2 V2 *)
Lemma epi_err (b V2 X2 : Om -> vec) : OB adt V2 -> OB ddel (fun w => V2 w - X2 w) ->
  (forall w, good w -> ninf (b w - (phi 1 (dt w *: J) *m (dt w *: f0) + phi 2 (dt w *: J) *m V2 w))
     <= del w * (ninf (dt w *: f0) + ninf (V2 w))) ->
  OB ddel (fun w => y + b w - (y + (phi 1 (dt w *: J) *m (dt w *: f0) + phi 2 (dt w *: J) *m X2 w))).
Proof.
move=> O2 D2 hb; have O1 := OB_dtv (OB_cst dt good f0).
have kb : OB ddel (fun w => b w - (phi 1 (dt w *: J) *m (dt w *: f0) + phi 2 (dt w *: J) *m V2 w)).
  have [C3 [C30 h3]] := O1; have [C4 [C40 h4]] := O2; exists (C3 + C4); split; first exact: addr_ge0.
  apply: ev_imp (ev_and h3 h4) => w gw [h31 h41]; apply: le_trans (hb w gw) _.
  rewrite /ProofsOrder3.ddel mulrA mulrC ler_wpmul2r; [|by case: (del01 gw)|].
    by [].
  by rewrite mulrDl; apply: ler_add.
apply: OB_ext (OB_add kb (OB_phi1 2 J D2)) => w _; rewrite mulmxBr; vl.
Qed.
End Rosenbrock.

Section Split.
Variable M : 'M[R]_n.
Notation srem := (srem f t y M).
Lemma srem_diff (c : R) (x : Om -> vec) (X : R -> vec) a : vj 1 X a -> a 0%N = 0 ->
  OB ddel (fun w => x w - X (dt w)) ->
  OB ddel (fun w => srem (c * dt w) (x w) - srem (c * dt w) (X (dt w))).
Proof.
move=> HX a0 hx; have OX := OB_jet0 dt good (ltn0Sn 0) HX a0.
have O2 : OB adt (fun w => (y + X (dt w)) - y) by apply: OB_ext OX => w _; rewrite addrAC subrr add0r.
have O1 : OB adt (fun w => (y + x w) - y).
  by apply: OB_ext (OB_add (OB_ddel_adt del01 hx) OX) => w _; rewrite subrK addrAC subrr add0r.
have h2 : OB ddel (fun w => (y + x w) - (y + X (dt w))).
  by apply: OB_ext hx => w _; move: (X _) => u; vl.
have hl := OB_lip del01 c lip O1 O2 h2.
apply: OB_ext (OB_sub hl (OB_mx M hx)) => w _; rewrite /ProofsOrder2.srem; move: (X _) => u; rewrite mulmxBr.
rewrite ?RplusE ?RmultE; vl.
Qed.
Lemma srem_O (c : R) (x : Om -> vec) (X : R -> vec) a : vj 1 X a -> a 0%N = 0 -> c != 0 ->
  has_taylor 1 f t y ft J H2 H3 -> OB ddel (fun w => x w - X (dt w)) ->
  OB one_ (fun w => srem (c * dt w) (x w)).
Proof.
move=> HX a0 c0 HT hx; have hd := srem_diff c HX a0 hx.
have hj := OB_jet dt good (vj_srem s2 M (ltn0Sn 0) isT HT c0 HX a0).
apply: OB_ext (OB_add (OB_del_one del01 (OB_ddel_del del01 hd)) hj) => w _; by rewrite subrK.
Qed.
(* a term (c dt) phi_k(d dt M) r computed as W with r replaced by x *)
Lemma term_err k (c d : R) (W r rho : Om -> vec) :
  OB ddel (fun w => W w - (c * dt w) *: (phi k ((d * dt w) *: M) *m r w)) -> OB ddel (fun w => r w - rho w) ->
  OB ddel (fun w => W w - (c * dt w) *: (phi k ((d * dt w) *: M) *m rho w)).
Proof.
move=> h1 h2; apply: OB_ext (OB_add h1 (OB_dt c (OB_phi k d M (OB_ddel_del del01 h2)))) => w _.
by rewrite mulmxBr; vl.
Qed.
(* answers of a kernel called with a scaled vector *)
Lemma term_ker k (c d : R) (W r : Om -> vec) : OB one_ r ->
  (forall w, good w -> ninf (W w - phi k ((d * dt w) *: M) *m ((c * dt w) *: r w)) <= del w * ninf ((c * dt w) *: r w)) ->
  OB ddel (fun w => W w - (c * dt w) *: (phi k ((d * dt w) *: M) *m r w)).
Proof.
move=> hr h; apply: OB_ext (OB_kerdt del01 h (OB_dt1 c hr)) => w _; by rewrite -scalemxAr.
Qed.
Lemma term_ker' k (c d : R) (W r : Om -> vec) : OB one_ r ->
  (forall w, good w -> ninf (W w - phi k ((d * dt w) *: M) *m r w) <= del w * ninf (r w)) ->
  OB ddel (fun w => (c * dt w) *: W w - (c * dt w) *: (phi k ((d * dt w) *: M) *m r w)).
Proof.
move=> hr h; apply: OB_ext (OB_dt c (OB_ker1 del01 h hr)) => w _; by rewrite scalerBr.
Qed.
Lemma sp2_err (c : R) (x W1 W2 : Om -> vec) : c != 0 -> has_taylor 1 f t y ft J H2 H3 ->
  OB ddel (fun w => x w - (c * dt w) *: (phi 1 ((c * dt w) *: M) *m f0)) ->
  OB ddel (fun w => W1 w - (r1 * dt w) *: (phi 1 ((r1 * dt w) *: M) *m f0)) ->
  (OB one_ (fun w => srem (c * dt w) (x w)) ->
   OB ddel (fun w => W2 w - (c^-1 * dt w) *: (phi 2 ((r1 * dt w) *: M) *m srem (c * dt w) (x w)))) ->
  OB ddel (fun w => y + W1 w + W2 w - (y + sp2 f t y M c (dt w))).
Proof.
move=> c0 HT hx h1 h2.
have HX := vj_sp1 f t y M 1 c.
have hd := srem_diff c HX (scaler0 _ _) hx.
have hO := srem_O HX (scaler0 _ _) c0 HT hx.
apply: OB_ext (OB_add h1 (term_err (h2 hO) hd)) => w _; rewrite /sp2 /sp1 ?RmultE ?mul1r.
move: (srem _ _) => u; vl.
Qed.
Notation c := twothirds.
Lemma sp3_err (x x3 W1 W2 : Om -> vec) : has_taylor 2 f t y ft J H2 H3 ->
  OB ddel (fun w => x w - (c * dt w) *: (phi 1 ((c * dt w) *: M) *m f0)) ->
  OB ddel (fun w => W1 w - (r1 * dt w) *: (phi 1 ((r1 * dt w) *: M) *m f0)) ->
  (OB one_ (fun w => srem (c * dt w) (x w)) ->
   OB ddel (fun w => x3 w - x w - (c * dt w) *: (phi 2 ((c * dt w) *: M) *m srem (c * dt w) (x w)))) ->
  (OB one_ (fun w => srem (c * dt w) (x3 w)) ->
   OB ddel (fun w => W2 w - ((3%:R / 2%:R) * dt w) *: (phi 2 ((r1 * dt w) *: M) *m srem (c * dt w) (x3 w)))) ->
  OB ddel (fun w => y + W1 w + W2 w - (y + sp3 f t y M (dt w))).
Proof.
move=> HT hx h1 h3 h2.
have HT1 : has_taylor 2 f t y ft J H2 H3 by [].
have HX := vj_sp1 f t y M 1 c.
have hd := srem_diff c HX (scaler0 _ _) hx.
have hO : OB one_ (fun w => srem (c * dt w) (x w)).
  have hj := OB_jet dt good (vj_srem s2 M (ltn0Sn 1) isT HT (c0) (vj_sp1 f t y M 2 c) (scaler0 _ _)).
  apply: OB_ext (OB_add (OB_del_one del01 (OB_ddel_del del01 hd)) hj) => w _; by rewrite subrK.
have h3' := term_err (h3 hO) hd.
have hx3 : OB ddel (fun w => x3 w - sp3b f t y M (dt w)).
  by apply: OB_ext (OB_add hx h3') => w _; rewrite /sp3b /sp1 ?RmultE; move: (srem _ _) => u; vl.
have [a [HX3 a0]] : exists a, vj 2 (sp3b f t y M) a /\ a 0%N = 0.
  have Hr := vj_srem s2 M (ltn0Sn 1) isT HT c0 (vj_sp1 f t y M 2 c) (scaler0 _ _).
  have H := vjD (vj_sp1 f t y M 2 c) (vjZ c (vj_le (leqnSn 2) (vj_s (vj_phi 2 c M Hr)))).
  eexists; split; first by apply: vj_ext H => s; rewrite /sp3b /sp1 scalerA ?RmultE.
  by rewrite /shift !scaler0 addr0.
have hd3 := srem_diff c (vj_le (isT : (1 <= 2)%N) HX3) a0 hx3.
have hO3 : OB one_ (fun w => srem (c * dt w) (x3 w)).
  have hj := OB_jet dt good (vj_srem s2 M (ltn0Sn 1) isT HT c0 HX3 a0).
  apply: OB_ext (OB_add (OB_del_one del01 (OB_ddel_del del01 hd3)) hj) => w _; by rewrite subrK.
apply: OB_ext (OB_add h1 (term_err (h2 hO3) hd3)) => w _; rewrite /sp3 ?RmultE ?mul1r.
move: (srem _ _) => u; vl.
Qed.
End Split.
End Methods.
