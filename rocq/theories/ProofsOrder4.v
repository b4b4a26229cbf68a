(* ProofsOrder4.v : the error of the stages, in terms of the answers of the kernels. *)
From Coq Require Import Reals Lra.
From mathcomp Require Import all_ssreflect all_algebra.
From mathcomp Require Import ring.
From Verif Require Import Rstruct Summable MxBase MxSeries ProofsPhiErr SpecPhi SpecInt SpecProg SpecOrder SpecOrder2 ProofsJet ProofsJet2 ProofsJet3 ProofsOrder ProofsOrder2 ProofsOrder3.
Set Implicit Arguments.
Unset Strict Implicit.
Unset Printing Implicit Defensive.
Import Order.TTheory GRing.Theory Num.Theory.
Local Open Scope ring_scope.

Section Finish.
Variable n : nat.
Notation vec := 'cV[R]_n.
Lemma vj_diff p (g h : R -> vec) a : vj p g a -> vj p h a -> forall eps : R, 0 < eps ->
  exists d : R, 0 < d /\ forall s, `|s| <= d -> ninf (g s - h s) <= eps * `|s| ^+ p.
Proof.
move=> Hg Hh eps e0.
pose P (i : 'I_n) (d : R) := 0 < d /\ forall s, `|s| <= d -> `|g s i 0 - h s i 0| <= eps * `|s| ^+ p.
have hP i : exists d, P i d.
  have H := soB (Hg i) (Hh i); have [d [d0 hd]] := H _ e0; exists d; split=> // s /hd.
  suff -> : g s i 0 - (cfp p (fun k => a k i 0)).[s] - (h s i 0 - (cfp p (fun k => a k i 0)).[s]) = g s i 0 - h s i 0 by [].
  by move: (g s i 0) (h s i 0) (_.[s]) => u1 u2 u3; ring.
have [d [d0 hd]] : exists d : R, 0 < d /\ forall i, i \in enum 'I_n -> P i d.
  elim: (enum 'I_n) => [|i r [d [d0 IH]]]; first by exists 1; split=> //; exact: ltr01.
  have [e [e'0 he]] := hP i; exists (Num.min d e); split; first by rewrite lt_minr d0 e'0.
  move=> j; rewrite inE => /orP[/eqP->|/IH[_ hj]]; split; rewrite ?lt_minr ?d0 ?e'0 // => s; rewrite le_minr => /andP[s1 s2].
    exact: he.
  exact: hj.
exists d; split=> // s hs; apply: ninf_maxnorm; first by rewrite mulr_ge0 ?exprn_ge0 ?normr_ge0 // ltW.
by move=> i; rewrite !mxE; apply: (proj2 (hd i _)) => //; rewrite mem_enum.
Qed.
Lemma finish (Om : Type) (dt del : Om -> R) (good : Om -> Prop) p z t y (F : R -> vec) a (v : Om -> vec)
    (acc : R -> R -> Prop) (step : R -> vec -> Prop) :
  OB dt good (ddel dt del) (fun w => v w - (y + F (dt w))) -> vj p F a -> vj p (fun s => z (t + s) - y) a ->
  (forall d e, acc d e -> 0 <= e -> e <= 1 -> exists w, [/\ good w, dt w = d, del w = e & step d (v w)]) ->
  local_error p z t acc step.
Proof.
move=> [C [C0 [d1 [d10 hC]]]] HF Hz hacc; exists C; split=> // eps e0.
have [d2 [d20 hd]] := vj_diff HF Hz e0; exists (Num.min d1 d2); split; first by rewrite lt_minr d10 d20.
move=> s e; rewrite le_minr => /andP[s1 s2] e'0 e1 ha; have [w [gw ed ee st]] := hacc s e ha e'0 e1.
exists (v w); split=> //; apply/maxnorm_ninf.
  by rewrite addr_ge0 ?mulr_ge0 ?exprn_ge0 ?normr_ge0 // ltW.
have := hC w gw; rewrite ed => /(_ s1) h1; have h2 := hd s s2.
rewrite -[v w - z _](_ : (v w - (y + F s)) + (F s - (z (t + s) - y)) = _); last first.
  by apply/colP => i; rewrite !mxE; ring.
apply: le_trans (ninfD _ _) _; rewrite addrC; apply: ler_add => //.
by apply: le_trans h1 _; rewrite /ddel ed ee mulrA.
Qed.
End Finish.

Section Stages.
Variable n : nat.
Notation vec := 'cV[R]_n.
Variables (f : R -> vec -> vec) (t : R) (y ft : vec) (J : 'M[R]_n).
Variables (H2 : 'I_(1 + n) -> 'I_(1 + n) -> vec) (H3 : 'I_(1 + n) -> 'I_(1 + n) -> 'I_(1 + n) -> vec).
Hypothesis s2 : sym2 H2.
Notation f0 := (f t y).
Variables (Om : Type) (dt del : Om -> R) (good : Om -> Prop).
Hypothesis del01 : forall w, good w -> 0 <= del w /\ del w <= 1.
Notation OB := (OB dt good).
Notation ddel := (ddel dt del).
Notation adt := (adt dt).
Hypothesis lip : lipschitz_near f t y.

Section RB.
Variables (c : R) (w1 w2 : Om -> vec).
Definition yc (w : Om) : vec := y + (c * dt w) *: w1 w + (c ^+ 2 * dt w ^+ 2) *: w2 w.
Definition rc (w : Om) : vec := f (t + c * dt w) (yc w) - f0 - J *m (yc w - y) - (c * dt w) *: ft.
Hypothesis e1 : OB del (fun w => w1 w - phi 1 ((c * dt w) *: J) *m f0).
Hypothesis e2 : OB del (fun w => w2 w - phi 2 ((c * dt w) *: J) *m ft).
Lemma stage_y : OB ddel (fun w => yc w - (y + inc2 f t y ft J (c * dt w))).
Proof.
have h1 := OB_dt c e1.
have h2 : OB ddel (fun w => (c ^+ 2 * dt w ^+ 2) *: (w2 w - phi 2 ((c * dt w) *: J) *m ft)).
  have [C [C0 hC]] := OB_dt (c ^+ 2) e2; exists C; split=> //.
  apply: ev_imp (ev_and hC (ev_small dt good ltr01)) => w gw [h3 h4]; apply: le_trans h3.
  rewrite !ninfZ ler_wpmul2r ?ninf_ge0 // normrM [X in _ <= X]normrM ler_wpmul2l // normrX expr2 ler_pimull //.
apply: OB_ext (OB_add h1 h2) => w _; rewrite /yc /inc2 -exprMn.
rewrite !scalerBr exprMn; move: (_ *: w1 w) (_ *: w2 w) (_ *: (phi 1 _ *m _)) (_ *: (phi 2 _ *m _)) => a b d e.
by rewrite -[y + a + b]addrA [y + (a + b)]addrC addrKA opprD addrACA.
Qed.
Lemma stage_yO : OB adt (fun w => yc w - y).
Proof.
have hj := vj_subst c (vj_inc2 f t y ft J (isT : (1 <= 4)%N)).
have h2 := OB_jet0 dt good (ltn0Sn 0) hj (scaler0 _ _).
apply: OB_ext (OB_add (OB_ddel_adt del01 stage_y) h2) => w _.
by move: (inc2 _ _ _ _ _ _) => u; apply/colP => i; rewrite !mxE; ring.
Qed.
Lemma stage_r : OB ddel (fun w => rc w - rem2 f t y ft J (c * dt w)).
Proof.
have hj := vj_subst c (vj_inc2 f t y ft J (isT : (1 <= 4)%N)).
have h2 : OB adt (fun w => (y + inc2 f t y ft J (c * dt w)) - y).
  by apply: OB_ext (OB_jet0 dt good (ltn0Sn 0) hj (scaler0 _ _)) => w _; rewrite addrAC subrr add0r.
have hl := OB_lip del01 c lip stage_yO h2 stage_y.
apply: OB_ext (OB_sub hl (OB_mx J stage_y)) => w _.
rewrite /rc /rem2; move: (inc2 _ _ _ _ _ _) (yc w) => u v.
rewrite !mulmxBr mulmxDr !RplusE !RmultE.
move: (f _ v) (f _ (y + u)) (J *m v) (J *m u) (J *m y) ((c * dt w) *: ft) => a b d e g x.
by apply/colP => i; rewrite !mxE; ring.
Qed.
Lemma stage_rO k : (0 < k)%N -> (k <= 3)%N -> has_taylor k f t y ft J H2 H3 -> OB one_ rc.
Proof.
move=> k0 k3 HT.
have hr := vj_subst c (vj_rem2 s2 k0 k3 HT).
have h1 := OB_jet dt good hr.
apply: OB_ext (OB_add (OB_del_one del01 (OB_ddel_del del01 stage_r)) h1) => w _.
by rewrite subrK.
Qed.
End RB.
End Stages.
