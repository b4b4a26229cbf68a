(* ProofsJet.v : expansions g(s) = a_0 + a_1 s + ... + a_p s^p + o(s^p) of scalar and vector functions. *)
From Coq Require Import Reals Lra.
From Coquelicot Require Import Coquelicot.
From mathcomp Require Import all_ssreflect all_algebra.
From mathcomp Require Import ring.
From Verif Require Import Rstruct Summable MxBase MxSeries ProofsPhiErr SpecProg SpecOrder.
Set Implicit Arguments.
Unset Strict Implicit.
Unset Printing Implicit Defensive.
Import Order.TTheory GRing.Theory Num.Theory.
Local Open Scope ring_scope.

Section Scalar.
Implicit Types (g h : R -> R) (P Q : {poly R}) (s c : R).
Definition so (p : nat) g : Prop :=
  forall eps : R, 0 < eps -> exists del : R, 0 < del /\ forall s, `|s| <= del -> `|g s| <= eps * `|s| ^+ p.
Definition bnd g : Prop := exists M del : R, [/\ 0 <= M, 0 < del & forall s, `|s| <= del -> `|g s| <= M].
Lemma so_ext p g h : (forall s, g s = h s) -> so p g -> so p h.
Proof. by move=> e H eps e0; have [d [d0 hd]] := H _ e0; exists d; split=> // s /hd; rewrite e. Qed.
(* only small s matter *)
Lemma so_near p g h : (exists del : R, 0 < del /\ forall s, `|s| <= del -> g s = h s) -> so p g -> so p h.
Proof.
move=> [d1 [d10 e]] H eps e0; have [d [d0 hd]] := H _ e0; exists (Num.min d d1); split.
  by rewrite lt_minr d0 d10.
by move=> s; rewrite le_minr => /andP[h1 h2]; rewrite -e //; apply: hd.
Qed.
Lemma so0 p : so p (fun=> 0).
Proof. by move=> eps e0; exists 1; split=> [|s _]; [exact: ltr01|]; rewrite normr0 mulr_ge0 ?exprn_ge0 // ltW. Qed.
Lemma soD p g h : so p g -> so p h -> so p (fun s => g s + h s).
Proof.
move=> Hg Hh eps e0; have e2 : 0 < eps / 2%:R by rewrite divr_gt0 ?ltr0n.
have [d1 [d10 h1]] := Hg _ e2; have [d2 [d20 h2]] := Hh _ e2.
exists (Num.min d1 d2); split; first by rewrite lt_minr d10 d20.
move=> s; rewrite le_minr => /andP[s1 s2]; apply: le_trans (ler_norm_add _ _) _.
by apply: le_trans (ler_add (h1 _ s1) (h2 _ s2)) _; rewrite -mulrDl -splitr.
Qed.
Lemma so_bmul p g h : bnd h -> so p g -> so p (fun s => h s * g s).
Proof.
move=> [M [d1 [M0 d10 hM]]] Hg eps e0.
have M1 : 0 < M + 1 by rewrite ltr_spaddr ?ltr01.
have [d [d0 hd]] := Hg _ (divr_gt0 e0 M1); exists (Num.min d d1); split; first by rewrite lt_minr d0 d10.
move=> s; rewrite le_minr => /andP[s1 s2]; rewrite normrM.
apply: (@le_trans _ _ ((M + 1) * (eps / (M + 1) * `|s| ^+ p))).
  by rewrite ler_pmul //; [apply: le_trans (hM _ s2) _; rewrite ler_addl ler01|apply: hd].
by rewrite mulrA mulrCA divff ?mulr1 // gt_eqF.
Qed.
Lemma bnd_const c : bnd (fun=> c).
Proof. by exists `|c|, 1; split=> //; exact: ltr01. Qed.
Lemma soZ p c g : so p g -> so p (fun s => c * g s).
Proof. by apply: so_bmul; apply: bnd_const. Qed.
Lemma soN p g : so p g -> so p (fun s => - g s).
Proof. by move=> H; apply: so_ext (soZ (-1) H) => s; rewrite mulN1r. Qed.
Lemma soB p g h : so p g -> so p h -> so p (fun s => g s - h s).
Proof. by move=> Hg Hh; apply: soD Hg _; apply: soN. Qed.
Lemma so_sum (I : finType) p (g : I -> R -> R) : (forall i, so p (g i)) -> so p (fun s => \sum_i g i s).
Proof.
move=> H; suff : forall r : seq I, so p (fun s => \sum_(i <- r) g i s) by exact.
elim=> [|i r IH]; first by apply: so_ext (so0 p) => s; rewrite big_nil.
by apply: so_ext (soD (H i) IH) => s; rewrite big_cons.
Qed.
Lemma so_mulX p k g : so p g -> so (p + k) (fun s => s ^+ k * g s).
Proof.
move=> H eps e0; have [d [d0 hd]] := H _ e0; exists d; split=> // s hs.
rewrite normrM normrX exprD mulrA [_ ^+ k * _]mulrC ler_wpmul2r ?exprn_ge0 //; exact: hd.
Qed.
Lemma so_le p q g : (q <= p)%N -> so p g -> so q g.
Proof.
move=> qp H eps e0; have [d [d0 hd]] := H _ e0; exists (Num.min d 1); split.
  by rewrite lt_minr d0 ltr01.
move=> s; rewrite le_minr => /andP[s1 s2]; apply: le_trans (hd _ s1) _.
by rewrite ler_wpmul2l ?(ltW e0) // ler_wiexpn2l.
Qed.
Lemma bnd_poly P : bnd (fun s => P.[s]).
Proof.
exists (\sum_(i < size P) `|P`_i|), 1; split; [by apply: sumr_ge0|exact: ltr01|].
move=> s s1; rewrite horner_coef; apply: le_trans (ler_norm_sum _ _ _) _; apply: ler_sum => i _.
by rewrite normrM normrX ler_pimulr // exprn_ile1.
Qed.
Lemma so_poly p P : (forall i, (i <= p)%N -> P`_i = 0) -> so p (fun s => P.[s]).
Proof.
move=> h0; pose Q := \poly_(i < size P) P`_(i + p.+1).
have e s : P.[s] = s ^+ p.+1 * Q.[s].
  have -> : P = 'X^p.+1 * Q; last by rewrite hornerM hornerXn.
  apply/polyP => i; rewrite coefXnM; case: ltnP => hi; first exact: h0.
  rewrite coef_poly subnK //; case: ltnP => // hs; rewrite nth_default //.
  by apply: leq_trans hs (leq_subr _ _).
apply: so_ext (so_bmul (bnd_poly Q) (_ : so p (fun s => s ^+ p.+1))) => [s|]; first by rewrite e mulrC.
move=> eps e0; exists eps; split=> // s hs; rewrite normrX exprS ler_wpmul2r ?exprn_ge0 //.
Qed.
Lemma bnd_so p g : so p g -> bnd g.
Proof.
move=> /(so_le (leq0n p)) /(_ 1 ltr01) [d [d0 hd]]; exists 1, d; split=> //; [exact: ler01|move=> s /hd].
by rewrite expr0 mulr1.
Qed.
Lemma bndD g h : bnd g -> bnd h -> bnd (fun s => g s + h s).
Proof.
move=> [M [d [M0 d0 hM]]] [N [e [N0 e0 hN]]]; exists (M + N), (Num.min d e); split.
- exact: addr_ge0.
- by rewrite lt_minr d0 e0.
- move=> s; rewrite le_minr => /andP[s1 s2]; apply: le_trans (ler_norm_add _ _) _.
  by apply: ler_add; [apply: hM|apply: hN].
Qed.
Lemma bnd_ext g h : (forall s, g s = h s) -> bnd g -> bnd h.
Proof. by move=> e [M [d [M0 d0 hM]]]; exists M, d; split=> // s /hM; rewrite e. Qed.

(* scalar expansions *)
Definition sj (p : nat) g P : Prop := so p (fun s => g s - P.[s]).
Lemma sj_ext p g h P : (forall s, g s = h s) -> sj p g P -> sj p h P.
Proof. by move=> e; apply: so_ext => s; rewrite e. Qed.
Lemma sj_near p g h P : (exists del : R, 0 < del /\ forall s, `|s| <= del -> g s = h s) -> sj p g P -> sj p h P.
Proof. by move=> [d [d0 e]]; apply: so_near; exists d; split=> // s hs; rewrite e. Qed.
Lemma sj_eqp p g P Q : (forall i, (i <= p)%N -> P`_i = Q`_i) -> sj p g P -> sj p g Q.
Proof.
move=> e H; have H2 : so p (fun s => (P - Q).[s]) by apply: so_poly => i hi; rewrite coefB e ?subrr.
by apply: so_ext (soD H H2) => s; rewrite hornerD hornerN addrA subrK.
Qed.
Lemma sj_poly p P : sj p (fun s => P.[s]) P.
Proof. by apply: so_ext (so0 p) => s; rewrite subrr. Qed.
Lemma sj_so p g P h : sj p g P -> so p h -> sj p (fun s => g s + h s) P.
Proof. by move=> H1 H2; apply: so_ext (soD H1 H2) => s; rewrite addrAC. Qed.
Lemma sjD p g h P Q : sj p g P -> sj p h Q -> sj p (fun s => g s + h s) (P + Q).
Proof. by move=> H1 H2; apply: so_ext (soD H1 H2) => s; rewrite hornerD opprD addrACA. Qed.
Lemma sjZ p c g P : sj p g P -> sj p (fun s => c * g s) (c *: P).
Proof. by move=> H; apply: so_ext (soZ c H) => s; rewrite hornerZ mulrBr. Qed.
Lemma sj_bnd p g P : sj p g P -> bnd g.
Proof. by move=> H; apply: bnd_ext (bndD (bnd_so H) (bnd_poly P)) => s; rewrite subrK. Qed.
Lemma sjM p g h P Q : sj p g P -> sj p h Q -> sj p (fun s => g s * h s) (P * Q).
Proof.
move=> H1 H2; apply: so_ext (soD (so_bmul (sj_bnd H1) H2) (so_bmul (bnd_poly Q) H1)) => s.
by rewrite hornerM; move: (P.[s]) (Q.[s]) (g s) (h s) => a b c d; ring.
Qed.
Lemma sj_sum (I : finType) p (g : I -> R -> R) (P : I -> {poly R}) : (forall i, sj p (g i) (P i)) ->
  sj p (fun s => \sum_i g i s) (\sum_i P i).
Proof.
move=> H; apply: so_ext (so_sum H) => s.
by rewrite horner_sum -sumrB.
Qed.
Lemma sj_le p q g P : (q <= p)%N -> sj p g P -> sj q g P.
Proof. by move=> h; apply: so_le. Qed.
Lemma sjX p g P : sj p g P -> sj p.+1 (fun s => s * g s) ('X * P).
Proof.
move=> H; have := so_mulX 1 H; rewrite addn1; apply: so_ext => s.
by rewrite hornerM hornerX mulrBr expr1.
Qed.

(* integration *)
Lemma mvt_c g g' (s : R) : (forall x, `|x| <= `|s| -> derivable_pt_lim g x (g' x)) ->
  exists c, `|c| <= `|s| /\ g s = g 0 + g' c * s.
Proof.
move=> hd.
have hb (x : R) : Rle (Rmin 0 s) x -> Rle x (Rmax 0 s) -> `|x| <= `|s|.
  rewrite /Rmin /Rmax => hx hy; apply/RleP; rewrite -!RabsE; move: hx hy; case: Rle_dec => h; rewrite /Rabs; do 2!case: Rcase_abs => ?; lra.
have [x hx|x hx|c [h1 h2]] := @MVT_gen g 0%R s g'.
- apply/is_derive_Reals; apply: hd; case: hx => h1 h2; apply: hb; exact: Rlt_le.
- apply: derivable_continuous_pt; exists (g' x); apply: hd; case: hx => h1 h2; exact: hb.
- exists c; split; first by case: h1 => h11 h12; exact: hb.
  by move: h2; rewrite Rminus_0_r => h2; rewrite -[g' c * s]h2 RminusE addrC subrK.
Qed.
Lemma so_int p g g' : g 0 = 0 -> (exists del : R, 0 < del /\ forall s, `|s| <= del -> derivable_pt_lim g s (g' s)) ->
  so p g' -> so p.+1 g.
Proof.
move=> g0 [d1 [d10 hd]] H eps e0; have [d [d0 hg]] := H _ e0.
exists (Num.min d d1); split; first by rewrite lt_minr d0 d10.
move=> s; rewrite le_minr => /andP[s1 s2].
have [c [hc ->]] := @mvt_c g g' s (fun x hx => hd x (le_trans hx s2)).
rewrite g0 add0r normrM exprSr mulrA ler_wpmul2r //.
apply: le_trans (hg c (le_trans hc s1)) _.
by rewrite ler_wpmul2l ?(ltW e0) // ler_expn2r // nnegrE.
Qed.
(* the primitive of P without constant term *)
Definition pint P : {poly R} := \poly_(i < (size P).+1) (if i is j.+1 then P`_j / j.+1%:R else 0).
Lemma pint_coef P i : (pint P)`_i = if i is j.+1 then P`_j / j.+1%:R else 0.
Proof.
rewrite coef_poly; case: ltnP => //; case: i => [//|j hj].
by rewrite nth_default // mul0r.
Qed.
Lemma pint_deriv P : (pint P)^`() = P.
Proof. by apply/polyP => i; rewrite coef_deriv pint_coef -mulr_natr divfK // pnatr_eq0. Qed.
Lemma pint0 P : (pint P).[0] = 0.
Proof. by rewrite horner_coef0 pint_coef. Qed.
Lemma poly_derivable P (s : R) : derivable_pt_lim (fun x => P.[x]) s (P^`().[s]).
Proof.
elim/poly_ind: P s => [|P c IH] s.
  apply: (@derivable_pt_lim_ext (fun=> 0%R)) => [x|]; first by rewrite horner0.
  by rewrite deriv0 horner0; apply: derivable_pt_lim_const.
have h := derivable_pt_lim_plus _ _ _ _ _ (derivable_pt_lim_mult _ _ _ _ _ (IH s) (derivable_pt_lim_id s)) (derivable_pt_lim_const c s).
rewrite derivD derivM derivX derivC addr0 mulr1 hornerD hornerM hornerX.
have -> : P^`().[s] * s + P.[s] = Rplus (Rplus (Rmult (P^`().[s]) (id s)) (Rmult (P.[s]) 1)) 0.
  by rewrite !RmultE !RplusE /id mulr1 addr0.
apply: derivable_pt_lim_ext h => x.
by rewrite /plus_fct /mult_fct /fct_cte /id hornerD hornerM hornerX hornerC.
Qed.
Lemma sj_int p g g' P : g 0 = 0 -> (exists del : R, 0 < del /\ forall s, `|s| <= del -> derivable_pt_lim g s (g' s)) ->
  sj p g' P -> sj p.+1 g (pint P).
Proof.
move=> g0 [d [d0 hd]] H; apply: (@so_int p (fun s => g s - (pint P).[s]) (fun s => g' s - P.[s])) => //.
  by rewrite g0 pint0 subrr.
exists d; split=> // s hs; rewrite -[P in g' s - P.[s]]pint_deriv.
have h := derivable_pt_lim_minus _ _ _ _ _ (hd s hs) (poly_derivable (pint P) s).
by apply: derivable_pt_lim_ext h => x.
Qed.
End Scalar.
