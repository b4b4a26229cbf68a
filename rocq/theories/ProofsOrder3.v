(* ProofsOrder3.v : propagation of the kernel errors through a step. *)
From Coq Require Import Reals Lra.
From mathcomp Require Import all_ssreflect all_algebra.
From mathcomp Require Import ring.
From Verif Require Import Rstruct Summable MxBase MxSeries ProofsPhiErr SpecPhi SpecInt SpecProg SpecOrder SpecOrder2 ProofsJet ProofsJet2 ProofsJet3 ProofsOrder.
Set Implicit Arguments.
Unset Strict Implicit.
Unset Printing Implicit Defensive.
Import Order.TTheory GRing.Theory Num.Theory.
Local Open Scope ring_scope.

Lemma maxnorm_ninf n (v : 'cV[R]_n) (r : R) : 0 <= r -> maxnorm_le v r <-> ninf v <= r.
Proof.
move=> r0; split=> [h|h i]; last by apply: le_trans (ninf_entry _ _ _) h.
by apply: ninf_le => // i; rewrite big_ord1; exact: h.
Qed.
Lemma maxnorm_self n (v : 'cV[R]_n) : maxnorm_le v (ninf v).
Proof. by move=> i; exact: ninf_entry. Qed.
Lemma ninf_maxnorm n (v : 'cV[R]_n) (r : R) : 0 <= r -> maxnorm_le v r -> ninf v <= r.
Proof. by move=> r0 /(maxnorm_ninf v r0). Qed.

Section O.
Variables (Om : Type) (dt del : Om -> R) (good : Om -> Prop).
Hypothesis del01 : forall w, good w -> 0 <= del w /\ del w <= 1.
Definition ev (P : Om -> Prop) : Prop := exists d : R, 0 < d /\ forall w, good w -> `|dt w| <= d -> P w.
Lemma ev_and (P Q : Om -> Prop) : ev P -> ev Q -> ev (fun w => P w /\ Q w).
Proof.
move=> [d [d0 hd]] [e [e0 he]]; exists (Num.min d e); split; first by rewrite lt_minr d0 e0.
by move=> w gw; rewrite le_minr => /andP[h1 h2]; split; [apply: hd|apply: he].
Qed.
Lemma ev_imp (P Q : Om -> Prop) : (forall w, good w -> P w -> Q w) -> ev P -> ev Q.
Proof. by move=> h [d [d0 hd]]; exists d; split=> // w gw hw; apply: h => //; apply: hd. Qed.
Lemma ev_all (P : Om -> Prop) : (forall w, good w -> P w) -> ev P.
Proof. by move=> h; exists 1; split=> [|w gw _]; [exact: ltr01|apply: h]. Qed.
Lemma ev_small (r : R) : 0 < r -> ev (fun w => `|dt w| <= r).
Proof. by move=> r0; exists r; split. Qed.

Variable n : nat.
Notation vec := 'cV[R]_n.
(* e = O(w) *)
Definition OB (wt : Om -> R) (e : Om -> vec) : Prop :=
  exists C : R, 0 <= C /\ ev (fun w => ninf (e w) <= C * wt w).
Definition one_ (w : Om) : R_ringType := 1.
Definition ddel (w : Om) : R_ringType := `|dt w| * del w.
Definition adt (w : Om) : R_ringType := `|dt w|.
Lemma OB_ext wt e e' : (forall w, good w -> e w = e' w) -> OB wt e -> OB wt e'.
Proof. by move=> h [C [C0 hC]]; exists C; split=> //; apply: ev_imp hC => w gw; rewrite h. Qed.
Lemma OB_add wt e e' : OB wt e -> OB wt e' -> OB wt (fun w => e w + e' w).
Proof.
move=> [C [C0 hC]] [D [D0 hD]]; exists (C + D); split; first exact: addr_ge0.
apply: ev_imp (ev_and hC hD) => w _ [h1 h2]; apply: le_trans (ninfD _ _) _.
by rewrite mulrDl; apply: ler_add.
Qed.
Lemma OB_scal wt (c : R) e : OB wt e -> OB wt (fun w => c *: e w).
Proof.
move=> [C [C0 hC]]; exists (`|c| * C); split; first exact: mulr_ge0.
by apply: ev_imp hC => w _ h; rewrite ninfZ -mulrA ler_wpmul2l.
Qed.
Lemma OB_opp wt e : OB wt e -> OB wt (fun w => - e w).
Proof. by move=> h; apply: OB_ext (OB_scal (-1) h) => w _; rewrite scaleN1r. Qed.
Lemma OB_sub wt e e' : OB wt e -> OB wt e' -> OB wt (fun w => e w - e' w).
Proof. by move=> h1 h2; apply: OB_add h1 _; apply: OB_opp. Qed.
Lemma OB_mx wt (A : 'M[R]_n) e : OB wt e -> OB wt (fun w => A *m e w).
Proof.
move=> [C [C0 hC]]; exists (ninf A * C); split; first by rewrite mulr_ge0 ?ninf_ge0.
apply: ev_imp hC => w _ h; apply: le_trans (ninfM _ _) _; by rewrite -mulrA ler_wpmul2l ?ninf_ge0.
Qed.
Lemma OB_phi wt k (c : R) (A : 'M[R]_n) e : OB wt e -> OB wt (fun w => phi k ((c * dt w) *: A) *m e w).
Proof.
move=> [C [C0 hC]]; exists (exp (`|c| * ninf A)%R * C); split; first by rewrite mulr_ge0 ?exp_ge0.
apply: ev_imp (ev_and hC (ev_small ltr01)) => w _ [h1 h2]; apply: le_trans (ninfM _ _) _.
rewrite -mulrA ler_pmul ?ninf_ge0 //; apply: le_trans (ninf_phi _ _) _.
apply: (@le_trans _ _ (1 * exp (ninf ((c * dt w) *: A)))); first by rewrite ler_wpmul2r ?exp_ge0 ?ifact_le1.
rewrite mul1r; apply: exp_le; rewrite ninfZ normrM ler_wpmul2r ?ninf_ge0 //.
by rewrite ler_pimulr.
Qed.
Lemma OB_dt (c : R) e : OB del e -> OB ddel (fun w => (c * dt w) *: e w).
Proof.
move=> [C [C0 hC]]; exists (`|c| * C); split; first exact: mulr_ge0.
apply: ev_imp hC => w _ h; rewrite ninfZ normrM /ddel -mulrA -mulrA ler_wpmul2l // mulrCA ler_wpmul2l //.
Qed.
Lemma OB_dt1 (c : R) e : OB one_ e -> OB adt (fun w => (c * dt w) *: e w).
Proof.
move=> [C [C0 hC]]; exists (`|c| * C); split; first exact: mulr_ge0.
apply: ev_imp hC => w _; rewrite /one_ mulr1 => h; rewrite ninfZ normrM /adt mulrAC.
by rewrite ler_wpmul2r // ler_wpmul2l.
Qed.
Lemma ddel_ge0 w : good w -> 0 <= ddel w.
Proof. by move=> /del01[h _]; apply: mulr_ge0. Qed.
Lemma OB_w wt wt' e : ev (fun w => wt w <= wt' w) -> OB wt e -> OB wt' e.
Proof.
move=> h [C [C0 hC]]; exists C; split=> //; apply: ev_imp (ev_and h hC) => w _ [h1 h2].
by apply: le_trans h2 _; apply: ler_wpmul2l.
Qed.
Lemma OB_ddel_del e : OB ddel e -> OB del e.
Proof.
apply: OB_w; apply: ev_imp (ev_small ltr01) => w gw h; rewrite /ddel ler_pimull //.
by case: (del01 gw).
Qed.
Lemma OB_del_one e : OB del e -> OB one_ e.
Proof. by apply: OB_w; apply: ev_all => w /del01[]. Qed.
Lemma OB_ddel_adt e : OB ddel e -> OB adt e.
Proof. by apply: OB_w; apply: ev_all => w /del01[_ h]; rewrite /ddel ler_pimulr. Qed.
Lemma OB_adt_one e : OB adt e -> OB one_ e.
Proof. by apply: OB_w; apply: ev_small; exact: ltr01. Qed.
Lemma OB_cst (v : vec) : OB one_ (fun=> v).
Proof. by exists (ninf v); split; [exact: ninf_ge0|apply: ev_all => w _; rewrite mulr1]. Qed.
Lemma OB_jet (g : R -> vec) p a : vj p g a -> OB one_ (fun w => g (dt w)).
Proof.
move=> H; have [M [d [M0 d0 hM]]] := vj_bnd H; exists M; split=> //; exists d; split=> // w _ hw.
by rewrite mulr1; apply: hM.
Qed.
Lemma OB_jet0 (g : R -> vec) p a : (0 < p)%N -> vj p g a -> a 0%N = 0 -> OB adt (fun w => g (dt w)).
Proof.
move=> p0 H a0; have [C [d [C1 d0 hC]]] := vj_Os p0 H a0.
have C0 : 0 <= C by apply: le_trans C1; exact: ler01.
exists C; split=> //; exists d; split=> // w _ hw.
by apply: ninf_maxnorm; [by rewrite mulr_ge0 ?normr_ge0|move=> i; apply: hC].
Qed.
(* the answer of a kernel *)
Lemma OB_ker (P : Om -> 'M[R]_n) (r w' : Om -> vec) wt : (forall w, good w -> 0 <= wt w) ->
  (forall w, good w -> ninf (w' w - P w *m r w) <= del w * ninf (r w)) -> OB wt r ->
  OB (fun w => wt w * del w) (fun w => w' w - P w *m r w).
Proof.
move=> w0 h [C [C0 hC]]; exists C; split=> //; apply: ev_imp hC => w gw hr.
apply: le_trans (h w gw) _; rewrite [C * _]mulrA [C * _ * _]mulrC ler_wpmul2l //; by case: (del01 gw).
Qed.
Lemma OB_ker1 (P : Om -> 'M[R]_n) (r w' : Om -> vec) :
  (forall w, good w -> ninf (w' w - P w *m r w) <= del w * ninf (r w)) -> OB one_ r ->
  OB del (fun w => w' w - P w *m r w).
Proof.
move=> h hr; have H := OB_ker (wt := one_) (fun _ _ => ler01) h hr.
by apply: OB_w H; apply: ev_all => w _; rewrite mul1r.
Qed.
Lemma OB_kerdt (P : Om -> 'M[R]_n) (r w' : Om -> vec) :
  (forall w, good w -> ninf (w' w - P w *m r w) <= del w * ninf (r w)) -> OB adt r ->
  OB ddel (fun w => w' w - P w *m r w).
Proof. by move=> h hr; apply: (OB_ker (wt := adt) _ h hr) => w _; apply: normr_ge0. Qed.
(* Lipschitz *)
Lemma OB_lip (f : R -> vec -> vec) (t : R) (y : vec) (c : R) (x x' : Om -> vec) :
  lipschitz_near f t y -> OB adt (fun w => x w - y) -> OB adt (fun w => x' w - y) ->
  OB ddel (fun w => x w - x' w) ->
  OB ddel (fun w => f (t + c * dt w) (x w) - f (t + c * dt w) (x' w)).
Proof.
move=> [Lp [rad [L0 rad0 hL]]] [C [C0 hC]] [C' [C'0 hC']] [D [D0 hD]].
have c1 : 0 < `|c| + 1 by rewrite ltr_spaddr ?ltr01.
have h1 (E : R) : 0 <= E -> ev (fun w => E * adt w <= rad).
  move=> E0; have E1 : 0 < E + 1 by rewrite ltr_spaddr ?ltr01.
  apply: ev_imp (ev_small (divr_gt0 rad0 E1)) => w _; rewrite /adt ler_pdivl_mulr // mulrC => h.
  by apply: le_trans h; rewrite ler_wpmul2r // ler_addl ler01.
exists (Lp * D); split; first exact: mulr_ge0.
apply: ev_imp (ev_and (ev_and (ev_and hC (h1 C C0)) (ev_and hC' (h1 C' C'0))) (ev_and hD (h1 `|c| (normr_ge0 _)))).
move=> w gw [[[a1 a2] [b1 b2]] [d1 d2]].
have D1 : 0 <= D * ddel w by rewrite mulr_ge0 ?ddel_ge0.
rewrite -mulrA; apply: ninf_maxnorm; first exact: mulr_ge0.
apply: hL.
- by apply: le_trans d2; rewrite /adt -normrM.
- by move=> i; apply: le_trans (ninf_entry _ _ _) (le_trans a1 a2).
- by move=> i; apply: le_trans (ninf_entry _ _ _) (le_trans b1 b2).
- by move=> i; apply: le_trans (ninf_entry _ _ _) d1.
Qed.
End O.
Arguments one_ {Om} w.
