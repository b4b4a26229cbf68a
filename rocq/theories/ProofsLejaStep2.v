(* ProofsLejaStep2.v : the value of a Leja step as a product of interpolating polynomials. *)
From Coq Require Import String.
From mathcomp Require Import all_ssreflect all_algebra.
From mathcomp Require Import complex.
From Verif Require Import ModelHist SpecHist ProofsHist ModelOps SpecOps ProofsOps ModelKrylov ModelDispatch ModelInt SpecInt.
From Verif Require Import ProofsInt ModelLeja SpecLeja ProofsLeja2 PropLeja PropLejaPts ProofsLejaStep.
Set Implicit Arguments.
Unset Strict Implicit.
Unset Printing Implicit Defensive.
Import Order.TTheory GRing.Theory Num.Theory.
Local Open Scope ring_scope.
Local Opaque max_substeps gen_leja_conjugate leja_shift_scale leja_max_power_iter norm2.

Section PApply2.
Variables (F : fieldType) (V : lmodType F) (B : V -> V).
Hypothesis linB : linear B.
Implicit Types (p q : {poly F}) (u : V).
Lemma iter_lin k : linear (iter k B).
Proof. by elim: k => [//|k IH] a u v; rewrite !iterS IH linB. Qed.
Lemma papply_addr p u v : papply B p (u + v) = papply B p u + papply B p v.
Proof.
rewrite /papply -big_split; apply: eq_bigr => i _ /=.
by rewrite -scalerDr -[in LHS](scale1r u) iter_lin scale1r.
Qed.
Lemma papply_scaler p (a : F) u : papply B p (a *: u) = a *: papply B p u.
Proof.
have B0 i : iter i B 0 = 0 by have := iter_lin i (-1) 0 0; rewrite scaleN1r oppr0 addr0 scaleN1r addNr.
rewrite /papply scaler_sumr; apply: eq_bigr => i _ /=.
by rewrite -[a *: u in LHS]addr0 iter_lin B0 addr0 !scalerA mulrC.
Qed.
Lemma papply_Xl q u : papply B ('X * q) u = papply B q (B u).
Proof.
rewrite mulrC papplyX // /papply; elim: (size q) => [|k IH].
  by rewrite !big_ord0; have := linB (-1) 0 0; rewrite scaleN1r oppr0 addr0 scaleN1r addNr.
by rewrite !big_ord_recr /= -IH addrC linB addrC -iterSr iterS.
Qed.
Lemma papplyM p q u : papply B (p * q) u = papply B p (papply B q u).
Proof.
elim/poly_ind: p => [|p c IH]; first by rewrite mul0r !papply0.
rewrite mulrDl mulrAC mul_polyC !papplyD papplyX // papplyX // IH papplyZ.
by rewrite -[c%:P]mulr1 mul_polyC papplyZ papply1.
Qed.
Lemma papply_comp (t : F) p u : papply (fun v => t *: B v) p u = papply B (p \Po (t *: 'X)) u.
Proof.
have lt : linear (fun v => t *: B v) by move=> a v w; rewrite linB scalerDr !scalerA mulrC.
elim/poly_ind: p => [|p c IH]; first by rewrite comp_poly0 !papply0.
rewrite comp_polyD comp_polyM comp_polyX comp_polyC !papplyD papplyX // IH -scalerAr papplyZ papplyX //.
by rewrite !papplyC.
Qed.
End PApply2.

Section SubstepPoly.
Variables (F : rcfType) (m : nat) (M : 'cV[F]_m -> 'cV[F]_m).
Hypothesis linM : linear M.
Variable G : {poly F} -> Prop.
Definition sub_poly (subs : seq (F * {poly F})) : {poly F} := \prod_(s <- subs) (s.2 \Po (s.1 *: 'X)).
Lemma substep_poly (ex : F -> 'cV[F]_m -> 'cV[F]_m * nat * bool) sb tau v w it mx :
  (forall t u w it c, ex t u = (w, it, c) -> exists p, G p /\ w = papply (fun v => t *: M v) p u) ->
  0 < tau -> expmv_substep ex sb tau v = Ok (w, it, true, mx) ->
  exists subs, [/\ \sum_(s <- subs) s.1 = 1, (forall s, s \in subs -> 0 < s.1 <= 1 /\ G s.2) &
    w = papply M (sub_poly subs) v].
Proof.
move=> hx t0; case: sb => E; last first.
  move: E; rewrite /expmv_substep /=; case e : (ex 1 v) => [[w' it'] c] [ew _ _ _].
  have [p [hp hw]] := hx _ _ _ _ _ e; exists [:: (1, p)]; split.
  - by rewrite big_seq1.
  - by move=> s; rewrite inE => /eqP ->; rewrite ltr01 lexx.
  - by rewrite /sub_poly big_seq1 /= -ew hw papply_comp.
have [att [_ hr [hs _] hb _]] := C25_substep_covers_once t0 E.
suff [subs [h1 h2 h3]] : exists subs, [/\ [seq s.1 | s <- subs] = accepted att, forall s, s \in subs -> G s.2 &
    w = papply M (sub_poly subs) v].
  exists subs; split=> //; first by rewrite -hs -h1 big_map.
  move=> s hs'; split; last exact: h2.
  have /hb/andP[-> h] : s.1 \in accepted att by rewrite -h1 map_f.
  by apply: le_trans h _; rewrite le_minl lexx orbT.
clear - linM hx hr; elim: att v it hr => [|[t c] att IH] v it /=.
  by move=> [-> _]; exists [::]; split=> //; rewrite /sub_poly big_nil papply1.
case e : (ex t v) => [[w' it'] c']; case: eqP => // ec; subst c'.
case er : replay => [[wf k]|] // [ew _]; subst wf.
have [subs [h1 h2 h3]] := IH _ _ er.
case: c e er h3 => e er h3; last by exists subs; split=> //; rewrite /accepted /= -/(accepted att).
have [p [hp hw]] := hx _ _ _ _ _ e; exists ((t, p) :: subs); split.
- by rewrite /= h1.
- by move=> s; rewrite inE => /orP[/eqP ->|/h2].
- by rewrite /sub_poly big_cons mulrC papplyM //= -papply_comp // h3 hw.
Qed.
End SubstepPoly.

(* the first component of a polynomial of the augmented operator *)
Section Aug.
Variables (F : rcfType) (n : nat) (A : linop F n) (dt : F) (v1 v2 : 'cV[F]_n).
Hypothesis linA : linear (lo_mv A).
Let av := build_a_tilde 2 A dt [:: 0; v1; v2].
Let L := fun v => dt *: lo_mv A v.
Let M := lo_mv av.1.
Lemma aug_lin : linear M.
Proof.
move=> a u v; rewrite /M /= !linearP /= linA scalerDr.
rewrite scale_col_mx add_col_mx; congr col_mx.
by rewrite scalerDr !scalerA [dt * a]mulrC -!addrA; congr (_ + _); rewrite addrCA.
Qed.
Lemma L_lin : linear L.
Proof. by move=> a v w; rewrite /L linA scalerDr !scalerA mulrC. Qed.
Let e1 : 'cV[F]_2 := kiops_e F 2.
Let e0 : 'cV[F]_2 := kiops_K F 2 *m e1.
Lemma Ke0 : kiops_K F 2 *m e0 = 0.
Proof.
apply/colP => i; rewrite !mxE !big_ord_recl big_ord0 !mxE !big_ord_recl !big_ord0 !mxE /=.
by case: i => -[|[|//]] hi /=; rewrite ?mul0r ?mul1r ?addr0 ?add0r.
Qed.
Lemma Be1 : kiops_B 2 [:: 0; v1; v2] *m e1 = v1.
Proof. by apply/colP => i; rewrite !mxE !big_ord_recl big_ord0 !mxE /= mulr0 mulr1 add0r addr0. Qed.
Lemma Be0 : kiops_B 2 [:: 0; v1; v2] *m e0 = v2.
Proof.
apply/colP => i; rewrite !mxE !big_ord_recl big_ord0 !mxE !big_ord_recl !big_ord0 !mxE /=.
by rewrite ?(mul0r, mulr0, mulr1, mul1r, addr0, add0r).
Qed.
Lemma L0 : lo_mv A 0 = 0.
Proof. by have := linA (-1) 0 0; rewrite scaleN1r oppr0 addr0 scaleN1r addNr. Qed.
Lemma aug_low q z : papply M q (col_mx z 0) = col_mx (papply L q z) 0.
Proof.
have st : forall k, iter k M (col_mx z 0) = col_mx (iter k L z) 0.
  by elim=> [//|k IH]; rewrite !iterS IH /M /= col_mxKu col_mxKd !mulmx0 addr0.
rewrite /papply; elim: (size q) => [|k IH]; first by rewrite !big_ord0 col_mx0.
by rewrite !big_ord_recr /= IH st scale_col_mx add_col_mx scaler0 addr0.
Qed.
Lemma aug_value p q1 q2 (c0 c1 : F) : p = c0%:P + 'X * q1 -> q1 = c1%:P + 'X * q2 ->
  usubmx (papply M p av.2) = papply L q1 v1 + papply L q2 v2.
Proof.
move=> -> eq1; have lM := aug_lin; have lL := L_lin.
have E1 : M av.2 = col_mx v1 e0.
  by rewrite /M /= col_mxKu col_mxKd L0 scaler0 add0r -/e1 Be1.
have E2 : M (col_mx v1 e0) = col_mx (L v1 + v2) 0.
  by rewrite /M /= col_mxKu col_mxKd Be0 Ke0.
rewrite papplyD papply_Xl // papplyC E1 eq1 !papplyD !papply_Xl // !papplyC E2 aug_low.
by rewrite !linearD /= !linearZ /= !col_mxKu scaler0 add0r papply_addr // addrA.
Qed.
End Aug.

Lemma poly_split (F : ringType) (p : {poly F}) : exists c q, p = c%:P + 'X * q.
Proof.
elim/poly_ind: p => [|p c _]; first by exists 0, 0; rewrite mulr0 addr0.
by exists c, p; rewrite addrC commr_polyX.
Qed.
