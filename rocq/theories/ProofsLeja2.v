(* ProofsLeja2.v : the real Leja iteration evaluates the Newton polynomial. *)
From mathcomp Require Import all_ssreflect all_algebra.
From mathcomp Require Import ring.
From mathcomp Require Import complex.
From Verif Require Import ModelHist ModelOps ModelKrylov ModelLeja SpecLeja ProofsLeja.
Set Implicit Arguments.
Unset Strict Implicit.
Unset Printing Implicit Defensive.
Import Order.TTheory GRing.Theory Num.Theory.
Local Open Scope ring_scope.

Section PApply.
Variables (F : fieldType) (V : lmodType F) (B : V -> V).
Implicit Types (p q : {poly F}) (u : V).

Lemma papplyE m p u : (size p <= m)%N -> papply B p u = \sum_(i < m) p`_i *: iter i B u.
Proof.
move=> hm; rewrite /papply -!(big_mkord xpredT (fun i => p`_i *: iter i B u)).
rewrite (big_cat_nat _ _ _ (leq0n _) hm) /= [X in _ = _ + X]big1_seq ?addr0 //.
by move=> i /=; rewrite mem_index_iota => /andP[hi _]; rewrite nth_default // scale0r.
Qed.
Lemma papplyD p q u : papply B (p + q) u = papply B p u + papply B q u.
Proof.
pose m := maxn (size p) (size q).
rewrite !(@papplyE m) ?leq_maxl ?leq_maxr ?size_add // -big_split /=.
by apply: eq_bigr => i _; rewrite coefD scalerDl.
Qed.
Lemma papplyZ c p u : papply B (c *: p) u = c *: papply B p u.
Proof.
rewrite (@papplyE (size p)) ?size_scale_leq // /papply scaler_sumr.
by apply: eq_bigr => i _; rewrite coefZ scalerA.
Qed.
Lemma papply1 u : papply B 1 u = u.
Proof. by rewrite /papply size_poly1 big_ord1 coef1 scale1r. Qed.
Lemma papply0 u : papply B 0 u = 0.
Proof. by rewrite /papply size_poly0 big_ord0. Qed.
Lemma papplyC c u : papply B c%:P u = c *: u.
Proof. by rewrite -[c%:P]mulr1 mul_polyC papplyZ papply1. Qed.
Lemma papplyN p u : papply B (- p) u = - papply B p u.
Proof. by rewrite -[- p]scaleN1r papplyZ scaleN1r. Qed.
Lemma papplyB p q u : papply B (p - q) u = papply B p u - papply B q u.
Proof. by rewrite papplyD papplyN. Qed.
Lemma papply_sum I (r : seq I) (P : pred I) (G : I -> {poly F}) u :
  papply B (\sum_(i <- r | P i) G i) u = \sum_(i <- r | P i) papply B (G i) u.
Proof. by elim/big_rec2: _ => [|i y1 y2 _ <-]; rewrite ?papply0 // papplyD. Qed.
Hypothesis linB : linear B.
Lemma papplyX p u : papply B (p * 'X) u = B (papply B p u).
Proof.
have B0 : B 0 = 0 by have := linB (-1) 0 0; rewrite scaleN1r oppr0 addr0 scaleN1r addNr.
have Bs (m : nat) (w : 'I_m -> V) : B (\sum_i w i) = \sum_i B (w i).
  by elim/big_rec2: _ => // i y1 y2 _ <-; rewrite -[w i]scale1r linB !scale1r.
rewrite (@papplyE (size p).+1); last first.
  have [->|p0] := eqVneq p 0; first by rewrite mul0r size_poly0.
  by rewrite size_mulX.
rewrite big_ord_recl coefMX /= scale0r add0r /papply Bs; apply: eq_bigr => i _.
by rewrite coefMX /= -[p`_i *: iter i B u in RHS]addr0 linB B0 addr0.
Qed.
Lemma papply_XsubC p c u : papply B (p * ('X - c%:P)) u = B (papply B p u) - c *: papply B p u.
Proof. by rewrite mulrBr papplyB papplyX mulrC mul_polyC papplyZ. Qed.
End PApply.

(* p(M) applied to a column vector, for a square matrix M *)
Lemma papply_horner_mx (F : fieldType) n (M : 'M[F]_n.+1) (p : {poly F}) (u : 'cV[F]_n.+1) :
  papply (fun v => M *m v) p u = horner_mx M p *m u.
Proof.
have lin : linear (fun v : 'cV[F]_n.+1 => M *m v) by move=> a v w; rewrite mulmxDr scalemxAr.
elim/poly_ind: p => [|p c IH]; first by rewrite papply0 rmorph0 mul0mx.
rewrite papplyD papplyX // papplyC IH rmorphD rmorphM /= horner_mx_X horner_mx_C mulmxDl mulmxA.
rewrite mul_scalar_mx; congr (_ *m _ + _).
have /= := rmorphM (horner_mx_rmorphism M) 'X p; rewrite horner_mx_X => e.
by rewrite -[LHS]e mulrC rmorphM /= horner_mx_X.
Qed.

Section Scaled.
Variable K : fieldType.
Variables (shift scale : K).
Lemma newton_basis_sc0 x : newton_basis_sc shift scale x 0 = 1.
Proof. by rewrite /newton_basis_sc big_ord0. Qed.
Lemma newton_basis_scS x j : newton_basis_sc shift scale x j.+1 =
  newton_basis_sc shift scale x j * (scale^-1 *: ('X - (shift + scale * x`_j)%:P)).
Proof. by rewrite /newton_basis_sc big_ord_recr. Qed.
Lemma newton_poly_scS x c m : newton_poly_sc shift scale x c m.+1 =
  newton_poly_sc shift scale x c m + c`_m *: newton_basis_sc shift scale x m.
Proof. by rewrite /newton_poly_sc big_ord_recr. Qed.
Hypothesis sc0 : scale != 0.
Lemma newton_basis_sc_val x j z : (newton_basis_sc shift scale x j).[shift + scale * z] = (newton_basis x j).[z].
Proof.
elim: j => [|j IH]; first by rewrite newton_basis_sc0 newton_basis0 !hornerC.
rewrite newton_basis_scS newton_basisS !hornerM IH hornerZ !hornerXsubC; congr (_ * _).
by rewrite opprD addrACA subrr add0r -mulrBr mulKf.
Qed.
Lemma newton_poly_sc_val x c m z : (newton_poly_sc shift scale x c m).[shift + scale * z] = (newton_poly x c m).[z].
Proof.
rewrite /newton_poly_sc /newton_poly !horner_sum; apply: eq_bigr => j _.
by rewrite !hornerZ newton_basis_sc_val.
Qed.
End Scaled.

Section Re.
Variables (F : rcfType) (n : nat) (mv : 'cV[F]_n -> 'cV[F]_n).
Hypothesis lin : linear mv.
Variables (dt : F) (u : 'cV[F]_n) (shift scale : F) (x coeffs : seq F) (tol : F).
Let B := fun v => dt *: mv v.
Lemma linB : linear B.
Proof. by move=> a v w; rewrite /B lin scalerDr !scalerA mulrC. Qed.
Let Nb j := papply B (newton_basis_sc shift scale x j) u.

Lemma leja_mv_basis j : leja_mv mv dt (shift + scale * x`_j) scale (Nb j) = Nb j.+1.
Proof.
rewrite /Nb newton_basis_scS -scalerAr papplyZ papply_XsubC //; exact: linB.
Qed.

Definition re_terr j := `|coeffs`_j| * norm2 (Nb j).
Definition re_est j := running_err (2%:R * norm2 u) re_terr j.

Definition re_inv (s : lstate F n) :=
  [/\ (0 < l_i s)%N,
      l_vm s = Nb (l_i s).-1,
      l_pm s = papply B (newton_poly_sc shift scale x coeffs (l_i s)) u,
      l_err s = re_est (l_i s).-1 &
      l_conv s = (norm2 u == 0) && (l_i s == 1%N) ||
                 (1 < l_i s)%N && (re_est (l_i s).-1 < tol * norm2 u)].

Lemma re_inv_body s : re_inv s -> re_inv (re_body mv dt shift scale x coeffs tol (norm2 u) s).
Proof.
case: s => [[|i] vm pm e cv] [/= h0 ev ep ee ec]; first by [].
have evm : leja_mv mv dt (shift + scale * x`_i) scale vm = Nb i.+1 by rewrite ev leja_mv_basis.
rewrite /re_inv /re_body /= evm; split; rewrite ?ee //.
  by rewrite ep [in RHS]newton_poly_scS papplyD papplyZ.
by rewrite andbF.
Qed.
End Re.

(* the while loop: fuel is sufficient and any invariant is kept *)
Section While.
Variables (F : rcfType) (n : nat).
Implicit Types (s : lstate F n).
Lemma leja_while_ind (P : lstate F n -> Prop) (cond : lstate F n -> bool) body f s :
  (forall s, P s -> cond s -> P (body s)) -> P s -> P (leja_while f cond body s).
Proof. by move=> hb; elim: f s => [//|f IH] s hs /=; case: ifP => [c|//]; apply: IH; apply: hb. Qed.
Lemma leja_while_done (cond : lstate F n -> bool) body (m : nat) f s :
  (forall s, cond s -> (l_i s < m)%N) -> (forall s, (l_i s < l_i (body s))%N) ->
  (m <= f + l_i s)%N -> cond (leja_while f cond body s) = false.
Proof.
move=> hc hb; elim: f s => [|f IH] s hs /=.
  by apply/negP => /hc; rewrite ltnNge hs.
case: ifP => // c; apply: IH; rewrite (leq_trans hs) // addSnnS leq_add2l; exact: hb.
Qed.
End While.

Section ReThm.
Variables (F : rcfType) (n : nat) (mv : 'cV[F]_n -> 'cV[F]_n).
Hypothesis lin : linear mv.
Variables (dt : F) (u : 'cV[F]_n) (shift scale : F) (x coeffs : seq F) (tol : F).
Let B := fun v => dt *: mv v.
Let est := re_est mv dt u shift scale x coeffs.
Let u0 := norm2 u == 0.

Theorem real_leja_spec pm i conv :
  real_leja_expmv mv dt u shift scale x coeffs tol = (pm, i, conv) ->
  [/\ (0 < i <= maxn 1 (size x).-1)%N,
      pm = papply B (newton_poly_sc shift scale x coeffs i) u,
      conv = u0 && (i == 1%N) || (1 < i)%N && (est i.-1 < tol * norm2 u),
      forall j, (1 < j < i)%N -> tol * norm2 u <= est j.-1 &
      ~~ conv -> ((size x <= i.+1)%N \/ abort_tol F * norm2 u < est i.-1)].
Proof.
rewrite /real_leja_expmv.
set body := re_body _ _ _ _ _ _ _ _; set cond := leja_cond _ _; set s0 := LState _ _ _ _ _.
pose P s := [/\ re_inv mv dt u shift scale x coeffs tol s,
   (l_i s <= maxn 1 (size x).-1)%N &
   forall j, (1 < j < l_i s)%N -> tol * norm2 u <= est j.-1].
have hP : P (leja_while (size x) cond body s0).
  apply: leja_while_ind => [s [hi hb hj] /and3P[c1 c2 c3]|].
    split.
    - exact: re_inv_body.
    - by rewrite /= leq_max; apply/orP; right; rewrite -ltnS prednK // (ltn_trans _ c1).
    - move=> j /=; rewrite ltnS => /andP[h1]; rewrite leq_eqVlt => /orP[/eqP ej|h2].
        move: c3; case: hi => _ _ _ _ ->; rewrite -ej h1 /= negb_or => /andP[_].
        by rewrite -leNgt.
      by apply: hj; rewrite h1.
  split=> //=; last by move=> j /andP[h1 h2]; move: (leq_trans h1 h2).
    split=> //=; rewrite ?newton_poly_scS /newton_poly_sc ?big_ord0 ?add0r ?newton_basis_sc0 ?papplyZ ?papply1 //.
    by rewrite eqxx andbT orbF.
  by rewrite leq_maxl.
have hd : cond (leja_while (size x) cond body s0) = false.
  apply: (@leja_while_done _ _ _ _ (size x)) => [s /and3P[/ltnW //]|s /=|]; first exact: ltnSn.
  by rewrite leq_addr.
move: hP hd; case: (leja_while _ _ _ _) => i' vm pm' e cv [[/= h1 h2 h3 h4 h5] h6 h7] hd [<- <- <-].
split=> //; first by rewrite h1.
move=> hc; move: hd; rewrite /cond /leja_cond /= hc andbT h4 => /negbT; rewrite negb_and -leqNgt -ltNge.
by case/orP; [left|right].
Qed.
End ReThm.
