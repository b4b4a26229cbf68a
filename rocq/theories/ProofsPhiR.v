(* ProofsPhiR.v : the dense phi routines against the true phi functions (real matrices). *)
From Coq Require Import Reals Lra.
From Coquelicot Require Import Coquelicot.
From mathcomp Require Import all_ssreflect all_algebra.
From mathcomp Require Import ring.
From Verif Require Import Rstruct Summable MxBase MxSeries ModelPhi ProofsPhi ProofsPhiExt ProofsPfd.
Set Implicit Arguments.
Unset Strict Implicit.
Unset Printing Implicit Defensive.
Import Order.TTheory GRing.Theory Num.Theory.
Local Open Scope ring_scope.

(* ---- squaring identity for the true phi functions ---- *)
Lemma sq_coef (i j : nat) : (2%:R : R) ^+ (i + j) * ifact _ (i + j) =
  conv (fun a => ifact _ (a + 0)) (fun b => ifact _ (b + j)) i
  + \sum_(1 <= l < j.+1) ifact _ (j - l) * ifact _ (i + l) :> R.
Proof.
rewrite -(@sum_ifact_binom [numFieldType of R]).
rewrite -(big_mkord xpredT (fun l => ifact _ l * ifact _ (i + j - l))).
rewrite (@big_cat_nat _ _ _ i.+1) //=; last by rewrite ltnS leq_addr.
congr (_ + _).
  rewrite big_mkord /conv; apply: eq_bigr => a _.
  have ai : (a <= i)%N by rewrite -ltnS.
  by rewrite addn0 addnBAC // addnC.
rewrite -[i.+1]add1n big_addn subSn ?leq_addr // addKn.
apply: eq_bigr => l _; rewrite mulrC; congr (ifact _ _ * ifact _ _); last by rewrite addnC.
by rewrite addnC subnDr.
Qed.

Lemma phi_double n (Z : 'M[R]_n) (j : nat) :
  phi j (2%:R *: Z) = (2%:R ^+ j)^-1 *: (phi 0 Z *m phi j Z
      + \sum_(1 <= l < j.+1) ifact _ (j - l) *: phi l Z).
Proof.
have e k : entire (fun i => ifact _ (i + k)) by apply: entire_ifact.
have two0 : (2%:R : R) != 0 by rewrite pnatr_eq0.
rewrite {2}/phi {2}/phi mxserM //.
rewrite (eq_bigr (fun l => mxser (fun i => ifact _ (j - l) * ifact _ (i + l)) Z)); last first.
  by move=> l _; rewrite mxserZ.
rewrite -mxser_sum; last by move=> l _; apply: entireZ.
rewrite -mxserD; last 2 first.
- exact: entire_conv.
- by apply: entire_sum => l _; apply: entireZ.
rewrite -mxserZ {1}/phi mxser_scale; apply: mxser_ext => i.
rewrite -sq_coef exprD mulrC [_ ^+ i * _]mulrC -mulrA mulKf ?expf_neq0 //.
Qed.

Lemma phi_double0 n (Z : 'M[R]_n) : phi 0 (2%:R *: Z) = phi 0 Z *m phi 0 Z.
Proof. by rewrite phi_double expr0 invr1 scale1r big_geq // addr0. Qed.

Lemma sq_spec_phi n (Z : 'M[R]_n) k (phis : seq 'M[R]_n) :
  (forall j, (j <= k)%N -> nth 0 phis j = phi j Z) ->
  forall j, (j <= k)%N -> sq_spec phis j = phi j (2%:R *: Z).
Proof.
move=> h j jk; rewrite /sq_spec; case: eqP => [->|/eqP j0].
  by rewrite phi_double0 h.
rewrite phi_double !h //; congr (_ *: (_ + _)).
rewrite !big_nat; apply: eq_bigr => l /andP[_ lj].
by rewrite h // (leq_trans _ jk).
Qed.

(* N passes of sq_step started from exact values at Z return exact values at 2^N Z *)
Lemma iter_sq_phi n (Z : 'M[R]_n) k N (phis : seq 'M[R]_n) :
  size phis = k.+1 -> (forall j, (j <= k)%N -> nth 0 phis j = phi j Z) ->
  forall j, (j <= k)%N -> nth 0 (iter N (sq_step k) phis) j = phi j (2%:R ^+ N *: Z).
Proof.
move=> hs h; suff [] : size (iter N (sq_step k) phis) = k.+1 /\
  forall j, (j <= k)%N -> nth 0 (iter N (sq_step k) phis) j = phi j (2%:R ^+ N *: Z) by [].
elim: N => [|N [IH1 IH2]].
  by split=> // j jk; rewrite /= expr0 scale1r h.
rewrite iterS; split; first exact: sq_step_size.
move=> j jk; rewrite sq_step_nth // exprS -scalerA.
exact: (sq_spec_phi IH2).
Qed.

(* ---- f_phi_k_ext ---- *)
Section Ext.
Variable expm : forall n, 'M[R]_n -> 'M[R]_n.
Hypothesis expmE : forall n (A : 'M[R]_n), expm A = expmx A.

Lemma f_phi_k_ext_all_phi n (z : 'M[R]_n) k (q : 'I_k.+1) : f_phi_k_ext_all expm z q = phi q z.
Proof.
apply/matrixP => a b; rewrite mxE expmE /expmx /phi !mxE.
have e : entire (fun i => ifact _ (i + q)) by apply: entire_ifact.
rewrite -(ssum_delay q (ser_summable z a b e)); apply: ssum_ext => i.
rewrite ext_pow_entry; case: leqP => qi; last by rewrite mulr0.
by rewrite addn0 subnK.
Qed.
Lemma f_phi_k_ext_phi n (z : 'M[R]_n) k : f_phi_k_ext expm z k = phi k z.
Proof. exact: f_phi_k_ext_all_phi. Qed.

Lemma f_phi_k_appl_phi n m (z : 'M[R]_n) (B : 'M[R]_(n, m)) k
  (expk : forall n, 'M[R]_n -> 'M[R]_n) :
  (forall n (A : 'M[R]_n), expk n A = expmx A) ->
  f_phi_k_appl expm expk z B k = phi k z *m B.
Proof.
move=> hk; case: k => [|k]; first by rewrite /= expmE.
apply/matrixP => a b; rewrite !mxE hk /expmx /phi mxE.
have e : entire (fun i => ifact _ (i + k.+1)) by apply: entire_ifact.
rewrite (eq_bigr (fun j => ssum (fun i => B j b * (ifact _ (i + k.+1) * mxpow z i a j)))); last first.
  by move=> j _; rewrite ssumZ mxE mulrC.
have S0 j : true -> summable (fun i => B j b * (ifact R_numFieldType (i + k.+1) * mxpow z i a j)).
  by move=> _; apply: summableZ; apply: ser_summable.
rewrite -(@ssum_sum _ _ _ (fun j i => B j b * (ifact _ (i + k.+1) * mxpow z i a j))); last exact: S0.
rewrite -[RHS](@ssum_delay k.+1); last by apply: summable_sum; apply: S0.
apply: ssum_ext => i; rewrite appl_pow_entry //=; case: ltnP => ki; last by rewrite mulr0.
rewrite addn0 subnK // mxE mulr_sumr.
have -> : (i.-1 - k)%N = (i - k.+1)%N by case: i ki.
apply: eq_bigr => j _; by rewrite [LHS]mulrA [LHS]mulrC.
Qed.
End Ext.

(* ---- f_phi_k_inv ---- *)
Lemma f_phi_k_inv_phi expm qr soltri n (z : 'M[R]_n) :
  z \in unitmx -> expm n z = expmx z ->
  (qr n z).1^T *m (qr n z).1 = 1%:M -> (qr n z).1 *m (qr n z).2 = z ->
  (forall X, (qr n z).2 *m soltri n (qr n z).2 X = X) ->
  forall k, f_phi_k_inv expm qr soltri z k = phi k z.
Proof.
move=> uz e h1 h2 h3; have [h0 hS] := @f_phi_k_inv_rec _ expm qr soltri n z h1 h2 h3.
elim=> [|k IH]; first by rewrite h0 e.
have := hS k; rewrite IH phi_rec -[(k`!%:R)^-1]/(ifact [numFieldType of R] k) addrAC subrr add0r => hk.
by rewrite -[LHS](mulKmx uz) hk mulKmx.
Qed.
