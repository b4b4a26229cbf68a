(* MxBase.v : general matrix infrastructure (powers of square matrices of any size,
   including 0).  No code of /repo is modelled here. *)
From mathcomp Require Import all_ssreflect all_algebra.
Set Implicit Arguments.
Unset Strict Implicit.
Unset Printing Implicit Defensive.
Import Order.TTheory GRing.Theory Num.Theory.
Local Open Scope ring_scope.

(* Z^k, by repeated multiplication on the left *)
Definition mxpow (F : ringType) n (Z : 'M[F]_n) (k : nat) : 'M[F]_n :=
  iter k (mulmx Z) 1%:M.

Arguments mxpow : simpl never.

(* 1/k! in a field *)
Definition ifact (F : fieldType) (k : nat) : F := (k`!%:R)^-1.

(* partial sum of the phi_k series: sum_{i<N} Z^i / (i+k)! *)
Definition phi_psum (F : fieldType) n (k N : nat) (Z : 'M[F]_n) : 'M[F]_n :=
  \sum_(i < N) ifact F (i + k) *: mxpow Z i.

Section Pow.
Variable F : ringType.
Variable n : nat.
Implicit Types A B Z : 'M[F]_n.

Lemma mxpow0 Z : mxpow Z 0 = 1%:M. Proof. by []. Qed.
Lemma mxpowS Z k : mxpow Z k.+1 = Z *m mxpow Z k. Proof. by []. Qed.
Lemma mxpow1 Z : mxpow Z 1 = Z. Proof. by rewrite mxpowS mxpow0 mulmx1. Qed.
Lemma mxpowSr Z k : mxpow Z k.+1 = mxpow Z k *m Z.
Proof.
elim: k => [|k IH]; first by rewrite mxpow1 mxpow0 mul1mx.
by rewrite mxpowS {1}IH mulmxA -mxpowS.
Qed.
Lemma mxpowD Z j k : mxpow Z (j + k) = mxpow Z j *m mxpow Z k.
Proof.
elim: j => [|j IH]; first by rewrite mxpow0 mul1mx.
by rewrite addSn !mxpowS IH mulmxA.
Qed.
Lemma mxpowM Z j k : mxpow Z (j * k) = mxpow (mxpow Z j) k.
Proof.
elim: k => [|k IH]; first by rewrite muln0.
by rewrite mulnS mxpowD IH -mxpowS.
Qed.
Lemma mxpow_comm Z k : Z *m mxpow Z k = mxpow Z k *m Z.
Proof. by rewrite -mxpowS mxpowSr. Qed.
Lemma mxpow_comm_of A Z k : A *m Z = Z *m A -> A *m mxpow Z k = mxpow Z k *m A.
Proof.
move=> cAZ; elim: k => [|k IH]; first by rewrite mxpow0 mulmx1 mul1mx.
by rewrite mxpowS mulmxA cAZ -mulmxA IH mulmxA.
Qed.
Lemma mxpow_intertwine m (E : 'M[F]_(m, n)) (Y : 'M[F]_m) Z k :
  Y *m E = E *m Z -> mxpow Y k *m E = E *m mxpow Z k.
Proof.
move=> h; elim: k => [|k IH]; first by rewrite !mxpow0 mul1mx mulmx1.
by rewrite mxpowS -mulmxA IH mulmxA h -mulmxA -mxpowS.
Qed.
Lemma mxpow_zero k : mxpow (0 : 'M[F]_n) k.+1 = 0.
Proof. by rewrite mxpowS mul0mx. Qed.
Lemma mxpow_one k : mxpow (1%:M : 'M[F]_n) k = 1%:M.
Proof. by elim: k => // k IH; rewrite mxpowS IH mulmx1. Qed.
End Pow.

Section PowC.
Variable F : comRingType.
Variable n : nat.
Implicit Types Z : 'M[F]_n.

Lemma mxpowZ (c : F) Z k : mxpow (c *: Z) k = c ^+ k *: mxpow Z k.
Proof.
elim: k => [|k IH]; first by rewrite !mxpow0 expr0 scale1r.
by rewrite !mxpowS IH -scalemxAl -scalemxAr scalerA exprS.
Qed.
Lemma trmx_mxpow Z k : (mxpow Z k)^T = mxpow Z^T k.
Proof.
elim: k => [|k IH]; first by rewrite !mxpow0 trmx1.
by rewrite mxpowS trmx_mul IH mxpowSr.
Qed.
Lemma mxpow_scalar (c : F) k : mxpow (c%:M : 'M[F]_n) k = (c ^+ k)%:M.
Proof.
elim: k => [|k IH]; first by rewrite mxpow0.
by rewrite mxpowS IH -scalar_mxM -exprS.
Qed.
End PowC.

Lemma mxpowE (F : ringType) n (Z : 'M[F]_n.+1) k : mxpow Z k = Z ^+ k.
Proof.
elim: k => [|k IH] //.
by rewrite mxpowS IH exprS.
Qed.

Section PhiSum.
Variable F : numFieldType.
Implicit Types k N : nat.

Lemma fact_neq0 k : (k`!%:R : F) != 0.
Proof. by rewrite pnatr_eq0 -lt0n fact_gt0. Qed.
Lemma ifact0 : ifact F 0 = 1. Proof. by rewrite /ifact fact0 invr1. Qed.
Lemma ifact1 : ifact F 1 = 1. Proof. by rewrite /ifact /= invr1. Qed.
Lemma ifactS k : ifact F k.+1 = ifact F k / k.+1%:R.
Proof. by rewrite /ifact factS natrM invfM mulrC. Qed.
Lemma ifactS' k : k.+1%:R * ifact F k.+1 = ifact F k.
Proof. by rewrite ifactS mulrCA mulfV ?mulr1 // pnatr_eq0. Qed.
Lemma ifact_neq0 k : ifact F k != 0.
Proof. by rewrite /ifact invr_eq0 fact_neq0. Qed.
Lemma ifact_gt0 k : 0 < ifact F k.
Proof. by rewrite /ifact invr_gt0 ltr0n fact_gt0. Qed.
Lemma ifact_ge0 k : 0 <= ifact F k.
Proof. exact/ltW/ifact_gt0. Qed.

Variable n : nat.
Implicit Types Z : 'M[F]_n.

Lemma phi_psum0 k Z : phi_psum k 0 Z = 0.
Proof. by rewrite /phi_psum big_ord0. Qed.
Lemma phi_psumSr k N Z :
  phi_psum k N.+1 Z = phi_psum k N Z + ifact F (N + k) *: mxpow Z N.
Proof. by rewrite /phi_psum big_ord_recr. Qed.
(* the defining recurrence of the phi functions, for partial sums *)
Lemma phi_psum_rec k N Z :
  phi_psum k N.+1 Z = ifact F k *: 1%:M + Z *m phi_psum k.+1 N Z.
Proof.
rewrite /phi_psum big_ord_recl /= add0n; congr (_ + _).
rewrite mulmx_sumr; apply: eq_bigr => i _.
rewrite -scalemxAr /bump /= add1n addSnnS; congr (_ *: _).
Qed.
Lemma phi_psum_comm k N Z A : A *m Z = Z *m A -> A *m phi_psum k N Z = phi_psum k N Z *m A.
Proof.
move=> h; rewrite /phi_psum mulmx_sumr mulmx_suml; apply: eq_bigr => i _.
by rewrite -scalemxAr -scalemxAl mxpow_comm_of.
Qed.
Lemma phi_psum_at0 k N : phi_psum k N.+1 (0 : 'M[F]_n) = ifact F k *: 1%:M.
Proof. by rewrite phi_psum_rec mul0mx addr0. Qed.
End PhiSum.
