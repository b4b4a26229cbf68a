(* ProofsPhiExt.v : powers of the block-extended matrices of f_phi_k_ext and f_phi_k_appl. *)
From mathcomp Require Import all_ssreflect all_algebra.
From Verif Require Import MxBase ModelPhi.
Set Implicit Arguments.
Unset Strict Implicit.
Unset Printing Implicit Defensive.
Import Order.TTheory GRing.Theory Num.Theory.
Local Open Scope ring_scope.

Lemma sum_sel (R : ringType) N (f : 'I_N -> R) (v : nat) :
  \sum_(l < N) (l == v :> nat)%:R * f l = if insub v is Some i then f i else 0.
Proof.
case: insubP => [i vN iv|vN].
  rewrite (bigD1 i) //= iv eqxx mul1r big1 ?addr0 // => l li.
  by rewrite -iv -(inj_eq val_inj) in li *; rewrite (negPf li) mul0r.
rewrite big1 // => l _; case: eqP => [e|_]; last by rewrite mul0r.
by rewrite -e ltn_ord in vN.
Qed.

Section Ext.
Variable F : numFieldType.
Variables n k : nat.
Variable z : 'M[F]_n.
Notation N := (k.+1 * n)%N.
Notation M := (z_ext z k).

(* selector of block row q *)
Definition selx (q : nat) : 'M[F]_(n, N) := \matrix_(a, j) (j == q * n + a :> nat)%N%:R.

Lemma selx_mul q (X : 'M[F]_N) a j :
  (selx q *m X) a j = if insub (q * n + a)%N is Some i then X i j else 0.
Proof. by rewrite mxE -sum_sel; apply: eq_bigr => l _; rewrite mxE. Qed.

Lemma mul_selx p (X : 'M[F]_(p, n)) q a j :
  (X *m selx q) a j = if (q * n <= j)%N then (if insub (j - q * n)%N is Some b then X a b else 0) else 0.
Proof.
rewrite mxE; case: leqP => h.
  rewrite -sum_sel; apply: eq_bigr => l _; rewrite mxE mulrC; congr ((nat_of_bool _)%:R * _).
  by rewrite -[RHS](eqn_add2l (q * n)) subnKC // eq_sym.
rewrite big1 // => l _; rewrite mxE ltn_eqF ?mulr0 //.
by apply: (leq_trans h); apply: leq_addr.
Qed.

Lemma selx_step q : (q <= k)%N ->
  selx q *m M = (if q == 0%N then z *m selx 0 else 0) + selx q.+1.
Proof.
move=> qk; apply/matrixP => a j; rewrite selx_mul mxE.
have n0 : (0 < n)%N by case: (n) a => [|//] [].
have hi : (q * n + a < N)%N.
  by rewrite mulSn addnC -addSn leq_add // leq_mul2r qk orbT.
rewrite (insubT (fun x => x < N)%N hi) mxE /ext_entry [selx q.+1 a j]mxE /=.
have -> : ((if q == 0%N then z *m selx 0 else 0) a j)
  = (if q == 0%N then (if insub (j : nat) is Some b then z a b else 0) else 0).
  case: eqP => _; last by rewrite mxE.
  by rewrite mul_selx mul0n leq0n subn0.
have hin : (q * n + a < n)%N = (q == 0%N).
  case: q {qk hi} => [|q]; first by rewrite mul0n add0n ltn_ord.
  by rewrite mulSn -addnA ltnNge leq_addr.
case: (ltnP j n) => jn.
  have -> : (j == (q.+1 * n + a)%N :> nat) = false.
    by rewrite ltn_eqF // (mulSn q) -addnA; apply: (leq_trans jn); apply: leq_addr.
  rewrite addr0 hin; case: (q =P 0%N) => q0; last by rewrite if_same.
  rewrite q0 mul0n add0n (insubT (fun x => x < n)%N (ltn_ord a)) /= .
  have -> : (a < k * n)%N || (k == 0%N).
    by case: (k) => [|k']; rewrite ?eqxx ?orbT // mulSn (leq_trans (ltn_ord a)) // leq_addr.
  by case: insubP => // b _ _; congr (z _ _); apply: val_inj.
have -> : (if q == 0%N then if insub (j : nat) is Some b then z a b else 0 else 0) = 0.
  by case: eqP => // _; case: insubP => // b; rewrite ltnNge jn.
have e1 : (q * n + a == j - n)%N = (j == (q.+1 * n + a)%N :> nat).
  rewrite -[LHS](eqn_add2r n) subnK // [LHS]eq_sym; congr (_ == _).
  by rewrite (mulSn q) addnC addnA.
rewrite add0r e1; case: ifP => // /norP[]; rewrite -leqNgt => h _.
rewrite ltn_eqF // (leq_trans (ltn_ord j)) // (mulSn q) -addnA (mulSn k) leq_add2l.
exact: h.
Qed.

Lemma selx_out q : (k < q)%N -> selx q = 0.
Proof.
move=> kq; apply/matrixP => a j; rewrite !mxE ltn_eqF //.
by apply: (leq_trans (ltn_ord j)); apply: (@leq_trans (q * n)); rewrite ?leq_addr // leq_mul2r kq orbT.
Qed.

Lemma ext_pow m : selx 0 *m mxpow M m = \sum_(q < m.+1) mxpow z (m - q) *m selx q.
Proof.
elim: m => [|m IH].
  by rewrite mxpow0 mulmx1 big_ord1 mxpow0 mul1mx.
rewrite mxpowSr mulmxA IH mulmx_suml.
rewrite (eq_bigr (fun q : 'I_m.+1 => (if q == ord0 then mxpow z m.+1 *m selx 0 else 0)
      + mxpow z (m - q) *m selx q.+1)); last first.
  move=> q _; rewrite -mulmxA; case: (leqP q k) => qk.
    rewrite selx_step // mulmxDr; congr (_ + _).
    rewrite -(inj_eq val_inj) /=; case: eqP => [->|_]; last by rewrite mulmx0.
    by rewrite subn0 mulmxA mxpowSr.
  rewrite (selx_out qk) (selx_out (leqW qk)) mul0mx !mulmx0 addr0.
  by case: eqP => // e; rewrite e in qk.
rewrite big_split /= -big_mkcond /= big_pred1_eq [RHS]big_ord_recl subn0.
by congr (_ + _).
Qed.

Lemma ext_pow_entry m (q : 'I_k.+1) a b :
  mxpow M m (bidx ord0 a) (bidx q b) = if (q <= m)%N then mxpow z (m - q) a b else 0.
Proof.
have -> : mxpow M m (bidx ord0 a) (bidx q b) = (selx 0 *m mxpow M m) a (bidx q b).
  rewrite selx_mul; case: insubP => [i _ e|].
    by congr (mxpow M m _ _); apply: val_inj; rewrite /= e.
  by move=> /negP[]; rewrite mul0n add0n (leq_trans (ltn_ord a)) // mulSn leq_addr.
rewrite ext_pow summxE.
have n0 : (0 < n)%N by case: (n) a => [|//] [].
have sel1 (r : nat) : (mxpow z (m - r) *m selx r) a (bidx q b) = if r == q then mxpow z (m - q) a b else 0.
  rewrite mul_selx /=; case: eqP => [->|/eqP rq].
    rewrite leq_addr addKn (insubT (fun x => x < n)%N (ltn_ord b)) /=.
    by congr (mxpow z _ _ _); apply: val_inj.
  case: leqP => // h; case: insubP => // c hc _; exfalso.
  have rq' : (r <= q)%N.
    rewrite leqNgt; apply/negP => qr; move: h; rewrite leqNgt => /negP; apply.
    apply: (@leq_trans (q.+1 * n)); last by rewrite leq_mul2r qr orbT.
    by rewrite mulSn addnC ltn_add2r.
  have rq2 : (r < q)%N by rewrite ltn_neqAle rq rq'.
  move: hc; rewrite ltn_subLR // => hc.
  have : (r.+1 * n <= q * n)%N by rewrite leq_mul2r rq2 orbT.
  rewrite mulSn addnC leqNgt => /negP; apply; apply: (leq_ltn_trans _ hc); exact: leq_addr.
rewrite (eq_bigr (fun r : 'I_m.+1 => if r == q :> nat then mxpow z (m - q) a b else 0)); last first.
  by move=> r _; rewrite sel1.
rewrite -big_mkcond; case: leqP => h.
  rewrite (big_pred1 (Ordinal (h : (q < m.+1)%N))) //.

by apply: big_pred0 => r; rewrite ltn_eqF // (leq_trans (ltn_ord r)).
Qed.
End Ext.

Section Appl.
Variable F : numFieldType.
Variables n m k : nat.
Variable z : 'M[F]_n.
Variable B : 'M[F]_(n, m).
Notation N := (n + k * m)%N.
Notation M := (appl_ext z B k).
Hypothesis k0 : (0 < k)%N.

Definition selT : 'M[F]_(n, N) := \matrix_(a, j) (j == a :> nat)%:R.
Definition selB (q : nat) : 'M[F]_(m, N) := \matrix_(c, j) (j == n + (q * m + c) :> nat)%N%:R.

Lemma selT_mul (X : 'M[F]_N) a j : (selT *m X) a j = X (lshift _ a) j.
Proof.
rewrite mxE (eq_bigr (fun l : 'I_N => (l == a :> nat)%:R * X l j)); last by move=> l _; rewrite mxE.
rewrite sum_sel; case: insubP => [i _ e|]; last by rewrite (leq_trans (ltn_ord a)) // leq_addr.
by congr (X _ _); apply: val_inj.
Qed.
Lemma selB_mul q (X : 'M[F]_N) c j :
  (selB q *m X) c j = if insub (n + (q * m + c))%N is Some i then X i j else 0.
Proof. by rewrite mxE -sum_sel; apply: eq_bigr => l _; rewrite mxE. Qed.
Lemma mul_selT p (X : 'M[F]_(p, n)) a (j : 'I_N) :
  (X *m selT) a j = if insub (j : nat) is Some b then X a b else 0.
Proof.
by rewrite mxE -sum_sel; apply: eq_bigr => l _; rewrite mxE mulrC eq_sym.
Qed.
Lemma mul_selB p (X : 'M[F]_(p, m)) q a (j : 'I_N) :
  (X *m selB q) a j =
  if (n + q * m <= j)%N then (if insub (j - (n + q * m))%N is Some b then X a b else 0) else 0.
Proof.
rewrite mxE; case: leqP => h.
  rewrite -sum_sel; apply: eq_bigr => l _; rewrite mxE mulrC; congr ((nat_of_bool _)%:R * _).
  by rewrite -[RHS](eqn_add2l (n + q * m)) subnKC // eq_sym addnA.
rewrite big1 // => l _; rewrite mxE ltn_eqF ?mulr0 //.
by apply: (leq_trans h); rewrite addnA leq_addr.
Qed.

Lemma selT_step : selT *m M = z *m selT + B *m selB 0.
Proof.
apply/matrixP => a j; rewrite selT_mul mxE /appl_entry /= ltn_ord (insubT (fun x => x < n)%N (ltn_ord a)).
rewrite [RHS]mxE mul_selT mul_selB mul0n addn0.
have -> : Sub (a : nat) (ltn_ord a) = a by apply: val_inj.
case: ltnP => jn.
  rewrite addr0; case: insubP => // b _ e.
have -> : insub (j : nat) = None :> option 'I_n by case: insubP => // b; rewrite ltnNge jn.
rewrite add0r; case: ltnP => // h.
case: insubP => // b; rewrite ltn_subLR // => hb; by rewrite ltnNge h in hb.
Qed.

Lemma selB_step q : (q < k)%N -> selB q *m M = selB q.+1.
Proof.
move=> qk; apply/matrixP => c j; rewrite selB_mul [RHS]mxE.
have m0 : (0 < m)%N by case: (m) c => [|//] [].
have hi : (n + (q * m + c) < N)%N.
  rewrite ltn_add2l; apply: (@leq_trans (q.+1 * m)); last by rewrite leq_mul2r qk orbT.
  by rewrite mulSn addnC ltn_add2r.
rewrite (insubT (fun x => x < N)%N hi) mxE /appl_entry /= ltnNge leq_addr /= addKn ltn_add2l.
case: (ltnP j (n + m)) => jh.
  have -> : (j == (n + (q.+1 * m + c))%N :> nat) = false.
    by rewrite ltn_eqF // (leq_trans jh) // leq_add2l mulSn -addnA leq_addr.
  by case: ifP.
have e : (q * m + c == j - (n + m))%N = (j == (n + (q.+1 * m + c))%N :> nat).
  by rewrite -[LHS](eqn_add2l (n + m)) subnKC // eq_sym mulSn !addnA.
case: ifP => h; first by rewrite e.
rewrite ltn_eqF // (leq_trans (ltn_ord j)) // leq_add2l mulSn -addnA.
have -> : (k * m = m + k.-1 * m)%N by rewrite -{1}(prednK k0) mulSn.
by rewrite leq_add2l leqNgt h.
Qed.
Lemma selB_out' q : (k <= q)%N -> selB q = 0.
Proof.
move=> kq; apply/matrixP => a j; rewrite !mxE ltn_eqF //.
apply: (leq_trans (ltn_ord j)); rewrite leq_add2l; apply: (@leq_trans (q * m)); last by rewrite leq_addr.
by rewrite leq_mul2r kq orbT.
Qed.

Lemma appl_pow i : selT *m mxpow M i
  = mxpow z i *m selT + \sum_(q < i) mxpow z (i.-1 - q) *m (B *m selB q).
Proof.
elim: i => [|i IH].
  by rewrite !mxpow0 mulmx1 mul1mx big_ord0 addr0.
rewrite mxpowSr mulmxA IH mulmxDl -mulmxA selT_step mulmxDr !mulmxA -mxpowSr -!addrA; congr (_ + _).
rewrite [RHS]big_ord_recl subn0 mulmxA; congr (_ + _).
rewrite mulmx_suml; apply: eq_bigr => q _.
rewrite -!mulmxA; case: (ltnP q k) => qk.
  by rewrite selB_step //=; congr (mxpow z _ *m _); rewrite /bump /= add1n; case: (i) q {IH qk} => [[]//|i'] q; rewrite subSS.
by rewrite lift0 (selB_out' qk) (selB_out' (leqW qk)) mul0mx !mulmx0.
Qed.

Lemma appl_pow_entry i (q : 'I_k) a c :
  mxpow M i (lshift _ a) (rshift n (bidx q c)) =
  if (q < i)%N then (mxpow z (i.-1 - q) *m B) a c else 0.
Proof.
rewrite -selT_mul appl_pow mxE mul_selT /=.
have m0 : (0 < m)%N by case: (m) c => [|//] [].
have -> : insub (n + (q * m + c))%N = None :> option 'I_n by case: insubP => // b; rewrite ltnNge leq_addr.
rewrite add0r summxE.
have sel1 (r : nat) : (mxpow z (i.-1 - r) *m (B *m selB r)) a (rshift n (bidx q c))
    = if r == q then (mxpow z (i.-1 - q) *m B) a c else 0.
  rewrite mulmxA mul_selB /=; case: eqP => [->|/eqP rq].
    rewrite leq_add2l leq_addr addnA addKn (insubT (fun x => x < m)%N (ltn_ord c)) /=.
    by congr ((_ *m B) _ _); apply: val_inj.
  case: leqP => // h; case: insubP => // c' hc _; exfalso.
  rewrite leq_add2l in h.
  have rq' : (r <= q)%N.
    rewrite leqNgt; apply/negP => qr; move: h; rewrite leqNgt => /negP; apply.
    apply: (@leq_trans (q.+1 * m)); last by rewrite leq_mul2r qr orbT.
    by rewrite mulSn addnC ltn_add2r.
  have rq2 : (r < q)%N by rewrite ltn_neqAle rq rq'.
  move: hc; rewrite ltn_subLR ?leq_add2l // -addnA ltn_add2l => hc.
  have : (r.+1 * m <= q * m)%N by rewrite leq_mul2r rq2 orbT.
  rewrite mulSn addnC leqNgt => /negP; apply; apply: (leq_ltn_trans _ hc); exact: leq_addr.
rewrite (eq_bigr (fun r : 'I_i => if r == q :> nat then (mxpow z (i.-1 - q) *m B) a c else 0)); last first.
  by move=> r _; rewrite sel1.
rewrite -big_mkcond; case: ltnP => h.
  rewrite (big_pred1 (Ordinal h)) //.

by apply: big_pred0 => r; rewrite ltn_eqF // (leq_trans (ltn_ord r)).
Qed.
End Appl.
