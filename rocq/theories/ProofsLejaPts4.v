(* ProofsLejaPts4.v : the points of gen_leja_circle form a Leja sequence of the unit circle. *)
From mathcomp Require Import all_ssreflect all_algebra.
From mathcomp Require Import ring.
From mathcomp Require Import complex.
From Verif Require Import ModelHist MxBase ModelLeja SpecLeja ProofsLejaPts ProofsLejaPts2.
Set Implicit Arguments.
Unset Strict Implicit.
Unset Printing Implicit Defensive.
Import Order.TTheory GRing.Theory Num.Theory.
Local Open Scope ring_scope.

Section Pts4.
Variable F : rcfType.
Local Notation C := F[i].
Implicit Types (z : C) (k m : nat).

Lemma Lp_prod k z : \prod_(a <- Lp F k) (z - a) = z ^+ (2 ^ k) - 1.
Proof.
elim: k z => [|k IH] z; first by rewrite big_seq1 expr1.
rewrite /= big_cat big_map /= IH.
rewrite (eq_bigr (fun a => wr F k * (z / wr F k - a))); last first.
  by move=> a _; rewrite mulrBr mulrCA mulfV ?wr_neq0 // mulr1.
rewrite big_split /= IH big_const_seq count_predT size_Lp iter_mulr mulr1.
rewrite exprMn exprVn wr_pow invrN1 mulrN1 mulN1r expnS mulnC exprM.
set u := z ^+ _.
by rewrite -opprD opprK [RHS]subr_sqr_1.
Qed.
Lemma norm_eq1_unit z : `|z| = 1 -> `|z| ^+ 2 = 1. Proof. by move=> ->; rewrite expr1n. Qed.
Lemma wr_norm k : `|wr F k| = 1.
Proof.
have h : `|wr F k| ^+ (2 ^ k) = 1 by rewrite -normrX wr_pow normrN1.
by apply/eqP; rewrite -(@pexpr_eq1 _ _ (2 ^ k)) ?expn_gt0 // h eqxx.
Qed.
Lemma Lp_leja k m z : (m < 2 ^ k)%N -> `|z| = 1 ->
  \prod_(a <- take m (Lp F k)) `|z - a| <= \prod_(a <- take m (Lp F k)) `|(Lp F k)`_m - a|.
Proof.
elim: k m z => [|k IH] m z.
  by rewrite expn0 ltnS leqn0 => /eqP ->; rewrite take0 !big_nil.
move=> hm nz; rewrite /= take_cat nth_cat size_Lp.
case: ltnP => h; first by apply: IH.
set m' := (m - 2 ^ k)%N.
have hm' : (m' < 2 ^ k)%N by rewrite ltn_subLR // addnn -mul2n -expnS.
rewrite (nth_map 0) ?size_Lp // -map_take !big_cat !big_map /=.
set y := (Lp F k)`_m'.
have w0 := wr_neq0 F k.
have w1 := wr_norm k.
have e1 u : \prod_(a <- take m' (Lp F k)) `|u - wr F k * a| = \prod_(a <- take m' (Lp F k)) `|u / wr F k - a|.
  by apply: eq_bigr => a _; rewrite -[RHS]mul1r -w1 -normrM mulrBr mulrCA mulfV // mulr1.
have e2 u : \prod_(a <- Lp F k) `|u - a| = `|u ^+ (2 ^ k) - 1| by rewrite -Lp_prod normr_prod.
rewrite !e1 !e2 [wr F k * y]mulrC mulfK //.
apply: ler_pmul => //; first by apply: prodr_ge0.
  have -> : (y * wr F k) ^+ (2 ^ k) = -1.
    by rewrite exprMn wr_pow (Lp_root (k := k)) ?mul1r // mem_nth // size_Lp.
  apply: le_trans (ler_norm_sub _ _) _.
  by rewrite normrX nz expr1n normr1 -opprD normrN -(natrD _ 1 1) normr_nat natrD.
by apply: IH => //; rewrite normrM normfV w1 nz invr1 mulr1.
Qed.
Lemma big_take_ord (G : C -> C) (s : seq C) m : (m <= size s)%N ->
  \prod_(a <- take m s) G a = \prod_(j < m) G s`_j.
Proof.
move=> h; rewrite (big_nth 0) size_takel // big_mkord.
by apply: eq_bigr => j _; rewrite nth_take.
Qed.
Theorem circle_leja n m z (x := gen_leja_circle F n false) : (m < n)%N -> `|z| = 1 ->
  \prod_(j < m) `|z - x`_j| <= \prod_(j < m) `|x`_m - x`_j|.
Proof.
move=> hm nz; rewrite /x gen_circle_false.
set K := maxn 2 _; set L := Lp F K.
have hn : (n <= 2 ^ K)%N := bit_length_ge n.
have e (y : C) : \prod_(j < m) `|y - (take n L)`_j| = \prod_(a <- take m L) `|y - a|.
  rewrite (big_take_ord (fun a => `|y - a|)) ?size_Lp; last by apply: ltnW; apply: leq_trans hn.
  by apply: eq_bigr => j _; rewrite nth_take // (ltn_trans (ltn_ord j)).
rewrite !e nth_take //; apply: Lp_leja => //; exact: leq_trans hn.
Qed.
Lemma mem_Zall K z : z \in Zall F K -> [\/ z = 1, z = -1 | exists2 y, y \in Tall F K & z = y \/ z = conjc y].
Proof.
rewrite mem_cat => /orP [|/mem_pairs h]; last by constructor 3.
by rewrite !inE => /orP [] /eqP ->; [constructor 1|constructor 2].
Qed.
Theorem circle_roots n b z : z \in gen_leja_circle F n b -> `|z| = 1.
Proof.
have un (y : C) k : y ^+ (2 ^ k) = 1 -> `|y| = 1.
  move=> h; have : `|y| ^+ (2 ^ k) = 1 by rewrite -normrX h normr1.
  by move=> h'; apply/eqP; rewrite -(@pexpr_eq1 _ _ (2 ^ k)) ?expn_gt0 // h' eqxx.
have [K e] := K2 n; case: b.
  rewrite (circleE F e) => /mem_take /mem_Zall [->|->|]; [exact: normr1|exact: normrN1|].
  move=> [y /Tall_pow [k hk] [->|->]]; apply: (un _ (k + 2)%N); rewrite expnD exprM.
    by rewrite hk (exprM _ 2 2) iN1 sqrrN expr1n.
  by rewrite -rmorphX /= hk conji (exprM _ 2 2) Ni2 sqrrN expr1n.
by rewrite gen_circle_false => /mem_take /Lp_root; apply: un.
Qed.
Theorem circle_uniq n b : uniq (gen_leja_circle F n b).
Proof.
have [K e] := K2 n; case: b; first by rewrite (circleE F e) take_uniq // Zall_uniq.
by rewrite gen_circle_false take_uniq // Lp_uniq.
Qed.
(* with 2^k points: exactly the roots of unity of that order *)
Theorem circle_all k b z : z ^+ (2 ^ k.+2) = 1 -> z \in gen_leja_circle F (2 ^ k.+2) b.
Proof.
have p : (0 < 2 ^ k.+2)%N by rewrite expn_gt0.
have eK : maxn 2 (bit_length (2 ^ k.+2).-1) = k.+2.
  rewrite /bit_length; have [a ea] : exists a, ((2 ^ k.+2).-1 = a.+1)%N.
    by exists (2 ^ k.+2).-2; rewrite prednK // -ltnS prednK // (leq_trans _ (leq_pexp2l _ (isT : 1 <= k.+2)%N)).
  rewrite ea -ea (_ : trunc_log 2 _ = k.+1) ?maxnSS ?max0n //.
  by apply: trunc_log_eq => //; rewrite -ltnS prednK // ltn_exp2l // ltnSn leqnn.
have all (y : C) : y ^+ (2 ^ k.+2) = 1 -> y \in gen_leja_circle F (2 ^ k.+2) false.
  by move=> h; rewrite gen_circle_false eK take_oversize ?size_Lp // Lp_all.
case: b; last exact: all.
move=> h.
have sub : {subset gen_leja_circle F (2 ^ k.+2) true <= gen_leja_circle F (2 ^ k.+2) false}.
  move=> y; rewrite (circleE F eK) => /mem_take hy; apply: all.
  move: hy => /mem_Zall [->|->|]; [exact: expr1n|by rewrite expnS exprM sqrrN expr1n expr1n|].
  have q j : (j < k.+1)%N -> (2 ^ k.+2 = 2 ^ j * (4 * 2 ^ (k - j)))%N.
    by move=> hj; rewrite (_ : 4 = 2 ^ 2)%N // -!expnD; congr (_ ^ _)%N; rewrite addnCA subnKC.
  move=> [u /flattenP [s /mapP [j]]]; rewrite mem_iota => /andP [j1 j2] -> hu.
  have hj : (j.-1 < k.+1)%N by rewrite prednK.
  have /Tk_pow pu : u \in Tk F j.-1.+1 by rewrite prednK.
  case=> ->; rewrite (q _ hj) exprM ?pu.
    by rewrite exprM (exprM _ 2 2) iN1 sqrrN expr1n expr1n.
  by rewrite -rmorphX /= pu conji exprM (exprM _ 2 2) Ni2 sqrrN expr1n expr1n.
have := uniq_min_size (circle_uniq (2 ^ k.+2) true) sub.
by rewrite !size_circle => /(_ (leqnn _)) [_ ->]; apply: all.
Qed.
Lemma Lp_prefix k l : (k <= l)%N -> exists s, Lp F l = Lp F k ++ s.
Proof.
elim: l => [|l IH]; first by rewrite leqn0 => /eqP ->; exists [::]; rewrite cats0.
rewrite leq_eqVlt => /orP [/eqP ->|]; first by exists [::]; rewrite cats0.
by rewrite ltnS => /IH [s e]; exists (s ++ Bk F l); rewrite catA -e.
Qed.
Lemma Zall_prefix k l : (k <= l)%N -> exists s, Zall F l = Zall F k ++ s.
Proof.
move=> kl; have kl' : (k.-1 <= l.-1)%N by rewrite -!subn1 leq_sub2r.
exists (pairs (flatten [seq Tk F j | j <- iota (1 + k.-1) (l.-1 - k.-1)])).
by rewrite /Zall /Tall -[X in iota 1 X](subnKC kl') iotaD map_cat flatten_cat /pairs map_cat flatten_cat catA.
Qed.
Theorem circle_nested n m b : (n <= m)%N -> take n (gen_leja_circle F m b) = gen_leja_circle F n b.
Proof.
move=> nm.
have mono : (maxn 2 (bit_length n.-1) <= maxn 2 (bit_length m.-1))%N.
  rewrite geq_max leq_maxl /=; apply: leq_trans (leq_maxr _ _).
  have h : (n.-1 <= m.-1)%N by rewrite -!subn1 leq_sub2r.
  rewrite /bit_length; case: n.-1 h => [//|n'] h; case: m.-1 h => [//|m'] h.
  by rewrite ltnS leq_trunc_log.
have hn := bit_length_ge n.
have gen (Z : nat -> seq C) (s : seq C) : (n <= size (Z (maxn 2 (bit_length n.-1))))%N ->
   Z (maxn 2 (bit_length m.-1)) = Z (maxn 2 (bit_length n.-1)) ++ s ->
   take n (take m (Z (maxn 2 (bit_length m.-1)))) = take n (Z (maxn 2 (bit_length n.-1))).
  by move=> sz ->; rewrite take_take // takel_cat.
have [K e] := K2 n; have [K' e'] := K2 m.
case: b; last first.
  have [s es] := Lp_prefix mono; rewrite !gen_circle_false; apply: (gen (Lp F) s) => //.
  by rewrite size_Lp.
have [s es] := Zall_prefix mono; rewrite (circleE F e) (circleE F e') -e -e'; apply: (gen (Zall F) s) => //.
by rewrite size_cat size_pairs add2n e Tall_size_ge.
Qed.
End Pts4.
