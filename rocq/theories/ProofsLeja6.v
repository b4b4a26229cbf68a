(* ProofsLeja6.v : reordering, padding, the Leja integrator object. *)
From mathcomp Require Import all_ssreflect all_algebra.
From mathcomp Require Import ring.
From mathcomp Require Import complex.
From Verif Require Import ModelHist ModelOps ModelKrylov ModelDispatch ModelInt ModelLeja SpecLeja ProofsLeja5.
Set Implicit Arguments.
Unset Strict Implicit.
Unset Printing Implicit Defensive.
Import Order.TTheory GRing.Theory Num.Theory.
Local Open Scope ring_scope.

Section Argmax.
Variables (T : Type) (d : T) (lt : T -> T -> bool).
Hypothesis ltI : forall a, ~~ lt a a.
Hypothesis ltN : forall a b c, lt a b -> ~~ lt a c -> ~~ lt b c.
Lemma argmax_from_spec (pre s : seq T) best ib :
  (ib < size pre)%N -> nth d pre ib = best -> (forall j, (j < size pre)%N -> ~~ lt best (nth d pre j)) ->
  let k := argmax_from lt best ib (size pre) s in
  (k < size (pre ++ s))%N /\ forall j, (j < size (pre ++ s))%N -> ~~ lt (nth d (pre ++ s) k) (nth d (pre ++ s) j).
Proof.
elim: s pre best ib => [|y s IH] pre best ib hib eb hmax /=.
  by rewrite cats0; split=> // j hj; rewrite eb; apply: hmax.
have e : pre ++ y :: s = rcons pre y ++ s by rewrite -cats1 -catA.
have sz : (size pre).+1 = size (rcons pre y) by rewrite size_rcons.
rewrite e sz; case: ifP => h; apply: IH.
- by rewrite size_rcons.
- by rewrite nth_rcons ltnn eqxx.
- move=> j; rewrite size_rcons ltnS nth_rcons leq_eqVlt => /orP[/eqP ->|hj].
    by rewrite ltnn eqxx.
  by rewrite hj; apply: ltN h (hmax j hj).
- by rewrite size_rcons (ltn_trans hib).
- by rewrite nth_rcons hib.
- move=> j; rewrite size_rcons ltnS nth_rcons leq_eqVlt => /orP[/eqP ->|hj].
    by rewrite ltnn eqxx h.
  by rewrite hj; apply: hmax.
Qed.
Lemma argmax_spec s : s <> [::] -> exists2 k, argmax lt s = Ok k &
  (k < size s)%N /\ forall j, (j < size s)%N -> ~~ lt (nth d s k) (nth d s j).
Proof.
case: s => [//|y s] _; exists (argmax_from lt y 0 1 s) => //.
by apply: (@argmax_from_spec [:: y] s y 0) => // -[|//] _ /=; apply: ltI.
Qed.
End Argmax.

Section Reord.
Variable F : rcfType.
Implicit Types (x z xi : seq F[i]).

Lemma perm_pop z xi k : (k < size xi)%N -> perm_eq (rcons z xi`_k ++ pop k xi) (z ++ xi).
Proof.
move=> hk; rewrite /pop -cats1 -catA perm_cat2l /=.
rewrite -[X in perm_eq _ X](cat_take_drop k xi) (drop_nth 0 hk).
by rewrite perm_sym -cat1s perm_catCA.
Qed.
Lemma size_pop xi k : (k < size xi)%N -> size (pop k xi) = (size xi).-1.
Proof.
move=> hk; rewrite size_cat size_take hk size_drop.
by case: (size xi) hk => // m; rewrite ltnS /= subSS => h; rewrite subnKC.
Qed.

Definition greedy z (a : nat) := forall k, (a <= k < size z)%N ->
  forall p, p \in drop k z -> leja_dist (take k z) p <= leja_dist (take k z) z`_k.

Lemma reorder_loop_spec f z xi : (size xi <= f)%N ->
  exists zf, [/\ reorder_loop f z xi = Ok zf, perm_eq zf (z ++ xi), take (size z) zf = z & greedy zf (size z)].
Proof.
elim: f z xi => [|f IH] z xi.
  rewrite leqn0 => /nilP ->; exists z; rewrite cats0 take_size; split=> //.
  by move=> k /andP[h1 h2]; move: (leq_ltn_trans h1 h2); rewrite ltnn.
case: xi => [|y xi] hs.
  exists z; rewrite cats0 take_size; split=> //.
  by move=> k /andP[h1 h2]; move: (leq_ltn_trans h1 h2); rewrite ltnn.
set l := y :: xi.
have -> : reorder_loop f.+1 z l =
  rbind (argmax (fun a b => a < b) [seq leja_dist z p | p <- l])
        (fun ni => reorder_loop f (rcons z (l`_ni)) (pop ni l)) by [].
have [|||k -> [hk hmax]] := @argmax_spec F 0 (fun a b => a < b) _ _ [seq leja_dist z p | p <- l].
- by move=> a; rewrite ltxx.
- by move=> a b c h1; rewrite -!leNgt => h2; apply: ltW; apply: le_lt_trans h1.
- by [].
rewrite size_map in hk hmax; cbn [rbind].
have [|zf [e1 e2 e3 e4]] := IH (rcons z l`_k) (pop k l).
  by rewrite size_pop.
exists zf; rewrite e1; split=> //.
- by apply: perm_trans e2 _; apply: perm_pop.
- have : take (size z) (take (size (rcons z l`_k)) zf) = take (size z) zf.
    by rewrite take_take // size_rcons.
  by rewrite e3 => <-; rewrite -cats1 take_size_cat.
- move=> j /andP[hj1 hj2] p hp; move: hj1; rewrite leq_eqVlt => /orP[/eqP ej|hj1]; last first.
    by apply: e4 => //; rewrite size_rcons hj1.
  have zl : zf`_(size z) = l`_k.
    have : (take (size (rcons z l`_k)) zf)`_(size z) = zf`_(size z) by rewrite nth_take // size_rcons.
    by rewrite e3 nth_rcons ltnn eqxx.
  have tz : take (size z) zf = z.
    have : take (size z) (take (size (rcons z l`_k)) zf) = take (size z) zf.
      by rewrite take_take // size_rcons.
    by rewrite e3 => <-; rewrite -cats1 take_size_cat.
  rewrite -ej tz zl; rewrite -ej in hp.
  have : p \in l.
    have pz : perm_eq (z ++ drop (size z) zf) (z ++ l).
      rewrite -{1}tz cat_take_drop; apply: perm_trans e2 _; exact: perm_pop.
    by move: pz; rewrite perm_cat2l => /perm_mem <-.
  case/(nthP 0) => m hm <-.
  have := hmax m hm; rewrite -leNgt (nth_map 0) // (nth_map 0) //.
Qed.

Lemma cltI (a : F[i]) : ~~ clt a a.
Proof. by rewrite /clt ltxx eqxx ltxx. Qed.
Lemma cltN (a b c : F[i]) : clt a b -> ~~ clt a c -> ~~ clt b c.
Proof.
rewrite /clt !negb_or !negb_and -!leNgt => /orP[h1|/andP[/eqP h1 h2]] /andP[h3 h4].
  by rewrite (ltW (le_lt_trans h3 h1)) /= gt_eqF // (le_lt_trans h3 h1).
rewrite -h1 h3 /=; case/orP: h4 => [->//|h4].
by rewrite (ltW (le_lt_trans h4 h2)) orbT.
Qed.

Theorem reordering_spec x : x <> [::] -> exists z,
  [/\ leja_seq_reordering x = Ok z, perm_eq z x,
      forall p, p \in x -> ~~ clt z`_0 p & greedy z 1].
Proof.
move=> hx; have [||k e [hk hmax]] := @argmax_spec F[i] 0 (@clt F) _ _ x hx.
- exact: cltI.
- exact: cltN.
rewrite /leja_seq_reordering e; cbn [rbind].
have [|zf [e1 e2 e3 e4]] := @reorder_loop_spec (size x) [:: x`_k] (pop k x).
  by rewrite size_pop // leq_pred.
exists zf; split=> //.
- by apply: perm_trans e2 _; rewrite -[X in perm_eq _ X]cat0s -(cat0s [:: _]); apply: (@perm_pop [::]).
- have -> : zf`_0 = x`_k.
    have : (take 1 zf)`_0 = zf`_0 by rewrite nth_take.
    by rewrite -[1%N]/(size [:: x`_k]) e3.
  by move=> p /(nthP 0)[j hj <-]; apply: hmax.
Qed.
Lemma reordering_nil : leja_seq_reordering ([::] : seq F[i]) = Raise ValueErrorExn.
Proof. by []. Qed.

Lemma cabsE (a : F[i]) : `|a| = (cabs a)%:C%C.
Proof. by case: a => a b; rewrite /cabs normc_def. Qed.
Lemma leja_distE (z : seq F[i]) p : (leja_dist z p)%:C%C = \prod_(w <- z) `|w - p|.
Proof. by rewrite /leja_dist rmorph_prod; apply: eq_bigr => w _; rewrite cabsE. Qed.
End Reord.

Section Pad.
Variable K : fieldType.
Lemma size_pad (x : seq K) p : size (leja_seq_pad_zeros x p) = (p + size x)%N.
Proof. by rewrite size_cat size_map size_iota. Qed.
Lemma pad_tail (x : seq K) p : drop p (leja_seq_pad_zeros x p) = x.
Proof. by rewrite /leja_seq_pad_zeros drop_size_cat // size_map size_iota. Qed.
End Pad.
Lemma pad_head (K : numFieldType) (x : seq K) p k : (k < p)%N ->
  (leja_seq_pad_zeros x p)`_k = k.+1%:R * (10%:R ^+ 12)^-1.
Proof.
move=> hk; rewrite /leja_seq_pad_zeros nth_cat size_map size_iota hk (nth_map 0%N) ?size_iota //.
rewrite nth_iota // add0n /pad_eps; set e := (10%:R ^+ 12)^-1.
case: p hk => [//|[|p]]; first by rewrite ltnS leqn0 => /eqP ->; rewrite mul0r addr0 mul1r.
move=> _ /=; have -> : e * p.+2%:R - e = e * p.+1%:R by rewrite -(addn1 p.+1) natrD mulrDr mulr1 addrK.
by rewrite mulfK ?pnatr_eq0 // -addn1 natrD mulrDl mul1r addrC.
Qed.
