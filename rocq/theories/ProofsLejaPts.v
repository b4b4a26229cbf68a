(* ProofsLejaPts.v : the points of gen_leja_circle (matexp_leja.py:97-124). *)
From mathcomp Require Import all_ssreflect all_algebra.
From mathcomp Require Import ring.
From mathcomp Require Import complex.
From Verif Require Import ModelHist MxBase ModelLeja SpecLeja.
Set Implicit Arguments.
Unset Strict Implicit.
Unset Printing Implicit Defensive.
Import Order.TTheory GRing.Theory Num.Theory.
Local Open Scope ring_scope.

Section Pts.
Variable F : rcfType.
Local Notation C := F[i].

(* -1, i, e^(i pi/4), ... *)
Fixpoint wr (k : nat) : C := if k is k'.+1 then sqrtc (wr k') else -1.
Fixpoint Lp (k : nat) : seq C := if k is k'.+1 then Lp k' ++ [seq wr k' * z | z <- Lp k'] else [:: 1].

Lemma wr_sq k : wr k.+1 ^+ 2 = wr k.
Proof. exact: sqr_sqrtc. Qed.
Lemma wr_pow k : wr k ^+ (2 ^ k) = -1.
Proof. by elim: k => [|k IH]; rewrite ?expr1 // expnS exprM wr_sq. Qed.
Lemma wr1 : wr 1 = 'i%C.
Proof. exact: sqrtN1. Qed.
Lemma wr_half k : wr k.+1 ^+ (2 ^ k) = 'i%C.
Proof. by elim: k => [|k IH]; rewrite ?expr1 ?wr1 // expnS exprM wr_sq. Qed.

Lemma size_Lp k : size (Lp k) = (2 ^ k)%N.
Proof. by elim: k => //= k IH; rewrite size_cat size_map IH addnn -mul2n expnS. Qed.
Lemma Lp0 k : (Lp k)`_0 = 1.
Proof. by elim: k => //= k IH; rewrite nth_cat size_Lp expn_gt0 /= IH. Qed.
Lemma Lp_mid k : (Lp k.+1)`_(2 ^ k) = wr k.
Proof. by rewrite /= nth_cat size_Lp ltnn subnn (nth_map 0) ?size_Lp ?expn_gt0 // Lp0 mulr1. Qed.
Lemma circle_pass_Lp k : circle_pass (Lp k.+1) = Lp k.+2.
Proof.
rewrite /circle_pass size_Lp.
by rewrite (_ : (2 ^ k.+1)./2 = (2 ^ k)%N) ?Lp_mid // expnS mul2n doubleK.
Qed.
Lemma iter_circle k : iter k (@circle_pass F) [:: 1; -1] = Lp k.+1.
Proof.
elim: k => [|k IH]; first by rewrite /= mulr1.
by rewrite iterS IH circle_pass_Lp.
Qed.

Lemma Lp_root k z : z \in Lp k -> z ^+ (2 ^ k) = 1.
Proof.
elim: k z => [|k IH] z /=; first by rewrite inE => /eqP ->; rewrite expr1n.
rewrite mem_cat expnS mulnC exprM => /orP [/IH ->|/mapP [a /IH ha ->]]; first by rewrite expr1n.
by rewrite exprMn wr_pow ha mulr1 sqrrN expr1n.
Qed.
Lemma neqN1 : (-1 == 1 :> C) = false.
Proof. by apply/negbTE; rewrite -subr_eq0 -opprD oppr_eq0 -(natrD _ 1 1) pnatr_eq0. Qed.
Lemma wr_neq0 k : wr k != 0.
Proof.
apply/eqP => h; have := wr_pow k; rewrite h expr0n.
case: (2 ^ k)%N (expn_gt0 2 k) => // m _ /eqP; rewrite eq_sym oppr_eq0 oner_eq0 //.
Qed.
Lemma Lp_uniq k : uniq (Lp k).
Proof.
elim: k => //= k IH; rewrite cat_uniq IH map_inj_uniq ?IH ?andbT /=; last first.
  by move=> a b /mulfI; apply; apply: wr_neq0.
apply/hasPn => _ /mapP [a ha ->]; apply/negP => /Lp_root.
by rewrite exprMn wr_pow (Lp_root ha) mulr1 => /eqP; rewrite neqN1.
Qed.
(* they are all the roots of unity of order 2^k *)
Lemma Lp_all k z : z ^+ (2 ^ k) = 1 -> z \in Lp k.
Proof.
elim: k z => [|k IH] z /=; first by rewrite expr1 => ->; rewrite inE.
rewrite expnS mulnC exprM => /eqP; rewrite sqrf_eq1 mem_cat => /orP [/eqP /IH -> //|/eqP h].
apply/orP; right; apply/mapP; exists (z / wr k); last by rewrite mulrC divfK ?wr_neq0.
apply: IH; rewrite exprMn h exprVn wr_pow invrN invr1 mulrNN mulr1 //.
Qed.

(* product of opposite points *)
Fixpoint cp (k : nat) : C := if k is k'.+1 then cp k' * wr k' else 1.
Lemma Lp_opp k j : (j < 2 ^ k)%N -> (Lp k)`_j * (Lp k)`_((2 ^ k).-1 - j) = cp k.
Proof.
elim: k j => [|k IH] j.
  by rewrite expn0 ltnS leqn0 => /eqP ->; rewrite /= mulr1.
have p0 : (0 < 2 ^ k)%N by rewrite expn_gt0.
have e : (2 ^ k.+1 = 2 ^ k + 2 ^ k)%N by rewrite expnS mul2n addnn.
rewrite e => hj /=; rewrite !nth_cat size_Lp.
have nm a i : (i < 2 ^ k)%N -> [seq a * z | z <- Lp k]`_i = a * (Lp k)`_i by move=> hi; rewrite (nth_map 0) // size_Lp.
case: ltnP => h.
  have -> : ((2 ^ k + 2 ^ k).-1 - j < 2 ^ k)%N = false.
    apply/negbTE; rewrite -leqNgt leq_subRL; last by rewrite -ltnS prednK ?addn_gt0 ?p0.
    by rewrite -ltnS prednK ?addn_gt0 ?p0 // ltn_add2r.
  have -> : ((2 ^ k + 2 ^ k).-1 - j - 2 ^ k = (2 ^ k).-1 - j)%N.
    by rewrite -subnDA addnC subnDA -subn1 -addnBA // addKn subn1.
  rewrite nm; last by rewrite (leq_ltn_trans (leq_subr _ _)) // prednK.
  by rewrite mulrCA IH // mulrC.
have hj' : (j - 2 ^ k < 2 ^ k)%N by rewrite ltn_subLR.
have -> : ((2 ^ k + 2 ^ k).-1 - j = (2 ^ k).-1 - (j - 2 ^ k))%N.
  rewrite subnBA // -subn1 -(subn1 (2 ^ k)) addnC addnBA //.
have -> : ((2 ^ k).-1 - (j - 2 ^ k) < 2 ^ k)%N by rewrite (leq_ltn_trans (leq_subr _ _)) // prednK.
by rewrite nm // -mulrA IH // mulrC.
Qed.
Lemma cp_wr k : wr k ^+ 2 * cp k = 1.
Proof.
elim: k => [|k IH]; first by rewrite /= sqrrN expr1n mulr1.
by rewrite wr_sq /= mulrCA mulrC -expr2.
Qed.

(* points on the unit circle *)
Definition unitc (z : C) : Prop := z * conjc z = 1.
Lemma root_unitc k z : z ^+ (2 ^ k) = 1 -> unitc z.
Proof.
move=> h; rewrite /unitc; case: z h => a b h.
have e : (a +i* b)%C * conjc (a +i* b)%C = (a ^+ 2 + b ^+ 2)%:C%C.
  by apply/eqP; rewrite eq_complex /=; apply/andP; split; apply/eqP; ring.
rewrite e; set q := a ^+ 2 + b ^+ 2 in e *.
have q0 : 0 <= q by rewrite addr_ge0 ?sqr_ge0.
have : (q%:C%C) ^+ (2 ^ k) = 1.
  by rewrite -e exprMn -rmorphX /= h rmorph1 mulr1.
rewrite -rmorphX /= => /complexI /eqP.
by rewrite pexpr_eq1 ?expn_gt0 // => /eqP ->.
Qed.
Lemma unitc_conj z y : unitc z -> z * y = 1 -> y = conjc z.
Proof.
move=> uz hy; have z0 : z != 0 by apply/eqP => h; move: hy; rewrite h mul0r => /esym/eqP; rewrite oner_eq0.
by apply: (mulfI z0); rewrite hy uz.
Qed.

(* ---- the blocks ---- *)
Definition Bk (k : nat) : seq C := [seq wr k * z | z <- Lp k].
Definition Tk (k : nat) : seq C := [seq wr k * z | z <- Lp k.-1].
Definition pairc (z : C) : seq C := [:: z; conjc z].
Definition Tall (K : nat) : seq C := flatten [seq Tk k | k <- iota 1 K.-1].

Lemma size_Bk k : size (Bk k) = (2 ^ k)%N. Proof. by rewrite size_map size_Lp. Qed.
Lemma Bk_nth k j : (j < 2 ^ k)%N -> (Bk k)`_j = wr k * (Lp k)`_j.
Proof. by move=> h; rewrite (nth_map 0) ?size_Lp. Qed.
Lemma Bk_root k z : z \in Bk k -> z ^+ (2 ^ k.+1) = 1.
Proof.
move=> /mapP [a ha ->]; rewrite expnS mulnC exprM exprMn wr_pow (Lp_root ha) mulr1.
by rewrite sqrrN expr1n.
Qed.
Lemma conj_block_Bk k : conj_block (Bk k.+1) = flatten [seq pairc z | z <- Tk k.+1].
Proof.
have e : (2 ^ k.+1 = (2 ^ k).*2)%N by rewrite expnS mul2n.
have eh : (2 ^ k.+1)./2 = (2 ^ k)%N by rewrite e doubleK.
rewrite /conj_block size_Bk eh; congr flatten.
apply: (@eq_from_nth _ [::]); first by rewrite !size_map size_iota size_Lp.
move=> j; rewrite size_map size_iota => hj.
have hj2 : (j < 2 ^ k.+1)%N by rewrite (leq_trans hj) // e -addnn leq_addr.
rewrite (nth_map 0%N) ?size_iota // nth_iota // add0n.
rewrite [RHS](nth_map 0) ?size_map ?size_Lp //.
have -> : (Tk k.+1)`_j = (Bk k.+1)`_j.
  by rewrite (nth_map 0) ?size_Lp // Bk_nth //= nth_cat size_Lp hj.
rewrite /pairc; congr [:: _; _]; apply: unitc_conj.
  by apply: (@root_unitc k.+2); apply: Bk_root; rewrite mem_nth // size_Bk.
have hj3 : ((2 ^ k.+1).-1 - j < 2 ^ k.+1)%N by rewrite (leq_ltn_trans (leq_subr _ _)) // prednK // expn_gt0.
by rewrite !Bk_nth // mulrACA Lp_opp // -expr2 cp_wr.
Qed.

Lemma iota1S K : iota 1 K.+1 = iota 1 K ++ [:: K.+1].
Proof. by rewrite -(addn1 K) iotaD add1n addn1. Qed.
Lemma drop2_Lp K : drop 2 (Lp K.+1) = flatten [seq Bk k | k <- iota 1 K].
Proof.
elim: K => [|K IH]; first by [].
rewrite iota1S map_cat flatten_cat -IH.
have /= -> : Lp K.+2 = Lp K.+1 ++ Bk K.+1 by [].
rewrite cats0 -/(Lp K.+1) drop_cat size_Lp; case: ltnP => h //.
have : (2 ^ K.+1 <= 2)%N := h.
case: K {IH} h => [|K] h _; last by move: h; rewrite leqNgt (leq_trans (n:=2 ^ 2)) // leq_exp2l.
by [].
Qed.
Lemma conj_blocks_Bk k c : conj_blocks k.+1 c (flatten [seq Bk j | j <- iota k.+1 c]) =
  flatten [seq pairc z | z <- flatten [seq Tk j | j <- iota k.+1 c]].
Proof.
elim: c k => [//|c IH] k.
rewrite [iota _ _]/= [map _ (_ :: _)]/= [flatten (_ :: _)]/=.
rewrite [conj_blocks _ _ _]/= take_size_cat ?size_Bk // drop_size_cat ?size_Bk //.
by rewrite IH conj_block_Bk /= map_cat flatten_cat.
Qed.
Lemma take2_Lp K : take 2 (Lp K.+1) = [:: 1; -1].
Proof.
elim: K => [|K IH]; first by rewrite /= mulr1.
have -> : Lp K.+2 = Lp K.+1 ++ Bk K.+1 by [].
rewrite take_cat size_Lp; case: ltnP => h //.
have e : (2 ^ K.+1 = 2)%N by apply/eqP; rewrite eqn_leq h /= -[X in (X <= _)%N](expn1 2) leq_exp2l.
by rewrite e subnn take0 cats0 -IH take_oversize // size_Lp e.
Qed.
Lemma gen_circleE n (K := maxn 2 (bit_length n.-1)) :
  gen_leja_circle F n true = take n ([:: 1; -1] ++ flatten [seq pairc z | z <- Tall K]).
Proof.
rewrite /gen_leja_circle -/K.
have [K' eK] : exists K', K = K'.+2.
  by exists K.-2; have := leq_maxl 2 (bit_length n.-1); rewrite -/K; case: K => [|[|]].
by rewrite eK iter_circle take2_Lp drop2_Lp conj_blocks_Bk.
Qed.
Lemma gen_circle_false n (K := maxn 2 (bit_length n.-1)) :
  gen_leja_circle F n false = take n (Lp K).
Proof.
rewrite /gen_leja_circle -/K.
have [K' eK] : exists K', K = K'.+2.
  by exists K.-2; have := leq_maxl 2 (bit_length n.-1); rewrite -/K; case: K => [|[|]].
by rewrite eK iter_circle.
Qed.
Lemma bit_length_ge n : (n <= 2 ^ maxn 2 (bit_length n.-1))%N.
Proof.
case: n => [//|[|n]]; first by rewrite expn_gt0.
rewrite /= /bit_length; apply: leq_trans (_ : n.+2 <= 2 ^ (trunc_log 2 n.+1).+1)%N _.
  by apply: trunc_log_ltn.
by rewrite leq_exp2l // leq_maxr.
Qed.
Lemma size_Tall K : size (Tall K.+1) = (2 ^ K).-1.
Proof.
rewrite /Tall /=; elim: K => [//|K IH].
rewrite iota1S map_cat flatten_cat size_cat IH /= cats0 size_map size_Lp.
by rewrite [K.+1.-1]/= expnS mul2n -addnn -!subn1 addnBAC ?expn_gt0.
Qed.
(* elements of T: z^(2^(k-1)) = i *)
Lemma Tk_pow k z : z \in Tk k.+1 -> z ^+ (2 ^ k) = 'i%C.
Proof. by move=> /mapP [a /= /Lp_root ha ->]; rewrite exprMn wr_half ha mulr1. Qed.
Lemma Tall_pow K z : z \in Tall K -> exists k, z ^+ (2 ^ k) = 'i%C.
Proof.
move=> /flattenP [s /mapP [k]]; rewrite mem_iota => /andP [k1 _] -> hz.
by exists k.-1; apply: Tk_pow; rewrite prednK.
Qed.
Lemma iN1 : 'i%C ^+ 2 = -1 :> C. Proof. exact: sqr_i. Qed.
End Pts.
