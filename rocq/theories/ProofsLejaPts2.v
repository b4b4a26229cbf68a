(* ProofsLejaPts2.v : gen_leja_circle and gen_leja_conjugate (matexp_leja.py:45-124): node sets. *)
From mathcomp Require Import all_ssreflect all_algebra.
From mathcomp Require Import ring.
From mathcomp Require Import complex.
From Verif Require Import ModelHist MxBase ModelLeja SpecLeja ProofsLejaPts.
Set Implicit Arguments.
Unset Strict Implicit.
Unset Printing Implicit Defensive.
Import Order.TTheory GRing.Theory Num.Theory.
Local Open Scope ring_scope.

Section Pts2.
Variable F : rcfType.
Local Notation C := F[i].
Implicit Types (z s : C) (k : nat) (T : seq C).

Lemma C2neq0 : (2%:R : C) != 0. Proof. by rewrite pnatr_eq0. Qed.
Lemma pow_key z s k k' : s ^+ 2 = -1 -> z ^+ (2 ^ k) = s -> z ^+ (2 ^ k') = 'i%C -> k = k' /\ s = 'i%C.
Proof.
move=> s2 hk hk'.
have bad u v a b : (a < b)%N -> u ^+ 2 = -1 -> v ^+ 2 = -1 -> z ^+ (2 ^ a) = u -> z ^+ (2 ^ b) = v -> False.
  move=> ab u2 v2 hu hv; have := congr1 (fun x => x ^+ 2) hv.
  rewrite v2 -(subnK (ltnW ab)) addnC expnD exprM hu.
  have -> : (b - a = (b - a).-1.+1)%N by rewrite prednK // subn_gt0.
  rewrite expnS exprM u2 -exprM mulnC exprM sqrrN expr1n expr1n => /eqP; rewrite eq_sym.
  by rewrite neqN1.
case: (ltngtP k k') => h.
- by case: (bad _ _ _ _ h s2 (@iN1 F) hk hk').
- by case: (bad _ _ _ _ h (@iN1 F) s2 hk' hk).
- by split=> //; rewrite -hk h.
Qed.
Lemma conji : conjc 'i%C = - 'i%C :> C. Proof. by simpc. Qed.
Lemma neqNi : (- 'i%C == 'i%C :> C) = false.
Proof.
apply/negbTE/eqP => h; have : 'i%C ^+ 2 + 'i%C ^+ 2 = 0 :> C by rewrite {1}expr2 -{1}h mulNr -expr2 addNr.
by rewrite iN1 -opprD => /eqP; rewrite oppr_eq0 -(natrD _ 1 1) pnatr_eq0.
Qed.
Lemma Ni2 : (- 'i%C) ^+ 2 = -1 :> C. Proof. by rewrite sqrrN iN1. Qed.
Lemma key_conj z k k' : z ^+ (2 ^ k) = 'i%C -> (conjc z) ^+ (2 ^ k') = 'i%C -> False.
Proof.
move=> h h'; have e : (conjc z) ^+ (2 ^ k) = - 'i%C by rewrite -rmorphX /= h conji.
by case: (pow_key Ni2 e h') => _ /eqP; rewrite neqNi.
Qed.
Lemma key_nconj z k k' : z ^+ (2 ^ k.+1) = 'i%C -> (- conjc z) ^+ (2 ^ k') = 'i%C -> False.
Proof.
move=> h h'; have e : (- conjc z) ^+ (2 ^ k.+1) = - 'i%C.
  by rewrite expnS exprM sqrrN -exprM -expnS -rmorphX /= h conji.
by case: (pow_key Ni2 e h') => _ /eqP; rewrite neqNi.
Qed.
Lemma key_pm1 z k : z ^+ (2 ^ k) = 'i%C -> (z == 1) = false /\ (z == -1) = false.
Proof.
have b (a : C) : a ^+ 2 = 1 -> a ^+ (2 ^ k) = 'i%C -> False.
  move=> a2 h; have : (a ^+ (2 ^ k)) ^+ 2 = -1 by rewrite h iN1.
  by rewrite -exprM mulnC exprM a2 expr1n => /eqP; rewrite eq_sym neqN1.
move=> h; split; apply/negbTE/eqP => e; apply: (b z) => //; rewrite e ?sqrrN expr1n //.
Qed.
Lemma unitcE (a b : F) : (a +i* b)%C * conjc (a +i* b)%C = (a ^+ 2 + b ^+ 2)%:C%C.
Proof. by apply/eqP; rewrite eq_complex /=; apply/andP; split; apply/eqP; ring. Qed.
Lemma unitcP z : unitc z -> complex.Re z ^+ 2 + complex.Im z ^+ 2 = 1.
Proof. by case: z => a b; rewrite /unitc unitcE; case. Qed.
Lemma unit_Re z y : unitc z -> unitc y -> complex.Re z = complex.Re y -> z = y \/ z = conjc y.
Proof.
move=> /unitcP hz /unitcP; rewrite -hz => hy e.
have /eqP : complex.Im z ^+ 2 = complex.Im y ^+ 2 by move: hy; rewrite e => /addrI ->.
rewrite eqf_sqr => /orP [] /eqP h; [left|right].
  by case: z y e h {hz hy} => a b [a' b'] /= -> ->.
by case: z y e h {hz hy} => a b [a' b'] /= -> ->.
Qed.
Lemma unit_Im z y : unitc z -> unitc y -> complex.Im z = complex.Im y -> z = y \/ z = - conjc y.
Proof.
move=> /unitcP hz /unitcP; rewrite -hz => hy e.
have /eqP : complex.Re z ^+ 2 = complex.Re y ^+ 2 by move: hy; rewrite e => /addIr ->.
rewrite eqf_sqr => /orP [] /eqP h; [left|right].
  by case: z y e h {hz hy} => a b [a' b'] /= -> ->.
by case: z y e h {hz hy} => a b [a' b'] /= -> ->; apply/eqP; rewrite eq_complex /= opprK !eqxx.
Qed.
Lemma key_unit z k : z ^+ (2 ^ k) = 'i%C -> unitc z.
Proof.
move=> h; apply: (@root_unitc _ (k + 2)).
by rewrite expnD exprM h (exprM _ 2 2) iN1 sqrrN expr1n.
Qed.

Lemma Tk_uniq k : uniq (Tk F k).
Proof. by rewrite map_inj_uniq ?Lp_uniq // => a b /mulfI; apply; apply: wr_neq0. Qed.
Lemma Tall_uniq K : uniq (Tall F K).
Proof.
rewrite /Tall; elim: K.-1 => [//|k IH].
rewrite iota1S map_cat flatten_cat cat_uniq IH /= cats0 Tk_uniq andbT.
apply/hasPn => z /Tk_pow hz; apply/negP => /flattenP [s /mapP [j]].
rewrite mem_iota => /andP [j1 j2] -> hj.
have /Tk_pow hj' : z \in Tk F j.-1.+1 by rewrite prednK.
case: (pow_key (@iN1 F) hj' hz) => e _.
by move: j2; rewrite add1n -e prednK // ltnn.
Qed.

(* ---- conjugate pairs ---- *)
Definition pairs T : seq C := flatten [seq pairc z | z <- T].
Lemma pairs_cons z T : pairs (z :: T) = z :: conjc z :: pairs T. Proof. by []. Qed.
Lemma size_pairs T : size (pairs T) = (size T).*2.
Proof. by elim: T => //= z T ->. Qed.
Lemma nth_pairs T k : (pairs T)`_(k.*2) = T`_k /\ (pairs T)`_(k.*2).+1 = conjc T`_k.
Proof.
elim: T k => [|z T IH] [|k] //; last exact: IH.
- by rewrite !nth_nil; split => //; apply/eqP; rewrite eq_complex /= oppr0 !eqxx.
- by rewrite !nth_nil; split => //; apply/eqP; rewrite eq_complex /= oppr0 !eqxx.
Qed.
Lemma mem_pairs T y : y \in pairs T -> exists2 z, z \in T & y = z \/ y = conjc z.
Proof.
move=> /flattenP [s /mapP [z hz ->]]; rewrite !inE => /orP [] /eqP ->; exists z => //; [by left|by right].
Qed.
Lemma take_pairs T m : take m.*2 (pairs T) = pairs (take m T).
Proof. by elim: T m => [|z T IH] [|m] //; rewrite doubleS pairs_cons [take m.+1 _]/= pairs_cons -IH. Qed.
Lemma every2_pairs (G : C -> F) T : every2 [seq G z | z <- pairs T] = [seq G z | z <- T].
Proof. by elim: T => //= z T <-. Qed.
Lemma uniq_pairs T : uniq T -> (forall z y, z \in T -> y \in T -> z <> conjc y) -> uniq (pairs T).
Proof.
elim: T => [//|z T IH] /= /andP [zT uT] h; rewrite inE negb_or -andbA; apply/and4P; split.
- by apply/eqP; apply: h; rewrite mem_head.
- apply/negP => /mem_pairs [y hy [e|e]]; first by rewrite e hy in zT.
  by apply: (h z y) => //; rewrite inE ?eqxx // hy orbT.
- apply/negP => /mem_pairs [y hy [e|e]].
    by apply: (h y z); rewrite ?mem_head // inE hy orbT.
  by move: zT; rewrite (can_inj (@conjcK F) e) hy.
- by apply: IH => // y y' hy hy'; apply: h; rewrite inE ?hy ?hy' orbT.
Qed.

(* ---- opposite pairs ---- *)
Definition oppc z : seq C := [:: z; - z].
Definition opairs T : seq C := flatten [seq oppc z | z <- T].
Lemma opairs_cat T T' : opairs (T ++ T') = opairs T ++ opairs T'.
Proof. by rewrite /opairs map_cat flatten_cat. Qed.
Lemma opairs_mul a T : [seq a * z | z <- opairs T] = opairs [seq a * z | z <- T].
Proof. by elim: T => //= z T ->; rewrite mulrN. Qed.
Lemma Lp_opairs k : exists T, Lp F k.+1 = opairs T.
Proof.
elim: k => [|k [T e]]; first by exists [:: 1]; rewrite /= mulr1.
exists (T ++ [seq wr F k.+1 * z | z <- T]).
by rewrite opairs_cat -opairs_mul -e.
Qed.
Lemma nth_opairs T k : (opairs T)`_(k.*2).+1 = - (opairs T)`_(k.*2).
Proof.
elim: T k => [|z T IH] [|k] //; last exact: IH.
- by rewrite !nth_nil oppr0.
- by rewrite !nth_nil oppr0.
Qed.
Lemma Tall_opairs K : exists T, Tall F K.+2 = 'i%C :: opairs T.
Proof.
rewrite /Tall (_ : K.+2.-1 = K.+1) //; elim: K => [|K [T e]]; first by exists [::]; rewrite -wr1 /= mulr1.
rewrite iota1S map_cat flatten_cat e /= cats0 /Tk.
have [T' ->] := Lp_opairs K.
by exists (T ++ [seq wr F K.+2 * z | z <- T']); rewrite opairs_cat opairs_mul.
Qed.
Lemma Tall_tail_pow K z : z \in behead (Tall F K.+2) -> exists k, z ^+ (2 ^ k.+1) = 'i%C.
Proof.
move=> /flattenP [s /mapP [k]]; rewrite mem_iota => /andP [k1 _] -> hz.
have e : (k = k.-2.+2)%N by case: k k1 {hz} => [|[|]].
by exists k.-2; apply: Tk_pow; rewrite -e.
Qed.

Lemma K2 n : exists K', maxn 2 (bit_length n.-1) = K'.+2.
Proof.
have := leq_maxl 2 (bit_length n.-1); case: (maxn _ _) => [|[|K]] // _; by exists K.
Qed.
Lemma Tall_size_ge n K : maxn 2 (bit_length n.-1) = K.+2 -> (n <= (size (Tall F K.+2)).*2.+2)%N.
Proof.
move=> e; apply: (leq_trans (bit_length_ge n)); rewrite e size_Tall.
have p : (0 < 2 ^ K.+1)%N by rewrite expn_gt0.
by rewrite -doubleS prednK // expnS mul2n.
Qed.

(* full list *)
Definition Zall (K : nat) : seq C := [:: 1; -1] ++ pairs (Tall F K).
Lemma Zall_uniq K : uniq (Zall K).
Proof.
rewrite /Zall /= inE negb_or eq_sym neqN1 /= .
have nm z : z \in pairs (Tall F K) -> (z == 1) = false /\ (z == -1) = false.
  move=> /mem_pairs [y /Tall_pow [k hk] [->|->]]; first exact: (key_pm1 hk).
  have [h1 h2] := key_pm1 hk.
  have e1 : conjc (1 : C) = 1 by rewrite rmorph1.
  have e2 : conjc (-1 : C) = -1 by rewrite rmorphN rmorph1.
  split; [rewrite -e1|rewrite -e2]; by rewrite (inj_eq (can_inj (@conjcK F))).
apply/and3P; split.
- by apply/negP => /nm []; rewrite eqxx.
- by apply/negP => /nm [_]; rewrite eqxx.
apply: uniq_pairs; first exact: Tall_uniq.
move=> z y /Tall_pow [k hk] /Tall_pow [k' hk'] e.
by move: hk; rewrite e => /(key_conj hk').
Qed.
Lemma Zall_unit K z : z \in Zall K -> unitc z.
Proof.
rewrite mem_cat !inE => /orP [/orP [] /eqP ->|/mem_pairs [y /Tall_pow [k /key_unit hy] [->|->]] //].
- by rewrite /unitc rmorph1 mulr1.
- by rewrite /unitc rmorphN rmorph1 mulrNN mulr1.
- by rewrite /unitc conjcK mulrC.
Qed.
Lemma circleE n K : maxn 2 (bit_length n.-1) = K.+2 -> gen_leja_circle F n true = take n (Zall K.+2).
Proof. by move=> e; rewrite gen_circleE e. Qed.
Lemma size_circle n b : size (gen_leja_circle F n b) = n.
Proof.
have [K e] := K2 n; case: b; last first.
  rewrite gen_circle_false e size_takel // size_Lp -e; exact: bit_length_ge.
by rewrite (circleE e) size_takel // size_cat size_pairs add2n Tall_size_ge.
Qed.
Lemma circle_even n : (1 <= n)%N -> gen_leja_circle F (2 * n)%N true =
   [:: 1; -1] ++ pairs (take n.-1 (Tall F (maxn 2 (bit_length (2 * n).-1)))).
Proof.
move=> n1; have [K e] := K2 (2 * n); rewrite (circleE e) e /Zall.
case: n n1 {e} => [//|n] _; rewrite mul2n doubleS.
by rewrite [n.+1.-1]/= -take_pairs.
Qed.
End Pts2.
