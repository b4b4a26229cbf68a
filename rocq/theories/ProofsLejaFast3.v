(* ProofsLejaFast3.v : from the invariant to the specification of fast Leja points. *)
From mathcomp Require Import all_ssreflect all_algebra.
From mathcomp Require Import ring.
From Verif Require Import ModelHist ModelLeja ModelLejaPts SpecLejaPts ProofsLejaFast ProofsLejaFast2.
Set Implicit Arguments.
Unset Strict Implicit.
Unset Printing Implicit Defensive.
Import Order.TTheory GRing.Theory Num.Theory.
Local Open Scope ring_scope.

Section Fast3.
Variable F : realFieldType.
Implicit Types (T W : seq F) (J : seq (nat * nat)) (a b u v : F).
Local Notation nz := (0, 0)%N.
Local Notation ast := (ast F).
Local Notation S a b n m := (iter m (@astep F) (start_ab a b n)).

Definition orient (a b : F) : F := if (ends a b).2 < (ends a b).1 then 1 else -1.
Lemma ends_ne a b : a != b -> (ends a b).2 != (ends a b).1.
Proof. by rewrite /ends; case: ifP => _ //= h; rewrite eq_sym. Qed.
Lemma ends_sum a b : ((ends a b).2 + (ends a b).1) = a + b.
Proof. by rewrite /ends; case: ifP => _ //=; rewrite addrC. Qed.
Lemma orient_ne0 a b : orient a b != 0.
Proof. by rewrite /orient; case: ifP => _; rewrite ?oppr_eq0 oner_eq0. Qed.
Lemma orient_lt a b : a != b -> orient a b * (ends a b).2 < orient a b * (ends a b).1.
Proof.
move=> /ends_ne h; rewrite /orient; case: ifP => hl; first by rewrite !mul1r.
by rewrite !mulN1r ltr_opp2 lt_neqAle eq_sym h leNgt hl.
Qed.
Lemma inv_S a b n m : a != b -> inv (orient a b) (S a b n m).
Proof.
move=> h; apply: inv_iter; [exact: orient_ne0|exact: (iter_ok a b n 0)|].
rewrite /start_ab -ends_sum; apply: inv_start; exact: orient_lt.
Qed.
Lemma gap_neighbours a b T u v : u \in T -> v \in T -> gap (orient a b) T u v ->
  neighbours T u v \/ neighbours T v u.
Proof.
move=> hu hv; rewrite /gap /orient; case: ifP => _ [h g].
  left; rewrite !mul1r in h; split=> // x /g; by rewrite !mul1r.
right; rewrite !mulN1r ltr_opp2 in h; split=> // x /g; by rewrite !mulN1r !ltr_opp2 andbC.
Qed.
Lemma neighbours_gap a b T u v : neighbours T u v ->
  gap (orient a b) T u v \/ gap (orient a b) T v u.
Proof.
move=> [hu hv h g]; rewrite /gap /orient; case: ifP => _.
  left; rewrite !mul1r; split=> // x /g; by rewrite !mul1r.
right; rewrite !mulN1r ltr_opp2; split=> // x /g; by rewrite !mulN1r !ltr_opp2 andbC.
Qed.
Lemma size_S a b n m : size (S a b n m).1.1 = (3 + m)%N.
Proof. by rewrite size_iter. Qed.
Lemma take_S a b n m k : take (3 + m) (S a b n (m + k)).1.1 = (S a b n m).1.1.
Proof. by rewrite -{1}(size_S a b n m) iter_prefix. Qed.

(* the i-th point *)
Lemma point_S a b n m i : (3 <= i < 3 + m)%N ->
  let s := S a b n (i - 3) in
  [/\ take i (S a b n m).1.1 = s.1.1, (S a b n m).1.1`_i = (mids s.1.1 s.1.2)`_(pick s.1.1 s.1.2 s.2) & size s.1.1 = i].
Proof.
move=> /andP [h3 hi] s; have ei : i = (3 + (i - 3))%N by rewrite subnKC.
have [k ek] : exists k, m = ((i - 3) + k.+1)%N.
  exists (m - (i - 3).+1)%N; rewrite addnS -addSn subnKC // -(ltn_add2l 3) -ei //.
have sz : size s.1.1 = i by rewrite /s size_S -ei.
split=> //.
  by have := take_S a b n (i - 3) k.+1; rewrite -ei -ek.
have h := @iter_nth _ (start_ab a b n) (i - 3) k.
move: h; rewrite size_iter [size _]/= -ek -ei hi => -> //.
rewrite -/s; move: sz; case: s => [[T J] W] /= sz.
by rewrite nth_rcons sz ltnn eqxx.
Qed.
Lemma midpoint_S a b n m : a != b -> midpoint_seq (S a b n m).1.1.
Proof.
move=> hab i; rewrite size_S => /(@point_S a b n m i) [-> -> sz].
have hi := inv_S n (i - 3) hab; have ho := iter_ok a b n (i - 3).
move: hi ho sz; case: (S a b n (i - 3)) => [[T J] W] /= [uT uJ hg hall] ho sz.
have hk := pick_lt ho; case: ho => h3 hJ hW hp hw.
set q := nth nz J (pick T J W); have hq : q \in J by rewrite mem_nth.
have /andP [h1 h2] := hp _ hq.
rewrite nth_mids // -/q.
case: (gap_neighbours (mem_nth 0 h1) (mem_nth 0 h2) (hg _ hq)) => hn; first by exists T`_q.1, T`_q.2.
by exists T`_q.2, T`_q.1; split=> //; rewrite addrC.
Qed.
Lemma uniq_S a b n m : a != b -> uniq (S a b n m).1.1.
Proof. by move=> h; have := inv_S n m h; case: (iter _ _ _) => [[T J] W] []. Qed.
Lemma mid_in (lo hi u v : F) : lo <= u <= hi -> lo <= v <= hi -> lo <= (u + v) / 2%:R <= hi.
Proof.
move=> /andP [u1 u2] /andP [v1 v2]; have h2 : (0 : F) < 2%:R by rewrite ltr0n.
have d (x : F) : x * 2%:R = x + x by rewrite mulr_natr mulr2n.
by rewrite ler_pdivl_mulr // ler_pdivr_mulr // !d !ler_add.
Qed.
Lemma range_S a b n m lo hi : lo <= a <= hi -> lo <= b <= hi ->
  forall x, x \in (S a b n m).1.1 -> lo <= x <= hi.
Proof.
move=> ha hb; elim: m => [|m IH] x.
  rewrite /= !inE /ends; case: ifP => _ /= /or3P [] /eqP -> //; exact: mid_in.
rewrite iterS; have ho := iter_ok a b n m; move: IH ho; case: (S a b n m) => [[T J] W] /= IH ho.
have hk := pick_lt ho; case: ho => h3 hJ hW hp hw.
rewrite mem_rcons inE => /orP [/eqP ->|]; last exact: IH.
have /andP [h1 h2] := hp _ (mem_nth nz hk).
by rewrite nth_mids //; apply: mid_in; apply: IH; apply: mem_nth.
Qed.

(* weights all one: the genuine greedy choice *)
Definition ones (s : ast) : Prop := forall w, w \in s.2 -> w = 1.
Lemma ones_step (s : ast) : ok_ast s -> ones s -> ones (astep s).
Proof.
case: s => [[T J] W] ho h1 w /=; have hk := pick_lt ho; case: ho => h3 hJ hW hp hw.
rewrite mem_rcons inE => /orP [/eqP -> //|] /(nthP 0) [j]; rewrite size_set_nth hW (maxn_idPr hk) => hj <-.
rewrite nth_set_nth /=; case: eqP => // _; apply: h1; by rewrite mem_nth // hW.
Qed.
Lemma ones_S a b n m : ones (start_ab a b n) -> ones (S a b n m).
Proof. by move=> h; elim: m => [//|m IH]; rewrite iterS; apply: ones_step => //; apply: iter_ok. Qed.
Lemma greedy_S a b n m : a != b -> ones (start_ab a b n) -> fast_leja_seq (S a b n m).1.1.
Proof.
move=> hab h1 i; rewrite size_S => /(@point_S a b n m i) [-> -> sz] u v huv.
have hi := inv_S n (i - 3) hab; have ho := iter_ok a b n (i - 3); have hw1 := @ones_S a b n (i - 3)%N h1.
move: hi ho sz hw1 huv; case: (S a b n (i - 3)) => [[T J] W] /= [uT uJ hg hall] ho sz hw1 huv.
have hk := pick_lt ho; have hm := pick_max ho; case: (ho) => h3 hJ hW hp hw.
have key p : p \in J -> dist_prod T ((T`_p.1 + T`_p.2) / 2%:R) <= dist_prod T (mids T J)`_(pick T J W).
  move=> /(nthP nz) [j hj <-]; have := hm _ hj.
  have w1 l : (l < size J)%N -> W`_l = 1 by move=> hl; apply: hw1; rewrite mem_nth // hW.
  rewrite (nth_wprods T hW hj) (nth_wprods T hW hk) (w1 _ hj) (w1 _ hk) !mul1r.
  by rewrite (nth_mids T hj).
case: (huv) => hu hv _ _.
case: (neighbours_gap a b huv) => hgp.
  have [p [hpJ -> ->]] := hall _ _ hu hv hgp; exact: key.
have [p [hpJ -> ->]] := hall _ _ hv hu hgp; rewrite addrC; exact: key.
Qed.

(* evaluation of one pick *)
Lemma index_nth_le (s : seq F) k : (k < size s)%N -> (index (nth 0%R s k) s <= k)%N.
Proof. by elim: s k => //= x s IH [|k] /=; rewrite ?eqxx // ltnS => /IH h; case: ifP. Qed.
Lemma pick_eq T J W k : ok_ast (T, J, W) -> (k < size J)%N ->
  (forall j, (j < size J)%N -> (wprods T J W)`_j <= (wprods T J W)`_k) ->
  (forall j, (j < k)%N -> (wprods T J W)`_j < (wprods T J W)`_k) -> pick T J W = k.
Proof.
move=> ho hk hle hlt; have hp := pick_lt ho; have hm := pick_max ho hk.
case: ho => h3 hJ hW _ _.
have e : (wprods T J W)`_(pick T J W) = (wprods T J W)`_k.
  by apply/eqP; rewrite eq_le hm hle.
case: (ltngtP (pick T J W) k) => // hc.
  by have := hlt _ hc; rewrite e ltxx.
have em : (wprods T J W)`_k = max_seq (wprods T J W).
  by rewrite -e /pick nth_index // -index_mem size_wprods.
have : (pick T J W <= k)%N by rewrite /pick -em; apply: index_nth_le; rewrite size_wprods.
by rewrite leqNgt hc.
Qed.
End Fast3.
