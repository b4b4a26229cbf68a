(* PropLejaFast.v : C63, the fast Leja points of an interval (matexp_leja.py:127-197). *)
From mathcomp Require Import all_ssreflect all_algebra.
From mathcomp Require Import ring.
From mathcomp Require Import complex.
From Verif Require Import ModelHist ModelOps ModelLeja ModelLejaPts SpecLeja SpecLejaPts.
From Verif Require Import ProofsLejaFast ProofsLejaFast2 ProofsLejaFast3 ProofsLejaPts2 PropLeja.
Set Implicit Arguments.
Unset Strict Implicit.
Unset Printing Implicit Defensive.
Import Order.TTheory GRing.Theory Num.Theory.
Local Open Scope ring_scope.

Section Fast.
Variable F : realFieldType.
Implicit Types (a b c u v : F).

(* every interval, every n >= 3: n distinct points of the interval; first the end of larger modulus,
   then the other end, then the midpoint; from then on midpoints of neighbours *)
Theorem C63_fast_points a b n : a != b -> (3 <= n)%N ->
  exists pts, [/\ gen_leja_fast a b n = Ok pts, size pts = n, uniq pts,
    take 3 pts = (if `|b| < `|a| then [:: a; b; (a + b) / 2%:R] else [:: b; a; (a + b) / 2%:R]) &
    midpoint_seq pts /\ forall x, x \in pts -> Num.min a b <= x <= Num.max a b].
Proof.
move=> hab n3; exists (iter (n - 3) (@astep F) (start_ab a b n)).1.1; split.
- exact: gen_fast_abs.
- by rewrite size_S subnKC.
- exact: uniq_S.
- have := take_S a b n 0 (n - 3); rewrite add0n addn0 => ->.
  by rewrite /= /ends; case: ifP.
split; first exact: midpoint_S.
apply: range_S; rewrite le_minl le_maxr !lexx ?orbT //.
Qed.
(* fewer than three points cannot be asked for *)
Theorem C63_too_few a b n : (n < 3)%N -> gen_leja_fast a b n = Raise ValueErrorExn.
Proof. by rewrite /gen_leja_fast => ->. Qed.

Lemma ones_22 n : ones (start_ab (- 2%:R) 2%:R n : ast F).
Proof.
have e : ends (- 2%:R : F) 2%:R = (2%:R, - 2%:R) by rewrite /ends normrN ltxx.
have e1 : (2%:R / 2%:R : F) = 1 by rewrite divff // pnatr_eq0.
by move=> w; rewrite /start_ab e /= addNr mul0r add0r addr0 mulNr e1 normrN normr1 expr1n !inE orbb => /eqP.
Qed.
(* on [-2, 2], the interval the integrators use, the points are fast Leja points: each is a best
   midpoint, for every length *)
Theorem C63_fast_leja_default n : (3 <= n)%N ->
  exists pts, gen_leja_fast (- 2%:R : F) 2%:R n = Ok pts /\ fast_leja_seq pts.
Proof.
move=> n3; exists (iter (n - 3) (@astep F) (start_ab (- 2%:R) 2%:R n)).1.1; split; first exact: gen_fast_abs.
apply: greedy_S; last exact: ones_22.
by rewrite eq_sym -subr_eq0 opprK -natrD pnatr_eq0.
Qed.
(* ... and nested: a longer sequence extends a shorter one *)
Theorem C63_nested_default n m : (3 <= n <= m)%N ->
  exists pts, gen_leja_fast (- 2%:R : F) 2%:R m = Ok pts /\ gen_leja_fast (- 2%:R : F) 2%:R n = Ok (take n pts).
Proof.
move=> /andP [n3 nm]; have m3 := leq_trans n3 nm.
exists (iter (m - 3) (@astep F) (start_ab (- 2%:R) 2%:R m)).1.1; split; first exact: gen_fast_abs.
rewrite gen_fast_abs //; congr Ok.
have es : start_ab (- 2%:R) 2%:R n = start_ab (- 2%:R) 2%:R m :> ast F.
  rewrite /start_ab /start; congr (_, _, _).
  have h k := @ones_22 k; rewrite /start_ab /start /ones /= in h.
  have h1 k := h k _ (mem_head _ _); have h2 k := h k _ (mem_last _ _); rewrite /= in h1 h2.
  by rewrite !h1 !h2.
have -> : (m - 3 = (n - 3) + (m - n))%N by rewrite addnC -{1}(subnK nm) addnBA.
by have := @take_S F (- 2%:R) 2%:R m (n - 3) (m - n); rewrite subnKC // => ->; rewrite es.
Qed.
End Fast.

(* the nodes of the integrator interpolate: C23 applies to the points it generates *)
Corollary C63_default_nodes_interpolate (F : rcfType) n (mv : 'cV[F]_n -> 'cV[F]_n) (dt : F) (u : 'cV[F]_n)
    (shift scale : F) (x : seq F) (ex : F -> F) (tol : F) pm i conv n_leja :
  gen_leja_fast (- 2%:R) 2%:R n_leja = Ok x -> linear mv -> scale != 0 ->
  real_leja_expmv mv dt u shift scale x (leja_coeffs_exp_dd ex x shift scale 1) tol = (pm, i, conv) ->
  exists p : {poly F}, [/\ (size p <= i)%N,
    forall j, (j < i)%N -> p.[shift + scale * x`_j] = ex (shift + scale * x`_j) &
    pm = papply (fun v => dt *: mv v) p u].
Proof.
move=> E lin sc0 hr.
case: (ltnP n_leja 3) => h3; first by rewrite C63_too_few in E.
have hab : (- 2%:R : F) != 2%:R by rewrite eq_sym -subr_eq0 opprK -natrD pnatr_eq0.
have [pts [Ep sp up _ _]] := C63_fast_points hab h3.
move: E; rewrite Ep => -[ex']; rewrite -{x}ex' in hr *.
have sp0 : (0 < size pts)%N by rewrite sp (leq_trans _ h3).
have [p [h1 h2 h3' _]] := C23_real_leja_interpolates lin sc0 up sp0 hr.
by exists p.
Qed.

(* ---- other intervals: the initial products run over the whole array, zeros included ---- *)
Section Other.
Variable F : realFieldType.
Implicit Types (a b c u v : F).
Local Notation nz := (0, 0)%N.
Definition q8 (m : int) : F := m%:~R / 8%:R.
Lemma q8_sub m k : q8 m - q8 k = q8 (m - k).
Proof. by rewrite /q8 -mulrBl -rmorphB. Qed.
Lemma q8_norm m : `|q8 m| = `|m|%N%:R / 8%:R.
Proof. by rewrite /q8 normrM normrV ?unitfE ?pnatr_eq0 // normr_nat -intr_norm -abszE. Qed.
Fixpoint iprod (ms : seq int) (c : int) : nat := if ms is m :: ms' then (`|(c - m)%R|%N * iprod ms' c)%N else 1%N.
Lemma q8_dist ms (c : int) : dist_prod [seq q8 m | m <- ms] (q8 c) = (iprod ms c)%:R / 8%:R ^+ size ms.
Proof.
rewrite /dist_prod; elim: ms => [|m ms IH] /=; first by rewrite big_nil expr0 divr1.
by rewrite big_cons IH q8_sub q8_norm natrM exprS invfM mulrACA.
Qed.
Lemma q8_mid m k : (q8 m + q8 k) / 2%:R = (m + k)%:~R / 16%:R.
Proof. by rewrite /q8 -mulrDl -rmorphD /= -mulrA -invfM -natrM. Qed.
Lemma q8_mid2 m k l : m + k = l + l -> (q8 m + q8 k) / 2%:R = q8 l.
Proof.
by move=> e; rewrite q8_mid e rmorphD /= /q8; field.
Qed.
Definition w1 (n : nat) : F := (2%:R^-1) ^+ (n - 3).
Definition S1 n : ast F := ([seq q8 m | m <- ([:: 8%:Z; - 8%:Z; 0; - 4%:Z] : seq int)], [:: (1, 3); (2, 0); (3, 2)]%N, [:: 1; w1 n; 1]).
Lemma start_unit n : start_ab (-1) 1 n = ([seq q8 m | m <- ([:: 8%:Z; - 8%:Z; 0] : seq int)], [:: (1, 2); (2, 0)]%N, [:: w1 n; w1 n]) :> ast F.
Proof.
have e : ends (-1 : F) 1 = (1, -1) by rewrite /ends normrN ltxx.
rewrite /start_ab e /start /= addNr mul0r add0r addr0 mulNr mul1r normrN ger0_norm ?invr_ge0 ?ler0n //.
congr (_, _, _); rewrite /q8; congr [:: _; _; _]; last by rewrite mul0r.
- by rewrite divff // pnatr_eq0.
- by rewrite rmorphN mulNr divff // pnatr_eq0.
Qed.

Lemma wp_q8 ms J W j l : size W = size J -> (j < size J)%N ->
  nth 0 ms (nth nz J j).1 + nth 0 ms (nth nz J j).2 = l + l -> ((nth nz J j).1 < size ms)%N && ((nth nz J j).2 < size ms)%N ->
  (mids [seq q8 m | m <- ms] J)`_j = q8 l /\
  (wprods [seq q8 m | m <- ms] J W)`_j = W`_j * ((iprod ms l)%:R / 8%:R ^+ size ms).
Proof.
move=> hW hj e /andP [h1 h2]; rewrite nth_wprods //.
have -> : (mids [seq q8 m | m <- ms] J)`_j = q8 l.
  by rewrite nth_mids // !(nth_map 0) //; apply: q8_mid2.
by split=> //; rewrite -q8_dist.
Qed.
Lemma unit_step1 n : astep (start_ab (-1) 1 n) = S1 n.
Proof.
have ho : ok_ast (start_ab (-1 : F) 1 n) := iter_ok (-1 : F) 1 n 0; rewrite start_unit in ho *.
set ms := [:: 8%:Z; - 8%:Z; 0] in ho *; set J := [:: (1, 2); (2, 0)]%N in ho *.
have [m0 w0] := @wp_q8 ms J [:: w1 n; w1 n] 0 (- 4%:Z) erefl isT erefl isT.
have [m1 w1'] := @wp_q8 ms J [:: w1 n; w1 n] 1 (4%:Z) erefl isT erefl isT.
have ep : pick [seq q8 m | m <- ms] J [:: w1 n; w1 n] = 0%N.
  apply: (pick_eq ho) => // -[|[|]] // _; by rewrite w0 ?w1' lexx.
by rewrite /astep ep m0 /S1.
Qed.
Lemma w1_small n : (6 <= n)%N -> w1 n * 8%:R <= 1.
Proof.
move=> h; rewrite /w1 (_ : (n - 3 = (n - 6) + 3)%N); last by rewrite -{1}(subnK h) -addnBA.
rewrite exprD -mulrA (_ : 2%:R^-1 ^+ 3 * 8%:R = 1 :> F); last first.
  by rewrite exprVn -natrX mulVf // pnatr_eq0.
by rewrite mulr1 exprn_ile1 // ?invr_ge0 ?ler0n // invf_le1 ?ltr0n // ler1n.
Qed.
Lemma w1_ge0 n : 0 <= w1 n. Proof. by rewrite exprn_ge0 // invr_ge0 ler0n. Qed.
Lemma ok_S1 n : ok_ast (S1 n).
Proof. by rewrite -unit_step1; apply: (iter_ok (-1 : F) 1 n 1). Qed.
Lemma p84 : 0 < (8%:R ^+ 4)^-1 :> F. Proof. by rewrite invr_gt0 exprn_gt0 // ltr0n. Qed.
Lemma unit_step2 n : (6 <= n)%N -> (astep (S1 n)).1.1 = [seq q8 m | m <- [:: 8%:Z; - 8%:Z; 0; - 4%:Z; - 6%:Z]].
Proof.
move=> hn; have ho := ok_S1 n; rewrite /S1 in ho *.
set ms := [:: 8%:Z; - 8%:Z; 0; - 4%:Z] in ho *; set J := [:: (1, 3); (2, 0); (3, 2)]%N in ho *; set W := [:: 1; w1 n; 1] in ho *.
have [m0 e0] := @wp_q8 ms J W 0 (- 6%:Z) erefl isT erefl isT.
have [m1 e1] := @wp_q8 ms J W 1 (4%:Z) erefl isT erefl isT.
have [m2 e2] := @wp_q8 ms J W 2 (- 2%:Z) erefl isT erefl isT.
have hw := w1_small hn; have hw0 := w1_ge0 n.
have ep : pick [seq q8 m | m <- ms] J W = 0%N.
  apply: (pick_eq ho) => // -[|[|[|]]] // _; rewrite e0 // ?e1 ?e2.
  + rewrite mul1r mulrA ler_pmul2r ?p84 // (_ : iprod ms 4%:Z = (8 * 192)%N) // (_ : iprod ms (- 6%:Z) = 336%N) //.
    rewrite natrM mulrA; apply: (@le_trans _ _ 192%:R); last by rewrite ler_nat.
    by rewrite -[leRHS]mul1r ler_wpmul2r // ler0n.
  + by rewrite !mul1r ler_pmul2r ?p84 // ler_nat.
by rewrite /astep ep m0.
Qed.

Lemma q8_half : q8 4%:Z = 1 / 2%:R. Proof. by rewrite /q8; field. Qed.
Lemma q8_1 : q8 8%:Z = 1. Proof. by rewrite /q8 divff // pnatr_eq0. Qed.
Lemma q8_0 : q8 0 = 0. Proof. by rewrite /q8 mul0r. Qed.
Lemma q8_lt m k : (q8 m < q8 k) = (m < k).
Proof. by rewrite /q8 ltr_pmul2r ?invr_gt0 ?ltr0n // ltr_int. Qed.
Lemma unit_take5 n : (6 <= n)%N -> exists pts, gen_leja_fast (-1 : F) 1 n = Ok pts /\
  take 5 pts = [seq q8 m | m <- [:: 8%:Z; - 8%:Z; 0; - 4%:Z; - 6%:Z]].
Proof.
move=> hn; have n3 : (3 <= n)%N by apply: leq_trans hn.
exists (iter (n - 3) (@astep F) (start_ab (-1) 1 n)).1.1; split; first exact: gen_fast_abs.
have := take_S (-1 : F) 1 n 2 (n - 5).
rewrite (_ : (2 + (n - 5) = n - 3)%N); last by case: n hn {n3} => [|[|[|[|[|n]]]]] // _; rewrite !subSS !subn0.
by move=> ->; rewrite !iterS [iter 0 _ _]/iter unit_step1 unit_step2.
Qed.
(* on [-1, 1] the points are not fast Leja points, for any n >= 6: the fifth point is -3/4 although the
   midpoint 1/2 of the neighbours 0 and 1 has a larger product of distances *)
Theorem C63_unit_interval_refuted n : (6 <= n)%N ->
  exists pts, [/\ gen_leja_fast (-1 : F) 1 n = Ok pts, pts`_4 = - (3%:R / 4%:R),
    neighbours (take 4 pts) 0 1,
    dist_prod (take 4 pts) pts`_4 < dist_prod (take 4 pts) ((0 + 1) / 2%:R) & ~ fast_leja_seq pts].
Proof.
move=> hn; have [pts [Ep t5]] := unit_take5 hn; exists pts.
have t4 : take 4 pts = [seq q8 m | m <- [:: 8%:Z; - 8%:Z; 0; - 4%:Z]].
  by rewrite -(@take_take _ 4 5 isT) t5.
have p4 : pts`_4 = q8 (- 6%:Z) by rewrite -(@nth_take 5) // t5.
have hn4 : neighbours (take 4 pts) 0 1.
  rewrite t4 -q8_0 -q8_1; split; rewrite /= ?inE ?eqxx ?orbT //; first by rewrite q8_lt.
  by move=> x; rewrite !inE => /or4P [] /eqP ->; rewrite !q8_lt.
have hlt : dist_prod (take 4 pts) pts`_4 < dist_prod (take 4 pts) ((0 + 1) / 2%:R).
  by rewrite add0r -q8_half p4 t4 !q8_dist ltr_pmul2r ?p84 // ltr_nat.
split=> //; first by rewrite p4 /q8; field.
move=> hf; have sp : (4 < size pts)%N.
  have : size (take 5 pts) = 5%N by rewrite t5.
  by rewrite size_take; case: ltnP => [h _|h ->] //; apply: ltn_trans h.
by have := hf 4%N sp 0 1 hn4; rewrite leNgt hlt.
Qed.
(* and asking for more points changes the earlier ones: the fifth of five points is 1/2 *)
Theorem C63_unit_not_nested_refuted : exists pts, gen_leja_fast (-1 : F) 1 5 = Ok pts /\ pts`_4 = 1 / 2%:R.
Proof.
exists (iter (5 - 3) (@astep F) (start_ab (-1) 1 5)).1.1; split; first exact: gen_fast_abs.
rewrite [(5 - 3)%N]/= !iterS [iter 0 _ _]/iter unit_step1.
have ho := ok_S1 5; rewrite /S1 in ho *.
set ms := [:: 8%:Z; - 8%:Z; 0; - 4%:Z] in ho *; set J := [:: (1, 3); (2, 0); (3, 2)]%N in ho *; set W := [:: 1; w1 5; 1] in ho *.
have [m0 e0] := @wp_q8 ms J W 0 (- 6%:Z) erefl isT erefl isT.
have [m1 e1] := @wp_q8 ms J W 1 (4%:Z) erefl isT erefl isT.
have [m2 e2] := @wp_q8 ms J W 2 (- 2%:Z) erefl isT erefl isT.
have e1' : (wprods [seq q8 m | m <- ms] J W)`_1 = 384%:R / 8%:R ^+ 4.
  by rewrite e1 [W`_1]/= /w1 mulrA (_ : iprod ms 4%:Z = (4 * 384)%N) // natrM mulrA [(5 - 3)%N]/= exprVn -natrX mulVf ?mul1r // pnatr_eq0.
have ep : pick [seq q8 m | m <- ms] J W = 1%N.
  apply: (pick_eq ho) => // -[|[|[|]]] // _; rewrite e1' // ?e0 ?e2 // mul1r.
  + by rewrite ler_pmul2r ?p84 // ler_nat.
  + by rewrite ler_pmul2r ?p84 // ler_nat.
  + by rewrite ltr_pmul2r ?p84 // ltr_nat.
by rewrite /astep ep m1 -q8_half.
Qed.

(* on [-c, 3c] no point ever falls into the left half (-c, c), whatever n *)
Definition stuck c (s : ast F) : Prop :=
  let: (T, J, W) := s in
  [/\ T`_1 = - c, T`_2 = c, nth nz J 0 = (1, 2)%N, W`_0 = 0 & forall j, (0 < j < size W)%N -> 0 < W`_j].
Lemma dist_gt0 (T : seq F) x : x \notin T -> 0 < \prod_(a <- T) `|x - a|.
Proof.
elim: T => [|a T IH]; first by rewrite big_nil ltr01.
by rewrite inE negb_or big_cons => /andP [h /IH h']; rewrite mulr_gt0 // normr_gt0 subr_eq0.
Qed.
Lemma stuck_step sg c s : inv sg s -> ok_ast s -> stuck c s -> stuck c (astep s).
Proof.
case: s => [[T J] W] [uT uJ hg hall] ho [t1 t2 j0 w0 wp]; have hk := pick_lt ho; have hm := pick_max ho.
case: ho => h3 hJ hW hp hw.
have J2 : (1 < size J)%N by rewrite hJ; case: (size T) h3 => [|[|[|]]].
have kn0 : pick T J W != 0%N.
  apply/negP => /eqP ek; have := hm 1%N J2; rewrite ek !nth_wprods // ?(ltn_trans _ J2) // w0 mul0r leNgt.
  rewrite mulr_gt0 ?wp ?hW //; apply: dist_gt0.
  have hq : nth nz J 1 \in J by rewrite mem_nth.
  have [g1 g2] := hg _ hq; have [b1 b2] := mid_between g1.
  by rewrite nth_mids //; apply/negP => /g2; rewrite b1 b2.
rewrite /astep; set k := pick T J W in hk hm kn0 *.
have t1' : (rcons T (mids T J)`_k)`_1 = T`_1 by rewrite nth_rcons (leq_trans _ h3).
have t2' : (rcons T (mids T J)`_k)`_2 = T`_2 by rewrite nth_rcons h3.
split=> //; rewrite ?t1' ?t2' //.
- by rewrite nth_rcons size_set_nth (maxn_idPr hk) (ltn_trans _ J2) // nth_set_nth /= eq_sym (negbTE kn0).
- by rewrite nth_rcons size_set_nth hW (maxn_idPr hk) (ltn_trans _ J2) // nth_set_nth /= eq_sym (negbTE kn0).
move=> j /andP [j0' hj]; rewrite nth_rcons; case: ifP => hjs.
  rewrite nth_set_nth /=; case: eqP => _; first exact: ltr01.
  apply: wp; rewrite j0' /=.
  by move: hjs; rewrite size_set_nth hW (maxn_idPr hk).
by case: ifP => h; rewrite ?ltr01 //; move: hj; rewrite size_rcons ltnS leq_eqVlt h hjs.
Qed.
Theorem C63_gap_never_filled_refuted c n : 0 < c -> (3 <= n)%N ->
  exists pts, gen_leja_fast (- c) (3%:R * c) n = Ok pts /\ forall x, x \in pts -> ~~ ((- c < x) && (x < c)).
Proof.
move=> c0 n3; exists (iter (n - 3) (@astep F) (start_ab (- c) (3%:R * c) n)).1.1; split; first exact: gen_fast_abs.
have c3 : c < 3%:R * c by rewrite ltr_pmull // ltr1n.
have hab : - c != 3%:R * c by rewrite lt_eqF // (lt_trans _ c3) // gtr_opp.
have hends : ends (- c) (3%:R * c) = (3%:R * c, - c).
  by rewrite /ends normrN (ger0_norm (ltW c0)) (ger0_norm (ltW (lt_trans c0 c3))) ltNge (ltW c3).
have emid : (- c + 3%:R * c) / 2%:R = c by field.
have horient : orient (- c) (3%:R * c) = 1.
  by rewrite /orient hends /= (lt_trans _ c3) // gtr_opp.
case: (ltngtP n 3) => [|n4|en]; first by rewrite ltnNge n3.
- have hst m : stuck c (iter m (@astep F) (start_ab (- c) (3%:R * c) n)).
    elim: m => [|m IH].
      rewrite /start_ab hends emid /=; split=> //.
        by rewrite addNr mul0r normr0 expr0n subn_eq0 leqNgt n4.
      case=> [|[|]] // _ /=; apply: exprn_gt0; rewrite normr_gt0; apply: mulf_neq0.
        by rewrite gt_eqF // addr_gt0 // (lt_trans c0).
      by rewrite invr_eq0 pnatr_eq0.
    rewrite iterS; apply: stuck_step IH; [exact: (inv_S n m hab)|exact: iter_ok].
  have := hst (n - 3)%N; have := inv_S n (n - 3) hab; have := iter_ok (- c) (3%:R * c) n (n - 3).
  case: (iter _ _ _) => [[T J] W] [h3 hJ hW hp hw] [uT uJ hg _] [t1 t2 j0 _ _] x /= hx.
  have : (1, 2)%N \in J.
    by rewrite -j0 mem_nth // hJ; case: (size T) h3 => [|[|[|]]].
  move=> /hg [_ g]; have := g _ hx; by rewrite /= t1 t2 horient !mul1r.
- rewrite en /= hends emid => x; rewrite !inE => /or3P [] /eqP -> /=.
  + by rewrite (lt_gtF c3) andbF.
  + by rewrite ltxx.
  + by rewrite ltxx andbF.
Qed.
End Other.

(* ---- gen_complex_conj_leja_fast ---- *)
Section Conj.
Variable F : rcfType.
Local Notation C := F[i].
Lemma every2_nth (s : seq F) k : (every2 s)`_k = s`_k.*2.
Proof.
elim: k s => [|k IH] [|x [|y s]] //=; rewrite ?nth_nil //.
Qed.
Lemma size_every2 (s : seq F) : size (every2 s) = uphalf (size s).
Proof.
have [m] := ubnP (size s); elim: m s => // m IH [|x [|y s]] //= hs.
by rewrite IH //; apply: ltnW.
Qed.
(* n - 1 points (one fewer than asked for), all on the imaginary axis within the bound, the first at
   0 and the others in conjugate pairs *)
Theorem C63_conj_points (beta : F) n : beta != 0 -> (4 <= n)%N ->
  exists pts : seq C, [/\ gen_complex_conj_leja_fast beta n = Ok pts, size pts = n.-1, pts`_0 = 0,
    conj_nodes pts 1 & forall z, z \in pts -> complex.Re z = 0 /\ `|complex.Im z| <= `|beta|].
Proof.
move=> b0 n4; have hab : - beta != beta.
  by rewrite eq_sym -subr_eq0 opprK -mulr2n mulrn_eq0.
have n3 : (3 <= n * 2)%N by apply: (@leq_trans n); [exact: ltnW|rewrite muln2 -addnn leq_addr].
have [x [Ex sx ux tx [_ rx]]] := C63_fast_points hab n3.
rewrite /gen_complex_conj_leja_fast Ex; cbn [rbind].
set ps := flatten _.
have eps : ps = pairs [seq Complex 0 y | y <- every2 x].
  by rewrite /ps /pairs -map_comp; congr flatten; apply: eq_map => y; rewrite /= /pairc /= .
have sz : size ps = (n * 2)%N.
  by rewrite eps size_pairs size_map size_every2 sx muln2 uphalf_double.
have st : size (take n ps) = n by rewrite size_takel // sz muln2 -addnn leq_addr.
have nps k : (k < n)%N -> (take n ps)`_k = ps`_k by move=> h; rewrite nth_take.
have ev k : ps`_k.*2 = Complex 0 x`_k.*2 :> C /\ ps`_(k.*2).+1 = conjc (ps`_k.*2).
  have [e1 e2] := nth_pairs [seq Complex 0 y | y <- every2 x] k.
  rewrite eps e2 e1; split=> //.
  case: (ltnP k (size (every2 x))) => hk; first by rewrite (nth_map 0) // every2_nth.
  rewrite nth_default ?size_map // -every2_nth nth_default //.
have memps z : z \in take n ps -> complex.Re z = 0 /\ `|complex.Im z| <= `|beta|.
  move=> /mem_take; rewrite eps => /mem_pairs [w /mapP [y hy ->] hz].
  have hyx : y \in x.
    by move: hy => /(nthP 0) [k hk <-]; rewrite every2_nth mem_nth //; move: hk; rewrite size_every2 sx muln2 uphalf_double ltn_double.
  have hb : `|y| <= `|beta|.
    have := rx _ hyx; rewrite le_minl le_maxr ler_norml => /andP [l1 l2].
    have n1 := ler_norm beta; have n2 := ler_norm (- beta); rewrite normrN in n2.
    have n3' : - `|beta| <= beta by rewrite ler_oppl.
    have n4' : - `|beta| <= - beta by rewrite ler_opp2.
    apply/andP; split.
      by case/orP: l1 => l1; [exact: le_trans n4' l1|exact: le_trans n3' l1].
    by case/orP: l2 => l2; [exact: le_trans l2 n2|exact: le_trans l2 n1].
  by case: hz => -> /=; rewrite ?normrN.
move: st nps memps; case et : (take n ps) => [|z0 [|z1 [|z2 [|z3 r]]]] /=; try by move=> st; rewrite -st in n4.
move=> st nps memps.
have x2 : x`_2 = 0.
  have := congr1 (fun s => s`_2) tx; rewrite nth_take // => ->.
  by rewrite normrN ltxx /= addNr mul0r.
have e2 : z2 = 0.
  have -> : z2 = ps`_2 by rewrite -(nps 2%N) // (ltn_trans _ n4).
  by have [-> _] := ev 1%N; rewrite [1.*2]/= x2.
have e0 : z0 = ps`_0 by rewrite -(nps 0%N) // (ltn_trans _ n4).
have e1 : z1 = ps`_1 by rewrite -(nps 1%N) // (ltn_trans _ n4).
exists [:: z2, z0, z1 & r]; split=> //.
- by rewrite drop0.
- by rewrite -st.
- split; first by case=> // _; rewrite e2.
  case=> [_|k].
    by rewrite /= e0 e1; have [_] := ev 0%N.
  rewrite /= => hk.
  have h1 : (k.*2.+1.+4 < n)%N by rewrite -st.
  have h2 : (k.*2.+4 < n)%N by apply: ltnW.
  have := nps _ h1; have := nps _ h2; rewrite /= => -> ->.
  by have [_] := ev k.+2.
- move=> z; rewrite !inE => hz; apply: memps; rewrite !inE.
  by case/or4P: hz => ->; rewrite ?orbT.
Qed.
End Conj.
(* concrete cases: five points of [-2, 2] meet every hypothesis above *)
Example C63_ex (F : realFieldType) : exists pts, [/\ gen_leja_fast (- 2%:R : F) 2%:R 5 = Ok pts,
  size pts = 5%N, take 3 pts = [:: 2%:R; - 2%:R; 0], uniq pts & fast_leja_seq pts].
Proof.
have hab : (- 2%:R : F) != 2%:R by rewrite eq_sym -subr_eq0 opprK -natrD pnatr_eq0.
have [p [e s u t _]] := @C63_fast_points F _ _ 5 hab isT.
have [q []] := @C63_fast_leja_default F 5 isT; rewrite e => -[<-] g.
by exists p; split=> //; rewrite t normrN ltxx addNr mul0r.
Qed.
Print Assumptions C63_fast_points.
Print Assumptions C63_fast_leja_default.
Print Assumptions C63_nested_default.
Print Assumptions C63_default_nodes_interpolate.
Print Assumptions C63_unit_interval_refuted.
Print Assumptions C63_gap_never_filled_refuted.
Print Assumptions C63_conj_points.
