(* ProofsLejaPts3.v : gen_leja_conjugate (matexp_leja.py:45-94), the three cases. *)
From mathcomp Require Import all_ssreflect all_algebra.
From mathcomp Require Import ring.
From mathcomp Require Import complex.
From Verif Require Import ModelHist MxBase ModelLeja SpecLeja ProofsLejaPts ProofsLejaPts2.
Set Implicit Arguments.
Unset Strict Implicit.
Unset Printing Implicit Defensive.
Import Order.TTheory GRing.Theory Num.Theory.
Local Open Scope ring_scope.

Section Pts3.
Variable F : rcfType.
Local Notation C := F[i].
Implicit Types (z s : C) (k : nat) (T : seq C).

Lemma unit_Re_le z : unitc z -> -1 <= complex.Re z <= 1.
Proof.
move=> /unitcP h; rewrite -ler_norml -(@expr_le1 _ 2%N) // -normrX.
by rewrite ger0_norm ?sqr_ge0 // -h ler_addl sqr_ge0.
Qed.
Lemma unit_Im_le z : unitc z -> -1 <= complex.Im z <= 1.
Proof.
move=> /unitcP h; rewrite -ler_norml -(@expr_le1 _ 2%N) // -normrX.
by rewrite ger0_norm ?sqr_ge0 // -h ler_addr sqr_ge0.
Qed.

(* ---- ellipse ---- *)
Definition ell (h1 h2 : F) z : C := Complex (h1 * complex.Re z) (h2 * complex.Im z).
Lemma ell_inj h1 h2 : h1 != 0 -> h2 != 0 -> injective (ell h1 h2).
Proof.
move=> n1 n2 [a b] [a' b'] /= [/(mulfI n1) -> /(mulfI n2) ->] //.
Qed.
Lemma Zall_nth K k : (Zall F K)`_(2 + k.*2).+1 = conjc (Zall F K)`_(2 + k.*2).
Proof. by rewrite add2n /=; have [-> ->] := nth_pairs (Tall F K) k. Qed.
Lemma ell_nodes h1 h2 n : (2 <= n)%N -> conj_nodes [seq ell h1 h2 z | z <- gen_leja_circle F n true] 2.
Proof.
move=> n2; have sz : size [seq ell h1 h2 z | z <- gen_leja_circle F n true] = n by rewrite size_map size_circle.
have [K e] := K2 n.
split=> [j hj|k]; last first.
  rewrite sz => hk; rewrite !(nth_map 0) ?size_circle ?(ltnW hk) // (circleE F e) !nth_take ?(ltnW hk) //.
  by rewrite Zall_nth /ell; case: (_`_ _) => a b /=; rewrite mulrN.
rewrite (nth_map 0) ?size_circle ?(leq_trans hj) // (circleE F e) nth_take ?(leq_trans hj) //.
by case: j hj => [|[|//]] _ /=; rewrite ?oppr0 mulr0.
Qed.

(* ---- real ---- *)
Lemma map_Re_uniq T : uniq T -> (forall z, z \in T -> unitc z) ->
  (forall z y, z \in T -> y \in T -> z = conjc y -> z = y) -> uniq [seq complex.Re z | z <- T].
Proof.
move=> uT hu hc; rewrite map_inj_in_uniq // => z y hz hy e.
by case: (unit_Re (hu _ hz) (hu _ hy) e) => // h; apply: hc.
Qed.
Lemma map_Im_uniq T : uniq T -> (forall z, z \in T -> unitc z) ->
  (forall z y, z \in T -> y \in T -> z = - conjc y -> z = y) -> uniq [seq complex.Im z | z <- T].
Proof.
move=> uT hu hc; rewrite map_inj_in_uniq // => z y hz hy e.
by case: (unit_Im (hu _ hz) (hu _ hy) e) => // h; apply: hc.
Qed.
Lemma unitc1 : unitc (1 : C). Proof. by rewrite /unitc rmorph1 mulr1. Qed.
Lemma unitcN1 : unitc (-1 : C). Proof. by rewrite /unitc rmorphN rmorph1 mulrNN mulr1. Qed.
Lemma unitci : unitc ('i%C : C). Proof. by rewrite /unitc conji mulrN -expr2 iN1 opprK. Qed.
Lemma conjNc z : conjc (- z) = - conjc z.
Proof. by case: z. Qed.
Lemma unitcNi : unitc (- 'i%C : C). Proof. by rewrite /unitc conjNc mulrNN; apply: unitci. Qed.

Definition Treal n : seq C := [:: 1; -1] ++ take n.-2 (Tall F (maxn 2 (bit_length (2 * n.-1).-1))).
Lemma Treal_unit n z : z \in Treal n -> unitc z.
Proof.
rewrite mem_cat !inE => /orP [/orP [] /eqP ->|/mem_take /Tall_pow [k /key_unit]] //.
  exact: unitc1.
exact: unitcN1.
Qed.
Lemma size_T n : (2 <= n)%N -> (n.-2 <= size (Tall F (maxn 2 (bit_length (2 * n.-1).-1))))%N.
Proof.
move=> n2; have [K e] := K2 (2 * n.-1); rewrite e; have := Tall_size_ge F e.
by case: n n2 {e} => [|[|n]] // _; rewrite mul2n doubleS !ltnS leq_double.
Qed.
Lemma size_Treal n : (2 <= n)%N -> size (Treal n) = n.
Proof.
by move=> n2; rewrite size_cat size_takel ?size_T //; case: n n2 => [|[|]].
Qed.
Lemma Treal_Re_uniq n : uniq [seq complex.Re z | z <- Treal n].
Proof.
set K := maxn 2 (bit_length (2 * n.-1).-1).
have sub z : z \in Treal n -> z = 1 \/ z = -1 \/ z \in Tall F K.
  rewrite mem_cat !inE => /orP [/orP [] /eqP ->|/mem_take] //; first by left.
    by right; left.
  by right; right.
apply: map_Re_uniq.
- rewrite /Treal cat_uniq take_uniq ?Tall_uniq // andbT /= inE eq_sym neqN1 /=.
  apply/hasPn => z /mem_take /Tall_pow [k /key_pm1 [h1 h2]].
  by rewrite !inE h1 h2.
- by move=> z; apply: Treal_unit.
- have c1 : conjc (1 : C) = 1 by rewrite rmorph1.
  have c2 : conjc (-1 : C) = -1 by rewrite rmorphN rmorph1.
  move=> z y hz /sub [->|[->|/Tall_pow [k hk]]]; rewrite ?c1 ?c2 // => e.
  move: (sub _ hz) => [e1|[e1|/Tall_pow [k' hk']]].
  + by rewrite -(conjcK y) -e e1 c1.
  + by rewrite -(conjcK y) -e e1 c2.
  + by move: hk'; rewrite e => /(key_conj hk).
Qed.

(* ---- imaginary ---- *)
Definition Timag n : seq C := [:: 1; 'i%C; - 'i%C] ++ take (n - 3) (behead (Tall F (maxn 2 (bit_length (2 * n.-1).-1)))).
Lemma size_Timag n : (3 <= n)%N -> size (Timag n) = n.
Proof.
move=> n3; rewrite size_cat size_takel; first by rewrite /= addnC subnK.
rewrite size_behead; have := size_T (ltnW n3).
by case: n n3 => [|[|[|n]]] //= _; case: (size _) => // m; rewrite ltnS subSS subSS subSS subn0.
Qed.
Lemma key_pmi z k : z ^+ (2 ^ k.+1) = 'i%C -> (z == 'i%C) = false /\ (z == - 'i%C) = false.
Proof.
have b (a : C) : a ^+ 2 = -1 -> a ^+ (2 ^ k.+1) = 'i%C -> False.
  move=> a2 h; have : (a ^+ (2 ^ k.+1)) ^+ 2 = -1 by rewrite h iN1.
  by rewrite expnS exprM a2 -exprM mulnC exprM sqrrN expr1n expr1n => /eqP; rewrite eq_sym neqN1.
move=> h; split; apply/negbTE/eqP => e; apply: (b z) => //; rewrite e ?Ni2 ?iN1 //.
Qed.
Lemma Timag_mem n z : z \in Timag n -> [\/ z = 1, z = 'i%C, z = - 'i%C | exists k, z ^+ (2 ^ k.+1) = 'i%C].
Proof.
have [K e] := K2 (2 * n.-1).
rewrite mem_cat !inE -!orbA => /or4P [/eqP ->|/eqP ->|/eqP ->|].
- by constructor 1.
- by constructor 2.
- by constructor 3.
- by rewrite e => /mem_take /Tall_tail_pow h; constructor 4.
Qed.
Lemma Timag_unit n z : z \in Timag n -> unitc z.
Proof.
move=> /Timag_mem [->|->|->|[k /key_unit]] //; [exact: unitc1|exact: unitci|exact: unitcNi].
Qed.
Lemma Timag_Im_uniq n : uniq [seq complex.Im z | z <- Timag n].
Proof.
have [K e] := K2 (2 * n.-1).
have nNi : (1 == 'i%C :> C) = false.
  by apply/negbTE/eqP => h; have := @iN1 F; rewrite -h expr1n => /eqP; rewrite eq_sym neqN1.
have nNi2 : (1 == - 'i%C :> C) = false.
  by apply/negbTE/eqP => h; have := @Ni2 F; rewrite -h expr1n => /eqP; rewrite eq_sym neqN1.
have c1 : - conjc (1 : C) = -1 by rewrite rmorph1.
have c2 : - conjc ('i%C : C) = 'i%C by rewrite conji opprK.
have c3 : - conjc (- 'i%C : C) = - 'i%C by rewrite conjNc conji opprK.
have nck (z : C) : - conjc (- conjc z) = z by rewrite conjNc conjcK opprK.
have inv (z y : C) : z = - conjc y -> y = - conjc z by move=> ->; rewrite nck.
apply: map_Im_uniq.
- rewrite /Timag e cat_uniq take_uniq ?andbT; last by have := Tall_uniq F K.+2; case: (Tall _ _) => //= a T /andP [].
  rewrite /= !inE nNi nNi2 eq_sym neqNi /=; apply/hasPn => z /mem_take /Tall_tail_pow [k hk].
  by rewrite !inE; have [-> ->] := key_pmi hk; have [-> _] := key_pm1 hk.
- by move=> z; apply: Timag_unit.
- move=> z y /Timag_mem [->|->|->|[k hk]] /Timag_mem [->|->|->|[k' hk']] //.
  + by rewrite c2.
  + by rewrite c3.
  + by move=> /inv; rewrite c1 => h; have [_] := key_pm1 hk'; rewrite h eqxx.
  + by rewrite c1 => h; have := @iN1 F; rewrite h sqrrN expr1n => /eqP; rewrite eq_sym neqN1.
  + by rewrite c3.
  + by move=> /inv; rewrite c2 => ->.
  + by rewrite c1 => h; have := @Ni2 F; rewrite h sqrrN expr1n => /eqP; rewrite eq_sym neqN1.
  + by rewrite c2.
  + by move=> /inv; rewrite c3 => ->.
  + by rewrite c1 => h; have [_] := key_pm1 hk; rewrite h eqxx.
  + by rewrite c2 => h; have [] := key_pmi hk; rewrite h eqxx.
  + by rewrite c3 => h; have [_] := key_pmi hk; rewrite h eqxx.
  + by move=> h; move: hk; rewrite h => /(key_nconj hk').
Qed.
Lemma Timag_opp n k : (3 <= n)%N -> ((1 + k.*2).+1 < n)%N ->
  complex.Im (Timag n)`_(1 + k.*2).+1 = - complex.Im (Timag n)`_(1 + k.*2).
Proof.
move=> n3; have [K e] := K2 (2 * n.-1); have [T eT] := Tall_opairs F K.
rewrite /Timag e eT /=; case: k => [|k] h; first by simpc.
have h2 : (k.*2.+1 < n - 3)%N by rewrite ltn_subRL; move: h; rewrite add1n doubleS.
rewrite doubleS /= !nth_take ?(ltnW h2) // nth_opairs.
by case: (_`_ _) => a b.
Qed.

(* ---- membership ---- *)
Lemma sq_le1 (r s : F) : r ^+ 2 + s ^+ 2 <= 1 -> (-1 <= r <= 1) /\ (-1 <= s <= 1).
Proof.
have b (u v : F) : u ^+ 2 + v ^+ 2 <= 1 -> -1 <= u <= 1.
  move=> h; rewrite -ler_norml -(@expr_le1 _ 2%N) // -normrX ger0_norm ?sqr_ge0 //.
  by apply: le_trans h; rewrite ler_addl sqr_ge0.
by move=> h; split; [apply: (b _ s)|apply: (b _ r); rewrite addrC].
Qed.
Lemma in_ellipseP (a b c r s : F) (sc := ((b - a) / 2%:R + c) / 2%:R) : a <= b -> 0 <= c -> sc != 0 ->
  r ^+ 2 + s ^+ 2 <= 1 ->
  in_ellipse a b c (((a + b) / 2%:R)%:C%C + sc%:C%C * Complex ((b - a) / 2%:R / sc * r) (c / sc * s)).
Proof.
move=> ab c0 sc0 hrs; have [/andP [r1 r2] /andP [s1 s2]] := sq_le1 hrs.
have n2 : (2%:R : F) != 0 by rewrite pnatr_eq0.
set h := (b - a) / 2%:R in sc sc0 *; set m := (a + b) / 2%:R.
have h0 : 0 <= h by rewrite divr_ge0 ?subr_ge0 ?ler0n.
have -> : m%:C%C + sc%:C%C * Complex (h / sc * r) (c / sc * s) = Complex (m + h * r) (c * s).
  apply/eqP; rewrite eq_complex /= !mul0r subr0 addr0 add0r.
  have e (u v : F) : sc * (u / sc * v) = u * v by rewrite mulrA (mulrC sc) divfK.
  by rewrite !e !eqxx.
have eb : m + h = b by rewrite /m /h; field.
have ea : m - h = a by rewrite /m /h; field.
split=> /=.
- rewrite -{1}ea -eb ler_add2l ler_add2l -mulrN1 ler_wpmul2l //=.
  by rewrite -[X in _ <= X]mulr1 ler_wpmul2l.
- by rewrite -mulrN1 ler_wpmul2l //= -[X in _ <= X]mulr1 ler_wpmul2l.
- rewrite -/m -/h (_ : m + h * r - m = h * r); last by ring.
  have -> : (c * (h * r)) ^+ 2 + (h * (c * s)) ^+ 2 = (h * c) ^+ 2 * (r ^+ 2 + s ^+ 2) by ring.
  by rewrite -[X in _ <= X]mulr1 ler_wpmul2l // sqr_ge0.
Qed.

Lemma circ_tol_pos : 0 < circ_tol F. Proof. by rewrite /circ_tol invr_gt0 exprn_gt0 // ltr0n. Qed.
Lemma circ_tol_lt1 : circ_tol F < 1.
Proof. by rewrite /circ_tol invf_lt1 ?exprn_gt0 ?ltr0n // exprn_egt1 // ltr1n. Qed.

Lemma Ok_inj2 (A : Type) (x y : A) : Ok x = Ok y -> x = y. Proof. by case. Qed.

Theorem conjugate_nodes n (a b c : F) : (3 <= n)%N -> a <= b -> 0 <= c -> (a < b) || (0 < c) ->
  exists x nr, gen_leja_conjugate n a b c = Ok (x, nr, ((b - a) / 2%:R + c) / 2%:R, (a + b) / 2%:R) /\
  [/\ size x = n, uniq x, (nr <= n)%N, conj_nodes x nr &
    forall z, z \in x -> in_ellipse a b c (((a + b) / 2%:R)%:C%C + (((b - a) / 2%:R + c) / 2%:R)%:C%C * z)].
Proof.
move=> n3 ab c0 hpos.
have n2 : (2%:R : F) != 0 by rewrite pnatr_eq0.
have sc_pos : 0 < ((b - a) / 2%:R + c) / 2%:R.
  rewrite divr_gt0 ?ltr0n //; case/orP: hpos => h; [rewrite ltr_paddr // divr_gt0 ?subr_gt0 ?ltr0n //|].
  by rewrite ltr_paddl // divr_ge0 ?subr_ge0 ?ler0n.
have sc0 : ((b - a) / 2%:R + c) / 2%:R != 0 by rewrite gt_eqF.
have mem (r s : F) := @in_ellipseP a b c r s ab c0 sc0.
rewrite /gen_leja_conjugate; cbv zeta.
set sc := ((b - a) / 2%:R + c) / 2%:R in sc_pos sc0 mem *.
set h1 := (b - a) / 2%:R / sc in mem *; set h2 := c / sc in mem *.
have h10 : 0 <= h1 by apply: divr_ge0; [apply: divr_ge0; rewrite ?subr_ge0 ?ler0n|apply: ltW].
have h20 : 0 <= h2 by rewrite divr_ge0 ?(ltW sc_pos).
have h12 : h1 + h2 = 2%:R.
  apply: (mulIf sc0); rewrite mulrDl /h1 /h2 !divfK //; rewrite /sc; by field.
have hneg : ((h1 < 0) || (h2 < 0)) = false by rewrite !ltNge h10 h20.
case: ifP => [hneg'|_]; first by rewrite hneg in hneg'.
case: ifP => tol2.
  (* real points *)
  have h1n : h1 != 0.
    rewrite gt_eqF // -(addrK h2 h1) h12 subr_gt0 (le_lt_trans tol2) // (lt_trans circ_tol_lt1) // ltr1n //.
  have -> : gen_leja_circle F (2 * n.-1)%N true = [:: 1; -1] ++ pairs (take n.-2 (Tall F (maxn 2 (bit_length (2 * n.-1).-1)))).
    by rewrite circle_even //; case: n n3 => [|[|]].
  have eL : [seq (h1 * r)%:C%C | r <- take 2 [seq complex.Re z | z <- [:: 1; -1] ++ pairs (take n.-2 (Tall F (maxn 2 (bit_length (2 * n.-1).-1))))] ++
       every2 (drop 2 [seq complex.Re z | z <- [:: 1; -1] ++ pairs (take n.-2 (Tall F (maxn 2 (bit_length (2 * n.-1).-1))))])]
     = [seq (h1 * complex.Re z)%:C%C | z <- Treal n].
    by rewrite /= drop0 take0 /= every2_pairs -map_comp.
  rewrite eL; eexists; eexists; split; first by [].
  split=> //.
  - by rewrite size_map size_Treal // ltnW.
  - rewrite (map_comp (fun r => (h1 * r)%:C%C)) map_inj_uniq ?Treal_Re_uniq //.
    by move=> u v /complexI /mulfI; apply.
  - split=> [j hj|k]; last first.
      by rewrite size_map size_Treal ?(ltnW n3) // => /ltnW; rewrite -ltnS ltnNge => /negP []; rewrite ltnS leq_addr.
    by rewrite (nth_map 0) ?size_Treal // ltnW.
  - move=> z /mapP [y /Treal_unit /unitcP hy ->].
    have := mem (complex.Re y) 0; rewrite mulr0 expr0n /= addr0; apply.
    by rewrite -hy ler_addl sqr_ge0.
case: ifP => tol1.
  (* imaginary points *)
  have h2n : h2 != 0 by rewrite gt_eqF // (lt_trans circ_tol_pos) // ltNge tol2.
  have -> : gen_leja_circle F (2 * n.-1)%N true = [:: 1; -1] ++ pairs (take n.-2 (Tall F (maxn 2 (bit_length (2 * n.-1).-1)))).
    by rewrite circle_even //; case: n n3 => [|[|]].
  have [K eK] := K2 (2 * n.-1); have [T eT] := Tall_opairs F K.
  set im := [seq complex.Im z | z <- _].
  have eL : [seq Complex 0 (h2 * r) | r <- [:: im`_0; im`_2; im`_3] ++ every2 (drop 4 im)]
     = [seq Complex 0 (h2 * complex.Im z) | z <- Timag n].
    rewrite /im /Timag eK eT (_ : n.-2 = (n - 3).+1); last by rewrite -subn2 -(subnSK n3).
    rewrite [take _.+1 _]/= pairs_cons /= drop0 every2_pairs -map_comp.
    by [].

  rewrite eL; eexists; eexists; split; first by [].
  split=> //.
  - by rewrite size_map size_Timag.
  - rewrite (map_comp (fun r => Complex 0 (h2 * r))) map_inj_uniq ?Timag_Im_uniq //.
    by move=> u v [] /mulfI; apply.
  - by apply: leq_trans n3.
  - split=> [[|//] _|k]; first by rewrite (nth_map 0) ?size_Timag ?(leq_trans _ n3) //= mulr0.
    rewrite size_map size_Timag // => hk; rewrite !(nth_map 0) ?size_Timag ?(ltnW hk) //.
    by rewrite Timag_opp // mulrN; apply/eqP; rewrite eq_complex /= !eqxx.
  - move=> z /mapP [y /Timag_unit /unitcP hy ->].
    have := mem 0 (complex.Im y); rewrite mulr0 expr0n /= add0r; apply.
    by rewrite -hy ler_addr sqr_ge0.
(* ellipse *)
have h1n : h1 != 0 by rewrite gt_eqF // (lt_trans circ_tol_pos) // ltNge tol1.
have h2n : h2 != 0 by rewrite gt_eqF // (lt_trans circ_tol_pos) // ltNge tol2.
rewrite -/(ell h1 h2); eexists; eexists; split; first by [].
have [K eK] := K2 n.
split.
- by rewrite size_map size_circle.
- by rewrite (map_inj_uniq (ell_inj h1n h2n)) (circleE F eK) take_uniq // Zall_uniq.
- exact: ltnW.
- by apply: ell_nodes; rewrite ltnW.
- move=> z /mapP [y]; rewrite (circleE F eK) => /mem_take /Zall_unit /unitcP hy ->.
  by apply: mem; rewrite hy.
Qed.
Theorem conjugate_error n (a b c : F) : 0 < (b - a) / 2%:R + c -> (b < a) || (c < 0) ->
  gen_leja_conjugate n a b c = Raise ValueErrorExn.
Proof.
move=> sc0 h; rewrite /gen_leja_conjugate; cbv zeta.
have -> : ((b - a) / 2%:R / (((b - a) / 2%:R + c) / 2%:R) < 0) || (c / (((b - a) / 2%:R + c) / 2%:R) < 0); last by [].
have s0 : 0 < (((b - a) / 2%:R + c) / 2%:R)^-1 by rewrite invr_gt0 divr_gt0 // ltr0n.
by rewrite !(pmulr_llt0 _ s0) pmulr_llt0 ?invr_gt0 ?ltr0n // subr_lt0.
Qed.
Theorem conjugate_empty_ok n (a b c : F) : (b - a) / 2%:R + c < 0 -> b <= a -> c <= 0 ->
  exists x nr, gen_leja_conjugate n a b c = Ok (x, nr, ((b - a) / 2%:R + c) / 2%:R, (a + b) / 2%:R).
Proof.
move=> sc0 ba c0; rewrite /gen_leja_conjugate; cbv zeta.
have -> : (((b - a) / 2%:R / (((b - a) / 2%:R + c) / 2%:R) < 0) || (c / (((b - a) / 2%:R + c) / 2%:R) < 0)) = false.
  have s0 : (((b - a) / 2%:R + c) / 2%:R)^-1 < 0 by rewrite invr_lt0 pmulr_llt0 // invr_gt0 ltr0n.
  rewrite !(nmulr_llt0 _ s0) !ltNge c0 pmulr_lle0 ?invr_gt0 ?ltr0n //.
  by rewrite subr_le0 ba.
by case: ifP => _; [eexists; eexists|case: ifP => _; eexists; eexists].
Qed.
End Pts3.
