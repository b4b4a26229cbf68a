(* ProofsLeja9.v : the Leja products with the divided differences of a given function (exp in the
   code), for real and for conjugate nodes, and the purely imaginary variant. *)
From mathcomp Require Import all_ssreflect all_algebra.
From mathcomp Require Import ring.
From mathcomp Require Import complex.
From Verif Require Import ModelHist ModelOps ModelKrylov ModelLeja SpecLeja ProofsLeja ProofsLeja2 ProofsLeja3 ProofsLeja4.
Set Implicit Arguments.
Unset Strict Implicit.
Unset Printing Implicit Defensive.
Import Order.TTheory GRing.Theory Num.Theory.
Local Open Scope ring_scope.

Section Any.
Variable K : fieldType.
Implicit Types (x : seq K).
Lemma size_newton_basis_sc shift scale x j : (size (newton_basis_sc shift scale x j) <= j.+1)%N.
Proof.
elim: j => [|j IH]; first by rewrite newton_basis_sc0 size_poly1.
rewrite newton_basis_scS -scalerAr (leq_trans (size_scale_leq _ _)) //.
apply: leq_trans (size_mul_leq _ _) _; by rewrite size_XsubC addn2.
Qed.
Lemma size_newton_poly_sc shift scale x c m : (size (newton_poly_sc shift scale x c m) <= m)%N.
Proof.
elim: m => [|m IH]; first by rewrite /newton_poly_sc big_ord0 size_poly0.
rewrite newton_poly_scS (leq_trans (size_add _ _)) // geq_max (leq_trans IH) //=.
by apply: leq_trans (size_scale_leq _ _) _; apply: size_newton_basis_sc.
Qed.

Variables (ex : K -> K) (shift scale : K) (x : seq K).
Hypothesis sc0 : scale != 0.
Hypothesis ux : uniq x.
Local Notation y := [seq ex (1 * (shift + scale * xi)) | xi <- x].

Lemma exp_dd_interp : interpolates (newton_poly x (leja_coeffs_exp_dd ex x shift scale 1) (size x)) x y (size x).
Proof. by apply: newton_dd_interpolates => //; rewrite size_map. Qed.

Lemma exp_dd_value m j : (j < m <= size x)%N ->
  (newton_poly_sc shift scale x (leja_coeffs_exp_dd ex x shift scale 1) m).[shift + scale * x`_j] =
  ex (shift + scale * x`_j).
Proof.
case/andP=> h1 h2; rewrite newton_poly_sc_val //.
rewrite (interpolates_prefix h2 exp_dd_interp) //.
by rewrite (nth_map 0) ?mul1r // (leq_trans h1).
Qed.

(* two polynomials of degree < m that agree at the first m scaled nodes are equal *)
Lemma sc_unique (p q : {poly K}) m : (m <= size x)%N -> (size p <= m)%N -> (size q <= m)%N ->
  (forall j, (j < m)%N -> p.[shift + scale * x`_j] = q.[shift + scale * x`_j]) -> p = q.
Proof.
move=> hm hp hq h.
pose x' := [seq shift + scale * xi | xi <- x].
have e j : (j < m)%N -> x'`_j = shift + scale * x`_j by move=> hj; rewrite (nth_map 0) // (leq_trans hj).
apply: (@interp_unique _ _ _ x' [seq q.[xi] | xi <- x'] m) => //.
- rewrite -map_take map_inj_in_uniq ?take_uniq // => a b _ _ /addrI /(mulfI sc0) //.
- by rewrite size_map.
- by move=> j hj; rewrite e // h // (nth_map 0) ?size_map ?(leq_trans hj) // e.
- by move=> j hj; rewrite [RHS](nth_map 0) // size_map (leq_trans hj).
Qed.
End Any.

Section Conj.
Variable F : rcfType.
Local Notation C := F[i].
Local Notation cj := (map_poly (@conjc F)).
Variables (n : nat) (mv : 'cV[F]_n -> 'cV[F]_n).
Hypothesis lin : linear mv.
Variables (dt : F) (u : 'cV[F]_n) (shift scale : F) (x : seq C) (tol : F) (nr : nat).
Variable ex : C -> C.
Hypothesis exc : forall z, ex (conjc z) = conjc (ex z).
Hypothesis sc0 : scale != 0.
Hypothesis ux : uniq x.
Hypothesis cx : conj_nodes x nr.
Let B := fun v => dt *: mv v.
Let c := leja_coeffs_exp_dd ex x shift%:C%C scale%:C%C 1.
Let y := [seq ex (1 * (shift%:C%C + scale%:C%C * xi)) | xi <- x].

Lemma scC : scale%:C%C != 0 :> C. Proof. by rewrite fmorph_eq0. Qed.

Lemma conj_im0 (z : C) : conjc z = z -> complex.Im z = 0.
Proof.
case: z => a b [] /eqP; rewrite -subr_eq0 -opprD oppr_eq0 -mulr2n mulrn_eq0 /=.
by move/eqP.
Qed.
Lemma im0_conj (z : C) : complex.Im z = 0 -> conjc z = z.
Proof. by case: z => a b /= ->; rewrite oppr0. Qed.

Lemma conj_node_sc (z : C) : conjc (shift%:C%C + scale%:C%C * z) = shift%:C%C + scale%:C%C * conjc z.
Proof. by case: z => a b; simpc. Qed.

Lemma conj_y m : (m <= nr)%N -> conj_nodes x m -> conj_nodes y m.
Proof.
move=> hm [h1 h2]; split=> [j hj|k].
  case: (ltnP j (size x)) => hs; last by rewrite nth_default ?size_map.
  rewrite (nth_map 0) //; apply: conj_im0.
  by rewrite -exc mul1r conj_node_sc im0_conj // h1.
rewrite size_map => hk; rewrite !(nth_map 0) //; last exact: ltnW.
by rewrite h2 // !mul1r -conj_node_sc exc.
Qed.


(* the coefficients at real nodes are real *)
Lemma real_coef j : (j < nr)%N -> (nr <= size x)%N -> complex.Im c`_j = 0.
Proof.
move=> hj hn; have hjs : (j < size x)%N by apply: leq_trans hn.
pose x' := take j.+1 x; pose y' := take j.+1 y.
have sx' : size x' = j.+1 by rewrite size_takel.
have sy' : size y' = j.+1 by rewrite size_takel // size_map.
have ny := conj_y (leqnn nr) cx.
have vac (s s0 : seq C) : s0 = take j.+1 s -> size s0 = j.+1 -> conj_nodes s nr -> conj_nodes s0 j.+1.
  move=> es ss [h1 _]; split=> [l hl|k]; first by rewrite es nth_take // h1 // (leq_trans hl).
  by rewrite ss ltnNge -addSn ltnW // ltnS leq_addr.
have np m : (m <= j.+1)%N -> newton_poly x' c m = newton_poly x c m.
  move=> hm; apply: eq_bigr => l _; congr (_ *: _); apply: eq_bigr => l' _.
  by rewrite nth_take // ltnS (leq_trans (ltnW (ltn_ord l'))) // -ltnS (leq_trans (ltn_ord l)).
have hint : interpolates (newton_poly x' c (size x')) x' y' (size x').
  rewrite sx' np //; move=> l hl; rewrite !nth_take //.
  by apply: (interpolates_prefix hjs (exp_dd_interp ex _ _ ux)).
have := @conj_real_poly F x' y' c j.+1 (vac _ _ erefl sx' cx) (vac _ _ erefl sy' ny).
move=> /(_ (etrans sy' (esym sx')) (take_uniq _ ux) hint 0%N); rewrite double0 addn0 sx' => /(_ (leqnn _)).
rewrite np // => /polyP /(_ j); rewrite coef_map newton_lead /= => h.
exact: conj_im0.
Qed.

Lemma toC_newton_sc m : (m <= size x)%N -> nr = size x ->
  to_cpoly (newton_poly_sc shift scale (cRe x) (cRe c) m) = newton_poly_sc shift%:C%C scale%:C%C x c m.
Proof.
move=> hm en; have re (z : C) : complex.Im z = 0 -> (complex.Re z)%:C%C = z by case: z => a b /= ->.
rewrite /newton_poly_sc /to_cpoly rmorph_sum; apply: eq_bigr => l _ /=.
have hl : (l < nr)%N by rewrite en (leq_trans (ltn_ord l)).
rewrite map_polyZ /= cRe_nth re; last by rewrite real_coef // en.
congr (_ *: _); rewrite /newton_basis_sc rmorph_prod; apply: eq_bigr => l' _ /=.
rewrite -[_ *: ('X - _)]/(lfac shift scale (cRe x)`_l') toC_lfac cRe_nth re //.
by apply: (proj1 cx); apply: ltn_trans hl.
Qed.

(* what complex_conj_leja_expmv returns: a real polynomial in the operator that interpolates the
   function at all nodes processed so far *)
Theorem conj_leja_value pm i conv : (nr <= size x)%N -> (0 < size x)%N ->
  complex_conj_leja_expmv mv dt u shift scale x nr c tol = (pm, i, conv) ->
  (0 < i <= size x)%N /\
  exists p : {poly F}, [/\ (size p <= i)%N, pm = papply B p u &
     forall j, (j < i.-1)%N -> (to_cpoly p).[shift%:C%C + scale%:C%C * x`_j] = ex (shift%:C%C + scale%:C%C * x`_j)].
Proof.
move=> hn hx; rewrite leq_eqVlt in hn; case/orP: hn => [/eqP en|hn].
  rewrite /complex_conj_leja_expmv en eqxx => E.
  have [/andP[i0 i1] -> _ _ _] := real_leja_spec lin E.
  have hi : (i <= size x)%N.
    by move: i1; rewrite size_map leq_max => /orP[h|h]; apply: leq_trans h _; rewrite // leq_pred.
  rewrite i0; split=> //; exists (newton_poly_sc shift scale (cRe x) (cRe c) i); split=> //.
    exact: size_newton_poly_sc.
  move=> j hj; rewrite toC_newton_sc //; apply: exp_dd_value => //; first exact: scC.
  by rewrite hi andbT (leq_trans hj) // leq_pred.
have cy := conj_y (leqnn nr) cx.
have sy : size y = size x by rewrite size_map.
have hint := exp_dd_interp ex shift%:C%C scale%:C%C ux.
move=> E; have [k|[hi [k ek]] -> _ _] := complex_conj_spec lin sc0 cx hn _ E.
  by move=> hk; apply: (conj_coef_real cx cy sy ux hint); apply: ltnW.
rewrite {1}ek ltn0Sn hi; split=> //.
exists (re_poly (newton_poly_sc shift%:C%C scale%:C%C x c i)); split=> //.
  apply: leq_trans (size_poly _ _) _; exact: size_newton_poly_sc.
move=> j; rewrite {1}ek /= => hj.
rewrite (conj_interp cx cy sy hint shift sc0 (k := k)) //.
- rewrite (nth_map 0) ?mul1r //; apply: leq_trans hj _; apply: ltnW; by rewrite -ek.
- by apply: ltnW; rewrite -ek.
- by rewrite hi ek leqnSn.
Qed.
End Conj.

(* ---------------------------------------------------------------- *)
(* the purely imaginary variant *)
Section Imag.
Variable F : rcfType.
Local Notation C := F[i].
Variables (n : nat) (mv : 'cV[F]_n -> 'cV[F]_n).
Hypothesis lin : linear mv.
Variables (dt : F) (u : 'cV[F]_n) (shift scale : F) (x coeffs : seq C) (tol : F).
Hypothesis sc0 : scale != 0.
Let B := fun v => dt *: mv v.
Local Notation Pn m := (newton_poly_sc shift%:C%C scale%:C%C x coeffs m).

(* relation between the loop of the imaginary variant and the general one *)
Definition im_rel (s s' : lstate F n) : Prop :=
  [/\ l_i s = l_i s', l_vm s = l_vm s' & l_pm s' = l_pm s + (cRe coeffs)`_(l_i s).-1 *: l_vm s].
Lemma im_rel_step s s' : (0 < l_i s)%N -> (forall j, complex.Re x`_j = 0) -> im_rel s s' ->
  im_rel (im_body mv dt shift scale x coeffs s) (cj_pair_body mv dt shift scale x coeffs tol (norm2 u) s').
Proof.
case: s s' => [i rm pm e cv] [i' vm' pm' e' cv'] i0 hre [/= <- <- ->].
rewrite /im_rel /= !cRe_nth !cIm_nth hre mulr0 addr0 mulrAC mulfV // mul1r.
by split.
Qed.

Theorem imag_leja_value pm i conv :
  complex.Im x`_0 = 0 -> (forall j, complex.Re x`_j = 0) ->
  (forall k, ((k.*2).+2 < size x)%N -> x`_(k.*2).+2 = conjc x`_(k.*2).+1) ->
  (forall k, ((k.*2).+2 < size x)%N -> complex.Im coeffs`_(k.*2).+2 = 0) ->
  complex_conj_imag_leja_expmv mv dt u shift scale x coeffs tol = (pm, i, conv) ->
  (exists k, i = k.*2.+2) /\ (i <= maxn 2 (size x).+1)%N /\
  pm = papply B (re_poly (Pn i.-1)) u /\
  (conv -> (i < size x)%N).
Proof.
move=> h0 hre hcj hcr; rewrite /complex_conj_imag_leja_expmv.
set s0 := LState _ _ _ _ _; set cond := im_cond _ _ _.
pose P s := [/\ exists s', im_rel s s' /\ cj_inv mv dt u shift scale x coeffs s',
  exists k, l_i s = k.*2.+2 & (l_i s <= maxn 2 (size x).+1)%N].
have hP0 : P s0.
  split; [|by exists 0%N|by rewrite leq_max].
  exists (cj_real_body mv dt shift scale x coeffs (LState 1 u ((cRe coeffs)`_0 *: u) 0 false)); split.
    by rewrite /im_rel /= cRe_nth hre mulr0 addr0.
  by apply: cj_real_step => //; apply: cj_inv0.
have hP : P (leja_while (size x) cond (im_body mv dt shift scale x coeffs) s0).
  apply: leja_while_ind hP0 => s [[s' [hr hi]] [k ek] hl] /and3P[_ _ c3]; split.
  - exists (cj_pair_body mv dt shift scale x coeffs tol (norm2 u) s'); split.
      by apply: im_rel_step => //; rewrite ek.
    have [e1 _ _] := hr; rewrite ek in c3.
    by apply: cj_pair_step => //; rewrite -e1 ek /=; [apply: hcj|apply: hcr].
  - by exists k.+1; rewrite /= ek doubleS.
  - by rewrite /= leq_max !ltnS c3 orbT.
move: hP; case: (leja_while _ _ _ _) => i' rm pm' e cv [[s' [hr hi]] [k /= ek] /= hl] [<- <- <-].
split; first by exists k.
split=> //; split; last by case/andP.
case: s' hr hi => [i2 vm2 pm2 e2 cv2] [/= e1 e3 e4] [N0 [A [D [/= _ hN hv hA hp]]]].
rewrite -e1 in hN hA; rewrite ek /= in hN hA e4 *.
have : Pn k.*2.+1 = map_poly (real_complex F) (A - complex.Re coeffs`_k.*2.+1 *: N0) +
    J F *: map_poly (real_complex F) (D - complex.Im coeffs`_k.*2.+1 *: N0).
  move: hA; rewrite newton_poly_scS hN (cterm coeffs`_k.*2.+1 N0) => hA.
  apply: (@addIr _ (map_poly (real_complex F) (complex.Re coeffs`_k.*2.+1 *: N0) +
             J F *: map_poly (real_complex F) (complex.Im coeffs`_k.*2.+1 *: N0))).
  rewrite hA addrACA -scalerDr -!rmorphD /= !subrK //.
move=> ->; rewrite /re_poly re_poly_decomp papplyB papplyZ -hp e4 e3 -hv cRe_nth.
by rewrite addrK.
Qed.

(* a vector of norm at most 1/10 (in particular the zero vector) never enters the loop *)
Theorem imag_leja_small : norm2 u <= 10%:R^-1 ->
  complex_conj_imag_leja_expmv mv dt u shift scale x coeffs tol = ((cRe coeffs)`_0 *: u, 2%N, false).
Proof.
move=> hu; have h : (10%:R ^+ 2 < norm2 u * 10%:R ^+ 3 :> F) = false.
  apply/negbTE; rewrite -leNgt exprS mulrA -[X in _ <= X]mul1r ler_wpmul2r ?exprn_ge0 ?ler0n //.
  by rewrite -ler_pdivl_mulr ?ltr0n // mul1r.
rewrite /complex_conj_imag_leja_expmv; case: (size x) => [|m] /=; first by [].
by rewrite /im_cond /= h !andbF /= h andbF.
Qed.
End Imag.
