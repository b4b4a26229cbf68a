(* ProofsLeja.v : divided differences and the Newton polynomial. *)
From mathcomp Require Import all_ssreflect all_algebra.
From mathcomp Require Import ring.
From Verif Require Import ModelHist ModelLeja SpecLeja.
Set Implicit Arguments.
Unset Strict Implicit.
Unset Printing Implicit Defensive.
Import Order.TTheory GRing.Theory Num.Theory.
Local Open Scope ring_scope.

Section DD.
Variable K : fieldType.
Implicit Types (x y a c : seq K).

Lemma size_dd_pass x a k : size (dd_pass x a k) = size x.
Proof. by rewrite size_map size_iota. Qed.
Lemma nth_dd_pass x a k j : (j < size x)%N ->
  (dd_pass x a k)`_j = if (j < k)%N then a`_j else (a`_j - a`_k.-1) / (x`_j - x`_k.-1).
Proof. by move=> hj; rewrite (nth_map 0%N) ?size_iota // nth_iota // add0n. Qed.

Lemma newton_basis0 x : newton_basis x 0 = 1.
Proof. by rewrite /newton_basis big_ord0. Qed.
Lemma newton_basisS x j : newton_basis x j.+1 = newton_basis x j * ('X - (x`_j)%:P).
Proof. by rewrite /newton_basis big_ord_recr. Qed.
Lemma newton_basis_root x j i : (i < j)%N -> (newton_basis x j).[x`_i] = 0.
Proof.
move=> hij; rewrite /newton_basis (bigD1 (Ordinal hij)) //= hornerM hornerXsubC subrr mul0r //.
Qed.
Lemma newton_basis_neq0 x j i : uniq x -> (j <= i)%N -> (i < size x)%N -> (newton_basis x j).[x`_i] != 0.
Proof.
move=> ux hji hi; elim: j hji => [|j IH] hji; first by rewrite newton_basis0 hornerC oner_eq0.
rewrite newton_basisS hornerM mulf_neq0 ?IH ?(ltnW hji) // hornerXsubC subr_eq0 nth_uniq //.
  by rewrite gtn_eqF.
exact: ltn_trans hji hi.
Qed.
Lemma size_newton_basis x j : size (newton_basis x j) = j.+1.
Proof.
elim: j => [|j IH]; first by rewrite newton_basis0 size_poly1.
rewrite newton_basisS size_Mmonic ?monicXsubC //; last by rewrite -size_poly_eq0 IH.
by rewrite IH size_XsubC addnC.
Qed.
Lemma size_newton_poly x c m : (size (newton_poly x c m) <= m)%N.
Proof.
rewrite /newton_poly; apply: (leq_trans (size_sum _ _ _)); apply/bigmax_leqP => j _.
by apply: (leq_trans (size_scale_leq _ _)); rewrite size_newton_basis.
Qed.
Lemma newton_polyS x c m : newton_poly x c m.+1 = newton_poly x c m + c`_m *: newton_basis x m.
Proof. by rewrite /newton_poly big_ord_recr. Qed.

(* value at a node: the terms from index i+1 on vanish *)
Lemma newton_poly_node x c m i : (i < m)%N -> (newton_poly x c m).[x`_i] = (newton_poly x c i.+1).[x`_i].
Proof.
move=> him; elim: m him => // m IH; rewrite ltnS leq_eqVlt => /orP[/eqP -> //|him].
by rewrite newton_polyS hornerD hornerZ newton_basis_root // mulr0 addr0 IH.
Qed.

Definition dd_inv x y a k := size a = size x /\
  forall j, (j < size x)%N ->
    y`_j = (newton_poly x a (minn j k)).[x`_j] + a`_j * (newton_basis x (minn j k)).[x`_j].

Lemma dd_inv_pass x y a k : uniq x -> (k.+1 < size x)%N -> dd_inv x y a k -> dd_inv x y (dd_pass x a k.+1) k.+1.
Proof.
move=> ux hk [sa inv]; split; first by rewrite size_dd_pass.
move=> j hj; rewrite (inv j hj).
have eqp m : (m <= k.+1)%N -> newton_poly x (dd_pass x a k.+1) m = newton_poly x a m.
  move=> hm; apply: eq_bigr => l _; rewrite nth_dd_pass ?(leq_trans (ltn_ord l) hm) //.
  by apply: ltn_trans hk; apply: leq_trans (ltn_ord l) hm.
case: (leqP j k) => hjk.
  have -> : minn j k.+1 = j by apply/minn_idPl; apply: leqW.
  by rewrite eqp ?leqW // nth_dd_pass // ltnS hjk.
have -> : minn j k.+1 = k.+1 by apply/minn_idPr.
rewrite eqp // newton_polyS newton_basisS nth_dd_pass // ltnNge hjk /=.
have hne : x`_j - x`_k != 0.
  by rewrite subr_eq0 nth_uniq ?gtn_eqF // (ltn_trans (ltnSn _) hk).
rewrite hornerD hornerZ hornerM hornerXsubC -addrA; congr (_ + _).
move: hne; move: (x`_j - x`_k) (a`_j) (a`_k) ((newton_basis x k).[x`_j]) => d aj ak b hne.
by field.
Qed.

Lemma newton_dd_inv x y k : uniq x -> size y = size x -> (k < size x)%N ->
  dd_inv x y (foldl (dd_pass x) y (iota 1 k)) k.
Proof.
move=> ux sy; elim: k => [|k IH] hk.
  split=> //= j hj; rewrite minn0 /newton_poly big_ord0 newton_basis0 !hornerE //.
have -> : iota 1 k.+1 = iota 1 k ++ [:: k.+1] by rewrite -{1}(addn1 k) iotaD add1n.
by rewrite foldl_cat /=; apply: dd_inv_pass => //; apply: IH; rewrite ltnW.
Qed.

Lemma size_newton_dd x y : size y = size x -> size (newton_poly_div_diff x y) = size x.
Proof.
move=> sy; rewrite /newton_poly_div_diff.
case: (size x).-1 => [//|k].
have -> : iota 1 k.+1 = iota 1 k ++ [:: k.+1] by rewrite -{1}(addn1 k) iotaD add1n.
by rewrite foldl_cat /= size_dd_pass.
Qed.

Theorem newton_dd_interpolates x y : uniq x -> size y = size x ->
  interpolates (newton_poly x (newton_poly_div_diff x y) (size x)) x y (size x).
Proof.
move=> ux sy i hi.
have hm : ((size x).-1 < size x)%N by rewrite prednK // (leq_ltn_trans _ hi).
have [sa inv] := newton_dd_inv ux sy hm.
rewrite newton_poly_node // newton_polyS hornerD hornerZ (inv i hi).
have -> // : minn i (size x).-1 = i.
by apply/minn_idPl; rewrite -ltnS prednK // (leq_ltn_trans _ hi).
Qed.

(* prefix: the first m coefficients interpolate at the first m nodes *)
Lemma interpolates_prefix x c y m k : (m <= k)%N ->
  interpolates (newton_poly x c k) x y k -> interpolates (newton_poly x c m) x y m.
Proof.
move=> hmk hi i him; rewrite newton_poly_node // -(hi i (leq_trans him hmk)).
by rewrite [RHS]newton_poly_node // (leq_trans him hmk).
Qed.

(* uniqueness of the interpolant *)
Lemma interp_unique (p q : {poly K}) x y m : uniq (take m x) -> (m <= size x)%N ->
  (size p <= m)%N -> (size q <= m)%N ->
  interpolates p x y m -> interpolates q x y m -> p = q.
Proof.
move=> ux hm sp sq hp hq; apply/eqP; rewrite -subr_eq0; apply/negPn/negP => hne.
have := max_poly_roots hne (rs := take m x) _ ux.
have h1 : all (root (p - q)) (take m x).
  apply/(all_nthP 0) => i; rewrite size_takel // => him.
  by rewrite nth_take // rootE hornerD hornerN hp // hq // subrr.
move=> /(_ h1); rewrite size_takel // => /leq_trans /(_ (size_add _ _)).
by rewrite size_opp ltnNge geq_max sp sq.
Qed.

(* uniqueness of Newton coefficients *)
Lemma newton_coef_unique x c d m : uniq x -> (m <= size x)%N ->
  (forall i, (i < m)%N -> (newton_poly x c m).[x`_i] = (newton_poly x d m).[x`_i]) ->
  forall i, (i < m)%N -> c`_i = d`_i.
Proof.
move=> ux hm h.
have h' i : (i < m)%N -> (newton_poly x c i.+1).[x`_i] = (newton_poly x d i.+1).[x`_i].
  by move=> hi; rewrite -!(newton_poly_node _ _ hi) h.
elim/ltn_ind => i IH hi; have := h' i hi.
rewrite !newton_polyS !hornerD !hornerZ.
have -> : newton_poly x c i = newton_poly x d i.
  by apply: eq_bigr => l _; rewrite IH // (ltn_trans _ hi).
move/addrI/mulIf; apply; apply: newton_basis_neq0 => //; exact: leq_trans hi hm.
Qed.
End DD.
