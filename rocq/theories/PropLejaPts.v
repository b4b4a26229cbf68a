(* PropLejaPts.v : C62, the interpolation nodes produced by gen_leja_circle and
   gen_leja_conjugate (matexp_leja.py:45-124). *)
From mathcomp Require Import all_ssreflect all_algebra.
From mathcomp Require Import ring.
From mathcomp Require Import complex.
From Verif Require Import ModelHist MxBase ModelOps ModelLeja SpecLeja SpecLejaOps ProofsLejaPts ProofsLejaPts2
  ProofsLejaPts3 ProofsLejaPts4 PropLeja.
Set Implicit Arguments.
Unset Strict Implicit.
Unset Printing Implicit Defensive.
Import Order.TTheory GRing.Theory Num.Theory.
Local Open Scope ring_scope.

(* n distinct points of modulus one; for n a power of two, all the n-th roots of unity *)
Theorem C62_circle_points (F : rcfType) n conjugate :
  [/\ size (gen_leja_circle F n conjugate) = n, uniq (gen_leja_circle F n conjugate),
      forall z : F[i], z \in gen_leja_circle F n conjugate -> `|z| = 1 &
      forall k (z : F[i]), n = (2 ^ k.+2)%N -> z ^+ n = 1 -> z \in gen_leja_circle F n conjugate].
Proof.
split; [exact: size_circle|exact: circle_uniq|exact: circle_roots|].
by move=> k z ->; apply: circle_all.
Qed.
(* the points are nested *)
Theorem C62_circle_nested (F : rcfType) n m conjugate : (n <= m)%N ->
  take n (gen_leja_circle F m conjugate) = gen_leja_circle F n conjugate.
Proof. exact: circle_nested. Qed.
(* without the conjugate option they are a Leja sequence of the unit circle: every point maximises
   the product of the distances to the earlier ones among all points of the circle *)
Theorem C62_circle_leja (F : rcfType) n m (z : F[i]) : (m < n)%N -> `|z| = 1 ->
  \prod_(j < m) `|z - (gen_leja_circle F n false)`_j| <=
  \prod_(j < m) `|(gen_leja_circle F n false)`_m - (gen_leja_circle F n false)`_j|.
Proof. exact: circle_leja. Qed.

(* a box [a,b] x [-c,c] that is not a single point: n distinct nodes, nr real ones and then
   conjugate pairs, which the affine map z -> shift + scale z sends into the ellipse of the box *)
Theorem C62_conjugate_nodes (F : rcfType) n (a b c : F) : (3 <= n)%N -> a <= b -> 0 <= c -> (a < b) || (0 < c) ->
  exists x nr, gen_leja_conjugate n a b c = Ok (x, nr, ((b - a) / 2%:R + c) / 2%:R, (a + b) / 2%:R) /\
  [/\ size x = n, uniq x, (nr <= n)%N, conj_nodes x nr &
    forall z, z \in x -> in_ellipse a b c (((a + b) / 2%:R)%:C%C + (((b - a) / 2%:R + c) / 2%:R)%:C%C * z)].
Proof. exact: conjugate_nodes. Qed.
(* an empty box is reported ... *)
Theorem C62_empty_box_error (F : rcfType) n (a b c : F) : 0 < (b - a) / 2%:R + c -> (b < a) || (c < 0) ->
  gen_leja_conjugate n a b c = Raise ValueErrorExn.
Proof. exact: conjugate_error. Qed.
(* ... unless both half axes are non-positive: then the quotients h1, h2 are positive again, no
   error is raised and the returned scale is negative *)
Theorem C62_empty_box_error_refuted (F : rcfType) n (a b c : F) : b < a -> c < 0 ->
  exists x nr sc sh, gen_leja_conjugate n a b c = Ok (x, nr, sc, sh) /\ sc < 0.
Proof.
move=> ba c0; have h : (b - a) / 2%:R + c < 0.
  by rewrite -(addr0 0) ltr_add // pmulr_llt0 ?subr_lt0 // invr_gt0 ltr0n.
have [x [nr e]] := conjugate_empty_ok n h (ltW ba) (ltW c0).
exists x, nr, (((b - a) / 2%:R + c) / 2%:R), ((a + b) / 2%:R); split=> //.
by rewrite pmulr_llt0 // invr_gt0 ltr0n.
Qed.

(* padding with p near-zero nodes keeps the node structure *)
Lemma pad_real (F : rcfType) p : linspace (pad_eps [fieldType of F[i]]) (pad_eps [fieldType of F[i]] * p%:R) p =
  [seq r%:C%C | r <- linspace (pad_eps F) (pad_eps F * p%:R) p].
Proof.
have e : pad_eps [fieldType of F[i]] = (pad_eps F)%:C%C.
  by rewrite /pad_eps fmorphV /= rmorphX /= rmorph_nat.
rewrite /linspace -map_comp; apply: eq_map => k /=.
by rewrite e rmorphD rmorphM fmorph_div rmorphB rmorphM !rmorph_nat.
Qed.
Theorem C62_padded_nodes (F : rcfType) (x : seq F[i]) nr p : conj_nodes x nr ->
  size (leja_seq_pad_zeros x p) = (p + size x)%N /\ conj_nodes (leja_seq_pad_zeros x p) (p + nr).
Proof.
rewrite /leja_seq_pad_zeros pad_real; set L := linspace _ _ _.
have sL : size [seq (r%:C)%C | r <- L] = p by rewrite size_map /L size_map size_iota.
move=> [h1 h2]; split; first by rewrite size_cat sL.
split=> [j hj|k].
  rewrite nth_cat sL; case: ltnP => hp; last by apply: h1; rewrite ltn_subLR.
  by rewrite (nth_map 0) // -[size L](size_map (fun r => r%:C%C)) sL.
rewrite size_cat sL -!addnA -addnS ltn_add2l => hk.
have e q : ([seq (r%:C)%C | r <- L] ++ x)`_(p + q) = x`_q by rewrite nth_cat sL ltnNge leq_addr addKn.
by rewrite !e; apply: h2.
Qed.

(* together with C24: on the generated nodes and with the divided differences of a
   conjugation-symmetric function, the routine applies a real polynomial of degree < i that agrees
   with the function at the first i - 1 shifted and scaled nodes *)
Theorem C62_generated_nodes_interpolate (F : rcfType) m (mv : 'cV[F]_m -> 'cV[F]_m) (dt : F) (u : 'cV[F]_m)
    n (a b c : F) (ex : F[i] -> F[i]) (tol : F) x nr scale shift pm i conv :
  linear mv -> (3 <= n)%N -> a <= b -> 0 <= c -> (a < b) || (0 < c) ->
  (forall z, ex (conjc z) = conjc (ex z)) ->
  gen_leja_conjugate n a b c = Ok (x, nr, scale, shift) ->
  complex_conj_leja_expmv mv dt u shift scale x nr
    (leja_coeffs_exp_dd ex x shift%:C%C scale%:C%C 1) tol = (pm, i, conv) ->
  (0 < i <= n)%N /\
  exists p : {poly F}, [/\ (size p <= i)%N, pm = papply (fun v => dt *: mv v) p u &
     forall j, (j < i.-1)%N ->
       (to_cpoly p).[shift%:C%C + scale%:C%C * x`_j] = ex (shift%:C%C + scale%:C%C * x`_j)].
Proof.
move=> lin n3 ab c0 hp exc G E.
have [x' [nr' [G' [sx ux hnr cx _]]]] := C62_conjugate_nodes n3 ab c0 hp.
move: G; rewrite G' => -[ex' enr es eh]; subst x' nr' scale shift.
rewrite -sx; apply: (C24_conj_leja_interpolates lin _ ux _ _ cx exc); rewrite ?sx //.
- rewrite gt_eqF // divr_gt0 ?ltr0n //; case/orP: hp => h.
    by rewrite ltr_paddr // divr_gt0 ?subr_gt0 ?ltr0n.
  by rewrite ltr_paddl // divr_ge0 ?subr_ge0 ?ler0n.
- exact: leq_trans n3.
- exact: E.
Qed.
(* the hypotheses are met: the box [-1, 0] x [-1, 1] with five nodes *)
Example C62_example (F : rcfType) : exists x nr,
  gen_leja_conjugate 5 (-1 : F) 0 1 = Ok (x, nr, ((0 - -1) / 2%:R + 1) / 2%:R, (-1 + 0) / 2%:R) /\ size x = 5%N.
Proof.
have [||||x [nr [e [h _ _ _ _]]]] := @C62_conjugate_nodes F 5 (-1) 0 1; rewrite ?ler01 ?ltr01 ?orbT ?oppr_le0 ?ler01 //.
by exists x, nr.
Qed.
Print Assumptions C62_circle_points.
Print Assumptions C62_circle_nested.
Print Assumptions C62_circle_leja.
Print Assumptions C62_conjugate_nodes.
Print Assumptions C62_empty_box_error.
Print Assumptions C62_empty_box_error_refuted.
Print Assumptions C62_padded_nodes.
Print Assumptions C62_generated_nodes_interpolate.
