(* PropRad.v : C79, the reaction-advection-diffusion systems. *)
From Coq Require Import Reals.
From mathcomp Require Import all_ssreflect all_algebra.
From mathcomp Require Import ring.
From Verif Require Import Rstruct ModelHist ModelOps ModelInt ModelProg ModelProg2 SpecProg ProofsProg PropProg ModelRad.
Set Implicit Arguments.
Unset Strict Implicit.
Unset Printing Implicit Defensive.
Import Order.TTheory GRing.Theory Num.Theory.
Local Open Scope ring_scope.

Section Rad.
Variable F : rcfType.
Variables (N' n' : nat).
Notation N := N'.+1.
Notation n := n'.+1.
Variables (A : 'M[F]_N) (Ml : 'cV[F]_N) (dbd : pred 'I_N) (bat : 'M[F]_n).
(* the concentration of species s at node k in the flat vector: entry k + s N *)
Definition conc (u : 'cV[F]_(N * n)) (k : 'I_N) (s : 'I_n) : F := u (inord (k + s * N)) 0.

Lemma idx_lt (k : 'I_N) (s : 'I_n) : (k + s * N < N * n)%N.
Proof.
apply: (@leq_trans (N + s * N)); first by rewrite ltn_add2r.
by rewrite -mulSn mulnC leq_mul2l ltn_ord orbT.
Qed.
Lemma Nn_gt0 : (0 < N * n)%N. Proof. by []. Qed.
Lemma idxE (k : 'I_N) (s : 'I_n) : (inord (k + s * N) : 'I_(N * n)) = (k + s * N)%N :> nat.
Proof. by rewrite inordK // idx_lt. Qed.
Lemma modE (k : 'I_N) (s : 'I_n) : ((k + s * N) %% N)%N = k. Proof. by rewrite addnC modnMDl modn_small. Qed.
Lemma divE (k : 'I_N) (s : 'I_n) : ((k + s * N) %/ N)%N = s. Proof. by rewrite addnC divnMDl // divn_small ?addn0. Qed.
Lemma conc_flatten (U : 'M[F]_(N, n)) k s : conc (flatten_mx U) k s = U k s.
Proof. by rewrite /conc /flatten_mx mxE idxE modE divE !inord_val. Qed.
Lemma stackE (u : 'cV[F]_(N * n)) k s : stack_mx u k s = conc u k s. Proof. by rewrite mxE. Qed.
Lemma flat_inj (u v : 'cV[F]_(N * n)) : (forall k s, conc u k s = conc v k s) -> u = v.
Proof.
move=> h; apply/matrixP => i j; rewrite (ord1 j).
have hk : (i %% N < N)%N by rewrite ltn_mod.
have hs : (i %/ N < n)%N by rewrite ltn_divLR //; apply: leq_trans (ltn_ord i) _; rewrite mulnC.
have := h (Ordinal hk) (Ordinal hs); rewrite /conc /= addnC -divn_eq inord_val //.
Qed.

Lemma sum_flat (G : 'I_(N * n) -> F) : \sum_i G i = \sum_(s : 'I_n) \sum_(k : 'I_N) G (inord (k + s * N)).
Proof.
have hb : bijective (fun p : 'I_n * 'I_N => inord (p.2 + p.1 * N) : 'I_(N * n)).
  exists (fun i : 'I_(N * n) => (inord (i %/ N), inord (i %% N))) => [[s1 k1]|i] /=; first by rewrite idxE modE divE !inord_val.
  have hk : (i %% N < N)%N by rewrite ltn_mod.
  have hs : (i %/ N < n)%N by rewrite ltn_divLR //; apply: leq_trans (ltn_ord i) _; rewrite mulnC.
  by rewrite !inordK // addnC -divn_eq inord_val.
by rewrite (reindex _ (onW_bij _ hb)) /= pair_bigA.
Qed.

(* C79.  The right-hand side, node by node and species by species: zero at the Dirichlet nodes; elsewhere decay
   within the node, the source, and transport of each species alone. *)
Theorem C79_equations src t u k s : conc (rad_frhs A Ml dbd bat src t u) k s =
  if dbd k then 0 else \sum_s' bat s s' * conc u k s' + src (stack_mx u) k s - (\sum_j A k j * conc u j s) / Ml k 0.
Proof.
rewrite /rad_frhs conc_flatten mxE; case: ifP => // _; rewrite !mxE; congr (_ + _ - _ / _).
  by apply: eq_bigr => s' _; rewrite !mxE mulrC.
by apply: eq_bigr => j _; rewrite stackE.
Qed.

(* C79.  If transport is conservative (columns of A sum to zero) and no node is fixed, the spatial totals of the
   species obey the ordinary decay equations: transport drops out. *)
Theorem C79_totals src t u s : (forall k, Ml k 0 != 0) -> (forall k, ~~ dbd k) -> (forall j, \sum_k A k j = 0) ->
  \sum_k Ml k 0 * conc (rad_frhs A Ml dbd bat src t u) k s =
  \sum_s' bat s s' * (\sum_k Ml k 0 * conc u k s') + \sum_k Ml k 0 * src (stack_mx u) k s.
Proof.
move=> hM hd hA.
under eq_bigr => k _ do rewrite C79_equations (negbTE (hd k)) mulrBr mulrDr mulrCA mulfV // mulr1.
rewrite sumrB big_split /= [X in _ - X](_ : _ = 0) ?subr0; last first.
  by rewrite exchange_big /= big1 // => j _; rewrite -mulr_suml hA mul0r.
congr (_ + _); under eq_bigr do rewrite mulr_sumr; rewrite exchange_big /=; apply: eq_bigr => s' _.
by rewrite mulr_sumr; apply: eq_bigr => k _; rewrite mulrCA.
Qed.

(* C79.  The linear part offered to the split integrators is the transport alone, also in the rows of the
   Dirichlet nodes: what is left for the nonlinear part is decay and source at the free nodes, but the
   negative of the transport at the Dirichlet nodes. *)
Theorem C79_split src t u k s :
  conc (lo_mv (rad_fl A Ml t u) u) k s = - (\sum_j A k j * conc u j s) / Ml k 0 /\
  conc (rad_frhs A Ml dbd bat src t u - lo_mv (rad_fl A Ml t u) u) k s =
    if dbd k then (\sum_j A k j * conc u j s) / Ml k 0
    else \sum_s' bat s s' * conc u k s' + src (stack_mx u) k s.
Proof.
have e : conc (lo_mv (rad_fl A Ml t u) u) k s = - (\sum_j A k j * conc u j s) / Ml k 0.
  rewrite /rad_fl /= /conc mxE sum_flat.
  rewrite (bigD1 s) //= [X in _ + X]big1 ?addr0 => [|s1 hs1]; last first.
    by rewrite big1 // => j _; rewrite mxE !idxE !divE !modE !inord_val !mxE eq_sym (negbTE hs1) !mul0r.
  rewrite -sumrN mulr_suml; apply: eq_bigr => j _; rewrite mxE !idxE !divE !modE !inord_val !mxE eqxx mul1r.
  by rewrite !mulNr mulrAC.
split=> //; rewrite {1}/conc [LHS](mxE) [X in _ + X]mxE -!/(conc _ k s) e C79_equations.
case: ifP => _; first by rewrite sub0r mulNr opprK.
by rewrite mulNr opprK subrK.
Qed.

(* C79.  Separable solutions: for a transport mode A v = lam Ml v and a decay mode bat w = mu w the product is an
   eigenvector of the right-hand side with eigenvalue mu - lam, so exp((mu - lam) t) times it solves the system. *)
Theorem C79_separable t (v : 'cV[F]_N) (w : 'cV[F]_n) lam mu : (forall k, Ml k 0 != 0) -> (forall k, ~~ dbd k) ->
  (forall k, \sum_j A k j * v j 0 = lam * Ml k 0 * v k 0) -> bat *m w = mu *: w ->
  let u := flatten_mx (\matrix_(k, s) (v k 0 * w s 0)) in
  rad_frhs A Ml dbd bat (fun _ => 0) t u = (mu - lam) *: u.
Proof.
move=> hM hd hv hw u; apply: flat_inj => k s; rewrite C79_equations (negbTE (hd k)) mxE addr0.
have -> : conc ((mu - lam) *: u) k s = (mu - lam) * (v k 0 * w s 0) by rewrite /conc mxE -/(conc u k s) conc_flatten mxE.
under eq_bigr do rewrite conc_flatten mxE mulrCA; rewrite -mulr_sumr.
have -> : \sum_s' bat s s' * w s' 0 = mu * w s 0 by have := congr1 (fun M : 'cV_n => M s 0) hw; rewrite !mxE.
under eq_bigr do rewrite conc_flatten mxE mulrA; rewrite -mulr_suml hv.
move: (hM k); move: (Ml k 0) (v k 0) (w s 0) => m x y m0.
have -> : lam * m * x * y / m = lam * x * y by field.
by ring.
Qed.
End Rad.
Print Assumptions C79_equations.
Print Assumptions C79_totals.
Print Assumptions C79_split.
Print Assumptions C79_separable.

(* C79.  A transfer between two species never changes the sum over the species at a node. *)
Theorem C79_transfer (F : rcfType) N' n' rate (a g : 'I_n'.+1) (un : 'M[F]_(N'.+1, n'.+1)) k :
  \sum_s rad_transfer rate a g un k s = 0.
Proof.
under eq_bigr do rewrite mxE add0r; rewrite big_split /= -!big_mkcond /= !big_pred1_eq subrr //.
Qed.
Print Assumptions C79_transfer.

(* C79.  The inventory of the two- and three-species examples, for every mesh: with conservative transport and
   no fixed node it decreases by the untracked decay of the last species alone, 0.03 and 0.01 of its total. *)
Theorem C79_inventory N' (A : 'M[R]_N'.+1) (Ml : 'cV[R]_N'.+1) (dbd : pred 'I_N'.+1) t :
  (forall k, Ml k 0 != 0) -> (forall k, ~~ dbd k) -> (forall j, \sum_k A k j = 0) ->
  (exists B, gen_bateman_matrix 0%N [:: 1; 2]%N rad2_lib = Ok B /\ forall u,
     \sum_s \sum_k Ml k 0 * conc (rad_frhs A Ml dbd (B : 'M[R]_2) (@rad2_src N') t u) k s =
     - (3%:R / 10%:R ^+ 2) * \sum_k Ml k 0 * conc u k (1 : 'I_2)) /\
  (exists B, gen_bateman_matrix 0%N [:: 1; 2; 3]%N rad3_lib = Ok B /\ forall u,
     \sum_s \sum_k Ml k 0 * conc (rad_frhs A Ml dbd (B : 'M[R]_3) (fun _ => 0) t u) k s =
     - (1 / 10%:R ^+ 2) * \sum_k Ml k 0 * conc u k (2%:R : 'I_3)).
Proof.
move=> hM hd hA; split.
- have [[_ h] _] := @C38_total R_rcfType nat_eqType 0%N [:: 1; 2]%N rad2_lib isT.
  have [|B hB] := h.
    by move=> k; rewrite !inE => /orP [] /eqP ->; split=> // b; rewrite /branches /= inE => /eqP ->; (by left) || (by right).
  exists B; split=> // u; under eq_bigr do rewrite C79_totals //; rewrite big_split /=.
  rewrite [X in _ + X](_ : _ = 0) ?addr0; last first.
    rewrite exchange_big /= big1 // => k _; rewrite -mulr_sumr [X in _ * X](_ : _ = 0) ?mulr0 //; exact: C79_transfer.
  rewrite exchange_big /=; under eq_bigr do rewrite -mulr_suml (C38_column_sums 0%N _ hB) //.
  rewrite !big_ord_recl big_ord0 addr0 /= /rate_untracked /branches /= !big_cons !big_nil /= addr0 oppr0 mul0r add0r.
  by rewrite (_ : lift ord0 ord0 = 1 :> 'I_2) //; apply: val_inj.
- have [[_ h] _] := @C38_total R_rcfType nat_eqType 0%N [:: 1; 2; 3]%N rad3_lib isT.
  have [|B hB] := h.
    by move=> k; rewrite !inE => /or3P [] /eqP ->; split=> // b; rewrite /branches /= inE => /eqP ->; (by left) || (by right).
  exists B; split=> // u; under eq_bigr do rewrite C79_totals //; rewrite big_split /=.
  rewrite [X in _ + X](_ : _ = 0) ?addr0; last by rewrite big1 // => s _; rewrite big1 // => k _; rewrite mxE mulr0.
  rewrite exchange_big /=; under eq_bigr do rewrite -mulr_suml (C38_column_sums 0%N _ hB) //.
  rewrite !big_ord_recl big_ord0 addr0 /= /rate_untracked /branches /= !big_cons !big_nil /= addr0 oppr0 !mul0r !add0r.
  by rewrite (_ : lift ord0 (lift ord0 ord0) = 2%:R :> 'I_3) //; apply: val_inj.
Qed.
Print Assumptions C79_inventory.

(* the hypotheses are met: upwind transport around three nodes, equal masses *)
Lemma C79_example : exists (A : 'M[R]_3) (Ml : 'cV[R]_3), [/\ forall k, Ml k 0 != 0, forall j, \sum_k A k j = 0 & A != 0].
Proof.
exists (1%:M - \matrix_(i, j) (i == j + 1 :> 'I_3)%:R), (\col_k 1); split.
- by move=> k; rewrite mxE oner_eq0.
- move=> j; under eq_bigr do rewrite !mxE; rewrite sumrB.
  rewrite (bigD1 j) //= eqxx big1 ?addr0 => [|i hi]; last by rewrite (negbTE hi).
  rewrite (bigD1 (j + 1)) //= eqxx big1 ?addr0 ?subrr // => i hi; by rewrite (negbTE hi).
- apply/eqP => /matrixP /(_ 0 0); rewrite !mxE /= subr0 => /eqP; rewrite oner_eq0 //.
Qed.
