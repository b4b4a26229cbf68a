(* PropConvCode.v : C69 for the dense methods with the phi_k routine of the code (no hypothesis on kernels is
   left), and the Riccati equation as an instance of every hypothesis. *)
From Coq Require Import Reals String Lra.
From mathcomp Require Import all_ssreflect all_algebra.
From mathcomp Require Import complex ring.
From Verif Require Import Rstruct Summable MxBase MxSeries ModelPhiR ProofsPhiErr ModelHist SpecHist ModelOps SpecOps SpecPhi ModelPhi ModelKrylov ModelDispatch ModelInt SpecInt ProofsInt SpecExact PropPhi PropExact.
From Verif Require Import SpecProg SpecOrder SpecOrder2 SpecConv SpecConv2 ProofsOrder3 ProofsOrder9 ProofsOrderEx PropConv PropConv2.
Set Implicit Arguments.
Unset Strict Implicit.
Unset Printing Implicit Defensive.
Import Order.TTheory GRing.Theory Num.Theory.
Local Open Scope ring_scope.
Local Opaque breakdown_tol norm2 phi_linop f_phi_k_pfd kiops_fixedsteps f_phi_k_sq_all.

Lemma code_dense_unif (K : kernels [rcfType of R]) n (M : 'M[R]_n) (B dt : R) : k_sqall K = f_phi_k_sq_all ->
  0 <= B -> ninf M <= B -> 0 <= dt -> dt <= (8%:R * (B + 1))^-1 ->
  dense_accurate K M dt (B ^+ 3 / 60%:R * exp (8%:R^-1)%R * dt ^+ 3)%R.
Proof.
move=> hk B0 MB d0 hdt c k c0 c1 k0 k2.
have N1 : 0 < 8%:R * (B + 1) by rewrite mulr_gt0 ?ltr0n // ltr_spaddr // ltr01.
have th1 : ninf ((dt * c) *: M) <= dt * B.
  rewrite ninfZ normrM [`|c|]ger0_norm // [`|dt|]ger0_norm // ler_pmul ?mulr_ge0 ?ninf_ge0 //.
  by rewrite ler_pimulr.
have th2 : dt * B <= 8%:R^-1.
  have h : dt * (8%:R * (B + 1)) <= 1 by move: hdt; rewrite -[X in _ <= X]mul1r ler_pdivl_mulr.
  rewrite -[8%:R^-1]mul1r ler_pdivl_mulr ?ltr0n //; apply: le_trans h.
  by rewrite -mulrA ler_wpmul2l // mulrC ler_wpmul2l ?ler0n // ler_addl ler01.
have [phis [e [_ hp]]] := C15_error_small (leq_trans k2 (isT : (2 <= 3)%N)) (le_trans th1 th2).
exists phis; rewrite hk; split=> // j P j0 jk hP v rho hr i.
have r0 := entry_rho i hr; apply: le_trans (ninf_entry _ _ _) _; apply: le_trans (ninfM _ _) _.
apply: ler_pmul; rewrite ?ninf_ge0 //; last exact: ninf_maxnorm.
rewrite -ninfN opprB; apply: le_trans (hp j P jk hP) _.
have t0 := ninf_ge0 ((dt * c) *: M).
rewrite ?RmultE; have -> : B ^+ 3 / 60%:R * exp 8%:R^-1 * dt ^+ 3 = (dt * B) ^+ 3 / 60%:R * exp 8%:R^-1.
  by rewrite exprMn; move: (_^-1) (exp _) (_ ^+ 3) (_ ^+ 3) => *; ring.
rewrite ler_pmul ?exp_ge0 ?mulr_ge0 ?exprn_ge0 ?invr_ge0 ?ler0n // ?exp_le ?(le_trans th1) //.
rewrite ler_wpmul2r ?invr_ge0 ?ler0n //; apply: (@le_trans _ _ (ninf ((dt * c) *: M) ^+ 3)).
  apply: ler_wiexpn2l => //; first by apply: le_trans (le_trans th1 th2) _; rewrite invf_le1 ?ler1n ?ltr0n.
  by move: j0 (leq_trans jk k2); case: j {jk hP} => [|[|[]]].
by apply: ler_expn2r; rewrite ?nnegrE // (le_trans t0).
Qed.

(* the step sizes for which the code's kernel is accurate enough *)
Section Unif.
Variables (B h0 : R).
Hypothesis B0 : 0 <= B.
Hypothesis h00 : 0 < h0.
Definition unA : R := (B ^+ 3 / 60%:R * exp (8%:R^-1)%R)%R.
Definition unH : R := Num.min (Num.min h0 1) (Num.min (h0 / (unA + 1)) (8%:R * (B + 1))^-1).
Lemma unA_ge0 : 0 <= unA.
Proof. by rewrite /unA ?RmultE mulr_ge0 ?exp_ge0 // mulr_ge0 ?exprn_ge0 ?invr_ge0 ?ler0n. Qed.
Lemma unH_gt0 : 0 < unH.
Proof.
have A0 := unA_ge0; have o1 : 0 < (1 : R) by exact: ltr01.
by rewrite /unH !lt_minr h00 o1 /= divr_gt0 ?ltr_spaddr //= invr_gt0 mulr_gt0 ?ltr0n // ltr_spaddr.
Qed.
Lemma unH_le dt : 0 <= dt -> dt <= unH ->
  [/\ dt <= h0, dt <= 1, unA * dt ^+ 3 <= h0 & dt <= (8%:R * (B + 1))^-1].
Proof.
move=> d0; rewrite /unH !le_minr => /andP[/andP[a b] /andP[c d]]; split=> //.
have A0 := unA_ge0; have A1 : 0 < unA + 1 by rewrite ltr_spaddr // ltr01.
move: c; rewrite ler_pdivl_mulr // => c; apply: le_trans c; rewrite mulrC.
apply: ler_pmul; rewrite ?exprn_ge0 // ?ler_addl ?ler01 //.
by rewrite exprS ler_pimulr // exprn_ile1.
Qed.
Lemma unC (C dt : R) p : 0 <= C -> 0 <= dt -> dt <= 1 -> (p <= 3)%N ->
  C * (dt ^+ p + unA * dt ^+ 3) <= C * (1 + unA) * dt ^+ p.
Proof.
move=> C0 d0 d1 p3; rewrite -mulrA ler_wpmul2l // mulrDl mul1r ler_add2l ler_wpmul2l ?unA_ge0 //.
exact: ler_wiexpn2l.
Qed.
End Unif.

(* the system gives its Jacobian as a matrix; the phi_k routine is that of the code *)
Definition code_dense_kernels : accuracy := fun KW n o K kw0 sys s u J dt del =>
  lo_dense (jl_op (os_fjac sys None s u)) = Ok J /\ k_sqall K = f_phi_k_sq_all.
(* exprb2_dense of the code (del is free: take it zero) *)
Theorem C69_dense_code_convergence (B rad len : R) : 0 <= B -> 0 < rad -> exists C h0 : R,
  [/\ 0 <= C, 0 < h0 & rosenbrock_converges B rad len "exprb2_dense" 2 C h0 code_dense_kernels].
Proof.
move=> B0 r0; have [C [h0 [C0 h00 H]]] := C69_dense_convergence len B0 r0.
exists (C * (1 + unA B))%R, (unH B h0); split.
- by rewrite mulr_ge0 // addr_ge0 ?ler01 ?unA_ge0.
- exact: unH_gt0.
move=> KW K n o kw0 sys f z ft J H2 H3 t0 T dt del N W cb1 cb2 h w y0 hm hn st hz hsm hg ha hT hl d0 d1 e0 e1.
have [a1 a2 a3 a4] := unH_le B0 d0 d1.
have A0 : 0 <= unA B * dt ^+ 3 by rewrite mulr_ge0 ?unA_ge0 ?exprn_ge0.
have ha' s u : in_tube z t0 T rad s u -> dense_kernels o K kw0 sys s u (J s u) dt (unA B * dt ^+ 3).
  move=> hin; have [b1 b2] := ha s u hin; split=> //.
  by apply: code_dense_unif => //; apply: ninf_le => //; apply: (st_J st).
have [d [g1 g2]] := H KW K n o kw0 sys f z ft J H2 H3 t0 T dt _ N W cb1 cb2 h w y0 hm hn st hz hsm hg ha' hT hl d0 a1 A0 a3.
exists d; split=> // i iN; have [y [k1 k2]] := g2 i iN; exists y; split=> // j.
apply: le_trans (k2 j) _; apply: le_trans (unC B0 C0 d0 a2 (isT : (2 <= 3)%N)) _.
by rewrite ler_wpmul2l ?mulr_ge0 // ?addr_ge0 ?ler01 ?unA_ge0 // ler_addl.
Qed.
(* exp1_dense, exp2_dense, exp3_dense of the code *)
Theorem C69_split_dense_code_convergence (B rad len : R) m p : 0 <= B -> 0 < rad ->
  List.In (m, p) [:: ("exp1_dense", 1%N); ("exp2_dense", 2%N); ("exp3_dense", 3%N)]%string ->
  exists C h0 : R, [/\ 0 <= C, 0 < h0 &
  forall KW (K : kernels [rcfType of R]) n kdim iom (sys : splitsys [rcfType of R] KW n)
    f (z : R -> 'cV[R]_n) ft J H2 H3 (M : 'M[R]_n) t0 T dt N W
    (cb1 cb2 : option (W -> R -> 'cV[R]_n -> W * KW)) ob w y0,
  k_sqall K = f_phi_k_sq_all -> sp_new m t0 y0 = Ok ob ->
  smooth_tube (maxn p.-1 1) f z t0 T rad B ft J H2 H3 -> z t0 = y0 ->
  (forall kw s u, os_frhs (ss_sys sys) kw s u = f s u) ->
  acts_as (ss_fl sys t0 y0) M -> lo_dense (ss_fl sys t0 y0) = Ok M -> (forall i, \sum_j `|M i j| <= B) ->
  (t0 + dt *+ N <= T)%R -> (T - t0 <= len)%R -> 0 < dt -> dt <= h0 ->
  exists d, integrate_ormatex (sp_step K kdim iom m sys) (@sp_accept [rcfType of R] n) cb1 cb2 ob w y0 t0 dt N = Ok d /\
    converges p C dt 0 z t0 N (d_ys d)].
Proof.
move=> B0 r0 hm; have [C [h0 [C0 h00 H]]] := C69_split_dense_convergence len B0 r0 hm.
have p3 : (p <= 3)%N by case: hm => [[_ <-]|[[_ <-]|[[_ <-]|//]]].
exists (C * (1 + unA B))%R, (unH B h0); split.
- by rewrite mulr_ge0 // addr_ge0 ?ler01 ?unA_ge0.
- exact: unH_gt0.
move=> KW K n kdim iom sys f z ft J H2 H3 M t0 T dt N W cb1 cb2 ob w y0 hk hn st hz hf hM hd hB hT hl d0 d1.
have d0' := ltW d0; have [a1 a2 a3 a4] := unH_le B0 d0' d1.
have A0 : 0 <= unA B * dt ^+ 3 by rewrite mulr_ge0 ?unA_ge0 ?exprn_ge0.
have ha : dense_accurate K M dt (unA B * dt ^+ 3) by apply: code_dense_unif => //; apply: ninf_le.
have [d [g1 g2]] := H KW K n kdim iom sys f z ft J H2 H3 M t0 T dt _ N W cb1 cb2 ob w y0 hn st hz hf hM hd hB ha hT hl d0 a1 A0 a3.
exists d; split=> // i iN; have [y [k1 k2]] := g2 i iN; exists y; split=> // j.
apply: le_trans (k2 j) _; apply: le_trans (unC B0 C0 d0' a2 p3) _.
by rewrite addr0.
Qed.
