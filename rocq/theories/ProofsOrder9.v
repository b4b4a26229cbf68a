(* ProofsOrder9.v : accuracy of the kernels of the code. *)
From Coq Require Import Reals String.
From mathcomp Require Import all_ssreflect all_algebra.
From mathcomp Require Import complex ring.
From Verif Require Import Rstruct Summable MxBase MxSeries ModelPhiR ProofsPhiErr ModelHist SpecHist ModelOps SpecOps SpecPhi ModelPhi ModelKrylov ProofsKrylov ModelDispatch ModelInt SpecInt ProofsInt SpecExact PropPhi PropKrylov ProofsKiops.
From Verif Require Import SpecProg SpecOrder SpecOrder2 ProofsOrder3.
Set Implicit Arguments.
Unset Strict Implicit.
Unset Printing Implicit Defensive.
Import Order.TTheory GRing.Theory Num.Theory.
Local Open Scope ring_scope.
Local Opaque breakdown_tol norm2 phi_linop f_phi_k_pfd kiops_fixedsteps.

Lemma norm2_max n (v : 'cV[R]_n) (rho : R) : 0 <= rho -> maxnorm_le v rho -> norm2 v <= n%:R * rho.
Proof.
move=> r0 hv; have N0 : 0 <= n%:R * rho by rewrite mulr_ge0 // ler0n.
rewrite -(ler_pexpn2r (isT : (0 < 2)%N)) ?nnegrE ?norm2_ge0 // norm2_sqr /dotv.
apply: (@le_trans _ _ (\sum_(i < n) rho ^+ 2)).
  apply: ler_sum => i _; rewrite -expr2 -real_normK ?num_real //.
  by apply: ler_expn2r; rewrite ?nnegrE ?normr_ge0 //; apply: hv.
rewrite sumr_const card_ord -mulr_natl exprMn ler_wpmul2r ?exprn_ge0 //.
by case: n {hv N0 v} => [|n]; rewrite ?expr0n // expr2 ler_pemull ?ler0n // ler1n.
Qed.
Lemma entry_rho n (v : 'cV[R]_n) (rho : R) (i : 'I_n) : maxnorm_le v rho -> 0 <= rho.
Proof. by move=> /(_ i); apply: le_trans; exact: normr_ge0. Qed.

Lemma fact_mono a b : (a <= b)%N -> (a`! <= b`!)%N.
Proof. by move=> /subnKC <-; elim: (b - a)%N => [|m IH]; rewrite ?addn0 // addnS factS (leq_trans IH) // leq_pmull. Qed.

Lemma krylov_err_mono n m j (th th' : R) : 0 <= th -> th <= th' -> (0 < j)%N ->
  krylov_err n m j th <= krylov_err n m 1 th'.
Proof.
move=> t0 tt j0; have t'0 := le_trans t0 tt; rewrite /krylov_err j0.
have nm0 : 0 <= (n%:R * m%:R : R) by rewrite mulr_ge0 ?ler0n.
have b0 : 0 <= n%:R * breakdown_tol R_rcfType.
  by rewrite mulr_ge0 ?ler0n // invr_ge0 exprn_ge0 ?ler0n.
have ee : n%:R * m%:R * th <= n%:R * m%:R * th' by rewrite ler_wpmul2l.
have e0 : 0 <= n%:R * m%:R * th by rewrite mulr_ge0.
have px k (x x' : R) : 0 <= x -> x <= x' -> x ^+ k * exp x <= x' ^+ k * exp x'.
  by move=> x0 xx; rewrite ler_pmul ?exprn_ge0 ?exp_ge0 ?exp_le //; apply: ler_expn2r; rewrite ?nnegrE // (le_trans x0).
apply: ler_add; first apply: ler_add.
- by rewrite ler_wpmul2l // exp_le // ler_add2r.
- case: ifP => // _; have f0 k : 0 < (k`!%:R : R) by rewrite ltr0n fact_gt0.
  rewrite ler_pmul ?invr_ge0 ?ler0n //.
  + by rewrite addr_ge0 ?mulr_ge0 ?exprn_ge0 ?exp_ge0 ?ler0n.
  + by rewrite lef_pinv ?posrE // ler_nat; apply: fact_mono; rewrite leq_add2l.
  + by apply: ler_add; [exact: px|rewrite ler_wpmul2l ?ler0n // px].
rewrite !mulr1 ler_wpmul2l ?ler0n // ler_pmul ?exp_ge0 ?exp_le //.
- by rewrite mulr_ge0 ?invr_ge0 ?mulr_ge0 ?exprn_ge0 ?ler0n // addr_ge0 ?ler0n.
- by rewrite ler_wpmul2r ?ler_add2r // invr_ge0 mulr_ge0 ?exprn_ge0 ?ler0n.
- by rewrite ler_add2r.
Qed.

Section Code.
Variables (K : kernels [rcfType of R]) (n kdim iom : nat) (M : 'M[R]_n).
Hypothesis expm_exact : forall N (X : 'M[R]_N), is_expm X (k_expm K X).
Hypothesis kd : (0 < kdim)%N.

Lemma code_phi_accurate dt : k_expk K = expk_code -> (minn n kdim <= iom.+1)%N ->
  phi_accurate K kdim iom M dt (n%:R * krylov_err n kdim 1 (ninf (dt *: M))).
Proof.
move=> hk hi L hL c k v c0 c1 k0 k3.
have [w [e hw]] := C19_phi_error expm_exact (c * dt) v k hL kd hi; exists w; rewrite hk; split=> // P hP rho hr i.
have r0 := entry_rho i hr; apply: le_trans (ninf_entry _ _ _) _; apply: le_trans (hw P hP) _.
rewrite -[X in _ * X]/(krylov_err n kdim k (ninf ((c * dt) *: M))).
rewrite mulrAC ler_pmul ?norm2_ge0 ?norm2_max //; last first.
  apply: krylov_err_mono => //; first exact: ninf_ge0.
  by rewrite !ninfZ normrM ger0_norm // ler_wpmul2r ?ninf_ge0 // ler_pimull.
have := hw P hP; set E := (X in norm2 v * X) => h1.
rewrite /krylov_err k0 !addr_ge0 //.
- by rewrite mulr_ge0 ?exp_ge0 // mulr_ge0 ?ler0n // invr_ge0 exprn_ge0 ?ler0n.
- case: ifP => // _; rewrite mulr_ge0 ?invr_ge0 ?ler0n // addr_ge0 ?mulr_ge0 ?exprn_ge0 ?exp_ge0 ?ninf_ge0 ?ler0n //.
  by rewrite !mulr_ge0 ?ler0n ?ninf_ge0.
- rewrite !mulr_ge0 ?exp_ge0 ?ler0n ?ler01 // ?invr_ge0 ?mulr_ge0 ?exprn_ge0 ?ler0n // addr_ge0 ?mulr_ge0 ?ler0n ?ninf_ge0 //.
Qed.

Lemma code_kiops_accurate dt del : (minn (n + 4) kdim <= iom.+1)%N ->
  (forall p, (p <= 4)%N -> n%:R * kiops_err_bound (n + p) kdim (ninf (dt *: M) + p%:R) <= del) ->
  kiops_accurate K kdim iom M dt del.
Proof.
move=> hi hd L hL vs s0 s4.
have hi' : (minn (n + (size ((0%R : 'cV[R]_n) :: vs)).-1) kdim <= iom.+1)%N.
  by apply: leq_trans hi; rewrite leq_min geq_minr andbT (leq_trans (geq_minl _ _)) //= leq_add2l.
have [w [e hw]] := @C21_phi_sum_error (k_expm K) (k_expm K) expm_exact expm_exact n L M dt ((0%R : 'cV[R]_n) :: vs) kdim iom hL s0 kd hi'.
exists w; split; first by rewrite -e.
move=> P hP rho hr i; have := hw P hP; rewrite big_ord_recl /= mulmx0 add0r => hw'.
apply: le_trans (ninf_entry _ _ _) _; apply: le_trans hw' _.
rewrite -[X in _ * X]/(kiops_err_bound (n + size vs) kdim (ninf (dt *: M) + (size vs)%:R)).
have r0 : 0 <= rho.
  by case: vs s0 hr {s4 hi' hP e hw w} => // v vs _ /(_ v (mem_head _ _)); apply: entry_rho.
have hm : maxnorm (0 :: vs) <= n%:R * rho.
  rewrite /maxnorm /= norm2_0 le_maxl mulr_ge0 ?ler0n //=.
  have : forall v, v \in vs -> norm2 v <= n%:R * rho by move=> v /hr; apply: norm2_max.
  elim: vs {s0 s4 hr hi' hP e hw w} => [|v vs IH] h /=; first by rewrite mulr_ge0 ?ler0n.
  by rewrite le_maxl h ?mem_head //= IH // => u hu; apply: h; rewrite inE hu orbT.
have B0 : 0 <= kiops_err_bound (n + size vs) kdim (ninf (dt *: M) + (size vs)%:R).
  have t0 : 0 <= ninf (dt *: M) + (size vs)%:R by rewrite addr_ge0 ?ninf_ge0 ?ler0n.
  rewrite /kiops_err_bound mulr_ge0 ?ler0n // addr_ge0 //.
    by rewrite mulr_ge0 ?exp_ge0 // mulr_ge0 ?ler0n // invr_ge0 exprn_ge0 ?ler0n.
  case: ifP => // _; rewrite mulr_ge0 ?invr_ge0 ?ler0n // addr_ge0 ?mulr_ge0 ?exprn_ge0 ?exp_ge0 ?ler0n //.
  by rewrite !mulr_ge0 ?ler0n.
apply: le_trans (ler_wpmul2r B0 hm) _.
by rewrite mulrAC ler_wpmul2r // hd.
Qed.
End Code.

Lemma code_dense_accurate (K : kernels [rcfType of R]) n (M : 'M[R]_n) : k_sqall K = f_phi_k_sq_all ->
  exists C h1 : R, [/\ 0 <= C, 0 < h1 & forall dt : R, `|dt| <= h1 -> dense_accurate K M dt (C * `|dt| ^+ 3)].
Proof.
move=> hk; pose N := ninf M; have N0 : 0 <= N by exact: ninf_ge0.
have N1 : 0 < 8%:R * (N + 1) by rewrite mulr_gt0 ?ltr0n // ltr_spaddr // ltr01.
exists (N ^+ 3 / 60%:R * exp (8%:R^-1)), (8%:R * (N + 1))^-1; split.
- by rewrite mulr_ge0 ?exp_ge0 // mulr_ge0 ?exprn_ge0 ?invr_ge0 ?ler0n.
- by rewrite invr_gt0.
move=> dt hdt c k c0 c1 k0 k2.
have th1 : ninf ((dt * c) *: M) <= `|dt| * N.
  by rewrite ninfZ normrM [`|c|]ger0_norm // -mulrA ler_wpmul2l // ler_pimull.
have th2 : `|dt| * N <= 8%:R^-1.
  have h : `|dt| * (8%:R * (N + 1)) <= 1 by move: hdt; rewrite -[X in _ <= X]mul1r ler_pdivl_mulr.
  rewrite -[8%:R^-1]mul1r ler_pdivl_mulr ?ltr0n //; apply: le_trans h.
  by rewrite -mulrA ler_wpmul2l // mulrC ler_wpmul2l ?ler0n // ler_addl ler01.
have [phis [e [_ hp]]] := C15_error_small (leq_trans k2 (isT : (2 <= 3)%N)) (le_trans th1 th2).
exists phis; rewrite hk; split=> // j P j0 jk hP v rho hr i.
have r0 := entry_rho i hr; apply: le_trans (ninf_entry _ _ _) _; apply: le_trans (ninfM _ _) _.
apply: ler_pmul; rewrite ?ninf_ge0 //; last exact: ninf_maxnorm.
rewrite -ninfN opprB; apply: le_trans (hp j P jk hP) _.
have t0 := ninf_ge0 ((dt * c) *: M).
rewrite ?RmultE; have -> : N ^+ 3 / 60%:R * exp 8%:R^-1 * `|dt| ^+ 3 = (`|dt| * N) ^+ 3 / 60%:R * exp 8%:R^-1.
  by rewrite exprMn; move: (_^-1) (exp _) (_ ^+ 3) (_ ^+ 3) => *; ring.
rewrite ler_pmul ?exp_ge0 ?mulr_ge0 ?exprn_ge0 ?invr_ge0 ?ler0n // ?exp_le ?(le_trans th1) //.
rewrite ler_wpmul2r ?invr_ge0 ?ler0n //; apply: (@le_trans _ _ (ninf ((dt * c) *: M) ^+ 3)).
  apply: ler_wiexpn2l => //; first by apply: le_trans (le_trans th1 th2) _; rewrite invf_le1 ?ler1n ?ltr0n.
  by move: j0 (leq_trans jk k2); case: j {jk hP} => [|[|[]]].
by apply: ler_expn2r; rewrite ?nnegrE // (le_trans t0).
Qed.
