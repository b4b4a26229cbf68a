(* PropPade.v : C68, accuracy of the dense matrix exponential and phi functions of the Rust crate. *)
From Coq Require Import Reals ZArith QArith Qreals Lra.
From mathcomp Require Import all_ssreflect all_algebra.
From mathcomp Require Import ring.
From Verif Require Import Rstruct Summable MxBase MxSeries SpecPhi ModelPhi ModelPade ProofsPhiErr ProofsPhiExt ProofsPhiR.
From Verif Require Import ProofsPade ProofsPade2 ProofsPadeZ ProofsPade3 ProofsPade4 ProofsPade5.
Set Implicit Arguments.
Unset Strict Implicit.
Unset Printing Implicit Defensive.
Import Order.TTheory GRing.Theory Num.Theory.
Local Open Scope ring_scope.

(* 3e-14 *)
Definition tol : R := (3%:R / 10%:R ^+ 14)%R.
(* the sum of the absolute values of the entries of Z *)
Definition entry_sum n (Z : 'M[R]_n) : R := \sum_i \sum_j `|Z i j|.
(* one step of accuracy tol repeated N times, N = 1 unless the entries of Z sum to more than 2.5 *)
Definition pade_rel (S : R) (rel : R) : Prop :=
  exists N : nat, (N = 1%N \/ 5%:R * N%:R <= 2%:R * S) /\ rel = (1 + tol) ^+ N - 1.

Lemma tolE : eps = tol.
Proof.
have e10 : IZR 10 = 10%:R :> R by rewrite -(IZR_nat 10).
have h : IZR 100000000000000 = 10%:R ^+ 14 :> R.
  rewrite -e10 -powE pow_IZR; congr IZR; by vm_compute.
by rewrite /tol -h -(IZR_nat 3) /eps RdivE // h expf_neq0 // pnatr_eq0.
Qed.

Lemma rel_of n (a : 'M[R]_n) : pade_rel (entry_sum a) ((1 + eps) ^+ (2 ^ (matexp_pade a).2) - 1).
Proof.
rewrite tolE; exists (2 ^ (matexp_pade a).2)%N; split=> //.
have := pade_choice a; case: (matexp_pade a) => [[u v] al] /= [_ _ [->|h]]; first by left.
right; apply: le_trans h; rewrite natrX ler_wpmul2r ?exprn_ge0 ?ler0n //.
rewrite /th13 ler_pdivl_mulr; last by apply/RltP; exact: IZR_lt.
by rewrite -(IZR_nat 5) -IZR_mul; apply/IZR_leP.
Qed.

(* C68.  matexp(A, dt) is the exponential of dt A to a relative accuracy of 3e-14 per squared factor,
   for every matrix and every dt; the linear system it solves is never singular. *)
Theorem C68_matexp_accuracy n (A : 'M[R]_n) (dt : R) :
  (let uv := (matexp_pade (dt *: A)).1 in uv.2 - uv.1 \in unitmx) /\
  exists rel, pade_rel (entry_sum (dt *: A)) rel /\
    forall E, is_expm (dt *: A) E -> forall i j, `|matexp A dt i j - E i j| <= rel * exp (ninf (dt *: A)).
Proof.
split; first by have := pade_choice (dt *: A); case: (matexp_pade _) => [[u v] al] /= [].
exists ((1 + eps) ^+ (2 ^ (matexp_pade (dt *: A)).2) - 1); split; first exact: rel_of.
move=> E /is_phiP -> i j; apply: le_trans (matexp_err A dt).
by have := ninf_entry (matexp A dt - expmx (dt *: A)) i j; rewrite !mxE.
Qed.
Print Assumptions C68_matexp_accuracy.

(* each approximant, called inside its threshold, is accurate to order 2m+1 in |Z| *)
Definition pade_err (m : nat) (z : R) : R :=
  (2%:R * m`!%:R ^+ 2 / ((2 * m)`!%:R * (2 * m).+1`!%:R) * z ^+ (2 * m).+1 * exp (3%:R / 2%:R * z)%R)%R.
Definition order_ok n (m : nat) (Z : 'M[R]_n) (uv : 'M[R]_n * 'M[R]_n) : Prop :=
  uv.2 - uv.1 \in unitmx /\ forall E, is_expm Z E ->
    ninf (invmx (uv.2 - uv.1) *m (uv.1 + uv.2) - E) <= pade_err m (ninf Z).
Lemma const_ok bs m (z : R) : Z.eqb (Z.mul (nth Z0 bs 0) (fz m)) (fz (2 * m)) ->
  pade_const bs m * z ^+ (2 * m).+1 * exp (3%:R / 2%:R * z)%R = pade_err m z.
Proof.
move/Z.eqb_eq; rewrite -!fzE => /(congr1 IZR); rewrite IZR_mul !IZR_nat => h.
rewrite /pade_err /pade_const -h; congr (_ * _ * _).
have f0 k : (k`!%:R : R) != 0 by rewrite pnatr_eq0 -lt0n fact_gt0.
have c0 : IZR (nth Z0 bs 0) != 0 :> R.
  by apply/eqP => e; move: (f0 (2 * m)%N); rewrite -h e mul0r eqxx.
rewrite /cb; move: (f0 m) (f0 (2 * m).+1) c0.
move: (m`!%:R : R) ((2 * m).+1`!%:R : R) (IZR (nth Z0 bs 0) : R) => a b c a0 b0 c0.
by field; rewrite a0 b0 c0.
Qed.
Theorem C68_pade_orders n (Z : 'M[R]_n) :
  let a2 := Z *m Z in let a4 := a2 *m a2 in let a6 := a4 *m a2 in let a8 := a6 *m a2 in
  [/\ ninf Z <= th3 -> order_ok 3 Z (pade3 Z a2),
      ninf Z <= th5 -> order_ok 5 Z (pade5 Z a2 a4),
      ninf Z <= th7 -> order_ok 7 Z (pade7 Z a2 a4 a6),
      ninf Z <= th9 -> order_ok 9 Z (pade9 Z a2 a4 a6 a8) &
      ninf Z <= th13 -> order_ok 13 Z (pade13 Z a2 a4 a6)].
Proof.
split=> hz; [move: (le_trans hz t3E)|move: (le_trans hz t5E)|move: (le_trans hz t7E)|move: (le_trans hz t9E)|move: (le_trans hz t13E)] => {}hz.
- have [] := pade_one ok3 id3 (le_six (isT : Qle_bool tq3 (inject_Z 6))) r3 e3 hz.
  have [-> ->] := q3 Z => h1 h2 _; split=> // E /is_phiP ->; by rewrite -(@const_ok bs3) //; vm_compute.
- have [] := pade_one ok5 id5 (le_six (isT : Qle_bool tq5 (inject_Z 6))) r5 e5 hz.
  have [-> ->] := q5 Z => h1 h2 _; split=> // E /is_phiP ->; by rewrite -(@const_ok bs5) //; vm_compute.
- have [] := pade_one ok7 id7 (le_six (isT : Qle_bool tq7 (inject_Z 6))) r7 e7 hz.
  have [-> ->] := q7 Z => h1 h2 _; split=> // E /is_phiP ->; by rewrite -(@const_ok bs7) //; vm_compute.
- have [] := pade_one ok9 id9 (le_six (isT : Qle_bool tq9 (inject_Z 6))) r9 e9 hz.
  have [-> ->] := q9 Z => h1 h2 _; split=> // E /is_phiP ->; by rewrite -(@const_ok bs9) //; vm_compute.
have [] := pade_one ok13 id13 (le_six (isT : Qle_bool tq13 (inject_Z 6))) r13 e13 hz.
have [-> ->] := q13 Z => h1 h2 _; split=> // E /is_phiP ->; by rewrite -(@const_ok bs13) //; vm_compute.
Qed.
Print Assumptions C68_pade_orders.

(* phi(z, k) by the inverse recurrence, for regular z: the error of the exponential times |z^-1|^k *)
Theorem C68_phi_recurrence n (z : 'M[R]_n) (k : nat) : z \in unitmx ->
  exists rel, pade_rel (entry_sum z) rel /\
    forall P, is_phi k z P -> forall i j,
      `|rs_phi z k i j - P i j| <= ninf (invmx z) ^+ k * (rel * exp (ninf z)).
Proof.
move=> uz; have [_ [rel [hr h]]] := C68_matexp_accuracy z 1.
rewrite scale1r in hr h; exists ((1 + eps) ^+ (2 ^ (matexp_pade (1 *: z)).2) - 1); split.
  by rewrite scale1r; exact: rel_of.
move=> P /is_phiP -> i j; rewrite scale1r.
suff e : rs_phi z k - phi k z = mxpow (invmx z) k *m (matexp z 1 - expmx z).
  have := ninf_entry (rs_phi z k - phi k z) i j; rewrite !mxE => h1; apply: le_trans h1 _.
  rewrite e; apply: le_trans (ninfM _ _) _; apply: ler_pmul; rewrite ?ninf_ge0 // ?ninf_pow //.
  by have := matexp_err z 1; rewrite scale1r.
have main fuel a p : rs_phi_rec (invmx z) fuel a.+1 p - phi (a + fuel) z = mxpow (invmx z) fuel *m (p - phi a z).
  elim: fuel a p => [|f IH] a p /=; first by rewrite addn0 mxpow0 mul1mx.
  rewrite addnS -addSn IH mxpowSr -mulmxA; congr (_ *m _).
  rewrite [in RHS]phi_rec /ifact div1r opprD addrA; rewrite [in RHS]mulmxBr mulKmx //.
by have := main k 0%N (matexp z 1); rewrite add0n /rs_phi.
Qed.
Print Assumptions C68_phi_recurrence.

(* phi_ext(z, k), for every z, singular or not *)
Lemma ext_rown n (z : 'M[R]_n) k (i : nat) :
  \sum_(0 <= j < k.+1 * n) `|ext_entry z k i j| <=
  (if insub i is Some a then \sum_b `|z a b| else 0) + ((i < k * n)%N)%:R.
Proof.
pose F (j : nat) := `|ext_entry z k i j|.
have nk : (n <= k.+1 * n)%N by rewrite mulSn leq_addr.
rewrite (@big_cat_nat _ _ _ n) //=; apply: ler_add.
  rewrite big_mkord; case: insubP => [a ia ea|/negbTE ia]; last first.
    rewrite big1 // => j _; rewrite /F /ext_entry ia; case: ifP => _; rewrite ?normr0 //.
    by rewrite ltn_ord normr0.
  apply: ler_sum => b _; rewrite /F /ext_entry; case: ifP => _; last by rewrite normr0.
  rewrite ltn_ord ia; have -> : insub i = Some a by rewrite -ea valK.
  by rewrite valK.
have [ik|ki] := ltnP i (k * n); last first.
  rewrite big_nat_cond big1 // => j /andP [/andP [nj jk] _]; rewrite /F /ext_entry ltnNge ki /=.
  case: eqP => [k0|_]; last by rewrite normr0.
  by exfalso; clear -k0 nj jk; rewrite k0 mul1n ltnNge nj in jk.
rewrite big_nat_cond.
have hi : (n <= i + n < k.+1 * n)%N by rewrite leq_addl mulSn addnC ltn_add2l.
have e j : (n <= j < k.+1 * n)%N -> F j = (j == i + n)%N%:R :> R.
  move=> /andP [nj jk]; rewrite /F /ext_entry ik /= ltnNge nj /= normr_nat; congr ((nat_of_bool _)%:R).
  by rewrite -(eqn_add2r n) subnK // eq_sym.
rewrite (eq_bigr (fun j => (j == i + n)%N%:R : R)); last by move=> j /andP [hj _]; exact: e.
rewrite -big_nat_cond (big_cat_nat _ _ _ (n := (i + n)%N)) /=; [|by rewrite leq_addl|by apply: ltnW; case/andP: hi].
rewrite big_nat_cond big1 ?add0r; last by move=> j /andP [/andP [_ ji] _]; rewrite ltn_eqF.
case/andP: hi => _ hi; rewrite big_ltn // eqxx big_nat_cond big1 ?addr0 // => j /andP [/andP [ji _] _].
by rewrite gtn_eqF.
Qed.
Lemma ext_row n (z : 'M[R]_n) k (i : 'I_(k.+1 * n)) :
  \sum_j `|z_ext z k i j| <= (if insub (i : nat) is Some a then \sum_b `|z a b| else 0) + ((i < k * n)%N)%:R.
Proof.
apply: le_trans (ext_rown z k i); rewrite big_mkord le_eqVlt; apply/orP; left; apply/eqP.
by apply: eq_bigr => j _; rewrite mxE.
Qed.
Lemma ext_ninf n (z : 'M[R]_n) k : ninf (z_ext z k) <= ninf z + 1.
Proof.
apply: ninf_le => [|i]; first by rewrite addr_ge0 ?ninf_ge0 ?ler01.
apply: le_trans (ext_row z i) _; apply: ler_add; last by case: (_ < _)%N; rewrite ?ler01.
case: insubP => [a _ _|_]; [exact: ninf_row|exact: ninf_ge0].
Qed.
Lemma ext_sum n (z : 'M[R]_n) k : entry_sum (z_ext z k) <= entry_sum z + (k * n)%:R.
Proof.
apply: le_trans (ler_sum _ (fun i _ => ext_row z i)) _; rewrite big_split /=; apply: ler_add.
  pose G (i : nat) : R := if insub i is Some a then \sum_b `|z a b| else 0.
  have -> : \sum_(i < k.+1 * n) (if insub (i : nat) is Some a then \sum_b `|z a b| else 0) = \sum_(0 <= i < k.+1 * n) G i by rewrite big_mkord.
  have nk : (n <= k.+1 * n)%N by rewrite mulSn leq_addr.
  rewrite (@big_cat_nat _ _ _ n) //= [X in _ + X]big_nat_cond [X in _ + X]big1 ?addr0; last first.
    by move=> i /andP [/andP [ni _] _]; rewrite /G insubF // ltnNge ni.
  by rewrite big_mkord /entry_sum le_eqVlt; apply/orP; left; apply/eqP; apply: eq_bigr => a _; rewrite /G valK.
rewrite -(big_mkord xpredT (fun i => (i < k * n)%N%:R : R)) (@big_cat_nat _ _ _ (k * n)%N) //=; last by rewrite leq_mul2r leqnSn orbT.
rewrite [X in _ + X]big_nat_cond [X in _ + X]big1 ?addr0; last by move=> i /andP [/andP [ni _] _]; rewrite ltnNge ni.
rewrite big_nat_cond (eq_bigr (fun _ => 1)); last by move=> i /andP [/andP [_ ni] _]; rewrite ni.
by rewrite -big_nat_cond big_const_nat subn0 iter_addr addr0.
Qed.
Theorem C68_phi_ext n (z : 'M[R]_n) (k : nat) :
  exists rel, (exists S, S <= entry_sum z + (k * n)%:R /\ pade_rel S rel) /\
    forall P, is_phi k z P -> forall i j,
      `|rs_phi_ext z k i j - P i j| <= rel * exp (ninf z + 1)%R.
Proof.
set W := z_ext z k; exists ((1 + eps) ^+ (2 ^ (matexp_pade W).2) - 1); split.
  by exists (entry_sum W); split; [exact: ext_sum|exact: rel_of].
move=> P /is_phiP -> i j.
have := matexp_err W 1; rewrite scale1r => h.
have -> : phi k z = f_phi_k_ext (fun m (A : 'M[R]_m) => expmx A) z k by rewrite f_phi_k_ext_phi.
rewrite !mxE; have h2 := ninf_entry (matexp W 1 - expmx W) (bidx ord0 i) (bidx ord_max j).
rewrite !mxE in h2; apply: le_trans h2 _; apply: le_trans h _.
have e0 : 0 <= (1 + eps) ^+ (2 ^ (matexp_pade W).2) - 1.
  by rewrite subr_ge0 exprn_ege1 // ler_addl eps_ge0.
by apply: ler_wpmul2l => //; apply: exp_le; exact: ext_ninf.
Qed.
Print Assumptions C68_phi_ext.

(* PadeExpm::phik_apply *)
Theorem C68_phik_apply n (A : 'M[R]_n) dt (v : 'cV[R]_n) (k : nat) :
  exists rel, (exists S, S <= entry_sum (dt *: A) + (k * n)%:R /\ pade_rel S rel) /\
    forall P, is_phi k (dt *: A) P -> forall i,
      `|pade_phik_apply A dt v k i 0 - (P *m v) i 0| <= rel * exp (ninf (dt *: A) + 1)%R * \sum_l `|v l 0|.
Proof.
have [rel [h1 h2]] := C68_phi_ext (dt *: A) k; exists rel; split=> // P hP i.
rewrite /pade_phik_apply !mxE -sumrB; apply: le_trans (ler_norm_sum _ _ _) _.
rewrite mulr_sumr; apply: ler_sum => l _; rewrite -mulrBl normrM.
by apply: ler_wpmul2r => //; exact: h2.
Qed.
Print Assumptions C68_phik_apply.

(* the hypotheses are met: a regular matrix, and a matrix under the smallest threshold *)
Example C68_hyps_met : ((2%:R *: 1%:M : 'M[R]_2) \in unitmx) /\ ninf (100%:R^-1 *: 1%:M : 'M[R]_2) <= th3.
Proof.
split; first by rewrite unitmxZ ?unitmx1 // unitfE pnatr_eq0.
rewrite ninfZ ger0_norm ?invr_ge0 ?ler0n //.
apply: (@le_trans _ _ 100%:R^-1).
  by apply: ler_pimulr; [rewrite invr_ge0 ler0n|exact: ninf1].
rewrite /th3 ler_pdivl_mulr; last by apply/RltP; exact: IZR_lt.
rewrite mulrC ler_pdivr_mulr ?ltr0n // -(IZR_nat 100) -IZR_mul; exact/IZR_leP.
Qed.
