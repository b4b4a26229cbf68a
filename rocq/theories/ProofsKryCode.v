(* ProofsKryCode.v : f_phi_k_appl and phi_linop with the exponential the code really uses for
   k > 0 (f_phi_k_sq with k = 0, degree-4 start) *)
From Coq Require Import Reals.
From Coquelicot Require Import Coquelicot.
From mathcomp Require Import all_ssreflect all_algebra.
From mathcomp Require Import ring.
From Verif Require Import Rstruct Summable MxBase MxSeries ModelHist ModelOps SpecOps ProofsOps.
From Verif Require Import ModelPhi ModelPhiR ProofsPhiR ProofsPhiErr ModelKrylov ProofsKrylov ProofsKrylov2.
From Verif Require Import ProofsKrylov3 ProofsKiops.
Set Implicit Arguments.
Unset Strict Implicit.
Unset Printing Implicit Defensive.
Import Order.TTheory GRing.Theory Num.Theory.
Local Open Scope ring_scope.
Local Opaque breakdown_tol norm2.

Definition sq_err0 (th : R) : R := (th / (8%:R ^+ 4 * 120%:R) * exp th)%R.
Lemma sq_err0_ge0 th : 0 <= th -> 0 <= sq_err0 th.
Proof.
move=> h; apply: mulr_ge0; last exact: exp_ge0.
apply: mulr_ge0 => //; rewrite invr_ge0.
by apply: mulr_ge0; [apply: exprn_ge0|]; rewrite ler0n.
Qed.
Lemma sq_err0_le (a b : R) : 0 <= a -> a <= b -> sq_err0 a <= sq_err0 b.
Proof.
move=> a0 ab; have c0 : 0 <= ((8%:R ^+ 4 * 120%:R)^-1 : R).
  by rewrite invr_ge0 mulr_ge0 ?exprn_ge0 ?ler0n.
apply: ler_pmul; rewrite ?exp_ge0 ?mulr_ge0 //; last exact: exp_le.
by rewrite ler_wpmul2r.
Qed.

Lemma expk_code_err n (A : 'M[R]_n) : ninf (expk_code A - expmx A) <= sq_err0 (ninf A).
Proof.
have [phis [e [s h]]] := @f_phi_k_sq_all_err n A 0 isT.
have := h 0%N isT; rewrite mul0r mul0r addr0 => h0.
have -> : expk_code A = nth 0 phis 0.
  by rewrite /expk_code /f_phi_k_sq /f_phi_k_sq_at; move: e; rewrite /f_phi_k_sq_all => ->.
by rewrite -ninfN opprB.
Qed.

Lemma appl_ext_norm n m (z : 'M[R]_n) (B : 'M[R]_(n, m)) k :
  ninf (appl_ext z B k.+1) <= ninf z + ninf B + 1.
Proof.
apply: ninf_le => [|i]; first by rewrite !addr_ge0 ?ninf_ge0 // ler01.
under eq_bigr do rewrite mxE /appl_entry.
case: ltnP => hi.
  rewrite (insubT (fun x => x < n)%N hi) big_split_ord /= -addrA; apply: ler_add.
    apply: le_trans (ninf_row _ (Sub (i : nat) hi)); apply: ler_sum => b _.
    rewrite ltn_ord (insubT (fun x => x < n)%N (ltn_ord b)).
    by have -> : Sub (b : nat) (ltn_ord b) = b by apply: val_inj.
  apply: (@le_trans _ _ (ninf B)); last by rewrite ler_addl ler01.
  apply: le_trans (ninf_row _ (Sub (i : nat) hi)).
  rewrite -(big_mkord xpredT (fun j => `|if (n + j < n)%N then
     (if insub (n + j)%N is Some b then z (Sub (i : nat) hi) b else 0)
     else if (n + j < n + m)%N then (if insub (n + j - n)%N is Some b then B (Sub (i : nat) hi) b else 0) else 0|)).
  rewrite (@big_cat_nat _ _ _ m) //=; last by rewrite mulSn leq_addr.
  rewrite [X in _ + X]big1_seq ?addr0 => [|j /andP[_]]; last first.
    by rewrite mem_index_iota => /andP[mj _]; rewrite ltnNge leq_addr /= ltn_add2l ltnNge mj /= normr0.
  rewrite big_mkord; apply: ler_sum => b _.
  rewrite ltnNge leq_addr /= ltn_add2l ltn_ord addKn (insubT (fun x => x < m)%N (ltn_ord b)).
  by have -> : Sub (b : nat) (ltn_ord b) = b by apply: val_inj.
apply: (@le_trans _ _ 1); last by rewrite ler_addr addr_ge0 ?ninf_ge0.
case: (i < n + k.+1.-1 * m)%N; last by rewrite big1 ?ler01 // => j _; rewrite normr0.
pose f (j : 'I_(n + k.+1 * m)) : R := ((j : nat) == (n + m) + (i - n))%N%:R.
apply: (@le_trans _ _ (\sum_j f j)).
  apply: ler_sum => j _; rewrite /f; case: ltnP => hj; first by rewrite normr0 ler0n.
  by rewrite normr_nat -(eqn_add2l (n + m)) subnKC // eq_sym.
rewrite /f; case: (ltnP ((n + m) + (i - n)) (n + k.+1 * m)) => h.
  rewrite (bigD1 (Ordinal h)) //= eqxx big1 ?addr0 ?lexx // => j.
  by rewrite -val_eqE /= => /negPf->.
rewrite big1 ?ler01 // => j _; rewrite ltn_eqF //; exact: leq_trans (ltn_ord j) h.
Qed.

Lemma sum_sub (I J : finType) (h : I -> J) (g : J -> R) : injective h -> (forall j, 0 <= g j) ->
  \sum_i g (h i) <= \sum_j g j.
Proof.
move=> hi g0; rewrite -(big_map h xpredT g) big_uniq /=; last by rewrite map_inj_uniq // index_enum_uniq.
rewrite [X in _ <= X](bigID (mem (map h (index_enum I)))) /= ler_addl; exact: sumr_ge0.
Qed.

Section Code.
Variable expm : forall n, 'M[R]_n -> 'M[R]_n.
Hypothesis expmE : forall n (A : 'M[R]_n), expm A = expmx A.

Lemma appl_code_diff n m (z : 'M[R]_n) (B : 'M[R]_(n, m)) k :
  ninf (f_phi_k_appl expm expk_code z B k - f_phi_k_appl expm expmx z B k)
  <= sq_err0 (ninf z + ninf B + 1)%R * (0 < k)%N%:R.
Proof.
case: k => [|k]; first by rewrite subrr ninf0 mulr0.
rewrite mulr1; set T := appl_ext z B k.+1.
apply: (@le_trans _ _ (ninf (expk_code T - expmx T))); last first.
  apply: le_trans (expk_code_err T) _; apply: sq_err0_le; first exact: ninf_ge0.
  exact: appl_ext_norm.
apply: ninf_le => [|a]; first exact: ninf_ge0.
apply: le_trans (ninf_row _ (lshift _ a)); rewrite big_split_ord /=.
rewrite -[X in X <= _]add0r; apply: ler_add; first by apply: sumr_ge0.
have inj : injective (fun b : 'I_m => bidx (ord_max : 'I_k.+1) b).
  by move=> b b' /(congr1 val) /= /addnI /val_inj.
apply: le_trans (sum_sub (g := fun j => `|(expk_code T - expmx T) (lshift _ a) (rshift n j)|) inj _).
  by apply: ler_sum => b _; rewrite !mxE.
by move=> j; apply: normr_ge0.
Qed.

Lemma phi_linop_code_err n (L : 'cV[R]_n -> 'cV[R]_n) (A : 'M[R]_n) (dt : R) v m iom j :
  (forall v, L v = A *m v) -> (0 < m)%N -> (minn n m <= iom.+1)%N ->
  let th := ninf (dt *: A) in
  exists w, phi_linop expm expk_code L dt v j m iom = Ok w /\
  ninf (w - phi j (dt *: A) *m v) <=
    norm2 v * (stop_err n th + trunc_err n m j th
               + m%:R * sq_err0 (n%:R * m%:R * th + 2%:R)%R * (0 < j)%N%:R).
Proof.
move=> LA m0 h th.
have th0 : 0 <= th by apply: ninf_ge0.
have arg0 : 0 <= n%:R * m%:R * th + 2%:R by rewrite addr_ge0 ?ler0n // !mulr_ge0 ?ler0n.
have e0 : 0 <= m%:R * sq_err0 (n%:R * m%:R * th + 2%:R)%R * (0 < j)%N%:R.
  by rewrite mulr_ge0 ?ler0n // mulr_ge0 ?ler0n // sq_err0_ge0.
have [w [hw he]] := phi_linop_err expmE (fun n (A : 'M[R]_n) => erefl (expmx A)) dt v j LA m0 h.
have [v0|v0] := eqVneq v 0.
  exists 0; rewrite v0 phi_linop_0 mulmx0 subr0 ninf0; split=> //.
  by rewrite mulr_ge0 ?norm2_ge0 // !addr_ge0 ?stop_err_ge0 ?trunc_err_ge0.
have [hc _] := phi_linopE expm expk_code L dt j iom v0 m0.
have [hx _] := phi_linopE expm expmx L dt j iom v0 m0.
rewrite hc; eexists; split; first by [].
rewrite hx in hw; case: hw => hw; rewrite -/th in he.
set st := arnoldi_lop_jit _ _ _ _ _ in hw *.
set w' := _ *: _.
have -> : w' - phi j (dt *: A) *m v = (w' - w) + (w - phi j (dt *: A) *m v) by rewrite addrA subrK.
apply: le_trans (ninfD _ _) _; rewrite mulrDr addrC; apply: ler_add => //.
rewrite /w' -hw -scalerBr -mulmxBr ninfZ ger0_norm ?norm2_ge0 // ler_wpmul2l ?norm2_ge0 //.
apply: le_trans (ninfM _ _) _; rewrite -mulrA; apply: ler_pmul; rewrite ?ninf_ge0 //.
  apply: (@le_trans _ _ ((a_k st)%:R * 1)).
    apply: (ninf_cst ler01) => a b; exact: (st_Q1 v0 m0).
  rewrite mulr1 ler_nat; have /andP[_ hk] := st_k L dt iom v0 m0; by rewrite (leq_trans hk) // geq_minr.
apply: le_trans (appl_code_diff _ _ _) _; rewrite ler_wpmul2r ?ler0n //.
apply: sq_err0_le; first by rewrite !addr_ge0 ?ninf_ge0 // ler01.
rewrite -addrA; apply: ler_add; first exact: st_Hn.
have -> : 2%:R = 1 + 1 :> R by [].
rewrite ler_add2r.
rewrite -[X in _ <= X]mulr1; apply: (@ninf_cst _ 1 _ _ ler01) => a b; rewrite mxE normr_nat.
by case: eqP => _; rewrite ?ler01 ?lexx.
Qed.
End Code.
