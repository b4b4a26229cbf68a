(* ProofsLejaDD2.v : accuracy of the coefficient routines over the reals. *)
From Coq Require Import Reals Lra Lia.
From mathcomp Require Import all_ssreflect all_algebra.
From mathcomp Require Import ring.
From Verif Require Import Rstruct Summable MxBase MxSeries ModelPhi ProofsPhi ProofsPhiR ProofsPhiErr ProofsProg3.
From Verif Require Import ModelHist ModelLeja ModelLejaR SpecLeja ProofsLeja ProofsLejaDD.
Set Implicit Arguments.
Unset Strict Implicit.
Unset Printing Implicit Defensive.
Import Order.TTheory GRing.Theory Num.Theory.
Local Open Scope ring_scope.

Lemma expmx_scalar n (c : R) : expmx (c%:M : 'M[R]_n) = (exp c)%:M.
Proof. by rewrite -[c%:M]add0r expmx_shift expmx0 scale_scalar_mx mulr1. Qed.

Lemma expmx_left_eig : left_eig_exp (K := R_fieldType) exp (fun n => @expmx n).
Proof.
move=> m M w lam h.
have hi : (lam%:M : 'M[R]_1) *m w = w *m M by rewrite h mul_scalar_mx.
by rewrite -(phi_intertwine 0 hi) -/(expmx _) expmx_scalar mul_scalar_mx.
Qed.

(* scalar Taylor remainder of exp *)
Lemma taylor_rem (y : R) N : `|\sum_(i < N) (i`!%:R)^-1 * y ^+ i - exp y| <= (N`!%:R)^-1 * `|y| ^+ N * exp `|y|.
Proof.
pose Z : 'M[R]_1 := y%:M.
have e : (exp y)%:M = phi_psum 0 N Z + mxpow Z N *m phi (N + 0) Z by rewrite -expmx_scalar; apply: phi_remainder.
rewrite /Z psum_scalar in e.
have nZ : ninf Z = `|y|.
  apply/eqP; rewrite eq_le; apply/andP; split.
    by apply: ninf_le => // a; rewrite big_ord1 mxE (ord1 a) eqxx mulr1n.
  by have := ninf_entry Z 0 0; rewrite mxE eqxx mulr1n.
have := congr1 (fun A : 'M[R]_1 => A 0 0) e; rewrite !mxE eqxx !mulr1n addn0 => e0.
have {e0}-> : \sum_(i < N) (i`!%:R)^-1 * y ^+ i - exp y = - (mxpow Z N *m phi N Z) 0 0.
  by rewrite e0 !mxE /ifact opprD addNKr.
rewrite normrN; apply: le_trans (ninf_entry _ _ _) _.
apply: le_trans (ninfM _ _) _.
have h1 := ninf_pow Z N; have h2 := ninf_phi Z N.
rewrite nZ in h1 h2.
apply: le_trans (ler_pmul _ _ h1 h2) _; rewrite ?ninf_ge0 //.
by rewrite mulrCA mulrA.
Qed.

Local Open Scope R_scope.
Lemma dd_nsq_real (mz : R) : mz <= 2 ^ dd_nsq_of mz /\ (0 < dd_nsq_of mz)%coq_nat.
Proof.
have l2 : 0 < ln 2 by rewrite -ln_1; apply: ln_increasing; lra.
set N := dd_nsq_of mz.
have eZ : Z.of_nat N = Z.max (rceil (ln mz / ln 2)) 1 by rewrite /N /dd_nsq_of Z2Nat.id //; lia.
have N0 : (0 < N)%coq_nat by lia.
split=> //.
have p2 m : 1 <= 2 ^ m by apply: pow_R1_Rle; lra.
case: (Rle_lt_dec mz 1) => h; first by have := p2 N; lra.
set L := (ln mz / ln 2) in eZ *.
have hL : L <= IZR (rceil L).
  by rewrite /rceil opp_IZR; have := base_Int_part (- L); lra.
have hN : L <= INR N.
  rewrite INR_IZR_INZ eZ; apply: Rle_trans hL _; apply: IZR_le; lia.
have -> : 2 ^ N = exp (INR N * ln 2) by rewrite -Rpower_pow; [|lra].
have e : mz = exp (L * ln 2).
  rewrite /L /Rdiv Rmult_assoc Rinv_l; last lra.
  by rewrite Rmult_1_r exp_ln //; lra.
rewrite {1}e; case: (Rle_lt_or_eq_dec _ _ hN) => [hlt|<-]; last exact: Rle_refl.
left; apply: exp_increasing; exact: Rmult_lt_compat_r.
Qed.
Local Close Scope R_scope.
Lemma dd_nsq_ge (mz : R) : (mz <= 2%:R ^+ dd_nsq_of mz) && (0 < dd_nsq_of mz)%N.
Proof.
have [h1 /ssrnat.ltP ->] := dd_nsq_real mz; rewrite andbT.
have e2 : IZR 2 = 2%:R :> R by rewrite -INRE /=; lra.
by rewrite e2 powE in h1; apply/RleP.
Qed.

Lemma bigmax_ge (F : realDomainType) n (f : 'I_n -> F) i : f i <= \big[Order.max/0]_j f j.
Proof.
have : i \in index_enum (ordinal_finType n) by rewrite mem_index_enum.
elim: (index_enum _) => [//|k r IH]; rewrite inE big_cons le_maxr => /orP[/eqP <-|/IH ->].
  by rewrite lexx.
by rewrite orbT.
Qed.
Lemma maxabs_entry_gen (F : realDomainType) m n (z : 'M[F]_(m, n)) i j : `|z i j| <= maxabs_of z.
Proof.
apply: le_trans (bigmax_ge (fun j => `|z i j|) j) _.
exact: (bigmax_ge (fun i => \big[Order.max/0]_j `|z i j|) i).
Qed.
Lemma maxabs_entry m n (z : 'M[R]_(m, n)) i j : `|z i j| <= maxabs_of z.
Proof. exact: maxabs_entry_gen. Qed.

(* exp 2 < 9 *)
Lemma exp2_lt9 : exp 2%:R <= 9%:R :> R.
Proof.
have h : (exp 1 : R) <= 3%:R by have := exp_le_3; have e3 : IZR 3 = 3%:R :> R by [rewrite -INRE /=; lra]; rewrite e3; move/RleP.
have -> : exp 2%:R = exp 1 ^+ 2 :> R by rewrite -(expMn 1 2) mulr1.
apply: le_trans (ler_expn2r 2 _ _ h) _; rewrite ?nnegrE ?exp_ge0 ?ler0n //.
by rewrite -natrX ler_nat.
Qed.

Definition taylor_eps_of (F : numFieldType) : F := 9%:R / 21`!%:R.
Definition taylor_eps : R := taylor_eps_of R_numFieldType.

Lemma taylor_rel (y : R) : `|y| <= 1 -> exists2 d : R, `|d| <= taylor_eps & tpoly (K := R_fieldType) 20 y = exp y * (1 + d).
Proof.
move=> hy; have ey := exp_gt0 y.
exists (tpoly (K := R_fieldType) 20 y / exp y - 1); last first.
  by rewrite addrC subrK mulrCA divff ?mulr1 // gt_eqF.
have -> : tpoly (K := R_fieldType) 20 y / exp y - 1 = (tpoly (K := R_fieldType) 20 y - exp y) / exp y.
  by rewrite mulrBl divff // gt_eqF.
rewrite normrM normfV [`|exp y|]ger0_norm ?exp_ge0 // ler_pdivr_mulr //.
apply: le_trans (taylor_rem y 21) _.
have f0 : 0 < (21`!%:R : R) by rewrite ltr0n fact_gt0.
rewrite /taylor_eps /taylor_eps_of; move: (21`!%:R) f0 => f f0.
have -> : 9%:R / f * exp y = f^-1 * (9%:R * exp y) by rewrite mulrC mulrCA mulrA mulrC.
rewrite -mulrA ler_wpmul2l ?invr_ge0 ?(ltW f0) //.
have h1 : `|y| ^+ 21 <= 1 by apply: exprn_ile1.
apply: (@le_trans _ _ (exp `|y|)); first by rewrite ler_pimull ?exp_ge0.
have hy2 : `|y| <= 2%:R + y.
  rewrite ler_norml in hy; case/andP: hy => ha hb.
  case: (lerP 0 y) => h0; first by rewrite ger0_norm // ler_addr ler0n.
  rewrite ltr0_norm // -subr_ge0.
  have -> : 2%:R + y - - y = 2%:R * (y - -1) by ring.
  by rewrite mulr_ge0 ?ler0n // subr_ge0.
apply: le_trans (exp_le hy2) _; rewrite expD ler_wpmul2r ?exp_ge0 //.
exact: exp2_lt9.
Qed.

Lemma pow1d (d e : R) m : `|d| <= e -> `|(1 + d) ^+ m - 1| <= (1 + e) ^+ m - 1.
Proof.
move=> hd; have e0 : 0 <= e by apply: le_trans hd.
elim: m => [|m IH]; first by rewrite !expr0 !subrr normr0.
have -> : (1 + d) ^+ m.+1 - 1 = (1 + d) * ((1 + d) ^+ m - 1) + d by rewrite exprS; ring.
have -> : (1 + e) ^+ m.+1 - 1 = (1 + e) * ((1 + e) ^+ m - 1) + e by rewrite exprS; ring.
apply: le_trans (ler_norm_add _ _) _; apply: ler_add => //; rewrite normrM; apply: ler_pmul => //.
by apply: le_trans (ler_norm_add _ _) _; rewrite normr1 ler_add2l.
Qed.

Lemma dd_taylor_accuracy (x : seq R) (shift scale : R) i : (i < size x)%N -> forall v : R, v = shift + scale * x`_i ->
  `|(newton_poly (K := R_fieldType) x (dd_exp_taylor_R x shift scale 1) (size x)).[x`_i] - exp v|
  <= ((1 + taylor_eps) ^+ (2 ^ dd_nsq x shift scale 1) - 1) * exp v.
Proof.
move=> hi v ev; set s := dd_nsq _ _ _ _.
have := @dd_taylor_interp R_fieldType exp s x shift scale 1 20 exp_0.
move=> /(_ i hi); rewrite (nth_map 0) // /dd_exp_taylor_R -/s => ->.
set mu := dd_mu x shift scale 1; rewrite !mul1r -ev.
set y := (v - mu) / 2%:R ^+ s.
have p2 : 0 < (2%:R ^+ s : R) by rewrite exprn_gt0 // ltr0n.
have hy : `|y| <= 1.
  rewrite normrM normfV [`|2%:R ^+ s|]ger0_norm ?(ltW p2) // ler_pdivr_mulr // mul1r.
  have /andP [h _] := dd_nsq_ge (maxabs_of (dd_z (K := R_fieldType) x shift scale 1)).
  apply: le_trans h; apply: le_trans (maxabs_entry _ (Ordinal hi) (Ordinal hi)).
  rewrite !mxE eqxx mulr1n mul1r -/mu.
  have -> : (Ordinal hi == (Ordinal hi).+1 :> nat) = false by rewrite /= ltn_eqF.
  by rewrite addr0 mulr1n /= -ev.
have [d hd ->] := taylor_rel hy.
have -> : exp mu * (exp y * (1 + d)) ^+ (2 ^ s) = exp v * (1 + d) ^+ (2 ^ s).
  rewrite exprMn mulrA; congr (_ * _); rewrite -expMn -expD; congr exp.
  rewrite /y natrX mulrCA divff ?mulr1 ?(gt_eqF p2) //.
  by rewrite addrC -[RHS](subrK mu).
rewrite -{2}[exp v]mulr1 -mulrBr normrM [`|exp v|]ger0_norm ?exp_ge0 // mulrC.
by rewrite ler_wpmul2r ?exp_ge0 // pow1d.
Qed.
