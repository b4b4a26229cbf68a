(* ProofsPade.v : the diagonal Pade approximants of exp used by matexp_pade.rs: remainder series. *)
From Coq Require Import Reals ZArith.
From mathcomp Require Import all_ssreflect all_algebra.
From mathcomp Require Import ring.
From Verif Require Import Rstruct Summable MxBase MxSeries ProofsPhiErr.
Set Implicit Arguments.
Unset Strict Implicit.
Unset Printing Implicit Defensive.
Import Order.TTheory GRing.Theory Num.Theory.
Local Open Scope ring_scope.

(* ---------------- integer side ---------------- *)
(* sum_j (-1)^j b_j k(k-1)...(k-j+1), by Horner *)
Fixpoint hz (bs : seq Z) (k i : Z) : Z :=
  if bs is b :: bs' then Z.sub b (Z.mul (Z.sub k i) (hz bs' k (Z.add i 1))) else Z0.
(* (l-k)(l+1-k)...(l+c-1-k) *)
Fixpoint prodz (l : Z) (c : nat) (k : Z) : Z :=
  if c is c'.+1 then Z.mul (Z.sub l k) (prodz (Z.add l 1) c' k) else Zpos xH.

Lemma IZR_nat (k : nat) : IZR (Z.of_nat k) = k%:R :> R.
Proof. by rewrite -INR_IZR_INZ INRE. Qed.
Lemma IZR_sub a b : IZR (Z.sub a b) = IZR a - IZR b :> R. Proof. by rewrite minus_IZR. Qed.
Lemma IZR_mul a b : IZR (Z.mul a b) = IZR a * IZR b :> R. Proof. by rewrite mult_IZR. Qed.

Definition cb (bs : seq Z) (i : nat) : R_ringType := IZR (nth Z0 bs i).
Definition sg (c : nat -> R_ringType) (i : nat) : R_ringType := (-1) ^+ i * c i.

Lemma hz_sum bs (k i : nat) :
  \sum_(j < size bs) (-1) ^+ j * cb bs j * (k ^_ (i + j))%:R = (k ^_ i)%:R * IZR (hz bs (Z.of_nat k) (Z.of_nat i)) :> R.
Proof.
elim: bs i => [|b bs IH] i; first by rewrite big_ord0 /= mulr0.
rewrite /= big_ord_recl expr0 mul1r addn0 IZR_sub IZR_mul IZR_sub !IZR_nat.
have -> : Z.add (Z.of_nat i) 1 = Z.of_nat i.+1 by rewrite Nat2Z.inj_succ.
have -> : \sum_(i0 < size bs) (-1) ^+ lift ord0 i0 * cb (b :: bs) (lift ord0 i0) * (k ^_ (i + lift ord0 i0))%:R
   = - \sum_(j < size bs) (-1) ^+ j * cb bs j * (k ^_ (i.+1 + j))%:R :> R.
  rewrite -sumrN; apply: eq_bigr => j _; rewrite /cb /= /bump /= add1n addSnnS exprS.
  by move: (IZR _) ((-1) ^+ _) (_ %:R) => *; ring.
rewrite IH /cb /=.
have e : (k ^_ i.+1)%:R = (k ^_ i)%:R * (k%:R - i%:R) :> R.
  rewrite ffactnSr natrM; have [ik|ki] := leqP i k; first by rewrite natrB.
  by rewrite ffact_small // !mul0r.
by rewrite e; move: (IZR b) (IZR _) (_ %:R) (_ %:R) (_ %:R) => *; ring.
Qed.

(* the coefficients of q(z) e^z *)
Lemma conv_hz bs (k : nat) : conv (sg (cb bs)) (fun i => ifact _ i) k = IZR (hz bs (Z.of_nat k) 0) / k`!%:R :> R.
Proof.
have f0 m : (m`!%:R : R) != 0 by rewrite pnatr_eq0 -lt0n fact_gt0.
have := hz_sum bs k 0; rewrite ffactn0 mul1r => <-.
rewrite /conv mulr_suml.
pose G (j : nat) := (-1) ^+ j * cb bs j * (k ^_ j)%:R / k`!%:R : R.
have e1 : \sum_(i < k.+1) sg (cb bs) i * ifact _ (k - i) = \sum_(i < k.+1) G i :> R.
  apply: eq_bigr => i _; rewrite /sg /G /ifact.
  have ik : (i <= k)%N by rewrite -ltnS.
  have := ffact_fact ik => /(congr1 (fun x => x%:R : R)); rewrite natrM => e.
  move: ((-1) ^+ i * cb bs i) => A; apply: (mulIf (f0 k)); rewrite mulfVK // -e.
  by rewrite [(_ ^_ _)%:R * _]mulrC mulrA mulfVK.
have GZ1 j : (k < j)%N -> G j = 0 by move=> kj; rewrite /G ffact_small // mulr0 mul0r.
have GZ2 j : (size bs <= j)%N -> G j = 0 by move=> kj; rewrite /G /cb nth_default // mulr0 !mul0r.
have ext a b : (a <= b)%N -> (forall j, (a <= j)%N -> G j = 0) -> \sum_(i < a) G i = \sum_(i < b) G i.
  move=> ab h; rewrite -(subnKC ab) -(big_mkord xpredT G) -[RHS](big_mkord xpredT G).
  rewrite [RHS](@big_cat_nat _ _ _ a) ?leq_addr //= [X in _ + X]big_nat_cond [X in _ + X]big1 ?addr0 // => j /andP [/andP [h1 _] _].
  exact: h.
rewrite e1; transitivity (\sum_(i < maxn k.+1 (size bs)) G i).
  by apply: ext; rewrite ?leq_maxl.
by rewrite -(ext (size bs)) ?leq_maxr // => j; apply: GZ2.
Qed.
Lemma prodz_zero (l c k : nat) : (l <= k)%N -> (k < l + c)%N -> prodz (Z.of_nat l) c (Z.of_nat k) = Z0.
Proof.
elim: c l => [|c IH] l; first by rewrite addn0 leqNgt => /negbTE ->.
move=> lk kc /=; have -> : Z.add (Z.of_nat l) 1 = Z.of_nat l.+1 by rewrite Nat2Z.inj_succ.
move: lk; rewrite leq_eqVlt => /orP [/eqP <-|lk]; first by rewrite Z.sub_diag.
by rewrite IH ?Z.mul_0_r // addSnnS.
Qed.
Lemma prodz_abs (l c k : nat) : (l + c <= k.+1)%N -> `|IZR (prodz (Z.of_nat l) c (Z.of_nat k))| = ((k - l) ^_ c)%:R :> R.
Proof.
elim: c l => [|c IH] l lk /=; first by rewrite ffactn0 normr1.
have -> : Z.add (Z.of_nat l) 1 = Z.of_nat l.+1 by rewrite Nat2Z.inj_succ.
rewrite IZR_mul normrM IH ?addSnnS // IZR_sub !IZR_nat distrC.
have lk' : (l <= k)%N by rewrite -ltnS (leq_trans _ lk) // addnS ltnS leq_addr.
rewrite -natrB // normr_nat -natrM; congr (_ %:R).
by rewrite subnS ffactnS.
Qed.
Lemma fact_ratio a b r : (a <= b)%N -> ((a + r)`! * b`! <= a`! * (b + r)`!)%N.
Proof.
move=> ab; elim: r => [|r IH]; first by rewrite !addn0.
rewrite !addnS !factS mulnAC [(a`! * _)%N]mulnCA -mulnA leq_mul // ?ltnS ?leq_add2r //.
by rewrite mulnC.
Qed.

(* ---------------- the remainder q(Z) e^Z - p(Z) ---------------- *)
Lemma mxser_fin n (c : nat -> R) N (Z : 'M[R]_n) : (forall i, (N <= i)%N -> c i = 0) ->
  entire c /\ mxser c Z = \sum_(i < N) c i *: mxpow Z i.
Proof.
elim: N c => [|N IH] c h.
  have e : c =1 (fun i => 0 * ifact _ i) by move=> i; rewrite mul0r h.
  have en : entire c by apply: entire_ext (fun i => esym (e i)) _; apply: entireZ; have := entire_ifact 0; apply: entire_ext => i; rewrite addn0.
  by split=> //; rewrite big_ord0 (mxser_ext _ e) mxserZ scale0r.
have [en e] := IH (fun i => c i.+1) (fun i hi => h i.+1 hi).
have enc : entire c.
  move=> x; apply/summableS; have := summableZ x (en x); apply: summable_ext => i.
  by rewrite exprS mulrCA.
split=> //; rewrite mxser_shift // e big_ord_recl /= mulmx_sumr; congr (_ + _).
by apply: eq_bigr => i _; rewrite -scalemxAr.
Qed.

Section Order.
Variables (bs : seq Z) (m : nat).
Hypothesis sz : size bs = m.+1.
Hypothesis hid : forall k : Z, hz bs k 0 = prodz (Z.of_nat m.+1) m k.
Hypothesis hlow : forall k : nat, (k <= m)%N -> Z.mul (nth Z0 bs k) (Z.of_nat k`!) = prodz (Z.of_nat m.+1) m (Z.of_nat k).

Definition qmx n (Z : 'M[R]_n) := mxser (sg (cb bs)) Z.
Definition pmx n (Z : 'M[R]_n) := mxser (cb bs) Z.
Lemma cb0 i : (m.+1 <= i)%N -> cb bs i = 0.
Proof. by move=> h; rewrite /cb nth_default // sz. Qed.
Lemma sg0 i : (m.+1 <= i)%N -> sg (cb bs) i = 0.
Proof. by move=> h; rewrite /sg cb0 // mulr0. Qed.
Lemma ent_if : entire (fun i => ifact [fieldType of R] i).
Proof. by have := entire_ifact 0; apply: entire_ext => i; rewrite addn0. Qed.
Lemma expmx_ser n (Z : 'M[R]_n) : expmx Z = mxser (fun i => ifact _ i) Z.
Proof. by apply: mxser_ext => i; rewrite addn0. Qed.
Lemma conv_low k : (k < (2 * m).+1)%N -> conv (sg (cb bs)) (fun i => ifact _ i) k = cb bs k.
Proof.
move=> k2; have f0 : (k`!%:R : R) != 0 by rewrite pnatr_eq0 -lt0n fact_gt0.
rewrite conv_hz hid; have [km|mk] := leqP k m.
  by rewrite -hlow // IZR_mul IZR_nat mulfK.
by rewrite prodz_zero ?mul0r ?cb0 // addSn addnn -mul2n.
Qed.
Lemma conv_high r : `|conv (sg (cb bs)) (fun i => ifact _ i) ((2 * m).+1 + r)%N| <= m`!%:R / (2 * m).+1`!%:R * ifact _ r.
Proof.
have f0 k : 0 < (k`!%:R : R) by rewrite ltr0n fact_gt0.
rewrite conv_hz hid normrM prodz_abs; last by rewrite mul2n -addnn !addSn !ltnS (leq_trans _ (leqnSn _)) // leq_addr.
have -> : ((2 * m).+1 + r - m.+1 = m + r)%N by rewrite addSn subSS mul2n -addnn -addnA addKn.
rewrite ger0_norm ?invr_ge0 ?ler0n // /ifact -mulrA -invfM -natrM ler_pdivr_mulr //.
rewrite mulrAC ler_pdivl_mulr ?ltr0n ?muln_gt0 ?fact_gt0 // -!natrM ler_nat.
have e : ((m + r) ^_ m * r`! = (m + r)`!)%N by have := ffact_fact (leq_addr r m); rewrite addKn.
rewrite mulnA mulnAC e; apply: fact_ratio.
by rewrite mul2n -addnn -addnS leq_addr.
Qed.
Lemma pade_remainder n (Z : 'M[R]_n) :
  ninf (qmx Z *m expmx Z - pmx Z) <= m`!%:R / (2 * m).+1`!%:R * (ninf Z ^+ (2 * m).+1 * exp (ninf Z)).
Proof.
have [ep _] := mxser_fin Z cb0; have [eq _] := mxser_fin Z sg0.
set c := conv (sg (cb bs)) (fun i => ifact _ i).
have ec : entire c by apply: entire_conv => //; exact: ent_if.
rewrite expmx_ser /qmx mxserM //; last exact: ent_if.
rewrite -scaleN1r -mxserZ -mxserD //; last exact: entireZ.
set d := fun i => _; have ed : entire d by apply: entireD => //; apply: entireZ.
apply: le_trans (ninf_mxser Z ed) _.
set th := ninf Z; have t0 : 0 <= th by exact: ninf_ge0.
set K := m`!%:R / (2 * m).+1`!%:R : R.
have K0 : 0 <= K by rewrite divr_ge0 ?ler0n.
pose u (i : nat) : R := K * th ^+ (2 * m).+1 * (ifact _ i * th ^+ i).
have su : summable u by apply: summableZ; apply: ent_if.
have -> : K * (th ^+ (2 * m).+1 * exp th) = ssum u by rewrite ssumZ -exp_ssum mulrA.
rewrite -(ssum_delay (2 * m).+1 su); apply: ssum_le.
- apply: summable_ext (summable_abs (ed th)) => i; by rewrite normrM normrX [`|th|]ger0_norm.
- exact: summable_delay.
move=> i; rewrite /d ?RplusE ?RmultE; have [hi|hi] := leqP (2 * m).+1 i; last first.
  rewrite /c conv_low //.
  by rewrite mulN1r subrr normr0 mul0r.
have mi : (m.+1 <= i)%N by apply: leq_trans hi; rewrite ltnS mul2n -addnn leq_addr.
rewrite cb0 // mulr0 addr0 /u -{1 2}(subnKC hi) exprD.
have := conv_high (i - (2 * m).+1); rewrite -/c -/K => h.
have p0 : 0 <= th ^+ (2 * m).+1 * th ^+ (i - (2 * m).+1) by rewrite mulr_ge0 ?exprn_ge0.
apply: le_trans (ler_wpmul2r p0 h) _.
by rewrite mulrACA lexx.
Qed.
End Order.
