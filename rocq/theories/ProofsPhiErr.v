(* ProofsPhiErr.v : scaling choice and truncation error of scaling and squaring. *)
From Coq Require Import Reals Lra Lia.
From Coquelicot Require Import Coquelicot.
From mathcomp Require Import all_ssreflect all_algebra.
From mathcomp Require Import ring.
From Verif Require Import Rstruct Summable MxBase MxSeries ModelPhi ModelPhiR ProofsPhi ProofsPhiR.
Set Implicit Arguments.
Unset Strict Implicit.
Unset Printing Implicit Defensive.
Import Order.TTheory GRing.Theory Num.Theory.
Local Open Scope ring_scope.

Lemma exp_ssum (x : R) : exp x = ssum (fun i => ifact _ i * x ^+ i).
Proof.
apply/esym/ssum_unique; have h := is_exp_Reals x.
apply: is_series_ext h => i.
have f0 : (i`!%:R : R) != 0 by rewrite pnatr_eq0 -lt0n fact_gt0.
rewrite pow_n_pow /scal /= /mult /= -powE /ifact coq_factE INRE -RinvE //; exact: Rmult_comm.
Qed.
Lemma expD (x y : R) : exp (x + y)%R = exp x * exp y.
Proof. exact: exp_plus. Qed.
Lemma exp_ge0 (x : R) : 0 <= exp x.
Proof. by apply/RleP; left; apply: exp_pos. Qed.
Lemma exp_gt0 (x : R) : 0 < exp x.
Proof. by apply/RltP; apply: exp_pos. Qed.
Lemma expMn (x : R) m : exp (m%:R * x)%R = exp x ^+ m.
Proof.
elim: m => [|m IH]; first by rewrite mulr0n mul0r expr0; exact: exp_0.
by rewrite -addn1 natrD mulrDl mul1r expD IH exprD expr1.
Qed.

Lemma ifactD_le (i k : nat) : ifact [numFieldType of R] (i + k) <= ifact _ k * ifact _ i.
Proof.
rewrite /ifact -invfM -natrM lef_pinv ?posrE ?ltr0n ?muln_gt0 ?fact_gt0 //.
rewrite ler_nat -(@bin_fact (i + k) k) ?leq_addl // addnK.
by rewrite -{1}[(_ * _)%N]mul1n leq_mul2r bin_gt0 leq_addl orbT.
Qed.

Lemma ninf_phi n (Z : 'M[R]_n) k : ninf (phi k Z) <= ifact _ k * exp (ninf Z).
Proof.
apply: le_trans (ninf_mxser Z (entire_ifact k)) _.
rewrite exp_ssum -ssumZ.
have E j : entire (fun i => ifact _ (i + j)) by apply: entire_ifact.
have E0 : entire (fun i => ifact _ i) by apply: entire_ext (E 0%N) => i; rewrite addn0.
have abs_ i : `|ifact [numFieldType of R] i| = ifact _ i by rewrite ger0_norm // ifact_ge0.
apply: ssum_le => [||i].
- by apply: summable_ext (E k (ninf Z)) => i; rewrite abs_.
- exact: summableZ (E0 (ninf Z)).
rewrite abs_ mulrA ler_wpmul2r ?exprn_ge0 ?ninf_ge0 //; exact: ifactD_le.
Qed.

Lemma phi_remainder n (Z : 'M[R]_n) k N : phi k Z = phi_psum k N Z + mxpow Z N *m phi (N + k) Z.
Proof.
elim: N => [|N IH]; first by rewrite phi_psum0 add0r mxpow0 mul1mx.
rewrite IH phi_psumSr -addrA; congr (_ + _).
by rewrite phi_rec mulmxDr -scalemxAr mulmx1 mxpowSr mulmxA.
Qed.

Lemma psum_le_ssum (u : nat -> R) N : summable u -> (forall i, 0 <= u i) -> \sum_(i < N) u i <= ssum u.
Proof.
elim: N u => [|N IH] u hu h; first by rewrite big_ord0 ssum_ge0.
rewrite big_ord_recl ssumS // ler_add2l.
apply: (IH (fun i => u i.+1)) => [|i]; last exact: h. 
exact: (proj1 (summableS u) hu).
Qed.
Lemma ninf_psum n (Z : 'M[R]_n) N : ninf (phi_psum 0 N Z) <= exp (ninf Z).
Proof.
rewrite exp_ssum.
have E0 : entire (fun i => ifact _ i) by apply: entire_ext (entire_ifact 0) => i; rewrite addn0.
apply: le_trans (psum_le_ssum N (E0 (ninf Z)) _); last first.
  by move=> i; rewrite mulr_ge0 ?ifact_ge0 ?exprn_ge0 ?ninf_ge0.
apply: le_trans (ninf_sum _ _ _) _; apply: ler_sum => i _.
rewrite ninfZ ger0_norm ?ifact_ge0 // addn0 ler_wpmul2l ?ifact_ge0 //; exact: ninf_pow.
Qed.

Lemma pow_diff n (A B : 'M[R]_n) (M : R) m : ninf A <= M -> ninf B <= M ->
  ninf (mxpow A m - mxpow B m) <= m%:R * ninf (A - B) * M ^+ m.-1.
Proof.
move=> hA hB; have M0 : 0 <= M by apply: le_trans hA; apply: ninf_ge0.
have hp (X : 'M[R]_n) i : ninf X <= M -> ninf (mxpow X i) <= M ^+ i.
  by move=> hX; apply: le_trans (ninf_pow _ _) _; apply: ler_expn2r; rewrite ?nnegrE ?ninf_ge0.
elim: m => [|m IH]; first by rewrite !mxpow0 subrr ninf0 !mul0r.
have -> : mxpow A m.+1 - mxpow B m.+1 = A *m (mxpow A m - mxpow B m) + (A - B) *m mxpow B m.
  by rewrite mulmxBr mulmxBl addrA subrK -!mxpowS.
apply: le_trans (ninfD _ _) _; have -> : m.+1%:R = m%:R + 1 :> R by rewrite -addn1 natrD.
rewrite [(m%:R + 1) * _]mulrDl mul1r mulrDl /=.
apply: ler_add.
  apply: le_trans (ninfM _ _) _.
  apply: (@le_trans _ _ (M * (m%:R * ninf (A - B) * M ^+ m.-1))).
    by apply: ler_pmul => //; apply: ninf_ge0.
  case: m {IH} => [|m]; first by rewrite !mul0r mulr0.
  by rewrite /= mulrCA -exprS.
apply: le_trans (ninfM _ _) _.
by rewrite ler_wpmul2l ?ninf_ge0 // hp.
Qed.

Local Open Scope R_scope.
Lemma nscale_real (th : R) : 0 <= th ->
  let N := Z.to_nat (Int_part (Rmax 0 (ln (th * 16) / ln 2))) in
  th < / 8 * 2 ^ N.
Proof.
move=> th0 /=.
have l2 : 0 < ln 2 by rewrite -ln_1; apply: ln_increasing; lra.
have p2 m : 1 <= 2 ^ m by apply: pow_R1_Rle; lra.
case: (Rlt_le_dec 1 (th * 16)) => h; last first.
  by have := p2 (Z.to_nat (Int_part (Rmax 0 (ln (th * 16) / ln 2)))); lra.
set L := ln (th * 16) / ln 2.
have L0 : 0 < L.
  apply: Rdiv_lt_0_compat => //; rewrite -ln_1; apply: ln_increasing; lra.
rewrite Rmax_right; last lra.
have [h1 h2] := base_Int_part L.
have z0 : Z.le Z0 (Int_part L).
  have : IZR (-1) < IZR (Int_part L) by lra.
  by move/lt_IZR; lia.
set N := Z.to_nat _.
have eN : INR N = IZR (Int_part L) by rewrite INR_IZR_INZ /N Z2Nat.id.
have e2 : 2 ^ N = exp (INR N * ln 2) by rewrite -Rpower_pow; [|lra].
have : (L - 1) * ln 2 < INR N * ln 2 by apply: Rmult_lt_compat_r => //; lra.
move/exp_increasing; rewrite -e2.
have -> : (L - 1) * ln 2 = ln (th * 16) - ln 2.
  rewrite /L /Rdiv Rmult_minus_distr_r Rmult_1_l Rmult_assoc Rinv_l; lra.
rewrite /Rminus exp_plus exp_Ropp !exp_ln; [|lra|lra].
by move=> hh; lra.
Qed.
Local Close Scope R_scope.

Lemma nscale_bound n (z : 'M[R]_n) : ninf z < 8%:R^-1 * 2%:R ^+ nscale z.
Proof.
have th0 : Rle (IZR 0) (ninf z) by apply/RleP; apply: ninf_ge0.
have h := nscale_real th0; apply/RltP; rewrite -/(nscale z) in h.
have e8 : IZR 8 = 8%:R :> R by rewrite -INRE /=; lra.
have e2 : IZR 2 = 2%:R :> R by rewrite -INRE /=; lra.
cbv zeta in h; rewrite e8 e2 powE RinvE in h; last by rewrite pnatr_eq0.
exact: h.
Qed.

Lemma ifact_le1 k : ifact [numFieldType of R] k <= 1.
Proof. by rewrite /ifact invf_le1 ?ltr0n ?fact_gt0 // ler1n fact_gt0. Qed.

Lemma exp_le (x y : R) : x <= y -> exp x <= exp y.
Proof. by move/RleP => [h|->] //; apply/RleP; left; apply: exp_increasing. Qed.
Lemma exp_ge1 (x : R) : 0 <= x -> 1 <= exp x.
Proof. by move=> h; have := exp_le h; rewrite [exp 0]exp_0. Qed.

Lemma aux (q a t b e : R) :
  q * ((a * t + b) * (e * e)) + q * (a * t * (e * e)) = (a * (2%:R * t) + b) * (e * e) * q.
Proof. ring. Qed.

Section SqErr.
Variables (n k : nat) (a : R) (b : nat -> R).
Hypothesis a0 : 0 <= a.
Hypothesis b0 : b 0%N = 0.
Hypothesis b_ge0 : forall j, 0 <= b j.
Hypothesis b_mono : forall l j, (l <= j)%N -> b l <= b j.

Definition errok (th : R) (Z : 'M[R]_n) (r : nat -> 'M[R]_n) : Prop :=
  forall j, (j <= k)%N -> ninf (r j) <= exp th /\ ninf (phi j Z - r j) <= (a * th + b j) * exp th.

Lemma expn2_ge (j : nat) : (j.+1%:R : R) <= 2%:R ^+ j.
Proof. by rewrite -natrX ler_nat; elim: j => // j IH; rewrite expnS mul2n -addnn -addn1 leq_add ?expn_gt0. Qed.

Lemma sq_err (th : R) Z (phis : seq 'M[R]_n) : 0 <= th -> ninf Z <= th ->
  errok th Z (nth 0 phis) -> errok (2%:R * th)%R (2%:R *: Z) (sq_spec phis).
Proof.
move=> th0 hZ h j jk.
have E1 : 1 <= exp th by apply: exp_ge1.
have E0 : 0 <= exp th by apply: exp_ge0.
have e2 : exp (2%:R * th) = exp th * exp th by rewrite expMn expr2.
have p0 l : ninf (phi l Z) <= exp th.
  apply: le_trans (ninf_phi _ _) _.
  apply: (@le_trans _ _ (exp (ninf Z))); first by rewrite ler_pimull ?exp_ge0 ?ifact_le1.
  exact: exp_le.
have [h0r h0e] := h 0%N (leq0n _); rewrite b0 addr0 in h0e.
have [jr je] := h j jk.
have t0 : 0 <= a * th by rewrite mulr_ge0.
rewrite /sq_spec; case: eqP => [->|/eqP j0].
  rewrite b0 addr0 phi_double0 e2; split.
    by apply: le_trans (ninfM _ _) _; rewrite ler_pmul ?ninf_ge0.
  have -> : phi 0 Z *m phi 0 Z - nth 0 phis 0 *m nth 0 phis 0 =
     phi 0 Z *m (phi 0 Z - nth 0 phis 0) + (phi 0 Z - nth 0 phis 0) *m nth 0 phis 0.
    by rewrite mulmxBr mulmxBl addrA subrK.
  apply: le_trans (ninfD _ _) _.
  have -> : a * (2%:R * th) * (exp th * exp th) = exp th * (a * th * exp th) + a * th * exp th * exp th by ring.
  by apply: ler_add; apply: le_trans (ninfM _ _) _; apply: ler_pmul; rewrite ?ninf_ge0.
have pj : 0 < (2%:R ^+ j : R) by rewrite exprn_gt0 // ltr0n.
have j1 : (0 < j)%N by rewrite lt0n.
rewrite e2; split.
  rewrite ninfZ ger0_norm ?invr_ge0 ?(ltW pj) // mulrC ler_pdivr_mulr //.
  apply: (@le_trans _ _ (j.+1%:R * (exp th * exp th))); last first.
    by rewrite mulrC ler_wpmul2l ?mulr_ge0 ?expn2_ge.
  apply: le_trans (ninfD _ _) _.
  have -> : j.+1%:R = 1 + j%:R :> R by rewrite -add1n natrD.
  rewrite mulrDl mul1r; apply: ler_add.
    by apply: le_trans (ninfM _ _) _; rewrite ler_pmul ?ninf_ge0.
  apply: le_trans (ninf_sum _ _ _) _.
  have -> : j%:R * (exp th * exp th) = \sum_(1 <= l < j.+1) (exp th * exp th).
    by rewrite sumr_const_nat subn1 /= mulr_natl.
  rewrite !big_nat; apply: ler_sum => l /andP[l1 lj].
  rewrite ninfZ ger0_norm ?ifact_ge0 //.
  apply: (@le_trans _ _ (exp th)); last by rewrite ler_pemull.
  have [hl _] := h l (@leq_trans j l k lj jk).
  by apply: le_trans hl; rewrite ler_pimull ?ninf_ge0 ?ifact_le1.
rewrite phi_double -scalerBr ninfZ ger0_norm ?invr_ge0 ?(ltW pj) // mulrC ler_pdivr_mulr //.
have -> : phi 0 Z *m phi j Z + \sum_(1 <= l < j.+1) ifact _ (j - l) *: phi l Z -
   (nth 0 phis 0 *m nth 0 phis j + \sum_(1 <= l < j.+1) ifact _ (j - l) *: nth 0 phis l) =
   (phi 0 Z *m (phi j Z - nth 0 phis j) + (phi 0 Z - nth 0 phis 0) *m nth 0 phis j)
   + \sum_(1 <= l < j.+1) ifact _ (j - l) *: (phi l Z - nth 0 phis l).
  rewrite opprD addrACA; congr (_ + _); first by rewrite mulmxBr mulmxBl addrA subrK.
  by rewrite -sumrB; apply: eq_bigr => l _; rewrite scalerBr.
set X := (a * th + b j) * (exp th * exp th).
have bj0 := b_ge0 j.
have X0 : 0 <= X by rewrite !mulr_ge0 // addr_ge0.
apply: (@le_trans _ _ (j.+1%:R * X + a * th * (exp th * exp th))); last first.
  apply: (@le_trans _ _ (2%:R ^+ j * X + 2%:R ^+ j * (a * th * (exp th * exp th)))).
    apply: ler_add; first by rewrite ler_wpmul2r ?expn2_ge.
    by rewrite ler_pemull ?mulr_ge0 // -natrX ler1n expn_gt0.
  by rewrite /X aux.
apply: le_trans (ninfD _ _) _.
have -> : j.+1%:R = 1 + j%:R :> R by rewrite -add1n natrD.
rewrite mulrDl mul1r addrAC; apply: ler_add.
  apply: le_trans (ninfD _ _) _; apply: ler_add; apply: le_trans (ninfM _ _) _.
    have -> : X = exp th * ((a * th + b j) * exp th) by rewrite /X; ring.
    by rewrite ler_pmul ?ninf_ge0.
  by rewrite mulrA ler_pmul ?ninf_ge0.
apply: le_trans (ninf_sum _ _ _) _.
have -> : j%:R * X = \sum_(1 <= l < j.+1) X by rewrite sumr_const_nat subn1 /= mulr_natl.
rewrite !big_nat; apply: ler_sum => l /andP[l1 lj].
rewrite ninfZ ger0_norm ?ifact_ge0 //.
have [_ hl] := h l (@leq_trans j l k lj jk).
apply: (@le_trans _ _ (ninf (phi l Z - nth 0 phis l))); first by rewrite ler_pimull ?ninf_ge0 ?ifact_le1.
apply: le_trans hl _; rewrite /X.
apply: (@le_trans _ _ ((a * th + b j) * exp th)).
  by rewrite ler_wpmul2r // ler_add2l b_mono.
by rewrite mulrA ler_pemulr // mulr_ge0 // addr_ge0.
Qed.
End SqErr.

(* C15: truncation error of scaling and squaring *)
Lemma f_phi_k_sq_all_err' n (z : 'M[R]_n) k : (k <= 3)%N ->
  exists phis, f_phi_k_sq_all z k = Some phis /\ size phis = k.+1 /\
  forall j, (j <= k)%N ->
    ninf (phi j z - nth 0 phis j) <=
    (ninf z * (Num.min (ninf z) 8%:R^-1 ^+ 4 / 120%:R) + (0 < j)%N%:R * (Num.min (ninf z) 8%:R^-1 ^+ (5 - j) / 120%:R)) * exp (ninf z).
Proof.
move=> k3; set N := nscale z; set X := (2%:R ^+ N)^-1 *: z; set h := ninf X.
have p2 : 0 < (2%:R ^+ N : R) by rewrite exprn_gt0 // ltr0n.
have zE : z = 2%:R ^+ N *: X by rewrite /X scalerA mulfV ?scale1r // gt_eqF.
have nz : ninf z = 2%:R ^+ N * h by rewrite {1}zE ninfZ ger0_norm // ltW.
have h0 : 0 <= h by apply: ninf_ge0.
have h8 : h <= 8%:R^-1.
  by have := nscale_bound z; rewrite -/N nz mulrC ltr_pmul2r // => /ltW.
have h1 : h <= 1 by apply: le_trans h8 _; rewrite invf_le1 ?ler1n ?ltr0n.
pose a := h ^+ 4 / 120%:R; pose b j := if j == 0%N then 0 else if (j <= 4)%N then h ^+ (5 - j) / 120%:R else 120%:R^-1.
have i120 : 0 <= (120%:R^-1 : R) by rewrite invr_ge0 ler0n.
have a0 : 0 <= a by rewrite mulr_ge0 ?exprn_ge0.
have bge j : 0 <= b j.
  by rewrite /b; case: ifP => // _; case: ifP => // _; rewrite mulr_ge0 ?exprn_ge0.
have bmono l j : (l <= j)%N -> b l <= b j.
  move=> lj; rewrite {1}/b; case: eqP => [_|/eqP l0]; first exact: bge.
  have j0 : j != 0%N by rewrite -lt0n; apply: leq_trans lj; rewrite lt0n.
  rewrite /b (negPf j0); case: (leqP l 4) => l4; case: (leqP j 4) => j4 //.
  - rewrite ler_wpmul2r //; apply: ler_wiexpn2l => //; exact: leq_sub2l.
  - by rewrite ler_pimull // exprn_ile1.
  - by move: (leq_trans l4 lj); rewrite ltnNge j4.
have -> : f_phi_k_sq_all z k = Some (iter N (sq_step k) [seq phi_psum j (4 - j).+1 X | j <- iota 0 k.+1]).
  by rewrite /f_phi_k_sq_all /f_phi_k_sq_all_at f_phi_k_poly_allE.
set P := [seq _ | j <- _].
have sP : size P = k.+1 by rewrite size_map size_iota.
have nP j : (j <= k)%N -> nth 0 P j = phi_psum j (4 - j).+1 X.
  by move=> jk; rewrite (nth_map 0%N) ?size_iota // nth_iota // add0n.
have base : errok k a b h X (nth 0 P).
  move=> j jk; rewrite nP //; have j4 : (j <= 4)%N by apply: leq_trans jk (leq_trans k3 _).
  split.
    have e0 := @exp_ge0 h.
    apply: le_trans (ninf_sum _ _ _) _.
    apply: (@le_trans _ _ (\sum_(i < (4 - j).+1) ifact _ i * h ^+ i)); last first.
      rewrite exp_ssum; apply: psum_le_ssum.
        by have := entire_ifact 0 h; apply: summable_ext => i; rewrite addn0.
      by move=> i; rewrite mulr_ge0 ?ifact_ge0 ?exprn_ge0.
    apply: ler_sum => i _; rewrite ninfZ ger0_norm ?ifact_ge0 //.
    rewrite ler_pmul ?ifact_ge0 ?ninf_ge0 ?ninf_pow //.
    apply: le_trans (ifactD_le _ _) _.
    by rewrite ler_pimull ?ifact_ge0 ?ifact_le1.
  rewrite (phi_remainder X j (4 - j).+1) addrAC subrr add0r addSn subnK //.
  apply: le_trans (ninfM _ _) _.
  have i5 : ifact [numFieldType of R] 5 = 120%:R^-1 by [].
  apply: (@le_trans _ _ (h ^+ (4 - j).+1 * (120%:R^-1 * exp h))).
    by rewrite ler_pmul ?ninf_ge0 ?ninf_pow // -i5; apply: ninf_phi.
  rewrite mulrA ler_wpmul2r ?exp_ge0 // -subSn // /b j4.
  case: eqP => [->|_]; first by rewrite addr0 /a [_ / _ * h]mulrAC -exprSr.
  by rewrite ler_addr mulr_ge0.
have main s : size (iter s (sq_step k) P) = k.+1 /\
   errok k a b (2%:R ^+ s * h)%R (2%:R ^+ s *: X) (nth 0 (iter s (sq_step k) P)).
  elim: s => [|s [IHs IH]]; first by rewrite !expr0 mul1r scale1r.
  rewrite iterS; split; first exact: sq_step_size.
  have q0 : 0 <= (2%:R ^+ s : R) by rewrite exprn_ge0 ?ler0n.
  have hh := @sq_err n k a b a0 erefl bge bmono (2%:R ^+ s * h)%R (2%:R ^+ s *: X) _ _ _ IH.
  move=> j jk; rewrite (sq_step_nth IHs jk) exprS -mulrA -scalerA; apply: hh => //.
    by rewrite mulr_ge0.
  by rewrite ninfZ ger0_norm.
have [ms mN] := main N; exists (iter N (sq_step k) P); split=> //; split=> // j jk.
have [_] := mN j jk; rewrite -zE -nz => hj.
have hth : h <= ninf z.
  by rewrite nz ler_pemull // exprn_ege1 // ler1n.
have hq : h <= Num.min (ninf z) 8%:R^-1 by rewrite le_minr hth h8.
have q0 : 0 <= Num.min (ninf z) (8%:R^-1 : R) by apply: le_trans hq.
apply: le_trans hj _; rewrite ler_wpmul2r ?exp_ge0 //; apply: ler_add.
  rewrite mulrC ler_wpmul2l ?ninf_ge0 // /a.
  by rewrite ler_wpmul2r //; apply: ler_expn2r; rewrite ?nnegrE.
rewrite /b; case: eqP => [->|/eqP j0]; first by rewrite mulr0n !mul0r.
rewrite lt0n j0 mul1r (leq_trans jk (leq_trans k3 _)) // ler_wpmul2r //.
by apply: ler_expn2r; rewrite ?nnegrE.
Qed.
Lemma f_phi_k_sq_all_err n (z : 'M[R]_n) k : (k <= 3)%N ->
  exists phis, f_phi_k_sq_all z k = Some phis /\ size phis = k.+1 /\
  forall j, (j <= k)%N ->
    ninf (phi j z - nth 0 phis j) <=
    (ninf z / (8%:R ^+ 4 * 120%:R) + (0 < j)%N%:R * (8%:R ^+ (5 - j))^-1 / 120%:R) * exp (ninf z).
Proof.
move=> k3; have [phis [e [s h]]] := f_phi_k_sq_all_err' z k3; exists phis; split=> //; split=> // j /h hj.
have q0 : 0 <= Num.min (ninf z) (8%:R^-1 : R) by rewrite le_minr ninf_ge0 invr_ge0 ler0n.
have q8 : Num.min (ninf z) (8%:R^-1 : R) <= 8%:R^-1 by rewrite le_minl lexx orbT.
have pq m : Num.min (ninf z) (8%:R^-1 : R) ^+ m / 120%:R <= (8%:R ^+ m)^-1 / 120%:R.
  rewrite ler_wpmul2r ?invr_ge0 ?ler0n // -exprVn.
  by apply: ler_expn2r; rewrite ?nnegrE ?invr_ge0 ?ler0n.
apply: le_trans hj _; rewrite ler_wpmul2r ?exp_ge0 //; apply: ler_add.
  by rewrite ler_wpmul2l ?ninf_ge0 // invfM.
by rewrite -mulrA ler_wpmul2l ?ler0n.
Qed.

Lemma psum_scalar n (y : R) N : phi_psum 0 N (y%:M : 'M[R]_n) = (\sum_(i < N) ifact _ i * y ^+ i)%:M.
Proof.
rewrite /phi_psum raddf_sum; apply: eq_bigr => i _ /=.
by rewrite addn0 mxpow_scalar -scale_scalar_mx.
Qed.
(* never exact for a positive 1x1 matrix: strictly below the exponential *)
Lemma f_phi_k_sq_not_exact (x : R) : 0 < x ->
  exists r : 'M[R]_1, f_phi_k_sq (x%:M) 0 = Some r /\ r 0 0 < exp x.
Proof.
move=> x0; rewrite /f_phi_k_sq /f_phi_k_sq_at.
set N := nscale _.
have [phis [-> [_ [_ e]]]] := @f_phi_k_sq_all_at_ok [numFieldType of R] 1 (x%:M) 0 N erefl.
exists (nth 0 phis 0); split=> //; rewrite {}e.
have p2 : 0 < (2%:R ^+ N : R) by rewrite exprn_gt0 // ltr0n.
set y := (2%:R ^+ N)^-1 * x.
have y0 : 0 < y by rewrite mulr_gt0 // invr_gt0.
have xE : x = (2 ^ N)%:R * y by rewrite natrX mulrA mulfV ?mul1r // gt_eqF.
have -> : (2%:R ^+ N)^-1 *: (x%:M : 'M[R]_1) = y%:M by rewrite scale_scalar_mx.
rewrite psum_scalar mxpow_scalar mxE eqxx mulr1n [in X in _ < X]xE expMn.
have lt : \sum_(i < 5) ifact _ i * y ^+ i < exp y.
  apply: (@lt_le_trans _ _ (\sum_(i < 6) ifact _ i * y ^+ i)).
    by rewrite [X in _ < X]big_ord_recr /= ltr_addl mulr_gt0 ?ifact_gt0 ?exprn_gt0.
  rewrite exp_ssum; apply: psum_le_ssum.
    by have := entire_ifact 0 y; apply: summable_ext => i; rewrite addn0.
  by move=> i; rewrite mulr_ge0 ?ifact_ge0 ?exprn_ge0 ?ltW.
rewrite ltr_pexpn2r ?expn_gt0 ?nnegrE ?exp_ge0 //.
by apply: sumr_ge0 => i _; rewrite mulr_ge0 ?ifact_ge0 ?exprn_ge0 ?ltW.
Qed.
