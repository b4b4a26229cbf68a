(* PropCram.v : C77, accuracy of the order-16 CRAM table of gen_cram_expm on the whole negative axis. *)
From Coq Require Import Reals ZArith List.
From mathcomp Require Import all_ssreflect all_algebra.
From mathcomp Require Import complex.
From mathcomp Require Import ring.
From Verif Require Import Rstruct MxBase MxSeries SpecPhi ModelHist ModelOps ModelInt ModelPade ModelCauchy PropCauchy.
From Verif Require Import ProofsLejaDD2 ProofsCramZ ProofsCramR ProofsCram3 ProofsCram4.
Set Implicit Arguments.
Unset Strict Implicit.
Unset Printing Implicit Defensive.
Import Order.TTheory GRing.Theory Num.Theory.
Local Open Scope ring_scope.

Definition tr (r : row) : R[i] := (dec r.1.1 19 +i* dec r.1.2 19)%C.
Definition wr (r : row) : R[i] := (dec r.2.1 25 +i* dec r.2.2 25)%C.

Lemma dec_up m e k m' : m' = Z.mul m (Z.pow 10 (Z.of_nat k)) -> dec m e = dec m' (e + k).
Proof. by move=> ->; exact: up_dec. Qed.
Lemma thetaE : cram_theta = [seq tr r | r <- cram_rows].
Proof.
rewrite /cram_theta /cram_rows /tr /=.
by do 8!(refine (f_equal2 cons _ _); first (refine (f_equal2 (@Complex _) _ _); first [reflexivity|by apply: (@dec_up _ 18 1)])).
Qed.
Lemma alphaE : cram_alpha = [seq wr r | r <- cram_rows].
Proof.
rewrite /cram_alpha /cram_rows /wr /=.
by do 8!(refine (f_equal2 cons _ _); first (refine (f_equal2 (@Complex _) _ _);
  first [reflexivity|by apply: (@dec_up _ 23 2)|by apply: (@dec_up _ 22 3)|by apply: (@dec_up _ 17 8)|by apply: (@dec_up _ 16 9)
        |by apply: (@dec_up _ 18 7)|by apply: (@dec_up _ 19 6)|by apply: (@dec_up _ 21 4)|by apply: (@dec_up _ 20 5)])).
Qed.

(* the two conjugate terms of one row, at a real point *)
Lemma conj_term (a b c d x : R) (n2 := (x - c) * (x - c) + d * d) : n2 != 0 ->
  (a +i* b)%C / ((c +i* d)%C ^+ 0 * ((x%:C)%C - (c +i* d)%C)) +
  conjc (a +i* b)%C / (conjc (c +i* d)%C ^+ 0 * ((x%:C)%C - conjc (c +i* d)%C))
  = ((2%:R * (a * (x - c) - b * d) / n2)%:C)%C.
Proof.
move=> n0; rewrite !expr0 !mul1r; apply/eqP; rewrite eq_complex /=; apply/andP.
have e1 : (x - c) ^+ 2 + (0 - d) ^+ 2 = n2 by rewrite /n2; ring.
have e2 : (x - c) ^+ 2 + (0 - - d) ^+ 2 = n2 by rewrite /n2; ring.
rewrite e1 e2; clearbody n2; clear e1 e2; move: n2^-1 => q; split; apply/eqP; ring.
Qed.
Lemma conj_term1 (a b c d : R) (n2 := c * c + d * d) : n2 != 0 ->
  (a +i* b)%C / ((c +i* d)%C ^+ 1 * ((0%:C)%C - (c +i* d)%C)) +
  conjc (a +i* b)%C / (conjc (c +i* d)%C ^+ 1 * ((0%:C)%C - conjc (c +i* d)%C))
  = ((- (2%:R * (a * (c * c - d * d) + 2%:R * (b * c * d)) / (n2 * n2)))%:C)%C.
Proof.
move=> n0; rewrite !expr1 !rmorph0 !sub0r !mulrN !invrN !mulrN -opprD -[RHS]opprK -rmorphN opprK; congr (- _).
have -> : (c +i* d)%C * (c +i* d)%C = ((c * c - d * d) +i* (c * d + d * c))%C by [].
have -> : conjc (c +i* d)%C * conjc (c +i* d)%C = ((c * c - - d * - d) +i* (c * - d + - d * c))%C by [].
apply/eqP; rewrite eq_complex /=; apply/andP.
have e1 : (c * c - d * d) ^+ 2 + (c * d + d * c) ^+ 2 = n2 * n2 by rewrite /n2; ring.
have e2 : (c * c - - d * - d) ^+ 2 + (c * - d + - d * c) ^+ 2 = n2 * n2 by rewrite /n2; ring.
rewrite e1 e2; clearbody n2; clear e1 e2; move: (n2 * n2)^-1 => q; split; apply/eqP; ring.
Qed.

Lemma pole_rows rows l z : pole_sum [seq tr r | r <- rows] [seq wr r | r <- rows] l z =
  \sum_(r <- rows) (wr r / (tr r ^+ l * (z - tr r)) + conjc (wr r) / (conjc (tr r) ^+ l * (z - conjc (tr r)))).
Proof.
rewrite /pole_sum size_map (big_nth (Z0, Z0, (Z0, Z0))) big_mkord; apply: eq_bigr => k _.
by cbv zeta; rewrite !(nth_map (Z0, Z0, (Z0, Z0))).
Qed.
Lemma p6 : (pow (IZR 10) 6 : R) = 10%:R ^+ 6 :> R.
Proof. by rewrite powE -(INRE 10) INR_IZR_INZ. Qed.
Lemma i6 : (10%:R ^+ 6)^-1 = Rinv (pow (IZR 10) 6) :> R.
Proof. by rewrite RinvE p6 // expf_neq0 // pnatr_eq0. Qed.
(* rows with a pole off the real axis *)
Definition off (r : row) : Prop := r.1.2 <> Z0.
Lemma row_term r (x : R) : off r ->
  wr r / (tr r ^+ 0 * ((x%:C)%C - tr r)) + conjc (wr r) / (conjc (tr r) ^+ 0 * ((x%:C)%C - conjc (tr r)))
  = (((10%:R ^+ 6)^-1 * (Rdiv (ev (Nk r) (- x)) (ev (Dk r) (- x))))%:C)%C.
Proof.
case: r => [[C D] [A B]] hD; have [h1 h2] := @unit_term C D A B x hD.
have n0 : (x - dec C 19) * (x - dec C 19) + dec D 19 * dec D 19 != 0 :> R.
  by rewrite gt_eqF //; apply/RltP.
rewrite (@conj_term _ _ _ _ x n0); congr ((_ : R)%:C)%C.
rewrite i6.
rewrite -RdivE //; apply: etrans h2; congr Rdiv; by rewrite -(INRE 2).
Qed.
Lemma row_term1 r : off r ->
  wr r / (tr r ^+ 1 * (0 - tr r)) + conjc (wr r) / (conjc (tr r) ^+ 1 * (0 - conjc (tr r)))
  = (((10%:R ^+ 6)^-1 * dterm r)%:C)%C.
Proof.
case: r => [[C D] [A B]] hD; have [h1 h2] := @unit_dterm C D A B hD.
have n0 : dec C 19 * dec C 19 + dec D 19 * dec D 19 != 0 :> R.
  by rewrite gt_eqF //; apply/RltP.
have e := @conj_term1 (dec A 25) (dec B 25) _ _ n0; rewrite rmorph0 in e; rewrite e; congr ((_ : R)%:C)%C.
rewrite i6.
rewrite -RdivE; last by rewrite mulf_neq0.
apply: etrans h2; congr (Ropp (Rdiv _ _)); by rewrite -(INRE 2).
Qed.
Lemma rows_off : forall r, List.In r cram_rows -> off r.
Proof. by move=> r; do 8!(case; first by move=> <-). Qed.
Lemma sum_rows rows (x : R) : (forall r, List.In r rows -> off r) ->
  \sum_(r <- rows) (wr r / (tr r ^+ 0 * ((x%:C)%C - tr r)) + conjc (wr r) / (conjc (tr r) ^+ 0 * ((x%:C)%C - conjc (tr r))))
  = (((10%:R ^+ 6)^-1 * rsum rows (- x))%:C)%C.
Proof.
elim: rows => [|r rows ih] h; first by rewrite big_nil /= mulr0.
rewrite big_cons row_term; last by apply: h; left.
rewrite ih; last by move=> r' hr; apply: h; right.
by rewrite -rmorphD -mulrDr.
Qed.
Lemma sum_drows rows : (forall r, List.In r rows -> off r) ->
  \sum_(r <- rows) (wr r / (tr r ^+ 1 * (0 - tr r)) + conjc (wr r) / (conjc (tr r) ^+ 1 * (0 - conjc (tr r))))
  = (((10%:R ^+ 6)^-1 * dsum rows)%:C)%C.
Proof.
elim: rows => [|r rows ih] h; first by rewrite big_nil /= mulr0.
rewrite big_cons row_term1; last by apply: h; left.
rewrite ih; last by move=> r' hr; apply: h; right.
by rewrite -rmorphD -mulrDr.
Qed.

(* 10^k as a real *)
Definition tenk (k : nat) : R := 10%:R ^+ k.
Lemma tenE k : IZR (Z.pow 10 (Z.of_nat k)) = tenk k.
Proof. by rewrite -pow_IZR powE /tenk -(INRE 10) INR_IZR_INZ. Qed.
Lemma ten_gt0 k : 0 < tenk k. Proof. by rewrite exprn_gt0 ?ltr0n. Qed.

(* the CRAM rational function on the real axis *)
Definition cram_r (x : R) : R := (cram_r35 x / tenk 35)%R.
Lemma a0E : complex.Re cram_alpha0 = IZR 21248537104952237488 / tenk 35.
Proof.
have e10 : IZR 10 = 10%:R :> R by rewrite -(INRE 10) INR_IZR_INZ.
by rewrite /cram_alpha0 /= /dec RdivE powE e10 ?expf_neq0 // pnatr_eq0.
Qed.
Lemma cram_rE (x : R) : ((complex.Re cram_alpha0)%:C)%C + pole_sum cram_theta cram_alpha 0 (x%:C)%C = ((cram_r x)%:C)%C.
Proof.
rewrite thetaE alphaE pole_rows (sum_rows _ rows_off) -rmorphD; congr ((_ : R)%:C)%C.
have e35 : cram_r35 x = IZR 21248537104952237488 + tenk 29 * rsum cram_rows (- x) :> R by rewrite r35E (tenE 29).
rewrite a0E /cram_r e35 mulrDl; congr (_ + _).
rewrite mulrAC; congr (_ * _).
have -> : tenk 35 = tenk 6 * tenk 29 by rewrite /tenk -exprD.
by rewrite -/(tenk 6) [X in _ = _ * X]invfM mulrCA mulfV ?mulr1 // gt_eqF // ten_gt0.
Qed.

Lemma step_term (w t x : R[i]) l : t != 0 -> x - t != 0 ->
  x * (w / (t ^+ l.+1 * (x - t))) = w / (t ^+ l * (x - t)) - w / (t ^+ l * (0 - t)).
Proof.
move=> t0 xt; have tl : t ^+ l != 0 by rewrite expf_neq0.
rewrite sub0r exprSr !invfM invrN !mulrN opprK; move: (t ^+ l)^-1 => q.
have e : x * (t^-1 * (x - t)^-1) = (x - t)^-1 + t^-1 by field; rewrite xt t0.
move: e; move: (t^-1) ((x - t)^-1) => i1 i2 e.
have -> : x * (w * (q * i1 * i2)) = w * q * (x * (i1 * i2)) by ring.
by rewrite e; ring.
Qed.
Lemma pole_step ts ws l (x : R[i]) : (forall t, t \in ts -> [/\ t != 0, x - t != 0 & x - conjc t != 0]) ->
  x * pole_sum ts ws l.+1 x = pole_sum ts ws l x - pole_sum ts ws l 0.
Proof.
move=> h; rewrite /pole_sum mulr_sumr -sumrB; apply: eq_bigr => k _; cbv zeta.
have [t0 t1 t2] := h _ (mem_nth 0 (ltn_ord k)).
have t0' : conjc (nth 0 ts k) != 0 by rewrite fmorph_eq0.
by rewrite mulrDr !step_term // opprD addrACA.
Qed.
Lemma cram_off t : t \in cram_theta -> complex.Im t != 0.
Proof.
have nz (m : Z) e : m <> Z0 -> dec m e != 0.
  move=> hm; rewrite /dec RdivE; last by rewrite powE expf_neq0 //; apply/eqP => /eq_IZR.
  rewrite mulf_neq0 ?invr_eq0 //; first by apply/eqP => /eq_IZR.
  by rewrite powE expf_neq0 //; apply/eqP => /eq_IZR.
by rewrite /cram_theta !inE; do 7!(case/orP => [/eqP ->|]; first exact: nz); move/eqP => ->; exact: nz.
Qed.
Lemma off_pole (t : R[i]) (x : R) : complex.Im t != 0 -> [/\ t != 0, (x%:C)%C - t != 0 & (x%:C)%C - conjc t != 0].
Proof.
case: t => a b /= b0; split; rewrite eq_complex /= negb_and ?b0 ?orbT //.
  by rewrite sub0r oppr_eq0 b0 orbT.
by rewrite sub0r opprK b0 orbT.
Qed.
(* the second rational function, on the real axis *)
Definition cram_r1 (x : R) : R := (if x == 0 then (10%:R ^+ 6)^-1 * dsum cram_rows else (cram_r x - cram_r 0) / x)%R.
Lemma cram_r1E (x : R) : pole_sum cram_theta cram_alpha 1 (x%:C)%C = ((cram_r1 x)%:C)%C.
Proof.
rewrite /cram_r1; case: eqP => [->|/eqP x0].
  by rewrite thetaE alphaE pole_rows rmorph0 (sum_drows rows_off).
have xc : (x%:C)%C != 0 :> R[i] by rewrite fmorph_eq0.
apply: (mulfI xc); rewrite pole_step; last by move=> t /cram_off; exact: off_pole.
rewrite -rmorphM (_ : x * ((cram_r x - cram_r 0) / x) = cram_r x - cram_r 0); last by rewrite mulrC divfK.
rewrite [RHS]rmorphB; move: (cram_rE x) (cram_rE 0) => e1 e0.
rewrite /= -e1 -e0 rmorph0 opprD addrACA subrr add0r //.
Qed.

Lemma Rabs_div (X b T : R) : 0 < T -> Rabs X <= b -> `|X / T| <= b / T.
Proof.
move=> T0 h; have i0 : 0 <= T^-1 by rewrite invr_ge0 ltW.
by rewrite normrM (ger0_norm i0); apply: ler_wpmul2r.
Qed.
Lemma ten35 (k : nat) : k%:R * tenk 19 / tenk 35 = k%:R / 10%:R ^+ 16 :> R.
Proof.
have -> : tenk 35 = tenk 19 * tenk 16 by rewrite /tenk -exprD.
by rewrite invfM mulrA mulfK // gt_eqF // ten_gt0.
Qed.
Lemma five : 500%:R / 10%:R ^+ 16 = 5%:R / 10%:R ^+ 14 :> R.
Proof.
rewrite (_ : 16 = 14 + 2)%N // exprD invfM mulrA mulrAC; congr (_ / _).
by rewrite (_ : 500 = 5 * 10 ^ 2)%N // natrM natrX mulfK // expf_neq0 // pnatr_eq0.
Qed.
Lemma nine : 900%:R / 10%:R ^+ 16 = 9%:R / 10%:R ^+ 14 :> R.
Proof.
rewrite (_ : 16 = 14 + 2)%N // exprD invfM mulrA mulrAC; congr (_ / _).
by rewrite (_ : 900 = 9 * 10 ^ 2)%N // natrM natrX mulfK // expf_neq0 // pnatr_eq0.
Qed.
Lemma INR_IZR (k : nat) : IZR (Z.of_nat k) = k%:R :> R. Proof. by rewrite -INR_IZR_INZ INRE. Qed.
Lemma axis_err (x : R) : x <= 0 -> `|cram_r x - exp x| <= 5%:R / 10%:R ^+ 14.
Proof.
move=> /RleP hx; have := cram_axis35 x hx; rewrite (tenE 35) (tenE 19) => h.
have -> : cram_r x - exp x = (cram_r35 x - tenk 35 * exp x) / tenk 35.
  by rewrite /cram_r mulrBl mulrAC mulfV ?mul1r // gt_eqF // ten_gt0.
rewrite -five -ten35; apply: Rabs_div (ten_gt0 _) _; apply/RleP.
by rewrite -(INR_IZR 500).
Qed.
Lemma axis0 : `|cram_r 0 - 1| <= 3%:R / 10%:R ^+ 16.
Proof.
have := cram_at0; rewrite (tenE 35) (tenE 19) => h.
have -> : cram_r 0 - 1 = (cram_r35 0 - tenk 35) / tenk 35.
  by rewrite /cram_r mulrBl mulfV // gt_eqF // ten_gt0.
rewrite -ten35; apply: Rabs_div (ten_gt0 _) _; apply/RleP.
by rewrite -(INR_IZR 3).
Qed.
(* (e^x - 1)/x, 1 at 0 *)
Definition phi1R (x : R) : R := (if x == 0 then 1 else (exp x - 1) / x)%R.
Lemma axis1_err (x : R) : x <= 0 -> `|cram_r1 x - phi1R x| <= 9%:R / 10%:R ^+ 14.
Proof.
move=> hx; rewrite /cram_r1 /phi1R -nine -ten35; case: eqP => [_|/eqP x0].
  have := cram_der0; rewrite (tenE 29) (tenE 35) (tenE 19) => h.
  have -> : (10%:R ^+ 6)^-1 * dsum cram_rows - 1 = (tenk 29 * dsum cram_rows - tenk 35) / tenk 35.
    rewrite mulrBl mulfV ?(gt_eqF (ten_gt0 _)) //; congr (_ - _).
    have -> : tenk 35 = tenk 29 * tenk 6 by rewrite /tenk -exprD.
    rewrite -/(tenk 6); move: (gt_eqF (ten_gt0 29)) (gt_eqF (ten_gt0 6)); move: (tenk 29) (tenk 6) (dsum _) => a b q a0 b0.
    by field; rewrite a0 b0.
  by apply: Rabs_div (ten_gt0 _) _; apply/RleP; rewrite -(INR_IZR 900).
have x1 : x < 0 by rewrite lt_neqAle x0.
have := cram_phi35 x (elimT (RltP _ _) x1); rewrite (tenE 35) (tenE 19) => h.
have -> : (cram_r x - cram_r 0) / x - (exp x - 1) / x =
  (cram_r35 x - cram_r35 0 - tenk 35 * (exp x - 1)) / tenk 35 / x.
  rewrite -mulrBl; congr (_ / _); rewrite /cram_r.
  move: (gt_eqF (ten_gt0 35)); move: (tenk 35) (cram_r35 x) (cram_r35 0) (exp x) => t a b e t0.
  by field; rewrite t0.
rewrite normrM normfV (ltr0_norm x1) ler_pdivr_mulr ?oppr_gt0 //.
rewrite (_ : 900%:R * tenk 19 / tenk 35 * - x = 900%:R * tenk 19 * - x / tenk 35); last first.
  by move: (tenk 35)^-1 (tenk 19) => p q; ring.
by apply: Rabs_div (ten_gt0 _) _; apply/RleP; rewrite -(INR_IZR 900).
Qed.

(* C77.  For every real x <= 0, the number the CRAM evaluators give to x (C76) is real and within 5e-14 of
   e^x, within 3e-16 of it at x = 0; the one of l = 1 is within 9e-14 of (e^x - 1) / x, of 1 at x = 0. *)
Theorem C77_axis :
  exists c, gen_cram_expm 16 = Ok c /\ size (c_theta c) = 8%N /\
  [/\ forall t, t \in c_theta c -> complex.Im t != 0,
      forall x : R, x <= 0 -> exists r : R,
        ((complex.Re (c_alpha0 c))%:C)%C + pole_sum (c_theta c) (c_alpha c) 0 (x%:C)%C = (r%:C)%C /\ `|r - exp x| <= 5%:R / 10%:R ^+ 14,
      exists r : R,
        ((complex.Re (c_alpha0 c))%:C)%C + pole_sum (c_theta c) (c_alpha c) 0 0 = (r%:C)%C /\ `|r - 1| <= 3%:R / 10%:R ^+ 16,
      forall x : R, x < 0 -> exists r : R,
        pole_sum (c_theta c) (c_alpha c) 1 (x%:C)%C = (r%:C)%C /\ `|r - (exp x - 1) / x| <= 9%:R / 10%:R ^+ 14
    & exists r : R, pole_sum (c_theta c) (c_alpha c) 1 0 = (r%:C)%C /\ `|r - 1| <= 9%:R / 10%:R ^+ 14].
Proof.
exists (Cauchy cram_theta cram_alpha cram_alpha0); split; first by [].
split; first by []; rewrite [c_theta _]/= [c_alpha _]/= [c_alpha0 _]/=; split.
- exact: cram_off.
- by move=> x hx; exists (cram_r x); split; [exact: cram_rE|exact: axis_err].
- by exists (cram_r 0); split; [rewrite -cram_rE rmorph0|exact: axis0].
- move=> x hx; exists (cram_r1 x); split; first exact: cram_r1E.
  by have := axis1_err (ltW hx); rewrite /phi1R lt_eqF.
- exists (cram_r1 0); split; first by rewrite -cram_r1E rmorph0.
  by have := axis1_err (lexx 0); rewrite /phi1R eqxx.
Qed.
Print Assumptions C77_axis.
