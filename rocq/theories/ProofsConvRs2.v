(* ProofsConvRs2.v : error propagation for a sequence of states whose first step may be one order lower. *)
From Coq Require Import Reals String.
From mathcomp Require Import all_ssreflect all_algebra.
From mathcomp Require Import complex ring.
From Verif Require Import Rstruct Summable MxBase MxSeries ProofsPhiErr ModelHist SpecHist SpecPhi SpecInt ProofsInt ProofsExact.
From Verif Require Import SpecProg SpecOrder SpecOrder2 SpecConv ProofsOrder3 ProofsConv ProofsConv2 ProofsConv3 ProofsConv4 ProofsConv5 ProofsConv6 ProofsConv7 ProofsConv8.
Set Implicit Arguments.
Unset Strict Implicit.
Unset Printing Implicit Defensive.
Import Order.TTheory GRing.Theory Num.Theory.
Local Open Scope ring_scope.

(* the error level with an initial error C a *)
Definition Flev (p : nat) (C dt del : R) (i : nat) : R := ((1 + C) * Elev p C dt del i + C * (dt ^+ p + del))%R.
Definition flev (C h0 rad len : R) : R := (Num.min 1 (Num.min h0 (rad / 2%:R) / (2%:R * ((1 + C) * exp (2%:R * C * len)%R + C) + 1)))%R.
Section Lev.
Variables (p : nat) (C dt del : R).
Hypothesis C0 : 0 <= C.
Hypothesis d0 : 0 <= dt.
Hypothesis e0 : 0 <= del.
Notation E := (Flev p C dt del).
Notation a := (dt ^+ p + del).
Let C1 : 0 <= 1 + C. Proof. by rewrite addr_ge0 ?ler01. Qed.
Lemma FlevS i : E i.+1 = (1 + C * dt) * E i + C * dt * (a + E i) + C * dt * a.
Proof. by rewrite /Flev ElevS; move: (Elev _ _ _ _ i) (a) => x b; ring. Qed.
Lemma Flev_ge0 i : 0 <= E i.
Proof. by rewrite addr_ge0 // mulr_ge0 ?Elev_ge0 ?lev_a0. Qed.
Lemma Flev_mono i : E i <= E i.+1.
Proof. by rewrite ler_add2r ler_wpmul2l // Elev_mono. Qed.
Lemma Flev_bound len i : dt *+ i <= len -> E i <= ((1 + C) * exp (2%:R * C * len)%R + C) * a.
Proof. by move=> h; rewrite mulrDl -mulrA ler_add2r ler_wpmul2l // Elev_bound. Qed.
End Lev.
Lemma flev_gt0 C h0 rad len : 0 <= C -> 0 < h0 -> 0 < rad -> 0 < flev C h0 rad len.
Proof.
move=> C0 h r; have := exp_ge0 (2%:R * C * len)%R => e0; have h1 : 0 < (1 : R) by exact: ltr01.
rewrite /flev lt_minr h1 divr_gt0 //; first by rewrite lt_minr h divr_gt0 ?ltr0n.
by rewrite ltr_spaddr // mulr_ge0 ?ler0n // addr_ge0 // mulr_ge0 // addr_ge0 // ltW.
Qed.
Lemma flev_ok p C h0 rad len dt del i : (0 < p)%N -> 0 <= C -> 0 <= dt -> 0 <= del -> dt *+ i <= len ->
  0 < h0 -> 0 < rad -> dt <= flev C h0 rad len -> del <= flev C h0 rad len ->
  [/\ dt <= h0, del + Flev p C dt del i <= h0 & Flev p C dt del i <= rad / 2%:R].
Proof.
move=> p0 C0 d0 e0 hi h00 r0; rewrite /flev; set ex := _ + C.
have x0 : 0 <= ex by rewrite addr_ge0 // mulr_ge0 ?exp_ge0 // addr_ge0 ?ler01.
have x1 : 0 < 2%:R * ex + 1 by rewrite ltr_spaddr ?mulr_ge0 ?ler0n // ltr01.
set m := Num.min h0 _; rewrite !le_minr => /andP[d1 d2] /andP[e1 e2]; set hh := m / _ in d2 e2.
have hE := Flev_bound p C0 d0 e0 hi; rewrite -/ex in hE.
have dp : dt ^+ p <= dt by case: p p0 {hE} => // p _; rewrite exprS ler_pimulr // exprn_ile1.
have E1 : Flev p C dt del i <= ex * (hh + hh).
  by apply: le_trans hE _; rewrite ler_wpmul2l // ler_add // (le_trans dp).
have bigE : del + Flev p C dt del i <= m.
  have -> : m = hh + ex * (hh + hh) by rewrite /hh; have := lt0r_neq0 x1; move: (m) (ex) => *; field.
  exact: ler_add.
have h1 : 0 <= m by rewrite le_minr !ltW ?divr_gt0 ?ltr0n.
have [m1 m2] : m <= h0 /\ m <= rad / 2%:R by split; rewrite le_minl lexx ?orbT.
split.
- apply: le_trans d2 _; apply: le_trans m1; rewrite /hh ler_pdivr_mulr // ler_pemulr // ler_addr mulr_ge0 ?ler0n //.
- exact: le_trans bigE m1.
- by apply: le_trans m2; apply: le_trans bigE; rewrite ler_addr.
Qed.

Section Run.
Variable n : nat.
Notation vec := 'cV[R]_n.
Lemma seq_conv p C h0 rad len : (0 < p)%N -> 0 <= C -> 0 < h0 -> 0 < rad ->
  forall N t0 dt del (z : R -> vec) (y : nat -> vec),
  0 <= dt -> dt <= flev C h0 rad len -> 0 <= del -> del <= flev C h0 rad len -> dt *+ N <= len -> y 0%N = z t0 ->
  (forall i (eta : R), (i < N)%N -> dt <= h0 -> del <= eta -> eta <= h0 ->
     (forall j, (j <= i)%N -> ninf (y j - z (t0 + dt *+ j)%R) <= rad / 2%:R) -> ninf (y i - z (t0 + dt *+ i)%R) <= eta ->
     ((0 < i)%N -> ninf (y i.-1 - z (t0 + dt *+ i - dt)%R) <= eta) ->
     exists j, (j = p \/ i = 0%N /\ j = p.-1) /\
       ninf (y i.+1 - z (t0 + dt *+ i + dt)%R) <= (1 + C * dt) * ninf (y i - z (t0 + dt *+ i)%R) + C * dt * (dt ^+ j + eta)) ->
  forall i, (i <= N)%N -> ninf (y i - z (t0 + dt *+ i)%R) <= ((1 + C) * exp (2%:R * C * len)%R + C) * (dt ^+ p + del).
Proof.
move=> p0 C0 h00 r0 N t0 dt del z y d0 d1 e0 e1 hN hz hs.
pose E := Flev p C dt del.
have E0 i : 0 <= E i by exact: Flev_ge0.
have dt1 : dt <= 1 by move: d1; rewrite le_minr => /andP[].
have hi i : (i <= N)%N -> dt *+ i <= len by move=> iN; apply: le_trans hN; rewrite ler_wpmuln2l.
have a0 : 0 <= dt ^+ p + del by exact: lev_a0.
have ea i : dt ^+ p + del <= dt ^+ p + (del + E i) by rewrite ler_add2l ler_addl.
have K i : (i <= N)%N -> forall j, (j <= i)%N -> ninf (y j - z (t0 + dt *+ j)%R) <= E j.
  elim: i => [|i IH] iN j.
    by rewrite leqn0 => /eqP ->; rewrite mulr0n addr0 hz subrr ninf0.
  rewrite leq_eqVlt ltnS => /orP[/eqP ->|]; last by apply: IH; exact: ltnW.
  have {}IH := IH (ltnW iN).
  have h2 := IH i (leqnn i).
  have [q1 q2 q3] := flev_ok p0 C0 d0 e0 (hi i (ltnW iN)) h00 r0 d1 e1.
  have le1 : E i <= del + E i by rewrite ler_addr.
  have et : t0 + dt *+ i + dt = t0 + dt *+ i.+1 by rewrite mulrSr addrA.
  have all j' : (j' <= i)%N -> ninf (y j' - z (t0 + dt *+ j')%R) <= rad / 2%:R.
    move=> ji; apply: le_trans (IH j' ji) _.
    by have [] := flev_ok p0 C0 d0 e0 (hi j' (leq_trans ji (ltnW iN))) h00 r0 d1 e1.
  have pv : (0 < i)%N -> ninf (y i.-1 - z (t0 + dt *+ i - dt)%R) <= del + E i.
    move=> i1; have e : t0 + dt *+ i - dt = t0 + dt *+ i.-1 by rewrite -{1}(prednK i1) mulrSr addrA addrK.
    rewrite e; apply: le_trans (IH _ (leq_pred i)) _; apply: le_trans le1.
    by rewrite -{2}(prednK i1); exact: Flev_mono.
  have dC : 0 <= 1 + C * dt by rewrite addr_ge0 ?ler01 // mulr_ge0.
  have Cd : 0 <= C * dt by rewrite mulr_ge0.
  case: (posnP i) => [i0|i1].
    have [|||j' [hj g]] := hs i del iN q1 (lexx _) _ all.
    + by apply: le_trans q2; rewrite ler_addl.
    + by rewrite i0 mulr0n addr0 hz subrr ninf0.
    + by rewrite i0.
    move: g; rewrite et i0 mulr0n addr0 hz subrr ninf0 mulr0 add0r => g; apply: le_trans g _.
    have b : C * dt * (dt ^+ j' + del) <= C * (dt ^+ p + del).
      rewrite -mulrA ler_wpmul2l // mulrDr; apply: ler_add; last by rewrite ler_pimull.
      case: hj => [->|[_ ->]]; first by rewrite ler_pimull ?exprn_ge0.
      by rewrite -exprS prednK.
    by apply: le_trans b _; rewrite /E /Flev ler_addr mulr_ge0 ?Elev_ge0 // addr_ge0 // ler01.
  have [|||q' [hj g]] := hs i (del + E i) iN q1 _ q2 all.
  + by rewrite ler_addl.
  + exact: le_trans h2 le1.
  + exact: pv.
  have {hj}hj : q' = p by case: hj => // -[e _]; rewrite e in i1.
  rewrite -et; apply: le_trans g _; rewrite hj /E FlevS -/(E i) -[X in _ <= X]addrA; apply: ler_add.
    exact: ler_wpmul2l.
  by rewrite -[dt ^+ p + _ + _]addrA ler_addl mulr_ge0.
move=> i iN; apply: le_trans (K i iN i (leqnn i)) _; exact: Flev_bound (hi i iN).
Qed.
End Run.

Section Tube.
Variables (k p : nat) (B rad len C h0 : R).
Hypothesis p0 : (0 < p)%N.
Hypothesis B0 : 0 <= B.
Hypothesis r0 : 0 < rad.
Hypothesis C0 : 0 <= C.
Hypothesis h00 : 0 < h0.
Lemma seq_tube n f (z : R -> 'cV[R]_n) t0 T ft J H2 H3 N dt del (y : nat -> 'cV[R]_n) :
  smooth_tube k f z t0 T rad B ft J H2 H3 ->
  0 <= dt -> dt <= flev C h0 rad len -> 0 <= del -> del <= flev C h0 rad len ->
  (t0 + dt *+ N <= T)%R -> (T - t0 <= len)%R -> y 0%N = z t0 ->
  (forall i (eta : R), (i < N)%N ->
     let t := (t0 + dt *+ i)%R in let q := tprob f z t0 T ft J H2 H3 t (y i) in
     (forall j, (j <= i)%N -> in_tube z t0 T rad (t0 + dt *+ j)%R (y j)) ->
     ubase k (4%:R * B)%R (tr rad B) q dt eta -> dt <= h0 -> eta <= h0 -> del <= eta ->
     ((0 < i)%N -> ptin q (- dt) /\ ninf (y i.-1 - z (t - dt)%R) <= eta) ->
     exists j, (j = p \/ i = 0%N /\ j = p.-1) /\ err1 (q := q) j C dt eta (y i.+1)) ->
  forall i, (i <= N)%N -> maxnorm_le (y i - z (t0 + dt *+ i)%R) (((1 + C) * exp (2%:R * C * len)%R + C) * (dt ^+ p + del)).
Proof.
move=> st d0 d1 e0 e1 hT hl hz hs i iN.
have hN : dt *+ N <= len by apply: le_trans hl; rewrite ler_subr_addl.
apply/maxnorm_ninf.
  rewrite mulr_ge0 ?addr_ge0 ?exprn_ge0 ?mulr_ge0 ?exp_ge0 ?addr_ge0 //; exact: ler01.
apply: (seq_conv p0 C0 h00 r0 d0 d1 e0 e1 hN hz _ iN) => {i iN} i eta iN dh de eh hr he hp.
have ge i' : (i' <= N)%N -> t0 + dt *+ i' <= T by move=> h; apply: le_trans hT; rewrite ler_add2l ler_wpmuln2l.
have le i' : t0 <= t0 + dt *+ i' by rewrite ler_addl mulrn_wge0.
have rr : 0 <= rad / 2%:R by rewrite divr_ge0 ?ler0n ?ltW.
have hm j : (j <= i)%N -> maxnorm_le (y j - z (t0 + dt *+ j)%R) (rad / 2%:R) by move=> ji; apply/maxnorm_ninf => //; exact: hr.
have et : t0 + dt *+ i + dt = t0 + dt *+ i.+1 by rewrite mulrSr addrA.
apply: (hs i eta iN) => //.
- move=> j ji; split=> //; first exact: ge (leq_trans ji (ltnW iN)).
  by move=> l; apply: le_trans (hm j ji l) _; rewrite ler_pdivr_mulr ?ltr0n // ler_pemulr ?ler1n ?ltW.
- have hp1 := tube_good r0 B0 st (le i) (ge i (ltnW iN)) (hm i (leqnn i)); split=> //.
  + exact: le_trans e0 de.
  + by split; rewrite /= et; [exact: le|exact: ge].
  + by rewrite /= -ninfN opprB.
- move=> i1; split; last exact: hp.
  have e : t0 + dt *+ i - dt = t0 + dt *+ i.-1 by rewrite -{1}(prednK i1) mulrSr addrA addrK.
  by split; rewrite /= e //; apply: ge; apply: leq_trans (leq_pred i) (ltnW iN).
Qed.
End Tube.
