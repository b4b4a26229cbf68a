(* ProofsConv8.v : from the one-step error to the error of a whole run. *)
From Coq Require Import Reals String.
From mathcomp Require Import all_ssreflect all_algebra.
From mathcomp Require Import complex ring.
From Verif Require Import Rstruct Summable MxBase MxSeries ProofsPhiErr ModelHist SpecHist SpecPhi SpecInt ProofsInt ProofsExact.
From Verif Require Import SpecProg SpecOrder SpecOrder2 SpecConv ProofsOrder3 ProofsConv.
Set Implicit Arguments.
Unset Strict Implicit.
Unset Printing Implicit Defensive.
Import Order.TTheory GRing.Theory Num.Theory.
Local Open Scope ring_scope.

(* the error level after i steps *)
Definition Elev (p : nat) (C dt del : R) (i : nat) : R := ((dt ^+ p + del) * ((1 + (2%:R * C) * dt) ^+ i - 1))%R.
Section Lev.
Variables (p : nat) (C dt del : R).
Hypothesis C0 : 0 <= C.
Hypothesis d0 : 0 <= dt.
Hypothesis e0 : 0 <= del.
Notation E := (Elev p C dt del).
Notation a := (dt ^+ p + del).
Lemma lev_a0 : 0 <= a. Proof. by rewrite addr_ge0 ?exprn_ge0. Qed.
Lemma lev_q0 : 0 <= 2%:R * C * dt. Proof. by rewrite !mulr_ge0 ?ler0n. Qed.
Lemma Elev0 : E 0%N = 0. Proof. by rewrite /Elev expr0 subrr mulr0. Qed.
Lemma ElevS i : E i.+1 = (1 + C * dt) * E i + C * dt * (a + E i) + C * dt * a.
Proof. by rewrite /Elev exprS; move: (_ ^+ i) (a) => x b; ring. Qed.
Lemma Elev_ge0 i : 0 <= E i.
Proof.
rewrite mulr_ge0 ?lev_a0 // subr_ge0 exprn_ege1 //.
by rewrite ler_addl lev_q0.
Qed.
Lemma Elev_mono i : E i <= E i.+1.
Proof.
have h1 := Elev_ge0 i; have h2 := lev_a0; have h3 : 0 <= C * dt by rewrite mulr_ge0.
rewrite ElevS; move: (a) (E i) h1 h2 => b x h1 h2; rewrite mulrDl mul1r -!addrA ler_addl; apply: addr_ge0; first exact: mulr_ge0.
by apply: addr_ge0; apply: mulr_ge0 => //; apply: addr_ge0.
Qed.
Lemma Elev_bound len i : dt *+ i <= len -> E i <= exp (2%:R * C * len)%R * a.
Proof.
move=> h; rewrite [exp _ * _]mulrC; apply: geom_bound => //; last exact: lev_a0.
by rewrite mulr_ge0 ?ler0n.
Qed.
End Lev.
(* how small steps and kernel errors must be *)
Definition hlev (C h0 rad len : R) : R := (Num.min 1 (Num.min h0 (rad / 2%:R) / (2%:R * exp (2%:R * C * len)%R + 1)))%R.
Lemma hlev_gt0 C h0 rad len : 0 < h0 -> 0 < rad -> 0 < hlev C h0 rad len.
Proof.
move=> h r; have := exp_ge0 (2%:R * C * len)%R => e0; have h1 : 0 < (1 : R) by exact: ltr01.
rewrite /hlev lt_minr h1 divr_gt0 //; first by rewrite lt_minr h divr_gt0 ?ltr0n.
by rewrite ltr_spaddr // mulr_ge0 ?ler0n.
Qed.
Lemma hlev_ok p C h0 rad len dt del i : (0 < p)%N -> 0 <= C -> 0 <= dt -> 0 <= del -> dt *+ i <= len ->
  0 < h0 -> 0 < rad -> dt <= hlev C h0 rad len -> del <= hlev C h0 rad len ->
  [/\ dt <= h0, del + Elev p C dt del i <= h0 & Elev p C dt del i <= rad / 2%:R].
Proof.
move=> p0 C0 d0 e0 hi h00 r0; rewrite /hlev; set ex := exp _.
have x0 : 0 <= ex by exact: exp_ge0.
have x1 : 0 < 2%:R * ex + 1 by rewrite ltr_spaddr ?mulr_ge0 ?ler0n // ltr01.
set m := Num.min h0 _; rewrite !le_minr => /andP[d1 d2] /andP[e1 e2]; set hh := m / _ in d2 e2.
have hE := Elev_bound p C0 d0 e0 hi; rewrite -/ex in hE.
have dp : dt ^+ p <= dt by case: p p0 {hE} => // p _; rewrite exprS ler_pimulr // exprn_ile1.
have E1 : Elev p C dt del i <= ex * (hh + hh).
  by apply: le_trans hE _; rewrite ler_wpmul2l // ler_add // (le_trans dp).
have bigE : del + Elev p C dt del i <= m.
  have -> : m = hh + ex * (hh + hh) by rewrite /hh; have := lt0r_neq0 x1; move: (m) (ex) => *; field.
  exact: ler_add.
have h1 : 0 <= m by rewrite le_minr !ltW ?divr_gt0 ?ltr0n.
have [m1 m2] : m <= h0 /\ m <= rad / 2%:R by split; rewrite le_minl lexx ?orbT.
split.
- apply: le_trans d2 _; apply: le_trans m1; rewrite /hh ler_pdivr_mulr // ler_pemulr // ler_addr mulr_ge0 ?ler0n //.
- exact: le_trans bigE m1.
- by apply: le_trans m2; apply: le_trans bigE; rewrite ler_addr.
Qed.

Section Run.
Variables (T0 : Type) (n : nat).
Notation vec := 'cV[R]_n.
(* Inv i yp y s: before step i the object s is at the state y, with yp the state before *)
Lemma run_conv p C h0 rad len : (0 < p)%N -> 0 <= C -> 0 < h0 -> 0 < rad ->
  forall (S Kw W : Type) (step : S -> R -> option Kw -> result (S * step_result R vec)) accept
   (cb1 cb2 : option (W -> R -> vec -> W * Kw)) N s w t0 y0 dt del (z : R -> vec) (Inv : nat -> vec -> vec -> S -> Prop),
  0 <= dt -> dt <= hlev C h0 rad len -> 0 <= del -> del <= hlev C h0 rad len -> dt *+ N <= len ->
  z t0 = y0 -> Inv 0%N y0 y0 s ->
  (forall i s c yp y (eta : R), (i < N)%N -> Inv i yp y s -> dt <= h0 -> del <= eta -> eta <= h0 ->
     ninf (y - z (t0 + dt *+ i)%R) <= rad / 2%:R -> ninf (y - z (t0 + dt *+ i)%R) <= eta ->
     ((0 < i)%N -> ninf (yp - z (t0 + dt *+ i - dt)%R) <= eta) ->
     exists s' v, [/\ step s dt c = Ok (s', mkStep (t0 + dt *+ i + dt)%R dt v (-1)),
       Inv i.+1 y v (accept s' (mkStep (t0 + dt *+ i + dt)%R dt v (-1))) &
       ninf (v - z (t0 + dt *+ i + dt)%R) <= (1 + C * dt) * ninf (y - z (t0 + dt *+ i)%R) + C * dt * (dt ^+ p + eta)]) ->
  exists d, integrate_ormatex step accept cb1 cb2 s w y0 t0 dt N = Ok d /\
  converges p (exp (2%:R * C * len)%R) dt del z t0 N (d_ys d).
Proof.
move=> p0 C0 h00 r0 S Kw W step accept cb1 cb2 N s w t0 y0 dt del z Inv d0 d1 e0 e1 hN hz i0 hs.
pose E := Elev p C dt del.
have E0 i : 0 <= E i by exact: Elev_ge0.
have hi i : (i <= N)%N -> dt *+ i <= len by move=> iN; apply: le_trans hN; rewrite ler_wpmuln2l.
have [|||d [e hd]] := @traj_total R vec S Kw W step accept cb1 cb2 N s w t0 y0 dt
  (fun i s => exists yp y, [/\ Inv i yp y s, ninf (y - z (t0 + dt *+ i)%R) <= E i &
      (0 < i)%N -> ninf (yp - z (t0 + dt *+ i - dt)%R) <= E i])
  (fun i y => ninf (y - z (t0 + dt *+ i)%R) <= E i).
- move=> i s' c iN [yp [y [h1 h2 h3]]].
  have [q1 q2 q3] := hlev_ok p0 C0 d0 e0 (hi i (ltnW iN)) h00 r0 d1 e1.
  have le1 : E i <= del + E i by rewrite ler_addr.
  have [||||s2 [v [g1 g2 g3]]] := hs i s' c yp y (del + E i) iN h1 q1 _ q2.
  + by rewrite ler_addl.
  + exact: le_trans h2 q3.
  + exact: le_trans h2 le1.
  + by move=> i1; apply: le_trans (h3 i1) le1.
  have et : t0 + dt *+ i + dt = t0 + dt *+ i.+1 by rewrite mulrSr addrA.
  have C1 : 0 <= 1 + C * dt by rewrite addr_ge0 ?ler01 // mulr_ge0.
  have gv : ninf (v - z (t0 + dt *+ i.+1)%R) <= E i.+1.
    rewrite -et; apply: le_trans g3 _; rewrite /E ElevS -/(E i) -[dt ^+ p + del + E i]addrA -[X in _ <= X]addrA.
    apply: ler_add; first by rewrite ler_wpmul2l.
    by rewrite ler_addl mulr_ge0 ?mulr_ge0 // lev_a0.
  exists s2, (mkStep (t0 + dt *+ i + dt)%R dt v (-1)); split=> //; split=> //.
  exists y, v; split=> // _; rewrite -et addrK; apply: le_trans h2 _; exact: Elev_mono.
- by exists y0, y0; split=> //; rewrite mulr0n addr0 hz subrr ninf0.
- by rewrite mulr0n addr0 hz subrr ninf0.
- exists d; split=> // i iN; have [y [g1 g2]] := hd i iN; exists y; split=> //.
  have b := Elev_bound p C0 d0 e0 (hi i iN); apply/maxnorm_ninf; first exact: le_trans (E0 i) b.
  exact: le_trans g2 b.
Qed.
End Run.
