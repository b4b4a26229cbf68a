(* PropConv.v : C69, whole runs converge with the nominal order of the method. *)
From Coq Require Import Reals String.
From mathcomp Require Import all_ssreflect all_algebra.
From mathcomp Require Import complex ring.
From Verif Require Import Rstruct Summable MxBase MxSeries ProofsPhiErr ModelHist SpecHist ModelOps SpecOps SpecPhi ModelPhi ModelKrylov ModelDispatch ModelInt SpecInt ProofsInt ProofsInt4 ProofsInt5 SpecExact ProofsExact.
From Verif Require Import SpecProg SpecOrder SpecOrder2 SpecConv SpecConv2 ProofsJet ProofsJet2 ProofsJet3 ProofsOrder ProofsOrder2 ProofsOrder3 ProofsOrder4 ProofsOrder5 ProofsOrder6 ProofsOrder7 ProofsOrder8.
From Verif Require Import ProofsUJ ProofsUJ2 ProofsConv ProofsConv2 ProofsConv3 ProofsConv4 ProofsConv5 ProofsConv6 ProofsConv7 ProofsConv8.
Set Implicit Arguments.
Unset Strict Implicit.
Unset Printing Implicit Defensive.
Import Order.TTheory GRing.Theory Num.Theory.
Local Open Scope ring_scope.
Local Opaque breakdown_tol norm2 phi_linop f_phi_k_pfd kiops_fixedsteps.

Lemma err1_le j C C' q (d e : R) v : C <= C' -> 0 <= d -> 0 <= e -> err1 (q := q) j C d e v -> err1 j C' d e v.
Proof.
move=> hC d0 e0 h; apply: le_trans h _; apply: ler_add; last by rewrite !ler_wpmul2r // addr_ge0 ?exprn_ge0.
by apply: ler_wpmul2r; rewrite ?ninf_ge0 // ler_add2l ler_wpmul2r.
Qed.
Lemma ans_le (x del eta u : R) : x <= del * u -> del <= eta -> 0 <= u -> x <= eta * u.
Proof. by move=> h1 h2 h3; apply: le_trans h1 _; apply: ler_wpmul2r. Qed.

(* what a step must deliver at a point of the tube *)
Section Gen.
Variables (k p : nat) (B rad len C h0 : R).
Hypothesis p0 : (0 < p)%N.
Hypothesis B0 : 0 <= B.
Hypothesis r0 : 0 < rad.
Hypothesis C0 : 0 <= C.
Hypothesis h00 : 0 < h0.
Lemma conv_gen n f (z : R -> 'cV[R]_n) t0 T ft J H2 H3 S Kw W (step : S -> R -> option Kw -> result (S * step_result R 'cV[R]_n))
  accept (cb1 cb2 : option (W -> R -> 'cV[R]_n -> W * Kw)) N s w y0 dt del (Inv : nat -> 'cV[R]_n -> 'cV[R]_n -> S -> Prop) :
  smooth_tube k f z t0 T rad B ft J H2 H3 ->
  0 <= dt -> dt <= hlev C h0 rad len -> 0 <= del -> del <= hlev C h0 rad len ->
  (t0 + dt *+ N <= T)%R -> (T - t0 <= len)%R -> z t0 = y0 -> Inv 0%N y0 y0 s ->
  (forall i s c yp y (eta : R), (i < N)%N -> Inv i yp y s ->
     let t := (t0 + dt *+ i)%R in let q := tprob f z t0 T ft J H2 H3 t y in
     in_tube z t0 T rad t y -> ubase k (4%:R * B)%R (tr rad B) q dt eta -> dt <= h0 -> eta <= h0 -> del <= eta ->
     ((0 < i)%N -> ptin q (- dt) /\ ninf (yp - z (t - dt)%R) <= eta) ->
     exists s' v, [/\ step s dt c = Ok (s', mkStep (t + dt)%R dt v (-1)),
       Inv i.+1 y v (accept s' (mkStep (t + dt)%R dt v (-1))) & err1 (q := q) p C dt eta v]) ->
  exists d, integrate_ormatex step accept cb1 cb2 s w y0 t0 dt N = Ok d /\
  converges p (exp (2%:R * C * len)%R) dt del z t0 N (d_ys d).
Proof.
move=> st d0 d1 e0 e1 hT hl hz i0 hs.
have hN : dt *+ N <= len by apply: le_trans hl; rewrite ler_subr_addl.
apply: (run_conv p0 C0 h00 r0 cb1 cb2 w d0 d1 e0 e1 hN hz i0) => i s' c yp y eta iN hI dh de eh hr he hp.
have ge i' : (i' <= N)%N -> t0 + dt *+ i' <= T by move=> h; apply: le_trans hT; rewrite ler_add2l ler_wpmuln2l.
have le i' : t0 <= t0 + dt *+ i' by rewrite ler_addl mulrn_wge0.
have rr : 0 <= rad / 2%:R by rewrite divr_ge0 ?ler0n ?ltW.
have hm : maxnorm_le (y - z (t0 + dt *+ i)%R) (rad / 2%:R) by apply/maxnorm_ninf.
have et : t0 + dt *+ i + dt = t0 + dt *+ i.+1 by rewrite mulrSr addrA.
apply: (hs i s' c yp y eta iN hI) => //.
- split=> //; first exact: ge (ltnW iN).
  by move=> j; apply: le_trans (hm j) _; rewrite ler_pdivr_mulr ?ltr0n // ler_pemulr ?ler1n ?ltW.
- have hp1 := tube_good r0 B0 st (le i) (ge i (ltnW iN)) hm; split=> //.
  + exact: le_trans e0 de.
  + by split; rewrite /= et; [exact: le|exact: ge].
  + by rewrite /= -ninfN opprB.
- move=> i1; split; last exact: hp.
  have e : t0 + dt *+ i - dt = t0 + dt *+ i.-1 by rewrite -{1}(prednK i1) mulrSr addrA addrK.
  by split; rewrite /= e //; apply: ge; apply: leq_trans (leq_pred i) (ltnW iN).
Qed.
End Gen.

Section RB.
Variables (B rad len : R).
Hypothesis B0 : 0 <= B.
Hypothesis r0 : 0 < rad.
Let B4 : 0 <= 4%:R * B. Proof. by rewrite mulr_ge0 ?ler0n. Qed.
Let rr := tr_gt0 r0 B0.

Lemma rb_conv m p (acc : accuracy) (C h0 : R) : (1 < p)%N -> 0 <= C -> 0 < h0 ->
  (forall KW (K : kernels [rcfType of R]) n (o : rbopts [rcfType of R]) (kw0 : KW) (sys : odesys [rcfType of R] KW n)
    f (z : R -> 'cV[R]_n) ft J H2 H3 t0 T dt del t y eta (h : hist R 'cV[R]_n) c,
    o_method o = m -> reachable h -> current h t y -> 0 <= del -> del <= eta -> dt <= h0 -> eta <= h0 ->
    smooth_system sys f t y (ft t y) (J t y) -> (ft t y = 0 \/ gate_open (o_tol o) (ft t y)) ->
    @acc KW n o K kw0 sys t y (J t y) dt del ->
    ubase p.-1 (4%:R * B)%R (tr rad B) (tprob f z t0 T ft J H2 H3 t y) dt eta ->
    exists v, rb_step K o kw0 sys h dt c = Ok (h, mkStep (t + dt)%R dt v (-1)) /\
      err1 (q := tprob f z t0 T ft J H2 H3 t y) p C dt eta v) ->
  rosenbrock_converges B rad len m p (exp (2%:R * C * len)%R) (hlev C h0 rad len) acc.
Proof.
move=> p1 C0 h00 hs KW K n o kw0 sys f z ft J H2 H3 t0 T dt del N W cb1 cb2 h w y0 hm hn st hz hsm hg ha hT hl d0 d1 e0 e1.
have [ord [_ hi]] := rb_new_hist hn.
apply: (@conv_gen p.-1 p B rad len C h0 (ltnW p1) B0 r0 C0 h00 _ f z t0 T ft J H2 H3 _ _ _ (rb_step K o kw0 sys) (@hist_accept R 'cV[R]_n) cb1 cb2 N h w y0 dt del
  (fun i yp y h => reachable h /\ current h (t0 + dt *+ i)%R y) st d0 d1 e0 e1 hT hl hz).
  by rewrite mulr0n addr0; split; [exact: reachable_init hi|exact: init_current hi].
move=> i s c yp y eta iN [hr hc] t q hin ub dh eh de _.
have gate : ft t y = 0 \/ gate_open (o_tol o) (ft t y).
  by case: (hg t y hin) => [?|[g1 g2]]; [left|right; apply: gate_openP].
have [v [g1 g2]] := hs KW K n o kw0 sys f z ft J H2 H3 t0 T dt del t y eta s c hm hr hc e0 de dh eh (hsm _ _ hin) gate (ha _ _ hin) ub.
exists s, v; split=> //; split; first exact: reachable_accept.
by have := @accept_current _ _ s (mkStep (t + dt)%R dt v (-1)) hr; rewrite /t /= mulrSr addrA.
Qed.

Notation TP f z t0 T ft J H2 H3 t y := (tprob f z t0 T ft J H2 H3 t y).
Lemma rb_claim_exists m p (acc : accuracy) (C h0 : R) : 0 < h0 ->
  rosenbrock_converges B rad len m p (exp (2%:R * C * len)%R) (hlev C h0 rad len) acc ->
  exists C h0 : R, [/\ 0 <= C, 0 < h0 & rosenbrock_converges B rad len m p C h0 acc].
Proof. by move=> h00 h; exists (exp (2%:R * C * len)%R), (hlev C h0 rad len); split=> //; [exact: exp_ge0|exact: hlev_gt0]. Qed.

Theorem C69_krylov_convergence m p :
  List.In (m, p) [:: ("exprb2", 2%N); ("exprb3", 3%N); ("pexprb4", 4%N); ("epi2", 2%N)]%string ->
  exists C h0 : R, [/\ 0 <= C, 0 < h0 & rosenbrock_converges B rad len m p C h0 krylov_kernels].
Proof.
case=> [[<- <-]|[[<- <-]|[[<- <-]|[[<- <-]|//]]]].
- have [C [h0 [C0 h00 H]]] := one_exprb2 B4 rr.
  apply: (rb_claim_exists (C := C) h00); apply: rb_conv => // KW K n o kw0 sys f z ft J H2 H3 t0 T dt del t y eta h c hm hr hc e0 de dh eh hs hg [ha hk] ub; rewrite hm in ha hk.
  have [w1 [w2 [g1 g2 g3]]] := exprb2_step (odflt kw0 c) hs hc hg (ha ltac:(done)) e0.
  exists (y + w1 + dt ^+ 2 *: w2); split; first by rewrite /rb_step hm /= g1.
  refine (H (@UOm (TP f z t0 T ft J H2 H3 t y) dt eta w1 w2 0 0 0 0) ub _ dh eh); split; rewrite /= mul1r.
  + by apply: ans_le g2 de _; exact: ninf_ge0.
  + by apply: ans_le g3 de _; exact: ninf_ge0.
- have [C [h0 [C0 h00 H]]] := one_exprb3 B4 rr.
  apply: (rb_claim_exists (C := C) h00); apply: rb_conv => // KW K n o kw0 sys f z ft J H2 H3 t0 T dt del t y eta h c hm hr hc e0 de dh eh hs hg [ha hk] ub; rewrite hm in ha hk.
  have [w1 [w2 [w3 [g1 g2 g3 g4]]]] := exprb3_step (odflt kw0 c) hs hc hg (ha ltac:(done)) e0.
  eexists; split; first by rewrite /rb_step hm /= g1.
  refine (H (@UOm (TP f z t0 T ft J H2 H3 t y) dt eta w1 w2 w3 0 0 0) ub _ dh eh); split=> /=.
  + by apply: ans_le g2 de _; exact: ninf_ge0.
  + by apply: ans_le g3 de _; exact: ninf_ge0.
  + by rewrite mul1r; apply: ans_le g4 de _; exact: ninf_ge0.
- have [C [h0 [C0 h00 H]]] := one_pexprb4 B4 rr.
  apply: (rb_claim_exists (C := C) h00); apply: rb_conv => // KW K n o kw0 sys f z ft J H2 H3 t0 T dt del t y eta h c hm hr hc e0 de dh eh hs hg [ha hk] ub; rewrite hm in ha hk.
  have [v1 [v2 [w1 [w2 [b [g1 [g2 g3] g4 g5 g6]]]]]] := pexprb4_step (odflt kw0 c) hs hc hg (ha ltac:(done)) (hk (or_introl erefl)) e0.
  eexists; split; first by rewrite /rb_step hm /= g1.
  refine (H (@UOm (TP f z t0 T ft J H2 H3 t y) dt eta v1 v2 w1 w2 b 0) ub _ dh eh); split=> /=.
  + by apply: ans_le g2 de _; exact: ninf_ge0.
  + by apply: ans_le g3 de _; exact: ninf_ge0.
  + by apply: ans_le g4 de _; exact: ninf_ge0.
  + by apply: ans_le g5 de _; exact: ninf_ge0.
  + by apply: ans_le g6 de _; rewrite addr_ge0 ?ninf_ge0.
- have [C [h0 [C0 h00 H]]] := one_epi2 B4 rr.
  apply: (rb_claim_exists (C := C) h00); apply: rb_conv => // KW K n o kw0 sys f z ft J H2 H3 t0 T dt del t y eta h c hm hr hc e0 de dh eh hs hg [ha hk] ub; rewrite hm in ha hk.
  have [b [g1 g2]] := epi2_step (odflt kw0 c) hs hc (hk (or_intror (or_introl erefl))) e0.
  exists (y + b); split; first by rewrite /rb_step hm /= g1.
  refine (H (@UOm (TP f z t0 T ft J H2 H3 t y) dt eta b 0 0 0 0 0) ub _ dh eh).
  by apply: ans_le g2 de _; rewrite addr_ge0 ?ninf_ge0.
Qed.

(* dense phi functions; partial fractions in Python and through the Rust bindings *)
Lemma dense_like m (acc : accuracy) :
  (forall KW (K : kernels [rcfType of R]) n (o : rbopts [rcfType of R]) (kw0 : KW) (sys : odesys [rcfType of R] KW n)
    f t y (ft : 'cV[R]_n) J dt del (h : hist R 'cV[R]_n) c,
    o_method o = m -> current h t y -> 0 <= del ->
    smooth_system sys f t y ft J -> (ft = 0 \/ gate_open (o_tol o) ft) ->
    @acc KW n o K kw0 sys t y J dt del -> exists w1 w2,
    [/\ rb_step K o kw0 sys h dt c = Ok (h, mkStep (t + dt)%R dt (y + dt *: (w1 + dt *: w2)) (-1)),
      ninf (w1 - phi 1 (dt *: J) *m f t y) <= del * ninf (f t y) & ninf (w2 - phi 2 (dt *: J) *m ft) <= del * ninf ft]) ->
  exists C h0 : R, [/\ 0 <= C, 0 < h0 & rosenbrock_converges B rad len m 2 C h0 acc].
Proof.
move=> hstep; have [C [h0 [C0 h00 H]]] := one_dense B4 rr.
apply: (rb_claim_exists (C := C) h00); apply: rb_conv => // KW K n o kw0 sys f z ft J H2 H3 t0 T dt del t y eta h c hm hr hc e0 de dh eh hs hg ha ub.
have [w1 [w2 [g1 g2 g3]]] := hstep KW K n o kw0 sys f t y (ft t y) (J t y) dt del h c hm hc e0 hs hg ha.
exists (y + dt *: (w1 + dt *: w2)); split=> //.
refine (H (@UOm (TP f z t0 T ft J H2 H3 t y) dt eta w1 w2 0 0 0 0) ub _ dh eh); split; rewrite /= mul1r.
- by apply: ans_le g2 de _; exact: ninf_ge0.
- by apply: ans_le g3 de _; exact: ninf_ge0.
Qed.
Theorem C69_dense_convergence : exists C h0 : R,
  [/\ 0 <= C, 0 < h0 & rosenbrock_converges B rad len "exprb2_dense" 2 C h0 dense_kernels].
Proof.
apply: dense_like => KW K n o kw0 sys f t y ft J dt del h c hm hc e0 hs hg [hd ha].
have [w1 [w2 [g1 g2 g3]]] := dense_step hs hc hd ha e0; exists w1, w2; split=> //.
by rewrite /rb_step hm /= g1.
Qed.
Theorem C69_pfd_convergence : exists C h0 : R,
  [/\ 0 <= C, 0 < h0 & rosenbrock_converges B rad len "exprb2_pfd" 2 C h0 pfd_kernels].
Proof.
apply: dense_like => KW K n o kw0 sys f t y ft J dt del h c hm hc e0 hs hg [hd ha].
have [w1 [w2 [g1 g2 g3]]] := pfd_step hs hc hg (hd (odflt kw0 c)) ha e0; exists w1, w2; split=> //.
by rewrite /rb_step hm /= g1.
Qed.
Theorem C69_pfd_rs_convergence : exists C h0 : R,
  [/\ 0 <= C, 0 < h0 & rosenbrock_converges B rad len "exprb2_pfd_rs" 2 C h0 rs_kernels].
Proof.
apply: dense_like => KW K n o kw0 sys f t y ft J dt del h c hm hc e0 hs hg [hr hd ha].
have [w1 [w2 [g1 g2 g3]]] := pfd_rs_step hs hc hg hd ha e0; exists w1, w2; split=> //.
by rewrite /rb_step hm /= hr /= g1.
Qed.

(* epi3: the first step is one of exprb3, every later one uses the stored previous state, which is itself
   only an approximation *)
Theorem C69_epi3_convergence : exists C h0 : R,
  [/\ 0 <= C, 0 < h0 & rosenbrock_converges B rad len "epi3" 3 C h0 krylov_kernels].
Proof.
have [C1 [h1 [C10 h10 G1]]] := one_exprb3 B4 rr.
have [C2 [h2 [C20 h20 G2]]] := one_epi3 B4 rr.
pose C := Num.max C1 C2; pose h0 := Num.min h1 h2.
have C0 : 0 <= C by rewrite le_maxr C10.
have h00 : 0 < h0 by rewrite lt_minr h10.
have [l1 l2] : C1 <= C /\ C2 <= C by split; rewrite le_maxr lexx ?orbT.
apply: (rb_claim_exists (C := C) h00).
move=> KW K n o kw0 sys f z ft J H2 H3 t0 T dt del N W cb1 cb2 h w y0 hm hn st hz hsm hg ha hT hl d0 d1 e0 e1.
have [ord [ho hi]] := rb_new_hist hn; rewrite hm in ho.
have ord2 : ord = 3%N by case: ho.
apply: (@conv_gen 2 3 B rad len C h0 isT B0 r0 C0 h00 _ f z t0 T ft J H2 H3 _ _ _ (rb_step K o kw0 sys) (@hist_accept R 'cV[R]_n) cb1 cb2 N h w y0 dt del
  (fun i yp y h => [/\ reachable h, current h (t0 + dt *+ i)%R y, h_order h = 3%N &
     if i is _.+1 then previous h (t0 + dt *+ i - dt)%R yp else hist_has_prev h = false]) st d0 d1 e0 e1 hT hl hz).
  rewrite mulr0n addr0; split; [exact: reachable_init hi|exact: init_current hi| |].
    by move: hi; rewrite ord2 => -[<-].
  by move: hi; rewrite ord2 => -[<-].
move=> i s c yp y eta iN [hr hc hor hpv] t q hin ub dh eh de hp.
have gate : ft t y = 0 \/ gate_open (o_tol o) (ft t y).
  by case: (hg t y hin) => [?|[g1 g2]]; [left|right; apply: gate_openP].
have [dh1 dh2] : dt <= h1 /\ dt <= h2 by move: dh; rewrite le_minr => /andP.
have [eh1 eh2] : eta <= h1 /\ eta <= h2 by move: eh; rewrite le_minr => /andP.
have hs := hsm _ _ hin; have [hap hak] := ha _ _ hin; rewrite hm in hap hak; have eta0 := ub_e ub.
have inv v : [/\ reachable (hist_accept s (mkStep (t + dt)%R dt v (-1))),
    current (hist_accept s (mkStep (t + dt)%R dt v (-1))) (t0 + dt *+ i.+1)%R v,
    h_order (hist_accept s (mkStep (t + dt)%R dt v (-1))) = 3%N &
    previous (hist_accept s (mkStep (t + dt)%R dt v (-1))) (t0 + dt *+ i.+1 - dt)%R y].
  have et : t0 + dt *+ i.+1 = t + dt by rewrite /t mulrSr addrA.
  split=> //; first exact: reachable_accept.
    by have := @accept_current _ _ s (mkStep (t + dt)%R dt v (-1)) hr; rewrite et.
  rewrite et addrK; case: hc => _ [c1 c2]; move: c1 c2; rewrite /previous /hist_accept /appendleft /appendleftY hor /=.
  by case: (h_ts s) => // a l [->]; case: (h_ys s) => // b l' [->].
have [i0|i1] := posnP i.
  have {}hpv : hist_has_prev s = false by rewrite i0 in hpv.
  have [w1 [w2 [w3 [g1 g2 g3 g4]]]] := exprb3_step (odflt kw0 c) hs hc gate (hap ltac:(done)) e0.
  eexists; eexists; split; [by rewrite /rb_step hm /= hpv /= g1|exact: inv|].
  apply: (err1_le l1 d0 eta0).
  refine (G1 (@UOm (TP f z t0 T ft J H2 H3 t y) dt eta w1 w2 w3 0 0 0) ub _ dh1 eh1); split=> /=.
  + by apply: ans_le g2 de _; exact: ninf_ge0.
  + by apply: ans_le g3 de _; exact: ninf_ge0.
  + by rewrite mul1r; apply: ans_le g4 de _; exact: ninf_ge0.
have [p1 p2] := hp i1.
have {}hpv : previous s (t0 + dt *+ i - dt)%R yp by move: hpv i1; clear; case: i.
have hpp : hist_has_prev s.
  by case: hpv => _; rewrite /hist_has_prev; case: (h_ys s) => [|x [|x' l]].
have [b [g1 g2]] := epi3_step (odflt kw0 c) hs hc (hak (or_intror (or_intror (or_introl erefl)))) e0 hpv.
eexists; eexists; split; [by rewrite /rb_step hm /= hpp /= g1|exact: inv|].
apply: (err1_le l2 d0 eta0).
refine (G2 (@UOm (TP f z t0 T ft J H2 H3 t y) dt eta b yp 0 0 0 0) ub _ dh2 eh2); split=> //.
by apply: ans_le g2 de _; rewrite addr_ge0 ?ninf_ge0.
Qed.
End RB.
