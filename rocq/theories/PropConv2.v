(* PropConv2.v : C69 for the split methods and rk4. *)
From Coq Require Import Reals String.
From mathcomp Require Import all_ssreflect all_algebra.
From mathcomp Require Import complex ring.
From Verif Require Import Rstruct Summable MxBase MxSeries ProofsPhiErr ModelHist SpecHist ModelOps SpecOps SpecPhi ModelPhi ModelKrylov ModelDispatch ModelInt SpecInt ProofsInt ProofsInt4 ProofsInt5 SpecExact ProofsExact.
From Verif Require Import SpecProg SpecOrder SpecOrder2 SpecConv SpecConv2 ProofsJet ProofsJet2 ProofsJet3 ProofsOrder ProofsOrder2 ProofsOrder3 ProofsOrder4 ProofsOrder5 ProofsOrder6 ProofsOrder7 ProofsOrder8.
From Verif Require Import ProofsUJ ProofsUJ2 ProofsConv ProofsConv2 ProofsConv3 ProofsConv4 ProofsConv5 ProofsConv6 ProofsConv7 ProofsConv8 PropConv.
Set Implicit Arguments.
Unset Strict Implicit.
Unset Printing Implicit Defensive.
Import Order.TTheory GRing.Theory Num.Theory.
Local Open Scope ring_scope.
Local Opaque breakdown_tol norm2 phi_linop f_phi_k_pfd kiops_fixedsteps.

Section Sp.
Variables (B rad len : R).
Hypothesis B0 : 0 <= B.
Hypothesis r0 : 0 < rad.
Let B4 : 0 <= 4%:R * B. Proof. by rewrite mulr_ge0 ?ler0n. Qed.
Let BB : B <= 4%:R * B. Proof. by rewrite ler_pemull // ler1n. Qed.
Let rr := tr_gt0 r0 B0.
Notation TP f z t0 T ft J H2 H3 t y := (tprob f z t0 T ft J H2 H3 t y).

Lemma sp_conv m p (C h0 : R) : (0 < p)%N -> 0 <= C -> 0 < h0 ->
  (forall KW (K : kernels [rcfType of R]) n kdim iom (sys : splitsys [rcfType of R] KW n)
    f (z : R -> 'cV[R]_n) ft J H2 H3 (M : 'M[R]_n) t0 T dt del t y (eta : R) ob c,
    current (sp_hist ob) t y -> 0 <= del -> del <= eta -> dt <= h0 -> eta <= h0 ->
    (forall kw s u, os_frhs (ss_sys sys) kw s u = f s u) -> acts_as (ss_fl sys t y) M -> ninf M <= 4%:R * B ->
    phi_accurate K kdim iom M dt del ->
    ubase (maxn p.-1 1) (4%:R * B)%R (tr rad B) (TP f z t0 T ft J H2 H3 t y) dt eta ->
    exists v, sp_step K kdim iom m sys ob dt c = Ok (ob, mkStep (t + dt)%R dt v (-1)) /\
      err1 (q := TP f z t0 T ft J H2 H3 t y) p C dt eta v) ->
  exists C h0 : R, [/\ 0 <= C, 0 < h0 & split_converges B rad len m p C h0].
Proof.
move=> p0 C0 h00 hs; exists (exp (2%:R * C * len)%R), (hlev C h0 rad len); split; [exact: exp_ge0|exact: hlev_gt0|].
move=> KW K n kdim iom sys f z ft J H2 H3 M t0 T dt del N W cb1 cb2 ob w y0 hn st hz hf ha hT hl d0 d1 e0 e1.
have [ord [_ [hi _]]] := sp_new_hist hn.
apply: (@conv_gen (maxn p.-1 1) p B rad len C h0 p0 B0 r0 C0 h00 _ f z t0 T ft J H2 H3 _ _ _ (sp_step K kdim iom m sys) (@sp_accept [rcfType of R] n) cb1 cb2 N ob w y0 dt del
  (fun i yp y ob => reachable (sp_hist ob) /\ current (sp_hist ob) (t0 + dt *+ i)%R y) st d0 d1 e0 e1 hT hl hz).
  by rewrite mulr0n addr0; split; [exact: reachable_init hi|exact: init_current hi].
move=> i s c yp y eta iN [hr hc] t q hin ub dh eh de _.
have [hl1 hm1 ha1] := ha _ _ hin.
have hM : ninf (M t y) <= 4%:R * B by apply: le_trans BB; apply: ninf_le.
have [v [g1 g2]] := hs KW K n kdim iom sys f z ft J H2 H3 (M t y) t0 T dt del t y eta s c hc e0 de dh eh hf hl1 hM ha1 ub.
exists s, v; split=> //; split; first exact: reachable_accept.
by have := @accept_current _ _ (sp_hist s) (mkStep (t + dt)%R dt v (-1)) hr; rewrite /t /= mulrSr addrA.
Qed.
Theorem C69_split_convergence m p : List.In (m, p) [:: ("exp1", 1%N); ("exp2", 2%N); ("exp3", 3%N)]%string ->
  exists C h0 : R, [/\ 0 <= C, 0 < h0 & split_converges B rad len m p C h0].
Proof.
case=> [[<- <-]|[[<- <-]|[[<- <-]|//]]].
- have [C [h0 [C0 h00 H]]] := one_exp1 B4 rr.
  apply: (sp_conv (C := C) (h0 := h0)) => // KW K n kdim iom sys f z ft J H2 H3 M t0 T dt del t y eta ob c hc e0 de dh eh hf hl hM ha ub.
  have [w1 [g1 g2]] := exp1_step hf hl hc ha e0.
  exists (y + w1); split; first by rewrite /sp_step /= g1.
  refine (H (@UOm (TP f z t0 T ft J H2 H3 t y) dt eta w1 0 0 0 0 M) ub _ dh eh); split=> //=.
  by apply: ans_le g2 de _; exact: ninf_ge0.
- have [C [h0 [C0 h00 H]]] := one_exp2 B4 rr.
  apply: (sp_conv (C := C) (h0 := h0)) => // KW K n kdim iom sys f z ft J H2 H3 M t0 T dt del t y eta ob c hc e0 de dh eh hf hl hM ha ub.
  have [w1 [w2 [g1 g2 g3]]] := exp2_step hf hl hc ha e0.
  exists (y + w1 + w2); split; first by rewrite /sp_step /= g1.
  refine (H (@UOm (TP f z t0 T ft J H2 H3 t y) dt eta w1 w2 0 0 0 M) ub _ dh eh); split=> //=.
  + by apply: ans_le g2 de _; exact: ninf_ge0.
  + by apply: ans_le g3 de _; exact: ninf_ge0.
- have [C [h0 [C0 h00 H]]] := one_exp3 B4 rr.
  apply: (sp_conv (C := C) (h0 := h0)) => // KW K n kdim iom sys f z ft J H2 H3 M t0 T dt del t y eta ob c hc e0 de dh eh hf hl hM ha ub.
  have [w1 [w3 [a [b [g1 g2 g3 g4 g5]]]]] := exp3_step hf hl hc ha e0.
  exists (y + a + b); split; first by rewrite /sp_step /= g1.
  refine (H (@UOm (TP f z t0 T ft J H2 H3 t y) dt eta w1 w3 a b 0 M) ub _ dh eh); split=> //=; split.
  + by apply: ans_le g2 de _; exact: ninf_ge0.
  + by apply: ans_le g3 de _; exact: ninf_ge0.
  + by apply: ans_le g4 de _; exact: ninf_ge0.
  + by apply: ans_le g5 de _; exact: ninf_ge0.
Qed.

(* the cache of the dense variants *)
Section Cache.
Variables (KW : Type) (K : kernels [rcfType of R]) (n : nat) (sys : splitsys [rcfType of R] KW n) (M : 'M[R]_n) (dt : R) (cks : seq (R * seq nat)).
Definition usable (t : R) (y : 'cV[R]_n) (ob : spobj [rcfType of R] n) : Prop :=
  (sp_dt ob = None /\ acts_as (ss_fl sys t y) M /\ lo_dense (ss_fl sys t y) = Ok M) \/
  (exists lop D, [/\ sp_dt ob = Some dt, sp_cache ob = Some (lop, D), acts_as lop M & fill_dict K dt M cks [::] = Ok D]).
Lemma usable_upd t y ob D : dt != 0 -> current (sp_hist ob) t y -> usable t y ob -> fill_dict K dt M cks [::] = Ok D ->
  exists lop ob', [/\ acts_as lop M, forall d, fill_dict K dt M cks [::] = Ok d -> update_dense_phiLs K sys ob dt cks = Ok (ob', (lop, d)),
     sp_hist ob' = sp_hist ob & forall t' y' r, usable t' y' (sp_accept ob' r)].
Proof.
move=> dn hc; case=> [[e1 [e2 e3]]|[lop [D' [e1 e2 e3 e4]]]] hD.
  exists (ss_fl sys t y), (SpObj (sp_hist ob) (Some dt) (Some (ss_fl sys t y, D))); split=> //.
    move=> d; rewrite hD => -[<-].
    by rewrite /update_dense_phiLs /cache_hit e1 (current_y hc); cbn [rbind]; rewrite (current_t hc) e3; cbn [rbind]; rewrite hD.
  by move=> t' y' r; right; exists (ss_fl sys t y), D.
exists lop, ob; split=> //.
  by move=> d; rewrite e4 => -[<-]; rewrite /update_dense_phiLs /cache_hit e1 dn eqxx e2.
by move=> t' y' r; right; exists lop, D'.
Qed.
End Cache.
Lemma spd_conv m p (C h0 : R) (cks : seq (R * seq nat)) : (0 < p)%N -> 0 <= C -> 0 < h0 ->
  (forall KW (K : kernels [rcfType of R]) n kdim iom (sys : splitsys [rcfType of R] KW n)
    f (z : R -> 'cV[R]_n) ft J H2 H3 (M : 'M[R]_n) t0 T dt del t y (eta : R) ob c,
    current (sp_hist ob) t y -> dt != 0 -> 0 <= del -> del <= eta -> dt <= h0 -> eta <= h0 ->
    (forall kw s u, os_frhs (ss_sys sys) kw s u = f s u) -> usable K sys M dt cks t y ob -> ninf M <= 4%:R * B ->
    dense_accurate K M dt del ->
    ubase (maxn p.-1 1) (4%:R * B)%R (tr rad B) (TP f z t0 T ft J H2 H3 t y) dt eta ->
    exists ob' v, [/\ sp_step K kdim iom m sys ob dt c = Ok (ob', mkStep (t + dt)%R dt v (-1)),
      sp_hist ob' = sp_hist ob, (forall t' y' r, usable K sys M dt cks t' y' (sp_accept ob' r)) &
      err1 (q := TP f z t0 T ft J H2 H3 t y) p C dt eta v]) ->
  exists C h0 : R, [/\ 0 <= C, 0 < h0 & split_dense_converges B rad len m p C h0].
Proof.
move=> p0 C0 h00 hs; exists (exp (2%:R * C * len)%R), (hlev C h0 rad len); split; [exact: exp_ge0|exact: hlev_gt0|].
move=> KW K n kdim iom sys f z ft J H2 H3 M t0 T dt del N W cb1 cb2 ob w y0 hn st hz hf ha hd hm hacc hT hl dp d1 e0 e1.
have d0 := ltW dp; have dn : dt != 0 by exact: lt0r_neq0.
have [ord [_ [hi [e_dt _]]]] := sp_new_hist hn.
have hM : ninf M <= 4%:R * B by apply: le_trans BB; apply: ninf_le.
apply: (@conv_gen (maxn p.-1 1) p B rad len C h0 p0 B0 r0 C0 h00 _ f z t0 T ft J H2 H3 _ _ _ (sp_step K kdim iom m sys) (@sp_accept [rcfType of R] n) cb1 cb2 N ob w y0 dt del
  (fun i yp y ob => [/\ reachable (sp_hist ob), current (sp_hist ob) (t0 + dt *+ i)%R y & usable K sys M dt cks (t0 + dt *+ i)%R y ob]) st d0 d1 e0 e1 hT hl hz).
  by rewrite mulr0n addr0; split; [exact: reachable_init hi|exact: init_current hi|left].
move=> i s c yp y eta iN [hr hc hu] t q hin ub dh eh de _.
have [s' [v [g1 g2 g3 g4]]] := hs KW K n kdim iom sys f z ft J H2 H3 M t0 T dt del t y eta s c hc dn e0 de dh eh hf hu hM hacc ub.
exists s', v; split=> //; split; [by rewrite /= g2; exact: reachable_accept| |exact: g3].
by have := @accept_current _ _ (sp_hist s) (mkStep (t + dt)%R dt v (-1)) hr; rewrite /t /= g2 mulrSr addrA.
Qed.
Theorem C69_split_dense_convergence m p :
  List.In (m, p) [:: ("exp1_dense", 1%N); ("exp2_dense", 2%N); ("exp3_dense", 3%N)]%string ->
  exists C h0 : R, [/\ 0 <= C, 0 < h0 & split_dense_converges B rad len m p C h0].
Proof.
case=> [[<- <-]|[[<- <-]|[[<- <-]|//]]].
- have [C [h0 [C0 h00 H]]] := one_exp1d B4 rr.
  apply: (spd_conv (C := C) (h0 := h0) (cks := cks1 _)) => // KW K n kdim iom sys f z ft J H2 H3 M t0 T dt del t y eta ob c hc dn e0 de dh eh hf hu hM ha ub.
  have [D hD] : exists D, fill_dict K dt M (cks1 _) [::] = Ok D by have [D [P [? _ _]]] := fill1 ha e0; exists D.
  have [lop [ob' [q1 q2 q3 q4]]] := usable_upd dn hc hu hD.
  have [w1 [g1 g2]] := exp1_dense_step hf hc ha e0 q2.
  exists ob', (y + (r1 * dt) *: w1); split=> //.
  refine (H (@UOm (TP f z t0 T ft J H2 H3 t y) dt eta w1 0 0 0 0 M) ub _ dh eh); split=> //=.
  by apply: ans_le g2 de _; exact: ninf_ge0.
- have [C [h0 [C0 h00 H]]] := one_exp2d B4 rr.
  apply: (spd_conv (C := C) (h0 := h0) (cks := cks2 _)) => // KW K n kdim iom sys f z ft J H2 H3 M t0 T dt del t y eta ob c hc dn e0 de dh eh hf hu hM ha ub.
  have [D hD] : exists D, fill_dict K dt M (cks2 _) [::] = Ok D by have [D [? [? [? [? _ _ _ _]]]]] := fill2 ha e0; exists D.
  have [lop [ob' [q1 q2 q3 q4]]] := usable_upd dn hc hu hD.
  have [wc [w1 [w2 [g1 g2 g3 g4]]]] := exp2_dense_step hf hc q1 ha e0 q2.
  eexists; eexists; split; [by rewrite /sp_step /= g1|exact: q3|exact: q4|].
  refine (H (@UOm (TP f z t0 T ft J H2 H3 t y) dt eta wc w1 w2 0 0 M) ub _ dh eh); split=> //=.
  + by apply: ans_le g2 de _; exact: ninf_ge0.
  + by apply: ans_le g3 de _; exact: ninf_ge0.
  + by apply: ans_le g4 de _; exact: ninf_ge0.
- have [C [h0 [C0 h00 H]]] := one_exp3d B4 rr.
  apply: (spd_conv (C := C) (h0 := h0) (cks := cks3 _)) => // KW K n kdim iom sys f z ft J H2 H3 M t0 T dt del t y eta ob c hc dn e0 de dh eh hf hu hM ha ub.
  have [D hD] : exists D, fill_dict K dt M (cks3 _) [::] = Ok D by have [D [? [? [? [? [? _ _ _ _]]]]]] := fill3 ha e0; exists D.
  have [lop [ob' [q1 q2 q3 q4]]] := usable_upd dn hc hu hD.
  have [wc [w3 [w1 [w2 [g1 g2 g3 g4 g5]]]]] := exp3_dense_step hf hc q1 ha e0 q2.
  eexists; eexists; split; [by rewrite /sp_step /= g1|exact: q3|exact: q4|].
  refine (H (@UOm (TP f z t0 T ft J H2 H3 t y) dt eta wc w3 w1 w2 0 M) ub _ dh eh); split=> //=; split.
  + by apply: ans_le g2 de _; exact: ninf_ge0.
  + by apply: ans_le g3 de _; exact: ninf_ge0.
  + by apply: ans_le g4 de _; exact: ninf_ge0.
  + by apply: ans_le g5 de _; exact: ninf_ge0.
Qed.
Theorem C69_rk4_convergence : exists C h0 : R, [/\ 0 <= C, 0 < h0 & rk4_converges B rad len C h0].
Proof.
have [C [h0 [C0 h00 H]]] := one_rk4 B4 rr.
exists (exp (2%:R * C * len)%R), (hlev C h0 rad len); split; [exact: exp_ge0|exact: hlev_gt0|].
move=> KW n sys f z ft J H2 H3 t0 T dt N W cb2 h w y0 hn st hz hf hT hl d0 d1.
have [ord [_ hi]] := rk_new_hist hn.
have e1 : 0 <= hlev C h0 rad len by rewrite ltW ?hlev_gt0.
suff : exists d, integrate_ormatex (fun h dt (_ : option KW) => rk_step "rk4" sys h dt None) (@hist_accept R 'cV[R]_n) None cb2 h w y0 t0 dt N = Ok d /\
    converges 4 (exp (2%:R * C * len)%R) dt 0 z t0 N (d_ys d) by exact.
apply: (@conv_gen 3 4 B rad len C h0 isT B0 r0 C0 h00 _ f z t0 T ft J H2 H3 _ _ _ _ _ _ cb2 N h w y0 dt 0
  (fun i yp y h => reachable h /\ current h (t0 + dt *+ i)%R y) st d0 d1 (lexx _) e1 hT hl hz).
  by rewrite mulr0n addr0; split; [exact: reachable_init hi|exact: init_current hi].
move=> i s c yp y eta iN [hr hc] t q hin ub dh eh de _.
exists s, (y + rk4v f t y dt); split; first by rewrite /rk_step /= (rk4_step dt hf hc).
  split; first exact: reachable_accept.
  by have := @accept_current _ _ s (mkStep (t + dt)%R dt (y + rk4v f t y dt) (-1)) hr; rewrite /t /= mulrSr addrA.
exact: (H (@UOm (TP f z t0 T ft J H2 H3 t y) dt eta 0 0 0 0 0 0) ub I dh eh).
Qed.
End Sp.
