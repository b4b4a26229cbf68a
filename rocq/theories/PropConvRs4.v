(* PropConvRs4.v : C70, the runs of the exponential integrators of the crate return. *)
From Coq Require Import Reals String Lra.
From mathcomp Require Import all_ssreflect all_algebra.
From mathcomp Require Import complex ring.
From Verif Require Import Rstruct Summable MxBase MxSeries ProofsPhiErr ModelHist SpecHist ModelOps SpecOps SpecPhi ModelPhi ModelKrylov ModelDispatch ModelInt SpecInt ProofsInt ProofsInt5 SpecExact ProofsOde ProofsExact.
From Verif Require Import SpecProg SpecOrder SpecOrder2 SpecConv ProofsJet ProofsJet2 ProofsJet3 ProofsOrder ProofsOrder2 ProofsOrder3 ProofsOrder4 ProofsOrder5 ProofsOrder6 ProofsOrder7 ProofsOrder8.
From Verif Require Import ProofsUJ ProofsUJ2 ProofsConv ProofsConv2 ProofsConv3 ProofsConv4 ProofsConv5 ProofsConv6 ProofsConv7 ProofsConv8 PropConv.
From Verif Require Import ModelRust SpecRust ProofsRust ProofsRust2 ProofsRust3 ProofsRust4 PropRust SpecConvRs SpecConvRs2 ProofsConvRs ProofsConvRs2 ProofsConvRs3 PropConvRs PropConvRs2 PropConvRs3 ProofsRust5 PropRustKry ProofsPade2.
Set Implicit Arguments.
Unset Strict Implicit.
Unset Printing Implicit Defensive.
Import Order.TTheory GRing.Theory Num.Theory.
Local Open Scope ring_scope.
Local Opaque newton_loop jac_newton norm2.
Lemma aphi_ok (F : rcfType) n (ev : evaluator F) (L : 'cV[F]_n -> 'cV[F]_n) dt v j dim iom : v != 0 -> (0 < dim)%N ->
  exists w, apply_phi_linop ev L dt v j dim iom = Ok w.
Proof.
move=> v0 d0; rewrite /apply_phi_linop; have [k [hs [qs [nb [-> _]]]]] := rarnoldi_fin L 1 iom v0 d0.
by cbn [rbind]; eexists.
Qed.
Lemma rkiops_ok (F : rcfType) n (ev : evaluator F) (L : 'cV[F]_n -> 'cV[F]_n) dt t vb dim iom : (1 < size vb)%N -> (0 < dim)%N ->
  exists w, rkiops ev L t dt vb dim iom = Ok w.
Proof.
move=> sv d0; rewrite /rkiops; set p := (size vb).-1.
have p0 : (0 < p)%N by rewrite /p -ltnS prednK // ltnW.
have v0 : ext_get_v p vb != 0.
  apply/eqP => h; have p1 : (p.-1 < p)%N by rewrite prednK.
  have := congr1 (fun w : 'cV[F]_(n + p) => dsubmx w (Ordinal p1) 0) h.
  rewrite /ext_get_v col_mxKd !mxE eqxx /= => /eqP; by rewrite oner_eq0.
rewrite /apply_linop; set L' := ext_apply _ _ _ _.
match goal with |- context [rarnoldi _ ?a _ _ _] => have [k [hs [qs [nb [-> _]]]]] := rarnoldi_fin L' a iom v0 d0 end.
by cbn [rbind]; eexists.
Qed.
Section Ok.
Variables (n : nat) (gmres : ('cV[R]_n -> 'cV[R]_n) -> 'cV[R]_n -> 'cV[R]_n -> nat -> R -> option 'cV[R]_n).
Variables (sys : rsys [rcfType of R] n) (dt t0 : R) (y0 : 'cV[R]_n) (m : string) (ev : evaluator [rcfType of R]) (dim iom : nat) (tol : R).
Hypothesis aut : forall s s' u, rs_frhs sys s u = rs_frhs sys s' u.
Hypothesis d0 : (0 < dim)%N.
Notation y := (it_state gmres sys dt (SEpi (epi0 t0 y0 m ev dim iom tol))).
Lemma ok_step2 i o : epi_at gmres sys dt t0 y0 m ev dim iom tol i o -> dt *: rs_frhs sys (t0 + dt *+ i)%R (y i) != 0 ->
  exists r, ep_step2 sys o dt = Ok r.
Proof.
move=> [h1 h2 h3 h4 h5 h6 h7 h8 h9 h10 h11] f0.
rewrite /ep_step2 /rnth h7; cbn [rbind]; rewrite aut_fdt //; cbn [rbind]; rewrite h3 h4 h5 h6.
have [w ->] := aphi_ok ev (rs_fjac sys (t0 + dt *+ i) (y i)) dt 1 iom f0 d0; by cbn [rbind]; eexists.
Qed.
Lemma ok_step3 i o : epi_at gmres sys dt t0 y0 m ev dim iom tol i o -> (0 < i)%N ->
  exists r, ep_step3 sys o dt = Ok r.
Proof.
move=> [h1 h2 h3 h4 h5 h6 h7 h8 h9 h10 h11] i0; have {}h10 := h10 i0; have {}h11 := h11 i0.
rewrite /ep_step3 /rnth h7 h10 h11; cbn [rbind]; rewrite aut_fdt //; cbn [rbind]; rewrite h3 h4 h5 h6.
rewrite /ep_remf /rnth h8 h7; cbn [rbind].
by match goal with |- context [rkiops ev ?L ?a ?b ?c dim iom] => have [w ->] := @rkiops_ok _ n ev L b a c dim iom isT d0 end; cbn [rbind]; eexists.
Qed.
End Ok.
Local Opaque apply_phi_linop rkiops.

Section Return.
Variables (B rad len c : R).
Hypothesis B0 : 0 <= B.
Hypothesis r0 : 0 < rad.
Hypothesis c0 : 0 < c.
Let B4 : 0 <= 4%:R * B. Proof. by rewrite mulr_ge0 ?ler0n. Qed.
Let B41 : 0 < 4%:R * B + 1. Proof. by rewrite ltr_spaddr ?ltr01. Qed.
(* along the solution and near it the speed stays positive *)
Lemma speed n k (f : R -> 'cV[R]_n -> 'cV[R]_n) z t0 T J H2 H3 s u (e : R) :
  smooth_tube k f z t0 T rad B (fun _ _ => 0) J H2 H3 -> t0 <= s -> s <= T ->
  (exists i, c <= `|f s (z s) i 0|) -> maxnorm_le (u - z s) e -> 0 <= e -> e <= tr rad B -> e <= c / (4%:R * B + 1) -> f s u != 0.
Proof.
move=> st s0 s1 [i hi] hu e0 e1 e2; apply/eqP => fu.
have zz : maxnorm_le (z s - z s) (rad / 2%:R) by move=> j; rewrite subrr mxE normr0 divr_ge0 ?ler0n ?ltW.
have g := tube_good r0 B0 st s0 s1 zz.
have hue := ninf_maxnorm e0 hu.
have := @pg_L _ _ _ _ g 0 u (z s) (pg_0 g); rewrite /= addr0 normr0 subrr ninf0 fu sub0r ninfN => h.
have {}h := h (ltW (tr_gt0 r0 B0)) (le_trans hue e1) (ltW (tr_gt0 r0 B0)).
suff : c < c by rewrite ltxx.
apply: le_lt_trans hi _.
apply: le_lt_trans (maxnorm_self (f s (z s)) i) _; apply: le_lt_trans h _.
apply: le_lt_trans (ler_wpmul2l B4 (le_trans hue e2)) _.
by rewrite mulrA ltr_pdivr_mulr // mulrC mulrDr mulr1 ltr_spaddr.
Qed.

Theorem C70_rust_exponential_returns m p :
  List.In (m, p) [:: ("epi2", 2%N); ("exprb2", 2%N); ("epi3", 3%N)]%string ->
  exists C h0 : R, [/\ 0 <= C, 0 < h0 & rs_exponential_returns B rad len c m p C h0].
Proof.
move=> hin.
have hin' : List.In (m, p) [:: ("epi2", 2%N); ("exprb2", 2%N); ("exprb3", 3%N); ("epi3", 3%N)]%string.
  by case: hin => [->|[->|[->|//]]]; [left|right; left|do 3 right; left].
have hm : List.In m [:: "epi2"; "exprb2"; "exprb3"; "epi3"]%string.
  by case: hin => [[<- _]|[[<- _]|[[<- _]|//]]]; [left|right; left|do 3 right; left].
have [C [h1 [C0 h10 H]]] := C70_rust_exponential len B0 r0 hin'.
pose e : R := (Num.min rad (Num.min (tr rad B) (c / (4%:R * B + 1))))%R.
have e0 : 0 < e by rewrite /e lt_minr r0 lt_minr (tr_gt0 r0 B0) divr_gt0.
have [er [et ec]] : e <= rad /\ e <= tr rad B /\ e <= c / (4%:R * B + 1).
  rewrite /e; move: (tr rad B) (c / _) => a b.
  by split; [|split]; rewrite !le_minl lexx ?orbT.
have C21 : 0 < 2%:R * C + 1 by rewrite ltr_spaddr ?ltr01 // mulr_ge0 ?ler0n.
pose h0 : R := (Num.min h1 (Num.min 1 (e / (2%:R * C + 1))))%R.
exists C, h0; split=> //.
  by rewrite /h0 !lt_minr h10 ltr01 divr_gt0.
move=> n gmres sys evals z J H2 H3 t0 T dt del N kwds em dim iom tol o y0 ho dim0 aut st hz hc hJ ha hk hT hl d0 d1 e1 e2.
have [dh [d11 de]] : dt <= h1 /\ dt <= 1 /\ dt <= e / (2%:R * C + 1) by move: d1; rewrite /h0 !le_minr => /andP[? /andP[]].
have [eh [_ ee]] : del <= h1 /\ del <= 1 /\ del <= e / (2%:R * C + 1) by move: e2; rewrite /h0 !le_minr => /andP[? /andP[]].
have bnd : C * (dt ^+ p + del) <= e.
  have p0 : (0 < p)%N by case: hin => [[_ <-]|[[_ <-]|[[_ <-]|//]]].
  have hdp : dt ^+ p <= dt by case: (p) p0 => // q _; rewrite exprS; apply: ler_pimulr; [exact: ltW|by apply: exprn_ile1 => //; exact: ltW].
  apply: le_trans (ler_wpmul2l C0 (ler_add (le_trans hdp de) ee)) _.
  have -> : C * (e / (2%:R * C + 1) + e / (2%:R * C + 1)) = (2%:R * C) * e / (2%:R * C + 1) by field; rewrite gt_eqF.
  by rewrite ler_pdivr_mulr // [X in _ <= X]mulrC; apply: ler_wpmul2r; [exact: ltW|rewrite ler_addl; exact: ler01].
have [s0 es] : exists s0, select_solver t0 y0 m (evals em) dim iom tol = Ok s0.
  apply/(C46_methods t0 y0 m (evals em) dim iom tol); do 4 right; split=> //.
  by case: hin => [[<- _]|[[<- _]|[[<- _]|//]]]; [left|right; left|do 2 right; left].
have drv i : (exists s, s_iter gmres sys dt s0 i = Ok s) -> exists ys ts, integrate_wrapper_rs gmres sys evals y0 t0 dt i kwds = Ok (ys, ts).
  case: (ho) => h1' h2' h3' h4' h5' h6' h7' [s hs].
  case E: (integrate_wrapper_rs _ _ _ _ _ _ _ _) => [[ys ts]|x]; first by exists ys, ts.
  by move: E => /(proj1 (@C46_failure _ _ gmres sys evals y0 t0 dt i kwds m em dim iom tol o s0 x h1' h2' h3' h4' h5' h6' h7' es)); rewrite hs.
have main i : (i <= N)%N -> exists s, s_iter gmres sys dt s0 i = Ok s.
  elim: i => [_|i IH iN]; first by exists s0.
  have [s hs] := IH (ltnW iN).
  have [ys [ts hd]] := drv i (ex_intro _ s hs).
  have lo : t0 <= t0 + dt *+ i by rewrite ler_addl mulrn_wge0 // ltW.
  have hi : (t0 + dt *+ i <= T)%R by apply: le_trans hT; rewrite ler_add2l ler_wpmuln2l ?(ltW d0) ?(ltnW iN).
  have cv := H n gmres sys evals z J H2 H3 t0 T dt del i kwds em dim iom tol o y0 ys ts ho aut st hz hJ ha hk hi hl d0 dh e1 eh hd.
  have [s0' [es' _ out]] := rs_out ho hd; move: es'; rewrite es => -[es']; rewrite -{s0'}es' in out.
  have hj : List.nth_error (output_indices o i ++ [:: i]) (size (output_indices o i)) = Some i.
    by elim: (output_indices o i).
  have [_ oy] := out _ _ hj; have [yy [ey hy]] := cv.2 _ _ hj; move: ey; rewrite oy => -[ey]; rewrite -{yy}ey in hy.
  have {}hy : maxnorm_le (it_state gmres sys dt s0 i - z (t0 + dt *+ i)%R) e by move=> k; apply: le_trans (hy k) bnd.
  have fn := speed st lo hi (hc _ lo hi) hy (ltW e0) et ec.
  have e0' := sel_epi hm es; rewrite e0' in hs fn *.
  have [ob [eb hb]] := it_epi hs.
  have fn' : dt *: rs_frhs sys (t0 + dt *+ i)%R (it_state gmres sys dt (SEpi (epi0 t0 y0 m (evals em) dim iom tol)) i) != 0.
    by rewrite scaler_eq0 negb_or fn gt_eqF.
  have [r hr] : exists r, ep_step sys ob dt = Ok r.
    have [r2 hr2] := ok_step2 aut dim0 hb fn'.
    have [i0|i1] := posnP i.
      by exists r2; rewrite /ep_step (ea_m hb) (ea_sz hb) i0; case: hin => [[<- _]|[[<- _]|[[<- _]|//]]].
    have [r3 hr3] := ok_step3 aut dim0 hb i1.
    rewrite /ep_step (ea_m hb) (ea_sz hb); case: hin => [[<- _]|[[<- _]|[[<- _]|//]]].
    - by exists r2.
    - by exists r2.
    - by exists r3; rewrite /= ltnS i1.
  by eexists; rewrite s_iterS hs eb; cbn [rbind s_step]; rewrite hr; cbn [rbind].
have [ys [ts hd]] := drv N (main N (leqnn N)).
exists ys, ts; split=> //.
exact: H ho aut st hz hJ ha hk hT hl d0 dh e1 eh hd.
Qed.
End Return.

(* the driver returns when the solver can take N steps *)
Lemma drv_ok n gmres (sys : rsys [rcfType of R] n) evals y0 t0 dt N kwds m em dim iom tol o s0 s :
  rs_options kwds m em dim iom tol o -> select_solver t0 y0 m (evals em) dim iom tol = Ok s0 -> s_iter gmres sys dt s0 N = Ok s ->
  exists ys ts, integrate_wrapper_rs gmres sys evals y0 t0 dt N kwds = Ok (ys, ts).
Proof.
case=> h1 h2 h3 h4 h5 h6 h7 es hs.
case E: (integrate_wrapper_rs _ _ _ _ _ _ _ _) => [[ys ts]|x]; first by exists ys, ts.
by move: E => /(proj1 (@C46_failure _ _ gmres sys evals y0 t0 dt N kwds m em dim iom tol o s0 x h1 h2 h3 h4 h5 h6 h7 es)); rewrite hs.
Qed.
Section Impl.
Variables (B len : R).
Hypothesis B0 : 0 <= B.
Theorem C70_rust_implicit_returns m p :
  List.In (m, p) [:: ("bdf1", 1%N); ("backeuler", 1%N); ("bdf2", 1%N); ("cn", 2%N)]%string ->
  exists C h0 : R, [/\ 0 <= C, 0 < h0 & rs_implicit_returns B len m p C h0].
Proof.
move=> hin; have [C [h1 [C0 h10 H]]] := C70_rust_implicit len B0 hin.
have B1 : 0 < 2%:R * B + 1 by rewrite ltr_spaddr ?ltr01 // mulr_ge0 ?ler0n.
pose h0 : R := (Num.min h1 (2%:R * B + 1)^-1)%R.
exists C, h0; split=> //; first by rewrite /h0 lt_minr h10 invr_gt0.
move=> n gmres sys evals A b z t0 T dt N kwds em dim iom tol o y0 ho ex co hf hj hz hz0 hA hb hT hl d0 d1.
have [dh db] : dt <= h1 /\ dt <= (2%:R * B + 1)^-1 by move: d1; rewrite /h0 le_minr => /andP.
suff [ys [ts hd]] : exists ys ts, integrate_wrapper_rs gmres sys evals y0 t0 dt N kwds = Ok (ys, ts).
  exists ys, ts; split=> //; exact: H ho ex hf hj hz hz0 hA hb hT hl d0 dh hd.
have [ord [hm ho3]] : exists ord, List.In (m, ord) [:: ("bdf1", 1%N); ("backeuler", 1%N); ("bdf2", 2%N); ("cn", 3%N)]%string /\ (0 < ord <= 3)%N.
  case: hin => [[<- _]|[[<- _]|[[<- _]|[[<- _]|//]]]]; [exists 1%N|exists 1%N|exists 2%N|exists 3%N]; split=> //; [by left|by right; left|by do 2 right; left|by do 3 right; left].
have [s0 es] : exists s0, select_solver t0 y0 m (evals em) dim iom tol = Ok s0.
  apply/(C46_methods t0 y0 m (evals em) dim iom tol).
  by case: hin => [[<- _]|[[<- _]|[[<- _]|[[<- _]|//]]]]; [left|right; left|do 2 right; left|do 3 right; left].
have e0 := sel_bdf hm es; rewrite e0 in es.
suff [s hs] : exists s, s_iter gmres sys dt (SBdf (bdf_new t0 y0 ord)) N = Ok s by exact: drv_ok ho es hs.
have un (c : R) : 0 <= c -> c <= 1 -> (1%:M - (c * dt) *: A) \in unitmx.
  move=> c0 c1; have [] // := @neumann n (- ((c * dt) *: A)).
  rewrite ninfN ninfZ ger0_norm ?mulr_ge0 //; have nA : ninf A <= B by apply: ninf_le.
  apply: (@le_trans _ _ (dt * B)); first by apply: ler_pmul; rewrite ?mulr_ge0 ?ninf_ge0 // ler_pimull.
  apply: le_trans (ler_wpmul2r B0 db) _; rewrite mulrC ler_pdivr_mulr // mulrDr mulrA mulVf ?pnatr_eq0 // mul1r mulr1 ler_addl.
  by rewrite invr_ge0 ler0n.
have tot i s : s_iter gmres sys dt (SBdf (bdf_new t0 y0 ord)) i = Ok s -> exists r, s_step gmres sys s dt = Ok r.
  move=> hs; have [ob [hist [-> h1' h2' h3' [h4' h5']]]] := it_bdf hs.
  change (s_step gmres sys (SBdf ob) dt) with (bdf_step gmres sys ob dt).
  have y0e : List.nth_error (b_ys ob) 0 = Some (it_state gmres sys dt (SBdf (bdf_new t0 y0 ord)) i) by rewrite h3'.
  have T1 : exists r, bdf_step1 gmres sys ob dt = Ok r.
    by apply: (@step1_total _ _ gmres ex A (fun _ => b) sys hf hj co _ _ _ y0e); have := un 1 ler01 (lexx _); rewrite mul1r.
  have [o1|[o2|o3]] : ord = 1%N \/ ord = 2%N \/ ord = 3%N.
    by case: (ord) ho3 => [|[|[|[|k]]]] // _; [left|right; left|right; right].
  - by rewrite /bdf_step (etrans h1' o1).
  - rewrite /bdf_step (etrans h1' o2) h3' [size _]/= h4'; case: eqP => [[i1]|_]; last exact: T1.
    have y1e : List.nth_error (b_ys ob) 1 = Some (it_state gmres sys dt (SBdf (bdf_new t0 y0 ord)) i.-1) by rewrite h3' [LHS]/=; apply: h5'; rewrite i1.
    apply: (@step2_total _ _ gmres ex A (fun _ => b) sys hf hj co _ _ _ _ y0e y1e).
    have := un (2%:R / 3%:R)%R; rewrite mulrAC; apply; first by rewrite divr_ge0 ?ler0n.
    by rewrite ler_pdivr_mulr ?ltr0n // mul1r ler_nat.
  - rewrite /bdf_step (etrans h1' o3).
    apply: (@stepcn_total _ _ gmres ex A (fun _ => b) sys hf hj co _ _ _ y0e).
    have := un (2%:R^-1)%R; rewrite mulrC; apply; first by rewrite invr_ge0 ler0n.
    by rewrite invf_le1 ?ltr0n // ler1n.
elim: N {hT} => [|N [s hs]]; first by eexists.
have [r hr] := tot N s hs; by eexists; rewrite s_iterS hs; cbn [rbind]; rewrite hr; cbn [rbind].
Qed.
End Impl.
