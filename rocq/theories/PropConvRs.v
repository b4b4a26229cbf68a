(* PropConvRs.v : C70, order of the Rust integrators as whole runs. *)
From Coq Require Import Reals String.
From mathcomp Require Import all_ssreflect all_algebra.
From mathcomp Require Import complex ring.
From Verif Require Import Rstruct Summable MxBase MxSeries ProofsPhiErr ModelHist SpecHist ModelOps SpecOps SpecPhi ModelPhi ModelKrylov ModelDispatch ModelInt SpecInt ProofsInt ProofsInt5 SpecExact ProofsExact.
From Verif Require Import SpecProg SpecOrder SpecOrder2 SpecConv ProofsJet ProofsJet2 ProofsJet3 ProofsOrder ProofsOrder2 ProofsOrder3 ProofsOrder4 ProofsOrder5 ProofsOrder6 ProofsOrder7 ProofsOrder8.
From Verif Require Import ProofsUJ ProofsUJ2 ProofsConv ProofsConv2 ProofsConv3 ProofsConv4 ProofsConv5 ProofsConv6 ProofsConv7 ProofsConv8 PropConv.
From Verif Require Import ModelRust SpecRust ProofsRust ProofsRust2 ProofsRust3 ProofsRust4 PropRust SpecConvRs ProofsConvRs ProofsConvRs2 ProofsConvRs3.
Set Implicit Arguments.
Unset Strict Implicit.
Unset Printing Implicit Defensive.
Import Order.TTheory GRing.Theory Num.Theory.
Local Open Scope ring_scope.
Local Opaque newton_loop jac_newton apply_phi_linop rkiops norm2.

Lemma rs_glue n gmres (sys : rsys [rcfType of R] n) evals z t0 dt del N kwds m em dim iom tol o y0 ys ts p C :
  rs_options kwds m em dim iom tol o -> integrate_wrapper_rs gmres sys evals y0 t0 dt N kwds = Ok (ys, ts) ->
  (forall s0, select_solver t0 y0 m (evals em) dim iom tol = Ok s0 -> (exists s, s_iter gmres sys dt s0 N = Ok s) ->
     forall i, (i <= N)%N -> maxnorm_le (it_state gmres sys dt s0 i - z (t0 + dt *+ i)%R) (C * (dt ^+ p + del))) ->
  rs_converges p C dt del z t0 o N ys.
Proof.
move=> [h1 h2 h3 h4 h5 h6 h7] hi H.
have [s0 [e1 e2 e3 _]] := C46_schedule h1 h2 h3 h4 h5 h6 h7 hi.
have {}H := H s0 e1 (out_at_last e3).
have [g1 g2] := out_at_nth e3; split=> // j i hj; exists (it_state gmres sys dt s0 i); split; first exact: g2.
apply: H; have : i \in output_indices o N ++ [:: N].
  by elim: (_ ++ _) j hj {g1 g2 e3} => [|a l IH] [|j] //= => [[->]|/IH h]; rewrite inE ?eqxx // h orbT.
by rewrite mem_cat !inE mem_filter mem_iota add0n => /orP[/andP[_ /andP[_ /ltnW]]|/eqP ->].
Qed.
Definition Cfin (C len : R) : R := ((1 + C) * exp (2%:R * C * len)%R + C)%R.
Lemma Cfin_ge0 C len : 0 <= C -> 0 <= Cfin C len.
Proof. by move=> h; rewrite addr_ge0 // mulr_ge0 ?exp_ge0 // addr_ge0 ?ler01. Qed.
Lemma sel_epi n t0 y0 m ev dim iom tol (s : solver [rcfType of R] n) : List.In m [:: "epi2"; "exprb2"; "exprb3"; "epi3"]%string ->
  select_solver t0 y0 m ev dim iom tol = Ok s -> s = SEpi (epi0 t0 y0 m ev dim iom tol).
Proof.
by do 4 (case=> [<-|]; first by rewrite /select_solver /=; case: ifP => // _ /= [<-]).
Qed.
Lemma acc_ninf n ev dim iom lop (J : 'M[R]_n) dt del k v w : rs_phi_accurate ev dim iom lop J dt del -> 0 <= del -> k = 1%N \/ k = 3%N ->
  apply_phi_linop ev lop dt v k dim iom = Ok w -> ninf (w - phi k (dt *: J) *m v) <= del * ninf v.
Proof. by move=> h d0 hk e; apply: ninf_maxnorm; rewrite ?mulr_ge0 ?ninf_ge0 //; apply: h hk e (@maxnorm_self _ _). Qed.
Lemma kac_ninf n ev dim iom (sys : rsys [rcfType of R] n) z t0 T rad J dt del s u u' v1 v2 w :
  rs_epi3_accurate ev dim iom sys z t0 T rad J dt del -> 0 <= del -> in_tube z t0 T rad s u -> in_tube z t0 T rad (s - dt)%R u' ->
  v1 = dt *: rs_frhs sys s u -> v2 = (dt * 2%:R / 3%:R) *: (rs_frhs sys (s - dt)%R u' - rs_frhs sys s u - J s u *m (u' - u)) ->
  rkiops ev (rs_fjac sys s u) dt 1 [:: 0; v1; v2] dim iom = Ok w ->
  ninf (w - (phi 1 (dt *: J s u) *m v1 + phi 2 (dt *: J s u) *m v2)) <= del * (ninf v1 + ninf v2).
Proof.
move=> h d0 h1 h2 -> -> e; apply: ninf_maxnorm; rewrite ?mulr_ge0 ?addr_ge0 ?ninf_ge0 //.
by apply: (h _ _ _ h1 h2) e (@maxnorm_self _ _) (@maxnorm_self _ _).
Qed.

Lemma one_exprb2' (B r : R) : 0 <= B -> 0 < r -> unif 2 B r S_exprb2 2 (fun w => py (uq w) + u1 w + ud w ^+ 2 *: u2 w).
Proof.
move=> B0 r0; apply: unif_of => //.
have H := U_exprb2 (@gd 2 B r _) (@ge 2 B r _) B0 (@gp 2 B r _) (W1 := u1) (W2 := u2) (good := fun w => ubase 2 B r (uq w) (ud w) (ue w) /\ S_exprb2 w).
apply: UJ_ext (H _ _) => [w _|w [_ [h _]]|w [_ [_ h]]].
- exact: dif3.
- by rewrite mul1r in h.
- by rewrite mul1r in h.
Qed.
Section Exp.
Variables (B rad len : R).
Hypothesis B0 : 0 <= B.
Hypothesis r0 : 0 < rad.
Let B4 : 0 <= 4%:R * B. Proof. by rewrite mulr_ge0 ?ler0n. Qed.
Let rr := tr_gt0 r0 B0.
Notation TP f z t0 T J H2 H3 t y := (tprob f z t0 T (fun _ _ => 0) J H2 H3 t y).
Lemma exp_gen m p (C h0 : R) : (1 < p)%N -> 0 <= C -> 0 < h0 -> List.In m [:: "epi2"; "exprb2"; "exprb3"; "epi3"]%string ->
  (forall n gmres (sys : rsys [rcfType of R] n) z J H2 H3 t0 T dt del dim iom tol ev y0 i eta (o : epirk [rcfType of R] n) r
     (y := it_state gmres sys dt (SEpi (epi0 t0 y0 m ev dim iom tol))) (t := (t0 + dt *+ i)%R) (q := TP (rs_frhs sys) z t0 T J H2 H3 t (y i)),
   (forall s s' u, rs_frhs sys s u = rs_frhs sys s' u) ->
   (forall v, rs_fjac sys t (y i) v = J t (y i) *m v) ->
   rs_phi_accurate ev dim iom (rs_fjac sys t (y i)) (J t (y i)) dt del ->
   (m = "epi3"%string -> rs_epi3_accurate ev dim iom sys z t0 T rad J dt del) -> in_tube z t0 T rad t (y i) ->
   ((0 < i)%N -> in_tube z t0 T rad (t - dt)%R (y i.-1)) ->
   epi_at gmres sys dt t0 y0 m ev dim iom tol i o -> ep_step sys o dt = Ok r -> 0 < dt -> 0 <= del ->
   ubase p.-1 (4%:R * B)%R (tr rad B) q dt eta -> dt <= h0 -> eta <= h0 -> del <= eta ->
   ((0 < i)%N -> ptin q (- dt) /\ ninf (y i.-1 - z (t - dt)%R) <= eta) ->
   exists j, (j = p \/ i = 0%N /\ j = p.-1) /\ err1 (q := q) j C dt eta (sr_y r)) ->
  exists C h0 : R, [/\ 0 <= C, 0 < h0 & rs_exponential_converges B rad len m p C h0].
Proof.
move=> p1 C0 h00 hm hs; exists (Cfin C len), (flev C h0 rad len); split; [exact: Cfin_ge0|exact: flev_gt0|].
move=> n gmres sys evals z J H2 H3 t0 T dt del N kwds em dim iom tol o y0 ys ts ho aut st hz hJ ha hk hT hl d0 d1 e0 e1 hi.
apply: (rs_glue ho hi) => s0 /(sel_epi hm) -> [sN hN].
set y := it_state _ _ _ _.
apply: (seq_tube (ltnW p1) B0 r0 C0 h00 st (ltW d0) d1 e0 e1 hT hl) => [|i eta iN t q hin ub dh eh de hp].
  by rewrite hz.
have [s' es'] := it_prefix iN hN.
have [ob [r [g1 g2 g3 g4]]] := it_epi_step es'.
rewrite [y i.+1]g4; have hii := hin i (leqnn i).
have hp1 : (0 < i)%N -> in_tube z t0 T rad (t - dt)%R (y i.-1).
  move=> i0; suff -> : t - dt = t0 + dt *+ i.-1 by exact: hin (leq_pred i).
  by rewrite /t -{1}(prednK i0) mulrSr addrA addrK.
exact: hs aut (hJ _ _ hii) (ha _ _ hii) hk hii hp1 g2 g3 d0 e0 ub dh eh de hp.
Qed.

Lemma exp2_any m : m = "epi2"%string \/ m = "exprb2"%string -> exists C h0 : R, [/\ 0 <= C, 0 < h0 & rs_exponential_converges B rad len m 2 C h0].
Proof.
move=> hm; have [C [h0 [C0 h00 H]]] := one_exprb2 B4 rr.
apply: (exp_gen (C := C) (h0 := h0)) => //; first by case: hm => ->; [left|right; left].
move=> n gmres sys z J H2 H3 t0 T dt del dim iom tol ev y0 i eta o r y t q aut hJ ha _ _ _ ho hs d0 e0 ub dh eh de _.
exists 2%N; split; first by left.
have {}hs : ep_step2 sys o dt = Ok r by move: hs; rewrite /ep_step (ea_m ho); case: hm => ->.
have [w [g1 g2]] := v_step2 aut ho hs; rewrite -/y -/t in g1 g2.
have {}g1 := acc_ninf ha e0 (or_introl erefl) g1.
have := H (@UOm q dt eta w 0 0 0 0 0) ub _ dh eh; rewrite /= scaler0 addr0 g2; apply; split; rewrite /= mul1r.
- by apply: ans_le g1 de _; exact: ninf_ge0.
- by rewrite mulmx0 subrr !ninf0 mulr0.
Qed.
Lemma exp3_exprb3 : exists C h0 : R, [/\ 0 <= C, 0 < h0 & rs_exponential_converges B rad len "exprb3" 3 C h0].
Proof.
have [C [h0 [C0 h00 H]]] := one_exprb3 B4 rr.
apply: (exp_gen (C := C) (h0 := h0)) => //; first by right; right; left.
move=> n gmres sys z J H2 H3 t0 T dt del dim iom tol ev y0 i eta o r y t q aut hJ ha _ _ _ ho hs d0 e0 ub dh eh de _.
exists 3%N; split; first by left.
have {}hs : ep_step_exprb32 sys o dt = Ok r by move: hs; rewrite /ep_step (ea_m ho).
have [w [w3 /= [g1 g2 g3]]] := v_step32 aut ho hs; rewrite -/y -/t in g1 g2 g3.
have {}g1 := acc_ninf ha e0 (or_introl erefl) g1.
have {}g2 := acc_ninf ha e0 (or_intror erefl) g2.
have dn : dt != 0 by rewrite gt_eqF.
pose w1 := dt^-1 *: w.
have ew : y i + (1 * dt) *: w1 + (1 ^+ 2 * dt ^+ 2) *: (0 : 'cV[R]_n) = y i + w.
  by rewrite mul1r /w1 scalerA mulfV // scale1r scaler0 addr0.
have := H (@UOm q dt eta w1 0 w3 0 0 0) ub _ dh eh; rewrite /ysti /= ew g3; apply; split; rewrite /=.
- rewrite mul1r; apply: ans_le _ de _; last exact: ninf_ge0.
  have -> : w1 - phi 1 (dt *: J t (y i)) *m rs_frhs sys t (y i) = dt^-1 *: (w - phi 1 (dt *: J t (y i)) *m (dt *: fr sys t (y i))).
    by rewrite scalerBr -scalemxAr scalerA mulVf // scale1r.
  rewrite ninfZ; move: g1; rewrite ninfZ normfV gtr0_norm // => g1.
  by rewrite ler_pdivr_mull // mulrCA.
- by rewrite mulmx0 subrr !ninf0 mulr0.
- rewrite mul1r /yrem /ysti /= ew scaler0 subr0; move: g2; rewrite hJ mul1r => g2.
  by apply: ans_le g2 de _; exact: ninf_ge0.
Qed.
Lemma exp3_epi3 : exists C h0 : R, [/\ 0 <= C, 0 < h0 & rs_exponential_converges B rad len "epi3" 3 C h0].
Proof.
have [C1 [h1 [C10 h10 G1]]] := one_exprb2' B4 rr.
have [C2 [h2 [C20 h20 G2]]] := one_epi3 B4 rr.
pose C := Num.max C1 C2; pose h0 := Num.min h1 h2.
have C0 : 0 <= C by rewrite le_maxr C10.
have h00 : 0 < h0 by rewrite lt_minr h10.
have [l1 l2] : C1 <= C /\ C2 <= C by split; rewrite le_maxr lexx ?orbT.
apply: (exp_gen (C := C) (h0 := h0)) => //; first by right; right; right; left.
move=> n gmres sys z J H2 H3 t0 T dt del dim iom tol ev y0 i eta o r y t q aut hJ ha hk ht ht1 ho hs d0 e0 ub dh eh de hp.
have [dh1 dh2] : dt <= h1 /\ dt <= h2 by move: dh; rewrite le_minr => /andP.
have [eh1 eh2] : eta <= h1 /\ eta <= h2 by move: eh; rewrite le_minr => /andP.
have eta0 := ub_e ub.
have [i0|i1] := posnP i.
  exists 2%N; split; first by right.
  have {}hs : ep_step2 sys o dt = Ok r by move: hs; rewrite /ep_step (ea_m ho) (ea_sz ho) i0.
  have [w [g1 g2]] := v_step2 aut ho hs; rewrite -/y -/t in g1 g2.
  have {}g1 := acc_ninf ha e0 (or_introl erefl) g1.
  apply: (err1_le l1 (ltW d0) eta0).
  have := G1 (@UOm q dt eta w 0 0 0 0 0) ub _ dh1 eh1; rewrite /= scaler0 addr0 g2; apply; split; rewrite /= mul1r.
  - by apply: ans_le g1 de _; exact: ninf_ge0.
  - by rewrite mulmx0 subrr !ninf0 mulr0.
exists 3%N; split; first by left.
have {}hs : ep_step3 sys o dt = Ok r by move: hs; rewrite /ep_step (ea_m ho) (ea_sz ho) /= ltnS i1.
have [w [g1 g2]] := v_step3 aut ho i1 hs; rewrite -/y -/t in g1 g2.
have [p1 p2] := hp i1.
rewrite hJ in g1; have {}g1 := kac_ninf (hk erefl) e0 ht (ht1 i1) erefl erefl g1.
apply: (err1_le l2 (ltW d0) eta0).
have := G2 (@UOm q dt eta w (y i.-1) 0 0 0 0) ub _ dh2 eh2; rewrite /= g2; apply; split=> //=.
rewrite !scaler0 subr0 addr0 mulrA; apply: ans_le g1 de _; by rewrite addr_ge0 ?ninf_ge0.
Qed.
Theorem C70_rust_exponential m p :
  List.In (m, p) [:: ("epi2", 2%N); ("exprb2", 2%N); ("exprb3", 3%N); ("epi3", 3%N)]%string ->
  exists C h0 : R, [/\ 0 <= C, 0 < h0 & rs_exponential_converges B rad len m p C h0].
Proof.
case=> [[<- <-]|[[<- <-]|[[<- <-]|[[<- <-]|//]]]].
- by apply: exp2_any; left.
- by apply: exp2_any; right.
- exact: exp3_exprb3.
- exact: exp3_epi3.
Qed.
End Exp.
