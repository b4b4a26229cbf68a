(* PropConvRsEx.v : C70 on concrete problems. *)
From Coq Require Import Reals String Lra.
From mathcomp Require Import all_ssreflect all_algebra.
From mathcomp Require Import complex ring.
From Verif Require Import Rstruct Summable MxBase MxSeries ProofsPhiErr ModelHist SpecHist ModelOps SpecOps SpecPhi ModelPhi ModelKrylov ModelDispatch ModelInt SpecInt ProofsInt ProofsInt5 SpecExact ProofsOde ProofsExact.
From Verif Require Import SpecProg SpecOrder SpecOrder2 SpecConv ProofsJet ProofsJet2 ProofsJet3 ProofsOrder ProofsOrder2 ProofsOrder3 ProofsOrder4 ProofsOrder5 ProofsOrder6 ProofsOrder7 ProofsOrder8.
From Verif Require Import ProofsUJ ProofsUJ2 ProofsConv ProofsConv2 ProofsConv3 ProofsConv4 ProofsConv5 ProofsConv6 ProofsConv7 ProofsConv8 PropConv.
From Verif Require Import ModelRust SpecRust ProofsRust ProofsRust2 ProofsRust3 ProofsRust4 PropRust SpecConvRs SpecConvRs2 ProofsConvRs ProofsConvRs2 ProofsConvRs3 PropConvRs PropConvRs2 PropConvRs3 ProofsRust5 PropRustKry ProofsPade2 ProofsOrder9 ProofsKrylov ProofsKrylov3 ProofsKiops PropRustKry2 PropConvRs4 PropConvRs5 ProofsOrderEx PropConvEx.
Set Implicit Arguments.
Unset Strict Implicit.
Unset Printing Implicit Defensive.
Import Order.TTheory GRing.Theory Num.Theory.
Local Open Scope ring_scope.
Local Opaque newton_loop jac_newton apply_phi_linop rkiops norm2 breakdown_tol.
Lemma in_tube_sub n (z : R -> 'cV[R]_n) t0 T (r r' : R) s u : r <= r' -> in_tube z t0 T r s u -> in_tube z t0 T r' s u.
Proof. by move=> h [h1 h2 h3]; split=> // i; apply: le_trans (h3 i) h. Qed.
Lemma smooth_sub n k f (z : R -> 'cV[R]_n) t0 T (r r' : R) B ft J H2 H3 : r <= r' ->
  smooth_tube k f z t0 T r' B ft J H2 H3 -> smooth_tube k f z t0 T r B ft J H2 H3.
Proof.
move=> h [h1 h2 h3 h4 h5 h6 h7 h8]; have g := @in_tube_sub n z t0 T _ _ _ _ h.
split=> //; try by move=> s u hi; first [apply: h2|apply: h3|apply: h4|apply: h5]; exact: g.
- by move=> k1 s u hi; apply: h6 => //; exact: g.
- by move=> k1 s u hi; apply: h7 => //; exact: g.
- by move=> s u sg x rho hi hi'; apply: h8; exact: g.
Qed.
Definition ric_rs : rsys [rcfType of R] 1 := RSys ric_f (fun _ u v => ric_J u *m v).
Lemma n9 : 0 <= (9%:R : R). Proof. exact: ler0n. Qed.
Lemma p1 : 0 < (1 : R). Proof. exact: ltr01. Qed.
(* in dimension one the Krylov evaluation is exact *)
Lemma phi_exact1 (ev : evaluator [rcfType of R]) dim iom (A : 'M[R]_1) L dt : exact_evaluator ev -> (0 < dim)%N ->
  (forall v, L v = A *m v) -> rs_phi_accurate ev dim iom L A dt 0.
Proof.
move=> hev d0 LA k v w rho _ e hr; rewrite mul0r.
have v0 : v != 0 by apply/eqP => v0; move: e; rewrite v0 aphi0.
have [E [_ h2 h3]] := @rphi_linop_back ev (exact_phi hev) 1 L A LA dt v dim iom k v0 d0 isT.
have [k' [Q [H [ea [/andP[a b] _]]]]] := @C58_rust_arnoldi [rcfType of R] 1 L A 1 v dim iom LA v0 d0.
have k1 : k' = 1%N by apply/eqP; rewrite eqn_leq a andbT (leq_trans b) // geq_minl.
have E0 : E = 0 by exact: h2 ea k1.
by move: e; rewrite h3 E0 subr0 => -[<-]; rewrite subrr => i; rewrite mxE normr0.
Qed.
Lemma ric_speed (r : R) s u : (r <= 1)%R -> in_tube ric_z 0 half r s u -> (1 - r) ^+ 2 <= `|ric_f s u 0 0|.
Proof.
move=> r1 [s0 s1 /(_ 0) hu]; rewrite mxE ger0_norm ?sqr_ge0 //.
have sl : s <= 1 by apply: le_trans s1 _; rewrite /half invf_le1 ?ltr0n // ler1n.
have h1 : 1 <= ric_z s 0 0.
  have s2 : 0 < 1 - s by rewrite subr_gt0 (le_lt_trans s1) // /half invf_lt1 ?ltr0n // ltr1n.
  by rewrite mxE invf_ge1 // ler_subl_addr ler_addl.
have h2 : 1 - r <= u 0 0.
  move: hu; rewrite mxE [X in _ + X]mxE ler_norml => /andP[h _].
  apply: le_trans (ler_sub h1 (lexx r)) _; by move: h; rewrite ler_subr_addr addrC.
by apply: ler_expn2r; rewrite ?nnegrE ?subr_ge0 // (le_trans _ h2) // subr_ge0.
Qed.
(* epi2 and exprb2 through the driver, with any options that name them and an exact dense evaluator *)
Example C70_example_epi2 m : List.In m [:: "epi2"; "exprb2"]%string ->
  exists C h0 : R, [/\ 0 <= C, 0 < h0 & forall gmres (evals : string -> evaluator [rcfType of R]) kwds em dim iom tol o dt N,
    rs_options kwds m em dim iom tol o -> (0 < dim)%N -> exact_evaluator (evals em) -> 0 < dt -> dt <= h0 -> dt *+ N <= half ->
    exists ys ts, integrate_wrapper_rs gmres ric_rs evals ric_y 0 dt N kwds = Ok (ys, ts) /\ rs_converges 2 C dt 0 ric_z 0 o N ys].
Proof.
move=> hm; have hin : List.In (m, 2%N) [:: ("epi2", 2%N); ("exprb2", 2%N); ("epi3", 3%N)]%string.
  by case: hm => [<-|[<-|//]]; [left|right; left].
have [C [h0 [C0 h00 H]]] := C70_rust_exponential_returns half n9 p1 p1 hin; exists C, h0; split=> // gmres evals kwds em dim iom tol o dt N ho d0 hev dt0 dh hN.
have nep : m = "epi3"%string -> False by case: hm => [<-|[<-|//]].
apply: (H 1%N gmres ric_rs evals ric_z _ _ _ 0 half dt 0 N kwds em dim iom tol o ric_y ho d0 _ (@ric_tube 1 isT isT) ric_z0 _ _ _ _ (ric_T hN) half_len dt0 dh (lexx _) (ltW h00)) => //.
- move=> s s0 s1; exists 0; have z1 : 0 <= (1:R) by exact: ler01.
  have /(ric_speed z1) : in_tube ric_z 0 half 0 s (ric_z s) by split=> // i; rewrite subrr mxE normr0.
  by rewrite subr0 expr1n.
- by move=> s u _; apply: phi_exact1.
Qed.
(* epi3: the speed stays above 1/4 in the tube of radius 1/2 *)
Example C70_example_epi3 :
  exists C h0 : R, [/\ 0 <= C, 0 < h0 & forall gmres (evals : string -> evaluator [rcfType of R]) kwds em dim iom tol o dt N,
    rs_options kwds "epi3" em dim iom tol o -> (3 <= dim)%N -> (2 <= iom)%N -> exact_evaluator (evals em) -> 0 < dt -> dt <= h0 ->
    (3%:R * breakdown_tol R_rcfType / dt)%R <= h0 -> dt *+ N <= half ->
    exists ys ts, integrate_wrapper_rs gmres ric_rs evals ric_y 0 dt N kwds = Ok (ys, ts) /\
      rs_converges 3 C dt (3%:R * breakdown_tol R_rcfType / dt)%R ric_z 0 o N ys].
Proof.
have hp : 0 < half by rewrite /half invr_gt0 ltr0n.
have h1 : half <= 1 by rewrite /half invf_le1 ?ltr0n // ler1n.
have c0 : 0 < (1 - half) ^+ 2 by rewrite exprn_gt0 // subr_gt0 /half invf_lt1 ?ltr0n // ltr1n.
have [C [h0 [C0 h00 H]]] := @C70_rust_krylov_floor 9%:R half half _ n9 hp c0 "epi3"%string 3%N (or_intror (or_intror (or_introl erefl))).
exists C, h0; split=> // gmres evals kwds em dim iom tol o dt N ho nd ni hev dt0 dh fh hN.
apply: (H 1%N gmres ric_rs evals ric_z _ _ _ 0 half dt N kwds em dim iom tol o ric_y ho hev nd ni _ (smooth_sub h1 (@ric_tube 2 isT isT)) ric_z0 _ _ (ric_T hN) half_len dt0 dh fh) => //.
by move=> s u hi; exists 0; apply: ric_speed.
Qed.
(* the Runge-Kutta objects *)
Example C70_example_rk order o : (0 < order <= 4)%N -> rrk_new 0 ric_y order = Ok o ->
  exists C h0 : R, [/\ 0 <= C, 0 < h0 & forall dt N, 0 <= dt -> dt <= h0 -> dt *+ N <= half ->
    exists ys, converges order C dt 0 ric_z 0 N ys /\ forall i, (i <= N)%N -> exists o',
      rrk_iter ric_rs dt o i = Ok o' /\ List.nth_error (rk_ys o') 0 = List.nth_error ys i].
Proof.
move=> ho hn; have [C [h0 [C0 h00 H]]] := C70_rust_rk half n9 p1 ho; exists C, h0; split=> // dt N d0 d1 hN.
have hp : (0 < maxn order.-1 1)%N /\ (maxn order.-1 1 <= 3)%N.
  by split; [rewrite leq_max orbT|rewrite geq_max andbT; case/andP: ho => _; case: (order)].
have [ys [_ [g1 g2]]] := H 1%N ric_rs ric_z _ _ _ 0 half dt N ric_y o hn (fun _ _ _ => erefl) (ric_tube hp.1 hp.2) ric_z0 (ric_T hN) half_len d0 d1.
by exists ys; split=> // i /g2 [o' [e1 _ e3]]; exists o'.
Qed.
(* the implicit methods on the double integrator y1' = y2, y2' = 1 over [0,1], with the exact solver of the model *)
Lemma dint_deriv s : vderiv dint_z s (rs_frhs dint s (dint_z s)).
Proof.
move=> k; rewrite [rs_frhs _ _ _]/= dmul; case: (altP (k =P 0)) => [->|k0].
  rewrite mxE /=; apply: dlim_ext (dlim_sq 0 0 s) => x; by rewrite mxE /= add0r subr0.
by apply: dlim_ext (derivable_pt_lim_id s) => x; rewrite mxE (negbTE k0).
Qed.
Example C70_example_implicit m p : List.In (m, p) [:: ("bdf1", 1%N); ("backeuler", 1%N); ("bdf2", 1%N); ("cn", 2%N)]%string ->
  exists C h0 : R, [/\ 0 <= C, 0 < h0 & forall evals kwds em dim iom tol o dt N,
    rs_options kwds m em dim iom tol o -> 0 <= dt -> dt <= h0 -> dt *+ N <= 1 ->
    exists ys ts, integrate_wrapper_rs (@ideal_solver [rcfType of R] 2) dint evals 0 0 dt N kwds = Ok (ys, ts) /\
      rs_converges p C dt 0 dint_z 0 o N ys].
Proof.
move=> hin; have [C [h0 [C0 h00 H]]] := C70_rust_implicit_returns 1 (ltW p1) hin; exists C, h0; split=> // evals kwds em dim iom tol o dt N ho d0 dh hN.
apply: (H 2%N _ dint evals (delta_mx 0 1) (delta_mx 1 0) dint_z 0 1 dt N kwds em dim iom tol o 0 ho (@ideal_exact _ _) (@ideal_complete _ _)) => //.
- by move=> s _ _; exact: dint_deriv.
- by apply/matrixP => k l; rewrite !mxE expr0n mul0r; case: ifP.
- move=> i; rewrite !big_ord_recl big_ord0 addr0 !mxE; case: (i == 0); rewrite ?normr0 ?normr1 ?addr0 ?add0r ?ler01 //.
- move=> s s0 s1 i; rewrite dmul mxE /=; case: ifP => _; by rewrite ?normr1 // ger0_norm.
- by rewrite add0r.
- by rewrite subr0.
Qed.
(* an exact evaluator exists, so the examples are about at least one program *)
Example C70_example_evaluator : exists ev, exact_evaluator ev. Proof. exact: exact_evaluator_exists. Qed.
