(* PropRustTime.v : C71, time-dependent problems in the crate's exponential integrators. *)
From Coq Require Import Reals String Lra.
From mathcomp Require Import all_ssreflect all_algebra.
From mathcomp Require Import complex ring.
From Verif Require Import Rstruct Summable MxBase MxSeries ModelHist ModelOps SpecPhi ModelPhi ModelKrylov ModelInt SpecInt SpecProg SpecExact ProofsOde ProofsKrylov ProofsKrylov3.
From Verif Require Import SpecOrder ModelRust SpecRust SpecRustTime ProofsRust ProofsRust3 PropRust SpecConvRs ProofsConvRs3 PropConvRs PropConvRs3 PropConvRs4 ProofsRust5 PropRustKry ProofsLejaDD2.
Set Implicit Arguments.
Unset Strict Implicit.
Unset Printing Implicit Defensive.
Import Order.TTheory GRing.Theory Num.Theory.
Local Open Scope ring_scope.
Local Opaque newton_loop jac_newton apply_phi_linop rkiops norm2 breakdown_tol.
Section NormMax.
Variables (F : rcfType) (n : nat).
Lemma norm_max_gt (v : 'cV[F]_n) i x : x < `|v i 0| -> x < norm_max v.
Proof. by move=> h; apply: lt_le_trans h _; exact: (bigmax_ge (fun i => `|v i 0|)). Qed.
Lemma norm_max_le (v : 'cV[F]_n) x : 0 <= x -> (forall i, `|v i 0| <= x) -> norm_max v <= x.
Proof. by move=> x0 h; rewrite /norm_max; elim/big_rec: _ => // i y _ hy; rewrite le_maxl h hy. Qed.
End NormMax.
Section TA.
Variables (n : nat) (sys : rsys [rcfType of R] n) (A : 'M[R]_n) (b c : 'cV[R]_n).
Hypothesis hs : rs_affine sys A b c.
Notation f s u := (A *m u + b + s *: c).
Lemma fdt_aff (o : epirk [rcfType of R] n) y : frhs_fdt sys o y (rs_frhs sys (ep_t o) y) (del_t8 _) = c.
Proof.
have h : del_t8 [rcfType of R] != 0 by rewrite /del_t8 invr_eq0 expf_neq0 // pnatr_eq0.
move: h; rewrite /frhs_fdt !hs.1; move: (ep_t o) (del_t8 _) => t d d0.
rewrite (_ : _ - _ = d *: c); first by rewrite scalerA mulVf // scale1r.
by rewrite scalerDl; move: (A *m y) => v; apply/matrixP => i j; rewrite !mxE; move: (v i j) (b i j) (c i j) => *; ring.
Qed.
Lemma fphi2_on (o : epirk [rcfType of R] n) y J dt : 0 <= ep_tol o -> (exists i, ep_tol o < `|c i 0|) ->
  fphi2_v sys o y (rs_frhs sys (ep_t o) y) J dt
  = (w <- apply_phi_linop (ep_ev o) J dt c 2 (ep_dim o) (ep_iom o);; Ok (dt ^+ 2 *: w, c)).
Proof. by move=> t0 [i hi]; rewrite /fphi2_v ltNge t0 /= fdt_aff (norm_max_gt hi). Qed.
Lemma fphi2_off (o : epirk [rcfType of R] n) y J dt : 0 <= ep_tol o -> (forall i, `|c i 0| <= ep_tol o) ->
  fphi2_v sys o y (rs_frhs sys (ep_t o) y) J dt = Ok (0, c).
Proof. by move=> t0 hi; rewrite /fphi2_v ltNge t0 /= fdt_aff ltNge (norm_max_le t0 hi). Qed.
Lemma fphi2_neg (o : epirk [rcfType of R] n) y J dt : ep_tol o < 0 ->
  fphi2_v sys o y (rs_frhs sys (ep_t o) y) J dt = Ok (0, 0).
Proof. by rewrite /fphi2_v => ->. Qed.
Lemma phis_phi k (X : 'M[R]_n) : are_phis k X (fun j => phi j X).
Proof. by move=> j _; apply/is_phiP. Qed.
(* one step from (t,y): the value of the second component used for p.1, in the two cases *)
Section Step.
Variables (o : epirk [rcfType of R] n) (y : 'cV[R]_n) (t dt : R).
Hypothesis ey : List.nth_error (ep_ys o) 0 = Some y.
Hypothesis et : ep_t o = t.
Hypothesis et0 : List.nth_error (ep_ts o) 0 = Some t.
Variable m : string.
Hypothesis ex : rs_evals_exact (ep_ev o) (ep_dim o) (ep_iom o) (rs_fjac sys t y) A m dt (f t y) c.
Variables (q v : 'cV[R]_n).
Hypothesis hq : fphi2_v sys o y (rs_frhs sys (ep_t o) y) (rs_fjac sys (ep_t o) y) dt = Ok (q, v).
Lemma ta_step2 : ep_step2 sys o dt = Ok (mkStep (t + dt) dt (y + q + phi 1 (dt *: A) *m (dt *: f t y)) (-1)).
Proof.
have [e1 _ _] := ex (@phis_phi 2 _).
by rewrite /ep_step2 /rnth ey; cbn [rbind]; rewrite hq; cbn [rbind fst]; rewrite et hs.1 e1.
Qed.
Lemma ta_step3 yp tp : List.nth_error (ep_ys o) 1 = Some yp -> List.nth_error (ep_ts o) 1 = Some tp -> v = c -> m = "epi3"%string ->
  ep_step3 sys o dt = Ok (mkStep (t + dt) dt (y + q + phi 1 (dt *: A) *m (dt *: f t y)) (-1)).
Proof.
move=> h1 h2 vc hm; have [_ _ /(_ hm) e1] := ex (@phis_phi 2 _).
rewrite /ep_step3 /rnth ey h1 h2; cbn [rbind]; rewrite hq; cbn [rbind fst snd].
rewrite /ep_remf /rnth et0 ey; cbn [rbind]; rewrite et vc.
have -> : rs_frhs sys tp yp - rs_frhs sys t y - rs_fjac sys t y (yp - y) - (tp - t) *: c = 0.
  rewrite !hs.1 hs.2 mulmxBr; move: (A *m yp) (A *m y) => p1 p2; apply/matrixP => i j; rewrite !mxE.
  by move: (p1 i j) (p2 i j) (b i j) (c i j) => *; ring.
by rewrite scaler0 hs.1 e1; cbn [rbind]; rewrite /rres -!addrA [_ + q]addrC.
Qed.
Lemma ta_step : ep_method o = m -> List.In m [:: "epi2"; "exprb2"; "epi3"]%string ->
  (m = "epi3"%string -> (2 <= size (ep_ys o))%N -> v = c /\ exists yp tp, List.nth_error (ep_ys o) 1 = Some yp /\ List.nth_error (ep_ts o) 1 = Some tp) ->
  ep_step sys o dt = Ok (mkStep (t + dt) dt (y + q + phi 1 (dt *: A) *m (dt *: f t y)) (-1)).
Proof.
move=> em hm h3; rewrite /ep_step em; case: hm => [e|[e|[e|//]]]; rewrite -{1 2}e.
- by rewrite /= ta_step2.
- by rewrite /= ta_step2.
rewrite -{1}e /=; case: ifP => sz; last exact: ta_step2.
by have [vc [yp [tp [h1 h2]]]] := h3 (esym e) sz; exact: (ta_step3 h1 h2 vc (esym e)).
Qed.
End Step.
End TA.
(* a run of the driver whose steps have known values *)
Lemma run_of n (gmres : ('cV[R]_n -> 'cV[R]_n) -> 'cV[R]_n -> 'cV[R]_n -> nat -> R -> option 'cV[R]_n)
    (sys : rsys [rcfType of R] n) evals t0 dt N kwds m em dim iom tol o y0 (w : nat -> 'cV[R]_n) :
  rs_options kwds m em dim iom tol o -> (0 < dim)%N -> List.In m [:: "epi2"; "exprb2"; "epi3"]%string -> w 0%N = y0 ->
  (forall i ob, (i < N)%N -> epi_at gmres sys dt t0 y0 m (evals em) dim iom tol i ob -> List.nth_error (ep_ys ob) 0 = Some (w i) ->
     exists e t, ep_step sys ob dt = Ok (mkStep t dt (w i.+1) e)) ->
  exists ts, integrate_wrapper_rs gmres sys evals y0 t0 dt N kwds = Ok ([seq w i | i <- output_indices o N ++ [:: N]], ts).
Proof.
move=> ho d0 hm w0 hstep.
pose s0 := SEpi (epi0 t0 y0 m (evals em) dim iom tol).
have es0 : select_solver t0 y0 m (evals em) dim iom tol = Ok s0.
  rewrite /s0; have dn : (dim == 0)%N = false by case: (dim) d0.
  by case: hm => [e|[e|[e|//]]]; rewrite -e /select_solver /= dn.
pose yv := it_state gmres sys dt s0.
have key i : (i <= N)%N -> exists s, s_iter gmres sys dt s0 i = Ok s /\ yv i = w i.
  elim: i => [|i IH] hi; first by exists s0; split=> //; rewrite /yv /it_state /= w0.
  have [s [es ey]] := IH (ltnW hi); have [ob [eo hob]] := it_epi es.
  have h7 : List.nth_error (ep_ys ob) 0 = Some (w i) by rewrite (ea_y0 hob); congr Some; exact: ey.
  have [e [t hs2]] := hstep i ob hi hob h7.
  exists (SEpi (ep_accept ob (mkStep t dt (w i.+1) e))).
  rewrite s_iterS es eo; cbn [rbind s_step]; rewrite hs2; split=> //.
  by rewrite /yv /it_state s_iterS es eo; cbn [rbind s_step]; rewrite hs2.
have [sN [hN _]] := key N (leqnn N).
have [ys [ts hd]] := drv_ok ho es0 hN; exists ts; rewrite hd; congr (Ok (_, _)).
case: (ho) => g1 g2 g3 g4 g5 g6 g7.
have [s1 [e1 e2 e3 _]] := C46_schedule g1 g2 g3 g4 g5 g6 g7 hd.
move: e3; rewrite es0 in e1; case: e1 => <-.
have : all (fun i => (i <= N)%N) (output_indices o N ++ [:: N]).
  by rewrite all_cat /= leqnn !andbT; apply/allP => i; rewrite mem_filter mem_iota => /andP[_ /andP[_ /ltnW]].
elim: (_ ++ _) ys ts {hd e2} => [|i l IH] ys ts /= => [_ H|/andP[hi hl] H]; inversion H => //; subst.
congr cons; last exact: IH hl H6.
have [s [es <-]] := key i hi; rewrite /yv /it_state es.
by move: H2; rewrite es => -[->]; rewrite H3.
Qed.
(* With the forcing rate above the threshold the crate's epi2, exprb2 and epi3 reproduce the solution of y' = A y + b + t c
   at every returned step *)
Theorem C71_affine_time_exact n (gmres : ('cV[R]_n -> 'cV[R]_n) -> 'cV[R]_n -> 'cV[R]_n -> nat -> R -> option 'cV[R]_n)
    (sys : rsys [rcfType of R] n) evals A b c z t0 dt N kwds m em dim iom tol o y0 :
  rs_options kwds m em dim iom tol o -> (0 < dim)%N -> List.In m [:: "epi2"; "exprb2"; "epi3"]%string ->
  rs_affine sys A b c -> 0 <= tol -> c = 0 \/ (exists i, tol < `|c i 0|) ->
  (forall i, (i < N)%N -> solves_ivp A b c (t0 + dt *+ i) (t0 + dt *+ i.+1) (z (t0 + dt *+ i)%R) z) -> z t0 = y0 ->
  (forall i, (i < N)%N -> let s := (t0 + dt *+ i)%R in
     rs_evals_exact (evals em) dim iom (rs_fjac sys s (z s)) A m dt (A *m z s + b + s *: c) c) ->
  exists ts, integrate_wrapper_rs gmres sys evals y0 t0 dt N kwds
    = Ok ([seq z (t0 + dt *+ i)%R | i <- output_indices o N ++ [:: N]], ts).
Proof.
move=> ho d0 hm ha t00 hc hz hz0 hex.
apply: (@run_of n gmres sys evals t0 dt N kwds m em dim iom tol o y0 (fun i => z (t0 + dt *+ i)%R) ho d0 hm); first by rewrite mulr0n addr0.
move=> i ob hi hob h7.
have [h1 h2 h3 h4 h5] := And5 (ea_m hob) (ea_tol hob) (ea_ev hob) (ea_dim hob) (ea_iom hob).
have h6 := ea_t hob; have h8 := ea_t0 hob; have h9 := ea_sz hob.
have E := hex i hi; cbv zeta in E; set t := (t0 + dt *+ i)%R in E h6 h7 h8.
have E' : rs_evals_exact (ep_ev ob) (ep_dim ob) (ep_iom ob) (rs_fjac sys t (z t)) A m dt (A *m z t + b + t *: c) c by rewrite h3 h4 h5.
have [q [hq eq]] : exists q, fphi2_v sys ob (z t) (rs_frhs sys (ep_t ob) (z t)) (rs_fjac sys (ep_t ob) (z t)) dt = Ok (q, c) /\ q = dt ^+ 2 *: (phi 2 (dt *: A) *m c).
  case: hc => [c0|ci].
    exists 0; split; last by rewrite c0 mulmx0 scaler0.
    apply: (fphi2_off ha); rewrite h2 // => k.
    by rewrite c0 mxE normr0.
  have [_ e2 _] := E' _ (@phis_phi n 2 _).
  have c0 : c != 0 by case: ci => k hk; apply/eqP => c0; move: hk; rewrite c0 mxE normr0 ltNge t00.
  eexists; split; last reflexivity.
  rewrite (fphi2_on ha) ?h2 // h6 e2 //.
have hstep := @ta_step n sys A b c ha ob (z t) t dt h7 h6 h8 m E' q c hq h1 hm.
have eS : t + dt = (t0 + dt *+ i.+1)%R by rewrite mulrSr addrA.
have ez : z (t + dt) = z t + q + phi 1 (dt *: A) *m (dt *: (A *m z t + b + t *: c)).
  rewrite eS (ivp_value (hz i hi)) /ivp_sol -eS -/t [t + dt - t]addrC addKr eq -scalemxAr.
  by rewrite addrAC.
exists (-1), (t + dt); rewrite -eS ez; apply: hstep => _ sz; have i0 : (0 < i)%N by move: sz; rewrite h9.
by split=> //; eexists; eexists; split; [exact: (ea_y1 hob i0)|exact: (ea_t1 hob i0)].
Qed.
(* A forcing rate not above the threshold is dropped: the step misses dt^2 phi_2(dt A) c of the exact solution *)
Theorem C71_small_forcing_dropped n (sys : rsys [rcfType of R] n) A b c (o : epirk [rcfType of R] n) y hy ht dt z :
  rs_affine sys A b c -> List.In (ep_method o) [:: "epi2"; "exprb2"; "epi3"]%string ->
  ep_ys o = y :: hy -> ep_ts o = ep_t o :: ht -> (size hy <= size ht)%N ->
  ep_tol o < 0 /\ ep_method o <> "epi3"%string \/ 0 <= ep_tol o /\ (forall i, `|c i 0| <= ep_tol o) ->
  rs_evals_exact (ep_ev o) (ep_dim o) (ep_iom o) (rs_fjac sys (ep_t o) y) A (ep_method o) dt (A *m y + b + ep_t o *: c) c ->
  solves_ivp A b c (ep_t o) (ep_t o + dt)%R y z ->
  forall P, is_phi 2 (dt *: A) P ->
  ep_step sys o dt = Ok (mkStep (ep_t o + dt) dt (z (ep_t o + dt)%R - dt ^+ 2 *: (P *m c)) (-1)).
Proof.
move=> ha hm ey et sz ht0 hex hz P /is_phiP ->.
have [v [hq hv]] : exists v, fphi2_v sys o y (rs_frhs sys (ep_t o) y) (rs_fjac sys (ep_t o) y) dt = Ok (0, v) /\ (ep_method o = "epi3"%string -> v = c).
  case: ht0 => [[tn n3]|[t00 hc]]; first by exists 0; split=> //; exact: fphi2_neg.
  by exists c; split=> //; apply: (fphi2_off ha).
rewrite (@ta_step n sys A b c ha o y (ep_t o) dt _ erefl _ (ep_method o) hex 0 v hq erefl hm) ?ey ?et //.
  rewrite (ivp_value hz) /ivp_sol [_ + dt - _]addrC addKr -scalemxAr addr0.
  by congr (Ok (mkStep _ _ _ _)); rewrite addrK.
move=> e3 s2; split; first exact: hv.
case: hy ey sz s2 => [//|yp hy] ey; case: ht et => [//|tp ht] et _ _; by exists yp, tp.
Qed.
(* exprb3 never returns on such problems: its remainder vanishes *)
Theorem C71_exprb3_affine_nan n (sys : rsys [rcfType of R] n) A b c (o : epirk [rcfType of R] n) y hy ht dt :
  (0 < n)%N -> (0 < ep_dim o)%N -> rs_affine sys A b c -> ep_method o = "exprb3"%string -> 0 <= ep_tol o ->
  ep_ys o = y :: hy -> ep_ts o = ep_t o :: ht ->
  ep_step sys o dt = Raise ZeroDivisionExn.
Proof.
move=> n0 d0 ha em t00 ey et; rewrite /ep_step em /=.
have dec (L : 'cV[R]_n -> 'cV[R]_n) (v : 'cV[R]_n) j : (exists w, apply_phi_linop (ep_ev o) L dt v j (ep_dim o) (ep_iom o) = Ok w) \/
    apply_phi_linop (ep_ev o) L dt v j (ep_dim o) (ep_iom o) = Raise ZeroDivisionExn.
  have [->|v0] := eqVneq v 0; first by right; exact: aphi0 n0 d0.
  left; exact: (aphi_ok _ _ _ _ _ v0 d0).
rewrite /ep_step_exprb32 /rnth ey; cbn [List.nth_error rbind].
set J := rs_fjac sys (ep_t o) y.
have [[q ->]|->//] : (exists q, fphi2_v sys o y (rs_frhs sys (ep_t o) y) J dt = Ok (q, c)) \/ fphi2_v sys o y (rs_frhs sys (ep_t o) y) J dt = Raise ZeroDivisionExn.
  rewrite /fphi2_v ltNge t00 /= (fdt_aff ha); case: ifP => _; last by left; exists 0.
  by have [[w ->]|->] := dec J c 2%N; [left; eexists|right].
cbn [rbind fst snd]; have [[w ->]|->//] := dec J (dt *: rs_frhs sys (ep_t o) y) 1%N; cbn [rbind].
rewrite /ep_remf /rnth et ey; cbn [List.nth_error rbind].
have -> : rs_frhs sys (ep_t o + dt) (y + q + w) - rs_frhs sys (ep_t o) y - J (y + q + w - y) - (ep_t o + dt - ep_t o) *: c = 0.
  rewrite /J !ha.1 ha.2 !mulmxBr !mulmxDr.
  move: (A *m w) (A *m y) (A *m q) => p1 p2 p3; apply/matrixP => i j; rewrite !mxE.
  by move: (ep_t o) (p1 i j) (p2 i j) (p3 i j) (b i j) (c i j) => *; ring.
by rewrite aphi0.
Qed.
(* exprb3 reports as error the l1 distance to the epi2 result of the same object; the other methods report -1 *)
Theorem C71_error_estimate (F : rcfType) n (sys : rsys F n) (o : epirk F n) dt r : ep_step sys o dt = Ok r ->
  (ep_method o = "exprb3"%string -> exists r2, ep_step sys (with_method o "epi2"%string) dt = Ok r2 /\
     sr_err r = \sum_i `|sr_y r i 0 - sr_y r2 i 0|) /\
  (ep_method o <> "exprb3"%string -> sr_err r = -1).
Proof.
move=> h; split=> [em|em].
  move: h; rewrite /ep_step em /= /ep_step_exprb32 /ep_step2 /with_method /=.
  case: (rnth _ _) => [y|//]; cbn [rbind].
  rewrite -[fphi2_v sys (Epirk "epi2" _ _ _ _ _ _ _)]/(fphi2_v sys o).
  case: (fphi2_v _ _ _ _ _ _) => [p|//]; cbn [rbind]; case: (apply_phi_linop _ _ _ _ 1 _ _) => [w|//]; cbn [rbind].
  case: (ep_remf _ _ _ _ _ _ _) => [q|//]; cbn [rbind]; case: (apply_phi_linop _ _ _ _ 3 _ _) => [w3|//]; cbn [rbind] => -[<-].
  eexists; split; first reflexivity; rewrite [sr_err _]/= /norm1 ger0_norm.
    by apply: eq_bigr => i _; rewrite !mxE.
  by apply: sumr_ge0.
move: h; rewrite /ep_step.
have s2 : ep_step2 sys o dt = Ok r -> sr_err r = -1.
  rewrite /ep_step2; case: (rnth _ _) => [y|//]; cbn [rbind]; case: (fphi2_v _ _ _ _ _ _) => [p|//]; cbn [rbind].
  by case: (apply_phi_linop _ _ _ _ _ _ _) => [w|//]; cbn [rbind] => -[<-].
case: ifP => // _; case: ifP => [_|_]; last by case: ifP => // /String.eqb_eq.
case: ifP => // _; rewrite /ep_step3; do 3 (case: (rnth _ _) => [?|//]; cbn [rbind]).
case: (fphi2_v _ _ _ _ _ _) => [p|//]; cbn [rbind]; case: (ep_remf _ _ _ _ _ _ _) => [q|//]; cbn [rbind].
by case: (rkiops _ _ _ _ _ _ _) => [q'|//]; cbn [rbind] => -[<-].
Qed.

(* ---- an instance: u' = 1 + t c, one dimension, any exact evaluator ---- *)
Lemma phi_1d (ev : evaluator [rcfType of R]) dim iom (A : 'M[R]_1) L dt k v : exact_evaluator ev -> (0 < dim)%N ->
  (forall v, L v = A *m v) -> v != 0 -> apply_phi_linop ev L dt v k dim iom = Ok (phi k (dt *: A) *m v).
Proof.
move=> hev d0 LA v0.
have [E [_ h2 h3]] := @rphi_linop_back ev (exact_phi hev) 1 L A LA dt v dim iom k v0 d0 isT.
have [k' [Q [H [ea [/andP[a b] _]]]]] := @C58_rust_arnoldi [rcfType of R] 1 L A 1 v dim iom LA v0 d0.
have k1 : k' = 1%N by apply/eqP; rewrite eqn_leq a andbT (leq_trans b) // geq_minl.
by have E0 : E = 0 by [exact: h2 ea k1]; rewrite h3 E0 subr0.
Qed.
Definition ramp (c : R) : rsys [rcfType of R] 1 := RSys (fun s u => 0 *m u + const_mx 1 + s *: const_mx c) (fun _ _ v => 0 *m v).
Definition ramp_z (c : R) (s : R) : 'cV[R]_1 := const_mx (s + c / 2%:R * s ^+ 2)%R.
Lemma ramp_affine c : rs_affine (ramp c) 0 (const_mx 1) (const_mx c). Proof. by []. Qed.
Lemma ramp_evals ev dim iom c m dt (s : R) u : exact_evaluator ev -> (0 < dim)%N -> m <> "epi3"%string -> dt != 0 -> 0 <= s -> 0 <= c ->
  rs_evals_exact ev dim iom (rs_fjac (ramp c) s u) 0 m dt (0 *m u + const_mx 1 + s *: const_mx c) (const_mx c).
Proof.
move=> hev d0 m3 dt0 s0 c0 P hP.
have /is_phiP -> := hP 1%N isT; have /is_phiP -> := hP 2%N isT; split=> // [|v0]; last by apply: phi_1d.
apply: phi_1d => //; rewrite mul0mx add0r; apply/eqP => /matrixP /(_ 0 0); rewrite !mxE => /eqP.
by rewrite mulf_eq0 (negbTE dt0) /= gt_eqF // ltr_spaddl ?ltr01 // mulr_ge0.
Qed.
Section Ramp.
Variables (c : R) (gmres : ('cV[R]_1 -> 'cV[R]_1) -> 'cV[R]_1 -> 'cV[R]_1 -> nat -> R -> option 'cV[R]_1).
Variables (evals : string -> evaluator [rcfType of R]) (dt : R) (N : nat) (kwds : opt_dict [rcfType of R]) (m em : string) (dim iom : nat) (tol : R) (o : nat).
Hypothesis c0 : 0 <= c.
Hypothesis hev : exact_evaluator (evals em).
Hypothesis ho : rs_options kwds m em dim iom tol o.
Hypothesis d0 : (0 < dim)%N.
Hypothesis hm : List.In m [:: "epi2"; "exprb2"]%string.
Hypothesis dt0 : 0 < dt.
Hypothesis tol0 : 0 <= tol.
Let hm3 : List.In m [:: "epi2"; "exprb2"; "epi3"]%string.
Proof. by case: hm => [<-|[<-|//]]; [left|right; left]. Qed.
Let m3 : m <> "epi3"%string. Proof. by case: hm => [<-|[<-|//]]. Qed.
Let t0 i : 0 <= (dt *+ i). Proof. by rewrite mulrn_wge0 // ltW. Qed.
(* above the threshold the returned states are on the solution t + c t^2/2 *)
Example C71_example_exact : tol < c -> exists ts,
  integrate_wrapper_rs gmres (ramp c) evals 0 0 dt N kwds = Ok ([seq ramp_z c (0 + dt *+ i)%R | i <- output_indices o N ++ [:: N]], ts).
Proof.
move=> tc; apply: (C71_affine_time_exact gmres ho d0 hm3 (@ramp_affine c)) => //.
- by right; exists 0; rewrite mxE ger0_norm.
- move=> i _; split=> // s _ _ k; rewrite mul0mx add0r !mxE.
  apply: (@dlim_ext (fun s => s + c / 2%:R * s ^+ 2)%R) => [x|]; first by rewrite mxE.
  have h := derivable_pt_lim_plus _ _ s _ _ (derivable_pt_lim_id s) (derivable_pt_lim_scal _ c s _ (dlim_sq 0 0 s)).
  have -> : (1 + s * c)%R = (1 + c * s)%R by rewrite mulrC.
  apply: dlim_ext h => x; rewrite /plus_fct /mult_real_fct /id.
  by rewrite subr0 add0r -[Rplus _ _]/(x + c * (x ^+ 2 / 2%:R)) mulrA mulrAC.
- by apply/matrixP => i j; rewrite !mxE expr0n mulr0 addr0.
by move=> i _; apply: ramp_evals; rewrite ?gt_eqF ?add0r.
Qed.
(* not above it they fall behind by c dt^2/2 in every step: first order only *)
Example C71_example_dropped : c <= tol -> exists ts,
  integrate_wrapper_rs gmres (ramp c) evals 0 0 dt N kwds
  = Ok ([seq ramp_z c (dt *+ i)%R - const_mx (c * dt ^+ 2 / 2%:R *+ i)%R | i <- output_indices o N ++ [:: N]], ts).
Proof.
move=> ct; apply: (@run_of 1 gmres (ramp c) evals 0 dt N kwds m em dim iom tol o 0 (fun i => ramp_z c (dt *+ i)%R - const_mx (c * dt ^+ 2 / 2%:R *+ i)%R) ho d0 hm3).
  by apply/matrixP => i j; rewrite !mxE !mulr0n expr0n mulr0 addr0 subr0.
move=> i ob hi hob; set y := ramp_z _ _ - _ => h7.
have h6 := ea_t hob; rewrite add0r in h6; have h8 := ea_t0 hob; rewrite add0r in h8.
have hq : fphi2_v (ramp c) ob y (rs_frhs (ramp c) (ep_t ob) y) (rs_fjac (ramp c) (ep_t ob) y) dt = Ok (0, const_mx c).
  by apply: (fphi2_off (@ramp_affine c)); rewrite (ea_tol hob) // => k; rewrite mxE ger0_norm.
have E : rs_evals_exact (ep_ev ob) (ep_dim ob) (ep_iom ob) (rs_fjac (ramp c) (dt *+ i) y) 0 m dt (0 *m y + const_mx 1 + (dt *+ i) *: const_mx c) (const_mx c).
  by rewrite (ea_ev hob) (ea_dim hob) (ea_iom hob); apply: ramp_evals; rewrite ?gt_eqF.
exists (-1), (dt *+ i + dt); rewrite (@ta_step 1 (ramp c) 0 (const_mx 1) (const_mx c) (@ramp_affine c) ob y (dt *+ i)%R dt h7 h6 h8 m E 0 _ hq (ea_m hob) hm3) //.
congr (Ok (mkStep _ _ _ _)); rewrite addr0 scaler0 phi_at0 mul0mx add0r -scalemxAl mul1mx /y.
have nat (x : R) j : x *+ j = x * j%:R by rewrite mulr_natr.
have -> : ifact R_rcfType 1 = 1 by rewrite /ifact invr1.
rewrite !(nat dt) !(nat (c * dt ^+ 2 / 2%:R)) [i.+1%:R]mulrSr scale1r; apply/matrixP => k l; rewrite !mxE; move: (i%:R : R) (c) (dt) => a b e.
by field.
Qed.
End Ramp.
