(* PropLejaStep.v : C65, the Leja integrators as integrators (ode_exp.py:472-624): what a step
   returns, equilibria and linear invariants of whole runs, time bookkeeping, exceptions. *)
From Coq Require Import String Reals.
From mathcomp Require Import all_ssreflect all_algebra.
From mathcomp Require Import complex.
From Verif Require Import Rstruct ModelHist SpecHist ProofsHist ModelOps SpecOps ProofsOps ModelKrylov ModelDispatch ModelInt SpecInt.
From Verif Require Import ProofsInt ProofsInt2 ProofsInt6 ModelLeja SpecLeja SpecLejaOps ProofsLeja2 PropLeja PropLejaPts ProofsLeja8 ProofsLejaStep ProofsLejaStep2.
From Verif Require Import MxSeries SpecPhi SpecProg SpecExact ProofsOde ProofsExact PropExact.
Set Implicit Arguments.
Unset Strict Implicit.
Unset Printing Implicit Defensive.
Import Order.TTheory GRing.Theory Num.Theory.
Local Open Scope ring_scope.
Lemma shift_scaleE (F : rcfType) m (mv : 'cV[F]_m -> 'cV[F]_m) k b0 rnd sf sh sc me b :
  leja_shift_scale mv k b0 rnd sf = (sh, sc, me, b) -> sh = me / 2%:R /\ sc = `|me| / 4%:R.
Proof.
by rewrite /leja_shift_scale; case: power_iter => [[e b'] j] [<- <- <- _]; rewrite sub0r normrN.
Qed.
Lemma conjugateE (F : rcfType) n (a b c : F) x nr sc sh : gen_leja_conjugate n a b c = Ok (x, nr, sc, sh) ->
  sc = ((b - a) / 2%:R + c) / 2%:R /\ sh = (a + b) / 2%:R.
Proof.
rewrite /gen_leja_conjugate; case: ifP => // _; case: ifP => _; first by case.
by case: ifP => _; case.
Qed.
Lemma conjugate_raise (F : rcfType) n (a b c : F) e : gen_leja_conjugate n a b c = Raise e -> e = ValueErrorExn.
Proof.
rewrite /gen_leja_conjugate; case: ifP => _; first by case.
by case: ifP => // _; case: ifP.
Qed.
Local Opaque max_substeps gen_leja_conjugate leja_shift_scale leja_max_power_iter norm2.

Lemma sub3 (V : zmodType) (y a1 a2 b1 b2 : V) : y + a1 + a2 - (y + b1 + b2) = (a1 - b1) + (a2 - b2).
Proof. by rewrite !opprD !addrA -!(addrAC _ (- y)) subrr add0r -!addrA; congr (_ + _); rewrite addrCA. Qed.

Section Props.
Variables (F : rcfType) (D : ldd F) (KW : Type) (n : nat) (o : lopts F n) (kw0 : KW).
Variable sys : odesys F KW n.
Notation vec := 'cV[F]_n.

(* ---- time and history: a step does not touch the stored history ---- *)
Theorem C65_step_time ob dt kw ob' s : lj_step D o kw0 sys ob dt kw = Ok (ob', s) ->
  [/\ lj_hist ob' = lj_hist ob, sr_t s = h_t (lj_hist ob) + dt & sr_dt s = dt].
Proof. exact: lj_step_hist. Qed.

(* ---- equilibria ---- *)
Theorem C65_equilibrium_run y W (cb1 cb2 : option (W -> F -> vec -> W * KW)) ob w t0 dt N d :
  equilibrium sys y -> lj_new o t0 y = Ok ob ->
  integrate_ormatex (lj_step D o kw0 sys) (@lj_accept F n) cb1 cb2 ob w y t0 dt N = Ok d ->
  forall y', List.In y' (d_ys d) -> y' = y.
Proof. exact: lj_eq_traj. Qed.

(* ---- linear invariants ---- *)
Theorem C65_linear_invariant_run (w : 'rV[F]_n) W (cb1 cb2 : option (W -> F -> vec -> W * KW)) ob wd t0 y0 dt N d :
  rhs_invariant sys w -> exact_jacobian sys \/ fd_jacobian sys ->
  lj_new o t0 y0 = Ok ob ->
  integrate_ormatex (lj_step D o kw0 sys) (@lj_accept F n) cb1 cb2 ob wd y0 t0 dt N = Ok d ->
  forall y, List.In y (d_ys d) -> w *m y = w *m y0.
Proof.
move=> hf hJ hn; apply: lj_inv_traj hn => //.
by case: hJ => hJ; [apply: exact_inv | apply: fd_inv].
Qed.

(* ---- the value of a step ---- *)
(* the sub-step polynomials of one step: subs lists the accepted sub-steps (tau, p); the step uses
   P = prod_j p_j(tau_j X) = c0 + X q1, q1 = c1 + X q2 *)
Definition step_poly (subs : seq (F * {poly F})) : {poly F} := \prod_(s <- subs) (s.2 \Po (s.1 *: 'X)).

Lemma step_value (J : jaclop F n) (dt : F) (v2 : vec) (w : 'cV[F]_(n + 2)) G
    (ex : F -> 'cV[F]_(n + 2) -> 'cV[F]_(n + 2) * nat * bool) sb tau it mx :
  let av := build_a_tilde 2 (jl_op J) dt [:: 0; dt *: jl_frhs J; v2] in
  linear (lo_mv (jl_op J)) ->
  (forall t u w it c, ex t u = (w, it, c) -> exists p, G p /\ w = papply (fun v => t *: lo_mv av.1 v) p u) ->
  0 < tau -> expmv_substep ex sb tau av.2 = Ok (w, it, true, mx) ->
  exists (subs : seq (F * {poly F})) (q1 q2 : {poly F}) (c0 c1 : F), [/\ \sum_(s <- subs) s.1 = 1, (forall e, e \in subs -> 0 < e.1 <= 1 /\ G e.2),
    step_poly subs = c0%:P + 'X * q1, q1 = c1%:P + 'X * q2 &
    usubmx w = papply (fun v => dt *: lo_mv (jl_op J) v) q1 (dt *: jl_frhs J) +
               papply (fun v => dt *: lo_mv (jl_op J) v) q2 v2].
Proof.
move=> av lin hx t0 E.
have [subs [h1 h2 h3]] := substep_poly (aug_lin dt (dt *: jl_frhs J) v2 lin) hx t0 E.
have [c0 [q1 e1]] := poly_split (step_poly subs); have [c1 [q2 e2]] := poly_split q1.
exists subs, q1, q2, c0, c1; split=> //.
by rewrite h3 (aug_value dt (dt *: jl_frhs J) v2 lin e1 e2).
Qed.

(* epi2_leja_re, divided differences of a function ex (exp in the code): the interval is [rho, 0]
   for rho = dt * leja_a or the scaled power-iteration estimate; every sub-step polynomial
   interpolates ex at the first i shifted and scaled Leja points *)
Theorem C65_real_step_value (ex : F -> F) ob dt kw ob' s yt :
  lp_method o = "epi2_leja_re"%string -> (forall x sh sc, dd_re D x sh sc = leja_coeffs_exp_dd ex x sh sc 1) ->
  uniq (lp_x o) -> (0 < size (lp_x o))%N -> 0 < lj_size ob ->
  hist_y (lj_hist ob) 0 = Ok yt ->
  let J := os_fjac sys (Some (odflt kw0 kw)) (h_t (lj_hist ob)) yt in
  linear (lo_mv (jl_op J)) ->
  lj_step D o kw0 sys ob dt kw = Ok (ob', s) ->
  exists rho, (forall a, lp_a o = Some a -> rho = dt * a) /\
  (rho != 0 ->
   exists (subs : seq (F * {poly F})) (q1 q2 : {poly F}) (c0 c1 : F),
   [/\ \sum_(s <- subs) s.1 = 1,
       (forall e, e \in subs -> 0 < e.1 <= 1 /\
          exists i, [/\ (0 < i <= size (lp_x o))%N, (size e.2 <= i)%N &
            forall j, (j < i)%N -> (e.2).[rho / 2%:R + `|rho| / 4%:R * (lp_x o)`_j]
                                   = ex (rho / 2%:R + `|rho| / 4%:R * (lp_x o)`_j)]),
       step_poly subs = c0%:P + 'X * q1, q1 = c1%:P + 'X * q2 &
       sr_y s = yt + papply (fun v => dt *: lo_mv (jl_op J) v) q1 (dt *: jl_frhs J)
                   + papply (fun v => dt *: lo_mv (jl_op J) v) q2 (dt ^+ 2 *: jl_fdt J)]).
Proof.
move=> hm hD ux sx s0 ey J lin; rewrite /lj_step hm; cbn [rbind leja_step_routine String.eqb Ascii.eqb Bool.eqb].
rewrite /step_epi_re ey; cbn [rbind]; rewrite -/J.
set av := build_a_tilde _ _ _ _; set shs := match lp_a o with Some _ => _ | None => _ end.
have [rho [hr1 hr2]] : exists rho, (forall a, lp_a o = Some a -> rho = dt * a) /\
    shs.1.1 = rho / 2%:R /\ shs.1.2 = `|rho| / 4%:R.
  rewrite /shs; case: (lp_a o) => [a|].
    by exists (dt * a); split=> [a' [->] //|/=]; split=> //; rewrite normrM normfV [`|4%:R|]ger0_norm ?ler0n.
  case E : leja_shift_scale => [[[sh sc] me] b]; exists me; split=> //=.
  by have [-> ->] := shift_scaleE E.
move=> H; exists rho; split=> // r0; case: shs hr2 H => [[shift scale] bk] /= [-> ->].
case E : real_leja_expmv_substep => [r|e] //=.
case: r E => [[[w it] c] m] E; rewrite /lj_finish /=; case: c E => //= E -[_ <-] /=.
have t0 : 0 < 11%:R / 10%:R * lj_size ob by rewrite mulr_gt0 // divr_gt0 // ltr0n.
have sc0 : `|rho| / 4%:R != 0 by rewrite mulf_neq0 ?normr_eq0 ?invr_eq0 ?pnatr_eq0.
pose G (p : {poly F}) := exists i, [/\ (0 < i <= size (lp_x o))%N, (size p <= i)%N &
            forall j, (j < i)%N -> p.[rho / 2%:R + `|rho| / 4%:R * (lp_x o)`_j]
                                   = ex (rho / 2%:R + `|rho| / 4%:R * (lp_x o)`_j)].
have hG t u w' it' c' : real_leja_expmv (lo_mv av.1) t u (rho / 2%:R) (`|rho| / 4%:R) (lp_x o)
    (dd_re D (lp_x o) (rho / 2%:R) (`|rho| / 4%:R)) (lp_tol o) = (w', it', c') ->
    exists p, G p /\ w' = papply (fun v => t *: lo_mv av.1 v) p u.
  rewrite hD => E'; have lM := aug_lin dt (dt *: jl_frhs J) (dt ^+ 2 *: jl_fdt J) lin.
  have [p [h1 h2 h3 _]] := C23_real_leja_interpolates lM sc0 ux sx E'.
  have [/andP[i0 i1] _ _ _ _] := C23_real_leja_any_coeffs lM E'.
  exists p; split=> //; exists it'; split=> //; rewrite i0 /=.
  by move: i1; rewrite leq_max => /orP[h|h]; apply: leq_trans h _; rewrite // leq_pred.
have [subs [q1 [q2 [c0 [c1 [h1 h2 h3 h4 h5]]]]]] := step_value lin hG t0 E.
by exists subs, q1, q2, c0, c1; split=> //; rewrite h5 addrA.
Qed.

(* epi2_leja_im and epi3_leja_im: the box is [la, 0] x [-lc, lc]; every sub-step polynomial has real
   coefficients and interpolates ex at the first i - 1 shifted and scaled nodes *)
Theorem C65_complex_step_value (ex : F[i] -> F[i]) ob dt kw ob' s yt :
  (forall z, ex (conjc z) = conjc (ex z)) ->
  (forall x sh sc, dd_im D x sh sc = leja_coeffs_exp_dd ex x sh%:C%C sc%:C%C 1) ->
  lp_method o <> "epi2_leja_re"%string -> (3 <= lp_n o)%N -> 0 < lj_size ob ->
  hist_y (lj_hist ob) 0 = Ok yt ->
  let J := os_fjac sys (Some (odflt kw0 kw)) (h_t (lj_hist ob)) yt in
  linear (lo_mv (jl_op J)) ->
  lj_step D o kw0 sys ob dt kw = Ok (ob', s) ->
  exists la lc x nr v2, 
    [/\ (if lp_a o is Some a then la = a * dt else la <= 0), lc = (if lp_c o is Some c then c * dt else 0),
        gen_leja_conjugate (lp_n o) la 0 lc = Ok (x, nr, ((0 - la) / 2%:R + lc) / 2%:R, (la + 0) / 2%:R),
        leja_vb2 o sys (lj_hist ob) dt J v2 &
   let nodes := if (0 < lp_nzeros o)%N then leja_seq_pad_zeros x (lp_nzeros o) else x in
   la <= 0 -> 0 <= lc -> (la < 0) || (0 < lc) -> uniq nodes ->
   exists (subs : seq (F * {poly F})) (q1 q2 : {poly F}) (c0 c1 : F),
   [/\ \sum_(s <- subs) s.1 = 1,
       (forall e, e \in subs -> 0 < e.1 <= 1 /\
          exists i, [/\ (0 < i <= lp_nzeros o + lp_n o)%N, (size e.2 <= i)%N &
            let z j := ((la + 0) / 2%:R)%:C%C + (((0 - la) / 2%:R + lc) / 2%:R)%:C%C * nodes`_j in
            forall j, (j < i.-1)%N -> (to_cpoly e.2).[z j] = ex (z j)]),
       step_poly subs = c0%:P + 'X * q1, q1 = c1%:P + 'X * q2 &
       sr_y s = yt + papply (fun v => dt *: lo_mv (jl_op J) v) q1 (dt *: jl_frhs J)
                   + papply (fun v => dt *: lo_mv (jl_op J) v) q2 v2]].
Proof.
move=> exc hD hm n3 s0 ey J lin; rewrite /lj_step.
case er : leja_step_routine => [r|e] //; cbn [rbind].
have [k ek] : exists k, r = R_epi_im k.
  move: er; rewrite /leja_step_routine; case: (String.eqb_spec _ _) => // _.
  case: ifP => _; first by case=> <-; exists 2%N.
  by case: ifP => // _; case: ifP => _ [<-]; eexists.
subst r; rewrite /step_epi_im ey; cbn [rbind]; rewrite -/J.
case ev : (if k == 2%N then _ else _) => [vb|e] //; cbn [rbind].
have [v2 [evb h2]] : exists v2, vb = [:: 0; dt *: jl_frhs J; v2] /\ leja_vb2 o sys (lj_hist ob) dt J v2.
  move: ev; case: (k =P 2%N) => [_ [<-]|k2]; first by eexists; split; [reflexivity|left].
  case: (k =P 3%N) => // k3; case e1 : (hist_y _ 1) => [yp|e] //=; case e2 : (hist_tm _ 1) => [tp|e] //=.
  case e3 : remf => [rn|e] //= -[<-]; eexists; split; first reflexivity.
  right; move: er; rewrite /leja_step_routine; case: ifP => // _; case: ifP => [_ [ek]|_]; first by case: k2.
  case: (String.eqb_spec _ _) => // -> hk; split=> //; exists tp, yp, rn; split=> //.
  by move: hk; case: hist_has_prev => // -[ek]; case: k2.
rewrite {}evb {ev}; set av := build_a_tilde _ _ _ _; set lab := match lp_a o with Some _ => _ | None => _ end.
have hla : if lp_a o is Some a then lab.1 = a * dt else lab.1 <= 0.
  rewrite /lab; case: (lp_a o) => [a|] //; case: leja_shift_scale => [[[sh sc] me] b] /=.
  by rewrite oppr_le0.
case: lab hla => [la bk] /= hla; set lc := if lp_c o is Some c then _ else _.
case eg : gen_leja_conjugate => [[[[x nr] scale] shift]|e] //; cbn [rbind].
case E : complex_conj_leja_expmv_substep => [r|e] //; cbn [rbind].
case: r E => [[[w it] c] m] E; rewrite /lj_finish; case: c E => //= E -[_ <-] /=.
have [es eh] : scale = ((0 - la) / 2%:R + lc) / 2%:R /\ shift = (la + 0) / 2%:R.
  exact: conjugateE eg.
subst scale shift; exists la, lc, x, nr, v2; split; [by move: hla; case: (lp_a o)|by []|exact: eg|exact: h2|].
move=> la0 lc0 hp; set nodes := if (0 < lp_nzeros o)%N then _ else _ => un.
have t0 : 0 < 11%:R / 10%:R * lj_size ob by rewrite mulr_gt0 // divr_gt0 // ltr0n.
set shift := (la + 0) / 2%:R in E eg *; set scale := ((0 - la) / 2%:R + lc) / 2%:R in E eg *.
have sc0 : scale != 0.
  rewrite gt_eqF // divr_gt0 ?ltr0n //; case/orP: hp => h.
    by rewrite ltr_paddr // divr_gt0 ?subr_gt0 ?ltr0n.
  by rewrite ltr_paddl // divr_ge0 ?subr_ge0 ?ler0n.
have [x' [nr' [G' [sx ux hnr cx _]]]] := C62_conjugate_nodes n3 la0 lc0 hp.
have {G'} [ex' enr] : x = x' /\ nr = nr' by move: eg; rewrite G' => -[-> ->].
subst x' nr'.
have [sn cn] : size nodes = (lp_nzeros o + lp_n o)%N /\ conj_nodes nodes (lp_nzeros o + nr).
  rewrite /nodes; case: ifP => hz; first by rewrite -sx; apply: C62_padded_nodes.
  have -> : lp_nzeros o = 0%N by move: hz; case: (lp_nzeros o).
  by rewrite !add0n.
pose G (p : {poly F}) := exists i, [/\ (0 < i <= lp_nzeros o + lp_n o)%N, (size p <= i)%N &
            let z j := shift%:C%C + scale%:C%C * nodes`_j in
            forall j, (j < i.-1)%N -> (to_cpoly p).[z j] = ex (z j)].
have hG t u w' it' c' : complex_conj_leja_expmv (lo_mv av.1) t u shift scale nodes (lp_nzeros o + nr)
    (dd_im D nodes shift scale) (lp_tol o) = (w', it', c') ->
    exists p, G p /\ w' = papply (fun v => t *: lo_mv av.1 v) p u.
  rewrite hD => E'; have lM := aug_lin dt (dt *: jl_frhs J) v2 lin.
  have [||h1 [p [h3 h4 h5]]] := C24_conj_leja_interpolates lM sc0 un _ _ cn exc E'.
  - by rewrite sn addn_gt0 (leq_trans _ n3) ?orbT.
  - by rewrite sn leq_add2l.
  by exists p; split=> //; exists it'; rewrite -sn; split.
have [subs [q1 [q2 [c0 [c1 [g1 g2 g3 g4 g5]]]]]] := step_value lin hG t0 E.
by exists subs, q1, q2, c0, c1; split=> //; rewrite g5 addrA.
Qed.
End Props.

(* ---- exceptions: an object with a constructed history and a valid method can only report that the
   iteration did not converge, or (complex nodes) an empty box ---- *)
Theorem C65_step_raises (F : rcfType) (D : ldd F) (KW : Type) n (o : lopts F n) (kw0 : KW) (sys : odesys F KW n)
    ob dt kw e :
  List.In (lp_method o) [:: "epi2_leja_re"; "epi2_leja_im"; "epi3_leja_im"]%string ->
  reachable (lj_hist ob) -> lj_step D o kw0 sys ob dt kw = Raise e ->
  e = RuntimeErrorExn \/ e = ValueErrorExn /\ lp_method o <> "epi2_leja_re"%string.
Proof.
move=> hm rc; have [y hc] := reachable_current rc; rewrite /lj_step.
have fin (ob1 : ljobj F n) bk d yt r : lj_finish ob1 bk d yt r = Raise e -> e = RuntimeErrorExn.
  by case: r => [[[w it] c] m]; rewrite /lj_finish; case: c => // -[<-].
have sub m (ex : F -> 'cV[F]_m -> 'cV[F]_m * nat * bool) sb tau v e' :
    expmv_substep ex sb tau v = Raise e' -> e' = RuntimeErrorExn.
  case: sb; first exact: C25_substep_only_runtime_error.
  by rewrite /expmv_substep /=; case: (ex 1 v) => [[? ?] ?].
case er : leja_step_routine => [r|e']; cbn [rbind]; last first.
  by move: er; case: hm => [<-|[<-|[<-|//]]] //=; case: hist_has_prev.
case: r er => //.
all: try by rewrite /leja_step_routine; do 4!case: ifP => // _.
- move=> _; rewrite /step_epi_re (current_y hc); cbn [rbind].
  case: (match lp_a o with Some _ => _ | None => _ end) => [[shift scale] bk].
  case E : real_leja_expmv_substep => [r|e']; cbn [rbind]; first by move/fin; left.
  by case=> <-; left; apply: sub E.
- move=> k er; have hre : lp_method o <> "epi2_leja_re"%string by move=> h; move: er; rewrite h.
  rewrite /step_epi_im (current_y hc); cbn [rbind].
  set J := os_fjac _ _ _ _.
  have [vb ->] : exists vb, (if k == 2%N then Ok [:: 0; dt *: jl_frhs J; dt ^+ 2 *: jl_fdt J]
         else if k == 3%N then
           yp <- hist_y (lj_hist ob) 1;;
           tp <- hist_tm (lj_hist ob) 1;;
           rn <- remf sys (lj_hist ob) tp yp (jl_frhs J) (jl_op J) (jl_fdt J);;
           Ok [:: 0; dt *: jl_frhs J; (dt * (2%:R / 3%:R)) *: rn + dt ^+ 2 *: jl_fdt J]
         else Raise NotImplementedError) = Ok vb.
    case: (k =P 2%N) => k2; first by eexists.
    have hp : hist_has_prev (lj_hist ob) /\ k = 3%N.
      move: er; rewrite /leja_step_routine; case: ifP => // _; case: ifP => [_ [ek]|_]; first by case: k2.
      by case: ifP => // _; case: ifP => // _ [ek]; first by []; case: k2.
    have [tp [yp pr]] := has_prev_previous rc hp.1.
    rewrite hp.2 /= (previous_y pr) (previous_tm pr) /= /remf (current_tm hc) (current_y hc) /=.
    by eexists.
  cbn [rbind]; case: (match lp_a o with Some _ => _ | None => _ end) => [la bk].
  case eg : gen_leja_conjugate => [[[[x nr] scale] shift]|e']; cbn [rbind]; last first.
    by case=> <-; right; split=> //; apply: conjugate_raise eg.
  case E : complex_conj_leja_expmv_substep => [r|e']; cbn [rbind]; first by move/fin; left.
  by case=> <-; left; apply: sub E.
Qed.

(* ---- over the reals: the error of one step for y' = A y + b + t g ---- *)
Lemma affine_vb2 (KW : Type) n (o : lopts R_rcfType n) (sys : odesys R_rcfType KW n) (A : 'M[R_rcfType]_n) b g h t y dt kw v2 :
  affine_system sys A b g -> current h t y ->
  leja_vb2 o sys h dt (os_fjac sys kw t y) v2 -> v2 = dt ^+ 2 *: g.
Proof.
move=> aff hc; have [_ /(_ kw t y) [hA [eg ef]]] := aff; rewrite /leja_vb2 eg.
case=> [//|[_ [tp [yp [rn [_ _ _ hr ->]]]]]].
by move: hr; rewrite ef (aff_remf aff _ _ _ hc) => -[<-]; rewrite scaler0 add0r.
Qed.
Theorem C65_affine_error (D : ldd R_rcfType) (KW : Type) n (o : lopts R_rcfType n) (kw0 : KW)
    (sys : odesys R_rcfType KW n) (A : 'M[R]_n) (b g : 'cV[R]_n) ob t (dt : R) y kw ob' s z (P : nat -> 'M[R]_n) :
  lp_method o = "epi2_leja_re"%string ->
  (forall x sh sc, dd_re D x sh sc = leja_coeffs_exp_dd expR x sh sc 1) ->
  uniq (lp_x o) -> (0 < size (lp_x o))%N -> 0 < lj_size ob ->
  affine_system sys A b g -> current (lj_hist ob) t y -> are_phis 2 (dt *: A) P ->
  solves_ivp A b g t (t + dt) y z ->
  lj_step D o kw0 sys ob dt kw = Ok (ob', s) ->
  exists rho : R_rcfType, (forall a, lp_a o = Some a -> rho = dt * a) /\
  (rho != 0 ->
   exists (subs : seq (R_rcfType * {poly R_rcfType})) (q1 q2 : {poly R_rcfType}) (c0 c1 : R_rcfType),
   let f := A *m y + b + t *: g in
   [/\ \sum_(s <- subs) s.1 = 1,
       (forall e, e \in subs -> 0 < e.1 <= 1 /\
          exists i, [/\ (0 < i <= size (lp_x o))%N, (size e.2 <= i)%N &
            forall j, (j < i)%N -> (e.2).[rho / 2%:R + `|rho| / 4%:R * (lp_x o)`_j]
                                   = expR (rho / 2%:R + `|rho| / 4%:R * (lp_x o)`_j)]),
       \prod_(s <- subs) (s.2 \Po (s.1 *: 'X)) = c0%:P + 'X * q1, q1 = c1%:P + 'X * q2 &
       sr_y s - z (t + dt) =
           (papply (fun v => dt *: (A *m v)) q1 (dt *: f) - P 1%N *m (dt *: f))
         + (papply (fun v => dt *: (A *m v)) q2 (dt ^+ 2 *: g) - P 2%N *m (dt ^+ 2 *: g))]).
Proof.
move=> hm hD ux sx s0 aff hc hP hz es.
have et : h_t (lj_hist ob) = t by case: hc.
have [hA [eg ef]] := aff.2 (Some (odflt kw0 kw)) t y.
have lin : linear (lo_mv (jl_op (os_fjac sys (Some (odflt kw0 kw)) (h_t (lj_hist ob)) y))).
  by move=> a u v; rewrite et !hA mulmxDr scalemxAr.
have [rho [hr hv]] := C65_real_step_value hm hD ux sx s0 (current_y hc) lin es.
exists rho; split=> // r0; have [subs [q1 [q2 [c0 [c1 [h1 h2 h3 h4 h5]]]]]] := hv r0.
exists subs, q1, q2, c0, c1 => f; split=> //.
have ez := ivp_value hz.
rewrite [z _]ez ivp_step h5 et eg ef -/f.
have e1 : P 1%N = phi 1 (dt *: A) by apply/is_phiP; apply: hP.
have e2 : P 2%N = phi 2 (dt *: A) by apply/is_phiP; apply: hP.
have ep q v : papply (fun v => dt *: lo_mv (jl_op (os_fjac sys (Some (odflt kw0 kw)) t y)) v) q v =
              papply (fun v => dt *: (A *m v)) q v.
  by rewrite /papply; apply: eq_bigr => i _; congr (_ *: _); apply: eq_iter => u; rewrite hA.
rewrite !ep e1 e2 -scalemxAr -[phi 2 _ *m (_ *: g)]scalemxAr.
exact: sub3.
Qed.

(* the hypotheses of the value and error theorems are met by a step of y' = 1 - y that succeeds;
   those of the run theorems by equilibria and invariants of linear systems *)
Example C65_example_step (KW : Type) (kw0 : KW) : exists (o : lopts R_rcfType 1) ob ob' s,
  [/\ lp_method o = "epi2_leja_re"%string, uniq (lp_x o) /\ (0 < size (lp_x o))%N, 0 < lj_size ob,
      current (lj_hist ob) 0 0 & lj_step (dd_of expR) o kw0 (one_minus_y R_rcfType KW) ob 1 None = Ok (ob', s)]
  /\ affine_system (one_minus_y R_rcfType KW) (- 1%:M) 1%:M 0 /\ lp_a o = Some (- 4%:R).
Proof.
have [c1 [c2 [c1p hD]]] := ex_coeffs expR0 expR4; have [s [E _]] := ex_step1 kw0 hD c1p.
exists (ex_o c1), (ex_ob 1 0), (ex_ob (5%:R / 6%:R) 1), s; split; last first.
  split=> //; split=> [kw t u|kw t u] /=.
    by rewrite scaler0 addr0 mulNmx mul1mx addrC.
  by split=> //; split=> //; rewrite scaler0 addr0 mulNmx mul1mx addrC.
split=> //=; last by rewrite ltr01.
split=> //; by have [_ h] := C23_example R_rcfType.
Qed.
Example C65_example_equilibrium (F : rcfType) (KW : Type) : equilibrium (one_minus_y F KW) 1%:M.
Proof.
split=> [kw t|kw t] /=; first by rewrite subrr.
by rewrite subrr; split=> //; split=> // a u v; rewrite mulmxDr scalemxAr.
Qed.
(* dimerisation 2A -> B at rate a^2 with the package's finite-difference Jacobian: a + 2b is kept *)
Definition dimer (F : rcfType) (KW : Type) : odesys F KW 2 :=
  let f (t : F) (u : 'cV[F]_2) := \col_(i < 2) (if i == ord0 then - 2%:R * u ord0 0 ^+ 2 else u ord0 0 ^+ 2) in
  OdeSys (fun _ => f) (fun _ t u => FdJacLinOp t u f 1 0 1).
Example C65_example_invariant (F : rcfType) (KW : Type) :
  rhs_invariant (dimer F KW) (\row_(i < 2) (if i == ord0 then 1 else 2%:R)) /\ fd_jacobian (dimer F KW).
Proof.
split=> [kw t u|kw t u]; last by exists 1, 1.
apply/matrixP => i j; rewrite !mxE !big_ord_recl big_ord0 !mxE /= addr0 mul1r.
by rewrite mulNr addNr.
Qed.
Print Assumptions C65_equilibrium_run.
Print Assumptions C65_linear_invariant_run.
Print Assumptions C65_real_step_value.
Print Assumptions C65_complex_step_value.
Print Assumptions C65_step_raises.
Print Assumptions C65_affine_error.
