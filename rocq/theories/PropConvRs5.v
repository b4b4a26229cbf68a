(* PropConvRs5.v : C70, the Krylov evaluations of the crate themselves, with a dense evaluator that is exact. *)
From Coq Require Import Reals String Lra.
From mathcomp Require Import all_ssreflect all_algebra.
From mathcomp Require Import complex ring.
From Verif Require Import Rstruct Summable MxBase MxSeries ProofsPhiErr ModelHist SpecHist ModelOps SpecOps SpecPhi ModelPhi ModelKrylov ModelDispatch ModelInt SpecInt ProofsInt ProofsInt5 SpecExact ProofsOde ProofsExact.
From Verif Require Import SpecProg SpecOrder SpecOrder2 SpecConv ProofsJet ProofsJet2 ProofsJet3 ProofsOrder ProofsOrder2 ProofsOrder3 ProofsOrder4 ProofsOrder5 ProofsOrder6 ProofsOrder7 ProofsOrder8.
From Verif Require Import ProofsUJ ProofsUJ2 ProofsConv ProofsConv2 ProofsConv3 ProofsConv4 ProofsConv5 ProofsConv6 ProofsConv7 ProofsConv8 PropConv.
From Verif Require Import ModelRust SpecRust ProofsRust ProofsRust2 ProofsRust3 ProofsRust4 PropRust SpecConvRs SpecConvRs2 ProofsConvRs ProofsConvRs2 ProofsConvRs3 PropConvRs PropConvRs2 PropConvRs3 ProofsRust5 PropRustKry ProofsPade2 ProofsOrder9 ProofsKrylov ProofsKrylov3 ProofsKiops PropRustKry2 PropConvRs4.
Set Implicit Arguments.
Unset Strict Implicit.
Unset Printing Implicit Defensive.
Import Order.TTheory GRing.Theory Num.Theory.
Local Open Scope ring_scope.
Local Opaque newton_loop jac_newton norm2 breakdown_tol.
Notation btol := (breakdown_tol R_rcfType).

(* errors of the two evaluations *)
Section Acc.
Variables (ev : evaluator R_rcfType).
Hypothesis hev : exact_evaluator ev.
Variables (n : nat) (L : 'cV[R]_n -> 'cV[R]_n) (A : 'M[R]_n) (dt : R) (dim iom : nat).
Hypothesis LA : forall v, L v = A *m v.
Lemma acc_phi v w k (M : R) : (n <= dim)%N -> (n <= iom.+1)%N -> apply_phi_linop ev L dt v k dim iom = Ok w ->
  `|dt| * (ninf A + n%:R * btol) <= M -> ninf (w - phi k (dt *: A) *m v) <= `|dt| * (n%:R * btol) * exp M * ninf v.
Proof.
move=> nd ni e hM; have [v0|v0] := eqVneq v 0.
  case: (posnP n) => [n0|n0]; last by move: e; rewrite v0 aphi0 // (leq_trans n0).
  move: (w - _); rewrite v0 ninf0 mulr0 => x; rewrite (_ : x = 0) ?ninf0 //.
  by apply/matrixP => i; have := ltn_ord i; rewrite {2}n0.
have [E [h1 _ h3]] := rphi_linop_back (exact_phi hev) LA dt k v0 nd ni.
move: e; rewrite h3 => -[<-]; rewrite -mulmxBl; apply: le_trans (ninfM _ _) _; apply: ler_wpmul2r; first exact: ninf_ge0.
have t0 : 0 <= n%:R * btol by rewrite mulr_ge0 ?ler0n // ltW // tol_gt0.
have hX : ninf (dt *: (A - E)) <= M.
  apply: le_trans hM; rewrite ninfZ; apply: ler_wpmul2l => //; apply: le_trans (ninfD _ _) _.
  by rewrite ninfN ler_add2l.
have hY : ninf (dt *: A) <= M.
  by apply: le_trans hM; rewrite ninfZ; apply: ler_wpmul2l => //; rewrite ler_addl.
apply: le_trans (phi_diff k hX hY) _; apply: ler_wpmul2r; first exact: exp_ge0.
by rewrite -scalerBr addrAC subrr add0r ninfZ ninfN; apply: ler_wpmul2l.
Qed.
Lemma acc_kiops v1 v2 w (M : R) : (n + 2 <= dim)%N -> (n + 2 <= iom.+1)%N -> rkiops ev L dt 1 [:: 0; v1; v2] dim iom = Ok w ->
  `|dt| * ninf A + ninf v1 + ninf v2 + 1 + (n + 2)%:R * btol <= M ->
  ninf (w - (phi 1 (dt *: A) *m v1 + phi 2 (dt *: A) *m v2)) <= (n + 2)%:R * btol * exp M.
Proof.
move=> nm ni; set vb := [:: _; _; _] => e hM.
pose T := block_mx (dt *: A) (ext_bmat 2 vb) 0 (ext_kmat R_rcfType 2).
have LT (v : 'cV[R]_(n + 2)) : ext_apply L dt (ext_bmat 2 vb) (ext_kmat R_rcfType 2) v = T *m v by apply: ext_apply_mx.
have v0 : ext_get_v 2 vb != 0.
  apply/eqP => h; have := congr1 (fun w : 'cV[R]_(n + 2) => dsubmx w (lift ord0 ord0) 0) h.
  by rewrite /ext_get_v col_mxKd !mxE eqxx /= => /eqP; rewrite oner_eq0.
have [E [h1 [k [Q [H [ea [h2 h3]]]]]]] := @rkry_core ev (exact_phi hev) (n + 2) _ T LT (GRing.one _) (GRing.one _) _ dim iom 0 v0 nm ni.
move: e; rewrite /rkiops [(size vb).-1]/= /apply_linop ea; cbn [rbind]; rewrite h3 !scale1r => -[<-].
have -> : phi 1 (dt *: A) *m v1 + phi 2 (dt *: A) *m v2 = usubmx (phi 0 T *m ext_get_v 2 vb).
  rewrite /T ext_bmatE ext_kmatE; have -> : ext_get_v 2 vb = col_mx (nth 0 vb 0) (kiops_e R_rcfType 2) by [].
  have := @expmx_ktilde n 2 vb (dt *: A) (nth 0 vb 0); rewrite /expmx => ->.
  by rewrite /= mulmx0 add0r !big_ord_recl big_ord0 addr0.
have us (x y : 'cV[R]_(n + 2)) : usubmx x - usubmx y = usubmx (x - y) by apply/matrixP => i j; rewrite !mxE.
rewrite us -mulmxBl.
have ule (x : 'cV[R]_(n + 2)) : ninf (usubmx x) <= ninf x.
  by apply: ninf_maxnorm; rewrite ?ninf_ge0 // => i; rewrite mxE; exact: ninf_entry.
apply: le_trans (ule _) _; apply: le_trans (ninfM _ _) _.
have e1 : ninf (ext_get_v 2 vb) <= 1.
  apply: ninf_maxnorm => [|i]; first exact: ler01.
  rewrite /ext_get_v; have [j ->|j ->] := split_ordP i; rewrite ?col_mxEu ?col_mxEd mxE ?normr0 ?ler01 //.
  by case: eqP => _; rewrite ?normr1 ?normr0 ?ler01.
rewrite -[X in _ <= X]mulr1; apply: ler_pmul; rewrite ?ninf_ge0 //.
have t0 : 0 <= (n + 2)%:R * btol by rewrite mulr_ge0 ?ler0n // ltW // tol_gt0.
have nT : ninf T + (n + 2)%:R * btol <= M.
  apply: le_trans hM; rewrite ler_add2r; apply: ninf_le => [|a].
    by rewrite !addr_ge0 ?mulr_ge0 ?ninf_ge0 ?ler01.
  rewrite big_split_ord /=; have [i ->|i ->] := split_ordP a.
    rewrite -!addrA; apply: ler_add.
      rewrite -ninfZ; apply: le_trans (ninf_row _ i); apply: ler_sum => b _; by rewrite block_mxEul.
    rewrite !big_ord_recl big_ord0 !block_mxEur ext_bmatE !mxE addr0 addrC /= addrA ler_paddr ?ler01 //.
    by apply: ler_add; exact: ninf_entry.
  rewrite big1 ?add0r => [|b _]; last by rewrite block_mxEdl mxE normr0.
  rewrite ler_paddl ?addr_ge0 ?mulr_ge0 ?ninf_ge0 //.
  rewrite !big_ord_recl big_ord0 !block_mxEdr ext_kmatE !mxE /= addr0 normr0 add0r.
  by case: eqP => _; rewrite ?normr1 ?normr0 ?ler01.
have hX : ninf (T - E) <= M by apply: le_trans (ninfD _ _) _; apply: le_trans nT; rewrite ninfN ler_add2l.
have hY : ninf T <= M by apply: le_trans nT; rewrite ler_addl.
apply: le_trans (phi_diff 0 hX hY) _; apply: ler_wpmul2r; first exact: exp_ge0.
by rewrite addrAC subrr add0r ninfN.
Qed.
End Acc.
Local Opaque apply_phi_linop rkiops.

Section Run.
Variables (B rad len c : R).
Hypothesis B0 : 0 <= B.
Hypothesis r0 : 0 < rad.
Hypothesis c0 : 0 < c.
Let M0 : R := (B + B + (2%:R * B + B * (2%:R * rad + B)) + 1 + 1)%R.
Let BR : 0 <= B * (2%:R * rad + B). Proof. by rewrite mulr_ge0 // addr_ge0 // mulr_ge0 ?ler0n // ltW. Qed.
Let K0 : R := exp M0.
Let K : R := (K0 * (1 + c^-1))%R.
Let K00 : 0 <= K0. Proof. exact: exp_ge0. Qed.
Let ci : 0 < c^-1. Proof. by rewrite invr_gt0. Qed.
Let K_ge0 : 0 <= K. Proof. by rewrite mulr_ge0 // addr_ge0 ?ler01 // ltW. Qed.
Let KK : K0 <= K /\ K0 / c <= K.
Proof.
split; rewrite /K; first by rewrite ler_pemulr // ler_addl ltW.
by apply: ler_wpmul2l => //; rewrite ler_addr ler01.
Qed.
(* the accuracy hypotheses of C70 for the evaluations of the crate, over any exact dense evaluator *)
Lemma code_acc p n (sys : rsys [rcfType of R] n) (ev : evaluator [rcfType of R]) z J H2 H3 t0 T dt dim iom :
  exact_evaluator ev -> (n + 2 <= dim)%N -> (n + 2 <= iom.+1)%N ->
  smooth_tube p (rs_frhs sys) z t0 T rad B (fun _ _ => 0) J H2 H3 ->
  (forall s u, in_tube z t0 T rad s u -> exists i, c <= `|rs_frhs sys s u i 0|) ->
  (forall s u, in_tube z t0 T rad s u -> forall v, rs_fjac sys s u v = J s u *m v) ->
  0 < dt -> dt <= 1 -> (n + 2)%:R * btol <= 1 -> let fl := (n + 2)%:R * btol / dt in
  (forall s u, in_tube z t0 T rad s u -> rs_phi_accurate ev dim iom (rs_fjac sys s u) (J s u) dt (K * fl)%R) /\
  rs_epi3_accurate ev dim iom sys z t0 T rad J dt (K * fl)%R.
Proof.
move=> hev nd ni st hc hJ d0 d1 t1 fl.
have t0' : 0 <= (n + 2)%:R * btol by rewrite mulr_ge0 ?ler0n // ltW // tol_gt0.
have fl0 : 0 <= fl by rewrite divr_ge0 // ltW.
have tf : (n + 2)%:R * btol = fl * dt by rewrite /fl mulfVK // gt_eqF.
have nn : n%:R * btol <= (n + 2)%:R * btol by apply: ler_wpmul2r; rewrite ?ler_nat ?leq_addr // ltW // tol_gt0.
have nJ s u : in_tube z t0 T rad s u -> ninf (J s u) <= B by move=> h; apply: ninf_le => //; apply: (st_J st).
have nf s u : in_tube z t0 T rad s u -> ninf (rs_frhs sys s u) <= B by move=> h; apply: ninf_maxnorm => //; apply: (st_f st).
split=> [s u hin k v w rho hk e hr|s u u' hin hin' v1 v2 w rho1 rho2 e h1 h2].
  move=> i; have rho0 := entry_rho i hr; apply: le_trans (ninf_entry _ _ _) _.
  have hM : `|dt| * (ninf (J s u) + n%:R * btol) <= M0.
    rewrite gtr0_norm //; apply: (@le_trans _ _ (1 * (B + 1))).
      by apply: ler_pmul; rewrite ?(ltW d0) ?addr_ge0 ?ninf_ge0 ?mulr_ge0 ?ler0n ?(ltW (tol_gt0 _)) //; apply: ler_add; [exact: nJ|exact: le_trans t1].
    have -> : M0 = (B + 1) + (B + (2%:R * B + B * (2%:R * rad + B)) + 1) by rewrite /M0; ring.
    rewrite mul1r ler_addl; apply: addr_ge0; last exact: ler01.
    by apply: addr_ge0 => //; apply: addr_ge0 => //; rewrite mulr_ge0 ?ler0n.
  have nd' := leq_trans (leq_addr 2 n) nd; have ni' := leq_trans (leq_addr 2 n) ni.
  apply: le_trans (acc_phi hev (hJ _ _ hin) nd' ni' e hM) _.
  apply: ler_pmul; rewrite ?ninf_ge0 ?mulr_ge0 ?ler0n ?exp_ge0 ?(ltW (tol_gt0 _)) //; last first.
    exact: ninf_maxnorm rho0 hr.
  rewrite [K * fl]mulrC gtr0_norm //; apply: ler_pmul; rewrite ?exp_ge0 ?mulr_ge0 ?ler0n ?(ltW d0) ?(ltW (tol_gt0 _)) //; last exact: KK.1.
  apply: le_trans (ler_wpmul2l (ltW d0) nn) _; rewrite tf mulrCA ler_pimulr //.
  by apply: mulr_ile1 => //; exact: ltW.
move=> i; have rho10 := entry_rho i h1; have rho20 := entry_rho i h2.
apply: le_trans (ninf_entry _ _ _) _.
have n1 : ninf v1 <= B.
  rewrite /v1 ninfZ gtr0_norm // -[X in _ <= X]mul1r; apply: ler_pmul; rewrite ?ninf_ge0 ?(ltW d0) //; exact: nf.
have n2 : ninf v2 <= 2%:R * B + B * (2%:R * rad + B).
  have hd : ninf (u' - u) <= 2%:R * rad + B.
    have -> : u' - u = (u' - z (s - dt)%R) + (z (s - dt)%R - z s) + (z s - u) by rewrite -addrA [X in _ = _ + X]addrA subrK addrA subrK.
    case: (hin) (hin') => a1 a2 a3 [b1 b2 b3].
    have -> : 2%:R * rad + B = rad + B + rad by rewrite mulr_natl mulr2n addrAC.
    apply: le_trans (ninfD _ _) _; apply: ler_add; last by rewrite -ninfN opprB; apply: ninf_maxnorm; rewrite ?(ltW r0).
    apply: le_trans (ninfD _ _) _; apply: ler_add; first by apply: ninf_maxnorm; rewrite ?(ltW r0).
    have := @drift _ _ _ _ _ _ _ _ _ _ _ _ r0 B0 st s u (- dt)%R a1 a2; rewrite normrN gtr0_norm // => h.
    apply: (le_trans (h _)); first by split.
    by rewrite ler_pimulr.
  rewrite /v2 ninfZ -[X in _ <= X]mul1r; apply: ler_pmul; rewrite ?ninf_ge0 ?normr_ge0 //.
    rewrite ger0_norm; last by rewrite !mulr_ge0 ?invr_ge0 ?ler0n ?ltW.
    rewrite -mulrA -[X in _ <= X]mulr1; apply: ler_pmul; rewrite ?divr_ge0 ?ler0n ?(ltW d0) //.
    by rewrite ler_pdivr_mulr ?ltr0n // mul1r ler_nat.
  apply: le_trans (ninfD _ _) _; rewrite ninfN; apply: ler_add.
    apply: le_trans (ninfD _ _) _; rewrite ninfN mulr_natl mulr2n; apply: ler_add; exact: nf.
  apply: le_trans (ninfM _ _) _; apply: ler_pmul; rewrite ?ninf_ge0 //; exact: nJ.
have hM : `|dt| * ninf (J s u) + ninf v1 + ninf v2 + 1 + (n + 2)%:R * btol <= M0.
  rewrite /M0; apply: ler_add => //; rewrite ler_add2r; apply: ler_add => //; apply: ler_add => //.
  rewrite gtr0_norm // -[X in _ <= X]mul1r; apply: ler_pmul; rewrite ?ninf_ge0 ?(ltW d0) //; exact: nJ.
apply: le_trans (acc_kiops hev (hJ _ _ hin) nd ni e hM) _.
rewrite tf -/K0; have v1c : dt * c <= rho1.
  have [j hj] := hc _ _ hin; apply: le_trans (h1 j); rewrite /v1 mxE normrM gtr0_norm //.
  by apply: ler_wpmul2l => //; exact: ltW.
have -> : fl * dt * K0 = (K0 / c * fl) * (dt * c).
  by move: (K0) (fl) => a b; field; rewrite gt_eqF.
apply: ler_pmul; [by apply: mulr_ge0 => //; apply: mulr_ge0 => //; exact: ltW|by apply: mulr_ge0; exact: ltW| |].
  by apply: ler_wpmul2r => //; exact: KK.2.
by rewrite (le_trans v1c) // ler_addl.
Qed.

(* With an exact dense evaluator and a Krylov space that may fill the whole space, the only error of the evaluations
   is the breakdown test at 1e-12: a run returns and is within C (dt^p + (n+2) 1e-12 / dt) of the solution. *)
Theorem C70_rust_krylov_floor m p :
  List.In (m, p) [:: ("epi2", 2%N); ("exprb2", 2%N); ("epi3", 3%N)]%string ->
  exists C h0 : R, [/\ 0 <= C, 0 < h0 &
  forall n gmres (sys : rsys [rcfType of R] n) (evals : string -> evaluator [rcfType of R]) z J H2 H3 t0 T dt N kwds em dim iom tol o y0,
  rs_options kwds m em dim iom tol o -> exact_evaluator (evals em) -> (n + 2 <= dim)%N -> (n + 2 <= iom.+1)%N ->
  (forall s s' u, rs_frhs sys s u = rs_frhs sys s' u) ->
  smooth_tube p.-1 (rs_frhs sys) z t0 T rad B (fun _ _ => 0) J H2 H3 -> z t0 = y0 ->
  (forall s u, in_tube z t0 T rad s u -> exists i, c <= `|rs_frhs sys s u i 0|) ->
  (forall s u, in_tube z t0 T rad s u -> forall v, rs_fjac sys s u v = J s u *m v) ->
  (t0 + dt *+ N <= T)%R -> (T - t0 <= len)%R -> 0 < dt -> dt <= h0 ->
  let floor : R := ((n + 2)%:R * breakdown_tol R_rcfType / dt)%R in floor <= h0 ->
  exists ys ts, integrate_wrapper_rs gmres sys evals y0 t0 dt N kwds = Ok (ys, ts) /\
    rs_converges p C dt floor z t0 o N ys].
Proof.
move=> hin; have [C [h1 [C0 h10 H]]] := C70_rust_exponential_returns len B0 r0 c0 hin.
have K1 : 0 < K + 1 by rewrite ltr_spaddr ?ltr01.
exists (C * (1 + K)), (Num.min 1 (h1 / (K + 1))); split.
- by rewrite mulr_ge0 // addr_ge0 ?ler01.
- by rewrite lt_minr ltr01 divr_gt0.
move=> n gmres sys evals z J H2 H3 t0 T dt N kwds em dim iom tol o y0 ho hev nd ni aut st hz hc hJ hT hl d0 d1 fl hfl.
have [d11 dh] : dt <= 1 /\ dt <= h1 / (K + 1) by move: d1; rewrite le_minr => /andP.
have [f11 fh] : fl <= 1 /\ fl <= h1 / (K + 1) by move: hfl; rewrite le_minr => /andP.
have fl0 : 0 <= fl by rewrite divr_ge0 ?mulr_ge0 ?ler0n ?(ltW d0) ?(ltW (tol_gt0 _)).
have hh : h1 / (K + 1) <= h1 by rewrite ler_pdivr_mulr // ler_pmulr // ler_addr.
have t1 : (n + 2)%:R * btol <= 1.
  by move: f11; rewrite /fl ler_pdivr_mulr // mul1r => h; exact: le_trans h d11.
have [ha hk] := @code_acc _ n sys (evals em) z J H2 H3 t0 T dt dim iom hev nd ni st hc hJ d0 d11 t1.
have d0' : (0 < dim)%N by rewrite (leq_trans _ nd) // addn2.
have hc' s : t0 <= s -> s <= T -> exists i, c <= `|rs_frhs sys s (z s) i 0|.
  by move=> a b; apply: hc; split=> // i; rewrite subrr mxE normr0 ltW.
have Kf : K * fl <= h1.
  apply: le_trans (ler_wpmul2l K_ge0 fh) _; rewrite mulrCA ler_pimulr ?(ltW h10) //.
  by rewrite ler_pdivr_mulr // mul1r ltW // ltr_addl ltr01.
have [ys [ts [e1 [e2 e3]]]] := H n gmres sys evals z J H2 H3 t0 T dt (K * fl)%R N kwds em dim iom tol o y0 ho d0' aut st hz hc' hJ ha (fun _ => hk) hT hl d0 (le_trans dh hh) (mulr_ge0 K_ge0 fl0) Kf.
exists ys, ts; split=> //; split=> // j i hj.
have [y [ey hy]] := e3 j i hj; exists y; split=> // k; apply: le_trans (hy k) _.
have dp : 0 <= dt ^+ p by rewrite exprn_ge0 // ltW.
rewrite -mulrA; apply: ler_wpmul2l => //.
have -> : (1 + K) * (dt ^+ p + fl) = (dt ^+ p + K * fl) + (fl + K * dt ^+ p) by move: (dt ^+ p) (K) => a b; ring.
by rewrite ler_addl addr_ge0 // mulr_ge0.
Qed.
End Run.
