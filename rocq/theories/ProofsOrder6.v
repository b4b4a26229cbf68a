(* ProofsOrder6.v : the values of the steps of ModelInt in terms of the answers of the kernels. *)
From Coq Require Import Reals String.
From mathcomp Require Import all_ssreflect all_algebra.
From mathcomp Require Import complex ring.
From Verif Require Import Rstruct Summable MxBase MxSeries ProofsPhiErr ModelHist ModelOps SpecOps SpecPhi ModelPhi ModelKrylov ModelDispatch ModelInt SpecInt ProofsInt.
From Verif Require Import SpecProg SpecOrder SpecOrder2 ProofsJet ProofsJet2 ProofsJet3 ProofsOrder ProofsOrder2 ProofsOrder3 ProofsOrder4 ProofsOrder5.
Set Implicit Arguments.
Unset Strict Implicit.
Unset Printing Implicit Defensive.
Import Order.TTheory GRing.Theory Num.Theory.
Local Open Scope ring_scope.
Local Opaque breakdown_tol norm2 phi_linop f_phi_k_pfd kiops_fixedsteps.

Record om (n : nat) := Om6 { od : R; oe : R; a1 : 'cV[R]_n; a2 : 'cV[R]_n; a3 : 'cV[R]_n; a4 : 'cV[R]_n; a5 : 'cV[R]_n }.

Section RB.
Variables (KW : Type) (K : kernels [rcfType of R]) (n : nat).
Notation vec := 'cV[R]_n.
Notation H := (hist R vec).
Variables (o : rbopts [rcfType of R]) (sys : odesys [rcfType of R] KW n).
Variables (f : R -> vec -> vec) (t : R) (y ft : vec) (J : 'M[R]_n) (h : H) (kw : KW).
Hypothesis smooth : smooth_system sys f t y ft J.
Hypothesis cur : current h t y.
Hypothesis gate : ft = 0 \/ gate_open (o_tol o) ft.
Notation f0 := (f t y).
Notation acc := (phi_accurate K (o_kdim o) (o_iom o) J).
Notation Jo := (os_fjac sys (Some kw) t y).

Lemma acc_call dt del (L : vec -> vec) (c : R) k v : acc dt del -> 0 <= del -> (forall v, L v = J *m v) ->
  0 <= c -> c <= 1 -> (0 < k)%N -> (k <= 3)%N ->
  exists w, phi_linop (k_expm K) (k_expk K) L (c * dt) v k (o_kdim o) (o_iom o) = Ok w /\
    ninf (w - phi k ((c * dt) *: J) *m v) <= del * ninf v.
Proof.
move=> ha d0 hL c0 c1 k0 k3; have [w [e hw]] := ha L hL c k v c0 c1 k0 k3; exists w; split=> //.
apply: ninf_maxnorm; first by rewrite mulr_ge0 ?ninf_ge0.
by apply: hw; [apply/is_phiP|exact: maxnorm_self].
Qed.
Lemma Jop v : lo_mv (jl_op Jo) v = J *m v. Proof. by case: smooth => _ /(_ (Some kw)) [-> _]. Qed.
Lemma Jdt : jl_fdt Jo = ft. Proof. by case: smooth => _ /(_ (Some kw)) [_ [-> _]]. Qed.
Lemma Jf : jl_frhs Jo = f0. Proof. by case: smooth => _ /(_ (Some kw)) [_ [_ ->]]. Qed.
Lemma phi2v_val dt del (c : R) : acc dt del -> 0 <= del -> 0 <= c -> c <= 1 ->
  exists w, phi2v_nonauto K o Jo dt c = Ok ((c ^+ 2 * dt ^+ 2) *: w, ft) /\
    ninf (w - phi 2 ((c * dt) *: J) *m ft) <= del * ninf ft.
Proof.
move=> ha d0 c0 c1; have [op|cl] := boolP (gate_open (o_tol o) ft).
  have [w [e hw]] := acc_call ft ha d0 Jop c0 c1 (isT : (0 < 2)%N) isT; exists w; split=> //.
  by rewrite phi2v_open Jdt // e.
have ft0 : ft = 0 by case: gate => // op; rewrite op in cl.
exists 0; split; first by rewrite phi2v_closed ?Jdt // scaler0 ft0.
by rewrite ft0 mulmx0 subr0 !ninf0 mulr0.
Qed.
Lemma remf_val tr yr fyt v : remf sys h tr yr fyt (jl_op Jo) v = Ok (f tr yr - fyt - J *m (yr - y) - (tr - t) *: v).
Proof. by rewrite /remf (current_tm cur) (current_y cur); cbn [rbind]; rewrite Jop (proj1 smooth). Qed.

Lemma exprb2_step dt del : acc dt del -> 0 <= del -> exists w1 w2,
  [/\ step_exprb2 K o sys h dt kw = Ok (mkStep (t + dt) dt (y + w1 + dt ^+ 2 *: w2) (-1)),
      ninf (w1 - phi 1 (dt *: J) *m (dt *: f0)) <= del * ninf (dt *: f0) &
      ninf (w2 - phi 2 (dt *: J) *m ft) <= del * ninf ft].
Proof.
move=> ha d0.
have [w1 [e1 h1]] := acc_call (dt *: f0) ha d0 Jop ler01 (lexx _) (isT : (0 < 1)%N) isT.
have [w2 [e2 h2]] := phi2v_val ha d0 ler01 (lexx _).
exists w1, w2; split; rewrite ?mul1r in h1 h2 e1 *; [|by []|by []].
rewrite /step_exprb2 (current_y cur); cbn [rbind]; rewrite (current_t cur) e2; cbn [rbind].
rewrite Jf e1; cbn [rbind fst]; by rewrite /mkres (current_t cur) expr1n mul1r.
Qed.
Lemma exprb3_step dt del : acc dt del -> 0 <= del -> exists w1 w2 w3,
  let yc := y + (r1 * dt) *: w1 + (r1 ^+ 2 * dt ^+ 2) *: w2 in
  let rc := f (t + r1 * dt) yc - f0 - J *m (yc - y) - (r1 * dt) *: ft in
  [/\ step_exprb3 K o sys h dt kw = Ok (mkStep (t + dt) dt (yc + (2%:R * dt) *: w3) (-1)),
      ninf (w1 - phi 1 ((r1 * dt) *: J) *m f0) <= del * ninf f0,
      ninf (w2 - phi 2 ((r1 * dt) *: J) *m ft) <= del * ninf ft &
      ninf (w3 - phi 3 (dt *: J) *m rc) <= del * ninf rc].
Proof.
move=> ha d0.
have [w1 [e1 h1]] := acc_call f0 ha d0 Jop ler01 (lexx _) (isT : (0 < 1)%N) isT.
have [w2 [e2 h2]] := phi2v_val ha d0 ler01 (lexx _).
pose yc := y + (r1 * dt) *: w1 + (r1 ^+ 2 * dt ^+ 2) *: w2.
pose rc := f (t + r1 * dt) yc - f0 - J *m (yc - y) - (r1 * dt) *: ft.
have [w3 [e3 h3]] := acc_call rc ha d0 Jop ler01 (lexx _) (isT : (0 < 3)%N) isT.
exists w1, w2, w3; cbv zeta; split; [|by []|by []|by rewrite mul1r in h3].
rewrite /step_exprb3 (current_y cur); cbn [rbind]; rewrite (current_t cur) e2; cbn [rbind].
rewrite Jf; rewrite mul1r in e1 e3; rewrite e1; cbn [rbind fst snd]; rewrite remf_val; cbn [rbind].
have -> : f (t + dt) (y + dt *: w1 + (1 ^+ 2 * dt ^+ 2) *: w2) - f0
    - J *m (y + dt *: w1 + (1 ^+ 2 * dt ^+ 2) *: w2 - y) - (t + dt - t) *: ft = rc.
  by rewrite /rc /yc ?RplusE ?RmultE !mul1r [t + dt - t]addrAC subrr add0r.
rewrite e3; cbn [rbind]; by rewrite /mkres (current_t cur) !mul1r.
Qed.

Lemma half01 : 0 <= (half : R) /\ (half : R) <= 1.
Proof. by split; [rewrite invr_ge0 ler0n|rewrite invf_le1 ?ltr0n // ler1n]. Qed.
Notation kacc := (kiops_accurate K (o_kdim o) (o_iom o) J).
Lemma kacc_call dt del (L : linop [rcfType of R] n) vs : kacc dt del -> 0 <= del -> acts_as L J ->
  (0 < size vs)%N -> (size vs <= 4)%N ->
  exists w, kiops_fixedsteps (k_expm K) (k_expk K) L dt (0 :: vs) (o_kdim o) (o_iom o) = Ok w /\
    ninf (w - \sum_(j < size vs) phi j.+1 (dt *: J) *m nth 0 vs j) <= del * \sum_(v <- vs) ninf v.
Proof.
move=> ha d0 hL s0 s4; have [w [e hw]] := ha L hL vs s0 s4; exists w; split=> //.
have S0 : 0 <= \sum_(v <- vs) ninf v by apply: sumr_ge0 => v _; exact: ninf_ge0.
apply: ninf_maxnorm; first exact: mulr_ge0.
apply: (hw (fun j => phi j (dt *: J))) => [j _|v hv i]; first exact/is_phiP.
apply: le_trans (ninf_entry _ _ _) _; rewrite (big_rem v) //= ler_addl.
by apply: sumr_ge0 => x _; exact: ninf_ge0.
Qed.
Lemma p4_stage_val dt del (c : R) : acc dt del -> 0 <= del -> 0 <= c -> c <= 1 -> exists w1 w2,
  let yc := y + (c * dt) *: w1 + (c ^+ 2 * dt ^+ 2) *: w2 in
  let rc := f (t + c * dt) yc - f0 - J *m (yc - y) - (c * dt) *: ft in
  [/\ p4_stage K o sys h dt Jo y f0 c = Ok (yc, rc),
      ninf (w1 - phi 1 ((c * dt) *: J) *m f0) <= del * ninf f0 &
      ninf (w2 - phi 2 ((c * dt) *: J) *m ft) <= del * ninf ft].
Proof.
move=> ha d0 c0 c1.
have [w1 [e1 h1]] := acc_call f0 ha d0 Jop c0 c1 (isT : (0 < 1)%N) isT.
have [w2 [e2 h2]] := phi2v_val ha d0 c0 c1.
exists w1, w2; cbv zeta; split; [|by []|by []].
rewrite /p4_stage (current_t cur) e2; cbn [rbind]; rewrite e1; cbn [rbind fst snd].
rewrite remf_val; cbn [rbind]; rewrite [t + c * dt - t]addrAC subrr add0r.
by rewrite ?RplusE ?RmultE.
Qed.
Lemma pexprb4_step dt del : acc dt del -> kacc dt del -> 0 <= del -> exists u1 u2 w1 w2 b,
  let yc := y + (r1 * dt) *: w1 + (r1 ^+ 2 * dt ^+ 2) *: w2 in
  let rc := f (t + r1 * dt) yc - f0 - J *m (yc - y) - (r1 * dt) *: ft in
  let yh := y + (half * dt) *: u1 + (half ^+ 2 * dt ^+ 2) *: u2 in
  let rh := f (t + half * dt) yh - f0 - J *m (yh - y) - (half * dt) *: ft in
  let V3 := dt *: (16%:R *: rh - 2%:R *: rc) in
  let V4 := dt *: (12%:R *: rc - 48%:R *: rh) in
  [/\ step_pexprb4 K o sys h dt kw = Ok (mkStep (t + dt) dt (yc + b) (-1)),
      ninf (u1 - phi 1 ((half * dt) *: J) *m f0) <= del * ninf f0 /\
      ninf (u2 - phi 2 ((half * dt) *: J) *m ft) <= del * ninf ft,
      ninf (w1 - phi 1 ((r1 * dt) *: J) *m f0) <= del * ninf f0,
      ninf (w2 - phi 2 ((r1 * dt) *: J) *m ft) <= del * ninf ft &
      ninf (b - (phi 3 (dt *: J) *m V3 + phi 4 (dt *: J) *m V4)) <= del * (ninf V3 + ninf V4)].
Proof.
move=> ha hk d0; have [hh0 hh1] := half01.
have [u1 [u2 [e1 h1 h2]]] := p4_stage_val ha d0 hh0 hh1.
have [w1 [w2 [e2 h3 h4]]] := p4_stage_val ha d0 ler01 (lexx _).
move: e1 e2.
set yh := y + (half * dt) *: u1 + _; set rh := f _ yh - f0 - _ - _.
set yc := y + (r1 * dt) *: w1 + _; set rc := f _ yc - f0 - _ - _ => e1 e2.
pose V3 := dt *: (16%:R *: rh - 2%:R *: rc); pose V4 := dt *: (12%:R *: rc - 48%:R *: rh).
have [b [e3 h5]] := kacc_call (vs := [:: 0; 0; V3; V4]) hk d0 Jop isT isT.
exists u1, u2, w1, w2, b; cbv zeta; split; [|by []|by []|by []|]; last first.
  move: h5; rewrite !big_ord_recl big_ord0 /= /bump /= !mulmx0 !add0r addr0.
  by rewrite !big_cons big_nil !ninf0 !add0r addr0.
rewrite /step_pexprb4 (current_y cur); cbn [rbind]; rewrite (current_t cur) Jf e1; cbn [rbind].
rewrite e2; cbn [rbind fst snd]; rewrite /p4_final -/V3 -/V4 e3; cbn [rbind].
by rewrite /mkres (current_t cur).
Qed.
Lemma epi2_step dt del : kacc dt del -> 0 <= del -> exists b,
  step_epi2 K o sys h dt kw = Ok (mkStep (t + dt) dt (y + b) (-1)) /\
  ninf (b - (phi 1 (dt *: J) *m (dt *: f0) + phi 2 (dt *: J) *m (dt ^+ 2 *: ft)))
    <= del * (ninf (dt *: f0) + ninf (dt ^+ 2 *: ft)).
Proof.
move=> hk d0; have [b [e h5]] := kacc_call (vs := [:: dt *: f0; dt ^+ 2 *: ft]) hk d0 Jop isT isT.
exists b; split; last first.
  by move: h5; rewrite !big_ord_recl big_ord0 /= /bump /= addr0 !big_cons big_nil addr0.
rewrite /step_epi2 (current_y cur); cbn [rbind]; rewrite (current_t cur) Jf Jdt e; cbn [rbind].
by rewrite /mkres (current_t cur).
Qed.
Lemma epi3_step dt del tp yp : kacc dt del -> 0 <= del -> previous h tp yp -> exists b,
  let V2 := (dt * (2%:R / 3%:R)) *: (f tp yp - f0 - J *m (yp - y) - (tp - t) *: ft) + dt ^+ 2 *: ft in
  step_epi3 K o sys h dt kw = Ok (mkStep (t + dt) dt (y + b) (-1)) /\
  ninf (b - (phi 1 (dt *: J) *m (dt *: f0) + phi 2 (dt *: J) *m V2)) <= del * (ninf (dt *: f0) + ninf V2).
Proof.
move=> hk d0 hp.
pose V2 := (dt * (2%:R / 3%:R)) *: (f tp yp - f0 - J *m (yp - y) - (tp - t) *: ft) + dt ^+ 2 *: ft.
have [b [e h5]] := kacc_call (vs := [:: dt *: f0; V2]) hk d0 Jop isT isT.
exists b; cbv zeta; split; last first.
  by move: h5; rewrite !big_ord_recl big_ord0 /= /bump /= addr0 !big_cons big_nil addr0.
rewrite /step_epi3 (current_y cur); cbn [rbind]; rewrite (previous_y hp); cbn [rbind].
rewrite (previous_tm hp); cbn [rbind]; rewrite (current_t cur) remf_val; cbn [rbind]; rewrite Jf Jdt -/V2 e; cbn [rbind].
by rewrite /mkres (current_t cur).
Qed.
(* dense phi functions *)
Lemma dense_step dt del : lo_dense (jl_op (os_fjac sys None t y)) = Ok J -> dense_accurate K J dt del -> 0 <= del ->
  exists w1 w2,
  [/\ step_exprb2_dense K sys h dt = Ok (mkStep (t + dt) dt (y + dt *: (w1 + dt *: w2)) (-1)),
      ninf (w1 - phi 1 (dt *: J) *m f0) <= del * ninf f0 & ninf (w2 - phi 2 (dt *: J) *m ft) <= del * ninf ft].
Proof.
move=> hd ha d0; have [phis [e hp]] := ha _ 2%N ler01 (lexx _) isT isT; rewrite mulr1 in e hp.
have hv j (v : vec) : (0 < j)%N -> (j <= 2)%N -> ninf (nth 0 phis j *m v - phi j (dt *: J) *m v) <= del * ninf v.
  move=> j0 j2; rewrite -mulmxBl; apply: ninf_maxnorm; first by rewrite mulr_ge0 ?ninf_ge0.
  by apply: hp => //; [apply/is_phiP|exact: maxnorm_self].
exists (nth 0 phis 1 *m f0), (nth 0 phis 2 *m ft); split; [|exact: hv|exact: hv].
have [hJ [hdt hf]] := proj2 smooth None.
rewrite /step_exprb2_dense (current_y cur); cbn [rbind]; rewrite (current_t cur) hd; cbn [rbind]; rewrite e hf hdt.
by rewrite /mkres (current_t cur).
Qed.
Lemma ev_call (ev : nat -> vec -> vec) dt del k v : ev_accurate ev J dt del -> 0 <= del -> (0 < k)%N -> (k <= 2)%N ->
  ninf (ev k v - phi k (dt *: J) *m v) <= del * ninf v.
Proof.
move=> ha d0 k0 k2; apply: ninf_maxnorm; first by rewrite mulr_ge0 ?ninf_ge0.
by apply: ha => //; [apply/is_phiP|exact: maxnorm_self].
Qed.
Lemma pfd_step dt del : lo_dense (jl_op Jo) = Ok J ->
  ev_accurate (fun k v => f_phi_k_pfd (o_pfd o) (dt *: J) v k) J dt del -> 0 <= del ->
  exists w1 w2,
  [/\ step_exprb2_pfd o sys h dt kw = Ok (mkStep (t + dt) dt (y + dt *: (w1 + dt *: w2)) (-1)),
      ninf (w1 - phi 1 (dt *: J) *m f0) <= del * ninf f0 & ninf (w2 - phi 2 (dt *: J) *m ft) <= del * ninf ft].
Proof.
move=> hd ha d0.
exists (f_phi_k_pfd (o_pfd o) (dt *: J) f0 1), (if gate_open (o_tol o) ft then f_phi_k_pfd (o_pfd o) (dt *: J) ft 2 else 0).
split; [|exact: (ev_call _ ha d0)|].
  rewrite /step_exprb2_pfd (current_y cur); cbn [rbind]; rewrite (current_t cur) hd; cbn [rbind]; rewrite Jf Jdt.
  by rewrite /mkres (current_t cur).
case: ifP => [_|cl]; first exact: (ev_call _ ha d0).
have -> : ft = 0 by case: gate => // op; rewrite op in cl.
by rewrite mulmx0 subr0 !ninf0 mulr0.
Qed.
Lemma pfd_rs_step dt del : lo_dense (jl_op (os_fjac sys None t y)) = Ok J ->
  ev_accurate (fun k v => k_rs K J dt v k) J dt del -> 0 <= del ->
  exists w1 w2,
  [/\ step_exprb2_pfd_rs K o sys h dt = Ok (mkStep (t + dt) dt (y + dt *: (w1 + dt *: w2)) (-1)),
      ninf (w1 - phi 1 (dt *: J) *m f0) <= del * ninf f0 & ninf (w2 - phi 2 (dt *: J) *m ft) <= del * ninf ft].
Proof.
move=> hd ha d0.
exists (k_rs K J dt f0 1), (if gate_open (o_tol o) ft then k_rs K J dt ft 2 else 0).
split; [|exact: (ev_call _ ha d0)|].
  have [hJ [hdt hf]] := proj2 smooth None.
  rewrite /step_exprb2_pfd_rs (current_y cur); cbn [rbind]; rewrite (current_t cur) hd; cbn [rbind]; rewrite hf hdt.
  by rewrite /mkres (current_t cur).
case: ifP => [_|cl]; first exact: (ev_call _ ha d0).
have -> : ft = 0 by case: gate => // op; rewrite op in cl.
by rewrite mulmx0 subr0 !ninf0 mulr0.
Qed.
End RB.
