(* ProofsOrder7.v : the values of the split steps in terms of the answers of the kernels. *)
From Coq Require Import Reals String.
From mathcomp Require Import all_ssreflect all_algebra.
From mathcomp Require Import complex ring.
From Verif Require Import Rstruct Summable MxBase MxSeries ProofsPhiErr ModelHist ModelOps SpecOps SpecPhi ModelPhi ModelKrylov ModelDispatch ModelInt SpecInt ProofsInt.
From Verif Require Import SpecProg SpecOrder SpecOrder2 ProofsJet ProofsJet2 ProofsJet3 ProofsOrder ProofsOrder2 ProofsOrder3 ProofsOrder4 ProofsOrder5 ProofsOrder6.
Set Implicit Arguments.
Unset Strict Implicit.
Unset Printing Implicit Defensive.
Import Order.TTheory GRing.Theory Num.Theory.
Local Open Scope ring_scope.
Local Opaque breakdown_tol norm2 phi_linop f_phi_k_pfd kiops_fixedsteps.

Section Sp.
Variables (KW : Type) (K : kernels [rcfType of R]) (n kdim iom : nat).
Notation vec := 'cV[R]_n.
Notation H := (hist R vec).
Variables (sys : splitsys [rcfType of R] KW n).
Variables (f : R -> vec -> vec) (t : R) (y : vec) (M : 'M[R]_n) (h : H).
Hypothesis frhs : forall kw s u, os_frhs (ss_sys sys) kw s u = f s u.
Hypothesis fl : acts_as (ss_fl sys t y) M.
Hypothesis cur : current h t y.
Notation f0 := (f t y).
Notation acc := (phi_accurate K kdim iom M).
Notation L := (ss_fl sys t y).
Notation srem := (srem f t y M).
Notation c := twothirds.

Lemma sacc_call dt del (cc : R) k v : acc dt del -> 0 <= del -> 0 <= cc -> cc <= 1 -> (0 < k)%N -> (k <= 3)%N ->
  exists w, phi_linop (k_expm K) (k_expk K) (lo_mv L) (cc * dt) v k kdim iom = Ok w /\
    ninf (w - phi k ((cc * dt) *: M) *m v) <= del * ninf v.
Proof.
move=> ha d0 c0 c1 k0 k3; have [w [e hw]] := ha (lo_mv L) fl cc k v c0 c1 k0 k3; exists w; split=> //.
apply: ninf_maxnorm; first by rewrite mulr_ge0 ?ninf_ge0.
by apply: hw; [apply/is_phiP|exact: maxnorm_self].
Qed.
Lemma tt01 : 0 <= (c : R) /\ (c : R) <= 1.
Proof. by split; [rewrite divr_ge0 ?ler0n|rewrite ler_pdivr_mulr ?ltr0n // mul1r ler_nat]. Qed.
Lemma tt1 : (c == 1) = false.
Proof. by apply/negbTE; rewrite -subr_eq0 /twothirds (_ : _ - 1 = - 3%:R^-1) ?oppr_eq0 ?invr_eq0 ?pnatr_eq0 //; field. Qed.
Lemma sremf_val tr w : sp_remf sys h tr (y + w) f0 L = Ok (f tr (y + w) - f0 - M *m w).
Proof. by rewrite /sp_remf (current_y cur); cbn [rbind]; rewrite frhs fl [y + w - y]addrAC subrr add0r. Qed.

Lemma exp1_step dt del : acc dt del -> 0 <= del -> exists w1,
  step_exp1 K kdim iom sys h dt = Ok (mkStep (t + dt) dt (y + w1) (-1)) /\
  ninf (w1 - phi 1 ((r1 * dt) *: M) *m ((r1 * dt) *: f0)) <= del * ninf ((r1 * dt) *: f0).
Proof.
move=> ha d0; have [w1 [e1 h1]] := sacc_call ((r1 * dt) *: f0) ha d0 ler01 (lexx _) (isT : (0 < 1)%N) isT.
exists w1; split=> //; rewrite mul1r in e1.
rewrite /step_exp1 (current_y cur); cbn [rbind]; rewrite (current_t cur) frhs e1; cbn [rbind].
by rewrite /mkres (current_t cur).
Qed.
Lemma exp2_step dt del : acc dt del -> 0 <= del -> exists w1 w2,
  let r := srem (r1 * dt) w1 in
  [/\ step_exp2 K kdim iom sys h dt = Ok (mkStep (t + dt) dt (y + w1 + w2) (-1)),
   ninf (w1 - phi 1 ((r1 * dt) *: M) *m ((r1 * dt) *: f0)) <= del * ninf ((r1 * dt) *: f0) &
   ninf (w2 - phi 2 ((r1 * dt) *: M) *m ((r1 * dt) *: r)) <= del * ninf ((r1 * dt) *: r)].
Proof.
move=> ha d0; have [w1 [e1 h1]] := sacc_call ((r1 * dt) *: f0) ha d0 ler01 (lexx _) (isT : (0 < 1)%N) isT.
pose r := srem (r1 * dt) w1.
have [w2 [e2 h2]] := sacc_call ((r1 * dt) *: r) ha d0 ler01 (lexx _) (isT : (0 < 2)%N) isT.
exists w1, w2; cbv zeta; split=> //.
rewrite /step_exp2 (current_y cur); cbn [rbind]; rewrite (current_t cur) frhs e1; cbn [rbind].
rewrite sremf_val; cbn [rbind]; rewrite invr1 scale1r.
have -> : dt *: (f (t + 1 * dt) (y + w1) - f0 - M *m w1) = (r1 * dt) *: r.
  by rewrite /r /ProofsOrder2.srem ?RmultE ?RplusE !mul1r.
rewrite mul1r in e2 *; rewrite e2; cbn [rbind]; by rewrite /mkres (current_t cur).
Qed.
Lemma exp3_step dt del : acc dt del -> 0 <= del -> exists w1 w3 a b,
  let r := srem (c * dt) w1 in
  let r3 := srem (c * dt) (w1 + w3) in
  [/\ step_exp3 K kdim iom sys h dt = Ok (mkStep (t + dt) dt (y + a + b) (-1)),
   ninf (w1 - phi 1 ((c * dt) *: M) *m ((c * dt) *: f0)) <= del * ninf ((c * dt) *: f0),
   ninf (w3 - phi 2 ((c * dt) *: M) *m ((c * dt) *: r)) <= del * ninf ((c * dt) *: r),
   ninf (a - phi 1 ((r1 * dt) *: M) *m ((r1 * dt) *: f0)) <= del * ninf ((r1 * dt) *: f0) &
   ninf (b - phi 2 ((r1 * dt) *: M) *m ((3%:R / 2%:R * dt) *: r3)) <= del * ninf ((3%:R / 2%:R * dt) *: r3)].
Proof.
move=> ha d0; have [t0 t1] := tt01.
have [w1 [e1 h1]] := sacc_call ((c * dt) *: f0) ha d0 t0 t1 (isT : (0 < 1)%N) isT.
pose r := srem (c * dt) w1.
have [w3 [e3 h3]] := sacc_call ((c * dt) *: r) ha d0 t0 t1 (isT : (0 < 2)%N) isT.
pose r3 := srem (c * dt) (w1 + w3).
have [a [ea hha]] := sacc_call ((r1 * dt) *: f0) ha d0 ler01 (lexx _) (isT : (0 < 1)%N) isT.
have [b [eb hhb]] := sacc_call ((3%:R / 2%:R * dt) *: r3) ha d0 ler01 (lexx _) (isT : (0 < 2)%N) isT.
exists w1, w3, a, b; cbv zeta; split=> //.
rewrite /step_exp3 (current_y cur); cbn [rbind]; rewrite (current_t cur) frhs -/twothirds !scalerA [dt * _]mulrC e1; cbn [rbind].
rewrite sremf_val; cbn [rbind].
have -> : (4%:R / 9%:R / twothirds) *: (dt *: (f (t + twothirds * dt) (y + w1) - f0 - M *m w1)) = (c * dt) *: r.
  rewrite scalerA; congr (_ *: _); congr (_ * _); rewrite /twothirds; by field.
rewrite e3; cbn [rbind]; rewrite -[y + w1 + w3]addrA sremf_val; cbn [rbind].
rewrite mul1r in ea eb; rewrite ea; cbn [rbind].
have -> : (3%:R / 2%:R) *: (dt *: (f (t + twothirds * dt) (y + (w1 + w3)) - f0 - M *m (w1 + w3))) = (3%:R / 2%:R * dt) *: r3.
  by rewrite scalerA.
rewrite eb; cbn [rbind]; by rewrite /mkres (current_t cur).
Qed.
End Sp.
