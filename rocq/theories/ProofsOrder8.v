(* ProofsOrder8.v : the values of the dense split steps and of rk4. *)
From Coq Require Import Reals String.
From mathcomp Require Import all_ssreflect all_algebra.
From mathcomp Require Import complex ring.
From Verif Require Import Rstruct Summable MxBase MxSeries ProofsPhiErr ModelHist ModelOps SpecOps SpecPhi ModelPhi ModelKrylov ModelDispatch ModelInt SpecInt ProofsInt.
From Verif Require Import SpecProg SpecOrder SpecOrder2 ProofsJet ProofsJet2 ProofsJet3 ProofsOrder ProofsOrder2 ProofsOrder3 ProofsOrder4 ProofsOrder5 ProofsOrder6 ProofsOrder7.
Set Implicit Arguments.
Unset Strict Implicit.
Unset Printing Implicit Defensive.
Import Order.TTheory GRing.Theory Num.Theory.
Local Open Scope ring_scope.
Local Opaque breakdown_tol norm2 phi_linop f_phi_k_pfd kiops_fixedsteps.

Section Dict.
Variables (n : nat) (d : phidict [rcfType of R] n) (c u : R) (x : 'M[R]_n).
Lemma dget_hit k : dict_get (dict_set (c, k) x d) (c, k) = Ok x.
Proof. by rewrite /dict_get /dict_set; cbn [filter fst snd]; rewrite eqxx. Qed.
Lemma dget_k k k' : k != k' -> dict_get (dict_set (c, k) x d) (c, k') = dict_get d (c, k').
Proof. by move=> h; rewrite /dict_get /dict_set; cbn [filter fst snd]; rewrite xpair_eqE (negbTE h) andbF. Qed.
Lemma dget_c k k' : (c == u) = false -> dict_get (dict_set (c, k) x d) (u, k') = dict_get d (u, k').
Proof. by move=> h; rewrite /dict_get /dict_set; cbn [filter fst snd]; rewrite xpair_eqE h. Qed.
End Dict.

Section Sp.
Variables (KW : Type) (K : kernels [rcfType of R]) (n : nat).
Notation vec := 'cV[R]_n.
Notation H := (hist R vec).
Variables (sys : splitsys [rcfType of R] KW n).
Variables (f : R -> vec -> vec) (t : R) (y : vec) (M : 'M[R]_n).
Hypothesis frhs : forall kw s u, os_frhs (ss_sys sys) kw s u = f s u.
Notation f0 := (f t y).
Notation srem := (srem f t y M).
Notation c := twothirds.

(* the operator and the dictionary in use *)
Lemma tt1' : (1 == c) = false. Proof. by rewrite eq_sym tt1. Qed.
Lemma dacc_all dt del : dense_accurate K M dt del -> 0 <= del -> forall (cc : R) k, 0 <= cc -> cc <= 1 -> (0 < k)%N -> (k <= 2)%N ->
  exists phis, k_sqall K ((dt * cc) *: M) k = Some phis /\
  forall j (v : vec), (0 < j)%N -> (j <= k)%N -> ninf (nth 0 phis j *m v - phi j ((cc * dt) *: M) *m v) <= del * ninf v.
Proof.
move=> ha d0 cc k c0 c1 k0 k2; have [phis [e hp]] := ha cc k c0 c1 k0 k2; exists phis; split=> // j v j0 j2.
rewrite -mulmxBl; apply: ninf_maxnorm; first by rewrite mulr_ge0 ?ninf_ge0.
by apply: hp => //; [rewrite [dt * _]mulrC; apply/is_phiP|exact: maxnorm_self].
Qed.
Notation ans dt del cc k P := (forall v : vec, ninf (P *m v - phi k ((cc * dt) *: M) *m v) <= del * ninf v).
Lemma fill1 dt del : dense_accurate K M dt del -> 0 <= del -> exists d P,
  [/\ fill_dict K dt M (cks1 _) [::] = Ok d, dict_get d (1, 1%N) = Ok P & ans dt del r1 1%N P].
Proof.
move=> ha d0; have [phis [e hp]] := dacc_all ha d0 ler01 (lexx _) (isT : (0 < 1)%N) isT.
eexists; exists (nth 0 phis 1); split; last by move=> v; apply: hp.
  by rewrite /cks1 /= e /=.
by rewrite /dict_get /= !xpair_eqE !eqxx.
Qed.
Lemma fill2 dt del : dense_accurate K M dt del -> 0 <= del -> exists d Pc P1 P2,
  [/\ fill_dict K dt M (cks2 _) [::] = Ok d,
      [/\ dict_get d (c, 1%N) = Ok Pc, dict_get d (1, 1%N) = Ok P1 & dict_get d (1, 2%N) = Ok P2],
      ans dt del c 1%N Pc, ans dt del r1 1%N P1 & ans dt del r1 2%N P2].
Proof.
move=> ha d0; have [t0 t1] := tt01.
have [phis [e hp]] := dacc_all ha d0 ler01 (lexx _) (isT : (0 < 2)%N) isT.
have [phic [ec hc]] := dacc_all ha d0 t0 t1 (isT : (0 < 1)%N) isT.
exists (dict_set (r1, 2%N) (nth 0 phis 2) (dict_set (r1, 1%N) (nth 0 phis 1) (dict_set (c, 1%N) (nth 0 phic 1) [::]))).
exists (nth 0 phic 1), (nth 0 phis 1), (nth 0 phis 2); split.
- by rewrite /cks2; cbn [fill_dict]; rewrite ec e.
- by split; [rewrite !(dget_c _ _ _ _ tt1') dget_hit|rewrite dget_k // dget_hit|rewrite dget_hit].
- by move=> v; apply: hc.
- by move=> v; apply: hp.
- by move=> v; apply: hp.
Qed.
Lemma fill3 dt del : dense_accurate K M dt del -> 0 <= del -> exists d Pc Pd P1 P2,
  [/\ fill_dict K dt M (cks3 _) [::] = Ok d,
      [/\ dict_get d (c, 1%N) = Ok Pc, dict_get d (c, 2%N) = Ok Pd, dict_get d (1, 1%N) = Ok P1 & dict_get d (1, 2%N) = Ok P2],
      ans dt del c 1%N Pc /\ ans dt del c 2%N Pd, ans dt del r1 1%N P1 & ans dt del r1 2%N P2].
Proof.
move=> ha d0; have [t0 t1] := tt01.
have [phis [e hp]] := dacc_all ha d0 ler01 (lexx _) (isT : (0 < 2)%N) isT.
have [phic [ec hc]] := dacc_all ha d0 t0 t1 (isT : (0 < 1)%N) isT.
have [phid [ed hd]] := dacc_all ha d0 t0 t1 (isT : (0 < 2)%N) isT.
exists (dict_set (r1, 2%N) (nth 0 phis 2) (dict_set (r1, 1%N) (nth 0 phis 1)
  (dict_set (c, 2%N) (nth 0 phid 2) (dict_set (c, 1%N) (nth 0 phid 1) (dict_set (c, 1%N) (nth 0 phic 1) [::]))))).
exists (nth 0 phid 1), (nth 0 phid 2), (nth 0 phis 1), (nth 0 phis 2); split.
- by rewrite /cks3; cbn [fill_dict]; rewrite ec ed e.
- split; [by rewrite !(dget_c _ _ _ _ tt1') dget_k // dget_hit|by rewrite !(dget_c _ _ _ _ tt1') dget_hit|by rewrite dget_k // dget_hit|by rewrite dget_hit].
- by split=> v; apply: hd.
- by move=> v; apply: hp.
- by move=> v; apply: hp.
Qed.

Variables (ob ob' : spobj [rcfType of R] n) (lop : linop [rcfType of R] n).
Hypothesis cur : current (sp_hist ob) t y.
Hypothesis hlop : acts_as lop M.
Notation in_use dt cks := (forall d, fill_dict K dt M cks [::] = Ok d ->
  update_dense_phiLs K sys ob dt cks = Ok (ob', (lop, d))).

Lemma exp1_dense_step dt del : dense_accurate K M dt del -> 0 <= del -> in_use dt (cks1 _) ->
  exists w1, step_exp1_dense K sys ob dt = Ok (ob', mkStep (t + dt) dt (y + (r1 * dt) *: w1) (-1)) /\
  ninf (w1 - phi 1 ((r1 * dt) *: M) *m f0) <= del * ninf f0.
Proof.
move=> ha d0 hu; have [d [P [e e1 h]]] := fill1 ha d0.
exists (P *m f0); split; last exact: h.
rewrite /step_exp1_dense /sp_dense (current_y cur); cbn [rbind]; rewrite (hu d e); cbn [rbind].
by rewrite /exp1_jit /= e1 /= (current_t cur) frhs /mkres (current_t cur) mul1r.
Qed.
Lemma exp2_dense_step dt del : dense_accurate K M dt del -> 0 <= del -> in_use dt (cks2 _) ->
  exists wc w1 w2, let r := srem (c * dt) ((c * dt) *: wc) in
  [/\ step_exp2_dense K sys ob dt = Ok (ob', mkStep (t + dt) dt (y + (r1 * dt) *: w1 + (c^-1 * dt) *: w2) (-1)),
  ninf (wc - phi 1 ((c * dt) *: M) *m f0) <= del * ninf f0,
  ninf (w1 - phi 1 ((r1 * dt) *: M) *m f0) <= del * ninf f0 &
  ninf (w2 - phi 2 ((r1 * dt) *: M) *m r) <= del * ninf r].
Proof.
move=> ha d0 hu; have [d [Pc [P1 [P2 [e [ec e1 e2] hc h1 h2]]]]] := fill2 ha d0.
pose r := srem (c * dt) ((c * dt) *: (Pc *m f0)).
exists (Pc *m f0), (P1 *m f0), (P2 *m r); cbv zeta; split; [|exact: hc|exact: h1|exact: h2].
rewrite /step_exp2_dense /sp_dense (current_y cur); cbn [rbind]; rewrite (hu d e); cbn [rbind fst snd].
rewrite /exp2_jit ec; cbn [rbind]; rewrite e1; cbn [rbind]; rewrite e2; cbn [rbind].
rewrite (current_t cur) !frhs hlop -/twothirds [y + _ - y]addrAC subrr add0r -/(srem _ _).
rewrite /mkres (current_t cur) -addrA mul1r scalerDr scalerA [dt * _]mulrC.
by rewrite /r /ProofsOrder2.srem ?RmultE ?RplusE.
Qed.
Lemma exp3_dense_step dt del : dense_accurate K M dt del -> 0 <= del -> in_use dt (cks3 _) ->
  exists wc w3 w1 w2, let r := srem (c * dt) ((c * dt) *: wc) in
  let r3 := srem (c * dt) ((c * dt) *: wc + (c * dt) *: w3) in
  [/\ step_exp3_dense K sys ob dt = Ok (ob', mkStep (t + dt) dt (y + (r1 * dt) *: w1 + (3%:R / 2%:R * dt) *: w2) (-1)),
  ninf (wc - phi 1 ((c * dt) *: M) *m f0) <= del * ninf f0,
  ninf (w3 - phi 2 ((c * dt) *: M) *m r) <= del * ninf r,
  ninf (w1 - phi 1 ((r1 * dt) *: M) *m f0) <= del * ninf f0 &
  ninf (w2 - phi 2 ((r1 * dt) *: M) *m r3) <= del * ninf r3].
Proof.
move=> ha d0 hu; have [d [Pc [Pd [P1 [P2 [e [ec ed e1 e2] [hc hd] h1 h2]]]]]] := fill3 ha d0.
pose r := srem (c * dt) ((c * dt) *: (Pc *m f0)).
pose r3 := srem (c * dt) ((c * dt) *: (Pc *m f0) + (c * dt) *: (Pd *m r)).
exists (Pc *m f0), (Pd *m r), (P1 *m f0), (P2 *m r3); cbv zeta; split; [|exact: hc|exact: hd|exact: h1|exact: h2].
rewrite /step_exp3_dense /sp_dense (current_y cur); cbn [rbind]; rewrite (hu d e); cbn [rbind fst snd].
rewrite /exp3_jit ec; cbn [rbind]; rewrite ed; cbn [rbind]; rewrite e1; cbn [rbind]; rewrite e2; cbn [rbind].
rewrite (current_t cur) !frhs -/twothirds divff ?c0 // scale1r [y + _ - y]addrAC subrr add0r !hlop.
have -> : f (t + c * dt) (y + (c * dt) *: (Pc *m f0)) - f0 - M *m ((c * dt) *: (Pc *m f0)) = r.
  by rewrite /r /ProofsOrder2.srem ?RmultE ?RplusE.
rewrite [(c * dt) *: (_ + _)]scalerDr [y + _ - y]addrAC subrr add0r.
have -> : f (t + c * dt) (y + ((c * dt) *: (Pc *m f0) + (c * dt) *: (Pd *m r))) - f0
   - M *m ((c * dt) *: (Pc *m f0) + (c * dt) *: (Pd *m r)) = r3.
  by rewrite /r3 /ProofsOrder2.srem ?RmultE ?RplusE.
by rewrite /mkres (current_t cur) -addrA mul1r scalerDr scalerA [dt * _]mulrC.
Qed.
End Sp.

Lemma rk4_step KW n (sys : odesys [rcfType of R] KW n) (f : R -> 'cV[R]_n -> 'cV[R]_n) t y (h : hist R 'cV[R]_n) dt :
  (forall kw s u, os_frhs sys kw s u = f s u) -> current h t y ->
  step_rk4 sys h dt = Ok (mkStep (t + dt) dt (y + rk4v f t y dt) (-1)).
Proof.
move=> frhs cur; rewrite /step_rk4 (current_y cur); cbn [rbind]; rewrite (current_t cur) !frhs /mkres (current_t cur).
by rewrite /rk4v /k4v /k3v /k2v /half !scalerA ?RplusE ?RmultE [dt / _]mulrC.
Qed.
