(* ProofsLeja8.v : a concrete run of the Leja integrator in which repeating a discarded step, or a
   step after reset_ic, gives a different answer.  y' = 1 - y, y(0) = 0, dt = 1, three Leja
   points 2, -2, 0, user supplied interval leja_a = -4. *)
From Coq Require Import String List.
From mathcomp Require Import all_ssreflect all_algebra.
From mathcomp Require Import ring.
From mathcomp Require Import complex.
From Verif Require Import ModelHist ModelOps ModelKrylov ModelDispatch ModelInt ModelLeja SpecLeja.
Set Implicit Arguments.
Unset Strict Implicit.
Unset Printing Implicit Defensive.
Import Order.TTheory GRing.Theory Num.Theory.
Local Open Scope ring_scope.
Local Opaque max_substeps.

Section Loop.
Variables (F : rcfType) (V : Type) (expmv : F -> V -> V * nat * bool).
Lemma loop_fail f dts tau w w' it k m : expmv dts w = (w', k, false) -> tau < 1 ->
  substep_loop expmv f.+1 dts tau w it m = substep_loop expmv f (dts / (6%:R / 5%:R)) tau w (it + k) m.
Proof. by move=> E ht; rewrite /= E /= (lt_geF ht). Qed.
Lemma loop_ok f dts tau w w' it k m : expmv dts w = (w', k, true) -> tau + dts < 1 ->
  substep_loop expmv f.+1 dts tau w it m =
  substep_loop expmv f (Num.min dts (1 - (tau + dts))) (tau + dts) w' (it + k) (Num.max m dts).
Proof. by move=> E ht; rewrite /= E /= (lt_geF ht). Qed.
Lemma loop_done f dts tau w w' it k m : expmv dts w = (w', k, true) -> tau + dts = 1 ->
  substep_loop expmv f dts tau w it m = Ok (w', (it + k)%N, true, Num.max m dts).
Proof. by move=> E ht; case: f => [|f] /=; rewrite E /= ht lexx. Qed.
End Loop.

Section Ex.
Variable F : rcfType.
Variable D : ldd F.
Variables (KW : Type) (kw0 : KW).
Definition ex_x : seq F := [:: 2%:R; - 2%:R; 0].
Variables c1 c2 : F.
(* the divided differences of exp(-2 + x) at these points: 1, c1, c2 *)
Hypothesis hD : dd_re D ex_x (- 2%:R) 1 = [:: 1; c1; c2].
Hypothesis c1p : 0 < c1 < 1.

Definition one_minus_y : odesys F KW 1 :=
  OdeSys (fun _ _ y => 1%:M - y)
         (fun _ _ y => JacLop (MatrixLinOp (- 1%:M)) 0 (1%:M - y)).
Definition ex_tol : F := Num.sqrt (2%:R * c1 * Num.sqrt 2%:R).
Definition ex_o : lopts F 1 :=
  LOpts "epi2_leja_re"%string ex_tol (Some (- 4%:R)) None true 2 3 (12%:R / 10%:R) ex_x 0.

Definition V3 (a b c : F) : 'cV[F]_(1 + 2) := \col_(i < 3) nth 0 [:: a; b; c] i.
Lemma V3E (w : 'cV[F]_(1 + 2)) : w = V3 (w ord0 0) (w (lift ord0 ord0) 0) (w (lift ord0 (lift ord0 ord0)) 0).
Proof.
apply/matrixP => i j; rewrite ord1 mxE; case: i => [[|[|[|//]]] hi] /=; congr (w _ _); exact: val_inj.
Qed.
Definition exmv (w : 'cV[F]_(1 + 2)) := lo_mv (build_a_tilde 2 (MatrixLinOp (- 1%:M : 'M[F]_1)) 1
   [:: 0; 1 *: (1%:M : 'M[F]_1); 1 ^+ 2 *: 0]).1 w.
Lemma exmvE a b c : exmv (V3 a b c) = V3 (c - a) c 0.
Proof.
rewrite /exmv /=; apply/matrixP => i j; rewrite ord1 {j}.
case: (split_ordP i) => k ->.
  rewrite col_mxEu ord1 !mxE !big_ord_recl !big_ord0 !mxE /=.
  by rewrite ?eqxx !mul1r ?mulr0 ?mul0r ?addr0 ?add0r mulNr mul1r addrC.
rewrite col_mxEd !mxE !big_ord_recl big_ord0 !mxE.
case: k => [[|[|//]] hk] /=; rewrite ?mul1r ?mul0r ?addr0 ?add0r //.
Qed.

Lemma V3Z r a b c : r *: V3 a b c = V3 (r * a) (r * b) (r * c).
Proof. by apply/matrixP => i j; rewrite !mxE; case: i => [[|[|[|//]]] hi]. Qed.
Lemma V3D a b c a' b' c' : V3 a b c + V3 a' b' c' = V3 (a + a') (b + b') (c + c').
Proof. by apply/matrixP => i j; rewrite !mxE; case: i => [[|[|[|//]]] hi]. Qed.
Lemma norm2V3 a b c : norm2 (V3 a b c) = Num.sqrt (a ^+ 2 + b ^+ 2 + c ^+ 2).
Proof.
by rewrite /norm2 /dotv !big_ord_recl big_ord0 !mxE /= addr0 addrA -!expr2.
Qed.

Definition exexp dts w := real_leja_expmv exmv dts w (- 2%:R) 1 ex_x [:: 1; c1; c2] ex_tol.

Lemma exexpE dts a b c : 0 < norm2 (V3 a b c) -> 0 < dts ->
  exexp dts (V3 a b c) = (V3 (a + c1 * (dts * (c - a))) (b + c1 * (dts * c)) c, 2%N,
     dts * norm2 (exmv (V3 a b c)) < Num.sqrt 2%:R * norm2 (V3 a b c)).
Proof.
move=> n0 d0; have [c0 c1l] := andP c1p.
have c0' := ltW c0.
rewrite /exexp /real_leja_expmv /=; set N := norm2 (V3 a b c) in n0 *.
rewrite /leja_cond /= (gt_eqF n0) andbT.
have -> : 2%:R * N <= abort_tol F * N.
  by rewrite ler_pmul2r // /abort_tol -natrX ler_nat.
cbn [l_i l_vm l_pm l_err l_conv ltnn andb].
have e0 : leja_mv exmv dts (- 2%:R + 1 * ex_x`_0) 1 (V3 a b c) = dts *: exmv (V3 a b c).
  by rewrite /leja_mv /= mul1r addNr scale0r subr0 invr1 scale1r.
rewrite /re_body /= in e0 *; rewrite e0 exmvE !V3Z !V3D !mul1r !mulr0 addr0.
congr (_, _, _).
have -> : norm2 (V3 (dts * (c - a)) (dts * c) 0) = dts * norm2 (V3 (c - a) c 0).
  by rewrite !norm2V3 expr0n addr0 addr0 !exprMn -!mulrDr sqrtrM ?sqr_ge0 // sqrtr_sqr ger0_norm // ltW.
set M := norm2 (V3 (c - a) c 0).
have M0 : 0 <= M by rewrite /M norm2V3 sqrtr_ge0.
rewrite ger0_norm // /decay_half /ex_tol.
have -> : Num.sqrt (2%:R * c1 * Num.sqrt 2%:R) * N = Num.sqrt (2%:R * c1 * Num.sqrt 2%:R * N ^+ 2).
  by rewrite [RHS]sqrtrM ?mulr_ge0 ?sqrtr_ge0 ?ler0n // sqrtr_sqr ger0_norm // ltW.
rewrite ltr_sqrt; last by apply: mulr_gt0; [apply: mulr_gt0; [apply: mulr_gt0; rewrite // ltr0n|rewrite sqrtr_gt0 ltr0n]|rewrite exprn_gt0].
have -> : c1 * (dts * M) * (2%:R * N) = (2%:R * c1 * N) * (dts * M) by ring.
have -> : 2%:R * c1 * Num.sqrt 2%:R * N ^+ 2 = (2%:R * c1 * N) * (Num.sqrt 2%:R * N) by ring.
by rewrite ltr_pmul2l //; apply: mulr_gt0 => //; apply: mulr_gt0; rewrite // ltr0n.
Qed.

Lemma half_lt (t : F) : 2%:R^-1 <= t -> 1 - t <= t.
Proof.
move=> h; rewrite ler_subl_addr; have : 2%:R^-1 + 2%:R^-1 <= t + t by rewrite ler_add.
by rewrite -mulr2n -[_ *+ 2]mulr_natr mulVf // pnatr_eq0.
Qed.

Lemma two_sub f it t : 2%:R^-1 <= t -> t < 1 ->
  exists b, substep_loop exexp f.+1 t 0 (V3 0 0 1) it 0 =
    Ok (V3 (c1 - c1 ^+ 2 * (t * (1 - t))) b 1, (it + 4)%N, true, t).
Proof.
move=> h1 h2; have [c0 c1l] := andP c1p; have c0' := ltW c0.
have t0 : 0 < t by apply: lt_le_trans h1; rewrite invr_gt0 ltr0n.
have t1 : 0 < 1 - t by rewrite subr_gt0.
have s20 : 0 < Num.sqrt 2%:R :> F by rewrite sqrtr_gt0 ltr0n.
have n1 : norm2 (V3 0 0 1) = 1 by rewrite norm2V3 expr0n /= !add0r expr1n sqrtr1.
have E1 : exexp t (V3 0 0 1) = (V3 (c1 * t) (c1 * t) 1, 2%N, true).
  rewrite exexpE ?n1 ?ltr01 // subr0 !mulr1 !add0r; congr (_, _, _).
  rewrite exmvE norm2V3 subr0 !expr1n expr0n addr0 mulrC -[1 + 1]/(2%:R : F).
  by rewrite gtr_pmulr.
rewrite (loop_ok _ _ _ E1) ?add0r //.
have -> : Num.min t (1 - t) = 1 - t by apply/min_idPr; apply: half_lt.
have -> : Num.max 0 t = t by apply/max_idPr; apply: ltW.
set u1 := V3 _ _ _.
have n2 : 1 <= norm2 u1.
  by rewrite /u1 norm2V3 -[X in X <= _]sqrtr1 ler_wsqrtr // expr1n ler_addr addr_ge0 // sqr_ge0.
have ct : 0 <= c1 * t <= 1.
  rewrite mulr_ge0 ?(ltW t0) //=; apply: le_trans (ltW h2); by rewrite ler_pimull ?(ltW t0) // ltW.
have n3 : norm2 (exmv u1) <= Num.sqrt 2%:R.
  rewrite /u1 exmvE norm2V3 expr0n addr0 expr1n ler_wsqrtr // -[2%:R]/(1 + 1) ler_add2r.
  case/andP: ct => h3 h4; rewrite expr_le1 //; first by rewrite ler_subl_addr ler_addl.
  by rewrite subr_ge0.
have E2 : (exexp (1 - t) u1).1.2 = 2%N /\ (exexp (1 - t) u1).2 = true /\
   exists b, (exexp (1 - t) u1).1.1 = V3 (c1 - c1 ^+ 2 * (t * (1 - t))) b 1.
  rewrite exexpE //=; last exact: lt_le_trans ltr01 n2.
  split=> //; split; last first.
    eexists; congr V3; ring.
  apply: (@le_lt_trans _ _ ((1 - t) * Num.sqrt 2%:R)); first by rewrite ler_pmul2l.
  apply: (@lt_le_trans _ _ (Num.sqrt 2%:R)); last by rewrite ler_pemulr // ltW.
  by rewrite gtr_pmull // ltr_subl_addr ltr_addl.
move: E2; case E : (exexp (1 - t) u1) => [[w k] c] /= [ek [ec [b ew]]]; subst.
exists b; rewrite (loop_done _ _ _ E); last by rewrite addrC subrK.
rewrite -addnA; congr (Ok (_, _, _, _)); apply/max_idPl; exact: half_lt.
Qed.

Definition ex_hist : hist F 'cV[F]_1 := mkHist 2 0 [:: 0] [:: 0].
Definition ex_ob (z : F) (k : nat) : ljobj F 1 := LjObj ex_hist z None k.

Lemma ex_new : lj_new ex_o 0 0 = Ok (ex_ob 1 0).
Proof. rewrite /lj_new /=. reflexivity. Qed.
Lemma ex_reset z k : lj_reset (ex_ob z k) 0 0 = ex_ob z k.
Proof. by []. Qed.

Lemma ex_a0 : (build_a_tilde 2 (MatrixLinOp (- 1%:M : 'M[F]_1)) 1
   [:: 0; 1 *: (1%:M : 'M[F]_1); 1 ^+ 2 *: 0]).2 = V3 0 0 1.
Proof.
rewrite /build_a_tilde /=; apply/matrixP => i j; rewrite ord1 {j}.
case: (split_ordP i) => k ->; first by rewrite col_mxEu ord1 !mxE.
rewrite col_mxEd !mxE; by case: k => [[|[|//]] hk].
Qed.

Lemma ex_stepE z k : lj_step D ex_o kw0 one_minus_y (ex_ob z k) 1 None =
  rbind (substep_loop exexp max_substeps (Num.min (11%:R / 10%:R * z) 1) 0 (V3 0 0 1) 0 0)
        (lj_finish (ex_ob z k) None 1 0).
Proof.
rewrite /lj_step /= /step_epi_re.
cbn [lj_hist ex_ob hist_y List.nth_error ex_hist h_ys rbind os_fjac one_minus_y jl_frhs jl_fdt jl_op lp_a ex_o].
rewrite subr0 /real_leja_expmv_substep /expmv_substep.
cbn [lp_x lp_substep ex_o negb lp_tol lj_size lj_bk].
rewrite ex_a0.
have -> : 1 * - 4%:R / 2%:R = - 2%:R :> F.
  by rewrite mul1r -[4%N]/(2 * 2)%N natrM mulNr mulfK // pnatr_eq0.
have -> : `|1 * - 4%:R / 4%:R| = 1 :> F.
  by rewrite mul1r mulNr mulfV ?pnatr_eq0 // normrN normr1.
by rewrite hD.
Qed.

(* a run from sub-step size t in [1/2, 1) gives this value *)
Definition ex_val (t : F) : F := c1 - c1 ^+ 2 * (t * (1 - t)).

Lemma usubV3 a b c : usubmx (V3 a b c) = a%:M :> 'M[F]_1.
Proof. by apply/matrixP => i j; rewrite !ord1 !mxE mulr1n. Qed.

Lemma natfrac_lt (a b : nat) : (a < b)%N -> a%:R / b%:R < 1 :> F.
Proof. by move=> h; rewrite ltr_pdivr_mulr ?ltr0n ?(leq_ltn_trans _ h) // mul1r ltr_nat. Qed.
Lemma natfrac_ge (a b : nat) : (0 < b)%N -> (b <= 2 * a)%N -> 2%:R^-1 <= a%:R / b%:R :> F.
Proof.
move=> b0 h; rewrite ler_pdivl_mulr ?ltr0n // ler_pdivr_mull ?ltr0n //.
by rewrite -natrM ler_nat.
Qed.

(* the first step of a new object *)
Lemma ex_step1 : exists s, lj_step D ex_o kw0 one_minus_y (ex_ob 1 0) 1 None =
   Ok (ex_ob (5%:R / 6%:R) 1, s) /\ sr_y s = (ex_val (5%:R / 6%:R))%:M.
Proof.
rewrite ex_stepE mulr1.
have -> : Num.min (11%:R / 10%:R) 1 = 1 :> F.
  by apply/min_idPr; rewrite ler_pdivl_mulr ?ltr0n // mul1r ler_nat.
have E1 : exists w, exexp 1 (V3 0 0 1) = (w, 2%N, false).
  have n1 : norm2 (V3 0 0 1) = 1 by rewrite norm2V3 expr0n /= !add0r expr1n sqrtr1.
  rewrite exexpE ?n1 ?ltr01 // exmvE norm2V3 subr0 !expr1n expr0n addr0 -[1 + 1]/(2%:R : F) [X in X < _]mul1r [X in _ < X]mulr1 ltxx.
  by eexists.
have [w E] := E1.
have [m0 em] : {m0 | max_substeps = m0.+2} by exists 998%N.
rewrite em (loop_fail _ _ _ E) ?ltr01 //.
have -> : 1 / (6%:R / 5%:R) = 5%:R / 6%:R :> F by rewrite mul1r invf_div.
have [b ->] := two_sub m0 (0 + 2) (natfrac_ge (ltn0Sn 5) (leqnSn 10 : 6 <= 2 * 5)%N) (natfrac_lt (ltnSn 5)).
exists (mkres ex_hist 1 (0 + usubmx (V3 (c1 - c1 ^+ 2 * (5%:R / 6%:R * (1 - 5%:R / 6%:R))) b 1))).
cbn [rbind lj_finish negb]; split; last by rewrite /= add0r usubV3.
have -> : lj_avg (ex_ob 1 0) None (5%:R / 6%:R) = ex_ob (5%:R / 6%:R) 1.
  rewrite /lj_avg /ex_ob /=; congr (LjObj _ _ _ _).
  by rewrite subrr !mul0r addr0 divr1 mul1r.
reflexivity.
Qed.

(* the next step of the same object, in the same history state *)
Lemma ex_step2 : exists ob' s, lj_step D ex_o kw0 one_minus_y (ex_ob (5%:R / 6%:R) 1) 1 None = Ok (ob', s)
   /\ sr_y s = (ex_val (11%:R / 12%:R))%:M.
Proof.
rewrite ex_stepE.
have e : 11%:R / 10%:R * (5%:R / 6%:R) = 11%:R / 12%:R :> F.
  rewrite mulf_div -!natrM; apply/eqP; rewrite eqr_div ?pnatr_eq0 // -!natrM.
  by apply/eqP; congr (_%:R).
rewrite e; have l1 := @natfrac_lt 11 12 (ltnSn 11).
have -> : Num.min (11%:R / 12%:R) 1 = 11%:R / 12%:R :> F by apply/min_idPl; apply: ltW.
have [m0 em] : {m0 | max_substeps = m0.+1} by exists 999%N.
have g1 : (2%:R^-1 <= 11%:R / 12%:R :> F) by apply: natfrac_ge.
rewrite em; have [b ->] := two_sub m0 0 g1 l1.
eexists; eexists; cbn [rbind lj_finish negb]; split; first by [].
by rewrite /= add0r usubV3.
Qed.

Lemma ex_val_neq : ex_val (5%:R / 6%:R) <> ex_val (11%:R / 12%:R).
Proof.
have [c0 _] := andP c1p.
have c2n : c1 ^+ 2 != 0 by rewrite expf_neq0 // gt_eqF.
move/addrI/oppr_inj/(mulfI c2n).
have -> : 5%:R / 6%:R * (1 - 5%:R / 6%:R) = 20%:R / 144%:R :> F.
  by field; rewrite ?pnatr_eq0.
have -> : 11%:R / 12%:R * (1 - 11%:R / 12%:R) = 11%:R / 144%:R :> F.
  by field; rewrite ?pnatr_eq0.
have n : (144%:R : F)^-1 != 0 by rewrite invr_eq0 pnatr_eq0.
by move/(mulIf n)/eqP; rewrite eqr_nat.
Qed.
End Ex.
