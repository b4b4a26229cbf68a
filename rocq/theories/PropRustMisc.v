(* PropRustMisc.v : C73, finite-difference operator, reset and options of the crate; instances of C72. *)
From Coq Require Import Reals String.
From mathcomp Require Import all_ssreflect all_algebra.
From mathcomp Require Import ring.
From Verif Require Import Rstruct MxBase ModelHist ModelOps ModelPhi ModelKrylov ModelInt SpecProg SpecOrder ModelRust ModelRust2 SpecRust.
From Verif Require Import ProofsLejaDD2 ProofsRust ProofsRust3 PropRust PropRustInv.
Set Implicit Arguments.
Unset Strict Implicit.
Unset Printing Implicit Defensive.
Import Order.TTheory GRing.Theory Num.Theory.
Local Open Scope ring_scope.
Local Opaque newton_loop jac_newton norm2 breakdown_tol.
Section Fd.
Variables (F : rcfType) (n : nat).
Lemma nmax_ge0 (x : 'cV[F]_n) : 0 <= norm_max x.
Proof. by rewrite /norm_max; elim/big_rec: _ => // i y _ h; rewrite le_maxr h orbT. Qed.
Lemma nmax_eq0 (x : 'cV[F]_n) : (norm_max x == 0) = (x == 0).
Proof.
apply/eqP/eqP => [h|->].
  apply/matrixP => i j; rewrite ord1 mxE; apply/eqP; rewrite -normr_le0 -h.
  exact: (bigmax_ge (fun i => `|x i 0|)).
by rewrite /norm_max; elim/big_rec: _ => // i y _ ->; rewrite mxE normr0 maxxx.
Qed.
Lemma eps0_gt0 : 0 < fd_eps0 F. Proof. by rewrite /fd_eps0 mulr_gt0 ?invr_gt0 ?exprn_gt0 ?ltr0n. Qed.
Lemma eps_eq0 (x : 'cV[F]_n) : (fd_eps0 F * norm_max x == 0) = (x == 0).
Proof. by rewrite mulf_eq0 gt_eqF ?eps0_gt0 //= nmax_eq0. Qed.
(* the operator fails exactly at the state 0, whatever the right-hand side and the vector *)
Theorem C73_fd_fails_iff_zero f t (x : 'cV[F]_n) scale gamma v :
  (exists e, rfd_apply f t x scale gamma v = Raise e) <-> x = 0.
Proof.
rewrite /rfd_apply eps_eq0; split=> [[e]|->]; first by case: eqP.
by exists ZeroDivisionExn; rewrite eqxx.
Qed.
(* exact for right-hand sides that are affine in the state *)
Theorem C73_fd_affine (M : 'M[F]_n) (c : F -> 'cV[F]_n) t (x : 'cV[F]_n) (scale : F) gamma (v : 'cV[F]_n) : x != 0 ->
  rfd_apply (fun s u => M *m u + c s) t x scale gamma v
  = Ok (scale *: (M *m v) + (if gamma is Some g then g *: v else 0)).
Proof.
move=> x0; rewrite /rfd_apply eps_eq0 (negPf x0); set e := fd_eps0 F * norm_max x.
have e0 : e != 0 by rewrite eps_eq0.
have -> : M *m (x + e *: v) + c t - (M *m x + c t) = e *: (M *m v) by rewrite mulmxDr -scalemxAr opprD addrACA subrr addr0 addrAC subrr add0r.
by rewrite scalerA mulr1 divfK //; case: gamma => [g|]; rewrite ?addr0.
Qed.
(* in general off by at most |scale| H eps |v|^2 with eps = 0.5e-8 max|x|, where H bounds the quadratic remainder *)
Theorem C73_fd_error (f : F -> 'cV[F]_n -> 'cV[F]_n) (J : 'M[F]_n) t (x : 'cV[F]_n) (scale : F) gamma (v : 'cV[F]_n) (H rho : F) : x != 0 ->
  0 <= rho -> (forall i, `|v i 0| <= rho) ->
  (forall (h : 'cV[F]_n) s, 0 <= s -> (forall i, `|h i 0| <= s) -> forall i, `|(f t (x + h) - f t x - J *m h) i 0| <= H * s ^+ 2) ->
  exists w, rfd_apply f t x scale gamma v = Ok w /\
    forall i, `|(w - (scale *: (J *m v) + (if gamma is Some g then g *: v else 0))) i 0|
      <= `|scale| * H * ((2%:R)^-1 * (10%:R ^+ 8)^-1 * (\big[Num.max/0]_j `|x j 0|)) * rho ^+ 2.
Proof.
move=> x0 r0 hv hf; rewrite /rfd_apply eps_eq0 (negPf x0) -/(fd_eps0 F) -/(norm_max x); set e := fd_eps0 F * norm_max x.
have e0 : 0 < e by rewrite lt_def eps_eq0 x0 /= mulr_ge0 ?(ltW eps0_gt0) ?nmax_ge0.
eexists; split; first reflexivity.
have := hf (e *: v) (e * rho) (mulr_ge0 (ltW e0) r0) _.
move=> /(_ _) hh i; have {hh} h : `|(f t (x + e *: v) - f t x - J *m (e *: v)) i 0| <= H * (e * rho) ^+ 2.
  by apply: hh => j; rewrite mxE normrM gtr0_norm // ler_wpmul2l // ltW.
have -> : forall a : 'cV[F]_n, (match gamma with Some g => (scale * 1 / e) *: a + g *: v | None => (scale * 1 / e) *: a end)
    - (scale *: (J *m v) + (match gamma with Some g => g *: v | None => 0 end)) = (scale / e) *: (a - J *m (e *: v)).
  move=> a; rewrite mulr1 -scalemxAr scalerBr scalerA divfK ?gt_eqF //; case: gamma => [g|]; last by rewrite addr0.
  by rewrite opprD addrACA subrr addr0.
rewrite mxE normrM normf_div [`|e|]gtr0_norm //; apply: le_trans (ler_wpmul2l _ h) _; first by rewrite divr_ge0 // ltW.
by rewrite le_eqVlt; apply/orP; left; apply/eqP; move: (`|scale|) (e) e0 => a b b0; field; rewrite gt_eqF.
Qed.
End Fd.
(* it is not a linear operator: u' = u^2 in one dimension *)
Theorem C73_fd_not_linear (F : rcfType) (x : F) : x != 0 ->
  let op := @rfd_op F 1 (fun _ u => \col_i (u i 0 ^+ 2)) 0 (const_mx x) in
  op (2%:R *: const_mx 1) <> 2%:R *: op (const_mx 1).
Proof.
move=> x0 op; have hx : (const_mx x : 'cV[F]_1) != 0 by apply/eqP => /matrixP /(_ 0 0); rewrite !mxE => /eqP; rewrite (negPf x0).
have e0 : fd_eps0 F * norm_max (const_mx x : 'cV[F]_1) != 0 by rewrite eps_eq0.
rewrite /op /rfd_op /rfd_apply (negPf e0); move: (_ * norm_max _) e0 => e e0 /matrixP /(_ 0 0); rewrite !mxE => h.
have : 2%:R * e = 0.
  have -> : 2%:R * e = 1 * 1 / e * ((x + e * (2%:R * 1)) ^+ 2 - x ^+ 2) - 2%:R * (1 * 1 / e * ((x + e * 1) ^+ 2 - x ^+ 2)) by field.
  by rewrite h subrr.
by move/eqP; rewrite mulf_eq0 pnatr_eq0 (negPf e0).
Qed.
(* reset_ic of a Runge-Kutta object makes it the freshly constructed one, after any calls; its history keeps every accepted
   state *)
Theorem C73_rk_reset_fresh (F : rcfType) n (t0 : F) (y0 : 'cV[F]_n) order o l t1 y1 : rrk_new t0 y0 order = Ok o ->
  rrk_new t1 y1 order = Ok (rrk_reset (foldl (@rrk_do F n) o l) t1 y1) /\
  size (rk_ys (foldl (@rrk_do F n) o l)) = (accepted_since l 0).+1.
Proof.
rewrite /rrk_new; case: ifP => // ho [<-].
have gen ob k : rk_order ob = order -> rk_bt ob = bt_factory F order -> size (rk_ys ob) = k.+1 ->
   let ob' := foldl (@rrk_do F n) ob l in [/\ rk_order ob' = order, rk_bt ob' = bt_factory F order & size (rk_ys ob') = (accepted_since l k).+1].
  by elim: l ob k => [|[r|t y] l IH] ob k h1 h2 h3 //=; apply: IH => //=; rewrite h3.
have [h1 h2 h3] := gen (RkInt order (bt_factory F order) t0 [:: y0]) 0%N erefl erefl erefl.
by rewrite /rrk_reset h1 h2.
Qed.
(* options: giving the documented defaults for absent keys changes nothing *)
Definition rs_defaults (F : rcfType) : opt_dict F :=
  [:: ("method", OStr F "epi2"); ("expmv_method", OStr F "pade"); ("max_krylov_dim", ONat F 100); ("iom", ONat F 2);
      ("tol", OFlt (10%:R ^+ 8)^-1); ("osteps", ONat F 1)]%string.
Theorem C73_default_options (F : rcfType) n gmres (sys : rsys F n) evals y0 t0 dt N kwds :
  integrate_wrapper_rs gmres sys evals y0 t0 dt N (kwds ++ rs_defaults F) = integrate_wrapper_rs gmres sys evals y0 t0 dt N kwds.
Proof.
have gen k d : dict_get (kwds ++ d) k = (if dict_get kwds k is Some v then Some v else dict_get d k).
  by elim: kwds => [|[k' v] r IH] //=; case: ifP.
rewrite /integrate_wrapper_rs /get_str /get_nat /get_flt !gen.
by do 6 (case: (dict_get kwds _) => [?|]).
Qed.
(* C72 on the crate's example systems: the Robertson problem with the finite-difference operator conserves the sum *)
Theorem C72_robertson (F : rcfType) : rs_invariant (rfd_sys (@rrob_rhs F)) (const_mx 1).
Proof.
have h t u : (const_mx 1 : 'rV[F]_3) *m rrob_rhs t u = 0.
  apply/matrixP => i j; rewrite !mxE !big_ord_recl big_ord0 !mxE /=.
  by move: (u 0 0) (u 1 0) (u 2%:R 0) => a b c; ring.
split=> // t u v; rewrite [rs_fjac _]/= /rfd_op /rfd_apply; case: ifP => _; first by rewrite mulmx0.
by rewrite -scalemxAr mulmxBr !h subr0 scaler0.
Qed.
(* ... while the Bateman example loses only what leaves its first species *)
Theorem C72_bateman (F : rcfType) t (x : 'cV[F]_3) : \sum_i rbat_rhs t x i 0 = - (10%:R ^+ 3)^-1 * x 0 0.
Proof.
rewrite /rbat_rhs; under eq_bigr do rewrite mxE; rewrite !big_ord_recl !big_ord0 !mxE /=.
rewrite [lift 0 (lift 0 0)](_ : _ = 2%:R); last exact: val_inj.
by move: (x 0 0) (x (lift 0 0) 0) (x 2%:R 0) => a b c; field; rewrite ?pnatr_eq0.
Qed.
