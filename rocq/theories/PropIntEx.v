(* PropIntEx.v : the operator cache of the dense split methods when the linear part depends on the
   state (C32, C05): what is kept, and the two refutations. *)
From Coq Require Import Reals String.
From mathcomp Require Import all_ssreflect all_algebra.
From mathcomp Require Import complex ring.
From Verif Require Import Rstruct Summable MxBase MxSeries ModelHist SpecHist ProofsHist ModelOps SpecOps SpecPhi ModelPhi ModelKrylov ModelDispatch ModelInt SpecInt ProofsInt ProofsInt2 ProofsInt3 ProofsInt4 ProofsInt5 ProofsInt6 PropExact ProofsProg3.
Set Implicit Arguments.
Unset Strict Implicit.
Unset Printing Implicit Defensive.
Import Order.TTheory GRing.Theory Num.Theory.
Local Open Scope ring_scope.
Local Opaque breakdown_tol norm2 phi_linop f_phi_k_pfd kiops_fixedsteps.

Section Frozen.
Variables (F : rcfType) (KW : Type) (K : kernels F) (n kd iom : nat).
Lemma dense_after sys (ob ob2 : spobj F n) dt cks k s : sp_dense (KW := KW) K sys ob dt cks k = Ok (ob2, s) ->
  sp_dt ob2 = Some dt /\ (exists c, sp_cache ob2 = Some c).
Proof.
rewrite /sp_dense; case: (hist_y _ _) => //= yt.
rewrite /update_dense_phiLs; case: ifP => [|_].
  rewrite /cache_hit; case ed: (sp_dt ob) => [d|] // /andP[_ /eqP <-].
  case ec: (sp_cache ob) => [c|] //=; case: (k _ _ _ _) => //= v [<- _].
  by split=> //; exists c.
case: (hist_y _ _) => //= yt'; case: (lo_dense _) => //= L; case: (fill_dict _ _ _ _ _) => //= d.
by case: (k _ _ _ _) => //= v [<- _]; split=> //; eexists.
Qed.
(* after a dense step with dt <> 0 and its acceptance, the next step with the same dt does not
   consult the linear part of the system any more, and keeps the cache *)
Theorem C32_cache_frozen m r (sys sys' : splitsys F KW n) (ob ob2 : spobj F n) dt kw kw' s :
  split_step_routine m = Ok r -> (r = R_exp1_dense \/ r = R_exp2_dense \/ r = R_exp3_dense) ->
  sp_step K kd iom m sys ob dt kw = Ok (ob2, s) -> dt != 0 -> ss_sys sys' = ss_sys sys ->
  sp_step K kd iom m sys' (sp_accept ob2 s) dt kw' = sp_step K kd iom m sys (sp_accept ob2 s) dt kw /\
  forall ob3 s3, sp_step K kd iom m sys' (sp_accept ob2 s) dt kw' = Ok (ob3, s3) -> sp_cache ob3 = sp_cache ob2.
Proof.
move=> er hr; rewrite /sp_step er; cbn [rbind] => es d0 eS.
have [e1 [c ec]] : sp_dt ob2 = Some dt /\ exists c, sp_cache ob2 = Some c.
  by case: hr es => [->|[->|->]] /=; apply: dense_after.
have upd sy cks : update_dense_phiLs K sy (sp_accept ob2 s) dt cks = Ok (sp_accept ob2 s, c).
  by rewrite /update_dense_phiLs /cache_hit /= e1 ec d0 eqxx.
case: hr => [->|[->|->]]; cbn [sp_run].
- rewrite /step_exp1_dense /sp_dense /exp1_jit !upd eS; split=> // ob3 s3.
  case: (hist_y _ _) => //= yt; case: (dict_get c.2 _) => //= p [<- _]; by rewrite /= ec.
- rewrite /step_exp2_dense /sp_dense /exp2_jit !upd eS; split=> // ob3 s3.
  case: (hist_y _ _) => //= yt; case: (dict_get c.2 _) => //= p; case: (dict_get c.2 _) => //= p1.
  by case: (dict_get c.2 _) => //= p2 [<- _]; rewrite /= ec.
- rewrite /step_exp3_dense /sp_dense /exp3_jit !upd eS; split=> // ob3 s3.
  case: (hist_y _ _) => //= yt; case: (dict_get c.2 _) => //= p; case: (dict_get c.2 _) => //= p1.
  case: (dict_get c.2 _) => //= p2; case: (dict_get c.2 _) => //= p3.
  by case=> <- _; rewrite /= ec.
Qed.
End Frozen.

(* u' = 1 split with the linear part L(t,u) = -2u (as a 1x1 matrix) *)
Definition st_sys : splitsys [rcfType of R] unit 1 :=
  SplitSys (OdeSys (fun _ _ _ => const_mx 1) (fun _ _ _ => JacLop (MatrixLinOp 0) 0 (const_mx 1)))
           (fun _ u => MatrixLinOp ((-2%:R) *: u)).
Notation c1 := (const_mx 1 : 'cV[R]_1).
Notation stp := (sp_step ideal_kernels 1 1 "exp1_dense" st_sys).

Lemma phi1_neq1 : phi 1 ((-2%:R) *: c1) *m c1 <> c1.
Proof.
have cE (M : 'M[R]_1) : M *m c1 = M by rewrite -[RHS]mulmx1; congr (_ *m _); apply/matrixP => i j; rewrite (ord1 i) (ord1 j) !mxE.
rewrite cE => e; have h := phi_rec 0 ((-2%:R) *: c1); move: h; rewrite e cE => h.
have hM : 0 <= expmx ((-2%:R) *: c1) 0 0 by apply: expmx_metzler => a b; rewrite (ord1 a) (ord1 b) eqxx.
move: hM; rewrite /expmx h !mxE /ifact fact0 invr1 mul1r mulr1 eqxx mulr1n.
have -> : (1 : R_ringType) + -2%:R = -1 by ring.
by rewrite oppr_ge0 ler10.
Qed.
Lemma st_fresh (ob : spobj [rcfType of R] 1) t y (dt : R) : current (sp_hist ob) t y -> cache_hit ob dt = false ->
  exists d, stp ob dt None =
  Ok (SpObj (sp_hist ob) (Some dt) (Some (MatrixLinOp ((-2%:R) *: y), d)),
      mkStep (t + dt) dt (y + dt *: (phi 1 (dt *: ((-2%:R) *: y)) *m c1)) (-1)) /\
  dict_get d (1, 1%N) = Ok (phi 1 (dt *: ((-2%:R) *: y))).
Proof.
move=> cur ch; eexists; split.
  rewrite /sp_step; cbn [rbind split_step_routine String.eqb Ascii.eqb Bool.eqb sp_run].
  rewrite /step_exp1_dense /sp_dense (current_y cur); cbn [rbind].
  rewrite /update_dense_phiLs ch (current_y cur); cbn [rbind]; rewrite (current_t cur).
  cbn [rbind ss_fl st_sys lo_dense MatrixLinOp fill_dict cks1 k_sqall ideal_kernels foldr maxn foldl map iota nth].
  rewrite mulr1 /exp1_jit /dict_set /=.
  rewrite /dict_get /= xpair_eqE !eqxx /=.
  by rewrite /mkres (current_t cur).
by rewrite /dict_get /= xpair_eqE !eqxx.
Qed.
Lemma st_hit (ob : spobj [rcfType of R] 1) t y (dt : R) lop d P : current (sp_hist ob) t y -> cache_hit ob dt ->
  sp_cache ob = Some (lop, d) -> dict_get d (1, 1%N) = Ok P ->
  stp ob dt None = Ok (ob, mkStep (t + dt) dt (y + dt *: (P *m c1)) (-1)).
Proof.
move=> cur ch ec ed.
rewrite /sp_step; cbn [rbind split_step_routine String.eqb Ascii.eqb Bool.eqb sp_run].
rewrite /step_exp1_dense /sp_dense (current_y cur); cbn [rbind].
rewrite /update_dense_phiLs ch ec; cbn [rbind fst snd]; rewrite /exp1_jit ed; cbn [rbind].
by rewrite /mkres (current_t cur).
Qed.

Lemma st_run ob : sp_new "exp1_dense" 0 (0 : 'cV[R]_1) = Ok ob ->
  exists ob1 s1 d, [/\ stp ob 1 None = Ok (ob1, s1), current (sp_hist (sp_accept ob1 s1)) 1 c1, sr_y s1 = c1,
    sp_dt ob1 = Some 1 & (exists lop, sp_cache ob1 = Some (lop, d)) /\ dict_get d (1, 1%N) = Ok 1%:M].
Proof.
move=> /[dup] hn /sp_new_hist [ord [_ [hi [d0 _]]]].
have cur := init_current hi; have hr := reachable_init hi.
have [d [h1 hd]] := @st_fresh ob 0 0 1 cur (ltac:(by rewrite /cache_hit d0)).
have cE (M : 'M[R]_1) : M *m c1 = M by rewrite -[RHS]mulmx1; congr (_ *m _); apply/matrixP => i j; rewrite (ord1 i) (ord1 j) !mxE.
have p1 : phi 1 (1 *: ((-2%:R) *: (0 : 'cV[R]_1))) = 1%:M by rewrite !scaler0 phi_at0 /ifact /= invr1 scale1r.
have e11 : (1%:M : 'M[R]_1) = c1 by apply/matrixP => i j; rewrite (ord1 i) (ord1 j) !mxE.
rewrite p1 cE scale1r !add0r e11 in h1; rewrite p1 in hd.
do 2! eexists; exists d; split; [exact: h1|exact: accept_current|by []|by []|].
by split; [eexists|exact: hd].
Qed.
Lemma two_neq1 : (2%:R : R) == 1 = false.
Proof. exact: (eqr_nat R_numDomainType 2 1). Qed.

(* step 1 from u = 0 caches the operator of u = 0; step 2 from u = 1 uses it again and returns 2,
   while an object without a cache returns something else at the same point *)
Theorem C32_stale_operator_refuted ob : sp_new "exp1_dense" 0 (0 : 'cV[R]_1) = Ok ob ->
  exists ob1 s1 ob2 s2 ob3 s3,
  [/\ stp ob 1 None = Ok (ob1, s1), sr_y s1 = c1,
      stp (sp_accept ob1 s1) 1 None = Ok (ob2, s2), sr_y s2 = const_mx 2%:R &
      stp (SpObj (sp_hist (sp_accept ob1 s1)) None None) 1 None = Ok (ob3, s3) /\ sr_y s3 <> sr_y s2].
Proof.
move=> /st_run [ob1 [s1 [d [h1 cur1 e1 ed [[lop ec] hd]]]]].
have ch1 : cache_hit (sp_accept ob1 s1) 1 by rewrite /cache_hit /= ed oner_neq0 eqxx.
have h2 := @st_hit (sp_accept ob1 s1) _ _ 1 _ _ _ cur1 ch1 ec hd.
have [d3 [h3 _]] := @st_fresh (SpObj (sp_hist (sp_accept ob1 s1)) None None) _ _ 1 cur1 erefl.
exists ob1, s1, (sp_accept ob1 s1), (mkStep (1 + 1) 1 (c1 + 1 *: (1%:M *m c1)) (-1)).
do 2! eexists; split; [exact: h1|exact: e1|exact: h2| |split; first exact: h3].
  by apply/matrixP => i j; rewrite mul1mx scale1r !mxE.
rewrite /= mul1mx !scale1r => /addrI; exact: phi1_neq1.
Qed.
(* a step that is made and discarded (not accepted) changes the result of the next step *)
Theorem C05_dense_discard_refuted ob : sp_new "exp1_dense" 0 (0 : 'cV[R]_1) = Ok ob ->
  exists ob1 s1 ob2 s2 ob4 s4 ob5 s5,
  [/\ stp ob 1 None = Ok (ob1, s1), stp (sp_accept ob1 s1) 1 None = Ok (ob2, s2),
      stp (sp_accept ob1 s1) 2%:R None = Ok (ob4, s4), stp ob4 1 None = Ok (ob5, s5) & sr_y s5 <> sr_y s2].
Proof.
move=> /st_run [ob1 [s1 [d [h1 cur1 e1 ed [[lop ec] hd]]]]].
have ch1 : cache_hit (sp_accept ob1 s1) 1 by rewrite /cache_hit /= ed oner_neq0 eqxx.
have h2 := @st_hit (sp_accept ob1 s1) _ _ 1 _ _ _ cur1 ch1 ec hd.
have ch2 : cache_hit (sp_accept ob1 s1) 2%:R = false by rewrite /cache_hit /= ed; apply/negbTE/negP => /andP [_ /eqP e]; move/eqP: two_neq1; apply.
have [d3 [h3 _]] := @st_fresh (sp_accept ob1 s1) _ _ 2%:R cur1 ch2.
have [d4 [h4 _]] := @st_fresh (SpObj (sp_hist (sp_accept ob1 s1)) (Some 2%:R) (Some (MatrixLinOp ((-2%:R) *: c1), d3))) _ _ 1 cur1 (ltac:(by rewrite /cache_hit /=; apply/negbTE/negP => /andP [_ /eqP e]; move/eqP: two_neq1; apply)).
exists ob1, s1, (sp_accept ob1 s1), (mkStep (1 + 1) 1 (c1 + 1 *: (1%:M *m c1)) (-1)).
do 4! eexists; split; [exact: h1|exact: h2|exact: h3|exact: h4|].
rewrite /= mul1mx !scale1r => /addrI; exact: phi1_neq1.
Qed.
