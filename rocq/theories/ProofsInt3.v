(* ProofsInt3.v : linear invariants (C31) and a run lemma *)
From Coq Require Import String.
From mathcomp Require Import all_ssreflect all_algebra.
From mathcomp Require Import complex.
From mathcomp Require Import ring.
From Verif Require Import ModelHist SpecHist ProofsHist MxBase ModelOps SpecOps ProofsOps ModelPhi ProofsPhi.
From Verif Require Import ModelKrylov ProofsKrylov ProofsKrylov2 ProofsKrylov3 ModelDispatch ModelInt SpecInt ProofsInt ProofsInt2.
Set Implicit Arguments.
Unset Strict Implicit.
Unset Printing Implicit Defensive.
Import Order.TTheory GRing.Theory Num.Theory.
Local Open Scope ring_scope.
Local Opaque breakdown_tol norm2.

(* an object invariant and a property of the states carry along a run *)
Lemma run_inv (T Y S C W : Type) (step : S -> T -> option C -> result (S * step_result T Y)) accept
   cb1 cb2 n s (w : W) (t0 : T) (y0 : Y) dt (d : drv T Y S C W) (Inv : S -> Prop) (P : Y -> Prop) :
  (forall s c s' r, Inv s -> step s dt c = Ok (s', r) -> P (sr_y r) /\ Inv (accept s' r)) ->
  Inv s -> P y0 -> integrate_ormatex step accept cb1 cb2 s w y0 t0 dt n = Ok d ->
  (forall y, List.In y (d_ys d) -> P y) /\ Inv (d_int d).
Proof.
move=> hs i0 p0; rewrite /integrate_ormatex; elim: n d => [|n IH] d.
  by case=> <- /=; split=> // y [<-|].
rewrite drv_loop_snoc => hb; have [a [e hit]] := rbindP hb; have [h1 h2] := IH _ e.
have [w1 [kw [s' [r [_ [h3 [_ [-> [-> _]]]]]]]]] := drv_iter_ok hit.
by have [h4 h5] := hs _ _ _ _ h2 h3; split=> // y /List.in_app_iff [/h1|[<-|]].
Qed.

Section Annih.
Variable F : rcfType.
Variable n : nat.
Variable w : 'rV[F]_n.

Lemma kiops_annih expm expk (L : linop F n) dt vb m iom x :
  (forall v, w *m lo_mv L v = 0) -> (forall i, w *m nth 0 vb i = 0) ->
  kiops_fixedsteps expm expk L dt vb m iom = Ok x -> w *m x = 0.
Proof.
move=> hL hv; rewrite /kiops_fixedsteps; case: ifP => _; last by case=> <-; rewrite mulmx0.
case: ifP => // _; rbs; case=> <-; rewrite -scalemxAr; set u := a in e *.
suff : row_mx w 0 *m u = 0.
  by rewrite -[u]vsubmxK mul_row_col mul0mx addr0 col_mxKu => ->; rewrite scaler0.
apply: (phi_linop_annih _ _ e) => [v|] /=.
  rewrite mul_row_col mul0mx addr0 mulmxDr -scalemxAr hL scaler0 add0r mulmxA -scalemxAr.
  suff -> : w *m kiops_B (size vb).-1 vb = 0 by rewrite scaler0 mul0mx.
  apply/matrixP => i j; rewrite [RHS]mxE.
  have /matrixP /(_ i 0) := hv ((size vb).-1 - j)%N; rewrite [RHS]mxE => ee; rewrite -[RHS]ee !mxE.
  by apply: eq_bigr => l _; rewrite !mxE.
by rewrite mul_row_col mul0mx addr0 -scalemxAr hv scaler0.
Qed.

(* the dense kernel returns polynomials in its argument *)
Lemma sq_all_annih (z : 'M[F]_n) k N phis : w *m z = 0 -> f_phi_k_sq_all_at z k N = Some phis ->
  forall j, exists c, w *m nth 0 phis j = c *: w.
Proof.
move=> wz; rewrite /f_phi_k_sq_all_at; case: (leqP k.+1 4) => k4; last first.
  by rewrite /f_phi_k_poly_all leqNgt k4.
rewrite f_phi_k_poly_allE //; 
set l := map _ _; have sl : size l = k.+1 by rewrite size_map size_iota.
move=> h j; have {h} <- : iter N (sq_step k) l = phis by case: h; move: j.
move: j; move: @l sl; set zs := _ *: z => l sl; have wzs : w *m zs = 0 by rewrite -scalemxAr wz scaler0.
have wps j d : w *m phi_psum j d.+1 zs = ifact F j *: w.
  rewrite phi_psum_rec mulmxDr mulmxA wzs mul0mx addr0 -scalemxAr mulmx1 //.
have nl j : exists c, w *m nth 0 l j = c *: w.
  case: (ltnP j k.+1) => jk; last by exists 0; rewrite nth_default ?sl // mulmx0 scale0r.
  by exists (ifact F j); rewrite (nth_map 0%N) ?size_iota // nth_iota // add0n wps.
suff H M : size (iter M (sq_step k) l) = k.+1 /\ forall j, exists c, w *m nth 0 (iter M (sq_step k) l) j = c *: w.
  by have [] := H N.
elim: M => [|M [s1 IH]] //.
rewrite iterS sq_step_size //; split=> // j.
case: (leqP j k) => jk; last first.
  by exists 0; rewrite nth_default ?mulmx0 ?scale0r // sq_step_size.
rewrite sq_step_nth // /sq_spec; set P := iter _ _ _ in IH *.
have [c0 e0] := IH 0%N; have [cj ej] := IH j.
case: eqP => _; first by exists (c0 * c0); rewrite mulmxA e0 -scalemxAl e0 scalerA.
have [cs es] : exists c, w *m (\sum_(1 <= l < j.+1) ifact F (j - l) *: nth 0 P l) = c *: w.
  rewrite mulmx_sumr; apply: (big_ind (fun x => exists c : F, x = c *: w)) => [|x y [a ->] [b ->]|i _].
  - by exists 0; rewrite scale0r.
  - by exists (a + b); rewrite scalerDl.
  - by have [c e] := IH i; exists (ifact F (j - i) * c); rewrite -scalemxAr e scalerA.
by exists ((2%:R ^+ j)^-1 * (c0 * cj + cs)); rewrite -scalemxAr mulmxDr mulmxA e0 -scalemxAl ej es scalerA -scalerDl scalerA.
Qed.

(* partial fractions *)
Lemma cmx_mul a b c (X : 'M[F]_(a, b)) (Y : 'M[F]_(b, c)) : cmx (X *m Y) = cmx X *m cmx Y.
Proof. exact: map_mxM. Qed.
Lemma inv_annih (z : 'M[F]_n) p : w *m z = 0 -> exists c, cmx w *m invmx (cmx z - p%:M) = c *: cmx w.
Proof.
move=> wz; set M := _ - _.
have wM : cmx w *m M = (- p) *: cmx w.
  by rewrite mulmxBr -cmx_mul wz /cmx map_mx0 sub0r mul_mx_scalar scaleNr.
case: (boolP (M \in unitmx)) => [u|nu]; last by exists (- p); rewrite /invmx (negbTE nu).
case: (eqVneq p 0) => [p0|p0].
  exists 0; rewrite -[cmx w]mulmx1 -(mulmxV u) mulmxA wM p0 oppr0 scale0r !mul0mx.
  by rewrite scaler0.
exists (- p^-1); apply: (can_inj (mulmxK u)); rewrite mulmxKV //.
by rewrite -scalemxAl wM scalerA mulrNN mulVf // scale1r.
Qed.
Lemma remx_mul (X : 'M[F[i]]_(n, 1)) : w *m remx X = remx (cmx w *m X).
Proof.
apply/matrixP => i j; rewrite !mxE; rewrite raddf_sum; apply: eq_bigr => l _; rewrite !mxE.
by case: (X l j) => a b /=; rewrite mul0r subr0.
Qed.
Lemma pfd_annih tab (z : 'M[F]_n) (v : 'cV[F]_n) k : w *m z = 0 -> w *m v = 0 ->
  w *m f_phi_k_pfd tab z v k = 0.
Proof.
move=> wz wv; case: tab => pcs c0 /=.
set x0 := if _ then _ else _.
have : w *m x0 = 0 by rewrite /x0; case: ifP => _; rewrite ?add0r -?scalemxAr ?wv ?scaler0 ?mulmx0.
elim: pcs x0 => //= pc pcs IH x0 h0; apply: IH; rewrite mulmxDr h0 add0r.
rewrite /pfd_term; case: pc => p c; rewrite remx_mul -scalemxAr mulmxA.
have [c' ->] := inv_annih p wz.
by rewrite -scalemxAl -cmx_mul wv /cmx /remx map_mx0 !scaler0 map_mx0.
Qed.
End Annih.

Section Steps.
Variable F : rcfType.
Variable KW : Type.
Variable K : kernels F.
Variable n : nat.
Notation vec := 'cV[F]_n.
Notation H := (hist F vec).
Variable w : 'rV[F]_n.

(* the dense evaluators map vectors annihilated by w to such vectors, when w annihilates J *)
Definition dense_kernels_keep : Prop :=
  (forall (z : 'M[F]_n) k phis, w *m z = 0 -> k_sqall K z k = Some phis ->
     forall j (v : vec), w *m v = 0 -> w *m (nth 0 phis j *m v) = 0) /\
  (forall (z : 'M[F]_n) d v k, w *m z = 0 -> w *m v = 0 -> w *m k_rs K z d v k = 0).

Lemma acts_annih (L : linop F n) (A : 'M[F]_n) : acts_as L A -> (forall v, w *m lo_mv L v = 0) -> w *m A = 0.
Proof.
move=> hA h; apply/matrixP => i j; rewrite [RHS]mxE.
have := h (delta_mx j 0); rewrite hA mulmxA -colE => /matrixP /(_ i 0); by rewrite [LHS]mxE [RHS]mxE.
Qed.

Section RB.
Variable sys : odesys F KW n.
Hypothesis hf : rhs_invariant sys w.
Hypothesis hJ : jac_invariant sys w.
Hypothesis hd : forall kw t u, dense_ok (jl_op (os_fjac sys kw t u)).
Hypothesis hk : dense_kernels_keep.

Lemma inv_remf h tr yr kw t u v x : w *m v = 0 ->
  remf sys h tr yr (jl_frhs (os_fjac sys kw t u)) (jl_op (os_fjac sys kw t u)) v = Ok x -> w *m x = 0.
Proof.
have [j1 [j2 j3]] := hJ kw t u.
move=> wv; rewrite /remf; rbs; case=> <-; rewrite !mulmxBr hf j3 j1 -scalemxAr wv.
by rewrite scaler0 !subr0.
Qed.
Lemma inv_phi2v o kw t u dt c p : phi2v_nonauto K o (os_fjac sys kw t u) dt c = Ok p ->
  w *m p.1 = 0 /\ w *m p.2 = 0.
Proof.
have [j1 [j2 j3]] := hJ kw t u.
rewrite /phi2v_nonauto; case: ifP => _; last by case=> <- /=; rewrite mulmx0.
case: ifP => _; last by case=> <- /=; rewrite mulmx0.
rbs; case=> <- /=; split=> //; rewrite -scalemxAr (phi_linop_annih _ _ e) ?scaler0 //.
Qed.
Lemma inv_phil (o : rbopts F) kw t u dt k v x : w *m v = 0 ->
  phi_linop (k_expm K) (k_expk K) (lo_mv (jl_op (os_fjac sys kw t u))) dt v k (o_kdim o) (o_iom o) = Ok x ->
  w *m x = 0.
Proof. by have [j1 _] := hJ kw t u; move=> wv e; rewrite (phi_linop_annih _ _ e). Qed.

Lemma inv_rb_run o r h t y dt kw s : rb_rosenbrock r -> current h t y ->
  rb_run K o r sys h dt kw = Ok s -> w *m sr_y s = w *m y.
Proof.
move=> hr hc; have et := current_t hc.
have stage c : forall p, p4_stage K o sys h dt (os_fjac sys (Some kw) t y) y
    (jl_frhs (os_fjac sys (Some kw) t y)) c = Ok p -> w *m p.1 = w *m y /\ w *m p.2 = 0.
  have [j1 [j2 j3]] := hJ (Some kw) t y.
  rewrite /p4_stage => p; rbs; case=> <- /=; have [p1 p2] := inv_phi2v e.
  rewrite (inv_remf p2 e1); split=> //.
  by rewrite 2!mulmxDr p1 -scalemxAr (inv_phil j3 e0) scaler0 !addr0.
case: r hr => // _; rewrite /rb_run.
- rewrite /step_exprb2 (current_y hc) et [rbind _ _]/=; rbs; case=> <- /=.
  have [p1 _] := inv_phi2v e; have [_ [_ j3]] := hJ (Some kw) t y.
  by rewrite 2!mulmxDr p1 (inv_phil _ e0) ?addr0 // -scalemxAr j3 scaler0.
- rewrite /step_exprb3 (current_y hc) et [rbind (Ok _) _]/=; rbs; case=> <- /=.
  have [p1 p2] := inv_phi2v e; have [_ [_ j3]] := hJ (Some kw) t y.
  have r0 := inv_remf p2 e1.
  by rewrite 3!mulmxDr p1 -!scalemxAr (inv_phil j3 e0) (inv_phil r0 e2) !scaler0 !addr0.
- rewrite /step_pexprb4 (current_y hc) et [rbind (Ok _) _]/=; rbs; rewrite /p4_final; rbs; case=> <- /=.
  have [_ p2] := stage _ _ e; have [q1 q2] := stage _ _ e0; have [j1 _] := hJ (Some kw) t y.
  rewrite mulmxDr q1 (kiops_annih j1 _ e1) ?addr0 //.
  have z b1 b2 : w *m (dt *: (b1 *: a.2 - b2 *: a0.2)) = 0 /\ w *m (dt *: (b1 *: a0.2 - b2 *: a.2)) = 0.
    by rewrite -!scalemxAr !mulmxBr -!scalemxAr p2 q2 !scaler0 subr0 scaler0.
  case=> [|[|[|[|[|i]]]]]; rewrite /= ?nth_nil ?mulmx0 //; first by case: (z 16%:R 2%:R).
  by case: (z 12%:R 48%:R).
- rewrite /step_epi2 (current_y hc) et [rbind (Ok _) _]/=; rbs; case=> <- /=; have [j1 [j2 j3]] := hJ (Some kw) t y.
  rewrite mulmxDr (kiops_annih j1 _ e) ?addr0 //.
  by case=> [|[|[|i]]]; rewrite /= ?nth_nil ?mulmx0 // -scalemxAr ?j2 ?j3 scaler0.
- rewrite /step_epi3 (current_y hc) et [rbind (Ok _) _]/=; rbs; case=> <- /=; have [j1 [j2 j3]] := hJ (Some kw) t y.
  have r0 := inv_remf j2 e1.
  rewrite mulmxDr (kiops_annih j1 _ e2) ?addr0 //.
  by case=> [|[|[|i]]]; rewrite /= ?nth_nil ?mulmx0 // ?mulmxDr -?scalemxAr ?j2 ?j3 ?r0 !scaler0 ?addr0.
- rewrite /step_exprb2_dense (current_y hc) et [rbind (Ok _) _]/=; rbs; have [j1 [j2 j3]] := hJ None t y.
  have wJ : w *m (dt *: a) = 0 by rewrite -scalemxAr (acts_annih (hd e) j1) scaler0.
  case E: (k_sqall K (dt *: a) 2) => [phis|] // [<-] /=; have [k1 _] := hk.
  by rewrite mulmxDr -scalemxAr mulmxDr -scalemxAr !(k1 _ _ _ wJ E) // scaler0 addr0 scaler0 addr0.
- rewrite /step_exprb2_pfd (current_y hc) et [rbind (Ok _) _]/=; rbs; have [j1 [j2 j3]] := hJ (Some kw) t y.
  have wJ : w *m (dt *: a) = 0 by rewrite -scalemxAr (acts_annih (hd e) j1) scaler0.
  case=> <- /=; rewrite mulmxDr -scalemxAr mulmxDr -scalemxAr pfd_annih // add0r.
  by case: ifP; rewrite ?pfd_annih ?mulmx0 ?scaler0 ?addr0 // scaler0 addr0.
- rewrite /step_exprb2_pfd_rs (current_y hc) et [rbind (Ok _) _]/=; rbs; have [j1 [j2 j3]] := hJ None t y.
  have wJ := acts_annih (hd e) j1; have [_ k1] := hk.
  case=> <- /=; rewrite mulmxDr -scalemxAr mulmxDr -scalemxAr k1 // add0r.
  by case: ifP; rewrite ?k1 ?mulmx0 ?scaler0 ?addr0 // scaler0 addr0.
Qed.

Lemma inv_rk4 h t y dt s : current h t y -> step_rk4 sys h dt = Ok s -> w *m sr_y s = w *m y.
Proof.
move=> hc; rewrite /step_rk4 (current_y hc) [rbind (Ok _) _]/= => -[<-] /=.
by rewrite mulmxDr -!scalemxAr !mulmxDr -!scalemxAr !hf !scaler0 !addr0 !scaler0 addr0.
Qed.
End RB.

Section Split.
Variables (kd iom : nat).
Variable sys : splitsys F KW n.
Hypothesis hf : rhs_invariant (ss_sys sys) w.
Hypothesis hL : forall t u v, w *m lo_mv (ss_fl sys t u) v = 0.
Hypothesis hd : forall t u, dense_ok (ss_fl sys t u).
Hypothesis hk : dense_kernels_keep.

(* caches made by the object itself *)
Definition cache_keeps (ob : spobj F n) : Prop := forall lop d, sp_cache ob = Some (lop, d) ->
  (forall v, w *m lo_mv lop v = 0) /\ (forall key m (v : vec), dict_get d key = Ok m -> w *m v = 0 -> w *m (m *m v) = 0).

Lemma fill_keeps dt (L : 'M[F]_n) cks d d' : w *m L = 0 ->
  (forall key m (v : vec), dict_get d key = Ok m -> w *m v = 0 -> w *m (m *m v) = 0) ->
  fill_dict K dt L cks d = Ok d' ->
  forall key m (v : vec), dict_get d' key = Ok m -> w *m v = 0 -> w *m (m *m v) = 0.
Proof.
move=> wL; elim: cks d => [|[c ks] cks IH] d h0 /=; first by case=> <-.
case E: (k_sqall K ((dt * c) *: L) (foldr maxn 0%N ks)) => [phis|] //; apply: IH.
have wz : w *m ((dt * c) *: L) = 0 by rewrite -scalemxAr wL scaler0.
have [k1 _] := hk; have {k1} k1 := k1 _ _ _ wz E; move: {E} ks d h0.
elim=> [|k ks IH] d h0 //=; apply: IH => key m v; rewrite /dict_get /dict_set /=.
by case: ifP => [_ [<-]|_]; [apply: k1 | apply: h0].
Qed.

Lemma update_keeps ob dt cks oc : cache_keeps ob -> update_dense_phiLs K sys ob dt cks = Ok oc ->
  cache_keeps oc.1 /\ (forall v, w *m lo_mv oc.2.1 v = 0) /\
  (forall key m (v : vec), dict_get oc.2.2 key = Ok m -> w *m v = 0 -> w *m (m *m v) = 0).
Proof.
move=> hc; rewrite /update_dense_phiLs; case: ifP => _.
  case E: (sp_cache ob) => [[lop d]|] // [<-] /=; have [h1 h2] := hc _ _ E; by [].
rbs; case=> <- /=.
have wL := acts_annih (hd e0) (hL _ _).
have hdict : forall key m (v : vec), dict_get a1 key = Ok m -> w *m v = 0 -> w *m (m *m v) = 0.
  by apply: (fill_keeps wL _ e1).
by split=> // lop d [<- <-].
Qed.

Lemma inv_sp_remf h tr yr t u x t' y' :
  sp_remf sys h tr yr (os_frhs (ss_sys sys) None t' y') (ss_fl sys t u) = Ok x -> w *m x = 0.
Proof. by rewrite /sp_remf; rbs; case=> <-; rewrite !mulmxBr !hf hL !subr0. Qed.
Lemma inv_sp_phil t u dt k v x : w *m v = 0 ->
  phi_linop (k_expm K) (k_expk K) (lo_mv (ss_fl sys t u)) dt v k kd iom = Ok x -> w *m x = 0.
Proof. by move=> wv e; rewrite (phi_linop_annih _ _ e). Qed.

Lemma inv_sp_run r ob t y dt ob' s : current (sp_hist ob) t y -> cache_keeps ob ->
  sp_run K kd iom r sys ob dt = Ok (ob', s) -> w *m sr_y s = w *m y /\ cache_keeps ob'.
Proof.
move=> hc hcache; have et := current_t hc.
have dense cks f : (forall lop d x, (forall v, w *m lo_mv lop v = 0) ->
    (forall key m (v : vec), dict_get d key = Ok m -> w *m v = 0 -> w *m (m *m v) = 0) ->
    f t y lop d = Ok x -> w *m x = w *m y) ->
  sp_dense K sys ob dt cks f = Ok (ob', s) -> w *m sr_y s = w *m y /\ cache_keeps ob'.
  move=> hfk; rewrite /sp_dense (current_y hc) et [rbind (Ok _) _]/=; rbs; case=> <- <- /=.
  by have [h1 [h2 h3]] := update_keeps hcache e; split=> //; apply: hfk e0.
case: r => //; rewrite /sp_run.
- rbs; case=> <- <-; split=> //; move: e; rewrite /step_exp1 (current_y hc) et [rbind (Ok _) _]/=; rbs; case=> <- /=.
  by rewrite mulmxDr (inv_sp_phil _ e) ?addr0 // -scalemxAr hf scaler0.
- rbs; case=> <- <-; split=> //; move: e; rewrite /step_exp2 (current_y hc) et [rbind (Ok _) _]/=; rbs; case=> <- /=.
  have r2 := inv_sp_remf e0.
  rewrite 2!mulmxDr (inv_sp_phil _ e); last by rewrite -scalemxAr hf scaler0.
  by rewrite (inv_sp_phil _ e1) ?addr0 // -!scalemxAr r2 !scaler0.
- rbs; case=> <- <-; split=> //; move: e; rewrite /step_exp3 (current_y hc) et [rbind (Ok _) _]/=; rbs; case=> <- /=.
  have r3 := inv_sp_remf e2.
  rewrite 2!mulmxDr (inv_sp_phil _ e3); last by rewrite -scalemxAr hf scaler0.
  by rewrite (inv_sp_phil _ e4) ?addr0 // -!scalemxAr r3 !scaler0.
- apply: dense => lop d x h1 h2; rewrite /exp1_jit; rbs; case=> <-.
  by rewrite mulmxDr -scalemxAr (h2 _ _ _ e) // scaler0 addr0.
- apply: dense => lop d x h1 h2; rewrite /exp2_jit; rbs; case=> <-.
  rewrite mulmxDr -scalemxAr mulmxDr -scalemxAr (h2 _ _ _ e0) // (h2 _ _ _ e1) ?scaler0 ?addr0 ?scaler0 ?addr0 //.
  by rewrite !mulmxBr !hf h1 !subr0.
- apply: dense => lop d x h1 h2; rewrite /exp3_jit; rbs; case=> <-.
  rewrite mulmxDr -scalemxAr mulmxDr -scalemxAr (h2 _ _ _ e2) // (h2 _ _ _ e3) ?scaler0 ?addr0 ?scaler0 ?addr0 //.
  by rewrite !mulmxBr !hf h1 !subr0.
Qed.
End Split.
End Steps.
