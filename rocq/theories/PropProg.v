(* PropProg.v : property theorems C38-C41 and C50-C54 (utility and example modules). *)
From Coq Require Import Reals Lra ZArith String.
From mathcomp Require Import all_ssreflect all_algebra.
From mathcomp Require Import ring.
From Verif Require Import Rstruct ModelHist SpecHist MxBase MxSeries SpecPhi ModelOps SpecOps ModelPhi ModelInt SpecInt.
From Verif Require Import ModelProg SpecProg ProofsProg ProofsProg2 ProofsProg3 PropInt.
Set Implicit Arguments.
Unset Strict Implicit.
Unset Printing Implicit Defensive.
Import Order.TTheory GRing.Theory Num.Theory.
Local Open Scope ring_scope.

(* ------------------------------------------------------------------ *)
(* C38: entry by entry, the matrix is "rate of column species into row species, minus the total
   rate of the column species on the diagonal" *)
Theorem C38_entries (F : rcfType) (S : eqType) (none x0 : S) keymap (dl : decay_lib F S) M :
  uniq keymap -> gen_bateman_matrix none keymap dl = Ok M ->
  forall r i, M r i = rate_into none dl (nth x0 keymap i) (nth x0 keymap r)
                      - (if r == i then rate_total dl (nth x0 keymap i) else 0).
Proof. by move=> hu hg; have [_] := gen_entries x0 hu hg. Qed.
(* column sums: minus the rate of decays whose daughter is untracked *)
Theorem C38_column_sums (F : rcfType) (S : eqType) (none x0 : S) keymap (dl : decay_lib F S) M :
  uniq keymap -> gen_bateman_matrix none keymap dl = Ok M ->
  forall i, \sum_r M r i = - rate_untracked none dl (nth x0 keymap i).
Proof. exact: colsum. Qed.
(* sign pattern *)
Theorem C38_metzler (F : rcfType) (S : eqType) (none : S) keymap (dl : decay_lib F S) M :
  uniq keymap -> gen_bateman_matrix none keymap dl = Ok M -> nonneg_rates dl ->
  (forall r i, r != i -> 0 <= M r i) /\ (forall i, M i i <= 0).
Proof. by move=> hu hg hn; split=> [r i|i]; [have [h _] := metzler hu hg hn r i | have [_ h] := metzler hu hg hn i i]. Qed.
(* the call succeeds exactly on closed libraries, and raises KeyError/IndexError otherwise *)
Theorem C38_total (F : rcfType) (S : eqType) (none : S) keymap (dl : decay_lib F S) :
  uniq keymap ->
  ((exists M, gen_bateman_matrix none keymap dl = Ok M) <-> closed_lib none keymap dl) /\
  (~ closed_lib none keymap dl -> exists e, gen_bateman_matrix none keymap dl = Raise e /\
     (e = KeyErrorExn \/ e = IndexErrorExn)).
Proof.
move=> hu; split; last exact: gen_raise.
split; last exact: gen_ok.
case=> M hM; have [x0|] : keymap = [::] \/ exists x0, x0 \in keymap.
- by case: (keymap) => [|x0 l]; [left|right; exists x0; rewrite mem_head].
- by rewrite x0.
- by case=> x0 _; have [] := gen_entries x0 hu hM.
Qed.
(* gen_transmute_matrix is minus phi times the same matrix: with nonnegative cross sections and
   flux the sign pattern is the opposite one (losses positive on the diagonal) *)
Theorem C38_transmute (F : rcfType) (S : eqType) (none : S) keymap (dl : decay_lib F S) phi T :
  gen_transmute_matrix none keymap dl phi = Ok T <->
  exists M, gen_bateman_matrix none keymap dl = Ok M /\ T = - phi *: M.
Proof.
rewrite /gen_transmute_matrix; case: (gen_bateman_matrix _ _ _) => [M|e] /=; split.
- by case=> <-; exists M.
- by case=> M' [[->] ->].
- by [].
- by case=> M' [].
Qed.
Theorem C38_transmute_sign (F : rcfType) (S : eqType) (none : S) keymap (dl : decay_lib F S) phi T :
  uniq keymap -> nonneg_rates dl -> 0 <= phi -> gen_transmute_matrix none keymap dl phi = Ok T ->
  (forall r i, r != i -> T r i <= 0) /\ (forall i, 0 <= T i i).
Proof.
move=> hu hn p0 /C38_transmute [M [hM ->]]; have [h1 h2] := C38_metzler hu hM hn.
split=> [r i hri|i]; rewrite mxE mulNr; first by rewrite oppr_le0 mulr_ge0 ?h1.
by rewrite oppr_ge0 mulr_ge0_le0.
Qed.
(* an instance: two species, species 1 decays into 2 (rate 3) and into untracked daughters (rate
   1), species 2 into untracked ones (rate 2) *)
Example C38_example (F : rcfType) :
  let dl : decay_lib F nat_eqType := [:: (1%N, Branches [:: (2%N, 3%:R); (0%N, 1)]); (2%N, Single 0%N 2%:R)] in
  [/\ closed_lib 0%N [:: 1%N; 2%N] dl, nonneg_rates dl &
      exists M, gen_bateman_matrix 0%N [:: 1%N; 2%N] dl = Ok M].
Proof.
move=> dl; have hc : closed_lib 0%N [:: 1%N; 2%N] dl.
  move=> k; rewrite !inE => /orP [/eqP ->|/eqP ->]; split=> // b; rewrite !inE /=.
    by case/orP => /eqP ->; [right|left].
  by move=> /eqP ->; left.
split=> //; last exact: gen_ok.
move=> k b; rewrite /branches /=; case: ifP => _; first by rewrite !inE => /orP [/eqP ->|/eqP ->]; rewrite /= ?ler0n ?ler01.
by case: ifP => _; rewrite // inE => /eqP ->; rewrite /= ler0n.
Qed.

(* C53: the exact solution exp(tM) y0 of the decay equations has nonnegative entries for every
   t >= 0 and nonnegative y0; with no untracked daughters its sum is constant *)
Theorem C53_decay_nonnegative (S : eqType) (none : S) keymap (dl : decay_lib R_rcfType S) (M : 'M[R]_(size keymap)) t P (y0 : 'cV[R]_(size keymap)) :
  uniq keymap -> nonneg_rates dl -> gen_bateman_matrix none keymap dl = Ok M ->
  0 <= t -> is_expm (t *: M) P -> (forall i, 0 <= y0 i 0) -> forall i, 0 <= (P *m y0) i 0.
Proof.
move=> hu hn hM t0 /is_phiP -> hy i; have [h1 _] := C38_metzler hu hM hn.
rewrite mxE sumr_ge0 // => j _; rewrite mulr_ge0 //; apply: expmx_metzler => a b hab.
by rewrite mxE mulr_ge0 ?h1.
Qed.
Theorem C53_decay_total (S : eqType) (none x0 : S) keymap (dl : decay_lib R_rcfType S) (M : 'M[R]_(size keymap)) t P (y0 : 'cV[R]_(size keymap)) :
  uniq keymap -> gen_bateman_matrix none keymap dl = Ok M ->
  (forall k, k \in keymap -> rate_untracked none dl k = 0) ->
  is_expm (t *: M) P -> \sum_i (P *m y0) i 0 = \sum_i y0 i 0.
Proof.
move=> hu hM h0 /is_phiP ->; pose w : 'rV[R]_(size keymap) := const_mx 1.
have hw : w *m (t *: M) = 0.
  rewrite -scalemxAr (_ : w *m M = 0) ?scaler0 //; apply/matrixP => i j; rewrite !mxE.
  under eq_bigr do rewrite mxE mul1r.
  by rewrite (C38_column_sums x0 hu hM j) h0 ?oppr0 // mem_nth.
have e (v : 'cV[R]_(size keymap)) : \sum_i v i 0 = (w *m v) 0 0.
  by rewrite mxE; apply: eq_bigr => i _; rewrite mxE mul1r.
rewrite !e mulmxA; congr (_ 0 0); congr (_ *m _).
by rewrite phi_rec ifact0 scale1r mulmxDr mulmx1 mulmxA hw mul0mx addr0.
Qed.

(* ------------------------------------------------------------------ *)
(* C50: for a decay chain with pairwise different rates the analytic formula is the solution of
   y' = T y with y(0) = n0 e_0 *)
Theorem C50_analytic_bateman ns (T : 'M[R]_ns) (lam : nat -> R) n0 :
  chain_matrix T lam -> (forall i j, (i < ns)%N -> (j < ns)%N -> lam i = lam j -> i = j) ->
  exists y : R -> 'cV[R]_ns,
    (forall t, analytic_bateman exp T n0 t = Ok (y t)) /\
    (forall t, vderiv y t (T *m y t)) /\
    (forall i, y 0 i 0 = if i == 0%N :> nat then n0 else 0).
Proof.
move=> hT hd; exists (fun t => \col_i an_species exp T n0 i.+1 t); split; [|split].
- by move=> t; rewrite /analytic_bateman (an_assert_ok hT).
- move=> t i; set y := \col_ _ _.
  have -> : (fun s => (\col_j an_species exp T n0 j.+1 s) i ord0) = spg exp lam n0 i.
    by apply: FunctionalExtensionality.functional_extensionality => s; rewrite mxE (an_speciesE hT).
  apply: (sp_deriv hd) => //; rewrite mxE.
  have ey j : y j ord0 = spg exp lam n0 j t by rewrite /y mxE (an_speciesE hT).
  rewrite (bigD1 i) //= hT eqxx ey; congr (_ + _).
  case: i => [[|k] hk] /=.
    rewrite big1 // => j hj; rewrite hT eq_sym (negbTE hj) /= mul0r //.
  have hk' : (k < ns)%N by apply: ltnW.
  rewrite (bigD1 (Ordinal hk')) /=; last by rewrite -val_eqE /= (ltn_eqF (ltnSn k)).
  rewrite hT -val_eqE /= (gtn_eqF (ltnSn k)) eqxx mxE (an_speciesE hT) // big1 ?addr0 // => j /andP [h1 h2].
  rewrite hT eq_sym (negbTE h1) eqSS eq_sym -[k]/(val (Ordinal hk')) val_eqE (negbTE h2) mul0r //.
- by move=> i; rewrite mxE (an_speciesE hT) // (sp_init hd).
Qed.
(* the matrix gen_bateman_matrix builds for a linear chain is such a chain matrix *)
Example C50_example : chain_matrix (\matrix_(i < 2, j < 2)
   (if i == j then - (if j == 0%N :> nat then 1 else 2%:R) else if i == j.+1 :> nat then 1 else 0) : 'M[R]_2)
   (fun i => if i == 0%N then 1 else 2%:R)%R.
Proof.
move=> i j; rewrite mxE; case: eqP => // _; case: eqP => // e.
by case: j e => [[|[|//]] hj] //= e; move: (ltn_ord i); rewrite e.
Qed.

(* ------------------------------------------------------------------ *)
(* C39 *)
Theorem C39_lotka_volterra (F : rcfType) KW (alpha beta delta gamma : F) :
  exact_jacobian (ss_sys (lv_sys KW alpha beta delta gamma)).
Proof. exact: lv_exact. Qed.
Theorem C39_lotka_volterra_nonauto KW (alpha beta delta gamma : R) :
  exact_jacobian (ss_sys (lvn_sys KW (alpha : R_rcfType) beta delta gamma f_pred_hunt f_pred_hunt_dt)).
Proof. by apply: lvn_exact => t; apply: timederiv_std; apply: pred_hunt_deriv. Qed.
(* the coexistence point is an equilibrium, so every run started there stays there (C30) *)
Theorem C39_lv_equilibrium (F : rcfType) KW (alpha beta delta gamma : F) :
  beta != 0 -> delta != 0 -> equilibrium (ss_sys (lv_sys KW alpha beta delta gamma)) (vec2 (gamma / delta) (alpha / beta)).
Proof.
move=> b0 d0.
have z kw t : lv_frhs alpha beta delta gamma (kw : option KW) t (vec2 (gamma / delta) (alpha / beta)) = 0.
  apply: col2P; rewrite /lv_frhs !(x0_vec2, x1_vec2) /x0 /x1 mxE.
    by rewrite [beta * _]mulrC -mulrA [beta * _]mulrC mulfVK // mulrC subrr.
  by rewrite [delta * _]mulrC mulfVK // subrr.
split=> // kw t /=; split=> //; split=> //.
by move=> a u v; rewrite mulmxDr -scalemxAr.
Qed.

(* ------------------------------------------------------------------ *)
(* C40 *)
Theorem C40_flatten_stack (T : Type) (d : T) u n :
  ((0 < n)%N /\ (n %| size u)%N -> exists U, stack_u d u n = Ok U /\ cols U = n /\
     (rows U * n)%N = size u /\ flatten_u U = u /\
     (* column j holds the j-th block of consecutive entries *)
     forall i j, at2 U i j = nth d u (j * rows U + i)) /\
  (~ ((0 < n)%N /\ (n %| size u)%N) -> exists e, stack_u d u n = Raise e).
Proof.
split; last by move=> h; rewrite /stack_u; case: ifP => [/andP h'|_]; [case: h|eexists].
move=> [hn hd]; case e: (stack_u d u n) => [U|ex]; last by move: e; rewrite /stack_u hn hd.
have [h1 h2] := flatten_stack e; exists U.
move: e h1 h2; rewrite /stack_u hn hd => -[<-] /= h1 h2.
by do 4!split=> //; move=> i j /=; rewrite addnC.
Qed.
Theorem C40_stack_flatten (T : Type) (d : T) (U : array2 T) : (0 < cols U)%N ->
  exists V, stack_u d (flatten_u U) (cols U) = Ok V /\ rows V = rows U /\ cols V = cols U /\
    forall i j, (i < rows U)%N -> (j < cols U)%N -> at2 V i j = at2 U i j.
Proof. exact: stack_flatten. Qed.

(* ------------------------------------------------------------------ *)
(* C41: torus_distance is the distance to the nearest integer translate *)
Delimit Scope R_scope with coqR.
Delimit Scope Z_scope with CZ.
Theorem C41_torus_distance x xp :
  (0 <= torus_distance x xp <= / 2)%coqR /\
  (forall k : Z, (torus_distance x xp <= Rabs (x - xp + IZR k))%coqR) /\
  (exists k : Z, torus_distance x xp = Rabs (x - xp + IZR k)).
Proof. rewrite torusE; exact: td_dist. Qed.

Theorem C41_torus_corollaries x xp :
  torus_distance x xp = torus_distance xp x /\
  (forall k : Z, torus_distance (x + IZR k) xp = torus_distance x xp) /\
  (torus_distance x xp = 0%coqR <-> exists k : Z, x = (xp + IZR k)%coqR).
Proof.
have tri a b : (exists k, torus_distance a b = Rabs (x - xp + IZR k)) ->
  (forall k, (torus_distance a b <= Rabs (x - xp + IZR k))%coqR) -> torus_distance a b = torus_distance x xp.
  move=> [k e] h; have [_ [h1 [k1 e1]]] := C41_torus_distance x xp.
  by apply: Rle_antisym; [rewrite e1|rewrite e].
split; [|split].
- apply/esym/tri; have [_ [h1 [k1 e1]]] := C41_torus_distance xp x.
    by exists (- k1)%CZ; rewrite e1 opp_IZR -Rabs_Ropp; congr Rabs; lra.
  move=> k; have := h1 (- k)%CZ; rewrite opp_IZR -Rabs_Ropp.
  by rewrite (_ : - (xp - x + - IZR k) = x - xp + IZR k)%coqR //; lra.
- move=> j; apply: tri; have [_ [h1 [k1 e1]]] := C41_torus_distance (x + IZR j)%coqR xp.
    by exists (j + k1)%CZ; rewrite e1 plus_IZR; congr Rabs; lra.
  move=> k; have := h1 (k - j)%CZ; rewrite minus_IZR.
  by rewrite (_ : (x + IZR j - xp + (IZR k - IZR j)) = x - xp + IZR k)%coqR //; lra.
- have [[h0 _] [h1 [k1 e1]]] := C41_torus_distance x xp; split.
    rewrite e1 => h; exists (- k1)%CZ; rewrite opp_IZR.
    have [//|hn] := Req_dec (x - xp + IZR k1) 0; first by lra.
    by have := Rabs_no_R0 _ hn.
  case=> k e; apply: Rle_antisym => //; have := h1 (- k)%CZ.
  by rewrite opp_IZR e (_ : xp + IZR k - xp + - IZR k = 0)%coqR ?Rabs_R0 //; lra.
Qed.

(* ------------------------------------------------------------------ *)
(* C51: the k-point rule (k = 2,3,4,5) integrates every polynomial of degree at most 2k-3 exactly
   over [0,1]; the first two points are the ends of the element; weights are positive; any other
   number of points raises KeyError *)
Theorem C51_gll_quadrature (F : rcfType) k :
  ((2 <= k <= 5)%N -> exists X W : seq F,
     [/\ GLL_quad F k = Ok (X, W), size X = k /\ size W = k, nth 0 X 0 = 0 /\ nth 0 X 1 = 1,
         (forall w, w \in W -> 0 < w) &
         forall P p : {poly F}, P^`() = p -> (size p <= 2 * k - 2)%N ->
           \sum_(i < k) nth 0 W i * p.[nth 0 X i] = P.[1] - P.[0]]) /\
  (~~ (2 <= k <= 5)%N -> GLL_quad F k = Raise KeyErrorExn).
Proof.
split; last by case: k => [|[|[|[|[|[|k]]]]]].
move=> hk; have [XW e] : exists XW, GLL_quad F k = Ok XW.
  by case: k hk => [|[|[|[|[|[|k]]]]]] // _; eexists.
case: XW e => X W e; have [[h1 h2 h3 h4 h5] h6] := gll_ok e; exists X, W; split=> //.
  by move=> w hw; move/allP: h5; apply.
move=> P p hP hp; rewrite -(quad_moments h6 hP hp).
rewrite (big_nth (0, 0)) size_zip h1 h2 minnn big_mkord; apply: eq_bigr => i _.
by rewrite nth_zip ?h1 ?h2.
Qed.
(* the rule is not exact one degree further for k = 2 *)
Example C51_sharp (F : rcfType) : exists X W : seq F, GLL_quad F 2 = Ok (X, W) /\
  \sum_(i < 2) nth 0 W i * ('X^2 : {poly F}).[nth 0 X i] <> (3%:R^-1 *: 'X^3 : {poly F}).[1] - (3%:R^-1 *: 'X^3 : {poly F}).[0].
Proof.
eexists _, _; split; first by [].
rewrite !big_ord_recl big_ord0 /= !hornerZ !hornerXn.
move=> h; have : (1 : F) = 0; last by move/eqP; rewrite oner_eq0.
transitivity (6%:R * ((1 / 2%:R * ((1 + -1) / 2%:R) ^+ 2 + (1 / 2%:R * ((1 + 1) / 2%:R) ^+ 2 + 0)) - (3%:R^-1 * 1 ^+ 3 - 3%:R^-1 * 0 ^+ 3)) : F).
  by field.
by rewrite h subrr mulr0.
Qed.

(* ------------------------------------------------------------------ *)
(* C52: the phase-transfer source moves amounts between the two phases only *)
Theorem C52_transfer_conserves (F : rcfType) n rate (u : 'cV[F]_n) (ia ig : 'I_n) : ia != ig ->
  let s := srcf_xe_av rate u ia ig in
  [/\ \sum_i s i 0 = 0, (forall i, i != ia -> i != ig -> s i 0 = 0),
      s ia 0 = rate (u ia 0) (u ig 0) & s ig 0 = - rate (u ia 0) (u ig 0)].
Proof.
move=> h /=; have [h1 h2] := srcf_sum rate u h; split=> //.
  by rewrite /srcf_xe_av /set_at !mxE eqxx (negbTE h).
by rewrite /srcf_xe_av /set_at !mxE eqxx.
Qed.
(* with no fission source and closed matrices the whole right-hand side conserves the total *)
Theorem C52_rhs_conserves (F : rcfType) n rate (u : 'cV[F]_n) (ia ig : 'I_n) (B T : 'M[F]_n) phi : ia != ig ->
  (forall j, \sum_i B i j = 0) -> (forall j, \sum_i T i j = 0) ->
  \sum_i nonlin_bateman_rhs rate ia ig B T 0 phi u i 0 = 0.
Proof.
move=> h hB hT; have [h1 _] := srcf_sum rate u h; rewrite /nonlin_bateman_rhs scaler0 addr0.
have cs (M : 'M[F]_n) : (forall j, \sum_i M i j = 0) -> \sum_i (M *m u) i 0 = 0.
  move=> hM; under eq_bigr do rewrite mxE; rewrite exchange_big big1 // => j _.
  by rewrite -mulr_suml hM mul0r.
transitivity (\sum_i (B *m u) i 0 + phi * (\sum_i (T *m u) i 0) + \sum_i srcf_xe_av rate u ia ig i 0); last first.
  rewrite cs //. rewrite cs //. by rewrite h1 mulr0 !addr0.
rewrite mulr_sumr -!big_split; apply: eq_bigr => i _ /=.
by move: (B *m u) (T *m u) (srcf_xe_av _ _ _ _) => v1 v2 v3; rewrite !mxE.
Qed.

(* ------------------------------------------------------------------ *)
(* C54: Dirichlet nodes of AffineLinearSEM never move: for every assembled A, Ml, b, every set of
   Dirichlet nodes and every run of a Rosenbrock method (except the partial-fraction ones, C31) or
   of the explicit methods, the entries of every stored state at these nodes are those of y0 *)
Section Dirichlet.
Variable F : rcfType.
Variable n : nat.
Variables (KW : Type) (A : 'M[F]_n) (Ml b : 'cV[F]_n) (dbd : pred 'I_n).
Lemma sem_invariant (sys : odesys F KW n) i : dbd i ->
  (forall kw t u, os_frhs sys kw t u = sem_frhs A Ml b dbd u) -> rhs_invariant sys (delta_mx 0 i).
Proof. by move=> di hs kw t u; rewrite -rowE hs; apply/rowP => j; rewrite !mxE di. Qed.
Theorem C54_dirichlet_rosenbrock K o kw0 (sys : odesys F KW n) W (cb1 cb2 : option (W -> F -> 'cV[F]_n -> W * KW)) h wd t0 y0 dt N d i :
  (forall kw t u, os_frhs sys kw t u = sem_frhs A Ml b dbd u) -> exact_jacobian sys \/ fd_jacobian sys ->
  (forall kw t u, dense_ok (jl_op (os_fjac sys kw t u))) -> dbd i ->
  o_method o <> "exp_pfd"%string -> o_method o <> "exp_pfd_rs"%string ->
  code_dense K -> rs_keeps K (delta_mx 0 i) -> rb_new o t0 y0 = Ok h ->
  integrate_ormatex (rb_step K o kw0 sys) (@hist_accept F 'cV[F]_n) cb1 cb2 h wd y0 t0 dt N = Ok d ->
  forall y, List.In y (d_ys d) -> y i 0 = y0 i 0.
Proof.
move=> hs hj hd di n1 n2 hc hr hn hi y hy.
have := C31_rosenbrock_invariant n1 n2 (sem_invariant di hs) hj hd hc hr hn hi hy.
by move/matrixP/(_ 0 0); rewrite -!rowE !mxE.
Qed.
Theorem C54_dirichlet_explicit m (sys : odesys F KW n) W (cb1 cb2 : option (W -> F -> 'cV[F]_n -> W * KW)) h wd t0 y0 dt N d i :
  (forall kw t u, os_frhs sys kw t u = sem_frhs A Ml b dbd u) -> dbd i -> rk_new m t0 y0 = Ok h ->
  integrate_ormatex (rk_step m sys) (@hist_accept F 'cV[F]_n) cb1 cb2 h wd y0 t0 dt N = Ok d ->
  forall y, List.In y (d_ys d) -> y i 0 = y0 i 0.
Proof.
move=> hs di hn hi y hy; have := C31_rk4_invariant (sem_invariant di hs) hn hi hy.
by move/matrixP/(_ 0 0); rewrite -!rowE !mxE.
Qed.
(* off the Dirichlet nodes the remainder f(u) - L u of the split form does not depend on the state *)
Theorem C54_split_remainder (u v : 'cV[F]_n) i : ~~ dbd i ->
  sem_frhs A Ml b dbd (u + v) i 0 - lo_mv (sem_fl A Ml) (u + v) i 0 =
  sem_frhs A Ml b dbd u i 0 - lo_mv (sem_fl A Ml) u i 0.
Proof.
move=> di; have e (z : 'cV[F]_n) : lo_mv (sem_fl A Ml) z i 0 = - (A *m z) i 0 / Ml i 0.
  rewrite /= !mxE -sumrN mulr_suml; apply: eq_bigr => j _.
  by rewrite mxE mulrAC !mulNr.
have f (z : 'cV[F]_n) : sem_frhs A Ml b dbd z i 0 = b i 0 / Ml i 0 - (A *m z) i 0 / Ml i 0.
  by rewrite mxE (negbTE di) mulrBl.
by rewrite !e !f !mulNr !opprK -!addrA !addNr.
Qed.
End Dirichlet.
