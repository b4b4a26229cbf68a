(* ProofsLeja7.v : the Leja integrator object over arbitrary call histories. *)
From Coq Require Import String.
From mathcomp Require Import all_ssreflect all_algebra.
From mathcomp Require Import ring.
From mathcomp Require Import complex.
From Verif Require Import ModelHist ModelOps ModelKrylov ModelDispatch ModelInt ModelLeja SpecLeja SpecLejaOps ProofsLeja5.
Set Implicit Arguments.
Unset Strict Implicit.
Unset Printing Implicit Defensive.
Import Order.TTheory GRing.Theory Num.Theory.
Local Open Scope ring_scope.

Local Opaque max_substeps real_leja_expmv_substep complex_conj_leja_expmv_substep gen_leja_conjugate leja_shift_scale leja_max_power_iter.
Section Lj.
Variables (F : rcfType) (D : ldd F) (KW : Type) (n : nat) (o : lopts F n) (kw0 : KW).
Variable sys : odesys F KW n.
Notation vec := 'cV[F]_n.

Lemma substep_max V (expmv : F -> V -> V * nat * bool) sb tau v r : 0 < tau ->
  expmv_substep expmv sb tau v = Ok r -> 0 < r.2 <= 1.
Proof.
move=> t0; rewrite /expmv_substep; case: sb => /=; last first.
  by case: (expmv 1 v) => [[w it] c] [<-] /=; rewrite ltr01 lexx.
move=> H; have [||att [k [_ _ [h1 h2] _ [_ ->]]]] := substep_loop_spec _ _ H.
- by rewrite lt_minr t0 ltr01.
- by rewrite subr0 le_minl lexx orbT.
have := @mmax_bounds F 0 1 (accepted att) (lexx 0) ler01 _.
case=> [|h3 h4]; last by rewrite h4.
by apply: sub_all h1 => t /andP[-> /= h]; apply: le_trans h _; rewrite le_minl lexx orbT.
Qed.

(* a successful step updates only the sub-step data, by one averaging step *)
Lemma lj_step_avg ob dt kw ob' s : 0 < lj_size ob ->
  lj_step D o kw0 sys ob dt kw = Ok (ob', s) ->
  exists m bk, [/\ 0 < m <= 1, ob' = lj_avg ob bk m & lj_istep ob' = (lj_istep ob).+1].
Proof.
move=> s0; have t0 : 0 < 11%:R / 10%:R * lj_size ob by rewrite mulr_gt0 // divr_gt0 // ltr0n.
rewrite /lj_step; case: leja_step_routine => [r|e] //=; case: r => //.
- rewrite /step_epi_re; case: hist_y => [yt|e] //=.
  case: (match lp_a o with Some _ => _ | None => _ end) => [[shift scale] bk].
  case E : real_leja_expmv_substep => [r|e] //=; have := substep_max t0 E.
  case: r {E} => [[[w it] c] m] /= hm; case: c => //= -[<- _]; by exists m, bk.
- move=> k; rewrite /step_epi_im; case: hist_y => [yt|e] //=.
  case: (if k == 2%N then _ else _) => [vb|e] //=.
  case: (match lp_a o with Some _ => _ | None => _ end) => [la bk].
  case: gen_leja_conjugate => [[[[x nr] scale] shift]|e] //=.
  case E : complex_conj_leja_expmv_substep => [r|e] //=; have := substep_max t0 E.
  case: r {E} => [[[w it] c] m] /= hm; case: c => //= -[<- _]; by exists m, bk.
Qed.

Lemma avg_bounds (s m : F) (w : nat) : (0 < w)%N -> 0 < s <= 1 -> 0 < m <= 1 ->
  0 < 1 / w%:R * m + (w%:R - 1) / w%:R * s <= 1.
Proof.
move=> w0 /andP[s0 s1] /andP[m0 m1].
have w0' : 0 < w%:R :> F by rewrite ltr0n.
have e : 1 / w%:R * m + (w%:R - 1) / w%:R * s = (m + (w%:R - 1) * s) / w%:R.
  by rewrite [RHS]mulrDl mul1r [_^-1 * m]mulrC [(w%:R - 1) / _ * s]mulrAC.
have h1 : 0 <= w%:R - 1 :> F by rewrite subr_ge0 ler1n.
rewrite e; apply/andP; split.
  by rewrite divr_gt0 // ltr_paddr // mulr_ge0 // ltW.
rewrite ler_pdivr_mulr // mul1r -[X in _ <= X](subrK 1) addrC ler_add //.
by rewrite -[X in _ <= X]mulr1 ler_wpmul2l.
Qed.

Theorem lj_size_bounds t0 y0 ob ops : lj_new o t0 y0 = Ok ob ->
  0 < lj_size (foldl (lj_do D o kw0 sys) ob ops) <= 1.
Proof.
rewrite /lj_new; case: leja_ctor => [ord|e] //=; case: hist_init => [h|e] //= [<-].
suff H : forall ob, 0 < lj_size ob <= 1 -> 0 < lj_size (foldl (lj_do D o kw0 sys) ob ops) <= 1.
  by apply: H; rewrite /= ltr01 lexx.
elim: ops {ob h} => [//|op ops IH] ob hb /=; apply: IH.
case: op => [dt kw bk|s|t1 y1] //=.
case E : lj_step => [[ob' s]|e] //.
have [m [bk' [hm -> _]]] := lj_step_avg (proj1 (andP hb)) E.
by apply: avg_bounds => //=; rewrite leq_min.
Qed.

(* resetting keeps the sub-step data, so after a successful step the object never equals a new one *)
Lemma lj_reset_keeps (ob : ljobj F n) t1 y1 :
  [/\ lj_size (lj_reset ob t1 y1) = lj_size ob, lj_bk (lj_reset ob t1 y1) = lj_bk ob &
      lj_istep (lj_reset ob t1 y1) = lj_istep ob].
Proof. by []. Qed.
Lemma lj_new_istep t0 y0 (ob : ljobj F n) : lj_new o t0 y0 = Ok ob ->
  [/\ lj_istep ob = 0%N, lj_size ob = 1 & lj_bk ob = None].
Proof.
by rewrite /lj_new; case: leja_ctor => [ord|e] //=; case: hist_init => [h|e] //= [<-].
Qed.
Theorem lj_reset_not_fresh ob dt kw ob' s t1 y1 ob1 : 0 < lj_size ob ->
  lj_step D o kw0 sys ob dt kw = Ok (ob', s) -> lj_new o t1 y1 = Ok ob1 ->
  lj_reset ob' t1 y1 <> ob1.
Proof.
move=> h0 h1 h2 e; have [m [bk [_ _ hi]]] := lj_step_avg h0 h1.
have [h3 _ _] := lj_new_istep h2.
by move: hi; rewrite -[lj_istep ob']/(lj_istep (lj_reset ob' t1 y1)) e h3.
Qed.
End Lj.
