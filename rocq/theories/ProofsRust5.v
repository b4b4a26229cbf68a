(* ProofsRust5.v : the Rust Arnoldi process and Krylov evaluations. *)
From Coq Require Import Reals.
From mathcomp Require Import all_ssreflect all_algebra.
From Verif Require Import Rstruct Summable MxBase MxSeries ModelHist ModelOps ModelPhi ModelKrylov ModelInt ModelRust SpecRust.
From Verif Require Import ProofsKrylov ProofsKrylov2 ProofsKrylov3 ProofsKiops ProofsRust3.
Set Implicit Arguments.
Unset Strict Implicit.
Unset Printing Implicit Defensive.
Import Order.TTheory GRing.Theory Num.Theory.
Local Open Scope ring_scope.
Local Opaque breakdown_tol norm2 dotv.

Section Arn.
Variables (F : rcfType) (n : nat) (L : 'cV[F]_n -> 'cV[F]_n) (s : F).
Notation rsub := (fun x : F => ~~ (x < breakdown_tol F)).
Lemma rsub_gt0 (x : F) : rsub x -> 0 < x.
Proof. by move=> /=; rewrite -leNgt; apply: lt_le_trans (tol_gt0 F). Qed.

Lemma rarn_loop_inv m iom todo k hs qs : (k < m)%N -> (k + todo = m)%N ->
  running L s iom rsub k hs qs ->
  let st := rarn_loop L s m iom todo k hs qs in
  exists nb, gfinished L s m iom rsub st.2 st.1.1 st.1.2 nb.
Proof.
elim: todo k hs qs => [|todo IH] k hs qs km e r.
  by move: km; rewrite -e addn0 ltnn.
have [h1 h2] := gbody_step rsub_gt0 km r.
have eg : rarn_inner L s m iom hs qs k = ((gmgs L s m iom rsub hs qs k).1.1, (gmgs L s m iom rsub hs qs k).1.2, ~~ (gmgs L s m iom rsub hs qs k).2).
  by rewrite /rarn_inner /gmgs; case: foldl => hs1 qv /=; rewrite negbK.
rewrite [rarn_loop _ _ _ _ _ _ _ _]/= eg; move: h1 h2; case: gmgs => [[hs' qs'] nb] /=.
case: nb => /= h1 h2; last by exists false; apply: h2; rewrite andbF.
case: (ltnP k.+1 m) => k1m.
  by apply: IH => //; [rewrite addSnnS|apply: h1; rewrite k1m].
have t0 : todo = 0%N.
  by apply/eqP; rewrite -leqn0 -(leq_add2l k.+1) addn0 addSnnS e.
by rewrite t0 /=; exists true; apply: h2; rewrite ltnNge k1m.
Qed.
Lemma rarn_loop_q0 m iom todo k hs qs : (rarn_loop L s m iom todo k hs qs).1.2 0%N = qs 0%N.
Proof.
elim: todo k hs qs => [|todo IH] k hs qs //=.
case e: rarn_inner => [[hs' qs'] bk].
have q0 : qs' 0%N = qs 0%N.
  move: e; rewrite /rarn_inner; case: foldl => hs1 qv [_ <- _].
  by case: ifP => // _; rewrite /upd1.
by case: (bk) => //=; rewrite IH.
Qed.

Variables (dim iom : nat) (b : 'cV[F]_n).
Hypotheses (b0 : b != 0) (d0 : (0 < dim)%N).
Lemma rarnoldi_fin : exists (k : nat) (hs : nat -> nat -> F) (qs : nat -> 'cV[F]_n) (nb : bool),
  rarnoldi L s b dim iom = Ok (existT (fun k => ('M[F]_(n, k) * 'M[F]_k)%type) k (\matrix_(i, j) qs j i 0, \matrix_(i, j) hs i j)) /\
  gfinished L s (minn n dim) iom rsub k hs qs nb /\ qs 0%N = (norm2 b)^-1 *: b.
Proof.
have n0 : (0 < n)%N.
  case: (posnP n) b0 => // e; move: (b); rewrite e => b'.
  by rewrite [b']flatmx0 eqxx.
have m0 : (0 < minn n dim)%N by rewrite leq_min n0.
rewrite /rarnoldi minnC; have -> : (minn n dim == 0)%N = false by case: minn m0.
have nb : norm2 b != 0 by rewrite gt_eqF // norm2_gt0.
rewrite (negPf nb).
set q := upd1 _ _ _.
have := @rarn_loop_inv (minn n dim) iom (minn n dim) 0 (fun _ _ => 0) q m0 erefl.
have := rarn_loop_q0 (minn n dim) iom (minn n dim) 0 (fun _ _ => 0) q.
case: rarn_loop => [[hs qs] k] /= hq []; last first.
  by move=> nb' h; exists k, hs, qs, nb'; split=> //; split=> //; rewrite hq.
split=> //=.
- by move=> j; rewrite leqn0 => /eqP->; rewrite /q /upd1 eqxx; apply: normalised.
- by move=> i j /andP[ij]; rewrite leqn0 => /eqP e; rewrite e in ij.
Qed.
End Arn.

Lemma rQ_e1 (F : rcfType) n k (qs : nat -> 'cV[F]_n) : (0 < k)%N ->
  (\matrix_(i < n, j < k) qs j i 0) *m e1v F k = qs 0%N.
Proof.
move=> k0; apply/matrixP => i j; rewrite ord1 mxE (bigD1 (Ordinal k0)) //= big1 ?addr0.
  by rewrite !mxE mulr1.
by move=> l; rewrite -val_eqE /= => /negPf h; rewrite !mxE h mulr0.
Qed.

(* ------------------------------------------------------------------ *)
Section Phi.
Variable ev : evaluator R_rcfType.
(* the dense evaluator returns phi_k(dt a) v *)
Definition phi_evaluator : Prop := forall k (H : 'M[R]_k) (dt : R) (v : 'cV[R]_k) j, ev H dt v j = phi j (dt *: H) *m v.
Hypothesis evE : phi_evaluator.
Variables (n : nat) (L : 'cV[R]_n -> 'cV[R]_n) (A : 'M[R]_n).
Hypothesis LA : forall v, L v = A *m v.

(* common core: Arnoldi of s*A, dense evaluation at t *)
Lemma rkry_core (s t : R) v dim iom j : v != 0 -> (n <= dim)%N -> (n <= iom.+1)%N ->
  exists E : 'M[R]_n, ninf E <= n%:R * breakdown_tol R_rcfType /\
  exists k, exists Q : 'M[R]_(n, k), exists H : 'M[R]_k,
   rarnoldi L s v dim iom = Ok (existT (fun k => ('M[R]_(n, k) * 'M[R]_k)%type) k (Q, H)) /\
   (k = n -> E = 0) /\
   norm2 v *: (Q *m ev H t (e1v _ k) j) = phi j (t *: (s *: A - E)) *m v.
Proof.
move=> v0 nd ni.
have d0 : (0 < dim)%N.
  apply: leq_trans nd; case: (posnP n) v0 => // e; move: (v); rewrite e => b'.
  by rewrite [b']flatmx0 eqxx.
have [k [hs [qs [nb [e [fin q0]]]]]] := rarnoldi_fin L s iom v0 d0.
set Q := \matrix_(i, j) qs j i 0 in e; set H := \matrix_(i, j) hs i j in e.
have nm : minn n dim = n by apply/minn_idPl.
have /andP[k0 kn] := fin_pos fin; rewrite nm in kn.
have orth : Q^T *m Q = 1%:M by apply: (Qm_orth fin); apply: leq_trans kn (leqW ni).
have orthr : Q^T *m rm L s k hs qs = 0 by apply: (Qm_rm fin); apply: leq_trans kn ni.
have rel := arn_rel LA fin; rewrite -/Q -/H in rel.
set r := rm L s k hs qs in rel orthr.
have Qe : Q *m e1v _ k = (norm2 v)^-1 *: v by rewrite rQ_e1.
have val E : (s *: A - E) *m Q = Q *m H -> norm2 v *: (Q *m ev H t (e1v _ k) j) = phi j (t *: (s *: A - E)) *m v.
  move=> h; have h' : (t *: (s *: A - E)) *m Q = Q *m (t *: H) by rewrite -scalemxAl h scalemxAr.
  rewrite evE mulmxA -(phi_intertwine _ h') -mulmxA Qe -!scalemxAr scalerA mulfV ?scale1r //.
  by rewrite gt_eqF // norm2_gt0.
have Q1 (a : 'I_n) (l : 'I_k) : `|Q a l| <= 1.
  rewrite mxE (le_trans (entry_le_norm2 _ a)) // norm2_1 //; apply: (fin_unit fin); exact: ltn_ord.
case: (eqVneq k n) => [ekn|nkn].
  have r0 : r = 0 by apply: (orth_full (Q := Q) ekn).
  exists 0; split.
    by rewrite ninf0 mulr_ge0 ?ler0n // ltW // tol_gt0.
  exists k, Q, H; split=> //; split=> //; apply: val.
  by rewrite subr0 rel r0 mul0mx addr0.
exists (r *m (elast R_rcfType k *m Q^T)); split.
  have hr : norm2 r <= breakdown_tol R_rcfType.
    have [h|] := fin_gend fin; first by rewrite h nm eqxx in nkn.
    by rewrite negbK => /ltW.
  apply: ninf_cst => [|a c]; first exact: (ltW (tol_gt0 _)).
  rewrite mxE big_ord1 normrM -[X in _ <= X]mulr1 ler_pmul //.
    exact: le_trans (entry_le_norm2 _ _) hr.
  have k1 : (k.-1 < k)%N by rewrite prednK.
  rewrite mxE (bigD1 (Ordinal k1)) //= big1 ?addr0.
    by rewrite [elast _ _ _ _]mxE eqxx mul1r mxE.
  by move=> l; rewrite -val_eqE /= => ne; rewrite [elast _ _ _ _]mxE (negPf ne) mul0r.
exists k, Q, H; split=> //; split; first by move/eqP; rewrite (negPf nkn).
by apply: val; rewrite mulmxBl rel -!mulmxA orth mulmx1 addrK.
Qed.

Lemma rphi_linop_back dt v dim iom j : v != 0 -> (n <= dim)%N -> (n <= iom.+1)%N ->
  exists E : 'M[R]_n, [/\ ninf E <= n%:R * breakdown_tol R_rcfType,
   (forall k (Q : 'M[R]_(n, k)) H, rarnoldi L 1 v dim iom = Ok (existT (fun k => ('M[R]_(n, k) * 'M[R]_k)%type) k (Q, H)) -> k = n -> E = 0) &
   apply_phi_linop ev L dt v j dim iom = Ok (phi j (dt *: (A - E)) *m v)].
Proof.
move=> v0 nd ni; have [E [h1 [k [Q [H [e [h2 h3]]]]]]] := @rkry_core 1 dt v dim iom j v0 nd ni.
exists E; split=> //.
  by move=> k' Q' H'; rewrite e => -[ek _ _]; rewrite -ek.
by rewrite /apply_phi_linop e; cbn [rbind]; rewrite h3 scale1r.
Qed.
End Phi.
