(* ProofsRust.v : proofs about the Rust integrators and driver. *)
From Coq Require Import String ClassicalEpsilon.
From mathcomp Require Import all_ssreflect all_algebra.
From mathcomp Require Import ring.
From Verif Require Import ModelHist MxBase ModelOps ModelKrylov ModelInt ModelRust SpecRust.
Set Implicit Arguments.
Unset Strict Implicit.
Unset Printing Implicit Defensive.
Import Order.TTheory GRing.Theory Num.Theory.
Local Open Scope ring_scope.

Section Newton.
Variable F : rcfType.
Variable n : nat.
Notation vec := 'cV[F]_n.
Variable gmres : (vec -> vec) -> vec -> vec -> nat -> F -> option vec.
Variables (t : F) (G : F -> vec -> vec) (J : F -> vec -> vec -> vec) (tol tl : F) (il : nat).
Notation loop := (newton_loop gmres t G J tol tl il).
Notation iter := (newton_iter gmres (G t) (J t) il tl).

Lemma iterS x0 j : iter x0 j.+1 = if iter x0 j is Some (x, a) then
      if gmres (J t x) (G t x) a il tl is Some a' then Some (x - a', a') else None else None.
Proof. by []. Qed.
Arguments newton_iter : simpl never.
Lemma newton_loopP N x0 j xa : iter x0 j = Some xa -> 
  (forall k xk xk', (k < j)%N -> iter x0 k = Some xk -> iter x0 k.+1 = Some xk' -> ~~ (norm2 xk.1 - norm2 xk'.1 < tol)) ->
  forall x, loop N xa.1 xa.2 = Ok x <->
    exists k, [/\ (k < j + N)%N, (j <= k)%N & exists xk xk', [/\ iter x0 k = Some xk, iter x0 k.+1 = Some xk', x = xk'.1,
       norm2 xk.1 - norm2 xk'.1 < tol &
       forall i xi xi', (i < k)%N -> iter x0 i = Some xi -> iter x0 i.+1 = Some xi' -> ~~ (norm2 xi.1 - norm2 xi'.1 < tol)]].
Proof.
elim: N j xa => [|N IH] j [xj aj] hj hno x /=.
  by split=> // -[k []]; rewrite addn0 => h1 h2; move: (leq_trans h1 h2); rewrite ltnn.
case e: (gmres _ _ _ _ _) => [a'|].
  have hj' : iter x0 j.+1 = Some (xj - a', a') by rewrite iterS hj e.
  case hn: (norm2 xj - norm2 (xj - a') < tol); split.
  - case=> <-; exists j; split; first by rewrite addnS ltnS leq_addr.
      by [].
    by exists (xj, aj), (xj - a', a'); split.
  - case=> k [h1 h2 [xk [xk' [e1 e2 -> _ h3]]]].
    have [ek|nk] := eqVneq k j.
      by move: e2; rewrite ek hj' => -[<-].
    have lt : (j < k)%N by rewrite ltn_neqAle eq_sym nk.
    by have /= := h3 _ _ _ lt hj hj'; rewrite hn.
  - have hno' k xk xk' : (k < j.+1)%N -> iter x0 k = Some xk -> iter x0 k.+1 = Some xk' ->
        ~~ (norm2 xk.1 - norm2 xk'.1 < tol).
      rewrite ltnS leq_eqVlt => /orP [/eqP ->|]; last exact: hno.
      by rewrite hj hj' => -[<-] [<-] /=; rewrite hn.
    move/(IH j.+1 (xj - a', a') hj' hno' x).1 => -[k [h1 h2 h3]]; exists k; split=> //.
      by move: h1; rewrite addSnnS.
    exact: ltnW.
  - have hno' k xk xk' : (k < j.+1)%N -> iter x0 k = Some xk -> iter x0 k.+1 = Some xk' ->
        ~~ (norm2 xk.1 - norm2 xk'.1 < tol).
      rewrite ltnS leq_eqVlt => /orP [/eqP ->|]; last exact: hno.
      by rewrite hj hj' => -[<-] [<-] /=; rewrite hn.
    move=> [k [h1 h2 h3]]; apply/(IH j.+1 (xj - a', a') hj' hno' x).2; exists k; split=> //.
      by rewrite addSnnS.
    rewrite ltn_neqAle h2 andbT; apply/eqP => ek; move: h3; rewrite -ek.
    by case=> xk [xk' [e1 e2 _ h _]]; move: e1 e2 h; rewrite hj hj' => -[<-] [<-] /=; rewrite hn.
split=> // -[k [h1 h2 [xk [xk' [_ e2 _ _ _]]]]].
suff : iter x0 k.+1 = None by rewrite e2.
elim: k h2 {h1 e2} => [|k IHk].
  by rewrite leqn0 => /eqP ej; rewrite ej in hj; rewrite iterS hj e.
rewrite leq_eqVlt => /orP [/eqP ej|/IHk h]; rewrite iterS; last by rewrite h.
by rewrite ej in hj; rewrite hj e.
Qed.

(* affine residual with its derivative as Jacobian *)
Variables (M : vec -> vec) (c : vec).
Hypothesis Mlin : forall a u v, M (a *: u + v) = a *: M u + M v.
Hypothesis hG : forall x, G t x = M x + c.
Hypothesis hJ : forall x v, J t x v = M v.
Hypothesis ex : exact_solver gmres.
Lemma M_sub u v : M (u - v) = M u - M v.
Proof. by rewrite -[u - v]addrC -scaleN1r Mlin scaleN1r addrC. Qed.
Lemma newton_affine N x a x' : loop N x a = Ok x' -> G t x' = 0.
Proof.
elim: N x a => [|N IH] x a //=; case e: (gmres _ _ _ _ _) => [a'|] //.
have ha : M a' = G t x by rewrite -(ex e) hJ.
case: ifP => _; last exact: IH.
by case=> <-; rewrite hG M_sub ha hG opprD addrA subrr add0r addNr.
Qed.
Lemma newton_affine_total N x a : complete_solver gmres -> (forall v, M v = 0 -> v = 0) -> (forall b, exists v, M v = b) -> 0 < tol ->
  exists x', loop N.+2 x a = Ok x' /\ G t x' = 0.
Proof.
move=> tot inj sur t0.
have some y b : gmres (J t y) (G t y) b il tl <> None.
  by apply: tot; have [v hv] := sur (G t y); exists v; rewrite hJ.
have one N' y b : G t y = 0 -> exists x', loop N'.+1 y b = Ok x' /\ G t x' = 0.
  move=> hy /=; case e: (gmres _ _ _ _ _) => [a'|]; last by case: (some _ _ e).
  have : M a' = 0 by rewrite -hy -(ex e) hJ.
  by move/inj => ->; rewrite subr0 subrr t0; exists y.
rewrite [newton_loop _ _ _ _ _ _ _ N.+2 _ _]/=; case e: (gmres _ _ _ _ _) => [a'|]; last by case: (some _ _ e).
have ha : M a' = G t x by rewrite -(ex e) hJ.
have g0 : G t (x - a') = 0 by rewrite hG M_sub ha hG opprD addrA subrr add0r addNr.
by case: ifP => _; [exists (x - a') | apply: one].
Qed.
End Newton.

(* any return: the last correction solved the linearised equation *)
Lemma newton_last (F : rcfType) n gmres t (G : F -> 'cV[F]_n -> 'cV[F]_n) J tol tl il N x a x' :
  exact_solver gmres -> newton_loop gmres t G J tol tl il N x a = Ok x' ->
  exists xp, J t xp (xp - x') = G t xp /\ norm2 xp - norm2 x' < tol.
Proof.
move=> ex; elim: N x a => [|N IH] x a //=; case e: (gmres _ _ _ _ _) => [a'|] //.
case: ifP => h; last exact: IH.
by case=> <-; exists x; rewrite opprB addrC subrK (ex _ _ _ _ _ _ e).
Qed.

(* exact and complete solvers exist *)
Definition ideal_solver (F : rcfType) n : ('cV[F]_n -> 'cV[F]_n) -> 'cV[F]_n -> 'cV[F]_n -> nat -> F -> option 'cV[F]_n :=
  fun A b _ _ _ => if excluded_middle_informative (exists x, A x = b) is left h
                   then Some (proj1_sig (constructive_indefinite_description _ h)) else None.
Lemma ideal_exact (F : rcfType) n : exact_solver (@ideal_solver F n).
Proof.
move=> A b a0 it tol x; rewrite /ideal_solver; case: excluded_middle_informative => // h [<-].
by case: constructive_indefinite_description.
Qed.
Lemma ideal_complete (F : rcfType) n : complete_solver (@ideal_solver F n).
Proof. by move=> A b a0 it tol h; rewrite /ideal_solver; case: excluded_middle_informative. Qed.
