(* PropMatUtils.v : C78, the cached finite-difference operator and the Arnoldi process of mat_utils.rs. *)
From mathcomp Require Import all_ssreflect all_algebra.
From mathcomp Require Import ring.
From Verif Require Import ModelHist MxBase ModelOps ModelPhi ModelKrylov ModelInt ModelRust ModelMatUtils.
From Verif Require Import ProofsKrylov.
Set Implicit Arguments.
Unset Strict Implicit.
Unset Printing Implicit Defensive.
Import Order.TTheory GRing.Theory Num.Theory.
Local Open Scope ring_scope.

Section Jr.
Variables (F : rcfType) (n : nat).
Notation vec := 'cV[F]_n.
Implicit Types (frhs : F -> vec -> vec) (calls : seq (jr_call F n)).
(* time and point of a call *)
Definition ct (c : jr_call F n) : F := c.1.1.1.
Definition cx (c : jr_call F n) : vec := c.1.1.2.
Definition cw (c : jr_call F n) : vec := c.1.2.
Definition cs (c : jr_call F n) : F := odflt 1 c.2.

Lemma eps0_neq0 : fd_eps0 F != 0.
Proof. by rewrite /fd_eps0 mulf_neq0 // invr_eq0 ?pnatr_eq0 // expf_neq0 // pnatr_eq0. Qed.
Lemma norm1_eq0 (x : vec) : (norm1 x == 0) = (x == 0).
Proof.
apply/eqP/eqP => [h|->]; last by rewrite /norm1 big1 // => i _; rewrite mxE normr0.
apply/matrixP => i j; rewrite (ord1 j) mxE; apply/eqP; rewrite -normr_eq0 eq_le normr_ge0 andbT -h /norm1.
rewrite (bigD1 i) //= ler_addl; apply: sumr_ge0 => k _; exact: normr_ge0.
Qed.
Lemma norm1N (x : vec) : norm1 (- x) = norm1 x.
Proof. by rewrite /norm1; apply: eq_bigr => i _; rewrite mxE normrN. Qed.

(* the answer of the forward difference that subtracts F(t', x') instead of F(t, x) *)
Definition fd_with frhs (t' : F) (x' : vec) (c : jr_call F n) : vec :=
  (cs c / (fd_eps0 F * norm1 (cx c))) *: (frhs (ct c) (cx c + (fd_eps0 F * norm1 (cx c)) *: cw c) - frhs t' x').

Lemma applyE frhs dim t' x' c : cx c != 0 ->
  (jr_apply frhs dim (Some (x', frhs t' x')) (ct c) (cx c) (cw c) c.2) =
  if norm1 (cx c) == norm1 x' then (Some (x', frhs t' x'), Ok (fd_with frhs t' x' c))
  else (Some (cx c, frhs (ct c) (cx c)), Ok (fd_with frhs (ct c) (cx c) c)).
Proof.
move=> x0; rewrite /jr_apply /=; have e0 : (fd_eps0 F * norm1 (cx c) == 0) = false.
  by apply/negbTE; rewrite mulf_neq0 ?eps0_neq0 // norm1_eq0.
by case: ifP => _; rewrite e0 /fd_with scalerA mul1r [X in X *: _]mulrC.
Qed.
Lemma apply0 frhs dim cache t (x w : vec) s : x = 0 ->
  exists cache' e, jr_apply frhs dim cache t x w s = (cache', Raise e).
Proof.
move=> ->; rewrite /jr_apply; have -> : norm1 (0 : vec) = 0 by apply/eqP; rewrite norm1_eq0.
rewrite mulr0 eqxx; case: ifP => _; first by case: cache => [[a b]|]; [|case: ifP]; do 2!eexists.
by do 2!eexists.
Qed.
Lemma run_step frhs dim cache c calls :
  jr_run frhs dim cache (c :: calls) =
  (jr_apply frhs dim cache (ct c) (cx c) (cw c) c.2).2 ::
  jr_run frhs dim (jr_apply frhs dim cache (ct c) (cx c) (cw c) c.2).1 calls.
Proof. by case: c => [[[t x] w] s] /=; rewrite /ct /cx /cw /=; case: (jr_apply frhs dim cache t x w s). Qed.

(* the cache after a prefix: the first call of the run of equal norms *)
Definition holds frhs (cache : jr_cache F n) calls (j : nat) (d : jr_call F n) : Prop :=
  cache = Some (cx (nth d calls j), frhs (ct (nth d calls j)) (cx (nth d calls j))).
Lemma cacheE frhs dim cache t (x w : vec) s : (jr_apply frhs dim cache t x w s).1 =
  if norm1 x == jr_norm cache then cache else Some (x, frhs t x).
Proof. by []. Qed.
Definition cache_of frhs dim (cache : jr_cache F n) calls : jr_cache F n :=
  foldl (fun ca c => (jr_apply frhs dim ca (ct c) (cx c) (cw c) c.2).1) cache calls.
Lemma nth_run frhs dim cache calls i d r0 : (i < size calls)%N ->
  nth r0 (jr_run frhs dim cache calls) i =
  (jr_apply frhs dim (cache_of frhs dim cache (take i calls)) (ct (nth d calls i)) (cx (nth d calls i)) (cw (nth d calls i)) (nth d calls i).2).2.
Proof.
elim: calls cache i => // c calls ih cache [|i] hi; rewrite run_step //=.
by rewrite ih //= cacheE.
Qed.
Definition run_start (nrm : nat -> F) (i j : nat) : Prop :=
  (j <= i)%N /\ (forall k, (j <= k <= i)%N -> nrm k = nrm i) /\ (j = 0%N \/ nrm j.-1 <> nrm i).
Lemma run_start_ex nrm i : exists j, run_start nrm i j.
Proof.
elim: i => [|i [j [h1 [h2 h3]]]].
  by exists 0%N; split=> //; split; [case|left].
case: (nrm i =P nrm i.+1) => e; last first.
  exists i.+1; split=> //; split; last by right.
  by move=> k /andP [a b]; congr nrm; apply/eqP; rewrite eqn_leq a b.
exists j; split; first exact: leqW.
split; last by case: h3 => h3; [left|right; rewrite -e].
move=> k /andP [a]; rewrite leq_eqVlt ltnS => /orP [/eqP -> //|b].
by rewrite -e; apply: h2; rewrite a.
Qed.
(* the cache after i+1 calls the last of which has a nonzero point *)
Lemma cache_ofE frhs dim calls i d j : (i < size calls)%N -> cx (nth d calls i) != 0 ->
  run_start (fun k => norm1 (cx (nth d calls k))) i j ->
  cache_of frhs dim None (take i.+1 calls) =
  Some (cx (nth d calls j), frhs (ct (nth d calls j)) (cx (nth d calls j))).
Proof.
pose nrm k := norm1 (cx (nth d calls k)).
(* the norm held equals the norm of the last point *)
have hn k : (k < size calls)%N -> jr_norm (cache_of frhs dim None (take k.+1 calls)) = nrm k.
  move=> hk; rewrite (take_nth d) // /cache_of -cats1 foldl_cat /=.
  by case: eqP => [<- //|_ /=].
elim: i => [|i ih] hi x0 [h1 [h2 h3]].
  have -> : j = 0%N by case: (j) h1.
  rewrite (take_nth d) // /cache_of -cats1 foldl_cat /= take0 /= norm1_eq0.
  by rewrite (negbTE x0).
rewrite (take_nth d) // /cache_of -cats1 foldl_cat -/(cache_of frhs dim None _) /= hn ?(ltnW hi) //.
case: eqP => e; last first.
  suff -> : j = i.+1 by [].
  apply/eqP; rewrite eqn_leq h1 /=; case: ltnP => // hj; case: e; rewrite -/(nrm i.+1).
  by symmetry; apply: h2; apply/andP; split; [exact: hj|exact: leqnSn].
rewrite /nrm in e; apply: ih; first exact: ltnW.
  by rewrite -norm1_eq0 -e norm1_eq0.
have hj : (j <= i)%N.
  rewrite -ltnS ltn_neqAle h1 andbT; apply/eqP => ej; case: h3; rewrite ej //=.
  by move=> h; apply: h; rewrite e.
split=> //; split; last by rewrite -e.
by move=> k /andP [a b]; rewrite -e; apply: h2; rewrite a leqW.
Qed.

(* C78.  Every answer of a call sequence on a fresh operator.  A call at the point 0 never answers; every
   other one returns the forward difference of w at its own (t, x), but with F(t', x') subtracted, where
   (t', x') is the first of the calls since which the 1-norm of the point has not changed. *)
Theorem C78_jacobian_history (frhs : F -> vec -> vec) dim calls i d r0 : (i < size calls)%N ->
  let c := nth d calls i in
  (cx c = 0 -> exists e, nth r0 (jr_run frhs dim None calls) i = Raise e) /\
  (cx c != 0 -> exists j, run_start (fun k => norm1 (cx (nth d calls k))) i j /\
     nth r0 (jr_run frhs dim None calls) i = Ok (fd_with frhs (ct (nth d calls j)) (cx (nth d calls j)) c)).
Proof.
move=> hi c; rewrite (nth_run _ _ _ d) //; split.
  by move=> x0; have [ca [e ->]] := apply0 frhs dim (cache_of frhs dim None (take i calls)) (ct c) (cw c) c.2 x0; exists e.
move=> x0; have [j hj] := run_start_ex (fun k => norm1 (cx (nth d calls k))) i; exists j; split=> //.
have hc := cache_ofE frhs dim hi x0 hj.
rewrite (take_nth d) // /cache_of -cats1 foldl_cat /= -/(cache_of frhs dim None _) -/c in hc.
move: hc; rewrite {1}/jr_apply => hc; rewrite /jr_apply hc.
have e0 : (fd_eps0 F * norm1 (cx c) == 0) = false.
  by apply/negbTE; rewrite mulf_neq0 ?eps0_neq0 // norm1_eq0.
by rewrite /= e0 /fd_with scalerA mul1r [X in X *: _]mulrC.
Qed.

(* C78.  Hence the operator is right as long as consecutive calls with equal norms are at the same (t, x);
   exactly s A w for an affine right-hand side. *)
Theorem C78_jacobian_correct (frhs : F -> vec -> vec) dim calls i d r0 : (i < size calls)%N ->
  (forall k, (k.+1 < size calls)%N -> norm1 (cx (nth d calls k)) = norm1 (cx (nth d calls k.+1)) ->
     ct (nth d calls k) = ct (nth d calls k.+1) /\ cx (nth d calls k) = cx (nth d calls k.+1)) ->
  let c := nth d calls i in cx c != 0 ->
  nth r0 (jr_run frhs dim None calls) i = Ok (fd_with frhs (ct c) (cx c) c) /\
  forall (A : 'M[F]_n) (b : F -> vec), (forall t x, frhs t x = A *m x + b t) ->
    nth r0 (jr_run frhs dim None calls) i = Ok (cs c *: (A *m cw c)).
Proof.
move=> hi hk c x0; have [_ /(_ x0) [j [[j1 [j2 j3]] ->]]] := C78_jacobian_history frhs dim d r0 hi.
have e : forall k, (j + k <= i)%N -> ct (nth d calls (i - k)) = ct c /\ cx (nth d calls (i - k)) = cx c.
  elim=> [|k ih] h; first by rewrite subn0.
  have ki : (k < i)%N by apply: leq_trans h; rewrite addnS ltnS leq_addl.
  have [e1 e2] := ih (ltnW (leq_trans (eq_leq (esym (addnS j k))) h)).
  have es : (i - k.+1).+1 = (i - k)%N by rewrite subnSK.
  have := hk (i - k.+1)%N; rewrite es => /(_ (leq_ltn_trans (leq_subr _ _) hi)).
  rewrite (j2 (i - k.+1)%N) ?leq_subr ?andbT; last by rewrite leq_subRL // addnC.
  rewrite (j2 (i - k)%N) ?leq_subr ?andbT; last first.
    by rewrite leq_subRL ?(ltnW ki) // addnC; apply: leq_trans h; rewrite addnS.
  by case=> // -> ->.
have [] := e (i - j)%N; first by rewrite subnKC.
rewrite subKn // => -> ->; split=> // A b hA; congr Ok; rewrite /fd_with !hA.
rewrite mulmxDr opprD addrACA subrr addr0 addrAC subrr add0r -scalemxAr scalerA divfK //.
by rewrite mulf_neq0 ?eps0_neq0 // norm1_eq0.
Qed.
End Jr.
Print Assumptions C78_jacobian_history.
Print Assumptions C78_jacobian_correct.

(* C78.  It is not right in general: for every affine right-hand side A x + b(t) and every x != 0, a call at
   (t, x) followed by one at (t', -x) is off by (s/eps) (b(t') - b(t) - 2 A x), and by one at (t', x) by (s/eps) (b(t') - b(t)),
   with eps = 0.5e-8 |x|_1. *)
Theorem C78_jacobian_stale (F : rcfType) n dim (A : 'M[F]_n) (b : F -> 'cV[F]_n) t t' (x w : 'cV[F]_n) (s : option F) : x != 0 ->
  let frhs t x := A *m x + b t in
  let q := odflt 1 s / (fd_eps0 F * norm1 x) in
  (exists y, jr_run frhs dim None [:: (t, x, w, s); (t', - x, w, s)] =
     [:: y; Ok (odflt 1 s *: (A *m w) + q *: (b t' - b t - 2%:R *: (A *m x)))]) /\
  (exists y, jr_run frhs dim None [:: (t, x, w, s); (t', x, w, s)] =
     [:: y; Ok (odflt 1 s *: (A *m w) + q *: (b t' - b t))]).
Proof.
move=> x0 frhs q.
have n0 : (norm1 x == 0) = false by rewrite norm1_eq0 (negbTE x0).
have e0 : (fd_eps0 F * norm1 x == 0) = false.
  by apply/negbTE; rewrite mulf_neq0 ?eps0_neq0 // n0.
have hq (y : 'cV[F]_n) z : 1 / (fd_eps0 F * norm1 x) *: (odflt 1 s *: (A *m (y + (fd_eps0 F * norm1 x) *: w) + z))
   = odflt 1 s *: (A *m w) + q *: (A *m y + z).
  rewrite scalerA mul1r mulrC -/q mulmxDr -scalemxAr addrAC scalerDr addrC; congr (_ + _).
  by rewrite scalerA /q divfK // e0.
split; eexists; rewrite /= /jr_apply /= n0 /= ?norm1N eqxx /= e0 /frhs; congr [:: _; Ok _].
  transitivity (odflt 1 s *: (A *m w) + q *: (A *m - x + (b t' - (A *m x + b t)))).
    by rewrite -hq; congr (_ *: (_ *: _)); rewrite addrA.
  rewrite mulmxN; congr (_ + q *: _).
  by rewrite scaler_nat mulr2n !opprD addrCA -[RHS]addrA; congr (_ + _); rewrite addrA [RHS]addrC.
transitivity (odflt 1 s *: (A *m w) + q *: (A *m x + (b t' - (A *m x + b t)))).
  by rewrite -hq; congr (_ *: (_ *: _)); rewrite addrA.
congr (_ + q *: _).
by rewrite opprD addrCA; congr (_ + _); rewrite addrA subrr add0r.
Qed.
Print Assumptions C78_jacobian_stale.

(* the hypotheses of C78_jacobian_correct are met by sequences with repeated points *)
Lemma C78_jacobian_example (F : rcfType) (w w' : 'cV[F]_1) : exists calls : seq (jr_call F 1),
  size calls = 3%N /\ (forall d k, (k.+1 < size calls)%N -> norm1 (cx (nth d calls k)) = norm1 (cx (nth d calls k.+1)) ->
     ct (nth d calls k) = ct (nth d calls k.+1) /\ cx (nth d calls k) = cx (nth d calls k.+1)) /\
  forall d i, (i < 3)%N -> cx (nth d calls i) != 0.
Proof.
exists [:: (0, 1%:M, w, None); (0, 1%:M, w', None); (1, 2%:M, w, Some 3%:R)]; split=> //; split.
  move=> d [|[|k]] //= _; rewrite /norm1 /cx /= !big_ord1 !mxE !mulr1n !normr1 gtr0_norm ?ltr0n //.
  by move/eqP; rewrite eq_sym -subr_eq0 (_ : 2%:R - 1 = 1 :> F) ?oner_eq0 //; ring.
move=> d [|[|[|i]]] //= _; rewrite /cx /=; apply/eqP => /matrixP /(_ 0 0); rewrite !mxE mulr1n => /eqP; rewrite ?oner_eq0 ?pnatr_eq0 //.
Qed.

(* ------------------------------------------------------------------ *)
Section Arn.
Variables (F : rcfType) (n : nat).
Notation vec := 'cV[F]_n.
Implicit Types (q vs : seq vec).
Definition orthonormal vs : Prop := forall i j, (i < size vs)%N -> (j < size vs)%N ->
  dotv (nth 0 vs i) (nth 0 vs j) = (i == j)%:R.
Lemma mgs_size q qv : size (mgs q qv).1 = size q.
Proof. by elim: q qv => //= a q ih qv; have := ih (qv - dotv qv a *: a); case: (mgs q _) => h r /= ->. Qed.
Lemma mgs_sum q qv : qv = \sum_(r < size q) nth 0 (mgs q qv).1 r *: nth 0 q r + (mgs q qv).2.
Proof.
elim: q qv => [|a q ih] qv /=; first by rewrite big_ord0 add0r.
have := ih (qv - dotv qv a *: a); case: (mgs q _) => h r /= e; rewrite big_ord_recl /= -addrA.
by rewrite -[X in _ = _ + X]e addrC subrK.
Qed.
Definition perp (u : vec) vs : Prop := forall i, (i < size vs)%N -> dotv u (nth 0 vs i) = 0.
Lemma mgs_perp p q qv : orthonormal (p ++ q) -> perp qv p -> perp (mgs q qv).2 (p ++ q).
Proof.
elim: q p qv => [|a q ih] p qv ho hp /=; first by rewrite cats0.
have := ih (rcons p a) (qv - dotv qv a *: a); rewrite cat_rcons; case: (mgs q _) => h r /=; apply=> //.
have sa : (size p < size (p ++ a :: q))%N by rewrite size_cat /= addnS ltnS leq_addr.
have na : nth 0 (p ++ a :: q) (size p) = a by rewrite nth_cat ltnn subnn.
move=> i; rewrite size_rcons ltnS leq_eqVlt => /orP [/eqP ->|hi].
  rewrite nth_rcons ltnn eqxx dotvDl dotvNl dotvZl.
  by have := ho _ _ sa sa; rewrite na eqxx => ->; rewrite mulr1 subrr.
rewrite nth_rcons hi dotvDl dotvNl dotvZl hp // sub0r.
have hi' : (i < size (p ++ a :: q))%N by exact: ltn_trans sa.
have := ho _ _ sa hi'; rewrite na nth_cat hi => ->.
by rewrite gtn_eqF // mulr0 oppr0.
Qed.
Lemma orth_rcons vs u : orthonormal vs -> perp u vs -> dotv u u = 1 -> orthonormal (rcons vs u).
Proof.
move=> ho hp h1 i j; rewrite !size_rcons !ltnS (leq_eqVlt i) (leq_eqVlt j).
case/orP => [/eqP ->|hi]; case/orP => [/eqP ->|hj]; rewrite !nth_rcons ?ltnn ?hi ?hj ?eqxx //.
- by rewrite hp // gtn_eqF.
- by rewrite dotvC hp // ltn_eqF.
- exact: ho.
Qed.
(* orthonormal vectors are at most n *)
Lemma orth_size vs : orthonormal vs -> (size vs <= n)%N.
Proof.
move=> ho; pose Q : 'M[F]_(n, size vs) := \matrix_(i, j) nth 0 vs j i 0.
apply: (@mulmx1_min _ _ _ Q^T Q); apply/matrixP => i j; rewrite !mxE -(ho i j) //.
by rewrite /dotv; apply: eq_bigr => k _; rewrite !mxE.
Qed.
Lemma lo_tol_gt0 : 0 < lo_tol F.
Proof. by rewrite invr_gt0 exprn_gt0 ?ltr0n. Qed.

Variables (a_lo : F -> vec -> vec -> option F -> vec) (t s : F) (b : vec) (N : nat).
Notation L := (fun w => a_lo t b w (Some s)).
(* columns 0 .. k-1 are exact *)
Definition cols_ok vs (hs : seq (seq F)) : Prop := forall c, (c < size hs)%N ->
  size (nth [::] hs c) = c.+2 /\ L (nth 0 vs c) = \sum_(r < c.+2) nth 0 (nth [::] hs c) r *: nth 0 vs r.
Definition final vs (hs : seq (seq F)) (bk : option nat) : Prop :=
  let m := size vs in
  [/\ size hs = m, size (last [::] hs) = m,
      forall c, (c.+1 < m)%N -> size (nth [::] hs c) = c.+2 /\
        L (nth 0 vs c) = \sum_(r < c.+2) nth 0 (nth [::] hs c) r *: nth 0 vs r
    & exists res : vec, [/\ L (nth 0 vs m.-1) = \sum_(r < m) nth 0 (last [::] hs) r *: nth 0 vs r + res,
        perp res vs, bk = Some m.-1 -> norm2 res < (10%:R ^+ 14)^-1, bk = None -> m = N /\ (10%:R ^+ 14)^-1 <= norm2 res
      & bk = None \/ bk = Some m.-1]].
Lemma loop_ok todo k vs hs : (0 < todo)%N -> (todo + k = N)%N -> size vs = k.+1 -> size hs = k ->
  orthonormal vs -> cols_ok vs hs ->
  let: (vs', hs', bk) := arn_lo_loop a_lo t s b N todo k vs hs in
  [/\ orthonormal vs', final vs' hs' bk, nth 0 vs' 0 = nth 0 vs 0, (0 < size vs')%N & (size vs' <= N)%N].
Proof.
elim: todo k vs hs => // todo ih k vs hs _ hN sv sh ho hc /=.
rewrite /arn_inner_lo take_oversize ?sv //.
have := mgs_sum vs (L (nth 0 vs k)); have := mgs_size vs (L (nth 0 vs k)).
have := @mgs_perp [::] vs (L (nth 0 vs k)) ho (fun i h => False_ind _ (notF h)).
case: (mgs vs _) => h r /= hp hsz hsum.
have kN : (k < N)%N by rewrite -hN addSn ltnS leq_addl.
case: (ltP (norm2 r) (lo_tol F)) => hr.
  rewrite andbF; split=> //; last by rewrite sv.
    split; rewrite ?size_rcons ?sh ?sv ?last_rcons //=.
    - by rewrite hsz sv.
    - by move=> c; rewrite ltnS => hk; rewrite nth_rcons sh hk; apply: hc; rewrite sh.
    - exists r; split=> //; first by rewrite -sv; rewrite -hsum.
      by right.
  by rewrite sv.
rewrite andbT; case: (ltnP k.+1 N) => hk; last first.
  have t0 : todo = 0%N by apply/eqP; rewrite -leqn0 -(leq_add2r k.+1) add0n addnS -addSn hN.
  rewrite t0 /=; split=> //; [|by rewrite sv|by rewrite sv].
  split; rewrite ?size_rcons ?sh ?sv ?last_rcons //=.
  - by rewrite hsz sv.
  - by move=> c; rewrite ltnS => hk'; rewrite nth_rcons sh hk'; apply: hc; rewrite sh.
  - exists r; split=> //; [by rewrite -sv; rewrite -hsum| |by left].
    by split=> //; apply/eqP; rewrite eqn_leq hk andbT.
have r0 : norm2 r != 0 by rewrite gt_eqF // (lt_le_trans lo_tol_gt0).
have rn0 : r != 0 by rewrite -norm2_gt0 (lt_le_trans lo_tol_gt0).
have := ih k.+1 (rcons vs ((1 / norm2 r) *: r)) (rcons hs (rcons h (norm2 r))).
case: arn_lo_loop => [[vs' hs'] bk].
case.
- by move: hk; rewrite -hN addSn ltnS -[X in (X < _)%N]add0n ltn_add2r.
- by rewrite addnS -addSn.
- by rewrite size_rcons sv.
- by rewrite size_rcons sh.
- apply: orth_rcons => //; last by rewrite mul1r; exact: normalised.
  by move=> i hi; rewrite dotvZl hp // mulr0.
- move=> c; rewrite size_rcons ltnS sh leq_eqVlt => /orP [/eqP ->|hck].
    rewrite nth_rcons sh ltnn eqxx size_rcons hsz sv; split=> //.
    rewrite !nth_rcons sv ltnS leqnn big_ord_recr /= !nth_rcons hsz sv ltnn eqxx scalerA mul1r mulfV // scale1r.
    rewrite [LHS]hsum sv; congr (_ + _); apply: eq_bigr => i _.
    by rewrite !nth_rcons hsz sv ltn_ord.
  have hcs : (c < size hs)%N by rewrite sh.
  have [h1 h2] := hc c hcs.
  rewrite nth_rcons sh hck h1; split=> //; rewrite nth_rcons sv ltnW ?ltnS ?(ltnW hck) //.
  rewrite h2; apply: eq_bigr => i _; rewrite [nth 0 (rcons vs _) i]nth_rcons sv.
  by rewrite (leq_trans (ltn_ord i)).
- by move=> h1 h2 h3 h4 h5; split=> //; rewrite h3 nth_rcons sv.
Qed.
End Arn.

(* C78.  arnoldi_lo with b != 0 and a positive number of iterations always returns.  With m vectors, at most N
   and at most n: they are orthonormal, the first is b / |b|; the m columns of H fill an m x m upper Hessenberg matrix, the
   operator L (taken at the point b) satisfies L v_c = sum_r H_rc v_r for every vector but the last and
   L v_last = sum_r H_rc v_r + res with res orthogonal to all; breakdown_n is the index of the last column
   exactly when |res| < 1e-14, and is -1 only if m = N. *)
Theorem C78_arnoldi (F : rcfType) n a_lo (t s : F) (b : 'cV[F]_n) (N : nat) : b != 0 -> (0 < N)%N ->
  exists vs hs bk, arnoldi_lo a_lo t s b N = Ok (vs, hs, bk) /\
  [/\ orthonormal vs, nth 0 vs 0 = (norm2 b)^-1 *: b, (0 < size vs <= N)%N, (size vs <= n)%N
    & final a_lo t s b N vs hs bk].
Proof.
move=> b0 N0; rewrite /arnoldi_lo.
have -> : (norm2 b == 0) = false by rewrite gt_eqF // norm2_gt0.
have := @loop_ok F n a_lo t s b N N 0 [:: (1 / norm2 b) *: b] [::] N0 (addn0 N) erefl erefl.
case: arn_lo_loop => [[vs hs] bk]; case.
- by move=> [|i] [|j] //= _ _; rewrite mul1r normalised.
- by [].
move=> ho hf h0 s0 sN; exists vs, hs, bk; move: (hf) => [h1 h2 h3 _].
have -> : has (fun h : seq F => (size (last [::] hs) < size h)%N) hs = false.
  apply/negbTE/hasPn => h /(nthP [::]) [c hc <-]; rewrite -leqNgt h2.
  case: (ltnP c.+1 (size vs)) => hcv; first by rewrite (h3 c hcv).1.
  have e : size hs = c.+1 by apply/eqP; rewrite eqn_leq hc andbT h1.
  have -> : c = (size hs).-1 by rewrite e.
  by rewrite nth_last h2.
rewrite h2 h1 s0 eqxx /=; split=> //; split.
- exact: ho.
- by rewrite h0 /= mul1r.
- exact: sN.
- exact: orth_size ho.
- exact: hf.
Qed.
Print Assumptions C78_arnoldi.

(* C78.  The operator is taken at the vector b, not at a state of the system: with a matrix function, A(t, b). *)
Theorem C78_arnoldi_point (F : rcfType) n (A : F -> 'cV[F]_n -> 'M[F]_n) (t s : F) (b : 'cV[F]_n) (N : nat) :
  arnoldi_lo (fmatlop_apply A) t s b N = arnoldi_lo (matlop_apply (A t b)) t s b N.
Proof.
rewrite /arnoldi_lo; case: ifP => // _.
have e todo : forall k vs hs, arn_lo_loop (fmatlop_apply A) t s b N todo k vs hs =
    arn_lo_loop (matlop_apply (A t b)) t s b N todo k vs hs.
  elim: todo => //= todo ih k vs hs.
  by rewrite /arn_inner_lo /fmatlop_apply /matlop_apply; case: mgs => h r; case: ifP.
by rewrite e.
Qed.
Print Assumptions C78_arnoldi_point.

(* C78.  The refusals. *)
Theorem C78_arnoldi_refuses (F : rcfType) n a_lo (t s : F) (b : 'cV[F]_n) N :
  (exists r, arnoldi_lo a_lo t s b N = Ok r) <-> b != 0 /\ (0 < N)%N.
Proof.
split; last first.
  by case=> b0 N0; have [vs [hs [bk [-> _]]]] := C78_arnoldi a_lo t s b0 N0; eexists.
case: N => [|N] [r]; rewrite /arnoldi_lo; first by case: ifP.
case: ifP => // /negbT h _; split=> //; apply/eqP => b0; move: h; rewrite b0 norm2_0 eqxx //.
Qed.
Print Assumptions C78_arnoldi_refuses.
