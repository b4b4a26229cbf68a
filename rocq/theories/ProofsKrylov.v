(* ProofsKrylov.v : invariants of the Arnoldi iteration *)
From mathcomp Require Import all_ssreflect all_algebra.
From Verif Require Import ModelHist MxBase ModelOps SpecOps ProofsOps ModelPhi ModelKrylov.
Set Implicit Arguments.
Unset Strict Implicit.
Unset Printing Implicit Defensive.
Import Order.TTheory GRing.Theory Num.Theory.
Local Open Scope ring_scope.

Section Norms.
Variable F : rcfType.
Variable n : nat.
Implicit Types u v w : 'cV[F]_n.
Lemma dotvC u v : dotv u v = dotv v u.
Proof. by apply: eq_bigr => i _; rewrite mulrC. Qed.
Lemma dotvDl u v w : dotv (u + v) w = dotv u w + dotv v w.
Proof. by rewrite /dotv -big_split; apply: eq_bigr => i _; rewrite mxE mulrDl. Qed.
Lemma dotvZl c u w : dotv (c *: u) w = c * dotv u w.
Proof. by rewrite /dotv mulr_sumr; apply: eq_bigr => i _; rewrite mxE mulrA. Qed.
Lemma dotvNl u w : dotv (- u) w = - dotv u w.
Proof. by rewrite -scaleN1r dotvZl mulN1r. Qed.
Lemma dotv0l w : dotv 0 w = 0.
Proof. by rewrite /dotv big1 // => i _; rewrite mxE mul0r. Qed.
Lemma dotvZr c u w : dotv u (c *: w) = c * dotv u w.
Proof. by rewrite dotvC dotvZl dotvC. Qed.
Lemma dotv_suml I (r : seq I) (P : pred I) (f : I -> 'cV[F]_n) w :
  dotv (\sum_(i <- r | P i) f i) w = \sum_(i <- r | P i) dotv (f i) w.
Proof.
elim: r => [|i r IH]; first by rewrite !big_nil dotv0l.
by rewrite !big_cons; case: ifP => _ //; rewrite dotvDl IH.
Qed.
Lemma dotv_ge0 u : 0 <= dotv u u.
Proof. by apply: sumr_ge0 => i _; rewrite -expr2 sqr_ge0. Qed.
Lemma dotv_eq0 u : dotv u u = 0 -> u = 0.
Proof.
move/eqP; rewrite psumr_eq0; last by move=> i _; rewrite -expr2 sqr_ge0.
move=> /allP h; apply/matrixP => i j; rewrite ord1 mxE; apply/eqP.
by have := h i (mem_index_enum i); rewrite -expr2 sqrf_eq0.
Qed.
Lemma norm2_ge0 u : 0 <= norm2 u.
Proof. exact: sqrtr_ge0. Qed.
Lemma norm2_sqr u : norm2 u ^+ 2 = dotv u u.
Proof. by rewrite sqr_sqrtr // dotv_ge0. Qed.
Lemma norm2_eq0 u : norm2 u = 0 -> u = 0.
Proof. by move=> h; apply: dotv_eq0; rewrite -norm2_sqr h expr0n. Qed.
Lemma norm2_0 : norm2 (0 : 'cV[F]_n) = 0.
Proof. by rewrite /norm2 dotv0l sqrtr0. Qed.
Lemma norm2_gt0 u : (0 < norm2 u) = (u != 0).
Proof.
rewrite lt_neqAle norm2_ge0 andbT eq_sym; congr negb.
by apply/eqP/eqP => [/norm2_eq0|->] //; rewrite norm2_0.
Qed.
Lemma norm2Z c u : norm2 (c *: u) = `|c| * norm2 u.
Proof.
rewrite /norm2 dotvZl dotvZr mulrA -expr2 sqrtrM ?sqr_ge0 // sqrtr_sqr //.
Qed.
Lemma norm2_1 u : dotv u u = 1 -> norm2 u = 1.
Proof. by rewrite /norm2 => ->; rewrite sqrtr1. Qed.
Lemma normalised u : u != 0 -> dotv ((norm2 u)^-1 *: u) ((norm2 u)^-1 *: u) = 1.
Proof.
rewrite -norm2_gt0 => h; rewrite dotvZl dotvZr -norm2_sqr mulrA -expr2 -exprMn.
by rewrite mulVf ?gt_eqF // expr1n.
Qed.
End Norms.

Section MGS.
Variable F : rcfType.
Variable n : nat.
Variable qs : nat -> 'cV[F]_n.
Variable k : nat.

Lemma mgs_fold d len hs qv :
  let r := foldl (body_ortho qs k) (hs, qv) (iota d len) in
  [/\ forall i j, ~~ ((j == k) && (d <= i < d + len)%N) -> r.1 i j = hs i j,
      r.2 = qv - \sum_(d <= i < d + len) r.1 i k *: qs i &
      (forall i j, (d <= i < d + len)%N -> (d <= j < d + len)%N -> dotv (qs i) (qs j) = (i == j)%:R) ->
      forall i, (d <= i < d + len)%N -> dotv r.2 (qs i) = 0].
Proof.
elim: len => [|len IH].
  rewrite addn0 /=; split=> //; first by rewrite big_geq // subr0.
  by move=> _ i; rewrite ltnNge; case: leqP.
have -> : iota d len.+1 = rcons (iota d len) (d + len)%N.
  by rewrite -(addn1 len) iotaD cats1.
rewrite foldl_rcons; set st := foldl _ _ _ in IH *.
move: IH; rewrite /=; case: st => hs' qv' /= [IHa IHb IHc].
set x := (d + len)%N; set ht := dotv qv' (qs x).
rewrite addnS -/x; split.
- move=> i j hij; rewrite /upd2; case: ifP => [/andP[/eqP ei /eqP ej]|_].
    by move: hij; rewrite ej eqxx ei /= ltnS leqnn andbT /x leq_addr.
  apply: IHa; move: hij; case: (j == k) => //=; apply: contra => /andP[-> h] /=.
  by rewrite ltnW // ltnS.
- rewrite big_nat_recr ?leq_addr //= {2}/upd2 !eqxx /= opprD addrA IHb; congr (_ - _ - _).
  apply: eq_big_nat => i /andP[_ ix]; congr (_ *: _).
  by rewrite /upd2 (ltn_eqF ix).
- move=> ho i /andP[di]; rewrite ltnS leq_eqVlt => /orP[/eqP->|ix].
    rewrite dotvDl dotvNl dotvZl ho ?leq_addr ?leqnn ?ltnSn //.
    by rewrite eqxx mulr1 subrr.
  rewrite dotvDl dotvNl dotvZl IHc ?di ?ix //.
    rewrite ho ?di ?leq_addr ?ltnSn ?(ltnW ix) ?ltnS ?(ltnW ix) //.
    by rewrite gtn_eqF // mulr0 subr0.
  move=> i' j' /andP[a b] /andP[a' b']; apply: ho; rewrite ?a ?a' /= ltnS ltnW //.
Qed.
End MGS.

Lemma tol_gt0 (F : rcfType) : 0 < breakdown_tol F.
Proof. by rewrite invr_gt0 exprn_gt0 // ltr0n. Qed.
Local Opaque breakdown_tol norm2 dotv.

Section Inv.
Variable F : rcfType.
Variable n : nat.
Variable L : 'cV[F]_n -> 'cV[F]_n.
Variable s : F.
Variables m iom : nat.
(* the test for going on; the Python code uses norm > tol, the Rust code not (norm < tol) *)
Variable sub : F -> bool.
Hypothesis sub_gt0 : forall x, sub x -> 0 < x.

Definition hzero (k : nat) (hs : nat -> nat -> F) : Prop :=
  forall i j, ~~ [&& (j < k)%N, (i <= j.+1)%N & (j <= i + iom)%N] -> hs i j = 0.

(* columns 0..k are usable *)
Record running (k : nat) (hs : nat -> nat -> F) (qs : nat -> 'cV[F]_n) : Prop := Running {
  run_unit : forall j, (j <= k)%N -> dotv (qs j) (qs j) = 1;
  run_orth : forall i j, (i < j <= k)%N -> (j - i <= iom.+1)%N -> dotv (qs i) (qs j) = 0;
  run_zero : hzero k hs;
  run_rel : forall j, (j < k)%N -> s *: L (qs j) = \sum_(0 <= i < j.+2) hs i j *: qs i;
  run_sub : forall j, (j < k)%N -> sub (hs j.+1 j) }.

(* residual of the last column *)
Definition resid (k : nat) (hs : nat -> nat -> F) (qs : nat -> 'cV[F]_n) : 'cV[F]_n :=
  s *: L (qs k.-1) - \sum_(0 <= i < k) hs i k.-1 *: qs i.

Record gfinished (k : nat) (hs : nat -> nat -> F) (qs : nat -> 'cV[F]_n) (nb : bool) : Prop := GFinished {
  fin_pos : (0 < k <= m)%N;
  fin_unit : forall j, (j < k)%N -> dotv (qs j) (qs j) = 1;
  fin_orth : forall i j, (i < j < k)%N -> (j - i <= iom.+1)%N -> dotv (qs i) (qs j) = 0;
  fin_zero : hzero k hs;
  fin_rel : forall j, (j.+1 < k)%N -> s *: L (qs j) = \sum_(0 <= i < j.+2) hs i j *: qs i;
  fin_sub : forall j, (j.+1 < k)%N -> sub (hs j.+1 j);
  fin_nb : nb = sub (norm2 (resid k hs qs));
  fin_gend : k = m \/ ~~ sub (norm2 (resid k hs qs));
  fin_orthr : forall i, (k.-1 - iom <= i < k)%N -> dotv (resid k hs qs) (qs i) = 0 }.

(* one pass with that test *)
Definition gmgs (hs : nat -> nat -> F) (qs : nat -> 'cV[F]_n) (k : nat) :=
  let iom_depth := (k - iom)%N in
  let qv := s *: L (qs k) in
  let: (hs, qv) := foldl (body_ortho qs k) (hs, qv) (iota iom_depth (k.+1 - iom_depth)) in
  let norm_v := norm2 qv in
  let hs := if (k.+1 < m)%N then upd2 hs k.+1 k norm_v else hs in
  let qs := if (k.+1 < m)%N && sub norm_v then upd1 qs k.+1 (norm_v^-1 *: qv) else qs in
  (hs, qs, sub norm_v).

Lemma gbody_step hs qs k : (k < m)%N -> running k hs qs ->
  let st := gmgs hs qs k in
  ((k.+1 < m)%N && st.2 -> running k.+1 st.1.1 st.1.2) /\
  (~~ ((k.+1 < m)%N && st.2) -> gfinished k.+1 st.1.1 st.1.2 st.2).
Proof.
move=> km [Ru Ro Rz Rr Rs]; rewrite /gmgs /=.
set d := (k - iom)%N; have dk : (d <= k.+1)%N by rewrite /d (leq_trans (leq_subr _ _)).
have := mgs_fold qs k d (k.+1 - d) hs (s *: L (qs k)); rewrite subnKC //.
case: foldl => hs1 qv /= [Ha Hb Hc].
have dk' : (d <= k)%N by rewrite leq_subr.
have ortho i : (d <= i <= k)%N -> dotv qv (qs i) = 0.
  move=> hi; apply: Hc; last by rewrite ltnS.
  move=> a b /andP[da ka] /andP[db kb]; rewrite !ltnS in ka kb.
  have [->|ab] := eqVneq a b; first by rewrite Ru.
  rewrite mulr0n.
  have dist x y : (d <= x)%N -> (y <= k)%N -> (y - x <= iom.+1)%N.
    by move=> h1 h2; apply: leq_trans (leq_sub h2 h1) _; rewrite /d; apply: leqW; rewrite leq_subLR addnC -leq_subLR.
  move: ab; rewrite neq_ltn => /orP[ab|ba].
    by apply: Ro; rewrite ?ab ?kb ?dist.
  by rewrite dotvC; apply: Ro; rewrite ?ba ?ka ?dist.
(* hs1 has the right zeros and the relation with residual qv *)
have z1 : hzero k.+1 hs1.
  move=> i j hij; case: (boolP ((j == k) && (d <= i < k.+1)%N)) => [|hn]; last first.
    rewrite Ha //; apply: Rz; apply: contra hij => /and3P[h1 h2 h3].
    by rewrite h2 h3 andbT ltnS ltnW.
  move=> /andP[/eqP ej /andP[di ik]]; case/negP: hij; rewrite ej ltnSn /=.
  by rewrite (ltnW ik) /= addnC -leq_subLR.
have rel1 : s *: L (qs k) = \sum_(0 <= i < k.+1) hs1 i k *: qs i + qv.
  rewrite (big_cat_nat _ _ _ (leq0n d) dk) /= [X in X + _ + _]big1_seq ?add0r; last first.
    move=> i /andP[_]; rewrite mem_index_iota /= => id; rewrite z1 ?scale0r //.
    by apply/and3P => -[_ _]; rewrite addnC -leq_subLR -/d leqNgt id.
  by rewrite Hb addrC subrK.
have old i j : j != k -> hs1 i j = hs i j by move=> jk; rewrite Ha // (negPf jk).
have rel2 hs2 : (forall i j, (i <= k)%N || (j < k)%N -> hs2 i j = hs1 i j) ->
   forall qs2, (forall i, (i <= k)%N -> qs2 i = qs i) ->
   resid k.+1 hs2 qs2 = qv.
  move=> h2 qs2 q2; rewrite /resid /= q2 // rel1 addrC addrA.
  rewrite (eq_big_nat _ _ (F2 := fun i => hs1 i k *: qs i)) ?addNr ?add0r //.
  by move=> i /andP[_ ik]; rewrite ltnS in ik; rewrite h2 ?ik // q2.
case: (boolP (k.+1 < m)%N) => k1m /=.
- (* not the final iteration *)
  have h2 i j : (i <= k)%N || (j < k)%N -> upd2 hs1 k.+1 k (norm2 qv) i j = hs1 i j.
    rewrite /upd2; case: eqP => [->|] //=; case: eqP => [->|] //=.
    by rewrite !ltnn.
  have z2 : hzero k.+1 (upd2 hs1 k.+1 k (norm2 qv)).
    move=> i j hij; rewrite /upd2; case: ifP => [/andP[/eqP ei /eqP ej]|_]; last exact: z1.
    by case/negP: hij; rewrite ei ej !ltnSn /= addSn leqW // leq_addr.
  have relj (qs2 : nat -> 'cV[F]_n) : (forall i, (i <= k)%N -> qs2 i = qs i) ->
     forall j, (j < k)%N -> s *: L (qs2 j) = \sum_(0 <= i < j.+2) upd2 hs1 k.+1 k (norm2 qv) i j *: qs2 i.
    move=> q2 j jk; rewrite q2 ?(ltnW jk) // Rr //; apply: eq_big_nat => i /andP[_ ij].
    by rewrite h2 ?jk ?orbT // old ?ltn_eqF // q2 // -ltnS (leq_trans ij).
  case: (boolP (sub (norm2 qv))) => nbd /=; split=> // _.
    have n0 : 0 < norm2 qv by apply: sub_gt0.
    have qv0 : qv != 0 by rewrite -norm2_gt0.
    have q2 i : (i <= k)%N -> upd1 qs k.+1 ((norm2 qv)^-1 *: qv) i = qs i.
      by move=> ik; rewrite /upd1 ltn_eqF // ltnS.
    have qk : upd1 qs k.+1 ((norm2 qv)^-1 *: qv) k.+1 = (norm2 qv)^-1 *: qv by rewrite /upd1 eqxx.
    split=> //.
    + move=> j; rewrite leq_eqVlt => /orP[/eqP->|jk]; first by rewrite qk normalised.
      by rewrite q2 ?Ru.
    + move=> i j /andP[ij]; rewrite leq_eqVlt => /orP[/eqP ej|jk] dist; last first.
        have ik : (i <= k)%N by apply: leq_trans (ltnW ij) _; rewrite -ltnS.
        rewrite q2 // q2 //; apply: Ro => //; by rewrite ij.
      move: ij dist; rewrite ej => ij dist; rewrite ltnS in ij.
      rewrite qk q2 // dotvC dotvZl ortho ?mulr0 // ij andbT /d leq_subLR.
      by move: dist; rewrite leq_subLR addnS ltnS addnC.
    + move=> j; rewrite ltnS leq_eqVlt => /orP[/eqP->|jk]; last exact: relj.
      rewrite big_nat_recr //= qk q2 // rel1; congr (_ + _); last first.
        by rewrite /upd2 !eqxx /= scalerA mulfV ?scale1r // gt_eqF.
      apply: eq_big_nat => i /andP[_ ik]; rewrite ltnS in ik.
      by rewrite h2 ?ik // q2.
    + move=> j; rewrite ltnS leq_eqVlt => /orP[/eqP->|jk]; first by rewrite /upd2 !eqxx.
      by rewrite h2 ?jk ?orbT // old ?ltn_eqF // Rs.
  split=> //.
  + by move=> j jk; apply: relj.
  + move=> j; rewrite ltnS => jk; rewrite h2 ?jk ?orbT // old ?ltn_eqF //; exact: Rs.
  + by rewrite rel2 // (negPf nbd).
  + by right; rewrite rel2.
  + by move=> i /andP[hi ik]; rewrite rel2 // ortho // hi -ltnS.
- split=> // _.
  have km' : k.+1 = m by apply/eqP; rewrite eqn_leq km leqNgt k1m.
  split=> //.
  + by move=> j; rewrite ltnS => jk; rewrite Rr //; apply: eq_big_nat => i _; rewrite old // ltn_eqF.
  + move=> j; rewrite ltnS => jk; rewrite old ?ltn_eqF //; exact: Rs.
  + by rewrite rel2.
  + by left.
  + by move=> i /andP[hi ik]; rewrite rel2 // ortho // hi -ltnS.
Qed.

End Inv.
Notation tolsub F := (fun x => breakdown_tol F < x).
Notation finished L s m iom := (gfinished L s m iom (tolsub _)).
Section InvPy.
Variable F : rcfType.
Variable n : nat.
Variable L : 'cV[F]_n -> 'cV[F]_n.
Variable s : F.
Variables m iom : nat.
Lemma tolsub_gt0 (x : F) : breakdown_tol F < x -> 0 < x.
Proof. exact: lt_trans (tol_gt0 F). Qed.
Lemma fin_end k hs qs nb : finished L s m iom k hs qs nb -> k = m \/ norm2 (resid L s k hs qs) <= breakdown_tol F.
Proof. by case=> _ _ _ _ _ _ _ [->|h] _; [left|right; rewrite leNgt]. Qed.
Lemma body_step st : (a_k st < m)%N -> running L s iom (tolsub F) (a_k st) (a_hs st) (a_qs st) ->
  let st' := body_arnoldi L s m iom st in
  a_k st' = (a_k st).+1 /\
  (cond_arnoldi m st' -> running L s iom (tolsub F) (a_k st') (a_hs st') (a_qs st')) /\
  (~~ cond_arnoldi m st' -> finished L s m iom (a_k st') (a_hs st') (a_qs st') (a_nb st')).
Proof.
move=> km r; have := gbody_step tolsub_gt0 km r.
rewrite /body_arnoldi.
have -> : arnoldi_mgs_lop L s m iom (a_hs st) (a_qs st) (a_k st) = gmgs L s m iom (tolsub F) (a_hs st) (a_qs st) (a_k st) by [].
by case: gmgs => [[hs qs] nb].
Qed.
Lemma arn_while_inv fuel st :
  (a_k st + fuel = m)%N -> cond_arnoldi m st -> running L s iom (tolsub F) (a_k st) (a_hs st) (a_qs st) ->
  let st' := arn_while L s m iom fuel st in
  finished L s m iom (a_k st') (a_hs st') (a_qs st') (a_nb st') /\ ~~ cond_arnoldi m st'.
Proof.
elim: fuel st => [|fuel IH] st /= e c r.
  by move: c; rewrite /cond_arnoldi -e addn0 ltnn.
rewrite c; have km : (a_k st < m)%N by case/andP: c.
have [e1 [h1 h2]] := body_step km r.
case: (boolP (cond_arnoldi m (body_arnoldi L s m iom st))) => c'.
  by apply: IH; [rewrite e1 addSnnS|exact: c'|exact: h1].
have -> : arn_while L s m iom fuel (body_arnoldi L s m iom st) = body_arnoldi L s m iom st.
  by case: (fuel) => [|f] //=; rewrite (negPf c').
by split=> //; apply: h2.
Qed.
End InvPy.

Lemma arnoldi_finished (F : rcfType) n (L : 'cV[F]_n -> 'cV[F]_n) s b mm iom :
  b != 0 -> (0 < mm)%N ->
  let st := arnoldi_lop_jit L s b mm iom in
  finished L s (minn n mm) iom (a_k st) (a_hs st) (a_qs st) (a_nb st).
Proof.
move=> b0 mm0 /=; rewrite /arnoldi_lop_jit.
have n0 : (0 < n)%N.
  case: (posnP n) b0 => // e; move: b; rewrite e => b.
  by rewrite [b]flatmx0 eqxx.
have m0 : (0 < minn n mm)%N by rewrite leq_min n0.
have nb : 0 < norm2 b by rewrite norm2_gt0.
have [] // := @arn_while_inv F n L s (minn n mm) iom (minn n mm) (arnoldi_init b).
- by rewrite /cond_arnoldi /= m0.
- rewrite /arnoldi_init /= nb; split=> //=.
  + move=> j; rewrite leqn0 => /eqP->; rewrite /upd1 eqxx; exact: normalised.
  + by move=> i j /andP[ij]; rewrite leqn0 => /eqP e; rewrite e in ij.
Qed.

(* the fuel of the while loop suffices: the loop always stops because its condition fails *)
Lemma arn_while_done (F : rcfType) n (L : 'cV[F]_n -> 'cV[F]_n) s m iom fuel st :
  (m <= a_k st + fuel)%N -> ~~ cond_arnoldi m (arn_while L s m iom fuel st).
Proof.
elim: fuel st => [|f IH] st /=; first by rewrite addn0 /cond_arnoldi ltnNge => ->.
case: ifP => [c h|->] //; apply: IH; rewrite /body_arnoldi.
by case: arnoldi_mgs_lop => -[hs qs] nb /=; rewrite addSnnS.
Qed.
