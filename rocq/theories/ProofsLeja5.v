(* ProofsLeja5.v : sub-stepping and the running sub-step size. *)
From mathcomp Require Import all_ssreflect all_algebra.
From mathcomp Require Import ring.
From mathcomp Require Import complex.
From Verif Require Import ModelHist ModelOps ModelKrylov ModelInt ModelLeja SpecLeja.
Set Implicit Arguments.
Unset Strict Implicit.
Unset Printing Implicit Defensive.
Import Order.TTheory GRing.Theory Num.Theory.
Local Open Scope ring_scope.

Section Sub.
Variables (F : rcfType) (V : Type) (expmv : F -> V -> V * nat * bool).
Local Notation loop := (substep_loop expmv).

Definition msum (s : seq F) := \sum_(a <- s) a.
Definition mmax (m : F) (s : seq F) := foldl Num.max m s.

(* small order facts *)
Local Notation g := (6%:R / 5%:R : F).
Lemma g_gt1 : 1 < g. Proof. by rewrite ltr_pdivl_mulr ?ltr0n // mul1r ltr_nat. Qed.
Lemma g_gt0 : 0 < g. Proof. exact: lt_trans ltr01 g_gt1. Qed.
Lemma div_g_le (a : F) : 0 < a -> a / g <= a.
Proof. by move=> a0; rewrite ler_pdivr_mulr ?g_gt0 // ler_pmulr // ltW // g_gt1. Qed.
Lemma div_g_gt0 (a : F) : 0 < a -> 0 < a / g.
Proof. by move=> a0; rewrite divr_gt0 // g_gt0. Qed.
Lemma exact1 (dts tau : F) : dts <= 1 - tau -> 1 <= tau + dts -> tau + dts = 1.
Proof. by move=> h1 h2; apply/eqP; rewrite eq_le h2 andbT addrC -ler_subr_addr. Qed.
Lemma not1 (dts tau : F) : 0 < dts -> dts <= 1 - tau -> (1 <= tau) = false.
Proof. by move=> h1 h2; apply/negbTE; rewrite -ltNge -subr_gt0; apply: lt_le_trans h2. Qed.

Lemma substep_loop_spec f dts tau w it m r : 0 < dts -> dts <= 1 - tau ->
  loop f dts tau w it m = Ok r ->
  exists att k, [/\ (size att <= f.+1)%N,
    replay expmv w att = Some (r.1.1.1, k) /\ r.1.1.2 = (it + k)%N,
    all (fun t => 0 < t <= dts) (accepted att) /\ accepted att != [::],
    tau + msum (accepted att) = 1 &
    r.1.2 = true /\ r.2 = mmax m (accepted att)].
Proof.
elim: f dts tau w it m => [|f IH] dts tau w it m d0 d1 /=;
  case E : (expmv dts w) => [[w' k] c]; case: c E => E /=.
- case: ifP => // ht [<-] /=; have e1 := exact1 d1 ht.
  exists [:: (dts, true)], k; rewrite /msum /accepted /= E eqxx big_seq1 d0 lexx addn0.
  by split.
- by rewrite (not1 d0 d1).
- case: ifP => [ht [<-]|ht] /=.
    have e1 := exact1 d1 ht.
    exists [:: (dts, true)], k; rewrite /msum /accepted /= E eqxx big_seq1 d0 lexx addn0.
    by split.
  move/negbT: ht; rewrite -ltNge => ht.
  case/IH => [| |att [k' [h1 [h2 h2'] [h3 h3'] h4 [h5 h6]]]].
  + by rewrite lt_minr d0 /= subr_gt0.
  + by rewrite le_minl lexx orbT.
  exists ((dts, true) :: att), (k + k')%N; rewrite /accepted /= -/(accepted att) E eqxx h2; split=> //.
  + by rewrite h2' addnA.
  + rewrite d0 lexx; split=> //=; apply: sub_all h3 => t /andP[-> /= ht']; apply: (le_trans ht').
    by rewrite le_minl lexx.
  + by rewrite -h4 /msum big_cons addrA.
- rewrite (not1 d0 d1).
  have hd := div_g_le d0; have hd0 := div_g_gt0 d0.
  case/IH => [//| |att [k' [h1 [h2 h2'] [h3 h3'] h4 [h5 h6]]]].
  + exact: le_trans hd d1.
  exists ((dts, false) :: att), (k + k')%N; rewrite /accepted /= -/(accepted att) E eqxx h2; split=> //.
  + by rewrite h2' addnA.
  + by split=> //=; apply: sub_all h3 => t /andP[-> /= ht']; apply: (le_trans ht').
Qed.

Lemma substep_loop_raise f dts tau w it m e : loop f dts tau w it m = Raise e -> e = RuntimeErrorExn.
Proof.
elim: f dts tau w it m => [|f IH] dts tau w it m /=;
  case E : (expmv dts w) => [[w' k] c]; case: c E => E /=; case: ifP => // _; try by case.
  by move/IH.
by move/IH.
Qed.

(* nonpositive initial size: never succeeds *)
Lemma substep_loop_nonpos f dts tau w it m : dts <= 0 -> tau <= 0 -> loop f dts tau w it m = Raise RuntimeErrorExn.
Proof.
elim: f dts tau w it m => [|f IH] dts tau w it m d0 t0 /=;
  case E : (expmv dts w) => [[w' k] c]; case: c E => E /=.
- have ht : tau + dts <= 0 by rewrite -[0]addr0 ler_add.
  by rewrite (lt_geF (le_lt_trans ht ltr01)).
- by rewrite (lt_geF (le_lt_trans t0 ltr01)).
- have ht : tau + dts <= 0 by rewrite -[0]addr0 ler_add.
  by rewrite (lt_geF (le_lt_trans ht ltr01)); apply: IH; rewrite // le_minl d0.
- rewrite (lt_geF (le_lt_trans t0 ltr01)); apply: IH => //.
  by rewrite ler_pdivr_mulr ?mul0r // g_gt0.
Qed.

(* liveness *)
Lemma substep_loop_live (delta d : F) (rr q f : nat) dts tau w it m :
  0 < delta -> 0 < d -> d <= delta / g ->
  (forall t v, 0 < t -> t <= delta -> (expmv t v).2 = true) ->
  0 < dts -> dts <= 1 - tau -> d <= dts \/ dts = 1 - tau ->
  dts <= delta * g ^+ rr -> 1 - tau <= q%:R * d -> (rr + q <= f.+1)%N ->
  exists r, loop f dts tau w it m = Ok r.
Proof.
move=> dl0 d0 dd hconv.
elim: f rr q dts tau w it m => [|f IH] rr q dts tau w it m h1 h2 h3 h4 h5 h6 /=;
  case E : (expmv dts w) => [[w' k] c].
- case: q h5 h6 => [|q] h5.
    by exfalso; move: (lt_le_trans h1 (le_trans h2 h5)); rewrite mul0r ltxx.
  rewrite addnS ltnS leqn0 addn_eq0 => /andP[/eqP r0 /eqP q0]; subst.
  move: h4 h5; rewrite expr0 mulr1 mul1r => h4 h5.
  have := hconv dts w h1 h4; rewrite E /= => ->.
  have e1 : tau + dts = 1.
    case: h3 => h3; last by rewrite h3 addrC subrK.
    by apply: exact1 => //; rewrite addrC -ler_subl_addr; apply: le_trans h5 h3.
  by rewrite /= e1 lexx; eexists.
- case: c E => E /=.
    case: ifP => [_|/negbT]; first by eexists.
    rewrite -ltNge => ht.
    have h3' : d <= dts by case: h3 => // e; exfalso; move: ht; rewrite e addrC subrK ltxx.
    case: q h5 h6 => [|q] h5 h6.
      by exfalso; move: (lt_le_trans h1 (le_trans h2 h5)); rewrite mul0r ltxx.
    apply: (IH rr q).
    + by rewrite lt_minr h1 /= subr_gt0.
    + by rewrite le_minl lexx orbT.
    + by rewrite /Num.min; case: ifP => _; [left|right].
    + by rewrite le_minl h4.
    + move: h5; rewrite -addn1 natrD mulrDl mul1r opprD addrA => h5.
      by rewrite ler_subl_addr; apply: le_trans h5 _; rewrite ler_add2l.
    + by move: h6; rewrite addnS.
  rewrite (not1 h1 h2).
  have hgt : delta < dts.
    rewrite ltNge; apply/negP => hle; have := hconv dts w h1 hle; by rewrite E.
  case: rr h4 h6 => [|rr] h4 h6.
    by exfalso; move: (lt_le_trans hgt h4); rewrite expr0 mulr1 ltxx.
  apply: (IH rr q) => //.
  + exact: div_g_gt0.
  + exact: le_trans (div_g_le h1) h2.
  + by left; apply: (le_trans dd); rewrite ler_pmul2r ?invr_gt0 ?g_gt0 // ltW.
  + by rewrite ler_pdivr_mulr ?g_gt0 // -mulrA -exprSr.
Qed.
End Sub.

Lemma mmax_bounds (F : rcfType) (m b : F) s : 0 <= m -> m <= b -> all (fun t => 0 < t <= b) s ->
  mmax m s <= b /\ (s != [::] -> 0 < mmax m s).
Proof.
elim: s m => [|t s IH] m m0 mb /=; first by [].
case/andP=> /andP[t0 tb] hs.
have h1 : 0 <= Num.max m t by rewrite le_maxr m0.
have h2 : Num.max m t <= b by rewrite le_maxl mb.
have [h3 _] := IH _ h1 h2 hs; split=> // _.
apply: lt_le_trans t0 _; apply: (@le_trans _ _ (Num.max m t)); first by rewrite le_maxr lexx orbT.
have : forall (m' : F) s', m' <= mmax m' s'.
  move=> m' s'; elim: s' m' => [|a s' IH'] m' //=; apply: le_trans (IH' _).
  by rewrite le_maxr lexx.
exact.
Qed.
