(* ProofsPhi.v : algebraic facts about the dense phi functions (no limits). *)
From mathcomp Require Import all_ssreflect all_algebra.
From mathcomp Require Import ring.
From mathcomp Require Import complex.
From Verif Require Import MxBase ModelPhi.
Set Implicit Arguments.
Unset Strict Implicit.
Unset Printing Implicit Defensive.
Import Order.TTheory GRing.Theory Num.Theory.
Local Open Scope ring_scope.

Section Poly.
Variable F : numFieldType.
Variable n : nat.
Implicit Types z : 'M[F]_n.

Lemma poly_loopE z k deg : (k.+1 <= deg)%N ->
  poly_loop z k deg = phi_psum k (deg - k).+1 z.
Proof.
move=> h; rewrite /poly_loop.
set f := (fun st j => _).
have H d : foldl f ((k.+1%:R)^-1 *: ((k`!%:R)^-1 *: z),
                    (k`!%:R)^-1 *: 1%:M + (k.+1%:R)^-1 *: ((k`!%:R)^-1 *: z)) (iota k.+2 d)
         = (ifact F (k.+1 + d) *: mxpow z d.+1, phi_psum k d.+2 z).
  elim: d => [|d IH].
    rewrite /= !phi_psumSr phi_psum0 add0r mxpow0 addn0 mxpow1 scalerA add0n add1n.
    by rewrite ifactS -/(ifact F k) mulrC.
  have -> : iota k.+2 d.+1 = iota k.+2 d ++ [:: (k.+2 + d)%N] by rewrite -(addn1 d) iotaD.
  rewrite foldl_cat IH /= /f /=.
  have -> : ((k.+2 + d)%N%:R : F)^-1 *: (z *m (ifact F (k.+1 + d) *: mxpow z d.+1))
          = ifact F (k.+1 + d.+1) *: mxpow z d.+2.
    by rewrite -scalemxAr scalerA -mxpowS addnS [in RHS]ifactS mulrC addSn.
  by rewrite [in RHS]phi_psumSr addSnnS (addnC k).
rewrite H /=; congr (phi_psum _ _ _).
by rewrite -subSn // subSS.
Qed.

Lemma poly_downE z j M f l :
  (forall j', j = j'.+1 -> f = j'`!%:R) ->
  (if l is x :: _ then x else 0) = phi_psum j M z ->
  poly_down z j f l = [seq phi_psum i (M + (j - i)) z | i <- iota 0 j] ++ l.
Proof.
elim: j M f l => [|j IH] M f l hf hl //=.
have e : iota 0 j.+1 = iota 0 j ++ [:: j] by rewrite -(addn1 j) iotaD.
rewrite [RHS](_ : _ = [seq phi_psum i (M + (j.+1 - i)) z | i <- iota 0 j.+1] ++ l) //.
rewrite e map_cat -catA /= subSn // subnn addn1.
rewrite (IH M.+1) /=.
- have -> : f^-1 *: 1%:M + z *m (if l is x :: _ then x else 0) = phi_psum j M.+1 z.
    by rewrite hl (hf j) // phi_psum_rec.
  congr (_ ++ _); apply/eq_in_map => i; rewrite mem_iota add0n => /andP[_ ij].
  by rewrite addSnnS subSn // ltnW.
- by move=> j' e'; rewrite (hf j) // e' factS natrM mulrC mulKf // pnatr_eq0.
- by rewrite hl (hf j) // phi_psum_rec.
Qed.

Lemma f_phi_k_poly_allE z k deg : (k.+1 <= deg)%N ->
  f_phi_k_poly_all z k deg = Some [seq phi_psum j (deg - j).+1 z | j <- iota 0 k.+1].
Proof.
move=> h; rewrite /f_phi_k_poly_all h; congr Some.
rewrite (@poly_downE _ _ (deg - k).+1); last by rewrite poly_loopE.
- rewrite -[in RHS]addn1 iotaD map_cat /= poly_loopE //; congr (_ ++ _).
  apply/eq_in_map => i; rewrite mem_iota add0n => /andP[_ ik].
  congr (phi_psum _ _ _); rewrite addSn; congr S.
  by rewrite addnBA ?(ltnW ik) // subnK // (ltnW h).
- by case: k h => // k h j' [<-]; rewrite factS natrM mulrC mulKf // pnatr_eq0.
Qed.

End Poly.

Section Squaring.
Variable F : numFieldType.
Variable n : nat.
Implicit Types z : 'M[F]_n.
Implicit Types phis : seq 'M[F]_n.

(* closed form of one squaring pass *)
Definition sq_spec phis (j : nat) : 'M[F]_n :=
  if j == 0%N then nth 0 phis 0 *m nth 0 phis 0
  else (2%:R ^+ j)^-1 *: (nth 0 phis 0 *m nth 0 phis j
        + \sum_(1 <= l < j.+1) ifact F (j - l) *: nth 0 phis l).

Lemma sq_inner_size phis j : (j < size phis)%N -> size (sq_inner phis j) = size phis.
Proof.
move=> h; rewrite /sq_inner.
set phis1 := set_nth _ _ _ _.
have s1 : size phis1 = size phis by rewrite size_set_nth; apply/maxn_idPr.
suff H (s : seq nat) (l : seq (matrix F n n)) : (j < size l)%N -> size (foldl (fun l jj => set_nth 0 l j
    (nth 0 l j + scaling F j jj *: nth 0 l jj)) l s) = size l by rewrite H ?s1.
elim: s l => //= a s IH l hl; rewrite IH size_set_nth; first by apply/maxn_idPr.
by rewrite leq_max hl orbT.
Qed.

Lemma sq_inner_nth phis j i : (0 < j < size phis)%N ->
  nth 0 (sq_inner phis j) i = if i == j then sq_spec phis j else nth 0 phis i.
Proof.
move=> /andP[j0 js]; rewrite /sq_inner.
set phis1 := set_nth _ _ _ _.
set g := (fun l jj => _).
have n1 a : nth 0 phis1 a = if a == j then scaling F j j *: (nth 0 phis 0 *m nth 0 phis j + nth 0 phis j)
   else nth 0 phis a by rewrite nth_set_nth /=; case: eqP.
have H (s : seq nat) (l : seq (matrix F n n)) : all (fun a => a < j)%N s -> forall a,
   nth 0 (foldl g l s) a = nth 0 l a + (if a == j then \sum_(jj <- s) scaling F j jj *: nth 0 l jj else 0).
  elim: s l => [|b s IH] l /= hs a; first by rewrite big_nil; case: eqP; rewrite addr0.
  case/andP: hs => bj hs; rewrite IH // /g !nth_set_nth /=.
  case: eqP => [->|_]; last by rewrite addr0.
  rewrite big_cons addrA; congr (_ + _).
  apply: eq_big_seq => c cs; rewrite nth_set_nth /= ifN //.
  by move/allP: hs => /(_ _ cs) cj; rewrite neq_ltn cj.
rewrite H; last first.
  by apply/allP => a; rewrite mem_rev mem_iota => /andP[a1]; rewrite addnC addn1 prednK.
rewrite n1; case: eqP => [_|_]; last by rewrite addr0.
have jn0 : (j == 0%N) = false by case: j j0 {js phis1 g n1 H}.
rewrite /sq_spec jn0 big_nat_recr //= subnn ifact0 scale1r.
rewrite [X in X + _ = _](_ : _ = (2%:R ^+ j)^-1 *: (nth 0 phis 0 *m nth 0 phis j + nth 0 phis j)); last first.
  by rewrite /scaling subnn fact0 mul1r.
rewrite [X in _ = _ *: X]addrCA [X in _ = _ *: X]addrC [in RHS]scalerDr; congr (_ + _).
rewrite (perm_big (iota 1 j.-1)) /=; last by rewrite perm_rev.
rewrite /index_iota subn1 scaler_sumr; apply: eq_big_seq => l.
rewrite mem_iota => /andP[_]; rewrite addnC addn1 prednK // => lj.
by rewrite n1 ifN ?neq_ltn ?lj // scalerA /scaling invfM mulrC.
Qed.

Lemma sq_step_foldl k phis : (k < size phis)%N ->
  let l := foldl (@sq_inner F n) phis (rev (iota 1 k)) in
  size l = size phis /\
  forall i, nth 0 l i = if (0 < i <= k)%N then sq_spec phis i else nth 0 phis i.
Proof.
move=> hk /=.
(* after processing j = k, ..., d+1 *)
suff H (s : seq nat) (l : seq (matrix F n n)) : sorted gtn s -> all (fun a => 0 < a < size l)%N s ->
   size (foldl (@sq_inner F n) l s) = size l /\
   forall i, nth 0 (foldl (@sq_inner F n) l s) i = if i \in s then sq_spec l i else nth 0 l i.
  have [||h1 h2] := H (rev (iota 1 k)) phis.
  - by rewrite rev_sorted; apply: iota_ltn_sorted.
  - apply/allP => a; rewrite mem_rev mem_iota => /andP[-> /=]; rewrite add1n ltnS => h.
    exact: leq_ltn_trans h hk.
  by split=> // i; rewrite h2 mem_rev mem_iota add1n ltnS.
elim: s l => [|j s IH] l //= hs /andP[/andP[j0 jl] hl].
have hp := path_sorted hs.
have sz : size (sq_inner l j) = size l by apply: sq_inner_size.
have hlt a : a \in s -> (a < j)%N.
  by have := order_path_min (rev_trans ltn_trans) hs => /allP /[apply].
have [||h1 h2] := IH (sq_inner l j) => //; first by rewrite sz.
split=> [|i]; first by rewrite h1 sz.
rewrite h2 inE; case: ifP => [is_|_].
  have ij := hlt _ is_; rewrite ltn_eqF //=.
  rewrite /sq_spec; case: eqP => [_|/eqP i0].
    by rewrite sq_inner_nth ?j0 // eq_sym gtn_eqF.
  rewrite !sq_inner_nth ?j0 // eq_sym gtn_eqF // (ltn_eqF ij); congr (_ *: (_ + _)).
  rewrite !big_nat; apply: eq_bigr => b /andP[_ bi]; rewrite sq_inner_nth ?j0 //.
  by rewrite ltn_eqF // (leq_ltn_trans _ ij).
by rewrite sq_inner_nth ?j0 //; case: eqP => [->|].
Qed.

Lemma sq_step_nth k phis i : size phis = k.+1 -> (i <= k)%N ->
  nth 0 (sq_step k phis) i = sq_spec phis i.
Proof.
move=> hs ik; have [|sz h] := @sq_step_foldl k phis; first by rewrite hs.
rewrite /sq_step nth_set_nth /=; case: eqP => [->|/eqP i0].
  by rewrite /sq_spec h.
by rewrite h lt0n i0 ik.
Qed.
Lemma sq_step_size k phis : size phis = k.+1 -> size (sq_step k phis) = k.+1.
Proof.
move=> hs; have [|sz h] := @sq_step_foldl k phis; first by rewrite hs.
by rewrite /sq_step size_set_nth sz hs; apply/maxn_idPr.
Qed.

(* the recurrence of the phi functions, z phi_{j+1} = phi_j - 1/j!, and commutation with z *)
Definition phi_recur (z : 'M[F]_n) (k : nat) (f : nat -> 'M[F]_n) : Prop :=
  (forall j, (j < k)%N -> z *m f j.+1 = f j - ifact F j *: 1%:M) /\
  (forall j, (j <= k)%N -> z *m f j = f j *m z).

Lemma sum_ifact_binom j : \sum_(l < j.+1) ifact F l * ifact F (j - l) = 2%:R ^+ j * ifact F j.
Proof.
have e : (2%:R ^+ j : F) = (\sum_(l < j.+1) 'C(j, l))%:R.
  rewrite -natrX -[(2 ^ j)%N]/((1 + 1) ^ j)%N expnDn.
  by congr _%:R; apply: eq_bigr => i _; rewrite !exp1n !muln1.
rewrite e natr_sum mulr_suml; apply: eq_bigr => l _.
have lj : (l <= j)%N by rewrite -ltnS.
rewrite /ifact -(bin_fact lj) !natrM.
have h1 := fact_neq0 F l; have h2 := fact_neq0 F (j - l).
have h3 : ('C(j, l)%:R : F) != 0 by rewrite pnatr_eq0 -lt0n bin_gt0.
by field; rewrite h1 h2 h3.
Qed.

Lemma sq_spec_rec z k phis : phi_recur z k (nth 0 phis) ->
  phi_recur (2%:R *: z) k (sq_spec phis).
Proof.
move=> [hr hc].
have two0 : (2%:R : F) != 0 by rewrite pnatr_eq0.
have cz0 : z *m nth 0 phis 0 = nth 0 phis 0 *m z by apply: hc.
have hcc j : (j <= k)%N -> z *m sq_spec phis j = sq_spec phis j *m z.
  move=> jk; rewrite /sq_spec; case: ifP => _; first by rewrite mulmxA cz0 -mulmxA cz0 mulmxA.
  rewrite -scalemxAr -scalemxAl; congr (_ *: _).
  rewrite mulmxDr mulmxDl; congr (_ + _).
    by rewrite mulmxA cz0 -!mulmxA hc.
  rewrite mulmx_sumr mulmx_suml !big_nat; apply: eq_bigr => l /andP[_ lj].
  by rewrite -scalemxAr -scalemxAl hc // (leq_trans _ jk).
split=> [j jk|j jk]; last by rewrite -scalemxAl hcc // scalemxAr.
have key : z *m (nth 0 phis 0 *m nth 0 phis j.+1 +
        \sum_(1 <= l < j.+2) ifact F (j.+1 - l) *: nth 0 phis l)
   = nth 0 phis 0 *m nth 0 phis j + \sum_(1 <= l < j.+1) ifact F (j - l) *: nth 0 phis l
     - (2%:R ^+ j * ifact F j) *: 1%:M.
  rewrite mulmxDr mulmxA cz0 -mulmxA hr // mulmxBr -scalemxAr mulmx1.
  rewrite big_add1 /= mulmx_sumr big_mkord.
  rewrite (eq_bigr (fun l : 'I_j.+1 => ifact F (j - l) *: nth 0 phis l - (ifact F l * ifact F (j - l)) *: 1%:M)); last first.
    move=> l _; rewrite subSS -scalemxAr hr; last by rewrite (leq_ltn_trans _ jk) // -ltnS.
    by rewrite scalerBr scalerA [X in X *: 1%:M]mulrC.
  rewrite sumrB -scaler_suml sum_ifact_binom addrA; congr (_ - _).
  rewrite big_ord_recl subn0 /= addrA subrK; congr (_ + _).
  by rewrite big_add1 /= big_mkord; apply: eq_bigr => i _.
rewrite {1}/sq_spec /= -scalemxAl -scalemxAr key [LHS]scalerA.
have -> : 2%:R * (2%:R ^+ j.+1)^-1 = (2%:R ^+ j)^-1 :> F.
  by rewrite exprS invfM mulrA divff // mul1r.
rewrite scalerBr scalerA mulKf ?expf_neq0 //; congr (_ - _).
rewrite /sq_spec; case: eqP => [->|//].
by rewrite big_geq // addr0 expr0 invr1 scale1r.
Qed.

Lemma phi_recur_ext z k f g : (forall j, (j <= k)%N -> f j = g j) -> phi_recur z k f -> phi_recur z k g.
Proof.
move=> e [h1 h2]; split=> j jk; last by rewrite -e // h2.
by rewrite -!e ?h1 // ltnW.
Qed.

(* the Taylor start satisfies a truncated recurrence: exact in the sense of phi_recur *)
Lemma iter_sq z k phis N : size phis = k.+1 -> phi_recur z k (nth 0 phis) ->
  let r := iter N (sq_step k) phis in
  size r = k.+1 /\ phi_recur (2%:R ^+ N *: z) k (nth 0 r) /\
  nth 0 r 0 = mxpow (nth 0 phis 0) (2 ^ N).
Proof.
move=> hs h /=; elim: N => [|N [IH1 [IH2 IH3]]].
  by rewrite /= expr0 scale1r expn0 mxpow1.
rewrite iterS; split; first by apply: sq_step_size.
split.
  rewrite exprS -scalerA; apply: (@phi_recur_ext _ _ (sq_spec (iter N (sq_step k) phis))).
    by move=> j jk; rewrite sq_step_nth.
  exact: sq_spec_rec.
by rewrite sq_step_nth // /sq_spec /= IH3 -mxpowD addnn -mul2n -expnS.
Qed.

(* Taylor start: phi_psum j (deg-j).+1 satisfies the recurrence *)
Lemma poly_rec z k deg : (k <= deg)%N ->
  phi_recur z k (fun j => phi_psum j (deg - j).+1 z).
Proof.
move=> kd; split=> j jk; last by rewrite phi_psum_comm.
rewrite (subnSK (leq_trans jk kd)) [X in _ = X - _]phi_psum_rec.
by rewrite addrAC subrr add0r.
Qed.

Lemma f_phi_k_sq_all_at_ok z k N : (k <= 3)%N ->
  exists phis, f_phi_k_sq_all_at z k N = Some phis /\
  size phis = k.+1 /\ phi_recur z k (nth 0 phis) /\
  nth 0 phis 0 = mxpow (phi_psum 0 5 ((2%:R ^+ N)^-1 *: z)) (2 ^ N).
Proof.
move=> k3; set zs := (2%:R ^+ N)^-1 *: z.
have two0 : (2%:R : F) ^+ N != 0 by rewrite expf_neq0 // pnatr_eq0.
rewrite /f_phi_k_sq_all_at f_phi_k_poly_allE //; set l := map _ _.
have sl : size l = k.+1 by rewrite size_map size_iota.
have nl j : (j <= k)%N -> nth 0 l j = phi_psum j (4 - j).+1 zs.
  by move=> jk; rewrite (nth_map 0%N) ?size_iota // nth_iota.
have rl : phi_recur zs k (nth 0 l).
  apply: (@phi_recur_ext _ _ (fun j => phi_psum j (4 - j).+1 zs)); first by move=> j /nl.
  by apply: poly_rec; apply: ltnW.
have [h1 [h2 h3]] := iter_sq N sl rl.
exists (iter N (sq_step k) l); split=> //; split=> //; split; last by rewrite h3 nl.
by rewrite /zs scalerA mulfV // scale1r in h2.
Qed.
Lemma f_phi_k_sq_all_at_refused z k N : (3 < k)%N -> f_phi_k_sq_all_at z k N = None.
Proof. by move=> k3; rewrite /f_phi_k_sq_all_at /f_phi_k_poly_all leqNgt ltnS k3. Qed.
End Squaring.
