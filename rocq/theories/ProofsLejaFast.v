(* ProofsLejaFast.v : the array program gen_leja_fast refines a recursion on the points. *)
From mathcomp Require Import all_ssreflect all_algebra.
From mathcomp Require Import ring.
From mathcomp Require Import complex.
From Verif Require Import ModelHist ModelLeja ModelLejaPts.
Set Implicit Arguments.
Unset Strict Implicit.
Unset Printing Implicit Defensive.
Import Order.TTheory GRing.Theory Num.Theory.
Local Open Scope ring_scope.

Section Seqs.
Variable T : Type.
Implicit Types (s t : seq T) (x y : T).
Lemma set_nth_catl x s t k y : (k < size s)%N -> set_nth x (s ++ t) k y = set_nth x s k y ++ t.
Proof. by elim: s k => [//|a s IH] [|k] //= h; rewrite IH. Qed.
Lemma set_nth_catr x s m z y : set_nth x (s ++ nseq m.+1 z) (size s) y = rcons s y ++ nseq m z.
Proof. by elim: s => [|a s IH] //=; rewrite IH. Qed.
End Seqs.

Section Abs.
Variable F : realFieldType.
Implicit Types (T W : seq F) (J : seq (nat * nat)).
Local Notation nz := (0, 0)%N.

Lemma max_seq_ge s (x : F) : x \in s -> x <= max_seq s.
Proof. by elim: s => //= a s IH; rewrite inE le_maxr => /orP [/eqP ->|/IH ->]; rewrite ?lexx ?orbT. Qed.
Lemma max_seq_ge0 s : 0 <= max_seq s :> F.
Proof. by elim: s => //= a s IH; rewrite le_maxr IH orbT. Qed.
Lemma max_seq_in (s : seq F) : s <> [::] -> (forall x, x \in s -> 0 <= x) -> max_seq s \in s.
Proof.
elim: s => // a s IH _ h /=; have a0 := h a (mem_head _ _).
rewrite inE; case: (leP a (max_seq s)) => hm; last by rewrite eqxx.
case: s IH h hm => [|b s] IH h hm.
  by rewrite /= in hm *; rewrite eq_le a0 hm.
by rewrite IH ?orbT // => x hx; apply: h; rewrite inE hx orbT.
Qed.
Lemma max_seq_zeros s m : max_seq (s ++ nseq m 0) = max_seq s :> F.
Proof.
elim: s => /= [|a s ->] //; elim: m => //= m ->; by rewrite maxxx.
Qed.

Definition mids T J : seq F := [seq (T`_p.1 + T`_p.2) / 2%:R | p <- J].
Definition wprods T J W : seq F := [seq q.1 * \prod_(a <- T) `|q.2 - a| | q <- zip W (mids T J)].
Definition pick T J W : nat := index (max_seq (wprods T J W)) (wprods T J W).
Definition ast : Type := (seq F * seq (nat * nat) * seq F)%type.
Definition astep (s : ast) : ast :=
  let: (T, J, W) := s in
  let k := pick T J W in
  let q := nth nz J k in
  (rcons T (mids T J)`_k, rcons (set_nth nz J k (q.1, size T)) (size T, q.2), rcons (set_nth 0 W k 1) 1).
Definition ok_ast (s : ast) : Prop :=
  let: (T, J, W) := s in
  [/\ (3 <= size T)%N, size J = (size T).-1, size W = size J,
      forall p, p \in J -> (p.1 < size T)%N && (p.2 < size T)%N & forall w, w \in W -> 0 <= w].

Lemma size_mids T J : size (mids T J) = size J. Proof. exact: size_map. Qed.
Lemma size_wprods T J W : size W = size J -> size (wprods T J W) = size J.
Proof. by move=> h; rewrite size_map size_zip size_mids h minnn. Qed.
Lemma nth_mids T J j : (j < size J)%N -> (mids T J)`_j = (T`_(nth nz J j).1 + T`_(nth nz J j).2) / 2%:R.
Proof. by move=> h; rewrite (nth_map nz). Qed.
Lemma nth_wprods T J W j : size W = size J -> (j < size J)%N ->
  (wprods T J W)`_j = W`_j * \prod_(a <- T) `|(mids T J)`_j - a|.
Proof.
move=> h hj; rewrite (nth_map (0, 0)) ?size_zip ?size_mids ?h ?minnn //.
by rewrite nth_zip ?size_mids.
Qed.
Lemma zip_in1 (s t : seq F) p : p \in zip s t -> p.1 \in s.
Proof.
elim: s t => [|a s IH] [|b t] //=; rewrite inE => /orP [/eqP ->|/IH h]; first by rewrite inE eqxx.
by rewrite inE h orbT.
Qed.
Lemma wprods_ge0 T J W : (forall w, w \in W -> 0 <= w) -> forall x, x \in wprods T J W -> 0 <= x.
Proof.
move=> hW x /mapP [p /zip_in1 hw ->].
by apply: mulr_ge0; [apply: hW|apply: prodr_ge0].
Qed.
Lemma pick_lt T J W : ok_ast (T, J, W) -> (pick T J W < size J)%N.
Proof.
move=> [h3 hI hW hp hw]; rewrite /pick -(size_wprods T hW) index_mem; apply: max_seq_in; last exact: wprods_ge0.
by move=> e; have := size_wprods T hW; rewrite e hI; case: (size T) h3 => [|[|]].
Qed.
Lemma pick_max T J W j : ok_ast (T, J, W) -> (j < size J)%N ->
  (wprods T J W)`_j <= (wprods T J W)`_(pick T J W).
Proof.
move=> hok hj; have hW : size W = size J by case: hok.
have hk := pick_lt hok; rewrite nth_index; last by rewrite -index_mem size_wprods.
by apply: max_seq_ge; rewrite mem_nth // size_wprods.
Qed.
Lemma astep_ok s : ok_ast s -> ok_ast (astep s).
Proof.
case: s => [[T J] W] hok; have hk := pick_lt hok; case: hok => h3 hI hW hp hw.
rewrite /astep; set k := pick T J W in hk *; split.
- by rewrite size_rcons ltnW.
- by rewrite !size_rcons size_set_nth (maxn_idPr hk) hI prednK // (leq_trans _ h3).
- by rewrite !size_rcons !size_set_nth hW.
- move=> p; rewrite mem_rcons inE size_rcons => /orP [/eqP -> /=|].
    have /andP [_ h] := hp _ (mem_nth nz hk); by rewrite ltnSn ltnW.
  move=> /(nthP nz) [j]; rewrite size_set_nth (maxn_idPr hk) => hj <-; rewrite nth_set_nth /=.
  case: eqP => _ /=.
    by have /andP [h _] := hp _ (mem_nth nz hk); rewrite ltnSn ltnW.
  by have /andP [h h'] := hp _ (mem_nth nz hj); rewrite ltnW // ltnW.
- move=> w; rewrite mem_rcons inE => /orP [/eqP ->|]; first exact: ler01.
  move=> /(nthP 0) [j]; rewrite size_set_nth hW (maxn_idPr hk) => hj <-; rewrite nth_set_nth /=.
  case: eqP => _; first exact: ler01.
  by apply: hw; rewrite mem_nth // hW.
Qed.

(* ---- the relation ---- *)
Definition rel (n : nat) (st : lf_state F) (s : ast) : Prop :=
  let: (T, J, W) := s in
  [/\ ok_ast s /\ (size T <= n)%N,
      lf_zt st = T ++ nseq (n - size T) 0,
      lf_ix st = J ++ nseq (n - (size T).-1) nz,
      lf_zs st = mids T J ++ nseq (n - (size T).-1) 0 &
      [seq `|z| | z <- lf_zp st] = wprods T J W ++ nseq (n - (size T).-1) 0].
Lemma rel_step n st s : rel n st s -> (size s.1.1 < n)%N -> rel n (lf_step st (size s.1.1)) (astep s).
Proof.
case: s => [[T J] W] /= [[hok hn] ezt eix ezs ezp] hlt.
have hk := pick_lt hok; have hok' := @astep_ok (T, J, W) hok.
case: (hok) => h3 hI hW hp hw.
have T0 : (0 < size T)%N by apply: leq_trans h3.
have sI : (size J < size T)%N by rewrite hI prednK.
have en1 : (n - (size T).-1 = (n - size T).+1)%N by rewrite -[in RHS](prednK T0) subnSK // prednK.
have en2 : (n - size T = (n - (size T).+1).+1)%N by rewrite subnSK.
have emax : argmax_abs (lf_zp st) = pick T J W.
  rewrite /argmax_abs ezp max_seq_zeros /pick index_cat.
  by rewrite -index_mem size_wprods // -/(pick T J W) hk.
rewrite /lf_step emax; set k := pick T J W in hk hok' emax *.
have ezk : (lf_zs st)`_k = (mids T J)`_k by rewrite ezs nth_cat size_mids hk.
have eT : set_nth 0 (lf_zt st) (size T) (lf_zs st)`_k = rcons T (mids T J)`_k ++ nseq (n - (size T).+1) 0.
  by rewrite ezk ezt en2 set_nth_catr.
rewrite eT.
set m := (mids T J)`_k in eT *; set T' := rcons T m in eT hok' *.
set q := nth nz J k.
have eI1 : set_nth nz (lf_ix st) (size T).-1 (size T, (nth nz (lf_ix st) k).2) = rcons J (size T, q.2) ++ nseq (n - size T) nz.
  by rewrite -hI eix en1 hI -hI set_nth_catr nth_cat hk.
rewrite eI1.
have eq1 : nth nz (rcons J (size T, q.2) ++ nseq (n - size T) nz) k = q.
  by rewrite nth_cat size_rcons ltnW // nth_rcons hk.
rewrite eq1.
set J' := rcons (set_nth nz J k (q.1, size T)) (size T, q.2) in hok' *.
have eI' : set_nth nz (rcons J (size T, q.2) ++ nseq (n - size T) nz) k (q.1, size T) = J' ++ nseq (n - size T) nz.
  rewrite set_nth_catl; last by rewrite size_rcons ltnS ltnW.
  congr (_ ++ _).
  by rewrite /J' -!cats1 set_nth_catl.
rewrite eI'.
have sI' : size J' = size T by rewrite size_rcons size_set_nth (maxn_idPr hk) hI prednK.
have sT' : size T' = (size T).+1 by rewrite size_rcons.
have mid_ok j : (j < size T)%N -> ((T' ++ nseq (n - (size T).+1) 0)`_(nth nz (J' ++ nseq (n - size T) nz) j).1 +
      (T' ++ nseq (n - (size T).+1) 0)`_(nth nz (J' ++ nseq (n - size T) nz) j).2) / 2%:R = (mids T' J')`_j.
  move=> hj; rewrite nth_mids ?sI' // nth_cat sI' hj.
  case: hok' => _ _ _ hp' _.
  have /andP [h1 h2] : ((nth nz J' j).1 < size T')%N && ((nth nz J' j).2 < size T')%N by apply: hp'; rewrite mem_nth // sI'.
  by rewrite !nth_cat h1 h2.
have kT : (k < size T)%N by apply: ltn_trans sI.
have pT : ((size T).-1 < size T)%N by rewrite prednK.
rewrite !mid_ok //.
have ezs' : set_nth 0 (set_nth 0 (lf_zs st) k (mids T' J')`_k) (size T).-1 (mids T' J')`_(size T).-1 = mids T' J' ++ nseq (n - size T) 0.
  rewrite ezs set_nth_catl ?size_mids // en1 -hI.
  rewrite -(_ : size (set_nth 0 (mids T J) k (mids T' J')`_k) = size J); last by rewrite size_set_nth size_mids (maxn_idPr hk).
  rewrite set_nth_catr; congr (_ ++ _).
  apply: (@eq_from_nth _ 0); rewrite size_rcons size_set_nth size_mids (maxn_idPr hk) ?size_mids.
    by rewrite hI sI' prednK.
  move=> j hj; rewrite nth_rcons size_set_nth size_mids (maxn_idPr hk); case: (ltnP j (size J)) => hjI; last first.
    have -> : j = size J by apply/eqP; rewrite eqn_leq -ltnS hj hjI.
    by rewrite eqxx.
  rewrite nth_set_nth /=; case: eqP => [-> //|nk].
  have hjT : (j < size T)%N by apply: ltn_trans sI.
  rewrite !nth_mids ?sI' //.
  have -> : nth nz J' j = nth nz J j.
    by rewrite /J' nth_rcons size_set_nth (maxn_idPr hk) hjI nth_set_nth /= (introF eqP nk).
  have /andP [h1 h2] := hp _ (mem_nth nz hjI).
  by rewrite /T' !nth_rcons h1 h2.
rewrite ezs'; split=> //=.
- by split; [exact: hok'|rewrite sT'].
- by rewrite sT'.
- by rewrite sT'.
- by rewrite sT'.
rewrite sT' [(size T).+1.-1]/=.
have szp : size (lf_zp st) = n.
  by rewrite -(size_map (fun z => `|z|)) ezp size_cat size_wprods // size_nseq hI subnKC // (leq_trans (leq_pred _)).
have kn : (k < n)%N by apply: ltn_trans hlt.
have pn : ((size T).-1 < n)%N by apply: ltn_trans hlt.
set Z := set_nth 0 (set_nth 0 (lf_zp st) _ _) _ _.
have sZ : size Z = n by rewrite /Z !size_set_nth szp (maxn_idPr kn) (maxn_idPr pn).
have sms : size (mids T' J' ++ nseq (n - size T) 0) = n by rewrite size_cat size_mids size_nseq sI' subnKC // ltnW.
have tk : take (size T) (T' ++ nseq (n - (size T).+1) 0) = T.
  by rewrite /T' -cats1 -catA take_size_cat.
have nT : (T' ++ nseq (n - (size T).+1) 0)`_(size T) = m.
  by rewrite /T' nth_cat size_rcons ltnSn nth_rcons ltnn eqxx.
have prodT' (x : F) : \prod_(a <- T') `|x - a| = (\prod_(a <- T) `|x - a|) * `|x - m|.
  by rewrite /T' -cats1 big_cat big_seq1.
set W' := rcons (set_nth 0 W k 1) 1.
have sW' : size W' = size J' by rewrite size_rcons size_set_nth hW (maxn_idPr hk) sI' hI prednK.
apply: (@eq_from_nth _ 0).
  by rewrite !size_map size_zip sZ sms minnn size_cat size_wprods // sI' size_nseq subnKC // ltnW.
move=> j; rewrite size_map size_map size_zip sZ sms minnn => hj.
rewrite (nth_map 0) ?size_map ?size_zip ?sZ ?sms ?minnn //.
rewrite (nth_map (0, 0)) ?size_zip ?sZ ?sms ?minnn // nth_zip ?sZ ?sms //= nT.
rewrite [RHS]nth_cat size_wprods // sI'.
case: (ltnP j (size T)) => hjT; last first.
  (* untouched zeros *)
  have jk : (j == k) = false by rewrite gtn_eqF // (leq_trans kT).
  have jp : (j == (size T).-1) = false by rewrite gtn_eqF // (leq_trans pT).
  rewrite nth_nseq if_same /Z nth_set_nth /= jp nth_set_nth /= jk.
  have ej : `|(lf_zp st)`_j| = (wprods T J W ++ nseq (n - (size T).-1) 0)`_j by rewrite -ezp (nth_map 0) ?szp.
  move: ej; rewrite [_`_j in RHS]nth_cat size_wprods //.
  have -> : (j < size J)%N = false by apply/negbTE; rewrite -leqNgt (leq_trans (ltnW sI)).
  rewrite nth_nseq if_same => /eqP; rewrite normr_eq0 => /eqP ->.
  by rewrite mul0r normr0.
rewrite nth_wprods ?sW' ?sI' //.
rewrite prodT' mulrA normrM.
have ems : (mids T' J' ++ nseq (n - size T) 0)`_j = (mids T' J')`_j by rewrite nth_cat size_mids sI' hjT.
have ems' i : (i < size T)%N -> (mids T' J' ++ nseq (n - size T) 0)`_i = (mids T' J')`_i by move=> h; rewrite nth_cat size_mids sI' h.
rewrite ems; congr (_ * _).
rewrite /Z tk !nth_set_nth /=; case: (eqVneq j (size T).-1) => [ej|nj].
  rewrite ej normr_prod ems' // /W' nth_rcons size_set_nth hW (maxn_idPr hk) hI ltnn eqxx mul1r //.
have hjI : (j < size J)%N by rewrite hI ltn_neqAle nj /= -ltnS prednK.
rewrite /W' nth_rcons size_set_nth hW (maxn_idPr hk) hjI nth_set_nth /=.
case: (eqVneq j k) => [ej|nk]; first by rewrite ej normr_prod ems' // nth_set_nth /= eqxx mul1r.
have ej : `|(lf_zp st)`_j| = (wprods T J W ++ nseq (n - (size T).-1) 0)`_j by rewrite -ezp (nth_map 0) ?szp.
rewrite ej nth_cat size_wprods // hjI.
rewrite nth_wprods // nth_set_nth /= (negbTE nk); congr (_ * _); apply: eq_bigr => a _.
rewrite !nth_mids ?sI' //.
have -> : nth nz J' j = nth nz J j.
  by rewrite /J' nth_rcons size_set_nth (maxn_idPr hk) hjI nth_set_nth /= (negbTE nk).
have /andP [h1 h2] := hp _ (mem_nth nz hjI).
by rewrite /T' !nth_rcons h1 h2.
Qed.
End Abs.
