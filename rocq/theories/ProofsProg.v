(* ProofsProg.v : proofs about ModelProg.v. *)
From Coq Require Import Reals Lra.
From mathcomp Require Import all_ssreflect all_algebra.
From mathcomp Require Import ring.
From Verif Require Import Rstruct ModelHist ModelOps ModelInt ModelProg SpecProg.
Set Implicit Arguments.
Unset Strict Implicit.
Unset Printing Implicit Defensive.
Import Order.TTheory GRing.Theory Num.Theory.
Local Open Scope ring_scope.

Section Bateman.
Variable F : rcfType.
Variable S : eqType.
Variable none : S.
Implicit Types (dl : decay_lib F S) (keymap : seq S).

Lemma keydict_nth keymap k r x : keydict keymap k = Some r -> (r < size keymap)%N /\ nth x keymap r = k.
Proof.
rewrite /keydict; case: ifP => // hk [<-].
have hi : (index k (rev keymap) < size keymap)%N by rewrite -size_rev index_mem mem_rev.
have e : ((size keymap).-1 - index k (rev keymap) = size keymap - (index k (rev keymap)).+1)%N.
  by case: (size keymap) hi => // m _; rewrite subSS.
rewrite e; split; first by rewrite ltn_subrL; case: (size keymap) hi.
by rewrite -nth_rev // nth_index // mem_rev.
Qed.
Lemma keydict_uniq keymap k r x : uniq keymap -> (r < size keymap)%N -> nth x keymap r = k -> keydict keymap k = Some r.
Proof.
move=> hu hr e; have hk : k \in keymap by rewrite -e mem_nth.
have [r' e'] : exists r', keydict keymap k = Some r' by rewrite /keydict hk; eexists.
rewrite e'; congr Some; have [h1 h2] := keydict_nth x e'.
by apply/eqP; rewrite -(nth_uniq x h1 hr hu) h2 e.
Qed.
Lemma keydict_in keymap k : (k \in keymap) = (keydict keymap k != None).
Proof. by rewrite /keydict; case: ifP. Qed.

Definition contrib keymap (i a : nat) (b : S * F) : F :=
  (if (b.1 != none) && (keydict keymap b.1 == Some a) then b.2 else 0) - (if a == i then b.2 else 0).

Lemma add_atE (M : arr2 F) i j x a b : add_at M i j x a b = M a b + (if (a == i) && (b == j) then x else 0).
Proof. by rewrite /add_at; case: ifP; rewrite ?addr0. Qed.

Lemma do_pairE keymap i (M : arr2 F) c lam M' : do_pair none keymap i M c lam = Ok M' ->
  (c = none \/ c \in keymap) /\
  forall a b, M' a b = M a b + (if b == i then contrib keymap i a (c, lam) else 0).
Proof.
rewrite /do_pair /contrib /=; have [->|hn] := eqVneq c none.
  case=> <-; split; first by left.
  by move=> a b; rewrite add_atE andbC; case: (b == i); rewrite //=; case: (a == i); rewrite ?sub0r ?subr0 ?addr0.
case e: (keydict keymap c) => [dest|] // [<-]; split; first by right; rewrite keydict_in e.
move=> a b; rewrite !add_atE ![_ && (b == i)]andbC; case: (b == i) => /=; last by rewrite !addr0.
rewrite (_ : (Some dest == Some a) = (a == dest)); last by rewrite eq_sym; apply/eqP/eqP => [[->]|->].
by case: (a == dest); case: (a == i); rewrite ?subr0 ?sub0r ?addr0 -?addrA ?addr0.
Qed.
Lemma do_pairsE keymap i bs M M' : do_pairs none keymap i M bs = Ok M' ->
  (forall b, b \in bs -> b.1 = none \/ b.1 \in keymap) /\
  forall a b, M' a b = M a b + (if b == i then \sum_(x <- bs) contrib keymap i a x else 0).
Proof.
elim: bs M => [|[c lam] bs IH] M /=.
  by case=> <-; split=> // a b; rewrite big_nil; case: ifP; rewrite addr0.
case e: (do_pair _ _ _ _ _ _) => [M1|//] /= /IH [h1 h2]; have [h3 h4] := do_pairE e; split.
  by move=> b; rewrite inE => /orP [/eqP ->|/h1].
move=> a b; rewrite h2 h4 big_cons; case: (b == i); last by rewrite !addr0.
by rewrite addrA.
Qed.
Lemma do_keyE keymap dl i k M M' : do_key none keymap dl i k M = Ok M' ->
  (branches dl k != [::] /\ forall b, b \in branches dl k -> b.1 = none \/ b.1 \in keymap) /\
  forall a b, M' a b = M a b + (if b == i then \sum_(x <- branches dl k) contrib keymap i a x else 0).
Proof.
rewrite /do_key /branches; case: (lib_get dl k) => [[c lam|[|b0 bs]]|] //.
  move=> /do_pairE [h1 h2]; split; first by split=> // b; rewrite inE => /eqP ->.
  by move=> a b; rewrite h2 big_seq1.
by move=> /do_pairsE [h1 h2].
Qed.
Lemma do_keysE keymap dl ks i M M' x0 : do_keys none keymap dl i ks M = Ok M' ->
  (forall k, k \in ks -> branches dl k != [::] /\ forall b, b \in branches dl k -> b.1 = none \/ b.1 \in keymap) /\
  forall a b, M' a b = M a b +
    (if (i <= b < i + size ks)%N then \sum_(x <- branches dl (nth x0 ks (b - i))) contrib keymap b a x else 0).
Proof.
elim: ks i M => [|k ks IH] i M /=.
  by case=> <-; split=> // a b; rewrite addn0; case: leqP => _ /=; rewrite addr0.
case e: (do_key _ _ _ _ _ _) => [M1|//] /= /IH [h1 h2]; have [h3 h4] := do_keyE e; split.
  by move=> k'; rewrite inE => /orP [/eqP ->|/h1].
move=> a b; rewrite h2 h4 -addrA; congr (_ + _).
have [->|hb] := eqVneq b i.
  by rewrite leqnn subnn /= ltnn /= addr0 -{2}[i]addn0 ltn_add2l.
rewrite add0r addnS -addSn [(i <= b)%N]leq_eqVlt [i == b]eq_sym (negbTE hb) /=.
case: ifP => // /andP [hib _]; rewrite subnS; case: (b - i)%N (subn_gt0 i b) => [|m] //=; by rewrite hib.
Qed.

Lemma gen_entries keymap dl M x0 : uniq keymap -> gen_bateman_matrix none keymap dl = Ok M ->
  closed_lib none keymap dl /\
  forall r i, M r i = rate_into none dl (nth x0 keymap i) (nth x0 keymap r)
                      - (if r == i then rate_total dl (nth x0 keymap i) else 0).
Proof.
move=> hu; rewrite /gen_bateman_matrix; case e: (do_keys _ _ _ _ _ _) => [A|//] [<-].
have [h1 h2] := do_keysE x0 e; split; first by [].
move=> r i; rewrite mxE h2 add0r leq0n add0n ltn_ord subn0 /= /contrib sumrB; congr (_ - _).
  rewrite /rate_into [RHS]big_mkcond /=; apply: eq_bigr => b _.
  rewrite andbC; case: (b.1 != none); rewrite ?andbF ?andbT // .
  rewrite (_ : (keydict keymap b.1 == Some (r : nat)) = (b.1 == nth x0 keymap r)) //.
  apply/eqP/eqP => [hk|hk]; first by have [_ ->] := keydict_nth x0 hk.
  exact: (keydict_uniq hu (ltn_ord r) (esym hk)).
rewrite /rate_total -val_eqE /=; case: (val r == val i); first by [].
by rewrite big1.
Qed.

Lemma gen_ok keymap dl : closed_lib none keymap dl -> exists M, gen_bateman_matrix none keymap dl = Ok M.
Proof.
move=> hc; rewrite /gen_bateman_matrix.
suff [A ->] : exists A, do_keys none keymap dl 0 keymap (fun _ _ => 0) = Ok A by rewrite /=; eexists.
suff go ks i M : {subset ks <= keymap} -> exists A, do_keys none keymap dl i ks M = Ok A by apply: go.
elim: ks i M => [|k ks IH] i M hs /=; first by exists M.
suff [M1 ->] /= : exists A, do_key none keymap dl i k M = Ok A.
  by apply: IH => z hz; apply: hs; rewrite inE hz orbT.
have [] := hc k (hs k (mem_head _ _)); rewrite /do_key /branches.
have one i' (M' : arr2 F) c lam : c = none \/ c \in keymap -> exists A, do_pair none keymap i' M' c lam = Ok A.
  rewrite /do_pair; have [_ _|hn] := eqVneq c none; first by eexists.
  case=> [/eqP|]; first by rewrite (negbTE hn).
  by rewrite keydict_in; case: (keydict keymap c) => // d _; eexists.
case: (lib_get dl k) => [[c lam|[|b0 bs]]|] // _ hb.
  by apply: one; apply: (hb (c, lam)); rewrite inE.
move: hb; move: (b0 :: bs) => {}bs; elim: bs M => [|[c lam] bs IHb] M hb /=; first by exists M.
have [|M2 ->] /= := one i M c lam; first by apply: (hb (c, lam)); rewrite mem_head.
by apply: IHb => b hb'; apply: hb; rewrite inE hb' orbT.
Qed.
Lemma gen_raise keymap dl : ~ closed_lib none keymap dl ->
  exists e, gen_bateman_matrix none keymap dl = Raise e /\ (e = KeyErrorExn \/ e = IndexErrorExn).
Proof.
move=> hc; case e: (gen_bateman_matrix none keymap dl) => [M|ex].
  exfalso; apply: hc; move: e; rewrite /gen_bateman_matrix.
  case: keymap M => [|x0 km] M; first by [].
  case e: (do_keys _ _ _ _ _ _) => [A|//] _; by have [] := do_keysE x0 e.
exists ex; split=> //; move: e; rewrite /gen_bateman_matrix.
case e: (do_keys _ _ _ _ _ _) => [A|ex'] //= [<-] {hc ex}.
suff go ks i M : do_keys none keymap dl i ks M = Raise ex' -> ex' = KeyErrorExn \/ ex' = IndexErrorExn by apply: go e.
elim: ks i M {e} => [|k ks IH] i M //=.
have one i' (M' : arr2 F) c lam ex1 : do_pair none keymap i' M' c lam = Raise ex1 -> ex1 = KeyErrorExn.
  by rewrite /do_pair; case: eqP => // _; case: (keydict _ _) => // -[->].
case e: (do_key _ _ _ _ _ _) => [M1|ex1] /=; first exact: IH.
case=> <-; move: e; rewrite /do_key; case: (lib_get dl k) => [[c lam|[|b0 bs]]|].
- by move=> /one; left.
- by case=> <-; right.
- move: (b0 :: bs) => {}bs; elim: bs M => [|[c lam] bs IHb] M //=.
  case e: (do_pair _ _ _ _ _ _) => [M2|ex2] /=; first exact: IHb.
  by case=> <-; left; apply: one e.
- by case=> <-; left.
Qed.

Lemma colsum keymap dl M x0 : uniq keymap -> gen_bateman_matrix none keymap dl = Ok M ->
  forall i, \sum_r M r i = - rate_untracked none dl (nth x0 keymap i).
Proof.
move=> hu hg i; have [hc he] := gen_entries x0 hu hg.
under eq_bigr do rewrite he; rewrite sumrB -big_mkcond big_pred1_eq.
have [_ hb] := hc (nth x0 keymap i) (mem_nth x0 (ltn_ord i)).
have -> : rate_total dl (nth x0 keymap i) = rate_untracked none dl (nth x0 keymap i) +
   \sum_(b <- branches dl (nth x0 keymap i) | b.1 != none) b.2.
  by rewrite /rate_total /rate_untracked (bigID (fun b => b.1 == none)).
suff -> : \sum_(r < size keymap) rate_into none dl (nth x0 keymap i) (nth x0 keymap r) =
          \sum_(b <- branches dl (nth x0 keymap i) | b.1 != none) b.2 by ring.
transitivity (\sum_(r < size keymap) \sum_(b <- branches dl (nth x0 keymap i))
    (if (b.1 == nth x0 keymap r) && (b.1 != none) then b.2 else 0)).
  by apply: eq_bigr => r _; rewrite /rate_into big_mkcond.
rewrite exchange_big [RHS]big_mkcond /=.
rewrite big_seq [RHS]big_seq; apply: eq_bigr => b hin.
have [hn|hn] := eqVneq b.1 none; first by rewrite big1 // => r _; rewrite andbF.
have hk : b.1 \in keymap by case: (hb b hin) => [/eqP|//]; rewrite (negbTE hn).
have [r er] : exists r : 'I_(size keymap), nth x0 keymap r = b.1.
  have hi : (index b.1 keymap < size keymap)%N by rewrite index_mem.
  by exists (Ordinal hi); rewrite /= nth_index.
rewrite (bigD1 r) //= er eqxx /= big1 ?addr0 // => r' hr'; rewrite andbT.
case: eqP => // e; case/eqP: hr'; apply: val_inj; apply/eqP.
by rewrite -(nth_uniq x0 (ltn_ord r') (ltn_ord r) hu) -e er.
Qed.

Lemma sums_ge0 (l : seq (S * F)) (P : pred (S * F)) : (forall b, b \in l -> 0 <= b.2) -> 0 <= \sum_(b <- l | P b) b.2.
Proof. by move=> h; rewrite big_seq_cond; apply: sumr_ge0 => b /andP [hb _]; apply: h. Qed.

Lemma metzler keymap dl M : uniq keymap -> gen_bateman_matrix none keymap dl = Ok M -> nonneg_rates dl ->
  forall r i, (r != i -> 0 <= M r i) /\ (M i i <= 0).
Proof.
move=> hu hg hn r i; have x0 : S by case: (keymap) i => [[]|x l _].
have [hc he] := gen_entries x0 hu hg; rewrite !he eqxx; split.
  by move=> /negbTE ->; rewrite subr0; apply: sums_ge0 => b hb; apply: hn hb.
rewrite subr_le0 /rate_into /rate_total big_mkcond big_seq [X in _ <= X]big_seq.
by apply: ler_sum => b hb; case: ifP => // _; apply: hn hb.
Qed.
End Bateman.

(* ------------------------------------------------------------------ *)
Section Stack.
Variable T : Type.
Variable dflt : T.
Lemma flatten_stack u n U : stack_u dflt u n = Ok U -> (rows U * cols U)%N = size u /\ flatten_u U = u.
Proof.
rewrite /stack_u; case: ifP => // /andP [hn hd] [<-] /=; rewrite /flatten_u /= divnK //; split=> //.
apply: (@eq_from_nth _ dflt); rewrite size_mkseq // => k hk; rewrite nth_mkseq //; congr nth.
by rewrite addnC -divn_eq.
Qed.
Lemma stack_flatten (U : array2 T) : (0 < cols U)%N ->
  exists V, stack_u dflt (flatten_u U) (cols U) = Ok V /\ rows V = rows U /\ cols V = cols U /\
    forall i j, (i < rows U)%N -> (j < cols U)%N -> at2 V i j = at2 U i j.
Proof.
move=> hc; rewrite /stack_u /flatten_u size_mkseq hc dvdn_mull //= mulnK //.
eexists; split; first by []; split=> //; split=> // i j hi hj /=; rewrite nth_mkseq.
  by rewrite addnC modnMDl modn_small // divnMDl ?(leq_ltn_trans _ hi) // divn_small // addn0.
by rewrite (@leq_trans (rows U + j * rows U)%N) ?ltn_add2r // -mulSn mulnC leq_mul2l hj orbT.
Qed.
End Stack.
