(* PropElem.v : C75, the nodal element. *)
From mathcomp Require Import all_ssreflect all_algebra.
From mathcomp Require Import ring.
From Verif Require Import ModelHist ModelOps ModelInt ModelProg ModelElem ProofsProg2 PropProg.
Set Implicit Arguments.
Unset Strict Implicit.
Unset Printing Implicit Defensive.
Import Order.TTheory GRing.Theory Num.Theory.
Local Open Scope ring_scope.
(* L is the nodal basis of the points xs: L i has degree below the number of points, is 1 at point i and 0 at the others *)
Definition nodal_basis (F : rcfType) (xs : seq F) (L : nat -> {poly F}) : Prop :=
  forall i, (i < size xs)%N -> (size (L i) <= size xs)%N /\ forall j, (j < size xs)%N -> (L i).[nth 0 xs j] = (j == i)%:R.
Section Bary.
Variables (F : rcfType) (cap : F) (xs : seq F) (L : nat -> {poly F}).
Hypotheses (c0 : cap != 0) (u : uniq xs) (hL : nodal_basis xs L).
Notation n := (size xs).
Notation x := (nth 0 xs).
Lemma xinj i j : (i < n)%N -> (j < n)%N -> x i = x j -> i = j.
Proof. by move=> hi hj /eqP; rewrite (nth_uniq 0 hi hj u) => /eqP. Qed.
(* a polynomial of degree below n is determined by its values *)
Lemma poly_nodes (p : {poly F}) : (size p <= n)%N -> (forall j, (j < n)%N -> p.[x j] = 0) -> p = 0.
Proof.
move=> hs h; apply: (@roots_geq_poly_eq0 _ _ xs) => //.
by apply/allP => z /(nthP 0) [j hj <-]; apply/rootP/h.
Qed.
Lemma reproduce (p : {poly F}) : (size p <= n)%N -> p = \sum_(i < n) p.[x i] *: L i.
Proof.
move=> hs; apply/eqP; rewrite -subr_eq0; apply/eqP/poly_nodes => [|j hj].
  rewrite (leq_trans (size_add _ _)) // geq_max hs size_opp (leq_trans (size_sum _ _ _)) //.
  by apply/bigmax_leqP => i _; rewrite (leq_trans (size_scale_leq _ _)) //; have [] := hL (ltn_ord i).
rewrite hornerD hornerN horner_sum (bigD1 (Ordinal hj)) //= big1 => [|i hi].
  by rewrite hornerZ; have [_ ->] := hL hj; rewrite // eqxx mulr1 addr0 subrr.
rewrite hornerZ; have [_ ->] := hL (ltn_ord i) => //; case: eqP => [e|]; last by rewrite mulr0.
by case/eqP: hi; apply: val_inj.
Qed.
Lemma LE (i : 'I_n) : L i = (lden x i)^-1 *: lbase x i.
Proof.
have d0 := lden_neq0 xinj i.
apply/eqP; rewrite -subr_eq0; apply/eqP/poly_nodes => [|j hj].
  rewrite (leq_trans (size_add _ _)) // geq_max size_opp (leq_trans (size_scale_leq _ _)) ?lbase_size // andbT.
  by have [] := hL (ltn_ord i).
rewrite hornerD hornerN hornerZ (lbase_at x i (Ordinal hj)); have [_ ->] := hL (ltn_ord i) => //.
rewrite -val_eqE /=; case: eqP => _; last by rewrite mulr0 subrr.
by rewrite mulVf ?subrr.
Qed.
Lemma wE (i : 'I_n) : bary_w cap xs i = (cap ^+ n.-1 * lden x i)^-1.
Proof.
rewrite /bary_w; congr (_^-1); rewrite big_split /= prodr_const; congr (cap ^+ _ * _).
by rewrite (@eq_card _ _ (predC1 i)) // cardC1 card_ord.
Qed.
Lemma w_neq0 (i : 'I_n) : bary_w cap xs i != 0.
Proof. by rewrite wE invr_neq0 // mulf_neq0 ?expf_neq0 // (lden_neq0 xinj). Qed.
Lemma baryE f y : bary cap xs f y = \sum_(i < n) f i * (L i).[y].
Proof.
rewrite /bary; case: ifP => [hy|/negbT hy].
  have hi : (index y xs < n)%N by rewrite index_mem.
  rewrite (bigD1 (Ordinal hi)) //= big1 => [|j hj].
    have [_ /(_ _ hi) h] := hL hi; rewrite nth_index // in h; by rewrite h eqxx mulr1 addr0.
  have [_ /(_ _ hi) h] := hL (ltn_ord j); rewrite nth_index // in h; rewrite h; case: eqP => [e|]; last by rewrite mulr0.
  by case/eqP: hj; apply: val_inj.
have yx (j : 'I_n) : y - x j != 0 by rewrite subr_eq0; apply: contraNneq hy => ->; exact: mem_nth.
have n0 : (0 < n)%N \/ n = 0%N by case: (n) => [|m]; [right|left].
set l := \prod_(j < n) (y - x j).
have l0 : l != 0 by apply/prodf_neq0 => j _.
have E (j : 'I_n) : bary_w cap xs j / (y - x j) = (cap ^+ n.-1)^-1 / l * (L j).[y].
  rewrite LE hornerZ /lbase horner_prod wE.
  have -> : \prod_(k < n | k != j) ('X - (x k)%:P).[y] = l / (y - x j).
    have -> : l = \prod_(k < n | k != j) (y - x k) * (y - x j) by rewrite /l (bigD1 j) //= mulrC.
    by rewrite mulfK //; apply: eq_bigr => k _; rewrite hornerXsubC.
  have d0 := lden_neq0 xinj j; have k0 : cap ^+ n.-1 != 0 by rewrite expf_neq0.
  move: (cap ^+ _) (lden x j) (y - x j) (l) k0 d0 (yx j) l0 => a b c d a0 b0 c1 d0.
  by field; rewrite a0 b0 c1 d0.
have E2 (j : 'I_n) : bary_w cap xs j / (y - x j) * f j = (cap ^+ n.-1)^-1 / l * ((L j).[y] * f j) by rewrite E mulrA.
rewrite (eq_bigr _ (fun j _ => E2 j)) (eq_bigr _ (fun j _ => E j)).
rewrite -!mulr_sumr -mulf_div.
have k0 : (cap ^+ n.-1)^-1 / l != 0 by rewrite mulf_neq0 ?invr_neq0 // expf_neq0.
case: n0 => [n0|n0]; last by rewrite n0 !big_ord0 mul0r mulr0.
have -> : \sum_(i < n) (L i).[y] = 1.
  have := congr1 (fun p : {poly F} => p.[y]) (lagrange_one xinj n0); rewrite /= horner_sum hornerC => <-.
  by apply: eq_bigr => i _; rewrite LE.
rewrite divr1 divff // mul1r; by apply: eq_bigr => i _; rewrite mulrC.
Qed.
Lemma dL_off (k i : 'I_n) : k != i -> (L i)^`().[x k] = bary_w cap xs i / ((x k - x i) * bary_w cap xs k).
Proof.
move=> hk; rewrite LE derivZ hornerZ.
have -> : lbase x i = ('X - (x k)%:P) * \prod_(j < n | (j != i) && (j != k)) ('X - (x j)%:P).
  by rewrite /lbase (bigD1 k).
rewrite derivM derivXsubC mul1r hornerD hornerM hornerXsubC subrr mul0r addr0 horner_prod.
have -> : \prod_(j < n | (j != i) && (j != k)) ('X - (x j)%:P).[x k] = lden x k / (x k - x i).
  have -> : lden x k = \prod_(j < n | (j != k) && (j != i)) (x k - x j) * (x k - x i) by rewrite /lden (bigD1 i) 1?eq_sym //= mulrC.
  rewrite mulfK; last first.
    by rewrite subr_eq0; apply/eqP => /(xinj (ltn_ord k) (ltn_ord i)) /val_inj e; rewrite e eqxx in hk.
  by apply: eq_big => [j|j _]; [rewrite andbC|rewrite hornerXsubC].
have d1 := lden_neq0 xinj i; have d2 := lden_neq0 xinj k; have k0 : cap ^+ n.-1 != 0 by rewrite expf_neq0.
have d3 : x k - x i != 0 by rewrite subr_eq0; apply/eqP => /(xinj (ltn_ord k) (ltn_ord i)) /val_inj e; rewrite e eqxx in hk.
rewrite !wE; move: (cap ^+ _) (lden x i) (lden x k) (x k - x i) k0 d1 d2 d3 => a b c d a0 b0 e0 d0.
by field; rewrite a0 b0 e0 d0.
Qed.
Lemma cijE (k i : 'I_n) : bary_cij cap xs k i = (L i)^`().[x k].
Proof.
rewrite /bary_cij; case: eqP => [/val_inj e|/eqP hk]; last by rewrite dL_off.
have n0 : (0 < n)%N by apply: leq_ltn_trans (ltn_ord k).
have s0 : \sum_(j < n) (L j)^`().[x k] = 0.
  have ds : \sum_(j < n) (L j)^`() = (\sum_(j < n) L j)^`() by rewrite raddf_sum.
  rewrite -horner_sum ds; have -> : \sum_(j < n) L j = 1 by rewrite -(lagrange_one xinj n0); apply: eq_bigr => j _; rewrite LE.
  by rewrite derivC horner0.
rewrite -e; apply/eqP; rewrite eq_sym -addr_eq0; apply/eqP; rewrite -[RHS]s0 [RHS](bigD1 k) //=; congr (_ + _).
by apply: eq_bigr => j hj; rewrite dL_off 1?eq_sym.
Qed.
Lemma bary_diffE f y : bary_diff cap xs f y = \sum_(i < n) f i * (L i)^`().[y].
Proof.
rewrite /bary_diff baryE.
have E (i : 'I_n) : (L i)^`().[y] = \sum_(k < n) bary_cij cap xs k i * (L k).[y].
  rewrite {1}(reproduce (p := (L i)^`())); last first.
    have [h _] := hL (ltn_ord i); apply: leq_trans h; by rewrite /deriv (leq_trans (size_poly _ _)) // leq_pred.
  by rewrite horner_sum; apply: eq_bigr => k _; rewrite hornerZ cijE.
under eq_bigr do rewrite mulr_suml; rewrite exchange_big /=; apply: eq_bigr => i _; rewrite E mulr_sumr.
by apply: eq_bigr => k _; ring.
Qed.
End Bary.

Section Elt.
Variables (F : rcfType) (cap : F).
Hypothesis c0 : cap != 0.
Lemma elt_newE p e : @elt_new F p = Ok e ->
  exists X W, [/\ (1 <= p <= 4)%N, GLL_quad F p.+1 = Ok (X, W), size X = p.+1, uniq X & e = Elt p X 0 [::] [::]].
Proof.
rewrite /elt_new; case: ltnP => // p0; case eq: GLL_quad => [[X W]|//]; cbn [rbind] => -[<-].
have [h1 h2] := C51_gll_quadrature F p.+1.
have hp : (2 <= p.+1 <= 5)%N by case hp: (2 <= p.+1 <= 5)%N => //; move: eq; rewrite h2 ?hp.
have [X' [W' [e1 [s1 _] _ _ _]]] := h1 hp; move: e1; rewrite eq => -[eX eW]; rewrite -eX in s1.
exists X, W; split=> //; first by move: hp; rewrite !ltnS p0.
have [s5 [s37 s37']] : 0 < Num.sqrt 5%:R :> F /\ 0 < Num.sqrt (3%:R / 7%:R) :> F /\ Num.sqrt (3%:R / 7%:R) < 1 :> F.
  rewrite !sqrtr_gt0 divr_gt0 ?ltr0n //; do 2 split=> //; rewrite -[ltRHS]sqrtr1 ltr_sqrt ?ltr01 //.
  by rewrite ltr_pdivr_mulr ?ltr0n // mul1r ltr_nat.
have s51 : 1 < Num.sqrt 5%:R :> F by rewrite -[ltLHS]sqrtr1 ltr_sqrt ?ltr0n // ltr1n.
have s5i : 0 < 1 / Num.sqrt (5%:R : F) < 1 by rewrite divr_gt0 ?ltr01 //= ltr_pdivr_mulr // mul1r.
have aff (l : seq F) : uniq l -> uniq [seq (1 + z) / 2%:R | z <- l].
  rewrite map_inj_uniq // => a b /(mulIf _) h; apply: (addrI 1); apply: h; by rewrite invr_neq0 ?pnatr_eq0.
have lt (l : seq F) : sorted <%R l -> uniq l by apply: sorted_uniq; [exact: lt_trans|exact: ltxx].
have sw (l : seq F) : (1 < size l)%N -> uniq l -> uniq (swap_1_last l).
  move=> sl ul; apply/(uniqP 0) => i j; rewrite !inE size_mkseq => hi hj; rewrite !nth_mkseq //.
  have q : ((size l).-1 < size l)%N by case: (l) sl.
  have inj a b : (a < size l)%N -> (b < size l)%N -> nth 0 l a = nth 0 l b -> a = b by move=> ha hb /eqP; rewrite nth_uniq // => /eqP.
  case: (i =P 1%N) => [->|i1]; case: (j =P 1%N) => [->|j1] //.
  - by case: (j =P _) => [-> /(inj _ _ q sl) <-|j2 /(inj _ _ q hj) e'] //; case: j2.
  - by case: (i =P _) => [-> /(inj _ _ sl q) ->|i2 /(inj _ _ hi q) e'] //; case: i2.
  case: (i =P _) => [->|i2]; case: (j =P _) => [->|j2] //.
  - by move=> /(inj _ _ sl hj) e'; case: j1.
  - by move=> /(inj _ _ hi sl) e'; case: i1.
  exact: inj.
have hp4 : p \in iota 1 4 by rewrite mem_iota; move: hp; rewrite !ltnS p0.
move: eq; rewrite /GLL_quad; case et: gll_table => [[Y V]|//] [<- _]; apply: sw.
  by rewrite size_map; move: et hp4; rewrite !inE => et /or4P [] /eqP ep; move: et; rewrite ep => -[<- _].
apply: aff; apply: lt; case/andP: s5i => s5a s5b; move: et hp4; rewrite !inE => et /or4P [] /eqP ep; move: et; rewrite ep => -[<- _] /=.
- by rewrite andbT -subr_gt0 opprK addr_gt0 ?ltr01.
- by rewrite ltrN10 ltr01.
- by rewrite mulNr ltr_opp2 !s5b (lt_trans _ s5a) ?oppr_lt0.
by rewrite ltr_opp2 s37' oppr_lt0 s37.
Qed.
(* the nodal basis of distinct points exists *)
Lemma nodal_ex (xs : seq F) : uniq xs -> exists L, nodal_basis xs L.
Proof.
move=> u; pose x := nth 0 xs; pose n := size xs.
have xi i j : (i < n)%N -> (j < n)%N -> x i = x j -> i = j by move=> hi hj /eqP; rewrite nth_uniq // => /eqP.
exists (fun i => if insub i is Some i' then (lden x (i' : 'I_n))^-1 *: lbase x i' else 0) => i hi; rewrite insubT.
split=> [|j hj]; first by rewrite (leq_trans (size_scale_leq _ _)) // lbase_size.
rewrite hornerZ (lbase_at x _ (Ordinal hj)) -val_eqE /=; case: eqP => _; last by rewrite mulr0.
by rewrite mulVf // lden_neq0.
Qed.
(* construction: degrees 1 to 4; nodes in the order left end, right end, interior *)
Theorem C75_construct p :
  ((1 <= p <= 4)%N -> exists e W, @elt_new F p = Ok e /\ GLL_quad F p.+1 = Ok (el_x e, W)) /\
  (p = 0%N -> @elt_new F p = Raise ValueErrorExn) /\ ((4 < p)%N -> @elt_new F p = Raise KeyErrorExn).
Proof.
have [h1 h2] := C51_gll_quadrature F p.+1; rewrite /elt_new; split=> [hp|].
  have [X [W [-> _ _ _ _]]] := h1 hp; have /andP [p1 _] := hp; rewrite ltnNge p1; cbn [negb rbind]; by eexists _, W.
split=> [->//|h]; rewrite h2; last by apply/negP => /andP [_ h']; move: (leq_ltn_trans h h'); rewrite ltnn.
by case: (p) h.
Qed.
(* the points at which the arrays held after some calls were computed: those of the latest call whose number of points differed from the
   number held (no points at first) *)
Fixpoint held (acc : option (seq F)) (cs : seq (seq F * nat)) : option (seq F) :=
  if cs is (X, _) :: cs' then held (if size X == (if acc is Some Y then size Y else 0%N) then acc else Some X) cs' else acc.
(* every answer, after any calls: values and derivatives of the nodal basis function i at the points held *)
Theorem C75_history p e (L : nat -> {poly F}) cs X i : @elt_new F p = Ok e -> nodal_basis (el_x e) L ->
  (lbasis cap (lbasis_calls cap e cs) X i).1
  = (if held None (rcons cs (X, i)) is Some Y then
       if (i <= p)%N then Ok ([seq (L i).[y] | y <- Y], [seq (L i)^`().[y] | y <- Y]) else Raise IndexErrorExn
     else Raise IndexErrorExn).
Proof.
move=> /elt_newE [N [W [hp _ sN uN ->]]] hL; rewrite [el_x _]/= in hL.
pose st acc := if acc is Some Y then
   Elt p N (size Y) (reval cap (Elt p N 0 [::] [::]) Y).1 (reval cap (Elt p N 0 [::] [::]) Y).2 else Elt p N 0 [::] [::].
have step acc Y j : (lbasis cap (st acc) Y j).2 = st (if size Y == (if acc is Some Z then size Z else 0%N) then acc else Some Y).
  by case: acc => [Z|]; rewrite /lbasis /= eq_sym; case: eqP.
have run acc ds : lbasis_calls cap (st acc) ds = st (held acc ds).
  elim: ds acc => [|[Y j] ds IH] acc; first by [].
  by rewrite -[lbasis_calls _ _ _]/(lbasis_calls cap (lbasis cap (st acc) Y j).2 ds) step IH.
rewrite -[Elt _ _ _ _ _]/(st None) run.
have -> : held None (rcons cs (X, i)) = (if size X == (if held None cs is Some Z then size Z else 0%N) then held None cs else Some X).
  by elim: cs None => [|[Y j] ds IH] acc //=; rewrite IH.
move: (held None cs) => acc.
have -> : (lbasis cap (st acc) X i).1 = (let e' := (lbasis cap (st acc) X i).2 in
   if (i < size (el_P e'))%N && (i < size (el_dP e'))%N then Ok (nth [::] (el_P e') i, nth [::] (el_dP e') i) else Raise IndexErrorExn) by [].
rewrite step; case: (if _ then _ else _) => [Y|] //; rewrite /st /reval; cbn [el_P el_dP fst snd el_p el_x]; rewrite !size_map !size_iota andbb ltnS.
case: leqP => // hi; congr (Ok (_, _)); rewrite (nth_map 0%N) ?size_iota ?ltnS // nth_iota ?ltnS // add0n; apply: eq_map => y.
  rewrite (baryE c0 uN hL) /unit_data; have hi' : (i < size N)%N by rewrite sN.
  rewrite (bigD1 (Ordinal hi')) //= eqxx mul1r big1 ?addr0 // => j hj.
  by case: eqP => [e'|]; rewrite ?mul0r //; case/eqP: hj; apply: val_inj.
rewrite (bary_diffE c0 uN hL) /unit_data; have hi' : (i < size N)%N by rewrite sN.
rewrite (bigD1 (Ordinal hi')) //= eqxx mul1r big1 ?addr0 // => j hj.
by case: eqP => [e'|]; rewrite ?mul0r //; case/eqP: hj; apply: val_inj.
Qed.
(* a first call is right: the answers reproduce every polynomial of degree at most p and its derivative *)
Theorem C75_first_call p e X : @elt_new F p = Ok e -> (0 < size X)%N ->
  exists v d : nat -> seq F, (forall i, (i <= p)%N -> (lbasis cap e X i).1 = Ok (v i, d i)) /\
   forall (q : {poly F}), (size q <= p.+1)%N -> forall k, (k < size X)%N ->
     \sum_(i < p.+1) q.[nth 0 (el_x e) i] * nth 0 (v i) k = q.[nth 0 X k] /\
     \sum_(i < p.+1) q.[nth 0 (el_x e) i] * nth 0 (d i) k = q^`().[nth 0 X k].
Proof.
move=> he X0; have [N [W [hp _ sN uN ee]]] := elt_newE he.
have [L hL] := nodal_ex uN; have hL' : nodal_basis (el_x e) L by rewrite ee.
exists (fun i => [seq (L i).[y] | y <- X]), (fun i => [seq (L i)^`().[y] | y <- X]); split=> [i hi|q hq k hk].
  by rewrite (C75_history [::] X i he hL') /= gtn_eqF ?X0 //= hi.
have hN : el_x e = N by rewrite ee.
rewrite hN; have hq' : (size q <= size N)%N by rewrite sN.
have R := reproduce uN hL hq'; rewrite sN in R.
by split; rewrite {2}R ?raddf_sum /= horner_sum; apply: eq_bigr => i _; rewrite (nth_map 0) // ?derivZ hornerZ.
Qed.
(* a later call with as many points as the one before answers for the earlier points *)
Theorem C75_stale p e X X' i j : @elt_new F p = Ok e -> (0 < size X)%N -> size X' = size X -> (i <= p)%N ->
  (lbasis cap (lbasis cap e X j).2 X' i).1 = (lbasis cap e X i).1.
Proof.
move=> he X0 sX hi; have [N [W [hp _ sN uN ee]]] := elt_newE he.
have [L hL] := nodal_ex uN; have hL' : nodal_basis (el_x e) L by rewrite ee.
have -> : (lbasis cap e X j).2 = lbasis_calls cap e [:: (X, j)] by [].
have -> : (lbasis cap e X i).1 = (lbasis cap (lbasis_calls cap e [::]) X i).1 by [].
by rewrite !(C75_history _ _ _ he hL') /= (gtn_eqF X0) /= sX eqxx.
Qed.
(* so the answer is wrong: at the right end after a call at the left end *)
Theorem C75_stale_wrong p e : @elt_new F p = Ok e ->
  (exists d, (lbasis cap e [:: 1] 0).1 = Ok ([:: 0], d)) /\ exists d, (lbasis cap (lbasis cap e [:: 0] 0).2 [:: 1] 0).1 = Ok ([:: 1], d).
Proof.
move=> he; have [N [W [hp eg sN uN ee]]] := elt_newE he.
have [L hL] := nodal_ex uN; have hL' : nodal_basis (el_x e) L by rewrite ee.
have [h1 _] := C51_gll_quadrature F p.+1.
have [X [V [eX _ [x0 x1] _ _]]] := h1 hp; move: eX; rewrite eg => -[eX _].
have p0 : (0 < size N)%N by rewrite sN.
have p1 : (1 < size N)%N by rewrite sN; case/andP: hp.
have [_ hl] := hL 0%N p0; split.
  have -> : (lbasis cap e [:: 1] 0).1 = (lbasis cap (lbasis_calls cap e [::]) [:: 1] 0).1 by [].
  by rewrite (C75_history _ _ _ he hL') /= -x1 -eX (hl 1%N p1); eexists.
have -> : (lbasis cap e [:: 0] 0).2 = lbasis_calls cap e [:: ([:: 0], 0%N)] by [].
by rewrite (C75_history _ _ _ he hL') /= -{1}x0 -eX (hl 0%N p0); eexists.
Qed.
End Elt.
