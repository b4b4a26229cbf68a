(* PropPolySS.v : C80, divided differences by Taylor series with scaling and squaring. *)
From mathcomp Require Import all_ssreflect all_algebra.
From mathcomp Require Import ring.
From Verif Require Import ModelHist ModelPolyX ModelPolySS PropPolyX.
Set Implicit Arguments.
Unset Strict Implicit.
Unset Printing Implicit Defensive.
Import GRing.Theory Num.Theory.
Local Open Scope ring_scope.

Section Leibniz.
Variable K : fieldType.
Variables (f g : K -> K) (x : nat -> K).
Definition distinct_from (i n : nat) := forall p q, (i <= p < q)%N -> (q <= i + n)%N -> x q != x p.
Lemma ddS (F : K -> K) i n : x (i + n.+1)%N != x i ->
  (x (i + n.+1)%N - x i) * divdiff F x i n.+1 = divdiff F x i.+1 n - divdiff F x i n.
Proof. by move=> h; rewrite /= mulrCA mulfV ?mulr1 // subr_eq0. Qed.
Arguments divdiff : simpl never.
Lemma leibniz i n : distinct_from i n ->
  divdiff (fun y => f y * g y) x i n = \sum_(k < n.+1) divdiff f x i k * divdiff g x (i + k) (n - k).
Proof.
elim: n i => [|n ih] i hx; first by rewrite big_ord_recl big_ord0 addr0 /= addn0 /divdiff.
have ne p q : (i <= p < q)%N -> (q <= i + n.+1)%N -> x q != x p by exact: hx.
have e0 : x (i + n.+1)%N != x i by apply: ne; rewrite ?leqnn // addnS ltnS leq_addr.
apply: (mulfI (_ : x (i + n.+1)%N - x i != 0)); first by rewrite subr_eq0.
rewrite ddS // !ih; first last.
- by move=> p q /andP [h1 h2] h3; apply: hx; [rewrite (ltnW h1) | rewrite -addSnnS].
- by move=> p q h1 h2; apply: hx => //; apply: leq_trans h2 _; rewrite leq_add2l.
set e := (i + n.+1)%N.
have -> : (x e - x i) * (\sum_(k < n.+2) divdiff f x i k * divdiff g x (i + k) (n.+1 - k)) =
   \sum_(k < n.+2) (x (i + k)%N - x i) * divdiff f x i k * divdiff g x (i + k) (n.+1 - k) +
   \sum_(k < n.+2) divdiff f x i k * ((x e - x (i + k)%N) * divdiff g x (i + k) (n.+1 - k)).
  by rewrite mulr_sumr -big_split /=; apply: eq_bigr => k _; ring.
rewrite [X in _ = X + _]big_ord_recl /= addn0 subrr !mul0r add0r [X in _ = _ + X]big_ord_recr /= subrr mul0r mulr0 addr0.
have -> : \sum_(k < n.+1) (x (i + bump 0 k)%N - x i) * divdiff f x i (bump 0 k) * divdiff g x (i + bump 0 k) (n.+1 - bump 0 k) =
    \sum_(k < n.+1) (divdiff f x i.+1 k * divdiff g x (i.+1 + k) (n - k) - divdiff f x i k * divdiff g x (i.+1 + k) (n - k)).
  apply: eq_bigr => k _; rewrite /bump leq0n add1n ddS; first by rewrite subSS mulrBl addSnnS.
  by apply: ne; rewrite ?leqnn ?leq_add2l ?ltn_ord // addnS ltnS leq_addr.
have -> : \sum_(k < n.+1) divdiff f x i k * ((x e - x (i + k)%N) * divdiff g x (i + k) (n.+1 - k)) =
    \sum_(k < n.+1) (divdiff f x i k * divdiff g x (i.+1 + k) (n - k) - divdiff f x i k * divdiff g x (i + k) (n - k)).
  apply: eq_bigr => k _; have hk : (k <= n)%N by rewrite -ltnS.
  rewrite (subSn hk) (_ : e = (i + k + (n - k).+1)%N); last by rewrite /e -subSn // -addnA subnKC // ltnW.
  rewrite ddS ?mulrBr ?addSn //; apply: ne; last by rewrite -addnA -subSn // subnKC // ltnW.
  by rewrite leq_addr -[X in (X < _)%N]addn0 ltn_add2l.
by rewrite !sumrB addrA subrK.
Qed.
Lemma dd_scale_pts (F : K -> K) c i n : c != 0 ->
  divdiff F (fun j => c * x j) i n = (c ^+ n)^-1 * divdiff (fun y => F (c * y)) x i n.
Proof.
move=> c0; rewrite (@dd_affine _ _ _ _ (fun y => c * y) c) // => [|a b]; last by rewrite mulrBr.
by rewrite mulrA mulVf ?mul1r // expf_neq0.
Qed.
Lemma dd_ext (F G : K -> K) (u v : nat -> K) i n : F =1 G -> u =1 v -> divdiff F u i n = divdiff G v i n.
Proof. by move=> h1 h2; elim: n i => [|n ih] i; rewrite /divdiff ?h1 ?h2 // -/divdiff !ih. Qed.
End Leibniz.

Section Square.
Variable K : numFieldType.
Variable ex : K -> K.
Hypothesis exD : forall a b, ex (a + b) = ex a * ex b.
(* the exact table of divided differences of ex at the points z *)
Definition exact n (F : 'M[K]_n) (z : nat -> K) : Prop :=
  forall i j : 'I_n, F i j = if (i <= j)%N then divdiff ex z i (j - i) else 0.
Lemma square_exact n (F : 'M[K]_n) z : (forall p q, (p < q < n)%N -> z q != z p) -> exact F z ->
  exact (ss_square ex (F, z)).1 (ss_square ex (F, z)).2.
Proof.
move=> hz hF i j; rewrite /= mxE; case: (i =P j) => [->|/eqP nij]; first by rewrite leqnn subnn.
set Rm := diag_mx _.
have two0 : (2%:R : K) != 0 by rewrite pnatr_eq0.
pose D := diag_mx (\row_(i < n) (2%:R ^+ i : K)^-1).
have RD : Rm *m D = 1%:M.
  apply/matrixP => p q; rewrite /Rm /D mul_diag_mx !mxE; case: eqP => [->|_]; last by rewrite !mulr0n mulr0.
  by rewrite !mulr1n mulfV // expf_neq0.
have Ri : invmx Rm = D.
  have [hu _] := mulmx1_unit RD.
  by rewrite -[RHS]mul1mx -(mulVmx hu) -mulmxA RD mulmx1.
rewrite Ri /D mul_mx_diag mxE /Rm mul_diag_mx !mxE.
pose G (k : nat) : K := (if (i <= k)%N then divdiff ex z i (k - i) else 0) * (if (k <= j)%N then divdiff ex z k (j - k) else 0).
have -> : \sum_k F i k * F k j = \sum_(0 <= k < n) G k.
  by rewrite big_mkord; apply: eq_bigr => k _; rewrite !hF.
case: leqP => hij; last first.
  rewrite big_nat big1 ?mulr0 ?mul0r // => k _; rewrite /G; case: leqP => [h1|]; last by rewrite mul0r.
  by rewrite leqNgt (leq_trans hij h1) /= mulr0.
have ji1 : (j.+1 <= n)%N by exact: ltn_ord.
have -> : \sum_(0 <= k < n) G k = \sum_(k < (j - i).+1) divdiff ex z i k * divdiff ex z (i + k) (j - i - k).
  rewrite (big_cat_nat _ _ _ (leq0n i) (ltnW (ltn_ord i))) /= big_nat big1 ?add0r; last first.
    by move=> k /andP [_ hk]; rewrite /G leqNgt hk /= mul0r.
  rewrite (big_cat_nat _ _ _ (leqW hij) ji1) /= [X in _ + X]big_nat [X in _ + X]big1 ?addr0; last first.
    by move=> k /andP [hk _]; rewrite /G [(k <= j)%N]leqNgt hk /= mulr0.
  rewrite -{1}[i : nat]add0n big_addn subSn // big_mkord; apply: eq_bigr => k _.
  by rewrite /G leq_addl addnK addnC -leq_subRL // -ltnS ltn_ord subnDA.
have hd : distinct_from z i (j - i).
  by move=> p q /andP [h1 h2]; rewrite subnKC // => h3; apply: hz; rewrite h2 (leq_ltn_trans h3).
rewrite -leibniz // (@dd_ext _ (fun y => ex y * ex y) (fun y => ex (2%:R * y)) z z) // => [|y]; last first.
  by rewrite (_ : 2%:R * y = y + y) ?exD // mulr_natl mulr2n.
rewrite dd_scale_pts // -{2}(subnK hij) exprD; move: (divdiff _ _ _ _) => d.
have := expf_neq0 (j - i) two0; have := expf_neq0 i two0; move: (2%:R ^+ i : K) (2%:R ^+ (j - i) : K) => A B A0 B0.
by field; rewrite A0 B0.
Qed.
Lemma iter_exact n (F : 'M[K]_n) z s : (forall p q, (p < q < n)%N -> z q != z p) -> exact F z ->
  exact (iter s (ss_square ex (n:=n)) (F, z)).1 (iter s (ss_square ex (n:=n)) (F, z)).2 /\
  (iter s (ss_square ex (n:=n)) (F, z)).2 =1 (fun i => 2%:R ^+ s * z i).
Proof.
move=> hz hF; elim: s => [|s [ih1 ih2]]; first by split=> // i /=; rewrite mul1r.
rewrite iterS; case: (iter s _ _) ih1 ih2 => F1 z1 /= ih1 ih2; split; last by move=> i; rewrite ih2 mulrA -exprS.
apply: (square_exact _ ih1) => p q hpq; rewrite !ih2 -subr_eq0 -mulrBr mulf_neq0 ?subr_eq0 ?hz //.
by rewrite expf_neq0 // pnatr_eq0.
Qed.

(* C80.  leja_coeffs_ts_ss: scaling and squaring are exact.  From an exact table of divided differences of the
   exponential at the scaled points, the squaring loop and the final shift produce the divided differences of
   the exponential at the points shift + scale x, for every number of squarings. *)
Theorem C80_ss_exact lg (xs : seq K) (shift scale : K) (F : 'M[K]_(size xs)) (i j : 'I_(size xs)) :
  uniq xs -> scale != 0 -> exact F (ss_z lg xs shift scale) ->
  ss_finish ex lg shift scale F i j =
  if (i <= j)%N then divdiff ex (fun k => shift + scale * nth 0 xs k) i (j - i) else 0.
Proof.
move=> ux s0 hF; set z := ss_z lg xs shift scale; set s := ss_s lg scale; set nu := ss_nu xs shift scale.
have p0 : 2%:R ^+ s != 0 :> K by rewrite expf_neq0 // pnatr_eq0.
have zd p q : (p < q < size xs)%N -> z q != z p.
  move=> /andP [h1 h2]; rewrite -subr_eq0 /z /ss_z -mulrBr -/s -/nu mulf_neq0 ?div1r ?invr_eq0 //.
  have -> : shift + scale * nth 0 xs q - nu - (shift + scale * nth 0 xs p - nu) = scale * (nth 0 xs q - nth 0 xs p) by ring.
  by rewrite mulf_neq0 // subr_eq0 nth_uniq // ?gtn_eqF // (ltn_trans h1).
have [h1 h2] := iter_exact s zd hF; rewrite /ss_finish -/s -/z -/nu mxE h1; case: ifP => _; last by rewrite mulr0.
rewrite (@dd_ext _ ex ex _ (fun i => 2%:R ^+ s * z i)) //.
have e k : shift + scale * nth 0 xs k = nu + 2%:R ^+ s * z k.
  by rewrite /z /ss_z -/s -/nu div1r mulrA mulfV // mul1r [RHS]addrC subrK.
rewrite (@dd_ext _ ex ex (fun k => shift + scale * nth 0 xs k) (fun k => nu + 2%:R ^+ s * z k)) //.
have := @dd_affine _ (fun k => 2%:R ^+ s * z k) i (j - i) (fun y => nu + y) 1 ex (oner_neq0 _).
rewrite expr1n mul1r => <- => [|a b]; last by rewrite mul1r; ring.
rewrite (@dd_ext _ (fun y => ex (nu + y)) (fun y => ex y * ex nu) _ (fun k => 2%:R ^+ s * z k)) // => [|y]; last by rewrite exD mulrC.
by rewrite dd_scale mulrC.
Qed.
End Square.
Print Assumptions C80_ss_exact.

Section Table.
Variable K : numFieldType.
Variable ex : K -> K.
Variables (n : nat) (z : nat -> K) (l : nat).
Definition tp (a b : arr K) : Prop := forall p q, a p q = b q p.
Lemma tp_aset a b i j v w : v = w -> tp a b -> tp (aset a i j v) (aset b j i w).
Proof. by move=> -> h p q; rewrite /aset andbC; case: ifP. Qed.
Lemma tp_foldl (r : seq nat) (f g : arr K -> nat -> arr K) a b : tp a b ->
  (forall i a b, i \in r -> tp a b -> tp (f a i) (g b i)) -> tp (foldl f a r) (foldl g b r).
Proof.
elim: r a b => //= i r ih a b hab hfg; apply: ih => [|i0 a0 b0 hi0]; first by apply: hfg; rewrite // mem_head.
by apply: hfg; rewrite inE hi0 orbT.
Qed.
Notation xs := (mkseq z n).
Lemma tzE i : (i < n)%N -> ts_z xs 0 1 i = z i.
Proof. by move=> hi; rewrite /ts_z nth_mkseq // add0r mul1r. Qed.
Lemma init_tp : tp (ss_init K n l) (ts_init xs 1 1 l).
Proof.
rewrite /ss_init /ts_init size_mkseq; apply: tp_foldl => // i a b _ hab; apply: tp_foldl => // j a1 b1 _ h1 p q.
rewrite mulr1 expr1n /aset [(q == j) && _]andbC [(q == i) && _]andbC; case: ifP => //= _; case: ifP => //= _; exact: h1.
Qed.
Lemma col_tp k j a b : (j < n)%N -> tp a b -> tp (ss_col n z l k j a) (ts_row xs 0 1 1 l k.+1 j b).
Proof.
move=> hj hab; rewrite /ss_col /ts_row size_mkseq; apply: tp_foldl.
  by apply: tp_aset => //; rewrite tzE // mul1r hab addSn subn1.
move=> i a1 b1; rewrite mem_iota => /andP [h1 h2] hab1.
have hin : (i < n)%N by rewrite subnKC // in h2.
have ji : (j <= k + i)%N by rewrite (leq_trans (ltnW h1)) // leq_addl.
have tp1 : tp (aset a1 i j ((z i * a1 i j + a1 i.-1 j) / (k + i - j + l)%:R))
   (aset b1 j i (1 * (ts_z xs 0 1 i * b1 j i + 1 * b1 j i.-1) / (k.+1 + i - j + l - 1)%:R)).
  by apply: tp_aset => //; rewrite tzE // !mul1r !hab1 [(k.+1 + i)%N]addSn subSn // addSn subn1.
by apply: tp_aset => //; rewrite !tp1 addrC.
Qed.
Lemma loop_tp : tp (ss_loop n z l)
  (foldl (fun a r => foldl (fun a j => ts_row xs 0 1 1 l r j a) a (iota 0 n.-1)) (ts_init xs 1 1 l) (iota 2 19)).
Proof.
rewrite /ss_loop -[2%N]/(1 + 1)%N iotaDl; elim: (iota 1 19) (ss_init K n l) (ts_init xs 1 1 l) init_tp => // k r ih a b hab.
rewrite [foldl _ _ _]/= [X in tp _ X]/= add1n; apply: ih; apply: tp_foldl => // j a1 b1; rewrite mem_iota add0n => /andP [_ hj] h1.
by apply: col_tp => //; rewrite (leq_trans hj) // leq_pred.
Qed.
Lemma dd_taylor_N (x : nat -> K) j d N : distinct_from x j d ->
  divdiff (taylor_phi l (d + N)) x j d = \sum_(e < N) hom x j d e / ((d + l + e)`!)%:R.
Proof.
move=> hx; rewrite /taylor_phi dd_sum; under eq_bigr do rewrite dd_scale dd_mono //.
rewrite big_split_ord /= big1 ?add0r => [|i _]; last by rewrite ltn_ord mul0r.
by apply: eq_bigr => e _; rewrite ltnNge leq_addr /= addKn addnAC.
Qed.
Lemma hom_ext (x y : nat -> K) i d e : (forall p, (i <= p <= i + d)%N -> x p = y p) -> hom x i d e = hom y i d e.
Proof.
elim: d e => [|d ih] e h; first by rewrite /= h // addn0 leqnn.
elim: e => [|e ihe]; first by rewrite !hom0.
rewrite !homS ihe h ?leq_addr ?leqnn // ih // => p /andP [h1 h2]; apply: h.
by rewrite h1 (leq_trans h2) // leq_add2l.
Qed.

(* C80.  leja_coeffs_ts_ss, the table before squaring: exp on the diagonal, zero below, and above it the divided
   differences at the scaled points of the Taylor polynomial of phi_l (of degree 19 more than their order). *)
Theorem C80_ss_table (i j : 'I_n) : (forall p q, (p < q < n)%N -> z q != z p) ->
  ss_table ex n z l i j = if (j < i)%N then 0 else if i == j then ex (z i) else
    divdiff (taylor_phi l (j - i + 20)) z i (j - i).
Proof.
move=> hz; rewrite mxE leqNgt; case: ltnP => //= hij; case: eqP => // /eqP nij.
have {nij hij} hlt : (i < j)%N by rewrite ltn_neqAle hij andbT.
rewrite loop_tp; have := @passes_ok K xs 0 1 1 l 19; rewrite size_mkseq => h.
have im : (i < n.-1)%N by rewrite -ltnS prednK ?(leq_ltn_trans hlt) // (leq_ltn_trans _ (ltn_ord i)).
have hi : (i <= j < n)%N by rewrite (ltnW hlt) ltn_ord.
have [_ /(_ hlt) ->] := h _ _ im hi; rewrite mulr1 expr1n mul1r dd_taylor_N; last first.
  by move=> p q /andP [h1 h2]; rewrite subnKC ?(ltnW hlt) // => h3; apply: hz; rewrite h2 (leq_ltn_trans h3).
apply: eq_bigr => e _; congr (_ / _); apply: hom_ext => p /andP [h1]; rewrite subnKC ?(ltnW hlt) // => h2.
by rewrite mul1r tzE // (leq_ltn_trans h2).
Qed.
End Table.
Print Assumptions C80_ss_table.

(* C80.  leja_coeffs_ts_ss: the argument h_in has no effect, and the first coefficient is the exponential at the
   first point, for every order l. *)
Theorem C80_ss_first (K : numFieldType) (ex : K -> K) lg x0 (xs : seq K) (shift scale h_in h' : K) l :
  (forall a b, ex (a + b) = ex a * ex b) ->
  leja_coeffs_ts_ss ex lg shift scale h_in l (ord0 : 'I_(size (x0 :: xs))) = leja_coeffs_ts_ss ex lg shift scale h' l (ord0 : 'I_(size (x0 :: xs))) /\
  leja_coeffs_ts_ss ex lg shift scale h_in l (ord0 : 'I_(size (x0 :: xs))) 0 0 = ex (shift + scale * x0).
Proof.
move=> hex; split=> //; rewrite /leja_coeffs_ts_ss mxE /ss_finish mxE.
set F0 := ss_table _ _ _ _; set z := ss_z _ _ _ _; set nu := ss_nu _ _ _; set s := ss_s _ _.
have p0 : 2%:R ^+ s != 0 :> K by rewrite expf_neq0 // pnatr_eq0.
have h r : (iter r (ss_square ex (n:=_)) (F0, z)).1 0 0 = ex (2%:R ^+ r * z 0%N) /\
    (iter r (ss_square ex (n:=_)) (F0, z)).2 0%N = 2%:R ^+ r * z 0%N.
  elim: r => [|r [_ ih]]; first by rewrite /= mxE eqxx mul1r.
  rewrite iterS; case: (iter r _ _) ih => F1 z1 /= ih; rewrite mxE eqxx ih mulrA -exprS //.
rewrite (h s).1 -hex /z /ss_z -/s -/nu div1r mulrA mulfV // mul1r addrC subrK //.
Qed.
Print Assumptions C80_ss_first.

(* the hypotheses are met: an exact table exists at any points, and a function with the law of the exponential *)
Lemma C80_ss_example (K : numFieldType) (ex : K -> K) n z : exists F : 'M[K]_n, exact ex F z.
Proof. by exists (\matrix_(i, j) if (i <= j)%N then divdiff ex z i (j - i) else 0) => i j; rewrite mxE. Qed.
