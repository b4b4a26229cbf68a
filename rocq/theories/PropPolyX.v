(* PropPolyX.v : C80, the Taylor-series divided differences. *)
From mathcomp Require Import all_ssreflect all_algebra.
From mathcomp Require Import ring.
From Verif Require Import ModelHist ModelPolyX.
Set Implicit Arguments.
Unset Strict Implicit.
Unset Printing Implicit Defensive.
Import GRing.Theory Num.Theory.
Local Open Scope ring_scope.

(* Specification: the divided difference f[x_i, ..., x_(i+n)], by the textbook recursion *)
Fixpoint divdiff (K : fieldType) (f : K -> K) (x : nat -> K) (i n : nat) : K :=
  if n is n'.+1 then (divdiff f x i.+1 n' - divdiff f x i n') / (x (i + n)%N - x i) else f (x i).
(* Specification: the Taylor polynomial of phi_k with N terms, sum_(e < N) y^e / (e + k)! *)
Definition taylor_phi (K : fieldType) (k N : nat) (y : K) : K := \sum_(e < N) y ^+ e / ((e + k)`!)%:R.

Section H.
Variable K : fieldType.
Implicit Types (x : nat -> K).
(* complete homogeneous polynomial of degree d in x_i .. x_(i+n) *)
Fixpoint hom x i n : nat -> K :=
  if n is n'.+1 then fix g d := if d is d'.+1 then x (i + n)%N * g d' + hom x i n' d else 1
  else fun d => x i ^+ d.
Lemma hom0 x i n : hom x i n 0 = 1. Proof. by case: n. Qed.
Lemma homS x i n d : hom x i n.+1 d.+1 = x (i + n.+1)%N * hom x i n.+1 d + hom x i n d.+1. Proof. by []. Qed.
Lemma hom_front x i n d : hom x i n.+1 d.+1 = x i * hom x i n.+1 d + hom x i.+1 n d.+1.
Proof.
elim: n i d => [|n ihn] i; elim=> [|d ihd].
- by rewrite homS !hom0 /= !expr1 !mulr1 addn1 addrC.
- rewrite homS {1}ihd homS /= addn1 !exprS mulrDr; ring.
- rewrite homS ihn !hom0 homS hom0 addSnnS; ring.
- rewrite homS {1}ihd (ihn i d.+1) (homS x i n.+1 d) (homS x i.+1 n d.+1) addSnnS; ring.
Qed.
Lemma dd_mono x i n e : (forall p q, (i <= p < q)%N -> (q <= i + n)%N -> x q != x p) ->
  divdiff (fun y => y ^+ e) x i n = if (e < n)%N then 0 else hom x i n (e - n).
Proof.
elim: n i => [|n ih] i hx; first by rewrite subn0.
rewrite /= !ih; first last.
- by move=> p q /andP [h1 h2] h3; apply: hx; [rewrite (ltnW h1) | rewrite -addSnnS].
- by move=> p q h1 h2; apply: hx => //; apply: leq_trans h2 _; rewrite leq_add2l.
have d0 : x (i + n.+1)%N - x i != 0 by rewrite subr_eq0 hx // leqnn addnS ltnS leq_addr.
case: (ltngtP e n) => [h|h|->].
- by rewrite subrr mul0r (ltn_trans h).
- rewrite ltnNge h /=; have -> : (e - n = (e - n.+1).+1)%N by rewrite subnS prednK // subn_gt0.
  set d := (e - n.+1)%N; have := hom_front x i n d; rewrite homS => e1.
  have -> : hom x i.+1 n d.+1 - hom x i n d.+1 = (x (i + n.+1)%N - x i) * hom x i n.+1 d.
    by rewrite mulrBl; apply/eqP; rewrite subr_eq addrAC eq_sym subr_eq addrC [X in _ == X]addrC; apply/eqP; rewrite -e1 addrC.
  by rewrite mulrAC mulfV // mul1r.
- by rewrite ltnS leqnn subnn !hom0 subrr mul0r.
Qed.
Lemma dd_sum x i n (I : Type) (r : seq I) (f : I -> K -> K) :
  divdiff (fun y => \sum_(e <- r) f e y) x i n = \sum_(e <- r) divdiff (f e) x i n.
Proof. by elim: n i => //= n ih i; rewrite !ih -sumrB mulr_suml. Qed.
Lemma dd_scale x i n c f : divdiff (fun y => f y * c) x i n = divdiff f x i n * c.
Proof. by elim: n i => //= n ih i; rewrite !ih -mulrBl mulrAC. Qed.
Lemma dd_affine x i n (g : K -> K) w f : w != 0 -> (forall a b, g a - g b = w * (a - b)) ->
  divdiff (fun y => f (g y)) x i n = w ^+ n * divdiff f (fun j => g (x j)) i n.
Proof.
move=> w0 hg; elim: n i => [|n ih] i /=; first by rewrite mul1r.
rewrite !ih -mulrBr hg invfM exprSr.
set A := _ - _; rewrite -!mulrA; congr (_ * _); rewrite [RHS]mulrCA; congr (_ * _).
by rewrite mulrA mulfV // mul1r.
Qed.
End H.

Section Ts.
Variable K : numFieldType.
Variable ex : K -> K.
Variables (xs : seq K) (shift scale h : K) (k : nat).
Notation m := (size xs).
Notation z := (ts_z xs shift scale).
Notation row := (ts_row xs shift scale h k).
Implicit Types a : arr K.
(* the effect of one pass over row j *)
Definition row_done (l j : nat) a a' : Prop :=
  a' j j = h * z j * (a j j / (l + k - 1)%:R) /\
  forall i, (j < i < m)%N -> a' j i = h * (z i * a j i + scale * a' j i.-1) / (l + i - j + k - 1)%:R /\
                              a' i j = a i j + a' j i.
Lemma row_ok l j a : row_done l j a (row l j a) /\
  forall p q, minn p q != j -> row l j a p q = a p q.
Proof.
rewrite /ts_row; set a0 := aset _ _ _ _.
set st := fun a i => _.
have inv r : let a' := foldl st a0 (iota j.+1 r) in
  [/\ a' j j = h * z j * (a j j / (l + k - 1)%:R),
    forall i, (j < i < j.+1 + r)%N -> a' j i = h * (z i * a j i + scale * a' j i.-1) / (l + i - j + k - 1)%:R /\
                              a' i j = a i j + a' j i,
    forall i, (j.+1 + r <= i)%N -> a' j i = a j i /\ a' i j = a i j
    & forall p q, minn p q != j -> a' p q = a p q].
  elim: r => [|r [h1 h2 h3 h4]] a'.
    rewrite {}/a' /=; split.
    - by rewrite /a0 /aset !eqxx.
    - by move=> i; rewrite addn0 => /andP [u v]; move: (leq_ltn_trans u v); rewrite ltnn.
    - by move=> i; rewrite addn0 => hi; rewrite /a0 /aset (gtn_eqF hi) !andbF.
    - move=> p q hpq; rewrite /a0 /aset; case: (p =P j) => //= ep; case: (q =P j) => //= eq; by move: hpq; rewrite ep eq minnn eqxx.
  rewrite {}/a' -[r.+1]addn1 iotaD foldl_cat /=; move: h1 h2 h3 h4; set b := foldl _ _ _; set i0 := (j.+1 + r)%N => h1 h2 h3 h4.
  have ji : (j < i0)%N by rewrite /i0 addSn ltnS leq_addr.
  have nij : (i0 == j) = false by rewrite gtn_eqF.
  have nji : (j == i0) = false by rewrite eq_sym.
  have pi : (i0.-1 == i0) = false by rewrite ltn_eqF // prednK // (leq_ltn_trans _ ji).
  rewrite /st; split.
  - by rewrite /aset eqxx /= nji.
  - move=> i /andP [hji]; rewrite addn1 addnS ltnS leq_eqVlt => /orP [/eqP|hi].
      rewrite -/i0 => ->; have [e1 e2] := h3 i0 (leqnn _).
      by rewrite /aset !eqxx /= ?nij ?nji ?pi /= e1 e2.
    have ni : (i == i0) = false by rewrite ltn_eqF.
    have ni1 : (i.-1 == i0) = false by rewrite ltn_eqF // (leq_ltn_trans (leq_pred _) hi).
    have [e1 e2] := h2 i (introT andP (conj hji hi)).
    by rewrite /aset ni ni1 nji !andbF /=; split.
  - move=> i; rewrite addn1 addnS -/i0 => hi; have [e1 e2] := h3 i (ltnW hi).
    by rewrite /aset (gtn_eqF hi) nji !andbF /=.
  - move=> p q hpq; rewrite -(h4 _ _ hpq) /aset.
    case: (p =P i0) => [ep|_] /=; last by case: (p =P j) => [ep|_] //=; case: (q =P i0) => // eq; move: hpq; rewrite ep eq (minn_idPl (ltnW ji)) eqxx.
    case: (q =P j) => [eq|_] /=; first by move: hpq; rewrite ep eq (minn_idPr (ltnW ji)) eqxx.
    by rewrite ep nij.
have [h1 h2 _ h4] := inv (m - j.+1)%N; split=> //; split=> // i /andP [hji him]; apply: h2.
by rewrite hji subnKC // (leq_trans hji) // ltnW.
Qed.
Lemma pass_ok l p a : (p <= m.-1)%N -> let a' := foldl (fun a j => row l j a) a (iota 0 p) in
  (forall j, (j < p)%N -> row_done l j a a') /\ forall u v, (p <= minn u v)%N -> a' u v = a u v.
Proof.
elim: p => [|p ih] // hp a'; have [h1 h2] := ih (ltnW hp).
rewrite {}/a' -[p.+1]addn1 iotaD foldl_cat /= add0n; move: h1 h2; set b := foldl _ _ _ => h1 h2.
have [r1 r2] := row_ok l p b; rewrite addn1.
split; last by move=> u v hu; rewrite r2 ?h2 // ?(ltnW hu) // gtn_eqF.
move=> j; rewrite ltnS leq_eqVlt => /orP [/eqP ->|hj].
  case: r1 => e1 e2; split; first by rewrite e1 h2 // minnn.
  move=> i hi; have [e3 e4] := e2 i hi; case/andP: hi => hi _.
  by rewrite e3 e4 e3 !h2 // ?(minn_idPl (ltnW hi)) ?(minn_idPr (ltnW hi)).
have [e1 e2] := h1 j hj; have nj u : (minn j u == p) = false by rewrite ltn_eqF // (leq_ltn_trans (geq_minl _ _)).
split; first by rewrite r2 ?nj.
by move=> i hi; rewrite !r2 ?(minnC i j) ?nj //; exact: e2.
Qed.
Lemma init_ok i j : (j <= i < m)%N ->
  ts_init xs scale h k i j = (h * scale) ^+ i / ((i + k - j)`!)%:R /\
  ts_init xs scale h k j i = (h * scale) ^+ i / ((i + k - j)`!)%:R.
Proof.
rewrite /ts_init; set v := fun i j => (h * scale) ^+ i / ((i + k - j)`!)%:R : K.
have inner r p a : (r <= p.+1)%N -> let a' := foldl (fun a j => aset (aset a p j (v p j)) j p (v p j)) a (iota 0 r) in
  (forall q, (q < r)%N -> a' p q = v p q /\ a' q p = v p q) /\ forall u w, maxn u w != p -> a' u w = a u w.
  elim: r => [|r ih] // hr a'; have [h1 h2] := ih (ltnW hr).
  rewrite {}/a' -[r.+1]addn1 iotaD foldl_cat /= add0n addn1; move: h1 h2; set b := foldl _ _ _ => h1 h2; rewrite ltnS in hr.
  split=> [q|u w huw].
    rewrite ltnS leq_eqVlt => /orP [/eqP ->|hq]; first by rewrite /aset !eqxx /=; split=> //; case: ifP.
    have [e1 e2] := h1 q hq; have qr : (q == r) = false by rewrite ltn_eqF.
    have qp : (q == p) = false by rewrite ltn_eqF // (leq_trans hq).
    by rewrite /aset qr qp !andbF /= ; split.
  rewrite -(h2 _ _ huw) /aset; case: (u =P r) => [eu|_] /=.
    case: (w =P p) => [ew|_] /=; first by move: huw; rewrite eu ew (maxn_idPr hr) eqxx.
    case: (u =P p) => //= eup; case: (w =P r) => // ewr; move: huw; rewrite eup ewr (maxn_idPl hr) eqxx //.
  case: (u =P p) => //= eup; case: (w =P r) => // ewr; move: huw; rewrite eup ewr (maxn_idPl hr) eqxx //.
have outer r : let a' := foldl (fun a i => foldl (fun a j => aset (aset a i j (v i j)) j i (v i j)) a (iota 0 i.+1)) (fun _ _ => 0) (iota 0 r) in
  forall i j, (j <= i < r)%N -> a' i j = v i j /\ a' j i = v i j.
  elim: r => [|r ih] a' p q; first by rewrite ltn0 andbF.
  rewrite /a' -[X in iota 0 X]addn1 iotaD foldl_cat /= add0n; set b := foldl _ (fun _ _ => 0) _.
  have [h1 h2] := inner r.+1 r b (leqnn _); rewrite [foldl _ _ _](_ : _ = foldl (fun a j => aset (aset a r j (v r j)) j r (v r j)) b (iota 0 r.+1)) //.
  rewrite ltnS => /andP [hq]; rewrite leq_eqVlt => /orP [/eqP ep|hp]; first by rewrite ep; apply: h1; rewrite ltnS -ep.
  by rewrite !h2; [apply: ih; rewrite hq | rewrite (maxn_idPr hq) ltn_eqF | rewrite (maxn_idPl hq) ltn_eqF].
by move=> hij; exact: outer.
Qed.
Notation hz := (fun i => h * z i).
Lemma factS_neq0 n : (n`!)%:R != 0 :> K. Proof. by rewrite pnatr_eq0 -lt0n fact_gt0. Qed.
Lemma passes_ok r : let a' := foldl (fun a l => foldl (fun a j => row l j a) a (iota 0 m.-1)) (ts_init xs scale h k) (iota 2 r) in
  forall j i, (j < m.-1)%N -> (j <= i < m)%N ->
  a' j i = (h * scale) ^+ i * hom hz j (i - j) r / ((i - j + k + r)`!)%:R /\
  ((j < i)%N -> a' i j = (h * scale) ^+ i * \sum_(d < r.+1) hom hz j (i - j) d / ((i - j + k + d)`!)%:R).
Proof.
elim: r => [|r ih] a' j i hj hi.
  have [e1 e2] := init_ok hi; case/andP: hi => hji _; rewrite /a' /= e1 e2 hom0 mulr1 addn0 big_ord_recl big_ord0 hom0 addr0 addn0 div1r.
  by rewrite -addnBAC.
rewrite /a' -[r.+1]addn1 iotaD foldl_cat /=; move: ih; set b := foldl _ _ (iota 2 r) => ih.
have [h1 _] := pass_ok (2 + r) b (leqnn m.-1); have [e1 e2] := h1 j hj; rewrite addn1.
move: e1 e2; set c := foldl _ b _ => e1 e2 {h1}.
have up n : (j + n < m)%N -> c j (j + n)%N = (h * scale) ^+ (j + n) * hom hz j n r.+1 / ((n + k + r.+1)`!)%:R.
  elim: n => [|n ihn] hn.
    have [e _] := ih j j hj (introT andP (conj (leqnn j) (leq_ltn_trans (leq_addr _ _) hn))).
    rewrite addn0 e1 e subnn /= add0n addnS factS natrM exprS.
    have -> : (2 + r + k - 1 = (k + r).+1)%N by rewrite addnC addnA subn1 addnAC addn2.
    have := factS_neq0 (k + r); have : ((k + r).+1)%:R != 0 :> K by rewrite pnatr_eq0.
    move: ((k + r).+1%:R : K) (((k + r)`!)%:R : K) => A B A0 B0; by field; rewrite A0 B0.
  have lt1 : (j < j + n.+1 < m)%N by rewrite hn addnS ltnS leq_addr.
  have [e _] := ih j (j + n.+1)%N hj (introT andP (conj (leq_addr _ _) hn)).
  have [-> _] := e2 _ lt1; rewrite e addKn homS addnS (_ : (j + n).+1.-1 = (j + n)%N) // ihn; last by rewrite (ltn_trans _ hn) // addnS.
  have -> : (2 + r + (j + n).+1 - j + k - 1 = (n.+1 + k + r).+1)%N.
    rewrite -addnS addnCA addKn subn1 -!addnA.
    by rewrite !addSn !addnS /= add0n !addnA [(r + n)%N]addnC addnAC.
  rewrite [(n.+1 + k + r.+1)%N]addnS factS natrM !addSn [(n + k + r.+1)%N]addnS exprS.
  have := factS_neq0 (n + k + r).+1; have : ((n + k + r).+2)%:R != 0 :> K by rewrite pnatr_eq0.
  move: ((n + k + r).+2%:R : K) (((n + k + r).+1`!)%:R : K) => A B A0 B0; by field; rewrite A0 B0.
case/andP: (hi) => hji him; have ci : c j i = _ := etrans (congr1 (c j) (esym (subnKC hji))) (up _ (introT idP (eq_ind_r (fun x => (x < m)%N) him (subnKC hji)))).
rewrite subnKC // in ci; split=> // hlt; have [|_ ->] := e2 i; first by rewrite hlt.
by have [_ ->] := ih j i hj hi; rewrite // ci [in RHS]big_ord_recr /= mulrDr mulrA.
Qed.
Lemma dd_taylor (x : nat -> K) j n : (forall p q, (j <= p < q)%N -> (q <= j + n)%N -> x q != x p) ->
  divdiff (taylor_phi k (n + 16)) x j n = \sum_(d < 16) hom x j n d / ((n + k + d)`!)%:R.
Proof.
move=> hx; rewrite /taylor_phi dd_sum; under eq_bigr do rewrite dd_scale dd_mono //.
rewrite big_split_ord /= big1 ?add0r => [|i _]; last by rewrite ltn_ord mul0r.
by apply: eq_bigr => d _; rewrite ltnNge leq_addr /= addKn addnAC.
Qed.

(* C80.  The whole table: exp on the diagonal, zero above, and below it the divided differences, at the points
   themselves, of the Taylor polynomial of phi_k (of degree 15 more than their order), column j times (h scale)^j. *)
Theorem C80_table (i j : 'I_m) : uniq xs -> h * scale != 0 ->
  ts_phi_full ex xs shift scale h k i j =
  if (i < j)%N then 0 else if i == j then ex (h * (shift + scale * nth 0 xs i)) else
  (h * scale) ^+ j * divdiff (fun y => taylor_phi k (i - j + 16) (h * (shift + scale * y))) (nth 0 xs) j (i - j).
Proof.
move=> ux hs; rewrite mxE leqNgt; case: ltnP => //= hji.
case: eqP => // /eqP nij; have {nij hji} hlt : (j < i)%N by rewrite ltn_neqAle hji eq_sym andbT.
have jm : (j < m.-1)%N by rewrite -ltnS prednK ?(leq_ltn_trans hlt) // (leq_ltn_trans _ (ltn_ord i)).
have hi : (j <= i < m)%N by rewrite (ltnW hlt) ltn_ord.
have [_ /(_ hlt)] := passes_ok 15 jm hi; rewrite -/(ts_loop xs shift scale h k) => ->.
rewrite (@dd_affine _ _ _ _ (fun y => h * (shift + scale * y)) (h * scale)) // => [|p q]; last by ring.
rewrite mulrA -exprD subnKC ?(ltnW hlt) // dd_taylor // => p q /andP [h1 h2]; rewrite subnKC ?(ltnW hlt) // => h3.
rewrite -subr_eq0.
have -> : h * (shift + scale * nth 0 xs q) - h * (shift + scale * nth 0 xs p) = h * scale * (nth 0 xs q - nth 0 xs p) by ring.
have qm : (q < m)%N by rewrite (leq_ltn_trans h3).
by rewrite mulf_neq0 // subr_eq0 nth_uniq // ?gtn_eqF // (ltn_trans h2).
Qed.
End Ts.
Print Assumptions C80_table.

(* C80.  The coefficients: for every order k the first is exp at the first point (not phi_k); coefficient i > 0
   is the divided difference of order i of the Taylor polynomial of phi_k at the first i+1 points. *)
Theorem C80_coeffs (K : numFieldType) (ex : K -> K) x0 xs (shift scale h : K) k :
  uniq (x0 :: xs) -> h * scale != 0 ->
  exists cs, leja_coeffs_ts_phi ex (x0 :: xs) shift scale h k = Ok cs /\ size cs = size (x0 :: xs) /\
    nth 0 cs 0 = ex (h * (shift + scale * x0)) /\
    forall i, (0 < i < size (x0 :: xs))%N -> nth 0 cs i =
      divdiff (fun y => taylor_phi k (i + 16) (h * (shift + scale * y))) (nth 0 (x0 :: xs)) 0 i.
Proof.
move=> ux hs; pose j0 : 'I_(size (x0 :: xs)) := ord0.
exists [seq ts_phi_full ex (x0 :: xs) shift scale h k i j0 | i <- enum 'I_(size (x0 :: xs))]; split.
  by rewrite /leja_coeffs_ts_phi; congr Ok; apply: eq_map => i; case: insubP => [j _ hj|//]; congr (ts_phi_full _ _ _ _ _ _ i _); apply: val_inj.
have e (i : 'I_(size (x0 :: xs))) : nth 0 [seq ts_phi_full ex (x0 :: xs) shift scale h k i j0 | i <- enum 'I_(size (x0 :: xs))] i =
    ts_phi_full ex (x0 :: xs) shift scale h k i j0.
  by rewrite (nth_map i) ?size_enum_ord // nth_ord_enum.
split; first by rewrite size_map size_enum_ord.
split; first by have := e ord0 => ->; rewrite C80_table // ltnn eqxx.
move=> i /andP [i0 hi]; have := e (Ordinal hi) => ->; rewrite C80_table // ltn0 -(inj_eq val_inj) [val _ == _]gtn_eqF //.
by rewrite expr0 mul1r subn0.
Qed.
Print Assumptions C80_coeffs.

(* C80.  The substep variant: its first component is exp(z_0 / scale) to the power of the number of steps; the
   exponential of z_0 would need exactly scale steps. *)
Theorem C80_substep_first (K : numFieldType) (ex : K -> K) ceil x0 xs (shift scale : K) k :
  leja_coeffs_ts_phi_substep ex ceil (x0 :: xs) shift scale k 0 0 =
  ex ((shift + scale * x0) / scale) ^+ (ceil scale).-1.+1.
Proof.
rewrite /leja_coeffs_ts_phi_substep; set F := ts_phi_full _ _ _ _ _ _.
have row0 (y : 'cV_(size (x0 :: xs))) : (F *m y) 0 0 = ex ((shift + scale * x0) / scale) * y 0 0.
  rewrite mxE (bigD1 0) //= big1 ?addr0 => [|i hi]; last first.
    by rewrite mxE leqn0 (_ : (i : nat) == 0%N = false) ?mul0r //; apply/negbTE; move: hi; rewrite -(inj_eq val_inj).
  by rewrite mxE eqxx /ts_z /= div1r [scale^-1 * _]mulrC.
elim: (_.-1) => [|r ih]; first by rewrite expr1 [iter _ _ _]/= row0 mxE eqxx mulr1.
by rewrite iterS row0 ih -exprS.
Qed.
Print Assumptions C80_substep_first.

(* the hypotheses are met, and the first coefficient is wrong for k = 1: with points 1, 2, shift 0, scale 1, h 1 it is
   ex 1 although the zeroth divided difference of the Taylor polynomial of phi_1 differs between k = 0 and k = 1 *)
Lemma C80_example (K : numFieldType) : uniq [:: 1; 2%:R : K] /\ (1 : K) * 1 != 0 /\
  taylor_phi 0 2 (1 : K) != taylor_phi 1 2 (1 : K).
Proof.
split; first by rewrite /= inE andbT (eqr_nat _ 1 2).
split; first by rewrite mulr1 oner_eq0.
have -> : taylor_phi 0 2 (1 : K) = 2%:R.
  rewrite /taylor_phi !big_ord_recl !big_ord0 !expr1n addr0 (_ : (ord0 + 0)`! = 1%N) // (_ : (lift ord0 ord0 + 0)`! = 1%N) //.
  by field.
have -> : taylor_phi 1 2 (1 : K) = 3%:R / 2%:R.
  rewrite /taylor_phi !big_ord_recl !big_ord0 !expr1n addr0 (_ : (ord0 + 1)`! = 1%N) // (_ : (lift ord0 ord0 + 1)`! = 2%N) //.
  by field.
by rewrite -subr_eq0 (_ : _ - _ = 1 / 2%:R) ?div1r ?invr_eq0 ?pnatr_eq0 //; field.
Qed.
