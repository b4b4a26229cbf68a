(* PropPolyDD.v : C80, the dd_phi routine. *)
From mathcomp Require Import all_ssreflect all_algebra.
From mathcomp Require Import ring.
From Verif Require Import ModelHist ModelPolyX ModelPolySS PropPolyX PropPolySS ModelPolyDD.
Set Implicit Arguments.
Unset Strict Implicit.
Unset Printing Implicit Defensive.
Import GRing.Theory Num.Theory.
Local Open Scope ring_scope.
Arguments hom : simpl never.

Section DD.
Variable K : numFieldType.
Variable ex : K -> K.
Lemma down_ok (w : nat -> K) a r d : let d' := down w (iota a r) d in
  (forall k, (a <= k < a + r)%N -> d' k = d k + w k * d' k.+1) /\ forall k, ~~ (a <= k < a + r)%N -> d' k = d k.
Proof.
rewrite /down; elim: r a => [|r ih] a.
  split=> //= k; rewrite addn0 => /andP [h1 h2]; by move: (leq_ltn_trans h1 h2); rewrite ltnn.
have [h1 h2] := ih a.+1; rewrite [iota a r.+1]/= rev_cons foldl_rcons.
move: h1 h2; set b := foldl _ _ _ => h1 h2; rewrite addSnnS in h1 h2; rewrite /vset.
have ba : b a = d a by apply: h2; rewrite ltnn.
split=> k.
  case/andP => ha hr; move: ha; rewrite leq_eqVlt => /orP [/eqP <-|ha].
    by rewrite eqxx ba gtn_eqF.
  have k1 : (k == a) = false by rewrite gtn_eqF.
  have k2 : (k.+1 == a) = false by rewrite gtn_eqF // ltnW.
  by rewrite k1 k2; apply: h1; rewrite ha.
case: (k =P a) => [->|/eqP ka hk]; first by rewrite leqnn addnS ltnS leq_addr.
by apply: h2; rewrite ltn_neqAle eq_sym ka.
Qed.
Variables (n : nat) (z : nat -> K) (s : nat).
Notation N := (ddp_N n).
Notation c := (ddp_init K s).
Lemma row_eqs j d : (j <= n)%N -> let d' := ddp_row n z j d in
  [/\ d' N = d N, forall k, (n - j <= k < N)%N -> d' k = d k + z j * d' k.+1
    & forall k, (k < n - j)%N -> d' k = d k + (z j - z (k + j + 1)%N) * d' k.+1].
Proof.
move=> hj; rewrite /ddp_row.
have hN : (n - j <= N)%N by rewrite (leq_trans (leq_subr _ _)) // leq_addr.
have [h1 h2] := down_ok (fun _ => z j) (n - j) (N - (n - j)) d; rewrite subnKC // in h1 h2.
set d1 := down _ _ d in h1 h2 *.
have [h3 h4] := down_ok (fun k => z j - z (k + j + 1)%N) 0 (n - j) d1; rewrite add0n in h3 h4.
set d2 := down _ _ d1 in h3 h4 *; split.
- by rewrite h4 ?h2 // ?ltnn ?andbF //= -leqNgt.
- move=> k /andP [hk1 hk2]; rewrite !h4 /= -?leqNgt // ?(leqW hk1) //; by rewrite h1 // hk1.
- by move=> k hk; rewrite h3 // h2 // leqNgt hk.
Qed.
(* sum_d hom_d(z_j .. ) c_(k+d): the divided difference at z_j .. z_(j + min(k, n-j)) and zeros *)
Definition G (j k : nat) : K :=
  if (j <= n)%N then \sum_(d < (N - k).+1) hom z j (minn k (n - j)) d * c (k + d) else c k.
Lemma sum_shift (a : nat -> K) k r : \sum_(d < r.+1) a d * c (k + d) = a 0%N * c k + \sum_(d < r) a d.+1 * c (k.+1 + d).
Proof. by rewrite big_ord_recl /= addn0; congr (_ + _); apply: eq_bigr => d _; rewrite /bump leq0n add1n addSnnS. Qed.
Lemma row_G j d : (j <= n)%N -> (forall k, (k <= N)%N -> d k = G j.+1 k) ->
  forall k, (k <= N)%N -> ddp_row n z j d k = G j k.
Proof.
move=> hj hd; have [e0 e1 e2] := row_eqs d hj; set d' := ddp_row _ _ _ _ in e0 e1 e2 *.
have nN : (n <= N)%N by rewrite leq_addr.
suff h t : (t <= N)%N -> d' (N - t)%N = G j (N - t)%N.
  by move=> k hk; rewrite -(subKn hk); apply: h; rewrite leq_subr.
elim: t => [|t ih] ht.
  rewrite subn0 e0 hd // /G hj subnn big_ord_recl big_ord0 hom0 mul1r addr0 addn0.
  by case: ifP => // _; rewrite big_ord_recl big_ord0 hom0 mul1r addr0 addn0.
set k := (N - t.+1)%N; have kS : (N - t)%N = k.+1 by rewrite /k -subnSK.
have kN : (k < N)%N by rewrite /k -kS leq_subr.
have {ih} ih : d' k.+1 = G j k.+1 by rewrite -kS ih // ltnW.
have kr : (N - k)%N = (N - k.+1).+1 by rewrite subnSK.
have e3 : G j k = c k + \sum_(d < N - k) hom z j (minn k (n - j)) d.+1 * c (k.+1 + d).
  by rewrite /G hj sum_shift hom0 mul1r.
have e4 : G j k.+1 = \sum_(d < N - k) hom z j (minn k.+1 (n - j)) d * c (k.+1 + d) by rewrite /G hj kr.
case: (leqP (n - j) k) => hk.
  rewrite e1 ?hk // ih hd ?(ltnW kN) // e3 e4 (minn_idPr hk) (minn_idPr (leqW hk)) mulr_sumr.
  rewrite /G; case: (leqP j.+1 n) => hj1.
    have m1 : (n - j = (n - j.+1).+1)%N by rewrite subnSK.
    rewrite sum_shift hom0 mul1r -addrA -big_split /=; congr (_ + _); apply: eq_bigr => i _.
    rewrite (minn_idPr _) ?m1 ?(leq_trans _ hk) ?m1 // hom_front; ring.
  have -> : (n - j = 0)%N by apply/eqP; rewrite subn_eq0 -ltnS.
  by congr (_ + _); apply: eq_bigr => i _; rewrite /hom exprS mulrA.
have hj1 : (j.+1 <= n)%N by rewrite -subn_gt0 (leq_ltn_trans _ hk).
have m1 : (n - j = (n - j.+1).+1)%N by rewrite subnSK.
rewrite e2 // ih hd ?(ltnW kN) // e3 e4 (minn_idPl (ltnW hk)) (minn_idPl hk) /G hj1 sum_shift hom0 mul1r mulr_sumr.
rewrite -addrA -big_split /=; congr (_ + _); apply: eq_bigr => i _.
rewrite (minn_idPl _); last by rewrite -ltnS -m1.
have := homS z j k i; rewrite hom_front => e5.
have -> : hom z j.+1 k i.+1 = z (j + k.+1)%N * hom z j k.+1 i + hom z j k i.+1 - z j * hom z j k.+1 i.
  by rewrite -e5 addrAC subrr add0r.
rewrite (_ : (k + j + 1 = j + k.+1)%N); last by rewrite addn1 addnS addnC.
ring.
Qed.
Lemma loop_G p q : (p <= q <= n)%N -> (ddp_loop n z s).2 p q = G p (q - p).
Proof.
rewrite /ddp_loop; set f := fun st j => _.
have h r : (r <= n.+1)%N -> let st := foldl f (c, fun _ _ => 0) (rev (iota (n.+1 - r) r)) in
   (forall k, (k <= N)%N -> st.1 k = G (n.+1 - r) k) /\ forall p q, (n.+1 - r <= p)%N -> (p <= q <= n)%N -> st.2 p q = G p (q - p).
  elim: r => [|r ih] hr /=.
    rewrite subn0; split; first by move=> k _; rewrite /G ltnn.
    by move=> p0 q0 h1 /andP [h2 h3]; move: (leq_trans (leq_trans h1 h2) h3); rewrite ltnn.
  have e : (n.+1 - r = (n.+1 - r.+1).+1)%N by rewrite subnSK.
  have [h1 h2] := ih (ltnW hr); rewrite e in h1 h2.
  rewrite rev_cons foldl_rcons; move: h1 h2; set st := foldl _ _ _; set j := (n.+1 - r.+1)%N => h1 h2.
  have hj : (j <= n)%N by rewrite /j subSS leq_subr.
  have hrow := row_G hj h1; split=> //= p0 q0; rewrite leq_eqVlt => /orP [/eqP <-|hp] hpq.
    rewrite eqxx hpq hrow // (leq_trans (leq_subr _ _)) //; case/andP: hpq => _ hq; by rewrite (leq_trans hq) // leq_addr.
  by rewrite gtn_eqF //= h2.
have [_ h2] := h n.+1 (leqnn _); rewrite subnn in h2; exact: h2.
Qed.
Lemma initE m : c m = (s%:R ^+ m)^-1 / (m`!)%:R.
Proof.
rewrite /ddp_init big_split /= prodr_const card_ord div1r invfM mulrC; congr (_ * _); congr (_^-1).
by elim: m => [|m ih]; rewrite ?big_ord0 // big_ord_recr /= ih factS natrM mulrC.
Qed.

(* C80.  leja_coeffs_dd_phi, the table before squaring: exp(z/s) on the diagonal, zero below, and above it the divided
   differences at the points of the Taylor polynomial of exp(y/s) with n + 31 terms. *)
Theorem C80_dd_table (i j : 'I_n.+1) : (0 < s)%N -> (forall p q, (p < q <= n)%N -> z q != z p) ->
  ddp_table ex n z s i j = if (j < i)%N then 0 else if i == j then ex (z i / s%:R) else
    divdiff (fun y => taylor_phi 0 (n + 31) (y / s%:R)) z i (j - i).
Proof.
move=> s0 hz; rewrite mxE leqNgt; case: ltnP => //= hij; case: eqP => // _.
have hi : (i <= n)%N by rewrite -ltnS.
have hj : (j <= n)%N by rewrite -ltnS.
rewrite loop_G ?hij // /G hi; set d := (j - i)%N.
have dn : (d <= n - i)%N by rewrite leq_sub2r.
have dN : (d <= N)%N by rewrite (leq_trans dn) // (leq_trans (leq_subr _ _)) // leq_addr.
have hd : distinct_from z i d.
  by move=> p q /andP [h1 h2]; rewrite subnKC // => h3; apply: hz; rewrite h2 (leq_trans h3).
rewrite (minn_idPl dn) /taylor_phi dd_sum.
rewrite (eq_bigr (fun e : 'I_(n + 31) => (if (e < d)%N then 0 else hom z i d (e - d)) * c e)); last first.
  move=> e _; rewrite (@dd_ext _ _ (fun y => y ^+ e * c e) z z) // => [|y]; last first.
    by rewrite addn0 initE exprMn exprVn mulrA.
  by rewrite dd_scale dd_mono.
rewrite -(big_mkord xpredT (fun e => (if (e < d)%N then 0 else hom z i d (e - d)) * c e)).
have -> : (n + 31 = d + (N - d).+1)%N by rewrite [RHS]addnS subnKC // /ddp_N -addnS.
rewrite big_mkord [RHS]big_split_ord /= [X in _ = X + _]big1 ?add0r => [|e _]; last by rewrite ltn_ord mul0r.
by apply: eq_bigr => e _; rewrite ltnNge leq_addr /= addKn.
Qed.

Hypothesis exD : forall a b, ex (a + b) = ex a * ex b.
Lemma exM r a : ex a ^+ r.+1 = ex (r.+1%:R * a).
Proof. by elim: r => [|r ih]; rewrite ?expr1 ?mul1r // exprS ih -exD [in RHS]mulrSr mulrDl mul1r addrC. Qed.

(* C80.  Squaring is exact: from an exact table of divided differences of exp(y/s) at z, the s - 1 products and the
   factor exp(mu) give the divided differences of exp at the points mu + z. *)
Theorem C80_dd_exact (F : 'M[K]_n.+1) mu (j : 'I_n.+1) : (0 < s)%N -> (forall p q, (p < q <= n)%N -> z q != z p) ->
  (forall p q : 'I_n.+1, F p q = if (p <= q)%N then divdiff (fun y => ex (y / s%:R)) z p (q - p) else 0) ->
  ddp_finish ex s mu F 0 j = divdiff ex (fun k => mu + z k) 0 j.
Proof.
move=> s0 hz hF; rewrite /ddp_finish mxE.
have h r (q : 'I_n.+1) : iter r (fun dd : 'rV_n.+1 => dd *m F) (row 0 F) 0 q = divdiff (fun y => ex (y / s%:R) ^+ r.+1) z 0 q.
  elim: r q => [|r ih] q; first by rewrite /= mxE hF leq0n subn0; apply: dd_ext.
  rewrite iterS mxE.
  have hd : distinct_from z 0 q.
    by move=> p p' /andP [h1 h2]; rewrite add0n => h3; apply: hz; rewrite h2 (leq_trans h3) // -ltnS.
  rewrite (@dd_ext _ (fun y => ex (y / s%:R) ^+ r.+2) (fun y => ex (y / s%:R) ^+ r.+1 * ex (y / s%:R)) z z) // => [|y]; last by rewrite -exprSr.
  rewrite leibniz //.
  rewrite (eq_bigr (fun k : 'I_n.+1 => if (k <= q)%N then divdiff (fun y => ex (y / s%:R) ^+ r.+1) z 0 k * divdiff (fun y => ex (y / s%:R)) z (0 + k) (q - k) else 0)); last first.
    by move=> k _; rewrite ih hF; case: ifP => // _; rewrite mulr0.
  rewrite -big_mkcond /=; symmetry.
  exact: (big_ord_widen _ (fun k => divdiff (fun y => ex (y / s%:R) ^+ r.+1) z 0 k * divdiff (fun y => ex (y / s%:R)) z (0 + k) (q - k)) (ltn_ord q)).
have s1 : s%:R != 0 :> K by rewrite pnatr_eq0 -lt0n.
rewrite h prednK // (@dd_ext _ _ ex z z) // => [|y]; last by rewrite -(prednK s0) exM prednK // mulrCA mulfV ?mulr1.
have := @dd_affine _ z 0 j (fun y => mu + y) 1 ex (oner_neq0 _).
rewrite expr1n mul1r => <- => [|a b]; last by rewrite mul1r; ring.
rewrite (@dd_ext _ (fun y => ex (mu + y)) (fun y => ex y * ex mu) z z) // => [|y]; last by rewrite exD mulrC.
by rewrite dd_scale mulrC.
Qed.
End DD.
Print Assumptions C80_dd_table.
Print Assumptions C80_dd_exact.

(* C80.  The routine returns one coefficient per point; for l = 0 the first is exp at the first point. *)
Theorem C80_dd_coeffs (K : numFieldType) (ex : K -> K) s_of x0 (xs : seq K) (shift scale h : K) l :
  (forall a b, ex (a + b) = ex a * ex b) ->
  size (leja_coeffs_dd_phi ex s_of (x0 :: xs) shift scale h l) = size (x0 :: xs) /\
  nth 0 (leja_coeffs_dd_phi ex s_of (x0 :: xs) shift scale h 0) 0 = ex (h * (shift + scale * x0)).
Proof.
move=> hex; split.
  by rewrite size_drop size_map size_enum_ord /ddp_pts size_cat size_nseq size_map /= addnS /= -addnS addKn.
rewrite /leja_coeffs_dd_phi drop0; set pts := ddp_pts _ _ _ _ _; set s := maxn _ 1; set F := ddp_table _ _ _ _.
have s0 : (0 < s)%N by rewrite leq_max orbT.
have s1 : s%:R != 0 :> K by rewrite pnatr_eq0 -lt0n.
rewrite (nth_map ord0) ?size_enum_ord // (_ : nth _ _ _ = ord0); last by apply: val_inj; rewrite /= nth_enum_ord.
rewrite /ddp_finish mxE.
have hF0 (k : 'I_(size pts).-1.+1) : k != 0 -> F k 0 = 0.
  by move=> hk; rewrite mxE leqn0 (_ : (k : nat) == 0%N = false) //; apply/negbTE; move: hk; rewrite -(inj_eq val_inj).
have hit r : iter r (fun dd : 'rV_(size pts).-1.+1 => dd *m F) (row 0 F) 0 0 = ex (ddp_z pts 0 / s%:R) ^+ r.+1.
  elim: r => [|r ih]; first by rewrite /= mxE mxE eqxx expr1.
  rewrite iterS mxE (bigD1 0) //= big1 ?addr0 => [|k hk]; last by rewrite hF0 ?mulr0.
  by rewrite ih mxE eqxx -exprSr.
rewrite hit exM // prednK // mulrCA mulfV // mulr1 -hex /ddp_z addrC subrK //.
Qed.
Print Assumptions C80_dd_coeffs.
