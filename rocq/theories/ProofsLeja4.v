(* ProofsLeja4.v : complex_conj_leja_expmv, loop and interpolation. *)
From mathcomp Require Import all_ssreflect all_algebra.
From mathcomp Require Import ring.
From mathcomp Require Import complex.
From Verif Require Import ModelHist ModelOps ModelKrylov ModelLeja SpecLeja ProofsLeja ProofsLeja2 ProofsLeja3.
Set Implicit Arguments.
Unset Strict Implicit.
Unset Printing Implicit Defensive.
Import Order.TTheory GRing.Theory Num.Theory.
Local Open Scope ring_scope.

Section CjThm.
Variables (F : rcfType) (n : nat) (mv : 'cV[F]_n -> 'cV[F]_n).
Hypothesis lin : linear mv.
Variables (dt : F) (u : 'cV[F]_n) (shift scale : F) (x coeffs : seq F[i]) (tol : F) (nr : nat).
Hypothesis sc0 : scale != 0.
Local Notation toC := (map_poly (real_complex F)).
Let B := fun v => dt *: mv v.
Let Nb j : {poly F[i]} := newton_basis_sc shift%:C%C scale%:C%C x j.
Let Pn m : {poly F[i]} := newton_poly_sc shift%:C%C scale%:C%C x coeffs m.

Definition cj_terr j := `|complex.Re coeffs`_j| * norm2 (papply B (re_poly (Nb j)) u).
Definition cj_est j := running_err (2%:R * norm2 u) cj_terr j.

Lemma re_toC (p : {poly F}) : re_poly (toC p) = p.
Proof.
have := re_poly_decomp p 0; rewrite rmorph0 scaler0 addr0; exact.
Qed.

(* the estimate is kept along *)
Definition cj_inv2 (s : lstate F n) := cj_inv mv dt u shift scale x coeffs s /\ l_err s = cj_est (l_i s).-1.

Lemma cj_real_step2 s : complex.Im x`_(l_i s).-1 = 0 -> cj_inv2 s ->
  cj_inv2 (cj_real_body mv dt shift scale x coeffs s).
Proof.
move=> him [h he]; have h' := cj_real_step lin sc0 him h; split=> //.
case: s him h he h' => [[|i] vm pm e cv] /= him [N0 [A [D [/= h0 hN hv hP hp]]]] he [N1 [A1 [D1 [/= _ hN1 hv1 _ _]]]] //.
by rewrite /cj_est /= -/(cj_est i) he /cj_terr hv1 cRe_nth /Nb hN1 re_toC.
Qed.

Lemma re_pair i N0 : Nb i = toC N0 -> re_poly (Nb i.+1) = N0 * lfac shift scale (complex.Re x`_i).
Proof.
move=> hN; rewrite /Nb newton_basis_scS -/(Nb i) hN cfac // mulrBr -rmorphM.
have -> : - (toC N0 * (J F * (complex.Im x`_i)%:C%C)%:P) = J F *: toC (- complex.Im x`_i *: N0).
  by rewrite mulrC mul_polyC map_polyZ /= scalerA rmorphN mulrN scaleNr.
exact: re_poly_decomp.
Qed.

Lemma cj_pair_step2 nu s :
  x`_(l_i s) = conjc x`_(l_i s).-1 -> complex.Im coeffs`_(l_i s) = 0 -> cj_inv2 s ->
  cj_inv2 (cj_pair_body mv dt shift scale x coeffs tol nu s).
Proof.
move=> hc hr [h he]; have h' := cj_pair_step lin tol sc0 nu hc hr h; split=> //.
case: s hc hr h he h' => [[|i] vm pm e cv] /= hc hr [N0 [A [D [/= h0 hN hv hP hp]]]] he [N1 [A1 [D1 [/= _ hN1 hv1 _ _]]]] //.
rewrite /cj_est /= -/(cj_est i) he /cj_terr hv1 !cRe_nth /Nb hN1 re_toC -/(Nb i.+1) (re_pair hN).
by rewrite hv leja_mv_lfac.
Qed.

Lemma cj_static k : (forall j, (j < k)%N -> complex.Im x`_j = 0) ->
  let s := iter k (cj_real_body mv dt shift scale x coeffs)
     (LState 1 u ((cRe coeffs)`_0 *: u) (2%:R * norm2 u) (norm2 u == 0)) in
  [/\ cj_inv2 s, l_i s = k.+1 & l_conv s = (norm2 u == 0)].
Proof.
move=> hre; elim: k hre => [|k IH] hre /=.
  split=> //; split=> //; exact: cj_inv0.
have [h1 h2 h3] := IH (fun j hj => hre j (ltnW hj)); split=> //=; last by rewrite h2.
by apply: cj_real_step2 => //; rewrite h2 /=; apply: hre.
Qed.

Theorem complex_conj_spec pm i conv : conj_nodes x nr -> (nr < size x)%N ->
  (forall k, ((nr + k.*2).+2 < size x)%N -> complex.Im coeffs`_(nr + k.*2).+1 = 0) ->
  complex_conj_leja_expmv mv dt u shift scale x nr coeffs tol = (pm, i, conv) ->
  [/\ (i <= size x)%N /\ exists k, i = (nr + k.*2).+1,
      pm = papply B (re_poly (Pn i)) u,
      conv = (norm2 u == 0) && (i == nr.+1) || (nr.+1 < i)%N && (cj_est i.-1 < tol * norm2 u) &
      ~~ conv -> ((size x <= i.+1)%N \/ abort_tol F * norm2 u < cj_est i.-1)].
Proof.
move=> [hre hpair] hnr hco; rewrite /complex_conj_leja_expmv (ltn_eqF hnr).
have := cj_static hre; set s1 := iter _ _ _ => -[h1 h2 h3].
set cond := leja_cond _ _; set body := cj_pair_body _ _ _ _ _ _ _ _.
pose P s := [/\ cj_inv2 s, (l_i s <= size x)%N, exists k, l_i s = (nr + k.*2).+1 &
  l_conv s = (norm2 u == 0) && (l_i s == nr.+1) || (nr.+1 < l_i s)%N && (cj_est (l_i s).-1 < tol * norm2 u)].
have hP : P (leja_while (size x) cond body s1).
  apply: leja_while_ind => [s [hi hb [k hk] hc] /and3P[c1 c2 c3]|].
    have hx : ((nr + k.*2).+1 < size x)%N by rewrite -hk (ltn_trans _ c1).
    have hi' : cj_inv2 (body s).
      apply: cj_pair_step2 => //; rewrite hk /=; first exact: hpair.
      by apply: hco; rewrite -hk.
    split=> //=; first by exists k.+1; rewrite hk doubleS !addnS.
    have [_ /= <-] := hi'; rewrite hk.
    have -> : ((nr + k.*2).+3 == nr.+1) = false.
      by apply/negbTE; rewrite eqSS -!addnS -[X in _ != X]addn0 eqn_add2l.
    by rewrite andbF /= ltnS ltnS leqW ?leq_addr.
  split=> //; first by rewrite h2.
    by exists 0%N; rewrite addn0.
  by rewrite h2 h3 eqxx andbT ltnn orbF.
have hd : cond (leja_while (size x) cond body s1) = false.
  apply: (@leja_while_done _ _ _ _ (size x)) => [s /and3P[/ltnW //]|s /=|]; first by rewrite ltnS leqnSn.
  by rewrite leq_addr.
move: hP hd; case: (leja_while _ _ _ _) => i' vm pm' e cv [[h4 /= h5] h6 [k h7] h8] hd [<- <- <-].
split=> //; first by split=> //; exists k.
  have [N0 [A [D [/= _ _ _ hA ->]]]] := h4.
  by rewrite /re_poly /Pn hA re_poly_decomp.
move=> hc; move: hd; rewrite /cond /leja_cond /= hc andbT h5 => /negbT; rewrite negb_and -leqNgt -ltNge.
by case/orP; [left|right].
Qed.
End CjThm.

(* interpolation at conjugate nodes *)
Section ConjInterp.
Variables (F : rcfType).
Local Notation C := F[i].
Local Notation cj := (map_poly (@conjc F)).
Variables (x y c : seq C) (nr : nat).
Hypothesis cx : conj_nodes x nr.
Hypothesis cy : conj_nodes y nr.
Hypothesis sy : size y = size x.
Hypothesis snr : (nr <= size x)%N.

Lemma conj_partner k j : (nr + k.*2 <= size x)%N -> (j < nr + k.*2)%N ->
  exists2 j', (j' < nr + k.*2)%N & x`_j' = conjc x`_j /\ y`_j' = conjc y`_j.
Proof.
move=> hk hj; case: (ltnP j nr) => hjn.
  exists j => //; have [hx _] := cx; have [hy _] := cy.
  have rc (z : C) : complex.Im z = 0 -> conjc z = z by case: z => a b /= ->; rewrite /conjc oppr0.
  by rewrite !rc ?hx ?hy.
have [l hl] : exists l, j = (nr + l.*2)%N \/ j = (nr + l.*2).+1.
  exists (j - nr)./2; have := odd_double_half (j - nr).
  by case: (odd _) => /= e; [right; rewrite -addnS -add1n e subnKC | left; rewrite -[_.*2]add0n e subnKC].
have {hl} [hl|hl] := hl; subst j.
  have hl2 : ((nr + l.*2).+1 < nr + k.*2)%N.
    by move: hj; rewrite ltn_add2l ltn_double => h; rewrite -addnS ltn_add2l -doubleS leq_double.
  exists (nr + l.*2).+1 => //; split; first by apply: (proj2 cx); apply: leq_trans hk.
  by apply: (proj2 cy); rewrite sy; apply: leq_trans hk.
exists (nr + l.*2)%N; first exact: ltnW.
by split; [rewrite (proj2 cx) ?conjcK // | rewrite (proj2 cy) ?conjcK ?sy //]; apply: leq_trans hk.
Qed.

Hypothesis ux : uniq x.
Hypothesis hint : interpolates (newton_poly x c (size x)) x y (size x).

Lemma cj_horner (p : {poly C}) z : (cj p).[conjc z] = conjc p.[z].
Proof. exact: horner_map. Qed.

Lemma conj_real_poly k : (nr + k.*2 <= size x)%N ->
  cj (newton_poly x c (nr + k.*2)) = newton_poly x c (nr + k.*2).
Proof.
move=> hk; set m := (nr + k.*2)%N; set Q := newton_poly x c m.
have hQ : interpolates Q x y m by apply: interpolates_prefix hint.
apply: (@interp_unique _ _ _ x y m) => //.
- by rewrite take_uniq.
- rewrite size_map_poly; exact: size_newton_poly.
- exact: size_newton_poly.
- move=> j hj; have [j' hj' [ex ey]] := conj_partner hk hj.
  have -> : x`_j = conjc x`_j' by rewrite ex conjcK.
  by rewrite cj_horner hQ // ey conjcK.
Qed.

Lemma newton_lead m : (newton_poly x c m.+1)`_m = c`_m.
Proof.
rewrite newton_polyS coefD coefZ nth_default ?size_newton_poly // add0r.
have : newton_basis x m \is monic.
  by rewrite /newton_basis; apply: monic_prod => i _; apply: monicXsubC.
by rewrite monicE lead_coefE size_newton_basis => /eqP ->; rewrite mulr1.
Qed.

Lemma conj_coef_real k : ((nr + k.*2).+1 < size x)%N -> complex.Im c`_(nr + k.*2).+1 = 0.
Proof.
move=> hk; have := @conj_real_poly k.+1; rewrite doubleS !addnS => /(_ hk) /polyP /(_ (nr + k.*2).+1).
rewrite coef_map newton_lead /=; case: (c`_ _) => a b [] /=  /eqP.
by rewrite eq_sym -addr_eq0 -mulr2n mulrn_eq0 => /eqP.
Qed.

Variables (shift scale : F).
Hypothesis sc0 : scale != 0.
Let Pn m : {poly C} := newton_poly_sc shift%:C%C scale%:C%C x c m.

Lemma re_polyE (p : {poly C}) : to_cpoly (re_poly p) = 2%:R^-1 *: (p + cj p).
Proof.
apply/polyP => j; rewrite /to_cpoly /re_poly coef_map coef_map_id0 // coefZ coefD coef_map /=.
rewrite (_ : 2%:R^-1 = (2%:R^-1 : F)%:C%C); last by rewrite fmorphV rmorph_nat.
case: (p`_j) => a b; simpc; congr (Complex _ _).
by rewrite -mulr2n -[a *+ 2]mulr_natl mulKf // pnatr_eq0.
Qed.

Theorem conj_interp k m : (nr + k.*2 <= size x)%N -> (nr + k.*2 <= m <= size x)%N ->
  forall j, (j < nr + k.*2)%N ->
  (to_cpoly (re_poly (Pn m))).[shift%:C%C + scale%:C%C * x`_j] = y`_j.
Proof.
move=> hk /andP[hm1 hm2] j hj; have [j' hj' [ex ey]] := conj_partner hk hj.
have sc0' : scale%:C%C != 0 :> C by rewrite fmorph_eq0.
have hv l : (l < nr + k.*2)%N -> (Pn m).[shift%:C%C + scale%:C%C * x`_l] = y`_l.
  move=> hl; rewrite newton_poly_sc_val //.
  by apply: (interpolates_prefix hm2 hint); apply: leq_trans hl hm1.
rewrite re_polyE hornerZ hornerD hv //.
have -> : shift%:C%C + scale%:C%C * x`_j = conjc (shift%:C%C + scale%:C%C * x`_j').
  by rewrite ex; case: (x`_j) => a b; simpc; rewrite ?opprK.
rewrite cj_horner hv // ey conjcK.
by rewrite -mulr2n -[y`_j *+ 2]mulr_natl mulKf // pnatr_eq0.
Qed.
End ConjInterp.
