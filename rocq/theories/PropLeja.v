(* PropLeja.v : the properties of the Leja exponential and of ExpLejaIntegrator
   (C22-C27 and the Leja part of C04 and C05). *)
From Coq Require Import Reals String Lra.
From mathcomp Require Import all_ssreflect all_algebra.
From mathcomp Require Import ring.
From mathcomp Require Import complex.
From Verif Require Import Rstruct ModelHist ModelOps ModelKrylov ModelDispatch ModelInt ModelLeja SpecLeja SpecLejaOps.
From Verif Require Import ProofsLeja ProofsLeja2 ProofsLeja3 ProofsLeja4 ProofsLeja5 ProofsLeja6 ProofsLeja7 ProofsLeja8 ProofsLeja9.
Set Implicit Arguments.
Unset Strict Implicit.
Unset Printing Implicit Defensive.
Import Order.TTheory GRing.Theory Num.Theory.
Local Open Scope ring_scope.
Local Opaque max_substeps.

(* ---------------------------------------------------------------- C22 *)
(* the coefficients returned for distinct nodes x and values y give the one polynomial of degree
   < |x| with value y_i at x_i, and the first m of them the one for the first m nodes *)
Theorem C22_newton_interpolates (K : fieldType) (x y : seq K) m : uniq x -> size y = size x -> (m <= size x)%N ->
  let c := newton_poly_div_diff x y in
  let p := \sum_(j < m) c`_j *: \prod_(i < j) ('X - (x`_i)%:P) in
  size c = size x /\ (size p <= m)%N /\ (forall i, (i < m)%N -> p.[x`_i] = y`_i) /\
  forall q : {poly K}, (size q <= m)%N -> (forall i, (i < m)%N -> q.[x`_i] = y`_i) -> q = p.
Proof.
move=> ux sy hm c p; have h : interpolates p x y m.
  exact: (interpolates_prefix hm (newton_dd_interpolates ux sy)).
have sp : (size p <= m)%N by apply: size_newton_poly.
split; first exact: size_newton_dd.
split=> //; split=> // q sq hq.
by apply: (@interp_unique _ q p x y m) => //; rewrite take_uniq.
Qed.
(* a concrete case: nodes 2, -2, 0 with values of X^2 + 1 *)
Example C22_example : newton_poly_div_diff [:: 2%:R; - 2%:R; 0] [:: 5%:R; 5%:R; 1] = [:: 5%:R; 0; 1] :> seq rat.
Proof. by vm_compute. Qed.

(* ---------------------------------------------------------------- C23 *)
(* for any coefficients: the returned vector is p(dt A) u, where p is the Newton polynomial with
   the first i coefficients at the shifted and scaled nodes; the returned flag says that the
   running error estimate fell below tol |u|, for the first time, and if it did not then either
   the nodes are used up or the estimate exceeded 1e10 |u| *)
Theorem C23_real_leja_any_coeffs (F : rcfType) n (mv : 'cV[F]_n -> 'cV[F]_n) (dt : F) (u : 'cV[F]_n)
    (shift scale : F) (x coeffs : seq F) (tol : F) pm i conv :
  linear mv ->
  real_leja_expmv mv dt u shift scale x coeffs tol = (pm, i, conv) ->
  let basis j := \prod_(k < j) (scale^-1 *: ('X - (shift + scale * x`_k)%:P)) in
  let p := \sum_(j < i) coeffs`_j *: basis j in
  let apply_p := papply (fun v => dt *: mv v) in
  let est := running_err (2%:R * norm2 u) (fun j => `|coeffs`_j| * norm2 (apply_p (basis j) u)) in
  [/\ (0 < i <= maxn 1 (size x).-1)%N, pm = apply_p p u,
      conv = (norm2 u == 0) && (i == 1%N) || (1 < i)%N && (est i.-1 < tol * norm2 u),
      forall j, (1 < j < i)%N -> tol * norm2 u <= est j.-1 &
      ~~ conv -> ((size x <= i.+1)%N \/ 10%:R ^+ 10 * norm2 u < est i.-1)].
Proof. by move=> lin E; apply: real_leja_spec. Qed.

(* with the divided differences of a function ex (exp in the code) at distinct nodes: p is the one
   polynomial of degree < i that agrees with ex at the first i shifted and scaled nodes *)
Theorem C23_real_leja_interpolates (F : rcfType) n (mv : 'cV[F]_n -> 'cV[F]_n) (dt : F) (u : 'cV[F]_n)
    (shift scale : F) (x : seq F) (ex : F -> F) (tol : F) pm i conv :
  linear mv -> scale != 0 -> uniq x -> (0 < size x)%N ->
  real_leja_expmv mv dt u shift scale x (leja_coeffs_exp_dd ex x shift scale 1) tol = (pm, i, conv) ->
  exists p : {poly F}, [/\ (size p <= i)%N,
    forall j, (j < i)%N -> p.[shift + scale * x`_j] = ex (shift + scale * x`_j),
    pm = papply (fun v => dt *: mv v) p u &
    forall q : {poly F}, (size q <= i)%N ->
      (forall j, (j < i)%N -> q.[shift + scale * x`_j] = ex (shift + scale * x`_j)) -> q = p].
Proof.
move=> lin sc0 ux sx E; have [/andP[i0 i1] epm _ _ _] := real_leja_spec lin E.
have hi : (i <= size x)%N.
  by move: i1; rewrite leq_max => /orP[h|h]; apply: leq_trans h _; rewrite // leq_pred.
exists (newton_poly_sc shift scale x (leja_coeffs_exp_dd ex x shift scale 1) i); split=> //.
- exact: size_newton_poly_sc.
- by move=> j hj; apply: exp_dd_value => //; rewrite hj.
- move=> q sq hq; apply: (sc_unique (shift := shift) sc0 ux hi sq (size_newton_poly_sc _ _ _ _ _)).
  by move=> j hj; rewrite hq // exp_dd_value // hj.
Qed.
(* for a matrix operator this is the matrix polynomial p(dt A) *)
Theorem C23_matrix_form (F : rcfType) n (A : 'M[F]_n.+1) (dt : F) (u : 'cV[F]_n.+1) (p : {poly F}) :
  papply (fun v => dt *: lo_mv (MatrixLinOp A) v) p u = horner_mx (dt *: A) p *m u.
Proof.
rewrite -papply_horner_mx /papply; apply: eq_bigr => i _; congr (_ *: _).
by apply: eq_iter => v /=; rewrite scalemxAl.
Qed.
(* the hypotheses are met by the identity operator and the nodes 2, -2, 0 *)
Example C23_example (F : rcfType) : linear (lo_mv (MatrixLinOp (1%:M : 'M[F]_3))) /\
  uniq ([:: 2%:R; - 2%:R; 0] : seq F).
Proof.
split; first by move=> a v w; rewrite /= !mul1mx.
rewrite /= !inE negb_or andbT; apply/andP; split; last by rewrite oppr_eq0 pnatr_eq0.
by rewrite -addr_eq0 -natrD !pnatr_eq0.
Qed.

(* ---------------------------------------------------------------- C24 *)
(* real arithmetic over conjugate pairs computes the real part of the complex Newton polynomial *)
Theorem C24_conj_leja_any_coeffs (F : rcfType) n (mv : 'cV[F]_n -> 'cV[F]_n) (dt : F) (u : 'cV[F]_n)
    (shift scale : F) (x coeffs : seq F[i]) (tol : F) nr pm i conv :
  linear mv -> scale != 0 -> conj_nodes x nr -> (nr < size x)%N ->
  (forall k, ((nr + k.*2).+2 < size x)%N -> complex.Im coeffs`_(nr + k.*2).+1 = 0) ->
  complex_conj_leja_expmv mv dt u shift scale x nr coeffs tol = (pm, i, conv) ->
  [/\ (i <= size x)%N, exists k, i = (nr + k.*2).+1 &
      pm = papply (fun v => dt *: mv v)
             (re_poly (newton_poly_sc shift%:C%C scale%:C%C x coeffs i)) u].
Proof. by move=> lin sc0 cx hn hc E; have [[h1 h2] h3 _ _] := complex_conj_spec lin sc0 cx hn hc E; split. Qed.

(* with the divided differences of a conjugation-symmetric function (exp in the code) and distinct
   nodes, nr real ones first and then conjugate pairs: a real polynomial of degree < i, equal to
   the function at the first i - 1 shifted and scaled nodes *)
Theorem C24_conj_leja_interpolates (F : rcfType) n (mv : 'cV[F]_n -> 'cV[F]_n) (dt : F) (u : 'cV[F]_n)
    (shift scale : F) (x : seq F[i]) (ex : F[i] -> F[i]) (tol : F) nr pm i conv :
  linear mv -> scale != 0 -> uniq x -> (0 < size x)%N -> (nr <= size x)%N -> conj_nodes x nr ->
  (forall z, ex (conjc z) = conjc (ex z)) ->
  complex_conj_leja_expmv mv dt u shift scale x nr
    (leja_coeffs_exp_dd ex x shift%:C%C scale%:C%C 1) tol = (pm, i, conv) ->
  (0 < i <= size x)%N /\
  exists p : {poly F}, [/\ (size p <= i)%N, pm = papply (fun v => dt *: mv v) p u &
     forall j, (j < i.-1)%N ->
       (to_cpoly p).[shift%:C%C + scale%:C%C * x`_j] = ex (shift%:C%C + scale%:C%C * x`_j)].
Proof. by move=> lin sc0 ux sx hn cx exc E; apply: (conj_leja_value lin exc sc0 ux cx hn sx E). Qed.
(* the hypotheses are met by 1, -1, i, -i *)
Example C24_example (F : rcfType) : let x : seq F[i] := [:: 1; -1; Complex 0 1; Complex 0 (-1)] in
  conj_nodes x 2 /\ uniq x.
Proof.
move=> x; split; first split.
- by case=> [|[|//]] _ /=; rewrite ?oppr0.
- by case=> [|[|k]] //= _.
have n10 : (1 == -1 :> F) = false by apply/negbTE; rewrite eq_sym eqNr oner_eq0.
rewrite /= !inE !eq_complex /= !oppr0 n10 eqxx oner_eq0 (eq_sym 0 1) oner_eq0 /=.
by rewrite ?oppr_eq0 ?oner_eq0 ?andbF ?andFb /= ?n10.
Qed.

(* the variant for purely imaginary nodes: the real part of the Newton polynomial that uses the
   first i - 1 nodes, but vectors of norm at most 1/10 never enter its loop *)
Theorem C24_imag_leja_any_coeffs (F : rcfType) n (mv : 'cV[F]_n -> 'cV[F]_n) (dt : F) (u : 'cV[F]_n)
    (shift scale : F) (x coeffs : seq F[i]) (tol : F) pm i conv :
  linear mv -> scale != 0 ->
  complex.Im x`_0 = 0 -> (forall j, complex.Re x`_j = 0) ->
  (forall k, ((k.*2).+2 < size x)%N -> x`_(k.*2).+2 = conjc x`_(k.*2).+1) ->
  (forall k, ((k.*2).+2 < size x)%N -> complex.Im coeffs`_(k.*2).+2 = 0) ->
  complex_conj_imag_leja_expmv mv dt u shift scale x coeffs tol = (pm, i, conv) ->
  (exists k, i = k.*2.+2) /\ (i <= maxn 2 (size x).+1)%N /\
  pm = papply (fun v => dt *: mv v) (re_poly (newton_poly_sc shift%:C%C scale%:C%C x coeffs i.-1)) u /\
  (conv -> (i < size x)%N).
Proof. by move=> lin sc0 h0 h1 h2 h3 E; apply: (imag_leja_value lin sc0 h0 h1 h2 h3 E). Qed.
Theorem C24_imag_leja_small_vector_refuted (F : rcfType) n (mv : 'cV[F]_n -> 'cV[F]_n) (dt : F) (u : 'cV[F]_n)
    (shift scale : F) (x coeffs : seq F[i]) (tol : F) : norm2 u <= 10%:R^-1 ->
  complex_conj_imag_leja_expmv mv dt u shift scale x coeffs tol = (complex.Re coeffs`_0 *: u, 2%N, false).
Proof. by move=> h; rewrite imag_leja_small // cRe_nth. Qed.

(* ---------------------------------------------------------------- C25 *)
Section C25.
Variables (F : rcfType) (V : Type) (expmv : F -> V -> V * nat * bool).
(* a successful sub-stepped product: the attempts att were made in order, at most 1001 of them, the
   accepted ones have sizes in (0, min(tau_dt,1)] that sum to exactly 1, the result is the
   composition of the accepted ones, and the returned size is the largest accepted one *)
Theorem C25_substep_covers_once (tau_dt : F) v w it conv max_tau : 0 < tau_dt ->
  expmv_substep expmv true tau_dt v = Ok (w, it, conv, max_tau) ->
  exists att, [/\ (size att <= 1001)%N, replay expmv v att = Some (w, it),
    \sum_(t <- accepted att) t = 1 /\ conv = true,
    (forall t, t \in accepted att -> 0 < t <= Num.min tau_dt 1) &
    max_tau \in accepted att /\ forall t, t \in accepted att -> t <= max_tau].
Proof.
move=> t0 H; have [||att [k [h1 [h2 h2'] [h3 h3'] h4 [h5 h6]]]] := substep_loop_spec _ _ H.
- by rewrite lt_minr t0 ltr01.
- by rewrite subr0 le_minl lexx orbT.
have hp : forall t, t \in accepted att -> 0 < t <= Num.min tau_dt 1 by apply/allP.
rewrite add0r in h4; rewrite /= in h5 h6 h2 h2'.
exists att; split=> //; first by rewrite h2' add0n.
rewrite h6 /mmax; move: h3' hp; case: (accepted att) => [//|t s] _ hp /=.
have -> : Num.max 0 t = t.
  by apply/max_idPr; apply: ltW; have /andP[] := hp t (mem_head _ _).
elim: s t {hp} => [|b s IH] t /=; first by rewrite mem_seq1 eqxx; split=> // a; rewrite mem_seq1 => /eqP ->.
have [g1 g2] := IH (Num.max t b); split.
  move: g1; rewrite !inE => /orP[/eqP ->|->]; last by rewrite !orbT.
  by rewrite /Num.max; case: ifP => _; rewrite eqxx ?orbT.
move=> a; rewrite !inE => /or3P[/eqP ->|/eqP ->|ha]; last by apply: g2; rewrite inE ha orbT.
- by apply: (@le_trans _ _ (Num.max t b)); [rewrite le_maxr lexx|apply: g2; rewrite mem_head].
- by apply: (@le_trans _ _ (Num.max t b)); [rewrite le_maxr lexx orbT|apply: g2; rewrite mem_head].
Qed.
(* any failure is RuntimeError, and a nonpositive size always fails *)
Theorem C25_substep_only_runtime_error tau_dt v e :
  expmv_substep expmv true tau_dt v = Raise e -> e = RuntimeErrorExn.
Proof. exact: substep_loop_raise. Qed.
Theorem C25_substep_nonpositive_size tau_dt v : tau_dt <= 0 ->
  expmv_substep expmv true tau_dt v = Raise RuntimeErrorExn.
Proof. by move=> h; apply: substep_loop_nonpos => //; rewrite le_minl h. Qed.
(* if each converged attempt of size t acts as E t, a one-parameter family, the result is E 1 v *)
Theorem C25_substep_exact (E : F -> V -> V) (tau_dt : F) v w it conv max_tau : 0 < tau_dt ->
  (forall t u w it, 0 < t <= 1 -> expmv t u = (w, it, true) -> w = E t u) ->
  (forall u, E 0 u = u) ->
  (forall s t u, 0 <= s -> 0 <= t -> E s (E t u) = E (s + t) u) ->
  expmv_substep expmv true tau_dt v = Ok (w, it, conv, max_tau) -> w = E 1 v.
Proof.
move=> t0 hE E0 Eadd H; have [att [_ hr [hs _] hp _]] := C25_substep_covers_once t0 H.
rewrite -hs; move: hr hp; clear hs H.
elim: att v it => [|[t c] att IH] v it /=.
  by rewrite /accepted /= big_nil E0 => -[->].
case Et : (expmv t v) => [[w' k] c']; case: eqP => // ec; subst c'.
case er : (replay expmv _ att) => [[wf k']|] // [ew _] hp; subst wf.
case: c Et er hp => Et er hp; last by rewrite -(IH _ _ er).
rewrite /accepted /= -/(accepted att) big_cons.
have hp' a : a \in accepted att -> 0 < a <= Num.min tau_dt 1.
  by move=> ha; apply: hp; rewrite /accepted /= -/(accepted att) inE ha orbT.
have /andP[h1 h2] := hp t (mem_head _ _).
have h3 : t <= 1 by apply: le_trans h2 _; rewrite le_minl lexx orbT.
have e1 : w' = E t v by apply: hE Et; rewrite h1.
rewrite (IH _ _ er hp') e1 Eadd ?(ltW h1) //; last first.
  by rewrite big_seq; apply: sumr_ge0 => a /hp' /andP[/ltW].
by rewrite addrC.
Qed.
(* liveness: if every attempt of size at most delta converges, q >= (6/5)/delta and
   delta (6/5)^r >= 1, then r + q <= 1001 suffices *)
Theorem C25_substep_terminates (delta tau_dt : F) r q v : 0 < delta -> 0 < tau_dt ->
  (forall t u, 0 < t <= delta -> (expmv t u).2 = true) ->
  1 <= delta * (6%:R / 5%:R) ^+ r -> 6%:R / 5%:R / delta <= q%:R ->
  delta / (6%:R / 5%:R) <= tau_dt ->
  (r + q <= 1001)%N ->
  exists res, expmv_substep expmv true tau_dt v = Ok res.
Proof.
move=> d0 t0 hc hr hq hd hrq.
have m1 : Num.min tau_dt 1 <= 1 by rewrite le_minl lexx orbT.
apply: (@substep_loop_live _ _ expmv delta (delta / (6%:R / 5%:R)) r q) => //.
- exact: div_g_gt0.
- by move=> t u h1 h2; apply: hc; rewrite h1.
- by rewrite lt_minr t0 ltr01.
- by rewrite subr0.
- rewrite /Num.min; case: ifP => _; [by left|by right; rewrite subr0].
- by apply: le_trans hr.
- rewrite subr0; move: hq; rewrite ler_pdivr_mulr // => hq.
  by rewrite mulrA ler_pdivl_mulr ?g_gt0 // mul1r.
Qed.
End C25.
(* a run with failures: attempts of size at most 1/2 converge *)
Definition demo_expmv (F : rcfType) (t w : F) : F * nat * bool := (w + t, 1%N, t <= 2%:R^-1).
Example C25_example (F : rcfType) : exists it m, expmv_substep (@demo_expmv F) true 1 0 = Ok (1, it, true, m).
Proof.
have h2 : 0 < 2%:R :> F by rewrite ltr0n.
have [|||||[[[w it] c] m] H] := @C25_substep_terminates F F (@demo_expmv F) 2%:R^-1 1 4 3 0 _ ltr01 _ _ _ _ isT.
- by rewrite invr_gt0.
- by move=> t u /andP[].
- by rewrite mulrC ler_pdivl_mulr // mul1r expr_div_n ler_pdivl_mulr ?exprn_gt0 ?ltr0n // -!natrX -natrM ler_nat.
- by rewrite invrK mulrAC ler_pdivr_mulr ?ltr0n // -!natrM ler_nat.
- by rewrite invf_div mulrC ler_pdivr_mulr // mul1r ler_pdivr_mulr ?ltr0n // -natrM ler_nat.
exists it, m.
have [att [_ _ [_ ec] _ [hm _]]] := C25_substep_covers_once ltr01 H.
have e : w = 0 + 1 by apply: (C25_substep_exact (E := fun t u => u + t) ltr01 _ _ _ H)
   => [t u w' it' _ [->//]|u|a b u _ _]; rewrite ?addr0 // -addrA [b + a]addrC.
by rewrite H e add0r ec.
Qed.

(* ---------------------------------------------------------------- C26 *)
Theorem C26_substep_size_bounds (F : rcfType) (D : ldd F) (KW : Type) n (o : lopts F n) (kw0 : KW)
    (sys : odesys F KW n) t0 y0 ob ops :
  lj_new o t0 y0 = Ok ob -> 0 < lj_size (foldl (lj_do D o kw0 sys) ob ops) <= 1.
Proof. exact: lj_size_bounds. Qed.

(* ---------------------------------------------------------------- C27 *)
(* numpy's argmax on complex numbers is lexicographic, so the first point is the one with the
   largest real part (largest imaginary part among ties); every next point maximises the product
   of distances to the points chosen before it *)
Theorem C27_reordering (F : rcfType) (x : seq F[i]) : x <> [::] -> exists z,
  [/\ leja_seq_reordering x = Ok z, perm_eq z x,
      forall p, p \in x -> complex.Re p < complex.Re z`_0 \/
         complex.Re p = complex.Re z`_0 /\ complex.Im p <= complex.Im z`_0 &
      forall k, (0 < k < size z)%N -> forall p, p \in drop k z ->
        \prod_(w <- take k z) `|w - p| <= \prod_(w <- take k z) `|w - z`_k|].
Proof.
move/reordering_spec => [z [h1 h2 h3 h4]]; exists z; split=> //.
  move=> p /h3; rewrite /clt negb_or negb_and -!leNgt => /andP[g1 g2].
  move: g1; rewrite le_eqVlt => /orP[/eqP e|]; last by left.
  by right; split=> //; move: g2; rewrite e eqxx.
by move=> k hk p hp; rewrite -!leja_distE lecR; apply: h4.
Qed.
Theorem C27_reordering_empty (F : rcfType) : leja_seq_reordering ([::] : seq F[i]) = Raise ValueErrorExn.
Proof. exact: reordering_nil. Qed.
Theorem C27_padding (K : numFieldType) (x : seq K) p :
  size (leja_seq_pad_zeros x p) = (p + size x)%N /\ drop p (leja_seq_pad_zeros x p) = x /\
  forall k, (k < p)%N -> (leja_seq_pad_zeros x p)`_k = k.+1%:R * (10%:R ^+ 12)^-1.
Proof. by split; [exact: size_pad|split; [exact: pad_tail|move=> k; apply: pad_head]]. Qed.
(* the first point is not the one of largest magnitude: -2 before 1 *)
Theorem C27_largest_magnitude_first_refuted (F : rcfType) :
  let x : seq F[i] := [:: - 2%:R; 1] in
  exists z, leja_seq_reordering x = Ok z /\ z`_0 = 1 /\ `|z`_0| < `|x`_0|.
Proof.
move=> x; have [//|z [h1 h2 h3 _]] := @C27_reordering F x.
exists z; split=> //; suff -> : z`_0 = 1 by rewrite normr1 normrN ger0_norm ?ler0n // ltr1n.
have : z`_0 \in x by rewrite -(perm_mem h2) mem_nth // (perm_size h2).
rewrite !inE => /orP[] /eqP // e; have := h3 1; rewrite !inE eqxx orbT => /(_ isT).
have e2 : complex.Re (- 2%:R : F[i]) = - 2%:R by rewrite /= ?raddfMn.
rewrite e e2 /= => -[h|[h _]]; exfalso.
  by move: h; rewrite ltNge (le_trans (_ : _ <= 0)) ?oppr_le0 ?ler0n ?ler01.
by have := @ltr01 F; rewrite h ltNge oppr_le0 ler0n.
Qed.

(* ---------------------------------------------------------------- C04, C05 *)
(* the divided differences of a real function ex, the complex ones being irrelevant here *)
Definition dd_of (F : rcfType) (ex : F -> F) : ldd F :=
  LDD (fun x shift scale => leja_coeffs_exp_dd ex x shift scale 1) (fun _ _ _ => [::]).

(* y' = 1 - y, y(0) = 0, dt = 1, three Leja points and a user supplied interval [-4, 0] *)
Lemma ex_coeffs (F : rcfType) (ex : F -> F) : ex 0 = 1 -> 0 < ex (- 4%:R) < 1 ->
  exists c1 c2 : F, 0 < c1 < 1 /\ dd_re (dd_of ex) (ex_x F) (- 2%:R) 1 = [:: 1; c1; c2].
Proof.
move=> e0 /andP[e1 e2]; rewrite /= /leja_coeffs_exp_dd /newton_poly_div_diff /= /dd_pass /=.
have n4 : - 2%:R - 2%:R = - 4%:R :> F by rewrite -opprD -natrD.
have -> : 1 * (- 2%:R + 1 * 2%:R) = 0 :> F by rewrite !mul1r addNr.
have -> : 1 * (- 2%:R + 1 * - 2%:R) = - 4%:R :> F by rewrite !mul1r n4.
rewrite e0 n4; set c1 := (ex (- 4%:R) - 1) / - 4%:R.
exists c1; eexists; split; last by [].
rewrite /c1 invrN mulrN -mulNr opprB.
apply/andP; split; first by rewrite divr_gt0 ?subr_gt0 ?ltr0n.
rewrite ltr_pdivr_mulr ?ltr0n // mul1r; apply: (@lt_trans _ _ 1); first by rewrite gtr_addl oppr_lt0.
by rewrite ltr1n.
Qed.

(* some new object, after one step and reset_ic to its initial condition, gives another answer
   than the same object gave before: reset_ic does not forget the past *)
Theorem C04_leja_reset_refuted_gen (F : rcfType) (ex : F -> F) (KW : Type) (kw0 : KW) :
  ex 0 = 1 -> 0 < ex (- 4%:R) < 1 ->
  exists (o : lopts F 1) ob0 ob1 ob2 s1 s2,
    [/\ lj_new o 0 0 = Ok ob0, lj_step (dd_of ex) o kw0 (one_minus_y F KW) ob0 1 None = Ok (ob1, s1),
        lj_step (dd_of ex) o kw0 (one_minus_y F KW) (lj_reset ob1 0 0) 1 None = Ok (ob2, s2) &
        sr_y s1 <> sr_y s2].
Proof.
move=> e0 e1; have [c1 [c2 [c1p hD]]] := ex_coeffs e0 e1.
have [s1 [E1 Y1]] := ex_step1 kw0 hD c1p.
have [ob2 [s2 [E2 Y2]]] := ex_step2 kw0 hD c1p.
exists (ex_o c1), (ex_ob 1 0), (ex_ob (5%:R / 6%:R) 1), ob2, s1, s2; split=> //.
rewrite Y1 Y2 => /matrixP /(_ 0 0); rewrite !mxE !mulr1n; exact: ex_val_neq.
Qed.
(* a discarded step leaves a trace: the same object, asked twice for the same step, answers
   differently *)
Theorem C05_leja_discard_refuted_gen (F : rcfType) (ex : F -> F) (KW : Type) (kw0 : KW) :
  ex 0 = 1 -> 0 < ex (- 4%:R) < 1 ->
  exists (o : lopts F 1) ob0 ob1 ob2 s1 s2,
    [/\ lj_new o 0 0 = Ok ob0, lj_step (dd_of ex) o kw0 (one_minus_y F KW) ob0 1 None = Ok (ob1, s1),
        lj_step (dd_of ex) o kw0 (one_minus_y F KW) ob1 1 None = Ok (ob2, s2) &
        sr_y s1 <> sr_y s2].
Proof.
move=> e0 e1; have [c1 [c2 [c1p hD]]] := ex_coeffs e0 e1.
have [s1 [E1 Y1]] := ex_step1 kw0 hD c1p.
have [ob2 [s2 [E2 Y2]]] := ex_step2 kw0 hD c1p.
exists (ex_o c1), (ex_ob 1 0), (ex_ob (5%:R / 6%:R) 1), ob2, s1, s2; split=> //.
rewrite Y1 Y2 => /matrixP /(_ 0 0); rewrite !mxE !mulr1n; exact: ex_val_neq.
Qed.

Definition expR : R_rcfType -> R_rcfType := exp.
Lemma expR0 : expR 0 = 1. Proof. exact: exp_0. Qed.
Lemma expR4 : 0 < expR (- 4%:R) < 1.
Proof.
apply/andP; split; first by apply/RltP; apply: exp_pos.
apply/RltP; rewrite -[X in Rlt _ X]exp_0; apply: exp_increasing.
by apply/RltP; rewrite oppr_lt0 ltr0n.
Qed.
Theorem C04_leja_reset_refuted (KW : Type) (kw0 : KW) :
  exists (o : lopts R_rcfType 1) ob0 ob1 ob2 s1 s2,
    [/\ lj_new o 0 0 = Ok ob0, lj_step (dd_of expR) o kw0 (one_minus_y R_rcfType KW) ob0 1 None = Ok (ob1, s1),
        lj_step (dd_of expR) o kw0 (one_minus_y R_rcfType KW) (lj_reset ob1 0 0) 1 None = Ok (ob2, s2) &
        sr_y s1 <> sr_y s2].
Proof. exact: C04_leja_reset_refuted_gen expR0 expR4. Qed.
Theorem C05_leja_discard_refuted (KW : Type) (kw0 : KW) :
  exists (o : lopts R_rcfType 1) ob0 ob1 ob2 s1 s2,
    [/\ lj_new o 0 0 = Ok ob0, lj_step (dd_of expR) o kw0 (one_minus_y R_rcfType KW) ob0 1 None = Ok (ob1, s1),
        lj_step (dd_of expR) o kw0 (one_minus_y R_rcfType KW) ob1 1 None = Ok (ob2, s2) &
        sr_y s1 <> sr_y s2].
Proof. exact: C05_leja_discard_refuted_gen expR0 expR4. Qed.
(* in every case the reset object differs from a new one after a successful step *)
Theorem C04_leja_reset_never_fresh (F : rcfType) (D : ldd F) (KW : Type) n (o : lopts F n) (kw0 : KW)
    (sys : odesys F KW n) ob dt kw ob' s t1 y1 ob1 : 0 < lj_size ob ->
  lj_step D o kw0 sys ob dt kw = Ok (ob', s) -> lj_new o t1 y1 = Ok ob1 ->
  lj_reset ob' t1 y1 <> ob1.
Proof. exact: lj_reset_not_fresh. Qed.

Print Assumptions C22_newton_interpolates.
Print Assumptions C23_real_leja_any_coeffs.
Print Assumptions C23_real_leja_interpolates.
Print Assumptions C24_conj_leja_any_coeffs.
Print Assumptions C24_conj_leja_interpolates.
Print Assumptions C24_imag_leja_any_coeffs.
Print Assumptions C24_imag_leja_small_vector_refuted.
Print Assumptions C25_substep_covers_once.
Print Assumptions C25_substep_exact.
Print Assumptions C25_substep_terminates.
Print Assumptions C26_substep_size_bounds.
Print Assumptions C27_reordering.
Print Assumptions C04_leja_reset_refuted.
Print Assumptions C05_leja_discard_refuted.
Print Assumptions C04_leja_reset_never_fresh.
