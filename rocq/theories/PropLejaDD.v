(* PropLejaDD.v : C61, the three routines for the Newton coefficients of the exponential
   (leja_coeffs_exp_dd, leja_coeffs_exp, dd_exp_taylor). *)
From Coq Require Import Reals Lra.
From mathcomp Require Import all_ssreflect all_algebra.
From mathcomp Require Import ring.
From mathcomp Require Import complex.
From Verif Require Import Rstruct MxBase MxSeries ModelHist ModelLeja ModelLejaR SpecLeja ProofsLeja ProofsLejaDD ProofsLejaDD2.
Set Implicit Arguments.
Unset Strict Implicit.
Unset Printing Implicit Defensive.
Import Order.TTheory GRing.Theory Num.Theory.
Local Open Scope ring_scope.

(* With the exact matrix exponential, the first column of exp(h (shift + scale Xi)) gives the
   Newton form of the polynomial through the values exp(h (shift + scale x_i)); repeated nodes
   are allowed.  For distinct nodes it is the list the divided difference recurrence returns. *)
Theorem C61_expm_coeffs_R (x : seq R) (shift scale h : R) :
  let c := leja_coeffs_exp_R x shift scale h in
  let p := \sum_(j < size x) c`_j *: \prod_(i < j) ('X - (x`_i)%:P) in
  size c = size x /\
  (forall i, (i < size x)%N -> p.[x`_i] = exp (h * (shift + scale * x`_i))%R) /\
  (uniq x -> c = leja_coeffs_exp_dd_R x shift scale h).
Proof.
move=> c p; have sc : size c = size x by apply: first_col_size.
have hi := @leja_coeffs_exp_interp R_fieldType exp _ x shift scale h expmx_left_eig.
split=> //; split=> [i li|ux].
  by have := hi i li; rewrite (nth_map 0) // => <-.
apply: (same_coeffs ux sc _ hi); first by rewrite size_newton_dd // size_map.
by apply: newton_dd_interpolates => //; rewrite size_map.
Qed.

(* The same over any field, with any exponential that acts on left eigenvectors as a scalar
   exponential does: in particular for complex nodes. *)
Theorem C61_expm_coeffs (K : fieldType) (ex : K -> K) (expm : forall m, 'M[K]_m -> 'M[K]_m)
    (x : seq K) (shift scale h : K) :
  (forall m (M : 'M[K]_m) (w : 'rV[K]_m) lam, w *m M = lam *: w -> w *m expm m M = ex lam *: w) ->
  let c := leja_coeffs_exp expm x shift scale h in
  let p := \sum_(j < size x) c`_j *: \prod_(i < j) ('X - (x`_i)%:P) in
  size c = size x /\
  (forall i, (i < size x)%N -> p.[x`_i] = ex (h * (shift + scale * x`_i))) /\
  (uniq x -> c = leja_coeffs_exp_dd ex x shift scale h).
Proof.
move=> he c p; have sc : size c = size x by apply: first_col_size.
have hi := @leja_coeffs_exp_interp K ex _ x shift scale h he.
split=> //; split=> [i li|ux].
  by have := hi i li; rewrite (nth_map 0) // => <-.
apply: (same_coeffs ux sc _ hi); first by rewrite size_newton_dd // size_map.
by apply: newton_dd_interpolates => //; rewrite size_map.
Qed.

(* dd_exp_taylor, for every number of squarings s, every order p and every step fraction h: its
   polynomial takes at x_i the value e^(h mu) (1 + y + ... + y^p/p!)^(2^s) with
   y = h (shift + scale x_i - mu) / 2^s, mu the mean the code subtracts *)
Theorem C61_taylor_coeffs (K : fieldType) (ex : K -> K) (s : nat) (x : seq K) (shift scale h : K) (p : nat) :
  ex 0 = 1 ->
  let c := dd_exp_taylor ex s x shift scale h p in
  let mu := (\sum_(xi <- x) (h * (shift + xi * scale))) / (size x)%:R in
  let P := \sum_(j < size x) c`_j *: \prod_(i < j) ('X - (x`_i)%:P) in
  size c = size x /\
  forall i, (i < size x)%N ->
    P.[x`_i] = ex (h * mu) *
      (\sum_(k < p.+1) (k`!%:R)^-1 * (h * (shift + scale * x`_i - mu) / 2%:R ^+ s) ^+ k) ^+ (2 ^ s).
Proof.
move=> e0 c mu P; split; first exact: dd_taylor_size.
move=> i hi; have := @dd_taylor_interp K ex s x shift scale h p e0 i hi.
by rewrite (nth_map 0) // => <-.
Qed.

(* the integrator's default (h = 1, order 20, the code's number of squarings): at every node the
   polynomial is within relative error (1 + 9/21!)^(2^s) - 1 of exp(shift + scale x_i), where 2^s
   is the power of two the code picks, at least 2 and at least max|z| *)
Theorem C61_taylor_accuracy (x : seq R) (shift scale : R) i : (i < size x)%N ->
  let c := dd_exp_taylor_R x shift scale 1 in
  let P := \sum_(j < size x) c`_j *: \prod_(i < j) ('X - (x`_i)%:P) in
  let v := (shift + scale * x`_i)%R in
  let s := dd_nsq x shift scale 1 in
  is_true (`|P.[x`_i] - exp v| <= ((1 + 9%:R / 21`!%:R) ^+ (2 ^ s) - 1) * exp v).
Proof.
move=> hi c P v s; have h := dd_taylor_accuracy hi (erefl : v = _).
by move: h; rewrite /taylor_eps /taylor_eps_of.
Qed.

(* every entry of the scaled matrix is at most 1 in absolute value after division by 2^s *)
Theorem C61_taylor_scaling (x : seq R) (shift scale : R) (i j : 'I_(size x)) :
  (`|dd_z (K := R_fieldType) x shift scale 1 i j| <= 2%:R ^+ dd_nsq x shift scale 1)%R.
Proof.
have /andP [h _] := dd_nsq_ge (maxabs_of (dd_z (K := R_fieldType) x shift scale 1)).
exact: le_trans (maxabs_entry _ _ _) h.
Qed.

(* expm_taylor documents exp(shift + scale A) ~ exp(shift) sum_k (scale A)^k / k!.  The code scales
   A once only, so with scale <> 1 it computes something else; the only call in the package has
   scale = 1 *)
Theorem C61_expm_taylor_scale_refuted (F : numFieldType) (ex : F -> F) : ex 0 != 0 ->
  exists (A : 'M[F]_1) (scale : F),
    expm_taylor ex A 0 scale 2 <> ex 0 *: \sum_(k < 3) (k`!%:R)^-1 *: mxpow (scale *: A) k.
Proof.
move=> e0; exists 1%:M, 2%:R => /matrixP/(_ 0 0).
rewrite !big_ord_recl big_ord0 /expm_taylor /= !mxpowS !mxpow0 !mulmx1 !mul1mx -!scalemxAl -!scalemxAr !mul1mx.
rewrite !mxE !eqxx /= !mulr1n /bump /= !addn0.
move/(mulfI e0)/eqP; rewrite -subr_eq0.
set d := (X in X == 0).
have -> : d = -1.
  rewrite /d (_ : (1 + 1)%N`! = 2%N) //.
  field; by rewrite ?pnatr_eq0 ?oner_eq0.
by rewrite oppr_eq0 oner_eq0.
Qed.
(* with scale = 1 the documented series is what is computed, for every order *)
Theorem C61_expm_taylor_scale1 (F : fieldType) (ex : F -> F) m (A : 'M[F]_m) (shift : F) p :
  expm_taylor ex A shift 1 p = ex shift *: \sum_(k < p.+1) (k`!%:R)^-1 *: mxpow A k.
Proof.
rewrite /expm_taylor scale1r; congr (_ *: _).
have gen ts M i : M = mxpow A i.+1 -> taylor_loop A ts M i p = ts + \sum_(k < p) ((i + k).+1`!%:R)^-1 *: mxpow A (i + k).+1.
  elim: p i ts M => [|p IH] i ts M eM /=; first by rewrite big_ord0 addr0.
  rewrite IH; last by rewrite eM mxpowS.
  rewrite big_ord_recl /= addn0 -addrA eM; congr (_ + (_ + _)).
  by apply: eq_bigr => k _; rewrite /bump /= add1n addnS addSn.
rewrite gen; last by rewrite mxpowS mxpow0 mulmx1.
by rewrite big_ord_recl fact0 invr1 scale1r mxpow0; congr (_ + _).
Qed.

(* a concrete non-trivial case: the nodes 2, -2, 0 are distinct, and the theorem gives the value
   of the interpolant at each of them *)
Example C61_example : uniq [:: 2%:R; - 2%:R; 0 : R] /\ size (dd_exp_taylor_R [:: 2%:R; - 2%:R; 0] (-1) 1 1) = 3%N.
Proof.
split; last by rewrite dd_taylor_size.
rewrite /= !inE !negb_or /= andbT.
have n2 : (2%:R : R_numFieldType) != 0 by rewrite pnatr_eq0.
have n22 : (2%:R : R_numFieldType) != - 2%:R by rewrite -subr_eq0 opprK -natrD pnatr_eq0.
by rewrite n22 n2 oppr_eq0 n2.
Qed.
