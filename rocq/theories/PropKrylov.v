(* PropKrylov.v : property theorems about the Arnoldi process and the Krylov evaluation of phi
   functions (C18-C21). *)
From Coq Require Import Reals.
From Coquelicot Require Import Coquelicot.
From mathcomp Require Import all_ssreflect all_algebra.
From Verif Require Import Rstruct Summable MxBase MxSeries SpecPhi ModelHist ModelOps SpecOps ProofsOps.
From Verif Require Import ModelPhi ModelPhiR ModelKrylov ProofsPhiErr ProofsKrylov ProofsKrylov2.
From Verif Require Import ProofsKrylov3 ProofsKiops ProofsKryCode.
Set Implicit Arguments.
Unset Strict Implicit.
Unset Printing Implicit Defensive.
Import Order.TTheory GRing.Theory Num.Theory.
Local Open Scope ring_scope.
Local Opaque breakdown_tol norm2.

(* C18.  b != 0, at least one column asked for.  k is the number of returned columns. *)
Theorem C18_arnoldi :
  forall (F : rcfType) n (L : 'cV[F]_n -> 'cV[F]_n) (A : 'M[F]_n) (s : F) (b : 'cV[F]_n) m iom,
  (forall v, L v = A *m v) -> b != 0 -> (0 < m)%N ->
  let st := arnoldi_lop_jit L s b m iom in
  let k := a_k st in let Q := aQ st in let H := aH st in
  (* number of columns, first column *)
  (0 < k <= minn n m)%N /\ Q *m e1v F k = (norm2 b)^-1 *: b /\
  (* unit columns, orthogonal to the columns in the window; all of them if iom covers them *)
  (forall j : 'I_k, (Q^T *m Q) j j = 1) /\
  (forall i j : 'I_k, (i < j)%N -> (j - i <= iom.+1)%N -> (Q^T *m Q) i j = 0) /\
  ((minn n m <= iom.+2)%N -> Q^T *m Q = 1%:M) /\
  (* Hessenberg, banded by iom, positive subdiagonal *)
  (forall i j : 'I_k, (j.+1 < i)%N || (i + iom < j)%N -> H i j = 0) /\
  (forall i j : 'I_k, (i : nat) = j.+1 -> breakdown_tol F < H i j) /\
  (* the Arnoldi relation, with a residual in the last column only; why it stopped *)
  exists r : 'cV[F]_n,
    (s *: A) *m Q = Q *m H + r *m (\row_j ((j : nat) == k.-1)%:R) /\
    (k = minn n m \/ norm2 r <= breakdown_tol F) /\
    ((minn n m <= iom.+1)%N -> Q^T *m r = 0) /\
    ((minn n m <= iom.+1)%N -> k = n -> r = 0).
Proof.
move=> F n L A s b m iom LA b0 m0 st k Q H.
have fin := arnoldi_finished L s iom b0 m0.
have hk := fin_pos fin; rewrite -/st -/k in hk.
have /andP[k0 km] := hk.
have QQ (i j : 'I_k) : (Q^T *m Q) i j = dotv (a_qs st i) (a_qs st j).
  by rewrite mxE; apply: eq_bigr => l _; rewrite !mxE.
have orth : (minn n m <= iom.+2)%N -> Q^T *m Q = 1%:M.
  by move=> h; apply: (Qm_orth fin); apply: leq_trans km h.
have orthr : (minn n m <= iom.+1)%N -> Q^T *m rm L s k (a_hs st) (a_qs st) = 0.
  by move=> h; apply: (Qm_rm fin); apply: leq_trans km h.
do !split=> //.
- by rewrite Q_e1 // arnoldi_q0.
- by move=> j; rewrite QQ; apply: (fin_unit fin); apply: ltn_ord.
- by move=> i j ij dist; rewrite QQ; apply: (fin_orth fin); rewrite ?ij ?ltn_ord.
- by move=> i j h; apply: (Hm_hess fin).
- move=> i j e; rewrite mxE e; apply: (fin_sub fin); rewrite -e; exact: ltn_ord.
exists (rm L s k (a_hs st) (a_qs st)); split; first exact: (arn_rel LA fin).
split; first exact: (fin_end fin).
split=> // h kn; apply: (orth_full (Q := Q) kn); last exact: orthr.
by apply: orth; apply: leqW.
Qed.
Print Assumptions C18_arnoldi.

(* a case that meets the hypotheses and runs two iterations *)
Example C18_two_columns (F : rcfType) :
  let A := \matrix_(i < 2, j < 2) (((i : nat) == 1%N) && ((j : nat) == 0%N))%:R : 'M[F]_2 in
  a_k (arnoldi_lop_jit (mulmx A) 1 (e1v F 2) 5 3) = 2%N.
Proof.
move=> A; have b0 : e1v F 2 != 0.
  apply/eqP => /matrixP /(_ 0 0); rewrite !mxE => /eqP; by rewrite oner_eq0.
have fin := arnoldi_finished (mulmx A) 1 3 b0 (isT : (0 < 5)%N).
set st := arnoldi_lop_jit _ _ _ _ _ in fin *.
have /andP[k0 k2] := fin_pos fin.
have [->|hr] := fin_end fin; first by [].
case: (ltngtP (a_k st) 2) => [k1|k3|] //; last by move: k2; rewrite leqNgt k3.
have k1' : a_k st = 1%N by apply/eqP; rewrite eqn_leq -ltnS k1.
move: hr; rewrite k1' /resid /= big_nat1 scale1r.
have q0 : a_qs st 0%N = e1v F 2.
  rewrite /st arnoldi_q0 //; have -> : norm2 (e1v F 2) = 1; last by rewrite invr1 scale1r.
  apply: norm2_1; rewrite /dotv big_ord_recl big_ord1 !mxE /=.
  by rewrite mulr1 mulr0 addr0.
rewrite q0 => hr.
have := le_trans (entry_le_norm2 _ 1) hr.
rewrite !mxE big_ord_recl big_ord1 !mxE /= mulr1 mulr0 addr0 mulr0 subr0 normr1.
by rewrite leNgt; move/negP; case; rewrite invf_lt1 ?exprn_gt0 ?ltr0n // exprn_egt1 // ltr1n.
Qed.

(* C19a.  Exactness on the Krylov space: every polynomial of degree < k, and every polynomial
   once the residual vanishes. *)
Theorem C19_polynomials :
  forall (F : rcfType) n (L : 'cV[F]_n -> 'cV[F]_n) (A : 'M[F]_n) (s : F) (b : 'cV[F]_n) m iom,
  (forall v, L v = A *m v) -> b != 0 -> (0 < m)%N ->
  let st := arnoldi_lop_jit L s b m iom in
  let k := a_k st in let Q := aQ st in let H := aH st in
  forall d (c : nat -> F),
  (d <= k)%N \/ (s *: A) *m Q = Q *m H ->
  (\sum_(i < d) c i *: mxpow (s *: A) i) *m b
  = norm2 b *: (Q *m ((\sum_(i < d) c i *: mxpow H i) *m e1v F k)).
Proof.
move=> F n L A s b m iom LA b0 m0 st k Q H d c h.
have fin := arnoldi_finished L s iom b0 m0.
have /andP[k0 _] := fin_pos fin.
have hb : b = norm2 b *: (Q *m e1v F k).
  rewrite Q_e1 // arnoldi_q0 // scalerA mulfV ?scale1r //.
  by apply: lt0r_neq0; rewrite norm2_gt0.
rewrite {1}hb -scalemxAr; congr (_ *: _).
case: h => h.
  apply: (kry_poly (arn_rel LA fin)) => // i j hij; apply: (Hm_hess fin); by rewrite hij.
have rel : (s *: A) *m Q = Q *m H + (0 : 'cV[F]_n) *m elast F k by rewrite mul0mx addr0.
by rewrite (kry_poly0 rel).
Qed.
Print Assumptions C19_polynomials.

(* C19b.  phi_linop with exact dense exponentials.  If the Krylov space is the whole space the
   result is phi_j(dt A) v; if Arnoldi stopped because of a small residual the result is
   phi_j(dt A - E) v for a perturbation E of size n*1e-12. *)
Theorem C19_phi_exact :
  forall (expm expk : forall n, 'M[R]_n -> 'M[R]_n),
  (forall n (A : 'M[R]_n), is_expm A (expm n A)) ->
  (forall n (A : 'M[R]_n), is_expm A (expk n A)) ->
  forall n (L : 'cV[R]_n -> 'cV[R]_n) (A : 'M[R]_n) (dt : R) v j m iom,
  (forall v, L v = A *m v) -> v != 0 -> (n <= m)%N -> (n <= iom.+1)%N ->
  exists E : 'M[R]_n, ninf E <= n%:R * breakdown_tol R_rcfType /\
  (a_k (arnoldi_lop_jit L dt ((norm2 v)^-1 *: v) m iom) = n -> E = 0) /\
  forall P, is_phi j (dt *: A - E) P -> phi_linop expm expk L dt v j m iom = Ok (P *m v).
Proof.
move=> expm expk h1 h2 n L A dt v j m iom LA v0 nm ni.
have h1' N (X : 'M[R]_N) : expm N X = expmx X by apply/is_phiP; apply: h1.
have h2' N (X : 'M[R]_N) : expk N X = expmx X by apply/is_phiP; apply: h2.
have n0 : (0 < n)%N.
  case: (posnP n) v0 => // e; move: v; rewrite e => u; by rewrite [u]flatmx0 eqxx.
have m0 : (0 < m)%N by apply: leq_trans nm.
have mn : minn n m = n by apply/minn_idPl.
case: (eqVneq (a_k (arnoldi_lop_jit L dt ((norm2 v)^-1 *: v) m iom)) n) => kn.
  exists 0; rewrite ninf0; split; first by rewrite mulr_ge0 ?ler0n // ltW // tol_gt0.
  split=> // P /is_phiP ->; rewrite subr0; exact: phi_linop_full.
have [e|e] := st_end L dt iom v0 m0; first by move: kn; rewrite e mn eqxx.
have [|E [hE hw]] := phi_linop_back h1' h2' LA v0 m0 j e; first by rewrite mn.
by exists E; split=> //; split=> [/eqP|P /is_phiP ->//]; rewrite (negPf kn).
Qed.
Print Assumptions C19_phi_exact.

(* C19c.  Error bound for every Krylov dimension m >= 1 (orthogonalisation depth covering it),
   with the exponential the code really uses for j > 0 (scaling and squaring from degree 4).
   th = ||dt A||_inf.  Three parts: early stop, truncation to m < n columns, dense phi. *)
Theorem C19_phi_error :
  forall (expm : forall n, 'M[R]_n -> 'M[R]_n),
  (forall n (A : 'M[R]_n), is_expm A (expm n A)) ->
  forall n (L : 'cV[R]_n -> 'cV[R]_n) (A : 'M[R]_n) (dt : R) v j m iom,
  (forall v, L v = A *m v) -> (0 < m)%N -> (minn n m <= iom.+1)%N ->
  let th := ninf (dt *: A) in
  let tol := n%:R * breakdown_tol R_rcfType in
  let eta := n%:R * m%:R * th in
  exists w, phi_linop expm expk_code L dt v j m iom = Ok w /\
  forall P, is_phi j (dt *: A) P ->
  ninf (w - P *m v) <= norm2 v *
    (tol * exp (th + tol)%R
     + (if (m < n)%N then ((m + j)`!%:R)^-1 * (th ^+ m * exp th + m%:R * (eta ^+ m * exp eta)) else 0)
     + m%:R * ((eta + 2%:R) / (8%:R ^+ 4 * 120%:R) * exp (eta + 2%:R)%R) * (0 < j)%N%:R).
Proof.
move=> expm h1 n L A dt v j m iom LA m0 hm th tol eta.
have h1' N (X : 'M[R]_N) : expm N X = expmx X by apply/is_phiP; apply: h1.
have [w [hw he]] := phi_linop_code_err h1' dt v j LA m0 hm.
by exists w; split=> // P /is_phiP ->.
Qed.
Print Assumptions C19_phi_error.

(* C20. *)
Theorem C20_zero_and_homogeneous :
  forall (F : rcfType) (expm expk : forall n, 'M[F]_n -> 'M[F]_n)
    n (L : 'cV[F]_n -> 'cV[F]_n) dt j m iom,
  phi_linop expm expk L dt 0 j m iom = Ok 0 /\
  (forall v c, 0 < c ->
     phi_linop expm expk L dt (c *: v) j m iom
     = rbind (phi_linop expm expk L dt v j m iom) (fun w => Ok (c *: w))) /\
  ((forall v, L (- v) = - L v) -> (0 < m)%N -> forall v c,
     phi_linop expm expk L dt (c *: v) j m iom
     = rbind (phi_linop expm expk L dt v j m iom) (fun w => Ok (c *: w))) /\
  ((0 < m)%N -> forall v, exists w, phi_linop expm expk L dt v j m iom = Ok w) /\
  (forall v, v != 0 -> phi_linop expm expk L dt v j 0 iom = Raise AssertionError).
Proof.
move=> F expm expk n L dt j m iom; split; first exact: phi_linop_0.
split; first by move=> v c; apply: phi_linop_pos.
split; first by move=> LN m0 v c; apply: phi_linop_scale.
split; first by move=> m0 v; apply: phi_linop_ok.
by move=> v v0; rewrite /phi_linop norm2_gt0 v0 /arnoldi_lop_jit minn0.
Qed.
Print Assumptions C20_zero_and_homogeneous.

(* C21a.  The value, with exact dense exponentials and a full Krylov space for the augmented
   operator (in particular whenever all b_j vanish). *)
Theorem C21_phi_sum :
  forall (expm expk : forall n, 'M[R]_n -> 'M[R]_n),
  (forall n (A : 'M[R]_n), is_expm A (expm n A)) ->
  (forall n (A : 'M[R]_n), is_expm A (expk n A)) ->
  forall n (a_lo : linop R_realFieldType n) (A : 'M[R]_n) (dt : R) (vb : seq 'cV[R]_n) m iom,
  acts_as a_lo A -> (1 < size vb)%N -> (0 < m)%N ->
  let p := (size vb).-1 in let beta := maxnorm vb in
  let v := col_mx (beta^-1 *: nth 0 vb 0) (\col_(i < p) ((i : nat) == p.-1)%:R) in
  (n + p <= iom.+1)%N ->
  (0 < beta -> a_k (arnoldi_lop_jit
      (lo_mv (AugMatrixLinOp a_lo dt (beta^-1 *: kiops_B p vb) (kiops_K R_rcfType p)))
      1 ((norm2 v)^-1 *: v) m iom) = (n + p)%N) ->
  forall P : nat -> 'M[R]_n, are_phis p (dt *: A) P ->
  kiops_fixedsteps expm expk a_lo dt vb m iom = Ok (\sum_(j < size vb) P j *m nth 0 vb j).
Proof.
move=> expm expk h1 h2 n a_lo A dt vb m iom hA sv m0 p beta v hi hk P hP.
have h1' N (X : 'M[R]_N) : expm N X = expmx X by apply/is_phiP; apply: h1.
have h2' N (X : 'M[R]_N) : expk N X = expmx X by apply/is_phiP; apply: h2.
have p0 : (0 < (size vb).-1)%N by case: (size vb) sv => [|[]].
rewrite (kiops_full h1' h2' hA p0 m0 hi hk); congr Ok.
have es : size vb = (size vb).-1.+1 by case: (size vb) sv.
rewrite -(big_mkord xpredT (fun j => phi j (dt *: A) *m nth 0 vb j)).
rewrite -(big_mkord xpredT (fun j => P j *m nth 0 vb j)) -es.
rewrite !big_nat; apply: eq_bigr => j /andP[_ js]; congr (_ *m _).
by symmetry; apply/is_phiP; apply: hP; rewrite /p -ltnS -es.
Qed.
Print Assumptions C21_phi_sum.

(* C21b.  For every Krylov dimension, an error bound; the input vectors are never scaled. *)
Theorem C21_phi_sum_error :
  forall (expm expk : forall n, 'M[R]_n -> 'M[R]_n),
  (forall n (A : 'M[R]_n), is_expm A (expm n A)) ->
  (forall n (A : 'M[R]_n), is_expm A (expk n A)) ->
  forall n (a_lo : linop R_realFieldType n) (A : 'M[R]_n) (dt : R) (vb : seq 'cV[R]_n) m iom,
  acts_as a_lo A -> (1 < size vb)%N -> (0 < m)%N ->
  let p := (size vb).-1 in
  (minn (n + p) m <= iom.+1)%N ->
  let N := (n + p)%N in
  let th := ninf (dt *: A) + p%:R in
  let tol := N%:R * breakdown_tol R_rcfType in
  let eta := N%:R * m%:R * th in
  exists w, kiops_fixedsteps expm expk a_lo dt vb m iom = Ok w /\
  forall P : nat -> 'M[R]_n, are_phis p (dt *: A) P ->
  ninf (w - \sum_(j < size vb) P j *m nth 0 vb j) <=
    maxnorm vb * (2%:R * (tol * exp (th + tol)%R
     + (if (m < N)%N then ((m + 0)`!%:R)^-1 * (th ^+ m * exp th + m%:R * (eta ^+ m * exp eta)) else 0))).
Proof.
move=> expm expk h1 h2 n a_lo A dt vb m iom hA sv m0 p hi N th tol eta.
have h1' N' (X : 'M[R]_N') : expm N' X = expmx X by apply/is_phiP; apply: h1.
have h2' N' (X : 'M[R]_N') : expk N' X = expmx X by apply/is_phiP; apply: h2.
have p0 : (0 < (size vb).-1)%N by case: (size vb) sv => [|[]].
have [w [hw he]] := kiops_err h1' h2' dt hA p0 m0 hi.
exists w; split=> // P hP.
have es : size vb = (size vb).-1.+1 by case: (size vb) sv.
have -> : \sum_(j < size vb) P j *m nth 0 vb j = \sum_(j < (size vb).-1.+1) phi j (dt *: A) *m nth 0 vb j.
  rewrite -(big_mkord xpredT (fun j => phi j (dt *: A) *m nth 0 vb j)).
  rewrite -(big_mkord xpredT (fun j => P j *m nth 0 vb j)) -es.
  rewrite !big_nat; apply: eq_bigr => j /andP[_ js]; congr (_ *m _).
  by apply/is_phiP; apply: hP; rewrite /p -ltnS -es.
exact: he.
Qed.
Print Assumptions C21_phi_sum_error.

(* C21c.  Zero input; too short input. *)
Theorem C21_zero :
  forall (F : rcfType) (expm expk : forall n, 'M[F]_n -> 'M[F]_n) n (a_lo : linop F n) dt vb m iom,
  (forall i, nth 0 vb i = 0) -> kiops_fixedsteps expm expk a_lo dt vb m iom = Ok 0.
Proof.
move=> F expm expk n a_lo dt vb m iom h; rewrite /kiops_fixedsteps.
have -> // : 0 < maxnorm vb = false.
apply/negbTE; rewrite -leNgt; elim: vb h => [|v vb IH] h //=.
have /= -> := h 0%N; rewrite le_maxl norm2_0 lexx /=; apply: IH => i; exact: (h i.+1).
Qed.
Print Assumptions C21_zero.
