(* PropPhi.v : property theorems about the dense phi functions (C11-C17). *)
From Coq Require Import Reals.
From Coquelicot Require Import Coquelicot.
From mathcomp Require Import all_ssreflect all_algebra.
From mathcomp Require Import complex.
From Verif Require Import Rstruct Summable MxBase MxSeries SpecPhi ModelPhi ModelPhiR.
From Verif Require Import ProofsPhi ProofsPhiExt ProofsPfd ProofsPhiR ProofsPhiErr.
Set Implicit Arguments.
Unset Strict Implicit.
Unset Printing Implicit Defensive.
Import Order.TTheory GRing.Theory Num.Theory.
Local Open Scope ring_scope.

(* C11.  Provided the external expm is the matrix exponential, every block of f_phi_k_ext is
   the phi function of its index, for every size and every k. *)
Theorem C11_block_extension :
  forall (expm : forall n, 'M[R]_n -> 'M[R]_n),
  (forall n (A : 'M[R]_n), is_expm A (expm n A)) ->
  forall n (z : 'M[R]_n) k,
    is_phi k z (f_phi_k_ext expm z k) /\
    forall q : 'I_k.+1, is_phi q z (f_phi_k_ext_all expm z q).
Proof.
move=> expm he n z k.
have he' m (A : 'M[R]_m) : expm m A = expmx A by apply/is_phiP; apply: he.
by split=> [|q]; apply/is_phiP; rewrite ?f_phi_k_ext_phi ?f_phi_k_ext_all_phi.
Qed.
Print Assumptions C11_block_extension.

(* the hypothesis on expm is satisfiable *)
Example C11_expm_exists : exists expm : forall n, 'M[R]_n -> 'M[R]_n,
  forall n (A : 'M[R]_n), is_expm A (expm n A).
Proof. by exists expmx => n A; apply: is_phi_phi. Qed.

(* C12.  For nonsingular z, with any correct QR factorisation and triangular solver. *)
Theorem C12_inverse_recurrence :
  forall expm qr soltri n (z : 'M[R]_n),
  z \in unitmx -> is_expm z (expm n z) ->
  (qr n z).1^T *m (qr n z).1 = 1%:M -> (qr n z).1 *m (qr n z).2 = z ->
  (forall X, (qr n z).2 *m soltri n (qr n z).2 X = X) ->
  forall k, is_phi k z (f_phi_k_inv expm qr soltri z k).
Proof.
move=> expm qr soltri n z u he h1 h2 h3 k; apply/is_phiP.
by rewrite f_phi_k_inv_phi //; apply/is_phiP.
Qed.
Print Assumptions C12_inverse_recurrence.

(* over any field of characteristic 0 (no limits): the recurrence the code's loop solves *)
Theorem C12_recurrence_any_field :
  forall (F : numFieldType) expm qr soltri n (z : 'M[F]_n),
  (qr n z).1^T *m (qr n z).1 = 1%:M -> (qr n z).1 *m (qr n z).2 = z ->
  (forall X, (qr n z).2 *m soltri n (qr n z).2 X = X) ->
  f_phi_k_inv expm qr soltri z 0 = expm n z /\
  forall k, z *m f_phi_k_inv expm qr soltri z k.+1
            = f_phi_k_inv expm qr soltri z k - (k`!%:R)^-1 *: 1%:M.
Proof. move=> F expm qr soltri n z; exact: f_phi_k_inv_rec. Qed.
Print Assumptions C12_recurrence_any_field.

(* a QR pair and a solver meeting the hypotheses, for a nontrivial z *)
Example C12_hypotheses_meet : let z := (2%:R)%:M : 'M[R]_3 in
  let qr := fun n (A : 'M[R]_n) => (1%:M : 'M[R]_n, A) in
  let soltri := fun n (A X : 'M[R]_n) => invmx A *m X in
  (z \in unitmx) /\ (qr 3%N z).1^T *m (qr 3%N z).1 = 1%:M /\ (qr 3%N z).1 *m (qr 3%N z).2 = z /\
  (forall X, (qr 3%N z).2 *m soltri 3%N (qr 3%N z).2 X = X).
Proof.
have u : ((2%:R)%:M : 'M[R]_3) \in unitmx.
  by rewrite unitmxE det_scalar unitfE expf_neq0 // pnatr_eq0.
by rewrite /= trmx1 !mul1mx; split=> //; split=> //; split=> // X; rewrite mulmxA mulmxV // mul1mx.
Qed.

(* C13.  Any field of characteristic 0. *)
Theorem C13_poly_is_taylor :
  forall (F : numFieldType) n (z : 'M[F]_n) k deg,
  ((k.+1 <= deg)%N ->
     exists l, f_phi_k_poly_all z k deg = Some l /\ size l = k.+1 /\
     forall j, (j <= k)%N ->
       nth 0 l j = \sum_(i < (deg - j).+1) ((i + j)`!%:R)^-1 *: mxpow z i) /\
  ((deg < k.+1)%N -> f_phi_k_poly_all z k deg = None).
Proof.
move=> F n z k deg; split=> h; last by rewrite /f_phi_k_poly_all leqNgt h.
rewrite f_phi_k_poly_allE //; eexists; split; first by [].
rewrite size_map size_iota; split=> // j jk.
by rewrite (nth_map 0%N) ?size_iota // nth_iota // add0n.
Qed.
Print Assumptions C13_poly_is_taylor.

(* C14.  One pass doubles the argument, N passes multiply it by 2^N; the code's choice of the
   number of passes brings the norm below 1/8. *)
Theorem C14_squaring_pass :
  forall n (Z : 'M[R]_n) k (phis : seq 'M[R]_n),
  size phis = k.+1 -> are_phis k Z (nth 0 phis) ->
  forall N, size (iter N (sq_step k) phis) = k.+1 /\
            are_phis k (2%:R ^+ N *: Z) (nth 0 (iter N (sq_step k) phis)).
Proof.
move=> n Z k phis hs h N; split; first by elim: N => //= N IH; apply: sq_step_size.
move=> j jk; apply/is_phiP; apply: iter_sq_phi => // i ik; exact/is_phiP/h.
Qed.
Print Assumptions C14_squaring_pass.

Theorem C14_scaled_norm :
  forall n (z : 'M[R]_n), ninf ((2%:R ^+ nscale z)^-1 *: z) < 8%:R^-1.
Proof.
move=> n z; have p2 : 0 < (2%:R ^+ nscale z : R) by rewrite exprn_gt0 // ltr0n.
rewrite ninfZ ger0_norm ?invr_ge0 ?(ltW p2) // mulrC ltr_pdivr_mulr //; exact: nscale_bound.
Qed.
Print Assumptions C14_scaled_norm.

(* what f_phi_k_sq_all returns, over any field of characteristic 0 and for any number of
   passes: it refuses k > 3 (AssertionError of the degree-4 start); otherwise the list satisfies
   the recurrence  z*f_{j+1} = f_j - 1/j! I  and commutes with z, and f_0 is the degree-4 Taylor
   polynomial at z/2^N raised to the power 2^N *)
Theorem C14_squaring_result :
  forall (F : numFieldType) n (z : 'M[F]_n) k N,
  ((k <= 3)%N -> exists phis, f_phi_k_sq_all_at z k N = Some phis /\ size phis = k.+1 /\
     (forall j, (j < k)%N -> z *m nth 0 phis j.+1 = nth 0 phis j - (j`!%:R)^-1 *: 1%:M) /\
     (forall j, (j <= k)%N -> z *m nth 0 phis j = nth 0 phis j *m z) /\
     nth 0 phis 0 = mxpow (\sum_(i < 5) (i`!%:R)^-1 *: mxpow ((2%:R ^+ N)^-1 *: z) i) (2 ^ N)) /\
  ((3 < k)%N -> f_phi_k_sq_all_at z k N = None).
Proof.
move=> F n z k N; split=> h; last exact: f_phi_k_sq_all_at_refused.
have [phis [e [hs [[r1 r2] h0]]]] := f_phi_k_sq_all_at_ok z N h.
exists phis; do 4!split=> //; rewrite h0; congr mxpow.
by apply: eq_bigr => i _; rewrite addn0.
Qed.
Print Assumptions C14_squaring_result.

(* C15.  theta = ||z||_inf.  phi_0 (the exponential): error <= theta*e^theta/(8^4*120)
   = theta*e^theta*2.03e-6; phi_j for j = 1,2,3: an additional e^theta/(120*8^(5-j)), i.e. the
   higher phi functions are only accurate to 2e-6, 1.6e-5 and 1.3e-4 (times e^theta). *)
Theorem C15_error_bound :
  forall n (z : 'M[R]_n) k, (k <= 3)%N ->
  exists phis, f_phi_k_sq_all z k = Some phis /\ size phis = k.+1 /\
  forall j P, (j <= k)%N -> is_phi j z P ->
    ninf (P - nth 0 phis j) <=
    (ninf z / (8%:R ^+ 4 * 120%:R) + (0 < j)%N%:R * (8%:R ^+ (5 - j))^-1 / 120%:R) * exp (ninf z).
Proof.
move=> n z k k3; have [phis [e [s h]]] := f_phi_k_sq_all_err z k3.
by exists phis; split=> //; split=> // j P jk /is_phiP->; apply: h.
Qed.
Print Assumptions C15_error_bound.

(* small arguments, ||z||_inf <= 1/8: the error of phi_j is at most ||z||^(5-j) e^||z|| / 60 *)
Theorem C15_error_small :
  forall n (z : 'M[R]_n) k, (k <= 3)%N -> ninf z <= 8%:R^-1 ->
  exists phis, f_phi_k_sq_all z k = Some phis /\ size phis = k.+1 /\
  forall j P, (j <= k)%N -> is_phi j z P ->
    ninf (P - nth 0 phis j) <= ninf z ^+ (5 - j) / 60%:R * exp (ninf z).
Proof.
move=> n z k k3 z8; have [phis [e [s h]]] := f_phi_k_sq_all_err' z k3.
exists phis; split=> //; split=> // j P jk /is_phiP->; apply: le_trans (h j jk) _.
rewrite (min_idPl z8) ler_wpmul2r ?exp_ge0 // [ninf z * (_ / _)]mulrA -exprS.
have z0 := ninf_ge0 z; have z1 : ninf z <= 1 by apply: le_trans z8 _; rewrite invf_le1 ?ler1n ?ltr0n.
have le5 : ninf z ^+ 5 <= ninf z ^+ (5 - j) by apply: ler_wiexpn2l => //; exact: leq_subr.
have -> : (60%:R : R)^-1 = 120%:R^-1 + 120%:R^-1.
  have -> : (120%:R : R) = 60%:R * 2%:R by rewrite -natrM.
  rewrite invfM -mulrDr; have -> : (2%:R^-1 + 2%:R^-1 : R) = 1; last by rewrite mulr1.
  by rewrite -[X in X + _]mul1r -[X in _ + X]mul1r -mulrDl (mulfV (_ : (1 + 1 : R) != 0)) // (_ : 1 + 1 = 2%:R) ?pnatr_eq0.
have i120 : 0 <= (120%:R^-1 : R) by rewrite invr_ge0 ler0n.
rewrite mulrDr; apply: ler_add; first by rewrite ler_wpmul2r.
by case: (0 < j)%N; rewrite ?mul1r // mul0r mulr_ge0 ?exprn_ge0.
Qed.
Print Assumptions C15_error_small.

(* the single-function entry point f_phi_k_sq(z, k): the same bound for phi_k, and refusal of k > 3 *)
Theorem C15_single_error_bound :
  forall n (z : 'M[R]_n) k,
  ((k <= 3)%N -> exists r, f_phi_k_sq z k = Some r /\
     forall P, is_phi k z P ->
       ninf (P - r) <=
       (ninf z / (8%:R ^+ 4 * 120%:R) + (0 < k)%N%:R * (8%:R ^+ (5 - k))^-1 / 120%:R) * exp (ninf z)) /\
  ((3 < k)%N -> f_phi_k_sq z k = None).
Proof.
move=> n z k; split=> k3.
  have [phis [e [s h]]] := C15_error_bound z k3; exists (nth 0 phis k); split=> [|P hP]; last exact: h.
  by move: e; rewrite /f_phi_k_sq_all /f_phi_k_sq /f_phi_k_sq_at => ->.
by rewrite /f_phi_k_sq /f_phi_k_sq_at (proj2 (C14_squaring_result z k (nscale z)) k3).
Qed.
Print Assumptions C15_single_error_bound.

(* C15, second half: not exact.  For every positive 1x1 matrix the result is strictly below
   the exponential. *)
Theorem C15_not_exact :
  forall x : R, 0 < x ->
  exists r : 'M[R]_1, f_phi_k_sq (x%:M) 0 = Some r /\ r 0 0 < exp x.
Proof. exact: f_phi_k_sq_not_exact. Qed.
Print Assumptions C15_not_exact.

(* C16. *)
Theorem C16_phi_times_block :
  forall (expm expk : forall n, 'M[R]_n -> 'M[R]_n),
  (forall n (A : 'M[R]_n), is_expm A (expm n A)) ->
  (forall n (A : 'M[R]_n), is_expm A (expk n A)) ->
  forall n m (z : 'M[R]_n) (B : 'M[R]_(n, m)) k P,
  is_phi k z P -> f_phi_k_appl expm expk z B k = P *m B.
Proof.
move=> expm expk h1 h2 n m z B k P /is_phiP ->; apply: f_phi_k_appl_phi => p A; apply/is_phiP; [exact: h1|exact: h2].
Qed.
Print Assumptions C16_phi_times_block.

(* C17. *)
Theorem C17_implicit_euler :
  forall (R : rcfType) n m (z : 'M[R]_n) (B : 'M[R]_(n, m)),
  1%:M - z \in unitmx ->
  (1%:M - z) *m f_phi_k_pfd (pfd_IE R) z B 0 = B.
Proof. by move=> R n m z B u; rewrite pfd_IE_any // mulmxA mulmxV // mul1mx. Qed.
Print Assumptions C17_implicit_euler.

Theorem C17_crank_nicolson :
  forall (R : rcfType) n m (z : 'M[R]_n) (B : 'M[R]_(n, m)),
  1%:M - (2%:R)^-1 *: z \in unitmx ->
  (1%:M - (2%:R)^-1 *: z) *m f_phi_k_pfd (pfd_CN R) z B 0 = (1%:M + (2%:R)^-1 *: z) *m B.
Proof. by move=> R n m z B u; rewrite pfd_CN0 // mulmxA mulmxV // mul1mx. Qed.
Print Assumptions C17_crank_nicolson.

Theorem C17_linear_in_block :
  forall (R : rcfType) (tab : seq (R[i] * R[i]) * R) n m (z : 'M[R]_n) k x (B1 B2 : 'M[R]_(n, m)),
  f_phi_k_pfd tab z (x *: B1 + B2) k = x *: f_phi_k_pfd tab z B1 k + f_phi_k_pfd tab z B2 k.
Proof. move=> R tab n m z k x B1 B2; exact: f_phi_k_pfd_linear. Qed.
Print Assumptions C17_linear_in_block.

(* the phi recurrence of a partial-fraction table holds up to an explicit multiple of B, zero
   exactly when the table's k-th moment condition holds *)
Theorem C17_recurrence_defect :
  forall (R : rcfType) (tab : seq (R[i] * R[i]) * R) n m (z : 'M[R]_n) (B : 'M[R]_(n, m)) k,
  (forall pc, pc \in tab.1 -> pc.1 != 0 /\ map_mx (@real_complex R) z - pc.1%:M \in unitmx) ->
  z *m f_phi_k_pfd tab z B k.+1
  = f_phi_k_pfd tab z B k
    + (\sum_(pc <- tab.1) complex.Re (2%:R * pc.2 / pc.1 ^+ k.+1)
       - (if k == 0%N then tab.2 else 0)) *: B.
Proof.
move=> R tab n m z B k h; apply: f_phi_k_pfd_rec; apply/allP => pc /h [p0 u].
by rewrite p0.
Qed.
Print Assumptions C17_recurrence_defect.

(* non-vacuity: 1 - z and 1 - z/2 invertible for z = -3 I *)
Example C17_hypotheses_meet : 
  ((1%:M - (- 3%:R)%:M : 'M[R]_2) \in unitmx) /\ ((1%:M - (2%:R)^-1 *: (- 2%:R)%:M : 'M[R]_2) \in unitmx).
Proof.
have u (x : R) : x != 0 -> (x%:M : 'M[R]_2) \in unitmx.
  by move=> x0; rewrite unitmxE det_scalar unitfE expf_neq0.
split; last first.
  rewrite scale_scalar_mx -raddfB u // mulrN opprK mulVf ?pnatr_eq0 //.
  by rewrite -[1 + 1]/(2%:R) pnatr_eq0.
by rewrite -raddfB u // opprK -[1 + _]/((1 + 3)%:R) pnatr_eq0.
Qed.
