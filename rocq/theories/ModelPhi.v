(* ModelPhi.v : dense phi functions, ormatex_py/matexp_phi.py, in exact arithmetic.
   Definitions only. Matrices are mathcomp matrices; jit decorators, dtypes, prints and
   warnings are not modelled. *)
From mathcomp Require Import all_ssreflect all_algebra.
From mathcomp Require Import complex.
From Verif Require Import MxBase.
Set Implicit Arguments.
Unset Strict Implicit.
Unset Printing Implicit Defensive.
Import Order.TTheory GRing.Theory Num.Theory.
Local Open Scope ring_scope.

Section PhiModel.
Variable F : numFieldType.

(* External routines, as oracles:
   expm     : jax.scipy.linalg.expm                  (matexp_phi.py:57, 92, 212)
   qr       : jax.scipy.linalg.qr                    (matexp_phi.py:63)
   soltri   : jax.scipy.linalg.solve_triangular      (matexp_phi.py:71) *)
Variable expm : forall n, 'M[F]_n -> 'M[F]_n.
Variable qr : forall n, 'M[F]_n -> 'M[F]_n * 'M[F]_n.
Variable soltri : forall n, 'M[F]_n -> 'M[F]_n -> 'M[F]_n.

(* matexp_phi.py:48-75 f_phi_k_inv (first component).  The loop
   "for ki in range(1,k+1): phi_k = solve_triangular(Rz, Qz.T @ (phi_k - 1/(ki-1)! I))".
   Not modelled: the error estimate err_est = eps / r_min^k and the warning of f_phi_k. *)
Fixpoint f_phi_k_inv_loop n (Qz Rz : 'M[F]_n) (phi : 'M[F]_n) (k : nat) : 'M[F]_n :=
  match k with
  | 0 => phi
  | k'.+1 => soltri Rz (Qz^T *m (f_phi_k_inv_loop Qz Rz phi k' - (k'`!%:R)^-1 *: 1%:M))
  end.
Definition f_phi_k_inv n (z : 'M[F]_n) (k : nat) : 'M[F]_n :=
  let: (Qz, Rz) := qr z in f_phi_k_inv_loop Qz Rz (expm z) k.

(* numpy flat index q*n + a of row (or column) a of block q, as an ordinal *)
Lemma bidx_subproof k n (q : 'I_k) (a : 'I_n) : (q * n + a < k * n)%N.
Proof.
apply: (@leq_trans (q.+1 * n)%N); last by rewrite leq_mul2r ltn_ord orbT.
by rewrite mulSn addnC ltn_add2r ltn_ord.
Qed.
Definition bidx k n (q : 'I_k) (a : 'I_n) : 'I_(k * n) := Ordinal (bidx_subproof q a).

(* matexp_phi.py:78-90 the matrix z_ext of f_phi_k_ext, entry by entry, for k > 0:
     z_ext_k = block([[z], [zeros((k-1)*N, N)]])
     z_ext   = block([[z_ext_k, eye(k*N)], [zeros(N, (k+1)*N)]])
   The case k = 0 of the code (z_ext = z) is the same formula with k = 0. *)
Definition ext_entry n (z : 'M[F]_n) (k : nat) (i j : nat) : F :=
  if (i < k * n)%N || (k == 0%N) then
    if (j < n)%N then
      (if (i < n)%N then
         (if insub i is Some a then if insub j is Some b then z a b else 0 else 0)
       else 0)
    else (i == j - n)%N%:R
  else 0.
Definition z_ext n (z : 'M[F]_n) (k : nat) : 'M[F]_(k.+1 * n) :=
  \matrix_(i, j) ext_entry z k i j.

(* matexp_phi.py:78-99 f_phi_k_ext(z,k,return_all=True)[q]: reshape((N,k+1,N)) of the
   first N rows followed by swapaxes(0,1) puts entry [a, q*N+b] at [q][a][b]. *)
Definition f_phi_k_ext_all n (z : 'M[F]_n) (k : nat) (q : 'I_k.+1) : 'M[F]_n :=
  \matrix_(a, b) expm (z_ext z k) (bidx ord0 a) (bidx q b).
(* return_all=False: phi_ks[:N,-N:], the last N columns *)
Definition f_phi_k_ext n (z : 'M[F]_n) (k : nat) : 'M[F]_n :=
  f_phi_k_ext_all z (ord_max : 'I_k.+1).

(* matexp_phi.py:102-126 f_phi_k_poly_all.  First loop (lines 109-115): *)
Definition poly_loop n (z : 'M[F]_n) (k poly_deg : nat) : 'M[F]_n :=
  let fact_k : F := k`!%:R in
  let zpow := (k.+1%:R)^-1 *: (fact_k^-1 *: z) in
  let approx := fact_k^-1 *: 1%:M + zpow in
  (foldl (fun st j => let zp := (j%:R)^-1 *: (z *m st.1) in (zp, st.2 + zp))
         (zpow, approx) (iota k.+2 (poly_deg - k.+1))).2.
(* second loop (lines 117-124), building phi_ks[k-1], ..., phi_ks[0]; the list is
   returned with index 0 first.  fact_j is divided by j after use; the last division is
   by 0 (inf in JAX, 0 here) and its result is never used. *)
Fixpoint poly_down n (z : 'M[F]_n) (j : nat) (fact_j : F) (l : seq 'M[F]_n) : seq 'M[F]_n :=
  match j with
  | 0 => l
  | j'.+1 =>
      let top := if l is x :: _ then x else 0 in
      poly_down z j' (fact_j / j'%:R) ((fact_j^-1 *: 1%:M + z *m top) :: l)
  end.
(* assert(poly_deg >= k+1): None is AssertionError *)
Definition f_phi_k_poly_all n (z : 'M[F]_n) (k poly_deg : nat) : option (seq 'M[F]_n) :=
  if (k.+1 <= poly_deg)%N
  then Some (poly_down z k (k`!%:R / k%:R) [:: poly_loop z k poly_deg])
  else None.

(* matexp_phi.py:146-148 scalings[j,jj] = 1/((j-jj)! * 2^j), used only for jj <= j *)
Definition scaling (j jj : nat) : F := ((j - jj)`!%:R * 2%:R ^+ j)^-1.

(* matexp_phi.py:152-161 sq_step: in-place update of phi_ks for j = k, ..., 1 and
   jj = j-1, ..., 1, then squaring of phi_ks[0] *)
Definition sq_inner n (phis : seq 'M[F]_n) (j : nat) : seq 'M[F]_n :=
  let phis1 := set_nth 0 phis j (scaling j j *: (nth 0 phis 0 *m nth 0 phis j + nth 0 phis j)) in
  foldl (fun l jj => set_nth 0 l j (nth 0 l j + scaling j jj *: nth 0 l jj))
        phis1 (rev (iota 1 j.-1)).
Definition sq_step n (k : nat) (phis : seq 'M[F]_n) : seq 'M[F]_n :=
  let l := foldl (@sq_inner n) phis (rev (iota 1 k)) in
  set_nth 0 l 0 (nth 0 l 0 *m nth 0 l 0).

(* matexp_phi.py:129-166 f_phi_k_sq_all with the number of squarings Nscale given
   (its computation from the norm, lines 137-142, is nscale below / in ModelPhiR.v);
   init_poly_deg = 4; tt_N = 2 ** Nscale. *)
Definition f_phi_k_sq_all_at n (z : 'M[F]_n) (k Nscale : nat) : option (seq 'M[F]_n) :=
  if f_phi_k_poly_all ((2%:R ^+ Nscale)^-1 *: z) k 4 is Some phis
  then Some (iter Nscale (sq_step k) phis) else None.
(* matexp_phi.py:168-174 f_phi_k_sq (return_all=False) *)
Definition f_phi_k_sq_at n (z : 'M[F]_n) (k Nscale : nat) : option 'M[F]_n :=
  if f_phi_k_sq_all_at z k Nscale is Some phis then Some (nth 0 phis k) else None.

(* matexp_phi.py:197-214 the matrix z_ext of f_phi_k_appl for k > 0:
     block([[z, B, zeros(N,(k-1)M)], [zeros((k-1)M, N+M), eye((k-1)M)], [zeros(M, N+kM)]]) *)
Definition appl_entry n m (z : 'M[F]_n) (B : 'M[F]_(n, m)) (k : nat) (i j : nat) : F :=
  if (i < n)%N then
    if insub i is Some a then
      if (j < n)%N then (if insub j is Some b then z a b else 0)
      else if (j < n + m)%N then (if insub (j - n)%N is Some b then B a b else 0)
      else 0
    else 0
  else if (i < n + (k.-1) * m)%N then
    (if (j < n + m)%N then 0 else (i - n == j - (n + m))%N%:R)
  else 0.
Definition appl_ext n m (z : 'M[F]_n) (B : 'M[F]_(n, m)) (k : nat) : 'M[F]_(n + k * m) :=
  \matrix_(i, j) appl_entry z B k i j.
(* matexp_phi.py:197-214 f_phi_k_appl.  [expk] is the exponential used for k > 0 (the code
   uses f_phi_k_sq(z_ext, k=0), line 210); k = 0 uses expm(z) @ b (line 213).  The last M
   columns of the first N rows are read.  1-d b is the case m = 1; reshape is not modelled. *)
Definition f_phi_k_appl (expk : forall n, 'M[F]_n -> 'M[F]_n)
    n m (z : 'M[F]_n) (B : 'M[F]_(n, m)) (k : nat) : 'M[F]_(n, m) :=
  match k with
  | 0 => expm z *m B
  | k'.+1 =>
      \matrix_(a, b) expk (n + k'.+1 * m)%N (appl_ext z B k'.+1)
                       (lshift _ a) (rshift n (bidx (ord_max : 'I_k'.+1) b))
  end.

End PhiModel.

(* ------------------------------------------------------------------ *)
(* partial fractions; complex poles live in R[i] *)
Section Pfd.
Variable R : rcfType.
Notation C := R[i].

(* the real field embedded in C, entrywise; and the real part, entrywise *)
Definition cmx m n (A : 'M[R]_(m, n)) : 'M[C]_(m, n) := map_mx (@real_complex R) A.
Definition remx m n (A : 'M[C]_(m, n)) : 'M[R]_(m, n) := map_mx (@complex.Re R) A.

(* matexp_phi.py:217-237 f_phi_k_pfd(z, b, k, method) with (ps, cs, c0) = pfd_dict[method]
   and zip(ps, cs) given as a list of pairs.  jnp.linalg.solve(M, B) is invmx M *m B; for a
   singular M the code returns inf/nan while invmx M = M, so theorems require the poles not
   to be eigenvalues. *)
Definition pfd_term n m (z : 'M[R]_n) (B : 'M[R]_(n, m)) (k : nat) (pc : C * C) : 'M[R]_(n, m) :=
  let: (p, c) := pc in
  remx ((2%:R * c / p ^+ k) *: (invmx (cmx z - p%:M) *m cmx B)).
Definition f_phi_k_pfd n m (tab : seq (C * C) * R) (z : 'M[R]_n) (B : 'M[R]_(n, m)) (k : nat)
  : 'M[R]_(n, m) :=
  let: (pcs, c0) := tab in
  foldl (fun acc pc => acc + pfd_term z B k pc)
        (if k == 0%N then 0 + c0 *: B else 0) pcs.

(* matexp_phi_pfd_dict.py 'IE' : implicit Euler, ps=[1.], cs=[-1/2], c0=0 *)
Definition pfd_IE : seq (C * C) * R := ([:: (1, - (2%:R)^-1)], 0).
(* matexp_phi_pfd_dict.py 'CN' : Crank-Nicolson, ps=[2.], cs=[-4./2.], c0=-1. *)
Definition pfd_CN : seq (C * C) * R := ([:: (2%:R, - (4%:R / 2%:R))], -1).
End Pfd.
