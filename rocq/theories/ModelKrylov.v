(* ModelKrylov.v : Arnoldi iteration (ormatex_py/arnoldi_jax.py) and Krylov evaluation of phi
   functions (ormatex_py/matexp_krylov.py), in exact arithmetic over a real closed field.
   Definitions only. *)
From mathcomp Require Import all_ssreflect all_algebra.
From Verif Require Import ModelHist MxBase ModelOps ModelPhi.
Set Implicit Arguments.
Unset Strict Implicit.
Unset Printing Implicit Defensive.
Import Order.TTheory GRing.Theory Num.Theory.
Local Open Scope ring_scope.

Section Krylov.
Variable F : rcfType.

(* jnp.dot of 1-d arrays and jnp.linalg.norm(., 2) *)
Definition dotv n (u v : 'cV[F]_n) : F := \sum_i u i 0 * v i 0.
Definition norm2 n (u : 'cV[F]_n) : F := Num.sqrt (dotv u u).

(* arnoldi_jax.py:43 breakdown_tol = 1e-12 *)
Definition breakdown_tol : F := (10%:R ^+ 12)^-1.

(* The arrays hs (m x m) and qs (n x m) are functions of their indices: hs i j, and column j of
   qs.  Every index the code writes or reads is in range (k < m), see arnoldi_lop below. *)
Definition upd1 T (f : nat -> T) (i : nat) (x : T) : nat -> T := fun i' => if i' == i then x else f i'.
Definition upd2 T (f : nat -> nat -> T) (i j : nat) (x : T) : nat -> nat -> T :=
  fun i' j' => if (i' == i) && (j' == j) then x else f i' j'.

Section Arnoldi.
Variable n : nat.

(* arnoldi_jax.py:55-63 body_ortho, one pass for index i; qs is unchanged *)
Definition body_ortho (qs : nat -> 'cV[F]_n) (k : nat)
    (st : (nat -> nat -> F) * 'cV[F]_n) (i : nat) : (nat -> nat -> F) * 'cV[F]_n :=
  let: (hs, qv) := st in
  let qci := qs i in
  let ht := dotv qv qci in
  (upd2 hs i k ht, qv - ht *: qci).

(* arnoldi_jax.py:28-92 arnoldi_mgs_lop; m = hs.shape[0].  fori_loop(lo, k+1) is the fold over
   lo..k.  k - iom is an integer clipped at 0, i.e. truncated subtraction for iom >= 0. *)
Definition arnoldi_mgs_lop (a_lo : 'cV[F]_n -> 'cV[F]_n) (a_scale : F) (m iom : nat)
    (hs : nat -> nat -> F) (qs : nat -> 'cV[F]_n) (k : nat)
    : (nat -> nat -> F) * (nat -> 'cV[F]_n) * bool :=
  let iom_depth := (k - iom)%N in
  let q_k := qs k in
  let qv := a_scale *: a_lo q_k in
  let: (hs, qv) := foldl (body_ortho qs k) (hs, qv) (iota iom_depth (k.+1 - iom_depth)) in
  let norm_v := norm2 qv in
  let not_final_it := (k.+1 < m)%N in
  let hs := if not_final_it then upd2 hs k.+1 k norm_v else hs in
  let not_breakdown := breakdown_tol < norm_v in
  let update_last := not_final_it && not_breakdown in
  let qs := if update_last then upd1 qs k.+1 (norm_v^-1 *: qv) else qs in
  (hs, qs, not_breakdown).

(* state of the while loop: hs, qs, k, not_breakdown *)
Record astate := AState { a_hs : nat -> nat -> F; a_qs : nat -> 'cV[F]_n; a_k : nat; a_nb : bool }.

(* arnoldi_jax.py:128-133 body_arnoldi *)
Definition body_arnoldi a_lo a_scale m iom (st : astate) : astate :=
  let: (hs, qs, nb) := arnoldi_mgs_lop a_lo a_scale m iom (a_hs st) (a_qs st) (a_k st) in
  AState hs qs (a_k st).+1 nb.
(* arnoldi_jax.py:134-136 cond_arnoldi *)
Definition cond_arnoldi m (st : astate) : bool := (a_k st < m)%N && a_nb st.
(* lax.while_loop; the fuel m always suffices because k grows by one per pass
   (ProofsKrylov.arn_while_done) *)
Fixpoint arn_while a_lo a_scale m iom (fuel : nat) (st : astate) : astate :=
  match fuel with
  | 0 => st
  | f.+1 => if cond_arnoldi m st then arn_while a_lo a_scale m iom f (body_arnoldi a_lo a_scale m iom st)
            else st
  end.

(* arnoldi_jax.py:112-126: m = min(n, m), zero arrays, first column b/norm(b) or b *)
Definition arnoldi_init (b : 'cV[F]_n) : astate :=
  let norm_b := norm2 b in
  let nb := 0 < norm_b in
  AState (fun _ _ => 0) (upd1 (fun _ => 0) 0%N (if nb then norm_b^-1 *: b else b)) 0 nb.
(* arnoldi_jax.py:95-139 arnoldi_lop_jit *)
Definition arnoldi_lop_jit a_lo a_scale (b : 'cV[F]_n) (m iom : nat) : astate :=
  let m := minn n m in arn_while a_lo a_scale m iom m (arnoldi_init b).

(* arnoldi_jax.py:141-160 arnoldi_lop: qs[:,:breakdown_k], hs[:breakdown_k,:breakdown_k] *)
Definition akry (st : astate) : nat := a_k st.
Definition aQ (st : astate) : 'M[F]_(n, a_k st) := \matrix_(i, j) a_qs st j i 0.
Definition aH (st : astate) : 'M[F]_(a_k st) := \matrix_(i, j) a_hs st i j.
End Arnoldi.

(* oracles of the dense evaluation: expm (jax.scipy.linalg.expm) and the exponential used for
   k > 0 by f_phi_k_appl (f_phi_k_sq with k = 0) *)
Variable expm expk : forall n, 'M[F]_n -> 'M[F]_n.

(* unit_vec: first unit vector of length k *)
Definition e1v k : 'cV[F]_k := \col_i ((i : nat) == 0%N)%:R.

(* matexp_krylov.py:38-61 phi_linop; assert(h.shape[0] > 0) is AssertionError *)
Definition phi_linop n (a_lo : 'cV[F]_n -> 'cV[F]_n) (dt : F) (v0 : 'cV[F]_n)
    (k max_krylov_dim iom : nat) : result 'cV[F]_n :=
  let norm_v0 := norm2 v0 in
  if 0 < norm_v0 then
    let v := norm_v0^-1 *: v0 in
    let st := arnoldi_lop_jit a_lo dt v max_krylov_dim iom in
    if (0 < a_k st)%N then
      let phi_k_e1 := f_phi_k_appl expm expk (aH st) (e1v (a_k st)) k in
      Ok (norm_v0 *: (aQ st *m phi_k_e1))
    else Raise AssertionError
  else Ok 0.

(* matexp_krylov.py:30-35 matexp_linop *)
Definition matexp_linop n (a_lo : 'cV[F]_n -> 'cV[F]_n) dt v0 max_krylov_dim iom :=
  phi_linop a_lo dt v0 0 max_krylov_dim iom.

(* jnp.vstack(vb[:0:-1]).T : column c is vb[p-c], for vb of length p+1 *)
Definition kiops_B n p (vb : seq 'cV[F]_n) : 'M[F]_(n, p) :=
  \matrix_(i, c) nth 0 vb (p - c)%N i 0.
(* k[0:p-1, 1:] = eye(p-1) *)
Definition kiops_K p : 'M[F]_p := \matrix_(i, j) (i.+1 == j)%N%:R.
(* unit_vec[-1] = 1 *)
Definition kiops_e p : 'cV[F]_p := \col_i ((i : nat) == p.-1)%:R.
(* max of the list of norms (Python max, nonempty) *)
Definition maxnorm n (vb : seq 'cV[F]_n) : F := foldr Num.max 0 (map (@norm2 n) vb).

(* matexp_krylov.py:63-120 kiops_fixedsteps.  vb must have at least two entries: with p = 0
   jnp.vstack of an empty list raises (modelled as TypeErrorExn).  All norms are >= 0, so the
   default 0 of [maxnorm] does not change the maximum. *)
Definition kiops_fixedsteps n (a_lo : linop F n) (dt : F) (vb : seq 'cV[F]_n)
    (max_krylov_dim iom : nat) : result 'cV[F]_n :=
  let p := (size vb).-1 in
  let norm_vb := maxnorm vb in
  if 0 < norm_vb then
    if p == 0%N then Raise TypeErrorExn else
    let b := norm_vb^-1 *: kiops_B p vb in
    let a_tilde := AugMatrixLinOp a_lo dt b (kiops_K p) in
    let v := col_mx (norm_vb^-1 *: nth 0 vb 0) (kiops_e p) in
    rbind (matexp_linop (lo_mv a_tilde) 1 v max_krylov_dim iom)
          (fun w => Ok (norm_vb *: usubmx w))
  else Ok 0.
End Krylov.
