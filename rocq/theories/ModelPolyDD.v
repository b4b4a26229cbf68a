(* ModelPolyDD.v : leja_coeffs_dd_phi of matexp_poly.py (the dd_phi routine of Zivcovich), in exact arithmetic; np.exp is
   the parameter ex, and the number s of squarings (from max|F|) the parameter s.  The cast of the table to complex64 is
   not modelled. *)
From mathcomp Require Import all_ssreflect all_algebra.
From Verif Require Import ModelHist ModelPolyX.
Set Implicit Arguments.
Unset Strict Implicit.
Unset Printing Implicit Defensive.
Import GRing.Theory.
Local Open Scope ring_scope.

Section DD.
Variable K : fieldType.
Variable ex : K -> K.
(* matexp_poly.py:381-386: l zeros, then the shifted and scaled points; mu is their mean *)
Definition ddp_pts (leja_x : seq K) (shift scale h : K) (l : nat) : seq K :=
  nseq l 0 ++ [seq h * (shift + scale * x) | x <- leja_x].
Definition ddp_mu (pts : seq K) : K := (\sum_(x <- pts) x) / (size pts)%:R.
Definition ddp_z (pts : seq K) (i : nat) : K := nth 0 pts i - ddp_mu pts.
(* dd[k] = v *)
Definition vset (d : nat -> K) (k : nat) (v : K) : nat -> K := fun p => if p == k then v else d p.
Section Table.
(* n = len(z) - 1; matexp_poly.py:388 N = n + 30 *)
Variables (n : nat) (z : nat -> K) (s : nat).
Definition ddp_N : nat := n + 30.
(* matexp_poly.py:398-399 dd = [1, 1/cumprod(arange(1, N+1) * s)] *)
Definition ddp_init (k : nat) : K := 1 / \prod_(t < k) (t.+1%:R * s%:R).
(* a loop over k downwards: dd[k] = dd[k] + w k * dd[k+1] *)
Definition down (w : nat -> K) (ks : seq nat) (d : nat -> K) : nat -> K :=
  foldl (fun d k => vset d k (d k + w k * d k.+1)) d (rev ks).
(* matexp_poly.py:401-404 the two loops over k; F[k+j+1, j] is z[j] - z[k+j+1] (390-392) *)
Definition ddp_row (j : nat) (d : nat -> K) : nat -> K :=
  down (fun k => z j - z (k + j + 1)%N) (iota 0 (n - j)) (down (fun _ => z j) (iota (n - j) (ddp_N - (n - j))) d).
(* matexp_poly.py:400-405: for j in range(n, -1, -1); F[j, j:n+1] = dd[:n-j+1] *)
Definition ddp_loop : (nat -> K) * arr K :=
  foldl (fun st j => let d := ddp_row j st.1 in
           (d, fun p q => if (p == j) && (j <= q <= n)%N then d (q - j)%N else st.2 p q))
    (ddp_init, fun _ _ => 0) (rev (iota 0 n.+1)).
(* matexp_poly.py:406-407 the diagonal, triu *)
Definition ddp_table : 'M[K]_n.+1 :=
  \matrix_(i, j) if (i <= j)%N then (if i == j then ex (z i / s%:R) else ddp_loop.2 i j) else 0.
End Table.
(* matexp_poly.py:408-415 squaring from a given table, exp(mu), entries l .. n *)
Definition ddp_finish (n s : nat) (mu : K) (F : 'M[K]_n.+1) : 'rV[K]_n.+1 :=
  ex mu *: iter s.-1 (fun dd => dd *m F) (row 0 F).
Definition leja_coeffs_dd_phi (s_of : seq K -> nat) (leja_x : seq K) (shift scale h : K) (l : nat) : seq K :=
  let pts := ddp_pts leja_x shift scale h l in
  let n := (size pts).-1 in
  let s := maxn (s_of pts) 1 in
  drop l [seq ddp_finish s (ddp_mu pts) (ddp_table n (ddp_z pts) s) 0 i | i <- enum 'I_n.+1].
End DD.
