(* ModelPolyX.v : the Taylor-series divided differences of matexp_poly.py (section "experimental"), in exact
   arithmetic; np.exp is the parameter ex. *)
From mathcomp Require Import all_ssreflect all_algebra.
From Verif Require Import ModelHist.
Set Implicit Arguments.
Unset Strict Implicit.
Unset Printing Implicit Defensive.
Import GRing.Theory.
Local Open Scope ring_scope.

Section TsPhi.
Variable K : fieldType.
Variable ex : K -> K.
(* a mutable m x m array *)
Definition arr := nat -> nat -> K.
Definition aset (a : arr) (i j : nat) (v : K) : arr := fun p q => if (p == i) && (q == j) then v else a p q.
Variables (leja_x : seq K) (shift scale h : K) (k : nat).
Notation m := (size leja_x).
(* matexp_poly.py:283 z *)
Definition ts_z (i : nat) : K := shift + scale * nth 0 leja_x i.
(* matexp_poly.py:284-288 *)
Definition ts_init : arr :=
  foldl (fun a i => foldl (fun a j =>
      let v := (h * scale) ^+ i / ((i + k - j)`!)%:R in aset (aset a i j v) j i v) a (iota 0 i.+1))
    (fun _ _ => 0) (iota 0 m).
(* matexp_poly.py:291-294 the body of the loop over j *)
Definition ts_row (l j : nat) (a : arr) : arr :=
  foldl (fun a i =>
      let a := aset a j i (h * (ts_z i * a j i + scale * a j i.-1) / (l + i - j + k - 1)%:R) in
      aset a i j (a i j + a j i))
    (aset a j j (h * ts_z j * (a j j / (l + k - 1)%:R))) (iota j.+1 (m - j.+1)).
(* matexp_poly.py:289-290: for l in range(2, 17), for j in range(m-1) *)
Definition ts_loop : arr :=
  foldl (fun a l => foldl (fun a j => ts_row l j a) a (iota 0 m.-1)) ts_init (iota 2 15).
(* matexp_poly.py:297-301 fill_diagonal, tril, full=True *)
Definition ts_phi_full : 'M[K]_m :=
  \matrix_(i, j) if (j <= i)%N then (if i == j then ex (h * ts_z i) else ts_loop i j) else 0.
End TsPhi.
Section TsPhi2.
Variable K : fieldType.
Variable ex : K -> K.
(* matexp_poly.py:262-304 leja_coeffs_ts_phi: the first column; an empty leja_x has none (IndexError) *)
Definition leja_coeffs_ts_phi (leja_x : seq K) (shift scale h : K) (k : nat) : result (seq K) :=
  (if leja_x is [::] then fun _ : 'M[K]_(size leja_x) => Raise IndexErrorExn
   else fun F => Ok [seq (if insub 0%N is Some j then F i j else 0) | i <- enum 'I_(size leja_x)])
  (ts_phi_full ex leja_x shift scale h k).
(* matexp_poly.py:343-360 leja_coeffs_ts_phi_substep; steps is int(np.ceil(scale)), one application is made
   even if steps is 0 or negative *)
Definition leja_coeffs_ts_phi_substep (ceil : K -> nat) (leja_x : seq K) (shift scale : K) (k : nat)
  : 'cV[K]_(size leja_x) :=
  let steps := ceil scale in
  let tau := 1 / scale in
  let e_1 := \col_i ((i : nat) == 0%N)%:R in
  iter steps.-1 (fun y => ts_phi_full ex leja_x shift scale tau k *m y)
    (ts_phi_full ex leja_x shift scale tau k *m e_1).
End TsPhi2.
