(* ModelPolySS.v : leja_coeffs_ts_ss of matexp_poly.py, in exact arithmetic; np.exp is the parameter ex and
   ceil(log(scale)/log 2) the parameter lg. *)
From mathcomp Require Import all_ssreflect all_algebra.
From Verif Require Import ModelHist ModelPolyX.
Set Implicit Arguments.
Unset Strict Implicit.
Unset Printing Implicit Defensive.
Import GRing.Theory.
Local Open Scope ring_scope.

Section SS.
Variable K : fieldType.
Variable ex : K -> K.
Section Taylor.
Variables (n : nat) (z : nat -> K) (l : nat).
(* matexp_poly.py:230-234 *)
Definition ss_init : arr K :=
  foldl (fun a i => foldl (fun a j =>
      let v := 1 / ((i + l - j)`!)%:R in aset (aset a i j v) j i v) a (iota 0 i.+1))
    (fun _ _ => 0) (iota 0 n).
(* matexp_poly.py:238-242 the body of the loop over j *)
Definition ss_col (k j : nat) (a : arr K) : arr K :=
  foldl (fun a i =>
      let a := aset a i j ((z i * a i j + a i.-1 j) / (k + i - j + l)%:R) in
      aset a j i (a i j + a j i))
    (aset a j j (z j * (a j j / (k + l)%:R))) (iota j.+1 (n - j.+1)).
(* matexp_poly.py:236-237: for k in range(1, 20), for j in range(n-1) *)
Definition ss_loop : arr K :=
  foldl (fun a k => foldl (fun a j => ss_col k j a) a (iota 0 n.-1)) ss_init (iota 1 19).
(* matexp_poly.py:243-246 the diagonal, triu *)
Definition ss_table : 'M[K]_n :=
  \matrix_(i, j) if (i <= j)%N then (if i == j then ex (z i) else ss_loop i j) else 0.
End Taylor.
(* matexp_poly.py:250-254 one squaring: R F F R^-1 with R = diag(2^i), z doubled, the diagonal *)
Definition ss_square (n : nat) (st : 'M[K]_n * (nat -> K)) : 'M[K]_n * (nat -> K) :=
  let: (F, z) := st in
  let Rm := diag_mx (\row_(i < n) (2%:R ^+ i)) in
  let F := Rm *m (F *m F) *m invmx Rm in
  let z := fun i => 2%:R * z i in
  (\matrix_(i, j) (if i == j then ex (z i) else F i j), z).
(* matexp_poly.py:222-227: s, nu and the scaled points; the argument h_in is not used *)
Definition ss_s (lg : K -> nat) (scale : K) : nat := maxn (lg scale) 1.
Definition ss_nu (leja_x : seq K) (shift scale : K) : K :=
  (\sum_(x <- leja_x) (shift + scale * x)) / (size leja_x)%:R.
Definition ss_z (lg : K -> nat) (leja_x : seq K) (shift scale : K) (i : nat) : K :=
  1 / 2%:R ^+ ss_s lg scale * (shift + scale * nth 0 leja_x i - ss_nu leja_x shift scale).
(* matexp_poly.py:248-257 the squaring loop and the shift back, from a given table *)
Definition ss_finish lg (leja_x : seq K) (shift scale : K) (F : 'M[K]_(size leja_x)) : 'M[K]_(size leja_x) :=
  ex (ss_nu leja_x shift scale) *: (iter (ss_s lg scale) (@ss_square _) (F, ss_z lg leja_x shift scale)).1.
(* matexp_poly.py:215-259 leja_coeffs_ts_ss: the first row *)
Definition leja_coeffs_ts_ss lg (leja_x : seq K) (shift scale h_in : K) (l : nat) (i0 : 'I_(size leja_x)) : 'rV[K]_(size leja_x) :=
  row i0 (ss_finish lg shift scale (ss_table (size leja_x) (ss_z lg leja_x shift scale) l)).
End SS.
