(* ModelPade.v : the dense matrix exponential of the Rust crate (src/matexp_pade.rs) and the phi
   functions built on it, in exact real arithmetic. *)
From Coq Require Import Reals.
From mathcomp Require Import all_ssreflect all_algebra.
From Verif Require Import Rstruct MxBase MxSeries ModelPhi.
Set Implicit Arguments.
Unset Strict Implicit.
Unset Printing Implicit Defensive.
Import Order.TTheory GRing.Theory Num.Theory.
Local Open Scope ring_scope.

(* matexp_pade.rs:132 a.norm_l1(): faer's l1 norm is the sum of the absolute values of all entries *)
Definition norm_l1 n (A : 'M[R]_n) : R := \sum_i \sum_j `|A i j|.

Section Pade.
Variable n : nat.
Notation mat := 'M[R]_n.
Notation one := (1%:M : mat).

(* matexp_pade.rs:185-193 pade3: (u, v) *)
Definition pade3 (a a2 : mat) : mat * mat :=
  let temp := 1%:R *: a2 + IZR 60 *: one in
  (a *m temp, IZR 12 *: a2 + IZR 120 *: one).
(* matexp_pade.rs:194-202 pade5 *)
Definition pade5 (a a2 a4 : mat) : mat * mat :=
  let temp := 1%:R *: a4 + IZR 420 *: a2 + IZR 15120 *: one in
  (a *m temp, IZR 30 *: a4 + IZR 3360 *: a2 + IZR 30240 *: one).
(* matexp_pade.rs:203-213 pade7 *)
Definition pade7 (a a2 a4 a6 : mat) : mat * mat :=
  let temp := 1%:R *: a6 + IZR 1512 *: a4 + IZR 277200 *: a2 + IZR 8648640 *: one in
  (a *m temp, IZR 56 *: a6 + IZR 25200 *: a4 + IZR 1995840 *: a2 + IZR 17297280 *: one).
(* matexp_pade.rs:214-226 pade9 *)
Definition pade9 (a a2 a4 a6 a8 : mat) : mat * mat :=
  let temp := 1%:R *: a8 + IZR 3960 *: a6 + IZR 2162160 *: a4 + IZR 302702400 *: a2 + IZR 8821612800 *: one in
  (a *m temp,
   IZR 90 *: a8 + IZR 110880 *: a6 + IZR 30270240 *: a4 + IZR 2075673600 *: a2 + IZR 17643225600 *: one).
(* matexp_pade.rs:227-247 pade13 *)
Definition pade13 (a a2 a4 a6 : mat) : mat * mat :=
  let v1 := 1%:R *: a6 + IZR 16380 *: a4 + IZR 40840800 *: a2 in
  let temp := a6 *m v1 + IZR 33522128640 *: a6 + IZR 10559470521600 *: a4 + IZR 1187353796428800 *: a2
    + IZR 32382376266240000 *: one in
  let temp2 := IZR 182 *: a6 + IZR 960960 *: a4 + IZR 1323241920 *: a2 in
  (a *m temp,
   a6 *m temp2 + IZR 670442572800 *: a6 + IZR 129060195264000 *: a4 + IZR 7771770303897600 *: a2
    + IZR 64764752532480000 *: one).

(* the thresholds of matexp_pade.rs:136-163, exact decimal values *)
Definition th3 : R := (IZR 1495585217958292 / IZR 100000000000000000)%R.
Definition th5 : R := (IZR 2539398330063230 / IZR 10000000000000000)%R.
Definition th7 : R := (IZR 9504178996162932 / IZR 10000000000000000)%R.
Definition th9 : R := (IZR 2097847961257068 / IZR 1000000000000000)%R.
Definition th13 : R := (IZR 5371920351148152 / IZR 1000000000000000)%R.

(* libm::frexp(x).1 for x > 0: the e with 2^(e-1) <= x < 2^e *)
Definition frexp_e (x : R) : Z := Z.add (Int_part (Rdiv (ln x) (ln (IZR 2)))) 1.
(* matexp_pade.rs:163-168 alpha, 0 if negative *)
Definition pade_alpha (x : R) : nat := Z.to_nat (frexp_e (x / th13)%R).

(* matexp_pade.rs:130-177 matexp_pade: (u, v, alpha) *)
Definition matexp_pade (a : mat) : mat * mat * nat :=
  let n1 := norm_l1 a in
  let a2 := a *m a in
  if n1 < th3 then (pade3 a a2, 0%N)
  else if n1 < th5 then (pade5 a a2 (a2 *m a2), 0%N)
  else if n1 < th7 then
    let a4 := a2 *m a2 in let a6 := a4 *m a2 in (pade7 a a2 a4 a6, 0%N)
  else if n1 < th9 then
    let a4 := a2 *m a2 in let a6 := a4 *m a2 in let a8 := a6 *m a2 in (pade9 a a2 a4 a6 a8, 0%N)
  else
    let alpha := pade_alpha n1 in
    let a_s := (1 / 2%:R ^+ alpha) *: a in
    let a2_s := a_s *m a_s in let a4_s := a2_s *m a2_s in let a6_s := a4_s *m a2_s in
    (pade13 a_s a2_s a4_s a6_s, alpha).

(* matexp_pade.rs:59-61 the squaring loop *)
Fixpoint squarings (alpha : nat) (r : mat) : mat :=
  if alpha is alpha'.+1 then squarings alpha' (r *m r) else r.

(* matexp_pade.rs:47-63 matexp.  The QR solve is the exact solution; the denominator is proved
   regular (ProofsPade.v) *)
Definition matexp (a : mat) (dt : R) : mat :=
  let: (u, v, alpha) := matexp_pade (dt *: a) in
  squarings alpha (invmx (v - u) *m (u + v)).

(* matexp_pade.rs:65-94 phi: recurrence with the inverse of z (QR; meaningful for regular z).
   1/(i-1)! : the product of the empty range is 1 *)
Fixpoint rs_phi_rec (z_inv : mat) (fuel i : nat) (p : mat) : mat :=
  if fuel is fuel'.+1 then rs_phi_rec z_inv fuel' i.+1 (z_inv *m (p - (1 / (i.-1)`!%:R) *: one)) else p.
Definition rs_phi (z : mat) (k : nat) : mat := rs_phi_rec (invmx z) k 1 (matexp z 1).
End Pade.

(* matexp_pade.rs:96-124 phi_ext: the extended matrix is the one of the Python f_phi_k_ext
   (ModelPhi.z_ext), the returned block the rows 0..n and the last n columns *)
Definition rs_phi_ext n (z : 'M[R]_n) (k : nat) : 'M[R]_n :=
  f_phi_k_ext (fun m (A : 'M[R]_m) => matexp A 1) z k.
(* matexp_pade.rs:41-45 PadeExpm::phik_apply *)
Definition pade_phik_apply n (a : 'M[R]_n) (dt : R) (v0 : 'cV[R]_n) (k : nat) : 'cV[R]_n :=
  rs_phi_ext (dt *: a) k *m v0.
