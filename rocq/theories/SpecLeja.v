(* SpecLeja.v : independent vocabulary for the Leja statements. *)
From mathcomp Require Import all_ssreflect all_algebra.
From mathcomp Require Import complex.
Set Implicit Arguments.
Unset Strict Implicit.
Unset Printing Implicit Defensive.
Import Order.TTheory GRing.Theory Num.Theory.
Local Open Scope ring_scope.

Section Newton.
Variable K : fieldType.
(* (X - x_0)(X - x_1)...(X - x_{j-1}) *)
Definition newton_basis (x : seq K) (j : nat) : {poly K} := \prod_(i < j) ('X - (x`_i)%:P).
(* the polynomial c_0 + c_1 (X - x_0) + c_2 (X - x_0)(X - x_1) + ... with m terms *)
Definition newton_poly (x c : seq K) (m : nat) : {poly K} := \sum_(j < m) c`_j *: newton_basis x j.
(* p takes the value y_i at x_i, for every i < m *)
Definition interpolates (p : {poly K}) (x y : seq K) (m : nat) : Prop :=
  forall i, (i < m)%N -> p.[x`_i] = y`_i.
(* the same in the variable shift + scale * X *)
Definition newton_basis_sc (shift scale : K) (x : seq K) (j : nat) : {poly K} :=
  \prod_(i < j) (scale^-1 *: ('X - (shift + scale * x`_i)%:P)).
Definition newton_poly_sc (shift scale : K) (x c : seq K) (m : nat) : {poly K} :=
  \sum_(j < m) c`_j *: newton_basis_sc shift scale x j.
End Newton.

(* p(B) u for a map B of a vector space: p_0 u + p_1 B u + p_2 B (B u) + ... *)
Definition papply (F : ringType) (V : lmodType F) (B : V -> V) (p : {poly F}) (u : V) : V :=
  \sum_(i < size p) p`_i *: iter i B u.

(* the running error estimate of the Newton iteration: e_0 = 2 |u|, e_j the geometric mean of
   e_{j-1} and of the length a_j of the j-th term *)
Fixpoint running_err (F : rcfType) (e0 : F) (a : nat -> F) (j : nat) : F :=
  if j is j'.+1 then Num.sqrt (a j * running_err e0 a j') else e0.

(* the node structure documented for complex_conj_leja_expmv: nr real nodes, then conjugate pairs *)
Definition conj_nodes (F : rcfType) (x : seq F[i]) (nr : nat) : Prop :=
  (forall j, (j < nr)%N -> complex.Im x`_j = 0) /\
  (forall k, ((nr + k.*2).+1 < size x)%N -> x`_(nr + k.*2).+1 = conjc x`_(nr + k.*2)).
(* inside the ellipse with centre (a+b)/2 and half axes (b-a)/2 and c, and inside its box
   [a,b] x [-c,c] (the box condition matters when an axis vanishes) *)
Definition in_ellipse (F : rcfType) (a b c : F) (z : F[i]) : Prop :=
  [/\ (a <= complex.Re z <= b), (- c <= complex.Im z <= c) &
      (c * (complex.Re z - (a + b) / 2%:R)) ^+ 2 + ((b - a) / 2%:R * complex.Im z) ^+ 2
        <= ((b - a) / 2%:R * c) ^+ 2].
(* coefficientwise real part of a complex polynomial *)
Definition re_poly (F : rcfType) (p : {poly F[i]}) : {poly F} := map_poly (@complex.Re F) p.
(* a real polynomial read as a complex one *)
Definition to_cpoly (F : rcfType) (p : {poly F}) : {poly F[i]} := map_poly (real_complex F) p.

(* sub-stepping: a list of attempts (size, converged), performed in order; a failed attempt
   leaves the vector unchanged.  [None] when a flag does not match what the inner routine says. *)
Section Attempts.
Variables (F : rcfType) (V : Type) (expmv : F -> V -> V * nat * bool).
Fixpoint replay (w : V) (att : seq (F * bool)) : option (V * nat) :=
  if att is (tau, c) :: rest then
    let: (w', it, c') := expmv tau w in
    if c' == c then
      (if replay (if c then w' else w) rest is Some (wf, k) then Some (wf, it + k)%N else None)
    else None
  else Some (w, 0%N).
Definition accepted (att : seq (F * bool)) : seq F := [seq a.1 | a <- att & a.2].
End Attempts.
