(* ModelElem.v : element_line_pp_nodal.py:35-74 ElementLinePp_nodal with scipy's BarycentricInterpolator.  Exact arithmetic. *)
From mathcomp Require Import all_ssreflect all_algebra.
From Verif Require Import ModelHist ModelOps ModelInt ModelProg.
Set Implicit Arguments.
Unset Strict Implicit.
Unset Printing Implicit Defensive.
Import Order.TTheory GRing.Theory Num.Theory.
Local Open Scope ring_scope.
Section Elem.
Variable F : rcfType.
(* scipy.interpolate.BarycentricInterpolator(xi, yi): weights 1/prod (cap (x_j - x_k)), cap a scaling of the capacity of the interval;
   at a node the datum itself, elsewhere the second barycentric formula *)
Definition bary_w (cap : F) (xs : seq F) (j : nat) : F :=
  (\prod_(k < size xs | k != j :> nat) (cap * (nth 0 xs j - nth 0 xs k)))^-1.
Definition bary (cap : F) (xs : seq F) (f : nat -> F) (y : F) : F :=
  if y \in xs then f (index y xs)
  else (\sum_(j < size xs) bary_w cap xs j / (y - nth 0 xs j) * f j) / (\sum_(j < size xs) bary_w cap xs j / (y - nth 0 xs j)).
(* its derivative(): the interpolant of the values (c yi) with the differentiation matrix c *)
Definition bary_cij (cap : F) (xs : seq F) (i j : nat) : F :=
  let off i j := bary_w cap xs j / ((nth 0 xs i - nth 0 xs j) * bary_w cap xs i) in
  if i == j then - \sum_(k < size xs | k != i :> nat) off i k else off i j.
Definition bary_diff (cap : F) (xs : seq F) (f : nat -> F) (y : F) : F :=
  bary cap xs (fun i => \sum_(j < size xs) bary_cij cap xs i j * f j) y.
(* lines 38-60: the element: degree, nodes, number of columns of the cached arrays and their rows (zeros((0,0)) at first) *)
Record elt := Elt { el_p : nat; el_x : seq F; el_cols : nat; el_P : seq (seq F); el_dP : seq (seq F) }.
(* a degree is a natural number here; p < 1 is p = 0 (negative degrees raise alike) *)
Definition elt_new (p : nat) : result elt :=
  if (p < 1)%N then Raise ValueErrorExn else q <- GLL_quad F p.+1;; Ok (Elt p q.1 0 [::] [::]).
(* the datum of basis function i: row i of np.eye(p + 1) *)
Definition unit_data (i : nat) : nat -> F := fun j => (j == i)%:R.
(* lines 62-70 _reval_legendre *)
Definition reval (cap : F) (e : elt) (X : seq F) : seq (seq F) * seq (seq F) :=
  ([seq [seq bary cap (el_x e) (unit_data i) y | y <- X] | i <- iota 0 (el_p e).+1],
   [seq [seq bary_diff cap (el_x e) (unit_data i) y | y <- X] | i <- iota 0 (el_p e).+1]).
(* lines 72-77 lbasis: the answer and the element afterwards; X is the list of the points X[0, :] *)
Definition lbasis (cap : F) (e : elt) (X : seq F) (i : nat) : result (seq F * seq F) * elt :=
  let e' := if el_cols e != size X then Elt (el_p e) (el_x e) (size X) (reval cap e X).1 (reval cap e X).2 else e in
  (if (i < size (el_P e'))%N && (i < size (el_dP e'))%N then Ok (nth [::] (el_P e') i, nth [::] (el_dP e') i) else Raise IndexErrorExn, e').
(* a sequence of calls *)
Definition lbasis_calls (cap : F) (e : elt) (cs : seq (seq F * nat)) : elt := foldl (fun e c => (lbasis cap e c.1 c.2).2) e cs.
End Elem.
