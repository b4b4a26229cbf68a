(* ModelArnMat.v : the matrix-only Arnoldi process of src/mat_utils.rs, in exact arithmetic. *)
From mathcomp Require Import all_ssreflect all_algebra.
From Verif Require Import ModelHist MxBase ModelOps ModelPhi ModelKrylov ModelInt ModelRust ModelMatUtils.
Set Implicit Arguments.
Unset Strict Implicit.
Unset Printing Implicit Defensive.
Import Order.TTheory GRing.Theory Num.Theory.
Local Open Scope ring_scope.

Section ArnMat.
Variable F : rcfType.
Variable n : nat.
Notation vec := 'cV[F]_n.
(* mat_utils.rs:293-323 arnoldi_inner: no breakdown test, a zero norm makes the values non-finite *)
Definition arn_inner (a : 'M[F]_n) (q : seq vec) (k N : nat) : result (seq F * vec) :=
  let: (h, qv) := mgs (take k.+1 q) (a *m nth 0 q k) in
  if (k.+1 < N)%N then
    let norm_v := norm2 qv in
    if norm_v == 0 then Raise ZeroDivisionExn else Ok (rcons h norm_v, (1 / norm_v) *: qv)
  else Ok (h, qv).
(* mat_utils.rs:260-266 the loop *)
Fixpoint arn_loop (a : 'M[F]_n) N (todo k : nat) (vs : seq vec) (hs : seq (seq F)) : result (seq vec * seq (seq F)) :=
  if todo is todo'.+1 then
    rbind (arn_inner a vs k N) (fun hq =>
      arn_loop a N todo' k.+1 (if (k.+1 < N)%N then rcons vs hq.2 else vs) (rcons hs hq.1))
  else Ok (vs, hs).
(* mat_utils.rs:251-291 arnoldi: basis vectors and columns of H; H has as many rows as its last column *)
Definition arnoldi_mat (a : 'M[F]_n) (b : vec) (N : nat) : result (seq vec * seq (seq F)) :=
  if norm2 b == 0 then Raise ZeroDivisionExn else
  rbind (arn_loop a N N 0 [:: (1 / norm2 b) *: b] [::]) (fun r =>
  let: (vs, hs) := r in
  if has (fun h => (size (last [::] hs) < size h)%N) hs then Raise RustPanic else Ok (vs, hs)).
End ArnMat.
