(* SpecRust.v : vocabulary for the statements about the Rust crate. *)
From Coq Require Import String.
From mathcomp Require Import all_ssreflect all_algebra.
From Verif Require Import ModelHist MxBase ModelOps ModelKrylov ModelInt ModelRust.
Set Implicit Arguments.
Unset Strict Implicit.
Unset Printing Implicit Defensive.
Import Order.TTheory GRing.Theory Num.Theory.
Local Open Scope ring_scope.

Section Spec.
Variable F : rcfType.
Variable n : nat.
Notation vec := 'cV[F]_n.

(* a linear solver that returns only exact solutions / that returns whenever there is one *)
Definition exact_solver (gmres : (vec -> vec) -> vec -> vec -> nat -> F -> option vec) : Prop :=
  forall A b a0 it tol x, gmres A b a0 it tol = Some x -> A x = b.
Definition complete_solver (gmres : (vec -> vec) -> vec -> vec -> nat -> F -> option vec) : Prop :=
  forall A b a0 it tol, (exists x, A x = b) -> gmres A b a0 it tol <> None.

(* the Newton iterates x_0, x_1, ... and the corrections: each is the previous one minus the
   solution the solver returns for J(x_k) a = G(x_k) *)
Fixpoint newton_iter (gmres : (vec -> vec) -> vec -> vec -> nat -> F -> option vec)
    (G : vec -> vec) (J : vec -> vec -> vec) (il : nat) (tl : F) (x0 : vec) (k : nat) : option (vec * vec) :=
  if k is j.+1 then
    if newton_iter gmres G J il tl x0 j is Some (x, a) then
      if gmres (J x) (G x) a il tl is Some a' then Some (x - a', a') else None
    else None
  else Some (x0, 0).

(* classical explicit Runge-Kutta formulas *)
Section RK.
Variable f : F -> vec -> vec.
Definition euler_step (t : F) (y : vec) (dt : F) : vec := y + dt *: f t y.
Definition midpoint_step (t : F) (y : vec) (dt : F) : vec :=
  y + dt *: f (t + dt / 2%:R) (y + (dt / 2%:R) *: f t y).
Definition kutta3_step (t : F) (y : vec) (dt : F) : vec :=
  let k1 := f t y in
  let k2 := f (t + dt / 2%:R) (y + (dt / 2%:R) *: k1) in
  let k3 := f (t + dt) (y - dt *: k1 + (2%:R * dt) *: k2) in
  y + (dt / 6%:R) *: (k1 + 4%:R *: k2 + k3).
Definition classical_rk4_step (t : F) (y : vec) (dt : F) : vec :=
  let k1 := f t y in
  let k2 := f (t + dt / 2%:R) (y + (dt / 2%:R) *: k1) in
  let k3 := f (t + dt / 2%:R) (y + (dt / 2%:R) *: k2) in
  let k4 := f (t + dt) (y + dt *: k3) in
  y + (dt / 6%:R) *: (k1 + 2%:R *: k2 + 2%:R *: k3 + k4).
End RK.
Definition rk_formula (order : nat) (f : F -> vec -> vec) : F -> vec -> F -> vec :=
  match order with 4%N => classical_rk4_step f | 3%N => kutta3_step f | 2%N => midpoint_step f | _ => euler_step f end.

(* calls that change a solver object: accept_step with any result, reset_ic *)
Inductive sop := SAccept (s : step_result F vec) | SReset (t0 : F) (y0 : vec).
Definition s_do (s : solver F n) (p : sop) : solver F n :=
  match p with SAccept r => s_accept s r | SReset t y => s_reset s t y end.
Definition s_run (s : solver F n) (l : seq sop) : solver F n := foldl s_do s l.
Definition bdf_do (o : bdf F n) (p : sop) : bdf F n :=
  match p with SAccept r => bdf_accept o r | SReset t y => bdf_reset o t y end.
Definition bdf_run (o : bdf F n) (l : seq sop) : bdf F n := foldl bdf_do o l.
(* number of accepted steps since construction or the last reset *)
Fixpoint accepted_since (l : seq sop) (k : nat) : nat :=
  match l with [::] => k | SAccept _ :: r => accepted_since r k.+1 | SReset _ _ :: r => accepted_since r 0 end.

(* the solver after i rounds of step / accept_step *)
Fixpoint s_iter gmres (sys : rsys F n) (dt : F) (s : solver F n) (i : nat) : result (solver F n) :=
  if i is j.+1 then s' <- s_iter gmres sys dt s j;; r <- s_step gmres sys s' dt;; Ok (s_accept s' r)
  else Ok s.
(* the indices 0, o, 2o, ... below N *)
Definition output_indices (o N : nat) : seq nat := [seq i <- iota 0 N | (i %% o == 0)%N].
(* states and times of the solver after i rounds, for the i of a list *)
Inductive out_at gmres (sys : rsys F n) (dt : F) (s : solver F n) : seq nat -> seq vec -> seq F -> Prop :=
| out_nil : out_at gmres sys dt s [::] [::] [::]
| out_cons i l y ys ts s' : s_iter gmres sys dt s i = Ok s' -> s_state s' = Ok y -> out_at gmres sys dt s l ys ts ->
    out_at gmres sys dt s (i :: l) (y :: ys) (s_time s' :: ts).
End Spec.
Arguments SReset {F n}.
Arguments SAccept {F n}.
