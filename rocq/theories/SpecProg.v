(* SpecProg.v : vocabulary for the properties of the utility and example modules. *)
From Coq Require Import Reals.
From mathcomp Require Import all_ssreflect all_algebra.
From Verif Require Import Rstruct ModelHist ModelOps ModelInt ModelProg.
Set Implicit Arguments.
Unset Strict Implicit.
Unset Printing Implicit Defensive.
Import Order.TTheory GRing.Theory Num.Theory.
Local Open Scope ring_scope.

Section DecayLib.
Variable F : rcfType.
Variable S : eqType.
Variable none : S.
(* the decay branches (child, rate) the library lists for a species *)
Definition branches (lib : decay_lib F S) (k : S) : seq (S * F) :=
  match lib_get lib k with
  | Some (Single c lam) => [:: (c, lam)]
  | Some (Branches bs) => bs
  | None => [::]
  end.
(* total rate at which species k turns into the tracked species k', into untracked ones, and
   in total *)
Definition rate_into (lib : decay_lib F S) (k k' : S) : F :=
  \sum_(b <- branches lib k | (b.1 == k') && (b.1 != none)) b.2.
Definition rate_untracked (lib : decay_lib F S) (k : S) : F :=
  \sum_(b <- branches lib k | b.1 == none) b.2.
Definition rate_total (lib : decay_lib F S) (k : S) : F := \sum_(b <- branches lib k) b.2.
(* every species is in the library with at least one branch, every daughter is tracked or 'none' *)
Definition closed_lib (keymap : seq S) (lib : decay_lib F S) : Prop :=
  forall k, k \in keymap -> branches lib k != [::] /\
    forall b, b \in branches lib k -> b.1 = none \/ b.1 \in keymap.
Definition nonneg_rates (lib : decay_lib F S) : Prop :=
  forall k b, b \in branches lib k -> 0 <= b.2.
End DecayLib.

(* y is differentiable at t with derivative d, componentwise *)
Definition vderiv n (y : R -> 'cV[R]_n) (t : R) (d : 'cV[R]_n) : Prop :=
  forall i, derivable_pt_lim (fun s => y s i ord0) t (d i ord0).

(* T is the matrix of a decay chain 0 -> 1 -> ... -> ns-1 with the rates lam *)
Definition chain_matrix ns (T : 'M[R]_ns) (lam : nat -> R) : Prop :=
  forall i j : 'I_ns, T i j =
    (if i == j then - lam j else if (i == j.+1 :> nat) then lam j else 0).
