(* SpecLejaOps.v : call histories of a Leja integrator object. *)
From mathcomp Require Import all_ssreflect all_algebra.
From mathcomp Require Import complex.
From Verif Require Import ModelHist ModelOps ModelKrylov ModelDispatch ModelInt ModelLeja.
Set Implicit Arguments.
Unset Strict Implicit.
Unset Printing Implicit Defensive.
Local Open Scope ring_scope.

Section Ops.
Variables (F : rcfType) (D : ldd F) (KW : Type) (n : nat) (o : lopts F n) (kw0 : KW).
Variable sys : odesys F KW n.
Notation vec := 'cV[F]_n.
(* what a caller can do with the object; a step that raised may have replaced _leja_bk *)
Inductive lj_op :=
| LStep (dt : F) (kw : option KW) (bk_on_raise : option 'cV[F]_(n + 2))
| LAccept (s : step_result F vec)
| LReset (t0 : F) (y0 : vec).
Definition lj_do (ob : ljobj F n) (op : lj_op) : ljobj F n :=
  match op with
  | LStep dt kw bk =>
      match lj_step D o kw0 sys ob dt kw with
      | Ok (ob', _) => ob'
      | Raise _ => LjObj (lj_hist ob) (lj_size ob) bk (lj_istep ob)
      end
  | LAccept s => lj_accept ob s
  | LReset t0 y0 => lj_reset ob t0 y0
  end.
End Ops.
