(* ModelDispatch.v : which code runs for which method name, from the user's call of
   integrate() down to the step routine.  Strings are Coq strings. *)
From Coq Require Import String List.
From Verif Require Import ModelHist.
Import ListNotations.
Local Open Scope string_scope.

(* python "in" on a list of strings *)
Definition mem (s : string) (l : list string) : bool := existsb (String.eqb s) l.
(* python dict lookup *)
Fixpoint lookup {A} (s : string) (l : list (string * A)) : option A :=
  match l with
  | [] => None
  | (k, v) :: rest => if String.eqb s k then Some v else lookup s rest
  end.
Definition keys {A} (l : list (string * A)) : list string := map fst l.

(* ode_exp.py:39-41 ExpRBIntegrator._valid_methods *)
Definition rb_methods : list (string * nat) :=
  [("exprb2", 2); ("exprb3", 3); ("pexprb4", 4); ("epi2", 2); ("epi3", 3);
   ("exprb2_dense", 2); ("exprb2_pfd", 2); ("exp_pfd", 1);
   ("exprb2_pfd_rs", 2); ("exp_pfd_rs", 1)].
(* ode_exp.py:437 ExpLejaIntegrator._valid_methods *)
Definition leja_methods : list (string * nat) :=
  [("epi2_leja_re", 2); ("epi2_leja_im", 2); ("epi3_leja_im", 3)].
(* ode_exp.py:629-630 ExpSplitIntegrator._valid_methods *)
Definition split_methods : list (string * nat) :=
  [("exp1", 1); ("exp2", 2); ("exp3", 3);
   ("exp1_dense", 1); ("exp2_dense", 2); ("exp3_dense", 3)].
(* ode_explicit.py:24 RKIntegrator._valid_methods *)
Definition rk_methods : list (string * nat) := [("rk4", 4)].
(* integrate_wrapper.py:63-64 is_rs *)
Definition rs_methods : list string :=
  ["exprb2_rs"; "exprb3_rs"; "epi2_rs"; "epi3_rs"; "bdf2_rs"; "bdf1_rs"; "backeuler_rs"; "cn_rs"].
(* integrate_wrapper.py:118-129 keys of method_dict *)
Definition diffrax_methods : list string :=
  ["euler"; "heun"; "midpoint"; "bosh3"; "dopri5";
   "implicit_euler"; "implicit_esdirk3"; "implicit_esdirk4"].

Inductive backend : Type :=
| BRB | BLeja | BSplit | BRK | BRust (solver : string) | BDiffrax.

(* "pfd_rs" in method (ode_exp.py:50): substring test *)
Definition contains (needle hay : string) : bool :=
  match index 0 needle hay with Some _ => true | None => false end.

(* method[0:-3] : drop the last three characters (integrate_wrapper.py:92) *)
Definition drop3 (s : string) : string := substring 0 (String.length s - 3) s.

(* ode_exp.py:43-58 ExpRBIntegrator.__init__ : validity test, then the rust
   requirement, then the order handed to the base class. *)
Definition rb_ctor (has_rust : bool) (m : string) : result nat :=
  if negb (mem m (keys rb_methods)) then Raise AttributeError
  else if andb (contains "pfd_rs" m) (negb has_rust) then Raise AttributeError
  else match lookup m rb_methods with Some o => Ok o | None => Raise KeyErrorExn end.

(* ode_exp.py:439-444 ExpLejaIntegrator.__init__ (validity and order) *)
Definition leja_ctor (m : string) : result nat :=
  if negb (mem m (keys leja_methods)) then Raise AttributeError
  else match lookup m leja_methods with Some o => Ok o | None => Raise KeyErrorExn end.
(* ode_exp.py:439 default value of the method argument *)
Definition leja_default_method : string := "epi2_leja".
(* ode_exp.py:43, 632, ode_explicit.py:26 defaults of the other classes *)
Definition rb_default_method : string := "epi2".
Definition split_default_method : string := "exp3".
Definition rk_default_method : string := "rk4".

(* ode_exp.py:632-637 ExpSplitIntegrator.__init__ *)
Definition split_ctor (m : string) : result nat :=
  if negb (mem m (keys split_methods)) then Raise AttributeError
  else match lookup m split_methods with Some o => Ok o | None => Raise KeyErrorExn end.

(* ode_explicit.py:26-31 RKIntegrator.__init__ *)
Definition rk_ctor (m : string) : result nat :=
  if negb (mem m (keys rk_methods)) then Raise AttributeError
  else match lookup m rk_methods with Some o => Ok o | None => Raise KeyErrorExn end.

(* integrate_wrapper.py:58-106 integrate(): choice of backend, including the
   constructor's verdict and the ImportError of missing rust bindings.
   [has_diffrax]: import diffrax/optimistix/lineax succeeds (ModuleNotFoundError is an
   ImportError and is not caught by the "except AttributeError").  isinstance on
   PySysWrapped and the numerical work are not modelled here. *)
Definition integrate_backend (has_rust has_diffrax : bool) (m : string) : result (backend * option nat) :=
  if mem m (keys rb_methods) then rbind (rb_ctor has_rust m) (fun o => Ok (BRB, Some o))
  else if mem m (keys leja_methods) then rbind (leja_ctor m) (fun o => Ok (BLeja, Some o))
  else if mem m (keys split_methods) then rbind (split_ctor m) (fun o => Ok (BSplit, Some o))
  else if mem m (keys rk_methods) then rbind (rk_ctor m) (fun o => Ok (BRK, Some o))
  else if mem m rs_methods then
    (if has_rust then Ok (BRust (drop3 m), None) else Raise ImportErrorExn)
  else if negb has_diffrax then Raise ImportErrorExn
  else if mem m diffrax_methods then Ok (BDiffrax, None)
  else Raise AttributeError.

(* the step routines *)
Inductive routine : Type :=
| R_exprb2 | R_exprb3 | R_pexprb4 | R_epi2 | R_epi3 | R_exprb2_dense | R_exprb2_pfd
| R_exp_pfd | R_exprb2_pfd_rs | R_exp_pfd_rs
| R_epi_re | R_epi_im (order : nat)
| R_exp1 | R_exp2 | R_exp3 | R_exp1_dense | R_exp2_dense | R_exp3_dense
| R_rk4.

(* ode_exp.py:402-427 ExpRBIntegrator.step; [prev]: len(self.y_hist) >= 2 *)
Definition rb_step_routine (has_rust prev : bool) (m : string) : result routine :=
  if String.eqb m "exprb2" then Ok R_exprb2
  else if String.eqb m "exprb3" then Ok R_exprb3
  else if String.eqb m "pexprb4" then Ok R_pexprb4
  else if String.eqb m "epi2" then Ok R_epi2
  else if String.eqb m "epi3" then (if prev then Ok R_epi3 else Ok R_exprb3)
  else if String.eqb m "exprb2_dense" then Ok R_exprb2_dense
  else if String.eqb m "exprb2_pfd" then Ok R_exprb2_pfd
  else if String.eqb m "exp_pfd" then Ok R_exp_pfd
  else if andb (String.eqb m "exprb2_pfd_rs") has_rust then Ok R_exprb2_pfd_rs
  else if andb (String.eqb m "exp_pfd_rs") has_rust then Ok R_exp_pfd_rs
  else Raise NotImplementedError.

(* ode_exp.py:608-619 ExpLejaIntegrator.step *)
Definition leja_step_routine (prev : bool) (m : string) : result routine :=
  if String.eqb m "epi2_leja_re" then Ok R_epi_re
  else if String.eqb m "epi2_leja_im" then Ok (R_epi_im 2)
  else if String.eqb m "epi3_leja_im" then
    (if prev then Ok (R_epi_im 3) else Ok (R_epi_im 2))
  else Raise NotImplementedError.

(* ode_exp.py:871-885 ExpSplitIntegrator.step *)
Definition split_step_routine (m : string) : result routine :=
  if String.eqb m "exp1" then Ok R_exp1
  else if String.eqb m "exp2" then Ok R_exp2
  else if String.eqb m "exp3" then Ok R_exp3
  else if String.eqb m "exp1_dense" then Ok R_exp1_dense
  else if String.eqb m "exp2_dense" then Ok R_exp2_dense
  else if String.eqb m "exp3_dense" then Ok R_exp3_dense
  else Raise NotImplementedError.

(* ode_explicit.py:60-64 RKIntegrator.step(self, dt): the signature has no
   frhs_kwargs parameter, so the call step(dt, frhs_kwargs=...) made by the driver
   when callback_before_step is callable (integrate_wrapper.py:180) is a TypeError. *)
Definition rk_step_routine (kw_passed : bool) (m : string) : result routine :=
  if kw_passed then Raise TypeErrorExn
  else if String.eqb m "rk4" then Ok R_rk4
  else Raise NotImplementedError.

Definition step_routine (has_rust prev kw_passed : bool) (b : backend) (m : string) : result routine :=
  match b with
  | BRB => rb_step_routine has_rust prev m
  | BLeja => leja_step_routine prev m
  | BSplit => split_step_routine m
  | BRK => rk_step_routine kw_passed m
  | _ => Raise NotImplementedError
  end.

(* src/ormatex_rspy.rs:208-239 select_solver and src/ode_epirk.rs:65-86 EpirkIntegrator::new:
   the Rust solver family (BDF order 1, 2 or 3 = Crank-Nicolson; EPIRK order),
   panic for an unknown EPIRK method. *)
Inductive rust_solver : Type := RustBdf (order : nat) | RustEpirk (order : nat).
Definition rust_select (m : string) : result rust_solver :=
  if orb (String.eqb m "bdf1") (String.eqb m "backeuler") then Ok (RustBdf 1)
  else if String.eqb m "bdf2" then Ok (RustBdf 2)
  else if String.eqb m "cn" then Ok (RustBdf 3)
  else if orb (String.eqb m "epi2") (String.eqb m "exprb2") then Ok (RustEpirk 2)
  else if orb (String.eqb m "epi3") (String.eqb m "exprb3") then Ok (RustEpirk 3)
  else Raise RustPanic.

(* README.md:163-180 the method names the documentation says integrate() accepts *)
Definition readme_methods : list string :=
  ["exprb2"; "exprb3"; "pexprb4"; "epi3"; "rk4"; "implicit_euler"; "implicit_esdirk3"; "dopri5";
   "exprb2_rs"; "exprb3_rs"; "epi3_rs"; "bdf1_rs"; "bdf2_rs"; "cn_rs"; "rk1_rs"; "rk4_rs"].
