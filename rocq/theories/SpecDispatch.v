(* SpecDispatch.v : what each method name is documented to run (README.md:163-180, the
   docstrings of the classes): name, backend, history length, routine on the first step of a
   run, routine on later steps.  Written from the documentation, not from the model. *)
From Coq Require Import String List.
From Verif Require Import ModelHist ModelDispatch.
Import ListNotations.
Local Open Scope string_scope.

Definition documented : list (string * (backend * nat * routine * routine)) :=
  [ ("exprb2", (BRB, 2, R_exprb2, R_exprb2));
    ("exprb3", (BRB, 3, R_exprb3, R_exprb3));
    ("pexprb4", (BRB, 4, R_pexprb4, R_pexprb4));
    ("epi2", (BRB, 2, R_epi2, R_epi2));
    ("epi3", (BRB, 3, R_exprb3, R_epi3));
    ("exprb2_dense", (BRB, 2, R_exprb2_dense, R_exprb2_dense));
    ("exprb2_pfd", (BRB, 2, R_exprb2_pfd, R_exprb2_pfd));
    ("exp_pfd", (BRB, 1, R_exp_pfd, R_exp_pfd));
    ("exprb2_pfd_rs", (BRB, 2, R_exprb2_pfd_rs, R_exprb2_pfd_rs));
    ("exp_pfd_rs", (BRB, 1, R_exp_pfd_rs, R_exp_pfd_rs));
    ("epi2_leja_re", (BLeja, 2, R_epi_re, R_epi_re));
    ("epi2_leja_im", (BLeja, 2, R_epi_im 2, R_epi_im 2));
    ("epi3_leja_im", (BLeja, 3, R_epi_im 2, R_epi_im 3));
    ("exp1", (BSplit, 1, R_exp1, R_exp1));
    ("exp2", (BSplit, 2, R_exp2, R_exp2));
    ("exp3", (BSplit, 3, R_exp3, R_exp3));
    ("exp1_dense", (BSplit, 1, R_exp1_dense, R_exp1_dense));
    ("exp2_dense", (BSplit, 2, R_exp2_dense, R_exp2_dense));
    ("exp3_dense", (BSplit, 3, R_exp3_dense, R_exp3_dense));
    ("rk4", (BRK, 4, R_rk4, R_rk4)) ].
Definition documented_rust : list (string * rust_solver) :=
  [ ("exprb2_rs", RustEpirk 2); ("epi2_rs", RustEpirk 2);
    ("exprb3_rs", RustEpirk 3); ("epi3_rs", RustEpirk 3);
    ("bdf1_rs", RustBdf 1); ("backeuler_rs", RustBdf 1);
    ("bdf2_rs", RustBdf 2); ("cn_rs", RustBdf 3) ].
Definition documented_diffrax : list string :=
  ["euler"; "heun"; "midpoint"; "bosh3"; "dopri5";
   "implicit_euler"; "implicit_esdirk3"; "implicit_esdirk4"].
(* names that need the Rust extension although they run in the Python driver *)
Definition needs_rust : list string := ["exprb2_pfd_rs"; "exp_pfd_rs"].

(* the method names the Rust binding understands, with the solver each one selects *)
Definition rust_names : list (string * rust_solver) :=
  [("bdf1", RustBdf 1); ("backeuler", RustBdf 1); ("bdf2", RustBdf 2); ("cn", RustBdf 3);
   ("epi2", RustEpirk 2); ("exprb2", RustEpirk 2); ("epi3", RustEpirk 3); ("exprb3", RustEpirk 3)].
