(* PropDispatch.v : C07 (and the documentation / default-argument findings). *)
From Coq Require Import String List.
From Verif Require Import ModelHist ModelDispatch SpecDispatch ProofsDispatch.
Import ListNotations.
Local Open Scope string_scope.

(* C07: no name belongs to two backends *)
Theorem C07_names_unambiguous :
  NoDup (keys rb_methods ++ keys leja_methods ++ keys split_methods ++ keys rk_methods
         ++ rs_methods ++ diffrax_methods)%list.
Proof.
  pose proof tables_disjoint as H. unfold all_names, python_names in H. rewrite <- !app_assoc in H. exact H.
Qed.
Print Assumptions C07_names_unambiguous.

(* C07: every documented name runs the documented backend and step routine *)
Theorem C07_documented_runs :
  forall hr hd m b o r0 r1,
  In (m, (b, o, r0, r1)) documented -> hr = true \/ ~ In m needs_rust ->
  integrate_backend hr hd m = Ok (b, Some o) /\
  step_routine hr false false b m = Ok r0 /\ step_routine hr true false b m = Ok r1.
Proof. exact documented_runs. Qed.
Print Assumptions C07_documented_runs.
Theorem C07_documented_rust_runs :
  forall hd m s, In (m, s) documented_rust ->
  exists nm, integrate_backend true hd m = Ok (BRust nm, None) /\ rust_select nm = Ok s.
Proof. exact documented_rust_runs. Qed.
Print Assumptions C07_documented_rust_runs.
(* over ALL strings: the Rust binding selects a solver exactly for the names it knows, and
   panics on every other one *)
Theorem C07_rust_names_iff :
  (forall m s, rust_select m = Ok s <-> In (m, s) rust_names) /\
  (forall m, ~ In m (map fst rust_names) -> rust_select m = Raise RustPanic).
Proof.
  split.
  - intros m s. unfold rust_select, rust_names. cbn [In]. split.
    + repeat match goal with |- context [String.eqb m ?k] =>
        destruct (String.eqb_spec m k) as [->|?]; cbn [orb] end; intro H; try injection H as <-; try discriminate; tauto.
    + intro H. repeat (destruct H as [H|H]; [injection H as <- <-; reflexivity|]). contradiction.
  - intros m H. unfold rust_select. cbn [rust_names map fst In] in H.
    repeat match goal with |- context [String.eqb m ?k] =>
        destruct (String.eqb_spec m k) as [->|?]; [exfalso; apply H; tauto|]; cbn [orb] end.
    reflexivity.
Qed.
Print Assumptions C07_rust_names_iff.
Theorem C07_documented_diffrax_runs :
  forall hr m, In m documented_diffrax -> integrate_backend hr true m = Ok (BDiffrax, None).
Proof. exact documented_diffrax_runs. Qed.
Print Assumptions C07_documented_diffrax_runs.

(* C07: over ALL strings, a name is accepted iff it is one of those, and the extension it
   needs is present *)
Theorem C07_accepted_iff :
  forall hr hd m,
  (exists b o, integrate_backend hr hd m = Ok (b, o)) <->
  (In m (map fst documented) /\ (hr = true \/ ~ In m needs_rust)) \/
  (hr = true /\ In m (map fst documented_rust)) \/ (hd = true /\ In m documented_diffrax).
Proof. exact dispatch_ok_iff_documented. Qed.
Print Assumptions C07_accepted_iff.

(* C07: refusals are AttributeError or ImportError, never anything later *)
Theorem C07_refused_how :
  forall hr hd m e, integrate_backend hr hd m = Raise e -> e = AttributeError \/ e = ImportErrorExn.
Proof. exact refused_how. Qed.
Print Assumptions C07_refused_how.

(* C07: an accepted name never ends in NotImplementedError *)
Theorem C07_accepted_executes :
  forall hr hd m b o, integrate_backend hr hd m = Ok (b, Some o) ->
  forall prev, exists r, step_routine hr prev false b m = Ok r.
Proof. exact dispatch_executes. Qed.
Print Assumptions C07_accepted_executes.

Theorem C07_order_in_range :
  forall hr hd m b o, integrate_backend hr hd m = Ok (b, Some o) -> 0 < o /\ o <= 4.
Proof. exact ctor_order_pos. Qed.
Print Assumptions C07_order_in_range.

(* Findings: README names refused; default constructor argument of the Leja class refused;
   rk4 with a before-step callback is a TypeError *)
Theorem C07_readme_names_refuted :
  In "rk4_rs" readme_methods /\ In "rk1_rs" readme_methods /\
  integrate_backend true true "rk4_rs" = Raise AttributeError /\
  integrate_backend true true "rk1_rs" = Raise AttributeError.
Proof. exact readme_rk_rs_refused. Qed.
Print Assumptions C07_readme_names_refuted.
Theorem C07_readme_other_names_run :
  forall m, In m readme_methods -> m <> "rk1_rs" -> m <> "rk4_rs" ->
  exists b o, integrate_backend true true m = Ok (b, o).
Proof. exact readme_rest_ok. Qed.
Print Assumptions C07_readme_other_names_run.
Theorem C07_leja_default_refuted : leja_ctor leja_default_method = Raise AttributeError.
Proof. exact leja_default_refused. Qed.
Print Assumptions C07_leja_default_refuted.
Theorem C36_rk4_with_callback_refuted : forall m, rk_step_routine true m = Raise TypeErrorExn.
Proof. exact rk_callback_type_error. Qed.
Print Assumptions C36_rk4_with_callback_refuted.

(* non-vacuity *)
Example ex_documented : In ("epi3", (BRB, 3, R_exprb3, R_epi3)) documented /\ ~ In "epi3" needs_rust.
Proof. split; [cbn; tauto|]. cbn. intros [H|[H|[]]]; discriminate. Qed.
Example ex_refused : integrate_backend true true "epi4" = Raise AttributeError.
Proof. reflexivity. Qed.
