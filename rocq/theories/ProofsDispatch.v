From Coq Require Import String List Bool.
From Verif Require Import ModelHist ModelDispatch.
Import ListNotations.
Local Open Scope string_scope.

Lemma mem_In s l : mem s l = true <-> In s l.
Proof.
  unfold mem. rewrite existsb_exists. split.
  - intros (x & Hx & E). apply String.eqb_eq in E. now subst.
  - intros H. exists s. split; [exact H|apply String.eqb_refl].
Qed.

(* all names any backend accepts *)
Definition python_names : list string :=
  (keys rb_methods ++ keys leja_methods ++ keys split_methods ++ keys rk_methods)%list.
Definition all_names : list string := (python_names ++ rs_methods ++ diffrax_methods)%list.

Fixpoint nodupb (l : list string) : bool :=
  match l with [] => true | x :: r => andb (negb (mem x r)) (nodupb r) end.
Lemma nodupb_NoDup l : nodupb l = true -> NoDup l.
Proof.
  induction l as [|x l IH]; cbn; [constructor|].
  intros H. apply andb_prop in H. destruct H as [H1 H2]. constructor; [|now apply IH].
  intros Hin. apply mem_In in Hin. rewrite Hin in H1. discriminate.
Qed.

Lemma tables_disjoint : NoDup all_names.
Proof. apply nodupb_NoDup. vm_compute. reflexivity. Qed.

Lemma all_names_outcome_b :
  forallb (fun m => forallb (fun hr => forallb (fun hd =>
     match integrate_backend hr hd m with
     | Ok (b, Some o) =>
         andb (mem m python_names)
         (forallb (fun prev => match step_routine hr prev false b m with Ok _ => true | Raise _ => false end)
            [true; false])
     | Ok (BRust s, None) => andb hr (andb (mem m rs_methods)
                              (match rust_select s with Ok _ => true | _ => false end))
     | Ok (BDiffrax, None) => andb hd (mem m diffrax_methods)
     | Ok _ => false
     | Raise AttributeError => andb (negb hr) (mem m ["exprb2_pfd_rs"; "exp_pfd_rs"])
     | Raise ImportErrorExn => orb (andb (negb hr) (mem m rs_methods)) (andb (negb hd) (mem m diffrax_methods))
     | Raise _ => false
     end) [true; false]) [true; false]) all_names = true.
Proof. vm_compute. reflexivity. Qed.

Lemma bool_in (b : bool) : In b [true; false].
Proof. destruct b; cbn; auto. Qed.

Lemma named_outcome hr hd m : In m all_names ->
     match integrate_backend hr hd m with
     | Ok (b, Some o) =>
         andb (mem m python_names)
         (forallb (fun prev => match step_routine hr prev false b m with Ok _ => true | Raise _ => false end)
            [true; false])
     | Ok (BRust s, None) => andb hr (andb (mem m rs_methods)
                              (match rust_select s with Ok _ => true | _ => false end))
     | Ok (BDiffrax, None) => andb hd (mem m diffrax_methods)
     | Ok _ => false
     | Raise AttributeError => andb (negb hr) (mem m ["exprb2_pfd_rs"; "exp_pfd_rs"])
     | Raise ImportErrorExn => orb (andb (negb hr) (mem m rs_methods)) (andb (negb hd) (mem m diffrax_methods))
     | Raise _ => false
     end = true.
Proof.
  intros Hin. pose proof all_names_outcome_b as H.
  rewrite forallb_forall in H. specialize (H _ Hin).
  rewrite forallb_forall in H. specialize (H _ (bool_in hr)).
  rewrite forallb_forall in H. exact (H _ (bool_in hd)).
Qed.

Lemma mem_app s l1 l2 : mem s (l1 ++ l2) = orb (mem s l1) (mem s l2).
Proof. unfold mem. apply existsb_app. Qed.

Lemma unnamed_outcome hr hd m : ~ In m all_names ->
  integrate_backend hr hd m = Raise (if hd then AttributeError else ImportErrorExn).
Proof.
  intros Hn. assert (E : mem m all_names = false).
  { destruct (mem m all_names) eqn:E; [|reflexivity]. exfalso. apply Hn. now apply mem_In. }
  unfold all_names, python_names in E. rewrite !mem_app in E.
  apply orb_false_elim in E; destruct E as [E1 E].
  apply orb_false_elim in E; destruct E as [E2 E3].
  apply orb_false_elim in E1; destruct E1 as [E4 E1].
  apply orb_false_elim in E1; destruct E1 as [E5 E1].
  apply orb_false_elim in E1; destruct E1 as [E6 E7].
  unfold integrate_backend. rewrite E2, E3, E4, E5, E6, E7.
  destruct hd; reflexivity.
Qed.

Lemma dispatch_executes hr hd m b o :
  integrate_backend hr hd m = Ok (b, Some o) ->
  forall prev, exists r, step_routine hr prev false b m = Ok r.
Proof.
  intros E prev.
  destruct (in_dec string_dec m all_names) as [Hin|Hn];
    [|rewrite (unnamed_outcome hr hd m Hn) in E; discriminate].
  pose proof (named_outcome hr hd m Hin) as H. rewrite E in H.
  assert (Hx : andb (mem m python_names)
         (forallb (fun prev => match step_routine hr prev false b m with Ok _ => true | Raise _ => false end)
            [true; false]) = true) by (destruct b; exact H).
  clear H. apply andb_prop in Hx. destruct Hx as [_ H].
  rewrite forallb_forall in H. specialize (H _ (bool_in prev)).
  destruct (step_routine hr prev false b m) as [r|e]; [now exists r|discriminate].
Qed.

Lemma dispatch_rust hr hd m s :
  integrate_backend hr hd m = Ok (BRust s, None) -> exists r, rust_select s = Ok r.
Proof.
  intros E. destruct (in_dec string_dec m all_names) as [Hin|Hn];
    [|rewrite (unnamed_outcome hr hd m Hn) in E; discriminate].
  pose proof (named_outcome hr hd m Hin) as H. rewrite E in H.
  destruct (rust_select s) as [r|e]; [now exists r|].
  rewrite !andb_false_r in H. discriminate.
Qed.

Lemma dispatch_ok_iff hr hd m :
  (exists b o, integrate_backend hr hd m = Ok (b, o)) <->
  (In m python_names /\ (hr = true \/ ~ In m ["exprb2_pfd_rs"; "exp_pfd_rs"])) \/
  (hr = true /\ In m rs_methods) \/ (hd = true /\ In m diffrax_methods).
Proof.
  destruct (in_dec string_dec m all_names) as [Hin|Hn].
  - assert (H : forallb (fun m => forallb (fun hr => forallb (fun hd =>
       Bool.eqb (match integrate_backend hr hd m with Ok _ => true | Raise _ => false end)
         (orb (andb (mem m python_names) (orb hr (negb (mem m ["exprb2_pfd_rs"; "exp_pfd_rs"]))))
         (orb (andb hr (mem m rs_methods)) (andb hd (mem m diffrax_methods)))))
         [true; false]) [true; false]) all_names = true) by (vm_compute; reflexivity).
    rewrite forallb_forall in H. specialize (H _ Hin).
    rewrite forallb_forall in H. specialize (H _ (bool_in hr)).
    rewrite forallb_forall in H. specialize (H _ (bool_in hd)).
    apply Bool.eqb_prop in H.
    split.
    + intros (b & o & E). rewrite E in H. symmetry in H.
      apply orb_prop in H. destruct H as [H|H].
      * left. apply andb_prop in H. destruct H as [H1 H2]. split; [now apply mem_In|].
        apply orb_prop in H2. destruct H2 as [->|H2]; [now left|right].
        intros X. apply mem_In in X. rewrite X in H2. discriminate.
      * right. apply orb_prop in H. destruct H as [H|H]; apply andb_prop in H; destruct H as [-> H];
          apply mem_In in H; auto.
    + intros Hx.
      assert (R : (orb (andb (mem m python_names) (orb hr (negb (mem m ["exprb2_pfd_rs"; "exp_pfd_rs"]))))
         (orb (andb hr (mem m rs_methods)) (andb hd (mem m diffrax_methods)))) = true).
      { destruct Hx as [[H1 H2]|[[-> H1]|[-> H1]]].
        - apply mem_In in H1. rewrite H1. cbn [andb]. destruct H2 as [->|H2]; [reflexivity|].
          destruct (mem m ["exprb2_pfd_rs"; "exp_pfd_rs"]) eqn:Em; [|now rewrite orb_true_r].
          exfalso. apply H2. now apply mem_In.
        - apply mem_In in H1. rewrite H1. now rewrite orb_true_r.
        - apply mem_In in H1. rewrite H1. now rewrite !orb_true_r. }
      rewrite R in H. destruct (integrate_backend hr hd m) as [[b o]|e]; [now exists b, o|discriminate].
  - rewrite (unnamed_outcome hr hd m Hn). split; [intros (b & o & E); discriminate|].
    intros Hx. exfalso. apply Hn. unfold all_names. rewrite !in_app_iff.
    destruct Hx as [[H1 _]|[[_ H1]|[_ H1]]]; auto.
Qed.

Lemma refused_how hr hd m e :
  integrate_backend hr hd m = Raise e -> e = AttributeError \/ e = ImportErrorExn.
Proof.
  intros E. destruct (in_dec string_dec m all_names) as [Hin|Hn].
  - pose proof (named_outcome hr hd m Hin) as H. rewrite E in H. destruct e; auto; discriminate.
  - rewrite (unnamed_outcome hr hd m Hn) in E. injection E as <-. destruct hd; auto.
Qed.

Lemma readme_rk_rs_refused :
  In "rk4_rs" readme_methods /\ In "rk1_rs" readme_methods /\
  integrate_backend true true "rk4_rs" = Raise AttributeError /\
  integrate_backend true true "rk1_rs" = Raise AttributeError.
Proof. cbn. repeat split; auto 20. Qed.

Lemma readme_rest_ok :
  forall m, In m readme_methods -> m <> "rk1_rs" -> m <> "rk4_rs" ->
  exists b o, integrate_backend true true m = Ok (b, o).
Proof.
  intros m Hin H1 H4. apply dispatch_ok_iff.
  assert (H : forallb (fun m => orb (String.eqb m "rk1_rs") (orb (String.eqb m "rk4_rs")
      (mem m all_names))) readme_methods = true) by (vm_compute; reflexivity).
  rewrite forallb_forall in H. specialize (H _ Hin).
  apply String.eqb_neq in H1. apply String.eqb_neq in H4. rewrite H1, H4 in H. cbn [orb] in H.
  apply mem_In in H. unfold all_names in H. rewrite !in_app_iff in H.
  destruct H as [H|[H|H]]; auto.
Qed.

Lemma leja_default_refused : leja_ctor leja_default_method = Raise AttributeError.
Proof. reflexivity. Qed.
Lemma other_defaults_ok hr :
  (exists o, rb_ctor hr rb_default_method = Ok o) /\
  (exists o, split_ctor split_default_method = Ok o) /\
  (exists o, rk_ctor rk_default_method = Ok o).
Proof. repeat split; eexists; destruct hr; vm_compute; reflexivity. Qed.

Lemma ctor_order_pos hr hd m b o :
  integrate_backend hr hd m = Ok (b, Some o) -> 0 < o /\ o <= 4.
Proof.
  intros E. destruct (in_dec string_dec m all_names) as [Hin|Hn];
    [|rewrite (unnamed_outcome hr hd m Hn) in E; discriminate].
  assert (H : forallb (fun m => forallb (fun hr => forallb (fun hd =>
       match integrate_backend hr hd m with
       | Ok (b, Some o) => andb (Nat.ltb 0 o) (Nat.leb o 4) | _ => true end)
       [true; false]) [true; false]) all_names = true) by (vm_compute; reflexivity).
  rewrite forallb_forall in H. specialize (H _ Hin).
  rewrite forallb_forall in H. specialize (H _ (bool_in hr)).
  rewrite forallb_forall in H. specialize (H _ (bool_in hd)).
  rewrite E in H. apply andb_prop in H. destruct H as [H1 H2].
  apply PeanoNat.Nat.ltb_lt in H1. apply PeanoNat.Nat.leb_le in H2. auto.
Qed.

Lemma epi3_routine hr prev :
  rb_step_routine hr prev "epi3" = Ok (if prev then R_epi3 else R_exprb3).
Proof. now destruct prev. Qed.

Lemma rk_callback_type_error m : rk_step_routine true m = Raise TypeErrorExn.
Proof. reflexivity. Qed.

From Verif Require Import SpecDispatch.

Lemma documented_runs hr hd m b o r0 r1 :
  In (m, (b, o, r0, r1)) documented -> hr = true \/ ~ In m needs_rust ->
  integrate_backend hr hd m = Ok (b, Some o) /\
  step_routine hr false false b m = Ok r0 /\ step_routine hr true false b m = Ok r1.
Proof.
  intros Hin Hr.
  cbn [In documented] in Hin.
  repeat (destruct Hin as [Hin|Hin]; [injection Hin as <- <- <- <- <-|]);
    try contradiction Hin;
    destruct hr; [|destruct Hr as [Hr|Hr]; [discriminate|]
      | |destruct Hr as [Hr|Hr]; [discriminate|] | |destruct Hr as [Hr|Hr]; [discriminate|]
      | |destruct Hr as [Hr|Hr]; [discriminate|] | |destruct Hr as [Hr|Hr]; [discriminate|]
      | |destruct Hr as [Hr|Hr]; [discriminate|] | |destruct Hr as [Hr|Hr]; [discriminate|]
      | |destruct Hr as [Hr|Hr]; [discriminate|] | |destruct Hr as [Hr|Hr]; [discriminate|]
      | |destruct Hr as [Hr|Hr]; [discriminate|] | |destruct Hr as [Hr|Hr]; [discriminate|]
      | |destruct Hr as [Hr|Hr]; [discriminate|] | |destruct Hr as [Hr|Hr]; [discriminate|]
      | |destruct Hr as [Hr|Hr]; [discriminate|] | |destruct Hr as [Hr|Hr]; [discriminate|]
      | |destruct Hr as [Hr|Hr]; [discriminate|] | |destruct Hr as [Hr|Hr]; [discriminate|]
      | |destruct Hr as [Hr|Hr]; [discriminate|] | |destruct Hr as [Hr|Hr]; [discriminate|]
      | |destruct Hr as [Hr|Hr]; [discriminate|] ];
    try (exfalso; apply Hr; cbn; tauto); vm_compute; auto.
Qed.

Lemma documented_rust_runs hd m s :
  In (m, s) documented_rust ->
  exists nm, integrate_backend true hd m = Ok (BRust nm, None) /\ rust_select nm = Ok s.
Proof.
  intros Hin. cbn [In documented_rust] in Hin.
  repeat (destruct Hin as [Hin|Hin]; [injection Hin as <- <-; vm_compute; eexists; split; reflexivity|]).
  contradiction.
Qed.
Lemma documented_diffrax_runs hr m :
  In m documented_diffrax -> integrate_backend hr true m = Ok (BDiffrax, None).
Proof.
  intros Hin. cbn [In documented_diffrax] in Hin.
  repeat (destruct Hin as [<-|Hin]; [reflexivity|]). contradiction.
Qed.

Lemma names_documented m : In m all_names <->
  In m (map fst documented ++ map fst documented_rust ++ documented_diffrax)%list.
Proof.
  assert (A : forall l1 l2, forallb (fun x => mem x l2) l1 = true -> forall x, In x l1 -> In x l2).
  { intros l1 l2 H x Hx. rewrite forallb_forall in H. apply mem_In. auto. }
  split; apply A; vm_compute; reflexivity.
Qed.

Lemma dispatch_ok_iff_documented hr hd m :
  (exists b o, integrate_backend hr hd m = Ok (b, o)) <->
  (In m (map fst documented) /\ (hr = true \/ ~ In m needs_rust)) \/
  (hr = true /\ In m (map fst documented_rust)) \/ (hd = true /\ In m documented_diffrax).
Proof.
  rewrite dispatch_ok_iff.
  assert (A : forall l1 l2, forallb (fun x => mem x l2) l1 = true -> forall x, In x l1 -> In x l2).
  { intros l1 l2 H x Hx. rewrite forallb_forall in H. apply mem_In. auto. }
  assert (E1 : In m python_names <-> In m (map fst documented)) by (split; apply A; vm_compute; reflexivity).
  assert (E2 : In m rs_methods <-> In m (map fst documented_rust)) by (split; apply A; vm_compute; reflexivity).
  assert (E3 : In m diffrax_methods <-> In m documented_diffrax) by (split; apply A; vm_compute; reflexivity).
  rewrite E1, E2, E3. unfold needs_rust. tauto.
Qed.
