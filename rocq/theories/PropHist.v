(* PropHist.v : property theorems about the integrator base class and the driver loop
   (C01, C02, C03, C04 base part, C06, C47, C48).  Each is closed by a lemma of ProofsHist.v. *)
From Coq Require Import List Arith Lia ZArith.
From Verif Require Import ModelHist SpecHist ProofsHist.
Import ListNotations.
Set Implicit Arguments.

(* C01, shape: any integrator object, any callbacks. *)
Theorem C01_trajectory_shape :
  forall (T Y S C W : Type) step accept cb1 cb2 n (s : S) (w : W) (t0 : T) (y0 : Y) dt
         (r : integrate_result T Y C),
  integrate_py step accept cb1 cb2 s w y0 t0 dt n = Ok r ->
  length (r_t r) = n + 1 /\ length (r_y r) = n + 1 /\
  hd_error (r_t r) = Some t0 /\ hd_error (r_y r) = Some y0 /\ r_err_code r = 0.
Proof.
  intros T Y S C W step accept cb1 cb2 n s w t0 y0 dt r H.
  unfold integrate_py in H. apply rbind_ok in H. destruct H as (d & H & E). injection E as <-.
  destruct (lengths H) as (L1 & L2 & _ & _ & L5 & L6). cbn. repeat split; try assumption; lia.
Qed.
Print Assumptions C01_trajectory_shape.

(* C01, time grid: for every integrator object whose step reports its own time plus dt and
   whose accept records that time (Inv: an object invariant kept by step/accept), the i-th
   returned time is t0 after i additions of dt.  Instances for the package's integrators:
   PropIntegrators.v. *)
Theorem C01_time_grid :
  forall (T Y S C W : Type) (step : S -> T -> option C -> result (S * step_result T Y)) accept
         cb1 cb2 n (s : S) (w : W) (t0 : T) (y0 : Y) dt (d : drv T Y S C W)
         (add : T -> T -> T) (time_of : S -> T) (Inv : S -> Prop),
  (forall s c s' r, Inv s -> step s dt c = Ok (s', r) ->
      sr_t r = add (time_of s) dt /\ Inv (accept s' r) /\ time_of (accept s' r) = sr_t r) ->
  Inv s -> time_of s = t0 ->
  integrate_ormatex step accept cb1 cb2 s w y0 t0 dt n = Ok d ->
  forall i, i <= n -> nth_error (d_ts d) i = Some (added_times add t0 dt i).
Proof. exact times. Qed.
Print Assumptions C01_time_grid.

(* C02: a longer run that succeeds starts with the shorter run; a failure stays. *)
Theorem C02_prefix_stable :
  forall (T Y S C W : Type) (step : S -> T -> option C -> result (S * step_result T Y)) accept
         cb1 cb2 n m (s : S) (w : W) (t0 : T) (y0 : Y) dt (d2 : drv T Y S C W),
  integrate_ormatex step accept cb1 cb2 s w y0 t0 dt (n + m) = Ok d2 ->
  exists d1, integrate_ormatex step accept cb1 cb2 s w y0 t0 dt n = Ok d1 /\
    firstn (n + 1) (d_ts d2) = d_ts d1 /\ firstn (n + 1) (d_ys d2) = d_ys d1.
Proof.
  intros T Y S C W step accept cb1 cb2 n m s w t0 y0 dt d2 H. destruct (prefix H) as (d1 & H1 & _ & P).
  exists d1. replace (n + 1) with (Datatypes.S n) by lia. auto.
Qed.
Print Assumptions C02_prefix_stable.

Theorem C02_failure_stable :
  forall (T Y S C W : Type) (step : S -> T -> option C -> result (S * step_result T Y)) accept
         cb1 cb2 n m (s : S) (w : W) (t0 : T) (y0 : Y) dt e,
  integrate_ormatex step accept cb1 cb2 s w y0 t0 dt n = Raise e ->
  integrate_ormatex step accept cb1 cb2 s w y0 t0 dt (n + m) = Raise e.
Proof. intros until e. exact (@raise_stays _ _ _ _ _ step accept cb1 cb2 n m s w t0 y0 dt e). Qed.
Print Assumptions C02_failure_stable.

(* C02: continuing the same object gives the same trajectory, final object, callback outputs *)
Theorem C02_restart :
  forall (T Y S C W : Type) (step : S -> T -> option C -> result (S * step_result T Y)) accept
         cb1 cb2 n m (s : S) (w : W) (t0 : T) (y0 : Y) dt (d1 d2 d3 : drv T Y S C W) t1 y1,
  integrate_ormatex step accept cb1 cb2 s w y0 t0 dt n = Ok d1 ->
  t1 = last (d_ts d1) t0 -> y1 = last (d_ys d1) y0 ->
  integrate_ormatex step accept cb1 cb2 s w y0 t0 dt (n + m) = Ok d2 ->
  integrate_ormatex step accept cb1 cb2 (d_int d1) (d_world d1) y1 t1 dt m = Ok d3 ->
  d_ts d2 = removelast (d_ts d1) ++ d_ts d3 /\ d_ys d2 = removelast (d_ys d1) ++ d_ys d3 /\
  d_int d2 = d_int d3 /\ d_world d2 = d_world d3 /\
  d_cb1 d2 = d_cb1 d1 ++ d_cb1 d3 /\ d_cb2 d2 = d_cb2 d1 ++ d_cb2 d3.
Proof. intros until y1. exact (@restart _ _ _ _ _ step accept cb1 cb2 n m s w t0 y0 dt d1 d2 d3 t1 y1). Qed.
Print Assumptions C02_restart.

(* C03 *)
Theorem C03_history_window :
  forall (T Y : Type) order (t0 : T) (y0 : Y) h ops,
  hist_init order t0 y0 = Ok h ->
  let h' := fold_left (@hist_do T Y) ops h in
  let log := accepted_log [(t0, y0)] ops in
  combine (h_ts h') (h_ys h') = newest order log /\
  length (h_ts h') = Nat.min order (length log) /\
  length (h_ys h') = Nat.min order (length log) /\
  Some (hist_time h') = hd_error (h_ts h') /\
  h_order h' = order.
Proof. exact history_window. Qed.
Print Assumptions C03_history_window.

Theorem C03_construction_requires_positive_order :
  forall (T Y : Type) order (t0 : T) (y0 : Y),
  (exists h, hist_init order t0 y0 = Ok h) <-> 0 < order.
Proof. exact init_ok. Qed.
Print Assumptions C03_construction_requires_positive_order.

(* C04, base class part: after any history, resetting gives exactly the new object *)
Theorem C04_reset_is_fresh :
  forall (T Y : Type) order (t0 : T) (y0 : Y) h ops t1 y1 h1,
  hist_init order t0 y0 = Ok h ->
  hist_init order t1 y1 = Ok h1 ->
  hist_reset (fold_left (@hist_do T Y) ops h) t1 y1 = h1.
Proof. exact reset_fresh. Qed.
Print Assumptions C04_reset_is_fresh.

(* C06: callbacks that log their calls observe exactly the expected alternation, on the
   trajectory's points; outputs are returned in call order *)
Theorem C06_callback_protocol :
  forall (T Y S C : Type) (step : S -> T -> option C -> result (S * step_result T Y)) accept
         (fb fa : T -> Y -> C) n (s : S) (t0 : T) (y0 : Y) dt d,
  integrate_ormatex step accept
    (Some (fun w t y => (w ++ [EvBefore t y], fb t y)))
    (Some (fun w t y => (w ++ [EvAfter t y], fa t y))) s [] y0 t0 dt n = Ok d ->
  d_world d = expected_events (combine (d_ts d) (d_ys d)) /\
  d_cb1 d = map (fun p => fb (fst p) (snd p)) (removelast (combine (d_ts d) (d_ys d))) /\
  d_cb2 d = map (fun p => fa (fst p) (snd p)) (tl (combine (d_ts d) (d_ys d))).
Proof. exact callbacks. Qed.
Print Assumptions C06_callback_protocol.

(* C06: the result object that integrate returns carries the callback outputs: first the
   before-step ones, one per step, computed at the points the steps start from, then the
   after-accept ones, computed at the points the steps end in *)
Theorem C06_result_callbacks :
  forall (T Y S C : Type) (step : S -> T -> option C -> result (S * step_result T Y)) accept
         (fb fa : T -> Y -> C) n (s : S) (t0 : T) (y0 : Y) dt (r : integrate_result T Y C),
  integrate_py step accept
    (Some (fun w t y => (w ++ [EvBefore t y], fb t y)))
    (Some (fun w t y => (w ++ [EvAfter t y], fa t y))) s [] y0 t0 dt n = Ok r ->
  fst (r_cb r) = map (fun p => fb (fst p) (snd p)) (removelast (combine (r_t r) (r_y r))) /\
  snd (r_cb r) = map (fun p => fa (fst p) (snd p)) (tl (combine (r_t r) (r_y r))) /\
  length (fst (r_cb r)) = n /\ length (snd (r_cb r)) = n.
Proof.
  intros until r; intro H.
  destruct (C01_trajectory_shape _ _ _ _ _ _ _ _ _ _ H) as (L1 & L2 & _).
  unfold integrate_py in H. apply rbind_ok in H. destruct H as (d & H & E). injection E as <-.
  destruct (callbacks H) as (_ & B & A). cbn in *.
  assert (L : length (combine (d_ts d) (d_ys d)) = n + 1) by (rewrite combine_length; lia).
  split; [exact B|]. split; [exact A|].
  rewrite A, B, !map_length. split.
  - destruct (combine (d_ts d) (d_ys d)) as [|p l]; [cbn in L; lia|].
    rewrite removelast_firstn_len, firstn_length. cbn in *. lia.
  - destruct (combine (d_ts d) (d_ys d)) as [|p l]; cbn in *; lia.
Qed.
Print Assumptions C06_result_callbacks.

(* C06: what step receives is the before-callback's output for that step *)
Theorem C06_step_receives_callback_output :
  forall (T Y S C W : Type) (step : S -> T -> option C -> result (S * step_result T Y)) accept
         (f : W -> T -> Y -> W * C) cb2 n (s : S) w (t0 : T) (y0 : Y) dt (d : drv T Y S C W),
  integrate_ormatex step accept (Some f) cb2 s w y0 t0 dt n = Ok d ->
  forall i, i < n -> exists wi ti yi ci si s' r,
    nth_error (d_ts d) i = Some ti /\ nth_error (d_ys d) i = Some yi /\
    nth_error (d_cb1 d) i = Some ci /\ snd (f wi ti yi) = ci /\
    step si dt (Some ci) = Ok (s', r) /\
    nth_error (d_ts d) (i + 1) = Some (sr_t r) /\ nth_error (d_ys d) (i + 1) = Some (sr_y r).
Proof. intros T Y S C W step accept f cb2 n s w t0 y0 dt d. exact (@step_receives T Y S C step accept W f cb2 n s w t0 y0 dt d). Qed.
Print Assumptions C06_step_receives_callback_output.

(* C48 is false of the code: in every reachable object the property evaluates to None *)
Theorem C48_state_property_refuted :
  forall (T Y : Type) order (t0 : T) (y0 : Y) h ops,
  hist_init order t0 y0 = Ok h ->
  hist_state (fold_left (@hist_do T Y) ops h) = Ok None.
Proof. exact state_none. Qed.
Print Assumptions C48_state_property_refuted.

(* C47 is false of the code: the final time handed to diffrax is t0 + nsteps*dt iff t0 = 0
   (exact integer times suffice to exhibit it) *)
Theorem C47_diffrax_interval_refuted :
  forall (t0 dt : Z) (nsteps : nat),
  diffrax_tf Z.mul Z.of_nat t0 dt nsteps = (t0 + Z.of_nat nsteps * dt)%Z <-> t0 = 0%Z.
Proof. intros; unfold diffrax_tf; lia. Qed.
Print Assumptions C47_diffrax_interval_refuted.

(* ------------------------------------------------------------------ *)
(* Non-vacuity: a concrete integrator object (explicit Euler for y' = y on integers, built
   on the base class) meets every hypothesis above on a 3-step run with callbacks. *)
Definition ex_step (h : hist Z Z) (dt : Z) (c : option Z) : result (hist Z Z * step_result Z Z) :=
  rbind (hist_y h 0) (fun y => Ok (h, mkStep (h_t h + dt)%Z dt (y + dt * (y + match c with Some v => v | None => 0 end))%Z 0%Z)).
Definition ex_h : hist Z Z := mkHist 2 5%Z [5%Z] [1%Z].
Example ex_h_init : hist_init 2 5%Z 1%Z = Ok ex_h. Proof. reflexivity. Qed.
Definition ex_run n := integrate_ormatex ex_step (@hist_accept Z Z)
    (Some (fun w t y => (w ++ [EvBefore t y], (t + y)%Z)))
    (Some (fun w t y => (w ++ [EvAfter t y], (t * y)%Z))) ex_h [] 1%Z 5%Z 1%Z n.
Example ex_run_ok : exists d, ex_run 3 = Ok d /\ d_ts d = [5; 6; 7; 8]%Z /\ d_ys d = [1; 8; 30; 97]%Z.
Proof. vm_compute. eexists. repeat split. Qed.
Example ex_time_hyp : forall s c s' r, True -> ex_step s 1%Z c = Ok (s', r) ->
      sr_t r = Z.add (h_t s) 1%Z /\ True /\ h_t (hist_accept s' r) = sr_t r.
Proof.
  intros s c s' r _ H. unfold ex_step in H. apply rbind_ok in H. destruct H as (y & _ & H).
  injection H as <- <-. repeat split.
Qed.
(* a failing run exists too: stepping an object whose history is empty *)
Example ex_raise : exists e, integrate_ormatex ex_step (@hist_accept Z Z)
   (@None (unit -> Z -> Z -> unit * Z)) None (mkHist 1 0%Z [] []) tt 0%Z 0%Z 1%Z 2 = Raise e.
Proof. vm_compute. eexists. reflexivity. Qed.
Example ex_window :
  let h := fold_left (@hist_do Z Z) [OpAccept (mkStep 6 1 2 0); OpAccept (mkStep 7 1 4 0)]%Z ex_h in
  combine (h_ts h) (h_ys h) = [(7, 4); (6, 2)]%Z.
Proof. reflexivity. Qed.
