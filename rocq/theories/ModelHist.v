(* ModelHist.v : the time-integrator base class (ormatex_py/ode_sys.py:497-591) and
   the fixed-step driver loop (ormatex_py/integrate_wrapper.py:167-193).
   Definitions only; proofs are in ProofsHist.v, statements in PropHist.v. *)
From Coq Require Import List.
Import ListNotations.
Set Implicit Arguments.

(* Python exceptions, as values.  Only the classes the modelled code raises. *)
Inductive exn : Type :=
| AssertionError | AttributeError | NotImplementedError | RuntimeErrorExn
| TypeErrorExn | ImportErrorExn | IndexErrorExn | ZeroDivisionExn | KeyErrorExn | RustPanic
| ValueErrorExn.

Inductive result (A : Type) : Type :=
| Ok (a : A)
| Raise (e : exn).
Arguments Ok {A} a.
Arguments Raise {A} e.

Definition rbind {A B : Type} (r : result A) (k : A -> result B) : result B :=
  match r with Ok a => k a | Raise e => Raise e end.

Section Hist.
Variables T Y : Type.

(* ode_sys.py:497-506  @dataclass StepResult: t, dt, y, err *)
Record step_result : Type := mkStep { sr_t : T; sr_dt : T; sr_y : Y; sr_err : T }.

(* collections.deque(maxlen=k).appendleft(x): push at the left end, and when the
   deque is full drop the element at the right end (used at ode_sys.py:535-536,
   542-543, 563-564). *)
Definition appendleft (maxlen : nat) (x : T) (l : list T) : list T := firstn maxlen (x :: l).
Definition appendleftY (maxlen : nat) (x : Y) (l : list Y) : list Y := firstn maxlen (x :: l).

(* ode_sys.py:517-525 fields t, order, t_hist, y_hist of IntegrateSys.
   [sys] and [method] live in the objects built on top of this one. *)
Record hist : Type := mkHist { h_order : nat; h_t : T; h_ts : list T; h_ys : list Y }.

(* ode_sys.py:527-536 IntegrateSys.__init__ : assert order > 0, empty deques with
   maxlen=order, appendleft of the initial condition.  Simplification: order is a
   natural number (the code only ever passes table entries 1..4), float(t0) is t0. *)
Definition hist_init (order : nat) (t0 : T) (y0 : Y) : result hist :=
  if Nat.ltb 0 order
  then Ok (mkHist order t0 (appendleft order t0 []) (appendleftY order y0 []))
  else Raise AssertionError.

(* ode_sys.py:538-543 IntegrateSys.reset_ic : clear both deques, appendleft. *)
Definition hist_reset (h : hist) (t0 : T) (y0 : Y) : hist :=
  mkHist (h_order h) t0 (appendleft (h_order h) t0 []) (appendleftY (h_order h) y0 []).

(* ode_sys.py:555-564 IntegrateSys.accept_step (identical overrides at
   ode_exp.py:429-432, 621-624, 887-890 and ode_explicit.py:66-69). *)
Definition hist_accept (h : hist) (s : step_result) : hist :=
  mkHist (h_order h) (sr_t s)
         (appendleft (h_order h) (sr_t s) (h_ts h))
         (appendleftY (h_order h) (sr_y s) (h_ys h)).

(* ode_sys.py:579-584 property time : returns self.t *)
Definition hist_time (h : hist) : T := h_t h.

(* ode_sys.py:586-591 property state : evaluates self.y_hist[0] but has no return
   statement, so the value of the property is None.  The read of element 0 of an
   empty deque would be an IndexError. *)
Definition hist_state (h : hist) : result (option Y) :=
  match h_ys h with
  | [] => Raise IndexErrorExn
  | _ :: _ => Ok None
  end.

(* ode_exp.py:411, 612 : len(self.y_hist) >= 2 *)
Definition hist_has_prev (h : hist) : bool := Nat.leb 2 (length (h_ys h)).

(* self.y_hist[i], self.t_hist[i]: IndexError when absent *)
Definition hist_y (h : hist) (i : nat) : result Y :=
  match nth_error (h_ys h) i with Some y => Ok y | None => Raise IndexErrorExn end.
Definition hist_tm (h : hist) (i : nat) : result T :=
  match nth_error (h_ts h) i with Some t => Ok t | None => Raise IndexErrorExn end.

End Hist.

Arguments mkStep {T Y}.
Arguments mkHist {T Y}.

(* Operations a caller can perform on the base object, for statements about
   arbitrary call histories. *)
Inductive hist_op (T Y : Type) : Type :=
| OpAccept (s : step_result T Y)
| OpReset (t0 : T) (y0 : Y).
Arguments OpAccept {T Y}.
Arguments OpReset {T Y}.

Definition hist_do {T Y} (h : hist T Y) (o : hist_op T Y) : hist T Y :=
  match o with
  | OpAccept s => hist_accept h s
  | OpReset t0 y0 => hist_reset h t0 y0
  end.

(* ------------------------------------------------------------------ *)
(* The driver loop *)
Section Driver.
(* T times, Y states, S the integrator object (sys_int, including sys_int.sys),
   C callback outputs, W the world a callback may read and change.  *)
Variables T Y S C W : Type.

(* sys_int.step(dt) / sys_int.step(dt, frhs_kwargs=cb_out): [None] means the
   keyword is not passed.  The call may change the object or raise. *)
Variable step : S -> T -> option C -> result (S * step_result T Y).
(* sys_int.accept_step(res) *)
Variable accept : S -> step_result T Y -> S.
(* callable(callback) or not *)
Variable cb_before : option (W -> T -> Y -> W * C).
Variable cb_after : option (W -> T -> Y -> W * C).

(* the local variables t_res, y_res, callback_res["..."] of integrate_ormatex and
   the mutable object *)
Record drv : Type := mkDrv {
  d_int : S; d_world : W;
  d_ts : list T; d_ys : list Y; d_cb1 : list C; d_cb2 : list C }.

(* integrate_wrapper.py:171 t_res, y_res = [t0,], [y0,] and :175 empty callback lists *)
Definition drv_init (s : S) (w : W) (t0 : T) (y0 : Y) : drv :=
  mkDrv s w [t0] [y0] [] [].

(* integrate_wrapper.py:176-192, one iteration of the for loop.  t_res[-1] and
   y_res[-1] are [last]; both lists are never empty (t0,y0 are the defaults given
   to [last] and are never used).  callback_after_step_reject (line 174) is read
   from kwargs and never used. *)
Definition drv_iter (t0 : T) (y0 : Y) (dt : T) (d : drv) : result drv :=
  let t := last (d_ts d) t0 in
  let y := last (d_ys d) y0 in
  rbind
    (match cb_before with
     | Some f =>
         let (w, c) := f (d_world d) t y in
         rbind (step (d_int d) dt (Some c))
               (fun sr => Ok (sr, w, d_cb1 d ++ [c]))
     | None =>
         rbind (step (d_int d) dt None)
               (fun sr => Ok (sr, d_world d, d_cb1 d))
     end)
    (fun x =>
       match x with
       | ((s', r), w, cb1) =>
           let ts := d_ts d ++ [sr_t r] in
           let ys := d_ys d ++ [sr_y r] in
           let s'' := accept s' r in
           match cb_after with
           | Some g =>
               let (w', c) := g w (last ts t0) (last ys y0) in
               Ok (mkDrv s'' w' ts ys cb1 (d_cb2 d ++ [c]))
           | None => Ok (mkDrv s'' w ts ys cb1 (d_cb2 d))
           end
       end).

(* integrate_wrapper.py:176 for i in range(nsteps) *)
Fixpoint drv_loop (n : nat) (t0 : T) (y0 : Y) (dt : T) (d : drv) : result drv :=
  match n with
  | O => Ok d
  | Datatypes.S m => rbind (drv_iter t0 y0 dt d) (drv_loop m t0 y0 dt)
  end.

(* integrate_wrapper.py:167-193 integrate_ormatex: range(nsteps) of a nonpositive
   nsteps is empty, hence nat. *)
Definition integrate_ormatex (s : S) (w : W) (y0 : Y) (t0 dt : T) (nsteps : nat) : result drv :=
  drv_loop nsteps t0 y0 dt (drv_init s w t0 y0).

(* integrate_wrapper.py:35-55, 106 IntegrateResult(t_res, y_res, c_res, 0) *)
Record integrate_result : Type := mkRes {
  r_t : list T; r_y : list Y; r_cb : list C * list C; r_err_code : nat }.

(* integrate_wrapper.py:70-84, 106: the branch of integrate() that runs a Python
   integrator once it is constructed *)
Definition integrate_py (s : S) (w : W) (y0 : Y) (t0 dt : T) (nsteps : nat) : result integrate_result :=
  rbind (integrate_ormatex s w y0 t0 dt nsteps)
        (fun d => Ok (mkRes (d_ts d) (d_ys d) (d_cb1 d, d_cb2 d) 0)).

End Driver.

(* integrate_wrapper.py:153-164 integrate_diffrax: the interval handed to
   diffrax.diffeqsolve is [t0, tf] with tf = dt * nsteps and the number of steps
   is capped at nsteps.  Only this arithmetic is modelled. *)
Definition diffrax_tf {T : Type} (mul : T -> T -> T) (of_nat : nat -> T) (t0 dt : T) (nsteps : nat) : T :=
  mul dt (of_nat nsteps).
