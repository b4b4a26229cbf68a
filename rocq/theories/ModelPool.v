(* ModelPool.v : one step of the parallel method pexprb4 (ode_exp.py:211-276) as a concurrent
   program: the calling thread and the two closures submitted to the thread pool, under an
   arbitrary scheduler.  Definitions only. *)
From mathcomp Require Import all_ssreflect all_algebra.
From Verif Require Import ModelHist MxBase ModelOps ModelKrylov ModelDispatch ModelInt.
Set Implicit Arguments.
Unset Strict Implicit.
Unset Printing Implicit Defensive.
Import Order.TTheory GRing.Theory Num.Theory.
Local Open Scope ring_scope.

Section Pool.
Variables (F : rcfType) (KW : Type) (K : kernels F) (n : nat).
Notation vec := 'cV[F]_n.
Notation H := (hist F vec).
Notation SR := (step_result F vec).
Variables (o : rbopts F) (sys : odesys F KW n) (dt : F).
Let phil (lop : linop F n) dt v k := phi_linop (k_expm K) (k_expk K) (lo_mv lop) dt v k (o_kdim o) (o_iom o).

(* variables of the enclosing call captured by both closures: t, yt, sys_jac_lop, fyt *)
Record captured := Captured { c_t : F; c_yt : vec; c_J : jaclop F n; c_fyt : vec }.

(* program counter and local variables of one closure f_u_n2 / f_u_n3 with coefficient c
   (ode_exp.py:240-260); _remf (ode_sys.py:566-577) reads the object's t_hist[0] and y_hist[0] at
   two separate points *)
Inductive tlocal :=
| T_start                                     (* before _phi2v_nonauto *)
| T_phi2 (p2 : vec * vec)                     (* before phi_linop *)
| T_y (p2 : vec * vec) (y_c : vec)            (* before reading self.t_hist[0] *)
| T_t (p2 : vec * vec) (y_c : vec) (t : F)    (* before reading self.y_hist[0] *)
| T_ty (p2 : vec * vec) (y_c : vec) (t : F) (yt : vec)  (* before frhs, jac and the result *)
| T_done (r : result (vec * vec)).
Definition raise_or (A : Type) (r : result A) (f : A -> tlocal) : tlocal :=
  match r with Ok x => f x | Raise e => T_done (Raise e) end.
(* one atomic step; the object (its history) is the shared mutable state *)
Definition t_step (cap : captured) (c : F) (h : H) (l : tlocal) : H * tlocal :=
  match l with
  | T_start => (h, raise_or (phi2v_nonauto K o (c_J cap) dt c) T_phi2)
  | T_phi2 p2 => (h, raise_or (phil (jl_op (c_J cap)) (c * dt) (c_fyt cap) 1)
                        (fun w => T_y p2 (c_yt cap + (c * dt) *: w + p2.1)))
  | T_y p2 y_c => (h, raise_or (hist_tm h 0) (T_t p2 y_c))
  | T_t p2 y_c t => (h, raise_or (hist_y h 0) (T_ty p2 y_c t))
  | T_ty p2 y_c t yt =>
      let tr := c_t cap + c * dt in
      (h, T_done (Ok (y_c, os_frhs sys None tr y_c - c_fyt cap - lo_mv (jl_op (c_J cap)) (y_c - yt) - (tr - t) *: p2.2)))
  | T_done r => (h, T_done r)
  end.

(* a future: not yet submitted, in the queue, running on a worker (the result is part of the
   local state once finished) *)
Inductive fut := Unsubmitted | Queued | Running (l : tlocal).
Definition fut_done (f : fut) : option (result (vec * vec)) :=
  if f is Running (T_done r) then Some r else None.
Definition fut_busy (f : fut) : bool := if f is Running (T_done _) then false else if f is Running _ then true else false.

(* the calling thread *)
Inductive mainpc :=
| M_start                                   (* before reading self.t, y_hist[0] and building fjac *)
| M_submit2 (cap : captured) | M_submit3 (cap : captured)
| M_wait2 (cap : captured) | M_wait3 (cap : captured) (r2 : vec)
| M_final (cap : captured) (r2 y3 r3 : vec)
| M_done (r : result SR).

(* workers is the pool size (2 in the code); busy counts workers still occupied by tasks of
   earlier steps *)
Record cfg := Cfg { g_h : H; g_main : mainpc; g_f2 : fut; g_f3 : fut; g_busy : nat }.
Inductive event := Main | Start2 | Start3 | Task2 | Task3 | Free.

Definition n_running (g : cfg) : nat := g_busy g + fut_busy (g_f2 g) + fut_busy (g_f3 g).

(* one scheduler event; None when it is not enabled.  The captured variables of a running closure
   are kept beside the configuration because the closures outlive a failing caller. *)
Variable kw : KW.
Definition g_step (workers : nat) (capt : option captured) (g : cfg) (e : event) : option (option captured * cfg) :=
  let: Cfg h m f2 f3 b := g in
  match e with
  | Main =>
      match m with
      | M_start =>
          match hist_y h 0 with
          | Ok yt => let J := os_fjac sys (Some kw) (h_t h) yt in
                     let cap := Captured (h_t h) yt J (jl_frhs J) in
                     Some (Some cap, Cfg h (M_submit2 cap) f2 f3 b)
          | Raise e => Some (capt, Cfg h (M_done (Raise e)) f2 f3 b)
          end
      | M_submit2 cap => Some (capt, Cfg h (M_submit3 cap) Queued f3 b)
      | M_submit3 cap => Some (capt, Cfg h (M_wait2 cap) f2 Queued b)
      | M_wait2 cap =>
          match fut_done f2 with
          | Some (Ok p) => Some (capt, Cfg h (M_wait3 cap p.2) f2 f3 b)
          | Some (Raise e) => Some (capt, Cfg h (M_done (Raise e)) f2 f3 b)
          | None => None
          end
      | M_wait3 cap r2 =>
          match fut_done f3 with
          | Some (Ok p) => Some (capt, Cfg h (M_final cap r2 p.1 p.2) f2 f3 b)
          | Some (Raise e) => Some (capt, Cfg h (M_done (Raise e)) f2 f3 b)
          | None => None
          end
      | M_final cap r2 y3 r3 => Some (capt, Cfg h (M_done (p4_final K o h dt (c_J cap) r2 y3 r3)) f2 f3 b)
      | M_done _ => None
      end
  | Start2 => if f2 is Queued then
                if (n_running g < workers)%N then Some (capt, Cfg h m (Running T_start) f3 b) else None
              else None
  | Start3 => (* first in, first out *)
              match f2, f3 with
              | Running _, Queued => if (n_running g < workers)%N then Some (capt, Cfg h m f2 (Running T_start) b) else None
              | _, _ => None
              end
  | Task2 => match capt, f2 with
             | Some cap, Running l => if fut_busy f2 then let: (h', l') := t_step cap (2%:R)^-1 h l in Some (capt, Cfg h' m (Running l') f3 b) else None
             | _, _ => None
             end
  | Task3 => match capt, f3 with
             | Some cap, Running l => if fut_busy f3 then let: (h', l') := t_step cap 1 h l in Some (capt, Cfg h' m f2 (Running l') b) else None
             | _, _ => None
             end
  | Free => if b is b'.+1 then Some (capt, Cfg h m f2 f3 b') else None
  end.
Fixpoint g_run (workers : nat) (st : option captured * cfg) (es : seq event) : option (option captured * cfg) :=
  if es is e :: r then if g_step workers st.1 st.2 e is Some st' then g_run workers st' r else None else Some st.
(* the call step(dt): no task of this step submitted yet *)
Definition g_init (h : H) (busy : nat) : option captured * cfg := (None, Cfg h M_start Unsubmitted Unsubmitted busy).
End Pool.
