(* PropPool.v : C33, the step of pexprb4 with its two pool tasks under every scheduler.
   Model: ModelPool.v (g_run executes a list of scheduler events, None when one is not enabled);
   sequential reference: step_pexprb4 (ModelInt.v), the two closures run one after the other. *)
From mathcomp Require Import all_ssreflect all_algebra.
From Verif Require Import ModelHist MxBase ModelOps ModelKrylov ModelDispatch ModelInt ModelPool ProofsPool.
Set Implicit Arguments.
Unset Strict Implicit.
Unset Printing Implicit Defensive.
Import Order.TTheory GRing.Theory Num.Theory.
Local Open Scope ring_scope.
Local Opaque breakdown_tol norm2 phi_linop kiops_fixedsteps.

Section Pool.
Variables (F : rcfType) (KW : Type) (K : kernels F) (n : nat).
Notation vec := 'cV[F]_n.
Notation H := (hist F vec).
Variables (o : rbopts F) (sys : odesys F KW n) (dt : F) (kw : KW).
Notation run := (g_run K o sys dt kw).

(* whatever the pool size, the tasks left over from earlier steps and the interleaving: when the
   call returns or raises, it does so exactly like the sequential program, and the object is
   untouched *)
Theorem C33_schedule_independent (workers busy : nat) (h : H) (es : seq event) capt g r :
  run workers (g_init h busy) es = Some (capt, g) -> g_main g = M_done r ->
  r = step_pexprb4 K o sys h dt kw /\ g_h g = h.
Proof.
move=> er em; split; last by have := grun_hist er.
case ey: (hist_y h 0) => [yt|e].
  exact: (ginv_main (ginv_run ey (@ginv_init _ _ K _ o sys dt kw h yt busy) er) em).
by rewrite (ginit_raise ey er em) /step_pexprb4 ey.
Qed.
(* so two schedules never disagree *)
Theorem C33_two_schedules (w1 w2 b1 b2 : nat) (h : H) es1 es2 c1 g1 r1 c2 g2 r2 :
  run w1 (g_init h b1) es1 = Some (c1, g1) -> g_main g1 = M_done r1 ->
  run w2 (g_init h b2) es2 = Some (c2, g2) -> g_main g2 = M_done r2 -> r1 = r2.
Proof.
move=> e1 m1 e2 m2.
by have [-> _] := C33_schedule_independent e1 m1; have [-> _] := C33_schedule_independent e2 m2.
Qed.
(* no task ever writes to the object: at every reachable point its history is the initial one *)
Theorem C33_history_untouched (workers busy : nat) (h : H) (es : seq event) capt g :
  run workers (g_init h busy) es = Some (capt, g) -> g_h g = h.
Proof. by move=> er; have := grun_hist er. Qed.
(* no deadlock: with at least one worker, and not more old tasks than workers, some event is
   enabled at every reachable point until the call has returned *)
Theorem C33_no_deadlock (workers busy : nat) (h : H) (es : seq event) capt g :
  (0 < workers)%N -> (busy <= workers)%N ->
  run workers (g_init h busy) es = Some (capt, g) -> (forall r, g_main g <> M_done r) ->
  exists e st, g_step K o sys dt kw workers capt g e = Some st.
Proof.
move=> w0 bw er nd; case ey: (hist_y h 0) => [yt|e].
  have gi := ginv_run ey (@ginv_init _ _ K _ o sys dt kw h yt busy) er.
  have pi : pinv workers (capt, g).
    by apply: (pinv_run ey _ _ er); [apply: ginv_init | split=> //=; rewrite /n_running /= !addn0].
  exact: (progress w0 ey gi pi nd).
have h0 := C33_history_untouched er.
case: (ginit_main ey er) => /= em; last by case: (nd _ em).
by exists Main; case: g em h0 {er nd} => gh gm f2 f3 b /= -> ->; rewrite ey; eexists.
Qed.
(* every schedule is finite: at most 20 events plus one per old task *)
Theorem C33_terminates (workers busy : nat) (h : H) (es : seq event) st :
  run workers (g_init h busy) es = Some st -> (size es <= 20 + busy)%N.
Proof.
move=> er; case ey: (hist_y h 0) => [yt|e]; last exact: (ginit_short ey er).
have := gw_run ey (@ginv_init _ _ K _ o sys dt kw h yt busy) er; rewrite {2}/gw /= => le.
exact: leq_trans (leq_addr _ _) le.
Qed.
(* and every partial schedule extends to one on which the call returns: with the two theorems
   above, every maximal schedule ends with the sequential result *)
Theorem C33_completes (workers busy : nat) (h : H) (es : seq event) st :
  (0 < workers)%N -> (busy <= workers)%N -> run workers (g_init h busy) es = Some st ->
  exists es' capt g, run workers (g_init h busy) (es ++ es') = Some (capt, g)
    /\ g_main g = M_done (step_pexprb4 K o sys h dt kw).
Proof.
move=> w0 bw er; case ey: (hist_y h 0) => [yt|e].
  have gi := ginv_run ey (@ginv_init _ _ K _ o sys dt kw h yt busy) er.
  have pi : pinv workers st.
    by apply: (pinv_run ey _ _ er); [apply: ginv_init | split=> //=; rewrite /n_running /= !addn0].
  have [es' [[c g] [er' em]]] := completes w0 ey gi pi.
  by exists es', c, g; rewrite grun_cat er er'.
have esq : step_pexprb4 K o sys h dt kw = Raise e by rewrite /step_pexprb4 ey.
rewrite esq; have hh := grun_hist er; case: st er hh => c g er hh.
case: (ginit_main ey er) => /= em.
  case: g em hh er => gh gm f2 f3 b /= -> -> er.
  exists [:: Main]; rewrite grun_cat er /= ey; by eexists; eexists; split.
by exists [::]; exists c, g; rewrite cats0.
Qed.

(* two different complete schedules, whenever the kernels succeed: one worker running the tasks in
   turn, and two workers in lock step with the second task ahead *)
Definition one_by_one : seq event :=
  [:: Main; Main; Main; Start2; Task2; Task2; Task2; Task2; Task2; Start3; Task3; Task3; Task3; Task3; Task3; Main; Main; Main].
Definition interleaved : seq event :=
  [:: Main; Main; Start2; Main; Start3; Task3; Task2; Task3; Task2; Task3; Task3; Task3; Task2; Task2; Task2; Main; Main; Main].
Lemma C33_example (h : H) yt p2 p2' w w' tm : 
  hist_y h 0 = Ok yt -> hist_tm h 0 = Ok tm ->
  let J := os_fjac sys (Some kw) (h_t h) yt in
  phi2v_nonauto K o J dt (2%:R)^-1 = Ok p2 -> phi2v_nonauto K o J dt 1 = Ok p2' ->
  phi_linop (k_expm K) (k_expk K) (lo_mv (jl_op J)) ((2%:R)^-1 * dt) (jl_frhs J) 1 (o_kdim o) (o_iom o) = Ok w ->
  phi_linop (k_expm K) (k_expk K) (lo_mv (jl_op J)) (1 * dt) (jl_frhs J) 1 (o_kdim o) (o_iom o) = Ok w' ->
  (exists st, run 1 (g_init h 0) one_by_one = Some st /\ g_main st.2 = M_done (step_pexprb4 K o sys h dt kw)) /\
  (exists st, run 2 (g_init h 0) interleaved = Some st /\ g_main st.2 = M_done (step_pexprb4 K o sys h dt kw)).
Proof.
move=> hy ht J e2 e3 w2 w3.
have fin w0 es : (if run w0 (g_init h 0) es is Some st then if g_main st.2 is M_done _ then true else false else false) ->
  exists st, run w0 (g_init h 0) es = Some st /\ g_main st.2 = M_done (step_pexprb4 K o sys h dt kw).
  case er: (run w0 (g_init h 0) es) => [[c g]|] //= hm; exists (c, g); split=> //=.
  by case em: (g_main g) hm => [|cap|cap|cap|cap r2|cap r2 y3 r3|r] // _; have [<- _] := C33_schedule_independent er em.
split; apply: fin; rewrite /one_by_one /interleaved /g_run /= hy /= -/J.
  by rewrite e2 /= w2 /= ht /= hy /= e3 /= w3 /= ht /= hy /=.
by rewrite e2 e3 /= w2 w3 /= ht /= hy /= ht /= hy /=.
Qed.

(* the guarantee needs the object to be left alone while step runs: the tasks read the newest
   entry of the live history, so if another thread accepts a step in between and the Jacobian
   sees the difference of the two states, the task returns another value *)
Theorem C33_concurrent_accept_refuted cap c (h h' : H) tm y y' p2 y_c :
  hist_tm h 0 = Ok tm -> hist_y h 0 = Ok y -> hist_tm h' 0 = Ok tm -> hist_y h' 0 = Ok y' ->
  lo_mv (jl_op (c_J cap)) (y_c - y) <> lo_mv (jl_op (c_J cap)) (y_c - y') ->
  let go hh := iter 3 (fun l => (t_step K o sys dt cap c hh l).2) (T_y p2 y_c) in
  exists r r', go h = T_done (Ok r) /\ go h' = T_done (Ok r') /\ r <> r'.
Proof.
move=> h1 h2 h1' h2' ne go; rewrite /go /= h1 h1' /= h2 h2' /=; eexists; eexists; do !split.
move=> [] /(congr1 (fun x => x + ((c_t cap + c * dt) - tm) *: p2.2)); rewrite !subrK.
by move/addrI/oppr_inj.
Qed.
End Pool.
