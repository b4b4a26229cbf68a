(* ProofsPool.v : invariants of the concurrent step of pexprb4 (ModelPool.v) *)
From mathcomp Require Import all_ssreflect all_algebra.
From Verif Require Import ModelHist MxBase ModelOps ModelKrylov ModelDispatch ModelInt ModelPool.
Set Implicit Arguments.
Unset Strict Implicit.
Unset Printing Implicit Defensive.
Import Order.TTheory GRing.Theory Num.Theory.
Local Open Scope ring_scope.
Local Opaque breakdown_tol norm2 phi_linop kiops_fixedsteps.

Section Pool.
Variables (F : rcfType) (KW : Type) (K : kernels F) (n : nat).
Notation vec := 'cV[F]_n.
Notation H := (hist F vec).
Variables (o : rbopts F) (sys : odesys F KW n) (dt : F) (kw : KW).
Notation gstep := (g_step K o sys dt kw).
Notation grun := (g_run K o sys dt kw).
Let phil (lop : linop F n) dt v k := phi_linop (k_expm K) (k_expk K) (lo_mv lop) dt v k (o_kdim o) (o_iom o).

(* what a task still has to do, run without interruption on history h *)
Definition t_rest5 (cap : captured F n) c (h : H) (p2 : vec * vec) (y_c : vec) t yt : result (vec * vec) :=
  let tr := c_t cap + c * dt in
  Ok (y_c, os_frhs sys None tr y_c - c_fyt cap - lo_mv (jl_op (c_J cap)) (y_c - yt) - (tr - t) *: p2.2).
Definition t_rest (cap : captured F n) (c : F) (h : H) (l : tlocal F n) : result (vec * vec) :=
  let r3 p2 y := t <- hist_tm h 0;; yt <- hist_y h 0;; t_rest5 cap c h p2 y t yt in
  let r2 p2 := w <- phil (jl_op (c_J cap)) (c * dt) (c_fyt cap) 1;; r3 p2 (c_yt cap + (c * dt) *: w + p2.1) in
  match l with
  | T_start => p2 <- phi2v_nonauto K o (c_J cap) dt c;; r2 p2
  | T_phi2 p2 => r2 p2
  | T_y p2 y => r3 p2 y
  | T_t p2 y t => yt <- hist_y h 0;; t_rest5 cap c h p2 y t yt
  | T_ty p2 y t yt => t_rest5 cap c h p2 y t yt
  | T_done r => r
  end.
Lemma t_step_rest cap c h l : t_rest cap c h (t_step K o sys dt cap c h l).2 = t_rest cap c h l.
Proof.
case: l => [|p2|p2 y|p2 y t|p2 y t yt|r] //=.
- by case: (phi2v_nonauto _ _ _ _ _).
- by rewrite /phil; case: (phi_linop _ _ _ _ _ _ _ _).
- by case: (hist_tm h 0).
- by case: (hist_y h 0).
Qed.
Lemma t_step_hist cap c h l : (t_step K o sys dt cap c h l).1 = h.
Proof. by case: l. Qed.
Lemma t_rest_start h yt J c : t_rest (Captured (h_t h) yt J (jl_frhs J)) c h (T_start _ _)
  = p4_stage K o sys h dt J yt (jl_frhs J) c.
Proof.
rewrite /p4_stage /=; case: (phi2v_nonauto _ _ _ _ _) => [p2|e] //; cbn [rbind].
rewrite /phil; case: (phi_linop _ _ _ _ _ _ _ _) => [w|e] //; cbn [rbind].
by rewrite /remf; case: (hist_tm h 0) => //= t; case: (hist_y h 0).
Qed.

Section Inv.
Variable h0 : H.
Variables (yt : vec).
Hypothesis hy : hist_y h0 0 = Ok yt.
Let J := os_fjac sys (Some kw) (h_t h0) yt.
Let cap0 := Captured (h_t h0) yt J (jl_frhs J).
Let st c := p4_stage K o sys h0 dt J yt (jl_frhs J) c.
Definition finv (c : F) (f : fut F n) : Prop :=
  if f is Running l then t_rest cap0 c h0 l = st c else True.
Definition sub (f : fut F n) : Prop := if f is Unsubmitted then False else True.
Definition ginv (s : option (captured F n) * cfg F n) : Prop :=
  let: (capt, Cfg h m f2 f3 b) := s in
  h = h0 /\ finv (2%:R)^-1 f2 /\ finv 1 f3 /\
  match m with
  | M_start => capt = None /\ f2 = Unsubmitted _ _ /\ f3 = Unsubmitted _ _
  | M_submit2 cap => capt = Some cap0 /\ cap = cap0 /\ f2 = Unsubmitted _ _ /\ f3 = Unsubmitted _ _
  | M_submit3 cap => capt = Some cap0 /\ cap = cap0 /\ sub f2 /\ f3 = Unsubmitted _ _
  | M_wait2 cap => capt = Some cap0 /\ cap = cap0 /\ sub f2 /\ sub f3
  | M_wait3 cap r2 => capt = Some cap0 /\ cap = cap0 /\ fut_done f2 /\ sub f3 /\ exists y2, st (2%:R)^-1 = Ok (y2, r2)
  | M_final cap r2 y3 r3 => cap = cap0 /\ capt = Some cap0 /\ (exists y2, st (2%:R)^-1 = Ok (y2, r2)) /\ st 1 = Ok (y3, r3)
  | M_done r => capt = Some cap0 /\ r = step_pexprb4 K o sys h0 dt kw
  end.
Lemma finv_done c f r : finv c f -> fut_done f = Some r -> st c = r.
Proof. by case: f => //= -[] //= r' <- [<-]. Qed.
Lemma finv_step c f l : finv c f -> f = Running l -> finv c (Running (t_step K o sys dt cap0 c h0 l).2).
Proof. by move=> hf ef; move: hf; rewrite ef /= t_step_rest. Qed.
Lemma ginv_step w s e s' : ginv s -> gstep w s.1 s.2 e = Some s' -> ginv s'.
Proof.
case: s => capt [h m f2 f3 b] [eh [i2 [i3 hm]]]; rewrite {}eh in hm *.
have cl c : finv c (Queued _ _) by [].
have stt c : finv c (Running (T_start _ _)) by rewrite /finv t_rest_start.
case: e => /=.
- case: m hm => [|cap|cap|cap|cap r2|cap r2 y3 r3|r] //=.
  + by move=> [-> [-> ->]]; rewrite hy => -[<-] /=.
  + by move=> [-> [-> [_ ->]]] [<-] /=; do !split.
  + by move=> [-> [-> [s2 _]]] [<-] /=; do !split.
  + move=> [-> [-> [s2 s3]]]; case ef: (fut_done f2) => [[p|e]|] // [<-] /=; do !split=> //.
    * by rewrite ef.
    * by exists p.1; rewrite (finv_done i2 ef); case: (p).
    * have := finv_done i2 ef; rewrite /st => h2.
      by rewrite /step_pexprb4 hy; cbn [rbind]; rewrite -/J h2.
  + move=> [-> [-> [d2 [s3 [y2 h2]]]]]; case ef: (fut_done f3) => [[p|e]|] // [<-] /=; do !split=> //.
    * by exists y2.
    * by rewrite (finv_done i3 ef); case: (p).
    * have := finv_done i3 ef; rewrite /st in h2 * => h3.
      by rewrite /step_pexprb4 hy; cbn [rbind]; rewrite -/J h2; cbn [rbind]; rewrite h3.
  + move=> [-> [-> [[y2 h2] h3]]] [<-] /=; do !split=> //.
    rewrite /st in h2 h3.
    by rewrite /step_pexprb4 hy; cbn [rbind]; rewrite -/J h2; cbn [rbind]; rewrite h3.
- case: f2 i2 hm => // i2 hm; case: ifP => // _ [<-]; do !split=> //.
  by case: m hm => [|cap|cap|cap|cap r2|cap r2 y3 r3|r] /=; intuition discriminate.
- case: f2 i2 hm => // l i2; case: f3 i3 => // i3 hm; case: ifP => // _ [<-]; do !split=> //.
  by case: m hm => [|cap|cap|cap|cap r2|cap r2 y3 r3|r] /=; intuition discriminate.
- case: capt hm => // cap hm; case: f2 i2 hm => // l i2 hm.
  have ecap : cap = cap0 by case: m hm => [|?|?|?|? ?|? ? ? ?|?] /=; intuition congruence.
  case: ifP => // bz; rewrite ecap; case es: (t_step _ _ _ _ _ _ _ _) => [h' l'] [<-].
  have := t_step_hist cap0 (2%:R)^-1 h0 l; rewrite es /= => ->.
  have := t_step_rest cap0 (2%:R)^-1 h0 l; rewrite es /= => er.
  do !split=> //; first by rewrite er.
  case: m hm => [|?|?|?|? ?|? ? ? ?|?] /=; try by intuition congruence.
  by move=> [_ [-> [d2 _]]]; move: d2 bz; case: (l).
- case: capt hm => // cap hm; case: f3 i3 hm => // l i3 hm.
  have ecap : cap = cap0 by case: m hm => [|?|?|?|? ?|? ? ? ?|?] /=; intuition congruence.
  case: ifP => // bz; rewrite ecap; case es: (t_step _ _ _ _ _ _ _ _) => [h' l'] [<-].
  have := t_step_hist cap0 1 h0 l; rewrite es /= => ->.
  have := t_step_rest cap0 1 h0 l; rewrite es /= => er.
  do !split=> //; first by rewrite er.
  by case: m hm => [|?|?|?|? ?|? ? ? ?|?] /=; intuition congruence.
- by case: b => // b [<-]; do !split=> //; case: m hm.
Qed.
Lemma ginv_run w es s s' : ginv s -> grun w s es = Some s' -> ginv s'.
Proof.
elim: es s => [|e es IH] s hs /=; first by move=> [<-].
case E: (gstep w s.1 s.2 e) => [s1|] //; apply: IH; exact: ginv_step hs E.
Qed.
Lemma ginv_init b : ginv (g_init h0 b).
Proof. by do !split. Qed.
Lemma ginv_hist s : ginv s -> g_h s.2 = h0.
Proof. by case: s => capt [h m f2 f3 b] []. Qed.
Lemma ginv_main s r : ginv s -> g_main s.2 = M_done r -> r = step_pexprb4 K o sys h0 dt kw.
Proof. by case: s => capt [h m f2 f3 b] [_ [_ [_ hm]]] /= em; move: hm; rewrite em => -[]. Qed.
End Inv.

(* the history never changes, whatever the initial history *)
Lemma gstep_hist w capt g e s' : gstep w capt g e = Some s' -> g_h s'.2 = g_h g.
Proof.
case: g => h m f2 f3 b; case: e => /=.
- case: m => [|cap|cap|cap|cap r2|cap r2 y3 r3|r] //.
  + by case: (hist_y h 0) => [?|?] [<-].
  + by move=> [<-].
  + by move=> [<-].
  + by case: (fut_done f2) => [[?|?]|] // [<-].
  + by case: (fut_done f3) => [[?|?]|] // [<-].
  + by move=> [<-].
- by case: f2 => //; case: ifP => // _ [<-].
- by case: f2 => // ?; case: f3 => //; case: ifP => // _ [<-].
- case: capt => // cap; case: f2 => // l; case: ifP => // _.
  by case es: (t_step _ _ _ _ _ _ _ _) => [h' l'] [<-] /=; have := t_step_hist cap (2%:R)^-1 h l; rewrite es.
- case: capt => // cap; case: f3 => // l; case: ifP => // _.
  by case es: (t_step _ _ _ _ _ _ _ _) => [h' l'] [<-] /=; have := t_step_hist cap 1 h l; rewrite es.
- by case: b => // b [<-].
Qed.
Lemma grun_hist w es s s' : grun w s es = Some s' -> g_h s'.2 = g_h s.2.
Proof.
elim: es s => [|e es IH] s /=; first by move=> [<-].
by case E: (gstep w s.1 s.2 e) => [s1|] // /IH ->; apply: gstep_hist E.
Qed.

(* a schedule that starts with an empty history: the caller raises at once *)
Lemma ginit_main w h b e es s' : hist_y h 0 = Raise e -> grun w (g_init h b) es = Some s' ->
  g_main s'.2 = M_start _ _ \/ g_main s'.2 = M_done (Raise e).
Proof.
move=> hy.
pose inv (s : option (captured F n) * cfg F n) := let: (capt, Cfg h' m f2 f3 b) := s in
  h' = h /\ f2 = Unsubmitted _ _ /\ f3 = Unsubmitted _ _ /\ (m = M_start _ _ \/ m = M_done (Raise e)).
have i0 : inv (g_init h b) by do !split; left.
move: (g_init h b) i0 => s; elim: es s => [|e1 es IH] s hs /=.
  by move=> [<-]; case: s hs => capt [h' m f2 f3 b'] [_ [_ [_ ]]].
case E: (gstep w s.1 s.2 e1) => [s1|] //; apply: IH.
case: s hs E => capt [h' m f2 f3 b'] [-> [-> [-> hm]]]; case: e1 => //=.
- case: hm => -> //; rewrite hy => -[<-]; do !split; by right.
- by case: capt.
- by case: capt.
- by case: b' => // b' [<-].
Qed.
Lemma ginit_raise w h b e es s' ev : hist_y h 0 = Raise e -> grun w (g_init h b) es = Some s' ->
  g_main s'.2 = M_done ev -> ev = Raise e.
Proof. by move=> hy /(ginit_main hy) [] -> // [->]. Qed.

(* progress *)
Definition pinv w (s : option (captured F n) * cfg F n) : Prop :=
  (n_running s.2 <= w)%N /\ (forall l, g_f3 s.2 = Running l -> exists l', g_f2 s.2 = Running l').
Lemma pinv_step w h0 yt s e s' : hist_y h0 0 = Ok yt -> ginv h0 yt s -> pinv w s ->
  gstep w s.1 s.2 e = Some s' -> pinv w s'.
Proof.
move=> hy; case: s => capt [h m f2 f3 b] gi; rewrite /pinv /n_running /= => -[hn hf].
case: gi => _ [_ [_ gi]].
case: e => /=.
- case: m gi => [|cap|cap|cap|cap r2|cap r2 y3 r3|r] //.
  + by move=> _; case: (hist_y h 0) => [?|?] [<-].
  + move=> [_ [_ [e2 e3]]] [<-] /=; rewrite e3 /=; split=> //.
    by move: hn; rewrite e2 e3.
  + move=> [_ [_ [_ e3]]] [<-] /=; split=> //.
    by move: hn; rewrite e3.
  + by move=> _; case: (fut_done f2) => [[?|?]|] // [<-].
  + by move=> _; case: (fut_done f3) => [[?|?]|] // [<-].
  + by move=> _ [<-].
- case: f2 hn hf gi => // hn hf _; case: ifP => // lt [<-] /=; split; last by move=> *; exists (T_start _ _).
  by move: lt; rewrite /n_running /= addn0 addn1 addSn.
- case: f2 hn hf gi => // l hn hf; case: f3 hn hf => // hn hf _; case: ifP => // lt [<-] /=; split; last by move=> *; exists l.
  by move: lt; rewrite /n_running /= addn0 addn1.
- case: capt gi => // cap gi; case: f2 hn hf gi => // l hn hf gi; case: ifP => // bz.
  case es: (t_step _ _ _ _ _ _ _ _) => [h' l'] [<-] /=; split; last by move=> *; exists l'.
  apply: leq_trans hn; rewrite leq_add2r leq_add2l.
  by move: bz => /= ->; case: l' es.
- case: capt gi => // cap gi; case: f3 hn hf gi => // l hn hf gi; case: ifP => // bz.
  case es: (t_step _ _ _ _ _ _ _ _) => [h' l'] [<-] /=; split; last by move=> *; apply: (hf l).
  apply: leq_trans hn; rewrite leq_add2l.
  by move: bz => /= ->; case: l' es.
- case: b hn gi => // b hn gi [<-] /=; split=> //.
  by apply: leq_trans hn; rewrite !leq_add2r.
Qed.
Lemma pinv_run w h0 yt es s s' : hist_y h0 0 = Ok yt -> ginv h0 yt s -> pinv w s ->
  grun w s es = Some s' -> pinv w s'.
Proof.
move=> hy; elim: es s => [|e es IH] s hs hp /=; first by move=> [<-].
case E: (gstep w s.1 s.2 e) => [s1|] //; apply: IH; [exact: ginv_step hs E | exact: pinv_step hs hp E].
Qed.
Lemma running_dec (f : fut F n) : sub f -> f = Queued _ _ \/ (exists l, f = Running l /\ fut_busy f) \/ exists r, fut_done f = Some r.
Proof.
case: f => //= [_|l _]; first by left.
case: l => [|p2|p2 y|p2 y t|p2 y t y'|r]; right; [| | | | |by right; exists r]; by left; eexists.
Qed.
Lemma progress w h0 yt s : (0 < w)%N -> hist_y h0 0 = Ok yt -> ginv h0 yt s -> pinv w s ->
  (forall r, g_main s.2 <> M_done r) -> exists e s', gstep w s.1 s.2 e = Some s'.
Proof.
move=> w0 hy; case: s => capt [h m f2 f3 b] [eh [_ [_ gi]]] [hn hf] /= nd; rewrite /n_running /= in hn hf.
rewrite {}eh in nd *.
have freed m' g2 g3 : fut_busy f2 = false -> fut_busy f3 = false -> (w <= b + fut_busy f2 + fut_busy f3)%N ->
   exists s', gstep w capt (Cfg h0 m' g2 g3 b) Free = Some s'.
  move=> -> ->; rewrite !addn0 => /(leq_trans w0); case: (b) => // b' _.
  by eexists.
case: m gi nd => [|cap|cap|cap|cap r2|cap r2 y3 r3|r] gi nd.
- by exists Main; rewrite /= hy; eexists.
- by exists Main; eexists.
- by exists Main; eexists.
- case: gi => ec [_ [s2 s3]].
  case: (running_dec s2) => [q|[[l [rl bz]]|[r dr]]].
  + case: (ltnP (b + fut_busy f2 + fut_busy f3) w) => lt.
      by exists Start2; rewrite q; eexists.
    have b3 : fut_busy f3 = false.
      by case: f3 hf {hn freed s3 lt} => // l /(_ l erefl) [l']; rewrite q.
    have b2 : fut_busy f2 = false by rewrite q.
    have [s' E] := freed (M_wait2 cap) f2 f3 b2 b3 lt.
    by exists Free, s'; exact: E.
  + exists Task2; rewrite ec rl /= in bz *.
    by rewrite bz; case: (t_step _ _ _ _ _ _ _ _) => h' l'; eexists.
  + by exists Main; rewrite /= dr; case: r dr => *; eexists.
- case: gi => ec [_ [d2 [s3 _]]].
  case: (running_dec s3) => [q|[[l [rl bz]]|[r dr]]].
  + have [l2 e2] : exists l2, f2 = Running l2 by case: f2 d2 {hn hf freed} => // l2 _; exists l2.
    have b2 : fut_busy f2 = false by move: d2; rewrite e2; case: (l2).
    case: (ltnP (b + fut_busy f2 + fut_busy f3) w) => lt.
      by exists Start3; rewrite q e2; eexists.
    have b3 : fut_busy f3 = false by rewrite q.
    have [s' E] := freed (M_wait3 cap r2) f2 f3 b2 b3 lt.
    by exists Free, s'; exact: E.
  + exists Task3; rewrite ec rl /= in bz *.
    by rewrite bz; case: (t_step _ _ _ _ _ _ _ _) => h' l'; eexists.
  + by exists Main; rewrite /= dr; case: r dr => *; eexists.
- by exists Main; eexists.
- by case: (nd r).
Qed.

(* termination *)
Definition tw (l : tlocal F n) : nat :=
  match l with T_start => 5 | T_phi2 _ => 4 | T_y _ _ => 3 | T_t _ _ _ => 2 | T_ty _ _ _ _ => 1 | T_done _ => 0 end.
Definition fw (f : fut F n) : nat := match f with Unsubmitted => 7 | Queued => 6 | Running l => tw l end.
Definition mw (m : mainpc F n) : nat :=
  match m with M_start => 6 | M_submit2 _ => 5 | M_submit3 _ => 4 | M_wait2 _ => 3 | M_wait3 _ _ => 2 | M_final _ _ _ _ => 1 | M_done _ => 0 end.
Definition gw (g : cfg F n) : nat := mw (g_main g) + fw (g_f2 g) + fw (g_f3 g) + g_busy g.
Lemma t_step_w cap c h l : fut_busy (Running l) -> (tw (t_step K o sys dt cap c h l).2 < tw l)%N.
Proof.
case: l => [|p2|p2 y|p2 y t|p2 y t yt|r] //= _.
- by case: (phi2v_nonauto _ _ _ _ _).
- by case: (phi_linop _ _ _ _ _ _ _ _).
- by case: (hist_tm h 0).
- by case: (hist_y h 0).
Qed.
Lemma gw_step w h0 yt s e s' : hist_y h0 0 = Ok yt -> ginv h0 yt s ->
  gstep w s.1 s.2 e = Some s' -> (gw s'.2 < gw s.2)%N.
Proof.
move=> hy; case: s => capt [h m f2 f3 b] [eh [_ [_ gi]]]; rewrite /gw /=.
case: e => /=.
- case: m gi => [|cap|cap|cap|cap r2|cap r2 y3 r3|r] //=.
  + by move=> _; case: (hist_y h 0) => [?|?] [<-] /=; rewrite !ltn_add2r.
  + by move=> [_ [_ [-> ->]]] [<-] /=; rewrite !ltn_add2r.
  + by move=> [_ [_ [_ ->]]] [<-] /=; rewrite !ltn_add2r -addnA -[X in (_ < X)%N]addnA; apply: leq_add => //; rewrite -addnS leq_add2l.
  + by move=> _; case: (fut_done f2) => [[?|?]|] // [<-] /=; rewrite !ltn_add2r.
  + by move=> _; case: (fut_done f3) => [[?|?]|] // [<-] /=; rewrite !ltn_add2r.
  + by move=> _ [<-] /=; rewrite !ltn_add2r.
- by case: f2 gi => // _; case: ifP => // _ [<-] /=; rewrite !ltn_add2r ltn_add2l.
- by case: f2 gi => // l; case: f3 => // _; case: ifP => // _ [<-] /=; rewrite !ltn_add2r ltn_add2l.
- case: capt gi => // cap gi; case: f2 gi => // l gi; case: ifP => // bz.
  case es: (t_step _ _ _ _ _ _ _ _) => [h' l'] [<-] /=.
  by rewrite !ltn_add2r ltn_add2l; have := t_step_w cap (2%:R)^-1 h bz; rewrite es.
- case: capt gi => // cap gi; case: f3 gi => // l gi; case: ifP => // bz.
  case es: (t_step _ _ _ _ _ _ _ _) => [h' l'] [<-] /=.
  by rewrite !ltn_add2r ltn_add2l; have := t_step_w cap 1 h bz; rewrite es.
- by case: b gi => // b gi [<-] /=; rewrite ltn_add2l.
Qed.
Lemma gw_run w h0 yt es s s' : hist_y h0 0 = Ok yt -> ginv h0 yt s ->
  grun w s es = Some s' -> (size es + gw s'.2 <= gw s.2)%N.
Proof.
move=> hy; elim: es s => [|e es IH] s hs /=; first by move=> [<-].
case E: (gstep w s.1 s.2 e) => [s1|] // /(IH _ (ginv_step hy hs E)) le.
by apply: leq_ltn_trans le (gw_step hy hs E).
Qed.
Lemma ginit_short w h b e es s' : hist_y h 0 = Raise e -> grun w (g_init h b) es = Some s' -> (size es <= 20 + b)%N.
Proof.
move=> hy.
pose inv (s : option (captured F n) * cfg F n) := let: (capt, Cfg h' m f2 f3 b) := s in
  h' = h /\ f2 = Unsubmitted _ _ /\ f3 = Unsubmitted _ _ /\ (m = M_start _ _ \/ m = M_done (Raise e)).
have i0 : inv (g_init h b) by do !split; left.
have -> : (20 + b = gw (@g_init F n h b).2)%N by [].
move: (g_init h b) i0 => s; elim: es s => [|e1 es IH] s hs //=.
case E: (gstep w s.1 s.2 e1) => [s1|] // er.
have : inv s1 /\ (gw s1.2 < gw s.2)%N; last by move=> [i1 lt]; apply: leq_ltn_trans (IH _ i1 er) lt.
case: s hs E => capt [h' m f2 f3 b'] [-> [-> [-> hm]]]; case: e1 => //=.
- by case: hm => -> //; rewrite hy => -[<-]; split; [split; [|split; [|split; [|right]]] |rewrite /gw /= !ltn_add2r].
- by case: capt.
- by case: capt.
- by case: b' => // b' [<-]; split=> //; rewrite /gw /= ltn_add2l.
Qed.
Lemma grun_cat w s es es' : grun w s (es ++ es') = if grun w s es is Some s' then grun w s' es' else None.
Proof. by elim: es s => [|e es IH] s //=; case: (gstep w s.1 s.2 e). Qed.
Lemma completes w h0 yt s : (0 < w)%N -> hist_y h0 0 = Ok yt -> ginv h0 yt s -> pinv w s ->
  exists es s', grun w s es = Some s' /\ g_main s'.2 = M_done (step_pexprb4 K o sys h0 dt kw).
Proof.
move=> w0 hy; have [k] := ubnP (gw s.2); elim: k s => // k IH s le gi pi.
case em: (g_main s.2) => [|cap|cap|cap|cap r2|cap r2 y3 r3|r]; last first.
  by exists [::], s; rewrite em (ginv_main gi em).
all: have [|e [s1 E]] := progress w0 hy gi pi; first by move=> r; rewrite em.
all: have [|es [s' [E' D]]] := IH s1 _ (ginv_step hy gi E) (pinv_step hy gi pi E);
  first by apply: leq_trans (gw_step hy gi E) _.
all: by exists (e :: es), s'; rewrite /= E.
Qed.
End Pool.
