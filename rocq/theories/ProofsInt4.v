(* ProofsInt4.v : integrator objects: time grid, reset, discarded steps, the dense cache *)
From Coq Require Import String.
From mathcomp Require Import all_ssreflect all_algebra.
From mathcomp Require Import complex.
From Verif Require Import ModelHist SpecHist ProofsHist MxBase ModelOps SpecOps ProofsOps ModelPhi ProofsPhi.
From Verif Require Import ModelKrylov ModelDispatch ModelInt SpecInt ProofsInt ProofsInt2 ProofsInt3.
Set Implicit Arguments.
Unset Strict Implicit.
Unset Printing Implicit Defensive.
Import Order.TTheory GRing.Theory Num.Theory.
Local Open Scope ring_scope.
Local Opaque breakdown_tol norm2 phi_linop kiops_fixedsteps.

(* objects related by R that give the same results stay related *)
Lemma urun_bisim (T Y S C : Type) (step : S -> T -> option C -> result (S * step_result T Y)) accept reset
   (R : S -> S -> Prop) :
  (forall s1 s2 dt kw, R s1 s2 ->
     match step s1 dt kw, step s2 dt kw with
     | Ok (a, r), Ok (b, r') => r = r' /\ R a b
     | Raise e, Raise e' => e = e'
     | _, _ => False end) ->
  (forall s1 s2 r, R s1 s2 -> R (accept s1 r) (accept s2 r)) ->
  (forall s1 s2 t y, R s1 s2 -> R (reset s1 t y) (reset s2 t y)) ->
  forall ops s1 s2, R s1 s2 ->
  (urun step accept reset ops s1).1 = (urun step accept reset ops s2).1 /\
  match (urun step accept reset ops s1).2, (urun step accept reset ops s2).2 with
  | Some a, Some b => R a b | None, None => True | _, _ => False end.
Proof.
move=> hs ha hr; elim=> [|op ops IH] s1 s2 h12 //=.
case: op => [dt kw|dt kw|t y].
- have := hs s1 s2 dt kw h12.
  case: (step s1 dt kw) => [[a r]|e]; case: (step s2 dt kw) => [[b r']|e'] //; last by move=> ->.
  case=> <- hab; have [] := IH _ _ (ha a b r hab).
  case: (urun _ _ _ _ (accept a r)) => l1 e1; case: (urun _ _ _ _ (accept b r)) => l2 e2 /= -> h.
  by split.
- have := hs s1 s2 dt kw h12.
  case: (step s1 dt kw) => [[a r]|e]; case: (step s2 dt kw) => [[b r']|e'] //; last by move=> ->.
  case=> <- hab; have [] := IH _ _ hab.
  case: (urun _ _ _ _ a) => l1 e1; case: (urun _ _ _ _ b) => l2 e2 /= -> h.
  by split.
- exact: IH (hr s1 s2 t y h12).
Qed.

(* an object invariant along a user program *)
Lemma urun_inv (T Y S C : Type) (step : S -> T -> option C -> result (S * step_result T Y)) accept reset
   (I : S -> Prop) :
  (forall s dt kw s' r, I s -> step s dt kw = Ok (s', r) -> I s' /\ I (accept s' r)) ->
  (forall s t y, I s -> I (reset s t y)) ->
  forall ops s l s', I s -> urun step accept reset ops s = (l, Some s') -> I s'.
Proof.
move=> hs hr; elim=> [|op ops IH] s l s' i0 /=; first by case=> _ <-.
case: op => [dt kw|dt kw|t y].
- case E: (step s dt kw) => [[a r]|e] //.
  case E2: (urun _ _ _ _ (accept a r)) => [l2 o2] [_ h2]; move: E2; rewrite h2; apply: IH.
  by have [] := hs _ _ _ _ _ i0 E.
- case E: (step s dt kw) => [[a r]|e] //.
  case E2: (urun _ _ _ _ a) => [l2 o2] [_ h2]; move: E2; rewrite h2; apply: IH.
  by have [] := hs _ _ _ _ _ i0 E.
- by apply: IH; apply: hr.
Qed.

Lemma added_times_mul (F : ringType) (t0 dt : F) i : added_times +%R t0 dt i = t0 + dt *+ i.
Proof. by elim: i => [|i /= ->]; rewrite ?mulr0n ?addr0 // mulrSr addrA. Qed.

Section Obj.
Variable F : rcfType.
Variable KW : Type.
Variable K : kernels F.
Variable n : nat.
Notation vec := 'cV[F]_n.
Notation H := (hist F vec).

Lemma rb_new_hist o t0 (y0 : vec) h : rb_new o t0 y0 = Ok h -> exists ord, rb_ctor (o_rust o) (o_method o) = Ok ord /\ hist_init ord t0 y0 = Ok h.
Proof. by rewrite /rb_new; rbs => e2; exists a. Qed.
Lemma rk_new_hist m t0 (y0 : vec) h : rk_new m t0 y0 = Ok h -> exists ord, rk_ctor m = Ok ord /\ hist_init ord t0 y0 = Ok h.
Proof. by rewrite /rk_new; rbs => e2; exists a. Qed.
Lemma sp_new_hist m t0 (y0 : vec) ob : sp_new m t0 y0 = Ok ob ->
  exists ord, split_ctor m = Ok ord /\ hist_init ord t0 y0 = Ok (sp_hist ob) /\ sp_dt ob = None /\ sp_cache ob = None.
Proof. by rewrite /sp_new; rbs => -[<-] /=; exists a. Qed.

(* time grids *)
Lemma rb_grid o kw0 (sys : odesys F KW n) W (cb1 cb2 : option (W -> F -> vec -> W * KW)) h w y0 t0 dt N d :
  rb_new o t0 y0 = Ok h ->
  integrate_ormatex (rb_step K o kw0 sys) (@hist_accept F vec) cb1 cb2 h w y0 t0 dt N = Ok d ->
  forall i, (i <= N)%coq_nat -> List.nth_error (d_ts d) i = Some (t0 + dt *+ i).
Proof.
move=> /rb_new_hist [ord [_ hi]] hrun i iN; rewrite -added_times_mul.
apply: (@times F vec H KW W (rb_step K o kw0 sys) (@hist_accept F vec) cb1 cb2 N h w t0 y0 dt d +%R (@h_t F vec) (fun _ => True)) => //.
  by move=> s c s' r _ es; have [_ [? _]] := rb_step_t es.
by have [] := init_current hi.
Qed.
Lemma rk_grid m (sys : odesys F KW n) W (cb1 cb2 : option (W -> F -> vec -> W * KW)) h w y0 t0 dt N d :
  rk_new m t0 y0 = Ok h ->
  integrate_ormatex (rk_step m sys) (@hist_accept F vec) cb1 cb2 h w y0 t0 dt N = Ok d ->
  forall i, (i <= N)%coq_nat -> List.nth_error (d_ts d) i = Some (t0 + dt *+ i).
Proof.
move=> /rk_new_hist [ord [_ hi]] hrun i iN; rewrite -added_times_mul.
apply: (@times F vec H KW W (rk_step m sys) (@hist_accept F vec) cb1 cb2 N h w t0 y0 dt d +%R (@h_t F vec) (fun _ => True)) => //.
  by move=> s c s' r _ es; have [_ [? _]] := rk_step_t es.
by have [] := init_current hi.
Qed.
Lemma sp_grid kd iom m (sys : splitsys F KW n) W (cb1 cb2 : option (W -> F -> vec -> W * KW)) ob w y0 t0 dt N d :
  sp_new m t0 y0 = Ok ob ->
  integrate_ormatex (sp_step K kd iom m sys) (@sp_accept F n) cb1 cb2 ob w y0 t0 dt N = Ok d ->
  forall i, (i <= N)%coq_nat -> List.nth_error (d_ts d) i = Some (t0 + dt *+ i).
Proof.
move=> /sp_new_hist [ord [_ [hi _]]] hrun i iN; rewrite -added_times_mul.
apply: (@times F vec (spobj F n) KW W (sp_step K kd iom m sys) (@sp_accept F n) cb1 cb2 N ob w t0 y0 dt d +%R
   (fun ob => h_t (sp_hist ob)) (fun _ => True)) => //.
  by move=> s c s' r _ es; have [_ [? _]] := sp_step_t es.
by have [] := init_current hi.
Qed.

(* the history component of a user's program is a reachable history of the right order *)
Definition hist_of_order ord (h : H) := reachable h /\ h_order h = ord.
Lemma hist_of_init ord t0 y0 h : hist_init ord t0 y0 = Ok h -> hist_of_order ord h.
Proof.
move=> e; split; first exact: reachable_init e.
by move: e; rewrite /hist_init; case: ifP => // _ [<-].
Qed.
Lemma hist_of_accept ord h s : hist_of_order ord h -> hist_of_order ord (hist_accept h s).
Proof. by case=> r o; split=> //; apply: reachable_accept. Qed.
Lemma hist_of_reset ord h t y : hist_of_order ord h -> hist_of_order ord (hist_reset h t y).
Proof. by case=> r o; split=> //; apply: reachable_reset. Qed.
Lemma hist_reset_fresh ord h t1 y1 h1 : hist_of_order ord h -> hist_init ord t1 y1 = Ok h1 ->
  hist_reset h t1 y1 = h1.
Proof.
by case=> _ ho; rewrite /hist_init /hist_reset ho; case: ifP => // _ [<-].
Qed.

(* split object: the dense routines see the cache only through its matrices *)
Section Cache.
Variables (kd iom : nat) (m : string) (sys : splitsys F KW n).
Let step := sp_step K kd iom m sys.

Definition cks_of (r : routine) : option (seq (F * seq nat)) :=
  match r with R_exp1_dense => Some (cks1 F) | R_exp2_dense => Some (cks2 F) | R_exp3_dense => Some (cks3 F) | _ => None end.
Definition fresh_of (ob : spobj F n) := SpObj (sp_hist ob) None None.

(* a cached nonzero step size: the dictionary was filled for it, from an operator fl returned *)
Definition cache_ok r (ob : spobj F n) : Prop :=
  forall d, sp_dt ob = Some d -> d != 0 -> forall cks, cks_of r = Some cks ->
    exists t u L dict, sp_cache ob = Some (ss_fl sys t u, dict) /\ lo_dense (ss_fl sys t u) = Ok L /\
      fill_dict K d L cks [::] = Ok dict.

Lemma cache_step r ob dt ob' s : cache_ok r ob -> sp_run K kd iom r sys ob dt = Ok (ob', s) -> cache_ok r ob'.
Proof.
move=> hc.
have dense cks f : cks_of r = Some cks -> sp_dense K sys ob dt cks f = Ok (ob', s) -> cache_ok r ob'.
  rewrite /sp_dense => hr; rbs; case=> <- _; move: e0; rewrite /update_dense_phiLs.
  case: ifP => _; first by case: (sp_cache ob) => // c [<-].
  rbs; case=> <- /=; move=> d /= [<-] _ cks'; rewrite hr => -[<-].
  by exists (h_t (sp_hist ob)), a2, a3, a4.
case: r hc dense => // hc dense; rewrite /sp_run; do ?[by apply: dense].
all: by rbs; case=> <-.
Qed.

Hypothesis const : forall t u t' u', ss_fl sys t u = ss_fl sys t' u'.

Lemma cache_transparent r ob dt : cache_ok r ob -> 
  match sp_run K kd iom r sys ob dt, sp_run K kd iom r sys (fresh_of ob) dt with
  | Ok (_, s), Ok (_, s') => s = s' | Raise e, Raise e' => e = e' | _, _ => False end.
Proof.
move=> hc.
have dense cks f : cks_of r = Some cks ->
  match sp_dense K sys ob dt cks f, sp_dense K sys (fresh_of ob) dt cks f with
  | Ok (_, s), Ok (_, s') => s = s' | Raise e, Raise e' => e = e' | _, _ => False end.
  move=> hr; rewrite /sp_dense /update_dense_phiLs /=.
  case: (hist_y _ 0) => [yt|] //=.
  case: ifP => [hit|_]; last first.
    by case: (lo_dense _) => [L|] //=; case: (fill_dict _ _ _ _ _) => [dd|] //=; case: (f _ _ _ _).
  move: hit; rewrite /cache_hit; case E: (sp_dt ob) => [d|] // /andP [d0 /eqP ed].
  have [t [u [L [dict [-> [hL hd]]]]]] := hc _ E d0 _ hr.
  rewrite -ed (const _ yt t u) hL /= hd /=; by case: (f _ _ _ _).
case: r hc dense => // hc dense; rewrite /sp_run /=; do ?[by apply: dense].
- by case: (step_exp1 _ _ _ _ _ _).
- by case: (step_exp2 _ _ _ _ _ _).
- by case: (step_exp3 _ _ _ _ _ _).
Qed.

(* same history, sound caches: same future *)
Definition sp_rel r (ob1 ob2 : spobj F n) := sp_hist ob1 = sp_hist ob2 /\ cache_ok r ob1 /\ cache_ok r ob2.
Lemma sp_rel_step r ob1 ob2 dt kw : split_step_routine m = Ok r -> sp_rel r ob1 ob2 ->
  match step ob1 dt kw, step ob2 dt kw with
     | Ok (a, s), Ok (b, s') => s = s' /\ sp_rel r a b
     | Raise e, Raise e' => e = e'
     | _, _ => False end.
Proof.
move=> hr [hh [c1 c2]].
have t1 := @sp_step_t F KW K n kd iom m sys ob1 dt kw; have t2 := @sp_step_t F KW K n kd iom m sys ob2 dt kw.
move: t1 t2; rewrite /step /sp_step hr /=.
have := cache_transparent dt c1; have := cache_transparent dt c2; rewrite /fresh_of hh.
case E1: (sp_run _ _ _ _ _ ob1 _) => [[a s]|e]; case E2: (sp_run _ _ _ _ _ ob2 _) => [[b s']|e'];
 case: (sp_run _ _ _ _ _ _ _) => [[c s'']|e''] // -> -> // t1 t2.
split=> //; split; last by split; [apply: cache_step E1 | apply: cache_step E2].
by have [-> _] := t1 _ _ erefl; have [-> _] := t2 _ _ erefl.
Qed.
End Cache.

(* without a cached step size the cache content is irrelevant *)
Section NoDt.
Variables (kd iom : nat) (m : string) (sys : splitsys F KW n).
Definition same_but_unused (ob1 ob2 : spobj F n) :=
  sp_hist ob1 = sp_hist ob2 /\ sp_dt ob1 = sp_dt ob2 /\ (sp_dt ob1 <> None -> sp_cache ob1 = sp_cache ob2).
Lemma unused_step ob1 ob2 dt kw : same_but_unused ob1 ob2 ->
  match sp_step K kd iom m sys ob1 dt kw, sp_step K kd iom m sys ob2 dt kw with
     | Ok (a, s), Ok (b, s') => s = s' /\ same_but_unused a b
     | Raise e, Raise e' => e = e'
     | _, _ => False end.
Proof.
case: ob1 ob2 => [h1 d1 c1] [h2 d2 c2] [/= <- [/= <- /= hc]]; case: d1 hc => [d|] hc.
  have -> : c1 = c2 by apply: hc.
  by case: (sp_step _ _ _ _ _ _ _ _) => [[a s]|] //; split.
rewrite /sp_step; case: (split_step_routine m) => [r|] //=.
have dense cks f :
  match sp_dense K sys (SpObj h1 None c1) dt cks f, sp_dense K sys (SpObj h1 None c2) dt cks f with
  | Ok (a, s), Ok (b, s') => s = s' /\ same_but_unused a b | Raise e, Raise e' => e = e' | _, _ => False end.
  rewrite /sp_dense /update_dense_phiLs /=.
  case: (hist_y _ 0) => [yt|] //=; case: (lo_dense _) => [L|] //=; case: (fill_dict _ _ _ _ _) => [dd|] //=.
  by case: (f _ _ _ _).
case: r => //; rewrite /sp_run /step_exp1_dense /step_exp2_dense /step_exp3_dense; last first.
- have := dense (cks3 F) (fun t yt lop d => exp3_jit sys t dt yt lop d (2%:R / 3%:R) (2%:R / 3%:R)).
  by case: (sp_dense _ _ (SpObj h1 None c1) _ _ _) => [[a s]|e]; case: (sp_dense _ _ (SpObj h1 None c2) _ _ _) => [[b s']|e'].
- have := dense (cks2 F) (fun t yt lop d => exp2_jit sys t dt yt lop d (2%:R / 3%:R)).
  by case: (sp_dense _ _ (SpObj h1 None c1) _ _ _) => [[a s]|e]; case: (sp_dense _ _ (SpObj h1 None c2) _ _ _) => [[b s']|e'].
- have := dense (cks1 F) (fun t yt _ d => exp1_jit sys t dt yt d).
  by case: (sp_dense _ _ (SpObj h1 None c1) _ _ _) => [[a s]|e]; case: (sp_dense _ _ (SpObj h1 None c2) _ _ _) => [[b s']|e'].
- by case: (step_exp3 _ _ _ _ _ _).
- by case: (step_exp2 _ _ _ _ _ _).
- by case: (step_exp1 _ _ _ _ _ _).
Qed.
End NoDt.
End Obj.
