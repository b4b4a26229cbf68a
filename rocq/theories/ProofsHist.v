From Coq Require Import List Arith Lia.
From Verif Require Import ModelHist SpecHist.
Import ListNotations.
Set Implicit Arguments.
Unset Strict Implicit.

Lemma firstn_cons_cons A (k : nat) (x : A) l : firstn (S k) (x :: l) = x :: firstn k l.
Proof. reflexivity. Qed.

Lemma firstn_cons_firstn A k (x : A) l : firstn k (x :: firstn k l) = firstn k (x :: l).
Proof.
  destruct k as [|k]; [reflexivity|]. rewrite !(firstn_cons_cons k). f_equal.
  rewrite firstn_firstn. f_equal. lia.
Qed.

Section HistProofs.
Variables T Y : Type.
Implicit Types h : hist T Y.

(* abstraction: a history represents a (nonempty) log *)
Definition represents h (log : list (T * Y)) : Prop :=
  log <> [] /\ 0 < h_order h /\
  h_ts h = map fst (newest (h_order h) log) /\
  h_ys h = map snd (newest (h_order h) log) /\
  Some (h_t h) = option_map fst (hd_error (rev log)).

Lemma represents_init order t0 y0 h :
  hist_init order t0 y0 = Ok h -> represents h [(t0, y0)] /\ h_order h = order.
Proof.
  unfold hist_init. destruct (Nat.ltb_spec 0 order) as [Ho|Ho]; [|discriminate].
  intros H. injection H as <-. split; [|reflexivity].
  unfold represents, newest, appendleft, appendleftY; cbn.
  destruct order as [|o]; [lia|]. cbn. rewrite !firstn_nil. cbn.
  split; [discriminate|split; [lia|repeat split]].
Qed.

Lemma represents_reset h log t0 y0 :
  represents h log -> represents (hist_reset h t0 y0) [(t0, y0)].
Proof.
  intros (_ & Ho & _). unfold represents, newest, hist_reset, appendleft, appendleftY; cbn.
  destruct (h_order h) as [|o]; [lia|]. cbn. rewrite !firstn_nil. cbn.
  split; [discriminate|split; [lia|repeat split]].
Qed.

Lemma represents_accept h log s :
  represents h log -> represents (hist_accept h s) (log ++ [(sr_t s, sr_y s)]).
Proof.
  intros (Hn & Ho & Hts & Hys & Ht).
  unfold represents, hist_accept, newest, appendleft, appendleftY in *.
  cbn [h_order h_ts h_ys h_t] in *.
  rewrite rev_app_distr. cbn [rev app].
  split; [destruct log; discriminate|]. split; [exact Ho|].
  rewrite Hts, Hys.
  split; [|split].
  - change (sr_t s :: map fst (firstn (h_order h) (rev log)))
      with (map fst ((sr_t s, sr_y s) :: firstn (h_order h) (rev log))).
    rewrite firstn_map, firstn_cons_firstn. reflexivity.
  - change (sr_y s :: map snd (firstn (h_order h) (rev log)))
      with (map snd ((sr_t s, sr_y s) :: firstn (h_order h) (rev log))).
    rewrite firstn_map, firstn_cons_firstn. reflexivity.
  - reflexivity.
Qed.

Lemma represents_do h log o :
  represents h log -> represents (hist_do h o) (accepted_log log [o]).
Proof.
  destruct o as [s|t0 y0]; cbn; intros H.
  - now apply represents_accept.
  - now apply represents_reset with (log := log).
Qed.

Lemma do_order h o : h_order (hist_do h o) = h_order h.
Proof. now destruct o. Qed.

Lemma fold_do_order ops h : h_order (fold_left (@hist_do T Y) ops h) = h_order h.
Proof.
  revert h; induction ops as [|o ops IH]; intros h; cbn; [reflexivity|].
  now rewrite IH, do_order.
Qed.

Lemma represents_ops ops : forall h log,
  represents h log -> represents (fold_left (@hist_do T Y) ops h) (accepted_log log ops).
Proof.
  induction ops as [|o ops IH]; intros h log H; cbn [fold_left accepted_log]; [exact H|].
  pose proof (represents_do o H) as H1. cbn [accepted_log] in H1.
  destruct o as [s|t0 y0]; apply IH; exact H1.
Qed.

Lemma history_window order t0 y0 h ops :
  hist_init order t0 y0 = Ok h ->
  let h' := fold_left (@hist_do T Y) ops h in
  let log := accepted_log [(t0, y0)] ops in
  combine (h_ts h') (h_ys h') = newest order log /\
  length (h_ts h') = Nat.min order (length log) /\
  length (h_ys h') = Nat.min order (length log) /\
  Some (hist_time h') = hd_error (h_ts h') /\
  h_order h' = order.
Proof.
  intros Hi h' log.
  destruct (represents_init Hi) as [Hr Ho].
  pose proof (represents_ops ops Hr) as (Hne & Hpos & Hts & Hys & Ht).
  fold h' in Hne, Hpos, Hts, Hys, Ht. fold log in Hne, Hts, Hys, Ht.
  assert (Ho' : h_order h' = order) by (unfold h'; rewrite fold_do_order; exact Ho).
  rewrite Ho' in *.
  repeat split.
  - rewrite Hts, Hys. generalize (newest order log) as l.
    induction l as [|[a b] l IH]; cbn; [reflexivity|now rewrite IH].
  - rewrite Hts, map_length. unfold newest. now rewrite firstn_length, rev_length.
  - rewrite Hys, map_length. unfold newest. now rewrite firstn_length, rev_length.
  - unfold hist_time. rewrite Ht, Hts. unfold newest.
    destruct order as [|k]; [lia|]. destruct (rev log) as [|p l] eqn:E.
    + exfalso. apply Hne. rewrite <- (rev_involutive log), E. reflexivity.
    + reflexivity.
Qed.

Lemma reset_fresh order t0 y0 h ops t1 y1 h1 :
  hist_init order t0 y0 = Ok h ->
  hist_init order t1 y1 = Ok h1 ->
  hist_reset (fold_left (@hist_do T Y) ops h) t1 y1 = h1.
Proof.
  intros Hi H1. unfold hist_reset. rewrite fold_do_order.
  unfold hist_init in *. destruct (Nat.ltb 0 order); [|discriminate].
  injection Hi as <-. injection H1 as <-. reflexivity.
Qed.

Lemma init_ok order t0 y0 :
  (exists h, hist_init order t0 y0 = Ok h) <-> 0 < order.
Proof.
  unfold hist_init. destruct (Nat.ltb_spec 0 order) as [H|H].
  - split; [intros _; exact H | intros _; eexists; reflexivity].
  - split; [intros [h Hh]; discriminate | lia].
Qed.

Lemma state_none order t0 y0 h ops :
  hist_init order t0 y0 = Ok h ->
  hist_state (fold_left (@hist_do T Y) ops h) = Ok None.
Proof.
  intros Hi. pose proof (history_window ops Hi) as HW; cbv zeta in HW; destruct HW as (Hc & Hl1 & Hl2 & Ht & Ho).
  unfold hist_state. destruct (h_ys _) eqn:E; [|reflexivity].
  exfalso. destruct (represents_init Hi) as [Hr _].
  pose proof (represents_ops ops Hr) as (Hne & Hpos & _ & Hys & _).
  cbn in Hl2.
  destruct (represents_init Hi) as [(_ & Hpos0 & _) Ho0]. rewrite Ho0 in Hpos0.
  destruct (accepted_log [(t0, y0)] ops) eqn:El; [congruence|]. cbn in Hl2. lia.
Qed.

Lemma has_prev_iff order t0 y0 h ops :
  hist_init order t0 y0 = Ok h ->
  hist_has_prev (fold_left (@hist_do T Y) ops h) = true <->
  2 <= order /\ 2 <= length (accepted_log [(t0, y0)] ops).
Proof.
  intros Hi. pose proof (history_window ops Hi) as HW; cbv zeta in HW; destruct HW as (Hc & Hl1 & Hl2 & Ht & Ho).
  unfold hist_has_prev. rewrite Nat.leb_le. rewrite Hl2. lia.
Qed.

End HistProofs.

Section DriverProofs.
Variables T Y S C W : Type.
Variable step : S -> T -> option C -> result (S * step_result T Y).
Variable accept : S -> step_result T Y -> S.

Lemma rbind_ok A B (r : result A) (k : A -> result B) b :
  rbind r k = Ok b -> exists a, r = Ok a /\ k a = Ok b.
Proof. destruct r as [a|e]; cbn; intros H; [now exists a|discriminate]. Qed.

Lemma drv_loop_app cb1 cb2 n m t0 y0 dt (d : drv T Y S C W) :
  drv_loop step accept cb1 cb2 (n + m) t0 y0 dt d =
  rbind (drv_loop step accept cb1 cb2 n t0 y0 dt d)
        (drv_loop step accept cb1 cb2 m t0 y0 dt).
Proof.
  revert d; induction n as [|n IH]; intros d; cbn [Nat.add drv_loop rbind]; [reflexivity|].
  destruct (drv_iter step accept cb1 cb2 t0 y0 dt d) as [d'|e]; cbn [rbind]; [apply IH|reflexivity].
Qed.

Lemma drv_loop_snoc cb1 cb2 n t0 y0 dt (d : drv T Y S C W) :
  drv_loop step accept cb1 cb2 (Datatypes.S n) t0 y0 dt d =
  rbind (drv_loop step accept cb1 cb2 n t0 y0 dt d) (drv_iter step accept cb1 cb2 t0 y0 dt).
Proof.
  replace (Datatypes.S n) with (n + 1) by lia. rewrite drv_loop_app.
  destruct (drv_loop step accept cb1 cb2 n t0 y0 dt d) as [d'|e]; cbn [rbind]; [|reflexivity].
  cbn [drv_loop]. destruct (drv_iter step accept cb1 cb2 t0 y0 dt d'); reflexivity.
Qed.

(* what one iteration does, in one place *)
Lemma drv_iter_ok cb1 cb2 t0 y0 dt (d d' : drv T Y S C W) :
  drv_iter step accept cb1 cb2 t0 y0 dt d = Ok d' ->
  exists w1 kw s' r,
    match cb1 with
    | Some f => exists c, f (d_world d) (last (d_ts d) t0) (last (d_ys d) y0) = (w1, c) /\
                          kw = Some c /\ d_cb1 d' = d_cb1 d ++ [c]
    | None => w1 = d_world d /\ kw = None /\ d_cb1 d' = d_cb1 d
    end /\
    step (d_int d) dt kw = Ok (s', r) /\
    d_ts d' = d_ts d ++ [sr_t r] /\ d_ys d' = d_ys d ++ [sr_y r] /\
    d_int d' = accept s' r /\
    match cb2 with
    | Some g => exists c, g w1 (sr_t r) (sr_y r) = (d_world d', c) /\ d_cb2 d' = d_cb2 d ++ [c]
    | None => d_world d' = w1 /\ d_cb2 d' = d_cb2 d
    end.
Proof.
  unfold drv_iter. intros H. apply rbind_ok in H. destruct H as ([[[s' r] w] l1] & H1 & H2).
  rewrite !last_last in H2.
  exists w.
  destruct cb1 as [f|].
  - destruct (f (d_world d) (last (d_ts d) t0) (last (d_ys d) y0)) as [w1 c] eqn:Ef.
    apply rbind_ok in H1. destruct H1 as (sr & Hs & Hk). injection Hk as -> <- <-.
    exists (Some c), s', r.
    destruct cb2 as [g|].
    + destruct (g w1 (sr_t r) (sr_y r)) as [w2 c2] eqn:Eg. injection H2 as <-. cbn.
      repeat split; try assumption; eexists; repeat split; eassumption.
    + injection H2 as <-. cbn. repeat split; try assumption.
      exists c; repeat split.
  - apply rbind_ok in H1. destruct H1 as (sr & Hs & Hk). injection Hk as -> <- <-.
    exists None, s', r.
    destruct cb2 as [g|].
    + destruct (g (d_world d) (sr_t r) (sr_y r)) as [w2 c2] eqn:Eg. injection H2 as <-. cbn.
      repeat split; try assumption; eexists; repeat split; eassumption.
    + injection H2 as <-. cbn. repeat split; assumption.
Qed.

Lemma lengths cb1 cb2 n s w t0 y0 dt (d : drv T Y S C W) :
  integrate_ormatex step accept cb1 cb2 s w y0 t0 dt n = Ok d ->
  length (d_ts d) = Datatypes.S n /\ length (d_ys d) = Datatypes.S n /\
  length (d_cb1 d) = (if cb1 then n else 0) /\ length (d_cb2 d) = (if cb2 then n else 0) /\
  hd_error (d_ts d) = Some t0 /\ hd_error (d_ys d) = Some y0.
Proof.
  unfold integrate_ormatex. revert d. induction n as [|n IH]; intros d H.
  - cbn in H. injection H as <-. cbn. now destruct cb1, cb2.
  - rewrite drv_loop_snoc in H. apply rbind_ok in H. destruct H as (d0 & H0 & H1).
    specialize (IH _ H0). destruct IH as (L1 & L2 & L3 & L4 & L5 & L6).
    apply drv_iter_ok in H1. destruct H1 as (w1 & kw & s' & r & Hb & Hs & Ht & Hy & Hi & Ha).
    rewrite Ht, Hy, !app_length, L1, L2. cbn.
    assert (HH : forall A (l : list A) x y, hd_error l = Some x -> hd_error (l ++ [y]) = Some x)
      by (intros A [|? ?] ? ?; cbn; [discriminate|trivial]).
    repeat split; try lia; try (now apply HH).
    + destruct cb1 as [f|].
      * destruct Hb as (c & _ & _ & ->). rewrite app_length, L3. cbn; lia.
      * destruct Hb as (_ & _ & ->). exact L3.
    + destruct cb2 as [g|].
      * destruct Ha as (c & _ & ->). rewrite app_length, L4. cbn; lia.
      * destruct Ha as (_ & ->). exact L4.
Qed.

Lemma times cb1 cb2 n s w t0 y0 dt (d : drv T Y S C W)
  (add : T -> T -> T) (time_of : S -> T) (Inv : S -> Prop) :
  (forall s c s' r, Inv s -> step s dt c = Ok (s', r) ->
      sr_t r = add (time_of s) dt /\ Inv (accept s' r) /\ time_of (accept s' r) = sr_t r) ->
  Inv s -> time_of s = t0 ->
  integrate_ormatex step accept cb1 cb2 s w y0 t0 dt n = Ok d ->
  forall i, i <= n -> nth_error (d_ts d) i = Some (added_times add t0 dt i).
Proof.
  intros Hstep Hs0 Ht0 H.
  enough (G : Inv (d_int d) /\ time_of (d_int d) = added_times add t0 dt n /\
              forall i, i <= n -> nth_error (d_ts d) i = Some (added_times add t0 dt i)).
  { apply G. }
  revert d H. unfold integrate_ormatex. induction n as [|n IH]; intros d H.
  - cbn in H. injection H as <-. cbn. repeat split; try assumption.
    intros i Hi. replace i with 0 by lia. reflexivity.
  - pose proof H as H'. rewrite drv_loop_snoc in H. apply rbind_ok in H. destruct H as (d0 & H0 & H1).
    destruct (IH _ H0) as (I0 & T0 & N0).
    destruct (@lengths cb1 cb2 n s w t0 y0 dt d0 H0) as (L1 & _).
    apply drv_iter_ok in H1. destruct H1 as (w1 & kw & s' & r & Hb & Hs & Ht & Hy & Hi & Ha).
    destruct (Hstep _ _ _ _ I0 Hs) as (E1 & E2 & E3).
    rewrite Hi. split; [exact E2|]. rewrite E3, E1, T0. split; [reflexivity|].
    intros i Hin. rewrite Ht. destruct (Nat.eq_dec i (Datatypes.S n)) as [->|Hne].
    + rewrite nth_error_app2 by lia. rewrite L1, Nat.sub_diag. cbn.
      f_equal. rewrite E1, T0. reflexivity.
    + rewrite nth_error_app1 by lia. apply N0. lia.
Qed.

Lemma nth_error_firstn A (l l' : list A) n :
  n <= length l -> (forall i, i < n -> nth_error l' i = nth_error l i) -> firstn n l' = firstn n l.
Proof.
  revert l l'. induction n as [|n IH]; intros l l' Hl H; [reflexivity|].
  destruct l as [|a l]; [cbn in Hl; lia|].
  pose proof (H 0 ltac:(lia)) as H0. destruct l' as [|a' l']; [discriminate|].
  cbn in H0. injection H0 as ->. cbn [firstn]. f_equal. apply IH; [cbn in Hl; lia|].
  intros i Hi. exact (H (Datatypes.S i) ltac:(lia)).
Qed.

Lemma loop_extends cb1 cb2 m t0 y0 dt (d d' : drv T Y S C W) :
  drv_loop step accept cb1 cb2 m t0 y0 dt d = Ok d' ->
  (exists l, d_ts d' = d_ts d ++ l) /\ (exists l, d_ys d' = d_ys d ++ l) /\
  (exists l, d_cb1 d' = d_cb1 d ++ l) /\ (exists l, d_cb2 d' = d_cb2 d ++ l).
Proof.
  revert d'. induction m as [|m IH]; intros d' H.
  - cbn in H. injection H as <-. repeat split; exists []; now rewrite app_nil_r.
  - rewrite drv_loop_snoc in H. apply rbind_ok in H. destruct H as (d0 & H0 & H1).
    destruct (IH _ H0) as ((l1 & E1) & (l2 & E2) & (l3 & E3) & (l4 & E4)).
    apply drv_iter_ok in H1. destruct H1 as (w1 & kw & s' & r & Hb & Hs & Ht & Hy & Hi & Ha).
    rewrite Ht, Hy, E1, E2. repeat split.
    + eexists; now rewrite <- app_assoc.
    + eexists; now rewrite <- app_assoc.
    + destruct cb1 as [f|]; [destruct Hb as (c & _ & _ & ->)|destruct Hb as (_ & _ & ->)];
        rewrite E3; eexists; [now rewrite <- app_assoc|reflexivity].
    + destruct cb2 as [g|]; [destruct Ha as (c & _ & ->)|destruct Ha as (_ & ->)];
        rewrite E4; eexists; [now rewrite <- app_assoc|reflexivity].
Qed.

Lemma firstn_app_exact A n (l l' : list A) : length l = n -> firstn n (l ++ l') = l.
Proof. intros <-. rewrite firstn_app, Nat.sub_diag, firstn_all, firstn_O. apply app_nil_r. Qed.

Lemma prefix cb1 cb2 n m s w t0 y0 dt (d2 : drv T Y S C W) :
  integrate_ormatex step accept cb1 cb2 s w y0 t0 dt (n + m) = Ok d2 ->
  exists d1, integrate_ormatex step accept cb1 cb2 s w y0 t0 dt n = Ok d1 /\
    drv_loop step accept cb1 cb2 m t0 y0 dt d1 = Ok d2 /\
    firstn (Datatypes.S n) (d_ts d2) = d_ts d1 /\ firstn (Datatypes.S n) (d_ys d2) = d_ys d1.
Proof.
  unfold integrate_ormatex. rewrite drv_loop_app. intros H.
  apply rbind_ok in H. destruct H as (d1 & H1 & H2). exists d1.
  destruct (@lengths cb1 cb2 n s w t0 y0 dt d1 H1) as (L1 & L2 & _).
  destruct (loop_extends H2) as ((l1 & E1) & (l2 & E2) & _).
  repeat split; [exact H1|exact H2| |].
  - rewrite E1. now apply firstn_app_exact.
  - rewrite E2. now apply firstn_app_exact.
Qed.

Lemma raise_stays cb1 cb2 n m s (w : W) t0 y0 dt e :
  integrate_ormatex step accept cb1 cb2 s w y0 t0 dt n = Raise e ->
  integrate_ormatex step accept cb1 cb2 s w y0 t0 dt (n + m) = Raise e.
Proof.
  unfold integrate_ormatex. rewrite drv_loop_app. intros ->. reflexivity.
Qed.

(* restart: continuing from the final object with a second driver call *)
Lemma restart cb1 cb2 n m s w t0 y0 dt (d1 d2 d3 : drv T Y S C W) t1 y1 :
  integrate_ormatex step accept cb1 cb2 s w y0 t0 dt n = Ok d1 ->
  t1 = last (d_ts d1) t0 -> y1 = last (d_ys d1) y0 ->
  integrate_ormatex step accept cb1 cb2 s w y0 t0 dt (n + m) = Ok d2 ->
  integrate_ormatex step accept cb1 cb2 (d_int d1) (d_world d1) y1 t1 dt m = Ok d3 ->
  d_ts d2 = removelast (d_ts d1) ++ d_ts d3 /\ d_ys d2 = removelast (d_ys d1) ++ d_ys d3 /\
  d_int d2 = d_int d3 /\ d_world d2 = d_world d3 /\
  d_cb1 d2 = d_cb1 d1 ++ d_cb1 d3 /\ d_cb2 d2 = d_cb2 d1 ++ d_cb2 d3.
Proof.
  intros H1 Et Ey H2 H3.
  unfold integrate_ormatex in H2. rewrite drv_loop_app in H2.
  unfold integrate_ormatex in H1. rewrite H1 in H2. cbn [rbind] in H2.
  destruct (@lengths cb1 cb2 n s w t0 y0 dt d1 H1) as (L1 & L2 & _).
  unfold integrate_ormatex in H3.
  revert d2 d3 H2 H3. induction m as [|m IH]; intros d2 d3 H2 H3.
  - cbn in H2, H3. injection H2 as <-. injection H3 as <-. cbn.
    rewrite !app_nil_r, Et, Ey. repeat split; apply app_removelast_last;
      intros E; rewrite E in *; discriminate.
  - rewrite drv_loop_snoc in H2, H3.
    apply rbind_ok in H2. destruct H2 as (d2' & H2 & I2).
    apply rbind_ok in H3. destruct H3 as (d3' & H3 & I3).
    destruct (IH _ _ H2 H3) as (A1 & A2 & A3 & A4 & A5 & A6).
    destruct (@lengths cb1 cb2 m (d_int d1) (d_world d1) t1 y1 dt d3' H3) as (M1 & M2 & _).
    apply drv_iter_ok in I2. destruct I2 as (w1 & kw & s' & r & Hb & Hs & Ht & Hy & Hi & Ha).
    apply drv_iter_ok in I3. destruct I3 as (w1' & kw' & s'' & r' & Hb' & Hs' & Ht' & Hy' & Hi' & Ha').
    assert (Lt : last (d_ts d2') t0 = last (d_ts d3') t1).
    { rewrite A1. destruct (d_ts d3') as [|x l] using rev_ind; [discriminate|].
      rewrite app_assoc, !last_last. reflexivity. }
    assert (Ly : last (d_ys d2') y0 = last (d_ys d3') y1).
    { rewrite A2. destruct (d_ys d3') as [|x l] using rev_ind; [discriminate|].
      rewrite app_assoc, !last_last. reflexivity. }
    rewrite Lt, Ly, A4 in Hb. rewrite A3 in Hs.
    assert (Ekw : w1 = w1' /\ kw = kw' /\ d_cb1 d2 = d_cb1 d1 ++ d_cb1 d3).
    { destruct cb1 as [f|].
      - destruct Hb as (c & E1 & E2 & E3). destruct Hb' as (c' & E1' & E2' & E3').
        rewrite E1 in E1'. injection E1' as <- <-. subst kw kw'.
        repeat split. rewrite E3, E3', A5. apply eq_sym, app_assoc.
      - destruct Hb as (E1 & E2 & E3). destruct Hb' as (E1' & E2' & E3').
        subst. repeat split. congruence. }
    destruct Ekw as (<- & <- & Ecb1).
    rewrite Hs in Hs'. injection Hs' as <- <-.
    rewrite Ht, Ht', Hy, Hy', A1, A2, Hi, Hi', !app_assoc.
    repeat split; try assumption.
    + destruct cb2 as [g|].
      * destruct Ha as (c & E1 & E2). destruct Ha' as (c' & E1' & E2').
        rewrite E1 in E1'. now injection E1' as <- <-.
      * destruct Ha, Ha'. congruence.
    + destruct cb2 as [g|].
      * destruct Ha as (c & E1 & E2). destruct Ha' as (c' & E1' & E2').
        rewrite E1 in E1'. injection E1' as E1a <-. rewrite E2, E2', A6. apply eq_sym, app_assoc.
      * destruct Ha as (? & ->), Ha' as (? & ->). assumption.
Qed.

End DriverProofs.

(* callback protocol, observed through logging callbacks *)
Section Callbacks.
Variables T Y S C : Type.
Variable step : S -> T -> option C -> result (S * step_result T Y).
Variable accept : S -> step_result T Y -> S.
Variables fb fa : T -> Y -> C.

Definition log_before (w : list (event T Y)) (t : T) (y : Y) := (w ++ [EvBefore t y], fb t y).
Definition log_after (w : list (event T Y)) (t : T) (y : Y) := (w ++ [EvAfter t y], fa t y).

Lemma expected_events_snoc (l : list (T * Y)) p q :
  expected_events (l ++ [p] ++ [q]) =
  expected_events (l ++ [p]) ++ [EvBefore (fst p) (snd p); EvAfter (fst q) (snd q)].
Proof.
  induction l as [|a l IH]; [reflexivity|].
  destruct l as [|b l].
  - reflexivity.
  - cbn [app] in *. cbn [expected_events]. cbn [expected_events] in IH. now rewrite IH.
Qed.

Lemma combine_snoc A B (l : list A) (l' : list B) a b :
  length l = length l' -> combine (l ++ [a]) (l' ++ [b]) = combine l l' ++ [(a, b)].
Proof.
  revert l'. induction l as [|x l IH]; intros [|y l'] H; try discriminate; [reflexivity|].
  cbn. f_equal. apply IH. now injection H.
Qed.

Lemma callbacks n s t0 y0 dt d :
  integrate_ormatex step accept (Some log_before) (Some log_after) s [] y0 t0 dt n = Ok d ->
  d_world d = expected_events (combine (d_ts d) (d_ys d)) /\
  d_cb1 d = map (fun p => fb (fst p) (snd p)) (removelast (combine (d_ts d) (d_ys d))) /\
  d_cb2 d = map (fun p => fa (fst p) (snd p)) (tl (combine (d_ts d) (d_ys d))).
Proof.
  revert d. induction n as [|n IH]; intros d H.
  - cbn in H. injection H as <-. repeat split.
  - unfold integrate_ormatex in H. rewrite drv_loop_snoc in H.
    apply rbind_ok in H. destruct H as (d0 & H0 & H1).
    destruct (IH _ H0) as (E1 & E2 & E3).
    destruct (lengths H0) as (L1 & L2 & _).
    apply drv_iter_ok in H1. destruct H1 as (w1 & kw & s' & r & Hb & Hs & Ht & Hy & Hi & Ha).
    destruct Hb as (c & B1 & B2 & B3). destruct Ha as (c' & A1 & A2).
    unfold log_before in B1. unfold log_after in A1.
    injection B1 as <- <-. injection A1 as <- <-.
    rewrite Ht, Hy, combine_snoc by congruence.
    destruct (d_ts d0) as [|lt lts _] using rev_ind; [discriminate|].
    destruct (d_ys d0) as [|ly lys _] using rev_ind; [discriminate|].
    rewrite !app_length in *. cbn in L1, L2.
    rewrite !combine_snoc in * by lia. rewrite !last_last in *.
    rewrite <- !app_assoc. rewrite expected_events_snoc, <- E1.
    split; [reflexivity|]. split.
    + rewrite B3, E2. cbn [app].
      change ((lt, ly) :: [(sr_t r, sr_y r)]) with ([(lt, ly)] ++ [(sr_t r, sr_y r)]).
      rewrite app_assoc, !removelast_last, map_app. reflexivity.
    + rewrite A2, E3.
      change ([(lt, ly)] ++ [(sr_t r, sr_y r)]) with ([(lt, ly); (sr_t r, sr_y r)]).
      destruct (combine lts lys) as [|p ps]; cbn; [reflexivity|].
      rewrite !map_app. cbn. now rewrite <- app_assoc.
Qed.

(* what each step call receives *)
Lemma step_receives (W : Type) (f : W -> T -> Y -> W * C) cb2 n s w t0 y0 dt (d : drv T Y S C W) :
  integrate_ormatex step accept (Some f) cb2 s w y0 t0 dt n = Ok d ->
  forall i, i < n -> exists wi ti yi ci si s' r,
    nth_error (d_ts d) i = Some ti /\ nth_error (d_ys d) i = Some yi /\
    nth_error (d_cb1 d) i = Some ci /\ snd (f wi ti yi) = ci /\
    step si dt (Some ci) = Ok (s', r) /\
    nth_error (d_ts d) (i + 1) = Some (sr_t r) /\ nth_error (d_ys d) (i + 1) = Some (sr_y r).
Proof.
  intros H i Hi. replace n with ((i + 1) + (n - i - 1)) in H by lia.
  destruct (prefix H) as (d1 & H1 & _ & P1 & P2).
  destruct (lengths H) as (Q1 & Q2 & Q3 & _).
  pose proof H as HX. unfold integrate_ormatex in HX. rewrite drv_loop_app in HX.
  unfold integrate_ormatex in H1. rewrite H1 in HX. cbn [rbind] in HX.
  destruct (loop_extends HX) as (_ & _ & (l3 & E3) & _).
  replace (i + 1) with (Datatypes.S i) in H1 by lia. rewrite drv_loop_snoc in H1.
  apply rbind_ok in H1. destruct H1 as (d0 & H0 & I0).
  destruct (@lengths _ _ _ _ _ step accept _ _ i s w t0 y0 dt d0 H0) as (L1 & L2 & L3 & _).
  apply drv_iter_ok in I0. destruct I0 as (w1 & kw & s' & r & Hb & Hs & Ht & Hy & Hi' & Ha).
  destruct Hb as (c & B1 & B2 & B3). subst kw.
  assert (K : forall A (l1 l2 l0 : list A) x, length l0 = Datatypes.S i ->
      firstn (Datatypes.S (i+1)) l2 = l1 -> l1 = l0 ++ [x] ->
      (forall dflt, nth_error l2 i = Some (last l0 dflt)) /\ nth_error l2 (i+1) = Some x).
  { intros A l1 l2 l0 x HL0 Hf He.
    assert (Hl2 : exists tl2, l2 = l1 ++ tl2)
      by (exists (skipn (Datatypes.S (i+1)) l2); rewrite <- Hf; symmetry; apply firstn_skipn).
    destruct Hl2 as (tl2 & ->). rewrite He, <- app_assoc.
    destruct l0 as [|z l0 _] using rev_ind; [discriminate|].
    rewrite app_length in HL0; cbn in HL0. split.
    - intros dflt. rewrite last_last.
      rewrite nth_error_app1 by (rewrite app_length; cbn; lia).
      rewrite nth_error_app2 by lia. replace (i - length l0) with 0 by lia. reflexivity.
    - rewrite nth_error_app2 by (rewrite app_length; cbn; lia).
      rewrite app_length; cbn. replace (i + 1 - (length l0 + 1)) with 0 by lia. reflexivity. }
  destruct (K _ _ _ _ _ L1 P1 Ht) as (K1 & K2).
  destruct (K _ _ _ _ _ L2 P2 Hy) as (K3 & K4).
  exists (d_world d0), (last (d_ts d0) t0), (last (d_ys d0) y0), c, (d_int d0), s', r.
  repeat split; try assumption.
  - apply K1.
  - apply K3.
  - rewrite E3, B3, <- app_assoc. rewrite nth_error_app2 by (cbn in L3; lia).
    cbn in L3. replace (i - length (d_cb1 d0)) with 0 by lia. reflexivity.
  - rewrite B1. reflexivity.
Qed.

End Callbacks.
