(* PropConvRs3.v : C70, the Runge-Kutta object, and the problems on which the nominal order is not attained. *)
From Coq Require Import Reals String Lra.
From mathcomp Require Import all_ssreflect all_algebra.
From mathcomp Require Import complex ring.
From Verif Require Import Rstruct Summable MxBase MxSeries ProofsPhiErr ModelHist SpecHist ModelOps SpecOps SpecPhi ModelPhi ModelKrylov ModelDispatch ModelInt SpecInt ProofsInt ProofsInt5 SpecExact ProofsOde ProofsExact.
From Verif Require Import SpecProg SpecOrder SpecOrder2 SpecConv ProofsJet ProofsJet2 ProofsJet3 ProofsOrder ProofsOrder2 ProofsOrder3 ProofsOrder4 ProofsOrder5 ProofsOrder6 ProofsOrder7 ProofsOrder8.
From Verif Require Import ProofsUJ ProofsUJ2 ProofsConv ProofsConv2 ProofsConv3 ProofsConv4 ProofsConv5 ProofsConv6 ProofsConv7 ProofsConv8 PropConv.
From Verif Require Import ModelRust SpecRust ProofsRust ProofsRust2 ProofsRust3 ProofsRust4 PropRust SpecConvRs ProofsConvRs ProofsConvRs2 ProofsConvRs3 PropConvRs PropConvRs2.
Set Implicit Arguments.
Unset Strict Implicit.
Unset Printing Implicit Defensive.
Import Order.TTheory GRing.Theory Num.Theory.
Local Open Scope ring_scope.
Local Opaque newton_loop jac_newton apply_phi_linop rkiops norm2.

Section Rk.
Variables (n : nat) (sys : rsys [rcfType of R] n) (dt t0 : R) (y0 : 'cV[R]_n) (order : nat).
Hypothesis ho : (0 < order <= 4)%N.
Fixpoint rky (i : nat) : 'cV[R]_n := if i is j.+1 then lagged_step sys order (t0 + dt *+ j)%R (rky j) dt else y0.
Lemma rrk_iterS o i : rrk_iter sys dt o i.+1 = (o' <- rrk_iter sys dt o i;; r <- rrk_step sys o' dt;; Ok (rrk_accept o' r)).
Proof. by []. Qed.
Lemma rrk_iterE o i : rrk_new t0 y0 order = Ok o -> exists o', [/\ rrk_iter sys dt o i = Ok o', rk_t o' = t0 + dt *+ i,
  rk_order o' = order, rk_bt o' = bt_factory [rcfType of R] order & List.nth_error (rk_ys o') 0 = Some (rky i)].
Proof.
rewrite /rrk_new ho => -[<-]; elim: i => [|i [o' [h1 h2 h3 h4 h5]]].
  by eexists; split; [reflexivity|rewrite mulr0n addr0|..].
eexists; split; first by rewrite rrk_iterS h1; cbn [rbind]; rewrite (rrk_stepE sys dt ho h3 h4 h2 h5); cbn [rbind].
- by rewrite /= mulrSr addrA.
- by [].
- by [].
- by [].
Qed.
End Rk.
Section RkConv.
Variables (B rad len : R).
Hypothesis B0 : 0 <= B.
Hypothesis r0 : 0 < rad.
Let B4 : 0 <= 4%:R * B. Proof. by rewrite mulr_ge0 ?ler0n. Qed.
Let rr := tr_gt0 r0 B0.
Theorem C70_rust_rk order : (0 < order <= 4)%N ->
  exists C h0 : R, [/\ 0 <= C, 0 < h0 & rs_rk_converges B rad len order C h0].
Proof.
move=> ho; have [C [h0 [C0 h00 G]]] := one_rk B4 rr ho.
exists (Cfin C len), (flev C h0 rad len); split; [exact: Cfin_ge0|exact: flev_gt0|].
move=> n sys z J H2 H3 t0 T dt N y0 o hn aut st hz hT hl d0 d1.
pose y := rky sys dt t0 y0 order.
exists [seq y i | i <- iota 0 N.+1]; split; first by rewrite size_map size_iota.
have nth_y i : (i <= N)%N -> List.nth_error [seq y i | i <- iota 0 N.+1] i = Some (y i).
  have gen (l : seq nat) j : (j < size l)%N -> List.nth_error [seq y i | i <- l] j = Some (y (nth 0%N l j)).
    by elim: l j => [|a l IH] [|j] //= => /IH.
  by move=> iN; rewrite gen ?size_iota // nth_iota.
split; last first.
  move=> i iN; have [o' [h1 h2 _ _ h5]] := rrk_iterE sys dt ho i hn; exists o'; split=> //.
  by rewrite h5 nth_y.
have p0 : (0 < order)%N by case/andP: ho.
move=> i iN; exists (y i); split; first exact: nth_y.
apply: (seq_tube p0 B0 r0 C0 h00 st d0 d1 (lexx 0) _ hT hl _ _ iN) => [||{i iN} i eta iN t q hin ub dh eh de hp].
- by apply: ltW; exact: flev_gt0.
- by rewrite hz.
exists order; split; first by left.
have := G (@UOm q dt eta 0 0 0 0 0 0) ub I dh eh.
by rewrite /rkv /= /y /= lagged_autonomous.
Qed.
End RkConv.

(* the parabola y0 + (s^2 - t0^2)/2, solution of u' = s *)
Definition parabola (t0 y0 s : R) : 'cV[R]_1 := const_mx (y0 + (s ^+ 2 - t0 ^+ 2) / 2%:R)%R.
Lemma dlim_sq (c a s : R) : derivable_pt_lim (fun s => c + (s ^+ 2 - a) / 2%:R)%R s s.
Proof.
move=> eps he; exists (mkposreal eps he) => h h0 hd.
have {}h0 : h != 0 by apply/eqP.
set e := Rminus _ s; have {e}-> : e = (h / 2%:R)%R.
  by rewrite /e RdivE // ?RminusE ?RplusE; field.
move/RltP: hd => /= hd; apply/RltP; apply: le_lt_trans hd.
rewrite !RabsE normrM normfV normr_nat ler_pdivr_mulr ?ltr0n // ler_pemulr ?normr_ge0 //.
by rewrite ler1n.
Qed.
Lemma parabola_deriv t0 y0 s : vderiv (parabola t0 y0) s (const_mx s).
Proof.
move=> i; rewrite mxE; apply: dlim_ext (dlim_sq y0 (t0 ^+ 2) s) => x; by rewrite mxE.
Qed.
(* u' = s: no Jacobian, a right-hand side that depends on time only *)
Definition clock : rsys [rcfType of R] 1 := RSys (fun s _ => const_mx s) (fun _ _ _ => 0).
Theorem C70_rk_time_dependent order t0 (y0 dt : R) i o o' y :
  (1 < order <= 4)%N -> rrk_new t0 (const_mx y0 : 'cV[R]_1) order = Ok o ->
  rrk_iter clock dt o i = Ok o' -> List.nth_error (rk_ys o') 0 = Some y ->
  let c : R := if order == 2%N then 2%:R^-1 else if order == 3%N then 5%:R / 12%:R else 4%:R^-1 in
  [/\ forall s, vderiv (parabola t0 y0) s (rs_frhs clock s (parabola t0 y0 s)), parabola t0 y0 t0 = const_mx y0 &
      parabola t0 y0 (t0 + dt *+ i)%R - y = const_mx (c * dt * (dt *+ i))].
Proof.
move=> ho hn hi hy c.
have ho1 : (0 < order <= 4)%N by case/andP: ho => h1 h2; rewrite (ltnW h1).
split; first exact: parabola_deriv.
  by apply/matrixP => k l; rewrite !mxE subrr mul0r addr0.
have [o2 [e1 _ _ _ e5]] := rrk_iterE clock dt ho1 i hn.
move: hi hy; rewrite e1 => -[<-]; rewrite e5 => -[<-] {o' o2 e1 e5 y}.
have st (t : R) (v : 'cV[R]_1) : lagged_step clock order t v dt = v + const_mx (dt * t + (2%:R^-1 - c) * dt ^+ 2).
  rewrite /c; case: order ho {c hn ho1} => [|[|[|[|[|//]]]]] // _; rewrite /lagged_step /=; apply/matrixP => k l; rewrite !mxE; move: (v k l) => x.
  - by rewrite subrr mul0r addr0.
  - have -> : (2%:R^-1 - 5%:R / 12%:R : R) = (2%:R * 6%:R)^-1 by field.
    have -> : (t + 4%:R * t + (t + dt / 2%:R) : R) = 6%:R * t + dt / 2%:R by ring.
    by field.
  - have -> : (2%:R^-1 - 4%:R^-1 : R) = 4%:R^-1 by field.
    by field.
apply/matrixP => k l; rewrite !mxE.
suff -> : rky clock dt t0 (const_mx y0) order i k l = y0 + dt * t0 *+ i + ((i%:R * (i%:R - 1)) / 2%:R + (2%:R^-1 - c) * i%:R) * dt ^+ 2.
  by rewrite -(mulr_natr (dt * t0)) -!(mulr_natr dt); move: (i%:R : R) (c) => x b; field.
elim: i => [|i IH]; first by rewrite /= mxE !mulr0n mul0r mulr0 !(addr0, mul0r) //.
rewrite [rky _ _ _ _ _ _]/= st mxE IH mxE -!(mulr_natr (dt * t0)) -!(mulr_natr dt) [i.+1%:R]mulrSr; move: (i%:R : R) (c) => x b; by field.
Qed.

(* the output of the driver as a sequence of iterates *)
Lemma rs_out n gmres (sys : rsys [rcfType of R] n) evals t0 dt N kwds m em dim iom tol o y0 ys ts :
  rs_options kwds m em dim iom tol o -> integrate_wrapper_rs gmres sys evals y0 t0 dt N kwds = Ok (ys, ts) ->
  exists s0, [/\ select_solver t0 y0 m (evals em) dim iom tol = Ok s0, exists s, s_iter gmres sys dt s0 N = Ok s &
  forall j i, List.nth_error (output_indices o N ++ [:: N]) j = Some i ->
    (i <= N)%N /\ List.nth_error ys j = Some (it_state gmres sys dt s0 i)].
Proof.
move=> [h1 h2 h3 h4 h5 h6 h7] hi.
have [s0 [e1 e2 e3 _]] := C46_schedule h1 h2 h3 h4 h5 h6 h7 hi.
exists s0; split=> //; first exact: out_at_last e3.
have [g1 g2] := out_at_nth e3 => j i hj; split; last exact: g2.
have : i \in output_indices o N ++ [:: N].
  by elim: (_ ++ _) j hj {g1 g2 e3} => [|a l IH] [|j] //= => [[->]|/IH h]; rewrite inE ?eqxx // h orbT.
by rewrite mem_cat !inE mem_filter mem_iota add0n => /orP[/andP[_ /andP[_ /ltnW]]|/eqP ->].
Qed.
(* Crank-Nicolson on u' = s *)
Theorem C70_cn_time_dependent gmres evals t0 (y0 dt : R) N kwds em dim iom tol o ys ts j i :
  rs_options kwds "cn" em dim iom tol o -> exact_solver gmres ->
  integrate_wrapper_rs gmres clock evals (const_mx y0) t0 dt N kwds = Ok (ys, ts) ->
  List.nth_error (output_indices o N ++ [:: N]) j = Some i ->
  exists y, List.nth_error ys j = Some y /\ y - parabola t0 y0 (t0 + dt *+ i)%R = const_mx (dt * (dt *+ i)).
Proof.
move=> ho ex hi hj; have [s0 [e1 [sN eN] h]] := rs_out ho hi; have [iN hy] := h j i hj.
have es : s0 = SBdf (bdf_new t0 (const_mx y0) 3) by apply: (@sel_bdf _ _ _ "cn"%string) e1; do 3 right; left.
rewrite es in eN hy; eexists; split; first exact: hy.
apply/matrixP => k l; rewrite !mxE.
set yv := it_state _ _ _ _.
suff -> : yv i k l = y0 + dt * t0 *+ i + (i%:R * (i%:R + 2%:R)) / 2%:R * dt ^+ 2.
  by rewrite -(mulr_natr (dt * t0)) -!(mulr_natr dt); move: (i%:R : R) => x; field.
elim: i iN {hj hy} => [_|i IH iN]; first by rewrite /yv /it_state /= mxE !mulr0n mul0r mul0r mul0r !addr0.
have [s' es'] := it_prefix iN eN.
have hf (t : R) (y : 'cV[R]_1) : rs_frhs clock t y = 0 *m y + const_mx t by rewrite mul0mx add0r.
have hj (t : R) (y v : 'cV[R]_1) : rs_fjac clock t y v = 0 *m v by rewrite mul0mx.
have e := @bdf_eqs _ 1 gmres ex 0 (fun s => const_mx s) clock hf hj dt t0 (const_mx y0) 3 i s' isT es'.
rewrite -/yv /= in e; rewrite e !mul0mx !add0r !mxE IH ?(ltnW iN) // -!(mulr_natr (dt * t0)) -!(mulr_natr dt) [i.+1%:R]mulrSr; move: (i%:R : R) => x; by field.
Qed.
(* bdf2 on the double integrator u1' = u2, u2' = 1: first order only *)
Definition dint : rsys [rcfType of R] 2 :=
  RSys (fun _ u => delta_mx 0 1 *m u + delta_mx 1 0) (fun _ _ v => delta_mx 0 1 *m v).
Definition dint_z (s : R) : 'cV[R]_2 := \col_k (if k == 0 then s ^+ 2 / 2%:R else s)%R.
Lemma dmul (u : 'cV[R]_2) k l : (delta_mx 0 1 *m u + delta_mx 1 0 : 'cV[R]_2) k l = if k == 0 then u 1 0 else 1.
Proof.
rewrite !mxE !big_ord_recl big_ord0 !mxE (ord1 l).
by case: k => [[|[|//]] hk]; rewrite /= !(mul0r, mul1r, addr0, add0r) //; congr (u _ _); apply: val_inj.
Qed.
Theorem C70_bdf2_not_second_order gmres evals dt N kwds em dim iom tol o ys ts j i :
  rs_options kwds "bdf2" em dim iom tol o -> exact_solver gmres ->
  integrate_wrapper_rs gmres dint evals 0 0 dt N kwds = Ok (ys, ts) ->
  List.nth_error (output_indices o N ++ [:: N]) j = Some i -> (1 < i)%N ->
  (forall s, vderiv dint_z s (rs_frhs dint s (dint_z s))) /\ dint_z 0 = 0 /\
  exists y, List.nth_error ys j = Some y /\ (y - dint_z (dt *+ i)) 0 0 = (i%:R / 2%:R - 3%:R^-1) * dt ^+ 2.
Proof.
move=> ho ex hi hj i1; split; last split.
- move=> s k; rewrite [rs_frhs _ _ _]/= dmul; case: (altP (k =P 0)) => [->|k0].
    rewrite mxE /=; apply: dlim_ext (dlim_sq 0 0 s) => x; by rewrite mxE /= add0r subr0.
  by apply: dlim_ext (derivable_pt_lim_id s) => x; rewrite mxE (negbTE k0).
- by apply/matrixP => k l; rewrite !mxE expr0n mul0r; case: ifP.
have [s0 [e1 [sN eN] h]] := rs_out ho hi; have [iN hy] := h j i hj.
have es : s0 = SBdf (bdf_new 0 0 2) by apply: (@sel_bdf _ _ _ "bdf2"%string) e1; do 2 right; left.
rewrite es in eN hy; eexists; split; first exact: hy.
set yv := it_state _ _ _ _; rewrite !mxE /=.
have EQ (k : nat) : (k < N)%N -> if (k == 1)%N then yv k.+1 = (4%:R / 3%:R) *: yv k - (1 / 3%:R) *: yv k.-1 + (2%:R * dt / 3%:R) *: (delta_mx 0 1 *m yv k.+1 + delta_mx 1 0)
    else yv k.+1 = yv k + dt *: (delta_mx 0 1 *m yv k.+1 + delta_mx 1 0).
  move=> kN; have [s' es'] := it_prefix kN eN.
  by have := @bdf_eqs _ 2 gmres ex (delta_mx 0 1) (fun s => delta_mx 1 0) dint (fun _ _ => erefl) (fun _ _ _ => erefl) dt 0 0 2 k s' isT es'.
have y00 : yv 0%N = 0 by [].
have n2 : (1 < N)%N by exact: leq_trans i1 iN.
have y1 : yv 1%N 1 0 = dt /\ yv 1%N 0 0 = dt ^+ 2.
  have := EQ 0%N (ltnW n2); rewrite y00 add0r /= => e.
  have ea : yv 1%N 1 0 = dt by rewrite e mxE dmul /= mulr1.
  by split=> //; rewrite e mxE dmul /= ea expr2.
have y2 : yv 2%N 1 0 = dt *+ 2 /\ yv 2%N 0 0 = 8%:R / 3%:R * dt ^+ 2.
  have := EQ 1%N n2; rewrite y00 scaler0 subr0 /= => e; have [ha hb] := y1.
  have ea : yv 2%N 1 0 = dt *+ 2 by rewrite e mxE [X in _ + X]mxE dmul /= mxE ha mulr1 -(mulr_natr dt); field.
  by split=> //; rewrite e mxE [X in _ + X]mxE dmul /= mxE hb ea -(mulr_natr dt); field.
suff [-> _] : yv i 0 0 = (i%:R * (i%:R + 1) / 2%:R - 3%:R^-1) * dt ^+ 2 /\ yv i 1 0 = dt *+ i.
  by rewrite -!(mulr_natr dt); move: (i%:R : R) => x; field.
elim: i i1 iN {hj hy h} => [//|[//|i] IH] _ iN.
case: i IH iN => [|i] IH iN.
  by have [-> ->] := y2; split=> //; field.
have [//||ha hb] := IH; first exact: ltnW.
have e := EQ i.+2 iN.
have ea : yv i.+3 1 0 = dt *+ i.+3 by rewrite e mxE [X in _ + X]mxE dmul /= hb mulr1 [RHS]mulrSr.
split=> //; rewrite e mxE [X in _ + X]mxE dmul /= ha ea -!(mulr_natr dt) [i.+3%:R]mulrSr; move: (i.+2%:R : R) => x; by field.
Qed.
