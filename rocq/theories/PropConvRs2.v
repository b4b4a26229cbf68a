(* PropConvRs2.v : C70 for the implicit methods and the Runge-Kutta object of the Rust crate. *)
From Coq Require Import Reals String.
From mathcomp Require Import all_ssreflect all_algebra.
From mathcomp Require Import complex ring.
From Verif Require Import Rstruct Summable MxBase MxSeries ProofsPhiErr ModelHist SpecHist ModelOps SpecOps SpecPhi ModelPhi ModelKrylov ModelDispatch ModelInt SpecInt ProofsInt ProofsInt5 SpecExact ProofsExact.
From Verif Require Import SpecProg SpecOrder SpecOrder2 SpecConv ProofsJet ProofsJet2 ProofsJet3 ProofsOrder ProofsOrder2 ProofsOrder3 ProofsOrder4 ProofsOrder5 ProofsOrder6 ProofsOrder7 ProofsOrder8.
From Verif Require Import ProofsUJ ProofsUJ2 ProofsConv ProofsConv2 ProofsConv3 ProofsConv4 ProofsConv5 ProofsConv6 ProofsConv7 ProofsConv8 PropConv.
From Verif Require Import ModelRust SpecRust ProofsRust ProofsRust2 ProofsRust3 ProofsRust4 PropRust SpecConvRs ProofsConvRs ProofsConvRs2 ProofsConvRs3 PropConvRs.
Set Implicit Arguments.
Unset Strict Implicit.
Unset Printing Implicit Defensive.
Import Order.TTheory GRing.Theory Num.Theory.
Local Open Scope ring_scope.
Local Opaque newton_loop jac_newton apply_phi_linop rkiops norm2.

Section Bdf.
Variables (F : rcfType) (n : nat).
Notation vec := 'cV[F]_n.
Variable gmres : (vec -> vec) -> vec -> vec -> nat -> F -> option vec.
Hypothesis ex : exact_solver gmres.
Variables (A : 'M[F]_n) (b : F -> vec) (sys : rsys F n).
Hypothesis hf : forall t y, rs_frhs sys t y = A *m y + b t.
Hypothesis hj : forall t y v, rs_fjac sys t y v = A *m v.
Variables (dt t0 : F) (y0 : vec) (ord : nat).
Notation it := (s_iter gmres sys dt (SBdf (bdf_new t0 y0 ord))).
Notation yv := (it_state gmres sys dt (SBdf (bdf_new t0 y0 ord))).
Lemma it_bdf i s : it i = Ok s -> exists o hist,
  [/\ s = SBdf o, b_order o = ord, b_t o = t0 + dt *+ i, b_ys o = yv i :: hist &
      size hist = i /\ ((0 < i)%N -> List.nth_error hist 0 = Some (yv i.-1))].
Proof.
elim: i s => [|i IH] s.
  by move=> [<-]; exists (bdf_new t0 y0 ord), [::]; split=> //=; rewrite mulr0n addr0.
rewrite s_iterS; case e: (it i) => [s'|//]; cbn [rbind].
have [o [hist [es h1 h2 h3 [h4 h5]]]] := IH s' e; case er: (s_step _ _ _ _) => [r|//]; cbn [rbind] => -[hs].
rewrite es in er hs; have ht := bdf_time er.
have hy : yv i.+1 = sr_y r by rewrite /it_state s_iterS e es; cbn [rbind]; rewrite er.
exists (bdf_accept o r), (yv i :: hist); split=> //=.
- by rewrite ht h2 mulrSr addrA.
- by rewrite hy h3.
- by rewrite h4; split.
Qed.
(* the equation each new state satisfies *)
Lemma bdf_eqs i s : (0 < ord <= 3)%N -> it i.+1 = Ok s ->
  let f := fun t y => A *m y + b t in let t := t0 + dt *+ i in
  if ord == 3%N then yv i.+1 = yv i + (dt / 2%:R) *: (f (t + dt + dt) (yv i.+1) + f (t + dt) (yv i))
  else if (ord == 2%N) && (i == 1%N) then
    yv i.+1 = (4%:R / 3%:R) *: yv i - (1 / 3%:R) *: yv i.-1 + (2%:R * dt / 3%:R) *: f (t + dt + dt) (yv i.+1)
  else yv i.+1 = yv i + dt *: f (t + dt + dt) (yv i.+1).
Proof.
move=> ho hit f t; move: hit; rewrite s_iterS; case e: (it i) => [s'|//].
have [o [hist [es h1 h2 h3 [h4 h5]]]] := it_bdf e.
cbn [rbind]; case er: (s_step gmres sys s' dt) => [r|//] _.
rewrite es in er.
have -> : yv i.+1 = sr_y r by rewrite /it_state s_iterS e es; cbn [rbind]; rewrite er.
have e0 : List.nth_error (b_ys o) 0 = Some (yv i) by rewrite h3.
have S1 (h : bdf_step1 gmres sys o dt = Ok r) : sr_y r = yv i + dt *: f (t + dt + dt) (sr_y r).
  by have [_ {1}->] := @step1_eq _ _ gmres ex A b sys hf hj o dt r (yv i) e0 h; rewrite h2 hf.
move: er; change (s_step gmres sys (SBdf o) dt) with (bdf_step gmres sys o dt).
have [o1|[o2|o3]] : ord = 1%N \/ ord = 2%N \/ ord = 3%N.
  by case: (ord) ho => [|[|[|[|k]]]] // _; [left|right; left|right; right].
- have -> : (ord == 3%N) = false by rewrite o1.
  have -> : (ord == 2%N) = false by rewrite o1.
  by rewrite /bdf_step (etrans h1 o1); exact: S1.
- have -> : (ord == 3%N) = false by rewrite o2.
  have -> : (ord == 2%N) = true by rewrite o2.
  rewrite /bdf_step (etrans h1 o2) h3 [size _]/= h4 eqSS andTb; case: eqP => [i1|_] h; last exact: S1.
  have e1 : List.nth_error (b_ys o) 1 = Some (yv i.-1) by rewrite h3 [LHS]/=; apply: h5; rewrite i1.
  by have [_ {1}->] := @step2_eq _ _ gmres ex A b sys hf hj o dt r (yv i) (yv i.-1) e0 e1 h; rewrite h2 hf.
- have -> : (ord == 3%N) = true by rewrite o3.
  rewrite /bdf_step (etrans h1 o3) => h.
  by have [_ {1}->] := @stepcn_eq _ _ gmres ex A b sys hf hj o dt r (yv i) e0 h; rewrite h2 !hf.
Qed.
End Bdf.

Lemma affine_tube n (f : R -> 'cV[R]_n -> 'cV[R]_n) (A : 'M[R]_n) b (z : R -> 'cV[R]_n) t0 T B : 0 <= B ->
  (forall s u, f s u = A *m u + b) -> (forall s, t0 <= s -> s <= T -> vderiv z s (A *m z s + b)) ->
  (forall i, \sum_j `|A i j| <= B) -> (forall s, t0 <= s -> s <= T -> maxnorm_le (A *m z s + b) B) ->
  smooth_tube 1 f z t0 T 1 (2%:R * B)%R (fun _ _ => 0) (fun _ _ => A) (fun _ _ _ _ => 0) (fun _ _ _ _ _ => 0).
Proof.
move=> B0 hf hz hA hb.
have BB : B <= 2%:R * B by rewrite mulr_natl mulr2n ler_addl.
have B2 : 0 <= 2%:R * B by rewrite mulr_ge0 ?ler0n.
have nA : ninf A <= B by apply: ninf_le.
split=> //.
- by move=> s h1 h2; rewrite hf; apply: hz.
- move=> s u [h1 h2 h3]; apply/maxnorm_ninf => //; rewrite hf.
  have -> : A *m u + b = (A *m z s + b) + A *m (u - z s) by rewrite mulmxBr addrAC -addrA addrCA addrC addrA subrK addrC.
  rewrite mulr_natl mulr2n; apply: le_trans (ninfD _ _) _; apply: ler_add.
    by apply: ninf_maxnorm => //; apply: hb.
  apply: le_trans (ninfM _ _) _; rewrite -[X in _ <= X]mulr1; apply: ler_pmul; rewrite ?ninf_ge0 //.
  by apply: ninf_maxnorm => //; exact: ler01.
- by move=> s u _ i; rewrite mxE normr0.
- by move=> s u _ i; apply: le_trans (hA i) BB.
- move=> s u sg h rho _ _ h1 h2; rewrite !hf /taylor_poly /= scaler0 !addr0 mulmxDr => i.
  have -> : A *m u + A *m h + b - (A *m u + b + A *m h) = 0 by rewrite opprD opprD; rewrite -addrA; apply/matrixP => k l; rewrite !mxE; move: (\sum_j _) (\sum_j _) => *; ring.
  by rewrite mxE normr0 mulr_ge0 // exprn_ge0 // (le_trans _ h1).
Qed.

Section Theta.
Variables (n : nat) (A : 'M[R]_n) (b : 'cV[R]_n) (dt : R).
Notation vec := 'cV[R]_n.
Lemma th_be (y y' : vec) : y' = y + dt *: (A *m y' + b) -> y' - y = dt *: (A *m y + b) + (1 * dt) *: (A *m (y' - y)).
Proof.
move=> e; have -> : y' - y = dt *: (A *m y' + b) by rewrite {1}e addrAC subrr add0r.
rewrite -{1}[A *m y']addr0; have -> : A *m (dt *: (A *m y' + b)) = A *m y' - A *m y by rewrite -mulmxBr {2}e [y + _]addrC addrK.
by move: (A *m y') (A *m y) => P Q; vlin; ring.
Qed.
Lemma th_cn (y y' : vec) : y' = y + (dt / 2%:R) *: ((A *m y' + b) + (A *m y + b)) ->
  y' - y = dt *: (A *m y + b) + (2%:R^-1 * dt) *: (A *m (y' - y)).
Proof.
move=> e; have e2 : y' - y = (dt / 2%:R) *: ((A *m y' + b) + (A *m y + b)) by rewrite {1}e addrAC subrr add0r.
rewrite mulmxBr {1}e2; move: (A *m y') (A *m y) => P Q; vlin; by field.
Qed.
Lemma th_bdf2 (y0 y y' : vec) : y = y0 + dt *: (A *m y + b) ->
  y' = (4%:R / 3%:R) *: y - (1 / 3%:R) *: y0 + (2%:R * dt / 3%:R) *: (A *m y' + b) ->
  y' - y = dt *: (A *m y + b) + (2%:R / 3%:R * dt) *: (A *m (y' - y)).
Proof.
move=> e0 e; rewrite mulmxBr {1}e.
have -> : y0 = y - dt *: (A *m y + b) by rewrite {1}e0 addrK.
move: (A *m y') (A *m y) => P Q; vlin; by field.
Qed.
End Theta.
Lemma bdf_theta n gmres (A : 'M[R]_n) (b : 'cV[R]_n) (sys : rsys [rcfType of R] n) dt t0 y0 ord i s : exact_solver gmres ->
  (forall t y, rs_frhs sys t y = A *m y + b) -> (forall t y v, rs_fjac sys t y v = A *m v) -> (0 < ord <= 3)%N ->
  s_iter gmres sys dt (SBdf (bdf_new t0 y0 ord)) i.+1 = Ok s ->
  let y := it_state gmres sys dt (SBdf (bdf_new t0 y0 ord)) in let x := y i.+1 - y i in
  exists theta : R, (if ord == 3%N then theta = 2%:R^-1 else theta = 1 \/ theta = 2%:R / 3%:R) /\
    x = dt *: (A *m y i + b) + (theta * dt) *: (A *m x).
Proof.
move=> ex hf hj ho hi y x.
have H := @bdf_eqs _ n gmres ex A (fun _ => b) sys hf hj dt t0 y0 ord.
have e0 := H i s ho hi; cbv zeta in e0; move: e0; rewrite -/y.
case o3: (ord == 3%N); first by move=> e; exists 2%:R^-1; split=> //; exact: th_cn.
case: (boolP ((ord == 2%N) && (i == 1%N))) => [/andP[_ /eqP i1] e|_ e]; last by exists 1; split; [left|exact: th_be].
exists (2%:R / 3%:R)%R; split; first by right.
rewrite /x; apply: th_bdf2 e; rewrite i1 in hi *.
have [s' es'] := it_prefix (isT : (1 <= 2)%N) hi.
by have e0 := H 0%N s' ho es'; cbv zeta in e0; move: e0; rewrite o3 andbF.
Qed.

Section Imp.
Variables (B len : R).
Hypothesis B0 : 0 <= B.
Let B2 : 0 <= 2%:R * B. Proof. by rewrite mulr_ge0 ?ler0n. Qed.
Let B8 : 0 <= 4%:R * (2%:R * B). Proof. by rewrite mulr_ge0 ?ler0n. Qed.
Let l01 : 0 < (1 : R). Proof. exact: ltr01. Qed.
Let rr := tr_gt0 l01 B2.
Lemma imp_gen m ord p (C h0 : R) : (0 < p)%N -> (0 < ord <= 3)%N -> 0 <= C -> 0 < h0 ->
  (forall n t0 y0 ev dim iom tol (s : solver [rcfType of R] n), select_solver t0 y0 m ev dim iom tol = Ok s -> s = SBdf (bdf_new t0 y0 ord)) ->
  (forall theta w, (if ord == 3%N then theta = 2%:R^-1 else theta = 1 \/ theta = 2%:R / 3%:R) ->
     ubase 1 (4%:R * (2%:R * B))%R (tr 1 (2%:R * B)%R) (uq w) (ud w) (ue w) -> S_theta theta w -> ud w <= h0 -> ue w <= h0 ->
     err1 p C (ud w) (ue w) (py (uq w) + u1 w)) ->
  exists C h0 : R, [/\ 0 <= C, 0 < h0 & rs_implicit_converges B len m p C h0].
Proof.
move=> p0 o3 C0 h00 hsel hs; exists (Cfin C len), (flev C h0 1 len); split; [exact: Cfin_ge0|exact: flev_gt0|].
move=> n gmres sys evals A b z t0 T dt N kwds em dim iom tol o y0 ys ts ho ex hf hj hz hz0 hA hb hT hl d0 d1 hi.
have st := affine_tube B0 hf hz hA hb.
apply: (rs_glue ho hi) => s0 /hsel -> [sN hN].
set y := it_state _ _ _ _.
apply: (seq_tube p0 B2 l01 C0 h00 st d0 d1 (lexx 0) _ hT hl) => [||i eta iN t q hin ub dh eh de hp].
- by apply: ltW; exact: flev_gt0.
- by rewrite hz0.
have [s' es'] := it_prefix iN hN.
have [theta [g1 g2]] := bdf_theta ex hf hj o3 es'; rewrite -/y in g2.
exists p; split; first by left.
have := hs theta (@UOm q dt eta (y i.+1 - y i) 0 0 0 0 0) g1 ub _ dh eh; rewrite /= [y i + _]addrC subrK; apply.
by split=> //=; rewrite hf.
Qed.
Lemma sel_bdf n t0 y0 m ord ev dim iom tol (s : solver [rcfType of R] n) :
  List.In (m, ord) [:: ("bdf1", 1%N); ("backeuler", 1%N); ("bdf2", 2%N); ("cn", 3%N)]%string ->
  select_solver t0 y0 m ev dim iom tol = Ok s -> s = SBdf (bdf_new t0 y0 ord).
Proof. by case=> [[<- <-] [<-]|[[<- <-] [<-]|[[<- <-] [<-]|[[<- <-] [<-]|]]]]. Qed.
Lemma imp1 m ord : List.In (m, ord) [:: ("bdf1", 1%N); ("backeuler", 1%N); ("bdf2", 2%N); ("cn", 3%N)]%string -> (ord < 3)%N ->
  exists C h0 : R, [/\ 0 <= C, 0 < h0 & rs_implicit_converges B len m 1 C h0].
Proof.
move=> hm ho.
have [C1 [h1 [C10 h10 G1]]] := one_theta B8 rr ler01 (lexx (1 : R)).
have [||C2 [h2 [C20 h20 G2]]] := @one_theta _ _ B8 rr (2%:R / 3%:R)%R.
- by rewrite divr_ge0 ?ler0n.
- by rewrite ler_pdivr_mulr ?ltr0n // mul1r ler_nat.
pose C := Num.max C1 C2; pose h0 := Num.min h1 h2.
have C0 : 0 <= C by rewrite le_maxr C10.
have h00 : 0 < h0 by rewrite lt_minr h10.
have [l1 l2] : C1 <= C /\ C2 <= C by split; rewrite le_maxr lexx ?orbT.
apply: (@imp_gen m ord 1 C h0) => //.
- by rewrite (ltnW ho) andbT; move: hm; do 4 (case=> [[_ <-] //|]).
- by move=> *; apply: (sel_bdf hm); eassumption.
move=> theta w; rewrite (ltn_eqF ho) => ht ub hS dh eh.
have [dh1 dh2] : ud w <= h1 /\ ud w <= h2 by move: dh; rewrite le_minr => /andP.
have [eh1 eh2] : ue w <= h1 /\ ue w <= h2 by move: eh; rewrite le_minr => /andP.
case: ht => ht; rewrite ht in hS.
- by apply: (err1_le l1 (ub_d ub) (ub_e ub)); exact: G1.
- by apply: (err1_le l2 (ub_d ub) (ub_e ub)); exact: G2.
Qed.
Lemma imp2 : exists C h0 : R, [/\ 0 <= C, 0 < h0 & rs_implicit_converges B len "cn" 2 C h0].
Proof.
have [C [h0 [C0 h00 G]]] := one_theta2 B8 rr erefl.
apply: (@imp_gen "cn" 3 2 C h0) => //.
  by move=> *; apply: (@sel_bdf _ _ _ "cn"%string); [do 3 right; left|eassumption].
by move=> theta w /= ->; exact: G.
Qed.
Theorem C70_rust_implicit m p :
  List.In (m, p) [:: ("bdf1", 1%N); ("backeuler", 1%N); ("bdf2", 1%N); ("cn", 2%N)]%string ->
  exists C h0 : R, [/\ 0 <= C, 0 < h0 & rs_implicit_converges B len m p C h0].
Proof.
case=> [[<- <-]|[[<- <-]|[[<- <-]|[[<- <-]|//]]]].
- by apply: (@imp1 _ 1) => //; left.
- by apply: (@imp1 _ 1) => //; right; left.
- by apply: (@imp1 _ 2) => //; do 2 right; left.
- exact: imp2.
Qed.
End Imp.
