(* PropLejaPow.v : C64, the power iteration and the interval it gives to the Leja interpolation
   (matexp_leja.py:201-232, 459-485). *)
From mathcomp Require Import all_ssreflect all_algebra.
From mathcomp Require Import ring.
From mathcomp Require Import complex.
From Verif Require Import ModelHist ModelOps ModelKrylov ModelLeja ModelLejaPts SpecLejaPow ProofsKrylov.
From Verif Require Import SpecLejaPts PropLejaFast.
Set Implicit Arguments.
Unset Strict Implicit.
Unset Printing Implicit Defensive.
Import Order.TTheory GRing.Theory Num.Theory.
Local Open Scope ring_scope.

Section Pow.
Variable F : rcfType.
Variable n : nat.
Implicit Types (u v b : 'cV[F]_n) (mv : 'cV[F]_n -> 'cV[F]_n) (c : F).
Lemma ipE u v : ip u v = dotv u v.
Proof. by rewrite /ip mxE /dotv; apply: eq_bigr => i _; rewrite mxE. Qed.
Lemma ip_gt0 v : v != 0 -> 0 < ip v v.
Proof.
rewrite ipE lt0r dotv_ge0 andbT => h; apply/eqP => e; move/eqP: h; apply; exact: dotv_eq0 e.
Qed.
Lemma rayleighZ mv c v : linear mv -> c != 0 -> rayleigh mv (c *: v) = rayleigh mv v.
Proof.
move=> lin c0; have lz : mv (c *: v) = c *: mv v.
  by have := lin c v 0; rewrite !addr0; have := lin (-1) 0 0; rewrite scaleN1r oppr0 add0r scaleN1r addNr => -> ; rewrite addr0.
rewrite /rayleigh lz !ipE !dotvZl !dotvZr !mulrA -mulf_div divff ?mul1r //.
by rewrite mulf_neq0.
Qed.
Lemma linZ mv c v : linear mv -> mv (c *: v) = c *: mv v.
Proof.
move=> lin; have := lin c v 0; rewrite !addr0; have := lin (-1) 0 0; rewrite scaleN1r oppr0 add0r scaleN1r addNr => -> ; by rewrite addr0.
Qed.

Definition small : F := 5%:R / 100%:R.
Lemma loop_spec mv b fuel i x c e eo : linear mv ->
  (forall k, (k <= i + fuel)%N -> iter k mv b != 0) ->
  x = c *: iter i mv b -> 0 < c -> e = estimate mv b i -> ((0 < i)%N -> eo = estimate mv b i.-1) ->
  (i = 0%N -> small < `|e - eo|) ->
  forall e' b' i', power_loop mv fuel i x e eo = (e', b', i') ->
  [/\ (i <= i' <= i + fuel)%N, e' = estimate mv b i',
      b' = (if i' == i then x else (norm2 (iter i' mv b))^-1 *: iter i' mv b),
      (i' = i + fuel)%N \/ ((0 < i')%N /\ `|estimate mv b i' - estimate mv b i'.-1| <= small) &
      forall j, (maxn 1 i <= j < i')%N -> small < `|estimate mv b j - estimate mv b j.-1|].
Proof.
move=> lin; elim: fuel i x c e eo => [|f IH] i x c e eo hz hx c0 he heo h0 e' b' i' /=.
  move=> [<- <- <-]; rewrite addn0 leqnn eqxx; split=> //; first by left.
  by move=> j; rewrite geq_max -andbA => /and3P [_ h1 h2]; move: (leq_ltn_trans h1 h2); rewrite ltnn.
case: ifP => hc; last first.
  move=> [<- <- <-]; rewrite leqnn leq_addr eqxx; split=> //.
    right; case: (posnP i) => hi; first by rewrite h0 in hc.
    by rewrite -he -(heo hi) leNgt hc.
  by move=> j; rewrite geq_max -andbA => /and3P [_ h1 h2]; move: (leq_ltn_trans h1 h2); rewrite ltnn.
move=> E.
have hmv : mv x = c *: iter i.+1 mv b by rewrite hx (linZ _ _ lin) iterS.
have nz1 : iter i.+1 mv b != 0 by apply: hz; rewrite -addSnnS leq_addr.
have ne0 : norm2 (iter i.+1 mv b) != 0 by apply/eqP => /norm2_eq0 /eqP; rewrite (negbTE nz1).
have hn : (norm2 (mv x))^-1 *: mv x = (norm2 (iter i.+1 mv b))^-1 *: iter i.+1 mv b.
  by rewrite hmv norm2Z (gtr0_norm c0) scalerA invfM mulrAC mulVf ?mul1r // gt_eqF.
have c1 : 0 < (norm2 (iter i.+1 mv b))^-1 by rewrite invr_gt0 norm2_gt0.
have he1 : dotv x (mv x) / dotv x x = estimate mv b i.+1.
  by rewrite -!ipE -/(rayleigh mv x) hx rayleighZ // gt_eqF.
have hstep : (0 < i.+1)%N -> e = estimate mv b i.+1.-1 by move=> _; rewrite he.
have hz1 k : (k <= i.+1 + f)%N -> iter k mv b != 0 by rewrite addSnnS; apply: hz.
have [hi' he' hb' hs hl] := IH i.+1 _ _ _ _ hz1 hn c1 he1 hstep (fun h => ltac:(by [])) _ _ _ E.
split=> //.
- by move: hi'; rewrite addSnnS => /andP [h1 ->]; rewrite ltnW.
- have -> : (i' == i) = false by apply/negbTE; rewrite neq_ltn orbC; case/andP: hi' => -> _.
  by rewrite hb'; case: eqP => // ->.
- by move: hs; rewrite addSnnS.
- move=> j; rewrite geq_max -andbA => /and3P [j0 hj hj']; case: (ltngtP i j) => hij; last 1 first.
  + by rewrite -hij -he -(heo _) ?hij // -hij.
  + by apply: hl; rewrite geq_max j0 hij.
  + by move: hij; rewrite ltnNge hj.
Qed.
Lemma start_large : small < `|10%:R ^+ 20 - 1 : F|.
Proof.
have h1 : (1 : F) <= 10%:R by rewrite ler1n.
have h2 : (10%:R : F) <= 10%:R ^+ 20.
  by rewrite -{1}[10%:R]expr1 ler_weexpn2l.
apply: (@lt_le_trans _ _ 9%:R).
  by rewrite /small ltr_pdivr_mulr ?ltr0n // -natrM ltr_nat.
apply: le_trans (ler_norm _); rewrite ler_subr_addr (le_trans _ h2) //.
by rewrite -[1]/(1%:R) -natrD ler_nat.
Qed.

(* what power_iter returns, for every linear operator, start vector and iteration limit whose power
   sequence does not vanish: the first estimate that differs from the one before it by at most 0.05,
   or the last one allowed; and the normalised power vector *)
Theorem C64_power_iter_spec mv b it e b' i : linear mv -> (0 < it)%N ->
  (forall k, (k <= it)%N -> iter k mv b != 0) ->
  power_iter mv b it = (e, b', i) ->
  [/\ (0 < i <= it)%N, e = rayleigh mv (iter i.-1 mv b),
      b' = (norm2 (iter i mv b))^-1 *: iter i mv b,
      i = it \/ `|estimate mv b i - estimate mv b i.-1| <= 5%:R / 100%:R &
      forall j, (0 < j < i)%N -> 5%:R / 100%:R < `|estimate mv b j - estimate mv b j.-1|].
Proof.
move=> lin it0 hz; rewrite /power_iter => E.
have [hi he hb hs hl] := loop_spec lin (i := 0) (fuel := it) (x := b) (c := 1) (eo := 1) hz (esym (scale1r _)) ltr01 erefl
   (fun h => ltac:(by [])) (fun _ => start_large) E.
have i0 : (0 < i)%N.
  by case: hs => [->|[]].
split=> //.
- by rewrite i0; case/andP: hi.
- by rewrite he /estimate; case: i i0 {he hb hi hs hl E}.
- by rewrite hb gtn_eqF.
- by case: hs => [->|[]]; [left|right].
Qed.

(* the estimate lies between any bounds of the quadratic form *)
Theorem C64_estimate_between mv b it e b' i lo hi : linear mv -> (0 < it)%N ->
  (forall k, (k <= it)%N -> iter k mv b != 0) ->
  (forall v, lo * ip v v <= ip v (mv v) <= hi * ip v v) ->
  power_iter mv b it = (e, b', i) -> lo <= e <= hi.
Proof.
move=> lin it0 hz hb /(C64_power_iter_spec lin it0 hz) [/andP [i0 hit] -> _ _ _].
have nz : iter i.-1 mv b != 0 by apply: hz; apply: leq_trans (leq_pred _) hit.
have p := ip_gt0 nz; have /andP [h1 h2] := hb (iter i.-1 mv b).
by rewrite /rayleigh ler_pdivl_mulr // ler_pdivr_mulr // h1 h2.
Qed.

(* an eigenvector as start vector gives its own eigenvalue, dominant or not: the estimate need not
   bound the spectrum *)
Theorem C64_eigenvector_start mv b lam it e b' i : linear mv -> (0 < it)%N -> lam != 0 -> b != 0 ->
  mv b = lam *: b -> power_iter mv b it = (e, b', i) -> e = lam.
Proof.
move=> lin it0 l0 b0 hb E.
have hk k : iter k mv b = lam ^+ k *: b.
  by elim: k => [|k IH]; rewrite ?expr0 ?scale1r // iterS IH linZ // hb scalerA exprSr.
have hz k : (k <= it)%N -> iter k mv b != 0.
  by move=> _; rewrite hk scaler_eq0 negb_or expf_neq0.
have [/andP [i0 _] -> _ _ _] := C64_power_iter_spec lin it0 hz E.
rewrite hk rayleighZ // ?expf_neq0 // /rayleigh hb !ipE dotvZr mulfK //.
by rewrite -ipE gt_eqF // ip_gt0.
Qed.


(* ---- self-adjoint semidefinite operators ---- *)
Lemma dotvDr u v w : dotv w (u + v) = dotv w u + dotv w v.
Proof. by rewrite dotvC dotvDl !(dotvC w). Qed.
Lemma ipC u v : ip u v = ip v u. Proof. by rewrite !ipE dotvC. Qed.
Section Psd.
Variable mv : 'cV[F]_n -> 'cV[F]_n.
Hypothesis lin : linear mv.
Hypothesis sa : self_adjoint mv.
Hypothesis psd : forall v, 0 <= ip v (mv v).
Definition mom b k : F := ip b (iter k mv b).
Lemma ip_iter b k l : ip (iter k mv b) (iter l mv b) = mom b (k + l).
Proof.
elim: k l => [|k IH] l; first by [].
by rewrite iterS -sa -iterS IH addnS addSn.
Qed.
Lemma mom_ge0 b k : 0 <= mom b k.
Proof.
have [l [e|e]] : exists l, k = (l + l)%N \/ k = (l + l.+1)%N.
  exists k./2; case: (boolP (odd k)) => ho; [right|left]; rewrite ?addnS addnn -{1}(odd_double_half k) ?ho ?(negbTE ho) //.
- by rewrite e -ip_iter ipE dotv_ge0.
- by rewrite e -ip_iter iterS psd.
Qed.
Lemma quad_disc (a c d : F) : 0 <= a -> (forall x, 0 <= a * x ^+ 2 + 2%:R * c * x + d) -> c ^+ 2 <= a * d.
Proof.
move=> a0 h; case: (eqVneq a 0) => [ea|na].
  have h' x : 0 <= 2%:R * c * x + d by have := h x; rewrite ea mul0r add0r.
  case: (eqVneq c 0) => [->|nc]; first by rewrite expr0n ea mul0r.
  have := h' (- (d + 1) / (2%:R * c)); rewrite mulrCA divff ?mulf_neq0 ?pnatr_eq0 // mulr1 opprD addrAC addNr add0r.
  by rewrite oppr_ge0 leNgt ltr01.
have ap : 0 < a by rewrite lt0r na.
have := h (- c / a).
have -> : a * (- c / a) ^+ 2 + 2%:R * c * (- c / a) + d = (a * d - c ^+ 2) / a by field.
by rewrite pmulr_lge0 ?invr_gt0 // subr_ge0.
Qed.
Lemma lin0 : mv 0 = 0.
Proof. by have := linZ 0 0 lin; rewrite !scale0r. Qed.
Lemma linD u v : mv (u + v) = mv u + mv v.
Proof. by have := lin 1 u v; rewrite !scale1r. Qed.
Lemma ipD u v x : ip (x *: u + v) (x *: u + v) = ip u u * x ^+ 2 + 2%:R * ip u v * x + ip v v.
Proof.
rewrite !ipE !dotvDl !dotvDr !dotvZl !dotvZr (dotvC v u); ring.
Qed.
Lemma ipAD u v x : ip (x *: u + v) (mv (x *: u + v)) = ip u (mv u) * x ^+ 2 + 2%:R * ip u (mv v) * x + ip v (mv v).
Proof.
have e : ip v (mv u) = ip u (mv v) by rewrite sa ipC.
rewrite linD linZ //; move: e; rewrite !ipE !dotvDl !dotvDr !dotvZl !dotvZr => ->; ring.
Qed.
Lemma mom_logconvex b k : mom b k.+1 ^+ 2 <= mom b k * mom b k.+2.
Proof.
have [l [e|e]] : exists l, k = (l + l)%N \/ k = (l + l.+1)%N.
  exists k./2; case: (boolP (odd k)) => ho; [right|left]; rewrite ?addnS addnn -{1}(odd_double_half k) ?ho ?(negbTE ho) //.
- have h x : 0 <= ip (x *: iter l mv b + iter l.+1 mv b) (x *: iter l mv b + iter l.+1 mv b) by rewrite ipE dotv_ge0.
  have := @quad_disc (ip (iter l mv b) (iter l mv b)) (ip (iter l mv b) (iter l.+1 mv b)) (ip (iter l.+1 mv b) (iter l.+1 mv b)).
  rewrite !ip_iter e !addnS !addSn; apply; first exact: mom_ge0.
  move=> x; have := h x; by rewrite ipD !ip_iter !addnS !addSn.
- have h x := psd (x *: iter l mv b + iter l.+1 mv b).
  have := @quad_disc (ip (iter l mv b) (mv (iter l mv b))) (ip (iter l mv b) (mv (iter l.+1 mv b))) (ip (iter l.+1 mv b) (mv (iter l.+1 mv b))).
  rewrite -!iterS !ip_iter e !addnS !addSn; apply; first exact: mom_ge0.
  move=> x; have := h x; by rewrite ipAD -!iterS !ip_iter !addnS !addSn.
Qed.
Lemma ray_mom b k : rayleigh mv (iter k mv b) = mom b (k + k).+1 / mom b (k + k).
Proof. by rewrite /rayleigh -iterS !ip_iter addnS. Qed.
Lemma ray_mono b k : iter k.+1 mv b != 0 -> rayleigh mv (iter k mv b) <= rayleigh mv (iter k.+1 mv b).
Proof.
move=> nz; have p2 : 0 < mom b (k + k).+2 by have := ip_gt0 nz; rewrite ip_iter addnS addSn.
have nz0 : iter k mv b != 0.
  by apply/eqP => e; move: nz; rewrite iterS e lin0 eqxx.
have p0 : 0 < mom b (k + k) by have := ip_gt0 nz0; rewrite ip_iter.
have l0 := mom_logconvex b (k + k); have l1 := mom_logconvex b (k + k).+1.
have p1 : 0 < mom b (k + k).+1.
  rewrite lt0r mom_ge0 andbT; apply/eqP => e; move: l1; rewrite e mul0r leNgt => /negP; apply.
  by rewrite exprn_gt0.
rewrite !ray_mom !addnS !addSn; apply: (@le_trans _ _ (mom b (k + k).+2 / mom b (k + k).+1)).
  by rewrite ler_pdivr_mulr // mulrAC ler_pdivl_mulr // -expr2 [leRHS]mulrC.
by rewrite ler_pdivr_mulr // mulrAC ler_pdivl_mulr // -expr2 [leRHS]mulrC.
Qed.
End Psd.

Lemma ray_mono_le mv b it j k : linear mv -> self_adjoint mv -> (forall v, 0 <= ip v (mv v)) ->
  (forall k, (k <= it)%N -> iter k mv b != 0) -> (j <= k <= it)%N ->
  rayleigh mv (iter j mv b) <= rayleigh mv (iter k mv b).
Proof.
move=> lin sa psd hz /andP [jk]; rewrite -(subnK jk); elim: (k - j)%N => [//|d IH] hd.
apply: (le_trans (IH (ltnW hd))); rewrite addSn; apply: ray_mono => //; exact: hz.
Qed.
(* for a self-adjoint positive semidefinite operator the estimates never decrease from one iteration to
   the next, and never exceed an upper bound of the quadratic form: more iterations are never worse *)
Theorem C64_psd_estimate mv b it e b' i hi : linear mv -> self_adjoint mv -> (forall v, 0 <= ip v (mv v)) ->
  (0 < it)%N -> (forall k, (k <= it)%N -> iter k mv b != 0) -> (forall v, ip v (mv v) <= hi * ip v v) ->
  power_iter mv b it = (e, b', i) ->
  rayleigh mv b <= e <= hi /\ forall k, (k < i)%N -> rayleigh mv (iter k mv b) <= e.
Proof.
move=> lin sa psd it0 hz hb E; have [/andP [i0 hi'] he _ _ _] := C64_power_iter_spec lin it0 hz E.
have mono k : (k < i)%N -> rayleigh mv (iter k mv b) <= e.
  move=> hk; rewrite he; apply: (ray_mono_le (it := it)) => //.
  by rewrite -ltnS prednK // hk (leq_trans (leq_pred _)).
split=> //; rewrite (mono 0%N i0) /= he.
have nz : iter i.-1 mv b != 0 by apply: hz; apply: leq_trans (leq_pred _) hi'.
by rewrite /rayleigh ler_pdivr_mulr ?ip_gt0.
Qed.
Lemma iter_opp mv b k : linear mv -> iter k (fun v => - mv v) b = (-1) ^+ k *: iter k mv b.
Proof.
move=> lin; elim: k => [|k IH]; first by rewrite expr0 scale1r.
by rewrite !iterS IH linZ // -scaleN1r scalerA exprS.
Qed.
(* for a self-adjoint negative semidefinite operator (diffusion, decay) the estimate lies between a lower
   bound lo of the spectrum and the Rayleigh quotient of the start vector: its modulus never exceeds
   that of the dominant eigenvalue *)
Theorem C64_nsd_estimate mv b it e b' i lo : linear mv -> self_adjoint mv -> (forall v, ip v (mv v) <= 0) ->
  (0 < it)%N -> (forall k, (k <= it)%N -> iter k mv b != 0) -> (forall v, lo * ip v v <= ip v (mv v)) ->
  power_iter mv b it = (e, b', i) ->
  lo <= e <= rayleigh mv b /\ forall k, (k < i)%N -> e <= rayleigh mv (iter k mv b).
Proof.
move=> lin sa nsd it0 hz hb E; have [/andP [i0 hi'] he _ _ _] := C64_power_iter_spec lin it0 hz E.
set mw := fun v => - mv v.
have linw : linear mw by move=> a u v; rewrite /mw lin opprD scalerN.
have ipN u v : ip u (- v) = - ip u v by rewrite !ipE dotvC dotvNl dotvC.
have saw : self_adjoint mw.
  by move=> u v; rewrite /mw ipN sa [in RHS]ipC ipN ipC.
have psdw v : 0 <= ip v (mw v) by rewrite ipN oppr_ge0.
have sgn k : (-1) ^+ k != 0 :> F by rewrite expf_neq0 // oppr_eq0 oner_eq0.
have hzw k : (k <= it)%N -> iter k mw b != 0.
  by move=> hk; rewrite iter_opp // scaler_eq0 negb_or sgn hz.
have rw k : rayleigh mw (iter k mw b) = - rayleigh mv (iter k mv b).
  by rewrite iter_opp // rayleighZ // /rayleigh ipN mulNr.
have mono k : (k < i)%N -> e <= rayleigh mv (iter k mv b).
  move=> hk; rewrite he -ler_opp2 -!rw; apply: (ray_mono_le (it := it)) => //.
  by rewrite -ltnS prednK // hk (leq_trans (leq_pred _)).
split=> //; rewrite (mono 0%N i0) andbT he.
have nz : iter i.-1 mv b != 0 by apply: hz; apply: leq_trans (leq_pred _) hi'.
by rewrite /rayleigh ler_pdivl_mulr ?ip_gt0.
Qed.


(* leja_shift_scale: the reference interval [-2, 2] is mapped exactly onto the segment between 0 and
   the estimate times scale_factor *)
Theorem C64_shift_scale mv it (b0 : option 'cV[F]_n) rnd sf shift scale me b' :
  leja_shift_scale mv it b0 rnd sf = (shift, scale, me, b') ->
  [/\ exists e i, power_iter mv (if b0 is Some b then b else rnd) it = (e, b', i) /\ me = e * sf,
     0 <= scale,
     forall x, - 2%:R <= x <= 2%:R -> Num.min 0 me <= shift + scale * x <= Num.max 0 me,
     (0 <= me -> shift + scale * 2%:R = me /\ shift + scale * - 2%:R = 0) &
     (me <= 0 -> shift + scale * - 2%:R = me /\ shift + scale * 2%:R = 0)].
Proof.
rewrite /leja_shift_scale.
have -> : odflt rnd b0 = (if b0 is Some b then b else rnd) by case: b0.
case E : (power_iter _ _ _) => [[e bk] i] [<- <- <- <-]; set m := e * sf.
have h2 : (0 : F) < 2%:R by rewrite ltr0n.
have h4 : (0 : F) < 4%:R by rewrite ltr0n.
have sc : 0 <= `|0 - m| / 4%:R by rewrite divr_ge0 ?normr_ge0 ?ler0n.
have pos : 0 <= m -> m / 2%:R + `|0 - m| / 4%:R * 2%:R = m /\ m / 2%:R + `|0 - m| / 4%:R * - 2%:R = 0.
  by move=> m0; rewrite sub0r normrN ger0_norm //; split; field.
have neg : m <= 0 -> m / 2%:R + `|0 - m| / 4%:R * - 2%:R = m /\ m / 2%:R + `|0 - m| / 4%:R * 2%:R = 0.
  by move=> m0; rewrite sub0r ger0_norm ?oppr_ge0 //; split; field.
split=> //; first by exists e, i.
move=> x /andP [x1 x2].
have a1 : m / 2%:R + `|0 - m| / 4%:R * - 2%:R <= m / 2%:R + `|0 - m| / 4%:R * x.
  by rewrite ler_add2l ler_wpmul2l.
have a2 : m / 2%:R + `|0 - m| / 4%:R * x <= m / 2%:R + `|0 - m| / 4%:R * 2%:R.
  by rewrite ler_add2l ler_wpmul2l.
rewrite le_minl le_maxr; case/orP: (le_total 0 m) => hm.
  have [e1 e2] := pos hm; rewrite e2 in a1; rewrite e1 in a2; by rewrite a1 a2 orbT.
have [e1 e2] := neg hm; rewrite e1 in a1; rewrite e2 in a2; by rewrite a1 a2 orbT.
Qed.
(* hence the nodes the integrator interpolates at (the fast Leja points of [-2, 2], shifted and scaled)
   all lie between 0 and the scaled estimate *)
Corollary C64_nodes_in_segment mv it (b0 : option 'cV[F]_n) rnd sf shift scale me b' k pts x :
  leja_shift_scale mv it b0 rnd sf = (shift, scale, me, b') ->
  gen_leja_fast (- 2%:R : F) 2%:R k = Ok pts -> x \in pts ->
  Num.min 0 me <= shift + scale * x <= Num.max 0 me.
Proof.
move=> /C64_shift_scale [_ _ h _ _] E hx; apply: h.
case: (ltnP k 3) => k3; first by rewrite C63_too_few in E.
have hab : (- 2%:R : F) != 2%:R by rewrite eq_sym -subr_eq0 opprK -natrD pnatr_eq0.
have [p [Ep _ _ _ [_ r]]] := C63_fast_points hab k3.
move: E hx; rewrite Ep => -[<-] /r.
have h22 : - 2%:R <= 2%:R :> F by rewrite -subr_ge0 opprK -natrD ler0n.
by rewrite (min_idPl h22) (max_idPr h22).
Qed.
End Pow.

(* the estimate can be far below the dominant eigenvalue even from a start vector with positive
   entries, because two consecutive estimates are close: for every L >= 1 the operator diag(1, L) has
   the eigenvalue L, and there is a positive start vector from which power_iter stops with an
   estimate of at most 1.04, whatever the iteration limit *)
Section Under.
Variable F : rcfType.
Definition dg (L : F) (v : 'cV[F]_2) : 'cV[F]_2 := \col_i (if i == 0 then v i 0 else L * v i 0).
Definition v2 (x y : F) : 'cV[F]_2 := \col_i (if i == 0 then x else y).
Lemma dg_v2 L x y : dg L (v2 x y) = v2 x (L * y).
Proof. by apply/colP => i; rewrite !mxE; case: eqP. Qed.
Lemma dg_iter L x y k : iter k (dg L) (v2 x y) = v2 x (L ^+ k * y).
Proof. by elim: k => [|k IH]; rewrite ?expr0 ?mul1r // iterS IH dg_v2 mulrA -exprS. Qed.
Lemma dg_lin L : linear (dg L).
Proof. by move=> a u v; apply/colP => i; rewrite !mxE; case: eqP => // _; rewrite mulrDr mulrCA. Qed.
Lemma ip_v2 (x y x' y' : F) : ip (v2 x y) (v2 x' y') = x * x' + y * y'.
Proof. by rewrite /ip mxE big_ord_recl big_ord1 !mxE /=. Qed.
Lemma v2_nz (x y : F) : x != 0 -> v2 x y != 0.
Proof. by move=> h; apply/eqP => /colP /(_ 0); rewrite !mxE /=; apply/eqP. Qed.
Theorem C64_underestimate_refuted (L : F) : 1 <= L ->
  (exists2 v : 'cV[F]_2, v != 0 & dg L v = L *: v) /\
  exists eps, 0 < eps /\ forall it e b' i, (0 < it)%N -> power_iter (dg L) (v2 1 eps) it = (e, b', i) ->
    e <= 104%:R / 100%:R.
Proof.
move=> L1; have L0 : 0 < L by apply: lt_le_trans L1.
split.
  exists (v2 0 1).
    by apply/eqP => /colP /(_ 1); rewrite !mxE /= => /eqP; rewrite oner_eq0.
  by rewrite dg_v2; apply/colP => i; rewrite !mxE; case: eqP; rewrite ?mulr0.
set eps := (5%:R * L ^+ 2)^-1.
have e0 : 0 < eps by rewrite invr_gt0 mulr_gt0 ?ltr0n ?exprn_gt0.
exists eps; split=> // it e b' i it0 E.
have hz k : (k <= it)%N -> iter k (dg L) (v2 1 eps) != 0 by move=> _; rewrite dg_iter v2_nz // oner_eq0.
have [/andP [i0 _] he _ _ hl] := C64_power_iter_spec (@dg_lin L) it0 hz E.
have ray k : rayleigh (dg L) (iter k (dg L) (v2 1 eps)) = (1 + L * (L ^+ k * eps) ^+ 2) / (1 + (L ^+ k * eps) ^+ 2).
  rewrite /rayleigh dg_iter dg_v2 !ip_v2 !mulr1 !expr2; congr (_ / _); congr (_ + _); ring.
have bnd k : (k < 2)%N -> 1 <= rayleigh (dg L) (iter k (dg L) (v2 1 eps)) <= 104%:R / 100%:R.
  move=> k2; rewrite ray; set q := (L ^+ k * eps) ^+ 2.
  have q0 : 0 <= q by rewrite /q sqr_ge0.
  have d0 : 0 < 1 + q by rewrite ltr_spaddl ?ltr01.
  have hq : L * q <= 4%:R / 100%:R.
    have le1 : L ^+ k <= L by case: k k2 {q q0 d0} => [|[|]] // _; rewrite ?expr0 ?expr1.
    have -> : (4%:R / 100%:R : F) = L * (L * eps) ^+ 2 * L.
      by rewrite /eps; field; rewrite gt_eqF.
    apply: (@le_trans _ _ (L * (L * eps) ^+ 2)).
      rewrite ler_pmul2l // /q ler_sqr ?nnegrE ?mulr_ge0 ?exprn_ge0 ?(ltW L0) ?(ltW e0) //.
      by rewrite ler_pmul2r.
    by rewrite ler_pemulr // mulr_ge0 ?sqr_ge0 // ltW.
  rewrite ler_pdivl_mulr // mul1r ler_add2l ler_pemull //= ler_pdivr_mulr //.
  apply: (@le_trans _ _ (104%:R / 100%:R)).
    have -> : (104%:R / 100%:R : F) = 1 + 4%:R / 100%:R by field.
    by rewrite ler_add2l.
  by rewrite ler_pemulr ?divr_ge0 ?ler0n // ler_addl.
have hi2 : (i <= 2)%N.
  rewrite leqNgt; apply/negP => h; have := hl 2%N; rewrite h => /(_ isT).
  have -> : estimate (dg L) (v2 1 eps) 2 = rayleigh (dg L) (iter 1 (dg L) (v2 1 eps)) by [].
  have -> : estimate (dg L) (v2 1 eps) 2.-1 = rayleigh (dg L) (iter 0 (dg L) (v2 1 eps)) by [].
  have /andP [a1 a2] := bnd 1%N isT; have /andP [c1 c2] := bnd 0%N isT.
  rewrite ltNge => /negP; apply; rewrite ler_norml; rewrite ler_subl_addr ler_subr_addr.
  have s0 : 0 <= 5%:R / 100%:R :> F by rewrite divr_ge0 ?ler0n.
  have hs : 104%:R / 100%:R <= 5%:R / 100%:R + 1 :> F.
    have -> : (5%:R / 100%:R + 1 : F) = 105%:R / 100%:R by field.
    by rewrite ler_pmul2r ?invr_gt0 ?ltr0n // ler_nat.
  apply/andP; split; last by apply: le_trans a2 _; apply: le_trans hs _; rewrite ler_add2l.
  rewrite addrC ler_subl_addl; apply: le_trans c2 _; apply: le_trans hs _; by rewrite ler_add2l.
by rewrite he; have /andP [] : 1 <= rayleigh (dg L) (iter i.-1 (dg L) (v2 1 eps)) <= 104%:R / 100%:R by apply: bnd; case: i i0 hi2 {he hl E} => [|[|[|]]].
Qed.
(* the hypotheses of C64_psd_estimate, C64_estimate_between and C64_power_iter_spec are met by diag(1, L) *)
Lemma ip_dg (L : F) (v w : 'cV[F]_2) : ip v (dg L w) = v 0 0 * w 0 0 + L * (v 1 0 * w 1 0).
Proof. by rewrite /ip mxE big_ord_recl big_ord1 !mxE /= (_ : lift 0 0 = 1); [rewrite mulrCA|apply/val_inj]. Qed.
Lemma ip_2 (v w : 'cV[F]_2) : ip v w = v 0 0 * w 0 0 + v 1 0 * w 1 0 :> F.
Proof. by rewrite /ip mxE big_ord_recl big_ord1 !mxE /= (_ : lift 0 0 = 1); [|apply/val_inj]. Qed.
Example C64_ex : exists (mv : 'cV[F]_2 -> 'cV[F]_2) b hi, [/\ linear mv, self_adjoint mv,
  forall v, 0 <= ip v (mv v) <= hi * ip v v, forall k, iter k mv b != 0 & exists2 v, v != 0 & mv v = hi *: v].
Proof.
exists (dg 2%:R), (v2 1 1), 2%:R; split.
- exact: dg_lin.
- by move=> u v; rewrite ip_dg ipC ip_dg (mulrC (u 0 0)) (mulrC (u 1 0)).
- move=> v; rewrite ip_dg ip_2 -!expr2.
  have a0 := sqr_ge0 (v 0 0); have a1 := sqr_ge0 (v 1 0).
  apply/andP; split; first by apply: addr_ge0; [exact: a0|apply: mulr_ge0; [exact: ler0n|exact: a1]].
  by rewrite mulrDr ler_add2r ler_pemull // ler1n.
- by move=> k; rewrite dg_iter v2_nz // oner_eq0.
- exists (v2 0 1); last by rewrite dg_v2; apply/colP => i; rewrite !mxE; case: eqP; rewrite ?mulr0.
  by apply/eqP => /colP /(_ 1); rewrite !mxE /= => /eqP; rewrite oner_eq0.
Qed.
(* ... and those of C64_nsd_estimate by its negative *)
Example C64_ex_neg : exists (mv : 'cV[F]_2 -> 'cV[F]_2) b lo, [/\ linear mv, self_adjoint mv,
  forall v, lo * ip v v <= ip v (mv v) <= 0 & forall k, iter k mv b != 0].
Proof.
have [mv [b [hi [l s h z _]]]] := C64_ex.
have ipN (u v : 'cV[F]_2) : ip u (- v) = - ip u v by rewrite !ipE dotvC dotvNl dotvC.
exists (fun v => - mv v), b, (- hi); split.
- by move=> a u v; rewrite l opprD scalerN.
- by move=> u v; rewrite ipN s [in RHS]ipC ipN ipC.
- by move=> v; rewrite ipN mulNr ler_opp2 oppr_le0 andbC.
- by move=> k; rewrite iter_opp // scaler_eq0 negb_or expf_neq0 ?oppr_eq0 ?oner_eq0 //=.
Qed.
End Under.
Print Assumptions C64_power_iter_spec.
Print Assumptions C64_psd_estimate.
Print Assumptions C64_nsd_estimate.
Print Assumptions C64_shift_scale.
Print Assumptions C64_underestimate_refuted.
