(* ProofsConv.v : a curve with a small defect stays near the solution; discrete Gronwall inequality. *)
From Coq Require Import Reals.
From mathcomp Require Import all_ssreflect all_algebra.
From mathcomp Require Import ring.
From Verif Require Import Rstruct Summable MxBase MxSeries ProofsPhiErr SpecProg ProofsOde SpecOrder ProofsJet ProofsJet2 ProofsPade5.
Set Implicit Arguments.
Unset Strict Implicit.
Unset Printing Implicit Defensive.
Import Order.TTheory GRing.Theory Num.Theory.
Local Open Scope ring_scope.
Delimit Scope R_scope with coqR.

Section Analysis.
Variable n : nat.
Notation vec := 'cV[R]_n.
(* the largest entry of a curve over an interval is attained *)
Lemma max_attained (g : R -> vec) (a : R) : 0 <= a ->
  (forall s i, 0 <= s -> s <= a -> continuity_pt (fun x => g x i 0) s) ->
  exists m : R, (forall s, 0 <= s -> s <= a -> ninf (g s) <= m) /\
    (m = 0 \/ exists s i, [/\ 0 <= s, s <= a & `|g s i 0| = m]).
Proof.
move=> a0 hc.
suff [m [m0 hm hv]] : exists m : R, [/\ 0 <= m, forall i, i \in enum 'I_n -> forall s, 0 <= s -> s <= a -> `|g s i 0| <= m &
    (m = 0 \/ exists s i, [/\ 0 <= s, s <= a & `|g s i 0| = m])].
  exists m; split=> // s s0 sa; apply: ninf_le => // i; rewrite big_ord1; apply: hm => //; by rewrite mem_enum.
elim: (enum 'I_n) => [|i r [m [m0 hm hv]]]; first by exists 0; split=> //; left.
have [|x [hx [x0 xa]]] := @continuity_ab_maj (fun s => Rabs (g s i 0)) 0%R a (elimT (RleP _ _) a0).
  move=> c [c0 ca]; apply: (continuity_pt_comp (fun s => g s i 0) Rabs); last exact: Rcontinuity_abs.
  by apply: hc; exact/RleP.
have hx' s : 0 <= s -> s <= a -> `|g s i 0| <= `|g x i 0|.
  by move=> s0 sa; have /RleP := hx s (conj (elimT (RleP _ _) s0) (elimT (RleP _ _) sa)); rewrite !RabsE.
have [le|lt] := lerP `|g x i 0| m.
  exists m; split=> // j; rewrite inE => /orP[/eqP->|/hm//] s s0 sa; exact: le_trans (hx' s s0 sa) le.
exists `|g x i 0|; split=> //.
  move=> j; rewrite inE => /orP[/eqP->//|jr] s s0 sa; exact: le_trans (hm j jr s s0 sa) (ltW lt).
by right; exists x, i; split=> //; exact/RleP.
Qed.
(* |w'| <= L |w| + c on [0,a] *)
Lemma small_gronwall (g g' : R -> vec) (a L c : R) : 0 <= a -> 0 <= L -> L * a <= 2%:R^-1 -> 0 <= c ->
  (forall s, 0 <= s -> s <= a -> vderiv g s (g' s)) ->
  (forall s, 0 <= s -> s <= a -> ninf (g' s) <= L * ninf (g s) + c) ->
  forall s, 0 <= s -> s <= a -> ninf (g s) <= (1 + 2%:R * L * a) * (ninf (g 0) + a * c).
Proof.
move=> a0 L0 La c0 hd hb.
have hcont s i : 0 <= s -> s <= a -> continuity_pt (fun x => g x i 0) s.
  move=> s0 sa; apply: derivable_continuous_pt; exists (g' s i 0); exact: hd.
have [m [hm hv]] := max_attained a0 hcont.
have g00 := ninf_ge0 (g 0).
have A0 : 0 <= ninf (g 0) + a * c by rewrite addr_ge0 ?mulr_ge0.
have m0 : 0 <= m by apply: le_trans (hm 0 (lexx _) a0).
have key : m <= ninf (g 0) + a * (L * m + c).
  case: hv => [->|[s [i [s0 sa es]]]]; first by rewrite mulr0 add0r.
  rewrite -{1}es.
  have [e0|sn] := eqVneq s 0.
    rewrite e0.
    by apply: le_trans (ninf_entry _ _ _) _; rewrite ler_addl mulr_ge0 ?addr_ge0 ?mulr_ge0.
  have s1 : Rlt 0 s by apply/RltP; rewrite lt_neqAle eq_sym sn.
  have hmvt : forall x : R, (0 <= x /\ x <= s)%coqR -> derivable_pt_lim (fun u => g u i 0) x (g' x i 0).
    by move=> x [x0 xs]; apply: hd; [exact/RleP|apply: le_trans sa; exact/RleP].
  have [x [e [x0 xs]]] := MVT_cor2 (fun u => g u i 0) (fun u => g' u i 0) 0%coqR s s1 hmvt.
  have x0' : 0 <= x by apply/RleP; exact: Rlt_le.
  have xs' : x <= s by apply/RleP; exact: Rlt_le.
  have -> : g s i 0 = g 0 i 0 + g' x i 0 * s.
    by move: e; rewrite Rminus_0_r RminusE RmultE => e; rewrite -e addrC subrK.
  apply: le_trans (ler_norm_add _ _) _; apply: ler_add; first exact: ninf_entry.
  rewrite normrM [`|s|]ger0_norm // mulrC; apply: ler_pmul => //.
  apply: le_trans (ninf_entry _ _ _) _; apply: le_trans (hb x x0' (le_trans xs' sa)) _.
  rewrite ler_add2r; apply: ler_wpmul2l => //.
  by apply: hm => //; apply: le_trans xs' sa.
move=> s s0 sa; apply: le_trans (hm s s0 sa) _.
have q0 : 0 <= L * a by rewrite mulr_ge0.
have k1 : m * (1 - L * a) <= ninf (g 0) + a * c.
  rewrite mulrBr mulr1 ler_subl_addr; apply: le_trans key _.
  rewrite (_ : ninf (g 0) + a * (L * m + c) = ninf (g 0) + a * c + m * (L * a)) //.
  by move: (ninf (g 0)) (a) (L) (m) (c) => u1 u2 u3 u4 u5; ring.
have h2 : (2%:R : R) != 0 by rewrite pnatr_eq0.
have k2 : 1 <= (1 + 2%:R * L * a) * (1 - L * a).
  have -> : (1 + 2%:R * L * a) * (1 - L * a) = 1 + L * a * (1 - 2%:R * (L * a)).
    by move: (L) (a) => u v; ring.
  rewrite ler_addl mulr_ge0 // subr_ge0 -[X in _ <= X](mulfV h2); apply: ler_wpmul2l; rewrite ?ler0n //.
have p0 : 0 <= 1 + 2%:R * L * a by rewrite addr_ge0 ?ler01 // !mulr_ge0 ?ler0n.
apply: (@le_trans _ _ (m * ((1 + 2%:R * L * a) * (1 - L * a)))); first by rewrite ler_pemulr.
by rewrite mulrCA ler_wpmul2l.
Qed.
(* a reparametrised curve *)
Lemma vderiv_aff (z : R -> vec) (t c s : R) v : vderiv z (t + c * s)%R v -> vderiv (fun x => z (t + c * x)%R) s (c *: v).
Proof.
move=> h i; rewrite mxE [c * _]mulrC.
have h1 : derivable_pt_lim (fun x => (t + c * x)%R) s c.
  have := derivable_pt_lim_plus _ _ s _ _ (derivable_pt_lim_const t s) (derivable_pt_lim_scal _ c s _ (derivable_pt_lim_id s)).
  by rewrite Rplus_0_l Rmult_1_r; apply: derivable_pt_lim_ext => x.
have := derivable_pt_lim_comp (fun x => (t + c * x)%R) (fun x => z x i ord0) s c (v i ord0) h1 (h i).
by apply: derivable_pt_lim_ext.
Qed.
Lemma vderiv_poly (y : vec) p (b : nat -> vec) (s : R) :
  vderiv (fun x => y + \sum_(k < p) x ^+ k.+1 *: b k) s (\sum_(k < p) s ^+ k *: (k.+1%:R *: b k)).
Proof.
move=> i; pose Q : {poly R} := (y i ord0)%:P + \sum_(k < p) (b k i ord0) *: 'X^k.+1.
have e1 x : Q.[x] = (y + \sum_(k < p) x ^+ k.+1 *: b k) i ord0.
  rewrite /Q hornerD hornerC horner_sum mxE summxE; congr (_ + _); apply: eq_bigr => k _.
  by rewrite hornerZ hornerXn mxE mulrC.
have e2 : Q^`().[s] = (\sum_(k < p) s ^+ k *: (k.+1%:R *: b k)) i ord0.
  rewrite /Q derivD derivC add0r raddf_sum /= horner_sum summxE; apply: eq_bigr => k _.
  by rewrite derivZ derivXn hornerZ hornerMn hornerXn !mxE mulr_natl mulrnAr mulrC -mulrnAr.
rewrite -e2; apply: derivable_pt_lim_ext (poly_derivable Q s) => x; exact: e1.
Qed.
End Analysis.
Lemma geom_gronwall (q e : R) (u : nat -> R) : 0 <= q -> 0 <= e -> u 0%N = 0 ->
  (forall k, u k.+1 <= (1 + q) * u k + q * e) -> forall k, u k <= e * ((1 + q) ^+ k - 1).
Proof.
move=> q0 e0 u0 h; elim=> [|k IH]; first by rewrite u0 expr0 subrr mulr0.
apply: le_trans (h k) _.
have q1 : 0 <= 1 + q by rewrite addr_ge0 ?ler01.
apply: le_trans (ler_add (ler_wpmul2l q1 IH) (lexx _)) _.
rewrite exprS; move: ((1 + q) ^+ k) => X.
by rewrite (_ : (1 + q) * (e * (X - 1)) + q * e = e * ((1 + q) * X - 1)) //; ring.
Qed.
Lemma geom_bound (C dt e T : R) k : 0 <= C -> 0 <= dt -> 0 <= e -> dt *+ k <= T ->
  e * ((1 + C * dt) ^+ k - 1) <= e * exp (C * T)%R.
Proof.
move=> C0 d0 e0 kT; rewrite ler_wpmul2l // ler_subl_addr; apply: (@le_trans _ _ (exp (C * T)%R)); last first.
  by rewrite ler_addl ler01.
have h1 : 1 + C * dt <= exp (C * dt)%R.
  by apply/RleP; have := exp_ineq1_le (C * dt)%R; rewrite RplusE.
have q0 : 0 <= 1 + C * dt by rewrite addr_ge0 ?ler01 ?mulr_ge0.
apply: le_trans (ler_expn2r k q0 _ h1) _; rewrite ?nnegrE ?exp_ge0 //.
rewrite exp_pown; apply: exp_le; rewrite mulr_natl -mulrnAr; by apply: ler_wpmul2l.
Qed.
