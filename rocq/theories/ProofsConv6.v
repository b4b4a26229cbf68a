(* ProofsConv6.v : the points of a smooth tube; the error of a whole run from the error of its steps. *)
From Coq Require Import Reals.
From mathcomp Require Import all_ssreflect all_algebra.
From mathcomp Require Import ring.
From Verif Require Import Rstruct Summable MxBase MxSeries ProofsPhiErr SpecProg SpecPhi SpecInt SpecOrder SpecOrder2 SpecConv.
From Verif Require Import ProofsOde ProofsJet2 ProofsJet3 ProofsOrder ProofsOrder3 ProofsUJ ProofsUJ2 ProofsConv ProofsConv2 ProofsConv3.
Set Implicit Arguments.
Unset Strict Implicit.
Unset Printing Implicit Defensive.
Import Order.TTheory GRing.Theory Num.Theory.
Local Open Scope ring_scope.

Definition tr (rad B : R) : R := Num.min (2%:R^-1) (rad / (2%:R * (1 + B)))%R.
Lemma tr_gt0 (rad B : R) : 0 < rad -> 0 <= B -> 0 < tr rad B.
Proof.
move=> r0 B0; have B1 : 0 < 1 + B by rewrite ltr_spaddl ?ltr01.
by rewrite lt_minr invr_gt0 ltr0n divr_gt0 // mulr_gt0 ?ltr0n.
Qed.
Section Tube.
Variables (n k : nat).
Notation vec := 'cV[R]_n.
Variables (f : R -> vec -> vec) (z : R -> vec) (t0 T rad B : R) (ft : R -> vec -> vec)
    (J : R -> vec -> 'M[R]_n) (H2 : R -> vec -> 'I_(1 + n) -> 'I_(1 + n) -> vec)
    (H3 : R -> vec -> 'I_(1 + n) -> 'I_(1 + n) -> 'I_(1 + n) -> vec).
Hypothesis k0 : (0 < k)%N.
Hypothesis rp : 0 < rad.
Hypothesis B0 : 0 <= B.
Hypothesis st : smooth_tube k f z t0 T rad B ft J H2 H3.
Notation tube := (in_tube z t0 T rad).
Definition tprob (t : R) (y : vec) : prob := Prob f t y (ft t y) (J t y) (H2 t y) (H3 t y) z t0 T.
Lemma drift t y (s : R) : t0 <= t -> t <= T -> ptin (tprob t y) s -> ninf (z (t + s)%R - z t) <= B * `|s|.
Proof.
move=> h1 h2 hin; pose c := Num.sg s; have es : c * `|s| = s by rewrite -numEsg.
have h0 : ptin (tprob t y) 0 by split; rewrite /= addr0.
have hp x : 0 <= x -> x <= `|s| -> ptin (tprob t y) (c * x)%R by move=> x0 xs; apply: ptin_mul h0 _ x0 xs; rewrite es.
have zt x : 0 <= x -> x <= `|s| -> tube (t + c * x)%R (z (t + c * x)%R).
  by move=> x0 xs; have [a b] := hp x x0 xs; split=> // i; rewrite subrr mxE normr0 ltW.
have := @small_gronwall n (fun x => z (t + c * x)%R - z t) (fun x => c *: f (t + c * x)%R (z (t + c * x)%R) - 0) `|s| 0 B
  (normr_ge0 _) (lexx _) _ B0.
rewrite mul0r invr_ge0 ler0n => /(_ isT) H.
have {}H := H _ _ `|s| (normr_ge0 _) (lexx _).
have : ninf (z (t + c * `|s|)%R - z t) <= (1 + 2%:R * 0 * `|s|) * (ninf (z (t + c * 0)%R - z t) + `|s| * B).
  apply: H => x x0 xs.
    apply: vderivB; last exact: vderiv_cst.
    by apply: vderiv_aff; have [a b] := hp x x0 xs; apply: st_sol st _ _ _.
  rewrite subr0 mul0r add0r ninfZ -[X in _ <= X]mul1r; apply: ler_pmul; rewrite ?ninf_ge0 //.
    by rewrite /c normr_sg; case: (s != 0); rewrite ?lexx ?ler01.
  by apply: ninf_maxnorm => //; apply: (st_f st); apply: zt.
by rewrite es mulr0 mul0r addr0 mul1r mulr0 addr0 subrr ninf0 add0r mulrC.
Qed.
Lemma tube_good t y : t0 <= t -> t <= T -> maxnorm_le (y - z t) (rad / 2%:R) ->
  pgood k (4%:R * B) (tr rad B) (tprob t y).
Proof.
move=> h1 h2 hy; have B1 : 0 < 1 + B by rewrite ltr_spaddl ?ltr01.
have r2 : rad = rad / 2%:R + rad / 2%:R by field.
have q0 : 0 <= rad / 2%:R by rewrite divr_ge0 ?ler0n ?ltW.
have rho0 := tr_gt0 rp B0.
have hyn : ninf (y - z t) <= rad / 2%:R by apply: ninf_maxnorm.
have BB : B <= 4%:R * B by rewrite ler_pemull // ler1n.
have ty : tube t y.
  by split=> // i; apply: le_trans (hy i) _; rewrite {2}r2 ler_addl.
have h0 : ptin (tprob t y) 0 by split; rewrite /= addr0.
have trr (x : R) : x <= tr rad B -> x <= 2%:R^-1 /\ x * (1 + B) <= rad / 2%:R.
  rewrite le_minr => /andP[a]; rewrite ler_pdivl_mulr ?mulr_gt0 ?ltr0n // => b; split=> //.
  by rewrite ler_pdivl_mulr ?ltr0n // -mulrA [(1 + B) * _]mulrC.
have near (s : R) h : ptin (tprob t y) s -> `|s| <= tr rad B -> ninf h <= tr rad B -> tube (t + s)%R (y + h).
  move=> hp hs hh; have [a b] := hp; split=> //; apply/(maxnorm_ninf _ (ltW rp)).
  have -> : y + h - z (t + s)%R = (y - z t) + (h - (z (t + s)%R - z t)).
    by rewrite opprB [h + _]addrCA [RHS]addrA subrK addrA.
  apply: le_trans (ninfD _ _) _; rewrite r2; apply: ler_add => //; apply: le_trans (ninfD _ _) _; rewrite ninfN.
  have [_ e1] := trr _ (lexx (tr rad B)); apply: le_trans e1; rewrite mulrDr mulr1 ler_add //.
  apply: le_trans (drift h1 h2 hp) _; rewrite mulrC; exact: ler_wpmul2r.
split; rewrite /=.
- exact: (st_sym st ty).
- by apply: le_trans BB; apply: ninf_maxnorm => //; exact: (st_f st ty).
- by apply: le_trans BB; apply: ninf_maxnorm => //; exact: (st_ft st ty).
- by apply: le_trans BB; apply: ninf_le => //; exact: (st_J st ty).
- move=> k1 x x'; apply: (@le_trans _ _ (B * (ninf x * ninf x'))); last by rewrite ler_wpmul2r ?mulr_ge0 ?ninf_ge0.
  apply: ninf_maxnorm; first by rewrite !mulr_ge0 ?ninf_ge0.
  by apply: (st_2 st k1 ty); exact: maxnorm_self.
- move=> k1 x x' x''; apply: (@le_trans _ _ (B * (ninf x * ninf x' * ninf x''))); last by rewrite ler_wpmul2r ?mulr_ge0 ?ninf_ge0.
  apply: ninf_maxnorm; first by rewrite !mulr_ge0 ?ninf_ge0.
  by apply: (st_3 st k1 ty); exact: maxnorm_self.
- move=> s h rho hp hs hh hr; have p0 : 0 <= rho by apply: le_trans hs.
  apply: (@le_trans _ _ (B * rho ^+ k.+1)); last by rewrite ler_wpmul2r ?exprn_ge0.
  apply: ninf_maxnorm; first by rewrite mulr_ge0 ?exprn_ge0.
  apply: (st_T st ty) => //; last by move=> i; apply: le_trans (ninf_entry _ _ _) hh.
  by apply: near => //; [apply: le_trans hs hr|apply: le_trans hh hr].
- move=> s u u' hp hs hu hu'; pose rho := ninf (u - u').
  have p0 : 0 <= rho by exact: ninf_ge0.
  have tu : tube (t + s)%R u by have := near s (u - y) hp hs hu; rewrite [y + _]addrC subrK.
  have tu' : tube (t + s)%R u' by have := near s (u' - y) hp hs hu'; rewrite [y + _]addrC subrK.
  have rho1 : rho <= 1.
    have [e1 _] := trr _ (lexx (tr rad B)).
    have -> : (1 : R) = 2%:R^-1 + 2%:R^-1 by field.
    have e : u - u' = (u - y) - (u' - y) by rewrite opprB addrA subrK.
    rewrite /rho e; apply: le_trans (ninfD _ _) _; rewrite ninfN; apply: ler_add; [exact: le_trans hu e1|exact: le_trans hu' e1].
  have tux : tube (t + s + 0)%R (u' + (u - u')) by rewrite addr0 [u' + _]addrC subrK.
  have := st_T st tu' tux (_ : `|0 : R| <= rho) (@maxnorm_self _ _); rewrite normr0 => /(_ p0).
  rewrite addr0 [u' + _]addrC subrK -/rho => hT.
  have {}hT := ninf_maxnorm (mulr_ge0 B0 (exprn_ge0 _ p0)) hT.
  set P := taylor_poly _ _ _ _ _ _ _ _ in hT.
  have -> : f (t + s)%R u - f (t + s)%R u' = (f (t + s)%R u - P) + (P - f (t + s)%R u') by rewrite addrA subrK.
  have xr m : (0 < m)%N -> rho ^+ m <= rho.
    by case: m => // m _; rewrite exprS ler_pimulr // exprn_ile1.
  have hx : ninf (tx 0 (u - u')) <= rho by apply: ninf_tx; rewrite ?normr0.
  have hxm := @maxnorm_ninf _ (tx 0 (u - u')) rho p0; have {}hx := proj2 hxm hx.
  have n1 : ninf (f (t + s)%R u - P) <= B * rho by apply: le_trans hT _; apply: ler_wpmul2l => //; exact: xr.
  have e1 : P - f (t + s)%R u' = J (t + s)%R u' *m (u - u')
     + ((if (1 < k)%N then 2%:R^-1 *: diff2 (H2 (t + s)%R u') (tx 0 (u - u')) (tx 0 (u - u')) else 0)
     + (if (2 < k)%N then 6%:R^-1 *: diff3 (H3 (t + s)%R u') (tx 0 (u - u')) (tx 0 (u - u')) (tx 0 (u - u')) else 0)).
    have gen (a b c d : vec) : a + b + c + d - a = b + (c + d) by rewrite -!(addrA a) addrCA subrr addr0 addrA.
    by rewrite /P /taylor_poly scale0r addr0 gen.
  have n2 : ninf (J (t + s)%R u' *m (u - u')) <= B * rho.
    by apply: le_trans (ninfM _ _) _; apply: ler_wpmul2r; rewrite ?ninf_ge0 //; apply: ninf_le => //; exact: (st_J st tu').
  have fr (m : nat) (v : vec) : (0 < m)%N -> ninf v <= B * rho -> ninf (m%:R^-1 *: v) <= B * rho.
    move=> m0 hv; rewrite ninfZ ger0_norm ?invr_ge0 ?ler0n // -[X in _ <= X]mul1r; apply: ler_pmul; rewrite ?ninf_ge0 ?invr_ge0 ?ler0n //.
    by rewrite invf_le1 ?ltr0n // ler1n.
  have Br : 0 <= B * rho by rewrite mulr_ge0.
  have n3 : ninf (if (1 < k)%N then 2%:R^-1 *: diff2 (H2 (t + s)%R u') (tx 0 (u - u')) (tx 0 (u - u')) else 0) <= B * rho.
    case: ifP => k1; rewrite ?ninf0 //; apply: fr => //.
    apply: (@le_trans _ _ (B * (rho * rho))); last by rewrite ler_wpmul2l // -expr2 xr.
    by apply: ninf_maxnorm; rewrite ?mulr_ge0 //; apply: (st_2 st k1 tu').
  have n4 : ninf (if (2 < k)%N then 6%:R^-1 *: diff3 (H3 (t + s)%R u') (tx 0 (u - u')) (tx 0 (u - u')) (tx 0 (u - u')) else 0) <= B * rho.
    case: ifP => k1; rewrite ?ninf0 //; apply: fr => //.
    apply: (@le_trans _ _ (B * (rho * rho * rho))); last by rewrite ler_wpmul2l // -expr2 -exprSr xr.
    by apply: ninf_maxnorm; rewrite ?mulr_ge0 //; apply: (st_3 st k1 tu').
  rewrite -/rho -mulrA mulr_natl 3!mulrS mulr1n e1.
  apply: le_trans (ninfD _ _) _; apply: ler_add => //; apply: le_trans (ninfD _ _) _; apply: ler_add => //.
  by apply: le_trans (ninfD _ _) _; apply: ler_add.
- by move=> s [a b]; apply: (st_sol st).
- move=> s [a b]; apply: le_trans BB; apply: ninf_maxnorm => //; apply: (st_f st); split=> // i.
  by rewrite subrr mxE normr0 ltW.
- exact: h0.
Qed.
End Tube.
