(* ProofsUJ2.v : uniform expansions through bilinear and trilinear forms and through the right-hand side. *)
From Coq Require Import Reals.
From mathcomp Require Import all_ssreflect all_algebra.
From mathcomp Require Import ring.
From Verif Require Import Rstruct Summable MxBase MxSeries ProofsPhiErr SpecProg SpecOrder ProofsJet2 ProofsJet3 ProofsOrder2 ProofsUJ.
Set Implicit Arguments.
Unset Strict Implicit.
Unset Printing Implicit Defensive.
Import Order.TTheory GRing.Theory Num.Theory.
Local Open Scope ring_scope.

Section Forms.
Variable n : nat.
Notation vec := 'cV[R]_n.
Variable H2 : 'I_(1 + n) -> 'I_(1 + n) -> vec.
Variable H3 : 'I_(1 + n) -> 'I_(1 + n) -> 'I_(1 + n) -> vec.
Lemma diff2Dl x x' z : diff2 H2 (x + x') z = diff2 H2 x z + diff2 H2 x' z.
Proof.
rewrite /diff2 -big_split; apply: eq_bigr => i _; rewrite -big_split; apply: eq_bigr => j _.
by rewrite mxE mulrDl scalerDl.
Qed.
Lemma diff2Dr x z z' : diff2 H2 x (z + z') = diff2 H2 x z + diff2 H2 x z'.
Proof.
rewrite /diff2 -big_split; apply: eq_bigr => i _; rewrite -big_split; apply: eq_bigr => j _.
by rewrite mxE mulrDr scalerDl.
Qed.
Lemma diff2Sl (c : R) x z : diff2 H2 (c *: x) z = c *: diff2 H2 x z.
Proof.
rewrite /diff2 scaler_sumr; apply: eq_bigr => i _; rewrite scaler_sumr; apply: eq_bigr => j _.
by rewrite mxE scalerA mulrA.
Qed.
Lemma diff2Sr (c : R) x z : diff2 H2 x (c *: z) = c *: diff2 H2 x z.
Proof.
rewrite /diff2 scaler_sumr; apply: eq_bigr => i _; rewrite scaler_sumr; apply: eq_bigr => j _.
by rewrite mxE scalerA mulrCA.
Qed.
Lemma diff3D1 x x' y z : diff3 H3 (x + x') y z = diff3 H3 x y z + diff3 H3 x' y z.
Proof.
rewrite /diff3 -big_split; apply: eq_bigr => i _; rewrite -big_split; apply: eq_bigr => j _.
rewrite -big_split; apply: eq_bigr => k _; by rewrite mxE !mulrDl scalerDl.
Qed.
Lemma diff3D2 x y y' z : diff3 H3 x (y + y') z = diff3 H3 x y z + diff3 H3 x y' z.
Proof.
rewrite /diff3 -big_split; apply: eq_bigr => i _; rewrite -big_split; apply: eq_bigr => j _.
rewrite -big_split; apply: eq_bigr => k _; by rewrite mxE mulrDr mulrDl scalerDl.
Qed.
Lemma diff3D3 x y z z' : diff3 H3 x y (z + z') = diff3 H3 x y z + diff3 H3 x y z'.
Proof.
rewrite /diff3 -big_split; apply: eq_bigr => i _; rewrite -big_split; apply: eq_bigr => j _.
rewrite -big_split; apply: eq_bigr => k _; by rewrite mxE mulrDr scalerDl.
Qed.
Lemma diff3S1 (c : R) x y z : diff3 H3 (c *: x) y z = c *: diff3 H3 x y z.
Proof.
rewrite /diff3 scaler_sumr; apply: eq_bigr => i _; rewrite scaler_sumr; apply: eq_bigr => j _.
rewrite scaler_sumr; apply: eq_bigr => k _; by rewrite mxE scalerA !mulrA.
Qed.
Lemma diff3S2 (c : R) x y z : diff3 H3 x (c *: y) z = c *: diff3 H3 x y z.
Proof.
rewrite /diff3 scaler_sumr; apply: eq_bigr => i _; rewrite scaler_sumr; apply: eq_bigr => j _.
rewrite scaler_sumr; apply: eq_bigr => k _; by rewrite mxE scalerA [x _ _ * _]mulrCA !mulrA.
Qed.
Lemma diff3S3 (c : R) x y z : diff3 H3 x y (c *: z) = c *: diff3 H3 x y z.
Proof.
rewrite /diff3 scaler_sumr; apply: eq_bigr => i _; rewrite scaler_sumr; apply: eq_bigr => j _.
rewrite scaler_sumr; apply: eq_bigr => k _; by rewrite mxE scalerA mulrCA.
Qed.
Lemma tx_scale (c s : R) (h : vec) : tx (c * s)%R (c *: h) = c *: tx s h.
Proof. by rewrite /tx scale_col_mx scale_scalar_mx. Qed.
Lemma tx_add (s s' : R) (h h' : vec) : tx (s + s')%R (h + h') = tx s h + tx s' h'.
Proof. by rewrite /tx add_col_mx raddfD. Qed.
Lemma ninf_tx (s : R) (h : vec) (r : R) : `|s| <= r -> ninf h <= r -> ninf (tx s h) <= r.
Proof.
move=> hs hh; have r0 : 0 <= r by apply: le_trans hs.
apply: ninf_le => // i; rewrite big_ord1; case: (split_ordP i) => j ->.
  by rewrite col_mxEu (ord1 j) mxE eqxx mulr1n.
by rewrite col_mxEd; apply: le_trans hh; apply: ninf_entry.
Qed.
Lemma ninf_txh (s : R) (h : vec) : ninf h <= ninf (tx s h).
Proof.
apply: ninf_le; rewrite ?ninf_ge0 // => i; rewrite big_ord1.
by have := ninf_entry (tx s h) (rshift 1 i) 0; rewrite col_mxEd.
Qed.
End Forms.

Section U.
Variables (Om : Type) (dt eta : Om -> R) (good : Om -> Prop).
Hypothesis dt0 : forall w, good w -> 0 <= dt w.
Hypothesis eta0 : forall w, good w -> 0 <= eta w.
Notation uev := (uev dt eta good).
Notation UO := (UO dt eta good).
Notation UJ := (UJ dt eta good).
Notation wt := (wt dt eta).
Notation uone := (@uone Om).

Section Bil.
Variables d d' : Om -> nat.
Definition ulin (L : forall w, 'cV[R]_(d w) -> 'cV[R]_(d' w)) : Prop :=
  [/\ forall w x y, L w (x + y) = L w x + L w y, forall w (c : R) x, L w (c *: x) = c *: L w x &
    exists C : R, 0 <= C /\ uev (fun w => forall x, ninf (L w x) <= C * ninf x)].
Definition ubil (D : forall w, 'cV[R]_(d w) -> 'cV[R]_(d w) -> 'cV[R]_(d' w)) : Prop :=
  [/\ forall w x y z, D w (x + y) z = D w x z + D w y z, forall w (c : R) x z, D w (c *: x) z = c *: D w x z,
    forall w x y z, D w x (y + z) = D w x y + D w x z, forall w (c : R) x z, D w x (c *: z) = c *: D w x z &
    exists C : R, 0 <= C /\ uev (fun w => forall x z, ninf (D w x z) <= C * (ninf x * ninf z))].
Lemma ulin_sum L : ulin L -> forall w m (x : nat -> 'cV[R]_(d w)), L w (\sum_(i < m) x i) = \sum_(i < m) L w (x i).
Proof.
move=> [hD hS _] w; elim=> [|m IH] x; last by rewrite !big_ord_recr /= hD IH.
by rewrite !big_ord0 -(scale0r (0 : 'cV[R]_(d w))) hS scale0r.
Qed.
Lemma UO_lin wt L (e : forall w, 'cV[R]_(d w)) : ulin L -> UO wt e -> UO wt (fun w => L w (e w)).
Proof.
move=> [_ _ [C [C0 HC]]] [D [D0 HD]]; exists (C * D); split; first exact: mulr_ge0.
apply: uev_imp (uev_and HC HD) => w gw [h1 h2]; apply: le_trans (h1 _) _.
by rewrite -mulrA ler_wpmul2l.
Qed.
Lemma UJ_lin p b L (e : forall w, 'cV[R]_(d w)) a : ulin L -> UJ p b e a -> UJ p b (fun w => L w (e w)) (fun k w => L w (a k w)).
Proof.
move=> hL [H1 H2]; split=> [k kp|]; first exact: UO_lin hL (H1 k kp).
apply: UO_ext (UO_lin hL H2) => w _; have [hD hS _] := hL.
rewrite hD -scaleN1r hS scaleN1r (ulin_sum hL p.+1 (fun k => dt w ^+ k *: a k w)); congr (_ - _).
by apply: eq_bigr => k _; rewrite hS.
Qed.
Lemma bil_lin D (u : forall w, 'cV[R]_(d w)) : ubil D -> UO uone u -> ulin (fun w x => D w (u w) x).
Proof.
move=> [h1 h2 h3 h4 [C [C0 HC]]] [E [E0 HE]]; split=> [w x y|w c x|]; [exact: h3|exact: h4|].
exists (C * E); split; first exact: mulr_ge0.
apply: uev_imp (uev_and HC HE) => w gw [k1 k2] x; apply: le_trans (k1 _ _) _.
rewrite -mulrA ler_wpmul2l // ler_wpmul2r ?ninf_ge0 //; by move: k2; rewrite mulr1.
Qed.
Lemma UO_bil wt D (x z : forall w, 'cV[R]_(d w)) : ubil D -> UO wt x -> UO uone z -> UO wt (fun w => D w (x w) (z w)).
Proof.
move=> [_ _ _ _ [C [C0 HC]]] [E [E0 HE]] [G [G0 HG]]; exists (C * (E * G)); split; first by rewrite !mulr_ge0.
apply: uev_imp (uev_and HC (uev_and HE HG)) => w gw [k1 [k2 k3]]; apply: le_trans (k1 _ _) _.
rewrite -mulrA ler_wpmul2l //; move: k3; rewrite mulr1 => k3.
rewrite (_ : E * G * wt w = (E * wt w) * G); last by rewrite mulrAC.
by apply: ler_pmul; rewrite ?ninf_ge0.
Qed.
Lemma UJ_bil p b D (x z : forall w, 'cV[R]_(d w)) a c : ubil D -> UJ p b x a -> UJ p b z c ->
  UJ p b (fun w => D w (x w) (z w)) (fun m w => \sum_(k < m.+1) D w (a k w) (c (m - k)%N w)).
Proof.
move=> hD Hx Hz; have [h1 h2 h3 h4 _] := hD.
have H1 : UJ p b (fun w => \sum_(i < p.+1) dt w ^+ i *: D w (a i w) (z w))
   (fun m w => \sum_(i < p.+1) iter i shift (fun j => D w (a i w) (c j w)) m).
  apply: (@UJ_sum _ dt eta good dt0 eta0 d' p b p.+1 (fun i w => dt w ^+ i *: D w (a i w) (z w))
     (fun i m w => iter i shift (fun j => D w (a i w) (c j w)) m)) => i ip.
  exact: (UJ_sX dt0 eta0 i (UJ_lin (bil_lin hD (proj1 Hx i ip)) Hz)).
have H2 : UJ p b (fun w => \sum_(i < p.+1) dt w ^+ i *: D w (a i w) (z w))
   (fun m w => \sum_(k < m.+1) D w (a k w) (c (m - k)%N w)).
  apply: UJ_eq H1 => m w hm _; rewrite (big_ord_widen p.+1 (fun i => D w (a i w) (c (m - i)%N w))) ?ltnS //.
  by rewrite [RHS]big_mkcond; apply: eq_bigr => i _; rewrite iter_shift ltnS.
apply: UJ_pert H2 _.
apply: UO_ext (UO_bil hD (proj2 Hx) (UJ_O dt0 eta0 Hz)) => w _.
rewrite h1 -scaleN1r h2 scaleN1r; congr (_ - _).
have e m (u : nat -> 'cV[R]_(d w)) : D w (\sum_(i < m) u i) (z w) = \sum_(i < m) D w (u i) (z w).
  elim: m => [|m IH]; last by rewrite !big_ord_recr /= h1 IH.
  by rewrite !big_ord0 -(scale0r (0 : 'cV[R]_(d w))) h2 scale0r.
rewrite (e _ (fun k => dt w ^+ k *: a k w)); by apply: eq_bigr => k _; rewrite h2.
Qed.
End Bil.

Section Comp.
Variable n : Om -> nat.
Notation fam := (forall w, 'cV[R]_(n w)).
Lemma UJ_tx p b (c : R) (h : fam) a : (0 < p)%N -> UJ p b h a ->
  @UJ (fun w => (1 + n w)%N) p b (fun w => tx (c * dt w)%R (h w)) (fun k w => tx (c *+ (k == 1%N)) (a k w)).
Proof.
move=> p0 [H1 H2]; split=> [k kp|].
  have [C [C0 HC]] := H1 k kp; exists (C + `|c|); split; first exact: addr_ge0.
  apply: uev_imp HC => w gw hw; rewrite mulr1; apply: ninf_tx.
    by case: (k == _); rewrite ?mulr1n ?mulr0n ?normr0 ?ler_addr // addr_ge0.
  by apply: le_trans hw _; rewrite mulr1 ler_addl.
have [C [C0 HC]] := H2; exists C; split=> //; apply: uev_imp HC => w gw hw.
have e m (s : nat -> R) (u : nat -> 'cV[R]_(n w)) : \sum_(k < m) dt w ^+ k *: tx (s k) (u k) = tx (\sum_(k < m) dt w ^+ k * s k)%R (\sum_(k < m) dt w ^+ k *: u k).
  elim: m => [|m IH]; first by rewrite !big_ord0 tx0.
  by rewrite !big_ord_recr /= IH tx_add tx_scale.
rewrite (e _ (fun k => c *+ (k == 1%N)) (fun k => a k w)).
have -> : \sum_(k < p.+1) dt w ^+ k * (c *+ (k == 1%N :> nat)) = c * dt w.
  case: p p0 {H1 H2 hw} => // p _; rewrite !big_ord_recl /= ?mulr0n mulr0 add0r ?mulr1n expr1 big1 ?addr0 1?mulrC // => i _.
  by rewrite /bump /= ?mulr0n mulr0.
rewrite -[- tx _ _]scaleN1r -tx_scale -tx_add mulN1r subrr scaleN1r.
by apply: ninf_tx => //; rewrite normr0; apply: le_trans hw; apply: ninf_ge0.
Qed.

Variables (f : forall w, R -> 'cV[R]_(n w) -> 'cV[R]_(n w)) (t : Om -> R) (y ft : fam) (J : forall w, 'M[R]_(n w)).
Variables (H2 : forall w, 'I_(1 + n w) -> 'I_(1 + n w) -> 'cV[R]_(n w)).
Variables (H3 : forall w, 'I_(1 + n w) -> 'I_(1 + n w) -> 'I_(1 + n w) -> 'cV[R]_(n w)).
Variable tin : forall w : Om, R -> Prop.
Notation f0 w := (f (t w) (y w)).
Hypothesis s2 : forall w, good w -> sym2 (@H2 w).
Hypothesis bf : UO uone (fun w => f0 w).
Hypothesis bft : UO uone ft.
Hypothesis bJ : ubm dt eta good J.
Definition ub2 : Prop := exists C : R, 0 <= C /\ uev (fun w => forall x z, ninf (diff2 (@H2 w) x z) <= C * (ninf x * ninf z)).
Definition ub3 : Prop := exists C : R, 0 <= C /\ uev (fun w => forall x z u, ninf (diff3 (@H3 w) x z u) <= C * (ninf x * ninf z * ninf u)).
Definition uT (k : nat) : Prop := exists C r : R, [/\ 0 <= C, 0 < r & forall w, good w ->
  forall (s : R) h (rho : R), tin w s -> `|s| <= rho -> ninf h <= rho -> rho <= r ->
  ninf (f (t w + s)%R (y w + h) - taylor_poly k (f0 w) (ft w) (J w) (@H2 w) (@H3 w) s h) <= C * rho ^+ k.+1].
Lemma bil2 : ub2 -> @ubil (fun w => (1 + n w)%N) n (fun w => diff2 (@H2 w)).
Proof. by move=> hb; split=> // *; [exact: diff2Dl|exact: diff2Sl|exact: diff2Dr|exact: diff2Sr]. Qed.
Lemma bil3 (u : forall w, 'cV[R]_(1 + n w)) : ub3 -> UO uone u -> @ubil (fun w => (1 + n w)%N) n (fun w x z => diff3 (@H3 w) (u w) x z).
Proof.
move=> [C [C0 HC]] [D [D0 HD]]; split=> *; [exact: diff3D2|exact: diff3S2|exact: diff3D3|exact: diff3S3|].
exists (C * D); split; first exact: mulr_ge0.
apply: uev_imp (uev_and HC HD) => w gw [h1 h2] x z; apply: le_trans (h1 _ _ _) _.
rewrite -!mulrA ler_wpmul2l // ler_wpmul2r ?mulr_ge0 ?ninf_ge0 //; by move: h2; rewrite mulr1.
Qed.
(* coefficients of f(t + c s, y + h(s)) *)
Definition fcoc w (c : R) (a : nat -> 'cV[R]_(n w)) (m : nat) : 'cV[R]_(n w) :=
  match m with
  | 0 => f0 w
  | 1 => c *: ft w + J w *m a 1%N
  | 2 => J w *m a 2%N + 2%:R^-1 *: D2 (@H2 w) (a 1%N, c) (a 1%N, c)
  | 3 => J w *m a 3%N + D2 (@H2 w) (a 1%N, c) (a 2%N, 0) + 6%:R^-1 *: D3 (@H3 w) (a 1%N, c)
  | _ => 0
  end.
Arguments fcoc : clear implicits.
Lemma UJ_cub p b (x : forall w, 'cV[R]_(1 + n w)) a : ub3 -> (p <= 3)%N ->
  @UJ (fun w => (1 + n w)%N) p b x a -> (forall w, good w -> a 0%N w = 0) ->
  UJ p b (fun w => diff3 (@H3 w) (x w) (x w) (x w))
    (fun m w => if m == 3%N then diff3 (@H3 w) (a 1%N w) (a 1%N w) (a 1%N w) else 0).
Proof.
move=> h3 p3 Hx a0.
pose F i w := diff3 (@H3 w) (a i w) (x w) (x w).
pose G i m w := \sum_(k < m.+1) diff3 (@H3 w) (a i w) (a k w) (a (m - k)%N w).
have H1 : UJ p b (fun w => \sum_(i < p.+1) dt w ^+ i *: F i w) (fun m w => \sum_(i < p.+1) iter i shift (fun j => G i j w) m).
  apply: (@UJ_sum _ dt eta good dt0 eta0 n p b p.+1 (fun i w => dt w ^+ i *: F i w) (fun i m w => iter i shift (fun j => G i j w) m)) => i ip.
  exact: (UJ_sX dt0 eta0 i (UJ_bil (bil3 h3 (proj1 Hx i ip)) Hx Hx)).
have z0 w (v u : 'cV[R]_(1 + n w)) : [/\ diff3 (@H3 w) 0 v u = 0, diff3 (@H3 w) v 0 u = 0 & diff3 (@H3 w) v u 0 = 0].
  have e1 := diff3S1 (@H3 w) 0 0 v u; have e2 := diff3S2 (@H3 w) 0 v 0 u; have e3 := diff3S3 (@H3 w) 0 v u 0.
  by rewrite !scale0r in e1 e2 e3.
have H2' : UJ p b (fun w => \sum_(i < p.+1) dt w ^+ i *: F i w) (fun m w => if m == 3%N then diff3 (@H3 w) (a 1%N w) (a 1%N w) (a 1%N w) else 0).
  apply: UJ_eq H1 => m w hm gw.
  have -> : \sum_(i < p.+1) iter i shift (fun j => G i j w) m = \sum_(i < m.+1) G i (m - i)%N w.
    rewrite [RHS](big_ord_widen p.+1 (fun i => G i (m - i)%N w)) ?ltnS // [RHS]big_mkcond; apply: eq_bigr => i _.
    by rewrite iter_shift ltnS.
  have e1 v : diff3 (@H3 w) 0 v =1 (fun=> 0) by move=> u; have [] := z0 w v u.
  have e2 v u : diff3 (@H3 w) v 0 u = 0 by have [] := z0 w v u.
  have e3 v u : diff3 (@H3 w) v u 0 = 0 by have [] := z0 w v u.
  have := leq_trans hm p3; case: m {hm} => [|[|[|[|//]]]] _; rewrite /G !big_ord_recl !big_ord0 /= /bump /= ?subnn ?subn1 ?subn0 /=;
    by rewrite !(a0 w gw) ?e1 ?e2 ?e3 ?addr0 ?add0r.
apply: UJ_pert H2' _.
have hO := UJ_O dt0 eta0 Hx.
have [C [C0 HC]] := h3; have [E [E0 HE]] := hO; have [G' [G0 HG]] := proj2 Hx.
exists (C * (G' * E * E)); split; first by rewrite !mulr_ge0.
apply: uev_imp (uev_and HC (uev_and HE HG)) => w gw [k1 [k2 k3]].
have -> : diff3 (@H3 w) (x w) (x w) (x w) - \sum_(i < p.+1) dt w ^+ i *: F i w
   = diff3 (@H3 w) (x w - \sum_(k < p.+1) dt w ^+ k *: a k w) (x w) (x w).
  rewrite diff3D1 -[X in _ = _ + diff3 _ X _ _]scaleN1r diff3S1 scaleN1r; congr (_ - _).
  have e m (u : nat -> 'cV[R]_(1 + n w)) : diff3 (@H3 w) (\sum_(i < m) u i) (x w) (x w) = \sum_(i < m) diff3 (@H3 w) (u i) (x w) (x w).
    elim: m => [|m IH]; last by rewrite !big_ord_recr /= diff3D1 IH.
    by rewrite !big_ord0; have [] := z0 w (x w) (x w).
  by rewrite (e _ (fun k => dt w ^+ k *: a k w)); apply: eq_bigr => k _; rewrite diff3S1.
apply: le_trans (k1 _ _ _) _; rewrite -[X in _ <= X]mulrA ler_wpmul2l //; move: k2; rewrite mulr1 => k2.
rewrite (_ : G' * E * E * wt p.+1 b w = G' * wt p.+1 b w * E * E); last by rewrite mulrAC [G' * E * _]mulrAC.
by rewrite !ler_pmul ?mulr_ge0 ?ninf_ge0.
Qed.
Lemma pow_add_le (x z : R) m : 0 <= x -> 0 <= z -> (x + z) ^+ m <= 2%:R ^+ m * (x ^+ m + z ^+ m).
Proof.
move=> x0 z0; wlog xz : x z x0 z0 / x <= z.
  move=> W; have [/W|/ltW/W] := lerP x z; first exact.
  by rewrite addrC [_ ^+ m + _]addrC; apply.
apply: (@le_trans _ _ ((2%:R * z) ^+ m)).
  have hxz : x + z <= 2%:R * z by rewrite mulr_natl mulr2n ler_add2r.
  have h0 : 0 <= x + z by rewrite addr_ge0.
  by rewrite ler_expn2r // nnegrE // (le_trans h0).
by rewrite exprMn ler_wpmul2l ?exprn_ge0 ?ler0n // ler_addr exprn_ge0.
Qed.
Lemma UJ_taylor j k b (c : R) h a : (0 < j)%N -> (j <= k)%N -> (k <= 3)%N -> ((1 < k)%N -> ub2) -> ((2 < k)%N -> ub3) ->
  UJ j b h a -> (forall w, good w -> a 0%N w = 0) ->
  UJ j b (fun w => taylor_poly k (f0 w) (ft w) (J w) (@H2 w) (@H3 w) (c * dt w)%R (h w)) (fun m w => fcoc w c (fun i => a i w) m).
Proof.
move=> j0 jk k3 h2 h3 Ha a0; have j3 := leq_trans jk k3.
have Hx := UJ_tx c j0 Ha.
have x0 w : good w -> tx (c *+ (0 == 1)%N) (a 0%N w) = 0 by move=> gw; rewrite a0 // mulr0n; exact: tx0.
have Hs : UJ j b (fun w => (c * dt w) *: ft w) (fun m w => c *: shift (fun i => cst (ft w) i) m).
  apply: (UJ_weak eta0); move: (UJ_sc dt0 eta0 c (UJ_cst dt0 eta0 j.-1 b bft)); by rewrite prednK.
have HL := UJD (UJD (UJ_cst dt0 eta0 j b bf) Hs) (UJ_mx bJ Ha).
have c0 : UJ j b (fun w => 0 : 'cV[R]_(n w)) (fun m w => 0).
  apply: UO_small => //; apply: (UO_0 dt eta (good := good) n) => w gw; exact: (wt0 dt0 eta0).
have HQ' : UJ j b (fun w => if (1 < k)%N then 2%:R^-1 *: diff2 (@H2 w) (tx (c * dt w)%R (h w)) (tx (c * dt w)%R (h w)) else 0)
   (fun m w => if (1 < k)%N then 2%:R^-1 *: (\sum_(l < m.+1) diff2 (@H2 w) (tx (c *+ (l == 1 :> nat)%N) (a l w)) (tx (c *+ ((m - l)%N == 1)%N) (a (m - l)%N w))) else 0).
  by case: ltnP h2 => // lt h2; apply: UJZ; apply: (UJ_bil (bil2 (h2 isT)) Hx Hx).
have HC' : UJ j b (fun w => if (2 < k)%N then 6%:R^-1 *: diff3 (@H3 w) (tx (c * dt w)%R (h w)) (tx (c * dt w)%R (h w)) (tx (c * dt w)%R (h w)) else 0)
   (fun m w => if (2 < k)%N then 6%:R^-1 *: (if m == 3%N then diff3 (@H3 w) (tx c (a 1%N w)) (tx c (a 1%N w)) (tx c (a 1%N w)) else 0) else 0).
  by case: ltnP h3 => // lt h3; apply: UJZ; apply: (UJ_cub (h3 isT) j3 Hx x0).
apply: UJ_eq (UJD (UJD HL HQ') HC') => m w hm gw; have := leq_trans hm jk => mk.
case: m hm mk => [|[|[|[|m]]]] hm mk; last by have := leq_trans hm j3.
- rewrite /= /cst /shift ?a0 // mulmx0 !addr0 big_ord1 /= ?a0 // !mulr0n tx0 ?diff20l ?diff20r !scaler0 !addr0.
  by rewrite !if_same !addr0.
- rewrite /= /cst /shift add0r !big_ord_recl big_ord0 /= /bump /= ?a0 // !mulr0n tx0 ?diff20l ?diff20r !addr0 !scaler0 ?if_same.
  by rewrite !addr0.
- rewrite /= /cst /shift !scaler0 !add0r mk !big_ord_recl big_ord0 /= /bump /= a0 // !mulr0n !mulr1n tx0 diff20l diff20r addr0 add0r addr0.
  by rewrite if_same addr0.
- rewrite /= /cst /shift !scaler0 !add0r mk (ltn_trans _ mk) // !big_ord_recl big_ord0 /= /bump /= a0 // !mulr0n !mulr1n tx0 diff20l diff20r addr0 add0r addr0.
  have -> : diff2 (@H2 w) (tx 0 (a (1 + (1 + 0))%N w)) (tx c (a (3 - (1 + (1 + 0)))%N w)) = diff2 (@H2 w) (tx c (a 1%N w)) (tx 0 (a 2%N w)).
    by rewrite diff2C //; apply: s2.
  rewrite -[tx c (a (1 + 0)%N w)]/(tx c (a 1%N w)) -[tx 0 (a (3 - (1 + 0))%N w)]/(tx 0 (a 2%N w)) -mulr2n -scaler_nat scalerA mulVf ?pnatr_eq0 // scale1r.
  by rewrite -!addrA.
Qed.
Lemma UJ_fcomp j k b (c : R) h a : (0 < j)%N -> (j <= k)%N -> (k <= 3)%N -> ((1 < k)%N -> ub2) -> ((2 < k)%N -> ub3) -> uT k ->
  (forall w, good w -> tin w (c * dt w)) ->
  UJ j b h a -> (forall w, good w -> a 0%N w = 0) ->
  UJ j b (fun w => f (t w + c * dt w)%R (y w + h w)) (fun m w => fcoc w c (fun i => a i w) m).
Proof.
move=> j0 jk k3 h2 h3 [C [r [C0 r0 HT]]] hin Ha a0; apply: UJ_pert (UJ_taylor c j0 jk k3 h2 h3 Ha a0) _.
have [D [D0 HD]] := UJ_small dt0 eta0 a0 Ha.
pose E := D + `|c| + 1; have E0 : 0 < E by rewrite ltr_spaddr ?ltr01 // addr_ge0.
exists (C * (E ^+ k.+1 * 2%:R ^+ k.+1)); split; first by rewrite !mulr_ge0 ?exprn_ge0 ?ler0n // ltW.
have re : 0 < r / (E * 2%:R) by rewrite divr_gt0 // mulr_gt0 // ltr0n.
have sm := uev_small dt eta good re.
apply: uev_imp (uev_and HD (uev_and sm (uev1 dt eta good))) => w gw [k1 [[k2 k2'] [k4 k5]]].
have w0 := wt0 dt0 eta0 1 b gw.
have dw : dt w <= wt 1 b w by rewrite /ProofsUJ.wt expr1 ler_addl (th0 dt0 eta0).
have := HT w gw (c * dt w) (h w) (E * wt 1 b w) (hin w gw).
have rc : `|c * dt w| <= E * wt 1 b w.
  rewrite normrM [`|dt w|]ger0_norm ?dt0 //; apply: ler_pmul; rewrite ?dt0 //.
  by rewrite /E addrAC ler_addr addr_ge0 ?ler01.
have rh : ninf (h w) <= E * wt 1 b w.
  by apply: le_trans k1 _; rewrite ler_wpmul2r // /E -addrA ler_addl addr_ge0 ?ler01.
have rr : E * wt 1 b w <= r.
  have : wt 1 b w <= r / (E * 2%:R) *+ 2.
    rewrite mulr2n /ProofsUJ.wt expr1; apply: ler_add => //; apply: le_trans k2'; exact: (th_le eta0).
  rewrite -mulr_natr invfM mulrA divfK ?pnatr_eq0 // => hh.
  by rewrite mulrC -ler_pdivl_mulr.
move=> /(_ rc rh rr) hh; apply: le_trans hh _; rewrite -mulrA ler_wpmul2l // exprMn -mulrA ler_wpmul2l ?exprn_ge0 ?(ltW E0) //.
apply: le_trans (pow_add_le k.+1 _ _) _; rewrite ?expr1 ?dt0 ?(th0 dt0 eta0) //.
rewrite ler_wpmul2l ?exprn_ge0 ?ler0n //; apply: ler_add.
  by rewrite ler_wiexpn2l ?dt0.
have t0 := th0 dt0 eta0 b gw; have t1 : th dt eta b w <= 1 by apply: le_trans (th_le eta0 b gw k4) k5.
by rewrite exprS ler_pimulr // exprn_ile1.
Qed.
End Comp.
End U.
