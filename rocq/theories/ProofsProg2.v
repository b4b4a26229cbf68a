(* ProofsProg2.v : Lagrange identity and the analytic Bateman solution; Lotka-Volterra
   derivatives; torus distance; GLL quadrature; phase transfer. *)
From Coq Require Import Reals Lra Lia FunctionalExtensionality.
From Coquelicot Require Import Coquelicot.
From mathcomp Require Import all_ssreflect all_algebra.
From mathcomp Require Import ring.
From Verif Require Import Rstruct ModelHist ModelOps ModelInt SpecInt ModelProg SpecProg.
Set Implicit Arguments.
Unset Strict Implicit.
Unset Printing Implicit Defensive.
Import Order.TTheory GRing.Theory Num.Theory.
Local Open Scope ring_scope.

Section Lagrange.
Variable F : fieldType.
Variable x : nat -> F.
Variable n : nat.
Hypothesis dist : forall i j, (i < n)%N -> (j < n)%N -> x i = x j -> i = j.

Definition lbase (i : 'I_n) : {poly F} := \prod_(j < n | j != i) ('X - (x j)%:P).
Definition lden (i : 'I_n) : F := \prod_(j < n | j != i) (x i - x j).
Lemma lden_neq0 i : lden i != 0.
Proof.
apply/prodf_neq0 => j hj; rewrite subr_eq0; apply/eqP => e; case/eqP: hj; apply: val_inj.
exact: dist (esym e).
Qed.
Lemma lbase_monic i : lbase i \is monic. Proof. exact: monic_prod_XsubC. Qed.
Lemma lbase_size i : size (lbase i) = n.
Proof.
have e : \prod_(j < n) ('X - (x j)%:P) = lbase i * ('X - (x i)%:P).
  by rewrite (bigD1 i) //= mulrC.
have := congr1 (fun p : {poly F} => size p) e.
rewrite size_prod_XsubC size_Mmonic ?monicXsubC ?monic_neq0 ?lbase_monic // size_XsubC.
rewrite /index_enum -enumT size_enum_ord addn2 /=; by case.
Qed.
Lemma lbase_at (i k : 'I_n) : (lbase i).[x k] = if k == i then lden i else 0.
Proof.
rewrite /lbase horner_prod; case: eqP => [->|/eqP hk].
  by apply: eq_bigr => j _; rewrite hornerXsubC.
by rewrite (bigD1 k) //= hornerXsubC subrr mul0r.
Qed.
Lemma lagrange_one : (0 < n)%N -> \sum_(i < n) (lden i)^-1 *: lbase i = 1.
Proof.
move=> n0; apply/eqP; rewrite -subr_eq0; apply/eqP.
apply: (@roots_geq_poly_eq0 _ _ [seq x i | i <- iota 0 n]).
- apply/allP => z /mapP [k]; rewrite mem_iota /= add0n => hk ->; apply/rootP.
  rewrite hornerD hornerN hornerC horner_sum (bigD1 (Ordinal hk)) //= big1 => [|j hj].
    by rewrite hornerZ (lbase_at _ (Ordinal hk)) eqxx mulVf ?lden_neq0 // addr0 subrr.
  by rewrite hornerZ (lbase_at j (Ordinal hk)) eq_sym (negbTE hj) mulr0.
- rewrite map_inj_in_uniq ?iota_uniq // => i j; rewrite !mem_iota /= !add0n; exact: dist.
- rewrite size_map size_iota; apply: (leq_trans (size_add _ _)); rewrite geq_max size_opp size_poly1 n0 andbT.
  by apply: (leq_trans (size_sum _ _ _)); apply/bigmax_leqP => i _; rewrite (leq_trans (size_scale_leq _ _)) // lbase_size.
Qed.
Lemma lagrange_sum : (0 < n)%N -> \sum_(i < n) (lden i)^-1 = (n == 1%N)%:R.
Proof.
move=> n0; have := congr1 (fun p : {poly F} => p`_n.-1) (lagrange_one n0).
rewrite /= coef_sum coef1 (_ : (n.-1 == 0)%N = (n == 1%N)); last by case: n n0 => [|[|m]].
move=> <-; apply: eq_bigr => i _; rewrite coefZ.
by have := lbase_monic i; rewrite monicE lead_coefE lbase_size => /eqP ->; rewrite mulr1.
Qed.
End Lagrange.

(* ------------------------------------------------------------------ *)
Lemma foldl_prodE (F : comRingType) (f : nat -> F) n :
  foldl (fun acc i => acc * f i) 1 (iota 0 n) = \prod_(i < n) f i.
Proof.
elim: n => [|n IH]; first by rewrite big_ord0.
by rewrite -addn1 iotaD foldl_cat IH /= add0n addn1 big_ord_recr.
Qed.
Lemma foldl_sumE (F : ringType) (f : nat -> F) n :
  foldl (fun acc i => acc + f i) 0 (iota 0 n) = \sum_(i < n) f i.
Proof.
elim: n => [|n IH]; first by rewrite big_ord0.
by rewrite -addn1 iotaD foldl_cat IH /= add0n addn1 big_ord_recr.
Qed.

Lemma deriv_sum n (f d : 'I_n -> R -> R) t :
  (forall i, derivable_pt_lim (f i) t (d i t)) ->
  derivable_pt_lim (fun s => \sum_i f i s) t (\sum_i d i t).
Proof.
move=> h.
have go (l : seq 'I_n) : derivable_pt_lim (fun s : R => \sum_(i <- l) f i s) t (\sum_(i <- l) d i t).
  elim: l => [|i l IH].
    rewrite (_ : (fun _ => _) = fct_cte 0); last by apply: functional_extensionality => s; rewrite big_nil.
    by rewrite big_nil; apply: derivable_pt_lim_const.
  rewrite (_ : (fun _ => _) = plus_fct (f i) (fun s => \sum_(j <- l) f j s)); last first.
    by apply: functional_extensionality => s; rewrite big_cons.
  by rewrite big_cons; apply: derivable_pt_lim_plus.
exact: go.
Qed.

Definition Dg (F : fieldType) (lam : nat -> F) (n k : nat) : F := \prod_(j < n | j != k :> nat) (lam j - lam k).
Definition expterm (F : fieldType) (ex : F -> F) (a : F) (t : F) : F := ex (- a * t).
Definition spg (F : fieldType) (ex : F -> F) (lam : nat -> F) (n0 : F) (i : nat) (t : F) : F :=
  n0 * (\prod_(j < i) lam j) * \sum_(k < i.+1) expterm ex (lam k) t / Dg lam i.+1 k.

Section Analytic.
Variable ns : nat.
Variable T : 'M[R]_ns.
Variable lam : nat -> R.
Hypothesis hT : chain_matrix T lam.
Hypothesis dist : forall i j, (i < ns)%N -> (j < ns)%N -> lam i = lam j -> i = j.

Lemma entry_diag i : (i < ns)%N -> entry T i i = - lam i.
Proof. by move=> hi; rewrite /entry insubT hT eqxx. Qed.
Lemma lmbdE i : (i < ns)%N -> lmbd T i = lam i.
Proof. by move=> hi; rewrite /lmbd entry_diag // mulN1r opprK. Qed.
Lemma an_assert_ok : an_assert T.
Proof.
apply/allP => i; rewrite mem_iota /= add0n => hi.
have h1 : (i.+1 < ns)%N by case: ns hi => // m.
have h2 : (i < ns)%N by apply: ltnW.
have -> : entry T i.+1 i = lam i.
  by rewrite /entry !insubT hT -val_eqE /= (gtn_eqF (ltnSn i)) eqxx.
rewrite entry_diag // /allclose1 mulrNN mul1r subrr normr0.
by apply: addr_ge0; rewrite ?mulr_ge0 ?invr_ge0 ?exprn_ge0 ?ler0n ?normr_ge0.
Qed.

Local Notation D := (@Dg R_fieldType lam).
Local Notation sp := (@spg R_fieldType exp lam).
Lemma prod_lE n k : (n <= ns)%N -> (k < ns)%N -> prod_l T n k = D n k.
Proof.
move=> hn hk; rewrite /Dg; elim: n hn => [|n IH] hn; first by rewrite big_ord0.
rewrite /prod_l -addn1 iotaD foldl_cat -/(prod_l T n k) IH ?(ltnW hn) // /= add0n addn1.
rewrite [RHS]big_mkcond big_ord_recr /= -big_mkcond lmbdE // lmbdE //.
by case: eqP => [->|_]; rewrite ?mulr1.
Qed.
Lemma D_rec n k : k != n -> D n.+1 k = D n k * (lam n - lam k).
Proof. by move=> h; rewrite /Dg [LHS]big_mkcond big_ord_recr /= -big_mkcond eq_sym h. Qed.
Lemma D_neq0 n k : (n <= ns)%N -> (k < ns)%N -> D n k != 0.
Proof.
move=> hn hk; apply/prodf_neq0 => j hj; rewrite subr_eq0; apply/eqP => e; case/eqP: hj.
by apply: dist => //; apply: (leq_trans (ltn_ord j)).
Qed.
Lemma D_sum n : (0 < n <= ns)%N -> \sum_(k < n) (D n k)^-1 = (n == 1%N)%:R.
Proof.
move=> /andP [n0 hn].
have hd i j : (i < n)%N -> (j < n)%N -> lam i = lam j -> i = j.
  by move=> hi hj; apply: dist; apply: leq_trans hn.
have := lagrange_sum hd n0.
have e (k : 'I_n) : lden lam k = (-1) ^+ n.-1 * D n k.
  rewrite /lden /Dg (_ : (-1) ^+ n.-1 = \prod_(j < n | j != k) (-1)); last first.
    rewrite prodr_const; congr (_ ^+ _).
    have := cardC1 k; rewrite card_ord /= => <-; by apply: eq_card => j; rewrite !inE.
  by rewrite -big_split /=; apply: eq_bigr => j _; rewrite mulN1r opprB.
under eq_bigr do rewrite e invfM; rewrite -mulr_sumr.
move=> /(congr1 (fun y => (-1) ^+ n.-1 * y)); rewrite mulrA mulfV ?signr_eq0 // mul1r => ->.
by case: (n == 1%N) / eqP => [->|_]; rewrite ?mulr0 // expr0 mul1r.
Qed.

Lemma an_speciesE n0 i t : (i < ns)%N -> an_species exp T n0 i.+1 t = sp n0 i t.
Proof.
move=> hi; rewrite /an_species /spg /lmbd_prod /sum_k foldl_prodE foldl_sumE; congr (_ * _ * _).
  by apply: eq_bigr => j _; rewrite lmbdE // (leq_trans (ltn_ord j)) // ltnW.
apply: eq_bigr => k _; have hk : (k < ns)%N by apply: (leq_trans (ltn_ord k)).
by rewrite lmbdE // prod_lE.
Qed.
Lemma sp_init n0 i : (i < ns)%N -> sp n0 i 0 = if i == 0%N then n0 else 0.
Proof.
move=> hi; rewrite /spg (_ : \sum_(k < i.+1) _ = \sum_(k < i.+1) (D i.+1 k)^-1); last first.
  by apply: eq_bigr => k _; rewrite /expterm mulr0 exp_0 mul1r.
rewrite D_sum ?hi // eqSS; case: eqP => [->|_]; last by rewrite mulr0n mulr0.
by rewrite big_ord0 !mulr1.
Qed.
Lemma exp_term_deriv (a t : R) d : d = - a * expterm exp a t -> derivable_pt_lim (expterm exp a) t d.
Proof.
move=> ->; apply/is_derive_Reals; rewrite /expterm.
apply: (is_derive_ext (fun s => exp (Rmult (Ropp a) s))); first by [].
auto_derive; first by [].
by change (Rmult (Rmult (Ropp a) 1) (exp (Rmult (Ropp a) t)) = Rmult (Ropp a) (exp (Rmult (Ropp a) t))); rewrite Rmult_1_r.
Qed.
Lemma sp_deriv n0 i t d : (i < ns)%N ->
  d = - lam i * sp n0 i t + (if i is j.+1 then lam j * sp n0 j t else 0) ->
  derivable_pt_lim (sp n0 i) t d.
Proof.
move=> hi ed.
pose c k := (D i.+1 k)^-1.
have h : derivable_pt_lim (fun s => \sum_(k < i.+1) c k * expterm exp (lam k) s) t
   (\sum_(k < i.+1) c k * (- lam k * expterm exp (lam k) t)).
  apply: (@deriv_sum i.+1 (fun k s => c k * expterm exp (lam k) s) (fun k s => c k * (- lam k * expterm exp (lam k) s))) => k.
  apply: (derivable_pt_lim_scal (expterm exp (lam k)) (c k)); exact: exp_term_deriv.
move: h; set d1 := (X in derivable_pt_lim _ _ X) => h.
have {}h := derivable_pt_lim_scal _ (n0 * (\prod_(j < i) lam j))%R _ _ h.
move: h; set g := mult_real_fct _ _ => h.
have -> : spg exp lam n0 i = g.
  apply: functional_extensionality => s; rewrite /g /mult_real_fct /spg; congr (_ * _).
  by apply: eq_bigr => k _; rewrite /c mulrC.
suff -> : d = (n0 * (\prod_(j < i) lam j)) * d1 by [].
have -> : d1 = - lam i * (\sum_(k < i.+1) (expterm exp (lam k) t / D i.+1 k)) + \sum_(k < i) expterm exp (lam k) t / D i k.
  rewrite /d1 !big_ord_recr /= /c mulrDr addrAC mulr_sumr -big_split /=; congr (_ + _); last first.
    by rewrite mulrCA mulrC [X in X * _]mulrC mulrC; congr (_ * _); rewrite mulrC.
  apply: eq_bigr => k _.
  have hk : (k < ns)%N by apply: ltn_trans hi.
  rewrite D_rec ?(ltn_eqF (ltn_ord k)) // invfM.
  have h1 : lam i - lam k != 0.
    by rewrite subr_eq0; apply/eqP => /(dist hi hk) ei; move: (ltn_ord k); rewrite -ei ltnn.
  move: (D_neq0 (ltnW hi) hk) h1; move: (expterm exp (lam k) t) (D i k) (lam i) (lam k) => u b v w hb hc.
  by field; rewrite hb hc.
rewrite ed mulrDr; congr (_ + _); first by rewrite /spg mulrCA.
case: i hi {h c d1 g ed} => [|j] hj; first by rewrite !big_ord0 mulr0.
rewrite /spg !mulrA; congr (_ * _).
by rewrite big_ord_recr /= -mulrA mulrC mulrA.
Qed.
End Analytic.

(* ------------------------------------------------------------------ *)
Section LV.
Variable F : rcfType.
Variable KW : Type.

Lemma dirderiv_quad m n (f : 'cV[F]_m -> 'cV[F]_n) x v d q :
  (forall s, s != 0 -> s^-1 *: (f (x + s *: v) - f x) - d = s *: q) -> is_dirderiv f x v d.
Proof.
move=> h eps e0; pose M := 1 + \sum_i `|q i 0|.
have M0 : 0 < M by rewrite ltr_spaddl ?ltr01 // sumr_ge0.
exists (eps / M); split; first by rewrite divr_gt0.
move=> s /andP [s0 s1] i; rewrite h ?mxE -?normr_gt0 // normrM.
apply: (le_trans (y := `|s| * M)); last by rewrite -ler_pdivl_mulr // ltW.
rewrite ler_wpmul2l //; apply: (le_trans (y := \sum_i `|q i 0|)); last by rewrite ler_addr ler01.
by rewrite (bigD1 i) //= ler_addl sumr_ge0.
Qed.
Lemma timederiv_const n (f : F -> 'cV[F]_n) t : (forall s s', f s = f s') -> is_timederiv f t 0.
Proof.
move=> h eps e0; exists 1; split=> // s _ i.
by rewrite (h (t + s) t) subrr scaler0 subr0 mxE normr0 ltW.
Qed.

Lemma vec2E (a b : F) i : vec2 a b i 0 = if i == 0%N :> nat then a else b.
Proof. by rewrite mxE. Qed.
Lemma col2P (u v : 'cV[F]_2) : x0 u = x0 v -> x1 u = x1 v -> u = v.
Proof.
rewrite /x0 /x1 => h0 h1; apply/matrixP => i j; rewrite (ord1 j).
by case: (unliftP ord0 i) => [k ->|->] //; rewrite (ord1 k).
Qed.
Lemma x0_vec2 (a b : F) : x0 (vec2 a b) = a. Proof. by rewrite /x0 mxE. Qed.
Lemma x1_vec2 (a b : F) : x1 (vec2 a b) = b. Proof. by rewrite /x1 mxE. Qed.
Lemma x0D (u v : 'cV[F]_2) : x0 (u + v) = x0 u + x0 v. Proof. by rewrite /x0 mxE. Qed.
Lemma x1D (u v : 'cV[F]_2) : x1 (u + v) = x1 u + x1 v. Proof. by rewrite /x1 mxE. Qed.
Lemma x0N (u : 'cV[F]_2) : x0 (- u) = - x0 u. Proof. by rewrite /x0 mxE. Qed.
Lemma x1N (u : 'cV[F]_2) : x1 (- u) = - x1 u. Proof. by rewrite /x1 mxE. Qed.
Lemma x0Z c (u : 'cV[F]_2) : x0 (c *: u) = c * x0 u. Proof. by rewrite /x0 mxE. Qed.
Lemma x1Z c (u : 'cV[F]_2) : x1 (c *: u) = c * x1 u. Proof. by rewrite /x1 mxE. Qed.
Lemma x0_mul (a b c d : F) u : x0 (mat2 a b c d *m u) = a * x0 u + b * x1 u.
Proof. by rewrite /x0 /x1 mxE !big_ord_recl big_ord0 !mxE /= addr0. Qed.
Lemma x1_mul (a b c d : F) u : x1 (mat2 a b c d *m u) = c * x0 u + d * x1 u.
Proof. by rewrite /x0 /x1 mxE !big_ord_recl big_ord0 !mxE /= addr0. Qed.

Lemma lv_exact (al be de ga : F) : exact_jacobian (ss_sys (lv_sys KW al be de ga)).
Proof.
move=> kw t u J; split; [|split=> //].
- move=> v; apply: (@dirderiv_quad _ _ _ _ _ _ (vec2 (- be * x0 v * x1 v) (de * x0 v * x1 v))) => s s0.
  apply: col2P; rewrite /= /lv_frhs !(x0Z, x1Z, x0D, x1D, x0N, x1N, x0_vec2, x1_vec2, x0_mul, x1_mul);
    by move: (x0 u) (x1 u) (x0 v) (x1 v) => a b c d; field.
- exact: timederiv_const.
Qed.
Lemma lvn_exact (al be de ga : F) (hunt hunt_dt : F -> F) :
  (forall t eps, 0 < eps -> exists del, 0 < del /\
     forall s, 0 < `|s| < del -> `|s^-1 * (hunt (t + s) - hunt t) - hunt_dt t| <= eps) ->
  exact_jacobian (ss_sys (lvn_sys KW al be de ga hunt hunt_dt)).
Proof.
move=> hh kw t u J; split; [|split=> //].
- move=> v; apply: (@dirderiv_quad _ _ _ _ _ _ (vec2 (- be * x0 v * x1 v) (de * x0 v * x1 v))) => s s0.
  apply: col2P; rewrite /= /lvn_frhs !(x0Z, x1Z, x0D, x1D, x0N, x1N, x0_vec2, x1_vec2, x0_mul, x1_mul);
    by move: (x0 u) (x1 u) (x0 v) (x1 v) (hunt t) => a b c d e; field.
- move=> eps e0.
  have m0 : 0 < 1 + `|x1 u| by rewrite ltr_spaddl ?ltr01 // normr_ge0.
  have [del [d0 hd]] := hh t (eps / (1 + `|x1 u|)) (divr_gt0 e0 m0).
  exists del; split=> // s hs i; have s0 : s != 0 by case/andP: hs; rewrite normr_gt0.
  have -> : s^-1 *: (os_frhs (ss_sys (lvn_sys KW al be de ga hunt hunt_dt)) kw (t + s) u -
               os_frhs (ss_sys (lvn_sys KW al be de ga hunt hunt_dt)) kw t u) - jl_fdt J =
            vec2 0 (- (s^-1 * (hunt (t + s) - hunt t) - hunt_dt t) * x1 u).
    apply: col2P; rewrite /= /lvn_frhs !(x0Z, x1Z, x0D, x1D, x0N, x1N, x0_vec2, x1_vec2);
      by move: (x0 u) (x1 u) (hunt t) (hunt (t + s)) (hunt_dt t) => a b c d e; field.
  rewrite vec2E; case: ifP => _; first by rewrite normr0 ltW.
  rewrite normrM normrN; apply: (le_trans (y := eps / (1 + `|x1 u|) * `|x1 u|)).
    by rewrite ler_wpmul2r ?normr_ge0 // hd.
  by rewrite -mulrA ler_pimulr ?(ltW e0) // ler_pdivr_mull // mulr1 ler_addr ler01.
Qed.
End LV.

(* the derivative notion of SpecInt against the standard one *)
Lemma timederiv_std (f : R -> R) t d : derivable_pt_lim f t d ->
  forall eps, 0 < eps -> exists del, 0 < del /\ forall s, 0 < `|s| < del -> `|s^-1 * (f (t + s) - f t) - d| <= eps.
Proof.
move=> h eps e0; have [del hd] := h eps ((RltP 0 eps) e0).
exists (pos del); split; first by apply/RltP; exact: cond_pos.
move=> s /andP [s0 s1].
have sn0 : s != 0 by rewrite -normr_gt0.
have := hd s (fun e => negP sn0 (introT eqP e)) ((RltP _ _) s1).
rewrite RdivE // => /RltP /ltW; by rewrite mulrC.
Qed.
Lemma sin_term (a b t : R) :
  derivable_pt_lim (fun s => Rmult a (Rplus (sin (Rmult s b)) 1)) t (Rmult (Rmult a b) (cos (Rmult t b))).
Proof. by apply/is_derive_Reals; auto_derive; [|lra]. Qed.
Lemma pred_hunt_deriv t : derivable_pt_lim f_pred_hunt t (f_pred_hunt_dt t).
Proof. exact: sin_term. Qed.

(* ------------------------------------------------------------------ *)
Section Transfer.
Variable F : rcfType.
Variable n : nat.
Lemma srcf_sum rate (u : 'cV[F]_n) (ia ig : 'I_n) : ia != ig ->
  \sum_i srcf_xe_av rate u ia ig i 0 = 0 /\ forall i, i != ia -> i != ig -> srcf_xe_av rate u ia ig i 0 = 0.
Proof.
move=> h; rewrite /srcf_xe_av /set_at; split; last first.
  by move=> i h1 h2; rewrite !mxE (negbTE h1) (negbTE h2).
rewrite (bigD1 ia) //= (bigD1 ig) /=; last by rewrite eq_sym.
rewrite big1 => [|i /andP [h1 h2]]; last by rewrite !mxE (negbTE h1) (negbTE h2).
by rewrite !mxE eqxx (negbTE h) eqxx addr0 subrr.
Qed.
End Transfer.

(* ------------------------------------------------------------------ *)
Section GLL.
Variable F : rcfType.
Lemma poly_int (P p : {poly F}) N : P^`() = p -> (size p <= N)%N ->
  P.[1] - P.[0] = \sum_(i < N) p`_i / (i.+1)%:R.
Proof.
move=> e sp.
have sP : (size P <= N.+1)%N.
  apply/leq_sizeP => j hj; case: j hj => // j hj; apply/eqP.
  have : p`_j = 0 by move/leq_sizeP: sp => /(_ j); apply.
  by rewrite -e coef_deriv -mulr_natr => /eqP; rewrite mulf_eq0 pnatr_eq0 orbF.
rewrite !(horner_coef_wide _ sP) !big_ord_recl /= !expr0 !mulr1.
rewrite [X in _ - (_ + X)]big1 => [|i _]; last by rewrite exprS mul0r mulr0.
rewrite addr0 addrAC subrr add0r; apply: eq_bigr => i _.
by rewrite expr1n mulr1 -e coef_deriv /= /bump /= add1n -mulr_natr mulfK ?pnatr_eq0.
Qed.
Lemma quad_moments (X W : seq F) N :
  (forall i, (i < N)%N -> \sum_(xw <- zip X W) xw.2 * xw.1 ^+ i = (i.+1)%:R^-1) ->
  forall P p : {poly F}, P^`() = p -> (size p <= N)%N ->
    \sum_(xw <- zip X W) xw.2 * p.[xw.1] = P.[1] - P.[0].
Proof.
move=> h P p e sp; rewrite (poly_int e sp).
transitivity (\sum_(xw <- zip X W) \sum_(i < N) p`_i * (xw.2 * xw.1 ^+ i)).
  apply: eq_bigr => xw _; rewrite (horner_coef_wide _ sp) mulr_sumr; apply: eq_bigr => i _.
  by rewrite mulrCA.
by rewrite exchange_big; apply: eq_bigr => i _; rewrite -mulr_sumr h.
Qed.
Lemma pow_sum (c x y : F) i : x + y = 1 -> x * y = c ->
  x ^+ i.+2 + y ^+ i.+2 = (x ^+ i.+1 + y ^+ i.+1) - c * (x ^+ i + y ^+ i).
Proof.
move=> h1 <-; have -> : y = 1 - x by rewrite -h1 addrC addKr.
rewrite !exprS; move: (x ^+ i) ((1 - x) ^+ i) => a b; ring.
Qed.
End GLL.
