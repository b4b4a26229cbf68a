(* ProofsOde.v : derivatives of s -> s^k phi_k(sA); solutions of y' = A y + b + s g. *)
From Coq Require Import Reals Lra Lia.
From Coquelicot Require Import Coquelicot.
From mathcomp Require Import all_ssreflect all_algebra.
From mathcomp Require Import ring.
From Verif Require Import Rstruct Summable MxBase MxSeries SpecProg SpecExact.
Set Implicit Arguments.
Unset Strict Implicit.
Unset Printing Implicit Defensive.
Import Order.TTheory GRing.Theory Num.Theory.
Local Open Scope ring_scope.

(* power series converging everywhere *)
Lemma entire_CV (c : nat -> R) : entire c -> forall x : R, Rbar_lt (Finite (Rabs x)) (CV_radius c).
Proof.
move=> ec x.
have h : CV_disk c (Rplus (Rabs x) 1).
  rewrite /CV_disk; have := ec (Rplus (Rabs x) 1).
  by apply: ex_series_ext => i; rewrite powE.
rewrite /CV_radius; case: (Lub.Lub_Rbar_correct (CV_disk c)) => ub _.
apply: (@Rbar_lt_le_trans _ (Finite (Rplus (Rabs x) 1))); last exact: ub.
by rewrite /=; lra.
Qed.
Lemma ssum_PSeries (c : nat -> R) (x : R) : ssum (fun i => c i * x ^+ i) = PSeries c x.
Proof. by rewrite /ssum /PSeries; apply: Series_ext => i; rewrite powE. Qed.

Section D.
Variable n : nat.
Variable A : 'M[R]_n.
(* coefficients of s^k phi_k(sA) at entry a b *)
Definition pc k (a b : 'I_n) (i : nat) : R := if (k <= i)%N then ifact _ i * mxpow A (i - k) a b else 0.
Lemma pc_shift k a b i : pc k a b (i + k)%N = ifact _ (i + k) * mxpow A i a b.
Proof. by rewrite /pc leq_addl addnK. Qed.
Lemma phi_entry_summable k a b (x : R) : summable (fun i => (ifact _ (i + k) * mxpow A i a b) * x ^+ i).
Proof.
have h := ser_summable (x *: A) a b (entire_ifact k).
apply: summable_ext h => i; by rewrite mxpowZ mxE; move: (mxpow A i a b) (x ^+ i) (ifact _ _) => *; ring.
Qed.
Lemma pc_entire k a b : entire (pc k a b).
Proof.
move=> x; apply/(summable_shift k).
have h := summableZ (x ^+ k) (phi_entry_summable k a b x).
apply: summable_ext h => i; by rewrite pc_shift exprD; move: (x ^+ i) (x ^+ k) (mxpow A i a b) (ifact _ _) => *; ring.
Qed.
Lemma pc_sum k a b (x : R) : PSeries (pc k a b) x = x ^+ k * phi k (x *: A) a b.
Proof.
rewrite -ssum_PSeries.
have z k' (u : nat -> R) : (forall i, (i < k')%N -> u i = 0) -> summable u -> ssum u = ssum (fun i => u (i + k')%N).
  elim: k' u => [|k' IH] u h su; first by apply: ssum_ext => i; rewrite addn0.
  rewrite ssumS // h // add0r IH; first by apply: ssum_ext => i; rewrite addnS.
    by move=> i hi; apply: h.
  exact: (proj1 (summableS u) su).
rewrite (z k) //; last exact: pc_entire; last by move=> i hi; rewrite /pc leqNgt hi /= mul0r.
rewrite mxE -ssumZ; apply: ssum_ext => i.
by rewrite pc_shift mxpowZ mxE exprD; move: (x ^+ i) (x ^+ k) (mxpow A i a b) (ifact _ _) => *; ring.
Qed.
Lemma pc_derive k a b i : PS_derive (pc k.+1 a b) i = pc k a b i.
Proof.
rewrite /PS_derive /pc ltnS; case: ifP => h; last by rewrite Rmult_0_r.
rewrite subSS INRE RmultE mulrA; congr (_ * _); exact: ifactS'.
Qed.
Lemma pc_derive0 a b i : PS_derive (pc 0 a b) i = ifact _ i * mxpow A i.+1 a b.
Proof. rewrite /PS_derive /pc leq0n subn0 INRE RmultE mulrA; congr (_ * _); exact: ifactS'. Qed.
Lemma phi_deriv k a b (x : R) :
  derivable_pt_lim (fun s : R => s ^+ k.+1 * phi k.+1 (s *: A) a b) x (x ^+ k * phi k (x *: A) a b).
Proof.
apply/is_derive_Reals.
have h := is_derive_PSeries (pc k.+1 a b) x (entire_CV (pc_entire k.+1 a b) x).
rewrite (PSeries_ext _ (pc k a b)) in h; last by move=> i; apply: pc_derive.
rewrite pc_sum in h.
by apply: is_derive_ext h => s; rewrite pc_sum.
Qed.
Lemma exp_deriv a b (x : R) :
  derivable_pt_lim (fun s : R => expmx (s *: A) a b) x ((A *m expmx (x *: A)) a b).
Proof.
apply/is_derive_Reals.
have h := is_derive_PSeries (pc 0 a b) x (entire_CV (pc_entire 0 a b) x).
have e : PSeries (PS_derive (pc 0 a b)) x = (A *m expmx (x *: A)) a b.
  rewrite -ssum_PSeries mxE.
  transitivity (ssum (fun i => \sum_j (A a j * ((ifact _ (i + 0) * mxpow A i j b) * x ^+ i)))).
    apply: ssum_ext => i; rewrite pc_derive0 mxpowS mxE mulr_sumr mulr_suml addn0; apply: eq_bigr => j _.
    by move: (A a j) (mxpow A i j b) (x ^+ i) (ifact _ _) => *; ring.
  rewrite ssum_sum; last by move=> j _; apply: summableZ; apply: phi_entry_summable.
  apply: eq_bigr => j _; rewrite ssumZ; congr (_ * _); rewrite mxE; apply: ssum_ext => i.
  by rewrite mxpowZ mxE; move: (x ^+ i) (mxpow A i j b) (ifact _ _) => *; ring.
rewrite e in h; apply: is_derive_ext h => s; by rewrite pc_sum expr0 mul1r.
Qed.
End D.

(* ---- matrix valued functions ---- *)
Definition mderiv m n (M : R -> 'M[R]_(m, n)) (s : R) (D : 'M[R]_(m, n)) : Prop :=
  forall i j, derivable_pt_lim (fun x => M x i j) s (D i j).
Arguments mderiv {m n} M s D : clear scopes.
Lemma vderivP n (y : R -> 'cV[R]_n) s d : vderiv y s d <-> mderiv y s d.
Proof. by split=> h i; [move=> j; rewrite (ord1 j); apply: h | apply: h]. Qed.
Lemma dlim_ext (f h : R -> R) s d : f =1 h -> derivable_pt_lim f s d -> derivable_pt_lim h s d.
Proof. by move=> e; apply: derivable_pt_lim_ext => x; rewrite e. Qed.
Lemma mderiv_ext m n (M N : R -> 'M[R]_(m, n)) s D : M =1 N -> mderiv M s D -> mderiv N s D.
Proof. by move=> e h i j; apply: dlim_ext (h i j) => x; rewrite e. Qed.
Lemma mderiv_const m n (C : 'M[R]_(m, n)) s : mderiv (fun _ => C) s 0.
Proof. by move=> i j; rewrite mxE; apply: derivable_pt_lim_const. Qed.
Lemma mderivD m n (M N : R -> 'M[R]_(m, n)) s D E : mderiv M s D -> mderiv N s E ->
  mderiv (fun x => M x + N x) s (D + E).
Proof.
move=> h1 h2 i j; rewrite mxE.
apply: dlim_ext (derivable_pt_lim_plus _ _ _ _ _ (h1 i j) (h2 i j)) => x.
by rewrite mxE.
Qed.
Lemma mderivN m n (M : R -> 'M[R]_(m, n)) s D : mderiv M s D -> mderiv (fun x => - M x) s (- D).
Proof.
move=> h1 i j; rewrite mxE.
apply: dlim_ext (derivable_pt_lim_opp _ _ _ (h1 i j)) => x.
by rewrite mxE.
Qed.
Lemma dlim_sum (I : Type) (r : seq I) (f : I -> R -> R) (d : I -> R) s :
  (forall i, derivable_pt_lim (f i) s (d i)) ->
  derivable_pt_lim (fun x => \sum_(i <- r) f i x) s (\sum_(i <- r) d i).
Proof.
move=> h; elim: r => [|i r IH].
  by rewrite big_nil; apply: dlim_ext (derivable_pt_lim_const 0 s) => x; rewrite big_nil.
rewrite big_cons; apply: dlim_ext (derivable_pt_lim_plus _ _ _ _ _ (h i) IH) => x.
by rewrite big_cons.
Qed.
Lemma mderivM m n p (M : R -> 'M[R]_(m, n)) (N : R -> 'M[R]_(n, p)) s D E :
  mderiv M s D -> mderiv N s E -> mderiv (fun x => M x *m N x) s (D *m N s + M s *m E).
Proof.
move=> h1 h2 i j.
have h k := derivable_pt_lim_mult _ _ _ _ _ (h1 i k) (h2 k j).
have := dlim_sum (index_enum _) h; rewrite 3!mxE -big_split /=.
by apply: dlim_ext => x; rewrite mxE.
Qed.
Lemma mderivMl m n p (C : 'M[R]_(m, n)) (N : R -> 'M[R]_(n, p)) s E :
  mderiv N s E -> mderiv (fun x => C *m N x) s (C *m E).
Proof. by move=> h; have := mderivM (mderiv_const C s) h; rewrite mul0mx add0r. Qed.
Lemma mderivMr m n p (C : 'M[R]_(n, p)) (N : R -> 'M[R]_(m, n)) s E :
  mderiv N s E -> mderiv (fun x => N x *m C) s (E *m C).
Proof. by move=> h; have := mderivM h (mderiv_const C s); rewrite mulmx0 addr0. Qed.
(* affine change of variable *)
Lemma mderiv_aff m n (M : R -> 'M[R]_(m, n)) (c t s : R) D :
  mderiv M (c * (s - t)) D -> mderiv (fun x => M (c * (x - t))) s (c *: D).
Proof.
move=> h i j; rewrite mxE mulrC.
apply: (derivable_pt_lim_comp (fun x => c * (x - t)) (fun x => M x i j)); last exact: h.
apply/is_derive_Reals.
have -> : (fun x : R => c * (x - t)) = (fun x : R => Rmult c (Rplus x (Ropp t))) by [].
by auto_derive=> //; rewrite Rmult_1_r.
Qed.
Lemma mderiv_shift m n (M : R -> 'M[R]_(m, n)) (t s : R) D :
  mderiv M (s - t) D -> mderiv (fun x => M (x - t)) s D.
Proof.
move=> h; pose o : R := GRing.one [ringType of R].
have ox (x : R) : o * x = x by exact: mul1r.
have h' : mderiv M (o * (s - t)) D by rewrite ox.
have := mderiv_aff h'; rewrite (_ : o *: D = D); last exact: scale1r.
by apply: mderiv_ext => x; rewrite ox.
Qed.
Lemma mphi_deriv n (A : 'M[R]_n) k (x : R) :
  mderiv (fun s : R => s ^+ k.+1 *: phi k.+1 (s *: A)) x (x ^+ k *: phi k (x *: A)).
Proof.
move=> i j; rewrite [X in derivable_pt_lim _ _ X]mxE.
apply: dlim_ext (phi_deriv A k i j x) => s; by rewrite [RHS]mxE.
Qed.
Lemma mexp_deriv n (A : 'M[R]_n) (x : R) : mderiv (fun s : R => expmx (s *: A)) x (A *m expmx (x *: A)).
Proof. by move=> i j; apply: exp_deriv. Qed.

Section Ivp.
Variables (n : nat) (A : 'M[R]_n) (b g : 'cV[R]_n).
(* the formula behind the exponential integrators *)
Definition ivp_sol (t : R) (y : 'cV[R]_n) (s : R) : 'cV[R]_n :=
  let x := s - t in
  y + x *: (phi 1 (x *: A) *m (A *m y + b + t *: g)) + x ^+ 2 *: (phi 2 (x *: A) *m g).
Lemma ivp_sol_deriv t y s : vderiv (ivp_sol t y) s (A *m ivp_sol t y s + b + s *: g).
Proof.
apply/vderivP; pose x := s - t.
have [f0 ef0] : {f0 | f0 = A *m y + b + t *: g} by eexists.
have h1 := mderivMr f0 (mderiv_shift (mphi_deriv A 0 x)).
have h2 := mderivMr g (mderiv_shift (mphi_deriv A 1 x)).
have h := mderivD (mderivD (mderiv_const y s) h1) h2.
have e : 0 + (x ^+ 0 *: phi 0 (x *: A)) *m f0 + (x ^+ 1 *: phi 1 (x *: A)) *m g
       = A *m ivp_sol t y s + b + s *: g.
  rewrite add0r expr0 scale1r expr1 /ivp_sol -/x -ef0.
  have r0 : A *m (x *: (phi 1 (x *: A) *m f0)) = phi 0 (x *: A) *m f0 - f0.
    rewrite (phi_rec 0) ifact0 scale1r mulmxDl mul1mx addrAC subrr add0r.
    by rewrite -scalemxAr -!mulmxA -scalemxAl.
  have r1 : A *m (x ^+ 2 *: (phi 2 (x *: A) *m g)) = x *: (phi 1 (x *: A) *m g) - x *: g.
    rewrite (phi_rec 1) ifact1 scale1r mulmxDl mul1mx scalerDr addrAC subrr add0r.
    by rewrite -scalemxAr -mulmxA -scalemxAl scalerA -expr2.
  rewrite 2!mulmxDr r0 r1 -scalemxAl.
  have -> : s *: g = t *: g + x *: g by rewrite -scalerDl /x addrC subrK.
  rewrite ef0; move: (A *m y) (t *: g) (x *: g) (_ *m g) (_ *m _) => p q r u v.
  by apply/matrixP => i j; rewrite !mxE; move: (p i j) (q i j) (r i j) (u i j) (v i j) (b i j) => *; ring.
rewrite -e; apply: mderiv_ext h => z; by rewrite /ivp_sol -!scalemxAl expr1 -ef0.
Qed.
Lemma ivp_sol_init t y : ivp_sol t y t = y.
Proof. by rewrite /ivp_sol subrr scale0r expr2 mul0r scale0r !addr0. Qed.
Lemma ivp_sol_solves t t' y : solves_ivp A b g t t' y (ivp_sol t y).
Proof. by split; [apply: ivp_sol_init | move=> s _ _; apply: ivp_sol_deriv]. Qed.

Lemma ivp_unique t t' y z1 z2 : solves_ivp A b g t t' y z1 -> solves_ivp A b g t t' y z2 -> z1 t' = z2 t'.
Proof.
move=> [i1 d1] [i2 d2].
pose d (s : R) := z1 s - z2 s.
have dd s : (Rmin t t' <= s)%R -> (s <= Rmax t t')%R -> mderiv d s (A *m d s).
  move=> h1 h2; have := mderivD (proj1 (vderivP _ _ _) (d1 s h1 h2)) (mderivN (proj1 (vderivP _ _ _) (d2 s h1 h2))).
  rewrite (_ : _ + - _ = A *m d s) //.
  rewrite /d mulmxBr; move: (A *m z1 s) (A *m z2 s) (s *: g) => p q r.
  by apply/matrixP => i j; rewrite !mxE; move: (p i j) (q i j) (r i j) (b i j) => *; ring.
pose E (s : R) := expmx ((-1 * (s - t)) *: A) *m d s.
have dE s : (Rmin t t' <= s)%R -> (s <= Rmax t t')%R -> mderiv E s 0.
  move=> h1 h2; have h := mderiv_aff (mexp_deriv A (-1 * (s - t))).
  have := mderivM h (dd s h1 h2); rewrite (_ : _ + _ = 0) //.
  rewrite scaleN1r mulmxA -(phi_comm 0 (Z := (-1 * (s - t)) *: A) (A := A)); last first.
    by rewrite -scalemxAr -scalemxAl.
  by rewrite mulNmx addNr.
have e0 : E t' = E t.
  apply/matrixP => i j.
  have dEi x : (Rmin t t' <= x <= Rmax t t')%R -> derivable_pt_lim (fun s => E s i j) x 0%R.
    by move=> /andP [h1 h2]; have := dE x h1 h2 i j; rewrite mxE.
  have [|x hx|c [_ hc]] := @MVT_gen (fun s => E s i j) t t' (fun _ => 0%R).
  - by move=> x [h1 h2]; apply/is_derive_Reals; apply: dEi; apply/andP; split; apply/RleP; left.
  - by apply: derivable_continuous_pt; exists 0%R; apply: dEi; case: hx => h1 h2; apply/andP; split; apply/RleP.
  - by apply: Rminus_diag_uniq; move: hc; rewrite Rmult_0_l.
have Et : E t = 0 by rewrite /E /d i1 i2 (subrr y) mulmx0.
have : expmx ((t' - t) *: A) *m E t' = d t'.
  by rewrite /E mulmxA -[X in expmx X *m _]opprK -scaleNr mulN1r expmxN mul1mx.
by rewrite e0 Et mulmx0 => /esym /eqP; rewrite subr_eq0 => /eqP.
Qed.
Lemma ivp_value t t' y z : solves_ivp A b g t t' y z -> z t' = ivp_sol t y t'.
Proof. move=> h; exact: ivp_unique h (ivp_sol_solves t t' y). Qed.
End Ivp.
Arguments ivp_sol {n} A b g t y s : clear scopes.
