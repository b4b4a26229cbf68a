(* PropExact.v : C29, exponential Rosenbrock/EPI steps on y' = A y + b + t g. *)
From Coq Require Import Reals String.
From mathcomp Require Import all_ssreflect all_algebra.
From mathcomp Require Import ring.
From Verif Require Import Rstruct ModelHist SpecHist ProofsHist Summable MxBase MxSeries SpecPhi ProofsPhiErr.
From Verif Require Import ModelOps SpecOps ProofsOps ModelPhi ModelPhiR ModelKrylov ProofsKrylov ModelDispatch ModelInt SpecInt.
From Verif Require Import ProofsInt ProofsInt2 ProofsInt3 ProofsInt4 ProofsInt5 SpecProg SpecExact ProofsOde ProofsExact.
From Verif Require Import ProofsKrylov2 ProofsKrylov3 PropPhi PropKrylov.
Set Implicit Arguments.
Unset Strict Implicit.
Unset Printing Implicit Defensive.
Import Order.TTheory GRing.Theory Num.Theory.
Local Open Scope ring_scope.
Local Opaque breakdown_tol norm2 phi_linop f_phi_k_pfd kiops_fixedsteps.

(* the initial value problem has a solution, and its value at the end is unique *)
Theorem C29_ivp_unique n (A : 'M[R]_n) (b g : 'cV[R]_n) t t' y :
  (exists z, solves_ivp A b g t t' y z) /\
  forall z1 z2, solves_ivp A b g t t' y z1 -> solves_ivp A b g t t' y z2 -> z1 t' = z2 t'.
Proof. by split; [exists (ivp_sol A b g t y); apply: ivp_sol_solves | apply: ivp_unique]. Qed.

Section Steps.
Variables (KW : Type) (K : kernels [rcfType of R]) (n : nat).
Notation vec := 'cV[R]_n.
Notation H := (hist R vec).
Variables (o : rbopts [rcfType of R]) (kw0 : KW) (sys : odesys [rcfType of R] KW n).
Variables (A : 'M[R]_n) (b g : vec).
Hypothesis aff : affine_system sys A b g.
(* the Krylov dimension is positive; the time derivative is zero or passes the tolerance gate *)
Hypothesis kd : (0 < o_kdim o)%N.
Hypothesis gate : g = 0 \/ (0 <= o_tol o /\ ~ maxnorm_le g (o_tol o)).
(* dense(), where used, returns the Jacobian matrix *)
Hypothesis dense : o_method o = "exprb2_dense"%string ->
  forall kw t u, lo_dense (jl_op (os_fjac sys kw t u)) = Ok A.
Hypothesis meth : List.In (o_method o) [:: "exprb2"; "exprb3"; "pexprb4"; "epi2"; "epi3"; "exprb2_dense"]%string.

Theorem C29_step_exact (h : H) t y dt kw z :
  reachable h -> current h t y -> kernels_exact_at K o A b g (o_method o) dt t y ->
  solves_ivp A b g t (t + dt) y z ->
  rb_step K o kw0 sys h dt kw = Ok (h, mkStep (t + dt) dt (z (t + dt)) (-1)).
Proof.
move=> hr hc hk /ivp_value ->; rewrite ivp_step.
have hg : g = 0 \/ gate_open (o_tol o) g by case: gate => [?|[h1 h2]]; [left|right; apply: gate_openP].
have [k1 [k2 k3]] := hk (fun j => phi j (dt *: A)) (fun j _ => @is_phi_phi j n (dt *: A)).
have E2 : o_method o <> "epi2"%string -> o_method o <> "exprb2_dense"%string ->
   step_exprb2 K o sys h dt (odflt kw0 kw) = Ok (mkStep (t + dt) dt
     (y + phi 1 (dt *: A) *m (dt *: (A *m y + b + t *: g)) + dt ^+ 2 *: (phi 2 (dt *: A) *m g)) (-1)).
  move=> m1 m2; rewrite (exprb2_val aff (odflt kw0 kw) hc hg (k1 m1 m2)).
  by case: eqP => // ->; rewrite mulmx0 !scaler0.
have EP : o_method o = "epi2"%string \/ o_method o = "epi3"%string ->
   step_epi2 K o sys h dt (odflt kw0 kw) = Ok (mkStep (t + dt) dt
     (y + phi 1 (dt *: A) *m (dt *: (A *m y + b + t *: g)) + dt ^+ 2 *: (phi 2 (dt *: A) *m g)) (-1)).
  move=> m1; rewrite (epi2_val aff (odflt kw0 kw) hc (k2 m1)) addrA; by rewrite -!scalemxAr.
rewrite /rb_step; move: meth k1 k3 E2 EP dense; rewrite /=.
case=> [<-|[<-|[<-|[<-|[<-|[<-|//]]]]]] k1 k3 E2 EP hd; cbn [rbind rb_step_routine String.eqb Ascii.eqb Bool.eqb rb_run andb].
- by rewrite E2.
- by rewrite (aff_exprb3 K aff kd _ _ hr hg) E2.
- by rewrite (aff_pexprb4 K aff kd _ _ hr hg) E2.
- by rewrite EP //; left.
- case: ifP => hp; cbn [rbind rb_run].
    by rewrite (aff_epi3 K aff _ _ _ hr hp) EP //; right.
  by rewrite (aff_exprb3 K aff kd _ _ hr hg) E2.
- by rewrite (dense_val aff hc (hd erefl) (k3 erefl)).
Qed.

(* whole runs: the run succeeds, and the i-th returned state is the solution at t0 + i dt *)
Theorem C29_run_exact W (cb1 cb2 : option (W -> R -> vec -> W * KW)) h w t0 y0 dt N z :
  rb_new o t0 y0 = Ok h -> solves_ivp A b g t0 (t0 + dt *+ N) y0 z ->
  (forall i, (i < N)%N -> kernels_exact_at K o A b g (o_method o) dt (t0 + dt *+ i) (z (t0 + dt *+ i))) ->
  exists d, integrate_ormatex (rb_step K o kw0 sys) (@hist_accept R vec) cb1 cb2 h w y0 t0 dt N = Ok d /\
  forall i, (i <= N)%N -> List.nth_error (d_ys d) i = Some (z (t0 + dt *+ i)).
Proof.
move=> /rb_new_hist [ord [_ hi]] hz hk.
have [|||d [e hd]] := @traj_total R vec H KW W (rb_step K o kw0 sys) (@hist_accept R vec) cb1 cb2 N h w t0 y0 dt
  (fun i h => reachable h /\ current h (t0 + dt *+ i) (z (t0 + dt *+ i))) (fun i y => y = z (t0 + dt *+ i)).
- move=> i s c iN [hr hc].
  have es := C29_step_exact c hr hc (hk i iN) (ivp_sub hz iN).
  have e1 : t0 + dt *+ i + dt = t0 + dt *+ i.+1 by rewrite mulrSr addrA.
  exists s, (mkStep (t0 + dt *+ i + dt) dt (z (t0 + dt *+ i + dt)) (-1)); split=> //; rewrite e1.
  by split=> //; split; [apply: reachable_accept | apply: accept_current].
- rewrite mulr0n addr0 (proj1 hz); split; [exact: reachable_init hi | exact: init_current hi].
- by rewrite mulr0n addr0 (proj1 hz).
- by exists d; split=> // i /hd [y [-> ->]].
Qed.
End Steps.


(* ------------------------------------------------------------------ *)
(* the kernels as they are: one-step error against the exact solution, no exactness assumed of
   the Krylov process (dense exponentials of the small matrix are exact in the Krylov part) *)
Section Errors.
Variables (KW : Type) (K : kernels [rcfType of R]) (n : nat).
Notation vec := 'cV[R]_n.
Notation H := (hist R vec).
Variables (o : rbopts [rcfType of R]) (kw0 : KW) (sys : odesys [rcfType of R] KW n).
Variables (A : 'M[R]_n) (b g : vec).
Hypothesis aff : affine_system sys A b g.
Hypothesis kd : (0 < o_kdim o)%N.
Hypothesis gate : g = 0 \/ (0 <= o_tol o /\ ~ maxnorm_le g (o_tol o)).
Hypothesis expm_exact : forall N (X : 'M[R]_N), is_expm X (k_expm K X).

Theorem C29_rosenbrock_error (h : H) t y dt kw :
  List.In (o_method o) [:: "exprb2"; "exprb3"; "pexprb4"]%string ->
  k_expk K = expk_code -> (minn n (o_kdim o) <= (o_iom o).+1)%N -> reachable h -> current h t y ->
  exists s, rb_step K o kw0 sys h dt kw = Ok (h, s) /\ sr_t s = t + dt /\
  forall z, solves_ivp A b g t (t + dt) y z ->
  ninf (sr_y s - z (t + dt)) <=
    norm2 (dt *: (A *m y + b + t *: g)) * krylov_err n (o_kdim o) 1 (ninf (dt *: A))
    + dt ^+ 2 * (norm2 g * krylov_err n (o_kdim o) 2 (ninf (dt *: A))).
Proof.
move=> hm hk hi hr hc.
have hg : g = 0 \/ gate_open (o_tol o) g by case: gate => [?|[h1 h2]]; [left|right; apply: gate_openP].
pose f := A *m y + b + t *: g.
have LA : forall v : vec, mulmx A v = A *m v by [].
have [w1 [e1 b1]] := C19_phi_error expm_exact dt (dt *: f) 1 LA kd hi.
have [w2 [e2 b2]] := C19_phi_error expm_exact dt g 2 LA kd hi.
have val : step_exprb2 K o sys h dt (odflt kw0 kw) = Ok (mkStep (t + dt) dt (y + w1 + (if g == 0 then 0 else dt ^+ 2 *: w2)) (-1)).
  apply: (exprb2_val aff (odflt kw0 kw) hc hg) => L hL; rewrite hk.
  have -> : L = mulmx A by apply: FunctionalExtensionality.functional_extensionality => v; rewrite hL.
  by split.
exists (mkStep (t + dt) dt (y + w1 + (if g == 0 then 0 else dt ^+ 2 *: w2)) (-1)); split; [|split=> //].
  rewrite /rb_step; move: hm; rewrite /=.
  case=> [<-|[<-|[<-|//]]]; cbn [rbind rb_step_routine String.eqb Ascii.eqb Bool.eqb rb_run andb].
  - by rewrite val.
  - by rewrite (aff_exprb3 K aff kd _ _ hr hg) val.
  - by rewrite (aff_pexprb4 K aff kd _ _ hr hg) val.
move=> z /ivp_value ->; rewrite ivp_step /= -/f.
have {}b1 := b1 _ (@is_phi_phi 1 n (dt *: A)).
have {}b2 := b2 _ (@is_phi_phi 2 n (dt *: A)).
have -> : y + w1 + (if g == 0 then 0 else dt ^+ 2 *: w2)
  - (y + phi 1 (dt *: A) *m (dt *: f) + dt ^+ 2 *: (phi 2 (dt *: A) *m g))
  = (w1 - phi 1 (dt *: A) *m (dt *: f)) + (if g == 0 then 0 else dt ^+ 2 *: (w2 - phi 2 (dt *: A) *m g)).
  case: eqP => [g0|_]; first by rewrite g0 mulmx0 !scaler0 !addr0 opprD addrACA subrr add0r.
  move: (phi 1 _ *m _) (phi 2 _ *m g) => a1 a2; apply/matrixP => p q; rewrite !mxE.
  by move: (a1 p q) (a2 p q) (w1 p q) (w2 p q) (y p q) => *; ring.
apply: le_trans (ninfD _ _) _; apply: ler_add; first exact: b1.
have dt2 : 0 <= dt ^+ 2 by rewrite exprn_even_ge0.
case: eqP => [_|_]; last by rewrite ninfZ ger0_norm //; apply: ler_wpmul2l.
by rewrite ninf0; apply: mulr_ge0 => //; apply: le_trans b2; apply: ninf_ge0.
Qed.

Theorem C29_epi_error (h : H) t y dt kw :
  o_method o = "epi2"%string \/ (o_method o = "epi3"%string /\ hist_has_prev h) ->
  (minn (n + 2) (o_kdim o) <= (o_iom o).+1)%N -> reachable h -> current h t y ->
  exists s, rb_step K o kw0 sys h dt kw = Ok (h, s) /\ sr_t s = t + dt /\
  forall z, solves_ivp A b g t (t + dt) y z ->
  ninf (sr_y s - z (t + dt)) <=
    maxnorm [:: 0; dt *: (A *m y + b + t *: g); dt ^+ 2 *: g]
    * kiops_err_bound (n + 2) (o_kdim o) (ninf (dt *: A) + 2%:R).
Proof.
move=> hm hi hr hc; pose f := A *m y + b + t *: g.
pose vb := [:: 0; dt *: f; dt ^+ 2 *: g].
have [_ /(_ (Some (odflt kw0 kw)) t y) [hJ [hdt hf]]] := aff.
have [w [e1 b1]] := @C21_phi_sum_error (k_expm K) (k_expm K) expm_exact expm_exact n _ A dt vb _ _ hJ isT kd hi.
have {}e1 : kiops_fixedsteps (k_expm K) (k_expk K) (jl_op (os_fjac sys (Some (odflt kw0 kw)) t y)) dt vb (o_kdim o) (o_iom o) = Ok w.
  by rewrite -e1.
have et : h_t h = t by case: hc.
have val : step_epi2 K o sys h dt (odflt kw0 kw) = Ok (mkStep (t + dt) dt (y + w) (-1)).
  rewrite /step_epi2 (current_y hc); cbn [rbind]; rewrite et hdt hf -/f -/vb e1; by rewrite /= /mkres et.
exists (mkStep (t + dt) dt (y + w) (-1)); split; [|split=> //].
  rewrite /rb_step; case: hm => [->|[-> hp]]; cbn [rbind rb_step_routine String.eqb Ascii.eqb Bool.eqb rb_run andb].
    by rewrite val.
  by rewrite hp; cbn [rbind rb_run]; rewrite (aff_epi3 K aff _ _ _ hr hp) val.
move=> z /ivp_value ->; rewrite ivp_step /= -/f.
have {}b1 := b1 (fun j => phi j (dt *: A)) (fun j _ => @is_phi_phi j n (dt *: A)).
apply: le_trans b1; rewrite le_eqVlt; apply/orP; left; apply/eqP; congr ninf.
rewrite /vb /= 3!big_ord_recl big_ord0 /= mulmx0 add0r addr0 scalemxAr.
move: (phi 1 _ *m _) (phi 2 _ *m _) => a1 a2; apply/matrixP => p q; rewrite !mxE.
by move: (a1 p q) (a2 p q) (w p q) (y p q) => *; ring.
Qed.
End Errors.

Theorem C29_dense_error KW (K : kernels [rcfType of R]) n (o : rbopts [rcfType of R]) kw0
    (sys : odesys [rcfType of R] KW n) (A : 'M[R]_n) (b g : 'cV[R]_n) (h : hist R 'cV[R]_n) t y dt kw :
  affine_system sys A b g -> (forall kw t u, lo_dense (jl_op (os_fjac sys kw t u)) = Ok A) ->
  o_method o = "exprb2_dense"%string -> k_sqall K = f_phi_k_sq_all -> current h t y ->
  exists s, rb_step K o kw0 sys h dt kw = Ok (h, s) /\ sr_t s = t + dt /\
  forall z, solves_ivp A b g t (t + dt) y z ->
  ninf (sr_y s - z (t + dt)) <=
    dense_err 1 (ninf (dt *: A)) * ninf (dt *: (A *m y + b + t *: g))
    + dt ^+ 2 * (dense_err 2 (ninf (dt *: A)) * ninf g).
Proof.
move=> aff hd hm hk hc; pose f := A *m y + b + t *: g.
have [phis [e1 [_ b1]]] := @C15_error_bound n (dt *: A) 2 isT.
have hq : k_sqall K (dt *: A) 2 = Some phis by rewrite hk.
have val := dense_val aff hc hd hq.
exists (mkStep (t + dt) dt (y + nth 0 phis 1 *m (dt *: f) + dt ^+ 2 *: (nth 0 phis 2 *m g)) (-1)).
split; last split; last first.
- move=> z /ivp_value ->; rewrite ivp_step; cbn [sr_y].
  have h1 := b1 1%N _ isT (@is_phi_phi 1 n (dt *: A)).
  have h2 := b1 2%N _ isT (@is_phi_phi 2 n (dt *: A)).
  rewrite -/f.
  have -> : y + nth 0 phis 1 *m (dt *: f) + dt ^+ 2 *: (nth 0 phis 2 *m g)
     - (y + phi 1 (dt *: A) *m (dt *: f) + dt ^+ 2 *: (phi 2 (dt *: A) *m g))
    = - ((phi 1 (dt *: A) - nth 0 phis 1) *m (dt *: f)) - dt ^+ 2 *: ((phi 2 (dt *: A) - nth 0 phis 2) *m g).
    rewrite !mulmxBl; move: (phi 1 _ *m _) (phi 2 _ *m _) (nth 0 phis 1 *m _) (nth 0 phis 2 *m _) => a1 a2 a3 a4.
    apply/matrixP => p q; rewrite !mxE.
    by move: (a1 p q) (a2 p q) (a3 p q) (a4 p q) (y p q) => *; ring.
  apply: le_trans (ninfD _ _) _; rewrite !ninfN; apply: ler_add.
    apply: le_trans (ninfM _ _) _; apply: ler_wpmul2r; first exact: ninf_ge0.
    by apply: le_trans h1 _; rewrite mul1r.
  rewrite ninfZ ger0_norm ?exprn_even_ge0 //; apply: ler_wpmul2l; first by rewrite exprn_even_ge0.
  apply: le_trans (ninfM _ _) _; apply: ler_wpmul2r; first exact: ninf_ge0.
  by apply: le_trans h2 _; rewrite mul1r.
- by [].
- rewrite /rb_step hm; cbn [rbind rb_step_routine String.eqb Ascii.eqb Bool.eqb rb_run andb].
  by rewrite val.
Qed.

(* how local errors accumulate: if the i-th state misses the solution started at the (i-1)-th
   state by at most delta, the global error is at most delta*(1 + e + ... + e^(i-1)) with
   e = exp(||dt A||) *)
Theorem C29_error_accumulation n (A : 'M[R]_n) (b g : 'cV[R]_n) (t0 dt delta : R) N (ys : nat -> 'cV[R]_n) z :
  solves_ivp A b g t0 (t0 + dt *+ N) (ys 0%N) z ->
  (forall i, (i < N)%N -> forall zi, solves_ivp A b g (t0 + dt *+ i) (t0 + dt *+ i + dt) (ys i) zi ->
     ninf (ys i.+1 - zi (t0 + dt *+ i + dt)) <= delta) ->
  forall i, (i <= N)%N -> ninf (ys i - z (t0 + dt *+ i)) <= delta * \sum_(j < i) exp (ninf (dt *: A)) ^+ j.
Proof.
move=> hz hl; elim=> [|i IH] iN; first by rewrite big_ord0 mulr0 mulr0n addr0 (proj1 hz) subrr ninf0.
have e1 : t0 + dt *+ i.+1 = t0 + dt *+ i + dt by rewrite mulrSr addrA.
have h1 := hl i iN _ (ivp_sol_solves A b g _ _ (ys i)).
rewrite e1 (ivp_value (ivp_sub hz iN)).
set s := t0 + dt *+ i in h1 IH *.
have -> : ys i.+1 - ivp_sol A b g s (z s) (s + dt)
   = (ys i.+1 - ivp_sol A b g s (ys i) (s + dt)) + expmx (dt *: A) *m (ys i - z s).
  rewrite !ivp_step /expmx (phi_rec 0) ifact0 scale1r mulmxDl mul1mx -mulmxA.
  have -> : dt *: A *m (phi 1 (dt *: A) *m (ys i - z s)) = phi 1 (dt *: A) *m (dt *: (A *m ys i) - dt *: (A *m z s)).
    by rewrite mulmxA phi_comm // -mulmxA -scalemxAl mulmxBr scalerBr.
  have -> : phi 1 (dt *: A) *m (dt *: (A *m ys i) - dt *: (A *m z s))
     = phi 1 (dt *: A) *m (dt *: (A *m ys i + b + s *: g)) - phi 1 (dt *: A) *m (dt *: (A *m z s + b + s *: g)).
    rewrite -mulmxBr -!scalerBr; congr (_ *m (_ *: _)).
    move: (A *m ys i) (A *m z s) (s *: g) => a1 a2 a3; apply/matrixP => p q; rewrite !mxE.
    by move: (a1 p q) (a2 p q) (a3 p q) (b p q) => *; ring.
  move: (ys i) (z s) (ys i.+1) (dt ^+ 2 *: _) (phi 1 _ *m (dt *: (A *m ys i + _ + _))) (phi 1 _ *m (dt *: (A *m z s + _ + _))) => a1 a2 a3 a4 a5 a6.
  apply/matrixP => p q; rewrite !mxE.
  by move: (a1 p q) (a2 p q) (a3 p q) (a4 p q) (a5 p q) (a6 p q) => *; ring.
apply: le_trans (ninfD _ _) _; rewrite big_ord_recl expr0 mulrDr mulr1; apply: ler_add => //.
apply: le_trans (ninfM _ _) _.
have h2 := IH (ltnW iN).
have h3 : ninf (expmx (dt *: A)) <= exp (ninf (dt *: A)) by have := ninf_phi (dt *: A) 0; rewrite ifact0 mul1r.
apply: le_trans (ler_pmul (ninf_ge0 _) (ninf_ge0 _) h3 h2) _.
rewrite mulrCA; apply: ler_wpmul2l; last first.
  by rewrite mulr_sumr; under [X in _ <= X]eq_bigr do rewrite lift0 exprS.
by apply: le_trans (ninf_ge0 _) h1.
Qed.

(* ------------------------------------------------------------------ *)
(* the hypotheses are met: the affine system with its matrix as Jacobian, exact dense kernels *)
Definition aff_sys (KW : Type) n (A : 'M[R]_n) (b g : 'cV[R]_n) : odesys [rcfType of R] KW n :=
  OdeSys (fun _ t u => A *m u + b + t *: g)
         (fun _ t u => JacLop (MatrixLinOp A) g (A *m u + b + t *: g)).
Lemma aff_sys_affine KW n (A : 'M[R]_n) b g : affine_system (aff_sys KW A b g) A b g.
Proof. by split. Qed.
Definition ideal_kernels : kernels [rcfType of R] :=
  Kernels (fun n (X : 'M[R]_n) => expmx X) (fun n (X : 'M[R]_n) => expmx X)
          (fun n (z : 'M[R]_n) k => Some [seq phi j z | j <- iota 0 k.+1]) (fun n z dt v k => phi k (dt *: z) *m v).
(* exact for every system of dimension one with the Krylov methods, and for every system with the
   dense method *)
Lemma C29_example_scalar o (A : 'M[R]_1) b g m dt t y : (0 < o_kdim o)%N ->
  m <> "epi2"%string -> m <> "epi3"%string -> kernels_exact_at ideal_kernels o A b g m dt t y.
Proof.
move=> kd m1 m2 f P hP.
have e0 : P 0%N = phi 0 (dt *: A) by apply/is_phiP; apply: hP.
have e1 : P 1%N = phi 1 (dt *: A) by apply/is_phiP; apply: hP.
have e2 : P 2%N = phi 2 (dt *: A) by apply/is_phiP; apply: hP.
split; last by split=> [[]//|_]; rewrite e0 e1 e2.
move=> _ _ L hL; rewrite e1 e2.
have go v j : phi_linop (fun n (X : 'M[R]_n) => expmx X) (fun n (X : 'M[R]_n) => expmx X) L dt v j (o_kdim o) (o_iom o) = Ok (phi j (dt *: A) *m v).
  have [->|v0] := eqVneq v 0; first by rewrite phi_linop_0 mulmx0.
  apply: (phi_linop_full (fun _ _ => erefl) (fun _ _ => erefl) hL v0 kd) => //.
  have := st_k L dt (o_iom o) v0 kd; rewrite (minn_idPl kd).
  by case: (a_k _) => [|[]].
by split; apply: go.
Qed.
Lemma C29_example_dense o n (A : 'M[R]_n) b g dt t y :
  kernels_exact_at ideal_kernels o A b g "exprb2_dense"%string dt t y.
Proof.
move=> P hP.
have e0 : P 0%N = phi 0 (dt *: A) by apply/is_phiP; apply: hP.
have e1 : P 1%N = phi 1 (dt *: A) by apply/is_phiP; apply: hP.
have e2 : P 2%N = phi 2 (dt *: A) by apply/is_phiP; apply: hP.
by split=> //; split=> [[]//|_]; rewrite e0 e1 e2.
Qed.

(* the tolerance gate matters: with tol_fdt = -1 (time derivative disabled) one step of exprb2 on
   y' = t from y(0) = 0 with dt = 1 returns 0, whatever the kernels; the solution at 1 is 1/2 *)
Theorem C29_without_fdt_refuted (K : kernels [rcfType of R]) (o : rbopts [rcfType of R]) h :
  o_method o = "exprb2"%string -> o_tol o = -1 -> rb_new o 0 (0 : 'cV[R]_1) = Ok h ->
  exists s, rb_step K o tt (aff_sys unit 0 0 (const_mx 1)) h 1 None = Ok (h, s) /\
  forall z, solves_ivp 0 0 (const_mx 1) 0 1 0 z -> z 1 = const_mx (2%:R^-1) /\ sr_y s <> z 1.
Proof.
move=> hm ht hn; have [ord [_ hi]] := rb_new_hist hn; have hc := init_current hi.
have hv (z : R -> 'cV[R]_1) : solves_ivp 0 0 (const_mx 1) 0 1 0 z -> z 1 = const_mx (2%:R^-1).
  move=> /ivp_value ->; rewrite /ivp_sol subr0 scale0r mul0mx !addr0 mulmx0 !scaler0 !add0r expr1n scale1r.
  by rewrite phi_at0 -scalemxAl mul1mx; apply/matrixP => i j; rewrite !mxE mulr1 /ifact.
exists (mkStep (0 + 1) 1 0 (-1)); split.
  rewrite /rb_step hm; cbn [rbind rb_step_routine String.eqb Ascii.eqb Bool.eqb rb_run andb].
  rewrite /step_exprb2 (current_y hc); cbn [rbind].
  have et : h_t h = 0 by case: hc.
  rewrite et phi2v_closed; last by rewrite /gate_open ht oppr_ge0 ler10.
  cbn [rbind odflt oapp os_fjac aff_sys jl_frhs jl_op].
  by rewrite mulmx0 scale0r !addr0 scaler0 phi_linop_0 /= /mkres et !addr0.
move=> z /hv ->; split=> // /matrixP /(_ ord0 ord0); rewrite !mxE => /esym /eqP.
by rewrite invr_eq0 pnatr_eq0.
Qed.
