(* PropRustKry.v : properties C57-C60, the Krylov side of the Rust crate. *)
From Coq Require Import Reals String.
From mathcomp Require Import all_ssreflect all_algebra.
From mathcomp Require Import ring.
From Verif Require Import Rstruct Summable MxBase MxSeries SpecPhi ModelHist ModelOps ModelPhi ModelKrylov ModelInt ModelRust SpecRust.
From Verif Require Import ProofsKrylov ProofsKrylov2 ProofsKrylov3 ProofsKiops ProofsRust3 ProofsRust5.
Set Implicit Arguments.
Unset Strict Implicit.
Unset Printing Implicit Defensive.
Import Order.TTheory GRing.Theory Num.Theory.
Local Open Scope ring_scope.
Local Opaque breakdown_tol norm2 dotv.

(* ---------------- C58 ---------------- *)
Theorem C58_rust_arnoldi :
  forall (F : rcfType) n (L : 'cV[F]_n -> 'cV[F]_n) (A : 'M[F]_n) (s : F) (b : 'cV[F]_n) m iom,
  (forall v, L v = A *m v) -> b != 0 -> (0 < m)%N ->
  exists k, exists Q : 'M[F]_(n, k), exists H : 'M[F]_k,
  rarnoldi L s b m iom = Ok (existT (fun k => ('M[F]_(n, k) * 'M[F]_k)%type) k (Q, H)) /\
  (0 < k <= minn n m)%N /\ Q *m e1v F k = (norm2 b)^-1 *: b /\
  (forall j : 'I_k, (Q^T *m Q) j j = 1) /\
  (forall i j : 'I_k, (i < j)%N -> (j - i <= iom.+1)%N -> (Q^T *m Q) i j = 0) /\
  ((minn n m <= iom.+2)%N -> Q^T *m Q = 1%:M) /\
  (forall i j : 'I_k, (j.+1 < i)%N || (i + iom < j)%N -> H i j = 0) /\
  (forall i j : 'I_k, (i : nat) = j.+1 -> breakdown_tol F <= H i j) /\
  exists r : 'cV[F]_n,
    (s *: A) *m Q = Q *m H + r *m (\row_j ((j : nat) == k.-1)%:R) /\
    (k = minn n m \/ norm2 r < breakdown_tol F) /\
    ((minn n m <= iom.+1)%N -> Q^T *m r = 0) /\
    ((minn n m <= iom.+1)%N -> k = n -> r = 0).
Proof.
move=> F n L A s b m iom LA b0 m0.
have [k [hs [qs [nb [e [fin q0]]]]]] := rarnoldi_fin L s iom b0 m0.
move: e; set Q := \matrix_(i, j) qs j i 0; set H := \matrix_(i, j) hs i j => e.
exists k, Q, H; split=> //.
have hk := fin_pos fin; have /andP[k0 km] := hk.
have QQ (i j : 'I_k) : (Q^T *m Q) i j = dotv (qs i) (qs j).
  Local Transparent dotv. rewrite mxE; apply: eq_bigr => l _; rewrite !mxE //. Local Opaque dotv.
have orth : (minn n m <= iom.+2)%N -> Q^T *m Q = 1%:M.
  by move=> h; apply: (Qm_orth fin); apply: leq_trans km h.
have orthr : (minn n m <= iom.+1)%N -> Q^T *m rm L s k hs qs = 0.
  by move=> h; apply: (Qm_rm fin); apply: leq_trans km h.
do !split=> //.
- by rewrite rQ_e1.
- by move=> j; rewrite QQ; apply: (fin_unit fin); apply: ltn_ord.
- by move=> i j ij dist; rewrite QQ; apply: (fin_orth fin); rewrite ?ij ?ltn_ord.
- by move=> i j h; apply: (Hm_hess fin).
- move=> i j e2; rewrite mxE e2 leNgt; apply: (fin_sub fin); rewrite -e2; exact: ltn_ord.
exists (rm L s k hs qs); split; first exact: (arn_rel LA fin).
split; first by have [->|] := fin_gend fin; [left|rewrite negbK; right].
split=> // h kn; apply: (orth_full (Q := Q) kn); last exact: orthr.
by apply: orth; apply: leqW.
Qed.
(* the zero vector: no result (0/0 in the code) *)
Theorem C58_zero_vector (F : rcfType) n (L : 'cV[F]_n -> 'cV[F]_n) s m iom : (0 < n)%N -> (0 < m)%N ->
  rarnoldi L s 0 m iom = Raise ZeroDivisionExn.
Proof.
move=> n0 m0; rewrite /rarnoldi; have -> : (minn m n == 0)%N = false.
  by apply/negbTE; rewrite -lt0n leq_min m0 n0.
by rewrite norm2_0 eqxx.
Qed.

(* an evaluator that returns phi_j(dt a) v, as the dense evaluators are meant to *)
Definition exact_evaluator (ev : evaluator R_rcfType) : Prop :=
  forall k (H : 'M[R]_k) (dt : R) (v : 'cV[R]_k) j P, is_phi j (dt *: H) P -> ev k H dt v j = P *m v.
Lemma exact_phi ev : exact_evaluator ev -> phi_evaluator ev.
Proof. by move=> h k H dt v j; apply: h; apply/is_phiP. Qed.

Theorem C58_rust_phi :
  forall (ev : evaluator R_rcfType), exact_evaluator ev ->
  forall n (L : 'cV[R]_n -> 'cV[R]_n) (A : 'M[R]_n) (dt : R) v j m iom,
  (forall v, L v = A *m v) -> v != 0 -> (n <= m)%N -> (n <= iom.+1)%N ->
  exists E : 'M[R]_n, ninf E <= n%:R * breakdown_tol R_rcfType /\
  (forall k (Q : 'M[R]_(n, k)) H,
     rarnoldi L 1 v m iom = Ok (existT (fun k => ('M[R]_(n, k) * 'M[R]_k)%type) k (Q, H)) -> k = n -> E = 0) /\
  forall P, is_phi j (dt *: (A - E)) P -> apply_phi_linop ev L dt v j m iom = Ok (P *m v).
Proof.
move=> ev /exact_phi hev n L A dt v j m iom LA v0 nm ni.
have [E [h1 h2 h3]] := rphi_linop_back hev LA dt j v0 nm ni.
by exists E; split=> //; split=> // P /is_phiP ->.
Qed.

(* ---------------- C59 ---------------- *)
Lemma ext_bmatE (F : rcfType) n p (vb : seq 'cV[F]_n) : ext_bmat p vb = kiops_B p vb.
Proof.
rewrite /ext_bmat.
have gen q (B0 : 'M[F]_(n, p)) s : (q <= p)%N ->
  foldl (fun (B : 'M[F]_(n, p)) (ki : nat * nat) =>
     \matrix_(r, c) (if (c : nat) == ki.1 then nth 0 vb ki.2 r 0 else B r c)) B0 (zip (rev (iota 0 q)) (iota s q))
  = \matrix_(r, c) (if (c < q)%N then nth 0 vb (s + (q.-1 - c)) r 0 else B0 r c).
  elim: q B0 s => [|q IH] B0 s hq; first by apply/matrixP => i j; rewrite mxE.
  have -> : iota 0 q.+1 = iota 0 q ++ [:: q] by rewrite -[X in iota 0 X]addn1 iotaD.
  rewrite rev_cat /= IH ?(ltnW hq) //.
  apply/matrixP => i j; rewrite !mxE ltnS; case: (ltngtP j q) => h /=.
  - rewrite addSn; congr (nth 0 vb _ i 0).
    by rewrite -addnS; congr (_ + _)%N; case: (q) h => [|q'] //= h; rewrite subSn.
  - by [].
  - by rewrite h subnn addn0.
rewrite gen //; apply/matrixP => i j; rewrite !mxE ltn_ord; congr (nth 0 vb _ i 0).
by case: (p) j => [[]//|p'] j /=; rewrite add1n -subSn // -ltnS ltn_ord.
Qed.
Lemma ext_kmatE (F : rcfType) p : ext_kmat F p = kiops_K F p.
Proof.
apply/matrixP => i j; rewrite !mxE; case: (posnP j) => [->|j0]; first by rewrite andbF.
rewrite andbT -(inj_eq succn_inj) prednK //; case: ifP => // h.
case: eqP => // e; move: h; rewrite -ltnS e prednK ?ltn_ord //.
by apply: leq_ltn_trans (ltn_ord j).
Qed.
Lemma ext_apply_mx (F : rcfType) n p (L : 'cV[F]_n -> 'cV[F]_n) (A : 'M[F]_n) t (B : 'M[F]_(n, p)) K v :
  (forall v, L v = A *m v) -> ext_apply L t B K v = block_mx (t *: A) B 0 K *m v.
Proof. by move=> LA; rewrite /ext_apply -[v in RHS]vsubmxK mul_block_col mul0mx add0r LA -scalemxAl. Qed.

(* the extended operator is the block matrix [[t A, B], [0, K]] with columns of B the vectors
   vb_p ... vb_1 and K the shift *)
Theorem C59_extended_operator (F : rcfType) n p (L : 'cV[F]_n -> 'cV[F]_n) (A : 'M[F]_n) t (vb : seq 'cV[F]_n) v :
  (forall v, L v = A *m v) ->
  ext_apply L t (ext_bmat p vb) (ext_kmat F p) v =
  block_mx (t *: A) (\matrix_(i, c) nth 0 vb (p - c)%N i 0) 0 (\matrix_(i, j) (i.+1 == j)%N%:R) *m v.
Proof. by move=> LA; rewrite (ext_apply_mx _ _ _ _ LA) ext_bmatE ext_kmatE. Qed.
(* but it reports the size of the inner operator: n instead of n + p *)
Theorem C59_nrows_wrong n p : (0 < p)%N -> ext_nrows n p <> (n + p)%N.
Proof. by case: p => // p _; rewrite /ext_nrows addnS => h; have := ltnn n; rewrite {2}h ltnS leq_addr. Qed.

Theorem C59_rust_phi_sum :
  forall (ev : evaluator R_rcfType), exact_evaluator ev ->
  forall n (L : 'cV[R]_n -> 'cV[R]_n) (A : 'M[R]_n) (t : R) (vb : seq 'cV[R]_n) m iom,
  (forall v, L v = A *m v) -> (1 < size vb)%N ->
  let p := (size vb).-1 in
  (n + p <= m)%N -> (n + p <= iom.+1)%N ->
  exists w, rkiops ev L t 1 vb m iom = Ok w /\
  ((exists (Q : 'M[R]_(n + p, n + p)) H,
      rarnoldi (ext_apply L t (ext_bmat p vb) (ext_kmat R_rcfType p)) 1 (ext_get_v p vb) m iom
      = Ok (existT (fun k => ('M[R]_(n + p, k) * 'M[R]_k)%type) (n + p)%N (Q, H))) ->
   forall P : nat -> 'M[R]_n, are_phis p (t *: A) P ->
   w = \sum_(q < p.+1) P q *m nth 0 vb q).
Proof.
move=> ev /exact_phi hev n L A t vb m iom LA svb p nm ni.
have p0 : (0 < p)%N by rewrite /p -ltnS prednK // ltnW.
set T := block_mx (t *: A) (ext_bmat p vb) 0 (ext_kmat R_rcfType p).
have LT (v : 'cV[R]_(n + p)) : ext_apply L t (ext_bmat p vb) (ext_kmat R_rcfType p) v = T *m v by apply: ext_apply_mx.
have v0 : ext_get_v p vb != 0.
  apply/eqP => h; have p1 : (p.-1 < p)%N by rewrite prednK.
  have := congr1 (fun w : 'cV[R]_(n + p) => dsubmx w (Ordinal p1) 0) h.
  rewrite /ext_get_v col_mxKd !mxE eqxx /= => /eqP; by rewrite oner_eq0.
have [E [h1 [k [Q [H [e [h2 h3]]]]]]] := @rkry_core ev hev (n + p) _ T LT (GRing.one _) (GRing.one _) _ m iom 0 v0 nm ni.
rewrite /rkiops -/p /apply_linop e; cbn [rbind]; eexists; split; first reflexivity.
rewrite h3 !scale1r => -[Q' [H' e']] P hP.
have kn : k = (n + p)%N by case: e'.
rewrite h2 // subr0 /T ext_bmatE ext_kmatE.
have -> : ext_get_v p vb = col_mx (nth 0 vb 0) (kiops_e R_rcfType p) by [].
have := @expmx_ktilde n p vb (t *: A) (nth 0 vb 0); rewrite /expmx => ->.
rewrite big_ord_recl; congr (_ + _).
  by have /is_phiP -> := hP 0%N isT.
by apply: eq_bigr => q _; have /is_phiP -> := hP q.+1 (ltn_ord q).
Qed.

(* ---------------- C57 ---------------- *)
(* at an equilibrium the exponential integrators of the crate do not return a state *)
Section Equilibrium.
Variables (F : rcfType) (n : nat) (sys : rsys F n).
Lemma norm_max0 : norm_max (0 : 'cV[F]_n) = 0.
Proof. by rewrite /norm_max; elim/big_rec: _ => // i x _ ->; rewrite mxE normr0 maxxx. Qed.
Lemma aphi0 (ev : evaluator F) (L : 'cV[F]_n -> 'cV[F]_n) dt j dim iom : (0 < n)%N -> (0 < dim)%N ->
  apply_phi_linop ev L dt 0 j dim iom = Raise ZeroDivisionExn.
Proof. by move=> n0 d0; rewrite /apply_phi_linop C58_zero_vector. Qed.
Lemma fphi2_eq o y J dt : (forall t, rs_frhs sys t y = 0) -> exists v, fphi2_v sys o y 0 J dt = Ok (0, v).
Proof.
move=> h; rewrite /fphi2_v; case: ifP => tn; first by exists 0.
by rewrite /frhs_fdt h subr0 scaler0 norm_max0 tn; exists 0.
Qed.
Theorem C57_equilibrium_nan (o : epirk F n) y hist dt :
  (0 < n)%N -> (0 < ep_dim o)%N -> ep_valid (ep_method o) -> ep_ys o = y :: hist ->
  (ep_method o = "epi3"%string -> hist = [::]) ->
  (forall t, rs_frhs sys t y = 0) -> ep_step sys o dt = Raise ZeroDivisionExn.
Proof.
move=> n0 d0 hv ey h3 heq.
have s2 : ep_step2 sys o dt = Raise ZeroDivisionExn.
  rewrite /ep_step2 /rnth ey; cbn [List.nth_error rbind]; rewrite !heq.
  have [v ->] := fphi2_eq o (rs_fjac sys (ep_t o) y) dt heq; cbn [rbind].
  by rewrite scaler0 aphi0.
have sb : ep_step_exprb32 sys o dt = Raise ZeroDivisionExn.
  rewrite /ep_step_exprb32 /rnth ey; cbn [List.nth_error rbind]; rewrite !heq.
  have [v ->] := fphi2_eq o (rs_fjac sys (ep_t o) y) dt heq; cbn [rbind].
  by rewrite scaler0 aphi0.
rewrite /ep_step; case: ifP => // n1; case: ifP => [/String.eqb_eq e3|n2].
  by rewrite ey h3.
case: ifP => // n3; move: hv; rewrite /ep_valid n1 n2 n3; by [].
Qed.
(* so the driver, started at an equilibrium with an exponential method, never returns *)
Variable gmres : ('cV[F]_n -> 'cV[F]_n) -> 'cV[F]_n -> 'cV[F]_n -> nat -> F -> option 'cV[F]_n.
Theorem C57_driver_fails t0 y0 m ev dim iom tol s0 dt N :
  (0 < n)%N -> ep_valid m -> (forall t, rs_frhs sys t y0 = 0) -> (0 < N)%N ->
  select_solver t0 y0 m ev dim iom tol = Ok s0 ->
  s_iter gmres sys dt s0 N = Raise ZeroDivisionExn.
Proof.
move=> n0 hv heq; rewrite /select_solver.
have nb a : ep_valid m -> ~~ ep_valid a -> String.eqb m a = false.
  by move=> h1 h2; apply/negP => /String.eqb_eq e; move: h2; rewrite -e h1.
rewrite !nb //=; case: dim => [|dim] //=; rewrite /ep_new hv; cbn [rbind].
case: N => // N _ [<-]; elim: N => [|N IH]; last by rewrite s_iterS IH.
rewrite s_iterS; cbn [s_iter rbind s_step].
by rewrite (@C57_equilibrium_nan _ y0 [::]).
Qed.
End Equilibrium.

(* ---------------- C60 ---------------- *)
(* autonomous system: the second-order step is y + phi_1(dt (J - E)) (dt f(y)) with a perturbation
   E of at most n*1e-12, zero when the Krylov space fills the whole space *)
Theorem C60_rust_epi2 :
  forall (ev : evaluator R_rcfType), exact_evaluator ev ->
  forall n (sys : rsys R_rcfType n) (o : epirk R_rcfType n) (A : 'M[R]_n) y hist dt,
  (forall t t' u, rs_frhs sys t u = rs_frhs sys t' u) ->
  (forall v, rs_fjac sys (ep_t o) y v = A *m v) ->
  ep_ev o = ev -> ep_method o = "epi2"%string \/ ep_method o = "exprb2"%string ->
  ep_ys o = y :: hist -> (n <= ep_dim o)%N -> (n <= (ep_iom o).+1)%N ->
  let f := rs_frhs sys (ep_t o) y in dt *: f != 0 ->
  exists E : 'M[R]_n, ninf E <= n%:R * breakdown_tol R_rcfType /\
  (forall k (Q : 'M[R]_(n, k)) H,
     rarnoldi (rs_fjac sys (ep_t o) y) 1 (dt *: f) (ep_dim o) (ep_iom o)
     = Ok (existT (fun k => ('M[R]_(n, k) * 'M[R]_k)%type) k (Q, H)) -> k = n -> E = 0) /\
  forall P, is_phi 1 (dt *: (A - E)) P ->
  ep_step sys o dt = Ok (mkStep (ep_t o + dt) dt (y + P *m (dt *: f)) (-1)).
Proof.
move=> ev hev n sys o A y hist dt au hA eev em ey nd ni f f0.
have [E [h1 [h2 h3]]] := @C58_rust_phi ev hev n _ A dt (dt *: f) 1 _ _ hA f0 nd ni.
exists E; split=> //; split=> // P /h3 e.
have -> : ep_step sys o dt = ep_step2 sys o dt by rewrite /ep_step; case: em => ->.
rewrite /ep_step2 /rnth ey; cbn [List.nth_error rbind].
have [v ->] : exists v, fphi2_v sys o y (rs_frhs sys (ep_t o) y) (rs_fjac sys (ep_t o) y) dt = Ok (0, v).
  rewrite /fphi2_v; case: ifP => tn; first by exists 0.
  by rewrite /frhs_fdt (au _ (ep_t o)) subrr scaler0 norm_max0 tn; exists 0.
by cbn [rbind fst]; rewrite eev e; cbn [rbind]; rewrite addr0.
Qed.
(* exprb3 on a linear autonomous system: the remainder vanishes and the step does not return *)
Theorem C60_exprb3_linear_nan (F : rcfType) n (A : 'M[F]_n) (b : 'cV[F]_n) (o : epirk F n) y hist tt dt :
  (0 < n)%N -> (0 < ep_dim o)%N -> ep_method o = "exprb3"%string ->
  ep_ys o = y :: hist -> ep_ts o = ep_t o :: tt ->
  ep_step (RSys (fun _ u => A *m u + b) (fun _ _ v => A *m v)) o dt = Raise ZeroDivisionExn.
Proof.
move=> n0 d0 em ey et; set sys := RSys _ _.
have -> : ep_step sys o dt = ep_step_exprb32 sys o dt by rewrite /ep_step em.
rewrite /ep_step_exprb32 /rnth ey; cbn [List.nth_error rbind].
have -> : fphi2_v sys o y (rs_frhs sys (ep_t o) y) (rs_fjac sys (ep_t o) y) dt = Ok (0, 0).
  rewrite /fphi2_v; case: ifP => tn //.
  by rewrite /frhs_fdt /= subrr scaler0 norm_max0 tn.
cbn [rbind fst snd]; set w1 := apply_phi_linop _ _ _ _ _ _ _.
have [[w ->]|->] : (exists w, w1 = Ok w) \/ w1 = Raise ZeroDivisionExn.
  have [f0|f0] := eqVneq (dt *: rs_frhs sys (ep_t o) y) 0; first by right; rewrite /w1 f0 aphi0.
  left; rewrite /w1 /apply_phi_linop.
  have [k [hs [qs [nb [-> _]]]]] := rarnoldi_fin (rs_fjac sys (ep_t o) y) 1 (ep_iom o) f0 d0.
  by cbn [rbind]; eexists.
  rewrite /ep_remf /rnth et ey; cbn [List.nth_error rbind].
  have -> : rs_frhs sys (ep_t o + dt) (y + 0 + w) - rs_frhs sys (ep_t o) y
     - rs_fjac sys (ep_t o) y (y + 0 + w - y) - (ep_t o + dt - ep_t o) *: (0 : 'cV[F]_n) = 0.
    rewrite /= addr0 scaler0 subr0 [y + w]addrC addrK mulmxDr.
    move: (A *m w) (A *m y) => p q; apply/matrixP => i j; rewrite !mxE.
    by move: (p i j) (q i j) (b i j) => *; ring.
  by rewrite aphi0.
by [].
Qed.
(* non-vacuity: an exact evaluator exists, and in one dimension the Krylov space is always full *)
Theorem exact_evaluator_exists : exists ev, exact_evaluator ev.
Proof. by exists (fun k H dt v j => phi j (dt *: H) *m v) => k H dt v j P /is_phiP ->. Qed.
Theorem C60_rust_epi2_scalar (a f0 : R) (y0 : 'cV[R]_1) (ev : evaluator R_rcfType) (dt : R) :
  exact_evaluator ev -> dt *: (a%:M *m y0 + const_mx f0) != 0 ->
  let sys := @RSys R_rcfType 1 (fun _ u => a%:M *m u + const_mx f0) (fun _ _ v => a%:M *m v) in
  forall o, ep_new 0 y0 "epi2"%string ev 3 2 = Ok o ->
  forall P, is_phi 1 (dt *: (a%:M : 'M[R]_1)) P ->
  ep_step sys o dt = Ok (mkStep (0 + dt) dt (y0 + P *m (dt *: (a%:M *m y0 + const_mx f0))) (-1)).
Proof.
move=> hev f0n sys o [<-] P hP.
set o' := Epirk _ _ _ _ _ _ _ _.
have [E [_ [h2 h3]]] := @C60_rust_epi2 ev hev 1 sys o' a%:M y0 [::] dt (fun _ _ _ => erefl) (fun _ => erefl) erefl (or_introl erefl) erefl isT isT f0n.
have [k [Q [H [e [hk _]]]]] := @C58_rust_arnoldi R_rcfType 1 (rs_fjac sys (ep_t o') y0) a%:M 1 (dt *: rs_frhs sys (ep_t o') y0) 3 2 (fun _ => erefl) f0n isT.
have k1 : k = 1%N by move: hk; case: (k) => [|[|?]].
have E0 : E = 0 by apply: (h2 k Q H e k1).
by apply: h3; rewrite E0 subr0.
Qed.
Print Assumptions C60_rust_epi2_scalar.
