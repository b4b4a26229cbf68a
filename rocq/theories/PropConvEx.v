(* PropConvEx.v : C69 on the Riccati equation u' = u^2, u(0) = 1, whose solution 1/(1-s) is followed on [0,1/2]:
   the hypotheses of the theorems hold with B = 9 in the tube of radius 1. *)
From Coq Require Import Reals String Lra.
From mathcomp Require Import all_ssreflect all_algebra.
From mathcomp Require Import complex ring.
From Verif Require Import Rstruct Summable MxBase MxSeries ModelPhiR ProofsPhiErr ModelHist SpecHist ModelOps SpecOps SpecPhi ModelPhi ModelKrylov ModelDispatch ModelInt SpecInt ProofsInt SpecExact PropPhi PropExact.
From Verif Require Import SpecProg SpecOrder SpecOrder2 SpecConv SpecConv2 ProofsOrder3 ProofsOrder9 ProofsOrderEx PropConv PropConv2 PropConvCode.
Set Implicit Arguments.
Unset Strict Implicit.
Unset Printing Implicit Defensive.
Import Order.TTheory GRing.Theory Num.Theory.
Local Open Scope ring_scope.
Local Opaque breakdown_tol norm2 phi_linop f_phi_k_pfd kiops_fixedsteps f_phi_k_sq_all.

Definition half : R := (2%:R^-1)%R.
Lemma ric_diff2' x x' : diff2 ric_H2 x x' = const_mx (2%:R * (x (lift ord0 ord0) 0 * x' (lift ord0 ord0) 0)).
Proof.
rewrite /diff2 /= !big_ord_recl !big_ord0 /= /ric_H2 /= !scaler0 !add0r !addr0.
by apply/matrixP => i j; rewrite !mxE /= mulrC.
Qed.
Lemma ric_deriv s : 1 - s != 0 -> vderiv ric_z s (ric_f s (ric_z s)).
Proof.
move=> s1 i; rewrite /= !mxE.
have h := derivable_pt_lim_div _ _ _ _ _ (derivable_pt_lim_const 1 s) (derivable_pt_lim_minus _ _ _ _ _ (derivable_pt_lim_const 1 s) (derivable_pt_lim_id s)).
have {h} h := h (elimN eqP s1).
rewrite (_ : (1 - s)^-1 ^+ 2 = Rdiv (Rminus (Rmult 0 (minus_fct (fct_cte 1) Ranalysis1.id s)) (Rmult (Rminus 0 1) (fct_cte 1 s))) (Rsqr (minus_fct (fct_cte 1) Ranalysis1.id s))).
  apply: (ProofsOde.dlim_ext _ h) => x; rewrite /div_fct /minus_fct /fct_cte /Ranalysis1.id mxE /Rdiv (RinvE' (1 - x)%R).
  exact: mul1r.
rewrite /Rdiv /minus_fct /fct_cte /Ranalysis1.id (RinvE' (Rsqr _)) /Rsqr ?RmultE ?RminusE !mul0r !sub0r mulN1r opprK mul1r.
by rewrite exprVn expr2.
Qed.
Lemma ric_in s u : in_tube ric_z 0 half 1 s u -> [/\ 1 - s != 0 & `|u 0 0| <= 3%:R].
Proof.
case=> s0 s1 hu; have h : half <= 1 - s.
  have e : half = 1 - half by rewrite /half; field.
  by rewrite [X in X <= _]e ler_sub.
have p0 : 0 < half by rewrite /half invr_gt0 ltr0n.
have p1 := lt_le_trans p0 h; split; first by rewrite gt_eqF.
rewrite -[u 0 0](subrK (ric_z s 0 0)); apply: le_trans (ler_norm_add _ _) _.
rewrite (natrD _ 1 2) ler_add //; first by have := hu 0; rewrite !mxE.
rewrite mxE gtr0_norm ?invr_gt0 // -[X in _ <= X]invrK lef_pinv ?posrE ?invr_gt0 ?ltr0n //.
Qed.
Lemma ric_tube k : (0 < k)%N -> (k <= 3)%N ->
  smooth_tube k ric_f ric_z 0 half 1 9%:R (fun _ _ => 0) (fun _ u => ric_J u) (fun _ _ => ric_H2) (fun _ _ => ric_H3).
Proof.
move=> k0 k3.
have sm (x : R) a b : (a <= b)%N -> `|x| <= a%:R -> `|x| <= b%:R by move=> ab h; apply: le_trans h _; rewrite ler_nat.
have d3 (x x' x'' : 'cV[R]_(1 + 1)) : diff3 ric_H3 x x' x'' = 0.
  by rewrite /diff3 /ric_H3 big1 // => a _; rewrite big1 // => b _; rewrite big1 // => c _; exact: scaler0.
split.
- move=> s s0 s1; apply: ric_deriv; have o1 : 0 <= (1 : R) by exact: ler01.
  by have [] := @ric_in s (ric_z s); first by split=> // i; rewrite subrr mxE normr0.
- by move=> s u _; exact: ric_sym.
- move=> s u /ric_in[_ h] i; rewrite mxE normrX (natrM _ 3 3) -expr2; apply: ler_expn2r => //; rewrite ?nnegrE ?normr_ge0 ?ler0n //.
- by move=> s u _ i; rewrite mxE normr0 ler0n.
- move=> s u /ric_in[_ h] i; rewrite big_ord1 !mxE normrM normr_nat; apply: (@le_trans _ _ (2%:R * 3%:R)).
    by rewrite ler_wpmul2l ?ler0n.
  by rewrite -natrM ler_nat.
- move=> _ s u _ x x' r r' hx hx' i; rewrite ric_diff2' mxE !normrM normr_nat.
  by rewrite ler_pmul ?mulr_ge0 ?normr_ge0 ?ler0n ?ler_nat // ler_pmul ?normr_ge0.
- move=> _ s u _ x x' x'' r r' r'' hx hx' hx'' i; rewrite d3 mxE normr0.
  have [a b c] : [/\ 0 <= r, 0 <= r' & 0 <= r''] by split; [exact: (entry_rho 0 hx)|exact: (entry_rho 0 hx')|exact: (entry_rho 0 hx'')].
  by rewrite !mulr_ge0 ?ler0n.
move=> s u sg h rho _ _ hsg hh i; rewrite (ord1 i); have r0 := le_trans (normr_ge0 _) hsg.
rewrite /taylor_poly ric_diff2 d3 !scaler0 if_same.
case: ltnP => hk.
  suff -> : (ric_f (s + sg)%R (u + h) - (ric_f s u + 0 + ric_J u *m h + 2%:R^-1 *: const_mx (2%:R * h 0 0 ^+ 2) + 0)) 0 0 = 0 :> R.
    by rewrite normr0 mulr_ge0 ?exprn_ge0 ?ler0n.
  by rewrite !mxE big_ord1 !mxE; move: (h 0 0) (u 0 0) => a b; field.
have -> : (k = 1)%N by case: k k0 hk {k3} => [|[]].
suff -> : (ric_f (s + sg)%R (u + h) - (ric_f s u + 0 + ric_J u *m h + 0 + 0)) 0 0 = h 0 0 ^+ 2 :> R.
  rewrite normrX; apply: (@le_trans _ _ (rho ^+ 2)); first by apply: ler_expn2r; rewrite ?nnegrE ?normr_ge0 //; apply: hh.
  by rewrite ler_pemull ?exprn_ge0 // ler1n.
by rewrite !mxE big_ord1 !mxE; move: (h 0 0) (u 0 0) => a b; ring.
Qed.
Lemma ric_sm s u : smooth_system ric_sys ric_f s u 0 (ric_J u).
Proof. by []. Qed.
Lemma ric_z0 : ric_z 0 = ric_y.
Proof. by apply/matrixP => i j; rewrite !mxE subr0 invr1. Qed.
Lemma half_len : (half - 0 <= half)%R. Proof. by rewrite subr0. Qed.
Lemma ric_T dt N : dt *+ N <= half -> (0 + dt *+ N <= half)%R. Proof. by rewrite add0r. Qed.
Let n9 : 0 <= (9%:R : R). Proof. exact: ler0n. Qed.
Let p1 : 0 < (1 : R). Proof. exact: ltr01. Qed.

(* N steps of size dt from 1: the i-th state is 1/(1 - i dt) up to C dt^p *)
Definition ric_run (p : nat) (run : R -> nat -> seq 'cV[R]_1 -> Prop) : Prop :=
  exists C h0 : R, [/\ 0 <= C, 0 < h0 & forall dt N, 0 < dt -> dt <= h0 -> dt *+ N <= half ->
    exists ys, run dt N ys /\ converges p C dt 0 ric_z 0 N ys].

Example C69_example_rk4 h : rk_new "rk4" 0 ric_y = Ok h ->
  ric_run 4 (fun dt N ys => exists d, integrate_ormatex (rk_step "rk4" ric_sys) (@hist_accept R 'cV[R]_1) None
    (None : option (unit -> R -> 'cV[R]_1 -> unit * unit)) h tt ric_y 0 dt N = Ok d /\ d_ys d = ys).
Proof.
move=> hn; have [C [h0 [C0 h00 H]]] := C69_rk4_convergence half n9 p1; exists C, h0; split=> // dt N d0 d1 hN.
have [d [g1 g2]] := H unit 1%N ric_sys ric_f ric_z _ _ _ _ 0 half dt N unit None h tt ric_y hn (@ric_tube 3 isT isT) ric_z0
  (fun _ _ _ => erefl) (ric_T hN) half_len (ltW d0) d1.
by exists (d_ys d); split=> //; exists d.
Qed.
(* Krylov methods with an exact small exponential; in dimension one the projection is exact *)
Example C69_example_krylov (o : rbopts [rcfType of R]) m p h :
  List.In (m, p) [:: ("exprb2", 2%N); ("exprb3", 3%N)]%string -> (0 < o_kdim o)%N -> o_method o = m -> rb_new o 0 ric_y = Ok h ->
  ric_run p (fun dt N ys => exists d, integrate_ormatex (rb_step ideal_kernels o tt ric_sys) (@hist_accept R 'cV[R]_1) None
    (None : option (unit -> R -> 'cV[R]_1 -> unit * unit)) h tt ric_y 0 dt N = Ok d /\ d_ys d = ys).
Proof.
move=> hin kd hm hn.
have hin' : List.In (m, p) [:: ("exprb2", 2%N); ("exprb3", 3%N); ("pexprb4", 4%N); ("epi2", 2%N)]%string.
  by case: hin => [->|[->|//]]; [left|right; left].
have [C [h0 [C0 h00 H]]] := C69_krylov_convergence half n9 p1 hin'; exists C, h0; split=> // dt N d0 d1 hN.
have hp : (0 < p.-1)%N /\ (p.-1 <= 3)%N by case: hin => [[_ <-]|[[_ <-]|//]].
have ha s u : in_tube ric_z 0 half 1 s u -> krylov_kernels o ideal_kernels tt ric_sys s u (ric_J u) dt 0.
  move=> _; split=> [_|]; first exact: ideal_phi_accurate.
  by rewrite hm; case: hin => [[<- _]|[[<- _]|//]]; case=> [//|[//|[//|//]]].
have [d [g1 g2]] := H unit ideal_kernels 1%N o tt ric_sys ric_f ric_z _ _ _ _ 0 half dt 0 N unit None None h tt ric_y hm hn
  (ric_tube hp.1 hp.2) ric_z0 (fun s u _ => ric_sm s u) (fun _ _ _ => or_introl erefl) ha (ric_T hN) half_len (ltW d0) d1 (lexx _) (ltW h00).
by exists (d_ys d); split=> //; exists d.
Qed.
(* the dense methods with the phi functions of the code *)
Definition code_kernels : kernels [rcfType of R] :=
  Kernels (k_expm ideal_kernels) (k_expk ideal_kernels) f_phi_k_sq_all (k_rs ideal_kernels).
Example C69_example_dense (o : rbopts [rcfType of R]) h : o_method o = "exprb2_dense"%string -> rb_new o 0 ric_y = Ok h ->
  ric_run 2 (fun dt N ys => exists d, integrate_ormatex (rb_step code_kernels o tt ric_sys) (@hist_accept R 'cV[R]_1) None
    (None : option (unit -> R -> 'cV[R]_1 -> unit * unit)) h tt ric_y 0 dt N = Ok d /\ d_ys d = ys).
Proof.
move=> hm hn; have [C [h0 [C0 h00 H]]] := C69_dense_code_convergence half n9 p1; exists C, h0; split=> // dt N d0 d1 hN.
have [d [g1 g2]] := H unit code_kernels 1%N o tt ric_sys ric_f ric_z _ _ _ _ 0 half dt 0 N unit None None h tt ric_y hm hn
  (@ric_tube 1 isT isT) ric_z0 (fun s u _ => ric_sm s u) (fun _ _ _ => or_introl erefl) (fun _ _ _ => conj erefl erefl)
  (ric_T hN) half_len (ltW d0) d1 (lexx _) (ltW h00).
by exists (d_ys d); split=> //; exists d.
Qed.
(* split methods with the linear part 1 (not the Jacobian) *)
Definition ric_split := SplitSys ric_sys (fun _ u => MatrixLinOp (const_mx 1 : 'M[R]_1)).
Lemma one_B i : \sum_j `|(const_mx 1 : 'M[R]_1) i j| <= 9%:R.
Proof. by rewrite big_ord1 mxE normr1 ler1n. Qed.
Example C69_example_split m p ob : List.In (m, p) [:: ("exp1", 1%N); ("exp2", 2%N); ("exp3", 3%N)]%string ->
  sp_new m 0 ric_y = Ok ob ->
  ric_run p (fun dt N ys => exists d, integrate_ormatex (sp_step ideal_kernels 5 5 m ric_split) (@sp_accept [rcfType of R] 1) None
    (None : option (unit -> R -> 'cV[R]_1 -> unit * unit)) ob tt ric_y 0 dt N = Ok d /\ d_ys d = ys).
Proof.
move=> hin hn; have [C [h0 [C0 h00 H]]] := C69_split_convergence half n9 p1 hin; exists C, h0; split=> // dt N d0 d1 hN.
have hp : (0 < maxn p.-1 1)%N /\ (maxn p.-1 1 <= 3)%N by case: hin => [[_ <-]|[[_ <-]|[[_ <-]|//]]].
have ha s u : in_tube ric_z 0 half 1 s u -> [/\ acts_as (ss_fl ric_split s u) (const_mx 1), forall i, \sum_j `|(const_mx 1 : 'M[R]_1) i j| <= 9%:R &
     phi_accurate ideal_kernels 5 5 (const_mx 1 : 'M[R]_1) dt 0].
  by move=> _; split=> //; [exact: one_B|exact: ideal_phi_accurate].
have [d [g1 g2]] := H unit ideal_kernels 1%N 5%N 5%N ric_split ric_f ric_z _ _ _ _ (fun _ _ => const_mx 1) 0 half dt 0 N unit None None ob tt ric_y hn
  (ric_tube hp.1 hp.2) ric_z0 (fun _ _ _ => erefl) ha (ric_T hN) half_len (ltW d0) d1 (lexx _) (ltW h00).
by exists (d_ys d); split=> //; exists d.
Qed.
Example C69_example_split_dense m p ob : List.In (m, p) [:: ("exp1_dense", 1%N); ("exp2_dense", 2%N); ("exp3_dense", 3%N)]%string ->
  sp_new m 0 ric_y = Ok ob ->
  ric_run p (fun dt N ys => exists d, integrate_ormatex (sp_step code_kernels 5 5 m ric_split) (@sp_accept [rcfType of R] 1) None
    (None : option (unit -> R -> 'cV[R]_1 -> unit * unit)) ob tt ric_y 0 dt N = Ok d /\ d_ys d = ys).
Proof.
move=> hin hn; have [C [h0 [C0 h00 H]]] := C69_split_dense_code_convergence half n9 p1 hin; exists C, h0; split=> // dt N d0 d1 hN.
have hp : (0 < maxn p.-1 1)%N /\ (maxn p.-1 1 <= 3)%N by case: hin => [[_ <-]|[[_ <-]|[[_ <-]|//]]].
have [d [g1 g2]] := H unit code_kernels 1%N 5%N 5%N ric_split ric_f ric_z _ _ _ _ (const_mx 1) 0 half dt N unit None None ob tt ric_y erefl hn
  (ric_tube hp.1 hp.2) ric_z0 (fun _ _ _ => erefl) (fun _ => erefl) erefl one_B (ric_T hN) half_len d0 d1.
by exists (d_ys d); split=> //; exists d.
Qed.
