(* ModelLeja.v : the Leja-point exponential (ormatex_py/matexp_poly.py:33-209,
   ormatex_py/matexp_leja.py) and the integrator built on it (ormatex_py/ode_exp.py:435-624),
   in exact arithmetic.  Definitions only.  Arrays are sequences read with default 0; prints, jit
   decorators, dtypes are not modelled; a division by zero (nan/inf in the code) has the value 0
   here, so every theorem that divides states that the divisor is nonzero. *)
From Coq Require Import String.
From mathcomp Require Import all_ssreflect all_algebra.
From mathcomp Require Import complex.
From Verif Require Import ModelHist MxBase ModelOps ModelPhi ModelKrylov ModelDispatch ModelInt.
Set Implicit Arguments.
Unset Strict Implicit.
Unset Printing Implicit Defensive.
Import Order.TTheory GRing.Theory Num.Theory.
Local Open Scope ring_scope.

(* ------------------------------------------------------------------ *)
(* matexp_poly.py, over any field (the code uses it with real and with complex arrays) *)
Section Poly.
Variable K : fieldType.

(* matexp_poly.py:45, one pass: a[k:m] = (a[k:m] - a[k-1]) / (x[k:m] - x[k-1]) *)
Definition dd_pass (x : seq K) (a : seq K) (k : nat) : seq K :=
  [seq if (j < k)%N then a`_j else (a`_j - a`_k.-1) / (x`_j - x`_k.-1) | j <- iota 0 (size x)].
(* matexp_poly.py:33-46 newton_poly_div_diff: for k in range(1, m) *)
Definition newton_poly_div_diff (x y : seq K) : seq K :=
  foldl (dd_pass x) y (iota 1 (size x).-1).

(* matexp_poly.py:50-62 leja_coeffs_exp_dd; ex is jnp.exp *)
Definition leja_coeffs_exp_dd (ex : K -> K) (leja_x : seq K) (shift scale h : K) : seq K :=
  newton_poly_div_diff leja_x [seq ex (h * (shift + scale * xi)) | xi <- leja_x].

(* matexp_poly.py:81-82: Xi = diag(leja_x, 0) + diag(ones(n_leja-1), -1),
   Xi_shift = identity*shift + scale*Xi *)
Definition leja_Xi (x : seq K) : 'M[K]_(size x) :=
  \matrix_(i, j) ((i == j)%:R * x`_i + (i == j.+1 :> nat)%:R).
Definition leja_Xi_shift (x : seq K) (shift scale : K) : 'M[K]_(size x) :=
  shift%:M + scale *: leja_Xi x.
(* [:, 0] *)
Definition first_col m (M : 'M[K]_m) : seq K :=
  if insub 0%N is Some z then [seq M i z | i : 'I_m] else [::].
(* matexp_poly.py:65-86 leja_coeffs_exp; expm is jax.scipy.linalg.expm *)
Definition leja_coeffs_exp (expm : forall m, 'M[K]_m -> 'M[K]_m) (x : seq K) (shift scale h : K) : seq K :=
  first_col (expm _ (h *: leja_Xi_shift x shift scale)).

(* matexp_poly.py:90-118 expm_taylor; ex is jnp.exp *)
Fixpoint taylor_loop m (A ts M : 'M[K]_m) (i p : nat) : 'M[K]_m :=
  match p with
  | 0 => ts
  | q.+1 => taylor_loop A (ts + (i.+1)`!%:R^-1 *: M) (A *m M) i.+1 q
  end.
Definition expm_taylor (ex : K -> K) m (A : 'M[K]_m) (shift scale : K) (p : nat) : 'M[K]_m :=
  ex shift *: taylor_loop A 1%:M (scale *: A) 0 p.

(* lax.fori_loop(0, s, F @ F) *)
Fixpoint squarings m (s : nat) (M : 'M[K]_m) : 'M[K]_m :=
  if s is s'.+1 then squarings s' (M *m M) else M.

(* matexp_poly.py:122-162 dd_exp_taylor; p = 20 and mu_scale = 1 are the only values used.
   nsq is the number of squarings s computed at 148-150, max(ceil(log2(max|z|)), 1): an
   argument here (the theorems hold for every number of squarings). *)
Definition dd_mu (x : seq K) (shift scale h : K) : K :=
  (\sum_(xi <- x) (h * (shift + xi * scale))) / (size x)%:R.
Definition dd_z (x : seq K) (shift scale h : K) : 'M[K]_(size x) :=
  leja_Xi_shift x shift scale - (dd_mu x shift scale h)%:M.
Definition dd_exp_taylor (ex : K -> K) (nsq : nat) (x : seq K) (shift scale h : K) (p : nat) : seq K :=
  let mu := dd_mu x shift scale h in
  let z := dd_z x shift scale h in
  let hs := 1 / (2%:R ^+ nsq) in
  let T := expm_taylor ex ((hs * h) *: z) 0 1 p in
  [seq ex (h * mu) * c | c <- first_col (squarings nsq T)].

(* matexp_poly.py:166-179 leja_seq_pad_zeros: jnp.linspace(1e-12, 1e-12*p, p) ++ x;
   linspace(a,b,p)[k] = a + k*(b-a)/(p-1), and the single value a when p = 1 *)
Definition pad_eps : K := (10%:R ^+ 12)^-1.
Definition linspace (a b : K) (p : nat) : seq K :=
  [seq a + k%:R * ((b - a) / p.-1%:R) | k <- iota 0 p].
Definition leja_seq_pad_zeros (x : seq K) (p : nat) : seq K :=
  linspace pad_eps (pad_eps * p%:R) p ++ x.
End Poly.

(* ------------------------------------------------------------------ *)
(* matexp_poly.py:182-209 leja_seq_reordering *)
Section Reorder.
Variable F : rcfType.

(* np.argmax: the first index at which no later entry is larger (no nan) *)
Fixpoint argmax_from T (lt : T -> T -> bool) (best : T) (ib i : nat) (s : seq T) : nat :=
  match s with
  | [::] => ib
  | y :: s' => if lt best y then argmax_from lt y i i.+1 s' else argmax_from lt best ib i.+1 s'
  end.
(* np.argmax of an empty array raises ValueError *)
Definition argmax T (lt : T -> T -> bool) (s : seq T) : result nat :=
  if s is y :: s' then Ok (argmax_from lt y 0 1 s') else Raise ValueErrorExn.
(* numpy compares complex numbers lexicographically (real part, then imaginary part) *)
Definition clt (a b : F[i]) : bool :=
  (complex.Re a < complex.Re b) ||
  ((complex.Re a == complex.Re b) && (complex.Im a < complex.Im b)).
(* absolute value of a complex number, as a real *)
Definition cabs (a : F[i]) : F := Num.sqrt (complex.Re a ^+ 2 + complex.Im a ^+ 2).
(* list.pop(k) *)
Definition pop T (k : nat) (s : seq T) : seq T := take k s ++ drop k.+1 s.
(* lines 203-204: np.prod(np.abs(zr - xi), axis=0) *)
Definition leja_dist (z : seq F[i]) (p : F[i]) : F := \prod_(zi <- z) cabs (zi - p).
(* lines 195-208: while len(xi) > 0; the fuel is the length of xi *)
Fixpoint reorder_loop (fuel : nat) (z xi : seq F[i]) : result (seq F[i]) :=
  match fuel with
  | 0 => Ok z
  | f.+1 =>
      if xi is [::] then Ok z else
      let dpv := [seq leja_dist z p | p <- xi] in
      ni <- argmax (fun a b => a < b) dpv;;
      reorder_loop f (rcons z (xi`_ni)) (pop ni xi)
  end.
Definition leja_seq_reordering (x : seq F[i]) : result (seq F[i]) :=
  k <- argmax clt x;;
  reorder_loop (size x) [:: x`_k] (pop k x).
End Reorder.

(* ------------------------------------------------------------------ *)
Section Leja.
Variable F : rcfType.

(* matexp_leja.py:301-303 decay_fun(e_new, e_old, gamma) = exp(gamma log e_new + (1-gamma) log e_old).
   Every caller has gamma = .5, for which this is the geometric mean; for a zero argument
   log gives -inf and exp gives 0, as here. *)
Definition decay_half (e_new e_old : F) : F := Num.sqrt (e_new * e_old).
(* default abort_tol = 1.0e10 *)
Definition abort_tol : F := 10%:R ^+ 10.

Section Expmv.
Variable n : nat.
Notation vec := 'cV[F]_n.
Variable mv : vec -> vec.   (* a_lo.matvec *)

(* loop variables of the while loops *)
Record lstate := LState { l_i : nat; l_vm : vec; l_pm : vec; l_err : F; l_conv : bool }.

(* matexp_leja.py:449-451 and 386-388 cond_leja_poly *)
Definition leja_cond (n_leja : nat) (norm_u : F) (s : lstate) : bool :=
  [&& ((l_i s).+1 < n_leja)%N, l_err s <= abort_tol * norm_u & ~~ l_conv s].

(* lax.while_loop; i grows at each pass, so fuel n_leja suffices (ProofsLeja.leja_while_done) *)
Fixpoint leja_while (fuel : nat) (cond : lstate -> bool) (body : lstate -> lstate) (s : lstate) : lstate :=
  if fuel is f.+1 then (if cond s then leja_while f cond body (body s) else s) else s.

(* (dt*a_lo.matvec(v) - x*v) / scale *)
Definition leja_mv (dt x scale : F) (v : vec) : vec := scale^-1 *: (dt *: mv v - x *: v).

(* matexp_leja.py:395-456 real_leja_expmv: (pm, i, converged) *)
Definition re_body (dt shift scale : F) (x coeffs : seq F) (tol norm_u : F) (s : lstate) : lstate :=
  let i := l_i s in
  let vm := leja_mv dt (shift + scale * x`_i.-1) scale (l_vm s) in
  let pm := l_pm s + coeffs`_i *: vm in
  let err := decay_half (`|coeffs`_i| * norm2 vm) (l_err s) in
  LState i.+1 vm pm err (err < tol * norm_u).
Definition real_leja_expmv (dt : F) (u : vec) (shift scale : F) (x coeffs : seq F) (tol : F)
  : vec * nat * bool :=
  let n_leja := size x in
  let norm_u := norm2 u in
  let s := leja_while n_leja (leja_cond n_leja norm_u) (re_body dt shift scale x coeffs tol norm_u)
             (LState 1 u (coeffs`_0 *: u) (2%:R * norm_u) (norm_u == 0)) in
  (l_pm s, l_i s, l_conv s).

(* matexp_leja.py:307-391 complex_conj_leja_expmv.  shift, scale real; x_sc = shift + scale*x *)
Definition cRe (x : seq F[i]) : seq F := [seq complex.Re c | c <- x].
Definition cIm (x : seq F[i]) : seq F := [seq complex.Im c | c <- x].
(* lines 351-358, the static loop over the real points *)
Definition cj_real_body (dt shift scale : F) (x coeffs : seq F[i]) (s : lstate) : lstate :=
  let i := l_i s in
  let vm := leja_mv dt (shift + scale * (cRe x)`_i.-1) scale (l_vm s) in
  let pm := l_pm s + (cRe coeffs)`_i *: vm in
  LState i.+1 vm pm (decay_half (`|(cRe coeffs)`_i| * norm2 vm) (l_err s)) (l_conv s).
(* lines 361-382, one conjugate pair *)
Definition cj_pair_body (dt shift scale : F) (x coeffs : seq F[i]) (tol norm_u : F) (s : lstate) : lstate :=
  let i := l_i s in
  let xr := shift + scale * (cRe x)`_i.-1 in
  let xi := scale * (cIm x)`_i.-1 in
  let qm := leja_mv dt xr scale (l_vm s) in
  let pm := l_pm s + (cRe coeffs)`_i *: qm in
  let err := decay_half (`|(cRe coeffs)`_i| * norm2 qm) (l_err s) in
  let vm := leja_mv dt xr scale qm + (xi / scale) ^+ 2 *: l_vm s in
  let pm := pm + (cRe coeffs)`_i.+1 *: vm in
  let err := decay_half (`|(cRe coeffs)`_i.+1| * norm2 vm) err in
  LState i.+2 vm pm err (err < tol * norm_u).
Definition complex_conj_leja_expmv (dt : F) (u : vec) (shift scale : F) (x : seq F[i])
    (n_leja_real : nat) (coeffs : seq F[i]) (tol : F) : vec * nat * bool :=
  let n_leja := size x in
  if n_leja_real == n_leja then real_leja_expmv dt u shift scale (cRe x) (cRe coeffs) tol else
  let norm_u := norm2 u in
  let s0 := LState 1 u ((cRe coeffs)`_0 *: u) (2%:R * norm_u) (norm_u == 0) in
  let s1 := iter n_leja_real (cj_real_body dt shift scale x coeffs) s0 in
  let s := leja_while n_leja (leja_cond n_leja norm_u)
             (cj_pair_body dt shift scale x coeffs tol norm_u) s1 in
  (l_pm s, l_i s, l_conv s).

(* matexp_leja.py:236-298 complex_conj_imag_leja_expmv; l_vm is rm, l_err is poly_err; the
   initial poly_err is 1.0e2.  |coeffs[i]| is the complex absolute value. *)
Definition im_body (dt shift scale : F) (x coeffs : seq F[i]) (s : lstate) : lstate :=
  let i := l_i s in
  let rm := l_vm s in
  let err_r := (cRe coeffs)`_i.-1 * norm2 rm in
  let qm := leja_mv dt shift scale rm in
  let pm := l_pm s + (cRe coeffs)`_i.-1 *: rm + (cRe coeffs)`_i *: qm in
  let rm' := leja_mv dt shift scale qm + (cIm x)`_i.-1 ^+ 2 *: rm in
  LState i.+2 rm' pm (norm2 qm * cabs coeffs`_i + err_r) false.
Definition im_cond (n_leja : nat) (tol beta : F) (s : lstate) : bool :=
  [&& tol * beta < l_err s, l_err s < beta * 10%:R ^+ 3 & (l_i s < n_leja)%N].
Definition complex_conj_imag_leja_expmv (dt : F) (u : vec) (shift scale : F) (x coeffs : seq F[i]) (tol : F)
  : vec * nat * bool :=
  let n_leja := size x in
  let beta := norm2 u in
  let s := leja_while n_leja (im_cond n_leja tol beta) (im_body dt shift scale x coeffs)
     (LState 2 (leja_mv dt shift scale u) ((cRe coeffs)`_0 *: u) (10%:R ^+ 2) false) in
  (l_pm s, l_i s, ((l_i s < n_leja)%N && (l_err s < beta * 10%:R ^+ 3))).
End Expmv.

(* matexp_leja.py:525-559 and 619-642: the sub-stepping loop shared by real_leja_expmv_substep
   and complex_conj_leja_expmv_substep; [expmv dts w] is the call of the inner routine.
   tau, dts, w_t, tot_iter, max_tau_dt as in the code; i counts attempts, max_substeps = 1000,
   so the fuel is the number of attempts still allowed before "Max substeps reached". *)
Section Substep.
Variable V : Type.
Variable expmv : F -> V -> V * nat * bool.
Definition max_substeps : nat := 1000.
Fixpoint substep_loop (fuel : nat) (dts tau : F) (w_t : V) (tot_iter : nat) (max_tau_dt : F)
  : result (V * nat * bool * F) :=
  let: (w, it, converged) := expmv dts w_t in
  let tot_iter := (tot_iter + it)%N in
  let: (dts, tau, w_t, max_tau_dt) :=
    if ~~ converged then (dts / (6%:R / 5%:R), tau, w_t, max_tau_dt)
    else (Num.min dts (1 - (tau + dts)), tau + dts, w, Num.max max_tau_dt dts) in
  if 1 <= tau then Ok (w_t, tot_iter, converged, max_tau_dt) else
  if fuel is f.+1 then substep_loop f dts tau w_t tot_iter max_tau_dt
  else Raise RuntimeErrorExn.
Definition expmv_substep (substep : bool) (tau_dt : F) (v : V) : result (V * nat * bool * F) :=
  if ~~ substep then
    let: (w, it, converged) := expmv 1 v in Ok (w, it, converged, 1)
  else substep_loop max_substeps (Num.min tau_dt 1) 0 v 0 0.
End Substep.

(* numerical oracles of the Leja integrator: divided differences of exp for real and complex
   sequences.  The code takes dd_exp_taylor (dd_method = "taylor", the default and the only
   value the integrator passes), leja_coeffs_exp or leja_coeffs_exp_dd, always with h = 1.0 *)
Record ldd := LDD {
  dd_re : seq F -> F -> F -> seq F;
  dd_im : seq F[i] -> F -> F -> seq F[i] }.
Variable D : ldd.

(* matexp_leja.py:488-559 real_leja_expmv_substep, before the slice w_t[0:n] *)
Definition real_leja_expmv_substep m (a_tilde : linop F m) (tau_dt : F) (v : 'cV[F]_m) (x : seq F)
    (shift scale tol : F) (substep : bool) : result ('cV[F]_m * nat * bool * F) :=
  let coeffs := dd_re D x shift scale in
  expmv_substep (fun dts w => real_leja_expmv (lo_mv a_tilde) dts w shift scale x coeffs tol)
    substep tau_dt v.
(* matexp_leja.py:562-642 complex_conj_leja_expmv_substep, before the slice *)
Definition complex_conj_leja_expmv_substep m (a_tilde : linop F m) (tau_dt : F) (v : 'cV[F]_m)
    (x : seq F[i]) (n_leja_real : nat) (shift scale tol : F) (substep : bool) (leja_n_zeros : nat)
  : result ('cV[F]_m * nat * bool * F) :=
  let x := if (0 < leja_n_zeros)%N then leja_seq_pad_zeros x leja_n_zeros else x in
  let coeffs := dd_im D x shift scale in
  expmv_substep (fun dts w => complex_conj_leja_expmv (lo_mv a_tilde) dts w shift scale x
                                (leja_n_zeros + n_leja_real) coeffs tol)
    substep tau_dt v.

(* matexp_leja.py:645-680 build_a_tilde: the operator and the vector; vb has p+1 entries *)
Definition build_a_tilde n p (a_lo : linop F n) (dt : F) (vb : seq 'cV[F]_n)
  : linop F (n + p) * 'cV[F]_(n + p) :=
  (AugMatrixLinOp a_lo dt (kiops_B p vb) (kiops_K F p), col_mx (nth 0 vb 0) (kiops_e F p)).

(* matexp_leja.py:201-232 power_iter, tol = 5e-2, initial (0, b0, 1e20, 1.0): (eig, b_k, iters) *)
Fixpoint power_loop m (mv : 'cV[F]_m -> 'cV[F]_m) (fuel i : nat) (b : 'cV[F]_m) (eig_new eig_old : F)
  : F * 'cV[F]_m * nat :=
  if fuel is f.+1 then
    if 5%:R / 100%:R < `|eig_new - eig_old| then
      let b1 := mv b in
      let e := dotv b b1 / dotv b b in
      power_loop mv f i.+1 ((norm2 b1)^-1 *: b1) e eig_new
    else (eig_new, b, i)
  else (eig_new, b, i).
Definition power_iter m (mv : 'cV[F]_m -> 'cV[F]_m) (b0 : 'cV[F]_m) (it : nat) : F * 'cV[F]_m * nat :=
  power_loop mv it 0 b0 (10%:R ^+ 20) 1.

(* matexp_leja.py:459-485 leja_shift_scale: (shift, scale, max_eig, b); rnd is
   jax.random.uniform(key(42), (dim,)), a fixed vector; the assertion on len(b0) holds by typing *)
Definition leja_shift_scale m (mv : 'cV[F]_m -> 'cV[F]_m) (max_power_iter : nat)
    (b0 : option 'cV[F]_m) (rnd : 'cV[F]_m) (scale_factor : F) : F * F * F * 'cV[F]_m :=
  let: (max_eig, b, _) := power_iter mv (odflt rnd b0) max_power_iter in
  let max_eig := max_eig * scale_factor in
  (max_eig / 2%:R, `|0 - max_eig| / 4%:R, max_eig, b).

(* ------------------------------------------------------------------ *)
(* matexp_leja.py:97-124 gen_leja_circle.  np.sqrt is the principal square root (sqrtc). *)
Definition circle_pass (zt : seq F[i]) : seq F[i] :=
  (* the next 2^k points, k >= 1: np.sqrt(zt[2**(k-1)]) * zt[:2**k]; here zt = zt[:2**k] *)
  zt ++ [seq sqrtc zt`_(size zt)./2 * z | z <- zt].
(* zt[2**k:2**(k+1)] = vstack((zt[2**k:mid_k], zt[2**(k+1)-1:mid_k-1:-1])).flatten(order='F') *)
Definition conj_block (b : seq F[i]) : seq F[i] :=
  flatten [seq [:: b`_j; b`_((size b).-1 - j)] | j <- iota 0 (size b)./2].
Fixpoint conj_blocks (k : nat) (cnt : nat) (zt : seq F[i]) : seq F[i] :=
  (* blocks k, k+1, ..., k+cnt-1 of the remaining points zt = zt[2**k:] *)
  if cnt is c.+1 then conj_block (take (2 ^ k)%N zt) ++ conj_blocks k.+1 c (drop (2 ^ k)%N zt) else zt.
(* int.bit_length *)
Definition bit_length (n : nat) : nat := if n is 0 then 0%N else (trunc_log 2 n).+1.
Definition gen_leja_circle (n : nat) (conjugate : bool) : seq F[i] :=
  let log2n := maxn 2 (bit_length n.-1) in
  let zt := iter log2n.-1 circle_pass [:: 1; -1] in
  let zt := if conjugate then take 2 zt ++ conj_blocks 1 log2n.-1 (drop 2 zt) else zt in
  take n zt.

(* zt[a:b:2], with the stop b beyond the end of the array or at it *)
Fixpoint every2 T (s : seq T) : seq T :=
  match s with
  | x :: _ :: s' => x :: every2 s'
  | _ => s
  end.
(* matexp_leja.py:45-94 gen_leja_conjugate: (points, n_real, scale, shift).
   n >= 3 is required (for smaller n the array assignments of the real and imaginary cases raise);
   scale = 0 (a = b and c = 0) is a division by zero in the code. *)
Definition circ_tol : F := (10%:R ^+ 4)^-1.
Definition gen_leja_conjugate (n : nat) (a b c : F) : result (seq F[i] * nat * F * F) :=
  let shift := (a + b) / 2%:R in
  let hax1 := (b - a) / 2%:R in
  let scale := (hax1 + c) / 2%:R in
  let h1 := hax1 / scale in
  let h2 := c / scale in
  if (h1 < 0) || (h2 < 0) then Raise ValueErrorExn
  else if h2 <= circ_tol then
    let n_bigger := (2 * n.-1)%N in
    let ztc := gen_leja_circle n_bigger true in
    let re := [seq complex.Re z | z <- ztc] in
    Ok ([seq (h1 * r)%:C%C | r <- take 2 re ++ every2 (drop 2 re)], n, scale, shift)
  else if h1 <= circ_tol then
    let n_bigger := (2 * n.-1)%N in
    let ztc := gen_leja_circle n_bigger true in
    let im := [seq complex.Im z | z <- ztc] in
    Ok ([seq Complex 0 (h2 * r) | r <- [:: im`_0; im`_2; im`_3] ++ every2 (drop 4 im)], 1%N, scale, shift)
  else
    Ok ([seq Complex (h1 * complex.Re z) (h2 * complex.Im z) | z <- gen_leja_circle n true], 2%N, scale, shift).

(* ------------------------------------------------------------------ *)
(* ode_exp.py:435-624 ExpLejaIntegrator *)
Variable KW : Type.
Section Integrator.
Variable n : nat.
Notation vec := 'cV[F]_n.
Notation avec := 'cV[F]_(n + 2).
Notation H := (hist F vec).
Notation SR := (step_result F vec).

(* constructor options; lo_x is gen_leja_fast(-2, 2, n_leja), lo_rnd the fixed random vector *)
Record lopts := LOpts {
  lp_method : string;
  lp_tol : F; lp_a : option F; lp_c : option F;
  lp_substep : bool; lp_nzeros : nat; lp_n : nat;
  lp_eig_scale : F; lp_x : seq F; lp_rnd : avec }.
Definition leja_max_power_iter : nat := 100.

(* the mutable object *)
Record ljobj := LjObj { lj_hist : H; lj_size : F; lj_bk : option avec; lj_istep : nat }.

(* ode_exp.py:439-470 constructor: size 1.0, no eigenvector, counter 0 *)
Variable o : lopts.
Definition lj_new (t0 : F) (y0 : vec) : result ljobj :=
  ord <- leja_ctor (lp_method o);;
  h <- hist_init ord t0 y0;;
  Ok (LjObj h 1 None 0).
(* ode_sys.py:538-543: reset_ic is inherited and touches only t, t_hist, y_hist *)
Definition lj_reset (ob : ljobj) (t0 : F) (y0 : vec) : ljobj :=
  LjObj (hist_reset (lj_hist ob) t0 y0) (lj_size ob) (lj_bk ob) (lj_istep ob).
(* ode_exp.py:621-624 accept_step *)
Definition lj_accept (ob : ljobj) (s : SR) : ljobj :=
  LjObj (hist_accept (lj_hist ob) s) (lj_size ob) (lj_bk ob) (lj_istep ob).

(* ode_exp.py:520-524 and 596-600: istep += 1, wgt = min(istep, 10) and the running average *)
Definition lj_avg (ob : ljobj) (bk : option avec) (max_tau_dt : F) : ljobj :=
  let istep := (lj_istep ob).+1 in
  let wgt : F := (minn istep 10)%:R in
  LjObj (lj_hist ob) (1 / wgt * max_tau_dt + (wgt - 1) / wgt * lj_size ob) bk istep.

(* the end of both step routines: the convergence check and the new state *)
Definition lj_finish (ob : ljobj) (bk : option avec) (dt : F) (yt : vec)
    (r : avec * nat * bool * F) : result (ljobj * SR) :=
  let: (w, _, converged, max_tau_dt) := r in
  if ~~ converged then Raise RuntimeErrorExn
  else Ok (lj_avg ob bk max_tau_dt, mkres (lj_hist ob) dt (yt + usubmx w)).

(* ode_exp.py:472-526 _step_epi_re.  An exception keeps no trace here (the driver aborts). *)
Definition step_epi_re (sys : odesys F KW n) (ob : ljobj) (dt : F) (kw : KW) : result (ljobj * SR) :=
  let h := lj_hist ob in
  yt <- hist_y h 0;;
  let J := os_fjac sys (Some kw) (h_t h) yt in
  let fyt := jl_frhs J in
  let fytt := jl_fdt J in
  let av := build_a_tilde 2 (jl_op J) dt [:: 0; dt *: fyt; dt ^+ 2 *: fytt] in
  let: (shift, scale, bk) :=
    if lp_a o is Some a then (dt * a / 2%:R, `|dt * a / 4%:R|, lj_bk ob)
    else let: (sh, sc, _, b) := leja_shift_scale (lo_mv av.1) leja_max_power_iter (lj_bk ob)
                                  (lp_rnd o) (lp_eig_scale o) in (sh, sc, Some b) in
  r <- real_leja_expmv_substep av.1 (11%:R / 10%:R * lj_size ob) av.2 (lp_x o) shift scale
         (lp_tol o) (lp_substep o);;
  lj_finish ob bk dt yt r.

(* ode_exp.py:528-602 _step_epi_im, order 2 or 3 *)
Definition step_epi_im (sys : odesys F KW n) (ob : ljobj) (dt : F) (kw : KW) (order : nat)
  : result (ljobj * SR) :=
  let h := lj_hist ob in
  yt <- hist_y h 0;;
  let J := os_fjac sys (Some kw) (h_t h) yt in
  let fyt := jl_frhs J in
  let fytt := jl_fdt J in
  vb <- (if order == 2%N then Ok [:: 0; dt *: fyt; dt ^+ 2 *: fytt]
         else if order == 3%N then
           yp <- hist_y h 1;;
           tp <- hist_tm h 1;;
           rn <- remf sys h tp yp fyt (jl_op J) fytt;;
           Ok [:: 0; dt *: fyt; (dt * (2%:R / 3%:R)) *: rn + dt ^+ 2 *: fytt]
         else Raise NotImplementedError);;
  let av := build_a_tilde 2 (jl_op J) dt vb in
  let: (la, bk) :=
    if lp_a o is Some a then (a * dt, lj_bk ob)
    else let: (_, _, max_eig, b) := leja_shift_scale (lo_mv av.1) leja_max_power_iter (lj_bk ob)
                                  (lp_rnd o) (lp_eig_scale o) in (- `|max_eig|, Some b) in
  let lc := if lp_c o is Some c then c * dt else 0 in
  g <- gen_leja_conjugate (lp_n o) la 0 lc;;
  let: (x, n_leja_real, scale, shift) := g in
  r <- complex_conj_leja_expmv_substep av.1 (11%:R / 10%:R * lj_size ob) av.2 x n_leja_real shift scale
         (lp_tol o) (lp_substep o) (lp_nzeros o);;
  lj_finish ob bk dt yt r.

(* ode_exp.py:604-619 step; the default dictionary kw0 is empty *)
Variable kw0 : KW.
Definition lj_step (sys : odesys F KW n) (ob : ljobj) (dt : F) (kw : option KW) : result (ljobj * SR) :=
  r <- leja_step_routine (hist_has_prev (lj_hist ob)) (lp_method o);;
  match r with
  | R_epi_re => step_epi_re sys ob dt (odflt kw0 kw)
  | R_epi_im k => step_epi_im sys ob dt (odflt kw0 kw) k
  | _ => Raise NotImplementedError
  end.
End Integrator.
End Leja.
