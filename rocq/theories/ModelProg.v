(* ModelProg.v : the example/utility modules: ormatex_py/ode_utils.py and
   ormatex_py/progression/{bateman_sys,lotka_volterra,bateman_nonlin_sys,species_source_sink,
   advection_diffusion_1d,element_line_pp_nodal}.py.  Definitions only; exact real arithmetic,
   decimal literals are the exact decimals. *)
From Coq Require Import Reals.
From mathcomp Require Import all_ssreflect all_algebra.
From Verif Require Import Rstruct ModelHist ModelOps ModelInt.
Set Implicit Arguments.
Unset Strict Implicit.
Unset Printing Implicit Defensive.
Import Order.TTheory GRing.Theory Num.Theory.
Local Open Scope ring_scope.

(* ================================================================== *)
(* bateman_sys.py:42-93 gen_bateman_matrix *)
Section Bateman.
Variable F : rcfType.
Variable S : eqType.           (* species names *)
Variable none : S.             (* the string 'none' *)

(* a library value: ('child', lambda), or a tuple of such pairs *)
Inductive lib_entry := Single (child : S) (lam : F) | Branches (bs : seq (S * F)).
(* a python dict with distinct keys, as an association list *)
Definition decay_lib := seq (S * lib_entry).
Fixpoint lib_get (lib : decay_lib) (k : S) : option lib_entry :=
  if lib is (k', v) :: rest then (if k' == k then Some v else lib_get rest k) else None.

(* keydict = dict([(k, i) for i, k in enumerate(keymap)]): the last position wins *)
Definition keydict (keymap : seq S) (k : S) : option nat :=
  if k \in keymap then Some ((size keymap).-1 - index k (rev keymap))%N else None.

(* bat_mat[i,j] += x on an array of floats *)
Definition arr2 := nat -> nat -> F.
Definition add_at (M : arr2) (i j : nat) (x : F) : arr2 :=
  fun a b => if (a == i) && (b == j) then M a b + x else M a b.

(* the body of the innermost loop (76-84, and 87-92 for a single pair) *)
Definition do_pair (keymap : seq S) (i : nat) (M : arr2) (c : S) (lam : F) : result arr2 :=
  if c == none then Ok (add_at M i i (- lam))
  else if keydict keymap c is Some dest then Ok (add_at (add_at M dest i lam) i i (- lam))
  else Raise KeyErrorExn.
Fixpoint do_pairs (keymap : seq S) (i : nat) (M : arr2) (bs : seq (S * F)) : result arr2 :=
  if bs is (c, lam) :: rest then M' <- do_pair keymap i M c lam;; do_pairs keymap i M' rest
  else Ok M.
(* loop over the species; bateman_lib[key][0] raises IndexError on an empty tuple *)
Definition do_key (keymap : seq S) (lib : decay_lib) (i : nat) (key : S) (M : arr2) : result arr2 :=
  match lib_get lib key with
  | None => Raise KeyErrorExn
  | Some (Branches [::]) => Raise IndexErrorExn
  | Some (Branches bs) => do_pairs keymap i M bs
  | Some (Single c lam) => do_pair keymap i M c lam
  end.
Fixpoint do_keys (keymap : seq S) (lib : decay_lib) (i : nat) (ks : seq S) (M : arr2) : result arr2 :=
  if ks is k :: rest then M' <- do_key keymap lib i k M;; do_keys keymap lib i.+1 rest M'
  else Ok M.
Definition gen_bateman_matrix (keymap : seq S) (lib : decay_lib) : result 'M[F]_(size keymap) :=
  M <- do_keys keymap lib 0 keymap (fun _ _ => 0);;
  Ok (\matrix_(i, j) M i j).
(* bateman_sys.py:96-116 gen_transmute_matrix *)
Definition gen_transmute_matrix (keymap : seq S) (lib : decay_lib) (phi : F) : result 'M[F]_(size keymap) :=
  M <- gen_bateman_matrix keymap lib;; Ok (- phi *: M).
End Bateman.
Arguments Single {F S}.
Arguments Branches {F S}.

(* ================================================================== *)
(* bateman_sys.py:119-173 analytic_bateman_single_parent at one time t; column n-1 of the result
   is [an_species n].  np.allclose(a,b): |a-b| <= 1e-8 + 1e-5 |b| entrywise. *)
Section Analytic.
Variable F : rcfType.
Variable ex : F -> F.     (* np.exp *)
Variable ns : nat.
Variable batmat : 'M[F]_ns.
Definition allclose1 (a b : F) : bool := `|a - b| <= 10%:R ^- 8 + 10%:R ^- 5 * `|b|.
Definition entry (i j : nat) : F :=
  match insub i, insub j with Some i, Some j => batmat i j | _, _ => 0 end.
Definition an_assert : bool := all (fun i => allclose1 (entry i.+1 i) (- 1 * entry i i)) (iota 0 ns.-1).
Definition lmbd (i : nat) : F := - 1 * entry i i.
(* 160-163 *)
Definition lmbd_prod (n : nat) : F := foldl (fun acc i => acc * lmbd i) 1 (iota 0 n.-1).
(* 166-170 *)
Definition prod_l (n i : nat) : F :=
  foldl (fun acc j => if j == i then acc else acc * (lmbd j - lmbd i)) 1 (iota 0 n).
(* 164-171 *)
Definition sum_k (n : nat) (t : F) : F :=
  foldl (fun acc i => acc + ex (- lmbd i * t) / prod_l n i) 0 (iota 0 n).
Definition an_species (n0 : F) (n : nat) (t : F) : F := n0 * lmbd_prod n * sum_k n t.
(* the whole row N[t, :] *)
Definition analytic_bateman (n0 t : F) : result 'cV[F]_ns :=
  if an_assert then Ok (\col_i an_species n0 i.+1 t) else Raise AssertionError.
End Analytic.

(* ================================================================== *)
(* lotka_volterra.py:26-60 LotkaVolterra, 62-112 LotkaVolterraNonauto.  Two-component vectors. *)
Section LV.
Variable F : rcfType.
Variable KW : Type.
Variables alpha beta delta gamma : F.
Definition vec2 (a b : F) : 'cV[F]_2 := \col_i (if i == 0%N :> nat then a else b).
Definition mat2 (a b c d : F) : 'M[F]_2 :=
  \matrix_(i, j) (if i == 0%N :> nat then (if j == 0%N :> nat then a else b) else (if j == 0%N :> nat then c else d)).
Definition x0 (x : 'cV[F]_2) : F := x ord0 0.
Definition x1 (x : 'cV[F]_2) : F := x (lift ord0 ord0) 0.

(* 40-43 *)
Definition lv_frhs : option KW -> rhs_fun F 2 := fun _ _ x =>
  vec2 (alpha * x0 x - beta * x0 x * x1 x) (delta * x0 x * x1 x - gamma * x1 x).
(* 47-53; CustomJacLinOp is given f_dt, so its eps is not used *)
Definition lv_fjac : option KW -> F -> 'cV[F]_2 -> jaclop F 2 := fun kw t x =>
  CustomJacLinOp t x (lv_frhs kw)
    (mat2 (alpha - beta * x1 x) (- beta * x0 x) (delta * x1 x) (delta * x0 x - gamma))
    (Some 0) 1.
(* 57-62 *)
Definition lv_fl (_ : F) (_ : 'cV[F]_2) : linop F 2 :=
  MatrixLinOp (mat2 (alpha - beta * 2%:R) 0 0 (- gamma)).
Definition lv_sys : splitsys F KW 2 := SplitSys (OdeSys lv_frhs lv_fjac) lv_fl.

(* non-autonomous variant; hunt and hunt_dt are f_pred_hunt and f_pred_hunt_dt *)
Variables hunt hunt_dt : F -> F.
Definition lvn_frhs : option KW -> rhs_fun F 2 := fun _ t x =>
  vec2 (alpha * x0 x - beta * x0 x * x1 x) (delta * x0 x * x1 x - gamma * x1 x - hunt t * x1 x).
Definition lvn_fjac : option KW -> F -> 'cV[F]_2 -> jaclop F 2 := fun kw t x =>
  CustomJacLinOp t x (lvn_frhs kw)
    (mat2 (alpha - beta * x1 x) (- beta * x0 x) (delta * x1 x) (delta * x0 x - gamma - hunt t))
    (Some (vec2 0 (- hunt_dt t * x1 x))) 1.
Definition lvn_sys : splitsys F KW 2 := SplitSys (OdeSys lvn_frhs lvn_fjac) lv_fl.
End LV.
(* lotka_volterra.py:64-71 *)
Definition pred_hunt_of (F : rcfType) (sinf : F -> F) (t : F) : F :=
  (4%:R / 10%:R) * (sinf (t * (2%:R / 10%:R)) + 1).
Definition pred_hunt_dt_of (F : rcfType) (cosf : F -> F) (t : F) : F :=
  (4%:R / 10%:R) * (2%:R / 10%:R) * cosf (t * (2%:R / 10%:R)).
Definition f_pred_hunt : R -> R := @pred_hunt_of R_rcfType sin.
Definition f_pred_hunt_dt : R -> R := @pred_hunt_dt_of R_rcfType cos.

(* ================================================================== *)
(* bateman_nonlin_sys.py:88-100 srcf_xe_av, with the mass-transfer rate s(u_a,u_g) as parameter:
   src = zeros; src[i_a] = s; src[i_g] = -s *)
Section Transfer.
Variable F : rcfType.
Variable n : nat.
Definition set_at (v : 'cV[F]_n) (i : 'I_n) (x : F) : 'cV[F]_n := \col_j (if j == i then x else v j 0).
Definition srcf_xe_av (rate : F -> F -> F) (u : 'cV[F]_n) (i_a i_g : 'I_n) : 'cV[F]_n :=
  let s := rate (u i_a 0) (u i_g 0) in set_at (set_at 0 i_a s) i_g (- s).
(* bateman_nonlin_sys.py:125-131 NonlinearBateman._frhs *)
Definition nonlin_bateman_rhs (rate : F -> F -> F) (i_a i_g : 'I_n) (bat trans : 'M[F]_n)
    (fis : 'cV[F]_n) (n_phi : F) (u : 'cV[F]_n) : 'cV[F]_n :=
  bat *m u + n_phi *: (trans *m u) + n_phi *: fis + srcf_xe_av rate u i_a i_g.
(* species_source_sink.py:14-29 *)
Definition mxf_liq_vapor_lin (k k_g k_a a u_a u_g : F) : F := k * a * (k_g * u_g - k_a * u_a).
End Transfer.
(* species_source_sink.py:88-115 bubble_surface_area and 49-84 mxf_liq_vapor_bubble_ig; pow is
   x ** y and pi is jnp.pi; rgas, P and the other defaults are arguments *)
Section Bubble.
Variable F : rcfType.
Variables (pow : F -> F -> F) (pi : F).
Definition bubble_surface_area_of (rgas u_g cvol alpha_g nb a_k T P : F) : F :=
  let vg_carrier := cvol * alpha_g in
  let vg_1cb := vg_carrier / nb in
  let patm := P * 10%:R ^- 6 in
  let vg := (cvol * u_g / patm) * rgas * T in
  let vg_1b := a_k * vg / nb in
  let vg_tot := vg_1cb + vg_1b in
  let vg_radius := pow ((3%:R / 4%:R) * vg_tot / pi) (1 / 3%:R) in
  nb * 4%:R * pi * pow vg_radius 2%:R.
Definition mxf_liq_vapor_bubble_ig_of (rgas a_k P u_a u_g cvol alpha_g k h nb T : F) : F :=
  let a_b := bubble_surface_area_of rgas u_g cvol alpha_g nb a_k T P in
  k * a_b * ((u_g / alpha_g) * h * rgas * T - u_a / (1 - alpha_g)).
End Bubble.
(* real powers of nonnegative numbers: 0 ** y = 0 for y > 0 *)
Definition rpow (x y : R) : R := if Req_EM_T x 0%R then 0%R else Rpower x y.
Definition bubble_surface_area := @bubble_surface_area_of R_rcfType rpow PI.
Definition mxf_liq_vapor_bubble_ig := @mxf_liq_vapor_bubble_ig_of R_rcfType rpow PI.

(* ================================================================== *)
(* ode_utils.py:22-27.  A two-dimensional array: shape and entries (meaningful inside the shape);
   a one-dimensional array: a sequence.  reshape(..., order='F') reads and writes the entries in
   column-major index order; the shape (-1, n) needs n > 0 dividing the length (ValueError
   otherwise, TypeErrorExn here). *)
Section Stack.
Variable T : Type.
Variable dflt : T.
Record array2 := Array2 { rows : nat; cols : nat; at2 : nat -> nat -> T }.
Definition stack_u (u : seq T) (n : nat) : result array2 :=
  if (0 < n)%N && (n %| size u)%N then
    let r := (size u %/ n)%N in
    Ok (Array2 r n (fun i j => nth dflt u (i + j * r)%N))
  else Raise TypeErrorExn.
Definition flatten_u (U : array2) : seq T :=
  mkseq (fun k => at2 U (k %% rows U)%N (k %/ rows U)%N) (rows U * cols U)%N.
End Stack.

(* ================================================================== *)
(* advection_diffusion_1d.py:302-305 torus_distance; x % 1 is x - floor(x) *)
Definition torus_distance_of (F : rcfType) (floor : F -> F) (x xp : F) : F :=
  let mod1 z := z - floor z in
  let dx := `|mod1 x - mod1 xp| in if 1 / 2%:R < dx then 1 - dx else dx.
Definition torus_distance : R -> R -> R := @torus_distance_of R_rcfType (fun x => IZR (Int_part x)).

(* ================================================================== *)
(* element_line_pp_nodal.py:14-34 GLL_quad: the table, the map to [0,1] and the swap of the second
   and last points.  Result: list of (point, weight); KeyError for other sizes. *)
Section GLL.
Variable F : rcfType.
Definition gll_table (k : nat) : option (seq F * seq F) :=
  match k with
  | 2%N => Some ([:: -1; 1], [:: 1; 1])
  | 3%N => Some ([:: -1; 0; 1], [:: 1 / 3%:R; 4%:R / 3%:R; 1 / 3%:R])
  | 4%N => Some ([:: -1; - 1 / Num.sqrt 5%:R; 1 / Num.sqrt 5%:R; 1],
                 [:: 1 / 6%:R; 5%:R / 6%:R; 5%:R / 6%:R; 1 / 6%:R])
  | 5%N => Some ([:: -1; - Num.sqrt (3%:R / 7%:R); 0; Num.sqrt (3%:R / 7%:R); 1],
                 [:: 1 / 10%:R; 49%:R / 90%:R; 32%:R / 45%:R; 49%:R / 90%:R; 1 / 10%:R])
  | _ => None
  end.
Definition swap_1_last (l : seq F) : seq F :=
  mkseq (fun i => if i == 1%N then nth 0 l (size l).-1
                  else if i == (size l).-1 then nth 0 l 1 else nth 0 l i) (size l).
Definition GLL_quad (k : nat) : result (seq F * seq F) :=
  if gll_table k is Some (X, W) then
    Ok (swap_1_last [seq (1 + x) / 2%:R | x <- X], swap_1_last [seq w / 2%:R | w <- W])
  else Raise KeyErrorExn.
End GLL.

(* ================================================================== *)
(* advection_diffusion_1d.py:236-275 AffineLinearSEM with assembled A, Ml, b (oracle: skfem) and
   the set of Dirichlet nodes *)
Section SEM.
Variable F : rcfType.
Variable n : nat.
Variables (A : 'M[F]_n) (Ml b : 'cV[F]_n) (dbd : pred 'I_n).
Definition sem_frhs (u : 'cV[F]_n) : 'cV[F]_n :=
  \col_i (if dbd i then 0 else (b i 0 - (A *m u) i 0) / Ml i 0).
Definition sem_fl : linop F n := MatrixLinOp (\matrix_(i, j) (- A i j / Ml i 0)).
End SEM.
