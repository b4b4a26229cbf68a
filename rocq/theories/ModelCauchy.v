(* ModelCauchy.v : the rational (contour integral) matrix exponential of the Rust crate,
   src/matexp_cauchy.rs, with the helpers of src/mat_utils.rs it uses, in exact complex arithmetic. *)
From Coq Require Import Reals ZArith String.
From mathcomp Require Import all_ssreflect all_algebra.
From mathcomp Require Import complex.
From Verif Require Import Rstruct ModelHist ModelOps ModelInt ModelPade.
Set Implicit Arguments.
Unset Strict Implicit.
Unset Printing Implicit Defensive.
Import Order.TTheory GRing.Theory Num.Theory.
Local Open Scope ring_scope.

(* matexp_cauchy.rs:24-35 the fields of CauchyExpm; the n x 1 matrices are sequences *)
Record cauchy : Type := Cauchy { c_theta : seq R[i]; c_alpha : seq R[i]; c_alpha0 : R[i] }.
(* matexp_cauchy.rs:38-47 CauchyExpm::new *)
Definition cauchy_new (theta alpha : seq R[i]) (a0 : R[i]) : result cauchy :=
  if size theta != size alpha then Raise RustPanic else Ok (Cauchy theta alpha a0).

(* mat_utils.rs:76-83 real_mat *)
Definition real_mat n m (a : 'M[R[i]]_(n, m)) : 'M[R]_(n, m) := map_mx (@complex.Re R) a.
(* mat_utils.rs:85-93 complex_mat_scale *)
Definition complex_mat_scale n m (a : 'M[R]_(n, m)) (dt : R) : 'M[R[i]]_(n, m) :=
  map_mx (fun x : R => (x%:C * dt%:C)%C) a.
(* mat_utils.rs:95-105 mat_pow *)
Definition mat_pow n (a : 'M[R]_n) (p : nat) : 'M[R]_n := iter p (fun ap_out => a *m ap_out) 1%:M.

(* rayon: (0..s).into_par_iter().map(f).reduce_with(|a, b| a + b): the range is split in any way and
   the parts are combined pairwise, in order; the tree is the schedule of one execution *)
Inductive par_tree : Type := PLeaf of nat | PNode of par_tree & par_tree.
Fixpoint par_leaves (t : par_tree) : seq nat :=
  match t with PLeaf k => [:: k] | PNode l r => par_leaves l ++ par_leaves r end.
Fixpoint par_reduce (V : zmodType) (f : nat -> V) (t : par_tree) : V :=
  match t with PLeaf k => f k | PNode l r => par_reduce f l + par_reduce f r end.
(* reduce_with(..).unwrap(): None, hence a panic, on an empty range *)
Definition reduce_with (V : zmodType) (s : nat) (sch : par_tree) (f : nat -> V) : result V :=
  if s is 0 then Raise RustPanic else Ok (par_reduce f sch).

Section Eval.
Variables (c : cauchy) (sch : par_tree).
Notation s := (size (c_theta c)).
Notation theta k := (nth 0 (c_theta c) k).
Notation alpha k := (nth 0 (c_alpha c) k).

(* matexp_cauchy.rs:53-83 matexp_dense_cauchy.  The QR inverse is the exact one; on a singular
   matrix the code returns non-finite numbers, the model the matrix itself: the theorems exclude it *)
Definition matexp_dense_cauchy n (a : 'M[R]_n) (dt : R) : result 'M[R]_n :=
  let ident : 'M[R[i]]_n := 1%:M in
  let a_dt := complex_mat_scale a dt in
  exp_a <- reduce_with s sch (fun k =>
             let tmp_a := a_dt - theta k *: ident in
             alpha k *: invmx tmp_a);;
  let rexp_a := 2%:R *: real_mat exp_a in
  Ok (rexp_a + complex.Re (c_alpha0 c) *: real_mat ident).

(* matexp_cauchy.rs:85-102 _phi_ext *)
Definition cauchy_phi_ext n (a bu : 'M[R]_n) (dt : R) : result 'M[R]_n :=
  let b_ext : 'M[R]_(n + n) := block_mx a bu 0 0 in
  phi_a_ext <- matexp_dense_cauchy b_ext dt;;
  Ok (ursubmx phi_a_ext).

(* matexp_cauchy.rs:104-121 phik_dense_cauchy; assert!(k <= 1) *)
Definition phik_dense_cauchy n (a : 'M[R]_n) (dt : R) (k : nat) : result 'M[R]_n :=
  if ~~ (k <= 1)%N then Raise RustPanic
  else match k with
       | 0 => matexp_dense_cauchy a dt
       | 1 => let tmp_zn := mat_pow a k in
              let tmp_znp := mat_pow a k.-1 in
              cauchy_phi_ext tmp_zn tmp_znp dt
       | _ => Raise RustPanic
       end.

(* matexp_cauchy.rs:123-159 matexp_dense_apply_cauchy; the LU solve is the exact solution *)
Definition matexp_dense_apply_cauchy n m (a : 'M[R]_n) (dt : R) (v0 : 'M[R]_(n, m)) : result 'M[R]_(n, m) :=
  let ident : 'M[R[i]]_n := 1%:M in
  let v0_complex := complex_mat_scale v0 1 in
  let a_dt := complex_mat_scale a dt in
  out_v <- reduce_with s sch (fun k =>
             let tmp_a := a_dt - theta k *: ident in
             let tmp_b := alpha k *: v0_complex in
             invmx tmp_a *m tmp_b);;
  let r_v := 2%:R *: real_mat out_v in
  Ok (r_v + complex.Re (c_alpha0 c) *: v0).

(* matexp_cauchy.rs:161-202 phik_dense_apply_cauchy, also 205-209 phik_apply *)
Definition phik_dense_apply_cauchy n m (a : 'M[R]_n) (dt : R) (v0 : 'M[R]_(n, m)) (l : nat)
  : result 'M[R]_(n, m) :=
  let ident : 'M[R[i]]_n := 1%:M in
  let v0_complex := complex_mat_scale v0 1 in
  let a_dt := complex_mat_scale a dt in
  out_v <- reduce_with s sch (fun k =>
             let zk := theta k ^+ l in
             let tmp_a := zk *: (a_dt - theta k *: ident) in
             let tmp_b := alpha k *: v0_complex in
             invmx tmp_a *m tmp_b);;
  let r_v := 2%:R *: real_mat out_v in
  Ok (r_v + complex.Re (c_alpha0 c) *: v0).
End Eval.

(* a decimal literal of the source: m * 10^-e, taken at its exact decimal value *)
Definition dec (m : Z) (e : nat) : R := (Rdiv (IZR m) (pow (IZR 10) e)).

(* matexp_cauchy.rs:222-229 the poles, 231-238 the weights, 243 the offset of CRAM 16 *)
Definition cram_theta : seq R[i] :=
  [:: (dec (-10843917078696988026) 18 +i* dec 19277446167181652284 18)%C;
      (dec (-52649713434426468895) 19 +i* dec 16220221473167927305 18)%C;
      (dec 59481522689511774808 19 +i* dec 35874573620183222829 19)%C;
      (dec 35091036084149180974 19 +i* dec 84361989858843750826 19)%C;
      (dec 64161776990994341923 19 +i* dec 11941223933701386874 19)%C;
      (dec 14193758971856659786 19 +i* dec 10925363484496722585 18)%C;
      (dec 49931747377179963991 19 +i* dec 59968817136039422260 19)%C;
      (dec (-14139284624888862114) 19 +i* dec 13497725698892745389 18)%C].
Definition cram_alpha : seq R[i] :=
  [:: (dec (-5090152186522491565) 25 +i* dec (-2422001765285228797) 23)%C;
      (dec 21151742182466030907 23 +i* dec 43892969647380673918 22)%C;
      (dec 11339775178483930527 17 +i* dec 1019472170421585645 16)%C;
      (dec 15059585270023467528 18 +i* dec (-57514052776421819979) 19)%C;
      (dec (-64500878025539646595) 18 +i* dec (-22459440762652096056) 17)%C;
      (dec (-14793007113557999718) 19 +i* dec 17686588323782937906 19)%C;
      (dec (-62518392463207918892) 18 +i* dec (-1119039109428322848) 17)%C;
      (dec 41023136835410021273 21 +i* dec (-15743466173455468191) 20)%C].
Definition cram_alpha0 : R[i] := (dec 21248537104952237488 35 +i* 0)%C.

(* matexp_cauchy.rs:215-245 gen_cram_expm *)
Definition gen_cram_expm (order : nat) : result cauchy :=
  if order == 16%N then cauchy_new cram_theta cram_alpha cram_alpha0 else Raise RustPanic.

(* num_complex exp *)
Definition cexp (z : R[i]) : R[i] :=
  ((exp (complex.Re z) * cos (complex.Im z))%R +i* (exp (complex.Re z) * sin (complex.Im z))%R)%C.

(* matexp_cauchy.rs:257-261 the angles: i ranges over 1, 3, .., below order *)
Definition parabolic_angles (order : nat) : seq R[i] :=
  [seq ((PI * (i%:R) / order%:R)%R)%:C%C | i <- iota 1 order.-1 & odd i].
(* matexp_cauchy.rs:264-267, 268-270, 271-272 *)
Definition parabolic_phi (order : nat) (th : R[i]) : R[i] :=
  (order%:R : R)%:C%C *
  ((dec 1309 4)%:C%C - (dec 1194 4)%:C%C * th ^+ 2 + (dec 25 2)%:C%C * th * 'i%C).
Definition parabolic_phi_prime (order : nat) (th : R[i]) : R[i] :=
  (order%:R : R)%:C%C * ((- (2%:R * dec 1194 4))%:C%C * th + (dec 25 2)%:C%C * 'i%C).
Definition parabolic_alpha (order : nat) (th : R[i]) : R[i] :=
  ('i%C / (order%:R : R)%:C%C) * (cexp (parabolic_phi order th) * parabolic_phi_prime order th).
(* matexp_cauchy.rs:247-279 gen_parabolic_expm; assert!(order % 2 == 0) *)
Definition gen_parabolic_expm (order : nat) : result cauchy :=
  if odd order then Raise RustPanic
  else let theta := parabolic_angles order in
       cauchy_new [seq parabolic_phi order th | th <- theta] [seq parabolic_alpha order th | th <- theta] 0.

(* ormatex_rspy.rs:389-402 DensePhikvEvalRs::new and 404-414 eval: None is the Pade evaluator, which
   ignores the order *)
Definition dense_phikv_eval_new (method : string) (order : nat) : result (option cauchy) :=
  if (method =? "cram")%string || (method =? "cram_16")%string then
    c <- gen_cram_expm order;; Ok (Some c)
  else if (method =? "parabolic")%string then
    c <- gen_parabolic_expm order;; Ok (Some c)
  else Ok None.
Definition dense_phikv_eval (ev : option cauchy) (sch : par_tree) n (a : 'M[R]_n) (dt : R)
    (v0 : 'cV[R]_n) (k : nat) : result 'cV[R]_n :=
  match ev with
  | Some c => phik_dense_apply_cauchy c sch a dt v0 k
  | None => Ok (pade_phik_apply a dt v0 k)
  end.
