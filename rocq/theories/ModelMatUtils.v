(* ModelMatUtils.v : the operators and the Arnoldi process of src/mat_utils.rs, in exact arithmetic.
   Conventions as in ModelRust.v (a panic is RustPanic, non-finite values ZeroDivisionExn). *)
From mathcomp Require Import all_ssreflect all_algebra.
From Verif Require Import ModelHist MxBase ModelOps ModelPhi ModelKrylov ModelInt ModelRust.
Set Implicit Arguments.
Unset Strict Implicit.
Unset Printing Implicit Defensive.
Import Order.TTheory GRing.Theory Num.Theory.
Local Open Scope ring_scope.

Section MatUtils.
Variable F : rcfType.
Variable n : nat.
Notation vec := 'cV[F]_n.

(* mat_utils.rs:139-149, 182-194 JacobianRhsLinOp: the two cached matrices; None is their initial value, two
   zero matrices of dim rows and dim columns *)
Definition jr_cache := option (vec * vec).
(* mat_utils.rs:156 the norm of the cached x *)
Definition jr_norm (c : jr_cache) : F := if c is Some (x, _) then norm1 x else 0.
(* mat_utils.rs:155-180 apply_linop_to_vec: new cache and value.  While the cache is None the norm of x
   is 0, eps is 0 and the dim x dim cache is subtracted from a column: a panic unless both are 1 x 1 *)
Definition jr_apply (frhs : F -> vec -> vec) (dim : nat) (cache : jr_cache) (t : F) (x w : vec) (s : option F)
  : jr_cache * result vec :=
  let x_norm_l1 := norm1 x in
  let cache' := if x_norm_l1 == jr_norm cache then cache else Some (x, frhs t x) in
  let eps := fd_eps0 F * x_norm_l1 in
  (cache',
   match cache' with
   | None => if (n == 1%N) && (dim == 1%N) then Raise ZeroDivisionExn else Raise RustPanic
   | Some (_, fx_tmp) =>
       if eps == 0 then Raise ZeroDivisionExn else
       let ieps := 1 / eps in
       let x_pert := x + eps *: w in
       let scaler := odflt 1 s in
       Ok (ieps *: (scaler *: (frhs t x_pert - fx_tmp)))
   end).
(* a sequence of calls (t, x, w, s) on one operator *)
Definition jr_call := (F * vec * vec * option F)%type.
Fixpoint jr_run frhs dim (cache : jr_cache) (calls : seq jr_call) : seq (result vec) :=
  if calls is (t, x, w, s) :: calls' then
    let: (cache', out) := jr_apply frhs dim cache t x w s in out :: jr_run frhs dim cache' calls'
  else [::].

(* mat_utils.rs:196-221 JacobianMatLinOp and 236-246 MatrixLinOp: the variants over matrices *)
Definition matlop_apply (a : 'M[F]_n) (t : F) (x w : vec) (s : option F) : vec := odflt 1 s *: (a *m w).
Definition fmatlop_apply (a : F -> vec -> 'M[F]_n) (t : F) (x w : vec) (s : option F) : vec :=
  odflt 1 s *: (a t x *m w).

(* mat_utils.rs:415-424 the modified Gram-Schmidt loop over the vectors built so far *)
Fixpoint mgs (q : seq vec) (qv : vec) : seq F * vec :=
  if q is qci :: q' then
    let ht := dotv qv qci in
    let: (h, r) := mgs q' (qv - ht *: qci) in (ht :: h, r)
  else ([::], qv).
(* mat_utils.rs:403 breakdown tol 1e-14 *)
Definition lo_tol : F := (10%:R ^+ 14)^-1.
(* mat_utils.rs:388-436 arnoldi_inner_lo: inl is Err(h), inr is Ok((h, qv)); v0 is the vector b *)
Definition arn_inner_lo (a_lo : F -> vec -> vec -> option F -> vec) (t a_lo_scale : F) (v0 : vec)
    (q : seq vec) (k N : nat) : (seq F) + (seq F * vec) :=
  let qv := a_lo t v0 (nth 0 q k) (Some a_lo_scale) in
  let: (h, qv) := mgs (take k.+1 q) qv in
  let norm_v := norm2 qv in
  let more := (k.+1 < N)%N && (lo_tol <= norm_v) in
  let h' := if more then rcons h norm_v else h in
  let qv' := if more then (1 / norm_v) *: qv else qv in
  if norm_v < lo_tol then inl h' else inr (h', qv').
(* mat_utils.rs:334-357 the loop: vectors, columns and breakdown_n (None is -1) *)
Fixpoint arn_lo_loop a_lo t a_lo_scale v0 N (todo k : nat) (vs : seq vec) (hs : seq (seq F))
  : seq vec * seq (seq F) * option nat :=
  if todo is todo'.+1 then
    match arn_inner_lo a_lo t a_lo_scale v0 vs k N with
    | inr (hk, qk) => arn_lo_loop a_lo t a_lo_scale v0 N todo' k.+1
                        (if (k.+1 < N)%N then rcons vs qk else vs) (rcons hs hk)
    | inl hk => (vs, rcons hs hk, Some k)
    end
  else (vs, hs, None).
(* mat_utils.rs:322-385 arnoldi_lo; h_len is the length of the last column, entries outside an
   h_len x hs.len() matrix make try_new_from_triplets fail; then the three assertions *)
Definition arnoldi_lo a_lo (t a_lo_scale : F) (b : vec) (N : nat) : result (seq vec * seq (seq F) * option nat) :=
  if norm2 b == 0 then (if N is 0 then Raise RustPanic else Raise ZeroDivisionExn) else
  let: (vs, hs, bk) := arn_lo_loop a_lo t a_lo_scale b N N 0 [:: (1 / norm2 b) *: b] [::] in
  let h_len := size (last [::] hs) in
  if has (fun h => (h_len < size h)%N) hs then Raise RustPanic
  else if ~~ (0 < h_len)%N || ~~ (0 < size hs)%N || (h_len != size hs) then Raise RustPanic
  else Ok (vs, hs, bk).
End MatUtils.
