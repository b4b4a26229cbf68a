(* ModelLejaPts.v : gen_leja_fast and gen_complex_conj_leja_fast (matexp_leja.py:127-197), in exact
   arithmetic.  Definitions only.  The arrays of length n are sequences of length n that start as
   zeros, as np.zeros does. *)
From mathcomp Require Import all_ssreflect all_algebra.
From mathcomp Require Import complex.
From Verif Require Import ModelHist ModelLeja.
Set Implicit Arguments.
Unset Strict Implicit.
Unset Printing Implicit Defensive.
Import Order.TTheory GRing.Theory Num.Theory.
Local Open Scope ring_scope.

Section Fast.
Variable F : realFieldType.
(* np.argmax(np.abs(zprod)): the first index of the largest absolute value *)
Definition max_seq (s : seq F) : F := foldr Num.max 0 s.
Definition argmax_abs (s : seq F) : nat :=
  let m := [seq `|z| | z <- s] in index (max_seq m) m.

(* zt, zs, zprod, index *)
Record lf_state := LfSt { lf_zt : seq F; lf_zs : seq F; lf_zp : seq F; lf_ix : seq (nat * nat) }.

(* matexp_leja.py:141-155; zprod[0] and zprod[1] multiply over the whole array zt, that is over
   its three points and its n - 3 zeros *)
Definition lf_init (a b : F) (n : nat) : lf_state :=
  let mid := (a + b) / 2%:R in
  let zt := (if `|b| < `|a| then [:: a; b; mid] else [:: b; a; mid]) ++ nseq (n - 3) 0 in
  let zs := set_nth 0 (set_nth 0 (nseq n 0) 0 ((zt`_1 + zt`_2) / 2%:R)) 1 ((zt`_2 + zt`_0) / 2%:R) in
  let zp := set_nth 0 (set_nth 0 (nseq n 0) 0 (\prod_(z <- zt) (zs`_0 - z))) 1 (\prod_(z <- zt) (zs`_1 - z)) in
  let ix := set_nth (0, 0)%N (set_nth (0, 0)%N (nseq n (0, 0)%N) 0 (1, 2)%N) 1 (2, 0)%N in
  LfSt zt zs zp ix.

(* matexp_leja.py:156-168, one iteration of for i in range(3, n) *)
Definition lf_step (st : lf_state) (i : nat) : lf_state :=
  let maxi := argmax_abs (lf_zp st) in
  let zt := set_nth 0 (lf_zt st) i (lf_zs st)`_maxi in
  let ix := lf_ix st in
  let ix := set_nth (0, 0)%N ix i.-1 (i, (nth (0, 0)%N ix maxi).2) in
  let ix := set_nth (0, 0)%N ix maxi ((nth (0, 0)%N ix maxi).1, i) in
  let mid j := (zt`_(nth (0, 0)%N ix j).1 + zt`_(nth (0, 0)%N ix j).2) / 2%:R in
  let zs := set_nth 0 (set_nth 0 (lf_zs st) maxi (mid maxi)) i.-1 (mid i.-1) in
  let zp := set_nth 0 (set_nth 0 (lf_zp st) maxi (\prod_(z <- take i zt) (zs`_maxi - z)))
              i.-1 (\prod_(z <- take i zt) (zs`_i.-1 - z)) in
  let zp := [seq p.1 * (p.2 - zt`_i) | p <- zip zp zs] in
  LfSt zt zs zp ix.

(* matexp_leja.py:127-169; for n < 3 the assignment zt[0:3] = [...] raises *)
Definition gen_leja_fast (a b : F) (n : nat) : result (seq F) :=
  if (n < 3)%N then Raise ValueErrorExn
  else Ok (lf_zt (foldl lf_step (lf_init a b n) (iota 3 (n - 3)))).
End Fast.

(* matexp_leja.py:172-197 gen_complex_conj_leja_fast; the precision loss of complex64 is not
   modelled *)
Definition gen_complex_conj_leja_fast (F : rcfType) (beta : F) (n : nat) : result (seq F[i]) :=
  rbind (gen_leja_fast (- beta) beta (n * 2)) (fun leja_x =>
    let ev := every2 leja_x in
    let leja_tmp := take n (flatten [seq [:: Complex 0 y; Complex 0 (- y)] | y <- ev]) in
    Ok (take 1 (drop 2 leja_tmp) ++ take 2 leja_tmp ++ drop 4 leja_tmp)).
