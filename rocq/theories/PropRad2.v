(* PropRad2.v : C79, the equations of the two- and three-species examples. *)
From Coq Require Import Reals.
From mathcomp Require Import all_ssreflect all_algebra.
From mathcomp Require Import ring.
From Verif Require Import Rstruct ModelHist ModelOps ModelInt ModelProg ModelProg2 SpecProg ProofsProg PropProg ModelRad PropRad.
Set Implicit Arguments.
Unset Strict Implicit.
Unset Printing Implicit Defensive.
Import Order.TTheory GRing.Theory Num.Theory.
Local Open Scope ring_scope.

(* C79.  The equations of the examples at every free node.  Two species: the first decays into the second
   (0.003), the second decays (0.03), and evaporation 2 (max(c_2, 1e-16)^(2/3) + 1e-12) (c_2 - c_1) moves from the second
   to the first.  Three species: a chain with rates 1, 100, 0.01.  All are transported alike. *)
Theorem C79_examples N' (A : 'M[R]_N'.+1) (Ml : 'cV[R]_N'.+1) (dbd : pred 'I_N'.+1) t :
  (exists B, gen_bateman_matrix 0%N [:: 1; 2]%N rad2_lib = Ok B /\ forall u k, ~~ dbd k ->
     let c (s : nat) : R := conc u k (inord s : 'I_2) in
     let tp (s : nat) : R := (\sum_j A k j * conc u j (inord s : 'I_2)) / Ml k 0 in
     let rhs (s : nat) : R := conc (rad_frhs A Ml dbd (B : 'M[R]_2) (@rad2_src N') t u) k (inord s : 'I_2) in
     let ev : R := 2%:R * (rpow (Num.max (c 1%N) ((10%:R : R) ^- 16)) (2%:R / 3%:R)%R + (10%:R : R) ^- 12) * (c 1%N - c 0%N) in
     rhs 0%N = - (3%:R / 10%:R ^+ 3) * c 0%N + ev - tp 0%N /\
     rhs 1%N = 3%:R / 10%:R ^+ 3 * c 0%N - 3%:R / 10%:R ^+ 2 * c 1%N - ev - tp 1%N) /\
  (exists B, gen_bateman_matrix 0%N [:: 1; 2; 3]%N rad3_lib = Ok B /\ forall u k, ~~ dbd k ->
     let c (s : nat) : R := conc u k (inord s : 'I_3) in
     let tp (s : nat) : R := (\sum_j A k j * conc u j (inord s : 'I_3)) / Ml k 0 in
     let rhs (s : nat) : R := conc (rad_frhs A Ml dbd (B : 'M[R]_3) (fun _ => 0) t u) k (inord s : 'I_3) in
     [/\ rhs 0%N = - c 0%N - tp 0%N, rhs 1%N = c 0%N - 100%:R * c 1%N - tp 1%N
       & rhs 2%N = 100%:R * c 1%N - 1 / 10%:R ^+ 2 * c 2%N - tp 2%N]).
Proof.
split.
- have [[_ h] _] := @C38_total R_rcfType nat_eqType 0%N [:: 1; 2]%N rad2_lib isT.
  have [|B hB] := h.
    by move=> k; rewrite !inE => /orP [] /eqP ->; split=> // b; rewrite /branches /= inE => /eqP ->; (by left) || (by right).
  exists B; split=> // u k hk c tp rhs ev.
  have eB := C38_entries 0%N (isT : uniq [:: 1; 2]%N) hB.
  have e0 : (inord 0 : 'I_2) = 0 by apply: val_inj; rewrite /= inordK.
  have e1 : (inord 1 : 'I_2) = 1 by apply: val_inj; rewrite /= inordK.
  have l1 : lift ord0 ord0 = inord 1 :> 'I_2 by apply: val_inj; rewrite /= inordK.
  have o0 : ord0 = inord 0 :> 'I_2 by apply: val_inj; rewrite /= inordK.
  have es : rad2_src (stack_mx u) k 0 = ev /\ rad2_src (stack_mx u) k 1 = - ev.
    rewrite /rad2_src /rad_transfer !mxE /= !add0r addr0 /mxf_liq_vapor_nonlin /mxf_liq_vapor_nonlin_of.
    by rewrite /ev /c /conc e0 e1 !mul1r.
  rewrite /rhs !C79_equations (negbTE hk) -/(tp 0%N) -/(tp 1%N) e0 e1 es.1 es.2.
  rewrite !big_ord_recl !big_ord0 !eB /= /rate_into /rate_total /branches /= !big_cons !big_nil /=.
  rewrite l1 o0 -/(c 0%N) -/(c 1%N); clearbody c tp ev.
  by move: ((10%:R ^+ 3)^-1) ((10%:R ^+ 2)^-1) => i3 i2; split; ring.
- have [[_ h] _] := @C38_total R_rcfType nat_eqType 0%N [:: 1; 2; 3]%N rad3_lib isT.
  have [|B hB] := h.
    by move=> k; rewrite !inE => /or3P [] /eqP ->; split=> // b; rewrite /branches /= inE => /eqP ->; (by left) || (by right).
  exists B; split=> // u k hk c tp rhs.
  have eB := C38_entries 0%N (isT : uniq [:: 1; 2; 3]%N) hB.
  have e0 : (inord 0 : 'I_3) = ord0 by apply: val_inj; rewrite /= inordK.
  have e1 : (inord 1 : 'I_3) = lift ord0 ord0 by apply: val_inj; rewrite /= inordK.
  have e2 : (inord 2 : 'I_3) = lift ord0 (lift ord0 ord0) by apply: val_inj; rewrite /= inordK.
  rewrite /rhs !C79_equations (negbTE hk) -/(tp 0%N) -/(tp 1%N) -/(tp 2%N) !mxE.
  rewrite !big_ord_recl !big_ord0 !eB e0 e1 e2 /= /rate_into /rate_total /branches /= !big_cons !big_nil /=.
  rewrite -e2 -e1 -e0 -/(c 0%N) -/(c 1%N) -/(c 2%N); clearbody c tp.
  by move: ((10%:R ^+ 2)^-1) => i2; split; ring.
Qed.
Print Assumptions C79_examples.
