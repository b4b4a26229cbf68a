(* ProofsCram4.v : change of units in the CRAM table, in the reals of the standard library. *)
From Coq Require Import Reals ZArith List Lra Lia.
Import ListNotations.
From Verif Require Import ProofsCramZ ProofsCramR ProofsCram3.
Local Open Scope R_scope.
Lemma up_dec m e k : IZR m / 10 ^ e = IZR (m * 10 ^ Z.of_nat k) / 10 ^ (e + k).
Proof.
rewrite mult_IZR, <- pow_IZR, pow_add. field. split; apply pow_nonzero; lra.
Qed.
Lemma unit_term (C D A B : Z) x : (D <> 0)%Z ->
  let c := IZR C / 10 ^ 19 in let d := IZR D / 10 ^ 19 in
  let a := IZR A / 10 ^ 25 in let b := IZR B / 10 ^ 25 in
  0 < (x - c) * (x - c) + d * d /\
  2 * (a * (x - c) - b * d) / ((x - c) * (x - c) + d * d) =
  / 10 ^ 6 * (ev (Nk (C, D, (A, B))) (- x) / ev (Dk (C, D, (A, B))) (- x)).
Proof.
intros hD. pose proof (Dk_pos C D (A, B) (- x) hD) as h. cbn zeta. cbn [Nk Dk ev] in *.
rewrite !plus_IZR, !mult_IZR, !plus_IZR, !mult_IZR in *.
replace (IZR (10 ^ 38)) with (10 ^ 19 * 10 ^ 19) in * by (rewrite <- mult_IZR || (rewrite !pow_IZR, <- mult_IZR; reflexivity)).
replace (IZR (10 ^ 19)) with (10 ^ 19) in * by (rewrite pow_IZR; reflexivity).
replace (10 ^ 25) with (10 ^ 19 * 10 ^ 6) by ring.
assert (t0 : 0 < 10 ^ 19) by (apply pow_lt; lra). assert (s0 : 0 < 10 ^ 6) by (apply pow_lt; lra).
set (T := 10 ^ 19) in *. set (S := 10 ^ 6) in *. clearbody T S.
assert (e : (x - IZR C / T) * (x - IZR C / T) + IZR D / T * (IZR D / T) =
  (IZR C * IZR C + IZR D * IZR D + - x * (2 * IZR C * T + - x * (T * T + - x * 0))) / (T * T)) by (field; lra).
split.
  rewrite e. apply Rmult_lt_0_compat; [assumption|]. apply Rinv_0_lt_compat, Rmult_lt_0_compat; assumption.
rewrite e. set (X := _ + _ + _) in *. field. repeat split; lra.
Qed.
Lemma unit_dterm (C D A B : Z) : (D <> 0)%Z ->
  let c := IZR C / 10 ^ 19 in let d := IZR D / 10 ^ 19 in
  let a := IZR A / 10 ^ 25 in let b := IZR B / 10 ^ 25 in
  0 < c * c + d * d /\
  - (2 * (a * (c * c - d * d) + 2 * (b * c * d)) / ((c * c + d * d) * (c * c + d * d))) =
  / 10 ^ 6 * dterm (C, D, (A, B)).
Proof.
intros hD. pose proof (Dk_pos C D (A, B) 0 hD) as h. cbn zeta. unfold dterm.
cbn [Nk Dk ev pder padd] in *. unfold Rsqr.
rewrite !plus_IZR, !mult_IZR, !plus_IZR, !mult_IZR in *.
replace (IZR (10 ^ 38)) with (10 ^ 19 * 10 ^ 19) in * by (rewrite <- mult_IZR || (rewrite !pow_IZR, <- mult_IZR; reflexivity)).
replace (IZR (10 ^ 19)) with (10 ^ 19) in * by (rewrite pow_IZR; reflexivity).
replace (10 ^ 25) with (10 ^ 19 * 10 ^ 6) by ring.
assert (t0 : 0 < 10 ^ 19) by (apply pow_lt; lra). assert (s0 : 0 < 10 ^ 6) by (apply pow_lt; lra).
set (T := 10 ^ 19) in *. set (S := 10 ^ 6) in *. clearbody T S.
rewrite !Rmult_0_l, !Rplus_0_r in *.
assert (e : IZR C / T * (IZR C / T) + IZR D / T * (IZR D / T) = (IZR C * IZR C + IZR D * IZR D) / (T * T)) by (field; lra).
split.
  rewrite e. apply Rmult_lt_0_compat; [assumption|]. apply Rinv_0_lt_compat, Rmult_lt_0_compat; assumption.
rewrite e. field. repeat split; try lra.
Qed.
