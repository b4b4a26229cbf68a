(* PropTransfer2.v : C74, the nine equations of NonlinearBateman. *)
From Coq Require Import Reals.
From mathcomp Require Import all_ssreflect all_algebra.
From mathcomp Require Import ring.
From Verif Require Import Rstruct ModelHist ModelOps ModelInt ModelProg ModelProg2 SpecProg ProofsProg PropProg PropTransfer.
Set Implicit Arguments.
Unset Strict Implicit.
Unset Printing Implicit Defensive.
Import Order.TTheory GRing.Theory Num.Theory.
Local Open Scope ring_scope.

(* C74.  The right-hand side of NonlinearBateman, species by species: the three delayed neutron groups, the
   chain Te-135 -> I-135 -> Xe-135 -> Cs-135 in the liquid, xenon and caesium in the gas (where xenon decays into gaseous
   caesium and both are purified at rate ln 2), capture in both xenons, fission sources, and the transfer tr
   leaving the gas and entering the liquid. *)
Theorem C74_equations (n_phi tank_vol : option R) s t (u : 'cV[R]_9) :
  nbat_new n_phi tank_vol = Ok s ->
  let phi := (if n_phi is Some p then p else 10%:R ^+ 9)%R in
  let c k := u (inord k) 0 in
  let rhs k := nbat_frhs s t u (inord k) 0 in
  let lte := (ln 2 / 19%:R)%R in
  let li := (ln 2 / (657%:R / 10%:R ^+ 2 * 3600%:R))%R in
  let lxe := (ln 2 / (914%:R / 10%:R ^+ 2 * 3600%:R))%R in
  let lcs := (ln 2 / (133%:R * 10%:R ^+ 4 * 365%:R * 24%:R * 3600%:R))%R in
  let q := phi / 10%:R ^+ 9 in
  let tr := bubble_ig_default 100%:R (5%:R / 10%:R ^+ 2)%R (10%:R ^- 2)%R (c 5%N) (c 7%N) in
  [/\ rhs 0%N = - 3%:R * c 0%N + 3%:R / 10%:R ^+ 2 * q,
      rhs 1%N = - (3%:R / 10%:R) * c 1%N + 2%:R / 10%:R ^+ 2 * q
    & rhs 2%N = - (3%:R / 10%:R ^+ 2) * c 2%N + 1 / 10%:R ^+ 2 * q] /\
  [/\ rhs 3%N = - lte * c 3%N + 2%:R / 10%:R * q,
      rhs 4%N = lte * c 3%N - li * c 4%N + 1 / 10%:R ^+ 2 * q,
      rhs 5%N = li * c 4%N - (lxe + q) * c 5%N + tr
    & rhs 6%N = lxe * c 5%N - lcs * c 6%N] /\
  [/\ rhs 7%N = - (lxe + ln 2 + q) * c 7%N - tr
    & rhs 8%N = lxe * c 7%N - (lcs + ln 2) * c 8%N].
Proof.
move=> hs phi c rhs lte li lxe lcs q tr.
have [B [T [Fm [hB hT hF es]]]] := nb_parts hs.
have gp : gas_purify_lambda = ln 2 by rewrite /gas_purify_lambda divr1.
have eB r k : (r < 9)%N -> (k < 9)%N -> B (inord r) (inord k) =
    rate_into 0%N nb_decay k.+1 r.+1 - (if r == k then rate_total nb_decay k.+1 else 0).
  move=> hr hk; rewrite (C38_entries 0%N nb_uniq hB) !inordK // !nth_iota //.
  by rewrite -(inj_eq val_inj) /= !inordK.
have eF k : (k < 9)%N -> (\col_i (- 1 *: Fm) i i : 'cV[R]_9) (inord k) 0 =
    rate_total nb_fission k.+1 - rate_into 0%N nb_fission k.+1 k.+1.
  by move=> hk; rewrite !mxE (C38_entries 0%N nb_uniq hF) eqxx inordK // nth_iota // mulN1r opprB.
have eT k : (k < 9)%N -> (nb_trans s *m u) (inord k) 0 = (if (k == 5%N) || (k == 7%N) then - sigma_a_xe else 0) * c k.
  move=> hk; rewrite mxE (bigD1 (inord k)) //= big1 ?addr0 => [|j hj].
    by rewrite (nb_trans_entry hs) eqxx !inordK.
  by rewrite (nb_trans_entry hs) eq_sym (negbTE hj) mul0r.
have hk k : (k < 9)%N -> rhs k = \sum_j B (inord k) j * u j 0 + phi * ((if (k == 5%N) || (k == 7%N) then - sigma_a_xe else 0) * c k)
   + phi * (rate_total nb_fission k.+1 - rate_into 0%N nb_fission k.+1 k.+1)
   + (if k == 5%N then tr else if k == 7%N then - tr else 0).
  move=> hk; have eS a (v : 'cV[R]_9) i : (a *: v) i 0 = a * v i 0 by rewrite mxE.
  rewrite /rhs /nbat_frhs /nonlin_bateman_rhs !(mxE addmx_key) !eS eT //.
  have -> : nb_fis s = \col_i (- 1 *: Fm) i i by rewrite es.
  rewrite eF // (_ : nb_phi s = phi); last by rewrite es.
  rewrite (_ : nb_bat s = B); last by rewrite es.
  rewrite mxE; congr (_ + _ + _ + _).
  have [xa xg] := ixE; rewrite /srcf_xe_av /set_at !mxE -!(inj_eq val_inj) /= xa xg inordK //.
  by case: (k =P 7%N) => [->|_] //; case: eqP.
have fE : [/\ forall k, (k < 9)%N -> rate_into 0%N nb_fission k.+1 k.+1 = 0 & True].
  by split=> // k; do 9 (case: k => [|k]; first by rewrite /rate_into /branches /= !big_cons !big_nil).
have hrow k : (k < 9)%N -> \sum_j B (inord k) j * u j 0 = \sum_(j <- iota 0 9)
    (rate_into 0%N nb_decay j.+1 k.+1 - (if k == j then rate_total nb_decay j.+1 else 0)) * c j.
  move=> hk'; rewrite (eq_bigr (fun j : 'I_9 => (rate_into 0%N nb_decay j.+1 k.+1 - (if k == j then rate_total nb_decay j.+1 else 0)) * c j)).
    by rewrite -(big_mkord xpredT (fun j => (rate_into 0%N nb_decay j.+1 k.+1 - (if k == j then rate_total nb_decay j.+1 else 0)) * c j)).
  by move=> j _; rewrite -{1}[j]inord_val eB // /c inord_val.
have {hk} hk k h : rhs k = _ := etrans (hk k h) (congr1 (fun x => x + _ + _ + _) (hrow k h)).
have tri a b : rate_into 0%N nb_decay a b = \sum_(x <- branches nb_decay a | (x.1 == b) && (x.1 != 0%N)) x.2 by [].
clear hrow eB eF eT; clearbody rhs c tr.
have r0 : rhs 0%N = - 3%:R * c 0%N + 3%:R / 10%:R ^+ 2 * q.
  rewrite hk // fE.1 // unlock /= /rate_total /rate_into /branches /= !big_cons !big_nil /= ?gp -/lte -/li -/lxe -/lcs /sigma_f /sigma_a_xe /q.
  clearbody phi lte li lxe lcs.
  try (move: ((10%:R ^+ 9)^-1)%R => p9); try (move: ((10%:R ^+ 2)^-1)%R => i2); try (move: ((10%:R)^-1)%R => i1); try (move: (ln 2) => l5).
  ring.
have r1 : rhs 1%N = - (3%:R / 10%:R) * c 1%N + 2%:R / 10%:R ^+ 2 * q.
  rewrite hk // fE.1 // unlock /= /rate_total /rate_into /branches /= !big_cons !big_nil /= ?gp -/lte -/li -/lxe -/lcs /sigma_f /sigma_a_xe /q.
  clearbody phi lte li lxe lcs.
  try (move: ((10%:R ^+ 9)^-1)%R => p9); try (move: ((10%:R ^+ 2)^-1)%R => i2); try (move: ((10%:R)^-1)%R => i1); try (move: (ln 2) => l5).
  ring.
have r2 : rhs 2%N = - (3%:R / 10%:R ^+ 2) * c 2%N + 1 / 10%:R ^+ 2 * q.
  rewrite hk // fE.1 // unlock /= /rate_total /rate_into /branches /= !big_cons !big_nil /= ?gp -/lte -/li -/lxe -/lcs /sigma_f /sigma_a_xe /q.
  clearbody phi lte li lxe lcs.
  try (move: ((10%:R ^+ 9)^-1)%R => p9); try (move: ((10%:R ^+ 2)^-1)%R => i2); try (move: ((10%:R)^-1)%R => i1); try (move: (ln 2) => l5).
  ring.
have r3 : rhs 3%N = - lte * c 3%N + 2%:R / 10%:R * q.
  rewrite hk // fE.1 // unlock /= /rate_total /rate_into /branches /= !big_cons !big_nil /= ?gp -/lte -/li -/lxe -/lcs /sigma_f /sigma_a_xe /q.
  clearbody phi lte li lxe lcs.
  try (move: ((10%:R ^+ 9)^-1)%R => p9); try (move: ((10%:R ^+ 2)^-1)%R => i2); try (move: ((10%:R)^-1)%R => i1); try (move: (ln 2) => l5).
  ring.
have r4 : rhs 4%N = lte * c 3%N - li * c 4%N + 1 / 10%:R ^+ 2 * q.
  rewrite hk // fE.1 // unlock /= /rate_total /rate_into /branches /= !big_cons !big_nil /= ?gp -/lte -/li -/lxe -/lcs /sigma_f /sigma_a_xe /q.
  clearbody phi lte li lxe lcs.
  try (move: ((10%:R ^+ 9)^-1)%R => p9); try (move: ((10%:R ^+ 2)^-1)%R => i2); try (move: ((10%:R)^-1)%R => i1); try (move: (ln 2) => l5).
  ring.
have r5 : rhs 5%N = li * c 4%N - (lxe + q) * c 5%N + tr.
  rewrite hk // fE.1 // unlock /= /rate_total /rate_into /branches /= !big_cons !big_nil /= ?gp -/lte -/li -/lxe -/lcs /sigma_f /sigma_a_xe /q.
  clearbody phi lte li lxe lcs.
  try (move: ((10%:R ^+ 9)^-1)%R => p9); try (move: ((10%:R ^+ 2)^-1)%R => i2); try (move: ((10%:R)^-1)%R => i1); try (move: (ln 2) => l5).
  ring.
have r6 : rhs 6%N = lxe * c 5%N - lcs * c 6%N.
  rewrite hk // fE.1 // unlock /= /rate_total /rate_into /branches /= !big_cons !big_nil /= ?gp -/lte -/li -/lxe -/lcs /sigma_f /sigma_a_xe /q.
  clearbody phi lte li lxe lcs.
  try (move: ((10%:R ^+ 9)^-1)%R => p9); try (move: ((10%:R ^+ 2)^-1)%R => i2); try (move: ((10%:R)^-1)%R => i1); try (move: (ln 2) => l5).
  ring.
have r7 : rhs 7%N = - (lxe + ln 2 + q) * c 7%N - tr.
  rewrite hk // fE.1 // unlock /= /rate_total /rate_into /branches /= !big_cons !big_nil /= ?gp -/lte -/li -/lxe -/lcs /sigma_f /sigma_a_xe /q.
  clearbody phi lte li lxe lcs.
  try (move: ((10%:R ^+ 9)^-1)%R => p9); try (move: ((10%:R ^+ 2)^-1)%R => i2); try (move: ((10%:R)^-1)%R => i1); try (move: (ln 2) => l5).
  ring.
have r8 : rhs 8%N = lxe * c 7%N - (lcs + ln 2) * c 8%N.
  rewrite hk // fE.1 // unlock /= /rate_total /rate_into /branches /= !big_cons !big_nil /= ?gp -/lte -/li -/lxe -/lcs /sigma_f /sigma_a_xe /q.
  clearbody phi lte li lxe lcs.
  try (move: ((10%:R ^+ 9)^-1)%R => p9); try (move: ((10%:R ^+ 2)^-1)%R => i2); try (move: ((10%:R)^-1)%R => i1); try (move: (ln 2) => l5).
  ring.
by [].
Qed.
Print Assumptions C74_equations.
