(* PropTransfer.v : C74, the transfer laws of species_source_sink.py and the system NonlinearBateman. *)
From Coq Require Import Reals Lra.
From mathcomp Require Import all_ssreflect all_algebra.
From mathcomp Require Import ring.
From Verif Require Import Rstruct ModelHist ModelOps ModelInt ModelProg ModelProg2 SpecProg ProofsProg2 PropProg.
Set Implicit Arguments.
Unset Strict Implicit.
Unset Printing Implicit Defensive.
Import Order.TTheory GRing.Theory Num.Theory.
Local Open Scope ring_scope.
Lemma rpow0 y : rpow 0 y = 0.
Proof. by rewrite /rpow; match goal with |- context[Req_EM_T ?a ?b] => destruct (Req_EM_T a b) as [e|e] end; [|case: e]. Qed.
Lemma rpowp x y : x <> 0 -> rpow x y = Rpower x y.
Proof. by move=> h; rewrite /rpow; match goal with |- context[Req_EM_T ?a ?b] => destruct (Req_EM_T a b) as [e|e] end; [case: h|]. Qed.
Lemma rpow_gt0 (x y : R) : 0 < x -> 0 < rpow x y.
Proof. by move=> h; rewrite rpowp; [apply/RltP; apply: exp_pos|move=> e; move: h; rewrite e ltxx]. Qed.
Lemma rpow_ge0 (x y : R) : 0 <= x -> 0 <= rpow x y.
Proof. by rewrite le_eqVlt => /orP [/eqP <-|/(rpow_gt0 y)/ltW]; rewrite ?rpow0. Qed.
Lemma rpow_frac (x y : R) (p q : nat) : 0 <= x -> y * q.+1%:R = p.+1%:R -> rpow x y ^+ q.+1 = x ^+ p.+1.
Proof.
move=> x0 hy; have [->|/eqP hx] := eqVneq x 0; first by rewrite rpow0 !expr0n.
have xp : (0 < x)%R by rewrite lt_def x0 andbT; apply/eqP.
have nat m : (m%:R : R) = INR m by elim: m => // m IH; rewrite S_INR -IH [m.+1%:R]mulrSr.
rewrite rpowp // -!powE -(Rpower_pow q.+1) ?Rpower_mult; last exact: exp_pos.
rewrite -(Rpower_pow p.+1) -?nat; last exact/RltP.
by rewrite -[Rmult _ _]/(y * q.+1%:R) hy.
Qed.
Lemma piE : (0 < PI)%R. Proof. by apply/RltP; exact: PI_RGT_0. Qed.
(* the surface per volume of nb bubbles that share the carrier gas and a_k times the ideal-gas volume of the species *)
Theorem C74_bubble_area (rg u_g cvol alpha_g nb a_k T P : R) :
  let V := (cvol * alpha_g + a_k * (cvol * u_g * rg * T / (P / 10%:R ^+ 6)))%R in
  0 < nb -> 0 <= V ->
  exists r : R, [/\ 0 <= r, nb * (4%:R / 3%:R * PI * r ^+ 3) = V &
    bubble_surface_area rg u_g cvol alpha_g nb a_k T P = nb * (4%:R * PI * r ^+ 2)].
Proof.
move=> V nb0 V0; have pi0 := piE.
set x : R := (3%:R / 4%:R * (V / nb) / PI)%R.
have x0 : 0 <= x by rewrite !mulr_ge0 ?invr_ge0 ?ler0n // ltW.
have e1 : rpow x (1 / 3%:R)%R ^+ 3 = x by rewrite (@rpow_frac _ _ 0 2) // divfK ?pnatr_eq0.
have e2 : rpow (rpow x (1 / 3%:R)%R) 2%:R%R = rpow x (1 / 3%:R)%R ^+ 2.
  by rewrite -[LHS]expr1 (@rpow_frac _ _ 1 0) ?mulr1 ?rpow_ge0.
exists (rpow x (1 / 3%:R)%R); split; first exact: rpow_ge0.
  by rewrite e1 /x; move: (PI) (nb) (V) pi0 nb0 => a b c a0 b0; field; rewrite ?pnatr_eq0 //= !gt_eqF.
rewrite /bubble_surface_area /bubble_surface_area_of -e2.
have -> : 3%:R / 4%:R * (cvol * alpha_g / nb + a_k * (cvol * u_g / (P * 10%:R ^- 6) * rg * T) / nb) / PI = x.
  rewrite /x /V; move: ((P * 10%:R ^- 6)^-1)%R => d; move: (nb^-1)%R (PI^-1)%R => b p; move: (4%:R^-1 : R)%R => q.
  ring.
by rewrite !mulrA.
Qed.
(* bubbles: with c_g per gas volume and c_a per liquid volume the rate into the liquid is k A (h R T c_g - c_a), so it vanishes at
   Henry's law and points towards it otherwise *)
Theorem C74_bubble_rate (rg a_k P c_a c_g cvol alpha_g k h nb T : R) :
  0 < alpha_g < 1 -> 0 < nb ->
  let V := (cvol * alpha_g + a_k * (cvol * (alpha_g * c_g) * rg * T / (P / 10%:R ^+ 6)))%R in 0 < V ->
  exists r : R, [/\ 0 < r, nb * (4%:R / 3%:R * PI * r ^+ 3) = V &
    mxf_liq_vapor_bubble_ig rg a_k P ((1 - alpha_g) * c_a)%R (alpha_g * c_g)%R cvol alpha_g k h nb T
    = k * (nb * (4%:R * PI * r ^+ 2)) * (c_g * h * rg * T - c_a)].
Proof.
move=> /andP [g0 g1] nb0 V V0; have [r [r0 hr hA]] := C74_bubble_area nb0 (ltW V0).
exists r; split=> //.
  rewrite lt_def r0 andbT; apply/eqP => e; by move: V0; rewrite -[V]hr e expr0n /= !mulr0 ltxx.
rewrite /mxf_liq_vapor_bubble_ig /mxf_liq_vapor_bubble_ig_of -/bubble_surface_area hA.
rewrite [alpha_g * c_g]mulrC mulfK ?gt_eqF // [(1 - alpha_g) * c_a]mulrC mulfK // gt_eqF // subr_gt0 //.
Qed.
(* the simplified laws: the rate has the sign of k_g u_g - k_a u_a; it vanishes exactly at equilibrium *)
Theorem C74_linear_sign (F : rcfType) (k k_g k_a a u_a u_g : F) : 0 < k -> 0 < a ->
  Num.sg (mxf_liq_vapor_lin k k_g k_a a u_a u_g) = Num.sg (k_g * u_g - k_a * u_a) /\
  (* and doubles with both concentrations *)
  mxf_liq_vapor_lin k k_g k_a a (2%:R * u_a) (2%:R * u_g) = 2%:R * mxf_liq_vapor_lin k k_g k_a a u_a u_g.
Proof.
move=> k0 a0; split; first by rewrite /mxf_liq_vapor_lin !sgrM (gtr0_sg k0) (gtr0_sg a0) !mul1r.
by rewrite /mxf_liq_vapor_lin; ring.
Qed.
Theorem C74_nonlinear_law (k k_g k_a k_s u_a u_g : R) : 0 < k -> 0 <= k_s ->
  Num.sg (mxf_liq_vapor_nonlin k k_g k_a k_s u_a u_g) = Num.sg (k_g * u_g - k_a * u_a) /\
  exists q : R, [/\ 0 < q, q ^+ 3 = (Num.max u_g (10%:R ^- 16)) ^+ 2 &
    mxf_liq_vapor_nonlin k k_g k_a k_s u_a u_g = k * (q + k_s) * (k_g * u_g - k_a * u_a)].
Proof.
move=> k0 s0; set m := Num.max u_g (10%:R ^- 16)%R.
have m0 : 0 < m by rewrite /m lt_maxr orbC invr_gt0 exprn_gt0 // ltr0n.
have q0 := rpow_gt0 (2%:R / 3%:R)%R m0; split.
  rewrite /mxf_liq_vapor_nonlin /mxf_liq_vapor_nonlin_of !sgrM (gtr0_sg k0) [Num.sg (_ + _)]gtr0_sg ?mul1r //.
  exact: ltr_spaddl.
exists (rpow m (2%:R / 3%:R)%R); split=> //; rewrite (@rpow_frac _ _ 1 2) ?ltW //.
by rewrite divfK ?pnatr_eq0.
Qed.
(* sorption: with c_s per solid volume the rate into the liquid is k a (c_s - u_a) *)
Theorem C74_sorption (F : rcfType) (alpha_s k a u_a c_s : F) : alpha_s != 0 ->
  mxf_diffusion_sorption alpha_s k a u_a (alpha_s * c_s) = k * a * (c_s - u_a).
Proof. by move=> h; rewrite /mxf_diffusion_sorption [alpha_s * c_s]mulrC mulfK //; ring. Qed.
(* Arrhenius: zero without a reactant; for positive concentrations the logarithm of the rate is affine in 1/T, and the reaction runs
   faster at a higher temperature *)
Theorem C74_arrhenius (e apre m_a m_b T u_a u_b : R) : 0 < m_a -> 0 < m_b -> 0 < apre ->
  (u_a = 0 \/ u_b = 0 -> mxf_arrhenius e apre m_a m_b T u_a u_b = 0) /\
  (0 < u_a -> 0 < u_b ->
    [/\ 0 < mxf_arrhenius e apre m_a m_b T u_a u_b,
        (ln (mxf_arrhenius e apre m_a m_b T u_a u_b) = ln apre + m_a * ln u_a + m_b * ln u_b - e / (rgas * T))%R &
        forall T' : R, 0 < e -> 0 < T -> T < T' -> mxf_arrhenius e apre m_a m_b T u_a u_b < mxf_arrhenius e apre m_a m_b T' u_a u_b]).
Proof.
move=> a0 b0 p0; rewrite /mxf_arrhenius /mxf_arrhenius_of; split=> [[->|->]|ha hb].
- by rewrite rpow0 !mul0r.
- by rewrite rpow0 mulr0 !mul0r.
have pa := rpow_gt0 m_a ha; have pb := rpow_gt0 m_b hb; have ep x : 0 < exp x by apply/RltP; exact: exp_pos.
have lnM (x y : R) : 0 < x -> 0 < y -> ln (x * y)%R = (ln x + ln y)%R by move=> /RltP h1 /RltP h2; exact: ln_mult.
have ne x : 0 < x -> x <> 0 :> R by move=> h h'; move: h; rewrite h' ltxx.
split; first by rewrite !mulr_gt0.
  rewrite !lnM ?mulr_gt0 // ln_exp mulNr !rpowp; [|exact: ne|exact: ne].
  have lp (x y : R) : ln (Rpower x y) = (y * ln x)%R by rewrite /Rpower ln_exp.
  rewrite !lp; congr (_ - _).
  by rewrite addrC addrA.
move=> T' e0 T0 TT; rewrite ltr_pmul2l ?mulr_gt0 //; apply/RltP/exp_increasing/RltP.
have r0 : 0 < rgas by rewrite /rgas divr_gt0 ?ltr0n ?exprn_gt0 ?ltr0n.
have T1 : 0 < T' := lt_trans T0 TT; have h : (rgas * T')^-1 < (rgas * T)^-1.
  rewrite ltf_pinv; [by rewrite (ltr_pmul2l r0)|by rewrite posrE mulr_gt0|by rewrite posrE mulr_gt0].
by rewrite !mulNr ltr_opp2 (ltr_pmul2l e0).
Qed.

(* ---------------- NonlinearBateman ---------------- *)
Lemma nb_uniq : uniq nb_keymap. Proof. by []. Qed.
Lemma ln2_gt0 : (0 < ln 2)%R. Proof. have h := ln_increasing 1 2 Rlt_0_1 (Rlt_plus_1 1); by apply/RltP; move: h; rewrite ln_1. Qed.
Lemma in_keymap k : k \in nb_keymap -> List.In k nb_keymap.
Proof. by rewrite !inE; repeat (case/orP => [/eqP ->|]; first by do 9 (try (by left); right)); move/eqP ->; do 9 (try (by left); right). Qed.
Lemma nb_closed : [/\ closed_lib 0%N nb_keymap nb_decay, closed_lib 0%N nb_keymap nb_transmute & closed_lib 0%N nb_keymap nb_fission].
Proof.
split=> k /in_keymap; repeat (case=> [<-|]; first by split=> // b; rewrite /branches /= ?inE;
  try (case/orP); move/eqP => ->; (by left) || (by right)); by [].
Qed.
Lemma rpow_nn (x y : R) : 0 <= rpow x y.
Proof. by have [->|/eqP h] := eqVneq x 0; [rewrite rpow0|rewrite rpowp //; apply/ltW/RltP; exact: exp_pos]. Qed.
Lemma branch_nn l k : all (fun kb : nat * lib_entry R_rcfType nat_eqType => all (fun b : nat * R => 0 <= b.2) (match kb.2 with Single c l => [:: (c, l)] | Branches bs => bs end)) l ->
  forall b, b \in branches l k -> 0 <= b.2.
Proof.
elim: l => [|[k' e] l IH] //= /andP [he hl] b; rewrite /branches /=; case: eqP => _; last exact: IH.
by case: e he => [c l0|bs] /= h; [rewrite inE => /eqP -> /=; case/andP: h|move=> hb; exact: (allP h)].
Qed.
Lemma dec_nn : nonneg_rates nb_decay.
Proof.
have l2 := ltW ln2_gt0; have n0 m : (0 : R) <= m%:R by exact: ler0n.
move=> k; apply: branch_nn; rewrite /= /gas_purify_lambda.
repeat (apply/andP; split); repeat first [exact: l2 | exact: n0 | exact: ler01 | exact: lexx | exact: isT | apply: addr_ge0 | apply: divr_ge0 | apply: mulr_ge0 | apply: exprn_ge0 | rewrite invr_ge0].
Qed.
Lemma fis_nn : nonneg_rates nb_fission.
Proof.
have l2 := ltW ln2_gt0; have n0 m : (0 : R) <= m%:R by exact: ler0n.
move=> k; apply: branch_nn; rewrite /= /sigma_f.
repeat (apply/andP; split); repeat first [exact: l2 | exact: n0 | exact: ler01 | exact: lexx | exact: isT | apply: addr_ge0 | apply: divr_ge0 | apply: mulr_ge0 | apply: exprn_ge0 | rewrite invr_ge0].
Qed.
Section NB.
Variables (p v : option R) (s : nbat).
Hypothesis hs : nbat_new p v = Ok s.
Lemma nb_parts : exists B T Fm, [/\ @gen_bateman_matrix R_rcfType nat_eqType 0%N nb_keymap nb_decay = Ok B,
  @gen_bateman_matrix R_rcfType nat_eqType 0%N nb_keymap nb_transmute = Ok T, @gen_bateman_matrix R_rcfType nat_eqType 0%N nb_keymap nb_fission = Ok Fm &
  s = NBat (if p is Some p then p else 10%:R ^+ 9)%R (if v is Some v then v else 100%:R)%R B (- 1 *: T) (\col_i (- 1 *: Fm) i i)].
Proof.
move: hs; rewrite /nbat_new /gen_transmute_matrix.
case: (gen_bateman_matrix _ _ nb_decay) => [B|//]; cbn [rbind].
case: (gen_bateman_matrix _ _ nb_transmute) => [T|//]; cbn [rbind].
by case: (gen_bateman_matrix _ _ nb_fission) => [Fm|//]; cbn [rbind] => -[<-]; exists B, T, Fm.
Qed.
Lemma nb_trans_entry i j : nb_trans s i j = if i == j then (if (j == 5%N :> nat) || (j == 7%N :> nat) then - sigma_a_xe else 0) else 0.
Proof.
have [B [T [Fm [_ hT _ ->]]]] := nb_parts; rewrite [nb_trans _]/= mxE (C38_entries 0%N nb_uniq hT) mulN1r opprB.
have -> : rate_into 0%N nb_transmute (nth 0%N nb_keymap j) (nth 0%N nb_keymap i) = 0.
  rewrite /rate_into; case: j => [j hj] /=; do 9 (case: j hj => [|j] hj; first by rewrite /branches /= big_mkcond big_seq1 /= andbF).
  by [].
rewrite subr0; case: eqP => // e; rewrite /rate_total.
by case: j {e} => [j hj] /=; do 9 (case: j hj => [|j] hj; first by rewrite /branches /= big_seq1).
Qed.
Lemma nb_fis_nn i : 0 <= nb_fis s i 0.
Proof.
have [B [T [Fm [_ _ hF ->]]]] := nb_parts; rewrite [nb_fis _]/= !mxE mulN1r oppr_ge0.
by have [_ h] := C38_metzler nb_uniq hF fis_nn.
Qed.
Lemma nb_bat_nn i j : i != j -> 0 <= nb_bat s i j.
Proof. by have [B [T [Fm [hB _ _ ->]]]] := nb_parts; have [h _] := C38_metzler nb_uniq hB dec_nn; exact: h. Qed.
End NB.
Lemma ixE : (ix_a : nat) = 5%N /\ (ix_g : nat) = 7%N. Proof. by rewrite /ix_a /ix_g !inordK. Qed.
Lemma big9 (f : 'I_9 -> R) : \sum_i f i = f (inord 0) + f (inord 1) + f (inord 2) + f (inord 3) + f (inord 4) + f (inord 5) + f (inord 6) + f (inord 7) + f (inord 8).
Proof.
rewrite !big_ord_recr big_ord0 /= add0r; do 8 (congr (_ + _); last by congr f; apply: val_inj; rewrite /= inordK).
by congr f; apply: val_inj; rewrite /= inordK.
Qed.
(* NonlinearBateman can always be constructed; the option tank_vol does not change the right-hand side *)
Theorem C74_nonlinear_bateman_total (n_phi tank_vol : option R) : exists s, nbat_new n_phi tank_vol = Ok s.
Proof.
have [c1 c2 c3] := nb_closed; rewrite /nbat_new /gen_transmute_matrix.
have g l : closed_lib 0%N nb_keymap l -> exists M, @gen_bateman_matrix R_rcfType nat_eqType 0%N nb_keymap l = Ok M by move=> hc; have [[_ h] _] := @C38_total R_rcfType nat_eqType 0%N nb_keymap l nb_uniq; exact: h.
have [B ->] := g _ c1; cbn [rbind]; have [T ->] := g _ c2; cbn [rbind]; have [Fm ->] := g _ c3; cbn [rbind].
by eexists.
Qed.
Theorem C74_tank_vol_ignored (n_phi v1 v2 : option R) s1 s2 t u :
  nbat_new n_phi v1 = Ok s1 -> nbat_new n_phi v2 = Ok s2 -> nbat_frhs s1 t u = nbat_frhs s2 t u.
Proof.
move=> /nb_parts [B [T [Fm [h1 h2 h3 ->]]]] /nb_parts [B' [T' [Fm' [h1' h2' h3' ->]]]].
by move: h1 h2 h3; rewrite h1' h2' h3' => -[->] [->] [->].
Qed.
(* no concentration is driven below zero: where a species is absent and none is negative, its rate is nonnegative *)
Theorem C74_quasi_positive (n_phi tank_vol : option R) s t (u : 'cV[R]_9) i :
  nbat_new n_phi tank_vol = Ok s -> (if n_phi is Some p then 0 <= p else true) ->
  (forall j, 0 <= u j 0) -> u i 0 = 0 -> 0 <= nbat_frhs s t u i 0.
Proof.
move=> hs hp hu ui.
have p0 : 0 <= nb_phi s by have [B [T [Fm [_ _ _ ->]]]] := nb_parts hs; rewrite [nb_phi _]/=; case: n_phi hp {hs} => // _; rewrite exprn_ge0 ?ler0n.
have r0 : 0 < rgas by rewrite /rgas divr_gt0 ?ltr0n ?exprn_gt0 ?ltr0n.
have n0 m : (0 : R) <= m%:R by exact: ler0n.
rewrite /nbat_frhs /nonlin_bateman_rhs !mxE; apply: addr_ge0; first (apply: addr_ge0; first apply: addr_ge0).
- apply: sumr_ge0 => j _; have [e|h] := eqVneq i j; first by rewrite -e ui mulr0.
  by rewrite mulr_ge0 // (nb_bat_nn hs).
- apply: mulr_ge0 => //; apply: sumr_ge0 => j _; rewrite (nb_trans_entry hs).
  by case: eqP => [<-|_]; rewrite ?ui ?mulr0 ?mul0r.
- by rewrite mulr_ge0 // (nb_fis_nn hs).
rewrite /bubble_ig_default /mxf_liq_vapor_bubble_ig_of.
set A := bubble_surface_area_of _ _ _ _ _ _ _ _ _ _.
have B0 : 0 <= A by rewrite /A /bubble_surface_area_of mulr_ge0 ?rpow_nn // mulr_ge0 ?(ltW piE) // mulr_ge0.
have q0 : 0 <= 10%:R ^- 2 :> R by rewrite invr_ge0 exprn_ge0.
have al : 0 <= 1 - 5%:R / 10%:R ^+ 2 :> R.
  rewrite subr_ge0 ler_pdivr_mulr ?exprn_gt0 ?ltr0n // mul1r -natrX ler_nat //.
case: ifP => [/eqP e|ng].
  rewrite -?e ui !mul0r sub0r mulrN opprK; apply: mulr_ge0; first exact: mulr_ge0.
  by rewrite divr_ge0.
case: ifP => [/eqP e|_]; last by [].
rewrite -?e ui mul0r subr0; apply: mulr_ge0; first exact: mulr_ge0.
by rewrite !mulr_ge0 ?invr_ge0 ?mulr_ge0 ?invr_ge0 ?exprn_ge0 // ltW.
Qed.
(* total inventory: fission adds 0.27 sigma_f per unit flux; decays to untracked species, gas purification (ln 2 per second on the vapour
   species) and neutron capture in both xenon species remove; phase transfer moves and never creates *)
Theorem C74_inventory (n_phi tank_vol : option R) s t (u : 'cV[R]_9) :
  nbat_new n_phi tank_vol = Ok s ->
  let phi := (if n_phi is Some p then p else 10%:R ^+ 9)%R in
  let c k := u (inord k) 0 in
  let lcs := (ln 2 / (133%:R * 10%:R ^+ 4 * 365%:R * 24%:R * 3600%:R))%R in
  \sum_i nbat_frhs s t u i 0
  = phi * (27%:R / 10%:R ^+ 2 / 10%:R ^+ 9)
    - (3%:R * c 0%N + 3%:R / 10%:R * c 1%N + 3%:R / 10%:R ^+ 2 * c 2%N + lcs * c 6%N + ln 2 * c 7%N + (lcs + ln 2) * c 8%N)
    - phi / 10%:R ^+ 9 * (c 5%N + c 7%N).
Proof.
move=> hs phi c lcs.
have [B [T [Fm [hB hT hF es]]]] := nb_parts hs.
have iag : ix_a != ix_g by apply/eqP => e; have [h1 h2] := ixE; move: h1; rewrite e h2.
have [hsum _ _ _] := C52_transfer_conserves (bubble_ig_default 100%:R (5%:R / 10%:R ^+ 2)%R (10%:R ^- 2)%R) u iag.
rewrite /nbat_frhs /nonlin_bateman_rhs.
under eq_bigr do rewrite !(mxE addmx_key) /=.
rewrite !big_split /= hsum addr0.
have gp : gas_purify_lambda = ln 2 by rewrite /gas_purify_lambda divr1.
have -> : \sum_i (nb_bat s *m u) i 0 = - (3%:R * c 0%N + 3%:R / 10%:R * c 1%N + 3%:R / 10%:R ^+ 2 * c 2%N + lcs * c 6%N + ln 2 * c 7%N + (lcs + ln 2) * c 8%N).
  under eq_bigr do rewrite mxE; rewrite exchange_big /=; under eq_bigr do rewrite -mulr_suml.
  rewrite big9 es [nb_bat _]/=.
  have cs k : (k < 9)%N -> \sum_r B r (inord k) = - rate_untracked 0%N nb_decay k.+1.
    by move=> hk; rewrite (C38_column_sums 0%N nb_uniq hB) inordK // nth_iota.
  rewrite !cs // /rate_untracked /branches /= !big_cons !big_nil /= gp -/lcs -!/(c _); move: (c 0%N) (c 1%N) (c 2%N) (c 3%N) (c 4%N) (c 5%N) (c 6%N) (c 7%N) (c 8%N) (lcs) (ln 2) => c0 c1 c2 c3 c4 c5 c6 c7 c8 l1 l2.
  move: (3%:R / 10%:R : R) (3%:R / 10%:R ^+ 2 : R) => a b.
  ring.
have -> : \sum_i (nb_phi s *: (nb_trans s *m u)) i 0 = - (phi / 10%:R ^+ 9 * (c 5%N + c 7%N)).
  under eq_bigr do rewrite mxE mxE; rewrite -mulr_sumr (_ : nb_phi s = phi); last by rewrite es.
  have e i : \sum_j nb_trans s i j * u j 0 = (if (i == 5%N :> nat) || (i == 7%N :> nat) then - sigma_a_xe else 0) * u i 0.
    rewrite (bigD1 i) //= big1 ?addr0 => [|j hj]; rewrite (nb_trans_entry hs) ?eqxx // eq_sym (negbTE hj) mul0r //.
  by under eq_bigr do rewrite e; rewrite big9 !inordK //= /sigma_a_xe; move: ((10%:R ^+ 9)^-1)%R phi => q f; rewrite -!/(c _); move: (c 5%N) (c 7%N) => x y; ring.
have -> : \sum_i (nb_phi s *: nb_fis s) i 0 = phi * (27%:R / 10%:R ^+ 2 / 10%:R ^+ 9).
  under eq_bigr do rewrite mxE; rewrite -mulr_sumr (_ : nb_phi s = phi); last by rewrite es.
  congr (_ * _); rewrite es [nb_fis _]/=.
  have e k : (k < 9)%N -> (\col_i (- 1 *: Fm) i i : 'cV[R]_9) (inord k) 0 = rate_total nb_fission k.+1 - rate_into 0%N nb_fission k.+1 k.+1.
    by move=> hk; rewrite !mxE (C38_entries 0%N nb_uniq hF) eqxx inordK // nth_iota // mulN1r opprB.
  rewrite big9 !e // /rate_total /rate_into /branches /= !big_cons !big_nil /= /sigma_f; move: ((10%:R ^+ 9)^-1)%R => q; by field; rewrite ?pnatr_eq0.
by rewrite addrC addrA.
Qed.
(* the numbers used by NonlinearBateman meet the hypotheses, for every nonnegative vapour concentration *)
Example C74_example_rate (c_a c_g : R) : 0 <= c_g ->
  exists r : R, 0 < r /\ bubble_ig_default 100%:R (5%:R / 10%:R ^+ 2)%R (10%:R ^- 2)%R
     ((1 - 5%:R / 10%:R ^+ 2) * c_a)%R (5%:R / 10%:R ^+ 2 * c_g)%R
    = 10%:R ^- 2 * (10%:R * (4%:R * PI * r ^+ 2)) * (c_g * 10%:R ^- 4 * rgas * 900%:R - c_a).
Proof.
move=> g0; have r0 : 0 < rgas by rewrite /rgas divr_gt0 ?ltr0n ?exprn_gt0 ?ltr0n.
have n0 m : (0 : R) <= m%:R by exact: ler0n.
have a0 : 0 < (5%:R / 10%:R ^+ 2 : R) < 1.
  by rewrite divr_gt0 ?exprn_gt0 ?ltr0n //= ltr_pdivr_mulr ?exprn_gt0 ?ltr0n // mul1r -natrX ltr_nat.
have [|r [h1 _ h2]] := @C74_bubble_rate rgas (1 / 10%:R)%R (1013%:R * 10%:R ^+ 2)%R c_a c_g 100%:R (5%:R / 10%:R ^+ 2)%R (10%:R ^- 2)%R (10%:R ^- 4)%R 10%:R 900%:R a0 (ltr0Sn _ 9).
  rewrite ltr_spaddl //; first by rewrite mulr_gt0 ?ltr0n //; case/andP: a0.
  by repeat first [exact: g0 | exact: ltW r0 | exact: n0 | exact: ler01 | apply: divr_ge0 | apply: mulr_ge0 | apply: exprn_ge0 | rewrite invr_ge0].
by exists r.
Qed.
