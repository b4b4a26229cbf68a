(* Rstruct.v : Coq's standard real numbers as a mathcomp real closed field.
   Infrastructure only (no code of /repo is modelled here): it lets the
   algebraic model, written over an arbitrary [rcfType], be instantiated at the
   true real numbers so that limits, derivatives and ODE solutions make sense. *)
From Coq Require Import Reals Epsilon FunctionalExtensionality Lra.
From mathcomp Require Import all_ssreflect all_algebra.

Set Implicit Arguments.
Unset Strict Implicit.
Unset Printing Implicit Defensive.

Local Open Scope R_scope.

Definition eqr (r1 r2 : R) : bool :=
  if Req_EM_T r1 r2 is left _ then true else false.

Lemma eqrP : Equality.axiom eqr.
Proof. by move=> r1 r2; rewrite /eqr; case: Req_EM_T=> H; apply: (iffP idP). Qed.

Canonical R_eqMixin := EqMixin eqrP.
Canonical R_eqType := Eval hnf in EqType R R_eqMixin.

Fact inhR : inhabited R. Proof. exact: (inhabits 0). Qed.

Definition pickR (P : pred R) (n : nat) :=
  let x := epsilon inhR P in if P x then Some x else None.

Fact pickR_some P n x : pickR P n = Some x -> P x.
Proof. by rewrite /pickR; case: (boolP (P _)) => // Px [<-]. Qed.

Fact pickR_ex (P : pred R) : (exists x : R, P x) -> exists n, pickR P n.
Proof. by rewrite /pickR; move=> /(epsilon_spec inhR)->; exists 0%N. Qed.

Fact pickR_ext (P Q : pred R) : P =1 Q -> pickR P =1 pickR Q.
Proof.
move=> PEQ n; rewrite /pickR.
suff -> : P = Q by [].
by apply: functional_extensionality.
Qed.

Definition R_choiceMixin : choiceMixin R := Choice.Mixin pickR_some pickR_ex pickR_ext.
Canonical R_choiceType := Eval hnf in ChoiceType R R_choiceMixin.

Fact RplusA : associative Rplus. Proof. by move=> *; rewrite Rplus_assoc. Qed.
Fact RplusC : commutative Rplus. Proof. exact: Rplus_comm. Qed.
Fact Rplus0 : left_id 0 Rplus. Proof. exact: Rplus_0_l. Qed.
Fact RplusN : left_inverse 0 Ropp Rplus. Proof. exact: Rplus_opp_l. Qed.

Definition R_zmodMixin := ZmodMixin RplusA RplusC Rplus0 RplusN.
Canonical R_zmodType := Eval hnf in ZmodType R R_zmodMixin.

Fact RmultA : associative Rmult. Proof. by move=> *; rewrite Rmult_assoc. Qed.
Fact R1_neq_0 : (1 != 0 :> R). Proof. by apply/eqP; exact: R1_neq_R0. Qed.

Definition R_ringMixin := RingMixin RmultA Rmult_1_l Rmult_1_r
  Rmult_plus_distr_r Rmult_plus_distr_l R1_neq_0.
Canonical R_ringType := Eval hnf in RingType R R_ringMixin.
Canonical R_comRingType := Eval hnf in ComRingType R Rmult_comm.

Definition Rinvx (r : R) := if r != 0 then / r else r.
Definition unit_R (r : R) := r != 0.

Lemma RmultRinvx : {in unit_R, left_inverse 1 Rinvx Rmult}.
Proof.
move=> r; rewrite -topredE /unit_R /Rinvx => /= rNZ /=.
by rewrite rNZ Rinv_l //; apply/eqP.
Qed.

Lemma RinvxRmult : {in unit_R, right_inverse 1 Rinvx Rmult}.
Proof.
move=> r; rewrite -topredE /unit_R /Rinvx => /= rNZ /=.
by rewrite rNZ Rinv_r //; apply/eqP.
Qed.

Lemma intro_unit_R x y : y * x = 1 /\ x * y = 1 -> unit_R x.
Proof.
move=> [yx1 _]; apply/eqP => x0; move: yx1; rewrite x0 Rmult_0_r => /esym.
exact: R1_neq_R0.
Qed.

Lemma Rinvx_out : {in predC unit_R, Rinvx =1 id}.
Proof. by move=> x; rewrite inE /= /Rinvx -if_neg => ->. Qed.

Definition R_unitRingMixin :=
  UnitRingMixin RmultRinvx RinvxRmult intro_unit_R Rinvx_out.
Canonical R_unitRing := Eval hnf in UnitRingType R R_unitRingMixin.
Canonical R_comUnitRingType := Eval hnf in [comUnitRingType of R].

Lemma R_idomainMixin x y : x * y = 0 -> (x == 0) || (y == 0).
Proof. by case/Rmult_integral => ->; rewrite eqxx ?orbT. Qed.
Canonical R_idomainType := Eval hnf in IdomainType R R_idomainMixin.

Lemma R_field_mixin : GRing.Field.mixin_of [unitRingType of R].
Proof. by []. Qed.
Definition R_fieldIdomainMixin := FieldIdomainMixin R_field_mixin.
Canonical R_fieldType := FieldType R R_field_mixin.

Definition Rleb (r1 r2 : R) : bool := if Rle_dec r1 r2 is left _ then true else false.
Definition Rltb (r1 r2 : R) : bool := if Rlt_dec r1 r2 is left _ then true else false.

Lemma RlebP r1 r2 : reflect (r1 <= r2) (Rleb r1 r2).
Proof. by rewrite /Rleb; apply: (iffP idP); case: Rle_dec. Qed.
Lemma RltbP r1 r2 : reflect (r1 < r2) (Rltb r1 r2).
Proof. by rewrite /Rltb; apply: (iffP idP); case: Rlt_dec. Qed.

Fact Rle0D x y : Rleb 0 x -> Rleb 0 y -> Rleb 0 (x + y).
Proof. move=> /RlebP hx /RlebP hy; apply/RlebP; lra. Qed.
Fact Rle0M x y : Rleb 0 x -> Rleb 0 y -> Rleb 0 (x * y).
Proof. by move=> /RlebP hx /RlebP hy; apply/RlebP; apply: Rmult_le_pos. Qed.
Fact Rle0_anti x : Rleb 0 x -> Rleb x 0 -> x = 0.
Proof. move=> /RlebP hx /RlebP hy; lra. Qed.
Fact Rsub_ge0 x y : Rleb 0 (y - x) = Rleb x y.
Proof. apply/RlebP/RlebP; lra. Qed.
Fact Rle0_total x : Rleb 0 x || Rleb x 0.
Proof. by case: (Rle_or_lt 0 x) => h; apply/orP; [left|right]; apply/RlebP; lra. Qed.
Fact RnormN x : Rabs (- x) = Rabs x. Proof. exact: Rabs_Ropp. Qed.
Fact Rge0_norm x : Rleb 0 x -> Rabs x = x.
Proof. by move=> /RlebP h; apply: Rabs_pos_eq. Qed.
Fact Rlt_def x y : Rltb x y = (y != x) && Rleb x y.
Proof.
apply/RltbP/andP => [h|[/eqP n /RlebP h]].
  by split; [apply/eqP; lra | apply/RlebP; lra].
by case: h => // h; case: n.
Qed.

Definition R_leMixin : realLeMixin R_idomainType :=
  RealLeMixin Rle0D Rle0M Rle0_anti Rsub_ge0 Rle0_total RnormN Rge0_norm Rlt_def.

Canonical R_porderType := POrderType ring_display R R_leMixin.
Canonical R_latticeType := LatticeType R R_leMixin.
Canonical R_distrLatticeType := DistrLatticeType R R_leMixin.
Lemma Rle_total_mc : totalPOrderMixin [porderType of R].
Proof. exact: R_leMixin. Qed.
Canonical R_orderType := OrderType R R_leMixin.
Canonical R_numDomainType := NumDomainType R R_leMixin.
Canonical R_normedZmodType := NormedZmodType R R R_leMixin.
Canonical R_numFieldType := [numFieldType of R].
Canonical R_realDomainType := [realDomainType of R].
Canonical R_realFieldType := [realFieldType of R].

Import GRing.Theory Num.Theory.

(* translation lemmas between the two vocabularies *)
Lemma RleP (x y : R) : reflect (x <= y) (x <= y :> R)%R.
Proof. exact: RlebP. Qed.
Lemma RltP (x y : R) : reflect (x < y) (x < y :> R)%R.
Proof. exact: RltbP. Qed.
Lemma RplusE x y : Rplus x y = (x + y)%R. Proof. by []. Qed.
Lemma RminusE x y : Rminus x y = (x - y)%R. Proof. by []. Qed.
Lemma RmultE x y : Rmult x y = (x * y)%R. Proof. by []. Qed.
Lemma RoppE x : Ropp x = (- x)%R. Proof. by []. Qed.
Lemma RabsE x : Rabs x = (`|x|)%R. Proof. by []. Qed.
Lemma R0E : IZR 0 = 0%R :> R. Proof. by []. Qed.
Lemma R1E : IZR 1 = 1%R :> R. Proof. by []. Qed.
Lemma INRE n : INR n = (n%:R)%R :> R.
Proof. by elim: n => [|n IH] //; rewrite S_INR IH -addn1 natrD. Qed.
Lemma powE x n : pow x n = (x ^+ n)%R :> R.
Proof. by elim: n => [|n IH] //; rewrite exprS -IH. Qed.
Lemma RinvE (x : R) : x != 0%R -> Rinv x = (x^-1)%R :> R.
Proof. by move=> h; rewrite /GRing.inv /= /Rinvx h. Qed.
Lemma RdivE (x y : R) : y != 0%R -> Rdiv x y = (x / y)%R :> R.
Proof. by move=> h; rewrite /Rdiv RinvE. Qed.

Lemma horner_cont (p : {poly R}) : continuity (fun x => (p.[x])%R).
Proof.
elim/poly_ind: p => [|p c IH].
  rewrite (_ : (fun x => _) = (fun=> 0)); last first.
    by apply: functional_extensionality=> x; rewrite horner0.
  exact: continuity_const.
rewrite (_ : (fun x => _) = ((fun x => p.[x])%R * id + (fun=> c))%F).
  apply: continuity_plus; last exact: continuity_const.
  apply: continuity_mult; first exact: IH.
  by apply: derivable_continuous; exact: derivable_id.
by apply: functional_extensionality=> x; rewrite hornerMXaddC.
Qed.

Lemma Rreal_closed_axiom : Num.real_closed_axiom R_numFieldType.
Proof.
move=> p a b /RleP leab /andP[/RleP pa /RleP pb].
have {}pa : Rle (p.[a])%R (IZR 0) := pa.
have {}pb : Rle (IZR 0) (p.[b])%R := pb.
have H : Rle (Rmult (p.[a])%R (p.[b])%R) (IZR 0) by nra.
have [x [xab px]] := IVT_cor (fun x => (p.[x])%R) a b (@horner_cont p) leab H.
by exists x; [apply/andP; split; apply/RleP; case: xab | apply/rootP].
Qed.

Canonical R_rcfType := RcfType R Rreal_closed_axiom.

Lemma RsqrtE (x : R) : sqrt x = Num.sqrt x.
Proof.
case: (Rle_or_lt 0 x) => h; last first.
  rewrite ler0_sqrtr; first by apply: sqrt_neg_0; lra.
  by apply/RleP; exact: Rlt_le.
apply/eqP; rewrite -(@eqr_expn2 _ 2) //; try by apply/RleP; exact: sqrt_pos.
  rewrite sqr_sqrtr; last exact/RleP.
  by rewrite expr2 -RmultE sqrt_sqrt.
exact: sqrtr_ge0.
Qed.
