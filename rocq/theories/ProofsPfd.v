(* ProofsPfd.v : partial-fraction evaluation and the inverse recurrence. *)
From mathcomp Require Import all_ssreflect all_algebra.
From mathcomp Require Import ring.
From mathcomp Require Import complex.
From Verif Require Import MxBase ModelPhi.
Set Implicit Arguments.
Unset Strict Implicit.
Unset Printing Implicit Defensive.
Import Order.TTheory GRing.Theory Num.Theory.
Local Open Scope ring_scope.

Section Inv.
Variable F : numFieldType.
Variable expm : forall n, 'M[F]_n -> 'M[F]_n.
Variable qr : forall n, 'M[F]_n -> 'M[F]_n * 'M[F]_n.
Variable soltri : forall n, 'M[F]_n -> 'M[F]_n -> 'M[F]_n.

Lemma f_phi_k_inv_rec n (z : 'M[F]_n) :
  (qr z).1^T *m (qr z).1 = 1%:M -> (qr z).1 *m (qr z).2 = z ->
  (forall X, (qr z).2 *m soltri (qr z).2 X = X) ->
  f_phi_k_inv expm qr soltri z 0 = expm z /\
  forall k, z *m f_phi_k_inv expm qr soltri z k.+1
            = f_phi_k_inv expm qr soltri z k - (k`!%:R)^-1 *: 1%:M.
Proof.
rewrite /f_phi_k_inv; case: (qr z) => Q R' /= oQ eqr hs; split=> // k.
rewrite -[X in X *m _]eqr -mulmxA hs mulmxA.
by rewrite (mulmx1C oQ) mul1mx.
Qed.
End Inv.

Section Pfd.
Variable R : rcfType.
Notation C := R[i].

Lemma remx_cmx m n (A : 'M[R]_(m, n)) : remx (cmx A) = A.
Proof. by apply/matrixP => i j; rewrite !mxE. Qed.
Lemma remxD m n (A B : 'M[C]_(m, n)) : remx (A + B) = remx A + remx B.
Proof. by apply/matrixP => i j; rewrite !mxE raddfD. Qed.
Lemma remx0 m n : remx (0 : 'M[C]_(m, n)) = 0.
Proof. by apply/matrixP => i j; rewrite !mxE raddf0. Qed.
Lemma Re_mulrl (x : R) (y : C) : complex.Re (x%:C%C * y) = x * complex.Re y.
Proof. by case: y => a b /=; rewrite mul0r subr0. Qed.
Lemma remxZ m n (x : R) (A : 'M[C]_(m, n)) : remx (x%:C%C *: A) = x *: remx A.
Proof. by apply/matrixP => i j; rewrite !mxE Re_mulrl. Qed.
Lemma cmxD m n (A B : 'M[R]_(m, n)) : cmx (A + B) = cmx A + cmx B.
Proof. by rewrite /cmx map_mxD. Qed.
Lemma cmxZ m n (x : R) (A : 'M[R]_(m, n)) : cmx (x *: A) = x%:C%C *: cmx A.
Proof. by rewrite /cmx map_mxZ. Qed.
Lemma remx_cmulmx m n p (A : 'M[R]_(m, n)) (X : 'M[C]_(n, p)) : remx (cmx A *m X) = A *m remx X.
Proof.
apply/matrixP => i j; rewrite !mxE raddf_sum; apply: eq_bigr => l _.
rewrite !mxE; exact: Re_mulrl.
Qed.
Lemma remx_scale_cmx m n (c : C) (A : 'M[R]_(m, n)) : remx (c *: cmx A) = complex.Re c *: A.
Proof. by apply/matrixP => i j; rewrite !mxE mulrC Re_mulrl mulrC. Qed.

Section Term.
Variables n m : nat.
Implicit Types (z : 'M[R]_n) (B : 'M[R]_(n, m)).

Lemma pfd_termD z B1 B2 k pc : pfd_term z (B1 + B2) k pc = pfd_term z B1 k pc + pfd_term z B2 k pc.
Proof. by case: pc => p c; rewrite /pfd_term cmxD mulmxDr scalerDr remxD. Qed.
Lemma pfd_termZ z x B k pc : pfd_term z (x *: B) k pc = x *: pfd_term z B k pc.
Proof.
by case: pc => p c; rewrite /pfd_term cmxZ -scalemxAr -remxZ !scalerA; congr (remx (_ *: _)); rewrite mulrC.
Qed.
Lemma f_phi_k_pfdE tab z B k :
  f_phi_k_pfd tab z B k = (if k == 0%N then tab.2 *: B else 0) + \sum_(pc <- tab.1) pfd_term z B k pc.
Proof.
case: tab => pcs c0 /=; rewrite add0r.
suff H x : foldl (fun acc pc => acc + pfd_term z B k pc) x pcs = x + \sum_(pc <- pcs) pfd_term z B k pc by apply: H.
elim: pcs x => [|pc pcs IH] x /=; first by rewrite big_nil addr0.
by rewrite IH big_cons addrA.
Qed.
Lemma f_phi_k_pfd_linear tab z k x B1 B2 :
  f_phi_k_pfd tab z (x *: B1 + B2) k = x *: f_phi_k_pfd tab z B1 k + f_phi_k_pfd tab z B2 k.
Proof.
rewrite !f_phi_k_pfdE [in RHS]scalerDr [RHS]addrACA; congr (_ + _).
  by case: eqP => _; rewrite ?scaler0 ?addr0 // scalerDr !scalerA [x * _]mulrC.
by rewrite scaler_sumr -big_split /=; apply: eq_bigr => pc _; rewrite pfd_termD pfd_termZ.
Qed.

(* poles outside the spectrum *)
Definition regular z (pcs : seq (C * C)) :=
  all (fun pc => (pc.1 != 0) && (cmx z - pc.1%:M \in unitmx)) pcs.

Lemma pfd_term_rec z B k (pc : C * C) : pc.1 != 0 -> cmx z - pc.1%:M \in unitmx ->
  z *m pfd_term z B k.+1 pc
  = pfd_term z B k pc + complex.Re (2%:R * pc.2 / pc.1 ^+ k.+1) *: B.
Proof.
case: pc => p c /= p0 u; rewrite /pfd_term -remx_cmulmx -scalemxAr mulmxA.
have -> : cmx z *m invmx (cmx z - p%:M) = 1%:M + p *: invmx (cmx z - p%:M).
  by rewrite -{1}(subrK p%:M (cmx z)) mulmxDl mulmxV // mul_scalar_mx.
rewrite mulmxDl mul1mx scalerDr remxD addrC remx_scale_cmx; congr (_ + _).
rewrite -scalemxAl scalerA; congr (remx (_ *: _)).
by rewrite exprS; field; rewrite expf_neq0 // p0.
Qed.

Lemma f_phi_k_pfd_rec tab z B k : regular z tab.1 ->
  z *m f_phi_k_pfd tab z B k.+1
  = f_phi_k_pfd tab z B k
    + (\sum_(pc <- tab.1) complex.Re (2%:R * pc.2 / pc.1 ^+ k.+1)
       - (if k == 0%N then tab.2 else 0)) *: B.
Proof.
move=> /allP hreg; rewrite !f_phi_k_pfdE /= add0r mulmx_sumr scalerBl.
rewrite (eq_big_seq (fun pc => pfd_term z B k pc + complex.Re (2%:R * pc.2 / pc.1 ^+ k.+1) *: B)).
  rewrite big_split /= -scaler_suml.
  case: eqP => _; first by rewrite [X in _ = X + _]addrC [RHS]addrACA subrr addr0.
  by rewrite add0r scale0r subr0.
by move=> pc /hreg /andP[p0 u]; apply: pfd_term_rec.
Qed.
End Term.

Lemma pfd_term_real n m (z : 'M[R]_n) (B : 'M[R]_(n, m)) (p c : R) k : 
  pfd_term z B k (p%:C, c%:C)%C = (2%:R * c / p ^+ k) *: (invmx (z - p%:M) *m B).
Proof.
rewrite /pfd_term.
have -> : cmx z - (p%:C%C)%:M = cmx (z - p%:M) by rewrite /cmx map_mxD map_mxN map_scalar_mx.
have -> : 2%:R * c%:C%C / p%:C%C ^+ k = (2%:R * c / p ^+ k)%:C%C.
  by rewrite !(rmorphM, rmorphX, fmorphV, rmorph_nat).
by rewrite /cmx -map_invmx -map_mxM -/(cmx _) remxZ remx_cmx.
Qed.
Lemma pfd_IEE : pfd_IE R = ([:: (1%:C, (- (2%:R)^-1)%:C)%C], 0).
Proof. by rewrite /pfd_IE rmorph1 rmorphN fmorphV rmorph_nat. Qed.
Lemma pfd_CNE : pfd_CN R = ([:: ((2%:R)%:C, (- 2%:R)%:C)%C], -1).
Proof.
have e : 2%:R = 4%:R / 2%:R :> R by rewrite (natrM _ 2 2) mulfK // pnatr_eq0.
rewrite /pfd_CN rmorphN rmorph_nat; congr ([:: (_, - _)], _).
by rewrite [in RHS]e rmorphM fmorphV !rmorph_nat.
Qed.

Lemma pfd_IE_any n m (z : 'M[R]_n) (B : 'M[R]_(n, m)) k : 1%:M - z \in unitmx ->
  f_phi_k_pfd (pfd_IE R) z B k = invmx (1%:M - z) *m B.
Proof.
move=> u; rewrite f_phi_k_pfdE pfd_IEE /= scale0r if_same add0r big_seq1 pfd_term_real.
rewrite expr1n divr1 mulrN mulfV ?pnatr_eq0 // scaleN1r -mulNmx; congr (_ *m _).
have e : (1%:M - z) *m - invmx (z - 1%:M) = 1%:M.
  rewrite mulmxN -mulNmx opprB mulmxV // -opprB.
  by rewrite -scaleN1r unitmxZ // unitrN1.
by rewrite -[RHS]mulmx1 -[X in _ = _ *m X]e mulKmx.
Qed.
Lemma pfd_CN0 n m (z : 'M[R]_n) (B : 'M[R]_(n, m)) : 1%:M - (2%:R)^-1 *: z \in unitmx ->
  f_phi_k_pfd (pfd_CN R) z B 0
  = invmx (1%:M - (2%:R)^-1 *: z) *m ((1%:M + (2%:R)^-1 *: z) *m B).
Proof.
move=> u; set A := 1%:M - _ in u *.
rewrite f_phi_k_pfdE pfd_CNE /= big_seq1 pfd_term_real expr0 divr1.
have e : z - (2%:R)%:M = - 2%:R *: A.
  by rewrite /A scalerBr scalerA mulNr mulfV ?pnatr_eq0 // !scaleNr scale1r opprK addrC scalemx1.
have uA : invmx (z - (2%:R)%:M) = (- 2%:R)^-1 *: invmx A.
  by rewrite e invmxZ // unitmxZ // unitfE oppr_eq0 pnatr_eq0.
rewrite uA -scalemxAl scalerA mulfK ?oppr_eq0 ?pnatr_eq0 //.
have -> : 1%:M + (2%:R)^-1 *: z = (2%:R)%:M - A by rewrite /A opprB addrCA -raddfB /= mulr2n addrK addrC.
rewrite mulmxA mulmxBr mulVmx // mulmxBl mul1mx mul_mx_scalar scaleN1r addrC -scalemxAl.
by [].
Qed.
End Pfd.
