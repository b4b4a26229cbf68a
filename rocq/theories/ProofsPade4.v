(* ProofsPade4.v : matexp of matexp_pade.rs: the denominators are regular and the error is at most
   ((1 + 3e-14)^(2^alpha) - 1) exp(|dt A|). *)
From Coq Require Import Reals ZArith QArith Qreals Lra Lia.
From mathcomp Require Import all_ssreflect all_algebra.
From mathcomp Require Import ring.
From Verif Require Import Rstruct Summable MxBase MxSeries ModelPhi ModelPade ProofsPhiErr ProofsPade ProofsPade2 ProofsPadeZ ProofsPade3.
Set Implicit Arguments.
Unset Strict Implicit.
Unset Printing Implicit Defensive.
Import Order.TTheory GRing.Theory Num.Theory.
Local Open Scope ring_scope.
Delimit Scope R_scope with coqR.

Section Ident.
Variable n : nat.
Notation mat := 'M[R]_n.

Lemma pow2 (Z : mat) : Z *m Z = mxpow Z 2. Proof. by rewrite mxpowS mxpow1. Qed.
Lemma pow4 (Z : mat) : mxpow Z 2 *m mxpow Z 2 = mxpow Z 4. Proof. by rewrite -mxpowD. Qed.
Lemma pow6 (Z : mat) : mxpow Z 4 *m mxpow Z 2 = mxpow Z 6. Proof. by rewrite -mxpowD. Qed.
Lemma pow8 (Z : mat) : mxpow Z 6 *m mxpow Z 2 = mxpow Z 8. Proof. by rewrite -mxpowD. Qed.
Lemma zpow (Z : mat) k : Z *m mxpow Z k = mxpow Z k.+1. Proof. by []. Qed.

Lemma cbS b bs i : cb (b :: bs) i.+1 = cb bs i. Proof. by []. Qed.
Lemma cb0E b bs : cb (b :: bs) 0 = IZR b. Proof. by []. Qed.

Lemma p66 (Z : mat) : mxpow Z 6 *m mxpow Z 6 = mxpow Z 12. Proof. by rewrite -mxpowD. Qed.
Lemma p64 (Z : mat) : mxpow Z 6 *m mxpow Z 4 = mxpow Z 10. Proof. by rewrite -mxpowD. Qed.
Lemma p62 (Z : mat) : mxpow Z 6 *m mxpow Z 2 = mxpow Z 8. Proof. by rewrite -mxpowD. Qed.
Lemma sgE c (X : mat) : ((-1) * c) *: X = - (c *: X). Proof. by rewrite mulN1r scaleNr. Qed.
Lemma sg_0 : (-1) ^+ 0 = 1 :> R. Proof. by rewrite -signr_odd /= ?expr1 ?expr0. Qed.
Lemma sg_1 : (-1) ^+ 1 = -1 :> R. Proof. by rewrite -signr_odd /= ?expr1 ?expr0. Qed.
Lemma sg_2 : (-1) ^+ 2 = 1 :> R. Proof. by rewrite -signr_odd /= ?expr1 ?expr0. Qed.
Lemma sg_3 : (-1) ^+ 3 = -1 :> R. Proof. by rewrite -signr_odd /= ?expr1 ?expr0. Qed.
Lemma sg_4 : (-1) ^+ 4 = 1 :> R. Proof. by rewrite -signr_odd /= ?expr1 ?expr0. Qed.
Lemma sg_5 : (-1) ^+ 5 = -1 :> R. Proof. by rewrite -signr_odd /= ?expr1 ?expr0. Qed.
Lemma sg_6 : (-1) ^+ 6 = 1 :> R. Proof. by rewrite -signr_odd /= ?expr1 ?expr0. Qed.
Lemma sg_7 : (-1) ^+ 7 = -1 :> R. Proof. by rewrite -signr_odd /= ?expr1 ?expr0. Qed.
Lemma sg_8 : (-1) ^+ 8 = 1 :> R. Proof. by rewrite -signr_odd /= ?expr1 ?expr0. Qed.
Lemma sg_9 : (-1) ^+ 9 = -1 :> R. Proof. by rewrite -signr_odd /= ?expr1 ?expr0. Qed.
Lemma sg_10 : (-1) ^+ 10 = 1 :> R. Proof. by rewrite -signr_odd /= ?expr1 ?expr0. Qed.
Lemma sg_11 : (-1) ^+ 11 = -1 :> R. Proof. by rewrite -signr_odd /= ?expr1 ?expr0. Qed.
Lemma sg_12 : (-1) ^+ 12 = 1 :> R. Proof. by rewrite -signr_odd /= ?expr1 ?expr0. Qed.
Lemma sg_13 : (-1) ^+ 13 = -1 :> R. Proof. by rewrite -signr_odd /= ?expr1 ?expr0. Qed.
Lemma cb_map bs i : cb bs i = nth 0 (map (fun z => IZR z : R) bs) i.
Proof. by rewrite /cb; elim: bs i => [|b bs IH] [|i] //=. Qed.
Lemma g3 (Z : mat) (c0 c1 c2 : R) : let cs := [:: c0; c1; c2; 1%:R] in let a2 := Z *m Z in
  let u := Z *m (1%:R *: a2 + c1 *: 1%:M) in
  let v := c2 *: a2 + c0 *: 1%:M in
  \sum_(i < 4) ((-1) ^+ i * nth 0 cs i) *: mxpow Z i = v - u /\
  \sum_(i < 4) nth 0 cs i *: mxpow Z i = u + v.
Proof.
move=> cs /=.
rewrite !big_ord_recl !big_ord0 /= /bump /= !add1n.
rewrite (pow2 Z) ?pow4 ?pow6 ?pow8 !mulmxDr -!scalemxAr ?p66 ?p64 ?p62 mulmx1 !zpow mxpow0 mxpow1.
rewrite sg_0 sg_1 sg_2 sg_3 !mul1r !sgE; move: (c0 *: 1%:M) (c1 *: Z) (c2 *: mxpow Z 2) (1%:R *: mxpow Z 3) => m0 m1 m2 m3.
by split; apply/matrixP => i j; rewrite !mxE; move: (m0 i j) (m1 i j) (m2 i j) (m3 i j) => *; ring.
Qed.
Lemma q3 (Z : mat) : let a2 := Z *m Z in
  let uv := pade3 Z a2 in qmx bs3 Z = uv.2 - uv.1 /\ pmx bs3 Z = uv.1 + uv.2.
Proof.
have sz : size bs3 = 4%N by [].
have [e1 e2] := g3 Z (IZR 120) (IZR 60) (IZR 12).
rewrite /qmx /pmx (mxser_fin Z (sg0 sz)).2 (mxser_fin Z (cb0 sz)).2 /sg; split.
  by rewrite -e1; apply: eq_bigr => i _; rewrite cb_map.
by rewrite -e2; apply: eq_bigr => i _; rewrite cb_map.
Qed.
Lemma g5 (Z : mat) (c0 c1 c2 c3 c4 : R) : let cs := [:: c0; c1; c2; c3; c4; 1%:R] in let a2 := Z *m Z in let a4 := a2 *m a2 in
  let u := Z *m (1%:R *: a4 + c3 *: a2 + c1 *: 1%:M) in
  let v := c4 *: a4 + c2 *: a2 + c0 *: 1%:M in
  \sum_(i < 6) ((-1) ^+ i * nth 0 cs i) *: mxpow Z i = v - u /\
  \sum_(i < 6) nth 0 cs i *: mxpow Z i = u + v.
Proof.
move=> cs /=.
rewrite !big_ord_recl !big_ord0 /= /bump /= !add1n.
rewrite (pow2 Z) ?pow4 ?pow6 ?pow8 !mulmxDr -!scalemxAr ?p66 ?p64 ?p62 mulmx1 !zpow mxpow0 mxpow1.
rewrite sg_0 sg_1 sg_2 sg_3 sg_4 sg_5 !mul1r !sgE; move: (c0 *: 1%:M) (c1 *: Z) (c2 *: mxpow Z 2) (c3 *: mxpow Z 3) (c4 *: mxpow Z 4) (1%:R *: mxpow Z 5) => m0 m1 m2 m3 m4 m5.
by split; apply/matrixP => i j; rewrite !mxE; move: (m0 i j) (m1 i j) (m2 i j) (m3 i j) (m4 i j) (m5 i j) => *; ring.
Qed.
Lemma q5 (Z : mat) : let a2 := Z *m Z in let a4 := a2 *m a2 in
  let uv := pade5 Z a2 a4 in qmx bs5 Z = uv.2 - uv.1 /\ pmx bs5 Z = uv.1 + uv.2.
Proof.
have sz : size bs5 = 6%N by [].
have [e1 e2] := g5 Z (IZR 30240) (IZR 15120) (IZR 3360) (IZR 420) (IZR 30).
rewrite /qmx /pmx (mxser_fin Z (sg0 sz)).2 (mxser_fin Z (cb0 sz)).2 /sg; split.
  by rewrite -e1; apply: eq_bigr => i _; rewrite cb_map.
by rewrite -e2; apply: eq_bigr => i _; rewrite cb_map.
Qed.
Lemma g7 (Z : mat) (c0 c1 c2 c3 c4 c5 c6 : R) : let cs := [:: c0; c1; c2; c3; c4; c5; c6; 1%:R] in let a2 := Z *m Z in let a4 := a2 *m a2 in let a6 := a4 *m a2 in
  let u := Z *m (1%:R *: a6 + c5 *: a4 + c3 *: a2 + c1 *: 1%:M) in
  let v := c6 *: a6 + c4 *: a4 + c2 *: a2 + c0 *: 1%:M in
  \sum_(i < 8) ((-1) ^+ i * nth 0 cs i) *: mxpow Z i = v - u /\
  \sum_(i < 8) nth 0 cs i *: mxpow Z i = u + v.
Proof.
move=> cs /=.
rewrite !big_ord_recl !big_ord0 /= /bump /= !add1n.
rewrite (pow2 Z) ?pow4 ?pow6 ?pow8 !mulmxDr -!scalemxAr ?p66 ?p64 ?p62 mulmx1 !zpow mxpow0 mxpow1.
rewrite sg_0 sg_1 sg_2 sg_3 sg_4 sg_5 sg_6 sg_7 !mul1r !sgE; move: (c0 *: 1%:M) (c1 *: Z) (c2 *: mxpow Z 2) (c3 *: mxpow Z 3) (c4 *: mxpow Z 4) (c5 *: mxpow Z 5) (c6 *: mxpow Z 6) (1%:R *: mxpow Z 7) => m0 m1 m2 m3 m4 m5 m6 m7.
by split; apply/matrixP => i j; rewrite !mxE; move: (m0 i j) (m1 i j) (m2 i j) (m3 i j) (m4 i j) (m5 i j) (m6 i j) (m7 i j) => *; ring.
Qed.
Lemma q7 (Z : mat) : let a2 := Z *m Z in let a4 := a2 *m a2 in let a6 := a4 *m a2 in
  let uv := pade7 Z a2 a4 a6 in qmx bs7 Z = uv.2 - uv.1 /\ pmx bs7 Z = uv.1 + uv.2.
Proof.
have sz : size bs7 = 8%N by [].
have [e1 e2] := g7 Z (IZR 17297280) (IZR 8648640) (IZR 1995840) (IZR 277200) (IZR 25200) (IZR 1512) (IZR 56).
rewrite /qmx /pmx (mxser_fin Z (sg0 sz)).2 (mxser_fin Z (cb0 sz)).2 /sg; split.
  by rewrite -e1; apply: eq_bigr => i _; rewrite cb_map.
by rewrite -e2; apply: eq_bigr => i _; rewrite cb_map.
Qed.
Lemma g9 (Z : mat) (c0 c1 c2 c3 c4 c5 c6 c7 c8 : R) : let cs := [:: c0; c1; c2; c3; c4; c5; c6; c7; c8; 1%:R] in let a2 := Z *m Z in let a4 := a2 *m a2 in let a6 := a4 *m a2 in let a8 := a6 *m a2 in
  let u := Z *m (1%:R *: a8 + c7 *: a6 + c5 *: a4 + c3 *: a2 + c1 *: 1%:M) in
  let v := c8 *: a8 + c6 *: a6 + c4 *: a4 + c2 *: a2 + c0 *: 1%:M in
  \sum_(i < 10) ((-1) ^+ i * nth 0 cs i) *: mxpow Z i = v - u /\
  \sum_(i < 10) nth 0 cs i *: mxpow Z i = u + v.
Proof.
move=> cs /=.
rewrite !big_ord_recl !big_ord0 /= /bump /= !add1n.
rewrite (pow2 Z) ?pow4 ?pow6 ?pow8 !mulmxDr -!scalemxAr ?p66 ?p64 ?p62 mulmx1 !zpow mxpow0 mxpow1.
rewrite sg_0 sg_1 sg_2 sg_3 sg_4 sg_5 sg_6 sg_7 sg_8 sg_9 !mul1r !sgE; move: (c0 *: 1%:M) (c1 *: Z) (c2 *: mxpow Z 2) (c3 *: mxpow Z 3) (c4 *: mxpow Z 4) (c5 *: mxpow Z 5) (c6 *: mxpow Z 6) (c7 *: mxpow Z 7) (c8 *: mxpow Z 8) (1%:R *: mxpow Z 9) => m0 m1 m2 m3 m4 m5 m6 m7 m8 m9.
by split; apply/matrixP => i j; rewrite !mxE; move: (m0 i j) (m1 i j) (m2 i j) (m3 i j) (m4 i j) (m5 i j) (m6 i j) (m7 i j) (m8 i j) (m9 i j) => *; ring.
Qed.
Lemma q9 (Z : mat) : let a2 := Z *m Z in let a4 := a2 *m a2 in let a6 := a4 *m a2 in let a8 := a6 *m a2 in
  let uv := pade9 Z a2 a4 a6 a8 in qmx bs9 Z = uv.2 - uv.1 /\ pmx bs9 Z = uv.1 + uv.2.
Proof.
have sz : size bs9 = 10%N by [].
have [e1 e2] := g9 Z (IZR 17643225600) (IZR 8821612800) (IZR 2075673600) (IZR 302702400) (IZR 30270240) (IZR 2162160) (IZR 110880) (IZR 3960) (IZR 90).
rewrite /qmx /pmx (mxser_fin Z (sg0 sz)).2 (mxser_fin Z (cb0 sz)).2 /sg; split.
  by rewrite -e1; apply: eq_bigr => i _; rewrite cb_map.
by rewrite -e2; apply: eq_bigr => i _; rewrite cb_map.
Qed.
Lemma g13 (Z : mat) (c0 c1 c2 c3 c4 c5 c6 c7 c8 c9 c10 c11 c12 : R) : let cs := [:: c0; c1; c2; c3; c4; c5; c6; c7; c8; c9; c10; c11; c12; 1%:R] in let a2 := Z *m Z in let a4 := a2 *m a2 in let a6 := a4 *m a2 in
  let u := Z *m (a6 *m (1%:R *: a6 + c11 *: a4 + c9 *: a2) + c7 *: a6 + c5 *: a4 + c3 *: a2 + c1 *: 1%:M) in
  let v := a6 *m (c12 *: a6 + c10 *: a4 + c8 *: a2) + c6 *: a6 + c4 *: a4 + c2 *: a2 + c0 *: 1%:M in
  \sum_(i < 14) ((-1) ^+ i * nth 0 cs i) *: mxpow Z i = v - u /\
  \sum_(i < 14) nth 0 cs i *: mxpow Z i = u + v.
Proof.
move=> cs /=.
rewrite !big_ord_recl !big_ord0 /= /bump /= !add1n.
rewrite (pow2 Z) ?pow4 ?pow6 ?pow8 !mulmxDr -!scalemxAr ?p66 ?p64 ?p62 mulmx1 !zpow mxpow0 mxpow1.
rewrite sg_0 sg_1 sg_2 sg_3 sg_4 sg_5 sg_6 sg_7 sg_8 sg_9 sg_10 sg_11 sg_12 sg_13 !mul1r !sgE; move: (c0 *: 1%:M) (c1 *: Z) (c2 *: mxpow Z 2) (c3 *: mxpow Z 3) (c4 *: mxpow Z 4) (c5 *: mxpow Z 5) (c6 *: mxpow Z 6) (c7 *: mxpow Z 7) (c8 *: mxpow Z 8) (c9 *: mxpow Z 9) (c10 *: mxpow Z 10) (c11 *: mxpow Z 11) (c12 *: mxpow Z 12) (1%:R *: mxpow Z 13) => m0 m1 m2 m3 m4 m5 m6 m7 m8 m9 m10 m11 m12 m13.
by split; apply/matrixP => i j; rewrite !mxE; move: (m0 i j) (m1 i j) (m2 i j) (m3 i j) (m4 i j) (m5 i j) (m6 i j) (m7 i j) (m8 i j) (m9 i j) (m10 i j) (m11 i j) (m12 i j) (m13 i j) => *; ring.
Qed.
Lemma q13 (Z : mat) : let a2 := Z *m Z in let a4 := a2 *m a2 in let a6 := a4 *m a2 in
  let uv := pade13 Z a2 a4 a6 in qmx bs13 Z = uv.2 - uv.1 /\ pmx bs13 Z = uv.1 + uv.2.
Proof.
have sz : size bs13 = 14%N by [].
have [e1 e2] := g13 Z (IZR 64764752532480000) (IZR 32382376266240000) (IZR 7771770303897600) (IZR 1187353796428800) (IZR 129060195264000) (IZR 10559470521600) (IZR 670442572800) (IZR 33522128640) (IZR 1323241920) (IZR 40840800) (IZR 960960) (IZR 16380) (IZR 182).
rewrite /qmx /pmx (mxser_fin Z (sg0 sz)).2 (mxser_fin Z (cb0 sz)).2 /sg; split.
  by rewrite -e1; apply: eq_bigr => i _; rewrite cb_map.
by rewrite -e2; apply: eq_bigr => i _; rewrite cb_map.
Qed.
End Ident.
