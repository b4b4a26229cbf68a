(* ProofsPadeZ.v : integer identities of the Pade coefficients of matexp_pade.rs. *)
From mathcomp Require Import all_ssreflect.
From Coq Require Import ZArith.
From Verif Require Import ProofsPade.
From Coq Require Import ZArith Ring.
Set Implicit Arguments.
Unset Strict Implicit.
Unset Printing Implicit Defensive.
Delimit Scope Z_scope with ZZ.
Fixpoint fz (k : nat) : Z := if k is k'.+1 then Z.mul (Z.of_nat k) (fz k') else Zpos xH.
Fixpoint tz (k : nat) : Z := if k is k'.+1 then Z.mul 2 (tz k') else Zpos xH.
Definition coef_ok (bs : seq Z) (m : nat) : bool :=
  [&& size bs == m.+1, Z.ltb Z0 (nth Z0 bs 0),
    all (fun j => Z.eqb (Z.mul (nth Z0 bs j) (fz j)) (prodz (Z.of_nat m.+1) m (Z.of_nat j))) (iota 0 m.+1) &
    all (fun j => Z.leb Z0 (nth Z0 bs j) && Z.leb (Z.mul (nth Z0 bs j) (Z.mul (tz j) (fz j))) (nth Z0 bs 0)) (iota 0 m.+1)].

Definition bs3 : seq Z := [:: 120; 60; 12; 1]%ZZ.
Definition bs5 : seq Z := [:: 30240; 15120; 3360; 420; 30; 1]%ZZ.
Definition bs7 : seq Z := [:: 17297280; 8648640; 1995840; 277200; 25200; 1512; 56; 1]%ZZ.
Definition bs9 : seq Z := [:: 17643225600; 8821612800; 2075673600; 302702400; 30270240; 2162160; 110880; 3960; 90; 1]%ZZ.
Definition bs13 : seq Z := [:: 64764752532480000; 32382376266240000; 7771770303897600; 1187353796428800;
  129060195264000; 10559470521600; 670442572800; 33522128640; 1323241920; 40840800; 960960; 16380; 182; 1]%ZZ.

Lemma ok3 : coef_ok bs3 3. Proof. by vm_compute. Qed.
Lemma ok5 : coef_ok bs5 5. Proof. by vm_compute. Qed.
Lemma ok7 : coef_ok bs7 7. Proof. by vm_compute. Qed.
Lemma ok9 : coef_ok bs9 9. Proof. by vm_compute. Qed.
Lemma ok13 : coef_ok bs13 13. Proof. by vm_compute. Qed.
Lemma id3 k : hz bs3 k Z0 = prodz (Z.of_nat 4) 3 k.
Proof. rewrite /bs3; cbn -[Z.mul Z.sub Z.add]; ring. Qed.
Lemma id5 k : hz bs5 k Z0 = prodz (Z.of_nat 6) 5 k.
Proof. rewrite /bs5; cbn -[Z.mul Z.sub Z.add]; ring. Qed.
Lemma id7 k : hz bs7 k Z0 = prodz (Z.of_nat 8) 7 k.
Proof. rewrite /bs7; cbn -[Z.mul Z.sub Z.add]; ring. Qed.
Lemma id9 k : hz bs9 k Z0 = prodz (Z.of_nat 10) 9 k.
Proof. rewrite /bs9; cbn -[Z.mul Z.sub Z.add]; ring. Qed.
Lemma id13 k : hz bs13 k Z0 = prodz (Z.of_nat 14) 13 k.
Proof. rewrite /bs13; cbn -[Z.mul Z.sub Z.add]; ring. Qed.
