(* ProofsCram3.v : the derivative at 0 of the CRAM rational function, term by term. *)
From Coq Require Import Reals ZArith List Lra Lia.
Import ListNotations.
From Verif Require Import ProofsCramZ ProofsCramR.
Local Open Scope R_scope.

Definition dterm (r : row) : R :=
  - (ev (pder (Nk r)) 0 * ev (Dk r) 0 - ev (pder (Dk r)) 0 * ev (Nk r) 0) / Rsqr (ev (Dk r) 0).
Fixpoint dsum (rows : list row) : R := match rows with nil => 0 | r :: rows' => dterm r + dsum rows' end.
Lemma rsum_der rows : Forall (fun r => 0 < ev (Dk r) 0) rows ->
  derivable_pt_lim (fun x => rsum rows (- x)) 0 (dsum rows).
Proof.
intros h; induction h as [|r rows h1 h IH]; cbn [rsum dsum].
  apply (derivable_pt_lim_const 0).
apply (derivable_pt_lim_plus (fun x => ev (Nk r) (- x) / ev (Dk r) (- x)) (fun x => rsum rows (- x))); [|exact IH].
assert (hn : derivable_pt_lim (fun z => - z) 0 (-1)).
{ apply (derivable_pt_lim_opp id); apply derivable_pt_lim_id. }
assert (hd : derivable_pt_lim (fun y => ev (Nk r) y / ev (Dk r) y) (- 0)
  ((ev (pder (Nk r)) 0 * ev (Dk r) 0 - ev (pder (Dk r)) 0 * ev (Nk r) 0) / Rsqr (ev (Dk r) 0))).
{ rewrite Ropp_0. apply (derivable_pt_lim_div (ev (Nk r)) (ev (Dk r))); [apply ev_der|apply ev_der|apply Rgt_not_eq, h1]. }
pose proof (derivable_pt_lim_comp (fun z => - z) (fun y => ev (Nk r) y / ev (Dk r) y) 0 _ _ hn hd) as h2.
unfold comp in h2. unfold dterm.
replace (- (ev (pder (Nk r)) 0 * ev (Dk r) 0 - ev (pder (Dk r)) 0 * ev (Nk r) 0) / Rsqr (ev (Dk r) 0)) with
 ((ev (pder (Nk r)) 0 * ev (Dk r) 0 - ev (pder (Dk r)) 0 * ev (Nk r) 0) / Rsqr (ev (Dk r) 0) * -1).
  exact h2.
unfold Rsqr; field. apply Rgt_not_eq, h1.
Qed.
Local Transparent cram_r35.
Lemma r35E x : cram_r35 x = IZR 21248537104952237488 + IZR (10 ^ 29) * rsum cram_rows (- x).
Proof. reflexivity. Qed.
Lemma cram_der0 : Rabs (IZR (10 ^ 29) * dsum cram_rows - IZR (10 ^ 35)) <= 900 * IZR (10 ^ 19).
Proof.
assert (d1 : derivable_pt_lim cram_r35 0 (0 + IZR (10 ^ 29) * dsum cram_rows)).
{ apply (derivable_pt_lim_plus (fun _ => IZR 21248537104952237488) (fun x => IZR (10 ^ 29) * rsum cram_rows (- x))).
    apply derivable_pt_lim_const.
  apply (derivable_pt_lim_scal (fun x => rsum cram_rows (- x))); apply rsum_der, cram_D. }
assert (d2 : derivable_pt_lim cram_r35 0 (fr' cram_P cram_Q 0)).
{ pose proof (fr_der cram_P cram_Q cram_Qpos 0) as h. intros e he. destruct (h e he) as [dl hd]. exists dl.
  intros x hx hxd. rewrite !cram_fr. apply hd; assumption. }
pose proof (uniqueness_limite _ _ _ _ d1 d2) as e. rewrite Rplus_0_l in e. rewrite e. clear e d1 d2.
pose proof (fr_near _ _ _ cram_Qpos cram_W 0 (Rle_refl 0)) as h. rewrite <- cram_fr in h. rewrite cE in h.
pose proof cram_at0 as h0.
assert (t0 : 0 < IZR (10 ^ 19)) by (apply IZR_lt; lia).
replace (fr' cram_P cram_Q 0 - IZR (10 ^ 35)) with ((fr' cram_P cram_Q 0 - cram_r35 0) + (cram_r35 0 - IZR (10 ^ 35))) by ring.
eapply Rle_trans; [apply Rabs_triang|].
set (t := IZR (10 ^ 19)) in *. clearbody t.
set (u := Rabs (fr' _ _ _ - _)) in *. set (w := Rabs (_ - IZR (10 ^ 35))) in *. clearbody u w. lra.
Qed.
