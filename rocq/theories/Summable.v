(* Summable.v : absolutely convergent real series in mathcomp notation (an interface over
   Coquelicot's Series).  No code of /repo is modelled here. *)
From Coq Require Import Reals Lra.
From Coquelicot Require Import Coquelicot.
From mathcomp Require Import all_ssreflect all_algebra.
From Verif Require Import Rstruct.
Set Implicit Arguments.
Unset Strict Implicit.
Unset Printing Implicit Defensive.
Import Order.TTheory GRing.Theory Num.Theory.
Local Open Scope ring_scope.

Implicit Types (u v : nat -> R).

Definition summable u : Prop := ex_series (fun i => Rabs (u i)).
Definition ssum u : R := Series u.

Lemma summable_ex u : summable u -> ex_series u.
Proof. exact: ex_series_Rabs. Qed.
Lemma is_ssum u : summable u -> is_series u (ssum u).
Proof. by move=> h; apply: Series_correct; apply: summable_ex. Qed.
Lemma ssum_unique u l : is_series u l -> ssum u = l.
Proof. exact: is_series_unique. Qed.
Lemma ssum_ext u v : u =1 v -> ssum u = ssum v.
Proof. exact: Series_ext. Qed.
Lemma summable_ext u v : u =1 v -> summable u -> summable v.
Proof. by move=> e; apply: ex_series_ext => i; rewrite e. Qed.
Lemma summable_le u v : (forall i, `|u i| <= v i) -> ex_series v -> summable u.
Proof.
move=> h hv; apply: (ex_series_le (fun i => Rabs (u i)) v) => // i.
rewrite /norm /= /abs /=; have /RleP := h i; rewrite -RabsE => hh.
by rewrite Rabs_Rabsolu.
Qed.
Lemma summableD u v : summable u -> summable v -> summable (fun i => u i + v i).
Proof.
move=> hu hv; apply: (@summable_le _ (fun i => `|u i| + `|v i|)) => [i|]; first exact: ler_norm_add.
exact: (ex_series_plus (fun i => Rabs (u i)) (fun i => Rabs (v i))).
Qed.
Lemma summableZ (c : R) u : summable u -> summable (fun i => c * u i).
Proof.
move=> hu; have h := ex_series_scal (Rabs c) _ hu.
apply: ex_series_ext h => i; rewrite /scal /= /mult /=; exact/esym/Rabs_mult.
Qed.
Lemma summable0 : summable (fun _ => 0).
Proof.
have h0 : Rlt (Rabs (IZR 0)) (IZR 1) by rewrite Rabs_R0; lra.
have h := ex_series_scal_l (IZR 0) _ (ex_series_geom _ h0).
apply: (ex_series_ext _ _ _ h) => i.
by rewrite Rabs_R0 /scal /= /mult /= Rmult_0_l.
Qed.
Lemma ssumD u v : summable u -> summable v -> ssum (fun i => u i + v i) = ssum u + ssum v.
Proof. by move=> hu hv; apply: (Series_plus u v); apply: summable_ex. Qed.
Lemma ssumZ (c : R) u : ssum (fun i => c * u i) = c * ssum u.
Proof. exact: (Series_scal_l c u). Qed.
Lemma ssum0 : ssum (fun _ => 0) = 0.
Proof.
rewrite (@ssum_ext _ (fun i => 0 * 0)) => [|i]; last by rewrite mul0r.
by rewrite ssumZ mul0r.
Qed.
Lemma ssumN u : ssum (fun i => - u i) = - ssum u.
Proof. by rewrite -mulN1r -ssumZ; apply: ssum_ext => i; rewrite mulN1r. Qed.
Lemma summableN u : summable u -> summable (fun i => - u i).
Proof. by move/(summableZ (-1)); apply: summable_ext => i; rewrite mulN1r. Qed.
Lemma summable_sum (I : Type) (r : seq I) (P : pred I) (f : I -> nat -> R) :
  (forall j, P j -> summable (f j)) -> summable (fun i => \sum_(j <- r | P j) f j i).
Proof.
move=> h; elim: r => [|a r IH].
  by apply: summable_ext summable0 => i; rewrite big_nil.
case Pa : (P a).
  by apply: summable_ext (summableD (h a Pa) IH) => i; rewrite big_cons Pa.
by apply: summable_ext IH => i; rewrite big_cons Pa.
Qed.
Lemma ssum_sum (I : Type) (r : seq I) (P : pred I) (f : I -> nat -> R) :
  (forall j, P j -> summable (f j)) ->
  ssum (fun i => \sum_(j <- r | P j) f j i) = \sum_(j <- r | P j) ssum (f j).
Proof.
move=> h; elim: r => [|a r IH].
  by rewrite big_nil -[RHS]ssum0; apply: ssum_ext => i; rewrite big_nil.
rewrite big_cons -IH; case Pa : (P a).
  rewrite -ssumD; [|exact: h|exact: summable_sum].
  by apply: ssum_ext => i; rewrite big_cons Pa.
by apply: ssum_ext => i; rewrite big_cons Pa.
Qed.
Lemma summableS u : summable u <-> summable (fun i => u i.+1).
Proof. exact: (ex_series_incr_1 (fun i => Rabs (u i))). Qed.
Lemma ssumS u : summable u -> ssum u = u 0%N + ssum (fun i => u i.+1).
Proof. by move=> h; apply: (Series_incr_1 u); apply: summable_ex. Qed.
Lemma summable_shift k u : summable u <-> summable (fun i => u (i + k)%N).
Proof.
elim: k => [|k IH]; first by split; apply: summable_ext => i; rewrite addn0.
rewrite IH summableS; split; apply: summable_ext => i; by rewrite addSnnS.
Qed.
(* a sequence that is zero before k *)
Lemma ssum_delay k u : summable u ->
  ssum (fun i => if (k <= i)%N then u (i - k)%N else 0) = ssum u.
Proof.
move=> hu; set v := fun _ => _.
have hv j : (j <= k)%N -> summable (fun i => v (i + (k - j))%N) /\ ssum (fun i => v (i + (k - j))%N) = ssum u.
  elim: j => [|j IH] jk.
    have e : (fun i => v (i + (k - 0))%N) =1 u by move=> i; rewrite /v subn0 leq_addl addnK.
    by split; [apply: summable_ext hu => i; rewrite e|apply: ssum_ext].
  have [IH1 IH2] := IH (ltnW jk).
  have e : (fun i => v (i.+1 + (k - j.+1))%N) =1 (fun i => v (i + (k - j))%N).
    by move=> i; rewrite addSnnS subnSK.
  have s : summable (fun i => v (i + (k - j.+1))%N).
    by apply/summableS; apply: summable_ext IH1 => i; rewrite -e.
  split=> //; rewrite ssumS // (ssum_ext e) IH2 /v add0n leqNgt.
  by rewrite ltn_subrL (leq_trans _ jk) //= add0r.
have [_ <-] := hv k (leqnn k).
by apply: ssum_ext => i; rewrite subnn addn0.
Qed.
Lemma summable_delay k u : summable u ->
  summable (fun i => if (k <= i)%N then u (i - k)%N else 0).
Proof.
move=> hu; apply/(summable_shift k); apply: summable_ext hu => i; by rewrite leq_addl addnK.
Qed.

Lemma sum_f_R0E (f : nat -> R) N : sum_f_R0 f N = \sum_(i < N.+1) f i.
Proof. by elim: N => [|N IH] /=; [rewrite big_ord1|rewrite big_ord_recr /= -IH]. Qed.

Lemma sum_nE (f : nat -> R) N : sum_n f N = \sum_(i < N.+1) f i.
Proof. by rewrite sum_n_Reals sum_f_R0E. Qed.

Lemma ssum_lim u : summable u -> is_lim_seq (fun N => \sum_(i < N) u i : R) (ssum u).
Proof.
move=> /is_ssum h; apply/is_lim_seq_incr_1.
have h' : is_lim_seq (sum_n u) (ssum u) := h.
apply: is_lim_seq_ext h' => N; exact: sum_nE.
Qed.

(* Cauchy product *)
Lemma cauchy_prod u v : summable u -> summable v ->
  summable (fun m => \sum_(i < m.+1) u i * v (m - i)%N) /\
  ssum (fun m => \sum_(i < m.+1) u i * v (m - i)%N) = ssum u * ssum v.
Proof.
move=> hu hv; split; last first.
  apply: ssum_unique.
  have h := is_series_mult u v _ _ (is_ssum hu) (is_ssum hv) hu hv.
  by apply: is_series_ext h => m; rewrite sum_f_R0E.
pose u' i := Rabs (u i); pose v' i := Rabs (v i).
have hu' : summable u' by apply: ex_series_ext hu => i; rewrite /u' Rabs_Rabsolu.
have hv' : summable v' by apply: ex_series_ext hv => i; rewrite /v' Rabs_Rabsolu.
have h := is_series_mult u' v' _ _ (is_ssum hu') (is_ssum hv') hu' hv'.
apply: (@summable_le _ (fun m => \sum_(i < m.+1) u' i * v' (m - i)%N)) => [m|].
  apply: (le_trans (ler_norm_sum _ _ _)); apply: ler_sum => i _.
  by rewrite normrM.
eexists; apply: is_series_ext h => m; by rewrite sum_f_R0E.
Qed.

Lemma ssum_ge0 u : summable u -> (forall i, 0 <= u i) -> 0 <= ssum u.
Proof.
move=> hu h; apply/RleP; rewrite -[X in Rle X _]ssum0.
apply: Series_le; last exact: summable_ex.
by move=> i; split; [right|apply/RleP].
Qed.
Lemma ssum_le u v : summable u -> summable v -> (forall i, u i <= v i) -> ssum u <= ssum v.
Proof.
move=> hu hv h; rewrite -subr_ge0 -ssumN -ssumD //; last exact: summableN.
apply: ssum_ge0 => [|i]; first by apply: summableD => //; apply: summableN.
by rewrite subr_ge0.
Qed.
Lemma ler_ssum_abs u : summable u -> `|ssum u| <= ssum (fun i => `|u i|).
Proof. by move=> hu; apply/RleP; exact: (Series_Rabs u hu). Qed.
Lemma summable_abs u : summable u -> summable (fun i => `|u i|).
Proof. by apply: ex_series_ext => i; rewrite -!RabsE Rabs_Rabsolu. Qed.

(* geometric and exponential series *)
Lemma coq_factE i : fact i = i`!.
Proof. by elim: i => // i IH; rewrite factS -IH. Qed.
Lemma summable_exp (x : R) : summable (fun i => x ^+ i / i`!%:R).
Proof.
have h := is_exp_Reals (Rabs x).
exists (exp (Rabs x)); apply: is_series_ext h => i.
rewrite pow_n_pow /scal /= /mult /= -powE RPow_abs.
have f0 : (i`!%:R : R) != 0 by rewrite pnatr_eq0 -lt0n fact_gt0.
rewrite coq_factE INRE.
rewrite -RdivE // /Rdiv Rabs_mult Rabs_inv; congr (Rmult _ (Rinv _)).
by rewrite Rabs_pos_eq //; apply/RleP; rewrite ler0n.
Qed.
