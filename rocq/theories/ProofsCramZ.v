(* ProofsCramZ.v : integer polynomials, used to bound the CRAM rational function on the negative axis. *)
From Coq Require Import Reals ZArith List Lra Lia Bool.
Import ListNotations.
Local Open Scope R_scope.

(* evaluation of an integer polynomial, constant coefficient first *)
Fixpoint ev (l : list Z) (y : R) : R := match l with nil => 0 | a :: l' => IZR a + y * ev l' y end.
Fixpoint padd (l m : list Z) : list Z :=
  match l, m with
  | nil, _ => m
  | _, nil => l
  | a :: l', b :: m' => (a + b)%Z :: padd l' m'
  end.
Definition psc (c : Z) (l : list Z) : list Z := map (Z.mul c) l.
Fixpoint pmul (l m : list Z) : list Z :=
  match l with nil => nil | a :: l' => padd (psc a m) (0%Z :: pmul l' m) end.
Fixpoint pder (l : list Z) : list Z := match l with nil => nil | a :: l' => padd l' (0%Z :: pder l') end.
Fixpoint pshift (c : Z) (l : list Z) : list Z :=
  match l with nil => nil | a :: l' => let m := pshift c l' in padd (a :: m) (psc c m) end.
Fixpoint pdil (h : Z) (l : list Z) : list Z := match l with nil => nil | a :: l' => a :: psc h (pdil h l') end.
Fixpoint pups (h : Z) (l : list Z) : list Z :=
  match l with nil => nil | a :: l' => (a * h ^ Z.of_nat (length l'))%Z :: pups h l' end.
Definition pabs (l : list Z) : list Z := map Z.abs l.
Definition pones (l : list Z) : list Z := map (fun _ => 1%Z) l.
Definition prnd (k : Z) (l : list Z) : list Z := map (fun a => Z.shiftr a k) l.
Definition pneg (l : list Z) : list Z := psc (-1) l.

Lemma ev_add l m y : ev (padd l m) y = ev l y + ev m y.
Proof.
revert m; induction l as [|a l IH]; intros [|b m]; simpl; try ring.
rewrite IH, plus_IZR; ring.
Qed.
Lemma ev_sc c l y : ev (psc c l) y = IZR c * ev l y.
Proof. unfold psc; induction l as [|a l IH]; simpl; [ring|]. rewrite IH, mult_IZR; ring. Qed.
Lemma ev_mul l m y : ev (pmul l m) y = ev l y * ev m y.
Proof.
induction l as [|a l IH]; [simpl; ring|]. cbn [pmul]. rewrite ev_add, ev_sc.
cbn [ev]. rewrite IH. simpl; ring.
Qed.
Lemma ev_neg l y : ev (pneg l) y = - ev l y.
Proof. unfold pneg; rewrite ev_sc; simpl; ring. Qed.
Lemma ev_der l y : derivable_pt_lim (ev l) y (ev (pder l) y).
Proof.
induction l as [|a l IH].
  cbn [pder ev]. apply (derivable_pt_lim_const 0).
cbn [pder]. rewrite ev_add. cbn [ev].
replace (ev l y + (0 + y * ev (pder l) y)) with (0 + (1 * ev l y + y * ev (pder l) y)) by ring.
apply (derivable_pt_lim_plus (fun _ => IZR a) (fun y => y * ev l y)).
  apply derivable_pt_lim_const.
apply (derivable_pt_lim_mult (fun y => y) (ev l)); [apply derivable_pt_lim_id|exact IH].
Qed.
Lemma ev_shift c l y : ev (pshift c l) y = ev l (y + IZR c).
Proof.
induction l as [|a l IH]; [reflexivity|]. cbn [pshift]. rewrite ev_add, ev_sc. cbn [ev]. rewrite IH. ring.
Qed.
Lemma ev_dil h l y : ev (pdil h l) y = ev l (IZR h * y).
Proof. induction l as [|a l IH]; [reflexivity|]. cbn [pdil ev]. rewrite ev_sc, IH. ring. Qed.
Lemma ev_ups h l y : IZR h * ev (pups h l) (IZR h * y) = IZR h ^ length l * ev l y.
Proof.
induction l as [|a l IH]; [simpl; ring|]. cbn [pups ev length].
rewrite mult_IZR, <- pow_IZR.
transitivity (IZR h * (IZR a * IZR h ^ length l) + IZR h * y * (IZR h * ev (pups h l) (IZR h * y))); [ring|].
rewrite IH. simpl; ring.
Qed.
Lemma ev_ge0 l y : 0 <= y -> forallb (Z.leb 0) l = true -> 0 <= ev l y.
Proof.
intros hy; induction l as [|a l IH]; simpl; [lra|]. intros h; apply andb_prop in h; destruct h as [ha hl].
apply Z.leb_le, IZR_le in ha. pose proof (Rmult_le_pos _ _ hy (IH hl)). lra.
Qed.
Lemma ev_abs l y : 0 <= y -> Rabs (ev l y) <= ev (pabs l) y.
Proof.
intros hy; induction l as [|a l IH]; simpl; [rewrite Rabs_R0; lra|].
eapply Rle_trans; [apply Rabs_triang|]. rewrite abs_IZR, Rabs_mult, (Rabs_pos_eq y hy).
apply Rplus_le_compat_l. apply Rmult_le_compat_l; assumption.
Qed.
Lemma pabs_ge0 l : forallb (Z.leb 0) (pabs l) = true.
Proof. induction l as [|a l IH]; simpl; [reflexivity|]. rewrite IH, andb_true_r. apply Z.leb_le; lia. Qed.
Lemma pones_ge0 l : forallb (Z.leb 0) (pones l) = true.
Proof. induction l as [|a l IH]; simpl; [reflexivity|]. exact IH. Qed.
Lemma ev_rnd k l y : (0 <= k)%Z -> 0 <= y ->
  Rabs (ev l y - IZR (2 ^ k) * ev (prnd k l) y) <= IZR (2 ^ k) * ev (pones l) y.
Proof.
intros hk hy.
induction l as [|a l IH]; [simpl; rewrite Rmult_0_r, Rminus_0_r, Rabs_R0; lra|].
cbn [prnd pones map ev].
replace (IZR a + y * ev l y - IZR (2 ^ k) * (IZR (Z.shiftr a k) + y * ev (map (fun a0 : Z => Z.shiftr a0 k) l) y))
  with ((IZR a - IZR (2 ^ k) * IZR (Z.shiftr a k)) + y * (ev l y - IZR (2 ^ k) * ev (prnd k l) y))
  by (unfold prnd; ring).
eapply Rle_trans; [apply Rabs_triang|]. rewrite Rabs_mult, (Rabs_pos_eq y hy).
assert (h1 : Rabs (IZR a - IZR (2 ^ k) * IZR (Z.shiftr a k)) <= IZR (2 ^ k)).
{ rewrite Z.shiftr_div_pow2 by assumption. rewrite <- mult_IZR, <- minus_IZR, <- abs_IZR. apply IZR_le.
  assert (h2 : (0 < 2 ^ k)%Z) by (apply Z.pow_pos_nonneg; lia).
  pose proof (Z_div_mod_eq_full a (2 ^ k)). pose proof (Z.mod_pos_bound a (2 ^ k) h2). lia. }
assert (h3 : y * Rabs (ev l y - IZR (2 ^ k) * ev (prnd k l) y) <= y * (IZR (2 ^ k) * ev (pones l) y))
  by (apply Rmult_le_compat_l; assumption).
unfold pones in *. lra.
Qed.

(* positivity on [0, 1]: the partial sums of the coefficients are non-negative *)
Fixpoint chk01 (acc : Z) (l : list Z) : bool :=
  match l with nil => true | a :: l' => Z.leb 0 (acc + a) && chk01 (acc + a) l' end.
Lemma chk01_ok acc l u : 0 <= u <= 1 -> (0 <= acc)%Z -> chk01 acc l = true -> 0 <= IZR acc + u * ev l u.
Proof.
intros hu; revert acc; induction l as [|a l IH]; intros acc ha h; simpl.
  apply IZR_le in ha; lra.
simpl in h; apply andb_prop in h; destruct h as [h1 h2]. apply Z.leb_le in h1.
specialize (IH _ h1 h2). rewrite plus_IZR in IH. apply IZR_le in ha.
assert (h3 : 0 <= u * (IZR acc + IZR a + u * ev l u)) by (apply Rmult_le_pos; lra).
assert (h4 : 0 <= (1 - u) * IZR acc) by (apply Rmult_le_pos; lra). lra.
Qed.
Lemma chk01_nonneg l u : 0 <= u <= 1 -> chk01 0 l = true -> 0 <= ev l u.
Proof.
intros hu. destruct l as [|a l]; simpl; [lra|]. intros h; apply andb_prop in h; destruct h as [h1 h2].
apply Z.leb_le in h1. apply chk01_ok; assumption.
Qed.
(* pieces of length h, one after the other from a, then a half line; the polynomial is shifted as we go *)
Fixpoint chkpieces (l : list Z) (hs : list Z) : bool :=
  match hs with
  | nil => forallb (Z.leb 0) l
  | h :: hs' => Z.ltb 0 h && chk01 0 (pdil h l) && chkpieces (pshift h l) hs'
  end.
Lemma chkpieces_ok hs : forall l y, 0 <= y -> chkpieces l hs = true -> 0 <= ev l y.
Proof.
induction hs as [|h hs IH]; intros l y hy; simpl; [apply ev_ge0; assumption|].
intros H; apply andb_prop in H; destruct H as [H1 H3]; apply andb_prop in H1; destruct H1 as [H1 H2].
apply Z.ltb_lt, IZR_lt in H1.
destruct (Rle_dec y (IZR h)) as [yh|yh].
  replace y with (IZR h * (y / IZR h)) by (field; lra). rewrite <- ev_dil.
  apply chk01_nonneg; [|assumption]. split; [apply Rmult_le_pos; [lra|left; apply Rinv_0_lt_compat; lra]|].
  apply Rmult_le_reg_r with (IZR h); [lra|]. unfold Rdiv; rewrite Rmult_assoc, Rinv_l by lra. lra.
assert (h5 : 0 <= ev (pshift h l) (y - IZR h)) by (apply IH; [lra|assumption]).
rewrite ev_shift in h5. replace (y - IZR h + IZR h) with y in h5 by ring. exact h5.
Qed.
Definition chk32 (l : list Z) (hs : list Z) : bool := chkpieces (pups 32 l) hs.
Lemma chk32_ok l hs y : 0 <= y -> chk32 l hs = true -> 0 <= ev l y.
Proof.
intros hy h. assert (h1 : 0 <= ev (pups 32 l) (32 * y)) by (apply chkpieces_ok with hs; [lra|exact h]).
pose proof (ev_ups 32 l y) as h2.
assert (h3 : 0 < 32 ^ length l) by (apply pow_lt; lra).
apply Rmult_le_reg_l with (32 ^ length l); [assumption|]. lra.
Qed.

(* the rational function, as a list of rows (C, D, A, B): pole C + iD in units of 10^-19, weight A + iB in
   units of 10^-25 *)
Definition row := (Z * Z * (Z * Z))%type.
Definition Dk (r : row) : list Z :=
  let '(C, D, _) := r in [(C * C + D * D)%Z; (2 * C * 10 ^ 19)%Z; (10 ^ 38)%Z].
Definition Nk (r : row) : list Z :=
  let '(C, D, (A, B)) := r in [(-2 * (A * C + B * D))%Z; (-2 * A * 10 ^ 19)%Z].
Definition addrow (pq : list Z * list Z) (r : row) : list Z * list Z :=
  (padd (pmul (Dk r) (fst pq)) (pmul (psc (10 ^ 29) (Nk r)) (snd pq)), pmul (Dk r) (snd pq)).
Fixpoint rsum (rows : list row) (y : R) : R :=
  match rows with nil => 0 | r :: rows' => ev (Nk r) y / ev (Dk r) y + rsum rows' y end.

Lemma Dk_pos C D AB y : (D <> 0)%Z -> 0 < ev (Dk (C, D, AB)) y.
Proof.
intros hD. cbn [Dk ev]. rewrite plus_IZR, !mult_IZR.
replace (IZR (10 ^ 38)) with (IZR (10 ^ 19) * IZR (10 ^ 19)) by (rewrite <- mult_IZR; f_equal).
set (t := IZR (10 ^ 19)).
replace (IZR C * IZR C + IZR D * IZR D + y * (2 * IZR C * t + y * (t * t + y * 0)))
  with (Rsqr (IZR C + y * t) + Rsqr (IZR D)) by (unfold Rsqr; ring).
pose proof (Rle_0_sqr (IZR C + y * t)).
assert (0 < Rsqr (IZR D)) by (apply Rsqr_pos_lt; apply not_0_IZR; assumption). lra.
Qed.
Lemma fold_rows rows pq y :
  Forall (fun r => 0 < ev (Dk r) y) rows -> 0 < ev (snd pq) y ->
  let pq' := fold_left addrow rows pq in
  0 < ev (snd pq') y /\ ev (fst pq') y / ev (snd pq') y = ev (fst pq) y / ev (snd pq) y + IZR (10 ^ 29) * rsum rows y.
Proof.
intros hr; revert pq; induction hr as [|r rows h1 hr IH]; intros [p q] hq; cbn [rsum fst snd fold_left] in hq |- *.
  split; [exact hq|]. ring.
assert (h2 : 0 < ev (snd (addrow (p, q) r)) y).
{ unfold addrow; cbn [snd]. rewrite ev_mul. apply Rmult_lt_0_compat; assumption. }
destruct (IH (addrow (p, q) r) h2) as [h3 h4]. split; [exact h3|]. rewrite h4.
unfold addrow; cbn [fst snd]. rewrite ev_add, !ev_mul, ev_sc.
generalize (IZR (10 ^ 29)) (ev (Nk r) y) (rsum rows y); intros t nk rs.
field. split; apply Rgt_not_eq; assumption.
Qed.

(* the bound on r' - r : p'q - pq' + pq against c q^2, all rounded *)
Definition bound_polys (p q : list Z) (kp kq : Z) (c : Z) (sg : Z) : list Z :=
  let p' := prnd kp (pder p) in let q' := prnd kq (pder q) in
  let p0 := prnd kp p in let q0 := prnd kq q in
  let o := pones q in
  let W := padd (pmul p' q0) (padd (pneg (pmul p0 q')) (pmul p0 q0)) in
  let E := padd (pmul o (padd (pabs p') (padd (pabs q0) o)))
           (padd (pmul o (padd (pabs p0) (padd (pabs q') o)))
                 (pmul o (padd (pabs p0) (padd (pabs q0) o)))) in
  let Q2 := padd (pmul q0 q0) (pneg (pmul o (padd (pabs q0) (padd (pabs q0) o)))) in
  padd (psc c Q2) (psc (2 ^ (kp - kq)) (padd (pneg E) (psc sg W))).
