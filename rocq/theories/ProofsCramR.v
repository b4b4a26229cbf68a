(* ProofsCramR.v : a rational function close to its own derivative on the negative axis is close to the
   exponential there; the CRAM table passes the test. *)
From Coq Require Import Reals ZArith List Lra Lia Bool.
Import ListNotations.
From Verif Require Import ProofsCramZ.
Local Open Scope R_scope.

Section Analysis.
Variables (P Q : list Z) (c : R).
Hypothesis hQ : forall y, 0 < ev Q y.
Hypothesis hW : forall y, 0 <= y ->
  Rabs (ev (pder P) y * ev Q y - ev P y * ev (pder Q) y + ev P y * ev Q y) <= c * (ev Q y * ev Q y).
Definition fr (x : R) : R := ev P (- x) / ev Q (- x).
Definition fr' (x : R) : R :=
  - (ev (pder P) (- x) * ev Q (- x) - ev P (- x) * ev (pder Q) (- x)) / (ev Q (- x) * ev Q (- x)).

Lemma fr_der x : derivable_pt_lim fr x (fr' x).
Proof.
assert (hn : derivable_pt_lim (fun z => - z) x (-1)).
{ apply (derivable_pt_lim_opp id); apply derivable_pt_lim_id. }
assert (h : derivable_pt_lim (fun y => ev P y / ev Q y) (- x)
  ((ev (pder P) (- x) * ev Q (- x) - ev (pder Q) (- x) * ev P (- x)) / Rsqr (ev Q (- x)))).
{ apply (derivable_pt_lim_div (ev P) (ev Q)); [apply ev_der|apply ev_der|apply Rgt_not_eq, hQ]. }
pose proof (derivable_pt_lim_comp (fun z => - z) (fun y => ev P y / ev Q y) x _ _ hn h) as h1.
unfold fr, fr'. unfold comp in h1.
replace (- (ev (pder P) (- x) * ev Q (- x) - ev P (- x) * ev (pder Q) (- x)) / (ev Q (- x) * ev Q (- x)))
  with ((ev (pder P) (- x) * ev Q (- x) - ev (pder Q) (- x) * ev P (- x)) / Rsqr (ev Q (- x)) * -1).
  exact h1.
unfold Rsqr; field. apply Rgt_not_eq, hQ.
Qed.
Lemma fr_near x : x <= 0 -> Rabs (fr' x - fr x) <= c.
Proof.
intros hx. pose proof (hQ (- x)) as q0. assert (hy : 0 <= - x) by lra. pose proof (hW (- x) hy) as hw.
set (p := ev P (- x)) in *. set (q := ev Q (- x)) in *. set (p' := ev (pder P) (- x)) in *. set (q' := ev (pder Q) (- x)) in *.
assert (qq : 0 < q * q) by (apply Rmult_lt_0_compat; assumption).
replace (fr' x - fr x) with (- (p' * q - p * q' + p * q) * / (q * q)).
2:{ unfold fr, fr'; fold p q p' q'. field. apply Rgt_not_eq; assumption. }
rewrite Rabs_mult, Rabs_Ropp, (Rabs_pos_eq (/ (q * q))) by (left; apply Rinv_0_lt_compat; assumption).
apply Rmult_le_reg_r with (q * q); [assumption|].
rewrite Rmult_assoc, Rinv_l by (apply Rgt_not_eq; assumption). lra.
Qed.
Lemma expm_der x : derivable_pt_lim (fun z => exp (- z)) x (- exp (- x)).
Proof.
assert (hn : derivable_pt_lim (fun z => - z) x (-1)).
{ apply (derivable_pt_lim_opp id); apply derivable_pt_lim_id. }
pose proof (derivable_pt_lim_comp (fun z => - z) exp x _ _ hn (derivable_pt_lim_exp (- x))) as h.
unfold comp in h. replace (- exp (- x)) with (exp (- x) * -1) by ring. exact h.
Qed.
Lemma fr_mono sg x : (sg = 1 \/ sg = -1) -> x <= 0 ->
  c + sg * fr 0 <= c * exp (- x) + sg * (fr x * exp (- x)).
Proof.
intros hs [hx|hx]; [|subst x; rewrite Ropp_0, exp_0; right; ring].
set (g := fun z => c * exp (- z) + sg * (fr z * exp (- z))).
set (g' := fun z => c * - exp (- z) + sg * (fr' z * exp (- z) + fr z * - exp (- z))).
assert (hg : forall z, derivable_pt_lim g z (g' z)).
{ intros z. apply (derivable_pt_lim_plus (fun z => c * exp (- z)) (fun z => sg * (fr z * exp (- z)))).
  - apply (derivable_pt_lim_scal (fun z => exp (- z))); apply expm_der.
  - apply (derivable_pt_lim_scal (fun z => fr z * exp (- z))).
    apply (derivable_pt_lim_mult fr (fun z => exp (- z))); [apply fr_der|apply expm_der]. }
destruct (MVT_cor2 g g' x 0 hx (fun z _ => hg z)) as [z [hz [z1 z2]]].
assert (h0 : g' z <= 0).
{ unfold g'. pose proof (exp_pos (- z)) as e0.
  assert (z3 : z <= 0) by lra. pose proof (fr_near z z3) as hn.
  assert (h1 : sg * (fr' z - fr z) <= c).
  { unfold Rabs in hn. destruct (Rcase_abs (fr' z - fr z)); destruct hs; subst sg; lra. }
  replace (c * - exp (- z) + sg * (fr' z * exp (- z) + fr z * - exp (- z)))
    with (- ((c - sg * (fr' z - fr z)) * exp (- z))) by ring.
  assert (0 <= (c - sg * (fr' z - fr z)) * exp (- z)) by (apply Rmult_le_pos; lra). lra. }
assert (h1 : g 0 - g x <= 0).
{ rewrite hz. assert (0 <= - g' z * (0 - x)) by (apply Rmult_le_pos; lra). lra. }
unfold g in h1. rewrite Ropp_0, exp_0 in h1. lra.
Qed.
Lemma fr_exp x : x <= 0 -> Rabs (fr x - fr 0 * exp x) <= c * (1 - exp x).
Proof.
intros hx. pose proof (fr_mono 1 x (or_introl eq_refl) hx) as h1. pose proof (fr_mono (-1) x (or_intror eq_refl) hx) as h2.
pose proof (exp_pos x) as e0. assert (e1 : exp (- x) * exp x = 1) by (rewrite <- exp_plus, Rplus_opp_l; apply exp_0).
assert (m1 : (c + 1 * fr 0) * exp x <= (c * exp (- x) + 1 * (fr x * exp (- x))) * exp x) by (apply Rmult_le_compat_r; lra).
assert (m2 : (c + -1 * fr 0) * exp x <= (c * exp (- x) + -1 * (fr x * exp (- x))) * exp x) by (apply Rmult_le_compat_r; lra).
replace ((c * exp (- x) + 1 * (fr x * exp (- x))) * exp x) with ((c + fr x) * (exp (- x) * exp x)) in m1 by ring.
replace ((c * exp (- x) + -1 * (fr x * exp (- x))) * exp x) with ((c - fr x) * (exp (- x) * exp x)) in m2 by ring.
rewrite e1 in m1, m2. apply Rabs_le. split; lra.
Qed.
Lemma c_ge0 : 0 <= c.
Proof. pose proof (fr_near 0 (Rle_refl 0)). pose proof (Rabs_pos (fr' 0 - fr 0)). lra. Qed.
Lemma fr_phi1 x : x < 0 -> Rabs (fr x - fr 0 - fr 0 * (exp x - 1)) <= 2 * c * - x.
Proof.
intros hx. pose proof c_ge0 as c0.
set (h := fun z => fr z - fr 0 * exp z). set (h' := fun z => fr' z - fr 0 * exp z).
assert (hh : forall z, derivable_pt_lim h z (h' z)).
{ intros z. apply (derivable_pt_lim_minus fr (fun z => fr 0 * exp z)); [apply fr_der|].
  apply (derivable_pt_lim_scal exp); apply derivable_pt_lim_exp. }
destruct (MVT_cor2 h h' x 0 hx (fun z _ => hh z)) as [z [hz [z1 z2]]].
assert (z3 : z <= 0) by lra.
assert (h1 : Rabs (h' z) <= 2 * c).
{ unfold h'. replace (fr' z - fr 0 * exp z) with ((fr' z - fr z) + (fr z - fr 0 * exp z)) by ring.
  eapply Rle_trans; [apply Rabs_triang|]. pose proof (fr_near z z3). pose proof (fr_exp z z3).
  pose proof (exp_pos z). assert (0 <= c * exp z) by (apply Rmult_le_pos; lra). lra. }
assert (e : fr x - fr 0 - fr 0 * (exp x - 1) = - (h' z * - x)).
{ assert (h 0 = 0) by (unfold h; rewrite exp_0; ring). unfold h in *. lra. }
rewrite e, Rabs_Ropp, Rabs_mult, (Rabs_pos_eq (- x)) by lra.
apply Rmult_le_compat_r; lra.
Qed.
End Analysis.

(* rounding the polynomials *)
Lemma prod_err a b A B ea eb k l : 0 <= k -> 0 <= l ->
  Rabs (a - k * A) <= k * ea -> Rabs (b - l * B) <= l * eb ->
  Rabs (a * b - k * l * (A * B)) <= k * l * (Rabs A * eb + ea * Rabs B + ea * eb).
Proof.
intros k0 l0 ha hb.
replace (a * b - k * l * (A * B)) with ((k * A) * (b - l * B) + (a - k * A) * (l * B) + (a - k * A) * (b - l * B)) by ring.
eapply Rle_trans; [apply Rabs_triang|]. eapply Rle_trans; [apply Rplus_le_compat_r, Rabs_triang|].
rewrite !Rabs_mult, (Rabs_pos_eq k k0), (Rabs_pos_eq l l0).
pose proof (Rabs_pos A). pose proof (Rabs_pos B). pose proof (Rabs_pos (a - k * A)). pose proof (Rabs_pos (b - l * B)).
assert (h1 : k * Rabs A * Rabs (b - l * B) <= k * Rabs A * (l * eb)) by (apply Rmult_le_compat_l; [apply Rmult_le_pos|]; assumption).
assert (h2 : Rabs (a - k * A) * (l * Rabs B) <= k * ea * (l * Rabs B)) by (apply Rmult_le_compat_r; [apply Rmult_le_pos|]; assumption).
assert (h3 : Rabs (a - k * A) * Rabs (b - l * B) <= k * ea * (l * eb)) by (apply Rmult_le_compat; assumption).
lra.
Qed.

Section Round.
Variables (p q : list Z) (kp kq : Z) (c : Z).
Hypothesis kp0 : (0 <= kp)%Z.
Hypothesis kq0 : (0 <= kq)%Z.
Hypothesis kpq : (kq <= kp)%Z.
Hypothesis c0 : (0 <= c)%Z.
(* the four lists are no longer than q *)
Hypothesis len : (length p <= length q)%nat /\ (length (pder p) <= length q)%nat /\ (length (pder q) <= length q)%nat.

Lemma ones_mono l y : 0 <= y -> (length l <= length q)%nat -> ev (pones l) y <= ev (pones q) y.
Proof.
clear len. intros hy. revert l. induction q as [|b m IH]; intros [|a l]; simpl; try lra; try lia.
  intros _. pose proof (Rmult_le_pos _ _ hy (ev_ge0 _ _ hy (pones_ge0 m))). unfold pones in *; lra.
intros hl. assert (h : ev (pones l) y <= ev (pones m) y) by (apply IH; lia).
pose proof (Rmult_le_compat_l y _ _ hy h). unfold pones in *. lra.
Qed.
Lemma rnd_err k l y : (0 <= k)%Z -> 0 <= y -> (length l <= length q)%nat ->
  Rabs (ev l y - IZR (2 ^ k) * ev (prnd k l) y) <= IZR (2 ^ k) * ev (pones q) y.
Proof.
intros hk hy hl. eapply Rle_trans; [apply ev_rnd; assumption|].
apply Rmult_le_compat_l; [apply IZR_le; apply Z.pow_nonneg; lia|apply ones_mono; assumption].
Qed.

Lemma round_ok hs hs' :
  chk32 (bound_polys p q kp kq c 1) hs = true -> chk32 (bound_polys p q kp kq c (-1)) hs' = true ->
  forall y, 0 <= y ->
  Rabs (ev (pder p) y * ev q y - ev p y * ev (pder q) y + ev p y * ev q y) <= IZR c * (ev q y * ev q y).
Proof.
intros H1 H2 y hy. destruct len as [l1 [l2 l3]].
pose proof (chk32_ok _ _ y hy H1) as h1. pose proof (chk32_ok _ _ y hy H2) as h2.
unfold bound_polys in h1, h2.
repeat (rewrite ev_add in h1 || rewrite ev_sc in h1 || rewrite ev_neg in h1 || rewrite ev_mul in h1).
repeat (rewrite ev_add in h2 || rewrite ev_sc in h2 || rewrite ev_neg in h2 || rewrite ev_mul in h2).
pose proof (rnd_err kp p y kp0 hy l1) as rp. pose proof (rnd_err kp (pder p) y kp0 hy l2) as rp'.
pose proof (rnd_err kq q y kq0 hy (le_n _)) as rq. pose proof (rnd_err kq (pder q) y kq0 hy l3) as rq'.
pose proof (ev_abs (prnd kp p) y hy) as ap. pose proof (ev_abs (prnd kp (pder p)) y hy) as ap'.
pose proof (ev_abs (prnd kq q) y hy) as aq. pose proof (ev_abs (prnd kq (pder q)) y hy) as aq'.
pose proof (ev_ge0 _ y hy (pones_ge0 q)) as o0.
set (o := ev (pones q) y) in *.
set (A := ev (prnd kp (pder p)) y) in *. set (B := ev (prnd kq q) y) in *.
set (Cc := ev (prnd kp p) y) in *. set (D := ev (prnd kq (pder q)) y) in *.
set (aA := ev (pabs (prnd kp (pder p))) y) in *. set (aB := ev (pabs (prnd kq q)) y) in *.
set (aC := ev (pabs (prnd kp p)) y) in *. set (aD := ev (pabs (prnd kq (pder q))) y) in *.
set (a := ev (pder p) y) in *. set (b := ev q y) in *. set (cc := ev p y) in *. set (d := ev (pder q) y) in *.
assert (K : IZR (2 ^ kp) = IZR (2 ^ (kp - kq)) * IZR (2 ^ kq)).
{ rewrite <- mult_IZR, <- Z.pow_add_r by lia. f_equal; f_equal; lia. }
assert (L0 : 0 < IZR (2 ^ kq)) by (apply IZR_lt, Z.pow_pos_nonneg; lia).
assert (M0 : 0 < IZR (2 ^ (kp - kq))) by (apply IZR_lt, Z.pow_pos_nonneg; lia).
apply IZR_le in c0.
set (l := IZR (2 ^ kq)) in *. set (m := IZR (2 ^ (kp - kq))) in *. set (k := IZR (2 ^ kp)) in *.
assert (k0 : 0 <= k) by (rewrite K; apply Rmult_le_pos; lra).
assert (l0 : 0 <= l) by lra.
pose proof (prod_err a b A B o o k l k0 l0 rp' rq) as e1.
pose proof (prod_err cc d Cc D o o k l k0 l0 rp rq') as e2.
pose proof (prod_err cc b Cc B o o k l k0 l0 rp rq) as e3.
pose proof (prod_err b b B B o o l l l0 l0 rq rq) as e4.
assert (kl : 0 <= k * l) by (apply Rmult_le_pos; assumption).
assert (ll : 0 <= l * l) by (apply Rmult_le_pos; assumption).
assert (mono : forall X aX Y aY, Rabs X <= aX -> Rabs Y <= aY ->
  Rabs X * o + o * Rabs Y + o * o <= o * (aX + (aY + o))).
{ intros X aX Y aY hX hY. assert (Rabs X * o <= aX * o) by (apply Rmult_le_compat_r; assumption).
  assert (o * Rabs Y <= o * aY) by (apply Rmult_le_compat_l; assumption). lra. }
pose proof (Rmult_le_compat_l _ _ _ kl (mono A aA B aB ap' aq)) as f1.
pose proof (Rmult_le_compat_l _ _ _ kl (mono Cc aC D aD ap aq')) as f2.
pose proof (Rmult_le_compat_l _ _ _ kl (mono Cc aC B aB ap aq)) as f3.
pose proof (Rmult_le_compat_l _ _ _ ll (mono B aB B aB aq aq)) as f4.
(* the centre *)
set (W := A * B - Cc * D + Cc * B).
set (E := o * (aA + (aB + o)) + (o * (aC + (aD + o)) + o * (aC + (aB + o)))).
set (Q2 := B * B - o * (aB + (aB + o))).
assert (g1 : 0 <= IZR c * Q2 + m * (- E + W)) by (unfold W, E, Q2; lra).
assert (g2 : 0 <= IZR c * Q2 + m * (- E - W)) by (unfold W, E, Q2; lra).
assert (t1 : Rabs (a * b - cc * d + cc * b - k * l * W) <= k * l * E).
{ unfold W, E.
  replace (a * b - cc * d + cc * b - k * l * (A * B - Cc * D + Cc * B)) with
    ((a * b - k * l * (A * B)) + (- (cc * d - k * l * (Cc * D)) + (cc * b - k * l * (Cc * B)))) by ring.
  eapply Rle_trans; [apply Rabs_triang|]. eapply Rle_trans; [apply Rplus_le_compat_l, Rabs_triang|].
  rewrite Rabs_Ropp. lra. }
assert (t2 : l * l * Q2 <= b * b).
{ unfold Q2. unfold Rabs in e4 at 1. destruct (Rcase_abs (b * b - l * l * (B * B))); lra. }
assert (t3 : IZR c * (l * l * Q2) <= IZR c * (b * b)) by (apply Rmult_le_compat_l; [exact c0|exact t2]).
assert (u1 : 0 <= (l * l) * (IZR c * Q2 + m * (- E + W))) by (apply Rmult_le_pos; assumption).
assert (u2 : 0 <= (l * l) * (IZR c * Q2 + m * (- E - W))) by (apply Rmult_le_pos; assumption).
replace ((l * l) * (IZR c * Q2 + m * (- E + W))) with (IZR c * (l * l * Q2) + (m * l) * l * (- E + W)) in u1 by ring.
replace ((l * l) * (IZR c * Q2 + m * (- E - W))) with (IZR c * (l * l * Q2) + (m * l) * l * (- E - W)) in u2 by ring.
rewrite <- K in u1, u2.
apply Rabs_le. unfold Rabs in t1. destruct (Rcase_abs (a * b - cc * d + cc * b - k * l * W)); split; lra.
Qed.
End Round.

(* the table of gen_cram_expm: poles in units of 10^-19, weights in units of 10^-25 *)
Definition cram_rows : list row := [
((-108439170786969880260,192774461671816522840),(-5090152186522491565,-242200176528522879700))%Z;
((-52649713434426468895,162202214731679273050),(2115174218246603090700,43892969647380673918000))%Z;
((59481522689511774808,35874573620183222829),(1133977517848393052700000000,1019472170421585645000000000))%Z;
((35091036084149180974,84361989858843750826),(150595852700234675280000000,-57514052776421819979000000))%Z;
((64161776990994341923,11941223933701386874),(-645008780255396465950000000,-2245944076265209605600000000))%Z;
((14193758971856659786,109253634844967225850),(-14793007113557999718000000,17686588323782937906000000))%Z;
((49931747377179963991,59968817136039422260),(-625183924632079188920000000,-111903910942832284800000000))%Z;
((-14139284624888862114,134977256988927453890),(410231368354100212730000,-1574346617345546819100000))%Z].
Definition cram_PQ := fold_left addrow cram_rows ([21248537104952237488]%Z, [1]%Z).
Definition cram_P := Eval vm_compute in fst cram_PQ.
Definition cram_Q := Eval vm_compute in snd cram_PQ.
Lemma cram_PQE : cram_PQ = (cram_P, cram_Q). Proof. vm_compute; reflexivity. Qed.
Definition cram_pieces := [1;2;4;8;16;16;32;32;64;128;256;256]%Z.
Lemma cram_chk1 : chk32 (bound_polys cram_P cram_Q 990 874 (4 * 10 ^ 21) 1) cram_pieces = true.
Proof. vm_compute; reflexivity. Qed.
Lemma cram_chk2 : chk32 (bound_polys cram_P cram_Q 990 874 (4 * 10 ^ 21) (-1)) cram_pieces = true.
Proof. vm_compute; reflexivity. Qed.
(* the value at 0 : within 3e-16 of 1 *)
Lemma cram_chk0 : (let p := hd 0 cram_P in let q := hd 0 cram_Q in
  10 ^ 16 * Z.abs (p - 10 ^ 35 * q) <=? 3 * 10 ^ 35 * q)%Z = true.
Proof. vm_compute; reflexivity. Qed.

Lemma ev0 l : ev l 0 = IZR (hd 0%Z l).
Proof. destruct l; simpl; ring. Qed.
Lemma cram_D y : Forall (fun r => 0 < ev (Dk r) y) cram_rows.
Proof. repeat (constructor; [apply Dk_pos; discriminate|]). constructor. Qed.
Lemma cram_Qpos y : 0 < ev cram_Q y.
Proof.
pose proof (fold_rows cram_rows ([21248537104952237488]%Z, [1]%Z) y (cram_D y)) as h.
cbn zeta in h. fold cram_PQ in h. rewrite cram_PQE in h. cbn [snd] in h. apply h.
simpl; lra.
Qed.
(* 10^35 times the rational function *)
Definition cram_r35 (x : R) : R := IZR 21248537104952237488 + IZR (10 ^ 29) * rsum cram_rows (- x).
Lemma cram_fr x : cram_r35 x = fr cram_P cram_Q x.
Proof.
pose proof (fold_rows cram_rows ([21248537104952237488]%Z, [1]%Z) (- x) (cram_D (- x))) as h.
cbn zeta in h. fold cram_PQ in h. rewrite cram_PQE in h. cbn [fst snd] in h. unfold fr.
destruct h as [_ h]; [simpl; lra|]. rewrite h. unfold cram_r35. cbn [ev]. field.
Qed.
Definition cram_c : R := IZR (4 * 10 ^ 21).
Lemma cram_W y : 0 <= y ->
  Rabs (ev (pder cram_P) y * ev cram_Q y - ev cram_P y * ev (pder cram_Q) y + ev cram_P y * ev cram_Q y)
   <= cram_c * (ev cram_Q y * ev cram_Q y).
Proof.
intros hy. apply round_ok with (kp := 990%Z) (kq := 874%Z) (hs := cram_pieces) (hs' := cram_pieces); try exact hy; try lia.
- vm_compute; repeat split; repeat constructor.
- exact cram_chk1.
- exact cram_chk2.
Qed.
Lemma cram_at0 : Rabs (cram_r35 0 - IZR (10 ^ 35)) <= 3 * IZR (10 ^ 19).
Proof.
rewrite cram_fr. unfold fr. rewrite Ropp_0. pose proof (cram_Qpos 0) as q0. rewrite !ev0 in *.
pose proof cram_chk0 as h. cbn zeta in h. apply Z.leb_le, IZR_le in h.
set (p := hd 0%Z cram_P) in *. set (q := hd 0%Z cram_Q) in *. clearbody p q.
rewrite !mult_IZR, abs_IZR, minus_IZR, mult_IZR in h.
replace (IZR p / IZR q - IZR (10 ^ 35)) with ((IZR p - IZR (10 ^ 35) * IZR q) * / IZR q) by (field; lra).
rewrite Rabs_mult, (Rabs_pos_eq (/ IZR q)) by (left; apply Rinv_0_lt_compat; assumption).
apply Rmult_le_reg_r with (IZR q); [assumption|]. rewrite Rmult_assoc, Rinv_l by lra.
change (IZR (10 ^ 35)) with (IZR (10 ^ 16 * 10 ^ 19)) in h at 2. rewrite mult_IZR in h.
assert (t : 0 < IZR (10 ^ 16)) by (apply IZR_lt; lia).
apply Rmult_le_reg_l with (IZR (10 ^ 16)); [assumption|].
set (X := Rabs _) in *. clearbody X. rewrite Rmult_1_r.
replace (IZR (10 ^ 16) * (3 * IZR (10 ^ 19) * IZR q)) with (3 * (IZR (10 ^ 16) * IZR (10 ^ 19)) * IZR q) by ring.
exact h.
Qed.

(* the bound on the axis, in units of 10^-35 *)
Lemma cE : cram_c = 400 * IZR (10 ^ 19).
Proof. unfold cram_c. rewrite <- mult_IZR. reflexivity. Qed.
Global Opaque cram_r35 cram_c.
Lemma cram_axis35 x : x <= 0 -> Rabs (cram_r35 x - IZR (10 ^ 35) * exp x) <= 500 * IZR (10 ^ 19).
Proof.
intros hx. pose proof (fr_exp _ _ _ cram_Qpos cram_W x hx) as h. rewrite <- !cram_fr in h.
pose proof cram_at0 as h0. set (T := IZR (10 ^ 35)) in *; clearbody T. pose proof (exp_pos x) as e0.
assert (e1 : exp x <= 1).
{ destruct hx as [hx|hx]; [left; rewrite <- exp_0; apply exp_increasing; assumption|subst x; rewrite exp_0; lra]. }
replace (cram_r35 x - T * exp x) with
  ((cram_r35 x - cram_r35 0 * exp x) + (cram_r35 0 - T) * exp x) by ring.
eapply Rle_trans; [apply Rabs_triang|]. rewrite Rabs_mult, (Rabs_pos_eq (exp x)) by lra.
assert (m1 : Rabs (cram_r35 0 - T) * exp x <= 3 * IZR (10 ^ 19) * 1).
{ apply Rmult_le_compat; try lra. apply Rabs_pos. }
assert (m2 : cram_c * (1 - exp x) <= cram_c * 1).
{ apply Rmult_le_compat_l; [rewrite cE; apply Rmult_le_pos; [lra|apply IZR_le; lia]|lra]. }
rewrite cE in *. assert (t0 : 0 < IZR (10 ^ 19)) by (apply IZR_lt; lia).
set (t := IZR (10 ^ 19)) in *. clearbody t. assert (tx : 0 <= t * Rabs x) by (apply Rmult_le_pos; [lra|apply Rabs_pos]).
try (rewrite (Rabs_left x hx) in tx). generalize dependent (cram_r35 x); generalize dependent (cram_r35 0); intros.
lra.
Qed.
Lemma cram_phi35 x : x < 0 -> Rabs (cram_r35 x - cram_r35 0 - IZR (10 ^ 35) * (exp x - 1)) <= 900 * IZR (10 ^ 19) * - x.
Proof.
intros hx. pose proof (fr_phi1 _ _ _ cram_Qpos cram_W x hx) as h. rewrite <- !cram_fr in h.
pose proof cram_at0 as h0. set (T := IZR (10 ^ 35)) in *; clearbody T.
assert (e1 : Rabs (exp x - 1) <= - x).
{ pose proof (exp_ineq1_le x) as e. assert (exp x <= 1) by (left; rewrite <- exp_0; apply exp_increasing; assumption).
  apply Rabs_le; lra. }
replace (cram_r35 x - cram_r35 0 - T * (exp x - 1)) with
  ((cram_r35 x - cram_r35 0 - cram_r35 0 * (exp x - 1)) + (cram_r35 0 - T) * (exp x - 1)) by ring.
eapply Rle_trans; [apply Rabs_triang|]. rewrite Rabs_mult.
assert (m1 : Rabs (cram_r35 0 - T) * Rabs (exp x - 1) <= 3 * IZR (10 ^ 19) * - x).
{ apply Rmult_le_compat; try lra; apply Rabs_pos. }
rewrite cE in *. assert (t0 : 0 < IZR (10 ^ 19)) by (apply IZR_lt; lia).
set (t := IZR (10 ^ 19)) in *. clearbody t. assert (tx : 0 <= t * Rabs x) by (apply Rmult_le_pos; [lra|apply Rabs_pos]).
try (rewrite (Rabs_left x hx) in tx). generalize dependent (cram_r35 x); generalize dependent (cram_r35 0); intros.
lra.
Qed.
