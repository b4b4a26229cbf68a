(* ProofsLejaFast2.v : the points of gen_leja_fast: distinct, in the interval, greedy among midpoints. *)
From mathcomp Require Import all_ssreflect all_algebra.
From mathcomp Require Import ring.
From mathcomp Require Import complex.
From Verif Require Import ModelHist ModelLeja ModelLejaPts ProofsLejaFast.
Set Implicit Arguments.
Unset Strict Implicit.
Unset Printing Implicit Defensive.
Import Order.TTheory GRing.Theory Num.Theory.
Local Open Scope ring_scope.

Section Fast2.
Variable F : realFieldType.
Implicit Types (T W : seq F) (J : seq (nat * nat)).
Local Notation nz := (0, 0)%N.
Local Notation ast := (ast F).

Lemma prod_nseq0 (x : F) m : \prod_(z <- nseq m 0) (x - z) = x ^+ m.
Proof. by elim: m => [|m IH]; rewrite /= ?big_nil // big_cons subr0 IH exprS. Qed.

Lemma shuffle (a b c d : F) : a * (b * (c * d)) = d * (a * (b * c)).
Proof. by rewrite (mulrC c) (mulrCA b) (mulrCA a). Qed.
Definition start (t0 t1 t2 : F) (n : nat) : ast :=
  ([:: t0; t1; t2], [:: (1, 2); (2, 0)]%N,
   [:: `|(t1 + t2) / 2%:R| ^+ (n - 3); `|(t2 + t0) / 2%:R| ^+ (n - 3)]).
Definition ends (a b : F) : F * F := if `|b| < `|a| then (a, b) else (b, a).
Definition start_ab (a b : F) n : ast := start (ends a b).1 (ends a b).2 ((a + b) / 2%:R) n.
Lemma rel_init a b n : (3 <= n)%N -> rel n (lf_init a b n) (start_ab a b n).
Proof.
case: n => [|[|[|n]]] // _; rewrite /lf_init /start_ab /start.
have -> : (n.+3 - 3 = n)%N by rewrite subSS subSS subSS subn0.
have -> : (if `|b| < `|a| then [:: a; b; (a + b) / 2%:R] else [:: b; a; (a + b) / 2%:R]) =
          [:: (ends a b).1; (ends a b).2; (a + b) / 2%:R] by rewrite /ends; case: ifP.
move: (ends a b).1 (ends a b).2 ((a + b) / 2%:R) => t0 t1 t2.
split=> //=.
- split=> //; split=> //.
    by move=> p; rewrite !inE => /orP [] /eqP ->.
  by move=> w; rewrite !inE => /orP [] /eqP ->; apply: exprn_ge0; apply: normr_ge0.
- by rewrite !subSS subn0.
rewrite !big_cons !prod_nseq0 !big_nil normr0.
have e k : [seq `|z| | z <- nseq k (0 : F)] = nseq k 0 by elim: k => //= k ->; rewrite normr0.
rewrite e; congr [:: _, _, _ & _].
- by rewrite mulr1 (normrM _ (_ * _)) (normrM _ (_ * _)) (normrM _ (_ ^+ _)) normrX; exact: shuffle.
- by rewrite mulr1 (normrM _ (_ * _)) (normrM _ (_ * _)) (normrM _ (_ ^+ _)) normrX; exact: shuffle.
Qed.

Lemma size_astep (s : ast) : size (astep s).1.1 = (size s.1.1).+1.
Proof. by case: s => [[T J] W] /=; rewrite size_rcons. Qed.
Lemma size_iter (s : ast) m : size (iter m (@astep F) s).1.1 = (size s.1.1 + m)%N.
Proof. by elim: m => [|m IH]; rewrite ?addn0 // iterS size_astep IH addnS. Qed.
Lemma rel_foldl n st (s : ast) m : rel n st s -> (size s.1.1 + m <= n)%N ->
  rel n (foldl (@lf_step F) st (iota (size s.1.1) m)) (iter m (@astep F) s).
Proof.
elim: m st s => [//|m IH] st s h hm; rewrite iterSr /= -size_astep.
apply: IH; last by rewrite size_astep addSnnS.
by apply: rel_step => //; apply: leq_trans hm; rewrite addnS ltnS leq_addr.
Qed.
Theorem gen_fast_abs a b n : (3 <= n)%N ->
  gen_leja_fast a b n = Ok (iter (n - 3) (@astep F) (start_ab a b n)).1.1.
Proof.
move=> n3; rewrite /gen_leja_fast ltnNge n3 /=.
have h := @rel_foldl n (lf_init a b n) (start_ab a b n) (n - 3) (rel_init a b n3).
have /h : (size (start_ab a b n).1.1 + (n - 3) <= n)%N by rewrite /= subnKC.
have := size_iter (start_ab a b n) (n - 3).
case: (iter _ _ _) => [[T J] W] /= sT [_ -> _ _ _].
by rewrite sT subnKC // subnn cats0.
Qed.
Lemma iter_ok a b n m : ok_ast (iter m (@astep F) (start_ab a b n)).
Proof.
elim: m => [|m IH]; last by rewrite iterS; apply: astep_ok.
rewrite /start_ab; split=> //.
  by move=> p; rewrite !inE => /orP [] /eqP ->.
by move=> w; rewrite !inE => /orP [] /eqP ->; apply: exprn_ge0; apply: normr_ge0.
Qed.
Lemma astep_prefix (s : ast) : take (size s.1.1) (astep s).1.1 = s.1.1.
Proof. by case: s => [[T J] W] /=; rewrite -cats1 take_size_cat. Qed.
Lemma iter_prefix (s : ast) m k : take (size (iter m (@astep F) s).1.1) (iter (m + k) (@astep F) s).1.1 =
   (iter m (@astep F) s).1.1.
Proof.
elim: k => [|k IH]; first by rewrite addn0 take_size.
rewrite addnS iterS -[RHS]IH -[in RHS](astep_prefix (iter (m + k) (@astep F) s)) take_take // !size_iter.
by rewrite leq_add2l leq_addr.
Qed.
Lemma iter_nth (s : ast) m k : (size s.1.1 + m < size (iter (m + k.+1) (@astep F) s).1.1)%N ->
  (iter (m + k.+1) (@astep F) s).1.1`_(size s.1.1 + m) = (astep (iter m (@astep F) s)).1.1`_(size s.1.1 + m).
Proof.
move=> _; have := iter_prefix s m.+1 k; rewrite addSnnS => <-.
by rewrite nth_take // size_iter addnS ltnSn.
Qed.

(* ---- the invariant ---- *)
Section Inv.
Variable sg : F.
Hypothesis sg0 : sg != 0.
Local Notation "u <<< v" := (sg * u < sg * v) (at level 70).
Definition gap T (u v : F) : Prop := u <<< v /\ forall x, x \in T -> ~~ ((u <<< x) && (x <<< v)).
Definition inv (s : ast) : Prop :=
  let: (T, J, W) := s in
  [/\ uniq T, uniq [seq p.1 | p <- J],
      forall p, p \in J -> gap T T`_p.1 T`_p.2 &
      forall u v, u \in T -> v \in T -> gap T u v -> exists p, [/\ p \in J, u = T`_p.1 & v = T`_p.2]].
Lemma mid_between u v : u <<< v -> (u <<< (u + v) / 2%:R) /\ ((u + v) / 2%:R <<< v).
Proof.
move=> h; have e : sg * ((u + v) / 2%:R) = (sg * u + sg * v) / 2%:R by rewrite mulrA mulrDr.
have h2 : (0 : F) < 2%:R by rewrite ltr0n.
have d (x : F) : x * 2%:R = x + x by rewrite mulr_natr mulr2n.
rewrite e; split.
  by rewrite ltr_pdivl_mulr // d ltr_add2l.
by rewrite ltr_pdivr_mulr // d ltr_add2r.
Qed.
Lemma inv_step (s : ast) : ok_ast s -> inv s -> inv (astep s).
Proof.
case: s => [[T J] W] hok [uT uJ hgap hall]; have hk := pick_lt hok.
case: hok => h3 hJ hW hp hw; rewrite /astep; set k := pick T J W in hk *.
set q := nth nz J k; have hq : q \in J by rewrite mem_nth.
have /andP [hq1 hq2] := hp _ hq.
have [g1 g2] := hgap _ hq.
set m := (mids T J)`_k; have em : m = (T`_q.1 + T`_q.2) / 2%:R by rewrite /m nth_mids.
have [m1 m2] : (T`_q.1 <<< m) /\ (m <<< T`_q.2) by rewrite em; apply: mid_between.
have mT : m \notin T.
  by apply/negP => /g2; rewrite m1 m2.
have nthT j : (j < size T)%N -> (rcons T m)`_j = T`_j by move=> h; rewrite nth_rcons h.
have nthm : (rcons T m)`_(size T) = m by rewrite nth_rcons ltnn eqxx.
have memJ' p : p \in rcons (set_nth nz J k (q.1, size T)) (size T, q.2) ->
   [\/ p = (q.1, size T), p = (size T, q.2) | p \in J /\ p.1 <> q.1].
  rewrite mem_rcons inE => /orP [/eqP ->|]; first by constructor 2.
  move=> /(nthP nz) [j]; rewrite size_set_nth (maxn_idPr hk) => hj <-; rewrite nth_set_nth /=.
  case: eqP => [_|nj]; first by constructor 1.
  constructor 3; split; first exact: mem_nth.
  move=> e; apply: nj; apply/eqP; rewrite -(nth_uniq 0%N _ _ uJ) ?size_map //.
  by rewrite !(nth_map nz) // e.
have disj p : p \in J -> p.1 <> q.1 -> ~~ ((T`_p.1 <<< m) && (m <<< T`_p.2)).
  move=> hpJ np; have /andP [hp1 hp2] := hp _ hpJ; have [gp1 gp2] := hgap _ hpJ.
  apply/negP => /andP [a1 a2].
  have : (T`_p.1 <<< T`_q.1) || ((T`_q.1 <<< T`_p.1) || (T`_p.1 == T`_q.1)).
    rewrite -(inj_eq (mulfI sg0)); case: ltgtP => //.
  case/or3P => h.
  - by have := gp2 _ (mem_nth 0 hq1); rewrite h (lt_trans m1 a2).
  - by have := g2 _ (mem_nth 0 hp1); rewrite h (lt_trans a1 m2).
  - by apply: np; apply/eqP; rewrite -(nth_uniq 0 hp1 hq1 uT).
split.
- by rewrite rcons_uniq mT uT.
- rewrite map_rcons /= rcons_uniq.
  have -> : [seq p.1 | p <- set_nth nz J k (q.1, size T)] = [seq p.1 | p <- J].
    apply: (@eq_from_nth _ 0%N); rewrite !size_map size_set_nth (maxn_idPr hk) // => j hj.
    rewrite !(nth_map nz) ?size_set_nth ?(maxn_idPr hk) // nth_set_nth /=.
    by case: eqP => [->|].
  rewrite uJ andbT; apply/negP => /mapP [p /hp /andP [h _] e].
  by move: h; rewrite -e ltnn.
- move=> p /memJ' [->|->|[hpJ np]] /=.
  + rewrite nthT // nthm; split=> // x; rewrite mem_rcons inE => /orP [/eqP ->|hx].
      by rewrite ltxx andbF.
    apply/negP => /andP [a1 a2]; have := g2 _ hx; by rewrite a1 (lt_trans a2 m2).
  + rewrite nthm nthT //; split=> // x; rewrite mem_rcons inE => /orP [/eqP ->|hx].
      by rewrite ltxx.
    apply/negP => /andP [a1 a2]; have := g2 _ hx; by rewrite (lt_trans m1 a1) a2.
  + have /andP [hp1 hp2] := hp _ hpJ; have [gp1 gp2] := hgap _ hpJ.
    rewrite !nthT //; split=> // x; rewrite mem_rcons inE => /orP [/eqP ->|]; last exact: gp2.
    exact: disj.
- move=> u v; rewrite !mem_rcons !inE => hu hv [uv g].
  have g' x : x \in T -> ~~ ((u <<< x) && (x <<< v)) by move=> hx; apply: g; rewrite mem_rcons inE hx orbT.
  have gm : ~~ ((u <<< m) && (m <<< v)) by apply: g; rewrite mem_rcons mem_head.
  have tot x y : ~~ (x <<< y) -> x <> y -> y <<< x.
    rewrite -leNgt le_eqVlt => /orP [/eqP /(mulfI sg0) -> //|//].
  have inq1 : (q.1, size T) \in rcons (set_nth nz J k (q.1, size T)) (size T, q.2).
    rewrite mem_rcons inE; apply/orP; right; apply/(nthP nz); exists k; rewrite ?nth_set_nth /= ?eqxx //.
    by rewrite size_set_nth (maxn_idPr hk).
  have inq2 : (size T, q.2) \in rcons (set_nth nz J k (q.1, size T)) (size T, q.2) by rewrite mem_rcons mem_head.
  case/orP: hu => [/eqP eu|hu].
    case/orP: hv => [/eqP ev|hv]; first by move: uv; rewrite eu ev ltxx.
    exists (size T, q.2); split=> //=; first by rewrite nthm.
    rewrite nthT //; case: (eqVneq v T`_q.2) => [//|/eqP nv].
    have h1 : ~~ (v <<< T`_q.2).
      by apply/negP => h; have := g2 _ hv; rewrite h andbT (lt_trans m1) // -eu.
    have h2 := tot _ _ h1 nv.
    by have := g' _ (mem_nth 0 hq2); rewrite h2 eu m2.
  case/orP: hv => [/eqP ev|hv].
    exists (q.1, size T); split=> //=; last by rewrite nthm.
    rewrite nthT //; case: (eqVneq u T`_q.1) => [//|/eqP nu].
    have h1 : ~~ (T`_q.1 <<< u).
      by apply/negP => h; have := g2 _ hu; rewrite h /= (lt_trans _ m2) // -ev.
    have h2 : u <<< T`_q.1 by apply: tot h1 _ => e; apply: nu.
    by have := g' _ (mem_nth 0 hq1); rewrite h2 ev m1.
  have [p [hpJ eu ev]] := hall _ _ hu hv (conj uv g').
  have /andP [hp1 hp2] := hp _ hpJ.
  have np : p.1 <> q.1.
    move=> e; have pq : p = q.
      move: (hpJ) => /(nthP nz) [j hj ej]; rewrite -ej /q; congr nth.
      apply/eqP; rewrite -(nth_uniq 0%N _ _ uJ) ?size_map // !(nth_map nz) // ej -/q e //.
    by move: gm; rewrite eu ev pq m1 m2.
  exists p; rewrite !nthT //; split=> //.
  rewrite mem_rcons inE; apply/orP; right.
  move: (hpJ) => /(nthP nz) [j hj ej]; apply/(nthP nz); exists j.
    by rewrite size_set_nth (maxn_idPr hk).
  rewrite nth_set_nth /=; case: eqP => // ejk; case: np; by rewrite -ej ejk.
Qed.
Lemma inv_iter (s : ast) m : ok_ast s -> inv s -> inv (iter m (@astep F) s).
Proof.
move=> ho hi; suff [] : ok_ast (iter m (@astep F) s) /\ inv (iter m (@astep F) s) by [].
by elim: m => [//|m [h1 h2]]; split; [apply: astep_ok|apply: inv_step].
Qed.
(* start *)
Lemma inv_start (t0 t1 : F) n : t1 <<< t0 -> inv (start t0 t1 ((t1 + t0) / 2%:R) n).
Proof.
move=> h; have [h1 h2] := mid_between h; set t2 := (t1 + t0) / 2%:R in h1 h2 *.
have n21 : (t2 == t1) = false by apply/negbTE/eqP => e; move: h1; rewrite e ltxx.
have n20 : (t2 == t0) = false by apply/negbTE/eqP => e; move: h2; rewrite e ltxx.
have n10 : (t1 == t0) = false by apply/negbTE/eqP => e; move: h; rewrite e ltxx.
split=> //.
- by rewrite /= !inE negb_or (eq_sym t0) n10 (eq_sym t0) n20 (eq_sym t1) n21.
- move=> p; rewrite !inE => /orP [] /eqP -> /=; split=> // x; rewrite !inE => /or3P [] /eqP ->.
  + by rewrite (lt_gtF h2) andbF.
  + by rewrite ltxx.
  + by rewrite ltxx andbF.
  + by rewrite ltxx andbF.
  + by rewrite (lt_gtF h1).
  + by rewrite ltxx.
- move=> u v hu hv [uv g].
  have c1 := g t1; have c2 := g t2; have c0 := g t0.
  have m0 : t0 \in [:: t0; t1; t2] by rewrite !inE eqxx.
  have m1 : t1 \in [:: t0; t1; t2] by rewrite !inE eqxx orbT.
  have m2 : t2 \in [:: t0; t1; t2] by rewrite !inE eqxx !orbT.
  move: hu hv uv g c1 c2 c0; rewrite !inE => /or3P [] /eqP -> /or3P [] /eqP -> uv g c1 c2 c0.
  + by move: uv; rewrite ltxx.
  + by move: uv; rewrite (lt_gtF h).
  + by move: uv; rewrite (lt_gtF h2).
  + by move: (g _ m2); rewrite h1 h2.
  + by move: uv; rewrite ltxx.
  + by exists (1, 2)%N; rewrite !inE eqxx.
  + by exists (2, 0)%N; rewrite !inE eqxx orbT.
  + by move: uv; rewrite (lt_gtF h1).
  + by move: uv; rewrite ltxx.
Qed.
End Inv.
End Fast2.
