(* ModelProg2.v : the remaining laws of species_source_sink.py and the system of bateman_nonlin_sys.py.  Exact reals. *)
From Coq Require Import Reals.
From mathcomp Require Import all_ssreflect all_algebra.
From Verif Require Import Rstruct ModelHist ModelOps ModelInt ModelProg.
Set Implicit Arguments.
Unset Strict Implicit.
Unset Printing Implicit Defensive.
Import Order.TTheory GRing.Theory Num.Theory.
Local Open Scope ring_scope.
Section Laws.
Variable F : rcfType.
Variables (pow : F -> F -> F) (ex : F -> F).
(* species_source_sink.py:32-46; jnp.clip(x, lo, None) is max(x, lo) *)
Definition mxf_liq_vapor_nonlin_of (k k_g k_a k_s u_a u_g : F) : F :=
  k * (pow (Num.max u_g (10%:R ^- 16)) (2%:R / 3%:R) + k_s) * (k_g * u_g - k_a * u_a).
(* species_source_sink.py:118-128 *)
Definition mxf_diffusion_sorption (alpha_s k a u_a u_s : F) : F := - k * a * (u_a - u_s / alpha_s).
(* species_source_sink.py:131-146 *)
Definition mxf_arrhenius_of (rgas e apre m_a m_b T u_a u_b : F) : F :=
  let u_stoich := pow u_a m_a * pow u_b m_b in u_stoich * apre * ex (- e / (rgas * T)).
(* species_source_sink.py:149-153 *)
Definition mxf_liq_vapor_raoults (u_a u_g u_tot alpha_g p_si gamma phi k p_tot : F) : result F := Raise NotImplementedError.
End Laws.
(* species_source_sink.py:11 *)
Definition rgas : R := (83145%:R / 10%:R ^+ 4 : R)%R.
Definition mxf_liq_vapor_nonlin := @mxf_liq_vapor_nonlin_of R_rcfType rpow.
Definition mxf_arrhenius := @mxf_arrhenius_of R_rcfType rpow exp rgas.
(* species_source_sink.py:49-50 with the default arguments h, nb, T, and those of bubble_surface_area (line 88: a_k, P) *)
Definition bubble_ig_default (cvol alpha_g k u_a u_g : R) : R :=
  @mxf_liq_vapor_bubble_ig_of R_rcfType rpow PI rgas (1 / 10%:R) (1013%:R * 10%:R ^+ 2) u_a u_g cvol alpha_g k (10%:R ^- 4) 10%:R 900%:R.
(* bateman_nonlin_sys.py:22-86: the species, numbered in keymap order from 1 (0 is 'none'), and the three libraries *)
Definition nb_keymap : seq nat := iota 1 9.
Definition te135 : nat := 4. Definition i135 : nat := 5. Definition xe135a : nat := 6. Definition cs135a : nat := 7.
Definition xe135v : nat := 8. Definition cs135v : nat := 9.
Section Libs.
Local Notation S := (fun k c l => (k, @Single R_rcfType nat_eqType c l)).
Definition gas_purify_lambda : R := (ln 2 / 1)%R.
Definition nb_decay : decay_lib R_rcfType nat_eqType :=
  [:: S 1%N 0%N (3%:R); S 2%N 0%N (3%:R / 10%:R); S 3%N 0%N (3%:R / 10%:R ^+ 2); S te135 i135 (ln 2 / 19%:R);
      S i135 xe135a (ln 2 / (657%:R / 10%:R ^+ 2 * 3600%:R)); S xe135a cs135a (ln 2 / (914%:R / 10%:R ^+ 2 * 3600%:R));
      S cs135a 0%N (ln 2 / (133%:R * 10%:R ^+ 4 * 365%:R * 24%:R * 3600%:R));
      (xe135v, Branches [:: (cs135v, ln 2 / (914%:R / 10%:R ^+ 2 * 3600%:R)); (0%N, gas_purify_lambda)]);
      S cs135v 0%N (ln 2 / (133%:R * 10%:R ^+ 4 * 365%:R * 24%:R * 3600%:R) + gas_purify_lambda)].
Definition sigma_a_xe : R := (10%:R ^- 9)%R.
Definition nb_transmute : decay_lib R_rcfType nat_eqType :=
  [:: S 1%N 0%N 0; S 2%N 0%N 0; S 3%N 0%N 0; S te135 0%N 0; S i135 0%N 0; S xe135a 0%N (- sigma_a_xe); S cs135a 0%N 0;
      S xe135v 0%N (- sigma_a_xe); S cs135v 0%N 0].
Definition sigma_f : R := (10%:R ^- 9)%R.
Definition nb_fission : decay_lib R_rcfType nat_eqType :=
  [:: S 1%N 0%N (3%:R / 10%:R ^+ 2 * sigma_f); S 2%N 0%N (2%:R / 10%:R ^+ 2 * sigma_f); S 3%N 0%N (1 / 10%:R ^+ 2 * sigma_f);
      S te135 0%N (2%:R / 10%:R * sigma_f); S i135 0%N (1 / 10%:R ^+ 2 * sigma_f); S xe135a 0%N 0; S cs135a 0%N 0;
      S xe135v 0%N 0; S cs135v 0%N 0].
End Libs.
(* bateman_nonlin_sys.py:103-124: the object; i_xe_a, i_xe_g are the positions 5 and 7 *)
Record nbat := NBat { nb_phi : R; nb_vol : R; nb_bat : 'M[R]_9; nb_trans : 'M[R]_9; nb_fis : 'cV[R]_9 }.
Definition nbat_new (n_phi tank_vol : option R) : result nbat :=
  B <- @gen_bateman_matrix R_rcfType nat_eqType 0%N nb_keymap nb_decay;;
  T <- @gen_transmute_matrix R_rcfType nat_eqType 0%N nb_keymap nb_transmute 1;;
  Fm <- @gen_transmute_matrix R_rcfType nat_eqType 0%N nb_keymap nb_fission 1;;
  Ok (NBat (if n_phi is Some p then p else 10%:R ^+ 9)%R (if tank_vol is Some v then v else 100%:R)%R B T (\col_i Fm i i)).
(* bateman_nonlin_sys.py:126-132; srcf_xe_av is called without tank_vol, so its defaults alpha_g = 0.05, tank_vol = 100, k = 1e-2 hold *)
Definition ix_a : 'I_9 := inord 5.
Definition ix_g : 'I_9 := inord 7.
Definition nbat_frhs (s : nbat) (t : R) (u : 'cV[R]_9) : 'cV[R]_9 :=
  @nonlin_bateman_rhs R_rcfType 9 (bubble_ig_default 100%:R (5%:R / 10%:R ^+ 2)%R (10%:R ^- 2)%R) ix_a ix_g
     (nb_bat s) (nb_trans s) (nb_fis s) (nb_phi s) u.
(* bateman_nonlin_sys.py:134-135 *)
Definition nbat_fl (s : nbat) (t : R) (u : 'cV[R]_9) : linop [rcfType of R] 9 := MatrixLinOp (nb_bat s).
