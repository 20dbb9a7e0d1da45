(** * OptModel: control parameters.

    Models src/hif/Options.h and the per-level refinement of the parameters,
    src/hif/alg/factor.hpp.  Doubles are an abstract type with the operations
    the code uses ([DOps]); C++ implicit conversions between int and double are
    [d_of_int] and [int_of_d]. *)
From Coq Require Import List ZArith String Bool.
From Verif Require Import Base.
Import ListNotations.
Open Scope string_scope.

(** Double precision operations used by Options.h / determine_fac_pars. *)
Record DOps : Type := mkDOps {
  D : Type;
  d_of_int : Z -> D;
  int_of_d : D -> Z;      (* C++ conversion double -> int *)
  dmul : D -> D -> D;
  ddiv : D -> D -> D;
  dpow : D -> D -> D;     (* std::pow *)
  dmin : D -> D -> D;     (* std::min *)
  dmax : D -> D -> D      (* std::max *)
}.

(** struct hif_Options, Options.h:82-118. *)
Record Opts (F : DOps) : Type := mkOpts {
  tau_L : D F; tau_U : D F; kappa_d : D F; kappa : D F; alpha_L : D F; alpha_U : D F;
  rho : D F; c_d : D F; c_h : D F;
  optN : Z; verbose : Z; rf_par : Z; reorder : Z; spd : Z; check : Z; pre_scale : Z;
  symm_pre_lvls : Z; threads : Z; mumps_blr : Z; fat_schur_1st : Z;
  rrqr_cond : D F; pivot : Z; gamma : D F; beta : D F;
  is_symm : Z; no_pre : Z; nzp_thres : D F; dense_thres : Z
}.
Arguments mkOpts {F}.
Arguments tau_L {F}. Arguments tau_U {F}. Arguments kappa_d {F}. Arguments kappa {F}.
Arguments alpha_L {F}. Arguments alpha_U {F}. Arguments rho {F}. Arguments c_d {F}. Arguments c_h {F}.
Arguments optN {F}. Arguments verbose {F}. Arguments rf_par {F}. Arguments reorder {F}. Arguments spd {F}.
Arguments check {F}. Arguments pre_scale {F}. Arguments symm_pre_lvls {F}. Arguments threads {F}.
Arguments mumps_blr {F}. Arguments fat_schur_1st {F}. Arguments rrqr_cond {F}. Arguments pivot {F}.
Arguments gamma {F}. Arguments beta {F}. Arguments is_symm {F}. Arguments no_pre {F}.
Arguments nzp_thres {F}. Arguments dense_thres {F}.

Section M.
  Variable F : DOps.
  Notation Opts := (Opts F). Notation D := (D F).

  (** A value passed to the setters: [int] or [double]. *)
  Inductive oval := VI (z : Z) | VD (d : D).
  Definition toD (v : oval) : D := match v with VI z => d_of_int F z | VD d => d end.
  Definition toZ (v : oval) : Z := match v with VI z => z | VD d => int_of_d F d end.

  (** internal::option_tag2pos, Options.h:411-439. *)
  Definition option_tag2pos : list (string * nat) :=
    [("tau_L", 0); ("tau_U", 1); ("kappa_d", 2); ("kappa", 3); ("alpha_L", 4); ("alpha_U", 5);
     ("rho", 6); ("c_d", 7); ("c_h", 8); ("N", 9); ("verbose", 10); ("rf_par", 11); ("reorder", 12);
     ("spd", 13); ("check", 14); ("pre_scale", 15); ("symm_pre_lvls", 16); ("threads", 17);
     ("mumps_blr", 18); ("fat_schur_1st", 19); ("rrqr_cond", 20); ("pivot", 21); ("gamma", 22);
     ("beta", 23); ("is_symm", 24); ("no_pre", 25); ("nzp_thres", 26); ("dense_thres", 27)].

  Fixpoint map_at (m : list (string * nat)) (k : string) : option nat :=
    match m with
    | [] => None
    | (k', p) :: t => if String.eqb k k' then Some p else map_at t k
    end.

  (** the switch of set_option_attr, Options.h:463-547: assignment to one member. *)
  Definition assign (pos : nat) (v : oval) (o : Opts) : Opts :=
    match o with
    | mkOpts a0 a1 a2 a3 a4 a5 a6 a7 a8 a9 a10 a11 a12 a13 a14 a15 a16 a17 a18 a19 a20 a21 a22 a23 a24 a25 a26 a27 =>
      match pos with
      | 0 => mkOpts (toD v) a1 a2 a3 a4 a5 a6 a7 a8 a9 a10 a11 a12 a13 a14 a15 a16 a17 a18 a19 a20 a21 a22 a23 a24 a25 a26 a27
      | 1 => mkOpts a0 (toD v) a2 a3 a4 a5 a6 a7 a8 a9 a10 a11 a12 a13 a14 a15 a16 a17 a18 a19 a20 a21 a22 a23 a24 a25 a26 a27
      | 2 => mkOpts a0 a1 (toD v) a3 a4 a5 a6 a7 a8 a9 a10 a11 a12 a13 a14 a15 a16 a17 a18 a19 a20 a21 a22 a23 a24 a25 a26 a27
      | 3 => mkOpts a0 a1 a2 (toD v) a4 a5 a6 a7 a8 a9 a10 a11 a12 a13 a14 a15 a16 a17 a18 a19 a20 a21 a22 a23 a24 a25 a26 a27
      | 4 => mkOpts a0 a1 a2 a3 (toD v) a5 a6 a7 a8 a9 a10 a11 a12 a13 a14 a15 a16 a17 a18 a19 a20 a21 a22 a23 a24 a25 a26 a27
      | 5 => mkOpts a0 a1 a2 a3 a4 (toD v) a6 a7 a8 a9 a10 a11 a12 a13 a14 a15 a16 a17 a18 a19 a20 a21 a22 a23 a24 a25 a26 a27
      | 6 => mkOpts a0 a1 a2 a3 a4 a5 (toD v) a7 a8 a9 a10 a11 a12 a13 a14 a15 a16 a17 a18 a19 a20 a21 a22 a23 a24 a25 a26 a27
      | 7 => mkOpts a0 a1 a2 a3 a4 a5 a6 (toD v) a8 a9 a10 a11 a12 a13 a14 a15 a16 a17 a18 a19 a20 a21 a22 a23 a24 a25 a26 a27
      | 8 => mkOpts a0 a1 a2 a3 a4 a5 a6 a7 (toD v) a9 a10 a11 a12 a13 a14 a15 a16 a17 a18 a19 a20 a21 a22 a23 a24 a25 a26 a27
      | 9 => mkOpts a0 a1 a2 a3 a4 a5 a6 a7 a8 (toZ v) a10 a11 a12 a13 a14 a15 a16 a17 a18 a19 a20 a21 a22 a23 a24 a25 a26 a27
      | 10 => mkOpts a0 a1 a2 a3 a4 a5 a6 a7 a8 a9 (toZ v) a11 a12 a13 a14 a15 a16 a17 a18 a19 a20 a21 a22 a23 a24 a25 a26 a27
      | 11 => mkOpts a0 a1 a2 a3 a4 a5 a6 a7 a8 a9 a10 (toZ v) a12 a13 a14 a15 a16 a17 a18 a19 a20 a21 a22 a23 a24 a25 a26 a27
      | 12 => mkOpts a0 a1 a2 a3 a4 a5 a6 a7 a8 a9 a10 a11 (toZ v) a13 a14 a15 a16 a17 a18 a19 a20 a21 a22 a23 a24 a25 a26 a27
      | 13 => mkOpts a0 a1 a2 a3 a4 a5 a6 a7 a8 a9 a10 a11 a12 (toZ v) a14 a15 a16 a17 a18 a19 a20 a21 a22 a23 a24 a25 a26 a27
      | 14 => mkOpts a0 a1 a2 a3 a4 a5 a6 a7 a8 a9 a10 a11 a12 a13 (toZ v) a15 a16 a17 a18 a19 a20 a21 a22 a23 a24 a25 a26 a27
      | 15 => mkOpts a0 a1 a2 a3 a4 a5 a6 a7 a8 a9 a10 a11 a12 a13 a14 (toZ v) a16 a17 a18 a19 a20 a21 a22 a23 a24 a25 a26 a27
      | 16 => mkOpts a0 a1 a2 a3 a4 a5 a6 a7 a8 a9 a10 a11 a12 a13 a14 a15 (toZ v) a17 a18 a19 a20 a21 a22 a23 a24 a25 a26 a27
      | 17 => mkOpts a0 a1 a2 a3 a4 a5 a6 a7 a8 a9 a10 a11 a12 a13 a14 a15 a16 (toZ v) a18 a19 a20 a21 a22 a23 a24 a25 a26 a27
      | 18 => mkOpts a0 a1 a2 a3 a4 a5 a6 a7 a8 a9 a10 a11 a12 a13 a14 a15 a16 a17 (toZ v) a19 a20 a21 a22 a23 a24 a25 a26 a27
      | 19 => mkOpts a0 a1 a2 a3 a4 a5 a6 a7 a8 a9 a10 a11 a12 a13 a14 a15 a16 a17 a18 (toZ v) a20 a21 a22 a23 a24 a25 a26 a27
      | 20 => mkOpts a0 a1 a2 a3 a4 a5 a6 a7 a8 a9 a10 a11 a12 a13 a14 a15 a16 a17 a18 a19 (toD v) a21 a22 a23 a24 a25 a26 a27
      | 21 => mkOpts a0 a1 a2 a3 a4 a5 a6 a7 a8 a9 a10 a11 a12 a13 a14 a15 a16 a17 a18 a19 a20 (toZ v) a22 a23 a24 a25 a26 a27
      | 22 => mkOpts a0 a1 a2 a3 a4 a5 a6 a7 a8 a9 a10 a11 a12 a13 a14 a15 a16 a17 a18 a19 a20 a21 (toD v) a23 a24 a25 a26 a27
      | 23 => mkOpts a0 a1 a2 a3 a4 a5 a6 a7 a8 a9 a10 a11 a12 a13 a14 a15 a16 a17 a18 a19 a20 a21 a22 (toD v) a24 a25 a26 a27
      | 24 => mkOpts a0 a1 a2 a3 a4 a5 a6 a7 a8 a9 a10 a11 a12 a13 a14 a15 a16 a17 a18 a19 a20 a21 a22 a23 (toZ v) a25 a26 a27
      | 25 => mkOpts a0 a1 a2 a3 a4 a5 a6 a7 a8 a9 a10 a11 a12 a13 a14 a15 a16 a17 a18 a19 a20 a21 a22 a23 a24 (toZ v) a26 a27
      | 26 => mkOpts a0 a1 a2 a3 a4 a5 a6 a7 a8 a9 a10 a11 a12 a13 a14 a15 a16 a17 a18 a19 a20 a21 a22 a23 a24 a25 (toD v) a27
      | 27 => mkOpts a0 a1 a2 a3 a4 a5 a6 a7 a8 a9 a10 a11 a12 a13 a14 a15 a16 a17 a18 a19 a20 a21 a22 a23 a24 a25 a26 (toZ v)
      | _ => o
      end
    end.

  (** set_option_attr, Options.h:454-549; the returned flag is [true] on failure. *)
  Definition set_option_attr (attr : string) (v : oval) (o : Opts) : bool * Opts :=
    match map_at option_tag2pos attr with
    | None => (true, o)
    | Some pos => (false, assign pos v o)
    end.

  (** operator>>, Options.h:574-583: the members in the order they are read.
      A stream is a list of tokens that parse as the type they are read into
      (so a token is a value); too few tokens leave the stream in a failed
      state, [Err] here. *)
  Definition read_order : list nat :=
    [0; 1; 2; 3; 4; 5; 6; 7; 8; 9; 10; 11; 12; 13; 14; 15; 16; 17; 18; 19; 20; 22; 23; 24; 25; 26; 27].

  Fixpoint read_members (ord : list nat) (toks : list oval) (o : Opts) : res (Opts * list oval) :=
    match ord with
    | [] => Ok (o, toks)
    | p :: ord' => match toks with
                   | [] => Err
                   | v :: toks' => read_members ord' toks' (assign p v o)
                   end
    end.
  Definition read_options (toks : list oval) (o : Opts) : res (Opts * list oval) :=
    read_members read_order toks o.

  (** hif_enable_verbose, Options.h:180-187 (a null pointer is a no-op). *)
  Definition enable_verbose (flag : Z) (o : Opts) : Opts :=
    if (0 <? flag)%Z then assign 10 (VI (Z.lor (verbose o) flag)) o else assign 10 (VI 0) o.

  (** internal::determine_fac_pars, factor.hpp:79-105; returns the tuple in the
      order of the [make_tuple] call. *)
  Definition determine_fac_pars (o : Opts) (lvl : Z) : D * D * D * D * D * D :=
    let one := d_of_int F 1 in
    let two := d_of_int F 2 in
    let ten := d_of_int F 10 in
    if negb (rf_par o =? 0)%Z then
      let fac := d_of_int F (Z.min lvl 2) in
      let fac2 := ddiv F one (dmin F ten (dpow F ten (d_of_int F (lvl - 1)))) in
      let kd := dmax F two (dpow F (kappa_d o) (ddiv F one fac)) in
      let k := dmax F two (dpow F (kappa o) (ddiv F one fac)) in
      let tU := dmul F (tau_U o) fac2 in
      let tL := dmul F (tau_L o) fac2 in
      if (2 <? lvl)%Z then (kd, k, tU, tL, alpha_L o, alpha_U o)
      else (kd, k, tU, tL, dmul F (alpha_L o) fac, dmul F (alpha_U o) fac)
    else (kappa_d o, kappa o, tau_U o, tau_L o, alpha_L o, alpha_U o).

  (** The local variables of one level's factorization. *)
  Record fac_pars := mkFP { fp_kappa_d : D; fp_kappa : D; fp_tau_L : D; fp_tau_U : D; fp_alpha_L : D; fp_alpha_U : D }.

  (** level_factorize, factor.hpp:778-780; symmetric_level_factorize,
      symm_factor.hpp:280-282:
      [std::tie(kappa_d, kappa, tau_L, tau_U, alpha_L, alpha_U) = determine_fac_pars(...)]. *)
  Definition level_pars (o : Opts) (lvl : Z) : fac_pars :=
    let '(x0, x1, x2, x3, x4, x5) := determine_fac_pars o lvl in
    mkFP x0 x1 x2 x3 x4 x5.

  (** pivot_level_factorize, pivot_factor.hpp:235-240. *)
  Definition pivot_level_pars (o : Opts) (lvl : Z) : fac_pars :=
    let '(x0, x1, x2, x3, x4, x5) := determine_fac_pars o lvl in
    mkFP x0 x1 x2 x3 (dmul F x4 (d_of_int F 4)) (dmul F x5 (d_of_int F 4)).
End M.
Arguments VI {F}. Arguments VD {F}. Arguments toD {F}. Arguments toZ {F}.
Arguments set_option_attr {F}. Arguments assign {F}. Arguments read_options {F}. Arguments read_members {F}.
Arguments enable_verbose {F}. Arguments determine_fac_pars {F}. Arguments level_pars {F}.
Arguments pivot_level_pars {F}. Arguments mkFP {F}.
Arguments fp_kappa_d {F}. Arguments fp_kappa {F}. Arguments fp_tau_L {F}. Arguments fp_tau_U {F}.
Arguments fp_alpha_L {F}. Arguments fp_alpha_U {F}.
