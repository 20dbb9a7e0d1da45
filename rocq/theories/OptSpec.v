(** * OptSpec: what the option functions should do. *)
From Coq Require Import List ZArith String Bool.
From Verif Require Import Base OptModel.
Import ListNotations.
Open Scope string_scope.

Section S.
  Variable F : DOps.
  (** The members of the options structure by name, in declaration order. *)
  Inductive member := MD (f : Opts F -> D F) | MI (f : Opts F -> Z).
  Definition members : list (string * member) :=
    [("tau_L", MD tau_L); ("tau_U", MD tau_U); ("kappa_d", MD kappa_d); ("kappa", MD kappa);
     ("alpha_L", MD alpha_L); ("alpha_U", MD alpha_U); ("rho", MD rho); ("c_d", MD c_d); ("c_h", MD c_h);
     ("N", MI optN); ("verbose", MI verbose); ("rf_par", MI rf_par); ("reorder", MI reorder);
     ("spd", MI spd); ("check", MI check); ("pre_scale", MI pre_scale); ("symm_pre_lvls", MI symm_pre_lvls);
     ("threads", MI threads); ("mumps_blr", MI mumps_blr); ("fat_schur_1st", MI fat_schur_1st);
     ("rrqr_cond", MD rrqr_cond); ("pivot", MI pivot); ("gamma", MD gamma); ("beta", MD beta);
     ("is_symm", MI is_symm); ("no_pre", MI no_pre); ("nzp_thres", MD nzp_thres); ("dense_thres", MI dense_thres)].

  (** the value of a member, and the value an assignment of [v] to it gives *)
  Definition read_member (m : member) (o : Opts F) : oval F :=
    match m with MD f => VD (f o) | MI f => VI (f o) end.
  Definition convert (m : member) (v : oval F) : oval F :=
    match m with MD _ => VD (toD v) | MI _ => VI (toZ v) end.

  (** The intended refinement of a parameter at level [lvl] ("adjust parameters
      based on levels", factor.hpp:75; [rf_par] is "parameter refinement",
      Options.h:94): tau is divided by 10 from level 2 on, condition thresholds
      are replaced by their square roots, but at least 2, and the growth factors
      doubled on level 2.  Each parameter is refined from itself. *)
  Definition refined_tau (o : Opts F) (lvl : Z) (tau : D F) : D F :=
    if (rf_par o =? 0)%Z then tau
    else dmul F tau (ddiv F (d_of_int F 1) (dmin F (d_of_int F 10) (dpow F (d_of_int F 10) (d_of_int F (lvl - 1))))).
  Definition refined_kappa (o : Opts F) (lvl : Z) (k : D F) : D F :=
    if (rf_par o =? 0)%Z then k
    else dmax F (d_of_int F 2) (dpow F k (ddiv F (d_of_int F 1) (d_of_int F (Z.min lvl 2)))).
  Definition refined_alpha (o : Opts F) (lvl : Z) (a : D F) : D F :=
    if (rf_par o =? 0)%Z then a
    else if (lvl <=? 2)%Z then dmul F a (d_of_int F (Z.min lvl 2)) else a.
End S.
Arguments members {F}. Arguments read_member {F}. Arguments convert {F}. Arguments refined_tau {F}.
Arguments refined_kappa {F}. Arguments refined_alpha {F}.

(** The value of the last call with this name in a history of setter calls. *)
Fixpoint last_set {F} (name : string) (calls : list (string * oval F)) : option (oval F) :=
  match calls with
  | [] => None
  | (k, v) :: t => match last_set name t with Some w => Some w | None => if String.eqb name k then Some v else None end
  end.
