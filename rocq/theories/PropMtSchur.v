(** * PropMtSchur: the threaded Schur complement (C36). *)
From Coq Require Import List Arith Lia Bool Permutation ZArith QArith Qcanon.
From Verif Require Import Base Scalar Spec CSModel CSSpec ConvModel ConvSpec ConvProofs3 Mag VecModel VecSpec VecProofs CroutModel CroutSpec CroutProofs3 SchurModel SchurSpec
  SchurProofs2 MtModel MtSchurModel MtSchurProofs PropCrout PropSchur.
Import ListNotations.
Close Scope Q_scope. Close Scope Qc_scope. Open Scope nat_scope.

(** For every number of threads and every interleaving of their steps: nothing goes out
    of bounds, and if all threads have finished the result is, entry for entry in the
    same order, the result of the serial code (so all of C36_schur holds of it). *)
Theorem C36_threads_equal_serial : forall O n m s t d (A : CS O) p q qinv (L_E U_F : CS O) Nb (buf : SV O) bv ji jv,
  valid A -> psize A = n -> ssize A = n -> length s = n -> length t = n -> m < n -> is_perm n p -> is_inv n q qinv ->
  wf L_E -> psize L_E = n - m -> ssize L_E = m -> wf U_F -> psize U_F = m -> ssize U_F = n - m -> m <= length d ->
  n - m <= Nb -> sv_ok Nb buf -> (forall i k, nth i (sv_dtags buf) None = Some k -> k < n) -> n - m <= length bv ->
  forall ji' jv' nthreads jbv jbi schedule, 0 < nthreads -> length jbv = n - m -> length jbi = n - m ->
  exists c0 c, sinit A m ji' nthreads jbv jbi = Ok c0 /\
    srun s t d A p qinv m L_E U_F ji' jv' schedule c0 = Ok c /\
    (sdone c -> compute_schur s t d A p qinv m L_E U_F buf bv ji jv = Ok (sresult A m c)).
Proof.
  intros O n m s t d A p q qinv L_E U_F Nb buf bv ji jv V Pn Sn Ls Lt Hm Pp Iq WL PL SL WU PU SU Ld HN Ok1 Tg HB ji' jv' nth jbv jbi sched Hth L1 L2.
  destruct (wp_inv _ _ _ (init_inv n m s t d A p qinv L_E U_F Pn Sn Ls Lt Hm PL SL PU SU Ld ji' nth Hth jbv jbi L1 L2)) as (c0 & E0 & I0).
  destruct (wp_inv _ _ _ (run_inv n m s t d A p q qinv L_E U_F V Pn Sn Ls Lt Hm Pp Iq WL PL SL WU PU SU Ld ji' jv' nth Hth sched c0 I0)) as (c & E & I).
  exists c0, c. split; auto. split; auto. intros Hd.
  rewrite (done_result n m s t d A p qinv L_E U_F Pn Sn Ls Lt Hm PL SL PU SU Ld nth Hth c I Hd).
  apply (compute_schur_l n m s t d A p q qinv L_E U_F V Pn Sn Ls Lt Hm Pp Iq WL PL SL WU PU SU Ld Nb); auto.
  split; auto. intros i k _ X. apply Tg with i. exact X.
Qed.
Print Assumptions C36_threads_equal_serial.

(** No barrier hangs: a schedule that serves every thread often enough finishes. *)
Theorem C36_threads_finish : forall O n m s t d (A : CS O) p q qinv (L_E U_F : CS O),
  valid A -> psize A = n -> ssize A = n -> length s = n -> length t = n -> m < n -> is_perm n p -> is_inv n q qinv ->
  wf L_E -> psize L_E = n - m -> ssize L_E = m -> wf U_F -> psize U_F = m -> ssize U_F = n - m -> m <= length d ->
  forall ji' jv' nthreads jbv jbi, 0 < nthreads -> length jbv = n - m -> length jbi = n - m ->
  exists rounds_needed, forall rounds, rounds_needed <= length rounds ->
    (forall r, In r rounds -> forall u, u < nthreads -> In u r) ->
    exists c0 c, sinit A m ji' nthreads jbv jbi = Ok c0 /\
      srun s t d A p qinv m L_E U_F ji' jv' (concat rounds) c0 = Ok c /\ sdone c.
Proof.
  intros O n m s t d A p q qinv L_E U_F V Pn Sn Ls Lt Hm Pp Iq WL PL SL WU PU SU Ld ji' jv' nth jbv jbi Hth L1 L2.
  destruct (wp_inv _ _ _ (init_inv n m s t d A p qinv L_E U_F Pn Sn Ls Lt Hm PL SL PU SU Ld ji' nth Hth jbv jbi L1 L2)) as (c0 & E0 & I0).
  exists (S (mu n m c0)). intros rounds Hl HR.
  destruct (rounds_l n m s t d A p q qinv L_E U_F V Pn Sn Ls Lt Hm Pp Iq WL PL SL WU PU SU Ld ji' jv' nth Hth rounds c0 I0 ltac:(lia) HR) as (c & E & _ & D).
  exists c0, c. auto.
Qed.
Print Assumptions C36_threads_finish.

(** A two-thread run on the matrices of C36_case, unevenly scheduled. *)
Example C36_threads_case :
  match sinit (O:=OQ) ex_crs 2 7 2 (repeat (qz 5) 2) [8;8] with
  | Ok c0 => match srun (O:=OQ) exs ext (map qz [6;2]%Z) ex_crs exp_ expi 2 ex_L_E ex_U_F 7 (qz 9) (concat (repeat [1;0;1;1] 30)) c0 with
    | Ok c => forallb (fun th => match th_pc th with SFin => true | _ => false end) (sc_th c) = true /\
        ind_start (sresult ex_crs 2 c) = [0;2;4] /\ indices (sresult ex_crs 2 c) = [0;1;0;1] /\
        map this (vals (sresult ex_crs 2 c)) = map this (map qz [-1;-10;-24;-2]%Z)
    | _ => False end
  | _ => False end.
Proof. vm_compute. repeat split; reflexivity. Qed.
