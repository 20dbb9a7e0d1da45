(** * Properties C01, C02, C03, C06, C07, C08: sparse kernels. *)
From Coq Require Import List Arith Lia Bool ZArith.
From Verif Require Import Base Scalar Spec CSModel CSSpec CSProofs MrhsProofs.
Import ListNotations.

(** Example data used below: the 2x3 matrix [[1 0 2][0 3 0]] in CRS, its CCS
    storage, a strictly lower and a strictly upper 3x3 matrix over the
    Gaussian integers. *)
Definition exA : CS OZ := @mkCS OZ 2 3 [0;2;3] [0;2;1] [1;2;3]%Z.
Definition exAc : CS OZ := @mkCS OZ 3 2 [0;1;2;3] [0;1;0] [1;3;2]%Z.
Definition gi (a b : Z) : T OI := mkGI a b.
(* rows: (), (0: 1+i), (0: 2, 1: i) *)
Definition exL : CS OI := @mkCS OI 3 3 [0;0;1;3] [0;0;1] [gi 1 1; gi 2 0; gi 0 1].
(* rows: (1: i, 2: 1), (2: 3), () *)
Definition exU : CS OI := @mkCS OI 3 3 [0;2;3;3] [1;2;2] [gi 0 1; gi 1 0; gi 3 0].

Ltac lt_cases := repeat match goal with
  | H : (?i < S _)%nat |- _ => is_var i; destruct i as [|i]; [|apply Nat.succ_lt_mono in H]
  | H : (?i < 0)%nat |- _ => exfalso; inversion H
  end.

(** ** C01: A.multiply(x, y) computes A x *)

Theorem C01_crs_product : forall O, RingLaws O -> forall (A : CS O) x y,
  wf A -> length x = ssize A -> length y = psize A ->
  exists y', crs_multiply O A x y false = Ok y' /\ length y' = psize A /\
    veq (psize A) (v_ y') (mvec (ssize A) (crs_mat A) (v_ x)).
Proof. exact C01_crs_l. Qed.
Print Assumptions C01_crs_product.

Theorem C01_ccs_product : forall O, RingLaws O -> forall (A : CS O) x y,
  wf A -> length x = psize A -> length y = ssize A ->
  exists y', ccs_multiply O A x y false = Ok y' /\ length y' = ssize A /\
    veq (ssize A) (v_ y') (mvec (psize A) (ccs_mat A) (v_ x)).
Proof. exact C01_ccs_l. Qed.
Print Assumptions C01_ccs_product.

(** CRS and CCS storage of one matrix: the same result, whatever the output
    buffers contained. *)
Theorem C01_crs_ccs_agree : forall O, RingLaws O -> forall (A B : CS O) x y z,
  wf A -> wf B -> psize A = ssize B -> ssize A = psize B ->
  meq (psize A) (ssize A) (crs_mat A) (ccs_mat B) ->
  length x = ssize A -> length y = psize A -> length z = psize A ->
  exists r, crs_multiply O A x y false = Ok r /\ ccs_multiply O B x z false = Ok r.
Proof. exact C01_same_l. Qed.
Print Assumptions C01_crs_ccs_agree.

(** The partial product used by the threaded code writes exactly its rows. *)
Theorem C01_crs_partial_rows : forall O, RingLaws O -> forall (A : CS O) x istart len y,
  wf A -> ssize A <= length x -> psize A <= length y -> istart + len <= psize A ->
  exists y', crs_multiply_nt_part O A x istart len y = Ok y' /\ length y' = length y /\
    (forall i, istart <= i < istart + len -> v_ y' i = mvec (ssize A) (crs_mat A) (v_ x) i) /\
    (forall i, ~ (istart <= i < istart + len) -> v_ y' i = v_ y i).
Proof. exact crs_multiply_nt_part_correct. Qed.
Print Assumptions C01_crs_partial_rows.

Example C01_hyps : wf exA /\ wf exAc /\ meq 2 3 (crs_mat exA) (ccs_mat exAc).
Proof.
  split; [|split]; try (apply wfb_wf; vm_compute; reflexivity).
  intros i j Hi Hj. lt_cases; vm_compute; reflexivity.
Qed.
Example C01_run : crs_multiply OZ exA [1;10;100]%Z [7;7]%Z false = Ok [201;30]%Z
  /\ ccs_multiply OZ exAc [1;10;100]%Z [8;9]%Z false = Ok [201;30]%Z.
Proof. vm_compute. auto. Qed.

(** ** C02: multiply_t computes A^H x *)

Theorem C02_ccs_adjoint_product : forall O, RingLaws O -> forall (A : CS O) x y,
  wf A -> length x = ssize A -> length y = psize A ->
  exists y', ccs_multiply O A x y true = Ok y' /\ length y' = psize A /\
    veq (psize A) (v_ y') (mvec (ssize A) (madj (ccs_mat A)) (v_ x)).
Proof. exact C02_ccs_l. Qed.
Print Assumptions C02_ccs_adjoint_product.

(** Full statement: as above for CRS, also with zero rows.  It fails there (see
    [C02_crs_zero_rows_refuted]); with at least one row it holds. *)
Theorem C02_crs_adjoint_product_partial : forall O, RingLaws O -> forall (A : CS O) x y,
  wf A -> 0 < psize A -> length x = psize A -> length y = ssize A ->
  exists y', crs_multiply O A x y true = Ok y' /\ length y' = ssize A /\
    veq (ssize A) (v_ y') (mvec (psize A) (madj (crs_mat A)) (v_ x)).
Proof. exact C02_crs_l. Qed.
Print Assumptions C02_crs_adjoint_product_partial.

(** A valid 0x2 CRS matrix: multiply_t leaves the old contents of y instead of 0. *)
Theorem C02_crs_zero_rows_refuted : exists (A : CS OZ) x y y',
  wf A /\ length x = psize A /\ length y = ssize A /\
  crs_multiply OZ A x y true = Ok y' /\
  ~ veq (ssize A) (v_ y') (mvec (psize A) (madj (crs_mat A)) (v_ x)).
Proof.
  exists (@mkCS OZ 0 2 [0] [] []), [], [5;6]%Z, [5;6]%Z.
  split. { apply wfb_wf; vm_compute; reflexivity. }
  split; [reflexivity|split; [reflexivity|split; [reflexivity|]]].
  intros H. specialize (H 0 ltac:(simpl; lia)). vm_compute in H. discriminate.
Qed.
Print Assumptions C02_crs_zero_rows_refuted.

(** [<A x, y> = <x, A^H y>] for the computed vectors. *)
Theorem C02_crs_inner : forall O, RingLaws O -> forall (A : CS O) x y u w,
  wf A -> 0 < psize A ->
  length x = ssize A -> length y = psize A -> length u = psize A -> length w = ssize A ->
  exists Ax Ahy, crs_multiply O A x u false = Ok Ax /\ crs_multiply O A y w true = Ok Ahy /\
    inner (psize A) (v_ Ax) (v_ y) = inner (ssize A) (v_ x) (v_ Ahy).
Proof. exact C02_adjoint_crs_l. Qed.
Print Assumptions C02_crs_inner.

Theorem C02_ccs_inner : forall O, RingLaws O -> forall (A : CS O) x y u w,
  wf A -> length x = psize A -> length y = ssize A -> length u = ssize A -> length w = psize A ->
  exists Ax Ahy, ccs_multiply O A x u false = Ok Ax /\ ccs_multiply O A y w true = Ok Ahy /\
    inner (ssize A) (v_ Ax) (v_ y) = inner (psize A) (v_ x) (v_ Ahy).
Proof. exact C02_adjoint_ccs_l. Qed.
Print Assumptions C02_ccs_inner.

Example C02_hyps : wf exL /\ 0 < psize exL.
Proof. split. apply wfb_wf; vm_compute; reflexivity. simpl; lia. Qed.
Example C02_run : crs_multiply OI exL [gi 0 0; gi 1 0; gi 0 1] [gi 9 9; gi 9 9; gi 9 9] true
  = Ok [gi 1 1; gi 1 0; gi 0 0].
Proof. vm_compute. reflexivity. Qed.

(** ** C03: multi-RHS products act column by column (no algebraic law assumed) *)

(** Full statement: for every valid matrix, including those with no columns and
    including complex transposed products.  Three exceptions are refuted below. *)
Theorem C03_crs_nt_partial : forall O N (A : CS O) X Y, 0 < N -> wf A ->
  length X = ssize A * N -> length Y = psize A * N -> (0 < ssize A \/ psize A = 0) ->
  exists Y', crs_multiply_mrhs_nt O N A X Y = Ok Y' /\ length Y' = psize A * N /\
    forall c, c < N -> crs_multiply_nt O A (column N (ssize A) c X) (column N (psize A) c Y)
                       = Ok (column N (psize A) c Y').
Proof. exact crs_mrhs_nt. Qed.
Print Assumptions C03_crs_nt_partial.

Theorem C03_ccs_nt_partial : forall O N (A : CS O) X Y, 0 < N -> wf A ->
  length X = psize A * N -> length Y = ssize A * N -> (0 < psize A \/ ssize A = 0) ->
  exists Y', ccs_multiply_mrhs_nt O N A X Y = Ok Y' /\ length Y' = ssize A * N /\
    forall c, c < N -> ccs_multiply_nt O A (column N (psize A) c X) (column N (ssize A) c Y)
                       = Ok (column N (ssize A) c Y').
Proof. exact ccs_mrhs_nt. Qed.
Print Assumptions C03_ccs_nt_partial.

Theorem C03_crs_t_real_partial : forall O N (A : CS O) X Y, 0 < N -> wf A ->
  (forall a, tconj O a = a) ->
  length X = psize A * N -> length Y = ssize A * N ->
  exists Y', crs_multiply_mrhs_t O N A X Y = Ok Y' /\ length Y' = ssize A * N /\
    forall c, c < N -> crs_multiply_t O A (column N (psize A) c X) (column N (ssize A) c Y)
                       = Ok (column N (ssize A) c Y').
Proof. exact crs_mrhs_t. Qed.
Print Assumptions C03_crs_t_real_partial.

Theorem C03_ccs_t_real_partial : forall O N (A : CS O) X Y, 0 < N -> wf A ->
  (forall a, tconj O a = a) ->
  length X = ssize A * N -> length Y = psize A * N -> (0 < ssize A \/ psize A = 0) ->
  exists Y', ccs_multiply_mrhs_t O N A X Y = Ok Y' /\ length Y' = psize A * N /\
    forall c, c < N -> ccs_multiply_t O A (column N (ssize A) c X) (column N (psize A) c Y)
                       = Ok (column N (psize A) c Y').
Proof. exact ccs_mrhs_t. Qed.
Print Assumptions C03_ccs_t_real_partial.

Example C03_hyps : wf exA /\ 0 < ssize exA /\ (forall a, tconj OZ a = a).
Proof. split. apply wfb_wf; vm_compute; reflexivity. split. simpl; lia. reflexivity. Qed.
Example C03_run : crs_multiply_mrhs_nt OZ 2 exA [1;2;10;20;100;200]%Z [0;0;0;0]%Z = Ok [201;402;30;60]%Z.
Proof. vm_compute. reflexivity. Qed.

(** Complex scalars: the multi-RHS transposed product does not conjugate. *)
Theorem C03_complex_transpose_refuted : exists (A : CS OI) X Y Y' y',
  wf A /\ length X = psize A * 1 /\ length Y = ssize A * 1 /\
  crs_multiply_mrhs_t OI 1 A X Y = Ok Y' /\
  crs_multiply_t OI A (column 1 (psize A) 0 X) (column 1 (ssize A) 0 Y) = Ok y' /\
  y' <> column 1 (ssize A) 0 Y'.
Proof.
  exists (@mkCS OI 1 1 [0;1] [0] [gi 0 1]), [gi 1 0], [gi 0 0], [gi 0 1], [gi 0 (-1)].
  split. { apply wfb_wf; vm_compute; reflexivity. }
  repeat (split; [reflexivity|]). vm_compute. discriminate.
Qed.
Print Assumptions C03_complex_transpose_refuted.

Theorem C03_complex_transpose_ccs_refuted : exists (A : CS OI) X Y Y' y',
  wf A /\ length X = ssize A * 1 /\ length Y = psize A * 1 /\
  ccs_multiply_mrhs_t OI 1 A X Y = Ok Y' /\
  ccs_multiply_t OI A (column 1 (ssize A) 0 X) (column 1 (psize A) 0 Y) = Ok y' /\
  y' <> column 1 (psize A) 0 Y'.
Proof.
  exists (@mkCS OI 1 1 [0;1] [0] [gi 0 1]), [gi 1 0], [gi 0 0], [gi 0 1], [gi 0 (-1)].
  split. { apply wfb_wf; vm_compute; reflexivity. }
  repeat (split; [reflexivity|]). vm_compute. discriminate.
Qed.
Print Assumptions C03_complex_transpose_ccs_refuted.

(** A matrix without columns: the single product zeroes y, the block product keeps it. *)
Theorem C03_no_columns_refuted : exists (A : CS OZ) X Y Y' y',
  wf A /\ length X = ssize A * 1 /\ length Y = psize A * 1 /\
  crs_multiply_mrhs_nt OZ 1 A X Y = Ok Y' /\
  crs_multiply_nt OZ A (column 1 (ssize A) 0 X) (column 1 (psize A) 0 Y) = Ok y' /\
  y' <> column 1 (psize A) 0 Y'.
Proof.
  exists (@mkCS OZ 1 0 [0;0] [] []), [], [5]%Z, [5]%Z, [0]%Z.
  split. { apply wfb_wf; vm_compute; reflexivity. }
  repeat (split; [reflexivity|]). vm_compute. discriminate.
Qed.
Print Assumptions C03_no_columns_refuted.

(** ** C06: triangular solves *)

Theorem C06_crs_lower : forall O, RingLaws O -> forall (A : CS O) b n,
  wf A -> psize A = n -> ssize A = n -> n <= length b -> strict_lower n (crs_mat A) ->
  exists y', crs_solve_strict_lower O A b = Ok y' /\ unit_solve_spec n (crs_mat A) b y'.
Proof. exact C06_crs_lower_l. Qed.
Print Assumptions C06_crs_lower.

Theorem C06_crs_lower_tran : forall O, RingLaws O -> forall (A : CS O) b n,
  wf A -> psize A = n -> ssize A = n -> n <= length b -> strict_lower n (crs_mat A) ->
  exists y', crs_solve_strict_lower_tran O A b = Ok y' /\ unit_solve_spec n (madj (crs_mat A)) b y'.
Proof. exact C06_crs_lower_tran_l. Qed.
Print Assumptions C06_crs_lower_tran.

(** Full statement: for every [n]; the code breaks for [n = 0], see
    [C06_size_zero_refuted]. *)
Theorem C06_crs_upper_partial : forall O, RingLaws O -> forall (A : CS O) b n,
  wf A -> psize A = n -> ssize A = n -> n <= length b -> 0 < n -> strict_upper n (crs_mat A) ->
  exists y', crs_solve_strict_upper O A b = Ok y' /\ unit_solve_spec n (crs_mat A) b y'.
Proof. exact C06_crs_upper_l. Qed.
Print Assumptions C06_crs_upper_partial.

Theorem C06_crs_upper_tran : forall O, RingLaws O -> forall (A : CS O) b n,
  wf A -> psize A = n -> ssize A = n -> n <= length b -> strict_upper n (crs_mat A) ->
  exists y', crs_solve_strict_upper_tran O A b = Ok y' /\ unit_solve_spec n (madj (crs_mat A)) b y'.
Proof. exact C06_crs_upper_tran_l. Qed.
Print Assumptions C06_crs_upper_tran.

Theorem C06_ccs_lower : forall O, RingLaws O -> forall (A : CS O) b n,
  wf A -> psize A = n -> ssize A = n -> n <= length b -> strict_lower n (ccs_mat A) ->
  exists y', ccs_solve_strict_lower O A b = Ok y' /\ unit_solve_spec n (ccs_mat A) b y'.
Proof. exact C06_ccs_lower_l. Qed.
Print Assumptions C06_ccs_lower.

Theorem C06_ccs_lower_tran_partial : forall O, RingLaws O -> forall (A : CS O) b n,
  wf A -> psize A = n -> ssize A = n -> n <= length b -> 0 < n -> strict_lower n (ccs_mat A) ->
  exists y', ccs_solve_strict_lower_tran O A b = Ok y' /\ unit_solve_spec n (madj (ccs_mat A)) b y'.
Proof. exact C06_ccs_lower_tran_l. Qed.
Print Assumptions C06_ccs_lower_tran_partial.

Theorem C06_ccs_upper_partial : forall O, RingLaws O -> forall (A : CS O) b n,
  wf A -> psize A = n -> ssize A = n -> n <= length b -> 0 < n -> strict_upper n (ccs_mat A) ->
  exists y', ccs_solve_strict_upper O A b = Ok y' /\ unit_solve_spec n (ccs_mat A) b y'.
Proof. exact C06_ccs_upper_l. Qed.
Print Assumptions C06_ccs_upper_partial.

Theorem C06_ccs_upper_tran : forall O, RingLaws O -> forall (A : CS O) b n,
  wf A -> psize A = n -> ssize A = n -> n <= length b -> strict_upper n (ccs_mat A) ->
  exists y', ccs_solve_strict_upper_tran O A b = Ok y' /\ unit_solve_spec n (madj (ccs_mat A)) b y'.
Proof. exact C06_ccs_upper_tran_l. Qed.
Print Assumptions C06_ccs_upper_tran.

(** On the (valid) 0x0 matrix, [_psize - 1] wraps around and the loops leave the arrays. *)
Theorem C06_size_zero_refuted : exists (A : CS OZ),
  wf A /\ psize A = 0 /\ ssize A = 0 /\
  crs_solve_strict_upper OZ A [] = UB /\ ccs_solve_strict_upper OZ A [] = UB /\
  ccs_solve_strict_lower_tran OZ A [] = UB.
Proof.
  exists (@mkCS OZ 0 0 [0] [] []).
  split. { apply wfb_wf; vm_compute; reflexivity. }
  repeat split; reflexivity.
Qed.
Print Assumptions C06_size_zero_refuted.

Example C06_hyps : wf exL /\ strict_lower 3 (crs_mat exL) /\ strict_upper 3 (ccs_mat exL)
  /\ wf exU /\ strict_upper 3 (crs_mat exU) /\ strict_lower 3 (ccs_mat exU).
Proof.
  repeat split; try (apply wfb_wf; vm_compute; reflexivity);
  intros i j Hi Hj Hij; lt_cases; try lia; vm_compute; reflexivity.
Qed.
Example C06_run : crs_solve_strict_lower OI exL [gi 1 0; gi 0 0; gi 0 0] = Ok [gi 1 0; gi (-1) (-1); gi (-3) 1].
Proof. vm_compute. reflexivity. Qed.

(** ** C07: multi-RHS triangular solves act column by column (no law assumed) *)

Theorem C07_crs_lower : forall O N n (A : CS O) Y, 0 < N -> wf A -> psize A = n -> ssize A = n ->
  length Y = n * N ->
  exists Y', crs_solve_strict_lower_mrhs O N A Y = Ok Y' /\ length Y' = n * N /\
    forall c, c < N -> crs_solve_strict_lower O A (column N n c Y) = Ok (column N n c Y').
Proof. exact crs_lower_cols. Qed.
Print Assumptions C07_crs_lower.

Theorem C07_crs_upper : forall O N n (A : CS O) Y, 0 < N -> wf A -> psize A = n -> ssize A = n ->
  length Y = n * N -> 0 < n ->
  exists Y', crs_solve_strict_upper_mrhs O N A Y = Ok Y' /\ length Y' = n * N /\
    forall c, c < N -> crs_solve_strict_upper O A (column N n c Y) = Ok (column N n c Y').
Proof. exact crs_upper_cols. Qed.
Print Assumptions C07_crs_upper.

Theorem C07_crs_upper_tran : forall O N n (A : CS O) Y, 0 < N -> wf A -> psize A = n -> ssize A = n ->
  length Y = n * N ->
  exists Y', crs_solve_strict_upper_mrhs_tran O N A Y = Ok Y' /\ length Y' = n * N /\
    forall c, c < N -> crs_solve_strict_upper_tran O A (column N n c Y) = Ok (column N n c Y').
Proof. exact crs_upper_tran_cols. Qed.
Print Assumptions C07_crs_upper_tran.

Theorem C07_ccs_lower : forall O N n (A : CS O) Y, 0 < N -> wf A -> psize A = n -> ssize A = n ->
  length Y = n * N ->
  exists Y', ccs_solve_strict_lower_mrhs O N A Y = Ok Y' /\ length Y' = n * N /\
    forall c, c < N -> ccs_solve_strict_lower O A (column N n c Y) = Ok (column N n c Y').
Proof. exact ccs_lower_cols. Qed.
Print Assumptions C07_ccs_lower.

Theorem C07_ccs_upper : forall O N n (A : CS O) Y, 0 < N -> wf A -> psize A = n -> ssize A = n ->
  length Y = n * N -> 0 < n ->
  exists Y', ccs_solve_strict_upper_mrhs O N A Y = Ok Y' /\ length Y' = n * N /\
    forall c, c < N -> ccs_solve_strict_upper O A (column N n c Y) = Ok (column N n c Y').
Proof. exact ccs_upper_cols. Qed.
Print Assumptions C07_ccs_upper.

Theorem C07_ccs_upper_tran : forall O N n (A : CS O) Y, 0 < N -> wf A -> psize A = n -> ssize A = n ->
  length Y = n * N ->
  exists Y', ccs_solve_strict_upper_mrhs_tran O N A Y = Ok Y' /\ length Y' = n * N /\
    forall c, c < N -> ccs_solve_strict_upper_tran O A (column N n c Y) = Ok (column N n c Y').
Proof. exact ccs_upper_tran_cols. Qed.
Print Assumptions C07_ccs_upper_tran.

(** The two transposed lower multi-RHS solves deviate. *)
Theorem C07_crs_lower_tran_refuted : exists (A : CS OZ) Y Y' y',
  wf A /\ psize A = 2 /\ ssize A = 2 /\ strict_lower 2 (crs_mat A) /\ length Y = 2 /\
  crs_solve_strict_lower_mrhs_tran OZ 1 A Y = Ok Y' /\
  crs_solve_strict_lower_tran OZ A (column 1 2 0 Y) = Ok y' /\ y' <> column 1 2 0 Y'.
Proof.
  exists (@mkCS OZ 2 2 [0;0;1] [0] [3]%Z), [5;7]%Z, [5;7]%Z, [-16;7]%Z.
  split. { apply wfb_wf; vm_compute; reflexivity. }
  split; [reflexivity|split; [reflexivity|split]].
  { intros i j Hi Hj Hij; lt_cases; try lia; vm_compute; reflexivity. }
  repeat (split; [reflexivity|]). vm_compute. discriminate.
Qed.
Print Assumptions C07_crs_lower_tran_refuted.

Theorem C07_ccs_lower_tran_refuted : exists (A : CS OZ) Y Y' y',
  wf A /\ psize A = 2 /\ ssize A = 2 /\ strict_lower 2 (ccs_mat A) /\ length Y = 2 /\
  ccs_solve_strict_lower_mrhs_tran OZ 1 A Y = Ok Y' /\
  ccs_solve_strict_lower_tran OZ A (column 1 2 0 Y) = Ok y' /\ y' <> column 1 2 0 Y'.
Proof.
  exists (@mkCS OZ 2 2 [0;1;1] [1] [3]%Z), [5;7]%Z, [5;7]%Z, [-16;7]%Z.
  split. { apply wfb_wf; vm_compute; reflexivity. }
  split; [reflexivity|split; [reflexivity|split]].
  { intros i j Hi Hj Hij; lt_cases; try lia; vm_compute; reflexivity. }
  repeat (split; [reflexivity|]). vm_compute. discriminate.
Qed.
Print Assumptions C07_ccs_lower_tran_refuted.

Example C07_hyps : 0 < 2 /\ wf exL /\ psize exL = 3 /\ ssize exL = 3.
Proof. split. lia. split. apply wfb_wf; vm_compute; reflexivity. auto. Qed.
Example C07_run :
  crs_solve_strict_lower_mrhs OI 2 exL [gi 1 0; gi 0 1; gi 0 0; gi 0 0; gi 0 0; gi 0 0]
  = Ok [gi 1 0; gi 0 1; gi (-1) (-1); gi 1 (-1); gi (-3) 1; gi (-1) (-3)].
Proof. vm_compute. reflexivity. Qed.

(** ** C08: diagonal scaling *)

Theorem C08_crs_scale_left : forall O, RingLaws O -> forall (A : CS O) s,
  wf A -> length (ind_start A) = S (psize A) -> psize A <= length s ->
  exists A', crs_scale_diag_left O A s = Ok A' /\ wf A' /\
    psize A' = psize A /\ ssize A' = ssize A /\ ind_start A' = ind_start A /\ indices A' = indices A /\
    meq (psize A) (ssize A) (crs_mat A') (mmul (psize A) (mdiag (v_ s)) (crs_mat A)).
Proof. exact C08_crs_left_l. Qed.
Print Assumptions C08_crs_scale_left.

Theorem C08_crs_scale_right : forall O, RingLaws O -> forall (A : CS O) t,
  wf A -> length (indices A) = st A (psize A) -> ssize A <= length t ->
  exists A', crs_scale_diag_right O A t = Ok A' /\ wf A' /\
    psize A' = psize A /\ ssize A' = ssize A /\ ind_start A' = ind_start A /\ indices A' = indices A /\
    meq (psize A) (ssize A) (crs_mat A') (mmul (ssize A) (crs_mat A) (mdiag (v_ t))).
Proof. exact C08_crs_right_l. Qed.
Print Assumptions C08_crs_scale_right.

Theorem C08_ccs_scale_right : forall O, RingLaws O -> forall (A : CS O) t,
  wf A -> length (ind_start A) = S (psize A) -> psize A <= length t ->
  exists A', ccs_scale_diag_right O A t = Ok A' /\ wf A' /\
    psize A' = psize A /\ ssize A' = ssize A /\ ind_start A' = ind_start A /\ indices A' = indices A /\
    meq (ssize A) (psize A) (ccs_mat A') (mmul (psize A) (ccs_mat A) (mdiag (v_ t))).
Proof. exact C08_ccs_right_l. Qed.
Print Assumptions C08_ccs_scale_right.

Theorem C08_ccs_scale_left : forall O, RingLaws O -> forall (A : CS O) s,
  wf A -> length (indices A) = st A (psize A) -> ssize A <= length s ->
  exists A', ccs_scale_diag_left O A s = Ok A' /\ wf A' /\
    psize A' = psize A /\ ssize A' = ssize A /\ ind_start A' = ind_start A /\ indices A' = indices A /\
    meq (ssize A) (psize A) (ccs_mat A') (mmul (ssize A) (mdiag (v_ s)) (ccs_mat A)).
Proof. exact C08_ccs_left_l. Qed.
Print Assumptions C08_ccs_scale_left.

Example C08_hyps : wf exA /\ length (ind_start exA) = S (psize exA) /\ length (indices exA) = st exA (psize exA).
Proof. split. apply wfb_wf; vm_compute; reflexivity. auto. Qed.
Example C08_run : crs_scale_diag_left OZ exA [10;100]%Z = Ok (@mkCS OZ 2 3 [0;2;3] [0;2;1] [10;20;300]%Z : CS OZ).
Proof. vm_compute. reflexivity. Qed.
