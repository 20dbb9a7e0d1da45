(** * Properties C18-C21: applying the multilevel preconditioner. *)
From Coq Require Import List Arith Lia Bool ZArith QArith Qcanon.
From Verif Require Import Base Scalar Spec CSModel CSSpec CSProofs MrhsProofs LevelMath
  PrecModel PrecSpec PrecProofs PrecProofs2 StaleProofs MrhsPrec PropCS.
Import ListNotations.
Close Scope Q_scope. Close Scope Qc_scope. Open Scope nat_scope.

(** ** C18: solve and multiply are inverse to each other.
    [y], [y'] are the output buffers, [w], [w'] the work buffers, with arbitrary
    contents; the hierarchy may have any number of levels. *)

Theorem C18_multiply_after_solve : forall O, FieldLaws O -> forall (precs : list (Prec O)) ld n b y w y' w',
  hier_ok ld precs n ->
  length b = n -> length y = n -> length y' = n ->
  compute_prec_work_space O precs <= length w -> compute_prec_work_space O precs <= length w' ->
  exists x w1 w2, prec_solve O precs b ld y w = Ok (x, w1) /\
                  prec_prod O precs x ld y' w' = Ok (b, w2).
Proof. exact (fun O FL precs ld n b y w y' w' H => prod_solve_l O FL precs ld n H b y w y' w'). Qed.
Print Assumptions C18_multiply_after_solve.

Theorem C18_solve_after_multiply : forall O, FieldLaws O -> forall (precs : list (Prec O)) ld n x y w y' w',
  hier_ok ld precs n ->
  length x = n -> length y = n -> length y' = n ->
  compute_prec_work_space O precs <= length w -> compute_prec_work_space O precs <= length w' ->
  exists b w1 w2, prec_prod O precs x ld y w = Ok (b, w1) /\
                  prec_solve O precs b ld y' w' = Ok (x, w2).
Proof. exact (fun O FL precs ld n b y w y' w' H => solve_prod_l O FL precs ld n H b y w y' w'). Qed.
Print Assumptions C18_solve_after_multiply.

(** The matrix that both operations apply: it exists, is unique, and the two
    operations are its inverse and itself. *)
Theorem C18_matrix : forall O, FieldLaws O -> forall (precs : list (Prec O)) ld n, hier_ok ld precs n ->
  exists M : nat -> nat -> T O,
    prec_matrix ld precs M /\
    (forall M', prec_matrix ld precs M' -> meq n n M M') /\
    (forall b y w, length b = n -> length y = n -> compute_prec_work_space O precs <= length w ->
       exists x w', prec_solve O precs b ld y w = Ok (x, w') /\ veq n (mvec n M (v_ x)) (v_ b)) /\
    (forall x y w, length x = n -> length y = n -> compute_prec_work_space O precs <= length w ->
       exists b w', prec_prod O precs x ld y w = Ok (b, w') /\ veq n (v_ b) (mvec n M (v_ x))).
Proof.
  intros O FL precs ld n H. destruct (prec_matrix_exists O FL precs ld n H) as [M HM].
  exists M. split; [exact HM|]. split; [|split].
  - intros M' HM'. exact (prec_matrix_unique O FL precs ld n M M' H HM HM').
  - intros b y w Lb Ly Lw.
    destruct (wp_inv _ _ _ (prec_solve_wp O FL precs n ld M b y w H HM Lb Ly Lw)) as ([x w'] & E & _ & _ & V).
    exists x, w'. split; [exact E|exact V].
  - intros x y w Lx Ly Lw.
    destruct (wp_inv _ _ _ (prec_prod_wp O FL precs n ld M x y w H HM Lx Ly Lw)) as ([b w'] & E & _ & _ & V).
    exists b, w'. split; [exact E|exact V].
Qed.
Print Assumptions C18_matrix.

(** ** C19: the transposed operations are the adjoints. *)

Theorem C19_multiply_adjoint : forall O, FieldLaws O -> forall (precs : list (Prec O)) ld n,
  hier_ok ld precs n -> Forall real_scaling precs -> forall x z y w y' w',
  length x = n -> length z = n -> length y = n -> length y' = n ->
  compute_prec_work_space O precs <= length w -> compute_prec_work_space O precs <= length w' ->
  exists Mx w1 Mz w2, prec_prod O precs x ld y w = Ok (Mx, w1) /\
    prec_prod_tran O precs z ld y' w' = Ok (Mz, w2) /\
    inner n (v_ Mx) (v_ z) = inner n (v_ x) (v_ Mz).
Proof. exact prod_adjoint_l. Qed.
Print Assumptions C19_multiply_adjoint.

Theorem C19_solve_adjoint : forall O, FieldLaws O -> forall (precs : list (Prec O)) ld n,
  hier_ok ld precs n -> Forall real_scaling precs -> forall x z y w y' w',
  length x = n -> length z = n -> length y = n -> length y' = n ->
  compute_prec_work_space O precs <= length w -> compute_prec_work_space O precs <= length w' ->
  exists Mx w1 Mz w2, prec_solve O precs x ld y w = Ok (Mx, w1) /\
    prec_solve_tran O precs z ld y' w' = Ok (Mz, w2) /\
    inner n (v_ Mx) (v_ z) = inner n (v_ x) (v_ Mz).
Proof. exact solve_adjoint_l. Qed.
Print Assumptions C19_solve_adjoint.

Theorem C19_tran_multiply_after_solve : forall O, FieldLaws O -> forall (precs : list (Prec O)) ld n,
  hier_ok ld precs n -> Forall real_scaling precs -> forall b y w y' w',
  length b = n -> length y = n -> length y' = n ->
  compute_prec_work_space O precs <= length w -> compute_prec_work_space O precs <= length w' ->
  exists x w1 w2, prec_solve_tran O precs b ld y w = Ok (x, w1) /\
                  prec_prod_tran O precs x ld y' w' = Ok (b, w2).
Proof. exact prod_solve_tran_l. Qed.
Print Assumptions C19_tran_multiply_after_solve.

Theorem C19_tran_solve_after_multiply : forall O, FieldLaws O -> forall (precs : list (Prec O)) ld n,
  hier_ok ld precs n -> Forall real_scaling precs -> forall x y w y' w',
  length x = n -> length y = n -> length y' = n ->
  compute_prec_work_space O precs <= length w -> compute_prec_work_space O precs <= length w' ->
  exists b w1 w2, prec_prod_tran O precs x ld y w = Ok (b, w1) /\
                  prec_solve_tran O precs b ld y' w' = Ok (x, w2).
Proof. exact solve_prod_tran_l. Qed.
Print Assumptions C19_tran_solve_after_multiply.

(** *** A two-level complex hierarchy that meets the hypotheses *)
Section Ex.
  Definition g (a b : Z) : T OG := mkG (Q2Qc (inject_Z a)) (Q2Qc (inject_Z b)).

  (** An exact 1x1 dense solver. *)
  Definition dense1 (c : T OG) : Dense OG := mkDense OG
    (fun _ tr y => match y with [a] => Ok [gdiv a (if tr then gconj c else c)] | _ => UB end)
    (fun _ tr y => match y with [a] => Ok [gmul a (if tr then gconj c else c)] | _ => UB end) 1.

  Definition exP1 : Prec OG := mkPrec 2 4
    (@mkCS OG 2 2 [0;1;1] [1] [g 0 1])         (* L_B: entry (1,0) = i *)
    [g 2 0; g 1 1]                             (* d_B *)
    (@mkCS OG 2 2 [0;0;1] [0] [g 1 (-1)])      (* U_B: entry (0,1) = 1-i *)
    (@mkCS OG 2 2 [0;1;3] [1;0;1] [g 1 0; g 2 0; g 0 3])
    (@mkCS OG 2 2 [0;1;2] [0;1] [g 1 2; g 4 0])
    [g 1 0; g 2 0; g 3 0; g 4 0] [g 5 0; g 1 0; g 2 0; g 7 0]
    [2;0;3;1] [1;3;0;2] [3;2;0;1] [2;3;1;0] None None.
  Definition exP2 : Prec OG := mkPrec 1 2
    (@mkCS OG 1 1 [0;0] [] []) [g 0 2] (@mkCS OG 1 1 [0;0] [] [])
    (@mkCS OG 1 1 [0;1] [0] [g 1 1]) (@mkCS OG 1 1 [0;1] [0] [g 2 0])
    [g 1 0; g 3 0] [g 1 0; g 2 0] [1;0] [1;0] [0;1] [0;1] (Some (dense1 (g 1 3))) None.

  Ltac nz := let E := fresh in intro E;
    apply (f_equal (fun z => (this (re z), this (im z)))) in E; vm_compute in E; discriminate E.
  Ltac og_eq := apply GQ_ext; apply Qc_is_canon; vm_compute; reflexivity.

  Lemma dense1_is : forall c P ld, c <> t0 OG -> pn P - pm P = 1 -> pdense P = Some (dense1 c) ->
    dense_is P ld (fun _ _ => c).
  Proof.
    intros c P ld Hc Hn HD.
    assert (Hc' := conj_nz OG OG_field c Hc).
    assert (L1 : forall y : list (T OG), length y = 1 -> exists a, y = [a]).
    { intros y L. destruct y as [|a [|]]; try discriminate. eauto. }
    assert (RL := OG_ring).
    assert (S1 : forall (c a : T OG), sum (O:=OG) 1 (fun j => tmul OG c (v_ [a] j)) = tmul OG a c).
    { intros. simpl. unfold v_. simpl. pose proof (rl_ring OG RL) as R.
      rewrite (Radd_0_l R). apply (Rmul_comm R). }
    constructor; try (intros y Ly; rewrite Hn in *; destruct (L1 y Ly) as [a ->];
      unfold dense_solve, dense_mul; rewrite HD; simpl; eexists; split; [reflexivity|]; split; [reflexivity|];
      intros i Hi; assert (i = 0) by lia; subst i; unfold mvec, madj; rewrite S1; unfold v_; simpl nth).
    - apply (div_mul OG OG_field). auto.
    - apply (div_mul OG OG_field). auto.
    - reflexivity.
    - reflexivity.
    - rewrite Hn. intros x y H i Hi. assert (i = 0) by lia; subst i. specialize (H 0 ltac:(lia)).
      unfold mvec in H. simpl sum in H. pose proof (rl_ring OG RL) as R. rewrite !(Radd_0_l R) in H.
      apply (mul_cancel_l OG OG_field c); auto.
    - rewrite Hn. intros x y H i Hi. assert (i = 0) by lia; subst i. specialize (H 0 ltac:(lia)).
      unfold mvec, madj in H. simpl sum in H. pose proof (rl_ring OG RL) as R. rewrite !(Radd_0_l R) in H.
      apply (mul_cancel_l OG OG_field (tconj OG c)); auto.
  Qed.

  Lemma is_inv_dec : forall n p q,
    (length p =? n) && (length q =? n) &&
    forallb (fun i => (nth i p 0 <? n) && (nth (nth i p 0) q 0 =? i)
                   && (nth i q 0 <? n) && (nth (nth i q 0) p 0 =? i)) (seq 0 n) = true ->
    is_inv n p q.
  Proof.
    intros n p q H. apply andb_prop in H. destruct H as [H F]. apply andb_prop in H. destruct H as [H1 H2].
    apply Nat.eqb_eq in H1, H2. rewrite forallb_forall in F.
    assert (G : forall i, i < n -> nth i p 0 < n /\ nth (nth i p 0) q 0 = i /\ nth i q 0 < n /\ nth (nth i q 0) p 0 = i).
    { intros i Hi. specialize (F i). rewrite in_seq in F. specialize (F ltac:(lia)).
      repeat (apply andb_prop in F; destruct F as [F ?]).
      rewrite Nat.ltb_lt in *. rewrite Nat.eqb_eq in *. auto. }
    split; auto. split; auto. split; intros i Hi; destruct (G i Hi) as (A & B & C & D); auto.
  Qed.

  Ltac level := constructor; cbn [pm pn pL pd pU pE pF ps pt pp pp_inv pq pq_inv psize ssize length exP1 exP2];
    [ lia
    | split; [apply wfb_wf; vm_compute; reflexivity|split; [reflexivity|split; [reflexivity|]]];
      intros i j Hi Hj Hij; lt_cases; try lia; og_eq
    | split; [apply wfb_wf; vm_compute; reflexivity|split; [reflexivity|split; [reflexivity|]]];
      intros i j Hi Hj Hij; lt_cases; try lia; og_eq
    | split; [lia|]; intros i Hi; lt_cases; nz
    | reflexivity
    | intros _; split; [apply wfb_wf; vm_compute; reflexivity|split; reflexivity]
    | intros _; split; [apply wfb_wf; vm_compute; reflexivity|reflexivity]
    | split; [lia|]; intros i Hi; lt_cases; nz
    | split; [lia|]; intros i Hi; lt_cases; nz
    | apply is_inv_dec; reflexivity
    | apply is_inv_dec; reflexivity ].

  Example C18_hyps : hier_ok 0 [exP1; exP2] 4 /\ Forall real_scaling [exP1; exP2].
  Proof.
    split.
    - split; [level|]. split; [reflexivity|]. cbn. split; [level|]. split; [reflexivity|].
      right. exists (fun _ _ => g 1 3). apply dense1_is; try reflexivity. nz.
    - repeat constructor; cbn [pn ps pt exP1 exP2]; intros i Hi; lt_cases; og_eq.
  Qed.
End Ex.

(** ** C20: the result depends only on the right-hand side and the advertised
    workspace suffices.  No algebraic law, no assumption on the values: the
    statements hold for floating-point arithmetic too. *)

Theorem C20_solve : forall O (precs : list (Prec O)) n ld b y y' work work',
  hier_shape (fun P => dense_solve O P ld false) precs n ->
  length b = n -> length y = n -> length y' = n ->
  compute_prec_work_space O precs <= length work ->
  compute_prec_work_space O precs <= length work' ->
  exists x w w', prec_solve O precs b ld y work = Ok (x, w) /\ prec_solve O precs b ld y' work' = Ok (x, w') /\
    length x = n /\ length w = length work /\ length w' = length work'.
Proof.
  intros O precs n ld b y y' work work' H Lb Ly Ly' Lw Lw'.
  destruct (prec_solve_stale O precs n ld b y y' work work' H Lb Ly Ly' Lw Lw') as ([x w] & [x' w'] & E1 & E2 & (A & B & C & D)).
  simpl in *. subst x'. eauto 10.
Qed.
Print Assumptions C20_solve.

Theorem C20_solve_tran : forall O (precs : list (Prec O)) n ld b y y' work work',
  hier_shape (fun P => dense_solve O P ld true) precs n ->
  length b = n -> length y = n -> length y' = n ->
  compute_prec_work_space O precs <= length work ->
  compute_prec_work_space O precs <= length work' ->
  exists x w w', prec_solve_tran O precs b ld y work = Ok (x, w) /\ prec_solve_tran O precs b ld y' work' = Ok (x, w') /\
    length x = n /\ length w = length work /\ length w' = length work'.
Proof.
  intros O precs n ld b y y' work work' H Lb Ly Ly' Lw Lw'.
  destruct (prec_solve_tran_stale O precs n ld b y y' work work' H Lb Ly Ly' Lw Lw') as ([x w] & [x' w'] & E1 & E2 & (A & B & C & D)).
  simpl in *. subst x'. eauto 10.
Qed.
Print Assumptions C20_solve_tran.

Theorem C20_multiply : forall O (precs : list (Prec O)) n ld b y y' work work',
  hier_shape (fun P => dense_mul O P ld false) precs n ->
  length b = n -> length y = n -> length y' = n ->
  compute_prec_work_space O precs <= length work ->
  compute_prec_work_space O precs <= length work' ->
  exists x w w', prec_prod O precs b ld y work = Ok (x, w) /\ prec_prod O precs b ld y' work' = Ok (x, w') /\
    length x = n /\ length w = length work /\ length w' = length work'.
Proof.
  intros O precs n ld b y y' work work' H Lb Ly Ly' Lw Lw'.
  destruct (prec_prod_stale O precs n ld b y y' work work' H Lb Ly Ly' Lw Lw') as ([x w] & [x' w'] & E1 & E2 & (A & B & C & D)).
  simpl in *. subst x'. eauto 10.
Qed.
Print Assumptions C20_multiply.

Theorem C20_multiply_tran : forall O (precs : list (Prec O)) n ld b y y' work work',
  hier_shape (fun P => dense_mul O P ld true) precs n ->
  length b = n -> length y = n -> length y' = n ->
  compute_prec_work_space O precs <= length work ->
  compute_prec_work_space O precs <= length work' ->
  exists x w w', prec_prod_tran O precs b ld y work = Ok (x, w) /\ prec_prod_tran O precs b ld y' work' = Ok (x, w') /\
    length x = n /\ length w = length work /\ length w' = length work'.
Proof.
  intros O precs n ld b y y' work work' H Lb Ly Ly' Lw Lw'.
  destruct (prec_prod_tran_stale O precs n ld b y y' work work' H Lb Ly Ly' Lw Lw') as ([x w] & [x' w'] & E1 & E2 & (A & B & C & D)).
  simpl in *. subst x'. eauto 10.
Qed.
Print Assumptions C20_multiply_tran.

(** A two-level integer hierarchy (division is [Z.div]: no field laws hold). *)
Definition zdense : Dense OZ := mkDense OZ (fun _ _ y => Ok y) (fun _ _ y => Ok y) 1.
Definition zP1 : Prec OZ := mkPrec 1 3
  (@mkCS OZ 1 1 [0;0] [] []) [1%Z] (@mkCS OZ 1 1 [0;0] [] [])
  (@mkCS OZ 1 2 [0;2] [0;1] [2;3]%Z) (@mkCS OZ 2 1 [0;1;1] [0] [5]%Z)
  [1;1;1]%Z [1;1;1]%Z [2;0;1] [1;2;0] [0;1;2] [0;1;2] None None.
Definition zP2 : Prec OZ := mkPrec 1 2
  (@mkCS OZ 1 1 [0;0] [] []) [1%Z] (@mkCS OZ 1 1 [0;0] [] [])
  (@mkCS OZ 1 1 [0;1] [0] [1]%Z) (@mkCS OZ 1 1 [0;1] [0] [1]%Z)
  [1;1]%Z [1;1]%Z [0;1] [0;1] [1;0] [1;0] (Some zdense) None.
Example C20_hyps : hier_shape (fun P => dense_solve OZ P 0 false) [zP1; zP2] 3.
Proof.
  assert (W : forall A : CS OZ, wfb A = true -> wf A) by apply wfb_wf.
  split; [|split; [reflexivity|]].
  - constructor; cbn; try lia; auto 6 using is_inv_dec.
  - cbn. split; [|split; [reflexivity|]].
    + constructor; cbn; try lia; auto 6 using is_inv_dec.
    + intros _ y Ly. exists y. split; [reflexivity|exact Ly].
Qed.
Example C20_run : prec_solve OZ [zP1; zP2] [7;8;9]%Z 0 [0;0;0]%Z [0;0;0;0;0]%Z
                = prec_solve OZ [zP1; zP2] [7;8;9]%Z 0 [5;5;5]%Z [1;2;3;4;5]%Z.
Proof. vm_compute. reflexivity. Qed.
(** One cell less and the solve runs outside the buffer. *)
Example C20_workspace_tight : prec_solve OZ [zP1; zP2] [7;8;9]%Z 0 [0;0;0]%Z [0;0;0;0]%Z = UB.
Proof. vm_compute. reflexivity. Qed.

(** ** C21: the multi-RHS solve. *)

(** Refuted as soon as a level leaves a Schur complement: even with one
    right-hand side ([Nrhs = 1]) the result differs from [solve]. *)
Definition zP3 : Prec OZ := mkPrec 1 2
  (@mkCS OZ 1 1 [0;0] [] []) [1%Z] (@mkCS OZ 1 1 [0;0] [] [])
  (@mkCS OZ 1 1 [0;1] [0] [1]%Z) (@mkCS OZ 1 1 [0;1] [0] [1]%Z)
  [1;1]%Z [1;1]%Z [0;1] [0;1] [0;1] [0;1] (Some zdense) None.
Theorem C21_one_level_refuted : exists (P : Prec OZ) b y w r w1 w2 r',
  level_shape P /\ (forall z, dense_solve OZ P 0 false z = Ok z) /\
  prec_solve OZ [P] b 0 y w = Ok (r, w1) /\
  prec_solve_mrhs OZ 1 [P] b 0 y w = Ok (r', w2) /\ r <> r'.
Proof.
  exists zP3, [1;3]%Z, [0;0]%Z, [0;0]%Z. do 4 eexists.
  split; [constructor; cbn; try lia; auto 6 using is_inv_dec, wfb_wf|].
  split; [reflexivity|]. split; [vm_compute; reflexivity|]. split; [vm_compute; reflexivity|]. discriminate.
Qed.
Print Assumptions C21_one_level_refuted.

(** The result even depends on the stale contents of the work buffer. *)
Theorem C21_stale_refuted : exists (P : Prec OZ) b y w w' r w1 r' w2,
  level_shape P /\ length w = length w' /\
  prec_solve_mrhs OZ 1 [P] b 0 y w = Ok (r, w1) /\
  prec_solve_mrhs OZ 1 [P] b 0 y w' = Ok (r', w2) /\ r <> r'.
Proof.
  exists zP3, [1;3]%Z, [0;0]%Z, [0;0]%Z, [0;9]%Z. do 4 eexists.
  split; [constructor; cbn; try lia; auto 6 using is_inv_dec, wfb_wf|].
  split; [reflexivity|]. split; [vm_compute; reflexivity|]. split; [vm_compute; reflexivity|]. discriminate.
Qed.
Print Assumptions C21_stale_refuted.

(** What does hold: a hierarchy whose single level factors the whole matrix.
    (No algebraic law is used.) *)
Theorem C21_full_level_partial : forall O N (P : Prec O) ld B Y W k, 0 < N ->
  level_shape P -> pm P = pn P ->
  length B = pn P * N -> length Y = pn P * N -> length W = k * N -> pn P <= k ->
  exists R W', prec_solve_mrhs O N [P] B ld Y W = Ok (R, W') /\ length R = pn P * N /\
    forall c, c < N -> exists w', prec_solve O [P] (column N (pn P) c B) ld (column N (pn P) c Y) (column N k c W)
      = Ok (column N (pn P) c R, w').
Proof.
  intros O N P ld B Y W k HN LS Em LB LY LW Hk.
  assert (K : forall c, c < N -> rwp (prec_solve_mrhs O N [P] B ld Y W)
     (prec_solve O [P] (column N (pn P) c B) ld (column N (pn P) c Y) (column N k c W))
     (fun R r => colrel O N c (fst R) (fst r) /\ length (fst r) = pn P)).
  { intros c Hc. apply mrhs_full_level; auto; try (now apply colrel_column); now rewrite column_length. }
  destruct (K 0 HN) as ([R W'] & [r w'] & E1 & E2 & [C1 C2] & C3). simpl in *.
  exists R, W'. split; [exact E1|]. split; [lia|]. intros c Hc.
  destruct (K c Hc) as ([R1 W1] & [r1 w1] & F1 & F2 & D1 & D3). simpl in *.
  assert (R1 = R) by congruence. subst R1. exists w1. rewrite F2. do 2 f_equal.
  now apply colrel_is_column.
Qed.
Print Assumptions C21_full_level_partial.
Definition zP4 : Prec OZ := mkPrec 2 2
  (@mkCS OZ 2 2 [0;1;1] [1] [3]%Z) [1;1]%Z (@mkCS OZ 2 2 [0;0;1] [0] [2]%Z)
  (@mkCS OZ 2 0 [0;0;0] [] []) (@mkCS OZ 0 2 [0] [] [])
  [1;1]%Z [1;1]%Z [1;0] [1;0] [0;1] [0;1] None None.
Example C21_hyps : level_shape zP4 /\ pm zP4 = pn zP4.
Proof. split; [constructor; cbn; try lia; auto 6 using is_inv_dec, wfb_wf|reflexivity]. Qed.
Example C21_run : exists w, prec_solve_mrhs OZ 2 [zP4] [1;2;3;4]%Z 0 [0;0;0;0]%Z [0;0;0;0]%Z = Ok ([19;24;-8;-10]%Z, w).
Proof. eexists. vm_compute. reflexivity. Qed.
