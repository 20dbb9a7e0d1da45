(** * PrecProofs2: existence and uniqueness of the preconditioner matrix, inversion. *)
From Coq Require Import List Arith Lia Bool Ring.
From Verif Require Import Base Scalar Spec CSModel CSSpec CSProofs LevelMath PrecModel PrecSpec PrecProofs.
Import ListNotations.

Section PP2.
  Variable O : Ops.
  Notation T := (T O).
  Notation "0" := (t0 O).
  Infix "+" := (tadd O). Infix "*" := (tmul O). Infix "-" := (tsub O).
  Section Laws.
    Hypothesis FL : FieldLaws O.
    Let RL := fl_ring O FL.
    Add Ring TP2 : (rl_ring O RL).

    Lemma level_of_exists : forall P (C : nat -> nat -> T), level_ok P ->
      exists M, level_of (pm P) (pn P) (v_ (ps P)) (v_ (pt P)) (pp P) (pq P)
                 (Bmat P) (ccs_mat (pF P)) (ccs_mat (pE P)) C M.
    Proof.
      intros P C LO.
      destruct (B_range O FL P LO (Nat.sub (pn P) (pm P)) (ccs_mat (pF P))) as [W HW].
      exists (fun i j => tinv O (v_ (ps P) i) * blk2 (pm P) (Bmat P) (ccs_mat (pF P)) (ccs_mat (pE P))
        (madd (mmul (pm P) (ccs_mat (pE P)) W) C) (nth i (pp_inv P) Datatypes.O) (nth j (pq_inv P) Datatypes.O)
        * tinv O (v_ (pt P) j)).
      exists W. split; auto. intros i j Hi Hj.
      destruct (lo_p O P LO) as (_ & _ & P1 & _). destruct (P1 i Hi) as [P2 P3].
      destruct (lo_q O P LO) as (_ & _ & Q1 & _). destruct (Q1 j Hj) as [Q2 Q3].
      rewrite P3, Q3.
      match goal with |- ?s * (?si * ?x * ?ti) * ?t = _ =>
        transitivity ((si * s) * (ti * t) * x); [ring|] end.
      rewrite !(fl_inv O FL); [ring|apply (lo_t O P LO); auto|apply (lo_s O P LO); auto].
    Qed.

    Lemma prec_matrix_exists : forall precs ld n, hier_ok ld precs n ->
      exists M : nat -> nat -> T, prec_matrix ld precs M.
    Proof.
      induction precs as [|P rest IH]; intros ld n H; [contradiction|].
      destruct H as (LO & En & HT). simpl. destruct (is_last_level O P).
      - destruct HT as [HT|[C HC]].
        + destruct (level_of_exists P (fun _ _ => 0) LO) as [M HM]. exists M, (fun _ _ => 0). auto.
        + destruct (level_of_exists P C LO) as [M HM]. exists M, C. auto.
      - destruct (IH ld _ HT) as [C HC].
        destruct (level_of_exists P C LO) as [M HM]. exists M, C. auto.
    Qed.

    Lemma injective_zero : forall (A : nat -> nat -> T), injective_on 0 A.
    Proof. intros A x y _ i Hi. lia. Qed.

    Lemma prec_matrix_inj : forall precs ld n M, hier_ok ld precs n -> prec_matrix ld precs M ->
      injective_on (O := O) n M.
    Proof.
      induction precs as [|P rest IH]; intros ld n M H HM; [contradiction|].
      destruct H as (LO & En & HT). destruct HM as (C & HL & HC).
      subst n. eapply (level_inj O FL); try exact HL; try apply (lo_m O P LO);
        try apply (lo_p O P LO); try apply (lo_q O P LO); try apply (lo_s O P LO); try apply (lo_t O P LO).
      - apply (B_inj O FL P LO).
      - destruct (is_last_level O P).
        + destruct HC as [HC|HC].
          * rewrite HC, Nat.sub_diag. apply injective_zero.
          * apply (di_inj O P ld C HC).
        + eapply IH; eauto.
    Qed.

    Lemma prec_matrix_adj_inj : forall precs ld n M, hier_ok ld precs n -> Forall real_scaling precs ->
      prec_matrix ld precs M -> injective_on (O := O) n (madj M).
    Proof.
      induction precs as [|P rest IH]; intros ld n M H HR HM; [contradiction|].
      destruct H as (LO & En & HT). destruct HM as (C & HL & HC).
      inversion HR as [|? ? RS HR']; subst. apply (level_adj_ok O FL) in HL; auto.
      eapply (level_inj O FL); try exact HL; try apply (lo_m O P LO);
        try apply (lo_p O P LO); try apply (lo_q O P LO); try apply (lo_s O P LO); try apply (lo_t O P LO).
      - apply (BH_inj O FL P LO).
      - destruct (is_last_level O P).
        + destruct HC as [HC|HC].
          * rewrite HC, Nat.sub_diag. apply injective_zero.
          * apply (di_inj_t O P ld C HC).
        + eapply IH; eauto.
    Qed.

    (** Column [k] of a matrix is its product with the [k]-th unit vector. *)
    Lemma mvec_unit : forall n (A : nat -> nat -> T) i k, (k < n)%nat ->
      mvec n A (fun j => if Nat.eqb j k then t1 O else 0) i = A i k.
    Proof.
      intros. unfold mvec. rewrite <- (sum_delta' O RL n k (fun j => A i j) H). apply sum_ext. intros j Hj.
      destruct (Nat.eqb_spec j k); subst; ring.
    Qed.

    (** The matrix is determined by the hierarchy. *)
    Lemma prec_matrix_unique : forall precs ld n M M', hier_ok (O:=O) ld precs n ->
      prec_matrix ld precs M -> prec_matrix ld precs M' -> meq n n M M'.
    Proof.
      intros precs ld n M M' HO H1 H2 i k Hi Hk.
      set (e := map (fun j => if Nat.eqb j k then t1 O else 0) (seq 0 n)).
      assert (Le : length e = n) by (unfold e; now rewrite map_length, seq_length).
      set (w := repeat 0 (compute_prec_work_space O precs)).
      assert (Lw : (compute_prec_work_space O precs <= length w)%nat) by (unfold w; rewrite repeat_length; lia).
      destruct (wp_inv _ _ _ (prec_prod_wp O FL precs n ld M e e w HO H1 Le Le Lw)) as (r & E1 & _ & _ & V1).
      destruct (wp_inv _ _ _ (prec_prod_wp O FL precs n ld M' e e w HO H2 Le Le Lw)) as (r' & E2 & _ & _ & V2).
      assert (r = r') by congruence. subst r'.
      assert (Q : forall A : nat -> nat -> T, mvec n A (v_ e) i = A i k).
      { intros A. rewrite <- (mvec_unit n A i k Hk). apply (mvec_eq_x O). intros j Hj.
        unfold e. exact (v_map_seq O (fun j => if Nat.eqb j k then t1 O else 0) n j Hj). }
      rewrite <- (Q M), <- (Q M'). rewrite <- V1, <- V2 by auto. auto.
    Qed.

    Lemma veq_lists : forall n (a b : list T), length a = n -> length b = n -> veq n (v_ a) (v_ b) -> a = b.
    Proof. intros n a b La Lb H. apply (list_ext _ a b 0); [lia|]. intros i Hi. apply H. lia. Qed.

    Section Applied.
      Variables (precs : list (Prec O)) (ld n : nat).
      Hypothesis HO : hier_ok ld precs n.

      Lemma prod_solve_l : forall b y w y' w',
        length b = n -> length y = n -> length y' = n ->
        (compute_prec_work_space O precs <= length w)%nat ->
        (compute_prec_work_space O precs <= length w')%nat ->
        exists x w1 w2, prec_solve O precs b ld y w = Ok (x, w1) /\
                        prec_prod O precs x ld y' w' = Ok (b, w2).
      Proof.
        intros b y w y' w' Lb Ly Ly' Lw Lw'. destruct (prec_matrix_exists precs ld n HO) as [M HM].
        destruct (wp_inv _ _ _ (prec_solve_wp O FL precs n ld M b y w HO HM Lb Ly Lw)) as ([x w1] & E1 & Lx & _ & V1).
        simpl in Lx, V1.
        destruct (wp_inv _ _ _ (prec_prod_wp O FL precs n ld M x y' w' HO HM Lx Ly' Lw')) as ([b' w2] & E2 & Lb' & _ & V2).
        simpl in Lb', V2. exists x, w1, w2. split; auto. rewrite E2. do 2 f_equal.
        apply (veq_lists n); auto. intros i Hi. rewrite V2 by auto. now apply V1.
      Qed.

      Lemma solve_prod_l : forall b y w y' w',
        length b = n -> length y = n -> length y' = n ->
        (compute_prec_work_space O precs <= length w)%nat ->
        (compute_prec_work_space O precs <= length w')%nat ->
        exists x w1 w2, prec_prod O precs b ld y w = Ok (x, w1) /\
                        prec_solve O precs x ld y' w' = Ok (b, w2).
      Proof.
        intros b y w y' w' Lb Ly Ly' Lw Lw'. destruct (prec_matrix_exists precs ld n HO) as [M HM].
        destruct (wp_inv _ _ _ (prec_prod_wp O FL precs n ld M b y w HO HM Lb Ly Lw)) as ([x w1] & E1 & Lx & _ & V1).
        simpl in Lx, V1.
        destruct (wp_inv _ _ _ (prec_solve_wp O FL precs n ld M x y' w' HO HM Lx Ly' Lw')) as ([b' w2] & E2 & Lb' & _ & V2).
        simpl in Lb', V2. exists x, w1, w2. split; auto. rewrite E2. do 2 f_equal.
        apply (veq_lists n); auto.
        apply (prec_matrix_inj precs ld n M HO HM). intros i Hi. rewrite V2 by auto. now apply V1.
      Qed.

      Hypothesis HR : Forall real_scaling precs.

      Lemma prod_solve_tran_l : forall b y w y' w',
        length b = n -> length y = n -> length y' = n ->
        (compute_prec_work_space O precs <= length w)%nat ->
        (compute_prec_work_space O precs <= length w')%nat ->
        exists x w1 w2, prec_solve_tran O precs b ld y w = Ok (x, w1) /\
                        prec_prod_tran O precs x ld y' w' = Ok (b, w2).
      Proof.
        intros b y w y' w' Lb Ly Ly' Lw Lw'. destruct (prec_matrix_exists precs ld n HO) as [M HM].
        destruct (wp_inv _ _ _ (prec_solve_tran_wp O FL precs n ld M b y w HO HR HM Lb Ly Lw)) as ([x w1] & E1 & Lx & _ & V1).
        simpl in Lx, V1.
        destruct (wp_inv _ _ _ (prec_prod_tran_wp O FL precs n ld M x y' w' HO HR HM Lx Ly' Lw')) as ([b' w2] & E2 & Lb' & _ & V2).
        simpl in Lb', V2. exists x, w1, w2. split; auto. rewrite E2. do 2 f_equal.
        apply (veq_lists n); auto. intros i Hi. rewrite V2 by auto. now apply V1.
      Qed.

      Lemma solve_prod_tran_l : forall b y w y' w',
        length b = n -> length y = n -> length y' = n ->
        (compute_prec_work_space O precs <= length w)%nat ->
        (compute_prec_work_space O precs <= length w')%nat ->
        exists x w1 w2, prec_prod_tran O precs b ld y w = Ok (x, w1) /\
                        prec_solve_tran O precs x ld y' w' = Ok (b, w2).
      Proof.
        intros b y w y' w' Lb Ly Ly' Lw Lw'. destruct (prec_matrix_exists precs ld n HO) as [M HM].
        destruct (wp_inv _ _ _ (prec_prod_tran_wp O FL precs n ld M b y w HO HR HM Lb Ly Lw)) as ([x w1] & E1 & Lx & _ & V1).
        simpl in Lx, V1.
        destruct (wp_inv _ _ _ (prec_solve_tran_wp O FL precs n ld M x y' w' HO HR HM Lx Ly' Lw')) as ([b' w2] & E2 & Lb' & _ & V2).
        simpl in Lb', V2. exists x, w1, w2. split; auto. rewrite E2. do 2 f_equal.
        apply (veq_lists n); auto.
        apply (prec_matrix_adj_inj precs ld n M HO HR HM). intros i Hi. rewrite V2 by auto. now apply V1.
      Qed.

      (** [<M x, y> = <x, M^H y>] for the two products. *)
      Lemma prod_adjoint_l : forall x z y w y' w',
        length x = n -> length z = n -> length y = n -> length y' = n ->
        (compute_prec_work_space O precs <= length w)%nat ->
        (compute_prec_work_space O precs <= length w')%nat ->
        exists Mx w1 Mz w2, prec_prod O precs x ld y w = Ok (Mx, w1) /\
          prec_prod_tran O precs z ld y' w' = Ok (Mz, w2) /\
          inner n (v_ Mx) (v_ z) = inner n (v_ x) (v_ Mz).
      Proof.
        intros x z y w y' w' Lx Lz Ly Ly' Lw Lw'. destruct (prec_matrix_exists precs ld n HO) as [M HM].
        destruct (wp_inv _ _ _ (prec_prod_wp O FL precs n ld M x y w HO HM Lx Ly Lw)) as ([Mx w1] & E1 & L1 & _ & V1).
        destruct (wp_inv _ _ _ (prec_prod_tran_wp O FL precs n ld M z y' w' HO HR HM Lz Ly' Lw')) as ([Mz w2] & E2 & L2 & _ & V2).
        simpl in V1, V2. exists Mx, w1, Mz, w2. split; auto. split; auto.
        transitivity (inner n (mvec n M (v_ x)) (v_ z)).
        { apply sum_ext. intros i Hi. now rewrite V1. }
        rewrite (adjoint_spec O RL). apply sum_ext. intros i Hi. now rewrite V2.
      Qed.

      Lemma solve_adjoint_l : forall x z y w y' w',
        length x = n -> length z = n -> length y = n -> length y' = n ->
        (compute_prec_work_space O precs <= length w)%nat ->
        (compute_prec_work_space O precs <= length w')%nat ->
        exists Mx w1 Mz w2, prec_solve O precs x ld y w = Ok (Mx, w1) /\
          prec_solve_tran O precs z ld y' w' = Ok (Mz, w2) /\
          inner n (v_ Mx) (v_ z) = inner n (v_ x) (v_ Mz).
      Proof.
        intros x z y w y' w' Lx Lz Ly Ly' Lw Lw'. destruct (prec_matrix_exists precs ld n HO) as [M HM].
        destruct (wp_inv _ _ _ (prec_solve_wp O FL precs n ld M x y w HO HM Lx Ly Lw)) as ([Mx w1] & E1 & L1 & _ & V1).
        destruct (wp_inv _ _ _ (prec_solve_tran_wp O FL precs n ld M z y' w' HO HR HM Lz Ly' Lw')) as ([Mz w2] & E2 & L2 & _ & V2).
        simpl in V1, V2. exists Mx, w1, Mz, w2. split; auto. split; auto.
        transitivity (inner n (v_ Mx) (mvec n (madj M) (v_ Mz))).
        { apply sum_ext. intros i Hi. now rewrite V2. }
        rewrite <- (adjoint_spec O RL). apply sum_ext. intros i Hi. now rewrite V1.
      Qed.
    End Applied.
  End Laws.
End PP2.
