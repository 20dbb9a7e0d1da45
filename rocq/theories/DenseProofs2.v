(** * DenseProofs2: the QR solver computes with the matrix it was given. *)
From Coq Require Import List Arith Lia Bool QArith Ring.
From Verif Require Import Base Scalar Spec VecProofs DenseModel DenseSpec DenseProofs1.
Import ListNotations.
Local Open Scope nat_scope.
Local Arguments bind {A B} !m f /.

Section Alg.
  Variable O : Ops.
  Notation T := (T O).
  Hypothesis RL : RingLaws O.
  Notation "0" := (t0 O).
  Infix "+" := (tadd O). Infix "*" := (tmul O). Infix "-" := (tsub O).
  Notation "x ^*" := (tconj O x) (at level 30).
  Add Ring TR2 : (rl_ring O RL).

  Lemma piv_perm : forall n jpvt, good_pivots n jpvt -> is_perm n (map (fun p => p - 1)%nat jpvt) /\ (forall i, (i < n)%nat -> nth i (map (fun p => p - 1)%nat jpvt) Datatypes.O = piv jpvt i).
  Proof.
    intros n jpvt (L & H & I).
    assert (E : forall i, (i < n)%nat -> nth i (map (fun p => p - 1)%nat jpvt) Datatypes.O = piv jpvt i).
    { intros i Hi. unfold piv. rewrite nth_indep with (d' := (fun p => p - 1)%nat Datatypes.O) by (rewrite map_length; lia). apply (map_nth (fun p => p - 1)%nat). }
    split; auto. split; [rewrite map_length; auto|split].
    - intros i Hi. rewrite E by auto. unfold piv. specialize (H i Hi). lia.
    - intros i j Hi Hj Q. rewrite !E in Q by auto. unfold piv in Q. apply I; auto. pose proof (H i Hi). pose proof (H j Hj). lia.
  Qed.
  Lemma piv_surj : forall n jpvt j, good_pivots n jpvt -> (j < n)%nat -> exists k, (k < n)%nat /\ j = piv jpvt k.
  Proof. intros n jpvt j G Hj. destruct (piv_perm n jpvt G) as (P & E). destruct (is_perm_surj n _ j P Hj) as (k & Hk & <-). exists k. split; auto. Qed.
  Lemma piv_inj : forall n jpvt i j, good_pivots n jpvt -> (i < n)%nat -> (j < n)%nat -> piv jpvt i = piv jpvt j -> i = j.
  Proof. intros n jpvt i j (L & H & I) Hi Hj Q. unfold piv in Q. apply I; auto. pose proof (H i Hi). pose proof (H j Hj). lia. Qed.
  Lemma piv_lt : forall n jpvt i, good_pivots n jpvt -> (i < n)%nat -> (piv jpvt i < n)%nat.
  Proof. intros n jpvt i (L & H & I) Hi. unfold piv. pose proof (H i Hi). lia. Qed.

  Lemma sum_piv : forall n jpvt (f : nat -> T), good_pivots n jpvt -> sum n f = sum n (fun k => f (piv jpvt k)).
  Proof.
    intros n jpvt f G. symmetry.
    transitivity (sum n (fun j => sum n (fun k => if Nat.eqb (piv jpvt j) k then f k else 0))).
    - apply sum_ext. intros j Hj. rewrite (sum_delta O RL); auto. eapply piv_lt; eauto.
    - rewrite (sum_swap O RL). apply sum_ext. intros k Hk. destruct (piv_surj n jpvt k G Hk) as (q & Hq & E).
      rewrite (sum_one_nz O RL n q); auto.
      + rewrite <- E, Nat.eqb_refl. auto.
      + intros i Hi Hn. destruct (Nat.eqb_spec (piv jpvt i) k); auto. exfalso. apply Hn. apply (piv_inj n jpvt); auto. congruence.
  Qed.

  Lemma opp_mul : forall q t, topp O t * q = topp O (q * t). Proof. intros; ring. Qed.
  Lemma sub_self : forall a, a - a = 0. Proof. intros; ring. Qed.

  (** A sum whose terms vanish beyond [r]. *)
  Lemma sum_cut : forall n r (f : nat -> T), (r <= n)%nat -> (forall i, (r <= i < n)%nat -> f i = 0) -> sum n f = sum r f.
  Proof.
    intros n r f Hr H. replace n with (r + (n - r))%nat by lia. rewrite (sum_split O RL). rewrite (sum_zero O RL (n - r)); [ring|]. intros i Hi. apply H. lia.
  Qed.

  Section QRA.
    Variables (n : nat) (A Q : nat -> nat -> T) (m : list T) (jpvt : list nat).
    Hypothesis GQ : geqp3_ok n A m jpvt Q.
    Variable r : nat.
    Hypothesis Hr : (r <= n)%nat.

    (** [A z] for a [z] supported on the first [r] pivot columns with entries [w]. *)
    Lemma Az : forall z w, (forall k, (k < n)%nat -> z (piv jpvt k) = if k <? r then w k else 0) -> forall i, (i < n)%nat ->
      mvec n A z i = sum r (fun l => Q i l * mvec r (upper n m) w l).
    Proof.
      intros z w Hz i Hi. destruct GQ as [G1 G2 G3 G4 G5]. unfold mvec. rewrite (sum_piv n jpvt _ G2).
      transitivity (sum r (fun k => A i (piv jpvt k) * w k)).
      { rewrite (sum_cut n r) by first [lia | intros k Hk; rewrite Hz by lia; destruct (Nat.ltb_spec k r); [lia|ring]].
        apply sum_ext. intros k Hk. rewrite Hz by lia. destruct (Nat.ltb_spec k r); [auto|lia]. }
      transitivity (sum r (fun k => sum r (fun l => Q i l * upper n m l k * w k))).
      { apply sum_ext. intros k Hk. rewrite G3 by lia. rewrite (sum_cut n r) by first [lia | intros l Hl; rewrite upper_out by lia; ring].
        rewrite <- (sum_scal_r O RL). auto. }
      rewrite (sum_swap O RL). apply sum_ext. intros l Hl. rewrite <- (sum_scal_l O RL). apply sum_ext. intros; ring.
    Qed.

    (** The coordinates of a vector in the basis [Q]. *)
    Lemma Q_coord : forall (y : nat -> T) l, (l < n)%nat -> (r <= n)%nat -> sum n (fun i => (Q i l)^* * sum r (fun k => Q i k * y k)) = if l <? r then y l else 0.
    Proof.
      intros y l Hl _. destruct GQ as [G1 G2 G3 G4 G5].
      transitivity (sum r (fun k => mid l k * y k)).
      { transitivity (sum n (fun i => sum r (fun k => (Q i l)^* * Q i k * y k))).
        { apply sum_ext. intros i Hi. rewrite <- (sum_scal_l O RL). apply sum_ext. intros; ring. }
        rewrite (sum_swap O RL). apply sum_ext. intros k Hk. rewrite (sum_scal_r O RL). rewrite G4 by lia. auto. }
      destruct (Nat.ltb_spec l r).
      - rewrite (sum_one_nz O RL r l); auto; unfold mid; [rewrite Nat.eqb_refl; ring|]. intros k Hk N. destruct (Nat.eqb_spec l k); [congruence|ring].
      - apply (sum_zero O RL). intros k Hk. unfold mid. destruct (Nat.eqb_spec l k); [lia|ring].
    Qed.
    Lemma Q_back : forall (b : nat -> T) i, (i < n)%nat -> sum n (fun l => Q i l * sum n (fun k => (Q k l)^* * b k)) = b i.
    Proof.
      intros b i Hi. destruct GQ as [G1 G2 G3 G4 G5].
      transitivity (sum n (fun k => mid i k * b k)).
      { transitivity (sum n (fun l => sum n (fun k => Q i l * (Q k l)^* * b k))).
        { apply sum_ext. intros l Hl. rewrite <- (sum_scal_l O RL). apply sum_ext. intros; ring. }
        rewrite (sum_swap O RL). apply sum_ext. intros k Hk. rewrite (sum_scal_r O RL). rewrite G5 by lia. auto. }
      rewrite (sum_one_nz O RL n i); auto; unfold mid; [rewrite Nat.eqb_refl; ring|]. intros k Hk N. destruct (Nat.eqb_spec i k); [congruence|ring].
    Qed.

    (** Inner products with a pivot column. *)
    Lemma col_inner : forall k (u : nat -> T), (k < r)%nat ->
      sum n (fun i => (A i (piv jpvt k))^* * u i) = sum r (fun l => (upper n m l k)^* * sum n (fun i => (Q i l)^* * u i)).
    Proof.
      intros k u Hk. destruct GQ as [G1 G2 G3 G4 G5].
      transitivity (sum n (fun i => sum r (fun l => (upper n m l k)^* * ((Q i l)^* * u i)))).
      { apply sum_ext. intros i Hi. rewrite G3 by lia. rewrite (sum_cut n r) by first [lia | intros l Hl; rewrite upper_out by lia; ring].
        rewrite (sum_conj O RL), <- (sum_scal_r O RL). apply sum_ext. intros l Hl. rewrite (rl_conj_mul O RL). ring. }
      rewrite (sum_swap O RL). apply sum_ext. intros l Hl. now rewrite (sum_scal_l O RL).
    Qed.
  End QRA.
End Alg.

Section Single.
  Variable O : Ops.
  Notation T := (T O).
  Variable is0 : T -> bool.
  Variable ormqr : bool -> nat -> list T -> list T.
  Notation "0" := (t0 O).
  Infix "+" := (tadd O). Infix "*" := (tmul O). Infix "-" := (tsub O).
  Notation "x ^*" := (tconj O x) (at level 30).
  Variables (jv : T) (s : QR O) (n : nat).
  Hypothesis Hn : (1 <= n)%nat.
  Hypothesis Hnr : q_nr s = n.
  Hypothesis HL : forall tr r v, (r <= n)%nat -> length v = n -> length (ormqr tr r v) = n.
  Hypothesis HM : length (q_mat s) = (n * n)%nat.
  Hypothesis HP : good_pivots n (q_jpvt s).

  Lemma ready : qr_ready O s = true.
  Proof.
    unfold qr_ready. rewrite HM. destruct HP as (LP & _). rewrite LP. destruct (Nat.eqb_spec (n * n) Datatypes.O); [nia|]. destruct (Nat.eqb_spec n Datatypes.O); [lia|auto].
  Qed.

  Lemma use_rank_le : forall rank, (q_rank s <= n)%nat -> (use_rank n rank (q_rank s) <= n)%nat.
  Proof. intros. unfold use_rank. destruct (rank =? Datatypes.O); auto. destruct (Nat.ltb_spec n rank); lia. Qed.

  Section One.
    Variable rank : nat.
    Notation rk := (use_rank n rank (q_rank s)).
    Hypothesis Hrk : (rk <= n)%nat.

    Lemma len_or : forall tr v z, length v = n -> Ok (ormqr tr rk v) = Ok z -> length z = n.
    Proof. intros tr v z L E. injection E as <-. now apply HL. Qed.
    Lemma len_sc : forall v z, length v = n -> scatter_p O jv s rk v = Ok z -> length z = n.
    Proof. intros v z L E. apply scatter_len in E; destruct HP as (LP & _); lia. Qed.
    Lemma len_ga : forall v z, length v = n -> gather_p O jv s rk v = Ok z -> length z = n.
    Proof. intros v z L E. apply gather_len in E; destruct HP as (LP & _); lia. Qed.

    Lemma solve_nt_1 : forall x, length x = n -> qr_solve O is0 ormqr jv s x rank false =
      (v <- trsv_n O is0 n (q_mat s) rk (ormqr true rk x) ;; scatter_p O jv s rk v).
    Proof.
      intros x Lx. unfold qr_solve, solve_nt. rewrite Hnr, Lx, Nat.eqb_refl, ready. cbn [negb].
      rewrite each_col_1 by (auto; apply len_or). cbn [bind].
      assert (L1 : length (ormqr true rk x) = n) by (apply HL; auto).
      rewrite each_col_1 by (auto; intros v z L E; apply trsv_n_len in E; lia).
      destruct (trsv_n O is0 n (q_mat s) rk (ormqr true rk x)) as [v| |] eqn:E; cbn [bind]; auto.
      apply trsv_n_len in E. apply each_col_1; [apply len_sc|lia].
    Qed.
    Lemma solve_t_1 : forall x, length x = n -> qr_solve O is0 ormqr jv s x rank true =
      (v <- gather_p O jv s rk x ;; v <- trsv_c O is0 n (q_mat s) rk v ;; Ok (ormqr false rk v)).
    Proof.
      intros x Lx. unfold qr_solve, solve_t. rewrite Hnr, Lx, Nat.eqb_refl, ready. cbn [negb].
      rewrite each_col_1 by (auto; apply len_ga).
      destruct (gather_p O jv s rk x) as [v| |] eqn:E; cbn [bind]; auto.
      apply len_ga in E; auto. rewrite each_col_1 by (auto; intros u z L F; apply trsv_c_len in F; lia).
      destruct (trsv_c O is0 n (q_mat s) rk v) as [u| |] eqn:F; cbn [bind]; auto.
      apply trsv_c_len in F. apply (each_col_1 O n (fun v => Ok (ormqr false rk v))); [apply len_or|lia].
    Qed.
    Lemma multiply_nt_1 : forall x, length x = n -> qr_multiply O ormqr jv s x rank false =
      (v <- gather_p O jv s rk x ;; v <- trmv_n O n (q_mat s) rk v ;; Ok (ormqr false rk v)).
    Proof.
      intros x Lx. unfold qr_multiply, multiply_nt. rewrite Hnr, Lx, Nat.eqb_refl, ready. cbn [negb].
      rewrite each_col_1 by (auto; apply len_ga).
      destruct (gather_p O jv s rk x) as [v| |] eqn:E; cbn [bind]; auto.
      apply len_ga in E; auto. rewrite each_col_1 by (auto; intros u z L F; apply trmv_n_len in F; lia).
      destruct (trmv_n O n (q_mat s) rk v) as [u| |] eqn:F; cbn [bind]; auto.
      apply trmv_n_len in F. apply (each_col_1 O n (fun v => Ok (ormqr false rk v))); [apply len_or|lia].
    Qed.
    Lemma multiply_t_1 : forall x, length x = n -> qr_multiply O ormqr jv s x rank true =
      (v <- trmv_c O n (q_mat s) rk (ormqr true rk x) ;; scatter_p O jv s rk v).
    Proof.
      intros x Lx. unfold qr_multiply, multiply_t. rewrite Hnr, Lx, Nat.eqb_refl, ready. cbn [negb].
      rewrite each_col_1 by (auto; apply len_or). cbn [bind].
      assert (L1 : length (ormqr true rk x) = n) by (apply HL; auto).
      rewrite each_col_1 by (auto; intros v z L E; apply trmv_c_len in E; lia).
      destruct (trmv_c O n (q_mat s) rk (ormqr true rk x)) as [v| |] eqn:E; cbn [bind]; auto.
      apply trmv_c_len in E. apply each_col_1; [apply len_sc|lia].
    Qed.

    (** No division by zero, whatever the numbers. *)
    Lemma qr_solve_ok : forall tran x, length x = n ->
      (forall i, (i < rk)%nat -> is0 (cm n (q_mat s) i i) = false /\ is0 ((cm n (q_mat s) i i)^*) = false) ->
      exists z, qr_solve O is0 ormqr jv s x rank tran = Ok z /\ length z = n.
    Proof.
      intros [|] x Lx Hd; [rewrite solve_t_1 by auto|rewrite solve_nt_1 by auto].
      - assert (W : wp (v <- gather_p O jv s rk x ;; v <- trsv_c O is0 n (q_mat s) rk v ;; Ok (ormqr false rk v)) (fun z => length z = n)).
        { wpb. eapply wp_conseq; [apply (gather_wp O jv s n); auto|]. intros v (Lv & _). wpb.
          eapply wp_conseq; [apply (trsv_c_wp O is0 n n); auto; [lia|intros; now apply Hd]|]. intros u (Lu & _). cbn. now apply HL. }
        apply wp_inv in W. auto.
      - assert (W : wp (v <- trsv_n O is0 n (q_mat s) rk (ormqr true rk x) ;; scatter_p O jv s rk v) (fun z => length z = n)).
        { wpb. eapply wp_conseq; [apply (trsv_n_wp O is0 n n); auto; [lia|intros; now apply Hd]|]. intros u (Lu & _).
          eapply wp_conseq; [apply (scatter_wp O jv s n); auto|]. intros z (Lz & _). auto. }
        apply wp_inv in W. auto.
    Qed.
    Lemma qr_multiply_ok : forall tran x, length x = n -> exists z, qr_multiply O ormqr jv s x rank tran = Ok z /\ length z = n.
    Proof.
      intros [|] x Lx; [rewrite multiply_t_1 by auto|rewrite multiply_nt_1 by auto].
      - assert (W : wp (v <- trmv_c O n (q_mat s) rk (ormqr true rk x) ;; scatter_p O jv s rk v) (fun z => length z = n)).
        { wpb. eapply wp_conseq; [apply (trmv_c_wp O n n); auto; lia|]. intros u (Lu & _).
          eapply wp_conseq; [apply (scatter_wp O jv s n); auto|]. intros z (Lz & _). auto. }
        apply wp_inv in W. auto.
      - assert (W : wp (v <- gather_p O jv s rk x ;; v <- trmv_n O n (q_mat s) rk v ;; Ok (ormqr false rk v)) (fun z => length z = n)).
        { wpb. eapply wp_conseq; [apply (gather_wp O jv s n); auto|]. intros v (Lv & _). wpb.
          eapply wp_conseq; [apply (trmv_n_wp O n n); auto; lia|]. intros u (Lu & _). cbn. now apply HL. }
        apply wp_inv in W. auto.
    Qed.
  End One.

  Section Exact.
    Variables (A Q : nat -> nat -> T).
    Hypothesis GQ : geqp3_ok n A (q_mat s) (q_jpvt s) Q.
    Hypothesis OQ : ormqr_ok n Q ormqr.
    Variable rank : nat.
    Notation rk := (use_rank n rank (q_rank s)).
    Hypothesis Hrk : (rk <= n)%nat.

    Lemma solve_nt_exact : FieldLaws O -> (forall a, is0 a = false -> a <> 0) -> forall b, length b = n ->
      (forall i, (i < rk)%nat -> is0 (cm n (q_mat s) i i) = false) ->
      exists z, qr_solve O is0 ormqr jv s b rank false = Ok z /\ basic_solution n A (q_jpvt s) rk b z /\
        (rk = n -> veq n (mvec n A (v_ z)) (v_ b)).
    Proof.
      intros FL Z b Lb Hd. pose proof (fl_ring O FL) as RL. rewrite solve_nt_1 by auto. apply wp_inv. wpb.
      eapply wp_conseq; [apply (trsv_n_wp O is0 n n); auto; lia|]. intros u (Lu & _ & Hu). specialize (Hu FL Z).
      eapply wp_conseq; [apply (scatter_wp O jv s n); auto|]. intros z (Lz & Hz).
      pose proof (Az O RL n A Q _ _ GQ rk Hrk (v_ z) (v_ u) Hz) as HA.
      assert (HA' : forall i, (i < n)%nat -> mvec n A (v_ z) i = sum rk (fun l => Q i l * v_ (ormqr true rk b) l)).
      { intros i Hi. rewrite HA by auto. apply sum_ext. intros l Hl. rewrite Hu by auto. auto. }
      assert (HY : forall l, (l < rk)%nat -> v_ (ormqr true rk b) l = sum n (fun i => (Q i l)^* * v_ b i)).
      { intros l Hl. unfold v_ at 1. now apply (oq_adj _ _ _ OQ). }
      split; [split; auto; split|].
      - intros j Hj NP. destruct (piv_surj n (q_jpvt s) j HP Hj) as (k & Hk & ->). rewrite Hz by auto.
        destruct (Nat.ltb_spec k rk); auto. exfalso. apply NP. exists k. auto.
      - intros j (k & Hk & ->). rewrite (col_inner O RL n A Q _ _ GQ rk Hrk) by auto. apply (sum_zero O RL). intros l Hl.
        rewrite (sum_ext O n _ (fun i => (Q i l)^* * v_ b i - (Q i l)^* * sum rk (fun k => Q i k * v_ (ormqr true rk b) k))).
        2:{ intros i Hi. rewrite HA' by auto. destruct (rl_ring O RL). rewrite !Rsub_def, (Rmul_comm (_^*)), Rdistr_l.
            rewrite (Rmul_comm (v_ b i)). f_equal. set (q := (Q i l)^*). set (t := sum rk _). clear - RL. apply (opp_mul O RL). }
        rewrite (sum_sub O RL), (Q_coord O RL n A Q _ _ GQ rk Hrk) by lia. destruct (Nat.ltb_spec l rk); [|lia].
        rewrite <- HY by auto. set (y := v_ _ l). rewrite (sub_self O RL). apply (mul0r O RL).
      - intros E i Hi. rewrite HA' by auto. transitivity (sum rk (fun l => Q i l * sum n (fun k => (Q k l)^* * v_ b k))).
        + apply sum_ext. intros l Hl. rewrite HY by auto. auto.
        + rewrite E. apply (Q_back O RL n A Q _ _ GQ n); auto.
    Qed.

    Lemma solve_t_exact : FieldLaws O -> (forall a, is0 a = false -> a <> 0) -> forall b, length b = n ->
      (forall i, (i < rk)%nat -> is0 (cm n (q_mat s) i i) = false /\ is0 ((cm n (q_mat s) i i)^*) = false) ->
      exists z, qr_solve O is0 ormqr jv s b rank true = Ok z /\ basic_solution_adj n A (q_jpvt s) rk b z /\
        (rk = n -> veq n (mvec n (madj A) (v_ z)) (v_ b)).
    Proof.
      intros FL Z b Lb Hd'. pose proof (fl_ring O FL) as RL. pose proof (fun i Hi => proj2 (Hd' i Hi)) as Hd. rewrite solve_t_1 by auto. apply wp_inv. wpb.
      eapply wp_conseq; [apply (gather_wp O jv s n); auto|]. intros v (Lv & Hv). wpb.
      eapply wp_conseq; [apply (trsv_c_wp O is0 n n); auto; lia|]. intros u (Lu & Hu0 & Hu). specialize (Hu FL Z). cbn [wp].
      assert (UZ : forall j, (rk <= j < n)%nat -> nth j u 0 = 0).
      { intros j Hj. fold (v_ u j). rewrite Hu0 by lia. rewrite Hv by lia. destruct (Nat.ltb_spec j rk); auto; lia. }
      assert (HZ : forall i, (i < n)%nat -> v_ (ormqr false rk u) i = sum rk (fun j => Q i j * v_ u j)).
      { intros i Hi. unfold v_ at 1. now apply (oq_app _ _ _ OQ). }
      assert (EQ : forall j, pivot_col (q_jpvt s) rk j -> mvec n (madj A) (v_ (ormqr false rk u)) j = v_ b j).
      { intros j (k & Hk & ->). unfold mvec, madj. rewrite (col_inner O RL n A Q _ _ GQ rk Hrk) by auto.
        transitivity (sum rk (fun l => (upper n (q_mat s) l k)^* * v_ u l)).
        - apply sum_ext. intros l Hl. f_equal. rewrite (sum_ext O n _ (fun i => (Q i l)^* * sum rk (fun k => Q i k * v_ u k))).
          + rewrite (Q_coord O RL n A Q _ _ GQ rk Hrk) by lia. destruct (Nat.ltb_spec l rk); auto; lia.
          + intros i Hi. rewrite HZ by auto. auto.
        - rewrite (sum_cut O RL rk (S k)) by first [lia | intros l Hl; rewrite upper_out by lia; rewrite (conj_0 O RL); apply (mul0l O RL)].
          rewrite Hu by auto. rewrite Hv by lia. destruct (Nat.ltb_spec k rk); [auto|lia]. }
      split; [split; [now apply HL|split; [exact EQ|]]|].
      - (* [z] is a combination of the pivot columns: [Q_r u = A_r (R_r^-1 u)] *)
        destruct (wp_inv _ _ _ (trsv_n_wp O is0 n n (q_mat s) ltac:(lia) rk u Hrk Hrk Lu (fun i Hi => proj1 (Hd' i Hi)))) as (c & _ & Lc & _ & Hc).
        specialize (Hc FL Z). exists (v_ c). intros i Hi. rewrite HZ by auto.
        transitivity (mvec n A (fun j => sum rk (fun k => if Nat.eqb (piv (q_jpvt s) k) j then v_ c k else 0)) i).
        + rewrite (Az O RL n A Q _ _ GQ rk Hrk _ (v_ c)); auto; [apply sum_ext; intros l Hl; now rewrite Hc by auto|].
          intros k Hk. destruct (Nat.ltb_spec k rk).
          * rewrite (sum_one_nz O RL rk k); auto; [now rewrite Nat.eqb_refl|]. intros l Hl N. destruct (Nat.eqb_spec (piv (q_jpvt s) l) (piv (q_jpvt s) k)) as [E|]; auto.
            apply (piv_inj n) in E; auto; lia.
          * apply (sum_zero O RL). intros l Hl. destruct (Nat.eqb_spec (piv (q_jpvt s) l) (piv (q_jpvt s) k)) as [E|]; auto. apply (piv_inj n) in E; auto; lia.
        + unfold mvec. rewrite (sum_piv O RL n (q_jpvt s)) by auto.
          rewrite (sum_cut O RL n rk); auto.
          * apply sum_ext. intros k Hk. f_equal. rewrite (sum_one_nz O RL rk k); auto; [now rewrite Nat.eqb_refl|]. intros l Hl N.
            destruct (Nat.eqb_spec (piv (q_jpvt s) l) (piv (q_jpvt s) k)) as [E|]; auto. apply (piv_inj n) in E; auto; lia.
          * intros k Hk. rewrite (sum_zero O RL rk); [apply (mul0r O RL)|]. intros l Hl.
            destruct (Nat.eqb_spec (piv (q_jpvt s) l) (piv (q_jpvt s) k)) as [E|]; auto. apply (piv_inj n) in E; auto; lia.
      - intros E j Hj. apply EQ. destruct (piv_surj n (q_jpvt s) j HP Hj) as (k & Hk & ->). exists k. split; auto. lia.
    Qed.

    Lemma multiply_nt_exact : RingLaws O -> forall b, length b = n ->
      exists z, qr_multiply O ormqr jv s b rank false = Ok z /\ length z = n /\
        (forall i, (i < n)%nat -> v_ z i = sum rk (fun k => A i (piv (q_jpvt s) k) * v_ b (piv (q_jpvt s) k))) /\
        (rk = n -> veq n (v_ z) (mvec n A (v_ b))).
    Proof.
      intros RL b Lb. rewrite multiply_nt_1 by auto. apply wp_inv. wpb.
      eapply wp_conseq; [apply (gather_wp O jv s n); auto|]. intros v (Lv & Hv). wpb.
      eapply wp_conseq; [apply (trmv_n_wp O n n); auto; lia|]. intros u (Lu & Hu0 & Hu). specialize (Hu RL). cbn [wp].
      assert (UZ : forall j, (rk <= j < n)%nat -> nth j u 0 = 0).
      { intros j Hj. fold (v_ u j). rewrite Hu0 by lia. rewrite Hv by lia. destruct (Nat.ltb_spec j rk); auto; lia. }
      assert (E : forall i, (i < n)%nat -> v_ (ormqr false rk u) i = sum rk (fun k => A i (piv (q_jpvt s) k) * v_ b (piv (q_jpvt s) k))).
      { intros i Hi. unfold v_ at 1. rewrite (oq_app _ _ _ OQ) by auto.
        set (z := fun j => sum rk (fun k => if Nat.eqb (piv (q_jpvt s) k) j then v_ b j else 0)).
        assert (ZK : forall k, (k < n)%nat -> z (piv (q_jpvt s) k) = if k <? rk then v_ v k else 0).
        { intros k Hk. unfold z. rewrite Hv by auto. destruct (Nat.ltb_spec k rk).
          - rewrite (sum_one_nz O RL rk k); auto; [now rewrite Nat.eqb_refl|]. intros l Hl N. destruct (Nat.eqb_spec (piv (q_jpvt s) l) (piv (q_jpvt s) k)) as [E|]; auto.
            apply (piv_inj n) in E; auto; lia.
          - apply (sum_zero O RL). intros l Hl. destruct (Nat.eqb_spec (piv (q_jpvt s) l) (piv (q_jpvt s) k)) as [E|]; auto. apply (piv_inj n) in E; auto; lia. }
        transitivity (mvec n A z i).
        - rewrite (Az O RL n A Q _ _ GQ rk Hrk z (v_ v)); auto. apply sum_ext. intros l Hl. now rewrite Hu by auto.
        - unfold mvec. rewrite (sum_piv O RL n (q_jpvt s)) by auto. rewrite (sum_cut O RL n rk); auto.
          + apply sum_ext. intros k Hk. f_equal. rewrite ZK, Hv by lia. destruct (Nat.ltb_spec k rk); auto; lia.
          + intros k Hk. rewrite ZK by lia. destruct (Nat.ltb_spec k rk); [lia|]. apply (mul0r O RL). }
      split; [now apply HL|split; auto]. intros R i Hi. rewrite E by auto. rewrite R. unfold mvec.
      symmetry. apply (sum_piv O RL n (q_jpvt s) (fun j => A i j * v_ b j)); auto.
    Qed.

    Lemma multiply_t_exact : RingLaws O -> forall b, length b = n ->
      exists z, qr_multiply O ormqr jv s b rank true = Ok z /\ length z = n /\
        (forall j, pivot_col (q_jpvt s) rk j -> v_ z j = mvec n (madj A) (v_ b) j) /\
        (forall j, (j < n)%nat -> ~ pivot_col (q_jpvt s) rk j -> v_ z j = 0) /\
        (rk = n -> veq n (v_ z) (mvec n (madj A) (v_ b))).
    Proof.
      intros RL b Lb. rewrite multiply_t_1 by auto. apply wp_inv. wpb.
      eapply wp_conseq; [apply (trmv_c_wp O n n); auto; lia|]. intros u (Lu & _ & Hu). specialize (Hu RL).
      eapply wp_conseq; [apply (scatter_wp O jv s n); auto|]. intros z (Lz & Hz).
      assert (E : forall j, pivot_col (q_jpvt s) rk j -> v_ z j = mvec n (madj A) (v_ b) j).
      { intros j (k & Hk & ->). rewrite Hz by lia. destruct (Nat.ltb_spec k rk); [|lia]. rewrite Hu by auto. unfold mvec, madj.
        rewrite (col_inner O RL n A Q _ _ GQ rk Hrk) by auto. apply sum_ext. intros l Hl. f_equal. unfold v_ at 1. now apply (oq_adj _ _ _ OQ). }
      split; auto. split; auto. split.
      - intros j Hj NP. destruct (piv_surj n (q_jpvt s) j HP Hj) as (k & Hk & ->). rewrite Hz by auto.
        destruct (Nat.ltb_spec k rk); auto. exfalso. apply NP. exists k. auto.
      - intros R j Hj. apply E. destruct (piv_surj n (q_jpvt s) j HP Hj) as (k & Hk & ->). exists k. split; auto. lia.
    Qed.
  End Exact.
End Single.
