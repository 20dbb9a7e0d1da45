(** * MrhsProofs: multi-RHS kernels act column by column (no algebraic law). *)
From Coq Require Import List Arith Lia Bool.
From Verif Require Import Base Scalar Spec CSModel CSSpec CSProofs.
Import ListNotations.

(** Relational Hoare triple: both runs return, with related results. *)
Definition rwp {A B} (m1 : res A) (m2 : res B) (R : A -> B -> Prop) : Prop :=
  exists a b, m1 = Ok a /\ m2 = Ok b /\ R a b.

Lemma rwp_ok : forall A B (a : A) (b : B) (R : A -> B -> Prop), R a b -> rwp (Ok a) (Ok b) R.
Proof. intros. exists a, b. auto. Qed.

Lemma rwp_bind : forall A B C D (m1 : res A) (m2 : res B) (f1 : A -> res C) (f2 : B -> res D) R Q,
  rwp m1 m2 R -> (forall a b, R a b -> rwp (f1 a) (f2 b) Q) -> rwp (bind m1 f1) (bind m2 f2) Q.
Proof. intros A B C D m1 m2 f1 f2 R Q (a & b & E1 & E2 & H) HQ. rewrite E1, E2. simpl. auto. Qed.

Lemma rwp_for_n : forall S1 S2 (R : S1 -> S2 -> Prop) n lo f g s1 s2,
  R s1 s2 ->
  (forall i a b, lo <= i < lo + n -> R a b -> rwp (f i a) (g i b) R) ->
  rwp (for_n lo n f s1) (for_n lo n g s2) R.
Proof.
  induction n; intros lo f g s1 s2 H0 Hs; simpl.
  - now apply rwp_ok.
  - eapply rwp_bind. apply Hs; [lia|exact H0].
    intros a b Hab. apply IHn; auto. intros; apply Hs; auto; lia.
Qed.

Lemma rwp_for_range : forall S1 S2 (R : S1 -> S2 -> Prop) lo hi f g s1 s2,
  R s1 s2 ->
  (forall i a b, lo <= i < hi -> R a b -> rwp (f i a) (g i b) R) ->
  rwp (for_range lo hi f s1) (for_range lo hi g s2) R.
Proof. intros. unfold for_range. apply rwp_for_n; auto. intros; apply H0; auto; lia. Qed.

Lemma rwp_for_down : forall S1 S2 (R : S1 -> S2 -> Prop) n lo f g s1 s2,
  R s1 s2 ->
  (forall i a b, lo <= i < lo + n -> R a b -> rwp (f i a) (g i b) R) ->
  rwp (for_down lo n f s1) (for_down lo n g s2) R.
Proof.
  induction n; intros lo f g s1 s2 H0 Hs; simpl.
  - now apply rwp_ok.
  - eapply rwp_bind. apply Hs; [lia|exact H0].
    intros a b Hab. apply IHn; auto. intros; apply Hs; auto; lia.
Qed.

Section M.
  Variable O : Ops.
  Notation T := (T O).
  Notation "0" := (t0 O).

  (** Column [c] of a block of [n] interleaved [N]-tuples. *)
  Definition column (N n c : nat) (Y : list T) : list T :=
    map (fun i => nth (Nat.add (Nat.mul i N) c) Y 0) (seq Datatypes.O n).

  Lemma rwp_row_iter : forall S1 S2 (R : S1 -> S2 -> Prop) (A : CS O) i f g s1 s2,
    wf A -> i < psize A -> R s1 s2 ->
    (forall j v a b, j < ssize A -> R a b -> rwp (f j v a) (g j v b) R) ->
    rwp (row_iter O A i f s1) (row_iter O A i g s2) R.
  Proof.
    intros S1 S2 R A i f g s1 s2 W Hi H0 Hs. unfold row_iter.
    assert (L := wf_len O A W). assert (M := wf_mono O A W i Hi).
    assert (L1 := wf_inds O A W). assert (L2 := wf_vals O A W).
    assert (B : st A (S i) <= st A (psize A)) by (apply st_mono; auto; lia).
    rewrite !(get_nth _ (ind_start A) _ Datatypes.O) by lia. simpl.
    fold (st A i) (st A (S i)). destruct (Nat.ltb_spec (st A (S i)) (st A i)); [lia|].
    apply rwp_for_range; auto. intros k a b Hk Hab.
    rewrite !(get_nth _ (indices A) _ Datatypes.O) by lia. simpl.
    rewrite !(get_nth _ (vals A) _ 0) by lia. simpl.
    apply Hs; auto. apply W. lia.
  Qed.

  Lemma rwp_row_iter_rev : forall S1 S2 (R : S1 -> S2 -> Prop) (A : CS O) i f g s1 s2,
    wf A -> i < psize A -> R s1 s2 ->
    (forall j v a b, j < ssize A -> R a b -> rwp (f j v a) (g j v b) R) ->
    rwp (row_iter_rev O A i f s1) (row_iter_rev O A i g s2) R.
  Proof.
    intros S1 S2 R A i f g s1 s2 W Hi H0 Hs. unfold row_iter_rev.
    assert (L := wf_len O A W). assert (M := wf_mono O A W i Hi).
    assert (L1 := wf_inds O A W). assert (L2 := wf_vals O A W).
    assert (B : st A (S i) <= st A (psize A)) by (apply st_mono; auto; lia).
    rewrite !(get_nth _ (ind_start A) _ Datatypes.O) by lia. simpl.
    fold (st A i) (st A (S i)). destruct (Nat.ltb_spec (st A (S i)) (st A i)); [lia|].
    apply rwp_for_down; auto. intros k a b Hk Hab.
    rewrite !(get_nth _ (indices A) _ Datatypes.O) by lia. simpl.
    rewrite !(get_nth _ (vals A) _ 0) by lia. simpl.
    apply Hs; auto. apply W. lia.
  Qed.

  (** ** Blocks *)
  Section Col.
    Variables (N c : nat).
    Hypothesis Hc : c < N.

    Definition colrel (Y y : list T) : Prop :=
      length Y = length y * N /\
      forall i, i < length y -> nth (i * N + c) Y 0 = nth i y 0.
    (** One block against one scalar. *)
    Definition blkrel (B : list T) (a : T) : Prop := length B = N /\ nth c B 0 = a.

    Lemma blk_upd_wp : forall off g g' (Y : list T),
      off + N <= length Y ->
      (forall k a, k < N -> g k a = Ok (g' k a)) ->
      exists Y', blk_upd O N off g Y = Ok Y' /\ length Y' = length Y /\
        (forall k, k < N -> nth (off + k) Y' 0 = g' k (nth (off + k) Y 0)) /\
        (forall i, ~ (off <= i < off + N) -> nth i Y' 0 = nth i Y 0).
    Proof.
      intros off g g' Y HL Hg. apply wp_inv. unfold blk_upd.
      eapply wp_conseq.
      - apply (for_range_inv _ (fun k Y' => length Y' = length Y /\
          (forall q, q < k -> nth (off + q) Y' 0 = g' q (nth (off + q) Y 0)) /\
          (forall i, ~ (off <= i < off + k) -> nth i Y' 0 = nth i Y 0))); [lia| |].
        + split; auto. split; auto. intros; lia.
        + intros k Y1 Hk (L & H1 & H2). wpb. apply wp_get with (d := 0); [lia|].
          rewrite Hg by lia. simpl. apply wp_set; [lia|]. rewrite upd_length. split; auto. split.
          * intros q Hq. rewrite nth_upd by lia. destruct (Nat.eqb_spec (off + q) (off + k)).
            -- assert (q = k) by lia. subst. f_equal. apply H2. lia.
            -- apply H1. lia.
          * intros i Hi. rewrite nth_upd by lia. destruct (Nat.eqb_spec i (off + k)); [lia|].
            apply H2. lia.
      - intros Y' (L & H1 & H2). auto.
    Qed.

    Lemma colrel_len : forall Y y i k, colrel Y y -> i < length y -> k < N -> i * N + k < length Y.
    Proof. intros Y y i k [L _] Hi Hk. rewrite L. nia. Qed.

    Lemma blk_upd_col : forall i g g' (Y y : list T),
      colrel Y y -> i < length y ->
      (forall k a, k < N -> g k a = Ok (g' k a)) ->
      rwp (blk_upd O N (i * N) g Y) (set y i (g' c (nth i y 0))) colrel.
    Proof.
      intros i g g' Y y [L H] Hi Hg.
      destruct (blk_upd_wp (i * N) g g' Y) as (Y' & E & L' & H1 & H2); auto.
      { rewrite L. nia. }
      exists Y', (upd y i (g' c (nth i y 0))). rewrite set_ok by auto. split; auto. split; auto.
      split. rewrite upd_length. lia.
      intros q Hq. rewrite upd_length in Hq. rewrite nth_upd by auto.
      destruct (Nat.eqb_spec q i).
      - subst. rewrite H1 by auto. now rewrite H.
      - rewrite H2 by nia. auto.
    Qed.

    Lemma blk_upd_blk : forall g g' (B : list T) a,
      blkrel B a ->
      (forall k a, k < N -> g k a = Ok (g' k a)) ->
      exists B', blk_upd O N Datatypes.O g B = Ok B' /\ blkrel B' (g' c a) /\
         forall k, k < N -> nth k B' 0 = g' k (nth k B 0).
    Proof.
      intros g g' B a [L H] Hg.
      destruct (blk_upd_wp Datatypes.O g g' B) as (B' & E & L' & H1 & H2); auto.
      { simpl. lia. }
      exists B'. split; auto. split; [|exact H1]. split. lia.
      change c with (Datatypes.O + c). rewrite H1 by auto. simpl. now rewrite H.
    Qed.

    Lemma blkrel_zero : blkrel (repeat 0 N) 0.
    Proof. split. apply repeat_length. now apply nth_repeat_any. Qed.

    Lemma load_rel : forall Y y i, colrel Y y -> i < length y ->
      exists B, blk_upd O N Datatypes.O (fun k _ => get Y (i * N + k)) (repeat 0 N) = Ok B /\
        blkrel B (nth i y 0).
    Proof.
      intros Y y i HR Hi.
      destruct (blk_upd_blk (fun k _ => get Y (i * N + k)) (fun k _ => nth (i * N + k) Y 0)
                  (repeat 0 N) 0 blkrel_zero) as (B & E & H & _).
      { intros k a Hk. apply get_nth. eapply colrel_len; eauto. }
      exists B. split; auto. destruct HR as [_ HR]. now rewrite HR in H.
    Qed.

    Section WithA.
      Variable A : CS O.
      Hypothesis W : wf A.

      (** Gather of one row. *)
      Lemma gather_blk : forall i X x (f : T -> T -> T -> T),
        i < psize A -> colrel X x -> ssize A <= length x ->
        rwp (row_iter O A i (fun j v tmp =>
               blk_upd O N Datatypes.O (fun k a => xj <- get X (j * N + k) ;; Ok (f a v xj)) tmp)
             (repeat 0 N))
            (row_iter O A i (fun j v tmp => xj <- get x j ;; Ok (f tmp v xj)) 0)
            blkrel.
      Proof.
        intros i X x f Hi HR Hx. apply rwp_row_iter; auto. apply blkrel_zero.
        intros j v B a Hj HB.
        destruct (blk_upd_blk (fun k a => xj <- get X (j * N + k) ;; Ok (f a v xj))
                   (fun k a => f a v (nth (j * N + k) X 0)) B a HB) as (B' & E & H & _).
        { intros k b Hk. rewrite (get_nth _ X _ 0). reflexivity.
          eapply colrel_len; eauto. lia. }
        exists B', (f a v (nth j x 0)). split; auto. split.
        - rewrite (get_nth _ x _ 0) by lia. reflexivity.
        - destruct HR as [_ HR]. now rewrite HR in H by lia.
      Qed.

      Lemma gather_product_rel : forall X x Y y (f : T -> T -> T -> T) lo hi,
        colrel X x -> colrel Y y -> ssize A <= length x -> psize A <= length y -> hi <= psize A ->
        rwp (for_range lo hi (fun i Y =>
              tmp <- row_iter O A i (fun j v tmp =>
                 blk_upd O N Datatypes.O (fun k a => xj <- get X (j * N + k) ;; Ok (f a v xj)) tmp)
                 (repeat 0 N) ;;
              blk_upd O N (i * N) (fun k _ => get tmp k) Y) Y)
            (for_range lo hi (fun i y =>
              tmp <- row_iter O A i (fun j v tmp => xj <- get x j ;; Ok (f tmp v xj)) 0 ;;
              set y i tmp) y)
            (fun Y' y' => colrel Y' y' /\ length y' = length y).
      Proof.
        intros X x Y y f lo hi HX HY Hx Hy Hh. apply rwp_for_range; auto.
        intros i Y1 y1 Hi (HR & HL).
        eapply rwp_bind. apply gather_blk; eauto. lia.
        intros B a HB.
        destruct (blk_upd_col i (fun k _ => get B k) (fun k _ => nth k B 0) Y1 y1)
          as (Y' & y' & E1 & E2 & HR'); auto; try lia.
        { intros k b Hk. apply get_nth. destruct HB. lia. }
        exists Y', y'. split; auto. destruct HB as [_ HB]. rewrite HB in E2. split; auto. split; auto.
        unfold set in E2. destruct (i <? length y1); inversion E2. rewrite upd_length. auto.
      Qed.

      (** One column step: [y[idx] = f y[idx] v temp] for the entries of primary [i]. *)
      Lemma scatter_rel : forall i TB t Y y (f : T -> T -> T -> T),
        i < psize A -> blkrel TB t -> colrel Y y -> ssize A <= length y ->
        rwp (row_iter O A i (fun j v Y =>
               blk_upd O N (j * N) (fun k a => tk <- get TB k ;; Ok (f a v tk)) Y) Y)
            (row_iter O A i (fun j v y => yj <- get y j ;; set y j (f yj v t)) y)
            (fun Y' y' => colrel Y' y' /\ length y' = length y).
      Proof.
        intros i TB t Y y f Hi HT HY Hy. apply rwp_row_iter; auto.
        intros j v Y1 y1 Hj (HR & HL).
        rewrite (get_nth _ y1 _ 0) by lia. simpl.
        destruct (blk_upd_col j (fun k a => tk <- get TB k ;; Ok (f a v tk))
           (fun k a => f a v (nth k TB 0)) Y1 y1) as (Y' & y' & E1 & E2 & HR'); auto; try lia.
        { intros k b Hk. destruct HT as [HT _]. rewrite (get_nth _ TB _ 0) by lia. reflexivity. }
        exists Y', y'. destruct HT as [_ HT]. rewrite HT in E2. split; auto. split; auto. split; auto.
        unfold set in E2. destruct (j <? length y1); inversion E2. rewrite upd_length. auto.
      Qed.

      Lemma scatter_rev_rel : forall i TB t Y y (f : T -> T -> T -> T),
        i < psize A -> blkrel TB t -> colrel Y y -> ssize A <= length y ->
        rwp (row_iter_rev O A i (fun j v Y =>
               blk_upd O N (j * N) (fun k a => tk <- get TB k ;; Ok (f a v tk)) Y) Y)
            (row_iter_rev O A i (fun j v y => yj <- get y j ;; set y j (f yj v t)) y)
            (fun Y' y' => colrel Y' y' /\ length y' = length y).
      Proof.
        intros i TB t Y y f Hi HT HY Hy. apply rwp_row_iter_rev; auto.
        intros j v Y1 y1 Hj (HR & HL).
        rewrite (get_nth _ y1 _ 0) by lia. simpl.
        destruct (blk_upd_col j (fun k a => tk <- get TB k ;; Ok (f a v tk))
           (fun k a => f a v (nth k TB 0)) Y1 y1) as (Y' & y' & E1 & E2 & HR'); auto; try lia.
        { intros k b Hk. destruct HT as [HT _]. rewrite (get_nth _ TB _ 0) by lia. reflexivity. }
        exists Y', y'. destruct HT as [_ HT]. rewrite HT in E2. split; auto. split; auto. split; auto.
        unfold set in E2. destruct (j <? length y1); inversion E2. rewrite upd_length. auto.
      Qed.

      Lemma colrel_fill : forall Y y n, colrel Y y -> n <= length y ->
        rwp (fill_n Y (N * n) 0) (fill_n y n 0) (fun Y' y' => colrel Y' y' /\ length y' = length y).
      Proof.
        intros Y y n [L H] Hn.
        assert (HL : N * n <= length Y) by (rewrite L; nia).
        unfold fill_n. destruct (Nat.leb_spec (N * n) (length Y)); [|lia].
        destruct (Nat.leb_spec n (length y)); [|lia].
        apply rwp_ok.
        assert (LY : length (repeat 0 (N * n) ++ skipn (N * n) Y) = length Y)
          by (rewrite app_length, repeat_length, skipn_length; lia).
        assert (Ly : length (repeat 0 n ++ skipn n y) = length y)
          by (rewrite app_length, repeat_length, skipn_length; lia).
        split; auto. split. congruence.
        rewrite Ly. intros i Hi. destruct (le_lt_dec n i).
        - rewrite !app_nth2; rewrite ?repeat_length; try nia.
          rewrite !nth_skipn'.
          replace (N * n + (i * N + c - N * n)) with (i * N + c) by nia.
          replace (n + (i - n)) with i by lia. auto.
        - rewrite !app_nth1 by (rewrite repeat_length; nia).
          rewrite !nth_repeat_any; auto. nia.
      Qed.

      Lemma scatter_product_rel : forall X x Y y (f : T -> T -> T -> T) hi,
        colrel X x -> colrel Y y -> hi <= psize A -> psize A <= length x -> ssize A <= length y ->
        rwp (for_range Datatypes.O hi (fun i Y =>
              temp <- blk_upd O N Datatypes.O (fun k _ => get X (i * N + k)) (repeat 0 N) ;;
              row_iter O A i (fun j v Y =>
                blk_upd O N (j * N) (fun k a => tk <- get temp k ;; Ok (f a v tk)) Y) Y) Y)
            (for_range Datatypes.O hi (fun i y =>
              temp <- get x i ;;
              row_iter O A i (fun j v y => yj <- get y j ;; set y j (f yj v temp)) y) y)
            (fun Y' y' => colrel Y' y' /\ length y' = length y).
      Proof.
        intros X x Y y f hi HX HY Hh Hx Hy. apply rwp_for_range; auto.
        intros i Y1 y1 Hi (HR & HL).
        destruct (load_rel X x i HX ltac:(lia)) as (B & E & HB). rewrite E.
        rewrite (get_nth _ x _ 0) by lia. simpl.
        destruct (scatter_rel i B (nth i x 0) Y1 y1 f) as (Y' & y' & E1 & E2 & HR' & HL'); auto; try lia.
        exists Y', y'. split; auto. split; auto. split; auto. lia.
      Qed.

      Lemma gsolve_rel : forall h j Y y, j < psize A -> colrel Y y -> ssize A <= length y -> psize A <= length y ->
        rwp (gsolve_row_mrhs O N h A j Y) (gsolve_row O h A j y)
            (fun Y' y' => colrel Y' y' /\ length y' = length y).
      Proof.
        intros h j Y y Hj HR Hy Hy'. unfold gsolve_row_mrhs, gsolve_row.
        eapply rwp_bind. apply (gather_blk j Y y (fun a v b => tadd O a (tmul O (h v) b))); auto.
        intros B a HB. rewrite (get_nth _ y _ 0) by lia. simpl.
        destruct (blk_upd_col j (fun k b => tk <- get B k ;; Ok (tsub O b tk))
           (fun k b => tsub O b (nth k B 0)) Y y) as (Y' & y' & E1 & E2 & HR'); auto; try lia.
        { intros k b Hk. destruct HB as [HB _]. rewrite (get_nth _ B _ 0) by lia. reflexivity. }
        exists Y', y'. destruct HB as [_ HB]. rewrite HB in E2. split; auto. split; auto. split; auto.
        unfold set in E2. destruct (j <? length y); inversion E2. rewrite upd_length. auto.
      Qed.

      Lemma ssolve_rel : forall h j Y y, j < psize A -> colrel Y y -> ssize A <= length y -> psize A <= length y ->
        rwp (ssolve_col_mrhs O N h A j Y) (ssolve_col O h A j y)
            (fun Y' y' => colrel Y' y' /\ length y' = length y).
      Proof.
        intros h j Y y Hj HR Hy Hy'. unfold ssolve_col_mrhs, ssolve_col, load_blk.
        destruct (load_rel Y y j HR ltac:(lia)) as (B & E & HB). rewrite E.
        rewrite (get_nth _ y _ 0) by lia. simpl.
        apply (scatter_rel j B (nth j y 0) Y y (fun a v t => tsub O a (tmul O (h v) t))); auto.
      Qed.

      Lemma ssolve_rev_rel : forall h j Y y, j < psize A -> colrel Y y -> ssize A <= length y -> psize A <= length y ->
        rwp (ssolve_col_rev_mrhs O N h A j Y) (ssolve_col_rev O h A j y)
            (fun Y' y' => colrel Y' y' /\ length y' = length y).
      Proof.
        intros h j Y y Hj HR Hy Hy'. unfold ssolve_col_rev_mrhs, ssolve_col_rev, load_blk.
        destruct (load_rel Y y j HR ltac:(lia)) as (B & E & HB). rewrite E.
        rewrite (get_nth _ y _ 0) by lia. simpl.
        apply (scatter_rev_rel j B (nth j y 0) Y y (fun a v t => tsub O a (tmul O (h v) t))); auto.
      Qed.
    End WithA.

    Lemma column_length : forall n Y, length (column N n c Y) = n.
    Proof. intros. unfold column. now rewrite map_length, seq_length. Qed.

    Lemma colrel_column : forall Y n, length Y = n * N -> colrel Y (column N n c Y).
    Proof.
      intros Y n L. split. now rewrite column_length.
      rewrite column_length. intros i Hi. unfold column. now rewrite nth_map_seq.
    Qed.

    Lemma colrel_is_column : forall Y y n, length y = n -> colrel Y y -> y = column N n c Y.
    Proof.
      intros Y y n L [L1 H]. apply (list_ext _ _ _ 0).
      - now rewrite column_length.
      - intros i Hi. unfold column. rewrite nth_map_seq by lia. now rewrite H.
    Qed.
  End Col.

  (** From the relational statement for each column to the property. *)
  Lemma columnwise : forall N n (m : res (list T)) (ms : nat -> res (list T)),
    0 < N ->
    (forall c, c < N -> rwp m (ms c) (fun Y' y' => colrel N c Y' y' /\ length y' = n)) ->
    exists Y', m = Ok Y' /\ length Y' = n * N /\
      forall c, c < N -> ms c = Ok (column N n c Y').
  Proof.
    intros N n m ms HN H. destruct (H Datatypes.O HN) as (Y' & y0 & E & _ & HR & L).
    exists Y'. split; auto. split. destruct HR as [HR _]. congruence.
    intros c Hc. destruct (H c Hc) as (Y2 & y' & E2 & E3 & HR2 & L2).
    rewrite E in E2. inversion E2; subst Y2. rewrite E3. f_equal.
    now apply colrel_is_column.
  Qed.

  (** ** The products *)
  Section Prods.
    Variables (N : nat) (A : CS O) (X Y : list T).
    Hypotheses (HN : 0 < N) (W : wf A).

    Lemma crs_mrhs_nt : length X = ssize A * N -> length Y = psize A * N ->
      (0 < ssize A \/ psize A = Datatypes.O) ->
      exists Y', crs_multiply_mrhs_nt O N A X Y = Ok Y' /\ length Y' = psize A * N /\
        forall c, c < N -> crs_multiply_nt O A (column N (ssize A) c X) (column N (psize A) c Y)
                           = Ok (column N (psize A) c Y').
    Proof.
      intros LX LY Hz. apply columnwise; auto. intros c Hc.
      unfold crs_multiply_mrhs_nt, crs_multiply_nt.
      rewrite !column_length, !Nat.eqb_refl, <- LX, <- LY, !Nat.eqb_refl. simpl.
      assert (CX := colrel_column N c X (ssize A) LX). assert (CY := colrel_column N c Y (psize A) LY).
      destruct (Nat.eqb_spec (psize A) Datatypes.O) as [E|E]; simpl.
      - unfold crs_multiply_nt_low, crs_multiply_nt_part. rewrite E. simpl.
        apply rwp_ok. rewrite E in CY. split; auto.
      - destruct (Nat.eqb_spec (ssize A) Datatypes.O); [lia|].
        unfold crs_multiply_mrhs_nt_part, crs_multiply_nt_low, crs_multiply_nt_part. simpl.
        destruct (gather_product_rel N c Hc A W X _ Y _ (fun a v b => tadd O a (tmul O v b))
           Datatypes.O (psize A) CX CY) as (a & b & E1 & E2 & H1 & H2);
          rewrite ?column_length in *; auto.
        exists a, b. auto.
    Qed.

    Lemma ccs_mrhs_nt : length X = psize A * N -> length Y = ssize A * N ->
      (0 < psize A \/ ssize A = Datatypes.O) ->
      exists Y', ccs_multiply_mrhs_nt O N A X Y = Ok Y' /\ length Y' = ssize A * N /\
        forall c, c < N -> ccs_multiply_nt O A (column N (psize A) c X) (column N (ssize A) c Y)
                           = Ok (column N (ssize A) c Y').
    Proof.
      intros LX LY Hz. apply columnwise; auto. intros c Hc.
      unfold ccs_multiply_mrhs_nt, ccs_multiply_nt.
      rewrite !column_length, !Nat.eqb_refl, <- LX, <- LY, !Nat.eqb_refl. simpl.
      assert (CX := colrel_column N c X (psize A) LX). assert (CY := colrel_column N c Y (ssize A) LY).
      destruct (Nat.eqb_spec (ssize A) Datatypes.O) as [E|E]; simpl.
      - rewrite orb_true_r. unfold ccs_multiply_nt_low.
        rewrite E in *. simpl.
        destruct (Nat.eqb_spec (psize A) Datatypes.O).
        + now apply rwp_ok.
        + assert (Emp : forall i, i < psize A -> st A (S i) = st A i).
          { intros i Hi. destruct (Nat.eq_dec (st A (S i)) (st A i)); auto.
            assert (M := wf_mono O A W i Hi).
            assert (B : st A (S i) <= st A (psize A)) by (apply st_mono; auto; lia).
            assert (ix A (st A i) < ssize A) by (apply W; lia). lia. }
          destruct (scatter_product_rel N c Hc A W X (column N (psize A) c X) Y [] (fun a v b => tadd O a (tmul O b v)) (psize A))
            as (a & b & E1 & E2 & H1 & H2); auto.
          { rewrite column_length; lia. }
          { simpl; lia. }
          exists Y, b. split; auto. split. exact E2. destruct b; [|discriminate].
          split; auto.
      - destruct (Nat.eqb_spec (psize A) Datatypes.O); [lia|]. simpl.
        unfold ccs_multiply_mrhs_nt_low, ccs_multiply_nt_low.
        destruct (Nat.eqb_spec (psize A) Datatypes.O); [lia|].
        eapply rwp_bind. apply (colrel_fill N c Hc _ _ (ssize A) CY). rewrite column_length; lia.
        intros Y1 y1 (HR & HL). rewrite ?column_length in HL.
        destruct (scatter_product_rel N c Hc A W X _ Y1 y1 (fun a v b => tadd O a (tmul O b v))
           (psize A) CX HR) as (a & b & E1 & E2 & H1 & H2);
          rewrite ?column_length in *; auto; try lia.
        exists a, b. split; auto. split; auto. split; auto. lia.
    Qed.

    (** The multi-RHS transposed kernels do not conjugate: equal to the single-RHS
        ones when conjugation is the identity (real scalars). *)
    Hypothesis Hreal : forall a, tconj O a = a.

    Lemma crs_mrhs_t : length X = psize A * N -> length Y = ssize A * N ->
      exists Y', crs_multiply_mrhs_t O N A X Y = Ok Y' /\ length Y' = ssize A * N /\
        forall c, c < N -> crs_multiply_t O A (column N (psize A) c X) (column N (ssize A) c Y)
                           = Ok (column N (ssize A) c Y').
    Proof.
      intros LX LY. apply columnwise; auto. intros c Hc.
      unfold crs_multiply_mrhs_t, crs_multiply_t.
      rewrite !column_length, !Nat.eqb_refl, <- LX, <- LY, !Nat.eqb_refl. simpl.
      assert (CX := colrel_column N c X (psize A) LX). assert (CY := colrel_column N c Y (ssize A) LY).
      unfold crs_multiply_t_low.
      destruct (Nat.eqb_spec (psize A) Datatypes.O) as [Ep|Ep]; simpl.
      { apply rwp_ok. split; auto. apply column_length. }
      destruct (Nat.eqb_spec (ssize A) Datatypes.O) as [E|E]; simpl.
      - rewrite E in *. simpl.
          destruct (scatter_product_rel N c Hc A W X (column N (psize A) c X) Y [] (fun a v b => tadd O a (tmul O b (tconj O v))) (psize A))
            as (a & b & E1 & E2 & H1 & H2); auto.
          { rewrite column_length; lia. }
          { simpl; lia. }
          exists Y, b. split; auto. split. exact E2. destruct b; [|discriminate].
          split; auto.
      - unfold crs_multiply_mrhs_t_low.
        destruct (Nat.eqb_spec (psize A) Datatypes.O); [lia|].
        eapply rwp_bind. apply (colrel_fill N c Hc _ _ (ssize A) CY). rewrite column_length; lia.
        intros Y1 y1 (HR & HL). rewrite ?column_length in HL.
        destruct (scatter_product_rel N c Hc A W X _ Y1 y1 (fun a v b => tadd O a (tmul O b v))
           (psize A) CX HR) as (a & b & E1 & E2 & H1 & H2);
          rewrite ?column_length in *; auto; try lia.
        exists a, b. split; auto. split.
        + rewrite <- E2. unfold for_range. apply for_n_ext. intros i s Hi.
          destruct (get (column N (psize A) c X) i); simpl; auto.
          unfold row_iter. destruct (get (ind_start A) i); simpl; auto.
          destruct (get (ind_start A) (S i)); simpl; auto. destruct (_ <? _); auto.
          unfold for_range. apply for_n_ext. intros k s' Hk.
          destruct (get (indices A) k); simpl; auto. destruct (get (vals A) k); simpl; auto.
          destruct (get s' _); simpl; auto. now rewrite Hreal.
        + split; auto. lia.
    Qed.

    Lemma ccs_mrhs_t : length X = ssize A * N -> length Y = psize A * N ->
      (0 < ssize A \/ psize A = Datatypes.O) ->
      exists Y', ccs_multiply_mrhs_t O N A X Y = Ok Y' /\ length Y' = psize A * N /\
        forall c, c < N -> ccs_multiply_t O A (column N (ssize A) c X) (column N (psize A) c Y)
                           = Ok (column N (psize A) c Y').
    Proof.
      intros LX LY Hz. apply columnwise; auto. intros c Hc.
      unfold ccs_multiply_mrhs_t, ccs_multiply_t.
      rewrite !column_length, !Nat.eqb_refl, <- LX, <- LY, !Nat.eqb_refl. simpl.
      assert (CX := colrel_column N c X (ssize A) LX). assert (CY := colrel_column N c Y (psize A) LY).
      destruct (Nat.eqb_spec (psize A) Datatypes.O) as [E|E]; simpl.
      - unfold ccs_multiply_t_low. rewrite E. simpl.
        apply rwp_ok. rewrite E in CY. split; auto.
      - destruct (Nat.eqb_spec (ssize A) Datatypes.O); [lia|].
        unfold ccs_multiply_mrhs_t_low, ccs_multiply_t_low. simpl.
        destruct (gather_product_rel N c Hc A W X _ Y _ (fun a v b => tadd O a (tmul O b v))
           Datatypes.O (psize A) CX CY) as (a & b & E1 & E2 & H1 & H2);
          rewrite ?column_length in *; auto.
        exists a, b.
        split; auto. split; auto.
        rewrite <- E2. unfold for_range. apply for_n_ext. intros i s Hi.
        f_equal. unfold row_iter. destruct (get (ind_start A) i); simpl; auto.
        destruct (get (ind_start A) (S i)); simpl; auto. destruct (_ <? _); auto.
        unfold for_range. apply for_n_ext. intros k s' Hk.
        destruct (get (indices A) k); simpl; auto. destruct (get (vals A) k); simpl; auto.
        destruct (get _ _); simpl; auto. now rewrite Hreal.
    Qed.
  End Prods.

  (** ** The solves *)
  Section Solves.
    Variables (N n : nat) (A : CS O) (Y : list T).
    Hypotheses (HN : 0 < N) (W : wf A) (Hp : psize A = n) (Hs : ssize A = n) (LY : length Y = n * N).

    Ltac start := apply columnwise; auto; intros c Hc;
      assert (CY := colrel_column N c Y n LY);
      assert (CL := column_length N c n Y);
      remember (column N n c Y) as y eqn:Ey; clear Ey.

    Definition cols (mr : list T -> res (list T)) (sg : list T -> res (list T)) : Prop :=
      exists Y', mr Y = Ok Y' /\ length Y' = n * N /\
        forall c, c < N -> sg (column N n c Y) = Ok (column N n c Y').

    Lemma crs_lower_cols : cols (crs_solve_strict_lower_mrhs O N A) (crs_solve_strict_lower O A).
    Proof.
      start. unfold crs_solve_strict_lower_mrhs, crs_solve_strict_lower. rewrite Hp.
      apply rwp_for_range; auto. intros j Y1 y1 Hj (HR & HL).
      destruct (gsolve_rel N c Hc A W (idT O) j Y1 y1) as (Y' & y' & E1 & E2 & HR' & HL'); auto; try lia.
      exists Y', y'. split; [exact E1|split; [exact E2|split; [exact HR'|lia]]].
    Qed.
    Lemma crs_upper_cols : 0 < n -> cols (crs_solve_strict_upper_mrhs O N A) (crs_solve_strict_upper O A).
    Proof.
      intros Hn. start. unfold crs_solve_strict_upper_mrhs, crs_solve_strict_upper, down_pred. rewrite Hp.
      destruct n as [|n'] eqn:En; [lia|].
      apply rwp_for_down; auto. intros j Y1 y1 Hj (HR & HL).
      destruct (gsolve_rel N c Hc A W (idT O) j Y1 y1) as (Y' & y' & E1 & E2 & HR' & HL'); auto; try lia.
      exists Y', y'. split; [exact E1|split; [exact E2|split; [exact HR'|lia]]].
    Qed.
    Lemma crs_upper_tran_cols : cols (crs_solve_strict_upper_mrhs_tran O N A) (crs_solve_strict_upper_tran O A).
    Proof.
      start. unfold crs_solve_strict_upper_mrhs_tran, crs_solve_strict_upper_tran. rewrite Hs.
      apply rwp_for_range; auto. intros j Y1 y1 Hj (HR & HL).
      destruct (ssolve_rel N c Hc A W (tconj O) j Y1 y1) as (Y' & y' & E1 & E2 & HR' & HL'); auto; try lia.
      exists Y', y'. split; [exact E1|split; [exact E2|split; [exact HR'|lia]]].
    Qed.
    Lemma ccs_lower_cols : cols (ccs_solve_strict_lower_mrhs O N A) (ccs_solve_strict_lower O A).
    Proof.
      start. unfold ccs_solve_strict_lower_mrhs, ccs_solve_strict_lower. rewrite Hp.
      apply rwp_for_range; auto. intros j Y1 y1 Hj (HR & HL).
      destruct (ssolve_rel N c Hc A W (idT O) j Y1 y1) as (Y' & y' & E1 & E2 & HR' & HL'); auto; try lia.
      exists Y', y'. split; [exact E1|split; [exact E2|split; [exact HR'|lia]]].
    Qed.
    Lemma ccs_upper_cols : 0 < n -> cols (ccs_solve_strict_upper_mrhs O N A) (ccs_solve_strict_upper O A).
    Proof.
      intros Hn. start. unfold ccs_solve_strict_upper_mrhs, ccs_solve_strict_upper, down_from. rewrite Hp.
      destruct n as [|n'] eqn:En; [lia|].
      apply rwp_for_down; auto. intros j Y1 y1 Hj (HR & HL).
      destruct (ssolve_rev_rel N c Hc A W (idT O) j Y1 y1) as (Y' & y' & E1 & E2 & HR' & HL'); auto; try lia.
      exists Y', y'. split; [exact E1|split; [exact E2|split; [exact HR'|lia]]].
    Qed.
    Lemma ccs_upper_tran_cols : cols (ccs_solve_strict_upper_mrhs_tran O N A) (ccs_solve_strict_upper_tran O A).
    Proof.
      start. unfold ccs_solve_strict_upper_mrhs_tran, ccs_solve_strict_upper_tran. rewrite Hs.
      apply rwp_for_range; auto. intros j Y1 y1 Hj (HR & HL).
      destruct (gsolve_rel N c Hc A W (tconj O) j Y1 y1) as (Y' & y' & E1 & E2 & HR' & HL'); auto; try lia.
      exists Y', y'. split; [exact E1|split; [exact E2|split; [exact HR'|lia]]].
    Qed.
  End Solves.
End M.
Arguments column {O}.
