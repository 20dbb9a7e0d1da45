(** * PreProofs: static deferral, pattern of the leading block, final permutations. *)
From Coq Require Import List Arith Lia Bool Permutation.
From Verif Require Import Base Scalar Spec CSModel CSSpec ConvModel ConvSpec ConvProofs2 Mag VecModel VecProofs PruneModel PreModel PreSpec.
Import ListNotations.

Global Arguments diags : simpl never.
Lemma diags_S : forall p q n, diags p q (S n) = diags p q n ++ [diag_at p q n].
Proof. intros. unfold diags. now rewrite seq_S, map_app. Qed.
Lemma diags_ext : forall p q p' q' n, (forall i, i < n -> diag_at p q i = diag_at p' q' i) -> diags p q n = diags p' q' n.
Proof. intros. unfold diags. apply map_ext_in. intros i Hi. apply in_seq in Hi. apply H. lia. Qed.
Lemma diags_length : forall p q n, length (diags p q n) = n.
Proof. intros. unfold diags. now rewrite map_length, seq_length. Qed.
Lemma nth_diags : forall p q n i d, i < n -> nth i (diags p q n) d = diag_at p q i.
Proof. intros. unfold diags. now apply nth_map_seq. Qed.

Section Defer.
  Variable good : nat -> nat -> res bool.
  Variable g : nat * nat -> bool.
  Variables (m0 : nat) (p0 q0 : list nat).
  Hypothesis Hg : forall i, i < m0 -> good (nth i p0 0) (nth i q0 0) = Ok (g (diag_at p0 q0 i)).
  Hypothesis Lp : m0 <= length p0.
  Hypothesis Lq : m0 <= length q0.
  Notation ng := (fun z => negb (g z)).

  Record DI (i : nat) (s : dstate) : Prop := mkDI {
    di_lp : length (ds_p s) = length p0;
    di_lq : length (ds_q s) = length q0;
    di_lwp : m0 <= length (ds_wp s);
    di_lwq : m0 <= length (ds_wq s);
    di_k : i + ds_def s <= m0;
    di_good : diags (ds_p s) (ds_q s) i = filter g (diags p0 q0 (i + ds_def s));
    di_bad : diags (ds_wp s) (ds_wq s) (ds_def s) = filter ng (diags p0 q0 (i + ds_def s));
    di_rest : forall j, i + ds_def s <= j -> diag_at (ds_p s) (ds_q s) j = diag_at p0 q0 j }.

  Lemma defer_inner_l : forall fuel i s, DI i s -> i + ds_def s < m0 -> ds_m s = m0 - ds_def s ->
    m0 - (i + ds_def s) < fuel ->
    wp (defer_inner good fuel m0 i s) (fun s' => DI i s' /\
      length (ds_wp s') = length (ds_wp s) /\ length (ds_wq s') = length (ds_wq s) /\
      ((ds_m s' = i /\ i + ds_def s' = m0) \/
       (ds_m s' = m0 - ds_def s' /\ i + ds_def s' < m0 /\ g (diag_at p0 q0 (i + ds_def s')) = true))).
  Proof.
    induction fuel; intros i s D Hk Hm Hf; [lia|]. destruct D as [d1 d2 d3 d4 d5 d6 d7 d8].
    cbn [defer_inner]. wpb. apply wp_get with (d := 0); [lia|]. wpb. apply wp_get with (d := 0); [lia|].
    pose proof (d8 (i + ds_def s) (le_n _)) as E. unfold diag_at in E. inversion E as [[E1 E2]].
    rewrite E1, E2. wpb. rewrite (Hg _ Hk). apply wp_ok.
    destruct (g (diag_at p0 q0 (i + ds_def s))) eqn:Eg.
    - apply wp_ok. split; [now constructor|]. split; [auto|]. split; [auto|]. right. auto.
    - wpb. apply wp_set; [lia|]. wpb. apply wp_set; [lia|].
      assert (X : forall mm, DI i (mkDS (ds_p s) (ds_q s) (upd (ds_wp s) (ds_def s) (nth (i + ds_def s) p0 0))
                            (upd (ds_wq s) (ds_def s) (nth (i + ds_def s) q0 0)) (S (ds_def s)) mm)).
      { intros mm. constructor; simpl; auto; rewrite ?upd_length; auto; try lia.
        - rewrite d6. replace (i + S (ds_def s)) with (S (i + ds_def s)) by lia.
          rewrite diags_S, filter_app. simpl. rewrite Eg. now rewrite app_nil_r.
        - replace (i + S (ds_def s)) with (S (i + ds_def s)) by lia.
          rewrite !diags_S, filter_app. simpl. rewrite Eg. simpl. rewrite <- d7. f_equal.
          + apply diags_ext. intros j Hj. unfold diag_at. rewrite !nth_upd_neq by lia. auto.
          + unfold diag_at. rewrite !nth_upd_eq by lia. auto.
        - intros j Hj. apply d8. lia. }
      destruct (Nat.leb_spec m0 (i + S (ds_def s))).
      + apply wp_ok. split; [apply X|]. simpl. rewrite !upd_length. split; [auto|]. split; [auto|].
        left. split; [auto|]. lia.
      + eapply wp_conseq. { apply IHfuel; [apply X|simpl; lia..]. }
        simpl. rewrite !upd_length. intros a Ha. exact Ha.
  Qed.

  Lemma defer_outer_l : forall fuel i s, DI i s -> ds_m s = m0 - ds_def s -> m0 - i < fuel ->
    wp (defer_outer good fuel m0 i s) (fun s' => DI (ds_m s') s' /\
      length (ds_wp s') = length (ds_wp s) /\ length (ds_wq s') = length (ds_wq s) /\ ds_m s' + ds_def s' = m0).
  Proof.
    induction fuel; intros i s D Hm Hf; [lia|].
    pose proof (di_k _ _ D) as d5. cbn [defer_outer].
    destruct (Nat.ltb_spec i (ds_m s)).
    - wpb. eapply wp_conseq. { apply defer_inner_l; auto; lia. }
      intros s' (D' & W1 & W2 & [[E1 E2]|(E1 & E2 & E3)]).
      + rewrite E1, Nat.eqb_refl. apply wp_ok. rewrite E1. auto.
      + destruct (Nat.eqb_spec (ds_m s') i); [lia|].
        destruct D' as [d1' d2' d3' d4' d5' d6' d7' d8'].
        wpb. apply wp_get with (d := 0); [lia|]. wpb. apply wp_set; [lia|].
        wpb. apply wp_get with (d := 0); [lia|]. wpb. apply wp_set; [lia|].
        pose proof (d8' (i + ds_def s') (le_n _)) as E. unfold diag_at in E. inversion E as [[F1 F2]].
        rewrite F1, F2. eapply wp_conseq.
        { apply IHfuel; cbn [ds_p ds_q ds_wp ds_wq ds_def ds_m]; [|lia|lia].
          constructor; cbn [ds_p ds_q ds_wp ds_wq ds_def ds_m]; rewrite ?upd_length; auto; try lia.
          - rewrite Nat.add_succ_l, !diags_S, filter_app. cbn [filter]. rewrite E3. rewrite <- d6'. f_equal.
            + apply diags_ext. intros j Hj. unfold diag_at. rewrite !nth_upd_neq by lia. auto.
            + unfold diag_at. rewrite !nth_upd_eq by lia. auto.
          - rewrite Nat.add_succ_l, diags_S, filter_app. cbn [filter]. rewrite E3. cbn [negb]. now rewrite app_nil_r.
          - intros j Hj. rewrite <- d8' by lia. unfold diag_at. rewrite !nth_upd_neq by lia. auto. }
        simpl. intros s'' (H1 & H2 & H3 & H4). rewrite W1, W2 in *. auto.
    - apply wp_ok. assert (i = ds_m s) by lia. rewrite <- H0. split; [auto|]. split; [auto|]. split; [auto|]. lia.
  Qed.

  Lemma defer_l : forall wp wq, m0 <= length wp -> m0 <= length wq ->
    Base.wp (defer_tiny_diags good m0 p0 q0 wp wq) (fun r =>
      let '(p, q, wp', wq', m) := r in
      length p = length p0 /\ length q = length q0 /\ length wp' = length wp /\ length wq' = length wq /\
      m = length (filter g (diags p0 q0 m0)) /\
      diags p q m0 = filter g (diags p0 q0 m0) ++ filter ng (diags p0 q0 m0) /\
      forall i, m0 <= i -> diag_at p q i = diag_at p0 q0 i).
  Proof.
    intros wp wq W1 W2. unfold defer_tiny_diags. wpb.
    eapply wp_conseq. { apply defer_outer_l with (s := mkDS p0 q0 wp wq 0 m0); simpl; try lia.
      constructor; simpl; auto; lia. }
    simpl. intros s ([d1 d2 d3 d4 d5 d6 d7 d8] & L1 & L2 & E).
    rewrite E in *.
    assert (Hm : ds_m s = length (filter g (diags p0 q0 m0))) by (rewrite <- d6, diags_length; auto).
    destruct (Nat.eqb_spec (ds_def s) 0) as [Z|Z].
    - apply wp_ok. rewrite Z in d7. simpl in d7. unfold diags in d7 at 1. simpl in d7.
      rewrite <- d7, app_nil_r, <- d6. replace (ds_m s) with m0 by lia.
      repeat split; auto. now rewrite diags_length.
    - wpb. eapply wp_conseq.
      { apply for_range_inv with (I := fun i (pq : list nat * list nat) =>
          length (fst pq) = length p0 /\ length (snd pq) = length q0 /\
          (forall j, j < ds_m s \/ i <= j -> diag_at (fst pq) (snd pq) j = diag_at (ds_p s) (ds_q s) j) /\
          (forall j, ds_m s <= j < i -> diag_at (fst pq) (snd pq) j = diag_at (ds_wp s) (ds_wq s) (j - ds_m s))).
        - lia.
        - simpl. repeat split; auto. intros; lia.
        - intros i [p q] Hi (I1 & I2 & I3 & I4). simpl in *.
          wpb. apply wp_get with (d := 0); [lia|]. wpb. apply wp_set; [lia|].
          wpb. apply wp_get with (d := 0); [lia|]. wpb. apply wp_set; [lia|].
          apply wp_ok. simpl. rewrite !upd_length. repeat split; auto.
          + intros j Hj. rewrite <- I3 by lia. unfold diag_at. rewrite !nth_upd_neq by lia. auto.
          + intros j Hj. destruct (Nat.eq_dec j i) as [->|Hn].
            * unfold diag_at. rewrite !nth_upd_eq by lia. auto.
            * rewrite <- I4 by lia. unfold diag_at. rewrite !nth_upd_neq by lia. auto. }
      intros [p q] (I1 & I2 & I3 & I4). simpl in *. apply wp_ok. repeat split; auto.
      + rewrite <- d6, <- d7. apply list_ext with (d := (0, 0)).
        * rewrite app_length, !diags_length. lia.
        * rewrite diags_length. intros i Hi. rewrite nth_diags by auto.
          destruct (Nat.lt_ge_cases i (ds_m s)).
          -- rewrite app_nth1 by (rewrite diags_length; auto). rewrite nth_diags by auto. auto.
          -- rewrite app_nth2 by (rewrite diags_length; auto). rewrite diags_length, nth_diags by lia. auto.
      + intros i Hi. rewrite I3 by lia. apply d8. lia.
  Qed.
End Defer.

(** Pairs of arrays: permutations stay permutations when diagonals are rearranged. *)
Lemma diags_fst : forall p q n, n <= length p -> map fst (diags p q n) = firstn n p.
Proof.
  intros. unfold diags. rewrite map_map. simpl. apply list_ext with (d := 0).
  - rewrite map_length, seq_length, firstn_length. lia.
  - rewrite map_length, seq_length. intros i Hi. rewrite nth_map_seq by auto. now rewrite nth_firstn_lt.
Qed.
Lemma diags_snd : forall p q n, n <= length q -> map snd (diags p q n) = firstn n q.
Proof.
  intros. unfold diags. rewrite map_map. simpl. apply list_ext with (d := 0).
  - rewrite map_length, seq_length, firstn_length. lia.
  - rewrite map_length, seq_length. intros i Hi. rewrite nth_map_seq by auto. now rewrite nth_firstn_lt.
Qed.

Lemma filter_partition : forall X (g : X -> bool) l, Permutation l (filter g l ++ filter (fun z => negb (g z)) l).
Proof.
  intros X g l. induction l as [|a l IH]; simpl; auto.
  destruct (g a); simpl.
  - now constructor.
  - eapply Permutation_trans; [constructor; exact IH|]. apply Permutation_middle.
Qed.

Lemma perm_rearr : forall n p q p' q', is_perm n p -> is_perm n q -> length p' = n -> length q' = n ->
  Permutation (diags p q n) (diags p' q' n) -> is_perm n p' /\ is_perm n q'.
Proof.
  intros n p q p' q' Hp Hq Lp Lq HP.
  pose proof (proj1 Hp) as L1. pose proof (proj1 Hq) as L2.
  rewrite is_perm_Permutation in Hp, Hq. rewrite !is_perm_Permutation. split.
  - apply (Permutation_map fst) in HP. rewrite !diags_fst, !firstn_all2 in HP by lia. eapply Permutation_trans; [exact Hp|exact HP].
  - apply (Permutation_map snd) in HP. rewrite !diags_snd, !firstn_all2 in HP by lia. eapply Permutation_trans; [exact Hq|exact HP].
Qed.

Lemma diags_app : forall p q m n, diags p q (m + n) = diags p q m ++ map (diag_at p q) (seq m n).
Proof. intros. unfold diags. now rewrite seq_app, map_app. Qed.

(** Identity on the trailing part. *)
Lemma fill_id_l : forall m0 p, wp (for_range m0 (length p) (fun i p => set p i i) p)
  (fun p' => length p' = length p /\ forall i, nth i p' 0 = if (m0 <=? i) && (i <? length p) then i else nth i p 0).
Proof.
  intros. destruct (Nat.lt_ge_cases (length p) m0).
  { unfold for_range. replace (length p - m0) with 0 by lia. simpl. split; auto. intros.
    destruct (Nat.leb_spec m0 i); simpl; auto. destruct (Nat.ltb_spec i (length p)); auto. lia. }
  eapply wp_conseq.
  { apply for_range_inv with (I := fun k p' => length p' = length p /\
      forall i, nth i p' 0 = if (m0 <=? i) && (i <? k) then i else nth i p 0); auto.
    - split; auto. intros. destruct (Nat.leb_spec m0 i); simpl; auto. destruct (Nat.ltb_spec i m0); auto. lia.
    - intros k p' Hk (I1 & I2). apply wp_set; [lia|]. rewrite upd_length. split; auto.
      intros i. rewrite nth_upd by lia. rewrite I2.
      destruct (Nat.eqb_spec i k) as [->|Hn].
      + destruct (Nat.leb_spec m0 k); [|lia]. destruct (Nat.ltb_spec k (S k)); [|lia]. auto.
      + destruct (Nat.leb_spec m0 i); simpl; auto.
        destruct (Nat.ltb_spec i k), (Nat.ltb_spec i (S k)); auto; lia. }
  simpl. auto.
Qed.

Lemma finalize_l : forall n m P Q, is_perm n (bp Q) -> length (bpi Q) = n -> m <= n -> is_perm m P ->
  wp (finalize_perm P m Q) (fun R => is_inv n (bp R) (bpi R) /\
    forall i, i < n -> nth i (bp R) 0 = if i <? m then nth (nth i P 0) (bp Q) 0 else nth i (bp Q) 0).
Proof.
  intros n m P Q HQ LQ Hm HP. unfold finalize_perm.
  pose proof (proj1 HQ) as Ln. destruct HP as (LP & RP & IP).
  wpb. eapply wp_conseq.
  { apply for_range_inv with (I := fun k b => length b = n /\ forall i, i < k -> nth i b 0 = nth (nth i P 0) (bp Q) 0); [lia| |].
    - split; auto. intros; lia.
    - intros k b Hk (I1 & I2). pose proof (RP k ltac:(lia)).
      wpb. apply wp_get with (d := 0); [lia|]. wpb. apply wp_get with (d := 0); [lia|]. apply wp_set; [lia|].
      rewrite upd_length. split; auto. intros i Hi. rewrite nth_upd by lia.
      destruct (Nat.eqb_spec i k); [now subst i|]. apply I2; lia. }
  intros b (B1 & B2). cbn beta in *. rewrite Ln.
  wpb. eapply wp_conseq.
  { apply for_range_inv with (I := fun k b' => length b' = n /\ forall i, i < k ->
       nth i b' 0 = if i <? m then nth (nth i P 0) (bp Q) 0 else nth i (bp Q) 0); [lia| |].
    - split; auto. intros i Hi. destruct (Nat.ltb_spec i m); [auto|lia].
    - intros k b' Hk (I1 & I2). wpb. apply wp_get with (d := 0); [lia|]. apply wp_set; [lia|].
      rewrite upd_length. split; auto. intros i Hi. rewrite nth_upd by lia.
      destruct (Nat.eqb_spec i k); [subst i|apply I2; lia]. destruct (Nat.ltb_spec k m); auto; lia. }
  intros b' (C1 & C2). cbn beta in *.
  assert (PB : is_perm n b').
  { split; [auto|]. destruct HQ as (_ & R & J). split.
    - intros i Hi. rewrite C2 by auto. destruct (Nat.ltb_spec i m); [|now apply R].
      apply R. specialize (RP i H). lia.
    - intros i j Hi Hj. rewrite !C2 by auto.
      destruct (Nat.ltb_spec i m), (Nat.ltb_spec j m); intros E.
      + pose proof (RP i H). pose proof (RP j H0). apply IP; auto. apply J; auto; lia.
      + pose proof (RP i H). apply J in E; auto; try lia.
      + pose proof (RP j H0). apply J in E; auto; try lia.
      + apply J; auto. }
  destruct (build_inv_l n (mkBP b' (bp Q)) PB Ln) as (R & E & E1 & E2). rewrite E. apply wp_ok.
  split; [auto|]. rewrite E1. auto.
Qed.
