(** * PreProofs2: diagonal test, pattern of the leading block. *)
From Coq Require Import List Arith Lia Bool Permutation Sorted.
From Verif Require Import Base Scalar Spec CSModel CSSpec ConvModel ConvSpec BucketProofs ConvProofs ConvProofs2
  ConvProofs3 ConvProofs4 Mag VecModel VecProofs PruneModel PruneSpec PruneProofs PreModel PreSpec PreProofs.
Import ListNotations.

Section Good.
  Context {O : Ops} (G : Mag O).
  Hypothesis L : MagLaws G.
  Notation le a b := (mle G a b = true).

  Lemma mis0_iff : forall a, mis0 G a = true <-> a = m0 G.
  Proof.
    intros. unfold mis0. rewrite andb_true_iff. split.
    - intros [H1 H2]. now apply (mle_antisym L).
    - intros ->. split; apply (mle_refl L).
  Qed.

  Lemma join_max_l : forall (A : CS O) i v, wf A -> i < psize A ->
    join_max G A i v = Ok (match rowl A i with [] => v | _ => mmax G v (rmaxf G (rowl A i)) end).
  Proof.
    intros A i v W Hi. unfold join_max.
    pose proof (wf_len O A W). pose proof (wf_mono O A W i Hi).
    pose proof (st_mono O A W (S i) (psize A) ltac:(lia) ltac:(lia)). pose proof (wf_vals O A W).
    rewrite (get_nth _ _ _ 0) by lia. cbn [bind]. rewrite (get_nth _ _ _ 0) by lia. cbn [bind].
    fold (st A i). fold (st A (S i)).
    destruct (Nat.eqb_spec (st A (S i)) (st A i)) as [E|E].
    - unfold rowl. rewrite E, Nat.sub_diag. reflexivity.
    - destruct (Nat.ltb_spec (st A (S i)) (st A i)); [lia|].
      rewrite (row_max_eq G A (vals A)) by (try lia; reflexivity). cbn [bind].
      rewrite <- rowl_run. destruct (rowl A i) eqn:R; auto.
      apply (f_equal (@length _)) in R. rewrite rowl_length in R. simpl in R. lia.
  Qed.

  Lemma max_mag_l : forall mone (A A_crs : CS O) r c, wf A -> wf A_crs -> c < psize A -> r < psize A_crs ->
    exists mx, max_mag G mone A A_crs r c = Ok mx /\ is_local_max G mone A A_crs r c mx.
  Proof.
    intros mone A A_crs r c W1 W2 Hc Hr. unfold max_mag.
    rewrite join_max_l by auto. cbn [bind]. rewrite join_max_l by auto. cbn [bind].
    eexists. split; [reflexivity|].
    set (v1 := match rowl A_crs r with [] => m0 G | _ => mmax G (m0 G) (rmaxf G (rowl A_crs r)) end).
    set (v2 := match rowl A c with [] => v1 | _ => mmax G v1 (rmaxf G (rowl A c)) end).
    assert (B1 : forall j v, stored A_crs r j v -> le (mabs G v) v1).
    { intros j v Hs. unfold stored in Hs. unfold v1. destruct (rowl A_crs r) eqn:R; [contradiction|]. rewrite <- R in *.
      destruct (rmaxf_max G L (rowl A_crs r)) as (_ & Hm); [congruence|].
      eapply (mle_trans L); [apply (Hm (j, v) Hs)|apply mmax_r; auto]. }
    assert (B0 : le (m0 G) v1).
    { unfold v1. destruct (rowl A_crs r); [apply (mle_refl L)|apply mmax_l; auto]. }
    assert (A1 : v1 = m0 G \/ exists j v, stored A_crs r j v /\ mabs G v = v1).
    { unfold v1, stored. destruct (rowl A_crs r) eqn:R; auto. rewrite <- R.
      destruct (rmaxf_max G L (rowl A_crs r)) as ((e & He & Ee) & Hm); [congruence|].
      unfold mmax. destruct (mlt G (m0 G) (rmaxf G (rowl A_crs r))) eqn:E; auto.
      right. exists (fst e), (snd e). rewrite Ee. split; auto. now destruct e. }
    assert (C1 : le v1 v2).
    { unfold v2. destruct (rowl A c); [apply (mle_refl L)|apply mmax_l; auto]. }
    assert (C2 : forall i v, stored A c i v -> le (mabs G v) v2).
    { intros j v Hs. unfold stored in Hs. unfold v2. destruct (rowl A c) eqn:R; [contradiction|]. rewrite <- R in *.
      destruct (rmaxf_max G L (rowl A c)) as (_ & Hm); [congruence|].
      eapply (mle_trans L); [apply (Hm (j, v) Hs)|apply mmax_r; auto]. }
    assert (A2 : v2 = v1 \/ exists i v, stored A c i v /\ mabs G v = v2).
    { unfold v2, stored. destruct (rowl A c) eqn:R; auto. rewrite <- R.
      destruct (rmaxf_max G L (rowl A c)) as ((e & He & Ee) & Hm); [congruence|].
      unfold mmax. destruct (mlt G v1 (rmaxf G (rowl A c))) eqn:E; auto.
      right. exists (fst e), (snd e). rewrite Ee. split; auto. now destruct e. }
    fold v1. fold v2. destruct (mis0 G v2) eqn:Z.
    - apply mis0_iff in Z. left. split; auto. intros v [[j Hs]|[i Hs]].
      + apply (mle_antisym L); [|apply (ml_abs G L)]. rewrite <- Z. eapply (mle_trans L); [eapply B1; eauto|auto].
      + apply (mle_antisym L); [|apply (ml_abs G L)]. rewrite <- Z. eapply C2; eauto.
    - assert (Zn : v2 <> m0 G). { intros E. apply mis0_iff in E. congruence. }
      right. split; [|split; auto].
      + destruct A2 as [E|(i & v & Hs & E)].
        * destruct A1 as [E'|(j & v & Hs & E')]; [congruence|]. exists v. split; [left; eauto|congruence].
        * exists v. split; [right; eauto|auto].
      + intros v [[j Hs]|[i Hs]]; [|eapply C2; eauto]. eapply (mle_trans L); [eapply B1; eauto|auto].
  Qed.

  Lemma local_max_unique : forall mone (A A_crs : CS O) r c a b, is_local_max G mone A A_crs r c a ->
    is_local_max G mone A A_crs r c b -> a = b.
  Proof.
    intros mone A A_crs r c a b [[Ha1 Ha2]|((va & Ha1 & Ha2) & Ha3 & Ha4)] [[Hb1 Hb2]|((vb & Hb1 & Hb2) & Hb3 & Hb4)].
    - congruence.
    - specialize (Ha2 vb Hb1). congruence.
    - specialize (Hb2 va Ha1). congruence.
    - apply (mle_antisym L); [rewrite <- Ha2|rewrite <- Hb2]; auto.
  Qed.

  Lemma good_l : forall mone eps (A A_crs : CS O) r c, valid A -> wf A_crs -> c < psize A -> r < psize A_crs ->
    exists b, is_good_diag G mone eps A A_crs r c = Ok b /\
      (b = true <-> exists v mx, stored A c r v /\ is_local_max G mone A A_crs r c mx /\
                      mlt G (mmul G mx eps) (mabs G v) = true).
  Proof.
    intros mone eps A A_crs r c [W1 Hs] W2 Hc Hr. unfold is_good_diag.
    pose proof (wf_len O A W1). pose proof (wf_mono O A W1 c Hc).
    pose proof (st_mono O A W1 (S c) (psize A) ltac:(lia) ltac:(lia)). pose proof (wf_vals O A W1).
    pose proof (wf_inds O A W1).
    rewrite (get_nth _ _ _ 0) by lia. cbn [bind]. rewrite (get_nth _ _ _ 0) by lia. cbn [bind].
    fold (st A c). fold (st A (S c)).
    assert (F := find_sorted_wp (indices A) (st A c) (st A (S c)) r ltac:(lia) ltac:(lia)).
    apply wp_inv in F.
    2:{ intros i j Hi Hij Hj. destruct (Nat.eq_dec i j) as [->|Hn]; auto.
        pose proof (Hs c i j Hc Hi ltac:(lia) Hj) as X. unfold ix in X. lia. }
    destruct F as ([found pos] & -> & F1 & F2 & F3 & F4). cbn [bind fst snd] in *.
    destruct found; cbn [negb].
    - destruct (proj1 F4 eq_refl) as (k & Hk & Ek).
      assert (Ep : nth pos (indices A) 0 = r).
      { destruct (Nat.lt_ge_cases k pos) as [HH|HH]; [specialize (F2 k ltac:(lia)); lia|].
        destruct (Nat.eq_dec k pos) as [->|Hn]; auto.
        pose proof (F3 pos ltac:(lia)). pose proof (Hs c pos k Hc ltac:(lia) ltac:(lia) ltac:(lia)) as X.
        unfold ix in X. lia. }
      assert (Hp : st A c <= pos < st A (S c)).
      { split; [lia|]. destruct (Nat.lt_ge_cases k pos) as [HH|HH]; [specialize (F2 k ltac:(lia)); lia|lia]. }
      rewrite (get_nth _ _ _ (t0 O)) by lia. cbn [bind]. fold (vl A pos).
      destruct (max_mag_l mone A A_crs r c W1 W2 Hc Hr) as (mx & -> & Hmx). cbn [bind].
      eexists. split; [reflexivity|].
      assert (St : stored A c r (vl A pos)).
      { unfold stored. apply rowl_in. exists pos. auto. }
      rewrite (ml_le G L), negb_involutive. split.
      + intros Hb. exists (vl A pos), mx. auto.
      + intros (v & mx' & S1 & S2 & S3). rewrite (local_max_unique _ _ _ _ _ _ _ Hmx S2).
        replace (vl A pos) with v; auto. unfold stored in *.
        pose proof (valid_nodup O A c Hs Hc) as ND.
        clear -ND S1 St. induction (rowl A c) as [|[j x] l IH]; [contradiction|].
        simpl in ND. inversion ND; subst. destruct S1 as [S1|S1], St as [St|St].
        * congruence.
        * inversion S1; subst. exfalso. apply H1. change r with (fst (r, vl A pos)). now apply in_map.
        * inversion St; subst. exfalso. apply H1. change r with (fst (r, v)). now apply in_map.
        * auto.
    - exists false. split; auto. split; [discriminate|].
      intros (v & mx & S1 & _). unfold stored in S1. apply rowl_in in S1.
      destruct S1 as (k & Hk & E1 & E2). apply F4. exists k. split; auto.
  Qed.
End Good.

Lemma firstn_S_nth : forall X (l : list X) k d, k < length l -> firstn (S k) l = firstn k l ++ [nth k l d].
Proof. induction l; intros k d H; simpl in *; [lia|]. destruct k; simpl; auto. f_equal. apply IHl; lia. Qed.

(** ** Pattern of the leading block *)
Section Lead.
  Context {O : Ops}.
  Notation T := (T O).
  Variables (A : CS O) (m n : nat) (pinv q : list nat).
  Hypothesis V : wf A.
  Hypothesis Hps : psize A = n.
  Hypothesis Hss : ssize A = n.
  Hypothesis Lpi : length pinv = n.
  Hypothesis Hm : m <= n.
  Hypothesis Lq : length q = n.
  Hypothesis Rq : forall i, i < n -> nth i q 0 < n.

  Definition mapped (l : list (nat * T)) : list nat :=
    filter (fun k => k <? m) (map (fun e => nth (fst e) pinv 0) l).
  Definition lcol (c : nat) : list nat := isort (mapped (rowl A (nth c q 0))).

  Lemma mapped_app : forall a b, mapped (a ++ b) = mapped a ++ mapped b.
  Proof. intros. unfold mapped. now rewrite map_app, filter_app. Qed.

  Lemma count_col_l : forall c, c < n -> count_col A m pinv (nth c q 0) = Ok (length (lcol c)).
  Proof.
    intros c Hc. unfold count_col. rewrite row_iter_rowl by (auto; rewrite Hps; auto).
    assert (X : wp (for_list (rowl A (nth c q 0)) (fun e c => k <- get pinv (fst e) ;; Ok (if k <? m then S c else c)) 0)
       (fun r => r = length (mapped (rowl A (nth c q 0))))).
    { apply (for_list_inv _ _ (fun pre r => r = length (mapped pre))); auto.
      intros pre [j v] post s E ->. cbn [fst].
      assert (j < n). { rewrite <- Hss. apply (wf_rowl_range O A V (nth c q 0) (j, v)). rewrite Hps. auto.
        rewrite E. apply in_or_app. right. left. auto. }
      wpb. apply wp_get with (d := 0); [lia|]. apply wp_ok. rewrite mapped_app, app_length.
      replace (mapped [(j, v)]) with (if nth j pinv 0 <? m then [nth j pinv 0] else []) by reflexivity.
      destruct (nth j pinv 0 <? m); simpl; lia. }
    apply wp_inv in X. destruct X as (r & -> & ->). unfold lcol. now rewrite isort_length.
  Qed.

  Definition lsz (c : nat) : nat := length (flat_map lcol (seq 0 c)).
  Lemma lsz_S : forall c, lsz (S c) = lsz c + length (lcol c).
  Proof. intros. unfold lsz. rewrite seq_S, flat_map_app, app_length. simpl. now rewrite app_nil_r. Qed.
  Lemma lsz_mono : forall a b, a <= b -> lsz a <= lsz b.
  Proof. intros a b H. induction H; auto. rewrite lsz_S. lia. Qed.

  Lemma push_loop : forall l ind pos, (forall e, In e l -> fst e < n) -> pos + length (mapped l) <= length ind ->
    wp (for_list l (fun e (s : list nat * nat) =>
        let '(ind, pos) := s in
        k <- get pinv (fst e) ;;
        if k <? m then (ind <- set ind pos k ;; Ok (ind, S pos)) else Ok (ind, pos)) (ind, pos))
      (fun r => length (fst r) = length ind /\ snd r = pos + length (mapped l) /\
                firstn (snd r) (fst r) = firstn pos ind ++ mapped l).
  Proof.
    induction l as [|[j v] l IH]; intros ind pos R Hl.
    - apply wp_ok. simpl. unfold mapped. simpl. rewrite app_nil_r. auto.
    - cbn [for_list]. wpb. assert (j < n) by (apply (R (j, v)); left; auto).
      wpb. cbn [fst]. apply wp_get with (d := 0); [lia|].
      unfold mapped in *. cbn [map filter fst] in *.
      destruct (Nat.ltb_spec (nth j pinv 0) m).
      + simpl in Hl. wpb. apply wp_set; [lia|]. apply wp_ok.
        eapply wp_conseq. { apply IH. intros; apply R; right; auto. rewrite upd_length. lia. }
        intros [ind' pos'] (E1 & E2 & E3). cbn [fst snd] in *. rewrite upd_length in E1.
        split; [auto|]. split; [simpl; lia|]. rewrite E3.
        rewrite (firstn_S_nth _ (upd ind pos (nth j pinv 0)) pos 0) by (rewrite upd_length; lia).
        rewrite nth_upd_eq by lia. rewrite <- app_assoc. simpl. f_equal.
        clear. revert pos. induction ind; destruct pos; simpl; auto. f_equal. auto.
      + apply wp_ok. apply IH; auto. intros; apply R; right; auto.
  Qed.

  Lemma leading_block_l : forall ji, exists start ind, leading_block A m pinv q ji = Ok (start, ind) /\
    length start = m + 1 /\ (forall c, c <= m -> nth c start 0 = lsz c) /\
    ind = flat_map lcol (seq 0 m).
  Proof.
    intros ji. unfold leading_block.
    rewrite set_ok by (rewrite repeat_length; lia). cbn [bind].
    assert (X : wp (for_range 0 m (fun col start =>
      qc <- get q col ;; a <- get start col ;; c <- count_col A m pinv qc ;; set start (S col) (a + c))
      (upd (repeat ji (m + 1)) 0 0))
      (fun start => length start = m + 1 /\ forall c, c <= m -> nth c start 0 = lsz c)).
    { apply (for_range_inv _ (fun k start => length start = m + 1 /\ forall c, c <= k -> nth c start 0 = lsz c)); [lia| |].
      - rewrite upd_length, repeat_length. split; auto. intros c Hc. replace c with 0 by lia.
        rewrite nth_upd_eq by (rewrite repeat_length; lia). reflexivity.
      - intros k start Hk (I1 & I2). wpb. apply wp_get with (d := 0); [lia|]. wpb. apply wp_get with (d := 0); [lia|].
        rewrite count_col_l by lia. cbn [bind]. apply wp_set; [lia|]. rewrite upd_length. split; auto.
        intros c Hc. rewrite nth_upd by lia. destruct (Nat.eqb_spec c (S k)) as [->|Hn].
        + rewrite lsz_S, I2 by lia. auto.
        + apply I2. lia. }
    apply wp_inv in X. destruct X as (start & -> & L1 & L2). cbn [bind].
    rewrite (get_nth _ _ _ 0) by lia. cbn [bind]. rewrite L2 by lia.
    assert (Y : wp (for_range 0 m (fun col (s : list nat * nat) =>
      let '(ind, pos) := s in
      qc <- get q col ;;
      '(ind, pos) <- row_iter O A qc (fun i _ (s : list nat * nat) =>
        let '(ind, pos) := s in
        k <- get pinv i ;;
        if k <? m then (ind <- set ind pos k ;; Ok (ind, S pos)) else Ok (ind, pos)) (ind, pos) ;;
      b <- get start col ;;
      ind <- sort_range ind b pos ;;
      Ok (ind, pos)) (repeat ji (lsz m), 0))
      (fun s => length (fst s) = lsz m /\ snd s = lsz m /\ firstn (snd s) (fst s) = flat_map lcol (seq 0 m))).
    { apply (for_range_inv _ (fun k s => length (fst s) = lsz m /\ snd s = lsz k /\ firstn (snd s) (fst s) = flat_map lcol (seq 0 k))); [lia| |].
      - simpl. rewrite repeat_length. auto.
      - intros k [ind pos] Hk (I1 & I2 & I3). cbn [fst snd] in *. subst pos.
        wpb. apply wp_get with (d := 0); [lia|].
        rewrite row_iter_rowl by (auto; rewrite Hps; apply Rq; lia).
        assert (Hlen : length (mapped (rowl A (nth k q 0))) = length (lcol k)) by (unfold lcol; now rewrite isort_length).
        pose proof (lsz_S k) as HS. pose proof (lsz_mono (S k) m ltac:(lia)) as HM.
        wpb. eapply wp_conseq.
        { apply push_loop.
          - intros e He. rewrite <- Hss. apply (wf_rowl_range O A V (nth k q 0)); auto. rewrite Hps. apply Rq; lia.
          - lia. }
        intros [ind1 pos1] (E1 & E2 & E3). cbn [fst snd] in *.
        wpb. apply wp_get with (d := 0); [lia|]. rewrite L2 by lia.
        wpb. unfold sort_range.
        destruct (Nat.leb_spec (lsz k) pos1); [|lia]. destruct (Nat.leb_spec pos1 (length ind1)); [|lia].
        cbn [andb]. apply wp_ok. apply wp_ok. cbn [fst snd].
        assert (SL : slice (lsz k) (pos1 - lsz k) ind1 = mapped (rowl A (nth k q 0))).
        { unfold slice. rewrite firstn_skipn_comm.
          replace (lsz k + (pos1 - lsz k)) with pos1 by lia. rewrite E3.
          rewrite skipn_app, skipn_all2 by (rewrite firstn_length; lia). simpl.
          rewrite firstn_length. replace (lsz k - Nat.min (lsz k) (length ind)) with 0 by lia. reflexivity. }
        assert (FK : firstn (lsz k) ind1 = flat_map lcol (seq 0 k)).
        { rewrite <- I3. replace (firstn (lsz k) ind1) with (firstn (lsz k) (firstn pos1 ind1)) by (rewrite firstn_firstn; f_equal; lia).
          rewrite E3. rewrite firstn_app, firstn_firstn, firstn_length.
          replace (lsz k - Nat.min (lsz k) (length ind)) with 0 by lia. simpl. rewrite app_nil_r. f_equal; lia. }
        rewrite SL, FK. fold (lcol k). repeat split.
        + rewrite !app_length, skipn_length. fold (lsz k). lia.
        + lia.
        + rewrite seq_S, flat_map_app. cbn [flat_map Nat.add]. rewrite app_nil_r.
          rewrite app_assoc. rewrite firstn_app. rewrite firstn_all2 by (rewrite app_length; fold (lsz k); lia).
          rewrite app_length. fold (lsz k). replace (pos1 - (lsz k + length (lcol k))) with 0 by lia.
          simpl. now rewrite app_nil_r. }
    apply wp_inv in Y. destruct Y as ([ind pos] & -> & M1 & M2 & M3). cbn [bind fst snd] in *.
    exists start, ind. repeat split; auto. rewrite <- M3. rewrite firstn_all2; auto. lia.
  Qed.
End Lead.
