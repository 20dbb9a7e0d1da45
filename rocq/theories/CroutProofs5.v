(** * CroutProofs5: scaling, diagonal update, dropping, sorting and storing of one step. *)
From Coq Require Import List Arith Lia Bool Permutation Ring.
From Verif Require Import Base Scalar Spec CSModel CSSpec ConvModel ConvSpec BucketProofs ConvProofs ConvProofs2
  ConvProofs3 ConvProofs4 Mag VecModel VecSpec VecProofs PruneModel PruneProofs CroutModel CroutProofs1 CroutProofs2 CroutProofs3 CroutProofs4.
Import ListNotations.

Section A.
  Context {O : Ops}.
  Notation T := (T O).
  Notation row := (list (nat * T)).
  Notation col := (row * row)%type.
  Notation tl' c cols := (snd (nth c cols (dcol (O:=O)))).

  Definition scal_ok (is0 : T -> bool) : Prop := forall x, is0 x = true -> x = t0 O.

  Lemma map_held : forall N (h : T -> T) (v : SV O), sv_ok N v ->
    wp (for_range 0 (sv_cnt v) (fun i v => j <- get (sv_inds v) i ;; x <- get (sv_vals v) j ;; sv_setval v j (h x)) v)
       (fun v' => exists vs, v' = mkSV vs (sv_inds v) (sv_cnt v) (sv_dtags v) (sv_stags v) /\ length vs = N /\
          forall j, j < N -> nth j vs (t0 O) = if in_dec Nat.eq_dec j (held v) then h (vv v j) else vv v j).
  Proof.
    intros N h v [so1 so2 so3 so4 so5 so6 so7].
    eapply wp_conseq.
    { apply (for_range_inv _ (fun i v' => exists vs, v' = mkSV vs (sv_inds v) (sv_cnt v) (sv_dtags v) (sv_stags v) /\ length vs = N /\
        forall j, j < N -> nth j vs (t0 O) = if in_dec Nat.eq_dec j (firstn i (sv_inds v)) then h (vv v j) else vv v j)).
      - lia.
      - exists (sv_vals v). split; [now destruct v|]. split; auto.
      - intros i v' Hi (vs & -> & Lv & Hv). cbn [sv_inds sv_vals]. wpb. apply wp_get with (d := 0); [lia|].
        assert (Hr : nth i (sv_inds v) 0 < N).
        { apply so7. unfold held. rewrite <- (nth_firstn_lt _ (sv_cnt v)) by lia. apply nth_In. rewrite firstn_length. lia. }
        wpb. apply wp_get with (d := t0 O); [lia|]. unfold sv_setval. cbn [sv_inds sv_vals sv_cnt sv_dtags sv_stags].
        wpb. apply wp_set; [lia|]. apply wp_ok. eexists. split; [reflexivity|]. rewrite upd_length. split; auto.
        assert (Hni : ~ In (nth i (sv_inds v) 0) (firstn i (sv_inds v))).
        { intros Hin. apply (In_nth _ _ 0) in Hin. destruct Hin as (k & Hk & E). rewrite firstn_length in Hk.
          rewrite nth_firstn_lt in E by lia. unfold held in so6. rewrite (NoDup_nth _ 0) in so6.
          specialize (so6 k i). rewrite !firstn_length in so6. rewrite !nth_firstn_lt in so6 by lia. specialize (so6 ltac:(lia) ltac:(lia) E). lia. }
        intros j Hj. rewrite nth_upd by lia. rewrite firstn_snoc by lia. destruct (Nat.eqb_spec j (nth i (sv_inds v) 0)) as [->|Hn].
        + rewrite Hv by auto. destruct (in_dec _ _ (firstn i _)); [contradiction|].
          destruct (in_dec _ _ _) as [|K]; auto. exfalso. apply K. apply in_or_app. simpl. auto.
        + rewrite Hv by auto. destruct (in_dec _ j (firstn i _)) as [I|I], (in_dec _ j (firstn i _ ++ _)) as [J|J]; auto.
          * exfalso. apply J. apply in_or_app. auto.
          * apply in_app_or in J. destruct J as [J|[J|[]]]; [contradiction|congruence]. }
    intros v' H. exact H.
  Qed.

  Lemma held_mk : forall vs (v : SV O) a b, held (O:=O) (mkSV vs (sv_inds v) (sv_cnt v) a b) = held v.
  Proof. reflexivity. Qed.

  Lemma scale_l : forall N k g lim is0 big d (v : SV O) f, acc N k (S g) lim v f -> lim <= N -> k < length d ->
    wp (scale_inv_diag is0 big k d v) (fun v' => exists f', acc N k (S g) lim v' f' /\ held v' = held v /\ sv_dtags v' = sv_dtags v /\
      (FieldLaws O -> scal_ok is0 -> nth k d (t0 O) <> t0 O -> forall i, tmul O (f' i) (nth k d (t0 O)) = f i)).
  Proof.
    intros N k g lim is0 big d v f HA HN Hk. pose proof HA as [ok at0 ao0 ar0 av0 az0].
    unfold scale_inv_diag. wpb. apply wp_get with (d := t0 O); auto.
    assert (G : forall h : T -> T,
      (FieldLaws O -> nth k d (t0 O) <> t0 O -> forall x, tmul O (h x) (nth k d (t0 O)) = x) ->
      wp (for_range 0 (sv_cnt v) (fun i v => j <- get (sv_inds v) i ;; x <- get (sv_vals v) j ;; sv_setval v j (h x)) v)
       (fun v' => exists f', acc N k (S g) lim v' f' /\ held v' = held v /\ sv_dtags v' = sv_dtags v /\
      (FieldLaws O -> scal_ok is0 -> nth k d (t0 O) <> t0 O -> forall i, tmul O (f' i) (nth k d (t0 O)) = f i))).
    { intros h Hh. eapply wp_conseq. { apply (map_held N h v ok). }
      intros v' (vs & -> & Lv & Hv). exists (fun i => if in_dec Nat.eq_dec i (held v) then h (f i) else t0 O).
      split; [|split; [reflexivity|split; [reflexivity|]]].
      - pose proof ok as [so1 so2 so3 so4 so5 so6 so7]. split; rewrite ?held_mk; auto.
        + split; auto.
        + intros RL i Hi. unfold vv at 1. cbn [sv_vals]. rewrite Hv by (apply so7; auto).
          destruct (in_dec _ _ _); [|contradiction]. f_equal. auto.
        + intros RL i Hi. destruct (in_dec _ _ _); [contradiction|auto].
      - intros FL _ Hd i. destruct (in_dec _ _ _) as [I|I]. { apply Hh; auto. }
        rewrite az0 by (auto; apply (fl_ring O FL)). apply ru_mul0_l. apply (fl_ring O FL). }
    destruct (is0 (nth k d (t0 O))) eqn:E0.
    - apply wp_ok. exists f. split; auto. split; auto. split; auto. intros FL S0 Hd. exfalso. apply Hd. now apply S0.
    - destruct (big (nth k d (t0 O))).
      + apply (G (fun x => tmul O x (tdiv O (t1 O) (nth k d (t0 O))))). intros FL Hd x. pose proof (fl_ring O FL) as RL.
        rewrite <- (div_mul O FL x _ Hd) at 2. f_equal. rewrite !(fl_div O FL). f_equal. apply (Rmul_1_l (rl_ring O RL)).
      + apply (G (fun x => tdiv O x (nth k d (t0 O)))). intros FL Hd x. now apply div_mul.
  Qed.

  (** ** Diagonal update *)
  Lemma diag_loop : forall N m g (d : list T) (a c : SV O) k (va vb : nat -> T) (rd rd2 : nat -> nat -> res T),
    sv_ok N a -> m <= length d -> length (sv_dtags c) = N ->
    (forall i, In i (held a) -> g < i) ->
    (forall i, i < sv_cnt a -> rd i (nth i (sv_inds a) 0) = Ok (va (nth i (sv_inds a) 0)) /\ rd2 i (nth i (sv_inds a) 0) = Ok (vb (nth i (sv_inds a) 0))) ->
    wp (for_range 0 (sv_cnt a) (fun i d =>
        idx <- get (sv_inds a) i ;;
        if idx <? m then
          tag <- get (sv_dtags c) idx ;;
          if (match tag with Some s => s =? k | None => false end) then
            x <- get d idx ;; u <- rd i idx ;; w <- rd2 i idx ;; set d idx (tsub O x (tmul O u w))
          else Ok d
        else Ok d) d)
      (fun d' => length d' = length d /\ forall i, nth i d' (t0 O) =
        if in_dec Nat.eq_dec i (held a) then
          if (i <? m) && (match nth i (sv_dtags c) None with Some s => s =? k | None => false end)
          then tsub O (nth i d (t0 O)) (tmul O (va i) (vb i)) else nth i d (t0 O)
        else nth i d (t0 O)).
  Proof.
    intros N m g d a c k va vb rd rd2 [so1 so2 so3 so4 so5 so6 so7] Hm HT Hg Hrd.
    set (tst := fun i => (i <? m) && (match nth i (sv_dtags c) None with Some s => s =? k | None => false end)).
    apply (for_range_inv _ (fun q d' => length d' = length d /\ forall i, nth i d' (t0 O) =
        if in_dec Nat.eq_dec i (firstn q (sv_inds a)) then
          if tst i then tsub O (nth i d (t0 O)) (tmul O (va i) (vb i)) else nth i d (t0 O)
        else nth i d (t0 O))).
    - lia.
    - split; auto.
    - intros q d' Hq (Ld & Hd).
      assert (Hr : nth q (sv_inds a) 0 < N).
      { apply so7. unfold held. rewrite <- (nth_firstn_lt _ (sv_cnt a)) by lia. apply nth_In. rewrite firstn_length. lia. }
      assert (Hni : ~ In (nth q (sv_inds a) 0) (firstn q (sv_inds a))).
      { intros Hin. apply (In_nth _ _ 0) in Hin. destruct Hin as (j & Hj & E). rewrite firstn_length in Hj.
        rewrite nth_firstn_lt in E by lia. unfold held in so6. rewrite (NoDup_nth _ 0) in so6.
        specialize (so6 j q). rewrite !firstn_length in so6. rewrite !nth_firstn_lt in so6 by lia. specialize (so6 ltac:(lia) ltac:(lia) E). lia. }
      assert (ST : forall d'', length d'' = length d -> (forall i, nth i d'' (t0 O) = if i =? nth q (sv_inds a) 0 then
           (if tst i then tsub O (nth i d (t0 O)) (tmul O (va i) (vb i)) else nth i d (t0 O)) else nth i d' (t0 O)) ->
         length d'' = length d /\ forall i, nth i d'' (t0 O) =
        if in_dec Nat.eq_dec i (firstn (S q) (sv_inds a)) then
          if tst i then tsub O (nth i d (t0 O)) (tmul O (va i) (vb i)) else nth i d (t0 O)
        else nth i d (t0 O)).
      { intros d'' L'' H''. split; auto. intros i. rewrite H''. rewrite firstn_snoc by lia.
        destruct (Nat.eqb_spec i (nth q (sv_inds a) 0)) as [->|Hn].
        - destruct (in_dec _ _ (_ ++ _)) as [|K]; auto. exfalso. apply K. apply in_or_app. simpl. auto.
        - rewrite Hd. destruct (in_dec _ i (firstn q _)) as [I|I], (in_dec _ i (firstn q _ ++ _)) as [J|J]; auto.
          + exfalso. apply J. apply in_or_app. auto.
          + apply in_app_or in J. destruct J as [J|[J|[]]]; [contradiction|congruence]. }
      wpb. apply wp_get with (d := 0); [lia|]. set (idx := nth q (sv_inds a) 0) in *.
      assert (Eid : nth idx d' (t0 O) = nth idx d (t0 O)).
      { rewrite Hd. destruct (in_dec _ _ _); [contradiction|auto]. }
      destruct (idx <? m) eqn:Em.
      + wpb. apply wp_get with (d := None); [lia|]. destruct (match nth idx (sv_dtags c) None with Some s => s =? k | None => false end) eqn:Et.
        * apply Nat.ltb_lt in Em. wpb. apply wp_get with (d := t0 O); [lia|]. destruct (Hrd q ltac:(lia)) as (R1 & R2). fold idx in R1, R2.
          rewrite R1, R2. cbn [bind]. apply wp_set; [lia|]. apply ST. { now rewrite upd_length. }
          intros i. rewrite nth_upd by lia. fold idx. destruct (Nat.eqb_spec i idx) as [->|]; auto. unfold tst.
          rewrite Et. apply Nat.ltb_lt in Em. rewrite Em. cbn [andb]. now rewrite Eid.
        * apply wp_ok. apply ST; auto. intros i. destruct (Nat.eqb_spec i idx) as [->|]; auto. unfold tst. rewrite Em, Et. cbn [andb]. auto.
      + apply wp_ok. apply ST; auto. intros i. destruct (Nat.eqb_spec i idx) as [->|]; auto. unfold tst. rewrite Em. cbn [andb]. auto.
  Qed.

  Lemma update_diag_l : forall N k g limL limU m (l ut : SV O) fl fu d,
    acc N k (S g) limL l fl -> acc N k (S g) limU ut fu -> m <= length d ->
    wp (update_diag k l ut m d) (fun d' => length d' = length d /\
      (forall i, i <= g \/ m <= i -> nth i d' (t0 O) = nth i d (t0 O)) /\
      (RingLaws O -> forall i, g < i < m -> nth i d' (t0 O) = tsub O (nth i d (t0 O)) (tmul O (fu i) (fl i)))).
  Proof.
    intros N k g limL limU m l ut fl fu d AL AU Hm.
    pose proof AL as [okl atl aol arl avl azl]. pose proof AU as [oku atu aou aru avu azu].
    assert (TG : forall v : SV O, sv_ok N v -> (forall i, i < N -> tg v i = Some k <-> In i (held v)) ->
      forall i, (match nth i (sv_dtags v) None with Some s => s =? k | None => false end) = true <-> In i (held v)).
    { intros v [s1 s2 s3 s4 s5 s6 s7] Hv i. destruct (Nat.lt_ge_cases i N) as [Hi|Hi].
      - rewrite <- Hv by auto. unfold tg. destruct (nth i (sv_dtags v) None) as [s|]; [|split; discriminate].
        rewrite Nat.eqb_eq. split; congruence.
      - rewrite nth_overflow by lia. split; [discriminate|]. intros H. apply s7 in H. lia. }
    assert (FIN : forall (a c : SV O) (d' : list T), (a = ut /\ c = l) \/ (a = l /\ c = ut) ->
      length d' = length d /\ (forall i, nth i d' (t0 O) =
        if in_dec Nat.eq_dec i (held a) then
          if (i <? m) && (match nth i (sv_dtags c) None with Some s => s =? k | None => false end)
          then tsub O (nth i d (t0 O)) (tmul O (vv ut i) (vv l i)) else nth i d (t0 O)
        else nth i d (t0 O)) ->
      length d' = length d /\
      (forall i, i <= g \/ m <= i -> nth i d' (t0 O) = nth i d (t0 O)) /\
      (RingLaws O -> forall i, g < i < m -> nth i d' (t0 O) = tsub O (nth i d (t0 O)) (tmul O (fu i) (fl i)))).
    { intros a c d' Hac (Ld & Hd). split; auto. split.
      - intros i Hi. rewrite Hd. destruct (in_dec _ _ _) as [I|I]; auto.
        destruct (Nat.ltb_spec i m); auto. cbn [andb]. exfalso.
        destruct Hac as [(-> & ->)|(-> & ->)]; [apply aru in I|apply arl in I]; lia.
      - intros RL i Hi. rewrite Hd. destruct (Nat.ltb_spec i m); [|lia]. cbn [andb].
        assert (Z : forall x y, x = t0 O \/ y = t0 O -> tmul O x y = t0 O).
        { intros x y [->| ->]; [now apply ru_mul0_l|now apply ru_mul0_r]. }
        destruct Hac as [(-> & ->)|(-> & ->)].
        + destruct (in_dec _ _ _) as [I|I].
          * destruct (match nth i (sv_dtags l) None with Some s => s =? k | None => false end) eqn:E.
            -- apply (TG l okl atl) in E. rewrite avu, avl by auto. auto.
            -- assert (~ In i (held l)) by (intros K; apply (TG l okl atl) in K; congruence).
               rewrite (azl RL i) by auto. rewrite Z by auto. symmetry. now apply ru_sub0.
          * rewrite (azu RL i) by auto. rewrite Z by auto. symmetry. now apply ru_sub0.
        + destruct (in_dec _ _ _) as [I|I].
          * destruct (match nth i (sv_dtags ut) None with Some s => s =? k | None => false end) eqn:E.
            -- apply (TG ut oku atu) in E. rewrite avu, avl by auto. auto.
            -- assert (~ In i (held ut)) by (intros K; apply (TG ut oku atu) in K; congruence).
               rewrite (azu RL i) by auto. rewrite Z by auto. symmetry. now apply ru_sub0.
          * rewrite (azl RL i) by auto. rewrite Z by auto. symmetry. now apply ru_sub0. }
    assert (SVV : forall (v w : SV O), sv_ok N v -> sv_ok N w -> forall i, i < sv_cnt v ->
       sv_val v i = Ok (vv v (nth i (sv_inds v) 0)) /\ nth i (sv_inds v) 0 < N).
    { intros v w [s1 s2 s3 s4 s5 s6 s7] _ i Hi.
      assert (Hr : nth i (sv_inds v) 0 < N).
      { apply s7. unfold held. rewrite <- (nth_firstn_lt _ (sv_cnt v)) by lia. apply nth_In. rewrite firstn_length. lia. }
      split; auto. unfold sv_val. rewrite (get_nth _ _ _ 0) by lia. cbn [bind]. rewrite (get_nth _ _ _ (t0 O)) by lia. reflexivity. }
    unfold update_diag. destruct (sv_cnt ut <=? sv_cnt l).
    - eapply wp_conseq; [|intros d' H'; apply (FIN ut l d'); [auto|exact H']].
      apply (diag_loop N m g d ut l k (vv ut) (vv l) (fun i _ => sv_val ut i) (fun _ idx => get (sv_vals l) idx)); auto.
      + apply okl.
      + intros i Hi. specialize (aru i Hi). lia.
      + intros i Hi. destruct (SVV ut l oku okl i Hi) as (E & R). split; auto. apply get_nth. destruct okl. lia.
    - eapply wp_conseq; [|intros d' H'; apply (FIN l ut d'); [auto|exact H']].
      apply (diag_loop N m g d l ut k (vv ut) (vv l) (fun _ idx => get (sv_vals ut) idx) (fun i _ => sv_val l i)); auto.
      + apply oku.
      + intros i Hi. specialize (arl i Hi). lia.
      + intros i Hi. destruct (SVV l ut okl oku i Hi) as (E & R). split; auto. apply get_nth. destruct oku. lia.
  Qed.

  (** ** Dropping, sorting, storing *)
  (** what a dropping may do to an accumulator: keep some of the indices, change nothing else *)
  Definition dropped_to (N : nat) (v v' : SV O) : Prop :=
    sv_ok N v' /\ sv_vals v' = sv_vals v /\ sv_dtags v' = sv_dtags v /\ incl (held v') (held v).

  Lemma sort_l : forall N (v : SV O), sv_ok N v ->
    wp (sv_sort v) (fun v' => sv_ok N v' /\ sv_vals v' = sv_vals v /\ sv_dtags v' = sv_dtags v /\ held v' = isort (held v)).
  Proof.
    intros N v [s1 s2 s3 s4 s5 s6 s7]. unfold sv_sort. wpb. apply sort_range_wp; [lia|lia|].
    intros a' La Ho Hi. apply wp_ok. rewrite Nat.sub_0_r in Hi. change (slice 0 (sv_cnt v) (sv_inds v)) with (held v) in Hi.
    assert (EH : firstn (sv_cnt v) a' = isort (held v)).
    { apply (list_ext _ _ _ 0).
      - rewrite isort_length. unfold held. rewrite !firstn_length. lia.
      - intros i H. rewrite firstn_length in H. rewrite nth_firstn_lt by lia. rewrite Hi by lia. f_equal. lia. }
    assert (P : Permutation (isort (held v)) (held v)) by apply isort_perm.
    assert (EH' : forall a b, held (O:=O) (mkSV a a' (sv_cnt v) b (sv_stags v)) = isort (held v)) by (intros; exact EH).
    split; [|split; [reflexivity|split; [reflexivity|auto]]]. split; cbn [sv_vals sv_inds sv_cnt sv_dtags sv_stags]; auto; try lia.
    - rewrite EH'. eapply Permutation_NoDup; [apply Permutation_sym; exact P|auto].
    - intros i H. rewrite EH' in H. apply s7. eapply Permutation_in; eauto.
  Qed.

  Definition newrow (v : SV O) : row := map (fun i => (i, vv v i)) (isort (held v)).

  Lemma push_sv_l : forall ps ss k lo lim N F (cols : list col) (v : SV O), Rep ps ss k lo lim [] F cols -> sv_ok N v ->
    held v = isort (held v) ->
    wp (push_sv F v) (fun F' => Rep ps ss k lo lim [newrow v] F' cols).
  Proof.
    intros ps ss k lo lim N F cols v [rfm rk rst rkps rklo rlim rstart rtail rdone rchain] [s1 s2 s3 s4 s5 s6 s7] EH.
    unfold push_sv. rewrite s2. rewrite (proj2 (Nat.leb_le _ _) s3). fold (held v).
    unfold push_primary. rewrite pick_ok by (rewrite s1; auto). cbn [bind]. rewrite rfm. cbn [ofrows ind_start psize ssize indices vals].
    rewrite app_nil_r. set (rows := map whole cols) in *. rewrite starts_length.
    replace (S (length rows) - 1) with (length rows) by lia. rewrite get_start by lia. cbn [bind]. apply wp_ok.
    split; cbn [fm flist fstart]; auto. fold rows. unfold ofrows.
    assert (LN : length (newrow v) = length (held v)) by (unfold newrow; rewrite map_length, isort_length; auto).
    assert (EF : map fst (newrow v) = held v).
    { unfold newrow. rewrite map_map. simpl. rewrite map_id. auto. }
    assert (EV : map snd (newrow v) = map (fun j => nth j (sv_vals v) (t0 O)) (held v)).
    { unfold newrow. rewrite map_map. simpl. now rewrite <- EH. }
    rewrite concat_app, !map_app. simpl. rewrite !app_nil_r, EF, EV. f_equal.
    unfold starts. rewrite app_length. simpl length. rewrite Nat.add_1_r.
    assert (ES : seq 0 (S (S (length rows))) = seq 0 (S (length rows)) ++ [S (length rows)]) by (rewrite (seq_S (S (length rows)) 0); auto).
    rewrite ES, map_app. cbn [map].
    assert (E1 : map (offs (rows ++ [newrow v])) (seq 0 (S (length rows))) = map (offs rows) (seq 0 (S (length rows)))).
    { apply map_ext_in. intros i Hi. apply in_seq in Hi. unfold offs. rewrite firstn_app.
      replace (i - length rows) with 0 by lia. simpl. now rewrite app_nil_r. }
    rewrite E1. f_equal. f_equal.
    assert (E2 : offs (rows ++ [newrow v]) (S (length rows)) = offs rows (length rows) + length (held v)).
    { replace (S (length rows)) with (length (rows ++ [newrow v])) by (rewrite app_length; simpl; lia).
      rewrite !offs_all, concat_app, app_length. simpl. rewrite app_nil_r, LN. auto. }
    rewrite E2. auto.
  Qed.
End A.
