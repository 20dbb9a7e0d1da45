(** * CroutProofs9: initial state and final assembly. *)
From Coq Require Import List Arith Lia Bool Permutation Ring.
From Verif Require Import Base Scalar Spec CSModel CSSpec ConvModel ConvSpec BucketProofs ConvProofs ConvProofs2
  ConvProofs3 ConvProofs4 Mag VecModel VecSpec VecProofs PruneModel PruneProofs CroutModel CroutProofs1 CroutProofs2 CroutProofs3
  CroutProofs4 CroutProofs5 CroutProofs6 CroutProofs7 CroutProofs8.
Import ListNotations.

Section RingU.
  Variable O : Ops.
  Hypothesis RL : RingLaws O.
  Add Ring TRU4 : (rl_ring O RL).
  Lemma ru_sub0 : forall a, tsub O a (t0 O) = a. Proof. intros. ring. Qed.
  Lemma ru_m0m : forall a b, tmul O (tmul O a (t0 O)) b = t0 O. Proof. intros. ring. Qed.
End RingU.

Section A.
  Context {O : Ops}.
  Notation T := (T O).
  Notation row := (list (nat * T)).
  Notation col := (row * row)%type.

  Lemma diag_l : forall (n m : nat) (s t : list T) (A : CS O) (p q : list nat) jd,
    valid A -> psize A = n -> ssize A = n -> length s = n -> length t = n -> m <= n ->
    is_perm n p -> is_perm n q ->
    wp (extract_perm_diag s A t m p q jd) (fun d => length d = m /\
      (RingLaws O -> forall i, i < m -> nth i d (t0 O) =
         tmul O (tmul O (nth (nth i p 0) s (t0 O)) (ent A (nth i q 0) (nth i p 0))) (nth (nth i q 0) t (t0 O)))).
  Proof.
    intros n m s t A p q jd (W & Hs) Pn Sn Ls Lt Hm (Lp & Rp & _) (Lq & Rq & _). unfold extract_perm_diag.
    destruct (Nat.ltb_spec (ssize A) m); [lia|]. destruct (Nat.ltb_spec (psize A) m); [lia|]. cbn [orb].
    apply (for_range_inv _ (fun k d => length d = m /\
      (RingLaws O -> forall i, i < k -> nth i d (t0 O) =
         tmul O (tmul O (nth (nth i p 0) s (t0 O)) (ent A (nth i q 0) (nth i p 0))) (nth (nth i q 0) t (t0 O))))); [lia| |].
    { split; [now rewrite repeat_length|]. intros; lia. }
    intros k d Hk (Ld & Hd). pose proof (Rp k ltac:(lia)) as Rpk. pose proof (Rq k ltac:(lia)) as Rqk.
    pose proof (wf_len O A W) as WL. pose proof (wf_inds O A W) as WI. pose proof (wf_vals O A W) as WV.
    wpb. apply wp_get with (d := 0); [lia|]. wpb. apply wp_get with (d := 0); [lia|].
    wpb. apply wp_get with (d := 0); [lia|]. wpb. apply wp_get with (d := 0); [lia|].
    set (qi := nth k q 0) in *. set (pi := nth k p 0) in *.
    change (nth qi (ind_start A) 0) with (st A qi). change (nth (S qi) (ind_start A) 0) with (st A (S qi)).
    pose proof (wf_mono O A W qi ltac:(lia)) as M1. pose proof (st_mono O A W (S qi) (psize A) ltac:(lia) ltac:(lia)) as M2.
    wpb. eapply wp_conseq. { apply find_sorted_wp; [exact M1|lia|].
      intros a b Ha Hab Hb. destruct (Nat.eq_dec a b) as [->|]; auto. apply Nat.lt_le_incl. apply (Hs qi a b); lia. }
    intros [found pos] (B1 & B2 & B3 & B4). cbn [fst snd] in *.
    assert (ST : forall x, (RingLaws O -> x = tmul O (tmul O (nth pi s (t0 O)) (ent A qi pi)) (nth qi t (t0 O))) ->
      wp (set d k x) (fun d => length d = m /\ (RingLaws O -> forall i, i < S k -> nth i d (t0 O) =
         tmul O (tmul O (nth (nth i p 0) s (t0 O)) (ent A (nth i q 0) (nth i p 0))) (nth (nth i q 0) t (t0 O))))).
    { intros x Hx. apply wp_set; [lia|]. rewrite upd_length. split; auto. intros RL i Hi. rewrite nth_upd by lia.
      destruct (Nat.eqb_spec i k) as [->|]; [now apply Hx|]. apply Hd; auto. lia. }
    destruct found.
    - destruct (proj1 B4 eq_refl) as (k0 & K1 & K2).
      assert (Hpos : pos < st A (S qi)). { destruct (Nat.lt_ge_cases pos (st A (S qi))); auto. specialize (B2 k0 ltac:(lia)). lia. }
      assert (Epos : ix A pos = pi).
      { pose proof (B3 pos ltac:(lia)). unfold ix in *.
        destruct (Nat.lt_trichotomy k0 pos) as [L|[->|L]]; [specialize (B2 k0 ltac:(lia)); lia|auto|].
        pose proof (Hs qi pos k0 ltac:(lia) ltac:(lia) L ltac:(lia)). unfold ix in *. lia. }
      wpb. apply wp_get with (d := t0 O); [lia|]. wpb. apply wp_get with (d := t0 O); [lia|].
      wpb. apply wp_get with (d := t0 O); [lia|]. apply ST. intros RL. f_equal. f_equal.
      rewrite <- Epos. rewrite (ent_stored O RL A qi pos Hs); auto; lia.
    - apply ST. intros RL. rewrite (ent_zero O RL); [symmetry; now apply ru_m0m|lia|].
      intros k0 Hk0 E. assert (false = true); [|discriminate]. apply B4. exists k0. auto.
  Qed.

  (** ** Matrices given by rows *)
  Lemma st_ofrows : forall ps ss (rows : list row) i, i <= length rows -> st (ofrows ps ss rows) i = offs rows i.
  Proof.
    intros. pose proof (get_start rows i H) as E. destruct (get_ok _ _ _ _ E) as (_ & E2). unfold st, ofrows. cbn [ind_start]. apply E2.
  Qed.
  Lemma rowl_ofrows : forall ps ss (rows : list row) c, c < length rows -> rowl (ofrows ps ss rows) c = nth c rows [].
  Proof.
    intros ps ss rows c Hc. apply nth_ext with (d := (0, t0 O)) (d' := (0, t0 O)).
    - rewrite rowl_length, !st_ofrows, offs_S by lia. lia.
    - intros j Hj. rewrite rowl_length, !st_ofrows, offs_S in Hj by lia. rewrite rowl_nth by (rewrite !st_ofrows, offs_S by lia; lia).
      rewrite st_ofrows by lia. unfold ix, vl, ofrows. cbn [indices vals].
      assert (Hj' : j < length (nth c rows [])) by lia.
      pose proof (get_row _ fst rows c j Hc Hj') as E1. pose proof (get_row _ snd rows c j Hc Hj') as E2.
      destruct (get_ok _ _ _ _ E1) as (_ & F1). destruct (get_ok _ _ _ _ E2) as (_ & F2). rewrite F1, F2. now destruct (nth j _ _).
  Qed.
  Lemma wf_ofrows : forall ps ss (rows : list row), length rows = ps ->
    (forall c e, c < ps -> In e (nth c rows []) -> fst e < ss) -> wf (ofrows ps ss rows).
  Proof.
    intros ps ss rows L H. constructor; unfold ofrows; cbn [psize ssize ind_start indices vals].
    - rewrite starts_length. lia.
    - fold (ofrows ps ss rows). change (st (ofrows ps ss rows) 0 = 0). rewrite st_ofrows by lia. reflexivity.
    - intros i Hi. change (st (ofrows ps ss rows) i <= st (ofrows ps ss rows) (S i)). rewrite !st_ofrows by lia. rewrite offs_S by lia. lia.
    - change (st (ofrows ps ss rows) ps <= length (map fst (concat rows))). rewrite st_ofrows by lia.
      rewrite <- L, offs_all, map_length. lia.
    - change (st (ofrows ps ss rows) ps <= length (map snd (concat rows))). rewrite st_ofrows by lia.
      rewrite <- L, offs_all, map_length. lia.
    - change (forall k, k < st (ofrows ps ss rows) ps -> ix (ofrows ps ss rows) k < ss).
      rewrite st_ofrows by lia. rewrite <- L, offs_all. intros k Hk. unfold ix, ofrows. cbn [indices].
      rewrite (nth_indep _ 0 (fst (0, t0 O))) by (rewrite map_length; auto). rewrite map_nth.
      assert (In (nth k (concat rows) (0, t0 O)) (concat rows)) by now apply nth_In.
      apply in_concat in H0. destruct H0 as (r & Hr & Hin). destruct (In_nth _ _ [] Hr) as (c & Hc & <-). apply (H c); [lia|auto].
  Qed.
  Lemma sorted_ofrows : forall ps ss (rows : list row), length rows = ps ->
    (forall c, c < ps -> asc (map fst (nth c rows []))) -> sorted (ofrows ps ss rows).
  Proof.
    intros ps ss rows L H. apply sorted_asc. cbn [psize ofrows]. intros i Hi. rewrite rowl_ofrows by lia. apply H. auto.
  Qed.
  Lemma ent_ofrows : RingLaws O -> forall ps ss (rows : list row) c i, length rows = ps -> c < ps ->
    asc (map fst (nth c rows [])) -> ent (ofrows ps ss rows) c i = ov (lko (nth c rows []) i).
  Proof.
    intros RL ps ss rows c i L Hc Ha. destruct (lko (nth c rows []) i) as [v|] eqn:E; cbn [ov].
    - apply (ent_stored_eq O RL); unfold stored; rewrite rowl_ofrows by lia.
      + now apply asc_NoDup.
      + now apply lko_in.
    - apply (ent_not_stored O RL). intros v Hv. unfold stored in Hv. rewrite rowl_ofrows in Hv by lia.
      rewrite (in_lko _ _ i v) in E; [discriminate|now apply asc_NoDup|auto].
  Qed.

  (** ** Final assembly *)
  Definition fin (def : nat) (x : col) : row := fst x ++ map (fun e => (fst e - def, snd e)) (snd x).

  Lemma end_assemble_ofrows : forall ps ss (rows : list row), end_assemble O (ofrows ps ss rows) = ofrows (length rows) ss rows.
  Proof.
    intros. unfold end_assemble. cbn [psize ssize ind_start indices vals ofrows]. rewrite starts_length.
    destruct (Nat.eqb_spec (ps + 1) (S (length rows))).
    - unfold ofrows. f_equal. lia.
    - unfold ofrows. f_equal. lia.
  Qed.

  Lemma globalise_l : forall ps ss k (cols : list col) start, length cols = k -> k <= length start ->
    (forall c, c < k -> nth c start 0 = length (fst (nth c cols dcol))) ->
    wp (globalise k (ofrows ps ss (map whole cols)) start) (fun st' => length st' = length start /\
      forall c, c < k -> nth c st' 0 = offs (map whole cols) c + length (fst (nth c cols dcol))).
  Proof.
    intros ps ss k cols start Lc Ls H. unfold globalise. eapply wp_conseq.
    { apply (for_range_inv _ (fun i st' => length st' = length start /\
       (forall c, c < i -> nth c st' 0 = offs (map whole cols) c + length (fst (nth c cols dcol))) /\
       (forall c, i <= c < k -> nth c st' 0 = nth c start 0))); [lia| |].
      - split; auto. split; auto. intros; lia.
      - intros i st' Hi (L1 & H1 & H2). wpb. apply wp_get with (d := 0); [lia|].
        wpb. cbn [ofrows ind_start]. rewrite get_start by (rewrite map_length; lia). apply wp_ok. apply wp_set; [lia|].
        rewrite upd_length. split; auto. split.
        + intros c Hc. rewrite nth_upd by lia. destruct (Nat.eqb_spec c i) as [->|]; [|apply H1; lia]. rewrite H2, H by lia. lia.
        + intros c Hc. rewrite nth_upd by lia. destruct (Nat.eqb_spec c i); [lia|]. apply H2. lia. }
    intros st' (L1 & H1 & _). auto.
  Qed.

  Lemma set_row' : forall (rows : list row) c (X0 : row) e (t : row) x, c < length rows -> nth c rows [] = X0 ++ e :: t ->
    set (map fst (concat rows)) (offs rows c + length X0) x = Ok (map fst (concat (upd rows c (X0 ++ (x, snd e) :: t)))).
  Proof. intros rows c X0 [i v] t x Hc E. now apply set_row with (i := i). Qed.

  Lemma snd_upd : forall (rows : list row) c r, c < length rows -> map snd r = map snd (nth c rows []) ->
    map snd (concat (upd rows c r)) = map snd (concat rows).
  Proof.
    intros rows c r Hc E. rewrite concat_upd by auto. rewrite (concat_split rows c Hc). rewrite !map_app. now rewrite E.
  Qed.

  Lemma nth_skipn_cons : forall X (d : X) l j, j < length l -> skipn j l = nth j l d :: skipn (S j) l.
  Proof. induction l; intros j H; simpl in *; [lia|]. destruct j; auto. apply IHl. lia. Qed.
  Lemma firstn_snoc' : forall X (d : X) l j, j < length l -> firstn (S j) l = firstn j l ++ [nth j l d].
  Proof. induction l; intros j H; simpl in *; [lia|]. destruct j; simpl; auto. f_equal. apply IHl. lia. Qed.

  (** what the rows are after the tails of the first [i] have been shifted *)
  Definition frows (def i : nat) (cols : list col) : list row := map (fin def) (firstn i cols) ++ map whole (skipn i cols).

  Lemma frows_length : forall def i (cols : list col), length (frows def i cols) = length cols.
  Proof. intros. unfold frows. rewrite app_length, !map_length. rewrite <- app_length. now rewrite firstn_skipn. Qed.
  Lemma frows_S : forall def i (cols : list col), i < length cols ->
    frows def (S i) cols = upd (frows def i cols) i (fin def (nth i cols dcol)) /\ nth i (frows def i cols) [] = whole (nth i cols dcol).
  Proof.
    intros def i cols Hi. unfold frows. rewrite (nth_skipn_cons _ dcol cols i Hi). rewrite (firstn_snoc' _ dcol cols i Hi).
    rewrite map_app. cbn [map]. rewrite <- app_assoc. cbn [app].
    assert (L : length (map (fin def) (firstn i cols)) = i) by (rewrite map_length, firstn_length; lia).
    split.
    - revert L. generalize (map (fin def) (firstn i cols)). intros l. revert i Hi. clear. intros i _ L.
      generalize (skipn (S i) cols). intros l'. revert L. generalize (fin def (nth i cols dcol)) (whole (nth i cols dcol)). clear cols.
      revert i. induction l; intros i r r' L; simpl in *; subst i; auto. f_equal. now apply IHl.
    - rewrite app_nth2 by lia. rewrite L, Nat.sub_diag. reflexivity.
  Qed.
  Lemma fin_length : forall def (x : col), length (fin def x) = length (whole x).
  Proof. intros. unfold fin, whole. now rewrite !app_length, map_length. Qed.
  Lemma fin_snd : forall def (x : col), map snd (fin def x) = map snd (whole x).
  Proof. intros. unfold fin, whole. rewrite !map_app. f_equal. rewrite map_map. apply map_ext. auto. Qed.
  Lemma fin_0 : forall (x : col), fin 0 x = whole x.
  Proof. intros. unfold fin, whole. f_equal. rewrite <- map_id. apply map_ext. intros []. simpl. f_equal. lia. Qed.
  Lemma starts_len : forall (r r' : list row), map (@length _) r = map (@length _) r' -> starts r = starts r'.
  Proof.
    intros r r' E. assert (L : length r = length r') by (rewrite <- (map_length (@length _) r), E; apply map_length).
    unfold starts. rewrite L. apply map_ext. intros i. unfold offs. clear L. revert r' E i.
    induction r; destruct r'; intros E i; simpl in E; try discriminate; destruct i; simpl; auto.
    rewrite !app_length. inversion E. rewrite H0. f_equal. auto.
  Qed.
  Lemma offs_len : forall (r r' : list row) i, map (@length _) r = map (@length _) r' -> offs r i = offs r' i.
  Proof.
    intros r r' i E. unfold offs. revert r' E i.
    induction r; destruct r'; intros E i; simpl in E; try discriminate; destruct i; simpl; auto.
    rewrite !app_length. inversion E. rewrite H0. f_equal. auto.
  Qed.
  Lemma frows_len : forall def i (cols : list col), map (@length _) (frows def i cols) = map (@length _) (map whole cols).
  Proof.
    intros. unfold frows. rewrite map_app, !map_map. rewrite <- (firstn_skipn i cols) at 3. rewrite map_app. f_equal.
    apply map_ext. intros. apply fin_length.
  Qed.

  Lemma compress_tail_l : forall ps ss k def (cols : list col) start, length cols = k ->
    (forall c, c < k -> forall e, In e (snd (nth c cols dcol)) -> def <= fst e) ->
    (forall c, c < k -> nth c start 0 = offs (map whole cols) c + length (fst (nth c cols dcol))) -> k <= length start ->
    compress_tail (ofrows ps ss (map whole cols)) start k def = Ok (ofrows ps (Nat.div ss 2) (map (fin def) cols)).
  Proof.
    intros ps ss k def cols start Lc Hr Hst Ls. unfold compress_tail. cbn [psize ssize ind_start indices vals ofrows].
    assert (EV : map snd (concat (map (fin def) cols)) = map snd (concat (map whole cols))).
    { rewrite !concat_map, !map_map. f_equal. apply map_ext. intros. apply fin_snd. }
    assert (ES : starts (map (fin def) cols) = starts (map whole cols)).
    { apply starts_len. rewrite !map_map. apply map_ext. intros. apply fin_length. }
    destruct (Nat.eqb_spec def 0) as [->|Hd].
    { cbn [bind]. unfold ofrows. rewrite ES, EV. replace (map (fin 0) cols) with (map whole cols); auto. apply map_ext. intros. symmetry. apply fin_0. }
    assert (W : wp (for_range 0 k (fun i inds =>
        b <- get start i ;; e <- get (starts (map whole cols)) (S i) ;;
        if e <? b then UB
        else for_range b e (fun k inds => j <- get inds k ;; if j <? def then UB else set inds k (j - def)%nat) inds) (map fst (concat (map whole cols))))
      (fun inds => inds = map fst (concat (frows def k cols)))).
    { apply (for_range_inv _ (fun i inds => inds = map fst (concat (frows def i cols)))); [lia|reflexivity|].
      intros i inds Hi ->. wpb. apply wp_get with (d := 0); [lia|]. rewrite Hst by lia. wpb.
      rewrite get_start by (rewrite map_length; lia). apply wp_ok.
      rewrite offs_S by (rewrite map_length; lia).
      assert (EN : nth i (map whole cols) [] = whole (nth i cols dcol)).
      { change (@nil (nat * T)) with (whole (@dcol O)). apply map_nth. }
      rewrite EN. destruct (frows_S def i cols ltac:(lia)) as (F1 & F2).
      assert (OE : offs (map whole cols) i = offs (frows def i cols) i) by (apply offs_len; symmetry; apply frows_len).
      rewrite OE. set (R := frows def i cols) in *. assert (LR : length R = k) by (unfold R; now rewrite frows_length).
      set (x := nth i cols dcol) in *. specialize (Hr i ltac:(lia)). fold x in Hr.
      unfold whole at 1 2. rewrite app_length.
      destruct (Nat.ltb_spec (offs R i + (length (fst x) + length (snd x))) (offs R i + length (fst x))); [lia|].
      eapply wp_conseq.
      { apply (for_range_inv _ (fun pos inds => exists j, pos = offs R i + length (fst x) + j /\ j <= length (snd x) /\
          inds = map fst (concat (upd R i (fst x ++ map (fun e => (fst e - def, snd e)) (firstn j (snd x)) ++ skipn j (snd x)))))); [lia| |].
        - exists 0. split; [lia|]. split; [lia|]. cbn [firstn map skipn app]. change (fst x ++ snd x) with (whole x). rewrite <- F2.
          assert (E : upd R i (nth i R []) = R).
          { apply nth_ext with (d := []) (d' := []); [apply upd_length|]. intros q Hq. rewrite upd_length in Hq. rewrite nth_upd by lia.
            now destruct (Nat.eqb_spec q i) as [->|]. }
          now rewrite E.
        - intros pos inds Hp (j & E & Hj & ->).
          set (X0 := fst x ++ map (fun e => (fst e - def, snd e)) (firstn j (snd x))).
          assert (Hjl : j < length (snd x)) by lia.
          rewrite (nth_skipn_cons _ (0, t0 O) (snd x) j Hjl).
          set (R' := upd R i (fst x ++ map (fun e => (fst e - def, snd e)) (firstn j (snd x)) ++ nth j (snd x) (0, t0 O) :: skipn (S j) (snd x))).
          assert (NR : nth i R' [] = X0 ++ nth j (snd x) (0, t0 O) :: skipn (S j) (snd x)).
          { unfold R', X0. rewrite nth_upd_eq by lia. now rewrite app_assoc. }
          assert (LX : length X0 = length (fst x) + j).
          { unfold X0. rewrite app_length, map_length, firstn_length. lia. }
          assert (OR : offs R' i = offs R i).
          { unfold R'. apply offs_upd; [lia|]. rewrite F2. unfold whole. rewrite !app_length, map_length, firstn_length. cbn [length].
            rewrite skipn_length. lia. }
          assert (Ep : pos = offs R' i + length X0) by (rewrite OR; lia).
          assert (LR' : length R' = k) by (unfold R'; now rewrite upd_length).
          wpb. rewrite Ep. rewrite get_row by (try lia; rewrite NR, app_length; cbn [length]; lia). apply wp_ok.
          rewrite NR, app_nth2, Nat.sub_diag by lia. cbn [nth].
          assert (Hin : In (nth j (snd x) (0, t0 O)) (snd x)) by now apply nth_In.
          destruct (Nat.ltb_spec (fst (nth j (snd x) (0, t0 O))) def) as [C|C]; [specialize (Hr _ Hin); lia|].
          rewrite (set_row' R' i X0 _ _ _ ltac:(lia) NR). apply wp_ok. exists (S j). split; [lia|]. split; [lia|].
          f_equal. f_equal. unfold R', X0. rewrite upd_upd. f_equal.
          rewrite (firstn_snoc' _ (0, t0 O)) by auto. rewrite map_app. cbn [map]. rewrite <- !app_assoc. reflexivity. }
      intros inds (j & E & Hj & ->). assert (j = length (snd x)) by lia. subst j.
      rewrite firstn_all, skipn_all, app_nil_r. rewrite F1. reflexivity. }
    apply wp_inv in W. destruct W as (inds & E & ->). rewrite E. cbn [bind]. unfold frows.
    rewrite firstn_all2, skipn_all2 by lia. cbn [map]. rewrite app_nil_r. unfold ofrows. now rewrite ES, EV.
  Qed.
End A.
