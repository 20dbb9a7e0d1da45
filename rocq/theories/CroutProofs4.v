(** * CroutProofs4: compute_ut, compute_l, kappas, scaling, diagonal update, sorting and storing. *)
From Coq Require Import List Arith Lia Bool Permutation Ring.
From Verif Require Import Base Scalar Spec CSModel CSSpec ConvModel ConvSpec BucketProofs ConvProofs ConvProofs2
  ConvProofs3 ConvProofs4 Mag VecModel VecSpec VecProofs PruneModel PruneProofs CroutModel CroutProofs1 CroutProofs2 CroutProofs3.
Import ListNotations.

Section RingU.
  Variable O : Ops.
  Hypothesis RL : RingLaws O.
  Add Ring TRU2 : (rl_ring O RL).
  Definition lsum (l : list nat) (h : nat -> T O) : T O := fold_right (fun c a => tadd O (h c) a) (t0 O) l.
  Lemma lsum_sum : forall l k h, NoDup l -> (forall c, In c l -> c < k) -> (forall c, c < k -> ~ In c l -> h c = t0 O) ->
    lsum l h = sum k h.
  Proof.
    assert (G : forall l k h, NoDup l -> (forall c, In c l -> c < k) ->
      lsum l h = sum k (fun c => if in_dec Nat.eq_dec c l then h c else t0 O)).
    { induction l; intros k h N H; simpl.
      - rewrite (sum_zero O RL); auto.
      - inversion N; subst. rewrite (IHl k) by (auto; intros; apply H; right; auto).
        rewrite <- (sum_delta' O RL k a h) by (apply H; left; auto). rewrite <- (sum_add O RL).
        apply sum_ext. intros i Hi. destruct (Nat.eqb_spec i a) as [->|Hn].
        + destruct (in_dec _ _ _); [contradiction|]. destruct (Nat.eq_dec a a); [|congruence]. ring.
        + destruct (in_dec Nat.eq_dec i l), (Nat.eq_dec a i); try congruence; try ring. }
    intros l k h N H Hz. rewrite (G l k h N H). apply sum_ext. intros i Hi. destruct (in_dec _ _ _); auto. symmetry. auto.
  Qed.
  Lemma lsum_ext : forall l (h h' : nat -> T O), (forall c, In c l -> h c = h' c) -> lsum l h = lsum l h'.
  Proof. induction l; simpl; intros; auto. rewrite H by auto. rewrite (IHl h h'); auto. Qed.
  Lemma ru_sub_add : forall a b c, tsub O (tsub O a b) c = tsub O a (tadd O b c). Proof. intros. ring. Qed.
  Lemma ru_sub0 : forall a, tsub O a (t0 O) = a. Proof. intros. ring. Qed.
  Lemma ru_mul_opp : forall a b, tmul O (topp O a) b = topp O (tmul O a b). Proof. intros. ring. Qed.
  Lemma ru_comm_opp : forall a b, tmul O (topp O a) b = topp O (tmul O b a). Proof. intros. ring. Qed.
  Lemma ru_comm : forall a b, tmul O a b = tmul O b a. Proof. intros. ring. Qed.
  Lemma ru_mul0_l : forall a, tmul O (t0 O) a = t0 O. Proof. intros. ring. Qed.
  Lemma ru_mul0_r : forall a, tmul O a (t0 O) = t0 O. Proof. intros. ring. Qed.
  Lemma ru_00 : tsub O (t0 O) (t0 O) = t0 O. Proof. ring. Qed.
End RingU.

Section A.
  Context {O : Ops}.
  Notation T := (T O).
  Notation row := (list (nat * T)).
  Notation col := (row * row)%type.
  Notation tl' c cols := (snd (nth c cols (dcol (O:=O)))).

  Lemma untilg_facts : forall g lim (l : row), asc (map fst l) -> (forall e, In e l -> g <= fst e < lim) ->
    asc (map fst (untilg g l)) /\ (forall e, In e (untilg g l) -> S g <= fst e < lim) /\
    (forall r, r <> g -> lkv (untilg g l) r = lkv l r) /\ lkv (untilg g l) g = t0 O.
  Proof.
    intros g lim [|[i v] t] Ha Hr; simpl in *.
    - split; auto. split; [intros e []|]. split; auto.
    - destruct Ha as (H1 & H2). destruct (Nat.eqb_spec i g) as [->|Hn].
      + split; auto. split; [|split].
        * intros e H. specialize (H1 (fst e) (in_map fst _ _ H)). specialize (Hr e (or_intror H)). lia.
        * intros r Hr'. unfold lkv. simpl. destruct (Nat.eqb_spec g r); [congruence|auto].
        * unfold lkv. rewrite lko_none; auto. intros Hin. specialize (H1 g Hin). lia.
      + pose proof (Hr (i, v) (or_introl eq_refl)) as Hi. simpl in Hi. split; [simpl; auto|]. split; [|split; auto].
        * intros e H. specialize (Hr e H). destruct H as [<-|H]; simpl in *; [lia|]. specialize (H1 (fst e) (in_map fst _ _ H)). lia.
        * unfold lkv. rewrite lko_none; auto. simpl. intros [->|Hin]; [congruence|]. specialize (H1 g Hin). lia.
  Qed.

  Lemma tail_g : forall g lim (l : row), asc (map fst l) -> (forall e, In e l -> g <= fst e < lim) ->
    lko l g = match l with (i, v) :: _ => if i =? g then Some v else None | [] => None end.
  Proof.
    intros g lim [|[i v] t] Ha Hr; simpl in *; auto. destruct (Nat.eqb_spec i g); auto.
    destruct Ha as (H1 & H2). pose proof (Hr (i, v) (or_introl eq_refl)) as Hi. simpl in Hi.
    apply lko_none. intros Hin. specialize (H1 g Hin). lia.
  Qed.

  Lemma walk_sum : forall N step g lim (cols : list col) (a b : nat -> T -> T) (co : nat -> T) l v f,
    lim <= N ->
    (forall c, In c l -> asc (map fst (tl' c cols)) /\ forall e, In e (tl' c cols) -> g <= fst e < lim) ->
    (RingLaws O -> forall c w, a c w = topp O (b c w)) -> (RingLaws O -> forall c w, b c w = tmul O (co c) w) ->
    acc N step (S g) lim v f ->
    wp (for_list l (fun c v => for_list (untilg g (tl' c cols)) (fun e v => accum step v (fst e) (a c (snd e)) (b c (snd e))) v) v)
       (fun v' => acc N step (S g) lim v' (fun r => tsub O (f r) (lsum O l (fun c => tmul O (co c) (lkv (untilg g (tl' c cols)) r))))).
  Proof.
    intros N step g lim cols a b co l v f HN. revert v f. induction l as [|c l IH]; intros v f Hc Ha Hb HA; cbn [for_list].
    - apply wp_ok. eapply acc_ext; [|exact HA]. intros RL r. simpl. symmetry. now apply ru_sub0.
    - destruct (Hc c (or_introl eq_refl)) as (A1 & A2). destruct (untilg_facts g lim _ A1 A2) as (U1 & U2 & _).
      wpb. eapply wp_conseq.
      { apply (upd_walk N step (S g) lim (untilg g (tl' c cols)) (co c) (a c) (b c) v f); auto. }
      intros v' HA'. eapply wp_conseq. { eapply (IH v' _ (fun c' H' => Hc c' (or_intror H')) Ha Hb HA'). }
      intros v'' HA''. eapply acc_ext; [|exact HA'']. intros RL r. cbv beta. simpl. now apply ru_sub_add.
  Qed.

  (** the current position of column [c] of a factor, and what is read there *)
  Lemma rep_pos : forall ps ss k lo lim extra (F : Fac O) (cols : list col) c, Rep ps ss k lo lim extra F cols -> c < k ->
    cur_pos F c = Ok (offs (map whole cols ++ extra) c + length (fst (nth c cols dcol)),
                      offs (map whole cols ++ extra) c + length (whole (nth c cols dcol))).
  Proof. intros ps ss k lo lim extra F cols c [] Hc. eapply cur_pos_l; eauto; try lia. Qed.

  Lemma rep_chain : forall ps ss k g lim extra (F : Fac O) (cols : list col), Rep ps ss k g lim extra F cols -> g < ss -> k <= ss ->
    exists l, get (flist F) g = Ok (nth g (flist F) None) /\ chain (flist F) (nth g (flist F) None) l /\ NoDup l /\
      length l < fuel_of F /\ forall c, In c l <-> c < k /\ hds cols c = Some g.
  Proof.
    intros ps ss k g lim extra F cols [] Hg Hk. pose proof r_chain as (L & C). destruct (C g ltac:(lia)) as (l & C1 & C2 & C3).
    exists l. split. { apply get_nth. lia. } split; auto. split; auto. split; auto.
    apply (CH_fuel k g ss (flist F) (hds cols)); auto. intros c Hc. apply C3 in Hc. tauto.
  Qed.

  Lemma rep_head : forall ps ss k g lim extra (F : Fac O) (cols : list col) c, Rep ps ss k g lim extra F cols -> c < k -> hds cols c = Some g ->
    get (vals (fm F)) (offs (map whole cols ++ extra) c + length (fst (nth c cols dcol))) = Ok (lkv (tl' c cols) g).
  Proof.
    intros ps ss k g lim extra F cols c R Hc Hh. pose proof R as []. rewrite r_fm. cbn [ofrows vals].
    unfold hds in Hh. apply hdi_some in Hh. destruct Hh as (v & t & E).
    rewrite get_row.
    - rewrite nth_rows by lia. unfold whole. rewrite app_nth2, Nat.sub_diag by lia. rewrite E. cbn [nth snd]. f_equal.
      unfold lkv. simpl. now rewrite Nat.eqb_refl.
    - rewrite app_length, map_length. lia.
    - rewrite nth_rows by lia. unfold whole. rewrite app_length, E. simpl. lia.
  Qed.

  (** reading the tail of column [c] of a factor, skipping an entry at [g] *)
  Lemma rep_tail_loop : forall S ps ss k g lim extra (F : Fac O) (cols : list col) c (h : nat -> T -> S -> res S) (s : S),
    Rep ps ss k g lim extra F cols -> c < k ->
    ('(upos, ue) <- cur_pos F c ;;
     upos <- (if negb (upos =? ue) then (i <- get (indices (fm F)) upos ;; Ok (if i =? g then Datatypes.S upos else upos)) else Ok upos) ;;
     if ue <? upos then UB
     else for_range upos ue (fun k s => i <- get (indices (fm F)) k ;; v <- get (vals (fm F)) k ;; h i v s) s)
    = for_list (untilg g (tl' c cols)) (fun e => h (fst e) (snd e)) s.
  Proof.
    intros S ps ss k g lim extra F cols c h s R Hc. rewrite (rep_pos _ _ _ _ _ _ _ _ _ R Hc). cbn [bind].
    pose proof R as []. rewrite r_fm. cbn [ofrows indices vals].
    set (rows := map whole cols ++ extra).
    assert (Hl : c < length rows) by (unfold rows; rewrite app_length, map_length; lia).
    assert (Er : nth c rows [] = whole (nth c cols dcol)) by (unfold rows; apply nth_rows; lia).
    rewrite <- Er. set (dn := fst (nth c cols dcol)) in *.
    assert (Ew : nth c rows [] = dn ++ tl' c cols) by (rewrite Er; reflexivity).
    assert (Lw : length (nth c rows []) = length dn + length (tl' c cols)) by (rewrite Ew; apply app_length).
    assert (SK : forall a, skipn (length dn + a) (nth c rows []) = skipn a (tl' c cols)).
    { intros a. rewrite Ew. rewrite skipn_app. rewrite skipn_all2 by lia. simpl. f_equal. lia. }
    destruct (tl' c cols) as [|[i v] t] eqn:Et.
    - replace (offs rows c + length dn =? offs rows c + length (nth c rows [])) with true by (symmetry; apply Nat.eqb_eq; simpl in Lw; lia).
      cbn [negb bind]. destruct (Nat.ltb_spec (offs rows c + length (nth c rows [])) (offs rows c + length dn)); [simpl in Lw; lia|].
      rewrite range_row by (auto; lia). rewrite <- (Nat.add_0_r (length dn)), SK. auto.
    - simpl in Lw. replace (offs rows c + length dn =? offs rows c + length (nth c rows [])) with false by (symmetry; apply Nat.eqb_neq; lia).
      cbn [negb]. rewrite get_row by (auto; lia). cbn [bind]. 
      assert (E1 : fst (nth (length dn) (nth c rows []) (0, t0 O)) = i) by (rewrite Ew, app_nth2, Nat.sub_diag by lia; reflexivity).
      rewrite E1. cbn [untilg]. destruct (Nat.eqb_spec i g) as [->|Hn].
      + destruct (Nat.ltb_spec (offs rows c + length (nth c rows [])) (Datatypes.S (offs rows c + length dn))); [lia|].
        replace (Datatypes.S (offs rows c + length dn)) with (offs rows c + (length dn + 1)) by lia.
        rewrite range_row by (auto; lia). rewrite SK. auto.
      + destruct (Nat.ltb_spec (offs rows c + length (nth c rows [])) (offs rows c + length dn)); [lia|].
        rewrite range_row by (auto; lia). rewrite <- (Nat.add_0_r (length dn)), SK. auto.
  Qed.

  (** the sum subtracted by the chain walk *)
  Lemma chain_total : forall ps ss k g lim ps2 ss2 lim2 (F1 : Fac O) (cols1 : list col) (F2 : Fac O) (cols2 : list col) l (co : nat -> T), RingLaws O ->
    Rep ps ss k g lim [] F1 cols1 -> Rep ps2 ss2 k g lim2 [] F2 cols2 ->
    NoDup l -> (forall c, In c l <-> c < k /\ hds cols1 c = Some g) ->
    (forall c, lkv (tl' c cols1) g = t0 O -> co c = t0 O) ->
    forall r, r <> g -> lsum O l (fun c => tmul O (co c) (lkv (untilg g (tl' c cols2)) r)) = sum k (fun c => tmul O (co c) (lkv (tl' c cols2) r)).
  Proof.
    intros ps ss k g lim ps2 ss2 lim2 F1 cols1 F2 cols2 l co RL R1 R2 ND Hl Hco r Hr.
    rewrite (lsum_ext O l _ (fun c => tmul O (co c) (lkv (tl' c cols2) r))).
    - apply lsum_sum; auto.
      + intros c Hc. apply Hl in Hc. tauto.
      + intros c Hc Hn. rewrite Hco; [now apply ru_mul0_l|]. pose proof R1 as []. destruct (r_tail c Hc) as (T1 & T2).
        unfold lkv. rewrite (tail_g g lim) by auto. destruct (tl' c cols1) as [|[i v] t] eqn:E; auto.
        destruct (Nat.eqb_spec i g) as [->|]; auto. exfalso. apply Hn. apply Hl. split; auto. unfold hds, hdi. now rewrite E.
    - intros c Hc. apply Hl in Hc. pose proof R2 as []. destruct (r_tail c ltac:(tauto)) as (T1 & T2).
      destruct (untilg_facts g lim2 _ T1 T2) as (_ & _ & U3 & _). now rewrite U3.
  Qed.

  Lemma load_ent : RingLaws O -> forall (A : CS O) pk j (x : nat -> T -> T) (f : nat -> T) (qinv : list nat) g,
    valid A -> pk < psize A -> j < ssize A ->
    (forall j', j' < ssize A -> g < nth j qinv 0 -> nth j' qinv 0 = nth j qinv 0 -> j' = j) ->
    (forall j, x j (t0 O) = t0 O) ->
    (forall j w, In (j, w) (rowl A pk) -> g < nth j qinv 0 -> f (nth j qinv 0) = x j w) ->
    (forall r, (forall j w, In (j, w) (rowl A pk) -> nth j qinv 0 = r -> r <= g) -> f r = t0 O) ->
    g < nth j qinv 0 -> f (nth j qinv 0) = x j (ent A pk j).
  Proof.
    intros RL A pk j x f qinv g [W SO] Hpk Hj Hinj Hx H1 H2 Hg.
    pose proof (valid_nodup O A pk SO Hpk) as ND.
    destruct (in_dec Nat.eq_dec j (map fst (rowl A pk))) as [I|I].
    - apply in_map_iff in I. destruct I as ([j' w] & E & I). simpl in E. subst j'.
      rewrite (ent_stored_eq O RL A pk j w) by auto. auto.
    - rewrite (ent_not_stored O RL A pk j).
      + rewrite Hx. apply H2. intros j' w Hin E. exfalso. apply I.
        assert (j' = j). { apply Hinj; auto. apply (wf_rowl_range O A W pk (j', w)); auto. }
        subst j'. apply (in_map fst) in Hin. auto.
      + intros v Hv. apply I. apply (in_map fst) in Hv. auto.
  Qed.

  Lemma compute_ut_l : forall N psL psU ssL ssU k g limL limU (L U : Fac O) (lc uc : list col) s t d (A : CS O) pk qinv ut,
    Rep psL ssL k g limL [] L lc -> Rep psU ssU k g limU [] U uc -> g < ssL -> k <= ssL -> k <= length d ->
    valid A -> pk < psize A -> ssize A <= length qinv -> ssize A <= length t -> pk < length s -> limU <= N ->
    (forall j, j < ssize A -> g < nth j qinv 0 -> nth j qinv 0 < limU) ->
    (forall j j', j < ssize A -> j' < ssize A -> g < nth j qinv 0 -> nth j qinv 0 = nth j' qinv 0 -> j = j') ->
    idle N k ut ->
    wp (compute_ut k g s A t pk qinv L d U ut) (fun ut' => exists f, acc N k (S g) limU ut' f /\
      (RingLaws O -> forall j, j < ssize A -> g < nth j qinv 0 ->
        f (nth j qinv 0) = tsub O (tmul O (tmul O (nth pk s (t0 O)) (ent A pk j)) (nth j t (t0 O)))
          (sum k (fun c => tmul O (tmul O (lkv (tl' c lc) g) (nth c d (t0 O))) (lkv (tl' c uc) (nth j qinv 0)))))).
  Proof.
    intros N psL psU ssL ssU k g limL limU L U lc uc s t d A pk qinv ut RpL RpU HgL HkL Hd HV Hpk Hq Ht Hs HN Hlim Hinj Hid.
    unfold compute_ut. wpb. apply wp_get with (d := t0 O); [lia|]. wpb. eapply wp_conseq.
    { eapply (load_l N k g limU A pk qinv _ (fun j w => tmul O (tmul O (nth pk s (t0 O)) w) (nth j t (t0 O)))); eauto.
      - intros j w Hj. rewrite (get_nth _ _ _ (t0 O)) by lia. reflexivity.
      - now apply acc_reset. }
    intros v1 (f0 & A0 & F1 & F2).
    assert (FE : RingLaws O -> forall j, j < ssize A -> g < nth j qinv 0 ->
      f0 (nth j qinv 0) = tmul O (tmul O (nth pk s (t0 O)) (ent A pk j)) (nth j t (t0 O))).
    { intros RL j Hj Hg. apply (load_ent RL A pk j (fun j w => tmul O (tmul O (nth pk s (t0 O)) w) (nth j t (t0 O))) f0 qinv g); auto.
      - intros j' H1 H2 H3. symmetry. apply Hinj; auto.
      - intros j'. rewrite (ru_mul0_r O RL). now apply ru_mul0_l. }
    destruct (Nat.eqb_spec k 0) as [Ek|Ek].
    - apply wp_ok. exists f0. split; auto. intros RL j Hj Hg. rewrite FE by auto. subst k. simpl. symmetry. now apply ru_sub0.
    - destruct (rep_chain _ _ _ _ _ _ _ _ RpL HgL HkL) as (l & G1 & C1 & C2 & C3 & C4). rewrite G1. cbn [bind].
      rewrite (while_chain_read _ (flist L) l _ _ _ (fun c v => for_list (untilg g (tl' c uc)) (fun e v =>
          accum k v (fst e) (tmul O (topp O (tmul O (lkv (tl' c lc) g) (nth c d (t0 O)))) (snd e))
                           (tmul O (tmul O (lkv (tl' c lc) g) (nth c d (t0 O))) (snd e))) v)); auto.
      2:{ intros c v Hc. apply C4 in Hc. destruct Hc as (Hc & Hh).
          rewrite (rep_pos _ _ _ _ _ _ _ _ _ RpL Hc). cbn [bind].
          rewrite (rep_head _ _ _ _ _ _ _ _ _ RpL Hc Hh). cbn [bind]. rewrite (get_nth _ _ _ (t0 O)) by lia. cbn [bind]. cbv zeta.
          rewrite <- (rep_tail_loop _ _ _ _ _ _ _ _ _ c (fun i w v => accum k v i (tmul O (topp O (tmul O (lkv (tl' c lc) g) (nth c d (t0 O)))) w)
                           (tmul O (tmul O (lkv (tl' c lc) g) (nth c d (t0 O))) w)) v RpU Hc).
          rewrite (rep_pos _ _ _ _ _ _ _ _ _ RpU Hc). cbn [bind].
          match goal with |- context [if negb ?b then ?x else ?y] => destruct (if negb b then x else y) as [up| |]; cbn [bind]; auto end.
          destruct (_ <? up); cbn [bind]; auto. }
      eapply wp_conseq.
      { apply (walk_sum N k g limU uc (fun c w => tmul O (topp O (tmul O (lkv (tl' c lc) g) (nth c d (t0 O)))) w)
           (fun c w => tmul O (tmul O (lkv (tl' c lc) g) (nth c d (t0 O))) w)
           (fun c => tmul O (lkv (tl' c lc) g) (nth c d (t0 O))) l v1 f0); auto.
        - intros c Hc. apply C4 in Hc. pose proof RpU as []. apply r_tail. tauto.
        - intros RL c w. now apply ru_mul_opp. }
      intros v2 A2. eexists. split; [exact A2|]. intros RL j Hj Hg. cbv beta. rewrite FE by auto. f_equal.
      apply (chain_total _ _ _ _ _ _ _ _ _ _ _ _ l (fun c => tmul O (lkv (tl' c lc) g) (nth c d (t0 O))) RL RpL RpU); auto.
      + intros c E. rewrite E. now apply ru_mul0_l.
      + lia.
  Qed.

  Lemma compute_l_l : forall N psL psU ssL ssU k g limL limU (L U : Fac O) (lc uc : list col) s t d (A : CS O) qk pinv l0,
    Rep psL ssL k g limL [] L lc -> Rep psU ssU k g limU [] U uc -> g < ssU -> k <= ssU -> k <= length d ->
    valid A -> qk < psize A -> ssize A <= length pinv -> ssize A <= length s -> qk < length t -> limL <= N ->
    (forall j, j < ssize A -> g < nth j pinv 0 -> nth j pinv 0 < limL) ->
    (forall j j', j < ssize A -> j' < ssize A -> g < nth j pinv 0 -> nth j pinv 0 = nth j' pinv 0 -> j = j') ->
    idle N k l0 ->
    wp (compute_l k g s A t pinv qk L d U l0) (fun l' => exists f, acc N k (S g) limL l' f /\
      (RingLaws O -> forall j, j < ssize A -> g < nth j pinv 0 ->
        f (nth j pinv 0) = tsub O (tmul O (tmul O (nth j s (t0 O)) (ent A qk j)) (nth qk t (t0 O)))
          (sum k (fun c => tmul O (tmul O (nth c d (t0 O)) (lkv (tl' c uc) g)) (lkv (tl' c lc) (nth j pinv 0)))))).
  Proof.
    intros N psL psU ssL ssU k g limL limU L U lc uc s t d A qk pinv l0 RpL RpU HgL HkL Hd HV Hpk Hq Hs Ht HN Hlim Hinj Hid.
    unfold compute_l. wpb. apply wp_get with (d := t0 O); [lia|]. wpb. eapply wp_conseq.
    { eapply (load_l N k g limL A qk pinv _ (fun j w => tmul O (tmul O (nth j s (t0 O)) w) (nth qk t (t0 O)))); eauto.
      - intros j w Hj. rewrite (get_nth _ _ _ (t0 O)) by lia. reflexivity.
      - now apply acc_reset. }
    intros v1 (f0 & A0 & F1 & F2).
    assert (FE : RingLaws O -> forall j, j < ssize A -> g < nth j pinv 0 ->
      f0 (nth j pinv 0) = tmul O (tmul O (nth j s (t0 O)) (ent A qk j)) (nth qk t (t0 O))).
    { intros RL j Hj Hg. apply (load_ent RL A qk j (fun j w => tmul O (tmul O (nth j s (t0 O)) w) (nth qk t (t0 O))) f0 pinv g); auto.
      - intros j' H1 H2 H3. symmetry. apply Hinj; auto.
      - intros j'. rewrite (ru_mul0_r O RL). now apply ru_mul0_l. }
    destruct (Nat.eqb_spec k 0) as [Ek|Ek].
    - apply wp_ok. exists f0. split; auto. intros RL j Hj Hg. rewrite FE by auto. subst k. simpl. symmetry. now apply ru_sub0.
    - destruct (rep_chain _ _ _ _ _ _ _ _ RpU HgL HkL) as (l & G1 & C1 & C2 & C3 & C4). rewrite G1. cbn [bind].
      rewrite (while_chain_read _ (flist U) l _ _ _ (fun c v => for_list (untilg g (tl' c lc)) (fun e v =>
          accum k v (fst e) (tmul O (topp O (tmul O (nth c d (t0 O)) (lkv (tl' c uc) g))) (snd e))
                           (tmul O (snd e) (tmul O (nth c d (t0 O)) (lkv (tl' c uc) g)))) v)); auto.
      2:{ intros c v Hc. apply C4 in Hc. destruct Hc as (Hc & Hh). rewrite (get_nth _ _ _ (t0 O)) by lia. cbn [bind].
          rewrite (rep_pos _ _ _ _ _ _ _ _ _ RpU Hc). cbn [bind].
          rewrite (rep_head _ _ _ _ _ _ _ _ _ RpU Hc Hh). cbn [bind]. cbv zeta.
          rewrite <- (rep_tail_loop _ _ _ _ _ _ _ _ _ c (fun i w v => accum k v i (tmul O (topp O (tmul O (nth c d (t0 O)) (lkv (tl' c uc) g))) w)
                           (tmul O w (tmul O (nth c d (t0 O)) (lkv (tl' c uc) g)))) v RpL Hc).
          rewrite (rep_pos _ _ _ _ _ _ _ _ _ RpL Hc). cbn [bind].
          match goal with |- context [if negb ?b then ?x else ?y] => destruct (if negb b then x else y) as [up| |]; cbn [bind]; auto end.
          destruct (_ <? up); cbn [bind]; auto. }
      eapply wp_conseq.
      { apply (walk_sum N k g limL lc (fun c w => tmul O (topp O (tmul O (nth c d (t0 O)) (lkv (tl' c uc) g))) w)
           (fun c w => tmul O w (tmul O (nth c d (t0 O)) (lkv (tl' c uc) g)))
           (fun c => tmul O (nth c d (t0 O)) (lkv (tl' c uc) g)) l v1 f0); auto.
        - intros c Hc. apply C4 in Hc. pose proof RpL as []. apply r_tail. tauto.
        - intros RL c w. now apply ru_comm_opp.
        - intros RL c w. now apply ru_comm. }
      intros v2 A2. eexists. split; [exact A2|]. intros RL j Hj Hg. cbv beta. rewrite FE by auto. f_equal.
      apply (chain_total _ _ _ _ _ _ _ _ _ _ _ _ l (fun c => tmul O (nth c d (t0 O)) (lkv (tl' c uc) g)) RL RpU RpL); auto.
      + intros c E. rewrite E. now apply ru_mul0_r.
      + lia.
  Qed.

  (** update_kappa only reads the factor *)
  Lemma update_kappa_l : forall ps ss klt k g lim (F : Fac O) (cols : list col) kappa,
    Rep ps ss k g lim [] F cols -> g < ss -> k <= ss -> k < length kappa ->
    wp (update_kappa klt k g F kappa) (fun kappa' => length kappa' = length kappa).
  Proof.
    intros ps ss klt k g lim F cols kappa R Hg Hk HL. unfold update_kappa.
    destruct (Nat.eqb_spec k 0). { apply wp_set; [lia|]. apply upd_length. }
    destruct (rep_chain _ _ _ _ _ _ _ _ R Hg Hk) as (l & G1 & C1 & C2 & C3 & C4). rewrite G1. cbn [bind].
    rewrite (while_chain_read _ (flist F) l _ _ _ (fun c sum => Ok (tadd O sum (tmul O (nth c kappa (t0 O)) (lkv (tl' c cols) g))))); auto.
    2:{ intros c v Hc. apply C4 in Hc. destruct Hc as (Hc & Hh). rewrite (get_nth _ _ _ (t0 O)) by lia. cbn [bind].
        rewrite (rep_pos _ _ _ _ _ _ _ _ _ R Hc). cbn [bind]. rewrite (rep_head _ _ _ _ _ _ _ _ _ R Hc Hh). cbn [bind]. auto. }
    wpb. eapply wp_conseq. { apply (for_list_inv _ _ (fun _ _ => True)); auto. }
    intros sm _. cbv zeta. apply wp_set; auto. apply upd_length.
  Qed.
End A.
