(** * ConvProofs4: permutation, leading block, assembly, dense copy. *)
From Coq Require Import List Arith Lia Bool Sorted Ring Permutation.
From Verif Require Import Base Scalar Spec CSModel CSSpec ConvModel ConvSpec BucketProofs ConvProofs ConvProofs2 ConvProofs3.
Import ListNotations.

Section P.
  Variable O : Ops.
  Notation T := (T O).
  Implicit Types A B : CS O.
  Notation row := (list (nat * T)).
  Notation flat := (flat O).

  (** ** Values and stored entries *)
  Lemma ent_stored_eq : RingLaws O -> forall A i j v, NoDup (map fst (rowl A i)) ->
    stored A i j v -> ent A i j = v.
  Proof.
    intros RL A i j v ND H. rewrite (ent_lsum O RL). unfold stored in H.
    assert (E : filter (fun e => fst e =? j) (rowl A i) = [(j, v)]).
    { induction (rowl A i) as [|[j' v'] l IH]; simpl in *; [tauto|]. inversion ND; subst.
      destruct (Nat.eqb_spec j' j).
      - subst j'. destruct H as [H|H].
        + inversion H; subst. f_equal. apply filter_none. intros [a b] Hab. apply Nat.eqb_neq. simpl.
          intros ->. apply H2. now apply (in_map fst) in Hab.
        + exfalso. apply H2. now apply (in_map fst) in H.
      - destruct H as [H|H]; [congruence|]. auto. }
    rewrite E. unfold lsum. simpl. destruct RL as [RR _ _ _]. 
    rewrite (Radd_comm RR). apply (Radd_0_l RR).
  Qed.

  Lemma ent_not_stored : RingLaws O -> forall A i j, (forall v, ~ stored A i j v) -> ent A i j = t0 O.
  Proof.
    intros RL A i j H. rewrite (ent_lsum O RL). rewrite filter_none; auto.
    intros [a b] Hab. apply Nat.eqb_neq. simpl. intros ->. eapply H; eauto.
  Qed.

  Lemma stored_dec : forall A i j, (exists v, stored A i j v) \/ (forall v, ~ stored A i j v).
  Proof.
    intros A i j. unfold stored. induction (rowl A i) as [|[a b] l IH].
    - right. simpl. tauto.
    - destruct (Nat.eq_dec a j).
      + subst. left. exists b. simpl; auto.
      + destruct IH as [[v Hv]|IH].
        * left. exists v. simpl; auto.
        * right. intros v [E|Hv]; [congruence|]. eapply IH; eauto.
  Qed.

  Lemma ent_same : RingLaws O -> forall A B i j i' j',
    NoDup (map fst (rowl A i)) -> NoDup (map fst (rowl B i')) ->
    (forall v, stored A i j v <-> stored B i' j' v) -> ent A i j = ent B i' j'.
  Proof.
    intros RL A B i j i' j' NA NB H. destruct (stored_dec A i j) as [[v Hv]|Hn].
    - rewrite (ent_stored_eq RL A i j v) by auto. symmetry. apply ent_stored_eq; auto. now apply H.
    - rewrite (ent_not_stored RL A i j) by auto. symmetry. apply ent_not_stored; auto.
      intros v Hv. apply (Hn v). now apply H.
  Qed.

  Lemma valid_nodup : forall A i, sorted A -> i < psize A -> NoDup (map fst (rowl A i)).
  Proof. intros. now apply sorted_distinct. Qed.

  Lemma nnz_flat : forall A, wf A -> nnz_of A = length (flat (rowl A) (psize A)).
  Proof.
    intros A W. unfold nnz_of.
    assert (G : forall n, n <= psize A -> st A n = length (flat (rowl A) n)).
    { induction n; intros Hn. { apply W. }
      rewrite flat_S, app_length, <- IHn, rowl_length by lia.
      pose proof (wf_mono O A W n ltac:(lia)). lia. }
    now apply G.
  Qed.

  (** ** The storage with given rows *)
  Definition offs (rows : nat -> row) (n : nat) : list nat :=
    map (fun k => length (flat rows k)) (seq 0 (n + 1)).
  Definition canon (np ns : nat) (rows : nat -> row) : CS O :=
    mkCS np ns (offs rows np) (map fst (flat rows np)) (map snd (flat rows np)).

  Lemma offs_nth : forall rows n k, k <= n -> nth k (offs rows n) 0 = length (flat rows k).
  Proof. intros. unfold offs. rewrite nth_map_seq; auto. lia. Qed.

  Lemma canon_spec : forall np ns rows, (forall i e, i < np -> In e (rows i) -> fst e < ns) ->
    wf (canon np ns rows) /\ tight (canon np ns rows) /\ forall i, i < np -> rowl (canon np ns rows) i = rows i.
  Proof.
    intros np ns rows H. apply built_storage; auto.
    - unfold offs. now rewrite map_length, seq_length.
    - intros. now apply offs_nth.
    - now rewrite map_length.
    - now rewrite map_length.
    - intros r Hr. change 0 with (fst (0, t0 O)) at 1. now rewrite map_nth.
    - intros r Hr. change (t0 O) with (snd (0, t0 O)) at 1. now rewrite map_nth.
  Qed.

  Lemma conti_firstn : forall (c : row) ind, conti O c ind -> length c <= length ind ->
    firstn (length c) ind = map fst c.
  Proof.
    intros c ind H L. apply (list_ext _ _ _ 0). { rewrite firstn_length, map_length. lia. }
    intros r Hr. rewrite firstn_length in Hr. rewrite nth_firstn_lt by lia. rewrite H by lia.
    change 0 with (fst (0, t0 O)) at 2. now rewrite map_nth.
  Qed.
  Lemma contv_firstn : forall (c : row) val, contv O c val -> length c <= length val ->
    firstn (length c) val = map snd c.
  Proof.
    intros c val H L. apply (list_ext _ _ _ (t0 O)). { rewrite firstn_length, map_length. lia. }
    intros r Hr. rewrite firstn_length in Hr. rewrite nth_firstn_lt by lia. rewrite H by lia.
    change (t0 O) with (snd (0, t0 O)) at 2. now rewrite map_nth.
  Qed.

  (** ** Permutation *)
  Definition look (j : nat) (l : row) : T :=
    match find (fun e => fst e =? j) l with Some e => snd e | None => t0 O end.

  Lemma look_in : forall l j v, NoDup (map fst l) -> In (j, v) l -> look j l = v.
  Proof.
    intros l j v ND H. unfold look. induction l as [|[a b] l IH]; simpl in *; [tauto|].
    inversion ND; subst. destruct (Nat.eqb_spec a j).
    - subst. simpl. destruct H as [H|H]; [congruence|]. exfalso. apply H2. now apply (in_map fst) in H.
    - destruct H as [H|H]; [congruence|]. auto.
  Qed.

  Definition sort_row (l : row) : row := map (fun j => (j, look j l)) (isort (map fst l)).

  Lemma sort_row_fst : forall l, map fst (sort_row l) = isort (map fst l).
  Proof. intros. unfold sort_row. rewrite map_map. simpl. apply map_id. Qed.
  Lemma sort_row_length : forall l, length (sort_row l) = length l.
  Proof. intros. unfold sort_row. now rewrite map_length, isort_length, map_length. Qed.
  Lemma sort_row_in : forall l e, NoDup (map fst l) -> (In e (sort_row l) <-> In e l).
  Proof.
    intros l [j v] ND. unfold sort_row. rewrite in_map_iff. split.
    - intros (j' & E & H). inversion E; subst. apply (Permutation_in _ (isort_perm _)) in H.
      apply in_map_iff in H. destruct H as ([a b] & Ea & H). simpl in Ea. subst a.
      now rewrite (look_in l j b).
    - intros H. exists j. rewrite (look_in l j v) by auto. split; auto.
      apply (Permutation_in _ (Permutation_sym (isort_perm _))). now apply (in_map fst) in H.
  Qed.

  Definition rawmap (onlyl : bool) (ps : nat) (qt : list nat) (l : row) : row :=
    filter (fun e => negb onlyl || (fst e <? ps)) (map (fun e => (nth (fst e) qt 0, snd e)) l).

  Lemma rawmap_nodup : forall onlyl ps qt n l,
    (forall i j, i < n -> j < n -> nth i qt 0 = nth j qt 0 -> i = j) ->
    (forall e, In e l -> fst e < n) -> NoDup (map fst l) -> NoDup (map fst (rawmap onlyl ps qt l)).
  Proof.
    intros onlyl ps qt n l INJ R ND. unfold rawmap. induction l as [|a l IH]; simpl; [constructor|].
    simpl in ND. inversion ND; subst.
    assert (N : ~ In (nth (fst a) qt 0) (map fst (filter (fun e => negb onlyl || (fst e <? ps))
        (map (fun e => (nth (fst e) qt 0, snd e)) l)))).
    { intros HI. apply in_map_iff in HI. destruct HI as (e & E & F). apply filter_In in F. destruct F as [F _].
      apply in_map_iff in F. destruct F as (b & Eb & Hb). subst e. simpl in E.
      apply INJ in E; try (apply R; simpl; auto).
      apply H1. rewrite <- E. now apply in_map. }
    destruct (negb onlyl || (nth (fst a) qt 0 <? ps)); simpl; auto.
    - constructor; auto. apply IH; auto. intros; apply R; simpl; auto.
    - apply IH; auto. intros; apply R; simpl; auto.
  Qed.

  Lemma NoDup_app_l : forall (X : Type) (l l' : list X), NoDup (l ++ l') -> NoDup l.
  Proof.
    induction l; simpl; intros l' H; constructor; inversion H; subst.
    - intros Hin. apply H2. apply in_or_app; auto.
    - eapply IHl; eauto.
  Qed.

  Lemma filter_len_le : forall (X : Type) (f : X -> bool) l, length (filter f l) <= length l.
  Proof. induction l; simpl; auto. destruct (f a); simpl; lia. Qed.

  Lemma compute_perm_low_wp : forall dov onlyl leading A p qt ji jv,
    valid A -> length p = psize A -> length qt = ssize A ->
    (forall i, i < psize A -> nth i p 0 < psize A) ->
    (forall j, j < ssize A -> nth j qt 0 < ssize A) ->
    (forall i j, i < ssize A -> j < ssize A -> nth i qt 0 = nth j qt 0 -> i = j) ->
    (onlyl = true -> leading <= psize A) ->
    (dov = true -> 0 < if onlyl then leading else ssize A) ->
    let ps := if onlyl then leading else psize A in
    let rows := fun i => sort_row (rawmap onlyl ps qt (rowl A (nth i p 0))) in
    compute_perm_low O dov onlyl leading A p qt ji jv
      = Ok (offs rows ps, map fst (flat rows ps), if dov then map snd (flat rows ps) else []).
  Proof.
    intros dov onlyl leading A p qt ji jv (W & SA) Lp Lq Hp Hq INJ HL HB ps rows.
    set (raw := fun i => rawmap onlyl ps qt (rowl A (nth i p 0))).
    assert (PS : ps <= psize A) by (unfold ps; destruct onlyl; auto).
    assert (RAWN : forall i, i < ps -> NoDup (map fst (raw i))).
    { intros i Hi. apply rawmap_nodup with (n := ssize A); auto.
      - intros e He. eapply wf_rowl_range; eauto. apply Hp. lia.
      - apply valid_nodup; auto. apply Hp; lia. }
    assert (RAWL : forall i, length (raw i) <= length (rowl A (nth i p 0))).
    { intros i. unfold raw, rawmap. etransitivity.
      - apply filter_len_le.
      - now rewrite map_length. }
    set (nb := if dov then (if onlyl then leading else length qt) else 0).
    assert (RAWR : forall i e, i < ps -> In e (raw i) -> dov = true -> fst e < nb).
    { intros i e Hi He D. unfold nb. rewrite D. unfold raw, rawmap in He. apply filter_In in He.
      destruct He as [He Hc]. apply in_map_iff in He. destruct He as (e0 & <- & He0). simpl in *.
      destruct onlyl; simpl in Hc.
      - apply Nat.ltb_lt in Hc. unfold ps in Hc. auto.
      - rewrite Lq. apply Hq. eapply wf_rowl_range; [exact W| |exact He0]. apply Hp; lia. }
    match goal with |- ?x = Ok ?y => assert (G : wp x (fun r => r = y)) end.
    2:{ apply wp_inv in G. destruct G as (a & -> & ->). reflexivity. }
    unfold compute_perm_low. rewrite Lp, Nat.eqb_refl. cbn [negb]. fold ps. fold nb.
    replace (dov && (nb =? 0)) with false.
    2:{ symmetry. apply andb_false_iff. destruct dov; auto. right. apply Nat.eqb_neq. unfold nb.
        specialize (HB eq_refl). destruct onlyl; lia. }
    wpb. eapply wp_conseq.
    { apply (for_range_inv _ (fun i z => length (flat rows i) <= z)); [lia|simpl; lia|].
      intros i z Hi E. wpb. apply wp_get with (d := 0); [lia|].
      pose proof (wf_len O A W). pose proof (Hp i ltac:(lia)).
      pose proof (wf_mono O A W (nth i p 0) ltac:(lia)).
      wpb. apply wp_get with (d := 0); [lia|]. wpb. apply wp_get with (d := 0); [lia|].
      fold (st A (nth i p 0)) (st A (S (nth i p 0))).
      destruct (Nat.ltb_spec (st A (S (nth i p 0))) (st A (nth i p 0))); [lia|]. apply wp_ok.
      rewrite flat_S, app_length. assert (length (rows i) = length (raw i)) as -> by apply sort_row_length.
      specialize (RAWL i). rewrite rowl_length in RAWL. lia. }
    intros z Hz. cbn beta in Hz.
    destruct (Nat.eqb_spec z 0).
    - apply wp_ok. assert (FN : flat rows ps = []) by (apply length_zero_iff_nil; lia).
      rewrite FN. simpl. f_equal; [f_equal|].
      + apply (list_ext _ _ _ 0). { unfold offs. now rewrite repeat_length, map_length, seq_length. }
        intros k Hk. rewrite repeat_length in Hk. rewrite nth_repeat, offs_nth by lia.
        pose proof (flat_len_mono O rows k ps ltac:(lia)). rewrite FN in H. simpl in H. lia.
      + now destruct dov.
    - wpb. apply wp_set; [rewrite repeat_length; lia|]. wpb. eapply wp_conseq.
      { apply (for_range_inv _ (fun i (s : list nat * nat * list nat * nat * list T * list T) =>
          let '(ip, pos, ind, vpos, val, buf) := s in
          length ip = ps + 1 /\ pos = length (flat rows i) /\ length ind = z /\
          length val = (if dov then z else 0) /\ length buf = nb /\
          vpos = (if dov then pos else 0) /\
          (forall k, k <= i -> nth k ip 0 = length (flat rows k)) /\
          conti O (flat rows i) ind /\ (dov = true -> contv O (flat rows i) val))); [lia| |].
        - rewrite upd_length, !repeat_length. simpl. repeat split; auto.
          + now destruct dov.
          + intros k Hk. replace k with 0 by lia. rewrite nth_upd by (rewrite repeat_length; lia). reflexivity.
          + intros r Hr. simpl in Hr. lia.
          + intros _ r Hr. simpl in Hr. lia.
        - intros i [[[[[ip pos0] ind] vpos] val] buf] Hi (L1 & E1 & L2 & L3 & L4 & E2 & Hip & Hci & Hcv).
          wpb. apply wp_get with (d := 0); [lia|].
          pose proof (Hp i ltac:(lia)) as HPI.
          assert (LEN : length (flat rows i) + length (raw i) <= z).
          { pose proof (flat_len_mono O rows (S i) ps ltac:(lia)) as F. rewrite flat_S, app_length in F.
            unfold rows at 2 in F. rewrite sort_row_length in F. unfold raw. lia. }
          wpb. rewrite row_iter_rowl by auto.
          eapply wp_conseq with (P := fun s => let '(pos, ind', buf') := s in
            pos = length (flat rows i) + length (raw i) /\ length ind' = z /\ length buf' = nb /\
            conti O (flat rows i ++ raw i) ind' /\
            (dov = true -> forall e, In e (raw i) -> nth (fst e) buf' (t0 O) = snd e)).
          { change (raw i) with (rawmap onlyl ps qt (rowl A (nth i p 0))).
            apply (for_list_inv _ _ (fun pre (s : nat * list nat * list T) => let '(pos, ind', buf') := s in
              pos = length (flat rows i) + length (rawmap onlyl ps qt pre) /\ length ind' = z /\ length buf' = nb /\
              conti O (flat rows i ++ rawmap onlyl ps qt pre) ind' /\
              (dov = true -> forall e, In e (rawmap onlyl ps qt pre) -> nth (fst e) buf' (t0 O) = snd e))).
            - simpl. rewrite app_nil_r. split; [lia|]. split; auto. split; auto. split; auto. tauto.
            - intros pre [j v] post [[pos ind'] buf'] ER (R1 & R2 & R3 & R4 & R5). simpl.
              assert (HJ : j < ssize A).
              { apply (wf_rowl_range O A W (nth i p 0) (j, v)); auto. rewrite ER. apply in_or_app; simpl; auto. }
              wpb. apply wp_get with (d := 0); [lia|].
              assert (RS : rawmap onlyl ps qt (pre ++ [(j, v)]) = rawmap onlyl ps qt pre ++
                 (if negb onlyl || (nth j qt 0 <? ps) then [(nth j qt 0, v)] else [])).
              { unfold rawmap. rewrite map_app, filter_app. simpl. reflexivity. }
              assert (RP : exists post', raw i = rawmap onlyl ps qt (pre ++ [(j, v)]) ++ post').
              { unfold raw. rewrite ER. exists (rawmap onlyl ps qt post). unfold rawmap.
                rewrite <- filter_app, <- map_app, <- app_assoc. reflexivity. }
              destruct RP as (post' & RP).
              destruct (negb onlyl || (nth j qt 0 <? ps)) eqn:EC.
              + rewrite RS in *. apply (f_equal (@length _)) in RP as RPL. rewrite !app_length in RPL. simpl in RPL.
                wpb. apply wp_set; [lia|]. wpb.
                assert (HIN : In (nth j qt 0, v) (raw i)).
                { rewrite RP. apply in_or_app. left. apply in_or_app. right. simpl; auto. }
                assert (NDP : NoDup (map fst (rawmap onlyl ps qt pre ++ [(nth j qt 0, v)]))).
                { specialize (RAWN i ltac:(lia)). rewrite RP, map_app in RAWN.
                  apply NoDup_app_l in RAWN. exact RAWN. }
                assert (CI : conti O (flat rows i ++ rawmap onlyl ps qt pre ++ [(nth j qt 0, v)]) (upd ind' pos (nth j qt 0))).
                { rewrite app_assoc. replace pos with (length (flat rows i ++ rawmap onlyl ps qt pre))
                    by (rewrite app_length; lia).
                  apply (conti_snoc O _ _ (nth j qt 0, v)); auto. rewrite app_length. lia. }
                destruct dov eqn:ED.
                * apply wp_set. { rewrite R3. apply (RAWR i (nth j qt 0, v)); auto; lia. }
                  apply wp_ok. rewrite !upd_length, app_length. simpl. split; [lia|]. split; auto. split; auto.
                  split; auto. intros _ e He.
                  rewrite nth_upd by (rewrite R3; apply (RAWR i (nth j qt 0, v)); auto; lia).
                  apply in_app_or in He. destruct He as [He|[He|[]]].
                  -- destruct (Nat.eqb_spec (fst e) (nth j qt 0)).
                     ++ exfalso. rewrite map_app in NDP. simpl in NDP.
                        apply NoDup_remove_2 in NDP. rewrite app_nil_r in NDP. apply NDP.
                        rewrite <- e0. now apply in_map.
                     ++ apply R5; auto.
                  -- subst e. simpl. now rewrite Nat.eqb_refl.
                * apply wp_ok. apply wp_ok. rewrite !upd_length, app_length. simpl. split; [lia|]. split; auto. split; auto.
                  split; auto. discriminate.
              + rewrite RS in *. rewrite app_nil_r. apply wp_ok. auto. }
          intros [[pos ind1] buf1] (R1 & R2 & R3 & R4 & R5).
          wpb. apply wp_get with (d := 0); [lia|]. wpb. apply wp_set; [lia|].
          wpb. apply sort_range_wp; try lia. intros ind2 L2' Ho Hin.
          assert (SLI : slice pos0 (pos - pos0) ind1 = map fst (raw i)).
          { apply (list_ext _ _ _ 0). { rewrite slice_length, map_length by lia. lia. }
            intros r Hr. rewrite slice_length in Hr by lia. rewrite nth_slice by lia.
            rewrite R4 by (rewrite app_length; lia). rewrite app_nth2 by lia.
            replace (pos0 + r - length (flat rows i)) with r by lia.
            change 0 with (fst (0, t0 O)) at 2. now rewrite map_nth. }
          assert (RF : map fst (rows i) = isort (map fst (raw i))) by apply sort_row_fst.
          assert (RLEN : length (rows i) = length (raw i)) by apply sort_row_length.
          assert (CI : conti O (flat rows i ++ rows i) ind2).
          { intros r Hr. rewrite app_length in Hr. destruct (Nat.lt_ge_cases r (length (flat rows i))).
            - rewrite Ho by lia. rewrite R4 by (rewrite app_length; lia). now rewrite !app_nth1 by lia.
            - rewrite Hin by lia. rewrite SLI, <- RF. rewrite app_nth2 by lia.
              change 0 with (fst (0, t0 O)) at 1. rewrite map_nth. do 2 f_equal. lia. }
          wpb. eapply wp_conseq with (P := fun s => let '(vp, val') := s in
             vp = (if dov then pos else 0) /\ length val' = length val /\
             (dov = true -> contv O (flat rows i ++ rows i) val')).
          { destruct dov eqn:ED.
            - specialize (Hcv eq_refl). eapply wp_conseq.
              + apply (for_range_inv _ (fun k (s : nat * list T) => let '(vp, val') := s in
                  vp = k /\ length val' = length val /\
                  forall r, r < k -> nth r val' (t0 O) = snd (nth r (flat rows i ++ rows i) (0, t0 O)))); [lia| |].
                * split; auto. split; auto. intros r Hr. rewrite app_nth1 by lia. apply Hcv. lia.
                * intros k [vp val'] Hk (V1 & V2 & V3).
                  assert (IK : nth k ind2 0 = fst (nth (k - pos0) (rows i) (0, t0 O))).
                  { rewrite CI by (rewrite app_length; lia). rewrite app_nth2 by lia. do 2 f_equal. lia. }
                  assert (IR : In (nth (k - pos0) (rows i) (0, t0 O)) (raw i)).
                  { apply (sort_row_in (raw i)). { apply RAWN; lia. } apply nth_In. change (k - pos0 < length (rows i)). lia. }
                  wpb. apply wp_get with (d := 0); [lia|]. rewrite IK.
                  wpb. apply wp_get with (d := t0 O). { rewrite R3. apply (RAWR i); auto; lia. }
                  rewrite (R5 eq_refl _ IR).
                  wpb. apply wp_set; [lia|]. apply wp_ok. rewrite upd_length. split; [lia|]. split; auto.
                  intros r Hr. rewrite nth_upd by lia. destruct (Nat.eqb_spec r vp).
                  -- rewrite app_nth2 by lia. do 2 f_equal. lia.
                  -- apply V3; lia.
              + intros [vp val'] (V1 & V2 & V3). split; auto. split; auto.
                intros _ r Hr. rewrite app_length in Hr. apply V3; lia.
            - apply wp_ok. split; auto. split; auto. discriminate. }
          intros [vp val'] (V1 & V2 & V3). apply wp_ok.
          rewrite upd_length, flat_S, app_length. repeat split; auto; try lia.
          intros k Hk. rewrite nth_upd by lia. destruct (Nat.eqb_spec k (S i)).
          + subst k. rewrite Hip by lia. rewrite flat_S, app_length. lia.
          + apply Hip; lia. }
      intros [[[[[ip pos] ind] vpos] val] buf] (L1 & E1 & L2 & L3 & L4 & E2 & Hip & Hci & Hcv).
      apply wp_ok. rewrite E1 in *. f_equal; [f_equal|].
      + apply (list_ext _ _ _ 0). { unfold offs. now rewrite map_length, seq_length. }
        intros k Hk. rewrite offs_nth by lia. apply Hip; lia.
      + apply conti_firstn; auto. lia.
      + destruct dov; auto. rewrite E2. apply contv_firstn; auto. lia.
  Qed.

  Lemma sort_row_asc : forall l, NoDup (map fst l) -> asc (map fst (sort_row l)).
  Proof. intros. rewrite sort_row_fst. now apply isort_asc. Qed.

  (** The result of [compute_perm]: full statement. *)
  Lemma C09_l : forall A p q qt leading ji jv, valid A ->
    length p = psize A -> (forall i, i < psize A -> nth i p 0 < psize A) ->
    is_inv (ssize A) q qt ->
    leading <= psize A -> leading <= ssize A -> 0 < ssize A ->
    let np := if leading =? 0 then psize A else leading in
    let ns := if leading =? 0 then ssize A else leading in
    exists B, compute_perm O A p qt leading false ji jv = Ok B /\
      is_storage B np ns (fun i j v => j < ns /\ stored A (nth i p 0) (nth j q 0) v) /\
      compute_perm O A p qt leading true ji jv = Ok (mkCS np ns (ind_start B) (indices B) []).
  Proof.
    intros A p q qt leading ji jv V Lp Hp (I1 & I2 & I3 & I4) HL1 HL2 HS0 np ns.
    assert (INJ : forall i j, i < ssize A -> j < ssize A -> nth i qt 0 = nth j qt 0 -> i = j).
    { intros i j Hi Hj E. destruct (I4 i Hi) as [_ A1]. destruct (I4 j Hj) as [_ A2]. congruence. }
    set (onlyl := negb ((leading =? 0) || ((leading =? psize A) && (leading =? ssize A)))).
    set (ps := if onlyl then leading else psize A).
    set (rows := fun i => sort_row (rawmap onlyl ps qt (rowl A (nth i p 0)))).
    assert (NP : np = ps).
    { unfold np, ps, onlyl. destruct (Nat.eqb_spec leading 0); simpl; auto.
      destruct (Nat.eqb_spec leading (psize A)); simpl; auto.
      destruct (Nat.eqb_spec leading (ssize A)); simpl; auto. }
    assert (NS : ns = if onlyl then leading else ssize A).
    { unfold ns, onlyl. destruct (Nat.eqb_spec leading 0); simpl; auto.
      destruct (Nat.eqb_spec leading (psize A)); simpl; auto.
      destruct (Nat.eqb_spec leading (ssize A)); simpl; auto. }
    assert (RUN : forall so, compute_perm O A p qt leading so ji jv =
      Ok (mkCS np ns (offs rows ps) (map fst (flat rows ps)) (if negb so then map snd (flat rows ps) else []))).
    { intros so. unfold compute_perm. rewrite I2, Nat.eqb_refl. cbn [negb].
      rewrite NP, NS. unfold rows, ps.
      destruct ((leading =? 0) || ((leading =? psize A) && (leading =? ssize A))) eqn:EO.
      - change onlyl with false. rewrite compute_perm_low_wp; auto; try discriminate.
        + intros j Hj. now apply I4.
      - change onlyl with true. destruct (Nat.ltb_spec (Nat.min (psize A) (ssize A)) leading); [lia|].
        rewrite compute_perm_low_wp; auto.
        + intros j Hj. now apply I4.
        + intros _. destruct (Nat.eqb_spec leading 0); [discriminate|lia]. }
    assert (RR : forall i e, i < np -> In e (rows i) -> fst e < ns).
    { intros i e Hi He. unfold rows in He.
      assert (NI : nth i p 0 < psize A).
      { apply Hp. rewrite NP in Hi. unfold ps in Hi. destruct onlyl; lia. }
      assert (ND0 : NoDup (map fst (rawmap onlyl ps qt (rowl A (nth i p 0))))).
      { apply rawmap_nodup with (n := ssize A); auto.
          - intros e' He'. apply (wf_rowl_range O A (proj1 V) (nth i p 0)); auto.
          - apply valid_nodup; auto. apply V. }
      apply (proj1 (sort_row_in _ _ ND0)) in He. unfold rawmap in He. apply filter_In in He. destruct He as [He Hc]. apply in_map_iff in He.
      destruct He as (e0 & <- & He0). simpl in *. rewrite NS. destruct onlyl; simpl in Hc.
      - apply Nat.ltb_lt in Hc. auto.
      - apply I4. apply (wf_rowl_range O A (proj1 V) (nth i p 0)); auto. }
    destruct (canon_spec np ns rows RR) as (B1 & B2 & B3).
    exists (canon np ns rows). split; [|split].
    - rewrite RUN. unfold canon. rewrite NP. reflexivity.
    - assert (NI : forall i, i < np -> nth i p 0 < psize A).
      { intros i Hi. apply Hp. rewrite NP in Hi. unfold ps in Hi. destruct onlyl; lia. }
      assert (ND : forall i, i < np -> NoDup (map fst (rawmap onlyl ps qt (rowl A (nth i p 0))))).
      { intros i Hi. apply rawmap_nodup with (n := ssize A); auto.
        - intros e' He'. apply (wf_rowl_range O A (proj1 V) (nth i p 0)); auto.
        - apply valid_nodup; auto. apply V. }
      split; [split; auto|split; [auto|split; [auto|split; [auto|]]]].
      + apply sorted_asc. simpl. intros i Hi. rewrite B3 by auto. apply sort_row_asc. auto.
      + intros i j v Hi. unfold stored. rewrite B3 by auto. unfold rows. rewrite sort_row_in by auto.
        unfold rawmap. rewrite filter_In, in_map_iff. simpl. split.
        * intros ((e & E & He) & Hc). injection E as E1 E2. subst j v.
          assert (FE : fst e < ssize A) by (apply (wf_rowl_range O A (proj1 V) (nth i p 0)); auto).
          destruct (I4 _ FE) as [Q1 Q2]. rewrite Q2. split.
          -- rewrite NS. destruct onlyl; simpl in Hc; [now apply Nat.ltb_lt|auto].
          -- destruct e. auto.
        * intros (Hj & He). assert (HJ : j < ssize A) by (rewrite NS in Hj; destruct onlyl; lia).
          destruct (I3 j HJ) as [Q1 Q2]. split.
          -- exists (nth j q 0, v). simpl. rewrite Q2. auto.
          -- rewrite NS in Hj. destruct onlyl; simpl; auto. apply Nat.ltb_lt. auto.
    - rewrite RUN. unfold canon. simpl. rewrite <- NP. reflexivity.
  Qed.

  (** ** Leading block *)
  Lemma appi_wp : forall (es c : row) (pos : nat) ind,
    pos = length c -> length c + length es <= length ind -> conti O c ind ->
    wp (for_list es (fun e (s : nat * list nat) =>
          let '(pos, ind) := s in ind <- set ind pos (fst e) ;; Ok (S pos, ind)) (pos, ind))
       (fun s => let '(pos', ind') := s in
          pos' = length c + length es /\ length ind' = length ind /\ conti O (c ++ es) ind').
  Proof.
    induction es as [|e es IH]; intros c pos ind E L Hi; simpl.
    - rewrite app_nil_r. repeat split; auto; lia.
    - subst pos. simpl in L. wpb. wpb. apply wp_set; [lia|]. apply wp_ok.
      eapply wp_conseq.
      + apply (IH (c ++ [e])).
        * rewrite app_length. simpl. lia.
        * rewrite app_length, upd_length. simpl. lia.
        * apply conti_snoc; auto; lia.
      + intros [pos' ind'] (A1 & A2 & A4). rewrite app_length in A1. simpl in A1.
        rewrite upd_length in *. rewrite <- app_assoc in A4. simpl in *. repeat split; auto; lia.
  Qed.
  Lemma appv_wp : forall (es c : row) (pos : nat) val,
    pos = length c -> length c + length es <= length val -> contv O c val ->
    wp (for_list es (fun e (s : nat * list T) =>
          let '(pos, val) := s in val <- set val pos (snd e) ;; Ok (S pos, val)) (pos, val))
       (fun s => let '(pos', val') := s in
          pos' = length c + length es /\ length val' = length val /\ contv O (c ++ es) val').
  Proof.
    induction es as [|e es IH]; intros c pos val E L Hi; simpl.
    - rewrite app_nil_r. repeat split; auto; lia.
    - subst pos. simpl in L. wpb. wpb. apply wp_set; [lia|]. apply wp_ok.
      eapply wp_conseq.
      + apply (IH (c ++ [e])).
        * rewrite app_length. simpl. lia.
        * rewrite app_length, upd_length. simpl. lia.
        * apply contv_snoc; auto; lia.
      + intros [pos' val'] (A1 & A2 & A4). rewrite app_length in A1. simpl in A1.
        rewrite upd_length in *. rewrite <- app_assoc in A4. simpl in *. repeat split; auto; lia.
  Qed.

  Lemma C11_l : forall m A ji jv, valid A -> m <= psize A ->
    (exists i j v, i < m /\ j < m /\ stored A i j v) ->
    exists B, extract_leading O m A ji jv = Ok B /\
      is_storage B m m (fun i j v => j < m /\ stored A i j v).
  Proof.
    intros m A ji jv (W & SA) Hm (i0 & j0 & v0 & Hi0 & Hj0 & Hst).
    set (rows := fun i => part O false m (rowl A i)).
    pose proof (wf_len O A W) as WL. pose proof (wf_inds O A W) as WI. pose proof (wf_vals O A W) as WV.
    assert (FNZ : 0 < length (flat rows m)).
    { destruct (flat rows m) eqn:E; simpl; [|lia]. exfalso.
      assert (H : In (j0, v0) (flat rows m)).
      { apply flat_in. exists i0. split; auto. apply part_stored_first. auto. }
      rewrite E in H. auto. }
    assert (RNG : forall i e, i < m -> In e (rows i) -> fst e < m).
    { intros i [j v] Hi He. apply part_stored_first in He. tauto. }
    apply wp_inv. unfold extract_leading.
    wpb. apply wp_set; [rewrite repeat_length; lia|].
    wpb. eapply wp_conseq.
    { apply (for_range_inv _ (fun i (s : list nat * nat) => let '(p, z) := s in
        length p = m + 1 /\ z = length (flat rows i) /\
        forall k, k < i -> splits O A m k (nth (S k) p 0))); [lia| |].
      - rewrite upd_length, repeat_length. split; auto. split; auto. intros; lia.
      - intros i [p z] Hi (Lp & Ez & Hp).
        wpb. apply wp_get with (d := 0); [lia|]. wpb. apply wp_get with (d := 0); [lia|].
        fold (st A i) (st A (S i)). wpb. eapply wp_conseq. { apply find_splits; auto; lia. }
        intros [f q] Hq. simpl in Hq. wpb. apply wp_set; [lia|]. apply wp_ok. rewrite upd_length. split; auto.
        split.
        + rewrite flat_S, app_length, Ez. unfold rows at 3. rewrite (part_len_eq O A false m i q Hq). reflexivity.
        + intros k Hk. rewrite nth_upd by lia. destruct (Nat.eqb_spec (S k) (S i)).
          * inversion e. now subst.
          * apply Hp; lia. }
    intros [p z] (Lp & Ez & Hp). cbn beta iota.
    destruct (Nat.eqb_spec z 0); [lia|].
    wpb. eapply wp_conseq with (P := fun s => let '(p', ind) := s in length p' = m + 1 /\
       (forall k, k <= m -> nth k p' 0 = length (flat rows k)) /\
       length ind = length (flat rows m) /\ conti O (flat rows m) ind).
    { wpb. apply wp_set; [lia|]. wpb. eapply wp_conseq.
      { apply (for_range_inv _ (fun i (s : list nat * nat * list nat) => let '(p', pos, ind) := s in
          length p' = m + 1 /\ pos = length (flat rows i) /\ length ind = z /\
          (forall k, k <= i -> nth k p' 0 = length (flat rows k)) /\
          (forall k, i < k <= m -> nth k p' 0 = nth k p 0) /\
          conti O (flat rows i) ind)); [lia| |].
        - rewrite upd_length, repeat_length. simpl. split; auto. split; auto. split; auto. split; [|split].
          + intros k Hk. replace k with 0 by lia. now rewrite nth_upd by lia.
          + intros k Hk. rewrite nth_upd by lia. destruct (Nat.eqb_spec k 0); [lia|auto].
          + intros r Hr. simpl in Hr. lia.
        - intros i [[p' pos] ind] Hi (L1 & E1 & L2 & H1 & H2 & H3).
          wpb. apply wp_get with (d := 0); [lia|]. wpb. apply wp_get with (d := 0); [lia|].
          rewrite H2 by lia. fold (st A i). pose proof (Hp i ltac:(lia)) as Hs. pose proof Hs as (S1 & _).
          pose proof (st_mono O A W (S i) (psize A) ltac:(lia) ltac:(lia)) as M.
          destruct (splits_filter O A m i _ Hs) as [SF _].
          pose proof (flat_len_mono O rows (S i) m ltac:(lia)) as FL. rewrite flat_S, app_length in FL.
          wpb. eapply wp_conseq with (P := fun s => let '(pos', ind') := s in
            pos' = length (flat rows i) + length (rows i) /\ length ind' = length ind /\ conti O (flat rows i ++ rows i) ind').
          { pose proof (appi_wp (rows i) (flat rows i) pos ind E1 ltac:(lia) H3) as G.
            rewrite for_range_list.
            replace (rows i) with (run O A (st A i) (nth (S i) p 0)) in G at 1 by (symmetry; exact SF).
            unfold run in G. rewrite for_list_map in G.
            rewrite (for_list_ext_in _ _ _ (fun k (s : nat * list nat) =>
              let '(pos, ind) := s in ind <- set ind pos (fst (ix A k, vl A k)) ;; Ok (S pos, ind))).
            - exact G.
            - intros k [a b] Hk. apply in_seq in Hk. rewrite (get_nth _ _ _ 0) by lia. reflexivity. }
          intros [pos' ind'] (A1 & A2 & A3).
          wpb. apply wp_get with (d := 0); [lia|]. wpb. apply wp_set; [lia|]. apply wp_ok.
          rewrite upd_length, flat_S, app_length. split; auto. split; [lia|]. split; [lia|]. split; [|split]; auto.
          + intros k Hk. rewrite nth_upd by lia. destruct (Nat.eqb_spec k (S i)).
            * subst k. rewrite H1 by lia. rewrite flat_S, app_length. unfold rows at 3.
              rewrite (part_len_eq O A false m i _ Hs). reflexivity.
            * apply H1; lia.
          + intros k Hk. rewrite nth_upd by lia. destruct (Nat.eqb_spec k (S i)); [lia|]. apply H2; lia. }
      intros [[p' pos] ind] (L1 & E1 & L2 & H1 & H2 & H3). apply wp_ok. split; auto. split; auto. split; auto. lia. }
    intros [p' ind] (L1 & H1 & L2 & H2).
    wpb. eapply wp_conseq.
    { apply (for_range_inv _ (fun i (s : nat * list T) => let '(pos, val) := s in
        pos = length (flat rows i) /\ length val = length ind /\ contv O (flat rows i) val)); [lia| |].
      - rewrite repeat_length. split; auto. split; auto. intros r Hr. simpl in Hr. lia.
      - intros i [pos val] Hi (E1 & L3 & H3).
        pose proof (Hp i ltac:(lia)) as Hs. pose proof Hs as (S1 & _).
        pose proof (st_mono O A W (S i) (psize A) ltac:(lia) ltac:(lia)) as M.
        destruct (splits_filter O A m i _ Hs) as [SF _].
        assert (RL : length (rows i) = nth (S i) p 0 - st A i) by (apply (part_len_eq O A false m i _ Hs)).
        wpb. apply wp_get with (d := 0); [lia|]. wpb. apply wp_get with (d := 0); [lia|].
        wpb. apply wp_get with (d := 0); [lia|]. fold (st A i).
        rewrite !H1 by lia. rewrite flat_S, app_length.
        replace (length (flat rows i) + length (rows i) - length (flat rows i)) with (length (rows i)) by lia.
        pose proof (flat_len_mono O rows (S i) m ltac:(lia)) as FL. rewrite flat_S, app_length in FL.
        pose proof (appv_wp (rows i) (flat rows i) pos val E1 ltac:(lia) H3) as G.
        rewrite for_range_list, Nat.sub_0_r.
        eapply wp_conseq.
        + replace (rows i) with (run O A (st A i) (nth (S i) p 0)) in G at 1 by (symmetry; exact SF).
          unfold run in G. rewrite for_list_map in G. rewrite <- RL in G.
          rewrite (for_list_ext_in _ _ _ (fun k (s : nat * list T) =>
              let '(pos, val) := s in val <- set val pos (snd (ix A (st A i + k), vl A (st A i + k))) ;; Ok (S pos, val))).
          * rewrite <- (for_list_map _ _ _ (fun k => st A i + k) (fun k (s : nat * list T) =>
              let '(pos, val) := s in val <- set val pos (snd (ix A k, vl A k)) ;; Ok (S pos, val))).
            replace (map (fun k => st A i + k) (seq 0 (length (rows i)))) with (seq (st A i) (length (rows i))).
            { exact G. }
            clear. generalize (length (rows i)) as n. intros n. apply (list_ext _ _ _ 0).
            { now rewrite map_length, !seq_length. }
            intros r Hr. rewrite seq_length in Hr. rewrite nth_map_seq by auto. now rewrite seq_nth.
          * intros k [a b] Hk. apply in_seq in Hk. rewrite (get_nth _ _ _ (t0 O)) by lia. reflexivity.
        + intros [pos' val'] (A1 & A2 & A3). split; auto. split; auto. lia. }
    intros [pos val] (_ & L3 & H3). apply wp_ok.
    destruct (built_storage O m m p' ind val rows) as (B1 & B2 & B3); auto; try lia.
    split; [split; auto|split; [auto|split; [auto|split; [auto|]]]].
    - apply sorted_asc. simpl. intros i Hi. rewrite B3 by auto. apply part_asc. apply sorted_asc; auto. lia.
    - intros i j v Hi. unfold stored. rewrite B3 by auto. unfold rows. rewrite part_stored_first. tauto.
  Qed.

  (** A leading block without entries is refused. *)
  Lemma C11_empty_l : forall m A ji jv, valid A -> m <= psize A ->
    (forall i j v, i < m -> j < m -> ~ stored A i j v) ->
    extract_leading O m A ji jv = Err.
  Proof.
    intros m A ji jv (W & SA) Hm HE. pose proof (wf_len O A W) as WL.
    unfold extract_leading. rewrite set_ok by (rewrite repeat_length; lia). cbn [bind].
    match goal with |- bind ?x _ = _ => assert (G : wp x (fun s => snd s = 0)) end.
    { eapply wp_conseq.
      - apply (for_range_inv _ (fun i (s : list nat * nat) => length (fst s) = m + 1 /\ snd s = 0)); [lia| |].
        + simpl. rewrite upd_length, repeat_length. auto.
        + intros i [p z] Hi (Lp & Ez). simpl in *.
          wpb. apply wp_get with (d := 0); [lia|]. wpb. apply wp_get with (d := 0); [lia|].
          fold (st A i) (st A (S i)). wpb. eapply wp_conseq. { apply find_splits; auto; lia. }
          intros [f q] Hq. simpl in Hq. wpb. apply wp_set; [lia|]. apply wp_ok. simpl. rewrite upd_length. split; auto.
          destruct (Nat.eq_dec q (st A i)); [lia|]. exfalso.
          destruct Hq as (Q1 & Q2 & _). apply (HE i (ix A (st A i)) (vl A (st A i))); try lia.
          * apply Q2. lia.
          * unfold stored, rowl. apply in_map_iff. exists (st A i). split; auto. apply in_seq. lia.
      - intros a (_ & H). exact H. }
    apply wp_inv in G. destruct G as ([p z] & -> & E). simpl in E. subst z. reflexivity.
  Qed.

  (** ** Assembly *)
  Notation pushed := (pushed O).
  Notation push_ok := (push_ok O).

  Lemma pick_ok : forall v l, (forall j, In j l -> j < length v) ->
    pick O v l = Ok (map (fun j => nth j v (t0 O)) l).
  Proof.
    intros v l H.
    assert (G : forall l acc, (forall j, In j l -> j < length v) ->
      for_list l (fun j acc => x <- get v j ;; Ok (acc ++ [x])) acc = Ok (acc ++ map (fun j => nth j v (t0 O)) l)).
    { clear. induction l; simpl; intros. { now rewrite app_nil_r. }
      rewrite (get_nth _ _ _ (t0 O)) by auto. simpl. rewrite IHl by auto. now rewrite <- app_assoc. }
    apply (G l []). auto.
  Qed.

  Definition nrow (ops : list (push O)) (i : nat) : row := pushed (nth i ops (PushEmpty O)).

  Lemma flat_nrow : forall ops o k, k <= length ops -> flat (nrow (ops ++ [o])) k = flat (nrow ops) k.
  Proof. intros. apply flat_ext. intros i Hi. unfold nrow. now rewrite app_nth1 by lia. Qed.

  Lemma asm_step : forall A ops o np ns,
    A = mkCS np ns (offs (nrow ops) (length ops)) (map fst (flat (nrow ops) (length ops)))
             (map snd (flat (nrow ops) (length ops))) ->
    push_ok o ->
    push_step O o A = Ok (mkCS np ns (offs (nrow (ops ++ [o])) (length (ops ++ [o])))
             (map fst (flat (nrow (ops ++ [o])) (length (ops ++ [o]))))
             (map snd (flat (nrow (ops ++ [o])) (length (ops ++ [o]))))).
  Proof.
    intros A ops o np ns E Ho.
    assert (F : flat (nrow (ops ++ [o])) (length (ops ++ [o])) = flat (nrow ops) (length ops) ++ pushed o).
    { rewrite app_length. simpl. rewrite Nat.add_1_r, flat_S, flat_nrow by lia. f_equal.
      unfold nrow. now rewrite app_nth2, Nat.sub_diag by lia. }
    assert (OF : offs (nrow (ops ++ [o])) (length (ops ++ [o]))
       = offs (nrow ops) (length ops) ++ [length (flat (nrow ops) (length ops)) + length (pushed o)]).
    { unfold offs. rewrite app_length at 1. simpl. rewrite (Nat.add_1_r (length ops + 1)), seq_S, map_app. f_equal.
      - apply map_ext_in. intros k Hk. apply in_seq in Hk. rewrite flat_nrow by lia. reflexivity.
      - simpl. f_equal. rewrite <- app_length, <- F. do 2 f_equal. rewrite app_length. simpl. lia. }
    rewrite OF, F, !map_app.
    assert (LAST : get (offs (nrow ops) (length ops)) (length (offs (nrow ops) (length ops)) - 1)
       = Ok (length (flat (nrow ops) (length ops)))).
    { assert (L : length (offs (nrow ops) (length ops)) = length ops + 1) by (unfold offs; now rewrite map_length, seq_length).
      rewrite (get_nth _ _ _ 0) by lia. rewrite L. replace (length ops + 1 - 1) with (length ops) by lia.
      now rewrite offs_nth. }
    subst A. destruct o as [|l v|l1 v1 l2 v2]; simpl in *.
    - unfold push_empty. cbn [ind_start]. rewrite LAST. simpl. now rewrite !app_nil_r, Nat.add_0_r.
    - unfold push_primary. rewrite pick_ok by auto. cbn [bind ind_start]. rewrite LAST. simpl.
      rewrite !map_map, map_length. simpl. now rewrite map_id.
    - unfold push_primary2. destruct Ho as [Ho1 Ho2]. rewrite (pick_ok v1 l1), (pick_ok v2 l2) by auto.
      cbn [bind ind_start]. rewrite LAST. simpl.
      rewrite !map_app, !map_map, app_length, !map_length. simpl. rewrite !map_id.
      now rewrite Nat.add_assoc.
  Qed.

  Lemma C13_l : forall A ops, (forall o, In o ops -> push_ok o) ->
    assemble O A ops = Ok (canon (length ops) (ssize A) (nrow ops)).
  Proof.
    intros A ops H. unfold assemble.
    assert (G : wp (for_list ops (push_step O) (begin_assemble O A)) (fun B =>
       B = mkCS (psize A) (ssize A) (offs (nrow ops) (length ops)) (map fst (flat (nrow ops) (length ops)))
             (map snd (flat (nrow ops) (length ops))))).
    { apply (for_list_inv _ _ (fun pre B => B = mkCS (psize A) (ssize A) (offs (nrow pre) (length pre))
         (map fst (flat (nrow pre) (length pre))) (map snd (flat (nrow pre) (length pre))))).
      - reflexivity.
      - intros pre o post B E EB. rewrite (asm_step B pre o (psize A) (ssize A) EB).
        + reflexivity.
        + apply H. rewrite E. apply in_or_app. simpl; auto. }
    apply wp_inv in G. destruct G as (B & -> & ->). simpl. unfold end_assemble. simpl.
    assert (L : length (offs (nrow ops) (length ops)) = length ops + 1) by (unfold offs; now rewrite map_length, seq_length).
    rewrite L. unfold canon. destruct (Nat.eqb_spec (psize A + 1) (length ops + 1)).
    - replace (psize A) with (length ops) by lia. reflexivity.
    - replace (length ops + 1 - 1) with (length ops) by lia. reflexivity.
  Qed.

  (** ** Dense copy *)
  Lemma dense_wp : forall A (pos : nat -> nat -> nat) N, wf A -> sorted A ->
    (forall i j, i < psize A -> j < ssize A -> pos i j < N) ->
    (forall i j i' j', i < psize A -> j < ssize A -> i' < psize A -> j' < ssize A ->
       pos i j = pos i' j' -> i = i' /\ j = j') ->
    wp (for_range 0 (psize A) (fun r d => row_iter O A r (fun j v d => set d (pos r j) v) d) (repeat (t0 O) N))
       (fun d => length d = N /\ forall i j, i < psize A -> j < ssize A ->
          (forall v, stored A i j v -> nth (pos i j) d (t0 O) = v) /\
          ((forall v, ~ stored A i j v) -> nth (pos i j) d (t0 O) = t0 O)).
  Proof.
    intros A pos N W SA HN INJ. eapply wp_conseq.
    - apply (for_range_inv _ (fun r d => length d = N /\ forall i j, i < psize A -> j < ssize A ->
          (forall v, i < r -> stored A i j v -> nth (pos i j) d (t0 O) = v) /\
          (r <= i \/ (forall v, ~ stored A i j v) -> nth (pos i j) d (t0 O) = t0 O))); [lia| |].
      + rewrite repeat_length. split; auto. intros i j Hi Hj. split; [intros; lia|].
        intros _. apply nth_repeat.
      + intros r d Hr (Ld & Hd). rewrite row_iter_rowl by (auto; lia).
        pose proof (valid_nodup A r SA ltac:(lia)) as ND.
        eapply wp_conseq.
        * apply (for_list_inv _ _ (fun pre d' => length d' = N /\
            (forall e, In e pre -> nth (pos r (fst e)) d' (t0 O) = snd e) /\
            (forall i j, i < psize A -> j < ssize A -> (i <> r \/ ~ In j (map fst pre)) ->
               nth (pos i j) d' (t0 O) = nth (pos i j) d (t0 O)))).
          -- split; auto. split; auto. simpl. tauto.
          -- intros pre [j v] post d' E (L' & H1 & H2). simpl.
             assert (Hj : j < ssize A).
             { apply (wf_rowl_range O A W r (j, v)); [lia|]. rewrite E. apply in_or_app; simpl; auto. }
             assert (PR : forall e, In e pre -> fst e < ssize A).
             { intros e He. apply (wf_rowl_range O A W r e); [lia|]. rewrite E. apply in_or_app; auto. }
             apply wp_set. { rewrite L'. apply HN; lia. }
             rewrite upd_length. split; auto. split.
             ++ intros e He. rewrite nth_upd by (rewrite L'; apply HN; lia).
                apply in_app_or in He. destruct He as [He|[<-|[]]].
                ** destruct (Nat.eqb_spec (pos r (fst e)) (pos r j)).
                   --- exfalso. apply INJ in e0; auto; try lia. destruct e0 as [_ e0].
                       rewrite E, map_app in ND. simpl in ND. apply NoDup_remove_2 in ND. apply ND.
                       apply in_or_app. left. rewrite <- e0. now apply in_map.
                   --- auto.
                ** simpl. now rewrite Nat.eqb_refl.
             ++ intros i' j' Hi' Hj' Hor. rewrite nth_upd by (rewrite L'; apply HN; lia).
                destruct (Nat.eqb_spec (pos i' j') (pos r j)).
                ** exfalso. apply INJ in e; auto; try lia. destruct e; subst.
                   destruct Hor as [Hor|Hor]; [lia|]. apply Hor. rewrite map_app. apply in_or_app. simpl; auto.
                ** apply H2; auto. destruct Hor as [Hor|Hor]; auto. right. intros Hin. apply Hor.
                   rewrite map_app. apply in_or_app; auto.
        * intros d' (L' & H1 & H2). split; auto. intros i j Hi Hj. split.
          -- intros v Hir Hst. destruct (Nat.eq_dec i r).
             ++ subst. apply (H1 (j, v)). exact Hst.
             ++ rewrite H2 by auto. apply Hd; auto. lia.
          -- intros Hor. rewrite H2; auto.
             ++ apply Hd; auto. destruct Hor as [Hor|Hor]; auto. left. lia.
             ++ destruct Hor as [Hor|Hor]; [left; lia|].
                destruct (Nat.eq_dec i r); [|left; auto]. right. intros Hin. apply in_map_iff in Hin.
                destruct Hin as ([a b] & Ea & Hin). simpl in Ea. subst. now apply (Hor b).
    - intros d (Ld & Hd). split; auto. intros i j Hi Hj. destruct (Hd i j Hi Hj) as [H1 H2]. split; auto.
  Qed.
End P.
