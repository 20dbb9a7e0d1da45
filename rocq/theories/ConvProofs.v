(** * ConvProofs: row lists, and CRS <-> CCS conversion. *)
From Coq Require Import List Arith Lia Bool Sorted Ring Permutation.
From Verif Require Import Base Scalar Spec CSModel CSSpec ConvModel ConvSpec BucketProofs.
Import ListNotations.

(** ** Lists *)
Fixpoint asc (l : list nat) : Prop :=
  match l with
  | [] => True
  | x :: t => (forall y, In y t -> x < y) /\ asc t
  end.

Lemma asc_app : forall l1 l2, asc (l1 ++ l2) <->
  asc l1 /\ asc l2 /\ forall x y, In x l1 -> In y l2 -> x < y.
Proof.
  induction l1; simpl; intros.
  - intuition.
  - rewrite IHl1. split.
    + intros (H1 & H2 & H3 & H4). repeat split; auto.
      * intros; apply H1; apply in_or_app; auto.
      * intros x y [->|Hx] Hy; auto. apply H1. apply in_or_app; auto.
    + intros ((H1 & H2) & H3 & H4). repeat split; auto.
      intros y Hy. apply in_app_or in Hy. destruct Hy; auto.
Qed.

Lemma asc_nth : forall l, asc l <-> forall i j, i < j -> j < length l -> nth i l 0 < nth j l 0.
Proof.
  induction l; simpl.
  - split; auto; intros; lia.
  - split.
    + intros [H1 H2] i j Hij Hj. destruct i, j; try lia.
      * apply H1. apply nth_In. lia.
      * apply IHl; auto; lia.
    + intros H. split.
      * intros y Hy. apply (In_nth _ _ 0) in Hy. destruct Hy as (k & Hk & <-).
        apply (H 0 (S k)); lia.
      * apply IHl. intros i j Hij Hj. apply (H (S i) (S j)); lia.
Qed.

Lemma asc_NoDup : forall l, asc l -> NoDup l.
Proof.
  induction l; simpl; intros; constructor.
  - intros H1. destruct H as [H _]. specialize (H _ H1). lia.
  - apply IHl, H.
Qed.

(** Strictly ascending lists of pairs with the same elements are equal. *)
Lemma asc_pairs_eq : forall V (l1 l2 : list (nat * V)),
  asc (map fst l1) -> asc (map fst l2) ->
  (forall e, In e l1 <-> In e l2) -> l1 = l2.
Proof.
  induction l1 as [|a l1 IH]; intros l2 A1 A2 H.
  - destruct l2 as [|b l2]; auto. exfalso. apply (H b). simpl; auto.
  - destruct l2 as [|b l2]. { exfalso. apply (H a). simpl; auto. }
    simpl in A1, A2. destruct A1 as [A1 A1'], A2 as [A2 A2'].
    assert (a = b).
    { destruct (proj1 (H a) (or_introl eq_refl)) as [E|E]; auto.
      destruct (proj2 (H b) (or_introl eq_refl)) as [F|F]; auto.
      exfalso. pose proof (A1 (fst b) (in_map fst _ _ F)).
      pose proof (A2 (fst a) (in_map fst _ _ E)). lia. }
    subst b. f_equal. apply IH; auto. intros e. split; intros He.
    + destruct (proj1 (H e) (or_intror He)); auto. subst.
      pose proof (A1 (fst e) (in_map fst _ _ He)). lia.
    + destruct (proj2 (H e) (or_intror He)); auto. subst.
      pose proof (A2 (fst e) (in_map fst _ _ He)). lia.
Qed.

Lemma filter_none : forall A (f : A -> bool) l, (forall a, In a l -> f a = false) -> filter f l = [].
Proof. induction l; simpl; intros; auto. rewrite H by auto. auto. Qed.
Lemma filter_all : forall A (f : A -> bool) l, (forall a, In a l -> f a = true) -> filter f l = l.
Proof. induction l; simpl; intros; auto. rewrite H by auto. f_equal; auto. Qed.
Lemma filter_map : forall A B (g : A -> B) (f : B -> bool) l,
  filter f (map g l) = map g (filter (fun a => f (g a)) l).
Proof. induction l; simpl; auto. destruct (f (g a)); simpl; rewrite IHl; auto. Qed.
Lemma filter_flat_map : forall A B (g : A -> list B) (f : B -> bool) l,
  filter f (flat_map g l) = flat_map (fun a => filter f (g a)) l.
Proof. induction l; simpl; auto. rewrite filter_app, IHl. auto. Qed.
Lemma map_flat_map : forall A B C (g : A -> list B) (h : B -> C) l,
  map h (flat_map g l) = flat_map (fun a => map h (g a)) l.
Proof. induction l; simpl; auto. rewrite map_app, IHl. auto. Qed.
Lemma flat_map_ext_in : forall A B (f g : A -> list B) l,
  (forall a, In a l -> f a = g a) -> flat_map f l = flat_map g l.
Proof. induction l; simpl; intros; auto. rewrite H, IHl; auto. Qed.

(** Sorting by key with [flat_map filter] over the key range. *)
Lemma flat_map_only : forall A (f : nat -> list A) lo n i,
  lo <= i < lo + n -> (forall k, lo <= k < lo + n -> k <> i -> f k = []) ->
  flat_map f (seq lo n) = f i.
Proof.
  intros A f lo n. revert lo. induction n; simpl; intros; [lia|].
  destruct (Nat.eq_dec lo i).
  - subst. rewrite (flat_map_ext_in _ _ f (fun _ => [])).
    + clear. replace (flat_map (fun _ : nat => []) (seq (S i) n)) with (@nil A).
      now rewrite app_nil_r. induction (seq (S i) n); simpl; auto.
    + intros k Hk. apply in_seq in Hk. apply H0; lia.
  - rewrite H0 by lia. simpl. apply IHn; [lia|]. intros; apply H0; lia.
Qed.

Lemma flat_map_nils : forall A B (f : A -> list B) l, (forall a, In a l -> f a = []) -> flat_map f l = [].
Proof. induction l; simpl; intros; auto. rewrite H, IHl; auto. Qed.

Definition lt_hd (k : nat) (l : list nat) := forall x, In x l -> k <= x.

(** A non-decreasing key list is the concatenation of its key classes. *)
Lemma group_sorted : forall V n lo (l : list (nat * V)),
  (forall e, In e l -> lo <= fst e < lo + n) ->
  (forall pre a b post, l = pre ++ a :: b :: post -> fst a <= fst b) ->
  flat_map (fun k => filter (fun e => fst e =? k) l) (seq lo n) = l.
Proof.
  induction n; intros lo l Hr Hs; simpl.
  - destruct l as [|a l]; auto. specialize (Hr a (or_introl eq_refl)). lia.
  - (* split l into those equal to lo and the rest *)
    assert (G : exists l1 l2, l = l1 ++ l2 /\ (forall e, In e l1 -> fst e = lo)
        /\ (forall e, In e l2 -> lo < fst e)).
    { clear IHn. revert Hr Hs. induction l as [|a l IH]; intros.
      - exists [], []. simpl. intuition.
      - destruct IH as (l1 & l2 & E & H1 & H2).
        + intros; apply Hr; simpl; auto.
        + intros pre x y post E. apply (Hs (a :: pre) x y post). now rewrite E.
        + destruct (Nat.eq_dec (fst a) lo).
          * exists (a :: l1), l2. simpl. rewrite E. split; auto. split; auto.
            intros e0 [<-|]; auto.
          * exists [], (a :: l). simpl. split; auto. split; [tauto|].
            assert (GE : forall q pre x, a :: l = pre ++ x :: q -> forall e, In e q -> fst x <= fst e).
            { induction q as [|y q IHq]; simpl; intros pre x Ex e0 He; [tauto|].
              destruct He as [<-|He].
              - apply (Hs pre x y q); auto.
              - transitivity (fst y). { apply (Hs pre x y q); auto. }
                apply (IHq (pre ++ [x]) y); auto. now rewrite <- app_assoc. }
            intros e0 [<-|He].
            -- specialize (Hr a (or_introl eq_refl)). lia.
            -- specialize (Hr a (or_introl eq_refl)). specialize (GE l [] a eq_refl e0 He). lia. }
    destruct G as (l1 & l2 & E & H1 & H2). subst l.
    rewrite filter_app. rewrite (filter_all _ _ l1) by (intros; apply Nat.eqb_eq; auto).
    rewrite (filter_none _ _ l2) by (intros a Ha; apply Nat.eqb_neq; specialize (H2 a Ha); lia).
    rewrite app_nil_r. f_equal.
    transitivity (flat_map (fun k => filter (fun e => fst e =? k) l2) (seq (S lo) n)); [|apply IHn].
    + apply flat_map_ext_in. intros k Hk. apply in_seq in Hk. rewrite filter_app.
      rewrite (filter_none _ _ l1); auto. intros a Ha. apply Nat.eqb_neq. rewrite H1 by auto. lia.
    + intros e He. specialize (H2 e He). specialize (Hr e ltac:(apply in_or_app; auto)). lia.
    + intros pre a b post Ep. apply (Hs (l1 ++ pre) a b post). rewrite Ep. now rewrite <- app_assoc.
Qed.

Section P.
  Variable O : Ops.
  Notation T := (T O).
  Implicit Types A B : CS O.

  Lemma rowl_length : forall A i, length (rowl A i) = st A (S i) - st A i.
  Proof. intros. unfold rowl. now rewrite map_length, seq_length. Qed.

  Lemma rowl_nth : forall A i r d, r < st A (S i) - st A i ->
    nth r (rowl A i) d = (ix A (st A i + r), vl A (st A i + r)).
  Proof. intros. unfold rowl. now rewrite nth_map_seq'. Qed.

  Lemma rowl_in : forall A i j v, In (j, v) (rowl A i) <->
    exists k, st A i <= k < st A (S i) /\ ix A k = j /\ vl A k = v.
  Proof.
    intros. unfold rowl. rewrite in_map_iff. split.
    - intros (k & E & H). apply in_seq in H. injection E; intros. exists k. split; auto. lia.
    - intros (k & H & <- & <-). exists k. split; auto. apply in_seq. lia.
  Qed.

  Lemma wf_rowl_range : forall A, wf A -> forall i e, i < psize A -> In e (rowl A i) -> fst e < ssize A.
  Proof.
    intros A W i [j v] Hi H. apply rowl_in in H. destruct H as (k & Hk & <- & _). simpl.
    apply W. pose proof (st_mono O A W (S i) (psize A) ltac:(lia) ltac:(lia)). lia.
  Qed.

  Lemma sorted_asc : forall A, sorted A <-> forall i, i < psize A -> asc (map fst (rowl A i)).
  Proof.
    intros A. split.
    - intros H i Hi. apply asc_nth. rewrite map_length, rowl_length. intros a b Hab Hb.
      change 0 with (fst (0, t0 O)). rewrite !map_nth, !rowl_nth by lia. simpl. apply (H i); auto; lia.
    - intros H i k l Hi Hk Hkl Hl. specialize (H i Hi). rewrite asc_nth in H.
      rewrite map_length, rowl_length in H.
      specialize (H (k - st A i) (l - st A i) ltac:(lia) ltac:(lia)).
      change 0 with (fst (0, t0 O)) in H. rewrite !map_nth, !rowl_nth in H by lia. simpl in H.
      now replace (st A i + (k - st A i)) with k in H by lia;
      replace (st A i + (l - st A i)) with l in H by lia.
  Qed.

  Lemma sorted_distinct : forall A, sorted A -> distinct A.
  Proof. intros A H i Hi. apply asc_NoDup. apply sorted_asc; auto. Qed.

  (** Validity from the rows. *)
  Lemma locate : forall A, st A 0 = 0 -> (forall i, i < psize A -> st A i <= st A (S i)) ->
    forall n k, n <= psize A -> k < st A n -> exists i, i < n /\ st A i <= k < st A (S i).
  Proof.
    intros A H0 Hm. induction n; intros k Hn Hk; [lia|].
    destruct (Nat.lt_ge_cases k (st A n)).
    - destruct (IHn k ltac:(lia) H) as (i & Hi & Hik). exists i. split; auto; lia.
    - exists n. split; auto; lia.
  Qed.

  Lemma wf_of_rows : forall A, psize A + 1 <= length (ind_start A) -> st A 0 = 0 ->
    (forall i, i < psize A -> st A i <= st A (S i)) ->
    st A (psize A) <= length (indices A) -> st A (psize A) <= length (vals A) ->
    (forall i e, i < psize A -> In e (rowl A i) -> fst e < ssize A) -> wf A.
  Proof.
    intros A H1 H2 H3 H4 H5 H6. constructor; auto.
    intros k Hk. destruct (locate A H2 H3 (psize A) k ltac:(lia) Hk) as (i & Hi & Hik).
    apply (H6 i (ix A k, vl A k)); auto. apply rowl_in. exists k. auto.
  Qed.

  (** Two tight storages with the same rows are equal. *)
  Lemma cs_ext : forall A B, wf A -> wf B -> tight A -> tight B ->
    psize A = psize B -> ssize A = ssize B ->
    (forall i, i < psize A -> rowl A i = rowl B i) -> A = B.
  Proof.
    intros A B WA WB (TA1 & TA2 & TA3) (TB1 & TB2 & TB3) Ep Es Hr.
    assert (ST : forall i, i <= psize A -> st A i = st B i).
    { induction i; intros. { rewrite (wf_first O A WA), (wf_first O B WB). auto. }
      pose proof (Hr i ltac:(lia)) as E. apply (f_equal (@length _)) in E.
      rewrite !rowl_length in E. pose proof (wf_mono O A WA i ltac:(lia)).
      pose proof (wf_mono O B WB i ltac:(lia)). specialize (IHi ltac:(lia)). lia. }
    assert (IX : forall k, k < st A (psize A) -> ix A k = ix B k /\ vl A k = vl B k).
    { intros k Hk. destruct (locate A (wf_first O A WA) (wf_mono O A WA) (psize A) k ltac:(lia) Hk) as (i & Hi & Hik).
      pose proof (Hr i Hi) as E. apply (f_equal (fun l => nth (k - st A i) l (0, t0 O))) in E.
      rewrite !rowl_nth in E by (try rewrite <- !ST by lia; lia).
      rewrite <- ST in E by lia. replace (st A i + (k - st A i)) with k in E by lia.
      now inversion E. }
    destruct A as [pA sA iA xA vA], B as [pB sB iB xB vB]. simpl in *. subst pB sB. f_equal.
    - apply (list_ext _ _ _ 0); [congruence|]. intros i Hi. apply (ST i). lia.
    - apply (list_ext _ _ _ 0). { rewrite TA2, TB2. apply ST; auto. }
      intros k Hk. apply IX. lia.
    - apply (list_ext _ _ _ (t0 O)). { rewrite TA3, TB3. apply ST; auto. }
      intros k Hk. apply IX. lia.
  Qed.

  (** Inner loops over a primary as loops over its row list. *)
  Lemma range_rowl : forall S A (f : nat -> T -> S -> res S) i s, wf A -> i < psize A ->
    for_range (st A i) (st A (Datatypes.S i))
       (fun k s => j <- get (indices A) k ;; v <- get (vals A) k ;; f j v s) s
    = for_list (rowl A i) (fun e => f (fst e) (snd e)) s.
  Proof.
    intros S A f i s W Hi. rewrite for_range_list. unfold rowl. rewrite for_list_map.
    apply for_list_ext_in. intros k s' Hk. apply in_seq in Hk.
    pose proof (wf_mono O A W i Hi). pose proof (st_mono O A W (Datatypes.S i) (psize A) ltac:(lia) ltac:(lia)).
    rewrite (get_nth _ _ _ 0) by (pose proof (wf_inds O A W); lia). simpl.
    rewrite (get_nth _ _ _ (t0 O)) by (pose proof (wf_vals O A W); lia). reflexivity.
  Qed.

  Lemma row_iter_rowl : forall S A (f : nat -> T -> S -> res S) i s, wf A -> i < psize A ->
    row_iter O A i f s = for_list (rowl A i) (fun e => f (fst e) (snd e)) s.
  Proof.
    intros S A f i s W Hi. unfold row_iter.
    pose proof (wf_len O A W). pose proof (wf_mono O A W i Hi).
    rewrite (get_nth _ _ _ 0) by lia. simpl. rewrite (get_nth _ _ _ 0) by lia. simpl.
    fold (st A i). fold (st A (Datatypes.S i)).
    destruct (Nat.ltb_spec (st A (Datatypes.S i)) (st A i)); [lia|].
    now apply range_rowl.
  Qed.

  (** All stored entries as (secondary, (primary, value)), in storage order,
      up to primary [n]. *)
  Definition ents A (n : nat) : list (nat * (nat * T)) :=
    flat_map (fun i => map (fun e => (fst e, (i, snd e))) (rowl A i)) (seq 0 n).

  Lemma ents_S : forall A n, ents A (S n) = ents A n ++ map (fun e => (fst e, (n, snd e))) (rowl A n).
  Proof. intros. unfold ents. rewrite seq_S, flat_map_app. simpl. now rewrite app_nil_r. Qed.

  Lemma ents_prefix : forall A i n, i <= n -> exists post, ents A n = ents A i ++ post.
  Proof.
    intros A i n H. induction H.
    - exists []. now rewrite app_nil_r.
    - destruct IHle as (post & E). rewrite ents_S, E, <- app_assoc. eauto.
  Qed.

  Lemma ents_keys : forall A, wf A -> forall n, n <= psize A -> length (ents A n) = st A n /\
    map fst (ents A n) = firstn (st A n) (indices A).
  Proof.
    intros A W. induction n; intros Hn.
    - rewrite (wf_first O A W). auto.
    - destruct (IHn ltac:(lia)) as [L E].
      pose proof (wf_mono O A W n ltac:(lia)) as M.
      pose proof (st_mono O A W (S n) (psize A) ltac:(lia) ltac:(lia)) as M2.
      pose proof (wf_inds O A W) as LI.
      rewrite ents_S. split.
      + rewrite app_length, map_length, rowl_length. lia.
      + rewrite map_app, E, map_map. simpl.
        apply (list_ext _ _ _ 0).
        { rewrite app_length, !firstn_length, map_length, rowl_length. lia. }
        intros k Hk. rewrite app_length, firstn_length, map_length, rowl_length in Hk.
        rewrite (nth_firstn_lt _ (st A (S n))) by lia.
        destruct (Nat.lt_ge_cases k (st A n)).
        * rewrite app_nth1 by (rewrite firstn_length; lia). now apply nth_firstn_lt.
        * rewrite app_nth2 by (rewrite firstn_length; lia).
          rewrite firstn_length, (Nat.min_l (st A n)) by lia.
          change 0 with (fst (0, t0 O)) at 1. rewrite map_nth, rowl_nth by lia. simpl.
          unfold ix. f_equal. lia.
  Qed.

  Lemma ents_in : forall A n j i v, In (j, (i, v)) (ents A n) <-> i < n /\ In (j, v) (rowl A i).
  Proof.
    intros. unfold ents. rewrite in_flat_map. split.
    - intros (k & Hk & H). apply in_seq in Hk. apply in_map_iff in H.
      destruct H as ([j' v'] & E & H). simpl in E. inversion E; subst. split; auto; lia.
    - intros (Hi & H). exists i. split. { apply in_seq; lia. }
      apply in_map_iff. exists (j, v). auto.
  Qed.

  Lemma bk_ents : forall A n k, bk k (ents A n)
    = flat_map (fun i => map (fun e => (i, snd e)) (filter (fun e => fst e =? k) (rowl A i))) (seq 0 n).
  Proof.
    intros. unfold bk, ents. rewrite filter_flat_map, map_flat_map.
    apply flat_map_ext_in. intros i _. rewrite filter_map, map_map. reflexivity.
  Qed.

  (** Storage built from buckets. *)
  Lemma bucketed_storage : forall n m es p ind val,
    bucketed O n es p ind val ->
    (forall e, In e es -> fst e < n /\ fst (snd e) < m) ->
    let B := mkCS n m p ind val in
    wf B /\ tight B /\ forall k, k < n -> rowl B k = bk k es.
  Proof.
    intros n m es p ind val (Lp & Li & Lv & Hp & Hr) Hes B.
    assert (HR : forall k, k < n -> rowl B k = bk k es) by (intros; apply Hr; auto).
    assert (ST : forall k, k <= n -> st B k = below k es) by (intros; apply Hp; auto).
    assert (LN : below n es = length es) by (apply below_all; intros; apply Hes; auto).
    split; [|split]; auto.
    - apply wf_of_rows; simpl.
      + lia.
      + rewrite ST by lia. apply below_0.
      + intros. rewrite !ST by lia. apply below_mono. lia.
      + rewrite ST by lia. lia.
      + rewrite ST by lia. lia.
      + intros i [j v] Hi He. rewrite HR in He by auto. apply (bk_in i (j, v) es) in He.
        apply Hes in He. simpl in *. tauto.
    - repeat split; simpl; auto; rewrite ST by lia; lia.
  Qed.

  Lemma place_row_wp : forall n es pre row post s,
    es = pre ++ row ++ post -> (forall e, In e es -> fst e < n) ->
    placed O n es pre s ->
    wp (for_list row (fun e => place O (fst e) (fst (snd e)) (snd (snd e))) s)
       (placed O n es (pre ++ row)).
  Proof.
    intros n es pre row. revert pre. induction row as [|[k [i v]] row IH]; intros pre post s E Hk H.
    - simpl. now rewrite app_nil_r.
    - simpl. wpb. eapply wp_conseq.
      + eapply place_wp; eauto. 
      + intros s' H'. replace (pre ++ (k, (i, v)) :: row) with ((pre ++ [(k, (i, v))]) ++ row)
          by (rewrite <- app_assoc; auto).
        apply (IH _ post); auto. rewrite E. rewrite <- app_assoc. auto.
  Qed.

  Definition crow (i : nat) (row : list (nat * T)) := map (fun e => (fst e, (i, snd e))) row.

  Lemma place_crow_wp : forall n es pre i row post s,
    es = pre ++ crow i row ++ post -> (forall e, In e es -> fst e < n) ->
    placed O n es pre s ->
    wp (for_list row (fun e => place O (fst e) i (snd e)) s) (placed O n es (pre ++ crow i row)).
  Proof.
    intros. pose proof (place_row_wp n es pre (crow i row) post s H H0 H1) as G.
    unfold crow in G at 1. rewrite for_list_map in G. exact G.
  Qed.

  (** ** CRS <-> CCS *)
  Lemma convert_storage_wp : forall A op oind oval, wf A -> tight A ->
    op = repeat 0 (ssize A + 1) -> length oind = nnz_of A -> length oval = nnz_of A ->
    wp (convert_storage O (ind_start A) (indices A) (vals A) op oind oval)
       (fun r => let '(p, ind, val) := r in bucketed O (ssize A) (ents A (psize A)) p ind val).
  Proof.
    intros A op oind oval W (T1 & T2 & T3) Eop L1 L2. unfold nnz_of in *.
    assert (KEYS : forall e, In e (ents A (psize A)) -> fst e < ssize A).
    { intros [j [i v]] He. apply ents_in in He. simpl.
      apply (wf_rowl_range A W i (j, v)); tauto. }
    destruct (ents_keys A W (psize A) ltac:(lia)) as [LE KE].
    rewrite firstn_all2 in KE by lia.
    unfold convert_storage. wpb. apply wp_get with (d := 0); [lia|].
    replace (length (ind_start A) - 1) with (psize A) by lia. fold (st A (psize A)).
    rewrite T2, T3, L1, L2, !Nat.eqb_refl. cbn [negb].
    replace (length op - 1) with (ssize A) by (subst op; rewrite repeat_length; lia). subst op.
    replace (count_keys (indices A)) with (count_keys (map fst (ents A (psize A)))) by now rewrite KE.
    wpb. eapply wp_conseq. { apply count_keys_wp; exact KEYS. }
    intros p1 (Lp1 & Hp1 & Hp1').
    wpb. eapply wp_conseq. { apply (accumulate_wp _ (ents A (psize A))); eauto. }
    intros p2 (Lp2 & Hp2).
    wpb. eapply wp_conseq.
    - apply (for_range_inv _ (fun i (s : nat * (list nat * list nat * list T)) =>
        fst s = st A i /\ placed O (ssize A) (ents A (psize A)) (ents A i) (snd s))); [lia| |].
      + simpl. rewrite (wf_first O A W). split; auto. unfold bk. simpl. unfold placed.
        split; [auto|]. split; [lia|]. split; [lia|]. split.
        { rewrite Hp2 by lia. now apply below_all. }
        split; intros. { rewrite Hp2 by lia. simpl. lia. } simpl in H0. lia.
      + intros i [pos s] Hi [Epos Hs]. simpl in Epos, Hs. subst pos.
        pose proof (wf_mono O A W i ltac:(lia)) as M.
        wpb. apply wp_get with (d := 0); [lia|]. wpb. apply wp_get with (d := 0); [lia|].
        fold (st A i) (st A (S i)).
        destruct (Nat.ltb_spec (st A (S i)) (st A i)); [lia|].
        replace (st A i + (st A (S i) - st A i)) with (st A (S i)) by lia.
        wpb. rewrite range_rowl by (auto; lia). rewrite ents_S.
        destruct (ents_prefix A (S i) (psize A) ltac:(lia)) as (post & Epost).
        eapply wp_conseq.
        * apply (place_crow_wp (ssize A) (ents A (psize A)) (ents A i) i (rowl A i) post); auto.
          rewrite Epost, ents_S, <- app_assoc. reflexivity.
        * intros s' Hs'. apply wp_ok. simpl. split; auto.
    - intros [pos [[p3 ind] val]] [_ H]. simpl in H.
      pose proof H as (Lp3 & _).
      wpb. eapply wp_conseq. { apply shift_swap_wp. lia. }
      intros p4 (Lp4 & A1 & A2 & A3). apply wp_ok.
      eapply placed_shift_bucketed; eauto. lia.
  Qed.

  (** Result of the conversion, row by row. *)
  Lemma other_storage_rows : forall A ji jv, wf A -> tight A ->
    exists B, other_storage O ji jv A = Ok B /\ wf B /\ tight B /\
      psize B = ssize A /\ ssize B = psize A /\ nnz_of B = nnz_of A /\
      forall k, k < psize B -> rowl B k =
        flat_map (fun i => map (fun e => (i, snd e)) (filter (fun e => fst e =? k) (rowl A i)))
                 (seq 0 (psize A)).
  Proof.
    intros A ji jv W T.
    assert (Z : nnz O A = Ok (nnz_of A)).
    { unfold nnz, nnz_of. destruct T as (T1 & T2 & T3). destruct (indices A) eqn:E.
      - simpl in T2. now rewrite <- T2.
      - rewrite (get_nth _ _ _ 0) by lia. simpl. rewrite (get_nth _ _ _ 0) by lia. simpl.
        replace (length (ind_start A) - 1) with (psize A) by lia.
        pose proof (wf_first O A W) as F. unfold st in *. rewrite F. f_equal. lia. }
    apply wp_inv. unfold other_storage. rewrite Z. simpl.
    destruct (Nat.eqb_spec (nnz_of A) 0).
    - apply wp_ok. simpl.
      assert (ST : forall k, nth k (repeat 0 (ssize A + 1)) 0 = 0).
      { intros. apply nth_repeat. }
      split; [|split; [|split; [|split; [|split]]]]; auto.
      + constructor; unfold st; simpl; rewrite ?repeat_length, ?ST; auto; try lia.
        intros. rewrite !ST. lia.
      + repeat split; unfold st; simpl; rewrite ?repeat_length, ?ST; auto.
      + unfold nnz_of at 1, st. simpl. now rewrite ST.
      + intros k Hk. unfold rowl at 1, st. simpl ind_start. rewrite !ST. simpl.
        symmetry. apply flat_map_nils. intros i Hi. apply in_seq in Hi.
        replace (rowl A i) with (@nil (nat * Scalar.T O)); auto.
        symmetry. apply length_zero_iff_nil. rewrite rowl_length.
        pose proof (st_mono O A W (S i) (psize A) ltac:(lia) ltac:(lia)). unfold nnz_of in *. lia.
    - wpb. eapply wp_conseq.
      { apply convert_storage_wp; auto; now rewrite repeat_length. }
      intros [[p ind] val] H. apply wp_ok.
      destruct (bucketed_storage (ssize A) (psize A) _ p ind val H) as (H1 & H2 & H3).
      { intros [j [i v]] He. apply ents_in in He. simpl. split; [|tauto].
        apply (wf_rowl_range A W i (j, v)); tauto. }
      split; auto. split; auto. split; auto. split; auto. split.
      { destruct H2 as (_ & H2 & _). destruct H as (_ & Li & _). simpl in *. unfold nnz_of in *. simpl in *.
        rewrite <- H2, Li. apply ents_keys; auto. }
      intros k Hk. rewrite H3 by auto. apply bk_ents.
  Qed.

  Lemma rowl_transpose : forall A B n, 
    (forall k, k < psize B -> rowl B k =
        flat_map (fun i => map (fun e => (i, snd e)) (filter (fun e => fst e =? k) (rowl A i)))
                 (seq 0 n)) ->
    forall k i, k < psize B -> i < n ->
      filter (fun e => fst e =? i) (rowl B k)
      = map (fun e => (i, snd e)) (filter (fun e => fst e =? k) (rowl A i)).
  Proof.
    intros A B n H k i Hk Hi. rewrite H by auto. rewrite filter_flat_map.
    rewrite (flat_map_only _ _ 0 n i) by (try lia; intros k' _ Hn; rewrite filter_map; simpl;
      apply Nat.eqb_neq in Hn; rewrite Hn; rewrite filter_none; auto).
    rewrite filter_map. simpl. rewrite Nat.eqb_refl. rewrite filter_all; auto.
  Qed.

  Lemma rows_stored : forall A B n,
    (forall k, k < psize B -> rowl B k =
        flat_map (fun i => map (fun e => (i, snd e)) (filter (fun e => fst e =? k) (rowl A i)))
                 (seq 0 n)) ->
    forall k i v, k < psize B -> (stored B k i v <-> i < n /\ stored A i k v).
  Proof.
    intros A B n H k i v Hk. unfold stored. rewrite H by auto. rewrite in_flat_map. split.
    - intros (i' & Hi' & Hin). apply in_seq in Hi'. apply in_map_iff in Hin.
      destruct Hin as ([j v'] & E & F). simpl in E. inversion E; subst. apply filter_In in F.
      destruct F as [F1 F2]. simpl in F2. apply Nat.eqb_eq in F2. subst. split; auto; lia.
    - intros (Hi & F). exists i. split. { apply in_seq; lia. }
      apply in_map_iff. exists (k, v). split; auto. apply filter_In. simpl. now rewrite Nat.eqb_refl.
  Qed.

  Lemma rows_sorted : forall A B n, n <= psize A -> distinct A ->
    (forall k, k < psize B -> rowl B k =
        flat_map (fun i => map (fun e => (i, snd e)) (filter (fun e => fst e =? k) (rowl A i)))
                 (seq 0 n)) -> sorted B.
  Proof.
    intros A B n Hn D H. apply sorted_asc. intros k Hk. rewrite H by auto. clear H Hk.
    rewrite map_flat_map.
    assert (G : forall n lo, lo + n <= psize A ->
      asc (flat_map (fun i => map fst (map (fun e => (i, snd e)) (filter (fun e => fst e =? k) (rowl A i)))) (seq lo n))
      /\ forall x, In x (flat_map (fun i => map fst (map (fun e => (i, snd e)) (filter (fun e => fst e =? k) (rowl A i)))) (seq lo n)) -> lo <= x).
    { clear n Hn. induction n; intros lo Hlo; simpl; [split; auto; tauto|].
      destruct (IHn (S lo) ltac:(lia)) as [A1 A2]. split.
      - rewrite asc_app. rewrite map_map. simpl. split; [|split]; auto.
        + specialize (D lo ltac:(lia)).
          assert (LE : length (filter (fun e => fst e =? k) (rowl A lo)) <= 1).
          { clear -D. induction (rowl A lo) as [|a l IH]; simpl in *; auto.
            inversion D; subst. destruct (Nat.eqb_spec (fst a) k); auto. simpl.
            rewrite filter_none; simpl; auto. intros b Hb. apply Nat.eqb_neq. intros E.
            apply H1. rewrite e, <- E. now apply in_map. }
          destruct (filter _ _) as [|a [|b l]]; simpl in *; auto; try lia. intuition.
        + intros x y Hx Hy. apply in_map_iff in Hx. destruct Hx as (? & <- & _).
          specialize (A2 _ Hy). lia.
      - intros x Hx. apply in_app_or in Hx. destruct Hx as [Hx|Hx].
        + rewrite map_map in Hx. apply in_map_iff in Hx. destruct Hx as (? & <- & _). simpl. lia.
        + specialize (A2 _ Hx). lia. }
    apply (G n 0). lia.
  Qed.

  Lemma rows_nnz : forall A, wf A -> forall n, n <= psize A ->
    st A n = length (flat_map (rowl A) (seq 0 n)).
  Proof.
    intros A W. induction n; intros Hn. { apply (wf_first O A W). }
    rewrite seq_S, flat_map_app, app_length. simpl. rewrite app_nil_r, rowl_length.
    specialize (IHn ltac:(lia)). pose proof (wf_mono O A W n ltac:(lia)). lia.
  Qed.

  Section Laws.
    Hypothesis RL : RingLaws O.
    Add Ring TC : (rl_ring O RL).

    Definition lsum (l : list T) : T := fold_right (tadd O) (t0 O) l.

    Lemma lsum_app : forall l1 l2, lsum (l1 ++ l2) = tadd O (lsum l1) (lsum l2).
    Proof. unfold lsum. induction l1; simpl; intros. ring. rewrite IHl1. ring. Qed.

    Lemma ent_lsum : forall A i j,
      ent A i j = lsum (map snd (filter (fun e => fst e =? j) (rowl A i))).
    Proof.
      intros. unfold ent, rsum, rowl.
      induction (st A (S i) - st A i) as [|n IH]; auto.
      rewrite seq_S, map_app, filter_app, map_app, lsum_app, <- IH. simpl.
      destruct (ix A (st A i + n) =? j); simpl; ring.
    Qed.

    Lemma rows_ent : forall A B n,
      (forall k, k < psize B -> rowl B k =
        flat_map (fun i => map (fun e => (i, snd e)) (filter (fun e => fst e =? k) (rowl A i)))
                 (seq 0 n)) ->
      forall k i, k < psize B -> i < n -> ent B k i = ent A i k.
    Proof.
      intros. rewrite !ent_lsum. rewrite (rowl_transpose A B n) by auto.
      rewrite map_map. reflexivity.
    Qed.
  End Laws.
End P.
