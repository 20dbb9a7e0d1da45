(** * ConvProofs2: round trip, COO conversion, binary search, sorting. *)
From Coq Require Import List Arith Lia Bool Sorted Ring Permutation.
From Verif Require Import Base Scalar Spec CSModel CSSpec ConvModel ConvSpec BucketProofs ConvProofs.
Import ListNotations.

(** ** Sorting *)
Lemma insert_perm : forall x l, Permutation (insert x l) (x :: l).
Proof.
  induction l; simpl; auto. destruct (x <=? a); auto.
  rewrite IHl. apply perm_swap.
Qed.
Lemma isort_perm : forall l, Permutation (isort l) l.
Proof. induction l; simpl; auto. rewrite insert_perm. auto. Qed.

Fixpoint nondec (l : list nat) : Prop :=
  match l with
  | [] => True
  | x :: t => (forall y, In y t -> x <= y) /\ nondec t
  end.

Lemma insert_nondec : forall x l, nondec l -> nondec (insert x l).
Proof.
  induction l; simpl; intros; [intuition|].
  destruct (Nat.leb_spec x a); simpl.
  - destruct H as [H H']. repeat split; auto. intros y [<-|Hy]; auto.
    specialize (H y Hy). lia.
  - destruct H as [H H']. split; auto. intros y Hy.
    apply (Permutation_in _ (insert_perm x l)) in Hy. destruct Hy as [<-|Hy]; auto; lia.
Qed.
Lemma isort_nondec : forall l, nondec (isort l).
Proof. induction l; simpl; auto. now apply insert_nondec. Qed.
Lemma nondec_NoDup_asc : forall l, nondec l -> NoDup l -> asc l.
Proof.
  induction l; simpl; intros; auto. inversion H0; subst. destruct H as [H H']. split; auto.
  intros y Hy. specialize (H y Hy). assert (y <> a) by (intros ->; tauto). lia.
Qed.
Lemma isort_asc : forall l, NoDup l -> asc (isort l).
Proof.
  intros. apply nondec_NoDup_asc. apply isort_nondec.
  eapply Permutation_NoDup; [apply Permutation_sym, isort_perm|auto].
Qed.
Lemma isort_length : forall l, length (isort l) = length l.
Proof. intros. apply Permutation_length, isort_perm. Qed.

Lemma is_sortedb_nondec : forall l, is_sortedb l = true -> nondec l.
Proof.
  induction l as [|x l IH]; simpl; auto. destruct l as [|y l]; [simpl; intuition|].
  intros H. apply andb_prop in H. destruct H as [H1 H2]. apply Nat.leb_le in H1.
  specialize (IH H2). split; auto. intros z [<-|Hz]; auto.
  destruct IH as [IH _]. specialize (IH z Hz). lia.
Qed.

Lemma sort_range_wp : forall a lo hi (Q : list nat -> Prop), lo <= hi -> hi <= length a ->
  (forall a', length a' = length a ->
     (forall k, ~ (lo <= k < hi) -> nth k a' 0 = nth k a 0) ->
     (forall k, lo <= k < hi -> nth k a' 0 = nth (k - lo) (isort (slice lo (hi - lo) a)) 0) -> Q a') ->
  wp (sort_range a lo hi) Q.
Proof.
  intros a lo hi Q H1 H2 HQ. unfold sort_range.
  rewrite (proj2 (Nat.leb_le _ _) H1), (proj2 (Nat.leb_le _ _) H2). simpl.
  assert (LS : length (isort (slice lo (hi - lo) a)) = hi - lo).
  { rewrite isort_length. apply slice_length. lia. }
  apply HQ.
  - rewrite !app_length, firstn_length, skipn_length, LS. lia.
  - intros k Hk. destruct (Nat.lt_ge_cases k lo).
    + rewrite app_nth1 by (rewrite firstn_length; lia). now apply nth_firstn_lt.
    + rewrite app_nth2; rewrite firstn_length, Nat.min_l by lia; [|lia].
      rewrite app_nth2 by lia. rewrite LS, nth_skipn'. f_equal. lia.
  - intros k Hk. rewrite app_nth2; rewrite firstn_length, Nat.min_l by lia; [|lia].
    rewrite app_nth1 by lia. auto.
Qed.

(** ** Binary search *)
Lemma lower_bound_aux_wp : forall fuel a first len v, len <= fuel -> first + len <= length a ->
  (forall i j, first <= i -> i <= j -> j < first + len -> nth i a 0 <= nth j a 0) ->
  wp (lower_bound_aux fuel a first len v) (fun r => first <= r <= first + len /\
     (forall k, first <= k < r -> nth k a 0 < v) /\ (forall k, r <= k < first + len -> v <= nth k a 0)).
Proof.
  induction fuel; intros a first len v Hf Hl Hs; simpl.
  - split; [lia|]. split; intros; lia.
  - destruct (Nat.eqb_spec len 0).
    + simpl. split; [lia|]. split; intros; lia.
    + assert (D : Nat.div2 len < len) by (apply Nat.lt_div2; lia).
      wpb. apply wp_get with (d := 0); [lia|].
      destruct (Nat.ltb_spec (nth (first + Nat.div2 len) a 0) v).
      * eapply wp_conseq. { apply IHfuel; try lia. intros; apply Hs; lia. }
        intros r (R1 & R2 & R3). split; [lia|]. split.
        -- intros k Hk. destruct (Nat.lt_ge_cases k (S (first + Nat.div2 len))).
           ++ eapply Nat.le_lt_trans; [|exact H]. apply Hs; lia.
           ++ apply R2; lia.
        -- intros k Hk. apply R3; lia.
      * eapply wp_conseq. { apply IHfuel; try lia. intros; apply Hs; lia. }
        intros r (R1 & R2 & R3). split; [lia|]. split.
        -- intros; apply R2; lia.
        -- intros k Hk. destruct (Nat.lt_ge_cases k (first + Nat.div2 len)).
           ++ apply R3; lia.
           ++ eapply Nat.le_trans; [exact H|]. apply Hs; lia.
Qed.

Lemma find_sorted_wp : forall a first last v, first <= last -> last <= length a ->
  (forall i j, first <= i -> i <= j -> j < last -> nth i a 0 <= nth j a 0) ->
  wp (find_sorted a first last v) (fun r => first <= snd r <= last /\
     (forall k, first <= k < snd r -> nth k a 0 < v) /\
     (forall k, snd r <= k < last -> v <= nth k a 0) /\
     (fst r = true <-> exists k, first <= k < last /\ nth k a 0 = v)).
Proof.
  intros a first last v H1 H2 Hs. unfold find_sorted, lower_bound.
  destruct (Nat.ltb_spec last first); [lia|]. wpb.
  eapply wp_conseq. { apply lower_bound_aux_wp; try lia. intros; apply Hs; lia. }
  intros r (R1 & R2 & R3). replace (first + (last - first)) with last in * by lia.
  destruct (Nat.eqb_spec r last).
  - simpl. split; [lia|]. split; auto. split; auto. split; [discriminate|].
    intros (k & Hk & E). specialize (R2 k ltac:(lia)). lia.
  - wpb. apply wp_get with (d := 0); [lia|]. apply wp_ok. simpl. split; [lia|]. split; auto. split; auto.
    rewrite Nat.eqb_eq. split.
    + intros E. exists r. split; auto; lia.
    + intros (k & Hk & E). assert (r <= k).
      { destruct (Nat.le_gt_cases r k); auto. specialize (R2 k ltac:(lia)). lia. }
      specialize (R3 r ltac:(lia)). pose proof (Hs r k ltac:(lia) ltac:(lia) ltac:(lia)). lia.
Qed.

Section P.
  Variable O : Ops.
  Notation T := (T O).
  Implicit Types A B : CS O.

  (** ** C04 *)
  Lemma C04_l : forall A ji jv, wf A -> tight A ->
    exists B, other_storage O ji jv A = Ok B /\ wf B /\ tight B /\
      psize B = ssize A /\ ssize B = psize A /\ nnz_of B = nnz_of A /\
      (forall i j v, i < psize A -> j < ssize A -> (stored B j i v <-> stored A i j v)) /\
      (distinct A -> sorted B) /\
      (RingLaws O -> forall i j, i < psize A -> j < ssize A -> ent B j i = ent A i j).
  Proof.
    intros A ji jv W T. destruct (other_storage_rows O A ji jv W T) as (B & E & WB & TB & P1 & P2 & NZ & R).
    exists B. repeat (split; [assumption|]). split; [|split].
    - intros i j v Hi Hj. rewrite (rows_stored O A B (psize A) R) by lia. tauto.
    - intros D. apply (rows_sorted O A B (psize A)); auto.
    - intros RL i j Hi Hj. apply (rows_ent O RL A B (psize A)); auto; lia.
  Qed.

  Lemma sorted_rowl_nondec : forall A i, sorted A -> i < psize A ->
    forall pre a b post, rowl A i = pre ++ a :: b :: post -> fst a <= fst b.
  Proof.
    intros A i H Hi pre a b post E. rewrite sorted_asc in H. specialize (H i Hi).
    rewrite E, map_app, asc_app in H. destruct H as (_ & H & _). simpl in H. destruct H as [H _].
    specialize (H (fst b) (or_introl eq_refl)). lia.
  Qed.

  Lemma C04_round_l : forall A ji jv ji' jv', wf A -> tight A -> sorted A ->
    exists B, other_storage O ji jv A = Ok B /\ other_storage O ji' jv' B = Ok A.
  Proof.
    intros A ji jv ji' jv' W T SA.
    destruct (other_storage_rows O A ji jv W T) as (B & E & WB & TB & P1 & P2 & NZ & R).
    destruct (other_storage_rows O B ji' jv' WB TB) as (C & E' & WC & TC & P1' & P2' & NZ' & R').
    exists B. split; auto. rewrite E'. f_equal. apply cs_ext; auto; try congruence.
    intros i Hi. rewrite R' by auto.
    rewrite <- (group_sorted _ (ssize A) 0 (rowl A i)).
    - rewrite P1. apply flat_map_ext_in. intros k Hk. apply in_seq in Hk.
      rewrite (rowl_transpose O A B (psize A) R) by lia. rewrite map_map. simpl.
      rewrite <- (map_id (filter _ _)) at 2. apply map_ext_in. intros [j v] Hin.
      apply filter_In in Hin. simpl in *. destruct Hin as [_ Hin]. apply Nat.eqb_eq in Hin. now subst.
    - intros e He. split; [lia|]. simpl. apply (wf_rowl_range O A W i); auto; lia.
    - apply sorted_rowl_nondec; auto. lia.
  Qed.

  (** ** C05: coordinate triplets *)
  Definition trip (pidx sids : list nat) (cv : list T) : list (nat * (nat * T)) :=
    map (fun t => (nth t pidx 0, (nth t sids 0, nth t cv (t0 O)))) (seq 0 (length pidx)).

  Lemma trip_keys : forall pidx sids cv, map fst (trip pidx sids cv) = pidx.
  Proof.
    intros. unfold trip. rewrite map_map. simpl. apply (list_ext _ _ _ 0).
    - now rewrite map_length, seq_length.
    - intros i Hi. rewrite map_length, seq_length in Hi. now rewrite nth_map_seq.
  Qed.

  Lemma trip_in : forall pidx sids cv i j v, In (i, (j, v)) (trip pidx sids cv) <->
    exists t, t < length pidx /\ nth t pidx 0 = i /\ nth t sids 0 = j /\ nth t cv (t0 O) = v.
  Proof.
    intros. unfold trip. rewrite in_map_iff. split.
    - intros (t & E & H). apply in_seq in H. inversion E. exists t. repeat split; auto; lia.
    - intros (t & H & <- & <- & <-). exists t. split; auto. apply in_seq. lia.
  Qed.

  Lemma bk_nodup : forall (pidx sids : list nat) cv i,
    (forall t u, t < u -> u < length pidx -> nth t pidx 0 = nth u pidx 0 -> nth t sids 0 <> nth u sids 0) ->
    NoDup (map fst (bk i (trip pidx sids cv))).
  Proof.
    intros pidx sids cv i H. unfold trip, bk. rewrite map_map.
    assert (G : forall n lo, lo + n <= length pidx ->
      NoDup (map (fun x : nat * (nat * T) => fst (snd x)) (filter (fun e => fst e =? i)
        (map (fun t => (nth t pidx 0, (nth t sids 0, nth t cv (t0 O)))) (seq lo n))))).
    { induction n; intros lo Hlo; simpl; [constructor|].
      specialize (IHn (S lo) ltac:(lia)). destruct (Nat.eqb_spec (nth lo pidx 0) i); auto.
      simpl. constructor; auto. intros Hin. apply in_map_iff in Hin.
      destruct Hin as ([k [j v]] & E & F). apply filter_In in F. destruct F as [F1 F2].
      apply in_map_iff in F1. destruct F1 as (t & Et & Ht). apply in_seq in Ht.
      simpl in *. inversion Et; subst. apply Nat.eqb_eq in F2.
      apply (H lo t ltac:(lia) ltac:(lia)); congruence. }
    apply (G (length pidx) 0). lia.
  Qed.

  (** One row of the local sort. *)
  Lemma sort_pairs_wp : forall sec b e jv (ind : list nat) (val : list T) buf0,
    b <= e -> e <= length ind -> e <= length val ->
    length buf0 = sec -> buf0 = repeat jv sec ->
    (forall k, b <= k < e -> nth k ind 0 < sec) ->
    NoDup (slice b (e - b) ind) ->
    wp (buf <- for_range b e (fun k buf =>
               j <- get ind k ;; v <- get val k ;; set buf j v) buf0 ;;
        ind <- sort_range ind b e ;;
        val <- for_range b e (fun k val =>
               j <- get ind k ;; v <- get buf j ;; set val k v) val ;;
        Ok (ind, val))
      (fun r => let '(ind', val') := r in
        length ind' = length ind /\ length val' = length val /\
        (forall k, ~ (b <= k < e) -> nth k ind' 0 = nth k ind 0 /\ nth k val' (t0 O) = nth k val (t0 O)) /\
        asc (slice b (e - b) ind') /\
        (forall j v, (exists k, b <= k < e /\ nth k ind' 0 = j /\ nth k val' (t0 O) = v) <->
                     (exists k, b <= k < e /\ nth k ind 0 = j /\ nth k val (t0 O) = v))).
  Proof.
    intros sec b e jv ind val buf0 Hbe Li Lv Lb _ Hr ND.
    assert (INJ : forall k l, b <= k < e -> b <= l < e -> nth k ind 0 = nth l ind 0 -> k = l).
    { intros k l Hk Hl E. rewrite (NoDup_nth _ 0) in ND. rewrite slice_length in ND by lia.
      specialize (ND (k - b) (l - b) ltac:(lia) ltac:(lia)). rewrite !nth_slice in ND by lia.
      replace (b + (k - b)) with k in ND by lia. replace (b + (l - b)) with l in ND by lia.
      specialize (ND E). lia. }
    wpb. eapply wp_conseq.
    { apply (for_range_inv _ (fun i buf => length buf = sec /\
        forall k, b <= k < i -> nth (nth k ind 0) buf (t0 O) = nth k val (t0 O))); [lia| |].
      - split; auto. intros; lia.
      - intros i s Hi [Ls Hs]. wpb. apply wp_get with (d := 0); [lia|].
        wpb. apply wp_get with (d := t0 O); [lia|].
        apply wp_set. { rewrite Ls. apply Hr; lia. }
        rewrite upd_length. split; auto. intros k Hk.
        rewrite nth_upd by (rewrite Ls; apply Hr; lia).
        destruct (Nat.eqb_spec (nth k ind 0) (nth i ind 0)).
        + apply INJ in e0; try lia. now subst.
        + apply Hs. assert (k <> i) by congruence. lia. }
    intros buf [Lbuf Hbuf]. cbn beta.
    wpb. apply sort_range_wp; auto. intros ind' Li' Ho Hin.
    assert (PERM : forall j, (exists k, b <= k < e /\ nth k ind' 0 = j) <-> (exists k, b <= k < e /\ nth k ind 0 = j)).
    { intros j.
      assert (G1 : (exists k, b <= k < e /\ nth k ind' 0 = j) <-> In j (isort (slice b (e - b) ind))).
      { split.
        - intros (k & Hk & <-). rewrite Hin by auto. apply nth_In.
          rewrite isort_length, slice_length by lia. lia.
        - intros H. apply (In_nth _ _ 0) in H. destruct H as (r & Hr' & E).
          rewrite isort_length, slice_length in Hr' by lia. exists (b + r). split; [lia|].
          rewrite Hin by lia. rewrite <- E. f_equal. lia. }
      rewrite G1. split.
      - intros H. apply (Permutation_in _ (isort_perm _)) in H.
        apply (In_nth _ _ 0) in H. destruct H as (r & Hr' & E).
        rewrite slice_length in Hr' by lia. rewrite nth_slice in E by lia. exists (b + r). split; auto; lia.
      - intros (k & Hk & <-). apply (Permutation_in _ (Permutation_sym (isort_perm _))).
        replace (nth k ind 0) with (nth (k - b) (slice b (e - b) ind) 0).
        { apply nth_In. rewrite slice_length by lia. lia. }
        rewrite nth_slice by lia. f_equal. lia. }
    assert (RNG : forall k, b <= k < e -> nth k ind' 0 < sec).
    { intros k Hk. destruct (proj1 (PERM (nth k ind' 0)) ltac:(eauto)) as (l & Hl & <-). now apply Hr. }
    wpb. eapply wp_conseq.
    { apply (for_range_inv _ (fun i v' => length v' = length val /\
        (forall k, b <= k < i -> nth k v' (t0 O) = nth (nth k ind' 0) buf (t0 O)) /\
        (forall k, ~ (b <= k < i) -> nth k v' (t0 O) = nth k val (t0 O)))); [lia| |].
      - split; auto. split; auto. intros; lia.
      - intros i s Hi (Ls & H1 & H2). wpb. apply wp_get with (d := 0); [lia|].
        wpb. apply wp_get with (d := t0 O). { rewrite Lbuf. apply RNG; lia. }
        apply wp_set; [lia|]. rewrite upd_length. split; auto. split; intros k Hk; rewrite nth_upd by lia.
        + destruct (Nat.eqb_spec k i); [now subst|]. apply H1; lia.
        + destruct (Nat.eqb_spec k i); [lia|]. apply H2; lia. }
    intros val' (Lv' & Hv1 & Hv2). apply wp_ok.
    split; auto. split; auto. split.
    { intros k Hk. split; auto. }
    split.
    { replace (slice b (e - b) ind') with (isort (slice b (e - b) ind)).
      - now apply isort_asc.
      - apply (list_ext _ _ _ 0). { rewrite isort_length, !slice_length by lia. auto. }
        intros r Hr'. rewrite isort_length, slice_length in Hr' by lia. rewrite nth_slice by lia.
        rewrite Hin by lia. f_equal. lia. }
    intros j v. split.
    - intros (k & Hk & Ej & Ev). destruct (proj1 (PERM j) ltac:(eauto)) as (l & Hl & El).
      exists l. split; auto. split; auto. rewrite <- Ev, Hv1 by auto. rewrite Ej, <- El.
      symmetry. apply Hbuf; lia.
    - intros (k & Hk & Ej & Ev). destruct (proj2 (PERM j) ltac:(eauto)) as (l & Hl & El).
      exists l. split; auto. split; auto. rewrite Hv1 by auto. rewrite El, <- Ej. rewrite Hbuf by lia. auto.
  Qed.

  Lemma slice_rowl : forall np ns p ind (val : list T) i,
    nth (S i) p 0 <= length ind -> nth i p 0 <= nth (S i) p 0 ->
    slice (nth i p 0) (nth (S i) p 0 - nth i p 0) ind = map fst (rowl (mkCS np ns p ind val) i).
  Proof.
    intros. apply (list_ext _ _ _ 0).
    - rewrite slice_length, map_length, rowl_length by lia. reflexivity.
    - intros r Hr. rewrite slice_length in Hr by lia.
      rewrite nth_slice by lia. change 0 with (fst (0, t0 O)) at 3.
      rewrite map_nth, rowl_nth by (unfold st; simpl; lia). reflexivity.
  Qed.

  Lemma coo_rows : forall ji jv prim sec pidx sids cv,
    length sids = length pidx -> length cv = length pidx ->
    (forall t, t < length pidx -> nth t pidx 0 < prim /\ nth t sids 0 < sec) ->
    (forall t u, t < u -> u < length pidx -> nth t pidx 0 = nth u pidx 0 -> nth t sids 0 <> nth u sids 0) ->
    exists B, convert_coo2cs O ji jv prim sec pidx sids cv = Ok B /\
      is_storage B prim sec (fun i j v => exists t, t < length pidx /\ nth t pidx 0 = i /\
                                nth t sids 0 = j /\ nth t cv (t0 O) = v).
  Proof.
    intros ji jv prim sec pidx sids cv L1 L2 Hr Hd.
    set (es := trip pidx sids cv).
    assert (KEYS : forall e, In e es -> fst e < prim /\ fst (snd e) < sec).
    { intros [i [j v]] He. apply trip_in in He. destruct He as (t & Ht & <- & <- & _). simpl. auto. }
    assert (LE : length es = length pidx) by (unfold es, trip; now rewrite map_length, seq_length).
    apply wp_inv. unfold convert_coo2cs.
    rewrite <- (trip_keys pidx sids cv) at 1. fold es.
    wpb. eapply wp_conseq. { apply count_keys_wp. intros e He; apply KEYS; exact He. }
    intros p1 (Lp1 & Hp1 & Hp1').
    wpb. eapply wp_conseq. { apply (accumulate_wp _ es); eauto. }
    intros p2 (Lp2 & Hp2).
    wpb. eapply wp_conseq with (P := placed O prim es es).
    { rewrite for_range_list, Nat.sub_0_r.
      rewrite (for_list_ext_in _ _ _ (fun t => place O (nth t pidx 0) (nth t sids 0) (nth t cv (t0 O)))).
      - pose proof (place_all_wp O prim es p2 (repeat ji (length pidx)) (repeat jv (length pidx))
          (fun e He => proj1 (KEYS e He)) Lp2 ltac:(rewrite repeat_length; auto)
          ltac:(rewrite repeat_length; auto) Hp2) as G.
        unfold es at 1, trip in G. rewrite for_list_map in G. exact G.
      - intros t s Ht. apply in_seq in Ht. rewrite (get_nth _ _ _ 0) by lia. simpl.
        rewrite (get_nth _ _ _ 0) by lia. simpl. rewrite (get_nth _ _ _ (t0 O)) by lia. reflexivity. }
    intros [[p3 ind] val] HP. pose proof HP as (Lp3 & Li & Lv & _).
    wpb. eapply wp_conseq.
    { apply (for_down_inv _ (fun i p => length p = prim + 1 /\
        (forall k, i < k <= prim -> nth k p 0 = nth (k - 1) p3 0) /\
        (forall k, k <= i -> nth k p 0 = nth k p3 0))).
      - split; auto. split; auto. intros; lia.
      - intros i s Hi (Ls & H1 & H2). wpb. apply wp_get with (d := 0); [lia|]. apply wp_set; [lia|].
        rewrite upd_length. split; auto. split; intros k Hk; rewrite nth_upd by lia.
        + destruct (Nat.eqb_spec k (S i)).
          * subst. rewrite H2 by lia. f_equal; lia.
          * apply H1; lia.
        + destruct (Nat.eqb_spec k (S i)); [lia|]. apply H2; lia. }
    intros p4 (Lp4 & H4 & H4'). cbn beta.
    wpb. apply wp_set; [lia|].
    set (p := upd p4 0 0).
    assert (BKT : bucketed O prim es p ind val).
    { eapply placed_shift_bucketed; eauto.
      - intros; apply KEYS; auto.
      - unfold p. now rewrite upd_length.
      - intros. unfold p. rewrite nth_upd by lia. auto.
      - intros k Hk. unfold p. rewrite nth_upd by lia. destruct (Nat.eqb_spec k 0); [lia|]. apply H4; lia.
      - destruct HP as (_ & _ & _ & Hn & Hk & _). unfold p. rewrite nth_upd by lia.
        destruct (Nat.eqb_spec prim 0).
        + subst prim. rewrite Hn. assert (es = []) as ->; auto.
          destruct es as [|e l]; auto. destruct (KEYS e (or_introl eq_refl)). lia.
        + rewrite H4 by lia. rewrite Hk by lia. rewrite Hn.
          rewrite <- below_S. replace (S (prim - 1)) with prim by lia. apply below_all. apply KEYS. }
    clear HP Hp1 Hp1' Hp2 H4 H4' Lp1 Lp2 Lp3 p1 p2 p3.
    destruct BKT as (Lp & Li' & Lv' & Hp & HB).
    assert (PM : forall i, i < prim -> nth i p 0 <= nth (S i) p 0 /\ nth (S i) p 0 <= length es).
    { intros i Hi. rewrite !Hp by lia. split. apply below_mono; lia. apply below_le. }
    assert (DISJ : forall i i' k, i < prim -> i' < prim -> i <> i' -> nth i p 0 <= k < nth (S i) p 0 ->
        ~ nth i' p 0 <= k < nth (S i') p 0).
    { intros i i' k Hi Hi' Hn Hk Hk'. rewrite !Hp in * by lia.
      destruct (Nat.lt_ge_cases i i').
      - pose proof (below_mono es (S i) i' ltac:(lia)). lia.
      - pose proof (below_mono es (S i') i ltac:(lia)). lia. }
    set (M := fun ind val => mkCS prim sec p ind val : CS O).
    wpb. eapply wp_conseq.
    { apply (for_range_inv _ (fun i (s : list nat * list T) => let '(ind', val') := s in
        length ind' = length es /\ length val' = length es /\
        (forall i', i' < i -> asc (map fst (rowl (M ind' val') i')) /\
           forall e, In e (rowl (M ind' val') i') <-> In e (bk i' es)) /\
        (forall i', i <= i' < prim -> rowl (M ind' val') i' = bk i' es))); [lia| |].
      - split; auto. split; auto. split; [intros; lia|]. intros i' Hi'. apply HB. lia.
      - intros i [ind' val'] Hi (Li2 & Lv2 & H1 & H2).
        destruct (PM i ltac:(lia)) as [PM1 PM2].
        assert (ND : NoDup (map fst (rowl (M ind' val') i))).
        { rewrite H2 by lia. now apply bk_nodup. }
        unfold coo_sort_row.
        wpb. apply wp_get with (d := 0); [lia|]. wpb. apply wp_get with (d := 0); [lia|].
        assert (SL : slice (nth i p 0) (nth (S i) p 0 - nth i p 0) ind' = map fst (rowl (M ind' val') i))
          by (apply slice_rowl; lia).
        destruct (is_sortedb _) eqn:ES.
        + apply wp_ok. split; auto. split; auto. split.
          * intros i' Hi'. destruct (Nat.eq_dec i' i).
            -- subst i'. split.
               ++ rewrite <- SL. apply nondec_NoDup_asc. now apply is_sortedb_nondec. now rewrite SL.
               ++ rewrite H2 by lia. tauto.
            -- apply H1; lia.
          * intros; apply H2; lia.
        + assert (RNG : forall k, nth i p 0 <= k < nth (S i) p 0 -> nth k ind' 0 < sec).
          { intros k Hk. assert (HI : In (nth k ind' 0, nth k val' (t0 O)) (rowl (M ind' val') i)).
            { apply rowl_in. exists k. auto. }
            rewrite H2 in HI by lia. apply (bk_in i) in HI. apply KEYS in HI. simpl in HI. tauto. }
          eapply wp_conseq.
          { apply (sort_pairs_wp sec (nth i p 0) (nth (S i) p 0) jv ind' val'); auto; try lia.
            - apply repeat_length.
            - now rewrite SL. }
          intros [ind2 val2] (Q1 & Q2 & Q3 & Q4 & Q5).
          split; [lia|]. split; [lia|].
          assert (OTHER : forall i', i' < prim -> i' <> i -> rowl (M ind2 val2) i' = rowl (M ind' val') i').
          { intros i' Hi' Hn. unfold rowl. apply map_ext_in. intros k Hk. apply in_seq in Hk.
            unfold st in Hk. simpl in Hk. destruct (PM i' Hi').
            assert (N : ~ nth i p 0 <= k < nth (S i) p 0) by (apply (DISJ i' i); auto; lia).
            destruct (Q3 k N) as [E1 E2]. unfold ix, vl. simpl. now rewrite E1, E2. }
          split.
          * intros i' Hi'. destruct (Nat.eq_dec i' i).
            -- subst i'. split.
               ++ unfold M. rewrite <- (slice_rowl prim sec p ind2 val2 i) by lia. auto.
               ++ intros [j v]. rewrite <- H2 by lia. rewrite !rowl_in. apply Q5.
            -- rewrite OTHER by lia. apply H1; lia.
          * intros i' Hi'. rewrite OTHER by lia. apply H2; lia. }
    intros [ind' val'] (Li2 & Lv2 & H1 & _). apply wp_ok. fold (M ind' val').
    assert (STP : st (M ind' val') prim = length es).
    { unfold st. simpl. rewrite Hp by lia. apply below_all. apply KEYS. }
    unfold is_storage. split; [split|split; [|split; [|split]]]; auto.
    - apply wf_of_rows; simpl.
      + lia.
      + unfold st. simpl. rewrite Hp by lia. apply below_0.
      + intros i Hi. apply PM; auto.
      + lia.
      + lia.
      + intros i e Hi He. apply H1 in He; auto. destruct e as [j v]. apply (bk_in i) in He.
        apply KEYS in He. simpl in *. tauto.
    - apply sorted_asc. intros i Hi. apply H1. auto.
    - split; auto. simpl. split; lia.
    - intros i j v Hi. unfold stored. destruct (H1 i Hi) as [_ H]. rewrite H, (bk_in i).
      unfold es. apply trip_in.
  Qed.
End P.
