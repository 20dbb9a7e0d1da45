(** * ConvProofs3: splitting, leading block, assembly, dense copy. *)
From Coq Require Import List Arith Lia Bool Sorted Ring Permutation.
From Verif Require Import Base Scalar Spec CSModel CSSpec ConvModel ConvSpec BucketProofs ConvProofs ConvProofs2.
Import ListNotations.

Lemma get_upd_neq : forall A (l : list A) k i v, k <> i -> get (upd l k v) i = get l i.
Proof.
  unfold get. induction l; destruct k, i; simpl; intros; auto; try lia.
Qed.

Lemma filter_app_split : forall A (f : A -> bool) l1 l2,
  (forall a, In a l1 -> f a = true) -> (forall a, In a l2 -> f a = false) -> filter f (l1 ++ l2) = l1.
Proof. intros. rewrite filter_app, filter_all, filter_none; auto. now rewrite app_nil_r. Qed.

Section P.
  Variable O : Ops.
  Notation T := (T O).
  Implicit Types A B : CS O.
  Notation row := (list (nat * T)).

  (** ** Building a storage row after row *)
  Definition flat (rows : nat -> row) (n : nat) : row := flat_map rows (seq 0 n).

  Lemma flat_S : forall rows n, flat rows (S n) = flat rows n ++ rows n.
  Proof. intros. unfold flat. rewrite seq_S, flat_map_app. simpl. now rewrite app_nil_r. Qed.

  Lemma flat_prefix : forall rows i n, i <= n -> exists post, flat rows n = flat rows i ++ post.
  Proof.
    intros rows i n H. induction H. { exists []. now rewrite app_nil_r. }
    destruct IHle as (post & E). rewrite flat_S, E, <- app_assoc. eauto.
  Qed.

  Lemma flat_len_mono : forall rows i n, i <= n -> length (flat rows i) <= length (flat rows n).
  Proof.
    intros. destruct (flat_prefix rows i n H) as (post & ->). rewrite app_length. lia.
  Qed.

  Lemma flat_in : forall rows n e, In e (flat rows n) <-> exists i, i < n /\ In e (rows i).
  Proof.
    intros. unfold flat. rewrite in_flat_map. split.
    - intros (i & Hi & H). apply in_seq in Hi. exists i. split; auto; lia.
    - intros (i & Hi & H). exists i. split; auto. apply in_seq; lia.
  Qed.

  Lemma flat_ext : forall r1 r2 n, (forall i, i < n -> r1 i = r2 i) -> flat r1 n = flat r2 n.
  Proof. intros. apply flat_map_ext_in. intros i Hi. apply in_seq in Hi. apply H; lia. Qed.

  Definition conti (c : row) (ind : list nat) : Prop :=
    forall r, r < length c -> nth r ind 0 = fst (nth r c (0, t0 O)).
  Definition contv (c : row) (val : list T) : Prop :=
    forall r, r < length c -> nth r val (t0 O) = snd (nth r c (0, t0 O)).

  Lemma conti_snoc : forall c ind e, conti c ind -> length c < length ind ->
    conti (c ++ [e]) (upd ind (length c) (fst e)).
  Proof.
    intros c ind e H L r Hr. rewrite app_length in Hr. simpl in Hr.
    rewrite nth_upd by auto. destruct (Nat.eqb_spec r (length c)).
    - subst. now rewrite app_nth2, Nat.sub_diag by lia.
    - rewrite app_nth1 by lia. apply H; lia.
  Qed.
  Lemma contv_snoc : forall c val e, contv c val -> length c < length val ->
    contv (c ++ [e]) (upd val (length c) (snd e)).
  Proof.
    intros c val e H L r Hr. rewrite app_length in Hr. simpl in Hr.
    rewrite nth_upd by auto. destruct (Nat.eqb_spec r (length c)).
    - subst. now rewrite app_nth2, Nat.sub_diag by lia.
    - rewrite app_nth1 by lia. apply H; lia.
  Qed.

  Lemma built_storage : forall np ns p ind val rows,
    length p = np + 1 ->
    (forall k, k <= np -> nth k p 0 = length (flat rows k)) ->
    length ind = length (flat rows np) -> length val = length (flat rows np) ->
    conti (flat rows np) ind -> contv (flat rows np) val ->
    (forall i e, i < np -> In e (rows i) -> fst e < ns) ->
    let B := mkCS np ns p ind val in
    wf B /\ tight B /\ forall i, i < np -> rowl B i = rows i.
  Proof.
    intros np ns p ind val rows Lp Hp Li Lv Hi Hv Hr B.
    assert (R : forall i, i < np -> rowl B i = rows i).
    { intros i Hin. destruct (flat_prefix rows (S i) np ltac:(lia)) as (post & E).
      rewrite flat_S in E. unfold rowl. unfold st. simpl. rewrite !Hp by lia. rewrite flat_S, app_length.
      replace (length (flat rows i) + length (rows i) - length (flat rows i)) with (length (rows i)) by lia.
      apply (list_ext _ _ _ (0, t0 O)). { now rewrite map_length, seq_length. }
      intros r Hrr. rewrite map_length, seq_length in Hrr. rewrite nth_map_seq' by auto.
      unfold ix, vl. simpl.
      assert (LT : length (flat rows i) + r < length (flat rows np)).
      { rewrite E, !app_length. lia. }
      rewrite Hi, Hv by auto. rewrite E, <- app_assoc, app_nth2 by lia.
      replace (length (flat rows i) + r - length (flat rows i)) with r by lia.
      rewrite app_nth1 by lia. now destruct (nth r (rows i) (0, t0 O)). }
    split; [|split]; auto.
    - apply wf_of_rows; unfold st; simpl; try (rewrite !Hp by lia); try lia.
      + reflexivity.
      + intros. rewrite !Hp by lia. apply flat_len_mono; lia.
      + intros i e Hin He. rewrite R in He by auto. eauto.
    - unfold tight, st. simpl. rewrite !Hp by lia. auto.
  Qed.

  (** Copying a run of entries [es] to the end of the output. *)
  Lemma append_wp : forall (es c : row) (pos : nat) ind val,
    pos = length c -> length c + length es <= length ind -> length ind = length val ->
    conti c ind -> contv c val ->
    wp (for_list es (fun e (s : nat * list nat * list T) =>
          let '(pos, ind, val) := s in
          ind <- set ind pos (fst e) ;; val <- set val pos (snd e) ;; Ok (S pos, ind, val))
          (pos, ind, val))
       (fun s => let '(pos', ind', val') := s in
          pos' = length c + length es /\ length ind' = length ind /\ length val' = length val /\
          conti (c ++ es) ind' /\ contv (c ++ es) val').
  Proof.
    induction es as [|e es IH]; intros c pos ind val E L LV Hi Hv; simpl.
    - rewrite app_nil_r. repeat split; auto; lia.
    - subst pos. simpl in L. wpb. wpb. apply wp_set; [lia|]. wpb. apply wp_set; [lia|]. simpl.
      eapply wp_conseq.
      + apply (IH (c ++ [e])).
        * rewrite app_length. simpl. lia.
        * rewrite app_length, upd_length. simpl. lia.
        * rewrite !upd_length. auto.
        * apply conti_snoc; auto; lia.
        * apply contv_snoc; auto; lia.
      + intros [[pos' ind'] val'] (A1 & A2 & A3 & A4 & A5). rewrite app_length in A1. simpl in A1.
        rewrite upd_length in *. rewrite <- app_assoc in A4, A5. simpl in *. repeat split; auto; lia.
  Qed.

  (** Sub-runs of a primary. *)
  Definition run A (lo hi : nat) : row := map (fun k => (ix A k, vl A k)) (seq lo (hi - lo)).

  Lemma run_length : forall A lo hi, length (run A lo hi) = hi - lo.
  Proof. intros. unfold run. now rewrite map_length, seq_length. Qed.

  Lemma run_app : forall A lo mid hi, lo <= mid -> mid <= hi -> run A lo mid ++ run A mid hi = run A lo hi.
  Proof.
    intros. unfold run. rewrite <- map_app. f_equal.
    replace (hi - lo) with ((mid - lo) + (hi - mid)) by lia. rewrite seq_app. f_equal. f_equal. lia.
  Qed.

  Lemma rowl_run : forall A i, rowl A i = run A (st A i) (st A (S i)).
  Proof. reflexivity. Qed.

  Lemma run_in : forall A lo hi j v, In (j, v) (run A lo hi) <-> exists k, lo <= k < hi /\ ix A k = j /\ vl A k = v.
  Proof.
    intros. unfold run. rewrite in_map_iff. split.
    - intros (k & E & H). apply in_seq in H. inversion E. exists k. repeat split; auto; lia.
    - intros (k & H & <- & <-). exists k. split; auto. apply in_seq. lia.
  Qed.

  Lemma range_run : forall S A (f : nat -> T -> S -> res S) lo hi s,
    hi <= length (indices A) -> hi <= length (vals A) ->
    for_range lo hi (fun k s => j <- get (indices A) k ;; v <- get (vals A) k ;; f j v s) s
    = for_list (run A lo hi) (fun e => f (fst e) (snd e)) s.
  Proof.
    intros S A f lo hi s H1 H2. rewrite for_range_list. unfold run. rewrite for_list_map.
    apply for_list_ext_in. intros k s' Hk. apply in_seq in Hk.
    rewrite (get_nth _ _ _ 0) by lia. simpl. rewrite (get_nth _ _ _ (t0 O)) by lia. reflexivity.
  Qed.

  (** Position [q] splits primary [i] at secondary index [m]. *)
  Notation splits := (splits O).
  Definition part (second : bool) (m : nat) (l : row) : row :=
    if second then map (fun e => (fst e - m, snd e)) (filter (fun e => m <=? fst e) l)
    else filter (fun e => fst e <? m) l.

  Lemma splits_filter : forall A m i q, splits A m i q ->
    filter (fun e => fst e <? m) (rowl A i) = run A (st A i) q /\
    filter (fun e => m <=? fst e) (rowl A i) = run A q (st A (S i)).
  Proof.
    intros A m i q (H1 & H2 & H3). rewrite rowl_run, <- (run_app A _ q) by lia. split.
    - rewrite filter_app, filter_all, filter_none, app_nil_r; auto; intros [j v] H; apply run_in in H;
        destruct H as (k & Hk & <- & _); simpl.
      + apply Nat.ltb_ge. apply H3; lia.
      + apply Nat.ltb_lt. apply H2; lia.
    - rewrite filter_app, filter_none, filter_all; auto; intros [j v] H; apply run_in in H;
        destruct H as (k & Hk & <- & _); simpl.
      + apply Nat.leb_le. apply H3; lia.
      + apply Nat.leb_gt. apply H2; lia.
  Qed.

  Lemma find_splits : forall A m i, wf A -> sorted A -> i < psize A ->
    wp (find_sorted (indices A) (st A i) (st A (S i)) m) (fun r => splits A m i (snd r)).
  Proof.
    intros A m i W SA Hi.
    pose proof (wf_mono O A W i Hi). pose proof (st_mono O A W (S i) (psize A) ltac:(lia) ltac:(lia)).
    pose proof (wf_inds O A W).
    eapply wp_conseq.
    - apply find_sorted_wp; try lia. intros a b Ha Hab Hb.
      destruct (Nat.eq_dec a b); [now subst|]. apply Nat.lt_le_incl. apply (SA i); auto; lia.
    - intros r (R1 & R2 & R3 & _). split; auto.
  Qed.

  (** ** split *)
  Lemma part_len_eq : forall A second m i q, splits A m i q ->
    length (part second m (rowl A i)) = if second then st A (S i) - q else q - st A i.
  Proof.
    intros A second m i q H. destruct (splits_filter A m i q H) as [E1 E2]. destruct second; simpl.
    - now rewrite map_length, E2, run_length.
    - now rewrite E1, run_length.
  Qed.

  Lemma split_start_wp : forall second m A ji jv rd indptr q,
    wf A -> tight A -> length indptr = psize A + 1 ->
    (forall p x k i, k <= i -> rd (upd p k x) i = rd p i) ->
    (forall i, i < psize A -> rd indptr i = Ok (q i) /\ splits A m i (q i)) ->
    wp (split_start O second m A ji jv rd indptr)
       (fun B => wf B /\ tight B /\ psize B = psize A /\
          ssize B = (if second then ssize A - m else m) /\
          forall i, i < psize A -> rowl B i = part second m (rowl A i)).
  Proof.
    intros second m A ji jv rd indptr q W (T1 & T2 & T3) Lp Hrd Hq.
    set (rows := fun i => part second m (rowl A i)).
    set (ncs := if second then ssize A - m else m).
    assert (RNG : forall i e, i < psize A -> In e (rows i) -> fst e < ncs).
    { intros i [j v] Hi He. unfold rows, part, ncs in *. destruct second.
      - apply in_map_iff in He. destruct He as ([j' v'] & E & F). simpl in *. inversion E; subst.
        apply filter_In in F. destruct F as [F1 F2]. simpl in F2. apply Nat.leb_le in F2.
        pose proof (wf_rowl_range O A W i _ Hi F1). simpl in *. lia.
      - apply filter_In in He. destruct He as [_ F2]. simpl in *. now apply Nat.ltb_lt. }
    unfold split_start. fold ncs.
    destruct (ind_start A) as [|x0 t0'] eqn:EI. { simpl in T1. lia. }
    rewrite <- EI in *. clear x0 t0' EI.
    wpb. eapply wp_conseq.
    { apply (for_range_inv _ (fun i z => z = length (flat rows i))); [lia|reflexivity|].
      intros i z Hi E. destruct (Hq i ltac:(lia)) as [E1 Hs]. rewrite E1. simpl.
      wpb. apply wp_get with (d := 0); [lia|]. wpb. apply wp_get with (d := 0); [lia|].
      fold (st A i) (st A (S i)).
      destruct Hs as (S1 & S2 & S3).
      destruct (Nat.ltb_spec (q i) (st A i)); [lia|]. destruct (Nat.ltb_spec (st A (S i)) (q i)); [lia|].
      simpl. rewrite flat_S, app_length, E. unfold rows. now rewrite (part_len_eq A second m i (q i)). }
    intros z Ez. cbn beta in Ez. destruct (Nat.eqb_spec z 0).
    - apply wp_ok. simpl.
      assert (FN : flat rows (psize A) = []) by (apply length_zero_iff_nil; lia).
      assert (ST : forall k, nth k (repeat 0 (length indptr)) 0 = 0) by (intros; apply nth_repeat).
      assert (FK : forall k, k <= psize A -> flat rows k = []).
      { intros k Hk. destruct (flat_prefix rows k (psize A) Hk) as (post & E). rewrite FN in E.
        symmetry in E. now apply app_eq_nil in E. }
      destruct (built_storage (psize A) ncs (repeat 0 (length indptr)) [] [] rows) as (B1 & B2 & B3); auto.
      + rewrite repeat_length. lia.
      + intros k Hk. now rewrite ST, FK.
      + now rewrite FN.
      + now rewrite FN.
      + rewrite FN. intros r Hr. simpl in Hr. lia.
      + rewrite FN. intros r Hr. simpl in Hr. lia.
    - wpb. apply wp_set; [lia|]. wpb. eapply wp_conseq.
      { apply (for_range_inv _ (fun i (s : list nat * nat * list nat * list T) =>
          let '(p, pos, ind, val) := s in
          length p = psize A + 1 /\ pos = length (flat rows i) /\
          length ind = z /\ length val = z /\
          (forall k, k <= i -> nth k p 0 = length (flat rows k)) /\
          (forall i', i <= i' < psize A -> rd p i' = Ok (q i')) /\
          conti (flat rows i) ind /\ contv (flat rows i) val)); [lia| |].
        - rewrite upd_length, !repeat_length. simpl. repeat split; auto.
          + intros k Hk. replace k with 0 by lia. rewrite nth_upd by lia. reflexivity.
          + intros i' Hi'. rewrite Hrd by lia. apply Hq. lia.
          + intros r Hr. simpl in Hr. lia.
          + intros r Hr. simpl in Hr. lia.
        - intros i [[[p pos] ind] val] Hi (L1 & Epos & L2 & L3 & Hp & Hr & Hci & Hcv).
          rewrite Hr by lia. simpl. destruct (Hq i ltac:(lia)) as [_ Hs].
          pose proof Hs as (S1 & _).
          pose proof (st_mono O A W (S i) (psize A) ltac:(lia) ltac:(lia)) as M.
          wpb. apply wp_get with (d := 0); [lia|]. wpb. apply wp_get with (d := 0); [lia|].
          fold (st A i) (st A (S i)).
          pose proof (flat_len_mono rows (S i) (psize A) ltac:(lia)) as FL. rewrite flat_S, app_length in FL.
          wpb. eapply wp_conseq with (P := fun s => let '(pos', ind', val') := s in
            pos' = length (flat rows i) + length (rows i) /\ length ind' = length ind /\ length val' = length val /\
            conti (flat rows i ++ rows i) ind' /\ contv (flat rows i ++ rows i) val').
          { pose proof (append_wp (rows i) (flat rows i) pos ind val Epos ltac:(lia) ltac:(lia) Hci Hcv) as G.
            rewrite (range_run _ A (fun j v (s : nat * list nat * list T) =>
               let '(pos, ind, val) := s in
               ind <- set ind pos (if second then j - m else j) ;;
               val <- set val pos v ;; Ok (S pos, ind, val)))
              by (destruct second; lia).
            unfold rows, part in G. destruct (splits_filter A m i (q i) Hs) as [E1 E2].
            unfold rows, part. destruct second.
            - rewrite E2 in *. rewrite for_list_map in G. exact G.
            - rewrite E1 in *. exact G. }
          intros [[pos' ind'] val'] (A1 & A2 & A3 & A4 & A5).
          wpb. apply wp_get with (d := 0); [lia|]. wpb. apply wp_set; [lia|]. apply wp_ok.
          rewrite upd_length, flat_S, app_length. repeat split; auto; try lia.
          + intros k Hk. rewrite nth_upd by lia. destruct (Nat.eqb_spec k (S i)).
            * subst k. rewrite Hp by lia. rewrite flat_S, app_length. lia.
            * apply Hp; lia.
          + intros i' Hi'. rewrite Hrd by lia. apply Hr; lia. }
      intros [[[p pos] ind] val] (L1 & _ & L2 & L3 & Hp & _ & Hci & Hcv). apply wp_ok. simpl.
      destruct (built_storage (psize A) ncs p ind val rows) as (B1 & B2 & B3); auto; lia.
  Qed.

  Lemma split_rows : forall second m A ji jv, valid A -> tight A -> m <= ssize A ->
    exists B, split O second m A ji jv = Ok B /\ wf B /\ tight B /\ psize B = psize A /\
      ssize B = (if second then ssize A - m else m) /\
      forall i, i < psize A -> rowl B i = part second m (rowl A i).
  Proof.
    intros second m A ji jv (W & SA) T Hm. apply wp_inv. unfold split.
    destruct (Nat.ltb_spec (ssize A) m); [lia|]. unfold split_low.
    pose proof T as (T1 & T2 & T3).
    destruct (ind_start A) as [|x0 t0'] eqn:EI. { simpl in T1. lia. } rewrite <- EI in *. clear x0 t0' EI.
    wpb. eapply wp_conseq.
    { apply (for_range_inv _ (fun i (p : list nat) => length p = psize A + 1 /\
        forall k, k < i -> splits A m k (nth (S k) p 0))); [lia| |].
      - rewrite repeat_length. split; auto. intros; lia.
      - intros i p Hi (Lp & Hp).
        wpb. apply wp_get with (d := 0); [lia|]. wpb. apply wp_get with (d := 0); [lia|].
        fold (st A i) (st A (S i)). wpb. eapply wp_conseq. { apply find_splits; auto; lia. }
        intros [f q] Hq. simpl in Hq. apply wp_set; [lia|]. rewrite upd_length. split; auto.
        intros k Hk. rewrite nth_upd by lia. destruct (Nat.eqb_spec (S k) (S i)).
        + inversion e. now subst.
        + apply Hp; lia. }
    intros p (Lp & Hp).
    apply (split_start_wp second m A ji jv _ p (fun i => nth (S i) p 0)); auto.
    - intros. apply get_upd_neq. lia.
    - intros i Hi. split; [|apply Hp; auto]. apply get_nth. lia.
  Qed.

  Lemma split_at_rows : forall second m A start ji jv, wf A -> tight A -> m <= ssize A ->
    psize A <= length start -> (forall i, i < psize A -> splits A m i (nth i start 0)) ->
    exists B, split_at O second m A start ji jv = Ok B /\ wf B /\ tight B /\ psize B = psize A /\
      ssize B = (if second then ssize A - m else m) /\
      forall i, i < psize A -> rowl B i = part second m (rowl A i).
  Proof.
    intros second m A start ji jv W T Hm Hl Hs. apply wp_inv. unfold split_at.
    destruct (Nat.ltb_spec (ssize A) m); [lia|]. destruct (Nat.ltb_spec (length start) (psize A)); [lia|].
    apply (split_start_wp second m A ji jv _ _ (fun i => nth i start 0)); auto.
    - rewrite repeat_length. apply T.
    - intros i Hi. split; auto. apply get_nth. lia.
  Qed.

  Lemma part_asc : forall second m (l : row), asc (map fst l) -> asc (map fst (part second m l)).
  Proof.
    intros second m l H.
    assert (F : forall (f : nat * T -> bool) (l : row), asc (map fst l) -> asc (map fst (filter f l))).
    { clear. induction l as [|a l IH]; simpl; intros; auto. destruct H as [H H'].
      destruct (f a); simpl; auto. split; auto. intros y Hy. apply H.
      apply in_map_iff in Hy. destruct Hy as (e & <- & He). apply filter_In in He. apply in_map. tauto. }
    destruct second; simpl; [|now apply F].
    rewrite map_map. simpl.
    assert (G : forall l : row, (forall e, In e l -> m <= fst e) -> asc (map fst l) -> asc (map (fun e => fst e - m) l)).
    { clear. induction l as [|a l IH]; simpl; intros; auto. destruct H0 as [H0 H1]. split; auto.
      intros y Hy. apply in_map_iff in Hy. destruct Hy as (e & <- & He).
      pose proof (H0 (fst e) (in_map fst _ _ He)). pose proof (H a (or_introl eq_refl)). lia. }
    apply G; auto. intros e He. apply filter_In in He. now apply Nat.leb_le.
  Qed.

  Lemma part_stored_first : forall m (l : row) j v, In (j, v) (part false m l) <-> In (j, v) l /\ j < m.
  Proof. intros. simpl. rewrite filter_In. simpl. now rewrite Nat.ltb_lt. Qed.

  Lemma part_stored_second : forall m (l : row) j v, In (j, v) (part true m l) <-> In (m + j, v) l.
  Proof.
    intros. simpl. rewrite in_map_iff. split.
    - intros ([j' v'] & E & F). simpl in E. inversion E; subst. apply filter_In in F. destruct F as [F1 F2].
      simpl in F2. apply Nat.leb_le in F2. now replace (m + (j' - m)) with j' by lia.
    - intros H. exists (m + j, v). simpl. split. { f_equal. lia. }
      apply filter_In. split; auto. simpl. apply Nat.leb_le. lia.
  Qed.

  Lemma C10_split_l : forall (second : bool) m A ji jv, valid A -> tight A -> m <= ssize A ->
    exists B, split O second m A ji jv = Ok B /\
      is_storage B (psize A) (if second then ssize A - m else m)
        (fun i j v => if second then stored A i (m + j) v else stored A i j v /\ j < m).
  Proof.
    intros second m A ji jv V T Hm. destruct (split_rows second m A ji jv V T Hm) as (B & E & WB & TB & P1 & P2 & R).
    exists B. split; auto. split; [split|split; [|split; [|split]]]; auto.
    - apply sorted_asc. intros i Hi. rewrite R by lia. apply part_asc. apply sorted_asc. apply V. lia.
    - intros i j v Hi. unfold stored. rewrite R by auto. destruct second.
      + apply part_stored_second.
      + apply part_stored_first.
  Qed.

  Lemma C10_split_at_l : forall (second : bool) m A start ji jv, valid A -> tight A -> m <= ssize A ->
    psize A <= length start -> (forall i, i < psize A -> splits A m i (nth i start 0)) ->
    exists B, split_at O second m A start ji jv = Ok B /\
      is_storage B (psize A) (if second then ssize A - m else m)
        (fun i j v => if second then stored A i (m + j) v else stored A i j v /\ j < m).
  Proof.
    intros second m A start ji jv V T Hm Hl Hs.
    destruct (split_at_rows second m A start ji jv (proj1 V) T Hm Hl Hs) as (B & E & WB & TB & P1 & P2 & R).
    exists B. split; auto. split; [split|split; [|split; [|split]]]; auto.
    - apply sorted_asc. intros i Hi. rewrite R by lia. apply part_asc. apply sorted_asc. apply V. lia.
    - intros i j v Hi. unfold stored. rewrite R by auto. destruct second.
      + apply part_stored_second.
      + apply part_stored_first.
  Qed.

  (** ** split into the dual storage *)
  Definition pents A (second : bool) (m n : nat) : list (nat * (nat * T)) :=
    flat_map (fun i => crow O i (part second m (rowl A i))) (seq 0 n).

  Lemma pents_S : forall A second m n, pents A second m (S n)
    = pents A second m n ++ crow O n (part second m (rowl A n)).
  Proof. intros. unfold pents. rewrite seq_S, flat_map_app. simpl. now rewrite app_nil_r. Qed.
  Lemma pents_prefix : forall A second m i n, i <= n -> exists post, pents A second m n = pents A second m i ++ post.
  Proof.
    intros A second m i n H. induction H. { exists []. now rewrite app_nil_r. }
    destruct IHle as (post & E). rewrite pents_S, E, <- app_assoc. eauto.
  Qed.
  Lemma pents_in : forall A second m n j i v,
    In (j, (i, v)) (pents A second m n) <-> i < n /\ In (j, v) (part second m (rowl A i)).
  Proof.
    intros. unfold pents. rewrite in_flat_map. split.
    - intros (k & Hk & H). apply in_seq in Hk. apply in_map_iff in H.
      destruct H as ([j' v'] & E & H). simpl in E. inversion E; subst. split; auto; lia.
    - intros (Hi & H). exists i. split. { apply in_seq; lia. } apply in_map_iff. exists (j, v). auto.
  Qed.

  Lemma part_run : forall A (second : bool) m i q, splits A m i q ->
    part second m (rowl A i) = map (fun e => (fst e - (if second then m else 0), snd e))
      (run A (if second then q else st A i) (if second then st A (S i) else q)).
  Proof.
    intros A second m i q Hs. destruct (splits_filter A m i q Hs) as [E1 E2]. unfold part. destruct second.
    - now rewrite E2.
    - rewrite E1. rewrite <- (map_id (run A (st A i) q)) at 1. apply map_ext. intros [j v]. simpl. f_equal. lia.
  Qed.

  Lemma bk_pents : forall A second m n k, bk k (pents A second m n)
    = flat_map (fun i => map (fun e => (i, snd e)) (filter (fun e => fst e =? k) (part second m (rowl A i)))) (seq 0 n).
  Proof.
    intros. unfold bk, pents, crow. rewrite filter_flat_map, map_flat_map.
    apply flat_map_ext_in. intros i _. rewrite filter_map, map_map. reflexivity.
  Qed.

  Lemma split_dual_start_wp : forall second m A start ji jv, wf A -> tight A -> m <= ssize A ->
    psize A <= length start -> (forall i, i < psize A -> splits A m i (nth i start 0)) ->
    wp (split_dual_start O second m A start ji jv)
       (fun B => wf B /\ tight B /\ ssize B = psize A /\
          psize B = (if second then ssize A - m else m) /\
          forall k, k < psize B -> rowl B k =
            flat_map (fun i => map (fun e => (i, snd e)) (filter (fun e => fst e =? k) (part second m (rowl A i))))
              (seq 0 (psize A))).
  Proof.
    intros second m A start ji jv W T Hm Hl Hs. pose proof T as (T1 & T2 & T3).
    set (ncs := if second then ssize A - m else m).
    set (es := pents A second m (psize A)).
    assert (KEYS : forall e, In e es -> fst e < ncs /\ fst (snd e) < psize A).
    { intros [j [i v]] He. apply pents_in in He. destruct He as [Hi He]. simpl. split; auto. unfold ncs.
      destruct second.
      - apply part_stored_second in He. pose proof (wf_rowl_range O A W i _ Hi He). simpl in *. lia.
      - apply part_stored_first in He. tauto. }
    unfold split_dual_start. fold ncs.
    destruct (ind_start A) as [|x0 t0'] eqn:EI. { simpl in T1. lia. } rewrite <- EI in *. clear x0 t0' EI.
    assert (LEN : forall i, i <= psize A -> length (pents A second m i) <= length es).
    { intros i Hi. destruct (pents_prefix A second m i (psize A) Hi) as (post & E). unfold es. rewrite E, app_length. lia. }
    wpb. eapply wp_conseq.
    { apply (for_range_inv _ (fun i p => length p = ncs + 1 /\ nth 0 p 0 = 0 /\
               forall k, k < ncs -> nth (S k) p 0 = length (bk k (pents A second m i)))); [lia| |].
      - rewrite repeat_length. split; auto. rewrite nth_repeat_any by lia. split; auto.
        intros. now rewrite nth_repeat_any by lia.
      - intros i p Hi (Lp & H0 & Hp).
        specialize (Hs i ltac:(lia)). pose proof Hs as (S1 & _).
        pose proof (st_mono O A W (S i) (psize A) ltac:(lia) ltac:(lia)) as M.
        wpb. apply wp_get with (d := 0); [lia|].
        wpb. apply wp_get with (d := 0); [lia|]. wpb. apply wp_get with (d := 0); [lia|].
        fold (st A i) (st A (S i)).
        destruct (Nat.ltb_spec (nth i start 0) (st A i)); [lia|].
        destruct (Nat.ltb_spec (st A (S i)) (nth i start 0)); [lia|]. cbn [orb].
        rewrite pents_S, (part_run A second m i _ Hs).
        set (lo := if second then nth i start 0 else st A i).
        set (hi := if second then st A (S i) else nth i start 0).
        assert (LH : lo <= hi /\ hi <= st A (psize A)) by (unfold lo, hi; destruct second; lia).
        assert (LO : forall k, lo <= k < hi -> ix A k - (if second then m else 0) < ncs).
        { intros k Hk. assert (HI : In (ix A k, vl A k) (run A lo hi)) by (apply run_in; exists k; auto).
          assert (HE : In (ix A k - (if second then m else 0), (i, vl A k)) es).
          { apply pents_in. split; [lia|]. rewrite (part_run A second m i _ Hs). fold lo hi.
            apply in_map_iff. exists (ix A k, vl A k). auto. }
          apply KEYS in HE. simpl in HE. tauto. }
        apply (for_range_inv _ (fun k p => length p = ncs + 1 /\ nth 0 p 0 = 0 /\
               forall c, c < ncs -> nth (S c) p 0 = length (bk c (pents A second m i ++
                  crow O i (map (fun e => (fst e - (if second then m else 0), snd e)) (run A lo k)))))); [lia| |].
        + split; auto. split; auto. intros c Hc. unfold run. rewrite Nat.sub_diag. simpl. rewrite app_nil_r. auto.
        + intros k s Hk (Ls & Hs0 & Hsc). wpb. apply wp_get with (d := 0); [lia|].
          fold (ix A k). specialize (LO k Hk).
          wpb. apply wp_get with (d := 0); [lia|]. apply wp_set; [lia|]. rewrite upd_length.
          split; auto. split. { rewrite nth_upd by lia. destruct (Nat.eqb_spec 0 (ix A k - (if second then m else 0) + 1)); [lia|auto]. }
          intros c Hc. rewrite nth_upd by lia.
          replace (run A lo (S k)) with (run A lo k ++ [(ix A k, vl A k)]).
          2:{ rewrite <- (run_app A lo k (S k)) by lia. f_equal. unfold run. replace (S k - k) with 1 by lia. reflexivity. }
          unfold crow. rewrite !map_app. simpl. rewrite app_assoc, bk_snoc, app_length. fold (crow O i).
          specialize (Hsc c Hc). unfold crow in Hsc. rewrite <- Hsc.
          set (key := ix A k - (if second then m else 0)) in *. clearbody key.
          rewrite Nat.add_1_r in *.
          change (S c =? S key) with (c =? key).
          destruct (Nat.eqb_spec c key), (Nat.eqb_spec key c); cbn [length]; try lia.
          subst. lia. }
    intros p1 (Lp1 & Hp1 & Hp1'). fold es in Hp1'.
    wpb. eapply wp_conseq. { apply (accumulate_wp _ es); eauto. }
    intros p2 (Lp2 & Hp2). wpb. apply wp_get with (d := 0); [lia|].
    assert (EZ : nth ncs p2 0 = length es) by (rewrite Hp2 by lia; apply below_all; apply KEYS).
    rewrite EZ. destruct (Nat.eqb_spec (length es) 0).
    - apply wp_ok. simpl. apply length_zero_iff_nil in e.
      assert (BK : bucketed O ncs es (repeat 0 (ncs + 1)) [] []).
      { rewrite e. split; [apply repeat_length|]. split; auto. split; auto. split.
        - intros. rewrite nth_repeat. reflexivity.
        - intros. rewrite !nth_repeat. reflexivity. }
      destruct (bucketed_storage O ncs (psize A) es _ _ _ BK KEYS) as (B1 & B2 & B3).
      split; auto. split; auto. split; auto. split; auto.
      intros k Hk. rewrite B3 by auto. apply bk_pents.
    - wpb. eapply wp_conseq.
      { apply (for_range_inv _ (fun i s => placed O ncs es (pents A second m i) s)); [lia| |].
        - unfold placed. unfold pents. simpl. unfold bk. simpl. rewrite !repeat_length.
          split; auto. split; auto. split; auto. split; auto. split; intros; try lia. rewrite Hp2 by lia. lia.
        - intros i s Hi HP. specialize (Hs i ltac:(lia)). pose proof Hs as (S1 & _).
          pose proof (st_mono O A W (S i) (psize A) ltac:(lia) ltac:(lia)) as M.
          wpb. apply wp_get with (d := 0); [lia|].
          wpb. apply wp_get with (d := 0); [lia|]. wpb. apply wp_get with (d := 0); [lia|].
          fold (st A i) (st A (S i)).
          rewrite (range_run _ A (fun j v => place O (j - (if second then m else 0)) i v))
            by (destruct second; lia).
          destruct (pents_prefix A second m (S i) (psize A) ltac:(lia)) as (post & Epost). rewrite pents_S in *.
          pose proof (place_crow_wp O ncs es (pents A second m i) i (part second m (rowl A i)) post s
            ltac:(unfold es; rewrite Epost, <- app_assoc; reflexivity) (fun e He => proj1 (KEYS e He)) HP) as G.
          rewrite (part_run A second m i _ Hs) in G at 1. rewrite for_list_map in G. exact G. }
      intros [[p3 ind] val] HP. fold es in HP. pose proof HP as (Lp3 & _).
      wpb. eapply wp_conseq. { apply shift_swap_wp. lia. }
      intros p4 (Lp4 & A1 & A2 & A3). apply wp_ok. simpl.
      assert (BK : bucketed O ncs es p4 ind val).
      { eapply placed_shift_bucketed; eauto. { intros; apply KEYS; auto. } lia. }
      destruct (bucketed_storage O ncs (psize A) es _ _ _ BK KEYS) as (B1 & B2 & B3).
      split; auto. split; auto. split; auto. split; auto.
      intros k Hk. rewrite B3 by auto. apply bk_pents.
  Qed.

  Lemma C10_dual_start_l : forall (second : bool) m A start ji jv, valid A -> tight A -> m <= ssize A ->
    psize A <= length start -> (forall i, i < psize A -> splits A m i (nth i start 0)) ->
    exists B, split_dual_start O second m A start ji jv = Ok B /\
      is_storage B (if second then ssize A - m else m) (psize A)
        (fun j i v => i < psize A /\ if second then stored A i (m + j) v else stored A i j v /\ j < m).
  Proof.
    intros second m A start ji jv (W & SA) T Hm Hl Hs. apply wp_inv.
    eapply wp_conseq. { apply split_dual_start_wp; auto. }
    intros B (WB & TB & P1 & P2 & R). rewrite P2 in R.
    split; [split; [auto|]|split; [auto|split; [auto|split; [auto|]]]].
    - apply sorted_asc. rewrite P2. intros k Hk. rewrite R by auto. rewrite map_flat_map.
      assert (G : forall n lo, lo + n <= psize A ->
        asc (flat_map (fun i => map fst (map (fun e => (i, snd e)) (filter (fun e => fst e =? k) (part second m (rowl A i))))) (seq lo n))
        /\ forall x, In x (flat_map (fun i => map fst (map (fun e => (i, snd e)) (filter (fun e => fst e =? k) (part second m (rowl A i))))) (seq lo n)) -> lo <= x).
      { induction n; intros lo Hlo; simpl; [split; auto; tauto|].
        destruct (IHn (S lo) ltac:(lia)) as [A1 A2]. split.
        - rewrite asc_app. rewrite map_map. simpl. split; [|split]; auto.
          + assert (D : NoDup (map fst (part second m (rowl A lo)))).
            { apply asc_NoDup, part_asc. apply sorted_asc; auto. lia. }
            assert (LE : length (filter (fun e => fst e =? k) (part second m (rowl A lo))) <= 1).
            { clear -D. induction (part second m (rowl A lo)) as [|a l IH]; simpl in *; auto.
              inversion D; subst. destruct (Nat.eqb_spec (fst a) k); auto. simpl.
              rewrite filter_none; simpl; auto. intros b Hb. apply Nat.eqb_neq. intros E.
              apply H1. rewrite e, <- E. now apply in_map. }
            destruct (filter _ _) as [|a [|b l]]; simpl in *; auto; try lia. intuition.
          + intros x y Hx Hy. apply in_map_iff in Hx. destruct Hx as (? & <- & _).
            specialize (A2 _ Hy). lia.
        - intros x Hx. apply in_app_or in Hx. destruct Hx as [Hx|Hx].
          + rewrite map_map in Hx. apply in_map_iff in Hx. destruct Hx as (? & <- & _). simpl. lia.
          + specialize (A2 _ Hx). lia. }
      apply (G (psize A) 0). lia.
    - intros j i v Hj. unfold stored. rewrite R by auto. rewrite in_flat_map. split.
      + intros (i' & Hi' & Hin). apply in_seq in Hi'. apply in_map_iff in Hin.
        destruct Hin as ([j' v'] & E & F). simpl in E. inversion E; subst. apply filter_In in F.
        destruct F as [F1 F2]. simpl in F2. apply Nat.eqb_eq in F2. subst. split; [lia|].
        destruct second. { now apply part_stored_second. } now apply part_stored_first.
      + intros (Hi & F). exists i. split. { apply in_seq; lia. }
        apply in_map_iff. exists (j, v). split; auto. apply filter_In. simpl. rewrite Nat.eqb_refl.
        split; auto. destruct second. { now apply part_stored_second. } now apply part_stored_first.
  Qed.

  Lemma C10_dual_l : forall (second : bool) m A ji jv, valid A -> tight A -> m <= ssize A ->
    exists B, split_dual O second m A ji jv = Ok B /\
      is_storage B (if second then ssize A - m else m) (psize A)
        (fun j i v => i < psize A /\ if second then stored A i (m + j) v else stored A i j v /\ j < m).
  Proof.
    intros second m A ji jv (W & SA) T Hm. pose proof T as (T1 & T2 & T3).
    apply wp_inv. unfold split_dual. destruct (Nat.ltb_spec (ssize A) m); [lia|].
    destruct (ind_start A) as [|x0 t0'] eqn:EI. { simpl in T1. lia. } rewrite <- EI in *. clear x0 t0' EI.
    wpb. eapply wp_conseq.
    { apply (for_range_inv _ (fun i (p : list nat) => length p = psize A /\
        forall k, k < i -> splits A m k (nth k p 0))); [lia| |].
      - rewrite repeat_length. split; auto. intros; lia.
      - intros i p Hi (Lp & Hp).
        wpb. apply wp_get with (d := 0); [lia|]. wpb. apply wp_get with (d := 0); [lia|].
        fold (st A i) (st A (S i)). wpb. eapply wp_conseq. { apply find_splits; auto; lia. }
        intros [f q] Hq. simpl in Hq. apply wp_set; [lia|]. rewrite upd_length. split; auto.
        intros k Hk. rewrite nth_upd by lia. destruct (Nat.eqb_spec k i).
        + now subst.
        + apply Hp; lia. }
    intros buf (Lb & Hb). 
    destruct (C10_dual_start_l second m A buf ji jv (conj W SA) T Hm ltac:(lia) ltac:(intros; apply Hb; lia)) as (B & E & HB).
    rewrite E. now apply wp_ok.
  Qed.
End P.
