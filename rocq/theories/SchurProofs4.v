(** * SchurProofs4: dropping in the off-diagonal blocks. *)
From Coq Require Import List Arith Lia Bool Permutation.
From Verif Require Import Base Scalar Spec CSModel CSSpec ConvModel ConvSpec BucketProofs ConvProofs ConvProofs2
  ConvProofs3 ConvProofs4 Mag VecModel VecSpec VecProofs CroutModel CroutSpec SchurModel SchurSpec SchurProofs1.
Import ListNotations.

Section P.
  Context {O : Ops}.
  Notation T := (T O).
  Notation row := (list (nat * T)).
  Variable G : Mag O.
  Hypothesis ML : MagLaws G.
  Variable ceil_mul : M G -> nat -> nat.
  Variable nth_el : (nat -> M G) -> nat -> list nat -> list nat.
  Hypothesis NE : nth_element_ok (mle G) nth_el.

  Variables (ref : list nat) (alpha : M G) (A : CS O).
  Let n := psize A.
  Hypothesis W : wf A. Hypothesis D : distinct A.
  Hypothesis Lr : n + 1 <= length ref.
  Hypothesis Rm : forall i, i < n -> nth i ref 0 <= nth (S i) ref 0.
  Definition dlim (i : nat) : nat := ceil_mul alpha (nth (S i) ref 0 - nth i ref 0).
  Definition keepn (i : nat) : nat := Nat.min (length (rowl A i)) (dlim i).
  Hypothesis Pos : forall i, i < n -> rowl A i <> [] -> 1 <= dlim i.

  (** The kept part of primary [i] as found in the arrays. *)
  Definition seg (ind : list nat) (val : list T) (i : nat) : row :=
    map (fun k => (nth k ind 0, nth k val (t0 O))) (seq (st A i) (keepn i)).
  Definition kept_ok (i : nat) (R : row) : Prop := exists dropped,
      Permutation (rowl A i) (R ++ dropped) /\
      length R = keepn i /\
      forall e f, In e R -> In f dropped -> mle G (mabs G (snd f)) (mabs G (snd e)) = true.

  Definition sel_inv (k : nat) (lb lg : nat) (stt : list nat * list nat * list T * list T) : Prop :=
    let '(gaps, ind, val, buf) := stt in
    length ind = length (indices A) /\ length val = length (vals A) /\ length buf = lb /\ length gaps = lg /\
    (forall i, i < k -> nth i gaps 0 = length (rowl A i) - keepn i /\ kept_ok i (seg ind val i)) /\
    forall x, st A k <= x -> nth x ind 0 = ix A x /\ nth x val (t0 O) = vl A x.

  Lemma mono_le : forall i j, i <= j -> j <= n -> st A i <= st A j.
  Proof. intros. apply (st_mono O A W); auto. Qed.
  Lemma seg_length : forall ind val i, length (seg ind val i) = keepn i.
  Proof. intros. unfold seg. now rewrite map_length, seq_length. Qed.
  Lemma seg_ext : forall ind val ind' val' i, (forall x, st A i <= x < st A i + keepn i -> nth x ind 0 = nth x ind' 0 /\ nth x val (t0 O) = nth x val' (t0 O)) ->
    seg ind val i = seg ind' val' i.
  Proof. intros. unfold seg. apply map_ext_in. intros x Hx. apply in_seq in Hx. destruct (H x ltac:(lia)) as (-> & ->). reflexivity. Qed.
  Lemma keepn_le : forall i, i < n -> st A i + keepn i <= st A (S i).
  Proof. intros. unfold keepn. rewrite rowl_length. pose proof (wf_mono O A W i H). lia. Qed.
  Lemma seg_all : forall i, length (rowl A i) <= dlim i -> seg (indices A) (vals A) i = rowl A i.
  Proof. intros. unfold seg, keepn. rewrite Nat.min_l by auto. rewrite rowl_length. reflexivity. Qed.
  Lemma kept_all : forall i, length (rowl A i) <= dlim i -> kept_ok i (rowl A i).
  Proof. intros. exists []. rewrite app_nil_r. split; auto. split; [unfold keepn; lia|]. intros e f _ []. Qed.

  Lemma select_l : forall k lb lg stt, k < n -> ssize A <= lb -> n <= lg -> sel_inv k lb lg stt ->
    wp (drop_select G ceil_mul nth_el ref alpha (ind_start A) k stt) (sel_inv (S k) lb lg).
  Proof.
    intros k lb lg [[[gaps ind] val] buf] Hk Hb Hg (L1 & L2 & L3 & L4 & Hd & Hr). unfold drop_select.
    pose proof (wf_len O A W) as WL. pose proof (wf_inds O A W) as WI. pose proof (wf_vals O A W) as WV. fold n in WL, WI, WV.
    pose proof (wf_mono O A W k Hk) as M1. pose proof (mono_le (S k) n ltac:(lia) ltac:(lia)) as M2.
    pose proof (Rm k Hk) as RM.
    wpb. apply wp_get with (d := 0); [lia|]. wpb. apply wp_get with (d := 0); [lia|].
    wpb. apply wp_get with (d := 0); [lia|]. wpb. apply wp_get with (d := 0); [lia|].
    change (nth (S k) (ind_start A) 0) with (st A (S k)). change (nth k (ind_start A) 0) with (st A k).
    destruct (Nat.ltb_spec (nth (S k) ref 0) (nth k ref 0)); [lia|]. destruct (Nat.ltb_spec (st A (S k)) (st A k)); [lia|]. cbn [orb].
    fold (dlim k). set (b := st A k) in *. set (e := st A (S k)) in *.
    assert (LR : length (rowl A k) = e - b) by apply rowl_length.
    destruct (Nat.leb_spec (e - b) (dlim k)) as [C|C].
    - wpb. apply wp_set; [lia|]. apply wp_ok. split; auto. split; auto. split; auto. rewrite upd_length. split; auto. split.
      + intros i Hi. rewrite nth_upd by lia. destruct (Nat.eqb_spec i k) as [->|].
        * split. { unfold keepn. lia. }
          rewrite (seg_ext _ _ (indices A) (vals A)).
          { rewrite seg_all by lia. apply kept_all. lia. }
          intros x Hx. apply Hr. fold b in Hx. lia.
        * apply Hd. lia.
      + intros x Hx. apply Hr. fold e in Hx. lia.
    - assert (P1 : 1 <= dlim k). { apply Pos; auto. intros E. rewrite E in LR. cbn in LR. lia. }
      set (thr := dlim k) in *. assert (KE : keepn k = thr) by (unfold keepn; fold thr; lia).
      wpb. apply wp_set; [lia|].
      assert (RI : map fst (rowl A k) = slice b (e - b) ind).
      { apply (list_ext _ _ _ 0). { rewrite map_length, slice_length by lia. lia. }
        intros r Hr'. rewrite map_length in Hr'. rewrite nth_slice by lia. change 0 with (fst (0, t0 O)) at 1. rewrite map_nth, rowl_nth by (fold b e; lia).
        cbn [fst]. symmetry. apply Hr. fold b. lia. }
      wpb. eapply wp_conseq with (P := fun buf' => length buf' = lb /\ forall ev, In ev (rowl A k) -> nth (fst ev) buf' (t0 O) = snd ev).
      { eapply wp_conseq.
        { apply (for_range_inv _ (fun x buf' => length buf' = lb /\ forall y, b <= y < x -> nth (ix A y) buf' (t0 O) = vl A y)); [lia| |].
          - split; auto. intros; lia.
          - intros x buf' Hx (Lb & Hy). destruct (Hr x ltac:(lia)) as (R1 & R2). wpb. apply wp_get with (d := 0); [lia|]. wpb. apply wp_get with (d := t0 O); [lia|].
            rewrite R1, R2. pose proof (wf_range O A W x ltac:(fold n; lia)) as RX. apply wp_set; [lia|]. rewrite upd_length. split; auto.
            intros y Hy'. rewrite nth_upd by lia. destruct (Nat.eqb_spec (ix A y) (ix A x)) as [E|E].
            + assert (y = x); [|congruence]. pose proof (D k Hk) as DD. rewrite NoDup_nth with (d := 0) in DD. specialize (DD (y - b) (x - b)).
              rewrite map_length, LR in DD. change 0 with (fst (0, t0 O)) in DD. rewrite !map_nth, !rowl_nth in DD by (fold b e; lia). cbn [fst] in DD. fold b in DD.
              replace (b + (y - b)) with y in DD by lia. replace (b + (x - b)) with x in DD by lia. specialize (DD ltac:(lia) ltac:(lia) E). lia.
            + apply Hy. assert (y <> x) by congruence. lia. }
        intros buf' (Lb & Hy). split; auto. intros (j & v) Hj. apply rowl_in in Hj. destruct Hj as (x & Hx & <- & <-). cbn [fst snd]. apply Hy. auto. }
      intros buf' (Lb & HB).
      destruct (Nat.eqb_spec thr 0); [lia|]. destruct (Nat.ltb_spec (length ind) e); [lia|]. cbn [orb].
      set (key := fun j => mabs G (nth j buf' (t0 O))).
      set (l' := nth_el key thr (slice b (e - b) ind)).
      assert (LS : length (slice b (e - b) ind) = e - b) by (apply slice_length; lia).
      destruct (NE key thr (slice b (e - b) ind) ltac:(lia)) as (PE & OE). fold l' in PE, OE. rewrite LS in OE.
      assert (LL : length l' = e - b) by (rewrite <- (Permutation_length PE); auto).
      set (ind' := firstn b ind ++ l' ++ skipn e ind).
      assert (Li : length ind' = length ind). { unfold ind'. rewrite !app_length, firstn_length, skipn_length. lia. }
      assert (N1 : forall x, x < b -> nth x ind' 0 = nth x ind 0).
      { intros x Hx. unfold ind'. rewrite app_nth1 by (rewrite firstn_length; lia). now rewrite nth_firstn_lt. }
      assert (N2 : forall x, b <= x < e -> nth x ind' 0 = nth (x - b) l' 0).
      { intros x Hx. unfold ind'. rewrite app_nth2 by (rewrite firstn_length; lia). rewrite firstn_length, Nat.min_l by lia. now rewrite app_nth1 by lia. }
      assert (N3 : forall x, e <= x -> nth x ind' 0 = nth x ind 0).
      { intros x Hx. unfold ind'. rewrite app_nth2 by (rewrite firstn_length; lia). rewrite firstn_length, Nat.min_l by lia. rewrite app_nth2 by lia.
        rewrite nth_skipn'. f_equal. lia. }
      assert (IL : forall j, In j l' -> In (j, nth j buf' (t0 O)) (rowl A k)).
      { intros j Hj. apply (Permutation_in _ (Permutation_sym PE)) in Hj. rewrite <- RI in Hj. apply in_map_iff in Hj. destruct Hj as ((a & v) & E & Hj).
        cbn in E. subst a. pose proof (HB _ Hj) as X. cbn [fst snd] in X. rewrite X. exact Hj. }
      wpb. eapply wp_conseq.
      { apply (for_range_inv _ (fun x val' => length val' = length val /\ (forall y, b <= y < x -> nth y val' (t0 O) = nth (nth y ind' 0) buf' (t0 O)) /\
           forall y, y < b \/ x <= y -> nth y val' (t0 O) = nth y val (t0 O))); [lia| |].
        - split; auto. split; [intros; lia|auto].
        - intros x val' Hx (Lv & Hv1 & Hv2). wpb. apply wp_get with (d := 0); [lia|].
          assert (Hlt : nth x ind' 0 < lb).
          { rewrite N2 by lia. assert (I : In (nth (x - b) l' 0) l') by (apply nth_In; lia). apply IL in I.
            apply (wf_rowl_range O A W k) in I; [|exact Hk]. cbn in I. lia. }
          wpb. apply wp_get with (d := t0 O); [lia|]. apply wp_set; [lia|]. rewrite upd_length. split; auto. split.
          + intros y Hy. rewrite nth_upd by lia. destruct (Nat.eqb_spec y x) as [->|]; auto. apply Hv1. lia.
          + intros y Hy. rewrite nth_upd by lia. destruct (Nat.eqb_spec y x); [lia|]. apply Hv2. lia. }
      intros val' (Lv & Hv1 & Hv2). apply wp_ok. split; [lia|]. split; [lia|]. split; [lia|]. rewrite upd_length. split; auto. split.
      + intros i Hi. rewrite nth_upd by lia. destruct (Nat.eqb_spec i k) as [->|].
        * split; [lia|].
          assert (SE : seg ind' val' k = map (fun j => (j, nth j buf' (t0 O))) (firstn thr l')).
          { apply (list_ext _ _ _ (0, t0 O)). { rewrite seg_length, map_length, firstn_length. lia. }
            intros r Hr'. rewrite seg_length in Hr'. unfold seg. rewrite nth_map_seq' by lia. fold b.
            rewrite Hv1 by lia. rewrite N2 by lia. replace (b + r - b) with r by lia.
            assert (X : nth r (map (fun j => (j, nth j buf' (t0 O))) (firstn thr l')) (0, t0 O) = (fun j => (j, nth j buf' (t0 O))) (nth r (firstn thr l') 0)).
            { rewrite nth_indep with (d' := (fun j => (j, nth j buf' (t0 O))) 0) by (rewrite map_length, firstn_length; lia). apply (map_nth (fun j => (j, nth j buf' (t0 O)))). }
            rewrite X. now rewrite nth_firstn_lt by lia. }
          exists (map (fun j => (j, nth j buf' (t0 O))) (skipn thr l')). split; [|split].
          -- rewrite SE, <- map_app, firstn_skipn.
             transitivity (map (fun j => (j, nth j buf' (t0 O))) (slice b (e - b) ind)); [|now apply Permutation_map].
             rewrite <- RI, map_map. apply Permutation_refl'.
             assert (X : forall l : row, (forall ev, In ev l -> nth (fst ev) buf' (t0 O) = snd ev) -> l = map (fun ev => (fst ev, nth (fst ev) buf' (t0 O))) l).
             { clear. induction l as [|[j v] l IH]; intros H; auto. cbn [map fst]. rewrite <- IH by (intros; apply H; now right). pose proof (H (j, v) (or_introl eq_refl)) as X. cbn [fst snd] in X. now rewrite X. }
             now apply X.
          -- now rewrite seg_length.
          -- rewrite SE. intros ev fv He Hf. apply in_map_iff in He. destruct He as (j1 & <- & H1'). apply in_map_iff in Hf. destruct Hf as (j2 & <- & H2').
             cbn [snd]. apply (In_nth _ _ 0) in H1'. destruct H1' as (r1 & Hr1 & E1). rewrite firstn_length in Hr1. rewrite nth_firstn_lt in E1 by lia.
             apply (In_nth _ _ 0) in H2'. destruct H2' as (r2 & Hr2 & E2). rewrite skipn_length in Hr2. rewrite nth_skipn' in E2. subst j1 j2.
             apply (OE r1 (thr + r2)); lia.
        * destruct (Hd i ltac:(lia)) as (X1 & X2). split; auto. rewrite (seg_ext ind' val' ind val); auto.
          intros x Hx. pose proof (keepn_le i ltac:(lia)). pose proof (mono_le (S i) k ltac:(lia) ltac:(lia)). fold b in H3.
          rewrite N1 by lia. rewrite Hv2 by lia. auto.
      + intros x Hx. fold e in Hx. rewrite N3, Hv2 by lia. apply Hr. fold b. lia.
  Qed.

  (** Compression. *)
  Section C.
  Variables (gaps ind : list nat) (val : list T).
  Hypothesis Li : length ind = length (indices A). Hypothesis Lv : length val = length (vals A).
  Hypothesis Lg : n <= length gaps.
  Hypothesis Hg : forall i, i < n -> nth i gaps 0 = length (rowl A i) - keepn i.
  Let R := seg ind val.
  Definition cmp_inv (i : nat) (stt : list nat * nat * nat * list nat * list T) : Prop :=
    let '(ip, prev, pos, ind', val') := stt in
    length ip = length (ind_start A) /\ length ind' = length ind /\ length val' = length val /\
    (forall k, k <= i -> nth k ip 0 = length (flat O R k)) /\ (forall k, i < k -> nth k ip 0 = st A k) /\
    prev = st A i /\ pos = length (flat O R i) /\
    conti O (flat O R i) ind' /\ contv O (flat O R i) val' /\
    forall x, st A i <= x -> nth x ind' 0 = nth x ind 0 /\ nth x val' (t0 O) = nth x val (t0 O).

  Lemma flat_R_le : forall i, i <= n -> length (flat O R i) <= st A i.
  Proof.
    induction i; intros Hi; [cbn; lia|]. rewrite flat_S, app_length. unfold R at 2. rewrite seg_length. pose proof (keepn_le i ltac:(lia)). specialize (IHi ltac:(lia)). lia.
  Qed.

  Lemma compress_l : forall i stt, i < n -> cmp_inv i stt -> wp (drop_compress gaps i stt) (cmp_inv (S i)).
  Proof.
    intros i [[[[ip prev] pos] ind'] val'] Hi (L1 & L2 & L3 & H1 & H2 & -> & Ep & Hc & Hv & Hr). unfold drop_compress.
    pose proof (wf_len O A W) as WL. pose proof (wf_inds O A W) as WI. pose proof (wf_vals O A W) as WV. fold n in WL, WI, WV.
    wpb. apply wp_get with (d := 0); [lia|]. wpb. apply wp_get with (d := 0); [lia|]. rewrite H2, Hg by lia. rewrite rowl_length.
    pose proof (wf_mono O A W i Hi) as M1. pose proof (keepn_le i Hi) as K1. pose proof (flat_R_le i ltac:(lia)) as F1.
    pose proof (mono_le (S i) n ltac:(lia) ltac:(lia)) as M2.
    destruct (Nat.ltb_spec (st A (S i)) (st A (S i) - st A i - keepn i)); [lia|].
    replace (st A (S i) - (st A (S i) - st A i - keepn i)) with (st A i + keepn i) by lia.
    destruct (Nat.ltb_spec (st A i + keepn i) (st A i)); [lia|]. cbn [orb].
    wpb. eapply wp_conseq.
    { apply (for_range_inv _ (fun k (s : nat * list nat * list T) => let '(pos', ind2, val2) := s in
        pos' = pos + (k - st A i) /\ length ind2 = length ind /\ length val2 = length val /\
        conti O (flat O R i ++ firstn (k - st A i) (R i)) ind2 /\ contv O (flat O R i ++ firstn (k - st A i) (R i)) val2 /\
        forall x, k <= x -> nth x ind2 0 = nth x ind 0 /\ nth x val2 (t0 O) = nth x val (t0 O))); [lia| |].
      - rewrite Nat.sub_diag. cbn [firstn]. rewrite app_nil_r. repeat split; auto; try lia; apply Hr; auto.
      - intros k [[pos' ind2] val2] Hk (Ep' & L4 & L5 & Hc' & Hv' & Hr'). destruct (Hr' k ltac:(lia)) as (X1 & X2).
        wpb. apply wp_get with (d := 0); [lia|]. wpb. apply wp_get with (d := t0 O); [lia|]. rewrite X1, X2.
        wpb. apply wp_set; [lia|]. wpb. apply wp_set; [lia|]. apply wp_ok. rewrite !upd_length. split; [lia|]. split; auto. split; auto.
        assert (LRi : length (R i) = keepn i) by apply seg_length.
        assert (F2 : firstn (S k - st A i) (R i) = firstn (k - st A i) (R i) ++ [(nth k ind 0, nth k val (t0 O))]).
        { replace (S k - st A i) with (S (k - st A i)) by lia. rewrite <- (firstn_skipn (k - st A i) (R i)) at 1.
          rewrite firstn_app. rewrite firstn_length, LRi, Nat.min_l by lia. replace (S (k - st A i) - (k - st A i)) with 1 by lia.
          rewrite firstn_all2 by (rewrite firstn_length; lia). f_equal.
          assert (E : skipn (k - st A i) (R i) = nth (k - st A i) (R i) (0, t0 O) :: skipn (S (k - st A i)) (R i)).
          { clear -LRi Hk. assert (H : k - st A i < length (R i)) by lia. revert H. generalize (k - st A i). generalize (R i).
            induction l; intros c Hc; cbn [length] in Hc; [lia|]. destruct c; auto. cbn [skipn nth]. apply IHl. lia. }
          rewrite E. cbn [firstn]. unfold R, seg. rewrite nth_map_seq' by lia. replace (st A i + (k - st A i)) with k by lia. reflexivity. }
        rewrite F2, app_assoc.
        assert (PP : pos' = length (flat O R i ++ firstn (k - st A i) (R i))) by (rewrite app_length, firstn_length, LRi; lia).
        split; [|split].
        + rewrite PP. apply (conti_snoc O _ _ (nth k ind 0, nth k val (t0 O))); auto. rewrite <- PP. lia.
        + rewrite PP. apply (contv_snoc O _ _ (nth k ind 0, nth k val (t0 O))); auto. rewrite <- PP. lia.
        + intros x Hx. rewrite !nth_upd by lia. destruct (Nat.eqb_spec x pos'); [lia|]. apply Hr'. lia. }
    intros [[pos' ind2] val2] (Ep' & L4 & L5 & Hc' & Hv' & Hr').
    replace (st A i + keepn i - st A i) with (keepn i) in * by lia.
    assert (LRi : length (R i) = keepn i) by apply seg_length. rewrite firstn_all2 in Hc', Hv' by lia.
    wpb. apply wp_get with (d := 0); [lia|]. wpb. apply wp_set; [lia|]. apply wp_ok. unfold cmp_inv. rewrite upd_length.
    split; auto. split; auto. split; auto. rewrite flat_S. split; [|split; [|split; [auto|split; [rewrite app_length; lia|split; [auto|split; [auto|]]]]]].
    - intros k Hk. rewrite nth_upd by lia. destruct (Nat.eqb_spec k (S i)) as [->|]; [|apply H1; lia]. rewrite flat_S, app_length, H1 by lia. lia.
    - intros k Hk. rewrite nth_upd by lia. destruct (Nat.eqb_spec k (S i)); [lia|]. apply H2. lia.
    - intros x Hx. apply Hr'. lia.
  Qed.
  End C.

  Lemma drop_offsets_l : forall buf gaps, length (ind_start A) = n + 1 -> ssize A <= length buf -> n <= length gaps ->
    exists B, drop_offsets G ceil_mul nth_el ref alpha A buf gaps = Ok B /\ wf B /\ tight B /\ distinct B /\ largest_kept G dlim A B.
  Proof.
    intros buf0 gaps0 LI HB HG. apply wp_inv. unfold drop_offsets. rewrite LI. replace (n + 1 - 1) with n by lia.
    wpb. eapply wp_conseq.
    { apply (for_range_inv _ (fun k => sel_inv k (length buf0) (length gaps0))); [lia| |].
      - repeat split; auto; intros; lia.
      - intros k stt Hk H. apply select_l; auto; lia. }
    intros [[[gaps ind] val] buf] (L1 & L2 & L3 & L4 & Hd & _).
    wpb. apply wp_get with (d := 0); [lia|].
    wpb. eapply wp_conseq.
    { apply (for_range_inv _ (cmp_inv ind val)); [lia| |].
      - repeat split; auto.
        + intros k Hk. replace k with 0 by lia. cbn. apply (wf_first O A W).
        + intros r Hr. cbn in Hr. lia.
        + intros r Hr. cbn in Hr. lia.
      - intros k stt Hk H. apply compress_l; auto; try lia. intros i Hi. now apply Hd. }
    intros [[[[ip prev] pos] ind'] val'] (C1 & C2 & C3 & C4 & C5 & C6 & C7 & C8 & C9 & C10).
    wpb. apply wp_get with (d := 0); [lia|]. apply wp_ok. rewrite C4 by lia.
    pose proof (flat_R_le gaps ind val L1 L2 ltac:(lia) n ltac:(lia)) as FL. pose proof (wf_inds O A W) as WI. pose proof (wf_vals O A W) as WV. fold n in WI, WV.
    set (R := seg ind val) in *.
    assert (RNG : forall i e, i < n -> In e (R i) -> In e (rowl A i)).
    { intros i e Hi He. destruct (Hd i Hi) as (_ & dr & P & _). apply (Permutation_in _ (Permutation_sym P)). apply in_or_app. now left. }
    destruct (built_storage O n (ssize A) ip (firstn (length (flat O R n)) ind') (firstn (length (flat O R n)) val') R) as (WB & TB & RB).
    - lia.
    - auto.
    - rewrite firstn_length. lia.
    - rewrite firstn_length. lia.
    - intros r Hr. rewrite nth_firstn_lt by lia. now apply C8.
    - intros r Hr. rewrite nth_firstn_lt by lia. now apply C9.
    - intros i e Hi He. apply (wf_rowl_range O A W i); auto.
    - split; auto. split; auto. split.
      + intros i Hi. cbn [psize] in Hi. fold n in Hi. rewrite RB by auto. destruct (Hd i Hi) as (_ & dr & P & _).
        pose proof (D i Hi) as DD. apply (Permutation_NoDup (Permutation_map fst P)) in DD. rewrite map_app in DD. now apply NoDup_app_l in DD.
      + split; auto. split; auto. intros i Hi. fold n in Hi. rewrite RB by auto. destruct (Hd i Hi) as (_ & dr & P & Q & S). exists dr. auto.
  Qed.
End P.

Section B.
  Context {O : Ops}.
  Variable G : Mag O.
  Hypothesis ML : MagLaws G.
  Variable ceil_mul : M G -> nat -> nat.
  Variable nth_el : (nat -> M G) -> nat -> list nat -> list nat.
  Hypothesis NE : nth_element_ok (mle G) nth_el.

  Lemma drop_block_l : forall ref alpha (A : CS O) buf gaps, wf A -> distinct A ->
    psize A + 1 <= length ref -> (forall i, i < psize A -> nth i ref 0 <= nth (S i) ref 0) ->
    (mlt G (m0 G) alpha = true -> forall i, i < psize A -> rowl A i <> [] -> 1 <= ceil_mul alpha (nth (S i) ref 0 - nth i ref 0)) ->
    length (ind_start A) = psize A + 1 -> ssize A <= length buf -> psize A <= length gaps ->
    exists B, drop_block G ceil_mul nth_el ref alpha A buf gaps = Ok B /\ wf B /\ tight B /\ distinct B /\
      largest_kept G (fun i => if mlt G (m0 G) alpha then ceil_mul alpha (nth (S i) ref 0 - nth i ref 0) else 0) A B.
  Proof.
    intros ref alpha A buf gaps W D Lr Rm Pos LI HB HG. unfold drop_block. destruct (mlt G (m0 G) alpha) eqn:E.
    - apply (drop_offsets_l G ceil_mul nth_el NE ref alpha A W D Lr Rm (Pos eq_refl)); auto.
    - apply wp_inv. wpb. unfold fill_n. rewrite LI, Nat.leb_refl. apply wp_ok. apply wp_ok.
      rewrite skipn_all2 by lia. rewrite app_nil_r.
      destruct (built_storage O (psize A) (ssize A) (repeat 0 (psize A + 1)) [] [] (fun _ => [])) as (WB & TB & RB).
      + now rewrite repeat_length.
      + intros k Hk. rewrite nth_repeat. unfold flat. induction (seq 0 k); auto.
      + unfold flat. induction (seq 0 (psize A)); auto.
      + unfold flat. induction (seq 0 (psize A)); auto.
      + intros r Hr. exfalso. revert Hr. unfold flat. induction (seq 0 (psize A)); simpl; auto; lia.
      + intros r Hr. exfalso. revert Hr. unfold flat. induction (seq 0 (psize A)); simpl; auto; lia.
      + intros i e _ [].
      + split; auto. split; auto. split.
        * intros i Hi. cbn [psize] in Hi. rewrite RB by auto. constructor.
        * split; auto. split; auto. intros i Hi. rewrite RB by auto. exists (rowl A i). split; auto. split; [rewrite Nat.min_0_r; reflexivity|]. intros e f [].
  Qed.
End B.
