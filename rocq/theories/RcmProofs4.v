(** * RcmProofs4: [rcm_], [genrcm_], [run_rcm]. *)
From Coq Require Import List Arith Lia Bool ZArith Permutation.
From Verif Require Import Base Scalar CSModel CSSpec RcmModel RcmSpec AugProofs2 RcmProofs1 RcmProofs2 RcmProofs3.
Import ListNotations.
Local Arguments bind {A B} !m f /.

Section R.
  Variables (n : nat) (X adj : list nat).
  Hypothesis HX : length X = n + 1.
  Hypothesis HM : forall i, i < n -> nth i X 0 <= nth (S i) X 0.
  Hypothesis HL : forall i, i <= n -> nth i X 0 <= length adj.
  Notation N := (nbl X adj).
  Notation xz := (xz X).
  Hypothesis HN : forall v w, 1 <= v <= n -> In w (N v) -> 1 <= w <= n.

  Lemma rcm_l : forall A R0 root mask deg, length A + length R0 = n -> NoDup A -> (forall v, In v A -> 1 <= v <= n) ->
    1 <= root <= n -> ~ In root A -> length deg = n + 1 -> MaskOk n mask A ->
    exists qb q mask' deg' R', rcm adj root (length A) xz mask deg (A ++ R0) = Ok (length q, xz, mask', deg', (A ++ q) ++ R') /\
      Bst n N A root qb (length qb) /\ Permutation qb q /\ MaskOk n mask' (A ++ q) /\ length deg' = n + 1 /\
      length (A ++ q) + length R' = n.
  Proof.
    intros A R0 root mask deg HR ND RA Rr NA Ld Mk. unfold rcm.
    destruct (degree_l n X adj HX HM HL HN A R0 root mask deg HR ND RA Rr NA Ld Mk) as (q & dg & E & B & Hq & Ldg).
    rewrite E. cbn [bind]. pose proof (Bst_len _ _ _ _ _ _ B) as LB.
    destruct (MaskOk_clear _ _ _ _ Mk Rr) as (mk & Em & M1). rewrite Em. cbn [bind].
    assert (Lq : 1 <= length q). { pose proof (bs_root _ _ _ _ _ _ B) as Q. destruct q; simpl in *; [contradiction|lia]. }
    assert (LL : length (lay A R0 q) = n) by (rewrite lay_length; lia).
    destruct (Nat.leb_spec (length q) 1).
    - assert (Eq : q = [root]). { destruct q as [|a [|b q]]; simpl in *; try lia. now rewrite Hq. }
      exists q, q, mk, dg, (skipn (length q) R0). split. { unfold lay. now rewrite app_assoc. }
      split; auto. split; auto. split. { rewrite Eq at 1. auto. } split; auto.
      rewrite app_length, skipn_length. lia.
    - destruct (lay_relay n X HX A R0 q) as (R1 & ER & LR1 & W1 & W2); [lia|].
      assert (B0 := init_Bst n N A root ND RA Rr NA).
      assert (EL : lay A R0 q = lay A R1 [root]).
      { rewrite ER. unfold lay. f_equal. destruct R1 as [|r R1]; [simpl in *; lia|]. simpl.
        specialize (W1 0 ltac:(lia)). simpl in W1. rewrite W1, Hq. auto. }
      rewrite LL, EL.
      assert (HR1 : length A + length R1 = n) by lia.
      destruct (rcm_loop_l n X adj HX HM HL HN A R1 root HR1 dg Ldg (S n) [root] 0 mk B0) as (q2 & mk2 & E2 & M2 & B2); auto; try (simpl; lia).
      cbn [length] in E2. rewrite E2. cbn [bind].
      assert (L2 : length q2 = length q) by (eapply Bst_same; eauto).
      rewrite <- L2. unfold lay.
      destruct (reverse_l n X HX A (skipn (length q2) R1) q2) as (q' & E' & P'). rewrite E'. cbn [bind].
      assert (L' : length q' = length q2) by (apply Permutation_length in P'; auto).
      exists q2, q', mk2, dg, (skipn (length q2) R1). split. { rewrite L'. now rewrite app_assoc. }
      split; auto. split; auto. split.
      { eapply MaskOk_ext; eauto. intros v. rewrite !in_app_iff. split; intros [Hv|Hv]; auto; right.
        eapply Permutation_in; eauto. eapply Permutation_in; [symmetry; eauto|auto]. }
      split; auto. rewrite app_length, skipn_length. lia.
  Qed.

  Definition Sym : Prop := forall v w, 1 <= v <= n -> In w (N v) -> In v (N w).

  Lemma full : forall A, NoDup A -> (forall v, In v A -> 1 <= v <= n) -> length A <= n.
  Proof.
    intros A ND RA. replace n with (length (seq 1 n)) by apply seq_length.
    apply NoDup_incl_length; auto. intros v Hv. apply in_seq. specialize (RA v Hv). lia.
  Qed.

  Lemma gen_loop_l : forall cnt i A R mask xls, i + cnt = n + 1 -> 1 <= i -> length A + length R = n -> NoDup A -> (forall v, In v A -> 1 <= v <= n) ->
    length xls = n + 1 -> MaskOk n mask A -> (Sym -> forall w, 1 <= w < i -> In w A) ->
    exists A' R', gen_loop adj cnt i n (length A) xz mask xls (A ++ R) = Ok (xz, A' ++ R') /\
      NoDup A' /\ (forall v, In v A' -> 1 <= v <= n) /\ length A' + length R' = n /\ (Sym -> R' = []).
  Proof.
    induction cnt; intros i A R mask xls Hi H1 LA ND RA Lx Mk HS; cbn [gen_loop].
    - exists A, R. do 4 (split; [solve [auto]|]). intros Sy. specialize (HS Sy).
      assert (L : n <= length A).
      { replace n with (length (seq 1 n)) by apply seq_length. apply NoDup_incl_length. apply seq_NoDup.
        intros v Hv. apply in_seq in Hv. apply HS. lia. }
      destruct R; auto. simpl in LA. lia.
    - rewrite (MaskOk_get _ _ _ _ Mk) by lia. cbn [bind]. rewrite negb_involutive.
      destruct (mem_dec i A) as [[Hm Em]|[Hm Em]]; rewrite Em.
      { apply IHcnt; auto; try lia. intros Sy w Hw. destruct (Nat.eq_dec w i) as [->|]; auto. apply HS; auto; lia. }
      destruct (fnroot_l n X adj HX HM HL HN A R i mask xls ND RA LA) as (q0 & root & mk & xl & R1 & E1 & B0 & Ir & M1 & L1 & LR1); auto; try lia.
      rewrite E1. cbn [bind].
      assert (Rr : 1 <= root <= n) by (apply (bs_rng _ _ _ _ _ _ B0), in_or_app; auto).
      assert (NA : ~ In root A). { pose proof (bs_nd _ _ _ _ _ _ B0) as Q. clear - Q Ir. intros Ha. induction A; simpl in *; [contradiction|].
        inversion Q; subst. destruct Ha as [->|Ha]; auto. apply H1, in_or_app; auto. }
      destruct (rcm_l A R1 root mk xl) as (qb & q & mk2 & dg & R2 & E2 & B2 & P2 & M2 & L2 & LL2); auto; try lia.
      rewrite E2. cbn [bind].
      assert (PA : Permutation (A ++ qb) (A ++ q)) by (apply Permutation_app_head; auto).
      assert (ND2 : NoDup (A ++ q)) by (eapply Permutation_NoDup; [eauto|eapply bs_nd; eauto]).
      assert (RA2 : forall v, In v (A ++ q) -> 1 <= v <= n).
      { intros v Hv. apply (bs_rng _ _ _ _ _ _ B2). eapply Permutation_in; [symmetry; eauto|auto]. }
      replace (length A + length q) with (length (A ++ q)) by apply app_length.
      assert (IA : Sym -> In i (A ++ q)).
      { intros Sy. apply in_or_app. right. eapply Permutation_in; [eauto|]. eapply (Bst_sym n N A i q0 root qb Sy); eauto. }
      destruct (Nat.ltb_spec n (length (A ++ q) + 1)).
      + exists (A ++ q), R2. do 4 (split; [solve [auto]|]). intros _. destruct R2; auto. simpl in LL2. lia.
      + apply IHcnt; auto; try lia. intros Sy w Hw. destruct (Nat.eq_dec w i) as [->|]; auto.
        apply in_or_app. left. apply HS; auto; lia.
  Qed.

  Lemma genrcm_l : forall p0, length p0 = n -> exists A' R', genrcm adj n xz p0 = Ok (xz, A' ++ R') /\
      NoDup A' /\ (forall v, In v A' -> 1 <= v <= n) /\ length A' + length R' = n /\ (Sym -> R' = []).
  Proof.
    intros p0 L0. unfold genrcm.
    pose proof (for_range_inv _ (fun i mask => length mask = n + 1 /\ forall w, 1 <= w < i -> nth w mask false = true) 1 (n + 1)
      (fun i mask => set mask i true) (repeat false (n + 1))) as F. cbv beta in F. apply wp_inv in F.
    - destruct F as (mask & E & Lm & Hm). rewrite E. cbn [bind].
      apply (gen_loop_l n 1 [] p0 mask (repeat 0 (n + 1))); auto; try lia.
      + constructor.
      + simpl; contradiction.
      + apply repeat_length.
      + split; auto. intros w Hw. simpl. apply Hm. lia.
    - lia.
    - split. apply repeat_length. intros; lia.
    - intros i mask Hi [Lm Hm]. apply wp_set. lia. rewrite upd_length. split; auto. intros w Hw. rewrite nth_upd by lia.
      destruct (w =? i) eqn:E; auto. apply Nat.eqb_neq in E. apply Hm. lia.
  Qed.
End R.

Section G.
  Variable O : Ops.
  Variable B : CS O.
  Notation n := (ssize B).
  Hypothesis WF : wf B.
  Hypothesis SQ : psize B = ssize B.
  Hypothesis LS : length (ind_start B) = psize B + 1.

  Lemma g_mono : forall i, i < n -> nth i (ind_start B) 0 <= nth (S i) (ind_start B) 0.
  Proof. intros. apply (wf_mono O B WF). lia. Qed.
  Lemma g_last : forall i, i <= n -> nth i (ind_start B) 0 <= st B n.
  Proof.
    intros i Hi. unfold st. remember (n - i) as d. revert i Hi Heqd. induction d; intros.
    - replace i with n by lia. auto.
    - pose proof (g_mono i ltac:(lia)). specialize (IHd (S i) ltac:(lia) ltac:(lia)). lia.
  Qed.
  Lemma g_len : forall i, i <= n -> nth i (ind_start B) 0 <= length (map S (indices B)).
  Proof. intros. rewrite map_length. pose proof (g_last i H). pose proof (wf_inds O B WF). rewrite SQ in H1. lia. Qed.

  Lemma g_nbl : forall v w, 1 <= v <= n -> In w (nbl (ind_start B) (map S (indices B)) v) <-> (exists j, w = S j /\ edge B (v - 1) j).
  Proof.
    intros v w Hv. unfold nbl, edge. pose proof (g_mono (v - 1) ltac:(lia)) as M. replace (S (v - 1)) with v in * by lia.
    pose proof (g_len v ltac:(lia)) as L. fold (st B (v - 1)) in *. fold (st B v) in *. split.
    - intros H. destruct (In_nth _ _ 0 H) as (k & Hk & E). rewrite slice_length in Hk by lia. rewrite nth_slice in E by auto.
      rewrite (nth_indep _ 0 (S 0)), map_nth in E by lia. exists (ix B (st B (v - 1) + k)). split; auto.
      eexists; split; [|split; [|reflexivity]]; lia.
    - intros (j & -> & k & H1 & H2 & <-). 
      assert (E : nth (k - st B (v - 1)) (slice (st B (v - 1)) (st B v - st B (v - 1)) (map S (indices B))) 0 = S (ix B k)).
      { rewrite nth_slice by lia. replace (st B (v - 1) + (k - st B (v - 1))) with k by lia.
        rewrite (nth_indep _ 0 (S 0)), map_nth by lia. auto. }
      rewrite <- E. apply nth_In. rewrite slice_length by lia. lia.
  Qed.

  Lemma edge_rng : forall i j, i < n -> edge B i j -> j < n.
  Proof.
    intros i j Hi (k & H1 & H2 & <-). apply (wf_range O B WF). rewrite SQ. pose proof (g_last (S i) ltac:(lia)). unfold st in *. lia.
  Qed.

  Lemma g_rng : forall v w, 1 <= v <= n -> In w (nbl (ind_start B) (map S (indices B)) v) -> 1 <= w <= n.
  Proof. intros v w Hv H. apply g_nbl in H; auto. destruct H as (j & -> & E). apply edge_rng in E; lia. Qed.

  Lemma g_sym : sym_graph B -> Sym n (ind_start B) (map S (indices B)).
  Proof.
    intros Sy v w Hv H. pose proof (g_rng v w Hv H) as Rw. apply g_nbl in H; auto. destruct H as (j & -> & E).
    apply g_nbl; auto. exists (v - 1). split; [lia|]. replace (S j - 1) with j by lia. apply Sy; auto. lia.
  Qed.

  Lemma run_rcm_l : forall p0, length p0 = n -> exists A' R',
    run_rcm B p0 = Ok (map (fun v => v - 1) A' ++ R', one_based B) /\
      NoDup A' /\ (forall v, In v A' -> 1 <= v <= n) /\ length A' + length R' = n /\ (sym_graph B -> R' = []).
  Proof.
    intros p0 L0. unfold run_rcm.
    assert (EX : map (fun v => Z.of_nat (S v)) (ind_start B) = one_based B).
    { unfold one_based. apply map_ext. intros. lia. }
    destruct (Nat.eqb_spec n 0) as [Z0|NZ].
    - exists [], []. cbn [bind]. rewrite EX. destruct p0; simpl in L0; [|lia]. split; auto. split; [constructor|]. split; [simpl; contradiction|]. split; simpl; auto.
    - destruct (genrcm_l n (ind_start B) (map S (indices B))) with (p0 := p0) as (A' & R' & E & ND & RA & LL & HS); auto.
      { lia. } { apply g_mono. } { apply g_len. } { apply g_rng. }
      unfold xz in E. rewrite EX in *. rewrite E. cbn [bind]. exists A', (map (fun v => v - 1) R'). rewrite map_app. split; auto.
      do 2 (split; [solve [auto]|]). rewrite map_length. split; auto. intros Sy. rewrite HS; auto. apply g_sym; auto.
  Qed.

  Lemma perm_pred : forall A', NoDup A' -> (forall v, In v A' -> 1 <= v <= n) -> length A' = n -> Permutation (map (fun v => v - 1) A') (seq 0 n).
  Proof.
    intros A' ND RA L. apply NoDup_Permutation_bis.
    - clear L. induction A'; simpl; constructor; inversion ND; subst.
      + intros H. apply in_map_iff in H. destruct H as (x & E & Hx). apply H1. replace a with x; auto.
        pose proof (RA x ltac:(simpl; auto)). pose proof (RA a ltac:(simpl; auto)). lia.
      + apply IHA'; auto. intros; apply RA; simpl; auto.
    - rewrite map_length, seq_length. lia.
    - intros v Hv. apply in_map_iff in Hv. destruct Hv as (x & <- & Hx). apply in_seq. specialize (RA x Hx). lia.
  Qed.
End G.
