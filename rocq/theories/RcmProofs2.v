(** * RcmProofs2: the searches of [rootls_] and [fnroot_]. *)
From Coq Require Import List Arith Lia Bool ZArith Permutation.
From Verif Require Import Base Scalar CSModel RcmModel AugProofs2 RcmProofs1.
Import ListNotations.
Local Arguments bind {A B} !m f /.

Ltac rwz E := cbn [bind] in E; rewrite E.

Section R.
  Variables (n : nat) (X adj : list nat).
  Hypothesis HX : length X = n + 1.
  Hypothesis HM : forall i, i < n -> nth i X 0 <= nth (S i) X 0.
  Hypothesis HL : forall i, i <= n -> nth i X 0 <= length adj.
  Notation N := (nbl X adj).
  Hypothesis HN : forall v w, 1 <= v <= n -> In w (N v) -> 1 <= w <= n.

  Definition xz : list Z := map (fun v => Z.of_nat (S v)) X.
  Lemma xz_len : length xz = n + 1.
  Proof. unfold xz. now rewrite map_length. Qed.
  Lemma xz_nth : forall i, i <= n -> nth i xz 0%Z = Z.of_nat (S (nth i X 0)).
  Proof. intros. unfold xz. rewrite (nth_indep _ 0%Z (Z.of_nat (S 0))) by (rewrite map_length; lia). apply (map_nth (fun v => Z.of_nat (S v))). Qed.

  Lemma neighbors_list : forall T v (f : nat -> T -> res T) s, 1 <= v <= n ->
    neighbors adj xz v f s = for_list (N v) f s.
  Proof.
    intros T v f s Hv. unfold neighbors.
    rewrite (get1_nth _ _ _ 0%Z) by (rewrite xz_len; lia). cbn [bind].
    rewrite xz_nth by lia. unfold idx at 1. destruct (Z.ltb_spec (Z.of_nat (S (nth (v - 1) X 0))) 0); [lia|]. cbn [bind].
    rewrite (get1_nth _ _ _ 0%Z) by (rewrite xz_len; lia). cbn [bind].
    rewrite xz_nth by lia. unfold idx. destruct (Z.ltb_spec (Z.of_nat (S (nth (v + 1 - 1) X 0))) 0); [lia|]. cbn [bind].
    rewrite !Nat2Z.id. replace (v + 1 - 1) with v by lia.
    unfold nbl. apply range_list'.
    - specialize (HM (v - 1) ltac:(lia)). replace (S (v - 1)) with v in HM by lia. auto.
    - apply HL; lia.
  Qed.

  Section S.
    Variables (A R0 : list nat) (root : nat).
    Hypothesis HR0 : length A + length R0 = n.

    Lemma room : forall q h w, Bst n N A root q h -> ~ In w (A ++ q) -> 1 <= w <= n -> length q < length R0.
    Proof.
      intros q h w B Hw Rw.
      assert (ND : NoDup (w :: A ++ q)). { constructor; auto. eapply bs_nd; eauto. }
      assert (L : length (w :: A ++ q) <= length (seq 1 n)).
      { apply NoDup_incl_length; auto. intros v [<-|Hv]; apply in_seq; [lia|].
        pose proof (bs_rng _ _ _ _ _ _ B v Hv). lia. }
      rewrite seq_length in L. cbn [length] in L. rewrite app_length in L. lia.
    Qed.

    Lemma fits : forall q h, Bst n N A root q h -> length q <= length R0.
    Proof. intros. pose proof (Bst_len _ _ _ _ _ _ H). lia. Qed.

    (** Neighbour loop of [rootls_]. *)
    Lemma rootls_nb : forall l q h v mask, Bst n N A root q h -> In v q -> (forall w, In w l -> In w (N v) /\ 1 <= w <= n) ->
      MaskOk n mask (A ++ q) ->
      exists mask', for_list l (fun nbr (s : nat * list bool * list nat) =>
            let '(ccsize, mask, perm) := s in
            m <- get mask nbr ;;
            if negb m then Ok (ccsize, mask, perm)
            else
              let ccsize := ccsize + 1 in
              perm <- set1 perm (length A + ccsize) nbr ;;
              mask <- set mask nbr false ;;
              Ok (ccsize, mask, perm)) (length q, mask, lay A R0 q) = Ok (length (visits A q l), mask', lay A R0 (visits A q l)) /\
        MaskOk n mask' (A ++ visits A q l).
    Proof.
      induction l; intros q h v mask B Hv Hl Mk; cbn [for_list].
      - exists mask. split; auto.
      - destruct (Hl a) as [La Ra]; [simpl; auto|].
        rewrite (MaskOk_get _ _ _ _ Mk Ra). cbn [bind]. rewrite negb_involutive.
        destruct (visit_Bst n N A root q h a v B Hv La Ra) as [B1 _].
        assert (Hv1 : In v (visit A q a)). { destruct (visit_pre A q a) as [t E]. rewrite E. apply in_or_app; auto. }
        unfold visits; cbn [fold_left]. fold (visits A (visit A q a) l).
        unfold visit in B1, Hv1 |- *.
        destruct (mem_dec a (A ++ q)) as [[H E]|[H E]]; rewrite E in *.
        + cbn [bind]. apply (IHl q h v mask); auto. intros; apply Hl; simpl; auto.
        + cbn [bind]. rewrite lay_push by (eapply room; eauto). cbn [bind].
          destruct (MaskOk_clear _ _ _ _ Mk Ra) as (mask' & E' & Mk'). rewrite E'. cbn [bind].
          replace (length q + 1) with (length (q ++ [a])) by (rewrite app_length; auto).
          apply (IHl (q ++ [a]) h v mask'); auto. intros; apply Hl; simpl; auto. now rewrite <- app_assoc in Mk'.
    Qed.

    (** Node loop of [rootls_]. *)
    Lemma rootls_lv : forall k q h mask, Bst n N A root q h -> h + k <= length q -> MaskOk n mask (A ++ q) ->
      exists q' mask', for_n (S h) k (fun i (s : nat * list bool * list nat) =>
          let '(ccsize, mask, perm) := s in
          node <- get1 perm (length A + i) ;;
          neighbors adj xz node (fun nbr (s : nat * list bool * list nat) =>
            let '(ccsize, mask, perm) := s in
            m <- get mask nbr ;;
            if negb m then Ok (ccsize, mask, perm)
            else
              let ccsize := ccsize + 1 in
              perm <- set1 perm (length A + ccsize) nbr ;;
              mask <- set mask nbr false ;;
              Ok (ccsize, mask, perm)) (ccsize, mask, perm)) (length q, mask, lay A R0 q) = Ok (length q', mask', lay A R0 q') /\
        MaskOk n mask' (A ++ q') /\ Bst n N A root q' (h + k) /\ exists t, q' = q ++ t.
    Proof.
      induction k; intros q h mask B Hk Mk; cbn [for_n].
      - exists q, mask. rewrite Nat.add_0_r. do 3 (split; [solve [auto]|]). exists []. now rewrite app_nil_r.
      - replace (length A + S h) with (length A + (h + 1)) by lia.
        rewrite lay_get by (try (eapply fits; eauto); lia). cbn [bind].
        assert (Hv : In (nth h q 0) q) by (apply nth_In; lia).
        assert (Rv : 1 <= nth h q 0 <= n) by (apply (bs_rng _ _ _ _ _ _ B), in_or_app; auto).
        rewrite neighbors_list by auto.
        destruct (rootls_nb (N (nth h q 0)) q h (nth h q 0) mask B Hv) as (mask1 & E1 & M1); auto.
        { intros w Hw. split; auto. eapply HN; eauto. }
        rwz E1. cbn [bind].
        assert (B1 := expand_Bst n N A root q h HN B ltac:(lia)).
        destruct (visits_pre (N (nth h q 0)) A q) as [t Et].
        destruct (IHk (visits A q (N (nth h q 0))) (S h) mask1 B1) as (q' & mask' & E' & M' & B' & t' & Et'); auto.
        { rewrite Et, app_length. lia. }
        exists q', mask'. split; [cbn [bind] in E'; exact E'|]. split; auto. split. { now replace (h + S k) with (S h + k) by lia. }
        exists (t ++ t'). rewrite Et', Et. now rewrite app_assoc.
    Qed.

    Lemma rootls_loop_l : forall fuel q h nlvl mask xls, Bst n N A root q h -> h < length q -> nlvl <= h ->
      n < fuel + length q -> length xls = n + 1 -> MaskOk n mask (A ++ q) ->
      exists q' nlvl' mask' xls', rootls_loop adj fuel xz (length A) h (length q) nlvl mask xls (lay A R0 q) =
          Ok (length q', length q', nlvl', mask', xls', lay A R0 q') /\
        MaskOk n mask' (A ++ q') /\ Bst n N A root q' (length q') /\ (exists t, q' = q ++ t) /\
        nlvl < nlvl' <= length q' /\ length xls' = n + 1 /\ 1 <= nth (nlvl' - 1) xls' 0 <= length q'.
    Proof.
      induction fuel; intros q h nlvl mask xls B Hh Hn Hf Lx Mk.
      { pose proof (Bst_len _ _ _ _ _ _ B). lia. }
      cbn [rootls_loop]. pose proof (Bst_len _ _ _ _ _ _ B) as LB.
      rewrite set1_upd by lia. cbn [bind]. replace (nlvl + 1 - 1) with nlvl by lia.
      unfold for_range. replace (length q + 1 - (h + 1)) with (length q - h) by lia. replace (h + 1) with (S h) by lia.
      destruct (rootls_lv (length q - h) q h mask B ltac:(lia) Mk) as (q' & mask' & E & M' & B' & t & Et).
      rwz E. cbn [bind]. replace (h + (length q - h)) with (length q) in B' by lia.
      assert (Lq' : length q' = length q + length t) by (rewrite Et; apply app_length).
      destruct (Nat.ltb_spec 0 (length q' - length q)).
      - destruct (IHfuel q' (length q) (nlvl + 1) mask' (upd xls nlvl (S h)) B') as (q2 & nl2 & mk2 & xl2 & E2 & M2 & B2 & (t2 & Et2) & H2 & L2 & J2); auto; try lia.
        { now rewrite upd_length. }
        exists q2, nl2, mk2, xl2. split; [exact E2|]. do 2 (split; [solve [auto]|]). split; [|split; [lia|auto]].
        exists (t ++ t2). rewrite Et2, Et. now rewrite app_assoc.
      - assert (t = []) by (destruct t; simpl in *; auto; lia). assert (length q' = length q) by lia.
        exists q', (nlvl + 1), mask', (upd xls nlvl (S h)). split. { rewrite H1. reflexivity. }
        split; auto. split. { rewrite H1. auto. } split; [eauto|]. split; [lia|]. split. { now rewrite upd_length. }
        replace (nlvl + 1 - 1) with nlvl by lia. rewrite nth_upd_eq by lia. lia.
    Qed.

    Lemma restore_l : forall q, (forall v, In v q -> 1 <= v <= n) -> length q <= length R0 ->
      forall k h mask, h + k = length q -> NoDup (A ++ skipn h q) -> MaskOk n mask (A ++ skipn h q) ->
      exists mask', for_n (S h) k (fun i mask => node <- get1 (lay A R0 q) (length A + i) ;; set mask node true) mask = Ok mask' /\
        MaskOk n mask' A.
    Proof.
      intros q Rq Lq. induction k; intros h mask Hk ND Mk; cbn [for_n].
      - exists mask. split; auto. replace h with (length q) in Mk by lia. rewrite skipn_all in Mk. now rewrite app_nil_r in Mk.
      - replace (length A + S h) with (length A + (h + 1)) by lia. rewrite lay_get by lia. cbn [bind].
        assert (Rv : 1 <= nth h q 0 <= n) by (apply Rq, nth_In; lia).
        assert (E : skipn h q = nth h q 0 :: skipn (S h) q).
        { clear - Hk. revert h Hk. induction q; intros h Hk; [simpl in *; lia|]. destruct h; simpl; auto. apply IHq. simpl in Hk. lia. }
        rewrite E in ND, Mk. set (v := nth h q 0) in *. 
        destruct Mk as [ML MH]. rewrite set_ok by lia. cbn [bind].
        apply IHk; [lia| |].
        + eapply NoDup_remove_1; eauto.
        + split; [now rewrite upd_length|]. intros w Hw. rewrite nth_upd by lia. rewrite (MH w Hw).
          rewrite !mem_app. unfold mem at 2. cbn [existsb].
          destruct (Nat.eqb_spec w v) as [->|NE]; cbn [orb]; auto.
          apply NoDup_remove_2 in ND. apply mem_nIn in ND. rewrite mem_app in ND. now rewrite ND.
    Qed.
  End S.

  Lemma lay_nil : forall A R0, lay A R0 [] = A ++ R0.
  Proof. reflexivity. Qed.

  Lemma rootls_l : forall A R0 root mask xls, length A + length R0 = n -> NoDup A -> (forall v, In v A -> 1 <= v <= n) ->
    1 <= root <= n -> ~ In root A -> length xls = n + 1 -> MaskOk n mask A ->
    exists q nlvl mask' xls', rootls adj root xz (length A) mask xls (A ++ R0) = Ok (nlvl, mask', xls', lay A R0 q) /\
      MaskOk n mask' A /\ Bst n N A root q (length q) /\ nth 0 q 0 = root /\
      1 <= nlvl <= length q /\ length xls' = n + 1 /\
      1 <= nth (nlvl - 1) xls' 0 <= length q /\ nth nlvl xls' 0 = length q + 1.
  Proof.
    intros A R0 root mask xls HR ND RA Rr NA Lx Mk. unfold rootls.
    destruct (MaskOk_clear _ _ _ _ Mk Rr) as (mask1 & E1 & M1). rewrite E1. cbn [bind].
    assert (B0 := init_Bst n N A root ND RA Rr NA).
    pose proof (lay_push A R0 [] root) as LP. rewrite lay_nil in LP. cbn [length app] in LP. replace (length A + (0 + 1)) with (length A + 1) in LP by lia.
    rewrite LP. 2:{ pose proof (fits A R0 root HR _ _ B0). simpl in *. lia. } cbn [bind].
    assert (LL : length (lay A R0 [root]) = n). { rewrite lay_length; auto. pose proof (fits A R0 root HR _ _ B0). auto. }
    rewrite LL.
    destruct (rootls_loop_l A R0 root HR (S n) [root] 0 0 mask1 xls B0) as (q & nl & mk & xl & E & M & B & (t & Et) & Hn & L & J); auto; try (simpl; lia).
    cbn [length] in E. rewrite E. cbn [bind].
    pose proof (Bst_len _ _ _ _ _ _ B) as LB.
    rewrite set1_upd by lia. cbn [bind]. replace (nl + 1 - 1) with nl by lia.
    unfold for_range. replace (length q + 1 - 1) with (length q) by lia.
    destruct (restore_l A R0 HR q) with (k := length q) (h := 0) (mask := mk) as (mk' & E' & M'); auto.
    { intros v Hv. apply (bs_rng _ _ _ _ _ _ B), in_or_app; auto. } { eapply fits; eauto. } { simpl. eapply bs_nd; eauto. }
    rewrite E'. cbn [bind]. exists q, nl, mk', (upd xl nl (length q + 1)). split; auto. split; auto. split; auto.
    split. { rewrite Et. auto. } split; [lia|]. split. { now rewrite upd_length. }
    rewrite nth_upd_neq by lia. split; [auto|]. rewrite nth_upd_eq by lia. auto.
  Qed.

  (** Counting the neighbours still available, [fnroot_]. *)
  Lemma count_l : forall mask D l k, MaskOk n mask D -> (forall w, In w l -> 1 <= w <= n) ->
    exists d, for_list l (fun nbr ndeg => m <- get mask nbr ;; Ok (if m then ndeg + 1 else ndeg)) k = Ok d.
  Proof.
    intros mask D. induction l; intros k Mk Hl; cbn [for_list]; eauto.
    rewrite (MaskOk_get _ _ _ _ Mk) by (apply Hl; simpl; auto). cbn [bind]. apply IHl; auto. intros; apply Hl; simpl; auto.
  Qed.

  Lemma pick_l : forall (C : nat -> Prop) mask D perm off k j s, MaskOk n mask D -> (forall v, C v -> 1 <= v <= n) ->
    (forall i, j <= i < j + k -> exists v, get1 perm (off + i) = Ok v /\ C v) -> C (fst s) ->
    exists s', for_n j k (fun j (s : nat * nat) =>
          let '(root, mindeg) := s in
          node <- get1 perm (off + j) ;;
          ndeg <- neighbors adj xz node (fun nbr ndeg =>
            m <- get mask nbr ;; Ok (if m then ndeg + 1 else ndeg)) 0 ;;
          if mindeg <=? ndeg then Ok (root, mindeg) else Ok (node, ndeg)) s = Ok s' /\ C (fst s').
  Proof.
    intros C mask D perm off. induction k; intros j s Mk RC HC Hs; cbn [for_n]; eauto.
    destruct s as [r m]. destruct (HC j ltac:(lia)) as (v & Ev & Cv). rewrite Ev. cbn [bind].
    rewrite neighbors_list by auto.
    destruct (count_l mask D (N v) 0 Mk) as [d Ed]. { intros w Hw. eapply HN; eauto. }
    rewrite Ed. cbn [bind]. destruct (m <=? d); cbn [bind]; apply IHk; auto; intros; apply HC; lia.
  Qed.

  Lemma lay_relay : forall A R0 q, length q <= length R0 -> exists R, lay A R0 q = A ++ R /\ length R = length R0 /\
    (forall i, i < length q -> nth i R 0 = nth i q 0) /\ (forall i, length q <= i -> nth i R 0 = nth i R0 0).
  Proof.
    intros A R0 q H. exists (q ++ skipn (length q) R0). unfold lay. split; auto. split. { rewrite app_length, skipn_length. lia. }
    split; intros i Hi. { now rewrite app_nth1 by auto. }
    rewrite app_nth2 by auto. rewrite nth_skipn'. f_equal. lia.
  Qed.

  (** [fnroot_]: the root found is one of the nodes reachable from the given one. *)
  Lemma fnroot_loop_l : forall A root0 q0, Bst n N A root0 q0 (length q0) -> NoDup A -> (forall v, In v A -> 1 <= v <= n) ->
    forall fuel R root nlvl mask xls, length A + length R = n -> (forall i, i < length q0 -> In (nth i R 0) q0) ->
    1 <= nlvl <= length q0 -> n < fuel + nlvl ->
    length xls = n + 1 -> 1 <= nth (nlvl - 1) xls 0 <= length q0 -> MaskOk n mask A ->
    exists root' mask' xls' R', fnroot_loop adj fuel xz (length A) (length q0) root nlvl mask xls (A ++ R) = Ok (root', mask', xls', A ++ R') /\
      In root' q0 /\ MaskOk n mask' A /\ length xls' = n + 1 /\ length R' = length R.
  Proof.
    intros A root0 q0 B0 ND RA. pose proof (Bst_len _ _ _ _ _ _ B0) as LB.
    assert (RC : forall v, In v q0 -> 1 <= v <= n) by (intros; apply (bs_rng _ _ _ _ _ _ B0), in_or_app; auto).
    induction fuel; intros R root nlvl mask xls LR HR Hn Hf Lx Hx Mk. { lia. }
    cbn [fnroot_loop]. rewrite (get1_nth _ _ _ 0) by lia. cbn [bind]. set (js := nth (nlvl - 1) xls 0) in *.
    assert (G : forall i, 1 <= i <= length q0 -> exists v, get1 (A ++ R) (length A + i) = Ok v /\ In v q0).
    { intros i Hi. rewrite (get1_nth _ _ _ 0) by (rewrite app_length; lia). eexists; split; eauto.
      rewrite app_nth2 by lia. replace (length A + i - 1 - length A) with (i - 1) by lia. apply HR. lia. }
    destruct (G js Hx) as (r0 & E0 & I0). rewrite E0. cbn [bind].
    assert (P : exists s', (if length q0 =? js then Ok (r0, length q0)
        else for_range js (length q0 + 1) (fun j (s : nat * nat) =>
          let '(root, mindeg) := s in
          node <- get1 (A ++ R) (length A + j) ;;
          ndeg <- neighbors adj xz node (fun nbr ndeg =>
            m <- get mask nbr ;; Ok (if m then ndeg + 1 else ndeg)) 0 ;;
          if mindeg <=? ndeg then Ok (root, mindeg) else Ok (node, ndeg)) (r0, length q0)) = Ok s' /\ In (fst s') q0).
    { destruct (length q0 =? js); [exists (r0, length q0); auto|].
      unfold for_range. apply (pick_l (fun v => In v q0) mask A); auto. intros i Hi. apply G. lia. }
    destruct P as ([r1 md] & E1 & I1). rewrite E1. cbn [bind fst] in *.
    assert (NA : ~ In r1 A). { pose proof (bs_nd _ _ _ _ _ _ B0) as Q. clear - Q I1. intros Ha. induction A; simpl in *; [contradiction|].
      inversion Q; subst. destruct Ha as [->|Ha]; auto. apply H1, in_or_app; auto. }
    destruct (rootls_l A R r1 mask xls) as (q & nu & mk & xl & E & M & B & Hr & Hnu & Lxl & J1 & J2); auto.
    rewrite E. cbn [bind].
    assert (Iq : incl q q0) by (eapply Bst_incl; eauto).
    assert (Lq : length q <= length q0) by (eapply Bst_len_le; eauto).
    destruct (lay_relay A R q) as (R' & ER & LR' & W1 & W2); [lia|]. rewrite ER.
    destruct (Nat.leb_spec nu nlvl).
    { exists r1, mk, xl, R'. auto. }
    destruct (Nat.ltb_spec nu (length q0)).
    2:{ exists r1, mk, xl, R'. auto. }
    destruct (IHfuel R' r1 nu mk xl) as (r2 & m2 & x2 & R2 & E2 & I2 & M2 & L2 & LR2); auto; try lia.
    { intros i Hi. destruct (Nat.lt_ge_cases i (length q)).
      - rewrite W1 by auto. apply Iq, nth_In; auto.
      - rewrite W2 by auto. apply HR; auto. }
    exists r2, m2, x2, R2. split; [exact E2|]. do 3 (split; [solve [auto]|]). lia.
  Qed.

  Lemma fnroot_l : forall A R root0 mask xls, NoDup A -> (forall v, In v A -> 1 <= v <= n) -> length A + length R = n ->
    1 <= root0 <= n -> ~ In root0 A -> length xls = n + 1 -> MaskOk n mask A ->
    exists q0 root' mask' xls' R', fnroot adj root0 xz (length A) mask xls (A ++ R) = Ok (root', mask', xls', A ++ R') /\
      Bst n N A root0 q0 (length q0) /\ In root' q0 /\ MaskOk n mask' A /\ length xls' = n + 1 /\ length R' = length R.
  Proof.
    intros A R root0 mask xls ND RA LR Rr NA Lx Mk. unfold fnroot.
    destruct (rootls_l A R root0 mask xls) as (q0 & nl & mk & xl & E & M & B & Hr & Hn & Lxl & J1 & J2); auto.
    rewrite E. cbn [bind]. pose proof (Bst_len _ _ _ _ _ _ B) as LB.
    rewrite (get1_nth _ _ _ 0) by lia. cbn [bind]. replace (nl + 1 - 1) with nl by lia. rewrite J2.
    replace (length q0 + 1 - 1) with (length q0) by lia.
    assert (LL : length (lay A R q0) = n) by (rewrite lay_length; lia). rewrite LL.
    destruct (lay_relay A R q0) as (R' & ER & LR' & W1 & W2); [lia|]. rewrite ER in *.
    destruct ((nl =? 1) || (nl =? length q0)).
    { exists q0, root0, mk, xl, R'. do 2 (split; [solve [auto]|]). split; [eapply bs_root; eauto|auto]. }
    destruct (fnroot_loop_l A root0 q0 B ND RA (S n) R' root0 nl mk xl) as (r2 & m2 & x2 & R2 & E2 & I2 & M2 & L2 & LR2); auto; try lia.
    { intros i Hi. rewrite W1 by auto. apply nth_In; auto. }
    exists q0, r2, m2, x2, R2. split; [exact E2|]. do 4 (split; [solve [auto]|]). lia.
  Qed.
End R.
