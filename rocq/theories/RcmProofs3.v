(** * RcmProofs3: [degree_], [rcm_], [genrcm_]. *)
From Coq Require Import List Arith Lia Bool ZArith Permutation.
From Verif Require Import Base Scalar CSModel RcmModel AugProofs2 RcmProofs1 RcmProofs2 VecProofs.
Import ListNotations.
Local Arguments bind {A B} !m f /.

Section R.
  Variables (n : nat) (X adj : list nat).
  Hypothesis HX : length X = n + 1.
  Hypothesis HM : forall i, i < n -> nth i X 0 <= nth (S i) X 0.
  Hypothesis HL : forall i, i <= n -> nth i X 0 <= length adj.
  Notation N := (nbl X adj).
  Notation xz := (xz X).
  Hypothesis HN : forall v w, 1 <= v <= n -> In w (N v) -> 1 <= w <= n.

  Definition XOk (xadj : list Z) (q : list nat) : Prop :=
    length xadj = n + 1 /\ forall i, i <= n -> nth i xadj 0%Z = if mem (i + 1) q then (- nth i xz 0)%Z else nth i xz 0%Z.

  Lemma xzn : forall i, i <= n -> nth i xz 0%Z = Z.of_nat (S (nth i X 0)).
  Proof. intros. apply (xz_nth n X HX); auto. Qed.

  Lemma XOk_nil : XOk xz [].
  Proof. split; auto. apply (xz_len n X HX). Qed.
  Lemma XOk_nil_inv : forall xadj, XOk xadj [] -> xadj = xz.
  Proof.
    intros xadj [L H]. apply (list_ext _ _ _ 0%Z). { now rewrite (xz_len n X HX). }
    intros i Hi. rewrite H by lia. auto.
  Qed.
  Lemma XOk_get : forall xadj q w, XOk xadj q -> 1 <= w <= n + 1 -> get1 xadj w = Ok (if mem w q then (- nth (w - 1) xz 0)%Z else nth (w - 1) xz 0%Z).
  Proof. intros xadj q w [L H] R. rewrite (get1_nth _ _ _ 0%Z) by lia. rewrite H by lia. now replace (w - 1 + 1) with w by lia. Qed.
  Lemma XOk_neg : forall xadj q w, XOk xadj q -> 1 <= w <= n -> ~ In w q ->
    exists xadj', set1 xadj w (- nth (w - 1) xz 0)%Z = Ok xadj' /\ XOk xadj' (q ++ [w]).
  Proof.
    intros xadj q w [L H] R Hn. rewrite set1_upd by lia. eexists; split; eauto. split. { now rewrite upd_length. }
    intros i Hi. rewrite nth_upd by lia. rewrite H by lia. rewrite mem_app. unfold mem at 3. cbn [existsb].
    destruct (Nat.eqb_spec i (w - 1)) as [->|NE].
    - replace (w - 1 + 1) with w by lia. rewrite Nat.eqb_refl. now rewrite orb_true_r.
    - destruct (Nat.eqb_spec (i + 1) w); [lia|]. now rewrite !orb_false_r.
  Qed.
  Lemma XOk_neg_hd : forall xadj q w, XOk xadj (w :: q) -> 1 <= w <= n -> ~ In w q ->
    exists xadj', set1 xadj w (- - nth (w - 1) xz 0)%Z = Ok xadj' /\ XOk xadj' q.
  Proof.
    intros xadj q w [L H] R Hn. rewrite set1_upd by lia. eexists; split; eauto. split. { now rewrite upd_length. }
    intros i Hi. rewrite nth_upd by lia. rewrite H by lia. unfold mem at 1. cbn [existsb]. fold (mem (i + 1) q).
    destruct (Nat.eqb_spec i (w - 1)) as [->|NE].
    - replace (w - 1 + 1) with w by lia. apply mem_nIn in Hn. rewrite Hn. lia.
    - destruct (Nat.eqb_spec (i + 1) w); [lia|]. reflexivity.
  Qed.

  Section S.
    Variables (A R0 : list nat) (root : nat).
    Hypothesis HR0 : length A + length R0 = n.

    (** Neighbour loop of [degree_]. *)
    Lemma degree_nb : forall mask, MaskOk n mask A -> forall l q h v xadj d, Bst n N A root q h -> In v q -> (forall w, In w l -> In w (N v) /\ 1 <= w <= n) ->
      XOk xadj q ->
      exists xadj' d', for_list l (fun nbr (s : nat * list Z * list nat * nat) =>
              let '(ccsize, xadj, perm, ideg) := s in
              m <- get mask nbr ;;
              if negb m then Ok (ccsize, xadj, perm, ideg)
              else
                let ideg := ideg + 1 in
                x <- get1 xadj nbr ;;
                if (x <? 0)%Z then Ok (ccsize, xadj, perm, ideg)
                else
                  xadj <- set1 xadj nbr (- x)%Z ;;
                  let ccsize := ccsize + 1 in
                  perm <- set1 perm (length A + ccsize) nbr ;;
                  Ok (ccsize, xadj, perm, ideg)) (length q, xadj, lay A R0 q, d) = Ok (length (visits A q l), xadj', lay A R0 (visits A q l), d') /\
        XOk xadj' (visits A q l).
    Proof.
      intros mask Mk. induction l; intros q h v xadj d B Hv Hl Xk; cbn [for_list].
      - exists xadj, d. split; auto.
      - destruct (Hl a) as [La Ra]; [simpl; auto|].
        rewrite (MaskOk_get _ _ _ _ Mk Ra). cbn [bind]. rewrite negb_involutive.
        destruct (visit_Bst n N A root q h a v B Hv La Ra) as [B1 _].
        assert (Hv1 : In v (visit A q a)). { destruct (visit_pre A q a) as [t E]. rewrite E. apply in_or_app; auto. }
        unfold visits; cbn [fold_left]. fold (visits A (visit A q a) l).
        unfold visit in B1, Hv1 |- *. rewrite mem_app in *.
        destruct (mem_dec a A) as [[H E]|[H E]]; rewrite E in *; cbn [orb] in *.
        { cbn [bind]. apply (IHl q h v xadj d); auto. intros; apply Hl; simpl; auto. }
        rewrite (XOk_get _ _ _ Xk) by lia. cbn [bind].
        pose proof (xzn (a - 1) ltac:(lia)) as Ex.
        destruct (mem_dec a q) as [[H1 E1]|[H1 E1]]; rewrite E1 in *.
        + destruct (Z.ltb_spec (- nth (a - 1) xz 0%Z) 0); [|lia]. cbn [bind]. apply (IHl q h v xadj (d + 1)); auto. intros; apply Hl; simpl; auto.
        + destruct (Z.ltb_spec (nth (a - 1) xz 0%Z) 0); [lia|].
          destruct (XOk_neg xadj q a Xk Ra H1) as (xadj' & E' & X'). rewrite E'. cbn [bind].
          rewrite lay_push. 2:{ eapply (room n X adj HX A R0 root HR0 q h a B); auto. rewrite in_app_iff. tauto. } cbn [bind].
          replace (length q + 1) with (length (q ++ [a])) by (rewrite app_length; auto).
          apply (IHl (q ++ [a]) h v xadj' (d + 1)); auto. intros; apply Hl; simpl; auto.
    Qed.

    Lemma degree_lv : forall mask, MaskOk n mask A -> forall k q h xadj deg, Bst n N A root q h -> h + k <= length q -> XOk xadj q -> length deg = n + 1 ->
      exists q' xadj' deg', for_n (S h) k (fun i (s : nat * list Z * list nat * list nat) =>
          let '(ccsize, xadj, deg, perm) := s in
          node <- get1 perm (length A + i) ;;
          b <- get1 xadj node ;; b <- idx (- b) ;;
          e <- get1 xadj (node + 1) ;;
          let e := Z.to_nat (Z.abs e) in
          '(ccsize, xadj, perm, ideg) <-
            for_range b e (fun j (s : nat * list Z * list nat * nat) =>
              let '(ccsize, xadj, perm, ideg) := s in
              nbr <- get1 adj j ;;
              m <- get mask nbr ;;
              if negb m then Ok (ccsize, xadj, perm, ideg)
              else
                let ideg := ideg + 1 in
                x <- get1 xadj nbr ;;
                if (x <? 0)%Z then Ok (ccsize, xadj, perm, ideg)
                else
                  xadj <- set1 xadj nbr (- x)%Z ;;
                  let ccsize := ccsize + 1 in
                  perm <- set1 perm (length A + ccsize) nbr ;;
                  Ok (ccsize, xadj, perm, ideg)) (ccsize, xadj, perm, 0) ;;
          deg <- set1 deg node ideg ;;
          Ok (ccsize, xadj, deg, perm)) (length q, xadj, deg, lay A R0 q) = Ok (length q', xadj', deg', lay A R0 q') /\
        XOk xadj' q' /\ Bst n N A root q' (h + k) /\ length deg' = n + 1 /\ exists t, q' = q ++ t.
    Proof.
      intros mask Mk. induction k; intros q h xadj deg B Hk Xk Ld; cbn [for_n].
      - exists q, xadj, deg. rewrite Nat.add_0_r. do 4 (split; [solve [auto]|]). exists []. now rewrite app_nil_r.
      - replace (length A + S h) with (length A + (h + 1)) by lia.
        pose proof (fits n X adj HX A R0 root HR0 q h B) as Fq. rewrite lay_get by lia. cbn [bind].
        assert (Hv : In (nth h q 0) q) by (apply nth_In; lia).
        assert (Rv : 1 <= nth h q 0 <= n) by (apply (bs_rng _ _ _ _ _ _ B), in_or_app; auto).
        set (v := nth h q 0) in *.
        rewrite (XOk_get _ _ _ Xk) by lia. cbn [bind]. apply mem_In in Hv as Hm. rewrite Hm.
        rewrite Z.opp_involutive. rewrite xzn by lia. unfold idx at 1.
        destruct (Z.ltb_spec (Z.of_nat (S (nth (v - 1) X 0))) 0); [lia|]. cbn [bind].
        rewrite (XOk_get _ _ _ Xk) by lia. cbn [bind]. replace (v + 1 - 1) with v by lia.
        rewrite (xzn v) by lia. rewrite Nat2Z.id.
        replace (Z.to_nat (Z.abs (if mem (v + 1) q then - Z.of_nat (S (nth v X 0)) else Z.of_nat (S (nth v X 0))))) with (S (nth v X 0)) by (destruct (mem (v + 1) q); lia).
        destruct (degree_nb mask Mk (N v) q h v xadj 0 B Hv) as (xadj1 & d1 & E1 & X1); auto.
        { intros w Hw. split; auto. eapply HN; eauto. }
        unfold nbl in E1 at 1. rewrite <- range_list' in E1.
        2:{ specialize (HM (v - 1) ltac:(lia)). replace (S (v - 1)) with v in HM by lia. auto. } 2:{ apply HL; lia. }
        match type of E1 with ?a = _ => match goal with |- context [for_range ?b ?e ?f ?s] => 
          assert (EE : for_range b e f s = a) end end.
        { unfold for_range. apply for_n_ext. intros i [[[a1 a2] a3] a4] Hi. reflexivity. }
        rewrite EE, E1. cbn [bind]. clear EE.
        rewrite set1_upd by lia. cbn [bind].
        assert (B1 := expand_Bst n N A root q h HN B ltac:(lia)). fold v in B1.
        destruct (visits_pre (N v) A q) as [t Et].
        destruct (IHk (visits A q (N v)) (S h) xadj1 (upd deg (v - 1) d1) B1) as (q' & xadj' & deg' & E' & X' & B' & L' & t' & Et'); auto.
        { rewrite Et, app_length. lia. } { now rewrite upd_length. }
        exists q', xadj', deg'. split; [cbn [bind] in E'; exact E'|]. split; auto. split. { now replace (h + S k) with (S h + k) by lia. }
        split; auto. exists (t ++ t'). rewrite Et', Et. now rewrite app_assoc.
    Qed.

    Lemma degree_loop_l : forall mask, MaskOk n mask A -> forall fuel q h xadj deg, Bst n N A root q h -> h < length q ->
      n < fuel + length q -> XOk xadj q -> length deg = n + 1 ->
      exists q' xadj' deg', degree_loop adj fuel (length A) h (length q) mask xadj deg (lay A R0 q) =
          Ok (length q', xadj', deg', lay A R0 q') /\
        XOk xadj' q' /\ Bst n N A root q' (length q') /\ (exists t, q' = q ++ t) /\ length deg' = n + 1.
    Proof.
      intros mask Mk. induction fuel; intros q h xadj deg B Hh Hf Xk Ld.
      { pose proof (Bst_len _ _ _ _ _ _ B). lia. }
      cbn [degree_loop]. pose proof (Bst_len _ _ _ _ _ _ B) as LB.
      unfold for_range at 1. replace (length q + 1 - (h + 1)) with (length q - h) by lia. replace (h + 1) with (S h) by lia.
      destruct (degree_lv mask Mk (length q - h) q h xadj deg B ltac:(lia) Xk Ld) as (q' & xadj' & deg' & E & X' & B' & L' & t & Et).
      cbn [bind] in E. rewrite E. cbn [bind]. replace (h + (length q - h)) with (length q) in B' by lia.
      assert (Lq' : length q' = length q + length t) by (rewrite Et; apply app_length).
      destruct (Nat.ltb_spec 0 (length q' - length q)).
      - destruct (IHfuel q' (length q) xadj' deg' B') as (q2 & xa2 & dg2 & E2 & X2 & B2 & (t2 & Et2) & L2); auto; try lia.
        exists q2, xa2, dg2. split; [exact E2|]. do 2 (split; [solve [auto]|]). split; [|auto].
        exists (t ++ t2). rewrite Et2, Et. now rewrite app_assoc.
      - assert (Eq : length q' = length q) by lia.
        exists q', xadj', deg'. split; auto. split; auto. split. { rewrite Eq. auto. } split; eauto.
    Qed.

    Lemma unmark_l : forall q, (forall v, In v q -> 1 <= v <= n) -> length q <= length R0 ->
      forall k h xadj, h + k = length q -> NoDup (skipn h q) -> XOk xadj (skipn h q) ->
      for_n (S h) k (fun i xadj => node <- get1 (lay A R0 q) (length A + i) ;; x <- get1 xadj node ;; set1 xadj node (- x)%Z) xadj = Ok xz.
    Proof.
      intros q Rq Lq. induction k; intros h xadj Hk ND Xk; cbn [for_n].
      - f_equal. apply XOk_nil_inv. replace h with (length q) in Xk by lia. rewrite skipn_all in Xk. auto.
      - replace (length A + S h) with (length A + (h + 1)) by lia. rewrite lay_get by lia. cbn [bind].
        assert (Rv : 1 <= nth h q 0 <= n) by (apply Rq, nth_In; lia).
        assert (E : skipn h q = nth h q 0 :: skipn (S h) q).
        { clear - Hk. revert h Hk. induction q; intros h Hk; [simpl in *; lia|]. destruct h; simpl; auto. apply IHq. simpl in Hk. lia. }
        rewrite E in ND, Xk. set (v := nth h q 0) in *.
        rewrite (XOk_get _ _ _ Xk) by lia. cbn [bind]. unfold mem. cbn [existsb]. rewrite Nat.eqb_refl. cbn [orb].
        inversion ND; subst.
        destruct (XOk_neg_hd xadj _ v Xk Rv H1) as (xadj' & E' & X'). rewrite E'. cbn [bind].
        apply IHk; auto. lia.
    Qed.
  End S.

  Lemma degree_l : forall A R0 root mask deg, length A + length R0 = n -> NoDup A -> (forall v, In v A -> 1 <= v <= n) ->
    1 <= root <= n -> ~ In root A -> length deg = n + 1 -> MaskOk n mask A ->
    exists q deg', degree adj root (length A) mask xz deg (A ++ R0) = Ok (length q, xz, deg', lay A R0 q) /\
      Bst n N A root q (length q) /\ nth 0 q 0 = root /\ length deg' = n + 1.
  Proof.
    intros A R0 root mask deg HR ND RA Rr NA Ld Mk. unfold degree.
    assert (B0 := init_Bst n N A root ND RA Rr NA).
    pose proof (lay_push A R0 [] root) as LP. rewrite lay_nil in LP. cbn [length app] in LP.
    replace (length A + (0 + 1)) with (length A + 1) in LP by lia.
    rewrite LP. 2:{ pose proof (fits n X adj HX A R0 root HR _ _ B0). simpl in *. lia. } cbn [bind].
    rewrite (XOk_get _ _ _ XOk_nil) by lia. cbn [bind mem existsb].
    destruct (XOk_neg xz [] root XOk_nil Rr) as (xa & E0 & X0); [simpl; auto|]. rewrite E0. cbn [bind]. cbn [app] in X0.
    assert (LL : length (lay A R0 [root]) = n). { rewrite lay_length; auto. pose proof (fits n X adj HX A R0 root HR _ _ B0). auto. }
    rewrite LL.
    destruct (degree_loop_l A R0 root HR mask Mk (S n) [root] 0 xa deg B0) as (q & xa' & dg & E & X' & B & (t & Et) & L); auto; try (simpl; lia).
    cbn [length] in E. rewrite E. cbn [bind].
    unfold for_range. replace (length q + 1 - 1) with (length q) by lia.
    rewrite (unmark_l A R0 HR q); auto.
    - cbn [bind]. exists q, dg. do 2 (split; [solve [auto]|]). split; auto. rewrite Et. auto.
    - intros v Hv. apply (bs_rng _ _ _ _ _ _ B), in_or_app; auto.
    - eapply (fits n X adj HX A R0 root HR); eauto.
    - simpl. eapply Bst_ndq; eauto.
  Qed.

  (** ** Insertion sort *)
  Lemma nth_mid : forall (P1 : list nat) z r i, i = length P1 -> nth i (P1 ++ z :: r) 0 = z.
  Proof. intros; subst. rewrite app_nth2 by lia. now rewrite Nat.sub_diag. Qed.
  Lemma upd_mid : forall (P1 : list nat) z r i v, i = length P1 -> upd (P1 ++ z :: r) i v = P1 ++ v :: r.
  Proof. intros; subst. replace (length P1) with (length P1 + 0) by lia. now rewrite upd_app_r. Qed.

  Lemma insert_down_l : forall off fnbr nbr deg P1, 1 <= fnbr -> length P1 = off + (fnbr - 1) -> length deg = n + 1 -> 1 <= nbr <= n ->
    forall s x P2, (forall v, In v s -> 1 <= v <= n) ->
    exists s1 s2 y, s = s1 ++ s2 /\
      insert_down off fnbr nbr deg (fnbr - 1 + length s) (P1 ++ s ++ x :: P2) = Ok (fnbr - 1 + length s1, P1 ++ s1 ++ y :: s2 ++ P2).
  Proof.
    intros off fnbr nbr deg P1 Hf LP Ld Rn. induction s as [|z s IH] using rev_ind; intros x P2 Rs.
    - exists [], [], x. split; auto. cbn [length app].
      destruct (fnbr - 1 + 0) eqn:E; cbn [insert_down].
      + destruct (Nat.ltb_spec 0 fnbr); [auto|lia].
      + destruct (Nat.ltb_spec (S n0) fnbr); [auto|lia].
    - assert (Rz : 1 <= z <= n) by (apply Rs, in_or_app; simpl; auto).
      rewrite app_length. cbn [length]. replace (fnbr - 1 + (length s + 1)) with (S (fnbr - 1 + length s)) by lia.
      cbn [insert_down]. destruct (Nat.ltb_spec (S (fnbr - 1 + length s)) fnbr); [lia|].
      rewrite <- (app_assoc s). cbn [app].
      rewrite (get1_nth _ _ _ 0). 2:{ rewrite !app_length. simpl. lia. } cbn [bind].
      rewrite (app_assoc P1 s). rewrite nth_mid by (rewrite app_length; lia).
      rewrite !(get1_nth _ deg _ 0) by lia. cbn [bind].
      destruct (nth (z - 1) deg 0 <=? nth (nbr - 1) deg 0).
      + exists (s ++ [z]), [], x. split. { now rewrite app_nil_r. } f_equal. f_equal. { rewrite app_length; simpl; lia. }
        rewrite <- !app_assoc. auto.
      + replace ((P1 ++ s) ++ z :: x :: P2) with ((P1 ++ s ++ [z]) ++ x :: P2) by (rewrite <- !app_assoc; auto).
        rewrite set1_upd. 2:{ rewrite !app_length. simpl. lia. } cbn [bind].
        rewrite upd_mid by (rewrite !app_length; simpl; lia).
        destruct (IH z (z :: P2)) as (s1 & s2 & y & E1 & E2). { intros; apply Rs, in_or_app; auto. }
        replace ((P1 ++ s ++ [z]) ++ z :: P2) with (P1 ++ s ++ z :: z :: P2) by (rewrite <- !app_assoc; auto).
        rewrite E2. exists s1, (s2 ++ [z]), y. split. { rewrite E1. now rewrite app_assoc. }
        f_equal. f_equal. rewrite <- !app_assoc. auto.
  Qed.

  Lemma sort_new_l : forall off fnbr deg P1 P2, 1 <= fnbr -> length P1 = off + (fnbr - 1) -> length deg = n + 1 ->
    forall r s, (forall v, In v (s ++ r) -> 1 <= v <= n) ->
    exists s', for_n (fnbr - 1 + length s) (length r) (fun l perm =>
      nbr <- get1 perm (off + (l + 1)) ;;
      '(l, perm) <- insert_down off fnbr nbr deg l perm ;;
      set1 perm (off + (l + 1)) nbr) (P1 ++ s ++ r ++ P2) = Ok (P1 ++ s' ++ P2) /\ Permutation (s ++ r) s'.
  Proof.
    intros off fnbr deg P1 P2 Hf LP Ld. induction r as [|w r IH]; intros s Rs; cbn [length for_n].
    - exists s. split; auto. now rewrite app_nil_r.
    - assert (Rw : 1 <= w <= n) by (apply Rs, in_or_app; simpl; auto).
      cbn [app].
      rewrite (get1_nth _ _ _ 0). 2:{ rewrite !app_length. simpl. lia. } cbn [bind].
      rewrite (app_assoc P1 s). rewrite nth_mid by (rewrite app_length; lia). rewrite <- (app_assoc P1 s).
      destruct (insert_down_l off fnbr w deg P1 Hf LP Ld Rw s w (r ++ P2)) as (s1 & s2 & y & E1 & E2).
      { intros; apply Rs, in_or_app; auto. }
      rewrite E2. cbn [bind]. rewrite set1_upd. 2:{ rewrite !app_length. simpl. lia. }
      rewrite (app_assoc P1 s1). rewrite upd_mid by (rewrite app_length; lia). rewrite <- (app_assoc P1 s1). cbn [bind].
      destruct (IH (s1 ++ w :: s2)) as (s' & E' & P').
      { intros v Hv. apply Rs. rewrite E1. rewrite !in_app_iff in *. simpl in *. tauto. }
      replace (S (fnbr - 1 + length s)) with (fnbr - 1 + length (s1 ++ w :: s2)).
      2:{ rewrite E1, !app_length. simpl. lia. }
      replace (P1 ++ s1 ++ w :: s2 ++ r ++ P2) with (P1 ++ (s1 ++ w :: s2) ++ r ++ P2) by (rewrite <- !app_assoc; auto).
      exists s'. split; [exact E'|]. etransitivity; [|exact P']. rewrite E1, <- !app_assoc. apply Permutation_app_head.
      cbn [app]. symmetry. apply Permutation_middle.
  Qed.

  Section S2.
    Variables (A R0 : list nat) (root : nat).
    Hypothesis HR0 : length A + length R0 = n.

    Lemma rcm_nb : forall l q h v mask, Bst n N A root q h -> In v q -> (forall w, In w l -> In w (N v) /\ 1 <= w <= n) ->
      MaskOk n mask (A ++ q) ->
      exists mask', for_list l (fun nbr (s : nat * list bool * list nat) =>
            let '(lnbr, mask, perm) := s in
            m <- get mask nbr ;;
            if negb m then Ok (lnbr, mask, perm)
            else
              let lnbr := lnbr + 1 in
              mask <- set mask nbr false ;;
              perm <- set1 perm (length A + lnbr) nbr ;;
              Ok (lnbr, mask, perm)) (length q, mask, lay A R0 q) = Ok (length (visits A q l), mask', lay A R0 (visits A q l)) /\
        MaskOk n mask' (A ++ visits A q l).
    Proof.
      induction l; intros q h v mask B Hv Hl Mk; cbn [for_list].
      - exists mask. split; auto.
      - destruct (Hl a) as [La Ra]; [simpl; auto|].
        rewrite (MaskOk_get _ _ _ _ Mk Ra). cbn [bind]. rewrite negb_involutive.
        destruct (visit_Bst n N A root q h a v B Hv La Ra) as [B1 _].
        assert (Hv1 : In v (visit A q a)). { destruct (visit_pre A q a) as [t E]. rewrite E. apply in_or_app; auto. }
        unfold visits; cbn [fold_left]. fold (visits A (visit A q a) l).
        unfold visit in B1, Hv1 |- *.
        destruct (mem_dec a (A ++ q)) as [[H E]|[H E]]; rewrite E in *.
        + cbn [bind]. apply (IHl q h v mask); auto. intros; apply Hl; simpl; auto.
        + cbn [bind]. destruct (MaskOk_clear _ _ _ _ Mk Ra) as (mask' & E' & Mk'). rewrite E'. cbn [bind].
          rewrite lay_push by (eapply (room n X adj HX A R0 root HR0); eauto). cbn [bind].
          replace (length q + 1) with (length (q ++ [a])) by (rewrite app_length; auto).
          apply (IHl (q ++ [a]) h v mask'); auto. intros; apply Hl; simpl; auto. now rewrite <- app_assoc in Mk'.
    Qed.

    (** Sorting the new part of the queue. *)
    Lemma sort_lay : forall deg q t, length deg = n + 1 -> (forall v, In v t -> 1 <= v <= n) -> 
      exists t', (if length (q ++ t) <=? length q + 1 then Ok (lay A R0 (q ++ t)) else sort_new (length A) (length q + 1) (length (q ++ t)) deg (lay A R0 (q ++ t))) =
         Ok (lay A R0 (q ++ t')) /\ Permutation t t'.
    Proof.
      intros deg q t Ld Rt. destruct (Nat.leb_spec (length (q ++ t)) (length q + 1)). { exists t. auto. }
      destruct t as [|w t]. { rewrite app_nil_r in H. lia. }
      unfold sort_new, for_range.
      destruct (sort_new_l (length A) (length q + 1) deg (A ++ q) (skipn (length (q ++ w :: t)) R0)) with (r := t) (s := [w]) as (s' & E & P); auto; try lia.
      { rewrite app_length. lia. }
      cbn [length] in E. replace (length q + 1 - 1 + 1) with (length q + 1) in E by lia.
      replace (length (q ++ w :: t) - (length q + 1)) with (length t) by (rewrite app_length; simpl; lia).
      unfold lay. rewrite <- !app_assoc in E. rewrite <- !app_assoc. cbn [app] in E |- *. rewrite E. exists s'. split; auto.
      rewrite <- !app_assoc. do 4 f_equal. rewrite !app_length. f_equal. apply Permutation_length in P. auto.
    Qed.

    Lemma rcm_lv : forall deg, length deg = n + 1 -> forall k q h mask, Bst n N A root q h -> h + k <= length q -> MaskOk n mask (A ++ q) ->
      exists q' mask', for_n (S h) k (fun i (s : nat * list bool * list nat) =>
          let '(lnbr, mask, perm) := s in
          node <- get1 perm (length A + i) ;;
          let fnbr := lnbr + 1 in
          '(lnbr, mask, perm) <- neighbors adj xz node (fun nbr (s : nat * list bool * list nat) =>
            let '(lnbr, mask, perm) := s in
            m <- get mask nbr ;;
            if negb m then Ok (lnbr, mask, perm)
            else
              let lnbr := lnbr + 1 in
              mask <- set mask nbr false ;;
              perm <- set1 perm (length A + lnbr) nbr ;;
              Ok (lnbr, mask, perm)) (lnbr, mask, perm) ;;
          perm <- (if lnbr <=? fnbr then Ok perm else sort_new (length A) fnbr lnbr deg perm) ;;
          Ok (lnbr, mask, perm)) (length q, mask, lay A R0 q) = Ok (length q', mask', lay A R0 q') /\
        MaskOk n mask' (A ++ q') /\ Bst n N A root q' (h + k) /\ exists t, q' = q ++ t.
    Proof.
      intros deg Ld. induction k; intros q h mask B Hk Mk; cbn [for_n].
      - exists q, mask. rewrite Nat.add_0_r. do 3 (split; [solve [auto]|]). exists []. now rewrite app_nil_r.
      - replace (length A + S h) with (length A + (h + 1)) by lia.
        pose proof (fits n X adj HX A R0 root HR0 q h B) as Fq. rewrite lay_get by lia. cbn [bind].
        assert (Hv : In (nth h q 0) q) by (apply nth_In; lia).
        assert (Rv : 1 <= nth h q 0 <= n) by (apply (bs_rng _ _ _ _ _ _ B), in_or_app; auto).
        rewrite (neighbors_list n X adj HX HM HL) by auto.
        destruct (rcm_nb (N (nth h q 0)) q h (nth h q 0) mask B Hv) as (mask1 & E1 & M1); auto.
        { intros w Hw. split; auto. eapply HN; eauto. }
        cbn [bind] in E1. rewrite E1. cbn [bind].
        assert (B1 := expand_Bst n N A root q h HN B ltac:(lia)).
        destruct (visits_pre (N (nth h q 0)) A q) as [t Et]. rewrite Et in *.
        destruct (sort_lay deg q t Ld) as (t1 & E2 & P).
        { intros v Hv'. apply (bs_rng _ _ _ _ _ _ B1). rewrite !in_app_iff. auto. }
        rewrite E2. cbn [bind].
        assert (B2 : Bst n N A root (q ++ t1) (S h)) by (eapply perm_Bst; eauto; lia).
        replace (length (q ++ t)) with (length (q ++ t1)) by (rewrite !app_length; apply Permutation_length in P; lia).
        assert (M2 : MaskOk n mask1 (A ++ q ++ t1)).
        { eapply MaskOk_ext; eauto. intros v. rewrite !in_app_iff. split; intros [H|[H|H]]; auto; right; right.
          eapply Permutation_in; eauto. eapply Permutation_in; [symmetry; eauto|auto]. }
        destruct (IHk (q ++ t1) (S h) mask1 B2) as (q' & mask' & E' & M' & B' & t' & Et'); auto.
        { rewrite app_length. lia. }
        exists q', mask'. split; [cbn [bind] in E'; exact E'|]. split; auto. split. { now replace (h + S k) with (S h + k) by lia. }
        exists (t1 ++ t'). rewrite Et'. now rewrite app_assoc.
    Qed.

    Lemma rcm_loop_l : forall deg, length deg = n + 1 -> forall fuel q h mask, Bst n N A root q h -> h < length q ->
      n < fuel + length q -> MaskOk n mask (A ++ q) ->
      exists q' mask', rcm_loop adj fuel xz (length A) h (length q) deg mask (lay A R0 q) = Ok (mask', lay A R0 q') /\
        MaskOk n mask' (A ++ q') /\ Bst n N A root q' (length q').
    Proof.
      intros deg Ld. induction fuel; intros q h mask B Hh Hf Mk.
      { pose proof (Bst_len _ _ _ _ _ _ B). lia. }
      cbn [rcm_loop]. pose proof (Bst_len _ _ _ _ _ _ B) as LB.
      unfold for_range at 1. replace (length q + 1 - (h + 1)) with (length q - h) by lia. replace (h + 1) with (S h) by lia.
      destruct (rcm_lv deg Ld (length q - h) q h mask B ltac:(lia) Mk) as (q' & mask' & E & M' & B' & t & Et).
      cbn [bind] in E. rewrite E. cbn [bind]. replace (h + (length q - h)) with (length q) in B' by lia.
      assert (Lq' : length q' = length q + length t) by (rewrite Et; apply app_length).
      destruct (Nat.ltb_spec (length q) (length q')).
      - apply IHfuel; auto; lia.
      - exists q', mask'. split; auto. split; auto. assert (Eq : length q' = length q) by lia. rewrite Eq. auto.
    Qed.
  End S2.

  Lemma upd_app_l : forall (a b : list nat) i v, i < length a -> upd (a ++ b) i v = upd a i v ++ b.
  Proof. induction a; simpl; intros; [lia|]. destruct i; simpl; auto. now rewrite IHa by lia. Qed.

  Lemma reverse_l : forall A R q0, 
    exists q', reverse_part (length A) (length q0) (A ++ q0 ++ R) = Ok (A ++ q' ++ R) /\ Permutation q0 q'.
  Proof.
    intros A R q0. unfold reverse_part.
    set (cc := length q0).
    pose proof (for_range_inv _ (fun _ p => exists q', p = A ++ q' ++ R /\ Permutation q0 q') 1 (cc / 2 + 1)) as F.
    specialize (F (fun i perm =>
      let l := cc + 1 - i in
      lperm <- get1 perm (length A + l) ;;
      x <- get1 perm (length A + i) ;;
      perm <- set1 perm (length A + l) x ;;
      set1 perm (length A + i) lperm) (A ++ q0 ++ R)).
    cbv beta in F. apply wp_inv in F.
    - destruct F as (a & E & q' & -> & P). exists q'. split; auto.
    - lia.
    - exists q0. split; auto.
    - intros i s Hi (q' & -> & P). assert (L : length q' = cc) by (apply Permutation_length in P; auto).
      pose proof (Nat.mul_div_le cc 2 ltac:(discriminate)) as Hc.
      cbv zeta. rewrite !(get1_nth _ _ _ 0) by (rewrite !app_length; lia). cbn [bind].
      rewrite set1_upd by (rewrite !app_length; lia). cbn [bind].
      rewrite set1_upd by (rewrite upd_length, !app_length; lia). cbn [wp].
      replace (length A + (cc + 1 - i) - 1) with (length A + (cc + 1 - i - 1)) by lia.
      replace (length A + i - 1) with (length A + (i - 1)) by lia.
      rewrite upd_app_r. rewrite (upd_app_l q') by lia. rewrite upd_app_r. rewrite (upd_app_l (upd q' _ _)) by (rewrite upd_length; lia).
      rewrite !(app_nth2 A) by lia. replace (length A + (i - 1) - length A) with (i - 1) by lia.
      replace (length A + (cc + 1 - i - 1) - length A) with (cc + 1 - i - 1) by lia.
      rewrite !(app_nth1 q') by lia. eexists; split; [reflexivity|].
      etransitivity; [exact P|]. apply swap_perm; lia.
  Qed.
End R.
