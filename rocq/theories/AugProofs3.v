(** * AugProofs3: pushes, the walk, refinement of histories. *)
From Coq Require Import List Arith Lia Bool Sorted.
From Verif Require Import Base Scalar CSModel CSSpec ConvModel ConvSpec ConvProofs2 ConvProofs4 PruneModel PruneProofs AugModel AugSpec AugProofs1 AugProofs2.
Import ListNotations.

Lemma linked_ext : forall nx nx' l, linked nx l -> length nx <= length nx' ->
  (forall x, In x l -> nth x nx' None = nth x nx None) -> linked nx' l.
Proof.
  induction l; simpl; auto. intros (A & B & C) LE H. split; [lia|]. split.
  - rewrite H; auto.
  - apply IHl; auto.
Qed.

Lemma linked_snoc : forall nx nx' l x i, linked nx (l ++ [x]) -> length nx <= length nx' ->
  (forall y, In y l -> nth y nx' None = nth y nx None) ->
  nth x nx' None = Some i -> i < length nx' -> nth i nx' None = None -> linked nx' (l ++ [x; i]).
Proof.
  induction l; simpl; intros x i (A & B & C) LE H Hx Hi Hn.
  - repeat split; auto; lia.
  - split; [lia|]. split.
    + rewrite H by auto. rewrite B. destruct l; reflexivity.
    + apply IHl; auto.
Qed.

Lemma incr_snoc : forall inds l i, incr inds l -> (forall x, In x l -> nth x inds 0 < nth i inds 0) -> incr inds (l ++ [i]).
Proof.
  intros inds l i. unfold incr. induction l; intros H1 H2; simpl.
  - repeat constructor.
  - inversion H1; subst. constructor.
    + apply IHl; auto. intros; apply H2; simpl; auto.
    + apply Forall_forall. intros z Hz. apply in_app_or in Hz. destruct Hz as [Hz|[<-|[]]].
      * rewrite Forall_forall in H4. auto.
      * apply H2; simpl; auto.
Qed.
Lemma incr_ext : forall inds inds' l, incr inds l -> (forall x, In x l -> nth x inds 0 = nth x inds' 0) -> incr inds' l.
Proof.
  intros inds inds' l. unfold incr. induction l; intros H1 H2. constructor.
  inversion H1; subst. constructor.
  - apply IHl; auto. intros; apply H2; simpl; auto.
  - apply Forall_forall. intros z Hz. rewrite Forall_forall in H4. rewrite <- !H2 by (simpl; auto). auto.
Qed.

Lemma resize_app : forall X (d : X) n l, length l <= n -> firstn n (l ++ repeat d (n - length l)) = l ++ repeat d (n - length l).
Proof. intros. apply firstn_all2. rewrite app_length, repeat_length. lia. Qed.

(** The label of node [x] after nodes for [l] were added to [N] nodes. *)
Definition labx (N : nat) (lab : nat -> nat) (l : list nat) (x : nat) : nat :=
  if x <? N then lab x else nth (x - N) l 0.

Lemma push_nodes_l : forall lo nc entry l N inds hd nx tl vp vpi cnt lab L,
  length inds = N -> length nx = N -> length vp = N -> length vpi = N ->
  chains N lo nc inds hd nx tl cnt lab L -> (forall j, In j l -> lo <= j < nc) -> NoDup l ->
  (forall x, x < N -> In (lab x) l -> nth x inds 0 < entry) ->
  exists hd' nx' tl' vp' vpi' cnt' L',
    push_nodes entry l (inds, hd, nx, tl, vp, vpi, cnt) = Ok (inds ++ repeat entry (length l), hd', nx', tl', vp', vpi', cnt') /\
    length nx' = N + length l /\ length vp' = N + length l /\ length vpi' = N + length l /\
    chains (N + length l) lo nc (inds ++ repeat entry (length l)) hd' nx' tl' cnt' (labx N lab l) L' /\
    (forall x, x < N + length l -> nth x vp' 0 = if x <? N then nth x vp 0 else x) /\
    (forall x, x < N + length l -> nth x vpi' 0 = if x <? N then nth x vpi 0 else x).
Proof.
  intros lo nc entry l N inds hd nx tl vp vpi cnt lab L Li Ln Lp Lq H Hl ND HE.
  unfold push_nodes. rewrite Li. set (n := N + length l).
  rewrite !resize_app by lia. rewrite Ln, Lp, Lq. replace (n - N) with (length l) by lia.
  set (inds' := inds ++ repeat entry (length l)).
  assert (RO : forall x, x < N -> nth x inds' 0 = nth x inds 0) by (intros; unfold inds'; rewrite app_nth1; auto; lia).
  assert (RN : forall x, N <= x < n -> nth x inds' 0 = entry).
  { intros x Hx. unfold inds'. rewrite app_nth2 by lia. apply nth_repeat_any. unfold n in Hx. lia. }
  match goal with |- context[for_list l ?f ?s0] =>
    assert (G : wp (for_list l f s0) (fun s => let '(i, hd', nx', tl', vp', vpi', cnt') := s in
      length nx' = n /\ length vp' = n /\ length vpi' = n /\
      (exists L', chains n lo nc inds' hd' nx' tl' cnt' (labx N lab l) L') /\
      (forall x, x < n -> nth x vp' 0 = if x <? N then nth x vp 0 else x) /\
      (forall x, x < n -> nth x vpi' 0 = if x <? N then nth x vpi 0 else x))) end.
  { eapply wp_conseq.
    - apply (for_list_inv _ _ (fun pre (s : nat * list (option nat) * list (option nat) * list (option nat)
                          * list nat * list nat * list nat) => let '(i, hd', nx', tl', vp', vpi', cnt') := s in
        i = N + length pre /\ length nx' = n /\ length vp' = n /\ length vpi' = n /\
        (exists L', chains i lo nc inds' hd' nx' tl' cnt' (labx N lab l) L') /\
        (forall x, x < i -> nth x vp' 0 = if x <? N then nth x vp 0 else x) /\
        (forall x, x < i -> nth x vpi' 0 = if x <? N then nth x vpi 0 else x))).
      + simpl. rewrite Nat.add_0_r, !app_length, !repeat_length. repeat (split; [lia|]). split.
        { exists L. destruct H as [a1 a2 a3 a4 a5 a6 a7 a8 a9 a10]. constructor; auto.
          - rewrite app_length. lia.
          - intros j Hj. eapply linked_ext; [apply a8; auto| |].
            + rewrite app_length. lia.
            + intros x Hx. apply a10 in Hx; auto. rewrite app_nth1 by lia. auto.
          - intros j Hj. eapply incr_ext; [apply a9; auto|]. intros x Hx. apply a10 in Hx; auto. symmetry. now apply RO.
          - intros j x Hj. rewrite a10 by auto. unfold labx. split; intros (Q1 & Q2); split; auto.
            + destruct (Nat.ltb_spec x N); auto; lia.
            + destruct (Nat.ltb_spec x N) in Q2; auto; lia. }
        split; intros x Hx; (destruct (Nat.ltb_spec x N); [|lia]); rewrite app_nth1 by lia; auto.
      + intros pre j post s E. destruct s as [[[[[[i hd1] nx1] tl1] vp1] vpi1] cnt1].
        intros (Ei & L1 & L2 & L3 & (L' & C) & VP & VI).
        assert (HIn : i < n). { rewrite Ei. unfold n. rewrite E, app_length. simpl. lia. }
        assert (Hj : lo <= j < nc). { apply Hl. rewrite E. apply in_or_app. simpl. auto. }
        destruct C as [a1 a2 a3 a4 a5 a6 a7 a8 a9 a10].
        wpb. apply wp_set; [lia|]. wpb. apply wp_set; [lia|]. wpb. apply wp_set; [lia|].
        wpb. apply wp_get with (d := None); [lia|].
        rewrite a6 by auto.
        assert (LI : labx N lab l i = j).
        { unfold labx. destruct (Nat.ltb_spec i N); [lia|]. rewrite Ei, E. rewrite app_nth2 by lia.
          replace (N + length pre - N - length pre) with 0 by lia. reflexivity. }
        assert (LTi : forall j' x, lo <= j' < nc -> In x (L' j') -> x < i) by (intros j' x Hj' Hx; apply a10 in Hx; tauto).
        assert (INC : forall x, In x (L' j) -> nth x inds' 0 < nth i inds' 0).
        { intros x Hx. pose proof (proj1 (a10 j x Hj) Hx) as (Q1 & Q2).
          rewrite (RN i) by lia. unfold labx in Q2. destruct (Nat.ltb_spec x N).
          - rewrite RO by auto. apply HE; auto. rewrite Q2. rewrite E. apply in_or_app. simpl. auto.
          - exfalso. rewrite E in Q2. rewrite app_nth1 in Q2 by lia.
            rewrite E in ND. apply NoDup_remove_2 in ND. apply ND. apply in_or_app. left.
            rewrite <- Q2. apply nth_In. lia. }
        assert (NX : exists nx2, (match hd_error (rev (L' j)) with None => Ok (upd nx1 i None) | Some x => set (upd nx1 i None) x (Some i) end) = Ok nx2 /\
           length nx2 = n /\ linked nx2 (L' j ++ [i]) /\ forall j', lo <= j' < nc -> j' <> j -> linked nx2 (L' j')).
        { destruct (rev (L' j)) as [|x t] eqn:ER; cbn [hd_error].
          - assert (EL : L' j = []). { rewrite <- (rev_involutive (L' j)), ER. reflexivity. }
            eexists. split; [reflexivity|]. rewrite upd_length. split; auto. rewrite EL. simpl. split.
            + rewrite upd_length. repeat split; auto; try lia. apply nth_upd_eq. lia.
            + intros j' Hj' NE. eapply linked_ext; [apply a8; auto| |]. { rewrite upd_length. lia. }
              intros z Hz. apply nth_upd_neq. pose proof (LTi j' z Hj' Hz). lia.
          - assert (EL : L' j = rev t ++ [x]). { rewrite <- (rev_involutive (L' j)), ER. reflexivity. }
            assert (INx : In x (L' j)) by (rewrite EL; apply in_or_app; simpl; auto).
            pose proof (LTi j x Hj INx) as Lx.
            rewrite set_ok by (rewrite upd_length; lia). eexists. split; [reflexivity|]. rewrite !upd_length. split; auto.
            pose proof (incr_nodup _ _ (a9 j Hj)) as NDL. rewrite EL in NDL.
            split.
            + rewrite EL, <- app_assoc. simpl. apply linked_snoc with (nx := nx1).
              * rewrite <- EL. auto.
              * rewrite !upd_length. lia.
              * intros y Hy. assert (In y (L' j)) by (rewrite EL; apply in_or_app; auto).
                pose proof (LTi j y Hj H0). rewrite !nth_upd_neq; auto; try lia.
                intros <-. apply NoDup_remove_2 in NDL. apply NDL. rewrite app_nil_r. auto.
              * apply nth_upd_eq. rewrite upd_length. lia.
              * rewrite !upd_length. lia.
              * rewrite nth_upd_neq by lia. apply nth_upd_eq. lia.
            + intros j' Hj' NE. eapply linked_ext; [apply a8; auto| |]. { rewrite !upd_length. lia. }
              intros z Hz. pose proof (LTi j' z Hj' Hz). rewrite !nth_upd_neq; auto; try lia.
              intros <-. apply a10 in INx; auto. apply a10 in Hz; auto. lia. }
        destruct NX as (nx2 & EN & LN2 & LK1 & LK2). rewrite EN. cbn [bind].
        wpb. apply wp_set; [lia|]. wpb. apply wp_get with (d := None); [lia|].
        rewrite a5 by auto.
        assert (HD : exists hd2, (match hd_error (L' j) with None => set hd1 j (Some i) | Some _ => Ok hd1 end) = Ok hd2 /\
            length hd2 = nc /\ nth j hd2 None = hd_error (L' j ++ [i]) /\ forall j', j' <> j -> nth j' hd2 None = nth j' hd1 None).
        { destruct (L' j) as [|z t] eqn:EZ; cbn [hd_error].
          - rewrite set_ok by lia. eexists. split; [reflexivity|]. rewrite upd_length. split; auto. split.
            + rewrite nth_upd_eq by lia. reflexivity.
            + intros. apply nth_upd_neq. auto.
          - exists hd1. split; auto. split; auto. split; auto. rewrite a5 by auto. rewrite EZ. reflexivity. }
        destruct HD as (hd2 & EH & LH & HJ & HO). rewrite EH. cbn [bind].
        wpb. apply wp_get with (d := 0); [lia|]. wpb. apply wp_set; [lia|]. apply wp_ok.
        rewrite app_length. simpl. split; [lia|]. rewrite !upd_length. split; auto. split; auto. split; auto. split.
        * exists (fun j' => if j' =? j then L' j ++ [i] else L' j'). constructor; rewrite ?upd_length; auto; try lia.
          -- intros j' Hj'. destruct (Nat.eqb_spec j' j); [now subst|]. rewrite HO by auto. auto.
          -- intros j' Hj'. rewrite nth_upd by lia. destruct (Nat.eqb_spec j' j).
             ++ rewrite rev_app_distr. reflexivity.
             ++ auto.
          -- intros j' Hj'. rewrite nth_upd by lia. destruct (Nat.eqb_spec j' j).
             ++ rewrite app_length. simpl. rewrite a7 by auto. lia.
             ++ auto.
          -- intros j' Hj'. destruct (Nat.eqb_spec j' j); auto.
          -- intros j' Hj'. destruct (Nat.eqb_spec j' j); auto. apply incr_snoc; auto.
          -- intros j' x Hj'. destruct (Nat.eqb_spec j' j) as [->|NE].
             ++ rewrite in_app_iff, a10 by auto. simpl. split.
                ** intros [(Q1 & Q2)|[<-|[]]]; split; auto.
                ** intros (Q1 & Q2). destruct (Nat.eq_dec i x); auto. left. split; auto. lia.
             ++ rewrite a10 by auto. split; intros (Q1 & Q2); split; auto. assert (x <> i) by congruence. lia.
        * split; intros x Hx; rewrite nth_upd by lia; destruct (Nat.eqb_spec x i).
          -- subst x. destruct (Nat.ltb_spec i N); auto; lia.
          -- apply VP. lia.
          -- subst x. destruct (Nat.ltb_spec i N); auto; lia.
          -- apply VI. lia.
    - intros [[[[[[i hd'] nx'] tl'] vp'] vpi'] cnt']. intros (Ei & A). fold n in Ei. rewrite Ei in A. exact A. }
  apply wp_inv in G. destruct G as ([[[[[[i hd'] nx'] tl'] vp'] vpi'] cnt'] & E & A1 & A2 & A3 & (L' & A4) & A5 & A6).
  rewrite E. cbn [bind]. exists hd', nx', tl', vp', vpi', cnt', L'. auto 10.
Qed.

Lemma nodup_app_l : forall (a b : list nat), NoDup (a ++ b) -> NoDup a /\ NoDup b /\ forall x, In x a -> ~ In x b.
Proof.
  induction a; simpl; intros b H. { split; [constructor|]. auto. }
  inversion H; subst. destruct (IHa b H3) as (A & B & C). split; [|split]; auto.
  - constructor; auto. intros Q. apply H2. apply in_or_app. auto.
  - intros x [<-|Hx]; auto. intros Q. apply H2. apply in_or_app. auto.
Qed.

Lemma nodes_l : forall lo nc entry ls N inds hd nx tl vp vpi cnt lab L,
  length inds = N -> length nx = N -> length vp = N -> length vpi = N ->
  chains N lo nc inds hd nx tl cnt lab L -> (forall j, In j (concat ls) -> lo <= j < nc) -> NoDup (concat ls) ->
  (forall x, x < N -> In (lab x) (concat ls) -> nth x inds 0 < entry) ->
  exists hd' nx' tl' vp' vpi' cnt' L',
    for_list ls (push_nodes entry) (inds, hd, nx, tl, vp, vpi, cnt) =
      Ok (inds ++ repeat entry (length (concat ls)), hd', nx', tl', vp', vpi', cnt') /\
    length nx' = N + length (concat ls) /\ length vp' = N + length (concat ls) /\ length vpi' = N + length (concat ls) /\
    chains (N + length (concat ls)) lo nc (inds ++ repeat entry (length (concat ls))) hd' nx' tl' cnt' (labx N lab (concat ls)) L' /\
    (forall x, x < N + length (concat ls) -> nth x vp' 0 = if x <? N then nth x vp 0 else x) /\
    (forall x, x < N + length (concat ls) -> nth x vpi' 0 = if x <? N then nth x vpi 0 else x).
Proof.
  intros lo nc entry. induction ls as [|l ls]; intros N inds hd nx tl vp vpi cnt lab L Li Ln Lp Lq H Hl ND HE.
  - simpl. rewrite app_nil_r, Nat.add_0_r. exists hd, nx, tl, vp, vpi, cnt, L.
    do 4 (split; [solve [auto]|]). split; [|split].
    + destruct H as [a1 a2 a3 a4 a5 a6 a7 a8 a9 a10]. constructor; auto.
      intros j x Hj. rewrite a10 by auto. unfold labx. split; intros (Q1 & Q2); split; auto.
      * destruct (Nat.ltb_spec x N); auto; lia.
      * destruct (Nat.ltb_spec x N) in Q2; auto; lia.
    + intros x Hx. destruct (Nat.ltb_spec x N); auto; lia.
    + intros x Hx. destruct (Nat.ltb_spec x N); auto; lia.
  - cbn [concat] in *. apply nodup_app_l in ND. destruct ND as (ND1 & ND2 & ND3).
    destruct (push_nodes_l lo nc entry l N inds hd nx tl vp vpi cnt lab L) as (hd1 & nx1 & tl1 & vp1 & vpi1 & cnt1 & L1 & E & A1 & A2 & A3 & A4 & A5 & A6); auto.
    { intros; apply Hl; apply in_or_app; auto. }
    { intros; apply HE; auto; apply in_or_app; auto. }
    cbn [for_list]. rewrite E. cbn [bind].
    destruct (IHls (N + length l) (inds ++ repeat entry (length l)) hd1 nx1 tl1 vp1 vpi1 cnt1 (labx N lab l) L1)
      as (hd2 & nx2 & tl2 & vp2 & vpi2 & cnt2 & L2 & E2 & B1 & B2 & B3 & B4 & B5 & B6); auto.
    { rewrite app_length, repeat_length. lia. }
    { intros; apply Hl; apply in_or_app; auto. }
    { intros x Hx HIn. unfold labx in HIn. destruct (Nat.ltb_spec x N).
      - rewrite app_nth1 by lia. apply HE; auto. apply in_or_app; auto.
      - exfalso. apply (ND3 (nth (x - N) l 0)); auto. apply nth_In. lia. }
    rewrite E2. exists hd2, nx2, tl2, vp2, vpi2, cnt2, L2. rewrite app_length.
    replace (N + (length l + length (concat ls))) with (N + length l + length (concat ls)) by lia.
    rewrite repeat_app, app_assoc. do 4 (split; [solve [auto]|]). split; [|split].
    + destruct B4 as [a1 a2 a3 a4 a5 a6 a7 a8 a9 a10]. constructor; auto.
      intros j x Hj. rewrite a10 by auto.
      assert (EQ : labx (N + length l) (labx N lab l) (concat ls) x = labx N lab (l ++ concat ls) x).
      { unfold labx. destruct (Nat.ltb_spec x (N + length l)).
        - destruct (Nat.ltb_spec x N); auto. rewrite app_nth1 by lia. auto.
        - destruct (Nat.ltb_spec x N); [lia|]. rewrite app_nth2 by lia. f_equal. lia. }
      rewrite EQ. tauto.
    + intros x Hx. rewrite B5 by auto. destruct (Nat.ltb_spec x (N + length l)).
      * apply A5. auto.
      * destruct (Nat.ltb_spec x N); auto; lia.
    + intros x Hx. rewrite B6 by auto. destruct (Nat.ltb_spec x (N + length l)).
      * apply A6. auto.
      * destruct (Nat.ltb_spec x N); auto; lia.
Qed.

Section P.
  Variable O : Ops.
  Notation T := (T O).
  Notation core := (core O).
  Notation arep := (arep O).
  Notation mrel := (mrel O).
  Notation entry := (entry O).

  Lemma sorted_nodup : forall l, (forall a b, a < b -> b < length l -> nth a l 0 < nth b l 0) -> NoDup l.
  Proof.
    intros l H. apply (NoDup_nth l 0). intros i j Hi Hj E.
    destruct (lt_eq_lt_dec i j) as [[Q|Q]|Q]; auto.
    - pose proof (H i j Q Hj). lia.
    - pose proof (H j i Q Hi). lia.
  Qed.

  Lemma assoc_in : forall (pl : list (nat * T)) c v, NoDup (map fst pl) -> (assoc O c pl = Some v <-> In (c, v) pl).
  Proof.
    induction pl as [|[c' v'] pl]; simpl; intros c v ND. { split; [discriminate|tauto]. }
    inversion ND; subst. destruct (Nat.eqb_spec c c').
    - subst c'. split.
      + intros E. injection E as ->. auto.
      + intros [E|E]. { now injection E as ->. } exfalso. apply H1. change c with (fst (c, v)). now apply in_map.
    - rewrite IHpl by auto. split; auto. intros [E|E]; auto. congruence.
  Qed.

  Lemma push_rep : forall np lo nc s lab val L ps ss pl ls, arep np lo nc s lab val L ->
    concat ls = map fst pl -> (forall j, In j (map fst pl) -> lo <= j < nc) ->
    (forall a b, a < b -> b < length pl -> nth a (map fst pl) 0 < nth b (map fst pl) 0) ->
    exists s' lab' val' L',
      with_nodes O (mkCS ps ss (ind_start (a_cs s) ++ [length (a_inds s) + length pl])
                      (indices (a_cs s) ++ map fst pl) (vals (a_cs s) ++ map snd pl)) np ls s = Ok s' /\
      arep (S np) lo nc s' lab' val' L' /\
      (forall M, mrel M s lab val -> length M = np -> mrel (M ++ [fun c => assoc O c pl]) s' lab' val') /\
      a_cs s' = mkCS ps ss (ind_start (a_cs s) ++ [length (a_inds s) + length pl])
                      (indices (a_cs s) ++ map fst pl) (vals (a_cs s) ++ map snd pl) /\
      a_inds s' = a_inds s ++ repeat np (length pl).
  Proof.
    intros np lo nc s lab val L ps ss pl ls (C & H & LN) EC Hj HS.
    assert (ND : NoDup (map fst pl)) by (apply sorted_nodup; intros a b; rewrite map_length; auto).
    assert (LC : length (concat ls) = length pl) by (rewrite EC, map_length; auto).
    set (N := length (a_inds s)) in *. set (n := length pl) in *.
    destruct C as [c1 c2 c3 c4 c5 c6 c7 c8 c9 c10 c11 c12 c13 c14].
    unfold cells_of in *. cbn [c_ind c_val c_vp c_vpi] in *.
    destruct c7 as [d1 d2 d3 d4 d5 d6].
    destruct (nodes_l lo nc np ls N (a_inds s) (a_start s) (a_next s) (a_end s) (a_vp s) (a_vpi s) (a_cnt s) lab L)
      as (hd' & nx' & tl' & vp' & vpi' & cnt' & L' & E & A1 & A2 & A3 & A4 & A5 & A6); auto.
    { rewrite EC. auto. } { now rewrite EC. }
    unfold with_nodes. rewrite E. cbn [bind]. rewrite LC in *. fold n in A1, A2, A3, A4, A5, A6 |- *.
    eexists. exists (labx N lab (map fst pl)), (fun x => if x <? N then val x else snd (nth (x - N) pl (0, t0 O))), L'.
    split; [reflexivity|]. unfold AugProofs2.arep, AugProofs2.mrel. cbn [a_cs a_inds a_start a_next a_end a_cnt ind_start].
    assert (LI : length (a_inds s ++ repeat np n) = N + n) by (rewrite app_length, repeat_length; auto).
    rewrite LI.
    assert (RO : forall x, x < N -> nth x (a_inds s ++ repeat np n) 0 = nth x (a_inds s) 0) by (intros; rewrite app_nth1; auto; lia).
    assert (RN : forall x, N <= x < N + n -> nth x (a_inds s ++ repeat np n) 0 = np).
    { intros x Hx. rewrite app_nth2 by lia. apply nth_repeat_any. fold N. lia. }
    assert (SO : forall i, i <= np -> nth i (ind_start (a_cs s) ++ [N + n]) 0 = nth i (ind_start (a_cs s)) 0).
    { intros. rewrite app_nth1 by lia. auto. }
    assert (SN : nth (S np) (ind_start (a_cs s) ++ [N + n]) 0 = N + n).
    { rewrite app_nth2 by lia. rewrite c2, Nat.sub_diag. reflexivity. }
    assert (IO : forall p, p < N -> nth p (indices (a_cs s) ++ map fst pl) 0 = nth p (indices (a_cs s)) 0).
    { intros. rewrite app_nth1 by lia. auto. }
    assert (IN : forall p, N <= p -> nth p (indices (a_cs s) ++ map fst pl) 0 = nth (p - N) (map fst pl) 0).
    { intros. rewrite app_nth2 by lia. now rewrite c5. }
    assert (STN : forall r, r < np -> nth (S r) (ind_start (a_cs s)) 0 <= N). { intros r Hr. rewrite <- c4. apply c3; lia. }
    split; [|split; [|split]]; auto.
    - split; [|split]; auto.
      + unfold cells_of. cbn [a_cs indices vals a_vp a_vpi].
        constructor; cbn [c_ind c_val c_vp c_vpi].
        * rewrite SO by lia. auto.
        * rewrite app_length. simpl. lia.
        * intros i j Hij Hjn. destruct (Nat.eq_dec j (S np)).
          -- subst j. rewrite SN. destruct (Nat.eq_dec i (S np)). { subst i. rewrite SN. lia. }
             rewrite SO by lia. pose proof (c3 i np ltac:(lia) ltac:(lia)). lia.
          -- rewrite !SO by lia. apply c3; lia.
        * exact SN.
        * rewrite app_length, map_length. fold n. lia.
        * rewrite app_length, map_length. fold n. lia.
        * constructor; auto.
          -- intros x Hx. rewrite A5 by auto. destruct (Nat.ltb_spec x N); auto. pose proof (d3 x). lia.
          -- intros x Hx. rewrite A6 by auto. destruct (Nat.ltb_spec x N); auto. pose proof (d4 x). lia.
          -- intros p Hp. rewrite (A6 p) by auto. destruct (Nat.ltb_spec p N).
             ++ pose proof (d4 p H0). rewrite A5 by lia. destruct (Nat.ltb_spec (nth p (a_vpi s) 0) N); auto; lia.
             ++ rewrite A5 by lia. destruct (Nat.ltb_spec p N); auto; lia.
          -- intros p Hp. rewrite (A5 p) by auto. destruct (Nat.ltb_spec p N).
             ++ pose proof (d3 p H0). rewrite A6 by lia. destruct (Nat.ltb_spec (nth p (a_vp s) 0) N); auto; lia.
             ++ rewrite A6 by lia. destruct (Nat.ltb_spec p N); auto; lia.
        * exact LI.
        * intros x Hx. destruct (le_lt_dec N x). { rewrite RN by lia. lia. } rewrite RO by auto. pose proof (c9 x l). lia.
        * intros x Hx. destruct (le_lt_dec N x).
          -- rewrite RN by lia. rewrite SN, SO by lia. rewrite A5 by auto. destruct (Nat.ltb_spec x N); lia.
          -- rewrite RO by auto. pose proof (c9 x l). rewrite !SO by lia. rewrite A5 by auto.
             destruct (Nat.ltb_spec x N); [|lia]. auto.
        * intros x Hx. rewrite A5 by auto. unfold labx. destruct (Nat.ltb_spec x N).
          -- rewrite IO by auto. auto.
          -- apply IN. auto.
        * intros x Hx. rewrite A5 by auto. destruct (Nat.ltb_spec x N).
          -- rewrite app_nth1 by (rewrite c6; auto). auto.
          -- rewrite app_nth2 by lia. rewrite c6. change (t0 O) with (snd (0, t0 O)) at 1. apply map_nth.
        * intros x Hx. unfold labx. destruct (Nat.ltb_spec x N); auto. apply Hj. apply nth_In. rewrite map_length. fold n. lia.
        * intros r p q Hr Hp Hpq Hq. destruct (Nat.eq_dec r np).
          -- subst r. rewrite SN in Hq. rewrite SO in Hp by lia. rewrite c4 in Hp. rewrite !IN by lia. apply HS; fold n; lia.
          -- rewrite !SO in * by lia. pose proof (STN r ltac:(lia)). rewrite !IO by lia. apply (c14 r); auto; lia.
      + rewrite <- EC. exact A4.
    - intros M MR LM r c v. unfold AugSpec.entry. destruct (lt_eq_lt_dec r np) as [[Hr|Hr]|Hr].
      + rewrite app_nth1 by lia. change (nth r M (fun _ => None) c) with (entry M r c). rewrite (MR r c v). split.
        * intros (x & Q1 & Q2 & Q3 & Q4). exists x. fold N in Q1. split; [lia|]. rewrite RO by auto. split; auto.
          unfold labx. destruct (Nat.ltb_spec x N); [|lia]. auto.
        * intros (x & Q1 & Q2 & Q3 & Q4). destruct (le_lt_dec N x). { rewrite RN in Q2 by lia. lia. }
          exists x. fold N. rewrite RO in Q2 by auto. unfold labx in Q3. destruct (Nat.ltb_spec x N); [|lia]. auto.
      + subst r. rewrite app_nth2 by lia. rewrite LM, Nat.sub_diag. simpl. rewrite assoc_in by auto. split.
        * intros HI. apply (In_nth _ _ (0, t0 O)) in HI. destruct HI as (a & Ha & Ea). fold n in Ha.
          exists (N + a). split; [lia|]. rewrite RN by lia. split; auto. unfold labx.
          destruct (Nat.ltb_spec (N + a) N); [lia|]. replace (N + a - N) with a by lia. rewrite Ea. split; auto.
          change 0 with (fst (0, t0 O)) at 1. rewrite map_nth, Ea. reflexivity.
        * intros (x & Q1 & Q2 & Q3 & Q4). destruct (le_lt_dec N x).
          -- unfold labx in Q3. destruct (Nat.ltb_spec x N); [lia|].
             change 0 with (fst (0, t0 O)) in Q3 at 1. rewrite map_nth in Q3. rewrite <- Q3, <- Q4.
             destruct (nth (x - N) pl (0, t0 O)) eqn:EQ. simpl. rewrite <- EQ. apply nth_In. fold n. lia.
          -- rewrite RO in Q2 by auto. pose proof (c9 x l). lia.
      + rewrite nth_overflow by (rewrite app_length; simpl; lia). split; [discriminate|].
        intros (x & Q1 & Q2 & Q3 & Q4). exfalso. destruct (le_lt_dec N x). { rewrite RN in Q2 by lia. lia. }
        rewrite RO in Q2 by auto. pose proof (c9 x l). lia.
  Qed.

  Lemma entry_map : forall (f : (nat -> option T) -> nat -> option T) M r c, f (fun _ => None) c = None ->
    entry (map f M) r c = f (nth r M (fun _ => None)) c.
  Proof.
    intros f M r c H. unfold AugSpec.entry. destruct (le_lt_dec (length M) r).
    - rewrite nth_overflow by (rewrite map_length; auto). rewrite (nth_overflow M) by auto. auto.
    - rewrite nth_indep with (d' := f (fun _ => None)) by (rewrite map_length; auto). now rewrite map_nth.
  Qed.

  (** ** The walk *)
  Lemma column_in : forall M r0 j r v, In (r, v) (column_from O r0 M j) <-> r0 <= r /\ entry M (r - r0) j = Some v.
  Proof.
    induction M as [|x M]; intros r0 j r v; simpl.
    - split; [tauto|]. intros (_ & H). unfold AugSpec.entry in H. destruct (r - r0); discriminate.
    - assert (EN : forall r, r0 < r -> entry (x :: M) (r - r0) j = entry M (r - S r0) j).
      { intros r1 H. unfold AugSpec.entry. replace (r1 - r0) with (S (r1 - S r0)) by lia. reflexivity. }
      assert (E0 : entry (x :: M) (r0 - r0) j = x j) by (rewrite Nat.sub_diag; reflexivity).
      destruct (x j) as [w|] eqn:EX; [cbn [In]|]; rewrite IHM.
      + split.
        * intros [E|(A & B)]. { injection E as <- <-. split; auto. } rewrite EN by lia. split; auto; lia.
        * intros (A & B). destruct (Nat.eq_dec r r0). { subst. left. rewrite E0 in B. congruence. }
          right. rewrite EN in B by lia. split; auto; lia.
      + split.
        * intros (A & B). rewrite EN by lia. split; auto; lia.
        * intros (A & B). destruct (Nat.eq_dec r r0). { subst. rewrite E0 in B. congruence. }
          rewrite EN in B by lia. split; auto; lia.
  Qed.

  Notation srt := (StronglySorted (fun a b : nat * T => fst a < fst b)).
  Lemma column_srt : forall M r0 j, srt (column_from O r0 M j).
  Proof.
    induction M as [|x M]; intros r0 j; simpl. { constructor. }
    destruct (x j); auto. constructor; auto. apply Forall_forall. intros [r v] H. apply column_in in H. simpl. lia.
  Qed.

  Lemma srt_uniq : forall l1 l2, srt l1 -> srt l2 -> (forall e, In e l1 <-> In e l2) -> l1 = l2.
  Proof.
    induction l1 as [|a l1]; intros [|b l2] S1 S2 H; auto.
    - exfalso. apply (proj2 (H b)). simpl; auto.
    - exfalso. apply (proj1 (H a)). simpl; auto.
    - inversion S1; subst. inversion S2; subst. rewrite Forall_forall in H3, H5.
      assert (E : a = b).
      { destruct (proj1 (H a) (or_introl eq_refl)) as [E|E]; auto.
        destruct (proj2 (H b) (or_introl eq_refl)) as [F|F]; auto.
        pose proof (H3 _ F). pose proof (H5 _ E). lia. }
      subst b. f_equal. apply IHl1; auto. intros e. split; intros He.
      + destruct (proj1 (H e) (or_intror He)) as [E|E]; auto. subst e. pose proof (H3 _ He). lia.
      + destruct (proj2 (H e) (or_intror He)) as [E|E]; auto. subst e. pose proof (H5 _ He). lia.
  Qed.

  Lemma walk_l : forall np lo nc s lab val L, arep np lo nc s lab val L -> forall l fuel, length l < fuel ->
    linked (a_next s) l -> (forall x, In x l -> x < length (a_inds s)) ->
    walk O fuel s (hd_error l) = Ok (map (fun x => (nth x (a_inds s) 0, val x)) l).
  Proof.
    intros np lo nc s lab val L (C & H & LN). induction l as [|x l]; intros fuel HF HL HI; destruct fuel; try (simpl in HF; lia); cbn [walk hd_error map]; auto.
    pose proof (HI x (or_introl eq_refl)) as Hx.
    rewrite (get_nth _ _ x 0) by auto. cbn [bind].
    pose proof (k_inv _ _ _ _ _ _ _ _ _ C) as I. cbn [cells_of c_vp c_vpi] in I.
    rewrite (get_nth _ (a_vp s) x 0) by (rewrite (i_l1 _ _ _ I); auto). cbn [bind].
    pose proof (k_lv _ _ _ _ _ _ _ _ _ C) as LV. cbn [cells_of c_val] in LV.
    rewrite (get_nth _ (vals _) _ (t0 O)) by (rewrite LV; now apply I). cbn [bind].
    destruct HL as (A & B & D). rewrite (get_nth _ _ x None A), B. cbn [bind].
    rewrite IHl; auto; try (simpl in HF; lia). 2:{ intros; apply HI; simpl; auto. }
    cbn [bind]. pose proof (k_val _ _ _ _ _ _ _ _ _ C x Hx) as KV. cbn [cells_of c_vp c_val] in KV. now rewrite KV.
  Qed.

  Lemma shows_l : forall np nc s lab val L M, arep np 0 nc s lab val L -> mrel M s lab val -> length M = np ->
    shows O nc s M.
  Proof.
    intros np nc s lab val L M R MR LM. pose proof R as (C & H & LN).
    assert (Z : forall j, j < nc -> 0 <= j < nc) by (intros; lia).
    pose proof (k_inv _ _ _ _ _ _ _ _ _ C) as I. cbn [cells_of c_vp c_vpi] in I.
    assert (WALK : forall j, j < nc -> map (fun x => (nth x (a_inds s) 0, val x)) (L j) = column O M j).
    { intros j Hj. apply srt_uniq.
      - pose proof (h_5 _ _ _ _ _ _ _ _ _ _ H j (Z j Hj)) as IC. unfold incr in IC.
        induction IC; simpl; constructor; auto. rewrite Forall_forall in *. intros e He. apply in_map_iff in He.
        destruct He as (x & <- & Hx). simpl. auto.
      - apply column_srt.
      - intros [r v]. unfold column. rewrite column_in, Nat.sub_0_r, (MR r j v). rewrite in_map_iff. split.
        + intros (x & E & Hx). injection E as <- <-. split; [lia|]. apply (h_6 _ _ _ _ _ _ _ _ _ _ H) in Hx; auto.
          exists x. tauto.
        + intros (_ & x & Q1 & Q2 & Q3 & Q4). exists x. split. { now rewrite Q2, Q4. }
          apply (h_6 _ _ _ _ _ _ _ _ _ _ H); auto. }
    constructor.
    - rewrite (k_stl _ _ _ _ _ _ _ _ _ C). now rewrite LM.
    - intros r c v Hr. rewrite LM in Hr. rewrite (MR r c v). unfold stored, rowl. rewrite in_map_iff. unfold ix, vl, st. split.
      + intros (p & E & Hp). injection E as <- <-. apply in_seq in Hp.
        destruct (core_row O _ _ _ _ _ _ _ _ C r p Hr ltac:(lia)) as (P1 & P2 & P3 & P4). cbn [cells_of c_ind c_val c_vp c_vpi] in *.
        exists (nth p (a_vpi s) 0). split; auto. split; auto. split; auto.
        pose proof (k_val _ _ _ _ _ _ _ _ _ C _ P2) as KV. cbn [cells_of c_vp c_val] in KV. rewrite <- KV.
        now rewrite (i_1 _ _ _ I p P1).
      + intros (x & Q1 & Q2 & Q3 & Q4). exists (nth x (a_vp s) 0).
        pose proof (k_val _ _ _ _ _ _ _ _ _ C _ Q1) as KV. pose proof (k_lab _ _ _ _ _ _ _ _ _ C _ Q1) as KL.
        pose proof (k_pos _ _ _ _ _ _ _ _ _ C _ Q1) as KP.
        cbn [cells_of c_ind c_vp c_val] in *. split. { now rewrite KV, KL, Q3, Q4. }
        rewrite Q2 in KP. apply in_seq. lia.
    - intros r a b Hr Hab Hb. rewrite LM in Hr. unfold rowl in *. rewrite map_length, seq_length in Hb.
      rewrite !map_map. cbn [fst].
      assert (NM : forall q, q < st (a_cs s) (S r) - st (a_cs s) r ->
        nth q (map (fun x => ix (a_cs s) x) (seq (st (a_cs s) r) (st (a_cs s) (S r) - st (a_cs s) r))) 0 = ix (a_cs s) (st (a_cs s) r + q)).
      { intros q Hq. rewrite nth_indep with (d' := ix (a_cs s) 0) by (rewrite map_length, seq_length; auto).
        rewrite map_nth. now rewrite seq_nth. }
      rewrite !NM by lia. apply (k_sorted _ _ _ _ _ _ _ _ _ C r); auto; unfold st in *; lia.
    - intros j Hj. unfold walk_col. rewrite (get_nth _ _ j None) by (rewrite (h_hd _ _ _ _ _ _ _ _ _ _ H); auto). cbn [bind].
      rewrite (h_1 _ _ _ _ _ _ _ _ _ _ H) by lia.
      assert (IL : forall x, In x (L j) -> x < length (a_inds s)). { intros x Hx. apply (h_6 _ _ _ _ _ _ _ _ _ _ H) in Hx; [tauto|auto]. }
      rewrite (walk_l _ _ _ _ _ _ _ R); auto.
      + now rewrite WALK.
      + pose proof (len_le (length (a_inds s)) (L j) (incr_nodup _ _ (h_5 _ _ _ _ _ _ _ _ _ _ H j (Z j Hj))) IL). lia.
      + apply H; auto.
    - intros j Hj. unfold nnz_in_col. rewrite (get_nth _ _ j 0) by (rewrite (h_cn _ _ _ _ _ _ _ _ _ _ H); auto).
      f_equal. rewrite (h_3 _ _ _ _ _ _ _ _ _ _ H) by auto. rewrite <- WALK by auto. now rewrite map_length.
  Qed.

  Definition good (nc : nat) (s : aug O) (M : list (nat -> option T)) : Prop :=
    ssize (a_cs s) = nc /\ exists lab val L, arep (length M) 0 nc s lab val L /\ mrel M s lab val.

  Lemma good_shows : forall nc s M, good nc s M -> shows O nc s M.
  Proof. intros nc s M (_ & lab & val & L & R & MR). eapply shows_l; eauto. Qed.

  Lemma push_step_l : forall p (A : CS O) b, push_ok O p -> 0 < length (ind_start A) ->
    nth (length (ind_start A) - 1) (ind_start A) 0 = b ->
    push_step O p A = Ok (mkCS (psize A) (ssize A) (ind_start A ++ [b + length (pushed O p)])
       (indices A ++ map fst (pushed O p)) (vals A ++ map snd (pushed O p))).
  Proof.
    intros p A b Hp HL HB.
    assert (G : get (ind_start A) (length (ind_start A) - 1) = Ok b) by (rewrite (get_nth _ _ _ 0) by lia; now rewrite HB).
    destruct p as [|l v|l1 v1 l2 v2]; simpl in *.
    - unfold push_empty. rewrite G. simpl. now rewrite !app_nil_r, Nat.add_0_r.
    - unfold push_primary. rewrite (pick_ok O v l) by auto. cbn [bind]. rewrite G. cbn [bind].
      rewrite !map_map, map_length. simpl. now rewrite map_id.
    - unfold push_primary2. destruct Hp as [Hp1 Hp2]. rewrite (pick_ok O v1 l1), (pick_ok O v2 l2) by auto.
      cbn [bind]. rewrite G. cbn [bind]. rewrite !map_app, !map_map, app_length, !map_length. simpl. rewrite !map_id.
      now rewrite Nat.add_assoc.
  Qed.

  Lemma astep_l : forall nc s M o, good nc s M -> legal O nc M o ->
    exists s', astep O o s = Ok s' /\ good nc s' (mstep O o M).
  Proof.
    intros nc s M o (SS & lab & val & L & R & MR) LG. destruct o as [r p|i k|from to]; cbn [astep mstep legal] in *.
    - destruct LG as (-> & PO & HJ & HS). pose proof R as (C & _ & _).
      assert (LS : length (ind_start (a_cs s)) = S (length M)) by apply C.
      assert (LAST : nth (length (ind_start (a_cs s)) - 1) (ind_start (a_cs s)) 0 = length (a_inds s)).
      { rewrite LS. simpl. rewrite Nat.sub_0_r. apply C. }
      unfold aug_push. rewrite (push_step_l p (a_cs s) (length (a_inds s)) PO ltac:(lia) LAST). cbn [bind].
      assert (G : exists ls, concat ls = map fst (pushed O p) /\ forall A,
        (match p with PushEmpty _ => with_nodes O A (length M) [] s | Push _ l _ => with_nodes O A (length M) [l] s
         | Push2 _ l1 _ l2 _ => with_nodes O A (length M) [l1; l2] s end) = with_nodes O A (length M) ls s).
      { destruct p as [|l v|l1 v1 l2 v2]; eexists; (split; [|intros; reflexivity]); simpl;
          rewrite ?app_nil_r, ?map_app, ?map_map; simpl; now rewrite ?map_id. }
      destruct G as (ls & EC & ->).
      assert (HJ' : forall j, In j (map fst (pushed O p)) -> 0 <= j < nc) by (intros j Q; split; [lia|auto]).
      destruct (push_rep (length M) 0 nc s lab val L (psize (a_cs s)) (ssize (a_cs s)) (pushed O p) ls R EC HJ' HS)
        as (s' & lab' & val' & L' & E & R' & MR' & ECS & _).
      rewrite E. exists s'. split; auto. split. { now rewrite ECS. }
      exists lab', val', L'. rewrite app_length. simpl. rewrite Nat.add_1_r. auto.
    - destruct LG as (Hi & Hk). destruct (Nat.eq_dec i k) as [->|NE].
      + unfold interchange. rewrite Nat.eqb_refl. exists s. split; auto. split; auto. exists lab, val, L.
        rewrite map_length. split; auto. intros r c v. rewrite entry_map by (natb; auto). cbn beta.
        rewrite <- (MR r c v). unfold AugSpec.entry. destruct (Nat.eqb_spec c k); [subst|]; tauto.
      + destruct (interchange_l O (length M) 0 nc s lab val L i k R ltac:(lia) ltac:(lia) NE) as (s' & E & R' & EI & ES).
        exists s'. split; auto. split. { now rewrite ES. }
        exists (fun x => sw i k (lab x)), val, (fun j => L (sw i k j)). rewrite map_length. split; auto.
        intros r c v. rewrite entry_map by (natb; auto). cbn beta. rewrite EI.
        assert (EQ : (if c =? i then nth r M (fun _ => None) k else if c =? k then nth r M (fun _ => None) i else nth r M (fun _ => None) c)
          = entry M r (sw i k c)) by (unfold AugSpec.entry, sw; natb; auto).
        rewrite EQ, (MR r (sw i k c) v). split; intros (x & Q1 & Q2 & Q3 & Q4); exists x; repeat split; auto.
        * rewrite Q3. apply sw_sw.
        * rewrite <- Q3. symmetry. apply sw_sw.
    - destruct LG as (Hft & Ht & N1 & N2).
      assert (NT : forall x, x < length (a_inds s) -> lab x <> to).
      { intros x Hx E. assert (Q : entry M (nth x (a_inds s) 0) to = Some (val x)) by (apply MR; exists x; auto). rewrite N1 in Q. discriminate. }
      destruct (defer_l O (length M) 0 nc s lab val L from to R ltac:(lia) Hft Ht NT) as (s' & L' & E & R' & EI & ES).
      { intros x y Hx Hy Ex Ry. destruct (le_lt_dec (lab y) to); auto. exfalso.
        assert (Q : entry M (nth x (a_inds s) 0) (lab y) = Some (val y)) by (apply MR; exists y; auto).
        rewrite N2 in Q; auto; [discriminate|].
        assert (Q2 : entry M (nth x (a_inds s) 0) from = Some (val x)) by (apply MR; exists x; auto). congruence. }
      exists s'. split; auto. split. { now rewrite ES. }
      exists (fun x => sw from to (lab x)), val, L'. rewrite map_length. split; auto.
      intros r c v. rewrite entry_map by (natb; auto). cbn beta. rewrite EI.
      assert (EQ : (if c =? to then nth r M (fun _ => None) from else if c =? from then None else nth r M (fun _ => None) c)
        = entry M r (sw from to c)).
      { unfold sw. destruct (Nat.eqb_spec c to). { destruct (Nat.eqb_spec c from); [lia|]. reflexivity. }
        destruct (Nat.eqb_spec c from); auto. }
      rewrite EQ, (MR r (sw from to c) v). split; intros (x & Q1 & Q2 & Q3 & Q4); exists x; repeat split; auto.
      * rewrite Q3. apply sw_sw.
      * rewrite <- Q3. symmetry. apply sw_sw.
  Qed.

  Lemma good_begin : forall A : CS O, good (ssize A) (aug_begin O A) [].
  Proof.
    intros A. split. { reflexivity. } exists (fun _ => 0), (fun _ => t0 O), (fun _ => []).
    split; [split; [|split]|]; simpl; auto.
    - constructor; simpl; auto; try (intros; lia).
      + intros i j Hi Hj. assert (i = 0) by lia. assert (j = 0) by lia. subst. lia.
      + constructor; simpl; auto; intros; lia.
    - constructor; simpl; rewrite ?repeat_length; auto.
      + intros; now rewrite nth_repeat_any.
      + intros; now rewrite nth_repeat_any.
      + intros; now rewrite nth_repeat_any.
      + intros. constructor.
      + intros. split; [tauto|]. intros (? & _). lia.
    - intros r c v. unfold AugSpec.entry. simpl. split. { destruct r; discriminate. } intros (x & ? & _). lia.
  Qed.

  Lemma arun_from : forall nc ops s M, good nc s M -> legal_run O nc M ops ->
    exists s', for_list ops (astep O) s = Ok s' /\ good nc s' (mrun O ops M).
  Proof.
    induction ops as [|o ops]; intros s M G LG.
    - exists s. split; auto.
    - destruct LG as (L1 & L2). destruct (astep_l nc s M o G L1) as (s1 & E & G1).
      cbn [for_list]. rewrite E. cbn [bind]. apply IHops; auto.
  Qed.
End P.
