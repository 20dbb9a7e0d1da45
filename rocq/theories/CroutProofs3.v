(** * CroutProofs3: the accumulators of one step (loading a row, updating with the stored factors). *)
From Coq Require Import List Arith Lia Bool Permutation Ring.
From Verif Require Import Base Scalar Spec CSModel CSSpec ConvModel ConvSpec BucketProofs ConvProofs ConvProofs2
  ConvProofs3 ConvProofs4 Mag VecModel VecSpec VecProofs PruneModel PruneProofs CroutModel CroutProofs1 CroutProofs2.
Import ListNotations.

(** lookup in an association list *)
Fixpoint lko {X} (l : list (nat * X)) (i : nat) : option X :=
  match l with
  | [] => None
  | (j, v) :: t => if j =? i then Some v else lko t i
  end.

Lemma lko_none : forall X (l : list (nat * X)) i, ~ In i (map fst l) -> lko l i = None.
Proof. induction l as [|[j v] t IH]; simpl; intros i H; auto. destruct (Nat.eqb_spec j i); [tauto|]. apply IH. tauto. Qed.
Lemma lko_in : forall X (l : list (nat * X)) i v, lko l i = Some v -> In (i, v) l.
Proof. induction l as [|[j w] t IH]; simpl; intros i v H; [discriminate|]. destruct (Nat.eqb_spec j i); [left; congruence|right; auto]. Qed.
Lemma in_lko : forall X (l : list (nat * X)) i v, NoDup (map fst l) -> In (i, v) l -> lko l i = Some v.
Proof.
  induction l as [|[j w] t IH]; simpl; intros i v N H; [tauto|]. inversion N; subst. destruct (Nat.eqb_spec j i) as [->|].
  - destruct H as [E|H]; [congruence|]. exfalso. apply H2. apply (in_map fst) in H. auto.
  - destruct H as [E|H]; [congruence|]. auto.
Qed.
Lemma lko_app : forall X (a b : list (nat * X)) i, lko (a ++ b) i = match lko a i with Some v => Some v | None => lko b i end.
Proof. induction a as [|[j w] t IH]; simpl; intros; auto. destruct (j =? i); auto. Qed.

Section RingU.
  Variable O : Ops.
  Hypothesis RL : RingLaws O.
  Add Ring TRU : (rl_ring O RL).
  Lemma ru_sub_mul0 : forall a c, tsub O a (tmul O c (t0 O)) = a. Proof. intros. ring. Qed.
  Lemma ru_sub2 : forall a c w, tsub O (tsub O a (tmul O c w)) (tmul O c (t0 O)) = tsub O a (tmul O c w). Proof. intros. ring. Qed.
End RingU.

Section A.
  Context {O : Ops}.
  Notation T := (T O).
  Notation row := (list (nat * T)).
  Notation col := (row * row)%type.
  Notation "0'" := (t0 O).

  Definition ov (o : option T) : T := match o with Some v => v | None => t0 O end.
  Definition lkv (l : row) (i : nat) : T := ov (lko l i).

  Definition vv (v : SV O) i := nth i (sv_vals v) (t0 O).
  Definition tg (v : SV O) i := nth i (sv_dtags v) None.

  Record acc (N step lo lim : nat) (v : SV O) (f : nat -> T) : Prop := mkAcc {
    ac_ok : sv_ok N v;
    ac_tag : forall i, i < N -> (tg v i = Some step <-> In i (held v));
    ac_old : forall i s, i < N -> tg v i = Some s -> s <= step;
    ac_rng : forall i, In i (held v) -> lo <= i < lim;
    ac_val : RingLaws O -> forall i, In i (held v) -> vv v i = f i;
    ac_zero : RingLaws O -> forall i, ~ In i (held v) -> f i = t0 O }.

  (** between the steps: all tags are below the next step *)
  Definition idle (N step : nat) (v : SV O) : Prop :=
    sv_ok N v /\ forall i s, i < N -> tg v i = Some s -> s < step.

  Lemma acc_ext : forall N step lo lim v f f', (RingLaws O -> forall i, f i = f' i) ->
    acc N step lo lim v f -> acc N step lo lim v f'.
  Proof.
    intros N step lo lim v f f' E []. split; auto.
    - intros RL i Hi. rewrite <- E by auto. auto.
    - intros RL i Hi. rewrite <- E by auto. auto.
  Qed.

  Lemma acc_reset : forall N step lo lim v, idle N step v -> acc N step lo lim (sv_reset v) (fun _ => t0 O).
  Proof.
    intros N step lo lim v ([] & H). split; simpl; auto.
    - split; simpl; auto; try lia. constructor.
    - intros i Hi. split; [|intros []]. intros E. change (tg (sv_reset v) i) with (tg v i) in E. apply H in E; auto. lia.
    - intros i s Hi E. change (tg (sv_reset v) i) with (tg v i) in E. apply H in E; auto. lia.
    - intros i [].
    - intros _ i [].
  Qed.

  Lemma acc_idle : forall N step lo lim v f, acc N step lo lim v f -> idle N (S step) v.
  Proof. intros N step lo lim v f []. split; auto. intros i s Hi E. apply ac_old0 in E; auto. lia. Qed.

  Lemma push_acc : forall N step lo lim v f i, acc N step lo lim v f -> lo <= i < lim -> lim <= N ->
    exists v', sv_push v i step = Ok (negb (if in_dec Nat.eq_dec i (held v) then true else false), v') /\
      forall x, exists v'', sv_setval v' i x = Ok v'' /\ acc N step lo lim v'' (fun y => if y =? i then x else f y) /\
        (forall y, In y (held v'') <-> y = i \/ In y (held v)).
  Proof.
    intros N step lo lim v f i [[so_vals0 so_inds0 so_cnt0 so_tags0 so_stags0 so_nodup0 so_range0] at0 ao0 ar0 av0 az0] Hi HN.
    unfold sv_push. rewrite (get_nth _ _ _ None) by lia. cbn [bind]. fold (tg v i).
    pose proof (at0 i ltac:(lia)) as A.
    destruct (in_dec Nat.eq_dec i (held v)) as [I|I].
    - rewrite (proj2 A I). rewrite Nat.eqb_refl. exists v. split; auto. intros x. unfold sv_setval. rewrite set_ok by lia. cbn [bind].
      eexists. split; [reflexivity|]. split; [|intros y; change (held _) with (held v); split; [auto|intros [->|]; auto]]. split; simpl; auto.
      + split; simpl; auto. now rewrite upd_length.
      + intros RL y Hy. change (held _) with (held v) in Hy. unfold vv; simpl. rewrite nth_upd by lia. destruct (y =? i); auto.
        apply av0; auto.
      + intros RL y Hy. change (held _) with (held v) in Hy. destruct (Nat.eqb_spec y i) as [->|]; [tauto|]. apply az0; auto.
    - assert (NE : (match tg v i with Some s => s =? step | None => false end) = false).
      { destruct (tg v i) as [s|] eqn:E; auto. apply Nat.eqb_neq. intros ->. apply I. now apply A. }
      rewrite NE. unfold sv_push1.
      assert (LH : length (held v) = sv_cnt v) by (unfold held; rewrite firstn_length; lia).
      assert (Hc : sv_cnt v < N).
      { assert (length (held v ++ [i]) <= N).
        { apply bounded_nodup_length.
          - eapply Permutation_NoDup. apply Permutation_cons_append. constructor; auto.
          - intros j Hj. apply in_app_or in Hj. destruct Hj as [Hj|[<-|[]]]; auto. lia. }
        rewrite app_length in H. simpl in H. lia. }
      rewrite set_ok by lia. cbn [bind sv_dtags sv_vals sv_inds sv_cnt sv_stags]. rewrite set_ok by lia. cbn [bind negb].
      eexists. split; [reflexivity|]. intros x. unfold sv_setval. cbn [sv_dtags sv_vals sv_inds sv_cnt sv_stags].
      rewrite set_ok by lia. cbn [bind]. eexists. split; [reflexivity|].
      assert (EH : forall a b c, held (O:=O) (mkSV a (upd (sv_inds v) (sv_cnt v) i) (S (sv_cnt v)) b c) = held v ++ [i]).
      { intros. unfold held at 1. cbn [sv_inds sv_cnt]. rewrite held_snoc by lia. auto. }
      assert (IH : forall y, In y (held v ++ [i]) <-> y = i \/ In y (held v)).
      { intros y. rewrite in_app_iff. simpl. intuition. }
      split; [|intros y; rewrite EH; apply IH]. split; rewrite ?EH.
      + split; simpl; rewrite ?upd_length; auto; rewrite ?EH.
        * eapply Permutation_NoDup. apply Permutation_cons_append. constructor; auto.
        * intros y Hy. apply IH in Hy. destruct Hy as [->|Hy]; [lia|auto].
      + intros y Hy. rewrite IH. unfold tg; simpl. rewrite nth_upd by lia. destruct (Nat.eqb_spec y i) as [->|Hn]; [tauto|].
        fold (tg v y). rewrite at0 by auto. tauto.
      + intros y s Hy. unfold tg; simpl. rewrite nth_upd by lia. destruct (Nat.eqb_spec y i) as [->|Hn].
        * intros E. inversion E. lia.
        * apply ao0; auto.
      + intros y Hy. apply IH in Hy. destruct Hy as [->|Hy]; auto.
      + intros RL y Hy. apply IH in Hy. unfold vv; simpl. rewrite nth_upd by lia. destruct (Nat.eqb_spec y i) as [->|Hn]; auto.
        apply av0; auto. tauto.
      + intros RL y Hy. rewrite IH in Hy. destruct (Nat.eqb_spec y i) as [->|Hn]; [tauto|]. apply az0; auto.
  Qed.

  Lemma accum_l : forall N step lo lim v f i a b, acc N step lo lim v f -> lo <= i < lim -> lim <= N ->
    (RingLaws O -> a = topp O b) ->
    wp (accum step v i a b) (fun v' => acc N step lo lim v' (fun y => if y =? i then tsub O (f y) b else f y)).
  Proof.
    intros N step lo lim v f i a b HA Hi HN Hab. unfold accum.
    destruct (push_acc N step lo lim v f i HA Hi HN) as (v' & E & S').
    pose proof HA as [[so_vals0 so_inds0 so_cnt0 so_tags0 so_stags0 so_nodup0 so_range0] at0 ao0 ar0 av0 az0].
    rewrite E. cbn [bind]. destruct (in_dec Nat.eq_dec i (held v)) as [I|I]; cbn [negb].
    - assert (EV : v' = v).
      { unfold sv_push in E. rewrite (get_nth _ _ _ None) in E by lia. cbn [bind] in E. fold (tg v i) in E.
        rewrite (proj2 (at0 i ltac:(lia)) I), Nat.eqb_refl in E. now inversion E. }
      subst v'. wpb. apply wp_get with (d := t0 O); [lia|].
      destruct (S' (tsub O (nth i (sv_vals v) (t0 O)) b)) as (v'' & E2 & H2 & _). rewrite E2. apply wp_ok.
      eapply acc_ext; [|exact H2]. intros RL y. cbv beta. destruct (Nat.eqb_spec y i) as [->|]; auto. f_equal. apply av0; auto.
    - destruct (S' a) as (v'' & E2 & H2 & _). rewrite E2. apply wp_ok.
      eapply acc_ext; [|exact H2]. intros RL y. cbv beta. destruct (Nat.eqb_spec y i) as [->|]; auto.
      rewrite az0, Hab by auto. pose proof (rl_ring O RL) as RR.
      rewrite (Rsub_def RR). now rewrite (Radd_0_l RR).
  Qed.

  (** ** Loading a primary of the matrix *)
  Lemma load_l : forall N step g lim (A : CS O) pk qinv sc (x : nat -> T -> T) v,
    valid A -> pk < psize A -> ssize A <= length qinv -> lim <= N ->
    (forall j, j < ssize A -> g < nth j qinv 0 -> nth j qinv 0 < lim) ->
    (forall j j', j < ssize A -> j' < ssize A -> g < nth j qinv 0 -> nth j qinv 0 = nth j' qinv 0 -> j = j') ->
    (forall j w, j < ssize A -> sc j w = Ok (x j w)) ->
    acc N step (S g) lim v (fun _ => t0 O) ->
    wp (load_primary step g A pk qinv sc v) (fun v' => exists f, acc N step (S g) lim v' f /\
      (forall j w, In (j, w) (rowl A pk) -> g < nth j qinv 0 -> f (nth j qinv 0) = x j w) /\
      (forall r, (forall j w, In (j, w) (rowl A pk) -> nth j qinv 0 = r -> r <= g) -> f r = t0 O)).
  Proof.
    intros N step g lim A pk qinv sc x v [W SO] Hpk Hq HN Hlim Hinj Hsc HA.
    unfold load_primary. rewrite row_iter_rowl by auto.
    pose proof (valid_nodup O A pk SO Hpk) as ND.
    apply (for_list_inv _ _ (fun pre v' => exists f, acc N step (S g) lim v' f /\
      (forall j w, In (j, w) pre -> g < nth j qinv 0 -> f (nth j qinv 0) = x j w) /\
      (forall r, (forall j w, In (j, w) pre -> nth j qinv 0 = r -> r <= g) -> f r = t0 O))).
    { exists (fun _ => t0 O). split; auto. split; [intros j w []|auto]. }
    intros pre [j w] post s E (f & F1 & F2 & F3). cbn [fst snd].
    assert (Rg : forall e, In e (pre ++ (j, w) :: post) -> fst e < ssize A).
    { intros e He. rewrite <- E in He. now apply (wf_rowl_range O A W pk). }
    assert (Hj : j < ssize A). { apply (Rg (j, w)). apply in_or_app. simpl. auto. }
    wpb. apply wp_get with (d := 0); [lia|].
    destruct (Nat.ltb_spec g (nth j qinv 0)) as [Hg|Hg].
    - destruct (push_acc N step (S g) lim s f (nth j qinv 0) F1 ltac:(specialize (Hlim j Hj Hg); lia) HN) as (v1 & E1 & S1).
      rewrite E1. cbn [bind]. rewrite Hsc by auto. cbn [bind].
      destruct (S1 (x j w)) as (v2 & E2 & A2 & _). rewrite E2. apply wp_ok. eexists. split; [exact A2|]. split.
      + intros j' w' Hin Hg'. cbv beta. apply in_app_or in Hin. destruct Hin as [Hin|[Hin|[]]].
        * destruct (Nat.eqb_spec (nth j' qinv 0) (nth j qinv 0)) as [EQ|]; [|apply F2; auto].
          exfalso. assert (j' = j). { apply Hinj; auto. apply (Rg (j', w')). apply in_or_app; auto. }
          subst j'. rewrite E in ND. rewrite map_app in ND. simpl in ND. apply NoDup_remove_2 in ND.
          apply ND. apply in_or_app. left. apply (in_map fst) in Hin. auto.
        * inversion Hin; subst. now rewrite Nat.eqb_refl.
      + intros r Hr. cbv beta. destruct (Nat.eqb_spec r (nth j qinv 0)) as [->|Hn].
        * exfalso. specialize (Hr j w ltac:(apply in_or_app; simpl; auto) eq_refl). lia.
        * apply F3. intros j' w' Hin. apply Hr with (w := w'). apply in_or_app; auto.
    - apply wp_ok. exists f. split; auto. split.
      + intros j' w' Hin Hg'. apply in_app_or in Hin. destruct Hin as [Hin|[Hin|[]]]; auto. inversion Hin; subst. lia.
      + intros r Hr. apply F3. intros j' w' Hin. apply Hr with (w := w'). apply in_or_app; auto.
  Qed.

  (** ** Updating with stored columns *)
  Lemma range_row : forall S (h : nat -> T -> S -> res S) (rows : list row) c a s, c < length rows ->
    a <= length (nth c rows []) ->
    for_range (offs rows c + a) (offs rows c + length (nth c rows []))
      (fun k s => i <- get (map fst (concat rows)) k ;; v <- get (map snd (concat rows)) k ;; h i v s) s
    = for_list (skipn a (nth c rows [])) (fun e => h (fst e) (snd e)) s.
  Proof.
    intros S h rows c a s Hc Ha. unfold for_range.
    replace (offs rows c + length (nth c rows []) - (offs rows c + a)) with (length (skipn a (nth c rows []))) by (rewrite skipn_length; lia).
    remember (skipn a (nth c rows [])) as l eqn:El. revert a s Ha El. induction l as [|e l IH]; intros a s Ha El; cbn [length for_n for_list]; auto.
    assert (La : a < length (nth c rows [])).
    { destruct (Nat.lt_ge_cases a (length (nth c rows []))) as [|G]; auto. rewrite skipn_all2 in El by auto. discriminate. }
    assert (Ee : nth a (nth c rows []) (0, t0 O) = e).
    { rewrite <- (Nat.add_0_r a). rewrite <- nth_skipn'. rewrite <- El. auto. }
    rewrite (get_row _ fst rows c a Hc La). cbn [bind]. rewrite (get_row _ snd rows c a Hc La). cbn [bind]. rewrite Ee.
    destruct (h (fst e) (snd e) s) as [s'| |]; cbn [bind]; auto.
    rewrite <- (IH (Datatypes.S a) s'); auto.
    - f_equal. lia.
    - assert (G : forall X n (l : list X), skipn (Datatypes.S n) l = tl (skipn n l)).
      { clear. induction n; destruct l; auto. simpl in *. rewrite <- IHn. auto. }
      rewrite G, <- El. auto.
  Qed.

  Definition untilg (g : nat) (l : row) : row := match l with (i, v) :: t => if i =? g then t else l | [] => [] end.

  Lemma upd_walk : forall N step lo lim (l : row) co (a b : T -> T) v f,
    acc N step lo lim v f -> lim <= N -> asc (map fst l) -> (forall e, In e l -> lo <= fst e < lim) ->
    (RingLaws O -> forall w, a w = topp O (b w)) -> (RingLaws O -> forall w, b w = tmul O co w) ->
    wp (for_list l (fun e v => accum step v (fst e) (a (snd e)) (b (snd e))) v)
       (fun v' => acc N step lo lim v' (fun r => tsub O (f r) (tmul O co (lkv l r)))).
  Proof.
    intros N step lo lim l co a b v f HA HN. revert v f HA. induction l as [|[i w] l IH]; intros v f HA Hasc Hr Ha Hb.
    - apply wp_ok. eapply acc_ext; [|exact HA]. intros RL r. cbv beta. unfold lkv; simpl. now rewrite ru_sub_mul0.
    - cbn [for_list]. wpb. eapply wp_conseq. { apply (accum_l N step lo lim v f i); auto. apply (Hr (i, w)); simpl; auto. }
      intros v' HA'. cbn [fst snd] in HA'. simpl in Hasc. destruct Hasc as (Hi & Hasc). eapply wp_conseq.
      { apply IH; eauto. intros e He. apply Hr. right; auto. }
      intros v'' HA''. eapply acc_ext; [|exact HA'']. intros RL r. cbv beta. unfold lkv. simpl.
      destruct (Nat.eqb_spec r i) as [->|Hn].
      + rewrite Nat.eqb_refl. rewrite (lko_none _ l i).
        2:{ intros Hin. specialize (Hi i Hin). lia. }
        simpl. rewrite (Hb RL). now rewrite ru_sub2.
      + destruct (Nat.eqb_spec i r); [congruence|]. auto.
  Qed.
End A.
