(** * ValidProofs *)
From Coq Require Import List Arith Lia Bool ZArith.
From Verif Require Import Base Scalar CSModel CSSpec ValidModel ValidSpec.
Import ListNotations.


(** Decision by a loop of tests: [Ok] iff all pass, [Err] iff some fails, provided each test
    itself gives Ok or Err according to [P i] when the earlier ones pass. *)
Lemma for_test : forall n lo (f : nat -> unit -> res unit) (P : nat -> Prop),
  (forall i, lo <= i < lo + n -> (f i tt = Ok tt /\ P i) \/ (f i tt = Err /\ ~ P i)) ->
  (for_n lo n f tt = Ok tt /\ forall i, lo <= i < lo + n -> P i) \/
  (for_n lo n f tt = Err /\ exists i, lo <= i < lo + n /\ ~ P i).
Proof.
  induction n; intros lo f P H; simpl.
  - left. split; auto. intros; lia.
  - destruct (H lo ltac:(lia)) as [[E Hp]|[E Hp]]; rewrite E; simpl.
    + destruct (IHn (S lo) f P) as [[E' H']|[E' (i & Hi & H')]].
      * intros i Hi. apply H. lia.
      * left. split; auto. intros i Hi. destruct (Nat.eq_dec i lo); [now subst|]. apply H'. lia.
      * right. split; auto. exists i. split; auto. lia.
    + right. split; auto. exists lo. split; auto. lia.
Qed.

Lemma for_test_ok : forall n lo (f : nat -> unit -> res unit), for_n lo n f tt = Ok tt ->
  forall i, lo <= i < lo + n -> f i tt = Ok tt.
Proof.
  induction n; intros lo f H i Hi; [lia|]. simpl in H.
  destruct (f lo tt) as [[]| |] eqn:E; simpl in H; try discriminate.
  destruct (Nat.eq_dec i lo); [now subst|]. apply (IHn (S lo)); auto. lia.
Qed.

Lemma zsorted_spec : forall l, zsorted l = true <->
  forall i j, i < j -> j < length l -> (nth i l 0 < nth j l 0)%Z.
Proof.
  induction l as [|x l IH]. { simpl. split; auto; intros; lia. }
  destruct l as [|y l].
  - simpl. split; auto. intros _ i j Hi Hj. simpl in Hj. lia.
  - change (zsorted (x :: y :: l)) with ((x <? y)%Z && zsorted (y :: l)).
    rewrite andb_true_iff, IH, Z.ltb_lt. split.
    + intros (H1 & H2) i j Hij Hj. destruct j; [lia|]. destruct i.
      * change (x < nth j (y :: l) 0)%Z. destruct j; auto.
        specialize (H2 0 (S j) ltac:(lia)). simpl in *. specialize (H2 ltac:(lia)). lia.
      * apply H2; simpl in *; lia.
    + intros H. split.
      * apply (H 0 1); simpl; lia.
      * intros i j Hij Hj. apply (H (S i) (S j)); simpl in *; lia.
Qed.

Lemma zge_false : forall x n, zge x n = false <-> (0 <= x < Z.of_nat n)%Z.
Proof. intros. unfold zge. rewrite orb_false_iff, Z.ltb_ge, Z.leb_gt. lia. Qed.
Lemma zgt_false : forall x n, zgt x n = false <-> (0 <= x <= Z.of_nat n)%Z.
Proof. intros. unfold zgt. rewrite orb_false_iff, !Z.ltb_ge. lia. Qed.

Section V.
  Variable A : ZCS.
  Local Notation "'S_' i" := (nth i (zstart A) 0%Z) (at level 10, i at level 9).
  Local Notation "'I_' i" := (nth i (zind A) 0%Z) (at level 10, i at level 9).

  Definition srt (i : nat) : Prop := forall k l,
    (S_ i <= Z.of_nat k)%Z -> k < l -> (Z.of_nat l < S_ (S i))%Z -> (I_ k < I_ l)%Z.
  Definition rng (i : nat) : Prop := forall k, (S_ i <= Z.of_nat k < S_ (S i))%Z -> (0 <= I_ k < Z.of_nat (zs A))%Z.

  Lemma srt_slice : forall i, (0 <= S_ i <= S_ (S i))%Z -> (S_ (S i) <= Z.of_nat (length (zind A)))%Z ->
    (zsorted (slice (Z.to_nat (S_ i)) (Z.to_nat (S_ (S i)) - Z.to_nat (S_ i)) (zind A)) = true <-> srt i).
  Proof.
    intros i H0 H1. rewrite zsorted_spec. rewrite slice_length by lia. split.
    - intros H k l Hk Hkl Hl.
      specialize (H (k - Z.to_nat (S_ i)) (l - Z.to_nat (S_ i)) ltac:(lia) ltac:(lia)).
      rewrite !nth_slice in H by lia.
      replace (Z.to_nat (S_ i) + (k - Z.to_nat (S_ i))) with k in H by lia.
      replace (Z.to_nat (S_ i) + (l - Z.to_nat (S_ i))) with l in H by lia. auto.
    - intros H a b Hab Hb. rewrite !nth_slice by lia. apply H; lia.
  Qed.

  Lemma zrange_ok : forall i, S i < length (zstart A) -> (0 <= S_ i <= S_ (S i))%Z ->
    (S_ (S i) <= Z.of_nat (length (zind A)))%Z ->
    zrange A i = Ok (Z.to_nat (S_ i), Z.to_nat (S_ (S i))).
  Proof.
    intros i Hl H0 H1. unfold zrange. rewrite !(get_nth _ _ _ 0%Z) by lia. cbn [bind].
    replace (0 <=? S_ i)%Z with true by (symmetry; apply Z.leb_le; lia).
    replace (S_ i <=? S_ (S i))%Z with true by (symmetry; apply Z.leb_le; lia).
    replace (S_ (S i) <=? Z.of_nat (length (zind A)))%Z with true by (symmetry; apply Z.leb_le; lia).
    reflexivity.
  Qed.

  Lemma zrange_inv : forall i b e, zrange A i = Ok (b, e) ->
    S i < length (zstart A) /\ (0 <= S_ i <= S_ (S i))%Z /\ (S_ (S i) <= Z.of_nat (length (zind A)))%Z /\
    b = Z.to_nat (S_ i) /\ e = Z.to_nat (S_ (S i)).
  Proof.
    intros i b e H. unfold zrange in H.
    destruct (get (zstart A) i) as [x| |] eqn:E1; try discriminate.
    destruct (get (zstart A) (S i)) as [y| |] eqn:E2; try discriminate. simpl in H.
    apply get_ok in E1. apply get_ok in E2. destruct E1 as [L1 E1]. destruct E2 as [L2 E2].
    destruct ((0 <=? x) && (x <=? y) && (y <=? Z.of_nat (length (zind A))))%Z eqn:E; [|discriminate].
    apply andb_prop in E. destruct E as [E E3]. apply andb_prop in E. destruct E as [E4 E5].
    inversion H; subst. rewrite !E1, !E2. apply Z.leb_le in E3, E4, E5. repeat split; auto; lia.
  Qed.

  Lemma mono_le : zmono A -> forall i j, i <= j -> j < length (zstart A) -> (S_ i <= S_ j)%Z.
  Proof.
    intros M i j H. induction H; intros; [lia|]. specialize (IHle ltac:(lia)). specialize (M m ltac:(lia)). lia.
  Qed.

  Lemma rng_all : (forall i, i < zp A -> rng i) -> S_ 0 = 0%Z ->
    (forall i, i < zp A -> (S_ i <= S_ (S i))%Z) ->
    forall k, (Z.of_nat k < S_ (zp A))%Z -> (0 <= I_ k < Z.of_nat (zs A))%Z.
  Proof.
    intros H H0 M k Hk.
    assert (G : forall n, n <= zp A -> (Z.of_nat k < S_ n)%Z -> (0 <= I_ k < Z.of_nat (zs A))%Z).
    { induction n; intros Hn Hk'. { rewrite H0 in Hk'. lia. }
      destruct (Z_lt_le_dec (Z.of_nat k) (S_ n)).
      - apply IHn; auto. lia.
      - apply (H n); lia. }
    apply (G (zp A)); auto.
  Qed.

  (** Each test of [check_validity] is decided correctly. *)
  Lemma check_decides : zdef A = true -> length (zstart A) <= zp A + 1 -> zmono A ->
    (check_validity A = Ok tt /\ zvalid A) \/ (check_validity A = Err /\ ~ zvalid A).
  Proof.
    intros D L M. unfold check_validity. rewrite D. cbn [negb].
    destruct (Nat.ltb_spec (length (zstart A)) (zp A + 1)).
    { right. split; auto. intros V. pose proof (zv_len A V). lia. }
    assert (LE : length (zstart A) = zp A + 1) by lia.
    rewrite (get_nth _ _ 0 0%Z) by lia. cbn [bind].
    destruct (Z.eqb_spec (S_ 0) 0) as [F|F]; cbn [negb].
    2:{ right. split; auto. intros V. apply F. apply V. }
    rewrite (get_nth _ _ _ 0%Z) by lia. cbn [bind].
    rewrite LE. replace (zp A + 1 - 1) with (zp A) by lia. rewrite F, Z.sub_0_r.
    pose proof (mono_le M 0 (zp A) ltac:(lia) ltac:(lia)) as M0.
    destruct (zgt (S_ (zp A)) (length (zind A))) eqn:E1; cbn [orb].
    { right. split; auto. intros V. pose proof (zv_inds A V).
      assert (zgt (S_ (zp A)) (length (zind A)) = false) by (apply zgt_false; lia). congruence. }
    destruct (zgt (S_ (zp A)) (znv A)) eqn:E2; cbn [orb].
    { right. split; auto. intros V. pose proof (zv_vals A V).
      assert (zgt (S_ (zp A)) (znv A) = false) by (apply zgt_false; lia). congruence. }
    apply zgt_false in E1, E2.
    assert (FR : forall f, for_range 0 (zp A) f tt = for_n 0 (zp A) f tt) by (intros; unfold for_range; now rewrite Nat.sub_0_r).
    rewrite !FR. clear FR.
    match goal with |- (for_n 0 _ ?f tt = _ /\ _) \/ _ =>
      destruct (for_test (zp A) 0 f (fun i => srt i /\ rng i)) as [[E H1]|[E (i & Hi & H1)]] end.
    - intros i Hi.
      assert (M1 : (0 <= S_ i <= S_ (S i))%Z).
      { pose proof (mono_le M 0 i ltac:(lia) ltac:(lia)). pose proof (M i ltac:(lia)). lia. }
      assert (M2 : (S_ (S i) <= Z.of_nat (length (zind A)))%Z).
      { pose proof (mono_le M (S i) (zp A) ltac:(lia) ltac:(lia)). lia. }
      rewrite zrange_ok by (auto; lia). cbn [bind].
      destruct (zsorted _) eqn:ES; cbn [negb].
      + apply srt_slice in ES; auto. unfold for_range.
        match goal with |- (for_n ?lo ?n ?f tt = _ /\ _) \/ _ =>
          destruct (for_test n lo f (fun k => (0 <= I_ k < Z.of_nat (zs A))%Z)) as [[E H1]|[E (k & Hk & H1)]] end.
        * intros k Hk. rewrite (get_nth _ _ _ 0%Z) by lia. cbn [bind].
          destruct (zge (I_ k) (zs A)) eqn:EG.
          -- right. split; auto. intros G. apply zge_false in G. congruence.
          -- left. split; auto. now apply zge_false.
        * left. split; auto. split; auto. intros k Hk. apply H1. lia.
        * right. split; auto. intros (_ & R). apply H1. apply R. lia.
      + right. split; auto. intros (R & _). apply srt_slice in R; auto. congruence.
    - left. split; auto. split; auto; try lia.
      + intros i Hi. apply M. lia.
      + intros i k l Hi. destruct (H1 i ltac:(lia)) as [Q _]. apply Q.
      + apply rng_all; auto. { intros i Hi. destruct (H1 i ltac:(lia)) as [_ Q]. exact Q. } intros i Hi. apply M. lia.
    - right. split; [exact E|]. intros V. apply H1. split.
      + intros k l. apply (zv_sorted A V). lia.
      + intros k Hk. apply (zv_range A V).
        pose proof (mono_le M (S i) (zp A) ltac:(lia) ltac:(lia)). lia.
  Qed.

  (** Acceptance alone, without the assumption on the start array. *)
  Lemma check_sound : zdef A = true -> length (zstart A) = zp A + 1 -> check_validity A = Ok tt -> zvalid A.
  Proof.
    intros D L H. assert (M : zmono A).
    { unfold check_validity in H. rewrite D in H. cbn [negb] in H.
      destruct (length (zstart A) <? zp A + 1); [discriminate|].
      destruct (get (zstart A) 0) as [f| |]; simpl in H; try discriminate.
      destruct (negb (f =? 0)%Z); [discriminate|].
      destruct (get (zstart A) (length (zstart A) - 1)) as [l| |]; simpl in H; try discriminate.
      destruct (_ || _); [discriminate|]. unfold for_range at 1 in H. rewrite Nat.sub_0_r in H.
      intros i Hi. pose proof (for_test_ok _ _ _ H i ltac:(lia)) as Hf. cbn beta in Hf.
      destruct (zrange A i) as [[b e]| |] eqn:E; simpl in Hf; try discriminate.
      apply zrange_inv in E. lia. }
    destruct (check_decides D ltac:(lia) M) as [[_ V]|[E _]]; auto. congruence.
  Qed.

  Lemma wrap_decides : length (zstart A) = zp A + 1 -> zmono A ->
    (S_ (zp A) <= Z.of_nat (length (zind A)))%Z -> (S_ (zp A) <= Z.of_nat (znv A))%Z ->
    (forall k, k < length (zind A) -> (0 <= I_ k)%Z) ->
    (wrap_check (zp A) A = Ok tt /\ zvalid A) \/ (wrap_check (zp A) A = Err /\ ~ zvalid A).
  Proof.
    intros LE M E1 E2 NN. unfold wrap_check.
    rewrite (get_nth _ _ 0 0%Z) by lia. cbn [bind]. rewrite (get_nth _ _ _ 0%Z) by lia. cbn [bind].
    destruct (Z.eqb_spec (S_ 0) 0) as [F|F]; cbn [negb].
    2:{ right. split; auto. intros V. apply F. apply V. }
    assert (FR : forall f, for_range 0 (zp A) f tt = for_n 0 (zp A) f tt) by (intros; unfold for_range; now rewrite Nat.sub_0_r).
    rewrite !FR. clear FR.
    match goal with |- (for_n 0 _ ?f tt = _ /\ _) \/ _ =>
      destruct (for_test (zp A) 0 f (fun i => srt i /\ rng i)) as [[E H1]|[E (i & Hi & H1)]] end.
    - intros i Hi.
      assert (M1 : (0 <= S_ i <= S_ (S i))%Z).
      { pose proof (mono_le M 0 i ltac:(lia) ltac:(lia)). pose proof (M i ltac:(lia)). lia. }
      assert (M2 : (S_ (S i) <= Z.of_nat (length (zind A)))%Z).
      { pose proof (mono_le M (S i) (zp A) ltac:(lia) ltac:(lia)). lia. }
      rewrite !(get_nth _ _ _ 0%Z) by lia. cbn [bind].
      destruct (Z.eqb_spec (S_ i) (S_ (S i))) as [EQ|NE].
      { left. split; auto. split; [intros k l ? ? ?|intros k ?]; lia. }
      rewrite zrange_ok by (auto; lia). cbn [bind].
      destruct (zsorted _) eqn:ES; cbn [negb].
      + apply srt_slice in ES; auto. rewrite (get_nth _ _ _ 0%Z) by lia. cbn [bind].
        destruct (zge (I_ (Z.to_nat (S_ (S i)) - 1)) (zs A)) eqn:EG.
        * right. split; auto. intros (_ & R). specialize (R (Z.to_nat (S_ (S i)) - 1) ltac:(lia)).
          apply zge_false in R. congruence.
        * apply zge_false in EG. left. split; auto. split; auto. intros k Hk. split; [apply NN; lia|].
          destruct (Nat.eq_dec k (Z.to_nat (S_ (S i)) - 1)) as [->|N]; [lia|].
          pose proof (ES k (Z.to_nat (S_ (S i)) - 1) ltac:(lia) ltac:(lia) ltac:(lia)). lia.
      + right. split; auto. intros (R & _). apply srt_slice in R; auto. congruence.
    - left. split; auto. split; auto; try lia.
      + intros i Hi. apply M. lia.
      + intros i k l Hi. destruct (H1 i ltac:(lia)) as [Q _]. apply Q.
      + apply rng_all; auto. { intros i Hi. destruct (H1 i ltac:(lia)) as [_ Q]. exact Q. } intros i Hi. apply M. lia.
    - right. split; [exact E|]. intros V. apply H1. split.
      + intros k l. apply (zv_sorted A V). lia.
      + intros k Hk. apply (zv_range A V).
        pose proof (mono_le M (S i) (zp A) ltac:(lia) ltac:(lia)). lia.
  Qed.

  Lemma zvalid_valid : forall (O : Ops) (vals : list (T O)), length vals = znv A -> zvalid A -> valid (zcs A vals).
  Proof.
    intros O vals LV V.
    assert (SN : forall i, nth i (map Z.to_nat (zstart A)) 0 = Z.to_nat (S_ i)).
    { intros i. change 0 with (Z.to_nat 0) at 1. now rewrite map_nth. }
    assert (IN : forall i, nth i (map Z.to_nat (zind A)) 0 = Z.to_nat (I_ i)).
    { intros i. change 0 with (Z.to_nat 0) at 1. now rewrite map_nth. }
    assert (M : zmono A). { intros i Hi. rewrite (zv_len A V) in Hi. apply V. lia. }
    pose proof (zv_len A V) as LE.
    assert (P : forall i, i <= zp A -> (0 <= S_ i)%Z).
    { intros i Hi. pose proof (mono_le M 0 i ltac:(lia) ltac:(lia)) as X. rewrite (zv_first A V) in X. auto. }
    split.
    - split; unfold st, ix; simpl.
      + rewrite map_length. lia.
      + rewrite SN, (zv_first A V). reflexivity.
      + intros i Hi. rewrite !SN. pose proof (zv_mono A V i Hi). lia.
      + rewrite SN, map_length. pose proof (zv_inds A V). lia.
      + rewrite SN, LV. pose proof (zv_vals A V). lia.
      + intros k Hk. rewrite SN in Hk. rewrite IN. pose proof (zv_range A V k ltac:(lia)). lia.
    - intros i k l Hi Hk Hkl Hl. unfold st, ix in *. simpl in *. rewrite SN in Hk, Hl. rewrite !IN.
      pose proof (P i ltac:(lia)). pose proof (P (S i) ltac:(lia)).
      pose proof (zv_sorted A V i k l Hi ltac:(lia) Hkl ltac:(lia)).
      pose proof (mono_le M (S i) (zp A) ltac:(lia) ltac:(lia)).
      pose proof (zv_range A V k ltac:(lia)). lia.
  Qed.
End V.
