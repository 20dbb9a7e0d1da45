(** * Proofs for VecModel. *)
From Coq Require Import List Arith Lia Bool Permutation.
From Verif Require Import Base Scalar Spec Mag VecModel VecSpec.
Import ListNotations.

Lemma firstn_upd_lt : forall X (l : list X) i n v, i < n -> firstn n (upd l i v) = upd (firstn n l) i v.
Proof.
  induction l; intros i n v H; simpl. now rewrite firstn_nil. destruct n; [lia|]. destruct i; simpl; auto.
  f_equal. apply IHl. lia.
Qed.
Lemma NoDup_app_remove_r : forall X (l1 l2 : list X), NoDup (l1 ++ l2) -> NoDup l1.
Proof.
  induction l1; simpl; intros l2 H; constructor; inversion H; subst.
  - intros K. apply H2. apply in_or_app; auto.
  - eauto.
Qed.

(** ** swap *)
Lemma swap_ok : forall X (a : list X) i j d, i < length a -> j < length a ->
  swap a i j = Ok (upd (upd a i (nth j a d)) j (nth i a d)).
Proof.
  intros. unfold swap. rewrite (get_nth _ _ _ d H), (get_nth _ _ _ d H0). simpl.
  rewrite set_ok by auto. simpl. rewrite set_ok by (rewrite upd_length; auto). auto.
Qed.

Lemma nth_swap : forall X (a : list X) i j d k, i < length a -> j < length a ->
  nth k (upd (upd a i (nth j a d)) j (nth i a d)) d =
  if k =? j then nth i a d else if k =? i then nth j a d else nth k a d.
Proof.
  intros. rewrite nth_upd by (rewrite upd_length; auto). rewrite nth_upd by auto. auto.
Qed.

Lemma swap_length : forall X (a b : list X) i j, swap a i j = Ok b -> length b = length a.
Proof.
  intros X a b i j H. unfold swap in H. destruct (get a i) eqn:E1; try discriminate. destruct (get a j) eqn:E2; try discriminate.
  simpl in H. apply get_ok in E1, E2. rewrite set_ok in H by tauto. simpl in H.
  rewrite set_ok in H by (rewrite upd_length; tauto). inversion H. rewrite !upd_length. auto.
Qed.

Lemma swap_perm : forall X (a : list X) i j d, i < length a -> j < length a ->
  Permutation a (upd (upd a i (nth j a d)) j (nth i a d)).
Proof.
  intros X a i j d Hi Hj. apply (Permutation_nth _ _ d). cbv zeta. rewrite !upd_length. split; auto.
  exists (fun k => if k =? j then i else if k =? i then j else k). split; [|split].
  - intros k Hk. destruct (k =? j); auto. destruct (k =? i); auto.
  - intros x y Hx Hy. destruct (Nat.eqb_spec x j), (Nat.eqb_spec y j), (Nat.eqb_spec x i), (Nat.eqb_spec y i); lia.
  - intros x Hx. rewrite nth_swap by auto. destruct (x =? j); auto. destruct (x =? i); auto.
Qed.

(** ** permutations *)
Lemma is_perm_NoDup : forall n p, is_perm n p -> NoDup p.
Proof.
  intros n p (L & R & I). apply (NoDup_nth p 0). rewrite L. intros; auto.
Qed.
Lemma is_perm_Permutation : forall n p, is_perm n p <-> Permutation (seq 0 n) p.
Proof.
  intros n p. split.
  - intros H. pose proof (is_perm_NoDup _ _ H) as ND. destruct H as (L & R & I). symmetry.
    apply NoDup_Permutation_bis; auto. rewrite seq_length; lia.
    intros x Hx. apply In_nth with (d := 0) in Hx. destruct Hx as (k & Hk & <-). apply in_seq.
    rewrite L in Hk. specialize (R _ Hk). lia.
  - intros H. pose proof (Permutation_length H) as L. rewrite seq_length in L.
    split; [auto|split].
    + intros i Hi. assert (In (nth i p 0) (seq 0 n)). { eapply Permutation_in. symmetry; eauto. apply nth_In; lia. }
      apply in_seq in H0. lia.
    + intros i j Hi Hj E. apply (NoDup_nth p 0); auto; try lia. eapply Permutation_NoDup; eauto. apply seq_NoDup.
Qed.
Lemma is_perm_surj : forall n p k, is_perm n p -> k < n -> exists i, i < n /\ nth i p 0 = k.
Proof.
  intros n p k H Hk. pose proof H as (L & _). apply is_perm_Permutation in H.
  assert (Hin : In k p). { eapply Permutation_in; eauto. apply in_seq. lia. }
  apply In_nth with (d := 0) in Hin. destruct Hin as (i & Hi & E). exists i. split; auto; lia.
Qed.

Lemma build_inv_l : forall n P, is_perm n (bp P) -> length (bpi P) = n ->
  exists P', build_inv P = Ok P' /\ bp P' = bp P /\ is_inv n (bp P') (bpi P').
Proof.
  intros n P (L & R & I) Li.
  assert (W : wp (build_inv P) (fun P' => bp P' = bp P /\ is_inv n (bp P') (bpi P'))).
  { unfold build_inv. wpb. eapply wp_conseq.
    { apply (for_range_inv _ (fun k pi => length pi = n /\ forall i, i < k -> nth (nth i (bp P) 0) pi 0 = i)).
      - lia.
      - split; auto. intros; lia.
      - intros i pi Hi (Lp & Hp). wpb. apply wp_get with (d := 0); [lia|]. rewrite L in Hi. specialize (R i ltac:(lia)).
        apply wp_set; [lia|]. rewrite upd_length. split; auto. intros k Hk. rewrite nth_upd by lia.
        destruct (Nat.eqb_spec (nth k (bp P) 0) (nth i (bp P) 0)).
        + apply I in e; try lia.
        + assert (k <> i) by (intros ->; auto). apply Hp. lia. }
    intros pi (Lp & Hp). simpl. rewrite L in Hp. split; auto. split; [auto|split; [auto|split]].
    - intros i Hi. split; auto.
    - intros k Hk. destruct (is_perm_surj n (bp P) k) as (i & Hi & E); [repeat split; auto|auto|].
      rewrite <- E. rewrite Hp by auto. auto. }
  apply wp_inv in W. destruct W as (P' & ? & ? & ?). eauto.
Qed.

Lemma interchange_l : forall n P i j, is_inv n (bp P) (bpi P) -> i < n -> j < n ->
  exists P', interchange P i j = Ok P' /\ is_inv n (bp P') (bpi P') /\
    nth i (bp P') 0 = nth j (bp P) 0 /\ nth j (bp P') 0 = nth i (bp P) 0 /\
    forall k, k <> i -> k <> j -> nth k (bp P') 0 = nth k (bp P) 0.
Proof.
  intros n [p q] i j (L1 & L2 & H1 & H2) Hi Hj. simpl in *. unfold interchange; simpl.
  rewrite (swap_ok _ p i j 0) by lia. simpl.
  rewrite !get_nth with (d := 0) by (rewrite !upd_length; lia). simpl.
  assert (Ea : nth i (upd (upd p i (nth j p 0)) j (nth i p 0)) 0 = nth j p 0).
  { rewrite nth_swap by lia. rewrite Nat.eqb_refl. destruct (Nat.eqb_spec i j); subst; auto. }
  assert (Eb : nth j (upd (upd p i (nth j p 0)) j (nth i p 0)) 0 = nth i p 0).
  { rewrite nth_swap by lia. now rewrite Nat.eqb_refl. }
  rewrite Eb. rewrite Ea. rewrite (swap_ok _ q _ _ 0) by (rewrite L2; apply H1; auto). simpl.
  eexists. split; [reflexivity|]. simpl. split; [|split; [|split]].
  2:{ rewrite nth_swap by lia. rewrite Nat.eqb_refl. destruct (Nat.eqb_spec i j); subst; auto. }
  2:{ rewrite nth_swap by lia. rewrite Nat.eqb_refl. auto. }
  2:{ intros k Hk1 Hk2. rewrite nth_swap by lia. destruct (Nat.eqb_spec k j), (Nat.eqb_spec k i); lia. }
  destruct (H1 i Hi) as (Ri & Ii), (H1 j Hj) as (Rj & Ij).
  split; [rewrite !upd_length; auto|split; [rewrite !upd_length; auto|split]].
  - intros k Hk. destruct (H1 k Hk) as (Rk & Ik). rewrite !nth_swap by lia.
    destruct (Nat.eqb_spec k j), (Nat.eqb_spec k i); subst; split; auto;
      repeat (match goal with |- context[if ?x =? ?y then _ else _] => destruct (Nat.eqb_spec x y) end); try congruence; try lia.
  - intros k Hk. destruct (H2 k Hk) as (Rk & Ik). rewrite !nth_swap by lia.
    destruct (Nat.eqb_spec k (nth i p 0)), (Nat.eqb_spec k (nth j p 0)); subst; 
      repeat (match goal with |- context[if ?x =? ?y then _ else _] => destruct (Nat.eqb_spec x y) end);
      try split; try congruence; try lia; auto.
Qed.

Lemma interchange_inv_eq : forall P i j,
  interchange_inv P i j = match interchange (mkBP (bpi P) (bp P)) i j with
                          | Ok Q => Ok (mkBP (bpi Q) (bp Q)) | Err => Err | UB => UB end.
Proof.
  intros [p q] i j. unfold interchange_inv, interchange; simpl.
  destruct (swap q i j); simpl; auto. destruct (get a i); simpl; auto. destruct (get a j); simpl; auto.
  destruct (swap p a0 a1); simpl; auto.
Qed.

Lemma make_eye_l : forall p, make_eye p = Ok (seq 0 (length p)).
Proof.
  intros p. unfold make_eye.
  assert (W : wp (for_range 0 (length p) (fun i p => set p i i) p)
              (fun q => length q = length p /\ forall i, i < length p -> nth i q 0 = i)).
  { eapply wp_conseq. { apply (for_range_inv _ (fun k q => length q = length p /\ forall i, i < k -> nth i q 0 = i)).
    - lia. - split; auto. intros; lia.
    - intros i q Hi (Lq & Hq). apply wp_set; [lia|]. rewrite upd_length. split; auto.
      intros k Hk. rewrite nth_upd by lia. destruct (Nat.eqb_spec k i); auto. apply Hq; lia. }
    intros q (? & ?). auto. }
  apply wp_inv in W. destruct W as (q & -> & Lq & Hq). f_equal. apply (list_ext _ _ _ 0).
  - now rewrite seq_length.
  - intros i Hi. rewrite Hq by lia. rewrite seq_nth by lia. auto.
Qed.

Lemma bi_make_eye_l : forall n P, length (bp P) = n -> length (bpi P) = n ->
  bi_make_eye P = Ok (mkBP (seq 0 n) (seq 0 n)).
Proof.
  intros n P L1 L2. unfold bi_make_eye. rewrite make_eye_l, L1. simpl. rewrite seq_length, L2, Nat.leb_refl.
  rewrite skipn_all2 by lia. now rewrite app_nil_r.
Qed.

Lemma is_sorted_nth : forall p, is_sorted p = true <-> forall i, S i < length p -> nth i p 0 <= nth (S i) p 0.
Proof.
  induction p as [|a [|b p] IH].
  - simpl. split; auto. intros; lia.
  - simpl. split; auto. intros; lia.
  - change (is_sorted (a :: b :: p)) with (negb (b <? a) && is_sorted (b :: p)).
    rewrite andb_true_iff, IH, negb_true_iff, Nat.ltb_ge. split.
    + intros (H1 & H2) i Hi. destruct i; [exact H1|]. apply (H2 i). simpl in *. lia.
    + intros H. split. apply (H 0). simpl; lia. intros i Hi. apply (H (S i)). simpl in *. lia.
Qed.

Lemma is_eye_l : forall n p, is_perm n p -> (is_eye p = true <-> p = seq 0 n).
Proof.
  intros n p (L & R & I). split.
  - intros H.
    destruct p as [|a p]. { subst n. reflexivity. }
    unfold is_eye in H. apply andb_prop in H. destruct H as [H0 Hs]. apply Nat.eqb_eq in H0.
    rewrite is_sorted_nth in Hs.
    assert (Hge : forall i, i < n -> i <= nth i (a :: p) 0).
    { induction i; intros Hi; [lia|]. specialize (IHi ltac:(lia)). specialize (Hs i ltac:(lia)).
      destruct (Nat.eq_dec (nth i (a :: p) 0) (nth (S i) (a :: p) 0)) as [E|E]; [|lia].
      apply I in E; lia. }
    assert (Hle : forall k i, n - i <= k -> i < n -> nth i (a :: p) 0 <= i).
    { induction k; intros i Hk Hi; [lia|]. specialize (R i Hi).
      destruct (Nat.eq_dec (S i) n) as [E|E]; [lia|].
      specialize (IHk (S i) ltac:(lia) ltac:(lia)). pose proof (Hs i ltac:(lia)) as Hsi.
      destruct (Nat.eq_dec (nth i (a :: p) 0) (nth (S i) (a :: p) 0)) as [E'|E']; [|lia].
      apply I in E'; lia. }
    apply (list_ext _ _ _ 0). rewrite seq_length; auto. intros i Hi. rewrite seq_nth by lia.
    rewrite L in Hi. specialize (Hge i Hi). specialize (Hle n i ltac:(lia) Hi). lia.
  - intros ->. destruct n; [reflexivity|]. change (is_sorted (seq 0 (S n)) = true). apply is_sorted_nth. intros i Hi.
    rewrite seq_length in Hi. rewrite !seq_nth by lia. lia.
Qed.

(** ** Accumulator *)
Lemma firsts_snoc : forall l x, firsts (l ++ [x]) = if in_dec Nat.eq_dec x l then firsts l else firsts l ++ [x].
Proof.
  intros. unfold firsts. rewrite rev_unit. simpl.
  destruct (in_dec Nat.eq_dec x (rev l)), (in_dec Nat.eq_dec x l); auto.
  - exfalso. apply n. now apply in_rev.
  - exfalso. apply n. now apply -> in_rev.
Qed.
Lemma in_firsts : forall l x, In x (firsts l) <-> In x l.
Proof. intros. unfold firsts. rewrite <- in_rev, nodup_In, <- in_rev. tauto. Qed.
Lemma firsts_nodup : forall l, NoDup (firsts l).
Proof. intros. unfold firsts. apply NoDup_rev. apply NoDup_nodup. Qed.

Lemma bounded_nodup_length : forall n l, NoDup l -> (forall i, In i l -> i < n) -> length l <= n.
Proof.
  intros n l ND H. rewrite <- (seq_length n 0). apply NoDup_incl_length; auto.
  intros x Hx. apply in_seq. specialize (H x Hx). lia.
Qed.

Section S.
  Context {O : Ops}.
  Notation SV := (SV O).

  Definition tag (v : SV) (i : nat) : option nat := nth i (sv_dtags v) None.

  (** State while pushing with tag [step]; [old] describes the tags at reset. *)
  Record pushing (n step : nat) (v0 : SV) (pre : list nat) (v : SV) : Prop := mk_pushing {
    pu_vals : sv_vals v = sv_vals v0;
    pu_stags : sv_stags v = sv_stags v0;
    pu_inds : length (sv_inds v) = n;
    pu_tags : length (sv_dtags v) = n;
    pu_held : held v = firsts pre;
    pu_cnt : sv_cnt v = length (firsts pre);
    pu_tag : forall i, i < n -> tag v i = if in_dec Nat.eq_dec i pre then Some step else tag v0 i }.

  Lemma held_snoc : forall (v : SV) x, sv_cnt v < length (sv_inds v) ->
    firstn (S (sv_cnt v)) (upd (sv_inds v) (sv_cnt v) x) = held v ++ [x].
  Proof.
    intros v x H. unfold held. generalize dependent (sv_cnt v). intros c Hc. revert c Hc.
    induction (sv_inds v); intros c Hc; simpl in *; [lia|].
    destruct c; simpl; auto. f_equal. apply IHl. lia.
  Qed.

  Lemma push_l : forall n step v0 pre v i, i < n -> (forall j, In j pre -> j < n) ->
    (forall j, j < n -> tag v0 j <> Some step) ->
    pushing n step v0 pre v ->
    exists v', sv_push v i step = Ok (if in_dec Nat.eq_dec i pre then false else true, v') /\
      pushing n step v0 (pre ++ [i]) v'.
  Proof.
    intros n step v0 pre v i Hi Hpre Hfresh H. destruct H.
    unfold sv_push. rewrite get_nth with (d := None) by lia. fold (tag v i). simpl.
    pose proof (pu_tag0 i Hi) as Ti. rewrite Ti. destruct (in_dec Nat.eq_dec i pre) as [I|I].
    - rewrite Nat.eqb_refl. exists v. split; auto. split; auto.
      + rewrite firsts_snoc. destruct (in_dec Nat.eq_dec i pre); tauto.
      + rewrite firsts_snoc. destruct (in_dec Nat.eq_dec i pre); tauto.
      + intros j Hj. rewrite pu_tag0 by auto.
        destruct (in_dec Nat.eq_dec j pre), (in_dec Nat.eq_dec j (pre ++ [i])); auto.
        * exfalso. match goal with H : ~ In _ (_ ++ _) |- _ => apply H | H : ~ In _ _ |- _ => apply H end. apply in_or_app; auto.
        * apply in_app_or in i0. destruct i0 as [?|[->|[]]]; tauto.
    - assert (NE : (match tag v0 i with Some s => s =? step | None => false end) = false).
      { specialize (Hfresh i Hi). destruct (tag v0 i); auto. apply Nat.eqb_neq. congruence. }
      rewrite NE. unfold sv_push1.
      assert (Hc : sv_cnt v < n).
      { rewrite pu_cnt0. assert (length (firsts pre ++ [i]) <= n).
        { apply bounded_nodup_length.
          - eapply Permutation_NoDup. apply Permutation_cons_append. constructor; [|apply firsts_nodup]. intros K; apply I. now apply in_firsts.
          - intros j Hj. apply in_app_or in Hj. destruct Hj as [Hj|[<-|[]]]; auto. apply Hpre. now apply in_firsts. }
        rewrite app_length in H. simpl in H. lia. }
      rewrite set_ok by lia. simpl. rewrite set_ok by lia. simpl.
      eexists. split; [reflexivity|]. split; simpl; auto.
      + now rewrite upd_length.
      + now rewrite upd_length.
      + unfold held; simpl sv_cnt; simpl sv_inds. rewrite held_snoc by lia. rewrite pu_held0, firsts_snoc.
        destruct (in_dec Nat.eq_dec i pre); tauto.
      + rewrite firsts_snoc. destruct (in_dec Nat.eq_dec i pre); [tauto|]. rewrite app_length, pu_cnt0. simpl. lia.
      + intros j Hj. unfold tag; simpl. rewrite nth_upd by lia. fold (tag v j).
        destruct (Nat.eqb_spec j i).
        * subst. destruct (in_dec Nat.eq_dec i (pre ++ [i])); auto. exfalso. match goal with H : ~ In _ (_ ++ _) |- _ => apply H | H : ~ In _ _ |- _ => apply H end. apply in_or_app; simpl; auto.
        * rewrite pu_tag0 by auto. destruct (in_dec Nat.eq_dec j pre), (in_dec Nat.eq_dec j (pre ++ [i])); auto.
          -- exfalso. match goal with H : ~ In _ (_ ++ _) |- _ => apply H | H : ~ In _ _ |- _ => apply H end. apply in_or_app; auto.
          -- apply in_app_or in i0. destruct i0 as [?|[->|[]]]; tauto.
  Qed.

  Lemma pushing0 : forall n step v, sv_ok n v -> pushing n step (sv_reset v) [] (sv_reset v).
  Proof. intros n step v H. destruct H. split; simpl; auto. Qed.

  Lemma run_pushes_l : forall n step v l, sv_ok n v -> (forall j, In j l -> j < n) ->
    (forall j, j < n -> tag v j <> Some step) ->
    wp (run_pushes step l (sv_reset v)) (pushing n step (sv_reset v) l).
  Proof.
    intros n step v l H Hl Hf. unfold run_pushes.
    apply (for_list_inv _ _ (pushing n step (sv_reset v))).
    - now apply pushing0.
    - intros pre x post s E Hs. destruct (push_l n step (sv_reset v) pre s x) as (v' & E' & P'); auto.
      + apply Hl. rewrite E. apply in_or_app; simpl; auto.
      + intros j Hj. apply Hl. rewrite E. apply in_or_app; auto.
      + rewrite E'. simpl. auto.
  Qed.

  Lemma pushing_ok : forall n step v l v', sv_ok n v -> (forall j, In j l -> j < n) ->
    pushing n step (sv_reset v) l v' -> sv_ok n v'.
  Proof.
    intros n step v l v' H Hl P. destruct H, P; simpl in *.
    assert (sv_cnt v' <= n). { rewrite pu_cnt0. apply bounded_nodup_length. apply firsts_nodup. intros j Hj. apply Hl. now apply in_firsts. }
    split; auto; try congruence.
    - rewrite pu_held0. apply firsts_nodup.
    - intros i Hi. rewrite pu_held0 in Hi. apply Hl. now apply in_firsts.
  Qed.

  Lemma restore_l : forall n v, sv_ok n v ->
    wp (sv_restore v) (fun v' => sv_ok n v' /\ sv_vals v' = sv_vals v /\ held v' = held v /\
      forall i, i < n -> tag v' i = if in_dec Nat.eq_dec i (held v) then None else tag v i).
  Proof.
    intros n v H. pose proof H as K. destruct H as [so_vals0 so_inds0 so_cnt0 so_tags0 so_stags0 so_nodup0 so_range0]. unfold sv_restore. wpb. eapply wp_conseq.
    { apply (for_range_inv _ (fun k tags => length tags = n /\
        forall i, i < n -> nth i tags None = if in_dec Nat.eq_dec i (firstn k (sv_inds v)) then None else tag v i)).
      - lia.
      - split; auto.
      - intros k tags Hk (Lt & Ht). wpb. apply wp_get with (d := 0); [lia|].
        assert (R : nth k (sv_inds v) 0 < n).
        { apply so_range0. unfold held. rewrite <- (nth_firstn_lt _ (sv_cnt v)) by lia. apply nth_In.
          rewrite firstn_length. lia. }
        apply wp_set; [lia|]. rewrite upd_length. split; auto. intros i Hi. rewrite nth_upd by lia.
        assert (FS : firstn (S k) (sv_inds v) = firstn k (sv_inds v) ++ [nth k (sv_inds v) 0]).
        { clear -Hk so_inds0 so_cnt0. assert (k < length (sv_inds v)) by lia. clear Hk so_inds0 so_cnt0. revert k H.
          induction (sv_inds v); intros k H; simpl in H; [lia|]. destruct k; simpl; auto. f_equal. apply IHl. lia. }
        rewrite FS. destruct (Nat.eqb_spec i (nth k (sv_inds v) 0)).
        + destruct in_dec; auto. exfalso. match goal with H : ~ In _ (_ ++ _) |- _ => apply H | H : ~ In _ _ |- _ => apply H end. apply in_or_app; simpl; auto.
        + rewrite Ht by auto. destruct in_dec, in_dec; auto.
          * exfalso. match goal with H : ~ In _ (_ ++ _) |- _ => apply H | H : ~ In _ _ |- _ => apply H end. apply in_or_app; auto.
          * apply in_app_or in i0. destruct i0 as [?|[?|[]]]; [tauto|congruence]. }
    intros tags (Lt & Ht). simpl. repeat split; simpl; auto.
  Qed.

  Definition fresh_for (n : nat) (v : SV) (h : list phase) : Prop :=
    forall i s, i < n -> tag v i = Some s -> forall ph, In ph h -> ph_step ph <> s.

  Lemma run_phase_l : forall n ph v, sv_ok n v -> (forall j, In j (ph_push ph) -> j < n) ->
    (forall j, j < n -> tag v j <> Some (ph_step ph)) ->
    wp (run_phase ph v) (fun v' => sv_ok n v' /\ sv_vals v' = sv_vals v /\ held v' = firsts (ph_push ph) /\
      forall i, i < n -> tag v' i = if in_dec Nat.eq_dec i (ph_push ph)
        then (if ph_restore ph then None else Some (ph_step ph)) else tag v i).
  Proof.
    intros n ph v H Hl Hf. unfold run_phase. wpb. eapply wp_conseq. { apply (run_pushes_l n); auto. }
    intros v1 P1. pose proof (pushing_ok _ _ _ _ _ H Hl P1) as K1. destruct P1; simpl in *.
    destruct (ph_restore ph).
    - eapply wp_conseq. { apply (restore_l n); auto. } intros v2 (K2 & V2 & H2 & T2).
      split; auto. split; [congruence|]. split; [congruence|]. intros i Hi. rewrite T2, pu_held0 by auto.
      rewrite pu_tag0 by auto.
      destruct (in_dec Nat.eq_dec i (firsts (ph_push ph))), (in_dec Nat.eq_dec i (ph_push ph)); auto.
      + exfalso. match goal with H : ~ In _ (_ ++ _) |- _ => apply H | H : ~ In _ _ |- _ => apply H end. now apply in_firsts.
      + exfalso. match goal with H : ~ In _ (_ ++ _) |- _ => apply H | H : ~ In _ _ |- _ => apply H end. now apply in_firsts.
    - simpl. split; auto.
  Qed.

  Lemma run_phases_l : forall n h v, sv_ok n v -> tags_ok h -> fresh_for n v h ->
    (forall ph j, In ph h -> In j (ph_push ph) -> j < n) ->
    wp (run_phases h v) (fun v' => sv_ok n v' /\ sv_vals v' = sv_vals v /\
      (h = [] -> v' = v) /\ forall d, h <> [] -> held v' = firsts (ph_push (last h d))).
  Proof.
    intros n. induction h as [|ph h IH]; intros v H HT HF HR.
    - simpl. repeat split; auto; try apply H. tauto.
    - unfold run_phases. cbn [for_list]. wpb. destruct HT as (HT1 & HT2).
      eapply wp_conseq. { apply (run_phase_l n); auto.
        - intros j Hj. apply (HR ph); simpl; auto.
        - intros j Hj E. apply (HF j _ Hj E ph); simpl; auto. }
      intros v1 (K1 & V1 & H1 & T1).
      eapply wp_conseq. { apply IH; auto.
        - intros i s Hi E ph' Hph'. rewrite T1 in E by auto. destruct (in_dec Nat.eq_dec i (ph_push ph)).
          + destruct HT1 as [RR|HT1]; [rewrite RR in E; discriminate|]. destruct (ph_restore ph); [discriminate|]. inversion E; subst. auto.
          + apply (HF i s Hi E). simpl; auto.
        - intros ph' j Hp. apply HR. simpl; auto. }
      intros v2 (K2 & V2 & H2 & H3). split; auto. split; [congruence|]. split; [discriminate|]. intros d _.
      destruct h as [|ph' h']; [|simpl; apply (H3 d); discriminate]. simpl. rewrite H2; auto.
  Qed.

  (** ** Dropping *)
  Variable G : Mag O.
  Variable mdiv : M G -> M G -> M G.
  Notation vv v i := (nth i (sv_vals v) (t0 O)).

  Lemma firstn_snoc : forall (l : list nat) k, k < length l -> firstn (S k) l = firstn k l ++ [nth k l 0].
  Proof.
    induction l; intros k H; simpl in H; [lia|]. destruct k; simpl; auto. f_equal. apply IHl. lia.
  Qed.

  (** Compressing keeps exactly the unmarked positions, in order. *)
  Lemma compress_l : forall n (v : SV) (keep : nat -> bool),
    length (sv_inds v) = n -> length (sv_stags v) = n -> sv_cnt v <= n ->
    (forall j, j < n -> nth j (sv_stags v) false = if j <? sv_cnt v then negb (keep (nth j (sv_inds v) 0)) else false) ->
    wp (sv_compress v) (fun v' => sv_vals v' = sv_vals v /\ sv_dtags v' = sv_dtags v /\ length (sv_inds v') = n /\
      sv_stags v' = repeat false n /\ sv_cnt v' <= sv_cnt v /\ held v' = filter keep (held v)).
  Proof.
    intros n v keep L1 L2 Hc Hm. unfold sv_compress. wpb. eapply wp_conseq.
    { apply (for_range_inv _ (fun k (s : nat * list nat * list bool) => let '(i, inds, tags) := s in
        i <= k /\ length inds = n /\ length tags = n /\
        (forall j, k <= j < n -> nth j inds 0 = nth j (sv_inds v) 0) /\
        (forall j, j < n -> nth j tags false = if j <? k then false else nth j (sv_stags v) false) /\
        firstn i inds = filter keep (firstn k (sv_inds v)))).
      - lia.
      - repeat split; auto.
      - intros k [[i inds] tags] Hk (Hik & Li & Lt & Hr & Ht & Hf).
        wpb. apply wp_get with (d := false); [lia|]. rewrite Ht by lia. rewrite Nat.ltb_irrefl, Hm by lia.
        replace (k <? sv_cnt v) with true by (symmetry; apply Nat.ltb_lt; lia). rewrite negb_involutive.
        rewrite firstn_snoc by lia. rewrite filter_app. simpl filter.
        destruct (keep (nth k (sv_inds v) 0)) eqn:E.
        + wpb. apply wp_get with (d := 0); [lia|]. wpb. apply wp_set; [lia|]. simpl.
          rewrite !upd_length. rewrite Hr by lia.
          split; [lia|]. split; [auto|]. split; [auto|]. split; [|split].
          * intros j Hj. rewrite nth_upd by lia. destruct (Nat.eqb_spec j i); [lia|]. apply Hr. lia.
          * intros j Hj. rewrite Ht by lia. destruct (Nat.ltb_spec j k), (Nat.ltb_spec j (S k)); auto; try lia.
            assert (j = k) by lia. subst. rewrite Hm by lia. 
            replace (k <? sv_cnt v) with true by (symmetry; apply Nat.ltb_lt; lia). now rewrite E.
          * rewrite <- Hf. clear -Hik Li Hk L1 Hc. assert (i < length inds) by lia. clear -H. revert i H.
            generalize (nth k (sv_inds v) 0). induction inds; intros x i H; simpl in H; [lia|].
            destruct i; simpl; auto. f_equal. apply IHinds. lia.
        + wpb. apply wp_set; [lia|]. simpl. rewrite upd_length, app_nil_r.
          split; [lia|]. split; [auto|]. split; [auto|]. split; [|split]; auto.
          * intros j Hj. apply Hr. lia.
          * intros j Hj. rewrite nth_upd by lia. rewrite Ht by lia.
            destruct (Nat.eqb_spec j k), (Nat.ltb_spec j k), (Nat.ltb_spec j (S k)); auto; try lia. }
    intros [[i inds] tags] (Hik & Li & Lt & Hr & Ht & Hf). simpl. repeat split; auto.
    apply (list_ext _ _ _ false). now rewrite repeat_length. intros j Hj. rewrite nth_repeat_any by lia.
    rewrite Ht by lia. destruct (Nat.ltb_spec j (sv_cnt v)); auto. rewrite Hm by lia.
    destruct (Nat.ltb_spec j (sv_cnt v)); auto; lia.
  Qed.

  Definition num_keep (tau kappa : M G) (v : SV) (i : nat) : bool :=
    negb (mle G (mabs G (vv v i)) (mdiv tau kappa)).

  Lemma filter_nodup : forall (f : nat -> bool) l, NoDup l -> NoDup (filter f l).
  Proof.
    induction l; simpl; intros H; auto. inversion H; subst. destruct (f a); auto. constructor; auto.
    intros K. apply filter_In in K. tauto.
  Qed.

  Lemma num_drop_l : forall n tau kappa v, sv_ok n v ->
    exists v', apply_num_dropping G mdiv tau kappa v = Ok v' /\ sv_ok n v' /\
      sv_vals v' = sv_vals v /\ sv_dtags v' = sv_dtags v /\
      (mle G (mdiv tau kappa) (m0 G) = true -> v' = v) /\
      (mle G (mdiv tau kappa) (m0 G) = false -> held v' = filter (num_keep tau kappa v) (held v)).
  Proof.
    intros n tau kappa v H. pose proof H as K. destruct H as [so_vals0 so_inds0 so_cnt0 so_tags0 so_stags0 so_nodup0 so_range0]. unfold apply_num_dropping.
    destruct (mle G (mdiv tau kappa) (m0 G)) eqn:E. { exists v. repeat split; auto; congruence. }
    assert (W : wp (v1 <- for_range 0 (sv_cnt v) (fun i v =>
        x <- sv_val v i ;;
        if mle G (mabs G x) (mdiv tau kappa) then sv_mark v i else Ok v) v ;; sv_compress v1)
        (fun v' => sv_vals v' = sv_vals v /\ sv_dtags v' = sv_dtags v /\ length (sv_inds v') = n /\
      sv_stags v' = repeat false n /\ sv_cnt v' <= sv_cnt v /\ held v' = filter (num_keep tau kappa v) (held v))).
    { wpb. eapply wp_conseq.
      { apply (for_range_inv _ (fun k w => exists tags, w = mkSV (sv_vals v) (sv_inds v) (sv_cnt v) (sv_dtags v) tags /\
          length tags = n /\ forall j, j < n -> nth j tags false =
            if j <? k then negb (num_keep tau kappa v (nth j (sv_inds v) 0)) else false)).
        - lia.
        - exists (sv_stags v). split; [destruct v; auto|]. rewrite so_stags0, repeat_length. split; auto.
          intros j Hj. simpl. apply nth_repeat_any; auto.
        - intros k w Hk (tags & -> & Lt & Ht). unfold sv_val; simpl. wpb. wpb. apply wp_get with (d := 0); [lia|].
          assert (R : nth k (sv_inds v) 0 < n).
          { apply so_range0. unfold held. rewrite <- (nth_firstn_lt _ (sv_cnt v)) by lia. apply nth_In.
            rewrite firstn_length. lia. }
          apply wp_get with (d := t0 O); [lia|].
          assert (Hstep : forall tags', length tags' = n -> (forall j, j < n -> nth j tags' false =
              if j =? k then negb (num_keep tau kappa v (nth j (sv_inds v) 0)) else nth j tags false) ->
              forall j, j < n -> nth j tags' false = if j <? S k then negb (num_keep tau kappa v (nth j (sv_inds v) 0)) else false).
          { intros tags' Lt' Ht' j Hj. rewrite Ht' by auto. rewrite Ht by auto.
            destruct (Nat.eqb_spec j k), (Nat.ltb_spec j k), (Nat.ltb_spec j (S k)); auto; lia. }
          destruct (mle G (mabs G (vv v (nth k (sv_inds v) 0))) (mdiv tau kappa)) eqn:E1.
          + unfold sv_mark; simpl. wpb. apply wp_set; [lia|]. simpl. eexists. split; [reflexivity|].
            rewrite upd_length. split; auto. apply Hstep. now rewrite upd_length. intros j Hj. rewrite nth_upd by lia.
            destruct (Nat.eqb_spec j k); auto. subst. unfold num_keep. now rewrite E1.
          + simpl. exists tags. split; auto. split; auto. apply Hstep; auto. intros j Hj.
            destruct (Nat.eqb_spec j k); auto. subst. unfold num_keep. rewrite E1. simpl. rewrite Ht by auto.
            destruct (Nat.ltb_spec k k); auto; lia. }
      intros w (tags & -> & Lt & Ht).
      apply (compress_l n (mkSV (sv_vals v) (sv_inds v) (sv_cnt v) (sv_dtags v) tags) (num_keep tau kappa v)); simpl; auto. }
    apply wp_inv in W. destruct W as (v' & Ev & A1 & A2 & A3 & A4 & A5 & A6).
    exists v'. split; auto. repeat split; auto; try congruence; try lia.
    - rewrite A6. now apply filter_nodup.
    - intros i Hi. rewrite A6 in Hi. apply filter_In in Hi. apply so_range0. tauto.
  Qed.

  Variable ceil_mul : M G -> nat -> nat.
  Variable nth_el : (nat -> M G) -> nat -> list nat -> list nat.
  Hypothesis ML : MagLaws G.
  Hypothesis NE : nth_element_ok (mle G) nth_el.

  Lemma max_pos_l : forall vals inds n, 1 <= n <= length inds ->
    (forall k, k < n -> nth k inds 0 < length vals) ->
    wp (max_pos G vals inds n) (fun b => b < n /\ forall k, k < n ->
      mle G (mabs G (nth (nth k inds 0) vals (t0 O))) (mabs G (nth (nth b inds 0) vals (t0 O))) = true).
  Proof.
    intros vals inds n Hn Hr. unfold max_pos.
    apply (for_range_inv _ (fun m b => b < m /\ forall k, k < m ->
      mle G (mabs G (nth (nth k inds 0) vals (t0 O))) (mabs G (nth (nth b inds 0) vals (t0 O))) = true)).
    - lia.
    - split; auto. intros k Hk. replace k with 0 by lia. now apply mle_refl.
    - intros k b Hk (Hb & Hm). wpb. apply wp_get with (d := 0); [lia|]. wpb. apply wp_get with (d := 0); [lia|].
      wpb. apply wp_get with (d := t0 O); [apply Hr; lia|]. wpb. apply wp_get with (d := t0 O); [apply Hr; lia|].
      simpl. destruct (mlt G _ _) eqn:E.
      + split; auto. intros j Hj. destruct (Nat.eq_dec j k); [subst; now apply mle_refl|].
        eapply mle_trans; eauto. apply Hm. lia. now apply mlt_le.
      + split; [lia|]. intros j Hj. destruct (Nat.eq_dec j k); [|apply Hm; lia].
        subst. rewrite (ml_le G ML), E. auto.
  Qed.

  Lemma space_drop_l : forall n nnz alpha start v, sv_ok n v ->
    exists v', apply_space_dropping G ceil_mul nth_el nnz alpha v start = Ok v' /\ sv_ok n v' /\
      sv_vals v' = sv_vals v /\ sv_dtags v' = sv_dtags v /\
      (mle G alpha (m0 G) = true \/ length (held v) <= space_limit G ceil_mul nnz alpha start -> v' = v) /\
      (mle G alpha (m0 G) = false -> space_limit G ceil_mul nnz alpha start < length (held v) ->
        length (held v') = space_limit G ceil_mul nnz alpha start /\
        exists dropped, Permutation (held v) (held v' ++ dropped) /\
        forall i j, In i (held v') -> In j dropped -> mle G (mabs G (vv v j)) (mabs G (vv v i)) = true).
  Proof.
    intros n nnz alpha start v H. pose proof H as K. destruct H as [so_vals0 so_inds0 so_cnt0 so_tags0 so_stags0 so_nodup0 so_range0]. unfold apply_space_dropping.
    set (N := space_limit G ceil_mul nnz alpha start).
    assert (HN : 1 <= N). { unfold N, space_limit. destruct (Nat.leb_spec (ceil_mul alpha nnz) start); lia. }
    assert (LH : length (held v) = sv_cnt v). { unfold held. rewrite firstn_length. lia. }
    destruct (mle G alpha (m0 G)) eqn:EA. { exists v. repeat split; auto; discriminate. }
    destruct (Nat.eqb_spec (sv_cnt v) 0). { exists v. repeat split; auto; intros; lia. }
    destruct (Nat.ltb_spec N (sv_cnt v)) as [HL|HL].
    2:{ exists v. repeat split; auto; intros; lia. }
    assert (HR : forall k, k < sv_cnt v -> nth k (sv_inds v) 0 < length (sv_vals v)).
    { intros k Hk. rewrite so_vals0. apply so_range0. unfold held. rewrite <- (nth_firstn_lt _ (sv_cnt v)) by lia.
      apply nth_In. rewrite firstn_length. lia. }
    assert (W : exists inds, (if N =? 1 then k <- max_pos G (sv_vals v) (sv_inds v) (sv_cnt v) ;; swap (sv_inds v) 0 k
         else if forallb (fun i => i <? length (sv_vals v)) (firstn (sv_cnt v) (sv_inds v)) then
                     Ok (nth_el (fun i => mabs G (nth i (sv_vals v) (t0 O))) N (firstn (sv_cnt v) (sv_inds v))
                         ++ skipn (sv_cnt v) (sv_inds v)) else UB) = Ok inds /\
       length inds = n /\ Permutation (held v) (firstn (sv_cnt v) inds) /\
       forall i j, i < N -> N <= j < sv_cnt v -> mle G (mabs G (vv v (nth j inds 0))) (mabs G (vv v (nth i inds 0))) = true).
    { destruct (Nat.eqb_spec N 1) as [E1|E1].
      - pose proof (max_pos_l (sv_vals v) (sv_inds v) (sv_cnt v) ltac:(lia) HR) as W.
        apply wp_inv in W. destruct W as (b & -> & Hb & Hm). simpl. rewrite (swap_ok _ _ _ _ 0) by lia.
        eexists. split; [reflexivity|]. rewrite !upd_length. split; auto. split.
        + unfold held. rewrite firstn_upd_lt, firstn_upd_lt by lia.
          rewrite <- (nth_firstn_lt _ (sv_cnt v) (sv_inds v) b), <- (nth_firstn_lt _ (sv_cnt v) (sv_inds v) 0 0) by lia.
          apply swap_perm; rewrite firstn_length; lia.
        + intros i j Hi Hj. assert (i = 0) by lia. subst i. rewrite !nth_swap by lia.
          assert (E0 : (if 0 =? b then nth 0 (sv_inds v) 0 else if 0 =? 0 then nth b (sv_inds v) 0 else nth 0 (sv_inds v) 0) = nth b (sv_inds v) 0).
          { destruct (Nat.eqb_spec 0 b); subst; auto. }
          rewrite E0. destruct (Nat.eqb_spec j b). apply Hm; lia. destruct (Nat.eqb_spec j 0); [lia|]. apply Hm; lia.
      - assert (FB : forallb (fun i => i <? length (sv_vals v)) (firstn (sv_cnt v) (sv_inds v)) = true).
        { apply forallb_forall. intros x Hx. apply Nat.ltb_lt. rewrite so_vals0. apply so_range0. exact Hx. }
        rewrite FB. destruct (NE (fun i => mabs G (nth i (sv_vals v) (t0 O))) N (held v)) as (P & Q); [lia|].
        fold (held v). pose proof (Permutation_length P) as LP.
        eexists. split; [reflexivity|]. split; [|split].
        + rewrite app_length, skipn_length. lia.
        + rewrite firstn_app. rewrite firstn_all2 by lia. replace (sv_cnt v - _) with 0 by lia.
          rewrite firstn_O, app_nil_r. exact P.
        + intros i j Hi Hj. rewrite !app_nth1 by lia. apply Q; auto. lia. }
    destruct W as (inds & -> & Li & P & Q). simpl. eexists. split; [reflexivity|].
    assert (HH : firstn (sv_cnt v) inds = firstn N inds ++ firstn (sv_cnt v - N) (skipn N inds)).
    { replace (sv_cnt v) with (N + (sv_cnt v - N)) at 1 by lia. generalize (sv_cnt v - N). intros m.
      clear. revert inds m. induction N; intros; simpl; auto. destruct inds; simpl; auto. now rewrite firstn_nil. f_equal; auto. }
    assert (ND : NoDup (firstn (sv_cnt v) inds)) by (eapply Permutation_NoDup; eauto).
    assert (RG : forall i, In i (firstn (sv_cnt v) inds) -> i < n).
    { intros i Hi. apply so_range0. eapply Permutation_in; [symmetry|]; eauto. }
    rewrite HH in ND, RG.
    split; [|split; [auto|split; [auto|split]]].
    - split; simpl; auto; try lia.
      + unfold held; simpl. apply NoDup_app_remove_r in ND. auto.
      + unfold held; simpl. intros i Hi. apply RG. apply in_or_app; auto.
    - intros [C|C]; [discriminate|]. lia.
    - intros _ _. unfold held at 1; simpl. split. rewrite firstn_length. lia.
      exists (firstn (sv_cnt v - N) (skipn N inds)). unfold held at 2 3; simpl. rewrite <- HH. split; auto.
      intros i j Hi Hj. apply In_nth with (d := 0) in Hi, Hj. destruct Hi as (a & Ha & <-), Hj as (b & Hb & <-).
      rewrite firstn_length in Ha. rewrite firstn_length, skipn_length in Hb.
      rewrite !nth_firstn_lt by lia. rewrite nth_skipn'. apply Q; lia.
  Qed.
End S.
