(** * PrepProofs1: a priori scaling stays in bounds and keeps the pattern; shifted arrays. *)
From Coq Require Import List Arith ZArith Lia Bool.
From Verif Require Import Base Scalar Spec CSModel CSSpec CSProofs ConvModel ConvSpec ConvProofs ConvProofs3 Mag VecModel PruneModel PruneProofs PreModel PrepModel EqModel EqSpec.
Import ListNotations.
Local Open Scope nat_scope.

Section P1.
  Context {O : Ops} (G : Mag O).
  Variable mone : M G.
  Variable mrec : M G -> M G.
  Variable smul : T O -> M G -> T O.
  Variable msqrt : M G -> M G.
  Variable mdiff : M G -> M G.
  Variable mbig : M G -> bool.
  Variable um : nat -> list (M G).
  Hypothesis LM : forall k, length (um k) = k.

  (** Same pattern, as many values. *)
  Definition same_pattern (B B' : CS O) : Prop :=
    psize B' = psize B /\ ssize B' = ssize B /\ ind_start B' = ind_start B /\ indices B' = indices B /\ length (vals B') = length (vals B).

  Lemma row_max_ok : forall val b e, b < e -> e <= length val -> wp (row_max G val b e) (fun _ => True).
  Proof.
    intros val b e H1 H2. unfold row_max. wpb. apply wp_get with (d := t0 O); [lia|]. wpb.
    eapply wp_conseq; [apply for_range_inv with (I := fun _ _ => True); [lia|auto|]|intros; apply wp_ok; auto].
    intros i s Hi _. wpb. apply wp_get with (d := t0 O); [lia|]. apply wp_ok. auto.
  Qed.

  Section B.
  Variable B : CS O.
  Hypothesis W : wf B.
  Hypothesis TT : tight B.
  Hypothesis SQ : ssize B = psize B.
  Notation n := (psize B).

  Lemma st_le : forall i, i < n -> st B i <= st B (S i) /\ st B (S i) <= length (indices B) /\ st B (S i) <= length (vals B).
  Proof.
    intros i Hi. destruct TT as (T1 & T2 & T3). pose proof (wf_mono O B W i Hi). pose proof (st_mono O B W (S i) n ltac:(lia) ltac:(lia)). lia.
  Qed.
  Lemma ix_lt : forall i k, i < n -> st B i <= k < st B (S i) -> ix B k < n.
  Proof. intros i k Hi Hk. pose proof (st_mono O B W (S i) n ltac:(lia) ltac:(lia)). rewrite <- SQ. apply (wf_range O B W). lia. Qed.

  Lemma nnz_ok : nnz O B = Ok (nnz_of B).
  Proof.
    destruct TT as (T1 & T2 & T3). unfold nnz, nnz_of. destruct (indices B) as [|x l] eqn:E.
    - rewrite <- T2. reflexivity.
    - pose proof (wf_first O B W) as F. unfold st in *. rewrite (get_nth _ (ind_start B) 0 0) by lia. cbn [bind].
      rewrite (get_nth _ (ind_start B) _ 0) by lia. cbn [bind]. rewrite F. f_equal. rewrite Nat.sub_0_r. f_equal. lia.
  Qed.

  Lemma over_row_l : forall S (I : S -> Prop) row f s, row < n -> I s ->
    (forall k s, st B row <= k < st B (Datatypes.S row) -> I s -> wp (f k (ix B k) s) I) -> wp (over_row B row f s) I.
  Proof.
    intros S I row f s Hr Hs Hf. unfold over_row. pose proof (wf_len O B W). pose proof (st_le row Hr) as (S1 & S2 & S3).
    wpb. apply wp_get with (d := 0); [lia|]. wpb. apply wp_get with (d := 0); [lia|]. fold (st B row). fold (st B (Datatypes.S row)).
    destruct (Nat.ltb_spec (st B (Datatypes.S row)) (st B row)); [lia|].
    apply for_range_inv with (I := fun _ => I); auto. intros k s' Hk Hs'. wpb. apply wp_get with (d := 0); [lia|]. apply Hf; auto.
  Qed.

  Lemma extreme_l : forall symm rs cs, n <= length rs -> n <= length cs ->
    wp (scale_extreme_values G mone mrec smul symm B rs cs) (fun '(B', rs', cs') =>
      same_pattern B B' /\ length rs' = length rs /\ length cs' = length cs).
  Proof.
    intros symm rs cs L1 L2. unfold scale_extreme_values. cbv zeta. wpb.
    pose proof (wf_len O B W) as WL. pose proof TT as (T1 & T2 & T3).
    eapply wp_conseq; [apply for_range_inv with (I := fun _ '(val, rs') => length val = length (vals B) /\ length rs' = length rs); [lia|auto|]|].
    { intros row [val rs'] Hr (I1 & I2). pose proof (st_le row ltac:(lia)) as (S1 & S2 & S3).
      wpb. apply wp_get with (d := 0); [lia|]. wpb. apply wp_get with (d := 0); [lia|]. fold (st B row). fold (st B (S row)).
      destruct (Nat.ltb_spec (st B (S row)) (st B row)); [lia|]. wpb.
      eapply wp_conseq with (P := fun _ => True).
      { destruct (Nat.eqb_spec (st B (S row)) (st B row)); [apply wp_ok; auto|apply row_max_ok; lia]. }
      intros tmp _. wpb. apply wp_set; [lia|]. wpb.
      eapply wp_conseq; [apply for_range_inv with (I := fun _ val => length val = length (vals B)); [lia|auto|]|].
      - intros k v Hk J. wpb. apply wp_get with (d := t0 O); [lia|]. apply wp_set; [lia|]. now rewrite upd_length.
      - intros v J. apply wp_ok. rewrite upd_length. auto. }
    intros [val rs'] (I1 & I2). rewrite (nnz_ok). wpb. apply wp_ok. unfold nnz_of. wpb.
    eapply wp_conseq with (P := fun cs' => length cs' = length cs).
    { destruct symm.
      - destruct (Nat.leb_spec n (length rs')); [|lia]. destruct (Nat.leb_spec n (length cs)); [|lia]. cbn [andb]. apply wp_ok.
        rewrite app_length, firstn_length, skipn_length. lia.
      - unfold fill_n. destruct (Nat.leb_spec n (length cs)); [|lia]. wpb. apply wp_ok. wpb.
        eapply wp_conseq; [apply for_range_inv with (I := fun _ cs' => length cs' = length cs); [lia| |]|].
        + rewrite app_length, repeat_length, skipn_length. lia.
        + intros k c Hk J. pose proof (wf_range O B W k ltac:(lia)) as R. unfold ix in R. wpb. apply wp_get with (d := 0); [lia|]. wpb. apply wp_get with (d := t0 O); [lia|].
          wpb. apply wp_get with (d := m0 G); [lia|]. apply wp_set; [lia|]. now rewrite upd_length.
        + intros c J. cbv beta. apply for_range_inv with (I := fun _ cs' => length cs' = length cs); [lia|auto|].
          intros k c' Hk J'. wpb. apply wp_get with (d := m0 G); [lia|]. apply wp_set; [lia|]. now rewrite upd_length. }
    intros cs' J. wpb.
    eapply wp_conseq; [apply for_range_inv with (I := fun _ val => length val = length (vals B)); [lia|auto|]|].
    - intros k v Hk J'. pose proof (wf_range O B W k ltac:(lia)) as R. unfold ix in R. wpb. apply wp_get with (d := 0); [lia|]. wpb. apply wp_get with (d := t0 O); [lia|].
      wpb. apply wp_get with (d := m0 G); [lia|]. apply wp_set; [lia|]. now rewrite upd_length.
    - intros v J'. apply wp_ok. split; [|auto]. repeat split; auto.
  Qed.

  Definition iter_ok (symm : bool) (nr nc : nat) (st : list (T O) * list (M G) * list (M G) * list (M G) * list (M G) * list (M G) * list (M G)) : Prop :=
    let '(val, rs, cs, lrs, lcs, qrs, qcs) := st in
    length val = length (vals B) /\ length rs = nr /\ length cs = nc /\ length lrs = n /\ length qrs = n /\
    (symm = false -> length lcs = n /\ length qcs = n).

  Lemma iter_pass_l : forall symm nr nc st, n <= nr -> n <= nc -> iter_ok symm nr nc st ->
    wp (iter_pass G mrec smul msqrt mdiff mbig symm B st) (fun r => iter_ok symm nr nc (snd r)).
  Proof.
    intros symm nr nc [[[[[[val rs] cs] lrs] lcs] qrs] qcs] N1 N2 (L1 & L2 & L3 & L4 & L5 & L6). unfold iter_pass. cbv zeta.
    set (lcs0 := if symm then lcs else map (fun _ => m0 G) lcs). assert (L6a : symm = false -> length lcs0 = n).
    { intros E. unfold lcs0. rewrite E, map_length. now apply L6. } clearbody lcs0.
    set (qcs0 := if symm then qcs else map (fun _ => m0 G) qcs). assert (L6b : symm = false -> length qcs0 = n).
    { intros E. unfold qcs0. rewrite E, map_length. now apply L6. } clearbody qcs0. clear L6 lcs qcs.
    wpb. eapply wp_conseq; [apply for_range_inv with (I := fun _ '(lrs, lcs) => length lrs = n /\ (symm = false -> length lcs = n)); [lia|auto|]|].
    { intros row [lrs' lcs'] Hr (I1 & I2). wpb.
      eapply wp_conseq; [apply over_row_l with (I := fun '(_, lcs) => symm = false -> length lcs = n); [lia|auto|]|].
      - intros k [tmp lc] Hk J. pose proof (st_le row ltac:(lia)). pose proof (ix_lt row k ltac:(lia) Hk). wpb. apply wp_get with (d := t0 O); [lia|].
        destruct symm; [apply wp_ok; auto|]. specialize (J eq_refl). wpb. apply wp_get with (d := m0 G); [lia|]. wpb. apply wp_set; [lia|]. apply wp_ok. now rewrite upd_length.
      - intros [tmp lc] J. wpb. apply wp_set; [lia|]. apply wp_ok. rewrite upd_length. auto. }
    intros [lrs' lcs'] (I1 & I2). wpb.
    eapply wp_conseq; [apply for_range_inv with (I := fun _ rs => length rs = nr); [lia|auto|]|].
    { intros i r Hi J. wpb. apply wp_get with (d := m0 G); [lia|]. wpb. apply wp_get with (d := m0 G); [lia|]. apply wp_set; [lia|]. now rewrite upd_length. }
    intros rs' J1. wpb.
    eapply wp_conseq with (P := fun '(lcs, cs) => (symm = false -> length lcs = n) /\ length cs = nc).
    { destruct symm; [apply wp_ok; split; [discriminate|auto]|].
      eapply wp_conseq; [apply for_range_inv with (I := fun _ '(lcs, cs) => length lcs = n /\ length cs = nc); [lia|auto|]|intros [? ?] (? & ?); auto].
      intros i [lc c] Hi (Q1 & Q2). wpb. apply wp_get with (d := m0 G); [lia|]. wpb. apply wp_set; [lia|]. wpb. apply wp_get with (d := m0 G); [lia|].
      wpb. apply wp_set; [lia|]. apply wp_ok. rewrite !upd_length. auto. }
    intros [lcs2 cs'] (J2 & J3). wpb.
    eapply wp_conseq; [apply for_range_inv with (I := fun _ '(val, qrs, qcs) => length val = length (vals B) /\ length qrs = n /\ (symm = false -> length qcs = n)); [lia|auto|]|].
    { intros row [[v qr] qc] Hr (Q1 & Q2 & Q3). wpb. apply wp_get with (d := m0 G); [lia|]. wpb.
      eapply wp_conseq; [apply over_row_l with (I := fun '(_, v, qc) => length v = length (vals B) /\ (symm = false -> length qc = n)); [lia|auto|]|].
      - intros k [[tmp v'] qc'] Hk (R1 & R2). pose proof (st_le row ltac:(lia)). pose proof (ix_lt row k ltac:(lia) Hk). wpb.
        eapply wp_conseq with (P := fun _ => True). { destruct symm; [apply wp_get with (d := m0 G); [lia|auto]|specialize (J2 eq_refl); apply wp_get with (d := m0 G); [lia|auto]]. }
        intros c _. wpb. apply wp_get with (d := t0 O); [lia|]. wpb. apply wp_set; [lia|].
        destruct symm; [apply wp_ok; rewrite upd_length; auto|]. specialize (R2 eq_refl). wpb. apply wp_get with (d := m0 G); [lia|]. wpb. apply wp_set; [lia|].
        apply wp_ok. rewrite !upd_length. auto.
      - intros [[tmp v'] qc'] (R1 & R2). wpb. apply wp_set; [lia|]. apply wp_ok. rewrite upd_length. auto. }
    intros [[val' qrs'] qcs'] (Q1 & Q2 & Q3). wpb.
    eapply wp_conseq; [apply for_range_inv with (I := fun _ _ => True); [lia|auto|]|].
    { intros i tmp Hi _. wpb. apply wp_get with (d := m0 G); [lia|]. apply wp_ok. auto. }
    intros rr _. wpb. eapply wp_conseq with (P := fun _ => True).
    { destruct symm; [apply wp_ok; auto|]. specialize (Q3 eq_refl). apply for_range_inv with (I := fun _ _ => True); [lia|auto|].
      intros i tmp Hi _. wpb. apply wp_get with (d := m0 G); [lia|]. apply wp_ok. auto. }
    intros rc _. apply wp_ok. cbn [snd]. unfold iter_ok. repeat split; auto.
  Qed.

  Lemma iter_loop_l : forall k symm nr nc st, n <= nr -> n <= nc -> iter_ok symm nr nc st ->
    wp (iter_loop G mrec smul msqrt mdiff mbig k symm B st) (iter_ok symm nr nc).
  Proof.
    induction k; intros symm nr nc st N1 N2 H; cbn [iter_loop]; [apply wp_ok; auto|]. wpb.
    eapply wp_conseq; [apply iter_pass_l with (nr := nr) (nc := nc); eauto|]. intros [go st'] H'. cbn [snd] in H'. destruct go; [apply IHk; auto|apply wp_ok; auto].
  Qed.

  Lemma iterative_l : forall symm rs cs, n <= length rs -> n <= length cs ->
    wp (iterative_scale G mone mrec smul msqrt mdiff mbig um symm B rs cs) (fun '(B', rs', cs') =>
      same_pattern B B' /\ length rs' = length rs /\ length cs' = length cs).
  Proof.
    intros symm rs cs L1 L2. unfold iterative_scale. cbv zeta. unfold fill_n. destruct (Nat.leb_spec n (length rs)); [|lia]. wpb. apply wp_ok.
    wpb. eapply wp_conseq with (P := fun cs' => length cs' = length cs).
    { destruct symm; [apply wp_ok; auto|]. destruct (Nat.leb_spec n (length cs)); [|lia]. apply wp_ok. rewrite app_length, repeat_length, skipn_length. lia. }
    intros cs1 J1. wpb.
    eapply wp_conseq; [apply iter_loop_l with (nr := length rs) (nc := length cs); auto|].
    { unfold iter_ok. rewrite !LM. split; [auto|]. split; [rewrite app_length, repeat_length, skipn_length; lia|]. split; [auto|]. split; [auto|]. split; [auto|].
      intros ->. auto. }
    intros [[[[[[val rs'] cs'] lrs] lcs] qrs] qcs] (Q1 & Q2 & Q3 & _). wpb.
    eapply wp_conseq with (P := fun cs' => length cs' = length cs).
    { destruct symm; [|apply wp_ok; auto]. destruct (Nat.leb_spec n (length rs')); [|lia]. destruct (Nat.leb_spec n (length cs')); [|lia]. cbn [andb]. apply wp_ok.
      rewrite app_length, firstn_length, skipn_length. lia. }
    intros cs2 J2. apply wp_ok. split; [repeat split; auto|]. auto.
  Qed.

  Lemma scale_eye_l : forall m rs cs, m <= length rs -> m <= length cs ->
    wp (scale_eye G mone m rs cs) (fun '(rs', cs') => length rs' = length rs /\ length cs' = length cs /\
      forall i, i < m -> nth i rs' (m0 G) = mone /\ nth i cs' (m0 G) = mone).
  Proof.
    intros m rs cs L1 L2. unfold scale_eye.
    apply for_range_inv with (I := fun k '(rs', cs') => length rs' = length rs /\ length cs' = length cs /\
      forall i, i < k -> nth i rs' (m0 G) = mone /\ nth i cs' (m0 G) = mone); [lia| |].
    - repeat split; auto; lia.
    - intros i [rs' cs'] Hi (J1 & J2 & J3). wpb. apply wp_set; [lia|]. wpb. apply wp_set; [lia|]. apply wp_ok. rewrite !upd_length. split; [auto|]. split; [auto|].
      intros k Hk. rewrite !nth_upd by lia. destruct (Nat.eqb_spec k i); [auto|]. apply J3. lia.
  Qed.

  Lemma pre_scaling_l : forall symm ps rs cs, n <= length rs -> n <= length cs ->
    wp (pre_scaling G mone mrec smul msqrt mdiff mbig um symm ps B rs cs) (fun '(B', rs', cs') =>
      same_pattern B B' /\ length rs' = length rs /\ length cs' = length cs).
  Proof.
    intros symm ps rs cs L1 L2. unfold pre_scaling. destruct (ps =? 0)%Z.
    - wpb. eapply wp_conseq; [apply scale_eye_l; auto|]. intros [rs' cs'] (J1 & J2 & _). apply wp_ok. repeat split; auto.
    - destruct (ps =? 1)%Z; [apply extreme_l; auto|apply iterative_l; auto].
  Qed.

  (** ** The shifted arrays are a 1-based pattern *)
  Lemma n1_shift : forall (l : list nat) k, 1 <= k <= length l -> n1 0 (map S l) k = S (nth (k - 1) l 0).
  Proof. intros l k Hk. unfold n1. rewrite (nth_indep _ 0 (S 0)) by (rewrite map_length; lia). now rewrite map_nth. Qed.

  Lemma ip_shift : forall j, 1 <= j <= S n -> n1 0 (map S (ind_start B)) j = S (st B (j - 1)).
  Proof. intros j Hj. destruct TT as (T1 & _). rewrite n1_shift by lia. reflexivity. Qed.
  Lemma irn_shift : forall k, 1 <= k <= length (indices B) -> n1 0 (map S (indices B)) k = S (ix B (k - 1)).
  Proof. intros k Hk. now rewrite n1_shift by lia. Qed.

  Lemma shift_pattern : sorted B -> pattern1 n (map S (ind_start B)) (map S (indices B)).
  Proof.
    intros SO. pose proof TT as (T1 & T2 & T3). constructor.
    - rewrite map_length. lia.
    - rewrite ip_shift by lia. lia.
    - intros j Hj. rewrite !ip_shift by lia. replace (S j - 1) with (S (j - 1)) by lia. pose proof (wf_mono O B W (j - 1) ltac:(lia)). lia.
    - rewrite ip_shift by lia. rewrite map_length. replace (S n - 1) with n by lia. lia.
    - intros k Hk. rewrite map_length in Hk. rewrite irn_shift by lia. pose proof (wf_range O B W (k - 1) ltac:(lia)). lia.
    - intros j k k' Hj Hk Hk'. rewrite !ip_shift in Hk, Hk' by lia. replace (S j - 1) with (S (j - 1)) in Hk, Hk' by lia.
      pose proof (st_le (j - 1) ltac:(lia)) as (X1 & X2 & X3). rewrite !irn_shift by lia. intros E.
      destruct (Nat.lt_trichotomy (k - 1) (k' - 1)) as [H|[H|H]]; [|lia|].
      + pose proof (SO (j - 1) (k - 1) (k' - 1) ltac:(lia) ltac:(lia) H ltac:(lia)). lia.
      + pose proof (SO (j - 1) (k' - 1) (k - 1) ltac:(lia) ltac:(lia) H ltac:(lia)). lia.
  Qed.

  Lemma shift_tight : tight1 n (map S (ind_start B)) (map S (indices B)).
  Proof.
    destruct TT as (T1 & T2 & T3). split.
    - rewrite ip_shift by lia. rewrite (wf_first O B W : st B (1 - 1) = 0). reflexivity.
    - rewrite ip_shift by lia. rewrite map_length. replace (S n - 1) with n by lia. lia.
  Qed.
  End B.
End P1.
