(** * PreProofs3: final permutations, extreme-value scaling. *)
From Coq Require Import List Arith Lia Bool Permutation Sorted.
From Verif Require Import Base Scalar Spec CSModel CSSpec ConvModel ConvSpec BucketProofs ConvProofs ConvProofs2
  ConvProofs3 ConvProofs4 Mag VecModel VecProofs PruneModel PruneSpec PruneProofs PreModel PreSpec PreProofs PreProofs2.
Import ListNotations.

Lemma extend_perm : forall n m0 p p1, m0 <= n -> length p = n -> length p1 = n -> is_perm m0 (firstn m0 p) ->
  (forall i, nth i p1 0 = if (m0 <=? i) && (i <? n) then i else nth i p 0) -> is_perm n p1.
Proof.
  intros n m0 p p1 H Lp L1 (_ & R & J) E.
  assert (X : forall i, i < n -> nth i p1 0 = if m0 <=? i then i else nth i p 0).
  { intros i Hi. rewrite E. destruct (Nat.ltb_spec i n); [|lia]. now rewrite andb_true_r. }
  assert (R' : forall i, i < m0 -> nth i p 0 < m0). { intros. rewrite <- (nth_firstn_lt _ m0) by auto. auto. }
  split; [auto|split].
  - intros i Hi. rewrite X by auto. destruct (Nat.leb_spec m0 i); auto. specialize (R' i H0). lia.
  - intros i j Hi Hj. rewrite !X by auto. destruct (Nat.leb_spec m0 i), (Nat.leb_spec m0 j); intros Eq; auto.
    + specialize (R' j H1). lia.
    + specialize (R' i H0). lia.
    + apply J; auto. rewrite !nth_firstn_lt; auto.
Qed.

Lemma finish_l : forall good g n m0 p0 q0 pi0 qi0 reord,
  m0 <= n -> length p0 = n -> length q0 = n -> length pi0 = n -> length qi0 = n ->
  is_perm m0 (firstn m0 p0) -> is_perm m0 (firstn m0 q0) ->
  (forall r c, r < m0 -> c < m0 -> good r c = Ok (g (r, c))) ->
  (forall f m, reord = Some f -> m <= m0 -> is_perm m (f m)) ->
  let goods := filter g (diags p0 q0 m0) in
  let bads := filter (fun z => negb (g z)) (diags p0 q0 m0) in
  let m := length goods in
  exists P Q, finish_preprocessing good m0 p0 q0 pi0 qi0 reord = Ok (P, Q, m) /\
    is_inv n (bp P) (bpi P) /\ is_inv n (bp Q) (bpi Q) /\
    (forall i, i < m -> diag_at (bp P) (bp Q) i =
       nth (match reord with Some f => nth i (f m) 0 | None => i end) goods (0, 0)) /\
    (forall i, m <= i < m0 -> diag_at (bp P) (bp Q) i = nth (i - m) bads (0, 0)) /\
    (forall i, m0 <= i < n -> diag_at (bp P) (bp Q) i = (i, i)).
Proof.
  intros good g n m0 p0 q0 pi0 qi0 reord Hm0 Lp Lq Lpi Lqi Hp Hq Hg Hr goods bads m.
  unfold finish_preprocessing.
  pose proof (fill_id_l m0 p0) as F1. apply wp_inv in F1. destruct F1 as (p1 & -> & L1 & E1). cbn [bind].
  pose proof (fill_id_l m0 q0) as F2. apply wp_inv in F2. destruct F2 as (q1 & -> & L2 & E2). cbn [bind].
  rewrite Lp in *. rewrite Lq in *.
  pose proof (extend_perm n m0 p0 p1 Hm0 Lp L1 Hp E1) as P1.
  pose proof (extend_perm n m0 q0 q1 Hm0 Lq L2 Hq E2) as Q1.
  assert (D1 : diags p1 q1 m0 = diags p0 q0 m0).
  { apply diags_ext. intros i Hi. unfold diag_at. rewrite E1, E2.
    destruct (Nat.leb_spec m0 i); [lia|]. auto. }
  assert (D2 : forall i, m0 <= i < n -> diag_at p1 q1 i = (i, i)).
  { intros i Hi. unfold diag_at. rewrite E1, E2. destruct (Nat.leb_spec m0 i); [|lia].
    destruct (Nat.ltb_spec i n); [|lia]. auto. }
  assert (GG : forall i, i < m0 -> good (nth i p1 0) (nth i q1 0) = Ok (g (diag_at p1 q1 i))).
  { intros i Hi. apply Hg.
    - rewrite E1. destruct (Nat.leb_spec m0 i); [lia|]. cbn [andb]. rewrite <- (nth_firstn_lt _ m0) by auto. now apply Hp.
    - rewrite E2. destruct (Nat.leb_spec m0 i); [lia|]. cbn [andb]. rewrite <- (nth_firstn_lt _ m0) by auto. now apply Hq. }
  pose proof (defer_l good g m0 p1 q1 GG ltac:(lia) ltac:(lia) pi0 qi0 ltac:(lia) ltac:(lia)) as F3.
  apply wp_inv in F3. destruct F3 as ([[[[p2 q2] pi2] qi2] m'] & -> & A1 & A2 & A3 & A4 & A5 & A6 & A7).
  cbn [bind]. rewrite D1 in A5, A6. fold goods in A5, A6. fold bads in A6. fold m in A5. subst m'.
  assert (Hlen : m + length bads = m0).
  { apply (f_equal (@length _)) in A6. rewrite app_length, diags_length in A6. unfold m. lia. }
  assert (PQ : is_perm n p2 /\ is_perm n q2).
  { apply (perm_rearr n p1 q1 p2 q2); auto; try lia.
    replace n with (m0 + (n - m0)) by lia. rewrite !diags_app.
    apply Permutation_app.
    - rewrite A6, D1. apply filter_partition.
    - replace (map (diag_at p2 q2) (seq m0 (n - m0))) with (map (diag_at p1 q1) (seq m0 (n - m0))); auto.
      apply map_ext_in. intros i Hi. apply in_seq in Hi. symmetry. apply A7. lia. }
  destruct PQ as [P2 Q2].
  assert (N1 : forall i, i < m -> diag_at p2 q2 i = nth i goods (0, 0)).
  { intros i Hi. rewrite <- (nth_diags p2 q2 m0 i (0, 0)) by lia. rewrite A6, app_nth1; auto. }
  assert (N2 : forall i, m <= i < m0 -> diag_at p2 q2 i = nth (i - m) bads (0, 0)).
  { intros i Hi. rewrite <- (nth_diags p2 q2 m0 i (0, 0)) by lia. rewrite A6, app_nth2; [auto|]. fold m. lia. }
  assert (N3 : forall i, m0 <= i < n -> diag_at p2 q2 i = (i, i)).
  { intros i Hi. rewrite A7 by lia. apply D2; auto. }
  assert (PLAIN : forall i, i < m -> i < n) by (intros; lia).
  destruct (build_inv_l n (mkBP p2 pi2) P2 ltac:(simpl; lia)) as (PP & B1 & B2 & B3).
  destruct (build_inv_l n (mkBP q2 qi2) Q2 ltac:(simpl; lia)) as (QQ & C1 & C2 & C3).
  simpl in B2, C2.
  destruct reord as [f|].
  - destruct (Nat.eqb_spec m 0) as [Z|Z].
    + rewrite B1. cbn [bind]. rewrite C1. cbn [bind]. exists PP, QQ.
      rewrite B2, C2. rewrite B2 in B3. rewrite C2 in C3. split; [auto|]. split; [auto|]. split; [auto|].
      split; [intros; lia|]. split; auto.
    + pose proof (Hr f m eq_refl ltac:(lia)) as PF.
      pose proof (finalize_l n m (f m) (mkBP p2 pi2) P2 ltac:(simpl; lia) ltac:(lia) PF) as FP.
      apply wp_inv in FP. destruct FP as (RP & -> & FP1 & FP2). cbn [bind].
      pose proof (finalize_l n m (f m) (mkBP q2 qi2) Q2 ltac:(simpl; lia) ltac:(lia) PF) as FQ.
      apply wp_inv in FQ. destruct FQ as (RQ & -> & FQ1 & FQ2). cbn [bind].
      exists RP, RQ. split; [auto|]. split; [auto|]. split; [auto|]. simpl in FP2, FQ2.
      split; [|split].
      * intros i Hi. destruct PF as (_ & PF & _). specialize (PF i Hi).
        rewrite <- N1 by auto. unfold diag_at. rewrite FP2, FQ2 by lia.
        destruct (Nat.ltb_spec i m); [auto|lia].
      * intros i Hi. rewrite <- N2 by auto. unfold diag_at. rewrite FP2, FQ2 by lia.
        destruct (Nat.ltb_spec i m); [lia|auto].
      * intros i Hi. rewrite <- N3 by auto. unfold diag_at. rewrite FP2, FQ2 by lia.
        destruct (Nat.ltb_spec i m); [lia|auto].
  - rewrite B1. cbn [bind]. rewrite C1. cbn [bind]. exists PP, QQ.
    rewrite B2, C2. rewrite B2 in B3. rewrite C2 in C3. split; [auto|]. split; [auto|]. split; [auto|]. split; auto.
Qed.

Section Sc.
  Context {O : Ops} (G : Mag O).
  Hypothesis L : MagLaws G.
  Variables (mone : M G) (mrec : M G -> M G) (smul : T O -> M G -> T O).
  Hypothesis SL : ScaleLaws G mone mrec smul.
  Notation le a b := (mle G a b = true).
  Notation lt a b := (mlt G a b = true).

  Definition orone (a : M G) : M G := if mis0 G a then mone else a.
  Definition rsf (B : CS O) (i : nat) : M G := mrec (orone (rmaxf G (rowl B i))).
  Definition rowmul (c : M G) (l : list (nat * T O)) := map (fun e => (fst e, smul (snd e) c)) l.

  (** entry [k] belongs to primary [i] *)
  Definition in_row (B : CS O) (i k : nat) : Prop := i < psize B /\ st B i <= k < st B (S i).

  Lemma in_row_ex : forall (B : CS O), wf B -> forall k, k < st B (psize B) -> exists i, in_row B i k.
  Proof.
    intros B W k Hk.
    assert (GG : forall n, n <= psize B -> k < st B n -> exists i, in_row B i k).
    { induction n; intros Hn Hkn. { rewrite (wf_first O B W) in Hkn. lia. }
      destruct (Nat.lt_ge_cases k (st B n)). { apply IHn; auto; lia. }
      exists n. split; [lia|]. lia. }
    apply (GG (psize B)); auto.
  Qed.
  Lemma in_row_unique : forall (B : CS O), wf B -> forall k i j, in_row B i k -> in_row B j k -> i = j.
  Proof.
    intros B W k i j (H1 & H2) (H3 & H4).
    destruct (Nat.lt_trichotomy i j) as [H|[H|H]]; auto; exfalso.
    - pose proof (st_mono O B W (S i) j ltac:(lia) ltac:(lia)). lia.
    - pose proof (st_mono O B W (S j) i ltac:(lia) ltac:(lia)). lia.
  Qed.

  Lemma orone_pos : forall a, le (m0 G) a -> lt (m0 G) (orone a).
  Proof.
    intros a H. unfold orone. destruct (mis0 G a) eqn:Z.
    - apply (sl_one _ _ _ _ SL).
    - destruct (mle_total L a (m0 G)) as [H'|H']; auto.
      rewrite (mle_antisym L _ _ H' H) in Z. unfold mis0 in Z. rewrite !(mle_refl L) in Z. discriminate.
  Qed.
  Lemma orone_ge : forall a x, le x a -> le x (m0 G) \/ le x (orone a).
  Proof. intros a x H. unfold orone. destruct (mis0 G a) eqn:Z; auto. left. apply (mis0_iff G L) in Z. congruence. Qed.

  Lemma rmaxf_nonneg : forall l, le (m0 G) (rmaxf G l).
  Proof. intros [|e l]; [apply (mle_refl L)|]. unfold rmaxf. apply (ml_abs G L). Qed.

  Lemma rsf_pos : forall B i, lt (m0 G) (rsf B i).
  Proof. intros. apply (sl_pos _ _ _ _ SL), orone_pos, rmaxf_nonneg. Qed.

  (** ** The row pass *)
  Lemma row_pass : forall (B : CS O) rs, wf B -> tight B -> psize B <= length rs ->
    wp (for_range 0 (psize B) (fun row (s : list (T O) * list (M G)) =>
      let '(val, rs) := s in
      b <- get (ind_start B) row ;; e <- get (ind_start B) (S row) ;;
      if e <? b then UB
      else
        tmp <- (if e =? b then Ok (m0 G) else row_max G val b e) ;;
        let tmp := if mis0 G tmp then mone else tmp in
        let tmp := mrec tmp in
        rs <- set rs row tmp ;;
        val <- for_range b e (fun k val => v <- get val k ;; set val k (smul v tmp)) val ;;
        Ok (val, rs)) (vals B, rs))
    (fun r => length (fst r) = length (vals B) /\ length (snd r) = length rs /\
       (forall i, i < psize B -> nth i (snd r) (m0 G) = rsf B i) /\
       (forall i, psize B <= i -> nth i (snd r) (m0 G) = nth i rs (m0 G)) /\
       (forall i k, in_row B i k -> nth k (fst r) (t0 O) = smul (vl B k) (rsf B i))).
  Proof.
    intros B rs W (T1 & T2 & T3) Lr.
    eapply wp_conseq.
    { apply for_range_inv with (I := fun n (r : list (T O) * list (M G)) =>
       length (fst r) = length (vals B) /\ length (snd r) = length rs /\
       (forall i, i < n -> nth i (snd r) (m0 G) = rsf B i) /\
       (forall i, n <= i -> nth i (snd r) (m0 G) = nth i rs (m0 G)) /\
       (forall i k, in_row B i k -> nth k (fst r) (t0 O) = if i <? n then smul (vl B k) (rsf B i) else vl B k)); [lia| |].
      - cbn [fst snd]. repeat split; auto. intros; lia.
      - intros n [val rs'] Hn (I1 & I2 & I3 & I4 & I5). cbn [fst snd] in *.
        assert (Hps : n < psize B) by lia.
        pose proof (wf_mono O B W n Hps). pose proof (st_mono O B W (S n) (psize B) ltac:(lia) ltac:(lia)).
        wpb. apply wp_get with (d := 0); [lia|]. wpb. apply wp_get with (d := 0); [lia|].
        fold (st B n). fold (st B (S n)).
        destruct (Nat.ltb_spec (st B (S n)) (st B n)); [lia|].
        assert (E : (if st B (S n) =? st B n then Ok (m0 G) else row_max G val (st B n) (st B (S n))) = Ok (rmaxf G (rowl B n))).
        { destruct (Nat.eqb_spec (st B (S n)) (st B n)) as [E|E].
          - unfold rowl. rewrite E, Nat.sub_diag. reflexivity.
          - rewrite (row_max_eq G B val); try lia. now rewrite rowl_run.
            intros k Hk. rewrite (I5 n k); [|split; [auto|lia]]. now rewrite Nat.ltb_irrefl. }
        rewrite E. cbn [bind]. fold (orone (rmaxf G (rowl B n))). fold (rsf B n).
        wpb. apply wp_set; [lia|]. wpb.
        eapply wp_conseq.
        { apply for_range_inv with (I := fun k v => length v = length (vals B) /\
            forall l, nth l v (t0 O) = if (st B n <=? l) && (l <? k) then smul (vl B l) (rsf B n) else nth l val (t0 O)); [lia| |].
          - split; auto. intros l. destruct (Nat.leb_spec (st B n) l), (Nat.ltb_spec l (st B n)); auto; lia.
          - intros k v Hk (J1 & J2). wpb. apply wp_get with (d := t0 O); [lia|]. apply wp_set; [lia|].
            rewrite upd_length. split; auto. intros l. rewrite nth_upd by lia.
            destruct (Nat.eqb_spec l k) as [->|Hn'].
            + rewrite J2. destruct (Nat.leb_spec (st B n) k); [|lia]. destruct (Nat.ltb_spec k k); [lia|].
              destruct (Nat.ltb_spec k (S k)); [|lia]. cbn [andb]. f_equal.
              rewrite (I5 n k); [|split; [auto|lia]]. now rewrite Nat.ltb_irrefl.
            + rewrite J2. destruct (Nat.leb_spec (st B n) l); cbn [andb]; auto.
              destruct (Nat.ltb_spec l k), (Nat.ltb_spec l (S k)); auto; lia. }
        intros v (J1 & J2). cbn beta in *. apply wp_ok. cbn [fst snd]. rewrite upd_length. repeat split; auto.
        + intros i Hi. rewrite nth_upd by lia. destruct (Nat.eqb_spec i n) as [->|Hn']; auto. apply I3; lia.
        + intros i Hi. rewrite nth_upd_neq by lia. apply I4; lia.
        + intros i k Hik. rewrite J2. destruct (Nat.eq_dec i n) as [->|Hn'].
          * destruct Hik as (Q1 & Q2). destruct (Nat.leb_spec (st B n) k); [|lia].
            destruct (Nat.ltb_spec k (st B (S n))); [|lia]. cbn [andb].
            destruct (Nat.ltb_spec n (S n)); [auto|lia].
          * replace ((st B n <=? k) && (k <? st B (S n))) with false.
            -- rewrite (I5 i k Hik). destruct (Nat.ltb_spec i n), (Nat.ltb_spec i (S n)); auto; lia.
            -- symmetry. apply not_true_is_false. intros Q. apply andb_prop in Q. destruct Q as [Q1 Q2].
               apply Nat.leb_le in Q1. apply Nat.ltb_lt in Q2.
               apply Hn', (in_row_unique B W k); auto. split; [auto|lia]. }
    intros [v r] (I1 & I2 & I3 & I4 & I5). cbn [fst snd] in *. repeat split; auto.
    intros i k Hik. rewrite (I5 i k Hik). destruct (Nat.ltb_spec i (psize B)); auto. destruct Hik. lia.
  Qed.

  (** maximum over the entries with index [j], from a start value *)
  Definition cmaxl (val : list (T O)) (ind : list nat) (n j : nat) : M G :=
    fold_left (fun c i => if nth i ind 0 =? j then mmax G (mabs G (nth i val (t0 O))) c else c) (seq 0 n) (m0 G).
  Lemma cmaxl_S : forall val ind n j, cmaxl val ind (S n) j =
    if nth n ind 0 =? j then mmax G (mabs G (nth n val (t0 O))) (cmaxl val ind n j) else cmaxl val ind n j.
  Proof. intros. unfold cmaxl. rewrite seq_S, fold_left_app. reflexivity. Qed.
  Lemma cmaxl_props : forall val ind n j,
    le (m0 G) (cmaxl val ind n j) /\
    (forall k, k < n -> nth k ind 0 = j -> le (mabs G (nth k val (t0 O))) (cmaxl val ind n j)) /\
    (cmaxl val ind n j = m0 G \/ exists k, k < n /\ nth k ind 0 = j /\ mabs G (nth k val (t0 O)) = cmaxl val ind n j).
  Proof.
    intros val ind n j. induction n as [|n (I1 & I2 & I3)].
    - unfold cmaxl. simpl. repeat split; auto; [apply (mle_refl L)|intros; lia].
    - rewrite cmaxl_S. destruct (Nat.eqb_spec (nth n ind 0) j) as [E|E].
      + split; [eapply (mle_trans L); [exact I1|apply (mmax_r L)]|]. split.
        * intros k Hk Ek. destruct (Nat.eq_dec k n) as [->|Hn]; [apply (mmax_l L)|].
          eapply (mle_trans L); [apply I2; auto; lia|apply (mmax_r L)].
        * unfold mmax. destruct (mlt G (mabs G (nth n val (t0 O))) (cmaxl val ind n j)).
          -- destruct I3 as [I3|(k & K1 & K2 & K3)]; auto. right. exists k. repeat split; auto.
          -- right. exists n. auto.
      + split; [auto|]. split.
        * intros k Hk Ek. destruct (Nat.eq_dec k n) as [->|Hn]; [contradiction|]. apply I2; auto; lia.
        * destruct I3 as [I3|(k & K1 & K2 & K3)]; auto. right. exists k. repeat split; auto.
  Qed.

  Lemma scale_l : forall (B : CS O) rs cs, wf B -> tight B -> ssize B = psize B ->
    length rs = psize B -> length cs = psize B ->
    exists B' rs' cs', scale_extreme_values G mone mrec smul false B rs cs = Ok (B', rs', cs') /\
      wf B' /\ is_scaled G smul B B' rs' cs' /\ length rs' = psize B /\ length cs' = psize B /\
      (forall i, i < psize B -> lt (m0 G) (nth i rs' (m0 G)) /\ lt (m0 G) (nth i cs' (m0 G))) /\
      (forall i j v, i < psize B -> stored B' i j v -> le (mabs G v) mone) /\
      (forall j, j < psize B -> (exists i v, i < psize B /\ stored B i j v /\ v <> t0 O) ->
         exists i v, i < psize B /\ stored B' i j v /\ mabs G v = mone).
  Proof.
    intros B rs cs W TT Sq L1 L2. pose proof TT as (T1 & T2 & T3).
    unfold scale_extreme_values. cbv zeta.
    pose proof (row_pass B rs W TT ltac:(lia)) as R1. cbv zeta in R1. apply wp_inv in R1.
    destruct R1 as ([val rs'] & -> & P1 & P2 & P3 & P4 & P5). cbn [bind fst snd] in *.
    set (nz := st B (psize B)) in *.
    assert (NZ : nnz O B = Ok nz).
    { unfold nnz. destruct (indices B) eqn:E.
      - simpl in T2. now rewrite <- T2.
      - rewrite (get_nth _ _ _ 0) by lia. cbn [bind]. rewrite (get_nth _ _ _ 0) by lia. cbn [bind].
        fold (st B 0). rewrite (wf_first O B W), T1. replace (psize B + 1 - 1) with (psize B) by lia.
        fold (st B (psize B)). now rewrite Nat.sub_0_r. }
    rewrite NZ. cbn [bind].
    assert (HIX : forall k, k < nz -> ix B k < psize B).
    { intros k Hk. pose proof (wf_range O B W k Hk). lia. }
    unfold fill_n. destruct (Nat.leb_spec (psize B) (length cs)); [|lia]. cbn [bind].
    rewrite skipn_all2 by lia. rewrite app_nil_r.
    assert (C1 : wp (for_range 0 nz (fun i cs =>
          j <- get (indices B) i ;; v <- get val i ;; c <- get cs j ;;
          set cs j (mmax G (mabs G v) c)) (repeat (m0 G) (psize B)))
        (fun c => length c = psize B /\ forall j, j < psize B -> nth j c (m0 G) = cmaxl val (indices B) nz j)).
    { apply for_range_inv with (I := fun k c => length c = psize B /\
         forall j, j < psize B -> nth j c (m0 G) = cmaxl val (indices B) k j); [lia| |].
      - rewrite repeat_length. split; auto. intros j Hj. rewrite nth_repeat. reflexivity.
      - intros k c Hk (J1 & J2). wpb. apply wp_get with (d := 0); [lia|].
        wpb. apply wp_get with (d := t0 O); [lia|]. fold (ix B k). pose proof (HIX k ltac:(lia)).
        wpb. apply wp_get with (d := m0 G); [lia|]. apply wp_set; [lia|]. rewrite upd_length. split; auto.
        intros j Hj. rewrite nth_upd by lia. rewrite cmaxl_S. fold (ix B k). rewrite (Nat.eqb_sym (ix B k) j).
        destruct (Nat.eqb_spec j (ix B k)) as [->|Hn]; rewrite J2; auto. }
    apply wp_inv in C1. destruct C1 as (c1 & -> & LC1 & HC1). cbn [bind].
    set (csf := fun j => let c := cmaxl val (indices B) nz j in if mis0 G c then mone else mrec c).
    assert (C2 : wp (for_range 0 (psize B) (fun i cs =>
          c <- get cs i ;; set cs i (if mis0 G c then mone else mrec c)) c1)
        (fun c => length c = psize B /\ forall j, j < psize B -> nth j c (m0 G) = csf j)).
    { eapply wp_conseq.
      { apply for_range_inv with (I := fun k c => length c = psize B /\
         forall j, j < psize B -> nth j c (m0 G) = if j <? k then csf j else cmaxl val (indices B) nz j); [lia| |].
        - split; auto.
        - intros k c Hk (J1 & J2). wpb. apply wp_get with (d := m0 G); [lia|].
          apply wp_set; [lia|]. rewrite upd_length. split; auto.
          intros j Hj. rewrite nth_upd by lia. rewrite !J2 by lia. rewrite Nat.ltb_irrefl.
          destruct (Nat.eqb_spec j k) as [->|Hn].
          + destruct (Nat.ltb_spec k (S k)); [reflexivity|lia].
          + destruct (Nat.ltb_spec j k), (Nat.ltb_spec j (S k)); auto; lia. }
      intros c (J1 & J2). split; auto. intros j Hj. rewrite J2 by auto. destruct (Nat.ltb_spec j (psize B)); [auto|lia]. }
    apply wp_inv in C2. destruct C2 as (cs' & -> & LC & HC). cbn [bind].
    assert (V : wp (for_range 0 nz (fun i val =>
      j <- get (indices B) i ;; v <- get val i ;; c <- get cs' j ;; set val i (smul v c)) val)
      (fun v => length v = length val /\ forall k, k < nz -> nth k v (t0 O) = smul (nth k val (t0 O)) (csf (ix B k)))).
    { eapply wp_conseq.
      { apply for_range_inv with (I := fun n v => length v = length val /\
          forall k, k < nz -> nth k v (t0 O) = if k <? n then smul (nth k val (t0 O)) (csf (ix B k)) else nth k val (t0 O)); [lia| |].
        - split; auto.
        - intros n v Hn (J1 & J2). wpb. apply wp_get with (d := 0); [lia|].
          wpb. apply wp_get with (d := t0 O); [lia|]. fold (ix B n). pose proof (HIX n ltac:(lia)).
          wpb. apply wp_get with (d := m0 G); [lia|]. apply wp_set; [lia|]. rewrite upd_length. split; auto.
          intros k Hk. rewrite nth_upd by lia. rewrite !J2 by lia. rewrite Nat.ltb_irrefl. rewrite HC by auto.
          destruct (Nat.eqb_spec k n) as [->|Hne].
          + destruct (Nat.ltb_spec n (S n)); [auto|lia].
          + destruct (Nat.ltb_spec k n), (Nat.ltb_spec k (S n)); auto; lia. }
      intros v (J1 & J2). split; auto. intros k Hk. rewrite J2 by auto. destruct (Nat.ltb_spec k nz); [auto|lia]. }
    apply wp_inv in V. destruct V as (val' & -> & LV & HV). cbn [bind].
    assert (CPOS : forall j, lt (m0 G) (csf j)).
    { intros j. unfold csf. destruct (cmaxl_props val (indices B) nz j) as (K1 & _).
      pose proof (orone_pos _ K1) as K2. unfold orone in K2. cbv zeta.
      destruct (mis0 G (cmaxl val (indices B) nz j)); [auto|]. now apply (sl_pos _ _ _ _ SL). }
    set (B' := mkCS (psize B) (ssize B) (ind_start B) (indices B) val').
    assert (W' : wf B').
    { destruct W as [X1 X2 X3 X4 X5 X6]. constructor; auto. change (st B (psize B) <= length val'). lia. }
    assert (NV : forall i k, in_row B i k -> nth k val' (t0 O) = smul (smul (vl B k) (rsf B i)) (csf (ix B k))).
    { intros i k Hik. rewrite HV. - now rewrite (P5 i k).
      - destruct Hik as (Q1 & Q2). pose proof (st_mono O B W (S i) (psize B) ltac:(lia) ltac:(lia)). unfold nz. lia. }
    assert (SC : is_scaled G smul B B' rs' cs').
    { split; [auto|]. split; [auto|]. intros i Hi. unfold rowl. rewrite map_map.
      change (st B' (S i)) with (st B (S i)). change (st B' i) with (st B i).
      apply map_ext_in. intros k Hk. apply in_seq in Hk.
      change (ix B' k) with (ix B k). change (vl B' k) with (nth k val' (t0 O)). cbn [fst snd].
      rewrite (NV i k) by (split; [auto|lia]).
      pose proof (st_mono O B W (S i) (psize B) ltac:(lia) ltac:(lia)).
      rewrite P3 by auto. rewrite HC; auto. apply HIX. unfold nz. lia. }
    exists B', rs', cs'. split; [reflexivity|]. split; [auto|]. split; [auto|]. split; [lia|]. split; [lia|].
    split. { intros i Hi. rewrite P3, HC by auto. split; [apply rsf_pos|apply CPOS]. }
    assert (STO : forall i j v, i < psize B -> (stored B' i j v <-> exists k, in_row B i k /\ ix B k = j /\ nth k val' (t0 O) = v)).
    { intros i j v Hi. unfold stored. rewrite rowl_in.
      change (st B' (S i)) with (st B (S i)). change (st B' i) with (st B i). split.
      - intros (k & K1 & K2 & K3). exists k. split; [split; auto|auto].
      - intros (k & (_ & K1) & K2 & K3). exists k. auto. }
    split.
    - intros i j v Hi HS. apply STO in HS; auto. destruct HS as (k & Hik & E1 & E2).
      assert (Hknz : k < nz). { destruct Hik. pose proof (st_mono O B W (S i) (psize B) ltac:(lia) ltac:(lia)). unfold nz. lia. }
      rewrite <- E2, HV by auto. rewrite (sl_abs _ _ _ _ SL) by apply CPOS. rewrite E1.
      destruct (cmaxl_props val (indices B) nz j) as (K1 & K2 & K3).
      specialize (K2 k Hknz E1). unfold csf. cbv zeta.
      destruct (mis0 G (cmaxl val (indices B) nz j)) eqn:Z.
      + pose proof (proj1 (mis0_iff G L _) Z) as Z'. rewrite Z' in K2.
        rewrite (mle_antisym L _ _ K2 (ml_abs G L _)). rewrite (ml_mul0 G L). apply (mlt_le L), (sl_one _ _ _ _ SL).
      + apply (sl_le _ _ _ _ SL); auto.
        * pose proof (orone_pos _ K1) as K4. unfold orone in K4. now rewrite Z in K4.
        * apply (ml_abs G L).
    - intros j Hj (i & v & Hi & HS & Hv). unfold stored in HS. apply rowl_in in HS.
      destruct HS as (k & K1 & K2 & K3).
      assert (Hik : in_row B i k) by (split; auto).
      assert (Hknz : k < nz). { pose proof (st_mono O B W (S i) (psize B) ltac:(lia) ltac:(lia)). unfold nz. lia. }
      destruct (cmaxl_props val (indices B) nz j) as (M1 & M2 & M3).
      assert (POS : lt (m0 G) (cmaxl val (indices B) nz j)).
      { eapply (mlt_le_trans L); [|apply (M2 k Hknz K2)]. rewrite (P5 i k Hik).
        rewrite (sl_abs _ _ _ _ SL) by apply rsf_pos. apply (sl_nz _ _ _ _ SL); [|apply rsf_pos].
        destruct (mle_total L (mabs G (vl B k)) (m0 G)) as [Q|Q]; auto.
        exfalso. apply Hv. rewrite <- K3. apply (ml_abs0 G L). apply (mle_antisym L); [exact Q|apply (ml_abs G L)]. }
      destruct M3 as [M3|(k' & Q1 & Q2 & Q3)]. { rewrite M3 in POS. rewrite (ml_irr G L) in POS. discriminate. }
      destruct (in_row_ex B W k' Q1) as (i' & Hi').
      exists i', (nth k' val' (t0 O)). split; [apply Hi'|]. split. { apply STO; [apply Hi'|]. exists k'. auto. }
      rewrite HV by auto. rewrite (sl_abs _ _ _ _ SL) by apply CPOS. fold (ix B k') in Q2. rewrite Q2, Q3.
      unfold csf. cbv zeta. destruct (mis0 G (cmaxl val (indices B) nz j)) eqn:Z.
      + apply (mis0_iff G L) in Z. rewrite Z in POS. rewrite (ml_irr G L) in POS. discriminate.
      + now apply (sl_eq _ _ _ _ SL).
  Qed.
End Sc.
