(** * PruneProofs *)
From Coq Require Import List Arith Lia Bool.
From Verif Require Import Base Scalar Spec CSModel CSSpec ConvModel ConvSpec BucketProofs
  ConvProofs ConvProofs2 ConvProofs3 ConvProofs4 Mag PruneModel PruneSpec.
Import ListNotations.

Section P.
  Context {O : Ops} (G : Mag O).
  Notation T := (T O).
  Notation row := (list (nat * T)).
  Notation run := (run O).
  Notation flat := (flat O).

  Definition bestf (best v : T) : T := if mlt G (mabs G best) (mabs G v) then v else best.
  Definition rmaxf (l : row) : M G :=
    match l with [] => m0 G | e :: t => mabs G (fold_left bestf (map snd t) (snd e)) end.

  Definition cthr (eps : M G) (es : row) (c : nat) : M G :=
    fold_left (fun b e => if fst e =? c then mmul G eps (mmax G b (mabs G (snd e))) else b) es (m0 G).

  Lemma run_S : forall A lo k, lo <= k -> run A lo (S k) = run A lo k ++ [(ix A k, vl A k)].
  Proof.
    intros. unfold ConvProofs3.run. replace (S k - lo) with (S (k - lo)) by lia. rewrite seq_S, map_app.
    simpl. do 3 f_equal; f_equal; lia.
  Qed.

  Lemma row_max_eq : forall (A : CS O) val pos e, pos < e -> e <= length val ->
    (forall k, pos <= k < e -> nth k val (t0 O) = vl A k) ->
    row_max G val pos e = Ok (rmaxf (run A pos e)).
  Proof.
    intros A val pos e H L Hv. unfold row_max. rewrite (get_nth _ _ _ (t0 O)) by lia. cbn [bind].
    rewrite Hv by lia.
    assert (GL : wp (for_range (S pos) e (fun k best =>
      v <- get val k ;; Ok (if mlt G (mabs G best) (mabs G v) then v else best)) (vl A pos))
      (fun b => b = fold_left bestf (map snd (run A (S pos) e)) (vl A pos))).
    { apply (for_range_inv _ (fun k b => b = fold_left bestf (map snd (run A (S pos) k)) (vl A pos))); [lia| |].
      - unfold ConvProofs3.run. now rewrite Nat.sub_diag.
      - intros k b Hk E. wpb. apply wp_get with (d := t0 O); [lia|]. apply wp_ok.
        rewrite run_S, map_app, fold_left_app by lia. simpl. rewrite <- E. rewrite Hv by lia. reflexivity. }
    apply wp_inv in GL. destruct GL as (b & -> & ->). cbn [bind]. f_equal.
    unfold rmaxf. replace (run A pos e) with ((ix A pos, vl A pos) :: run A (S pos) e); auto.
    unfold ConvProofs3.run. replace (e - pos) with (S (e - S pos)) by lia. reflexivity.
  Qed.

  Definition eps' (eps : M G) : M G := if mlt G eps (m0 G) then m0 G else eps.
  Definition keep (eps : M G) (A : CS O) (i : nat) (e : nat * T) : bool :=
    negb (mle G (mabs G (snd e)) (mmin G (mmul G (eps' eps) (rmaxf (rowl A i)))
                                        (cthr (eps' eps) (run A 0 (st A (psize A))) (fst e)))).

  Lemma prune_rows : forall (A : CS O) eps jm, wf A -> tight A ->
    exists B n, prune G A eps jm = Ok (B, n) /\ wf B /\ tight B /\ psize B = psize A /\ ssize B = ssize A /\
      n = nnz_of A - nnz_of B /\
      forall i, i < psize A -> rowl B i = filter (keep eps A i) (rowl A i).
  Proof.
    intros A eps jm W T. pose proof T as (T1 & T2 & T3).
    unfold prune. destruct (Nat.eqb_spec (psize A) 0) as [P0|P0].
    { exists A, 0. repeat (split; auto). - lia. - intros; lia. }
    fold (eps' eps). set (ep := eps' eps).
    assert (NZ : nnz O A = Ok (st A (psize A))).
    { unfold nnz. destruct (indices A) eqn:E.
      - simpl in T2. now rewrite <- T2.
      - rewrite (get_nth _ _ _ 0) by lia. cbn [bind]. rewrite (get_nth _ _ _ 0) by lia. cbn [bind].
        fold (st A 0). rewrite (wf_first O A W), T1. replace (psize A + 1 - 1) with (psize A) by lia.
        fold (st A (psize A)). now rewrite Nat.sub_0_r. }
    rewrite NZ. cbn [bind]. set (nz := st A (psize A)) in *.
    set (rows := fun i => filter (keep eps A i) (rowl A i)).
    match goal with |- exists B n, ?m = Ok (B, n) /\ _ =>
      assert (GL : wp m (fun r => let '(B, n) := r in
        wf B /\ tight B /\ psize B = psize A /\ ssize B = ssize A /\ n = nnz_of A - nnz_of B /\
        forall i, i < psize A -> rowl B i = rows i)) end.
    2:{ apply wp_inv in GL. destruct GL as ([B n] & E & H). exists B, n. split; auto. }
    wpb. eapply wp_conseq.
    { apply (for_range_inv _ (fun i buf => length buf = ssize A + 1 /\
        forall c, c < ssize A -> nth c buf (m0 G) = cthr ep (run A 0 i) c)); [lia| |].
      - rewrite app_length, repeat_length. simpl. split; auto. intros c Hc.
        rewrite app_nth1 by (rewrite repeat_length; lia). rewrite nth_repeat. reflexivity.
      - intros i buf Hi (Lb & Hb). wpb. apply wp_get with (d := 0); [lia|].
        wpb. apply wp_get with (d := t0 O); [lia|]. fold (ix A i) (vl A i).
        pose proof (wf_range O A W i ltac:(lia)) as Hx.
        wpb. apply wp_get with (d := m0 G); [lia|]. rewrite Hb by auto.
        apply wp_set; [lia|]. rewrite upd_length. split; auto. intros c Hc.
        rewrite nth_upd by lia. unfold cthr at 2. rewrite run_S, fold_left_app by lia. simpl.
        rewrite (Nat.eqb_sym (ix A i) c). destruct (Nat.eqb_spec c (ix A i)).
        + now subst c.
        + rewrite Hb by auto. reflexivity. }
    intros buf (Lb & Hb).
    assert (RL : forall i, i < psize A -> rowl A i = run A (st A i) (st A (S i))).
    { intros. apply rowl_run. }
    wpb. eapply wp_conseq.
    { apply (for_range_inv _ (fun i (s : list nat * list nat * list (Scalar.T O) * nat * nat) =>
        let '(start, ind, val, j, pos) := s in
        length start = psize A + 1 /\ length ind = nz /\ length val = nz /\
        j = length (flat rows i) /\ pos = st A i /\ j <= pos /\
        (forall k, k <= i -> nth k start 0 = length (flat rows k)) /\
        (forall k, i < k -> nth k start 0 = st A k) /\
        conti O (flat rows i) ind /\ contv O (flat rows i) val /\
        (forall k, pos <= k -> nth k ind 0 = ix A k) /\ (forall k, pos <= k -> nth k val (t0 O) = vl A k))); [lia| |].
      - repeat (split; [solve [auto]|]). split; [symmetry; apply W|]. split; [lia|].
        split. { intros k Hk. replace k with 0 by lia. apply W. }
        split; [reflexivity|]. split; [intros r Hr; simpl in Hr; lia|]. split; [intros r Hr; simpl in Hr; lia|].
        split; reflexivity.
      - intros i [[[[start ind] val] j] pos] Hi (L1 & L2 & L3 & Ej & Ep & Hjp & H1 & H2 & H3 & H4 & H5 & H6).
        wpb. apply wp_get with (d := 0); [lia|]. rewrite H2 by lia.
        pose proof (wf_mono O A W i ltac:(lia)) as Mi.
        pose proof (st_mono O A W (S i) (psize A) ltac:(lia) ltac:(lia)) as Mp. fold nz in Mp.
        destruct (Nat.ltb_spec (st A (S i)) pos); [lia|].
        wpb. eapply wp_conseq with (P := fun s => let '(ind', val', j') := s in
          length ind' = nz /\ length val' = nz /\ j' = j + length (rows i) /\ j' <= st A (S i) /\
          conti O (flat rows i ++ rows i) ind' /\ contv O (flat rows i ++ rows i) val' /\
          (forall k, st A (S i) <= k -> nth k ind' 0 = ix A k) /\ (forall k, st A (S i) <= k -> nth k val' (t0 O) = vl A k)).
        { destruct (Nat.eqb_spec (st A (S i)) pos) as [EQ|NE].
          - apply wp_ok. assert (RN : rows i = []).
            { unfold rows. replace (rowl A i) with (@nil (nat * Scalar.T O)); auto.
              symmetry. apply length_zero_iff_nil. rewrite rowl_length. lia. }
            rewrite RN, app_nil_r. simpl. repeat (split; [solve [auto; lia]|]). split; intros; [apply H5|apply H6]; lia.
          - wpb. rewrite (row_max_eq A val pos (st A (S i))); try lia.
            2:{ intros k Hk. apply H6; lia. }
            apply wp_ok. eapply wp_conseq.
            + apply (for_range_inv _ (fun k (s : list nat * list (Scalar.T O) * nat) => let '(ind', val', j') := s in
                length ind' = nz /\ length val' = nz /\
                j' = j + length (filter (keep eps A i) (run A pos k)) /\ j' <= k /\
                conti O (flat rows i ++ filter (keep eps A i) (run A pos k)) ind' /\
                contv O (flat rows i ++ filter (keep eps A i) (run A pos k)) val' /\
                (forall r, k <= r -> nth r ind' 0 = ix A r) /\ (forall r, k <= r -> nth r val' (t0 O) = vl A r))); [lia| |].
              * unfold ConvProofs3.run. rewrite Nat.sub_diag. simpl. rewrite app_nil_r.
                repeat (split; [solve [auto; lia]|]). auto.
              * intros k [[ind' val'] j'] Hk (K1 & K2 & K3 & K4 & K5 & K6 & K7 & K8).
                wpb. apply wp_get with (d := t0 O); [lia|]. wpb. apply wp_get with (d := 0); [lia|].
                rewrite K7, K8 by lia. pose proof (wf_range O A W k ltac:(fold nz; lia)) as Hx.
                wpb. apply wp_get with (d := m0 G); [lia|]. rewrite Hb by auto.
                rewrite run_S, filter_app by lia. cbn [filter].
                assert (KE : keep eps A i (ix A k, vl A k) = negb (mle G (mabs G (vl A k))
                   (mmin G (mmul G ep (rmaxf (run A pos (st A (S i))))) (cthr ep (run A 0 nz) (ix A k))))).
                { unfold keep. simpl. rewrite RL by lia. rewrite Ep. reflexivity. }
                rewrite KE. destruct (mle G _ _); cbn [negb].
                -- rewrite app_nil_r. apply wp_ok. repeat (split; [solve [auto; lia]|]).
                   split; intros; [apply K7|apply K8]; lia.
                -- assert (LJ : length (flat rows i ++ filter (keep eps A i) (run A pos k)) = j') by (rewrite app_length; lia).
                   wpb. apply wp_set; [lia|]. wpb. apply wp_set; [lia|]. apply wp_ok.
                   rewrite !upd_length, app_length. simpl. rewrite app_assoc.
                   repeat (split; [solve [auto; lia]|]).
                   split. { rewrite <- LJ. apply (conti_snoc O _ _ (ix A k, vl A k)); auto. lia. }
                   split. { rewrite <- LJ. apply (contv_snoc O _ _ (ix A k, vl A k)); auto. lia. }
                   split; intros r Hr; rewrite nth_upd_neq by lia; [apply K7|apply K8]; lia.
            + intros [[ind' val'] j'] (K1 & K2 & K3 & K4 & K5 & K6 & K7 & K8).
              rewrite Ep, <- RL in K3, K5, K6 by lia. fold (rows i) in K3, K5, K6. repeat (split; [solve [auto]|]). auto. }
        intros [[ind' val'] j'] (K1 & K2 & K3 & K4 & K5 & K6 & K7 & K8).
        wpb. apply wp_get with (d := 0); [lia|]. rewrite H1 by lia. wpb. apply wp_set; [lia|]. apply wp_ok.
        rewrite upd_length, flat_S, app_length. repeat (split; [solve [auto; lia]|]).
        split. { intros k Hk. rewrite nth_upd by lia. destruct (Nat.eqb_spec k (S i)).
          - subst k. rewrite flat_S, app_length. lia.
          - apply H1; lia. }
        split. { intros k Hk. rewrite nth_upd by lia. destruct (Nat.eqb_spec k (S i)); [lia|]. apply H2; lia. }
        auto. }
    intros [[[[start ind] val] j] pos] (L1 & L2 & L3 & Ej & Ep & Hjp & H1 & H2 & H3 & H4 & H5 & H6).
    fold nz in Ep.
    assert (RG : forall i e, i < psize A -> In e (rows i) -> fst e < ssize A).
    { intros i e Hi He. apply filter_In in He. destruct He as [He _]. eapply wf_rowl_range; eauto. }
    assert (FIN : forall ind' val', length ind' = j -> length val' = j ->
      conti O (flat rows (psize A)) ind' -> contv O (flat rows (psize A)) val' ->
      let B := mkCS (psize A) (ssize A) start ind' val' in
      wf B /\ tight B /\ psize B = psize A /\ ssize B = ssize A /\ nz - j = nnz_of A - nnz_of B /\
        forall i, i < psize A -> rowl B i = rows i).
    { intros ind' val' Li Lv Ci Cv. pose proof (built_storage O (psize A) (ssize A) start ind' val' rows) as BS.
      destruct BS as (B1 & B2 & B3); auto; try lia.
      repeat (split; [solve [auto]|]). split; auto. unfold nnz_of. fold nz. unfold st at 1. simpl.
      rewrite H1 by lia. now rewrite <- Ej. }
    destruct (Nat.eqb_spec (nz - j) 0) as [E0|E0].
    - apply wp_ok. assert (j = nz) by lia. destruct (FIN ind val) as (B1 & B2 & B3 & B4 & B5 & B6); auto; try lia.
      repeat (split; [solve [auto]|]). split; auto. lia.
    - wpb. apply wp_get with (d := 0); [lia|]. wpb. apply wp_get with (d := 0); [lia|]. rewrite H1 by lia.
      rewrite L1. replace (psize A + 1 - 1) with (psize A) by lia. rewrite H1 by lia. simpl length. rewrite Nat.sub_0_r, <- Ej.
      apply wp_ok. apply FIN.
      + rewrite firstn_length. lia.
      + rewrite firstn_length. lia.
      + intros r Hr. rewrite nth_firstn_lt by lia. auto.
      + intros r Hr. rewrite nth_firstn_lt by lia. auto.
  Qed.

  (** ** With laws of the order *)
  Hypothesis L : MagLaws G.
  Notation le a b := (mle G a b = true).

  Lemma best_max : forall t v, let b := fold_left bestf t v in
    (b = v \/ In b t) /\ le (mabs G v) (mabs G b) /\ forall x, In x t -> le (mabs G x) (mabs G b).
  Proof.
    induction t as [|x t IH]; intros v; simpl.
    - split; auto. split; [apply (mle_refl L)|tauto].
    - destruct (IH (bestf v x)) as (A1 & A2 & A3).
      assert (B1 : le (mabs G v) (mabs G (bestf v x)) /\ le (mabs G x) (mabs G (bestf v x)) /\
                   (bestf v x = v \/ bestf v x = x)).
      { unfold bestf. destruct (mlt G (mabs G v) (mabs G x)) eqn:E.
        - split; [now apply (mlt_le L)|]. split; [apply (mle_refl L)|auto].
        - split; [apply (mle_refl L)|]. split; auto. rewrite (ml_le G L), E. auto. }
      destruct B1 as (B1 & B2 & B3). split; [|split].
      + destruct A1 as [A1|A1]; auto. rewrite A1. destruct B3 as [-> | ->]; auto.
      + eapply (mle_trans L); eauto.
      + intros y [<-|Hy]; auto. eapply (mle_trans L); eauto.
  Qed.

  Lemma rmaxf_max : forall l, l <> [] ->
    (exists e, In e l /\ mabs G (snd e) = rmaxf l) /\ forall e, In e l -> le (mabs G (snd e)) (rmaxf l).
  Proof.
    intros [|e t] H; [congruence|]. clear H. simpl. destruct (best_max (map snd t) (snd e)) as (A1 & A2 & A3).
    split.
    - destruct A1 as [A1|A1].
      + exists e. rewrite A1. auto.
      + apply in_map_iff in A1. destruct A1 as (x & E & Hx). exists x. rewrite E. auto.
    - intros x [<-|Hx]; auto. apply A3. now apply in_map.
  Qed.

  Lemma rmaxf_is : forall A i m, is_row_max G A i m -> m = rmaxf (rowl A i).
  Proof.
    intros A i m ((j & v & Hs & E) & H).
    destruct (rmaxf_max (rowl A i)) as ((e & He & Ee) & Hm).
    { intros N. unfold stored in Hs. rewrite N in Hs. auto. }
    apply (mle_antisym L).
    - rewrite <- E. apply (Hm (j, v)). exact Hs.
    - rewrite <- Ee. apply (H (fst e)). unfold stored. now destruct e.
  Qed.

  Lemma cthr_bound : forall ep cm es c, (forall x, le (m0 G) x -> le (mmul G ep x) x) -> le (m0 G) ep ->
    le (m0 G) cm -> (forall e, In e es -> fst e = c -> le (mabs G (snd e)) cm) ->
    le (cthr ep es c) cm /\ ((exists e, In e es /\ fst e = c) -> le (cthr ep es c) (mmul G ep cm)).
  Proof.
    intros ep cm es c H1 Hep H0. induction es as [|e es IH] using rev_ind; intros H.
    - unfold cthr. simpl. split; auto. intros (e & [] & _).
    - unfold cthr in *. rewrite fold_left_app. cbn [fold_left]. destruct IH as [I1 I2].
      { intros; apply H; auto. apply in_or_app; auto. }
      destruct (Nat.eqb_spec (fst e) c).
      + assert (le (mmul G ep (mmax G (fold_left (fun b e => if fst e =? c then mmul G ep (mmax G b (mabs G (snd e))) else b) es (m0 G)) (mabs G (snd e)))) (mmul G ep cm)).
        { apply (ml_mono G L); auto. apply mmax_lub; auto. apply H; auto. apply in_or_app; simpl; auto. }
        split; auto. eapply (mle_trans L); eauto.
      + split; auto. intros (e' & He' & E). apply I2. apply in_app_or in He'. destruct He' as [He'|[<-|[]]]; [eauto|contradiction].
  Qed.

  Lemma run_stored : forall (A : CS O), wf A -> forall e, In e (run A 0 (st A (psize A))) ->
    exists i, i < psize A /\ stored A i (fst e) (snd e).
  Proof.
    intros A W e He. unfold ConvProofs3.run in He. apply in_map_iff in He. destruct He as (k & <- & Hk). simpl.
    apply in_seq in Hk. rewrite Nat.sub_0_r in Hk.
    assert (GG : forall n, n <= psize A -> k < st A n -> exists i, i < psize A /\ stored A i (ix A k) (vl A k)).
    { induction n; intros Hn Hkn. { rewrite (wf_first O A W) in Hkn. lia. }
      destruct (Nat.lt_ge_cases k (st A n)). { apply IHn; auto; lia. }
      exists n. split; [lia|]. unfold stored. apply rowl_in. exists k. auto. }
    apply (GG (psize A)); auto. lia.
  Qed.
  Lemma stored_run : forall (A : CS O), wf A -> forall i j v, i < psize A -> stored A i j v ->
    In (j, v) (run A 0 (st A (psize A))).
  Proof.
    intros A W i j v Hi H. unfold stored in H. apply rowl_in in H. destruct H as (k & Hk & <- & <-).
    unfold ConvProofs3.run. apply in_map_iff. exists k. split; auto. apply in_seq.
    pose proof (st_mono O A W (S i) (psize A) ltac:(lia) ltac:(lia)). lia.
  Qed.

  Lemma filter_asc : forall f (l : row), asc (map fst l) -> asc (map fst (filter f l)).
  Proof.
    induction l as [|a l IH]; simpl; auto. intros (H1 & H2). destruct (f a); simpl; auto. split; auto.
    intros y Hy. apply H1. apply in_map_iff in Hy. destruct Hy as (e & <- & He). apply filter_In in He.
    apply in_map. tauto.
  Qed.

  Lemma C45_l : forall (A : CS O) eps jm, wf A -> tight A ->
    le (m0 G) eps -> (forall x, le (m0 G) x -> le (mmul G eps x) x) ->
    exists B n, prune G A eps jm = Ok (B, n) /\ wf B /\ tight B /\ psize B = psize A /\ ssize B = ssize A /\
      n = nnz_of A - nnz_of B /\ (sorted A -> sorted B) /\
      (forall i j v, i < psize A -> stored B i j v -> stored A i j v) /\
      (forall i j v rm cm, i < psize A -> stored A i j v -> is_row_max G A i rm -> is_col_max G A j cm ->
         stored B i j v \/ (le (mabs G v) (mmul G eps rm) /\ le (mabs G v) (mmul G eps cm))) /\
      (forall i j v rm, i < psize A -> stored A i j v -> is_row_max G A i rm ->
         ~ le (mabs G v) (mmul G eps rm) -> stored B i j v).
  Proof.
    intros A eps jm W T He Hc. destruct (prune_rows A eps jm W T) as (B & n & E & WB & TB & P1 & P2 & N & R).
    assert (EP : eps' eps = eps).
    { unfold eps'. destruct (mlt G eps (m0 G)) eqn:El; auto. rewrite (ml_le G L), El in He. discriminate. }
    exists B, n. repeat (split; [solve [auto]|]). split; [|split; [|split]].
    - intros SA. apply sorted_asc. intros i Hi. rewrite R by lia. apply filter_asc. apply sorted_asc; auto. lia.
    - intros i j v Hi H. unfold stored in *. rewrite R in H by auto. apply filter_In in H. tauto.
    - intros i j v rm cm Hi Hs Hrm Hcm. unfold stored. rewrite R by auto. rewrite filter_In.
      destruct (keep eps A i (j, v)) eqn:K; [auto|]. right. unfold keep in K. apply negb_false_iff in K.
      rewrite EP in K. apply (mmin_le L) in K. simpl in K. destruct K as [K1 K2].
      rewrite <- (rmaxf_is A i rm Hrm) in K1. split; auto. eapply (mle_trans L); [exact K2|].
      destruct Hcm as ((i' & v' & Hi' & Hs' & E') & Hcm).
      apply cthr_bound; auto.
      + rewrite <- E'. apply (ml_abs G L).
      + intros e Hin Ec. apply (run_stored A W) in Hin. destruct Hin as (i2 & Hi2 & Hs2). rewrite Ec in Hs2. eauto.
      + exists (j, v). split; [|reflexivity]. apply (stored_run A W i); auto.
    - intros i j v rm Hi Hs Hrm Hn. unfold stored. rewrite R by auto. apply filter_In. split; auto.
      unfold keep. apply negb_true_iff. rewrite EP. simpl. apply not_true_is_false. intros K.
      apply (mmin_le L) in K. destruct K as [K _]. rewrite <- (rmaxf_is A i rm Hrm) in K. contradiction.
  Qed.

  Lemma C45_zero_l : forall (A : CS O) eps jm, wf A -> tight A -> le eps (m0 G) ->
    exists B n, prune G A eps jm = Ok (B, n) /\ wf B /\ tight B /\ psize B = psize A /\ ssize B = ssize A /\
      n = nnz_of A - nnz_of B /\ (sorted A -> sorted B) /\
      (forall i j v, i < psize A -> (stored B i j v <-> stored A i j v /\ v <> t0 O)).
  Proof.
    intros A eps jm W T He. destruct (prune_rows A eps jm W T) as (B & n & E & WB & TB & P1 & P2 & N & R).
    assert (EP : eps' eps = m0 G).
    { unfold eps'. destruct (mlt G eps (m0 G)) eqn:El; auto. apply (mle_antisym L); auto. now rewrite (ml_le G L), El. }
    exists B, n. repeat (split; [solve [auto]|]). split.
    - intros SA. apply sorted_asc. intros i Hi. rewrite R by lia. apply filter_asc. apply sorted_asc; auto. lia.
    - intros i j v Hi. unfold stored. rewrite R by auto. rewrite filter_In.
      assert (K : keep eps A i (j, v) = true <-> v <> t0 O).
      { unfold keep. rewrite EP. rewrite (ml_mul0 G L). simpl.
        assert (C0 : forall es, cthr (m0 G) es j = m0 G).
        { induction es as [|e es IH] using rev_ind; auto. unfold cthr in *. rewrite fold_left_app. simpl.
          destruct (fst e =? j); auto. apply (ml_mul0 G L). }
        rewrite C0. replace (mmin G (m0 G) (m0 G)) with (m0 G) by (unfold mmin; now rewrite (ml_irr G L)).
        rewrite negb_true_iff. split.
        - intros H ->. rewrite (proj2 (ml_abs0 G L (t0 O)) eq_refl), (mle_refl L) in H. discriminate.
        - intros H. destruct (mle G (mabs G v) (m0 G)) eqn:K; auto. exfalso. apply H. apply (ml_abs0 G L).
          apply (mle_antisym L); auto. apply (ml_abs G L). }
      rewrite K. tauto.
  Qed.
End P.

(** ** Rotations *)
Lemma rotate_left_l : forall X (d : X) n src v, 0 < n -> src + n <= length v ->
  exists w, rotate_left n src v = Ok w /\ length w = length v /\
    forall k, nth k w d = nth (if k <? src then k else if k <? src + n - 1 then S k
                               else if k =? src + n - 1 then src else k) v d.
Proof.
  intros X d n src v Hn Hl. unfold rotate_left, rotate.
  replace (src <=? src + 1) with true by (symmetry; apply Nat.leb_le; lia).
  replace (src + 1 <=? src + n) with true by (symmetry; apply Nat.leb_le; lia).
  replace (src + n <=? length v) with true by (symmetry; apply Nat.leb_le; lia). cbn [andb].
  eexists. split; [reflexivity|].
  assert (L1 : length (firstn src v) = src) by (rewrite firstn_length; lia).
  assert (L2 : length (slice (src + 1) (src + n - (src + 1)) v) = n - 1) by (rewrite slice_length; lia).
  assert (L3 : length (slice src (src + 1 - src) v) = 1) by (rewrite slice_length; lia).
  split. { rewrite !app_length, L1, L2, L3, skipn_length. lia. }
  intros k. destruct (Nat.ltb_spec k src).
  { rewrite app_nth1 by lia. now apply nth_firstn_lt. }
  rewrite app_nth2 by lia. rewrite L1. destruct (Nat.ltb_spec k (src + n - 1)).
  { rewrite app_nth1 by lia. rewrite nth_slice by lia. f_equal. lia. }
  rewrite app_nth2 by lia. rewrite L2. destruct (Nat.eqb_spec k (src + n - 1)).
  { rewrite app_nth1 by lia. rewrite nth_slice by lia. f_equal. lia. }
  rewrite app_nth2 by lia. rewrite L3, nth_skipn'. f_equal. lia.
Qed.

Lemma rotate_right_l : forall X (d : X) n src v, 0 < n -> n <= src + 1 -> src < length v ->
  exists w, rotate_right n src v = Ok w /\ length w = length v /\
    forall k, k < length v -> nth k w d = nth (if k <? src + 1 - n then k else if k =? src + 1 - n then src
                               else if k <=? src then k - 1 else k) v d.
Proof.
  intros X d n src v Hn Hs Hl. unfold rotate_right.
  destruct (Nat.leb_spec (length v) src); [lia|].
  destruct (rotate_left_l X d n (length v - 1 - src) (rev v)) as (w & E & L & H'); auto.
  { rewrite rev_length. lia. }
  unfold rotate_left in E. rewrite E. cbn [bind]. exists (rev w). split; auto.
  rewrite rev_length in *. split; auto. intros k Hk.
  rewrite rev_nth by lia. rewrite L. rewrite H'.
  rewrite rev_nth.
  - f_equal. repeat match goal with |- context[?a <? ?b] => destruct (Nat.ltb_spec a b)
      | |- context[?a =? ?b] => destruct (Nat.eqb_spec a b)
      | |- context[?a <=? ?b] => destruct (Nat.leb_spec a b) end; lia.
  - repeat match goal with |- context[?a <? ?b] => destruct (Nat.ltb_spec a b)
      | |- context[?a =? ?b] => destruct (Nat.eqb_spec a b) end; lia.
Qed.
