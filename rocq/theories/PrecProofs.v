(** * PrecProofs: solve/multiply of the multilevel preconditioner. *)
From Coq Require Import List Arith Lia Bool Ring.
From Verif Require Import Base Scalar Spec CSModel CSSpec CSProofs LevelMath PrecModel PrecSpec.
Import ListNotations.

Section PP.
  Variable O : Ops.
  Notation T := (T O).
  Notation "0" := (t0 O).
  Infix "+" := (tadd O). Infix "*" := (tmul O). Infix "-" := (tsub O).

  (** ** Buffer primitives *)
  Lemma upd_range_wp : forall lo hi g (g' : nat -> T -> T) l,
    (hi <= length l)%nat ->
    (forall i a, (lo <= i < hi)%nat -> g i a = Ok (g' i a)) ->
    wp (upd_range O lo hi g l) (fun l' => length l' = length l /\
      (forall i, (lo <= i < hi)%nat -> v_ l' i = g' i (v_ l i)) /\
      (forall i, ~ (lo <= i < hi)%nat -> v_ l' i = v_ l i)).
  Proof.
    intros lo hi g g' l HL Hg. unfold upd_range.
    destruct (le_lt_dec lo hi) as [Hlh|Hlh].
    - eapply wp_conseq.
      + apply (for_range_inv _ (fun k l' => length l' = length l /\
          (forall i, (lo <= i < k)%nat -> v_ l' i = g' i (v_ l i)) /\
          (forall i, ~ (lo <= i < k)%nat -> v_ l' i = v_ l i))); auto.
        * split; auto. split; auto. intros; lia.
        * intros k l' Hk (L & H1 & H2). wpb. apply wp_get with (d := 0); [lia|].
          rewrite Hg by lia. simpl. apply wp_set; [lia|]. rewrite upd_length. split; auto. split.
          -- intros i Hi. unfold v_ at 1. rewrite nth_upd by lia. destruct (Nat.eqb_spec i k).
             ++ subst. fold (v_ l' k). now rewrite H2 by lia.
             ++ apply H1. lia.
          -- intros i Hi. unfold v_ at 1. rewrite nth_upd by lia. destruct (Nat.eqb_spec i k); [lia|].
             apply H2. lia.
      + intros l' H. exact H.
    - unfold for_range. replace (Nat.sub hi lo) with Datatypes.O by lia. simpl.
      split; auto. split; auto. intros; lia.
  Qed.

  Lemma copy_range_wp : forall src so cnt dst d,
    (Nat.add so cnt <= length src)%nat -> (Nat.add d cnt <= length dst)%nat ->
    wp (copy_range O src so cnt dst d) (fun l' => length l' = length dst /\
      (forall i, (i < cnt)%nat -> v_ l' (Nat.add d i) = v_ src (Nat.add so i)) /\
      (forall i, ~ (d <= i < Nat.add d cnt)%nat -> v_ l' i = v_ dst i)).
  Proof.
    intros src so cnt dst d H1 H2. unfold copy_range. eapply wp_conseq.
    - apply (for_range_inv _ (fun k l' => length l' = length dst /\
        (forall i, (i < k)%nat -> v_ l' (Nat.add d i) = v_ src (Nat.add so i)) /\
        (forall i, ~ (d <= i < Nat.add d k)%nat -> v_ l' i = v_ dst i))); [lia| |].
      + split; auto. split; auto. intros; lia.
      + intros k l' Hk (L & G1 & G2). wpb. apply wp_get with (d := 0); [lia|].
        apply wp_set; [lia|]. rewrite upd_length. split; auto. split.
        * intros i Hi. unfold v_ at 1. rewrite nth_upd by lia.
          destruct (Nat.eqb_spec (Nat.add d i) (Nat.add d k)).
          -- replace i with k by lia. reflexivity.
          -- apply G1; lia.
        * intros i Hi. unfold v_ at 1. rewrite nth_upd by lia.
          destruct (Nat.eqb_spec i (Nat.add d k)); [lia|]. apply G2; lia.
    - intros l' H. exact H.
  Qed.

  Lemma v_skipn : forall off (l : list T) i, v_ (skipn off l) i = v_ l (Nat.add off i).
  Proof. intros. unfold v_. apply nth_skipn'. Qed.

  Lemma v_slice : forall off len (l : list T) i, (i < len)%nat -> v_ (slice off len l) i = v_ l (Nat.add off i).
  Proof. intros. unfold v_. now apply nth_slice. Qed.

  Lemma v_app_l : forall (l r : list T) i, (i < length l)%nat -> v_ (l ++ r) i = v_ l i.
  Proof. intros. unfold v_. now apply app_nth1. Qed.
  Lemma v_app_r : forall (l r : list T) i, v_ (l ++ r) (Nat.add (length l) i) = v_ r i.
  Proof. intros. unfold v_. rewrite app_nth2 by lia. f_equal. lia. Qed.
  Lemma v_firstn : forall off (l : list T) i, (i < off)%nat -> v_ (firstn off l) i = v_ l i.
  Proof. intros. unfold v_. now apply nth_firstn_lt. Qed.

  Lemma on_tail_wp : forall off l f (Q : list T -> Prop),
    (off <= length l)%nat ->
    wp (f (skipn off l)) (fun r => length r = length (skipn off l) /\
       (forall l', length l' = length l ->
          (forall i, (i < off)%nat -> v_ l' i = v_ l i) ->
          (forall i, v_ l' (Nat.add off i) = v_ r i) -> Q l')) ->
    wp (on_tail O off l f) Q.
  Proof.
    intros off l f Q H Hf. unfold on_tail. destruct (Nat.leb_spec off (length l)); [|lia].
    wpb. eapply wp_conseq; [exact Hf|]. intros r [Lr HQ]. apply wp_ok. rewrite skipn_length in Lr.
    assert (LF : length (firstn off l) = off) by (rewrite firstn_length; lia).
    apply HQ.
    - rewrite app_length. lia.
    - intros i Hi. rewrite v_app_l by lia. now apply v_firstn.
    - intros i. rewrite <- LF at 2. apply v_app_r.
  Qed.

  (** Splicing a sub-array back. *)
  Lemma splice_facts : forall off len (l r : list T), (Nat.add off len <= length l)%nat -> length r = len ->
    let l' := firstn off l ++ r ++ skipn (Nat.add off len) l in
    length l' = length l /\ (forall i, (i < off)%nat -> v_ l' i = v_ l i) /\
    (forall i, (i < len)%nat -> v_ l' (Nat.add off i) = v_ r i).
  Proof.
    intros off len l r H Lr l'.
    assert (LF : length (firstn off l) = off) by (rewrite firstn_length; lia).
    unfold l'. split; [|split].
    - rewrite !app_length, skipn_length. lia.
    - intros i Hi. rewrite v_app_l by lia. now apply v_firstn.
    - intros i Hi. rewrite <- LF at 3. rewrite v_app_r. apply v_app_l. lia.
  Qed.

  Lemma on_sub_wp : forall off len l f (Q : list T -> Prop),
    (Nat.add off len <= length l)%nat ->
    wp (f (slice off len l)) (fun r => length r = len /\
       (forall l', length l' = length l ->
          (forall i, (i < off)%nat -> v_ l' i = v_ l i) ->
          (forall i, (i < len)%nat -> v_ l' (Nat.add off i) = v_ r i) -> Q l')) ->
    wp (on_sub O off len l f) Q.
  Proof.
    intros off len l f Q H Hf. unfold on_sub.
    destruct (Nat.leb_spec (Nat.add off len) (length l)); [|lia].
    wpb. eapply wp_conseq; [exact Hf|]. intros r [Lr HQ]. apply wp_ok.
    destruct (splice_facts off len l r) as (A1 & A2 & A3); auto.
  Qed.

  Lemma cws_cons : forall P rest,
    compute_prec_work_space O (P :: rest) = Nat.add (pn P) (compute_prec_work_space O rest).
  Proof.
    intros P rest. unfold compute_prec_work_space. simpl.
    assert (G : forall l a, fold_left (fun acc (P : Prec O) => Nat.add acc (pn P)) l a
              = Nat.add a (fold_left (fun acc (P : Prec O) => Nat.add acc (pn P)) l Datatypes.O)).
    { induction l; simpl; intros; auto. rewrite IHl. rewrite (IHl (pn a)). lia. }
    rewrite G. reflexivity.
  Qed.

  Section Laws.
    Hypothesis FL : FieldLaws O.
    Let RL := fl_ring O FL.
    Add Ring TPP : (rl_ring O RL).

    Section Level.
      Variable P : Prec O.
      Hypothesis LO : level_ok P.
      Let m := pm P. Let n := pn P.

      Lemma B_apply : forall x i, mvec m (Bmat P) x i
        = mvec m (madd mid (ccs_mat (pL P))) (mvec m (mdiag (v_ (pd P))) (mvec m (madd mid (ccs_mat (pU P))) x)) i.
      Proof.
        intros. unfold Bmat. fold m. rewrite (mvec_mmul O RL).
        apply sum_ext. intros j Hj. f_equal. apply (mvec_mmul O RL).
      Qed.

      Lemma BH_apply : forall x i, mvec m (madj (Bmat P)) x i
        = mvec m (madj (madd mid (ccs_mat (pU P)))) (mvec m (madj (mdiag (v_ (pd P))))
            (mvec m (madj (madd mid (ccs_mat (pL P)))) x)) i.
      Proof.
        intros. unfold Bmat. fold m. rewrite (mvec_adj_mmul O FL).
        rewrite (mvec_adj_mmul O FL). reflexivity.
      Qed.

      Lemma adj_unit : forall (A : nat -> nat -> T) x i, (i < m)%nat ->
        mvec m (madj (madd mid A)) x i = mvec m (madd mid (madj A)) x i.
      Proof.
        intros. apply sum_ext. intros j Hj. f_equal. unfold madj, madd, mid.
        rewrite (rl_conj_add O RL). f_equal. rewrite Nat.eqb_sym.
        destruct (Nat.eqb i j). apply conj_1; auto. apply conj_0; auto.
      Qed.

      Lemma adj_diag : forall (d : nat -> T) x i, (i < m)%nat ->
        mvec m (madj (mdiag d)) x i = tconj O (d i) * x i.
      Proof.
        intros. rewrite <- (mvec_diag O RL m (fun i => tconj O (d i)) x i) by auto.
        apply sum_ext. intros j Hj. f_equal. unfold madj, mdiag. rewrite Nat.eqb_sym.
        destruct (Nat.eqb_spec i j); subst; auto. apply conj_0; auto.
      Qed.

      Lemma B_inj : injective_on m (Bmat P).
      Proof.
        intros x y H.
        destruct (lo_L O P LO) as (_ & _ & _ & SL). destruct (lo_U O P LO) as (_ & _ & _ & SU).
        destruct (lo_d O P LO) as [_ Hd].
        apply (unit_upper_unique O RL m _ x y SU).
        assert (H2 : veq m (mvec m (mdiag (v_ (pd P))) (mvec m (madd mid (ccs_mat (pU P))) x))
                           (mvec m (mdiag (v_ (pd P))) (mvec m (madd mid (ccs_mat (pU P))) y))).
        { apply (unit_lower_unique O RL m _ _ _ SL). intros i Hi. rewrite <- !B_apply. auto. }
        intros i Hi. specialize (H2 i Hi). rewrite !(mvec_diag O RL) in H2 by auto.
        apply (mul_cancel_l O FL (v_ (pd P) i)); auto.
      Qed.

      Lemma BH_inj : injective_on m (madj (Bmat P)).
      Proof.
        intros x y H.
        destruct (lo_L O P LO) as (_ & _ & _ & SL). destruct (lo_U O P LO) as (_ & _ & _ & SU).
        destruct (lo_d O P LO) as [_ Hd].
        apply (unit_upper_unique O RL m _ x y (strict_upper_conj O RL m _ SL)).
        set (z := fun w : nat -> T => mvec m (madj (mdiag (v_ (pd P)))) (mvec m (madj (madd mid (ccs_mat (pL P)))) w)).
        assert (H2 : veq m (z x) (z y)).
        { apply (unit_lower_unique O RL m _ _ _ (strict_lower_conj O RL m _ SU)). intros i Hi.
          change (mvec m (madd mid (madj (ccs_mat (pU P)))) (z x) i = mvec m (madd mid (madj (ccs_mat (pU P)))) (z y) i).
          rewrite <- !adj_unit by auto. unfold z. rewrite <- !BH_apply. auto. }
        intros i Hi. specialize (H2 i Hi). unfold z in H2. rewrite !adj_diag in H2 by auto.
        change (mvec m (madd mid (madj (ccs_mat (pL P)))) x i = mvec m (madd mid (madj (ccs_mat (pL P)))) y i).
        rewrite <- !adj_unit by auto.
        apply (mul_cancel_l O FL (tconj O (v_ (pd P) i))); auto. apply (conj_nz O FL); auto.
      Qed.

      Lemma ldu_wp : forall y, (m <= length y)%nat ->
        wp (prec_solve_ldu O (pU P) (pd P) (pL P) y) (fun y' => length y' = length y /\
          veq m (mvec m (Bmat P) (v_ y')) (v_ y) /\
          forall i, (m <= i)%nat -> v_ y' i = v_ y i).
      Proof.
        intros y Hy. unfold prec_solve_ldu.
        destruct (lo_L O P LO) as (WL & L1 & L2 & SL). destruct (lo_U O P LO) as (WU & U1 & U2 & SU).
        destruct (lo_d O P LO) as [Ld Hd]. fold m in L1, L2, SL, U1, U2, SU, Ld, Hd |- .
        rewrite U2. destruct (Nat.eqb_spec m Datatypes.O) as [E|E].
        { apply wp_ok. split; auto. split; auto. intros i Hi. lia. }
        wpb. eapply wp_conseq. { apply (ccs_lower_ok O RL (pL P) m y); auto. }
        intros y1 (N1 & S1 & F1). wpb. eapply wp_conseq.
        { apply (upd_range_wp Datatypes.O m _ (fun i a => tdiv O a (v_ (pd P) i))).
          - lia.
          - intros i a Hi. rewrite (get_nth _ (pd P) i 0) by lia. reflexivity. }
        intros y2 (N2 & G1 & G2). eapply wp_conseq.
        { apply (ccs_upper_ok O RL (pU P) m y2); auto; lia. }
        intros y3 (N3 & S3 & F3). split; [lia|]. split.
        - intros i Hi. rewrite B_apply, <- (S1 i Hi). apply (mvec_eq_x O); auto.
          intros j Hj. rewrite (mvec_diag O RL) by auto. rewrite S3 by auto. rewrite G1 by lia.
          transitivity (tdiv O (v_ y1 j) (v_ (pd P) j) * v_ (pd P) j); [ring|].
          apply (div_mul O FL). auto.
        - intros i Hi. rewrite F3 by lia. rewrite G2 by lia. apply F1; lia.
      Qed.

      Lemma utdlt_wp : forall y, (m <= length y)%nat ->
        wp (prec_solve_utdlt O (pU P) (pd P) (pL P) y) (fun y' => length y' = length y /\
          veq m (mvec m (madj (Bmat P)) (v_ y')) (v_ y) /\
          forall i, (m <= i)%nat -> v_ y' i = v_ y i).
      Proof.
        intros y Hy. unfold prec_solve_utdlt.
        destruct (lo_L O P LO) as (WL & L1 & L2 & SL). destruct (lo_U O P LO) as (WU & U1 & U2 & SU).
        destruct (lo_d O P LO) as [Ld Hd]. fold m in L1, L2, SL, U1, U2, SU, Ld, Hd |- .
        rewrite U2. destruct (Nat.eqb_spec m Datatypes.O) as [E|E].
        { apply wp_ok. split; auto. split; auto. intros i Hi. lia. }
        wpb. eapply wp_conseq. { apply (ccs_upper_tran_ok O RL (pU P) m y); auto. }
        intros y1 (N1 & S1 & F1). wpb. eapply wp_conseq.
        { apply (upd_range_wp Datatypes.O m _ (fun i a => tdiv O a (tconj O (v_ (pd P) i)))).
          - lia.
          - intros i a Hi. rewrite (get_nth _ (pd P) i 0) by lia. reflexivity. }
        intros y2 (N2 & G1 & G2). eapply wp_conseq.
        { apply (ccs_lower_tran_ok O RL (pL P) m y2); auto; lia. }
        intros y3 (N3 & S3 & F3). split; [lia|]. split.
        - intros i Hi. rewrite BH_apply, <- (S1 i Hi), adj_unit by auto. apply (mvec_eq_x O); auto.
          intros j Hj. rewrite adj_diag, adj_unit by auto. rewrite S3 by auto. rewrite G1 by lia.
          transitivity (tdiv O (v_ y1 j) (tconj O (v_ (pd P) j)) * tconj O (v_ (pd P) j)); [ring|].
          apply (div_mul O FL). apply (conj_nz O FL). auto.
        - intros i Hi. rewrite F3 by lia. rewrite G2 by lia. apply F1; lia.
      Qed.

      Lemma pi_lt : forall i, (i < n)%nat -> (nth i (pp P) Datatypes.O < n)%nat.
      Proof. intros i Hi. destruct (lo_p O P LO) as (_ & _ & H & _). apply H; auto. Qed.
      Lemma qi_lt : forall i, (i < n)%nat -> (nth i (pq P) Datatypes.O < n)%nat.
      Proof. intros i Hi. destruct (lo_q O P LO) as (_ & _ & H & _). apply H; auto. Qed.
      Lemma pinv_lt : forall i, (i < n)%nat -> (nth i (pp_inv P) Datatypes.O < n)%nat.
      Proof. intros i Hi. destruct (lo_p O P LO) as (_ & _ & _ & H). apply H; auto. Qed.
      Lemma qinv_lt : forall i, (i < n)%nat -> (nth i (pq_inv P) Datatypes.O < n)%nat.
      Proof. intros i Hi. destruct (lo_q O P LO) as (_ & _ & _ & H). apply H; auto. Qed.

      Definition bh (s : list T) (p : list nat) (b : list T) (i : nat) : T :=
        v_ s (nth i p Datatypes.O) * v_ b (nth i p Datatypes.O).
      Definition bu (s : list T) (p : list nat) (b : list T) (i : nat) : T :=
        tdiv O (v_ b (nth i p Datatypes.O)) (v_ s (nth i p Datatypes.O)).

      Lemma sc_perm_ok : forall s p b i, (i < n)%nat -> length p = n -> (n <= length s)%nat ->
        (n <= length b)%nat -> (nth i p Datatypes.O < n)%nat ->
        sc_perm O s p b i = Ok (bh s p b i).
      Proof.
        intros. unfold sc_perm. rewrite (get_nth _ p i Datatypes.O) by lia. simpl.
        rewrite (get_nth _ s _ 0) by lia. simpl. rewrite (get_nth _ b _ 0) by lia. reflexivity.
      Qed.
      Lemma unsc_perm_ok : forall s p b i, (i < n)%nat -> length p = n -> (n <= length s)%nat ->
        (n <= length b)%nat -> (nth i p Datatypes.O < n)%nat ->
        unsc_perm O s p b i = Ok (bu s p b i).
      Proof.
        intros. unfold unsc_perm. rewrite (get_nth _ p i Datatypes.O) by lia. simpl.
        rewrite (get_nth _ b _ 0) by lia. simpl. rewrite (get_nth _ s _ 0) by lia. reflexivity.
      Qed.
      Lemma scp_s : forall b i, (i < n)%nat -> (n <= length b)%nat ->
        sc_perm O (ps P) (pp P) b i = Ok (bh (ps P) (pp P) b i).
      Proof.
        intros. apply sc_perm_ok; auto. apply (lo_p O P LO). apply (lo_s O P LO). now apply pi_lt.
      Qed.
      Lemma scp_t : forall b i, (i < n)%nat -> (n <= length b)%nat ->
        sc_perm O (pt P) (pq P) b i = Ok (bh (pt P) (pq P) b i).
      Proof.
        intros. apply sc_perm_ok; auto. apply (lo_q O P LO). apply (lo_t O P LO). now apply qi_lt.
      Qed.
      Lemma ucp_s : forall b i, (i < n)%nat -> (n <= length b)%nat ->
        unsc_perm O (ps P) (pp P) b i = Ok (bu (ps P) (pp P) b i).
      Proof.
        intros. apply unsc_perm_ok; auto. apply (lo_p O P LO). apply (lo_s O P LO). now apply pi_lt.
      Qed.
      Lemma ucp_t : forall b i, (i < n)%nat -> (n <= length b)%nat ->
        unsc_perm O (pt P) (pq P) b i = Ok (bu (pt P) (pq P) b i).
      Proof.
        intros. apply unsc_perm_ok; auto. apply (lo_q O P LO). apply (lo_t O P LO). now apply qi_lt.
      Qed.
    End Level.

    Lemma not_last_lt : forall P : Prec O, level_ok P -> is_last_level O P = false -> (pm P < pn P)%nat.
    Proof.
      intros P LO H. assert (Hm := lo_m O P LO). unfold is_last_level in H.
      destruct (pdense P), (psymm P); try discriminate.
      apply Nat.eqb_neq in H. lia.
    Qed.

    (** ** prec_solve *)
    Lemma prec_solve_wp : forall precs n ld M b y work,
      hier_ok ld precs n -> prec_matrix ld precs M ->
      length b = n -> length y = n -> (compute_prec_work_space O precs <= length work)%nat ->
      wp (prec_solve O precs b ld y work) (fun r => length (fst r) = n /\
        length (snd r) = length work /\ veq n (mvec n M (v_ (fst r))) (v_ b)).
    Proof.
      induction precs as [|P rest IH]; intros n ld M b y work HO HM Lb Ly Lw; [contradiction|].
      destruct HO as (LO & En & HT). destruct HM as (C & HLv & HC).
      rewrite cws_cons in Lw. rewrite En in *. cbn [prec_solve]. rewrite En.
      assert (Hm := lo_m O P LO). rewrite En in Hm.
      set (m := pm P) in *. set (nm := Nat.sub n m) in *.
      wpb. eapply wp_conseq.
      { apply (upd_range_wp Datatypes.O m _ (fun i _ => bh (ps P) (pp P) b i)); [lia|].
        intros i a Hi. apply (scp_s P LO); lia. }
      intros work1 (W1 & W1a & _).
      (* forward elimination *)
      wpb. eapply wp_conseq with (P := fun r =>
        length (fst r) = n /\ length (snd r) = length work /\
        (nm = Datatypes.O -> forall i, (i < m)%nat -> v_ (snd r) i = bh (ps P) (pp P) b i) /\
        exists w, veq m (mvec m (Bmat P) w) (bh (ps P) (pp P) b) /\
        forall i, (i < nm)%nat -> v_ (fst r) (Nat.add m i) = bh (ps P) (pp P) b (Nat.add m i) - mvec m (ccs_mat (pE P)) w i).
      { destruct (Nat.eqb_spec nm Datatypes.O) as [Z|Z]; cbn [negb].
        - apply wp_ok. simpl. split; auto. split; [lia|]. split.
          { intros _ i Hi. apply W1a; lia. }
          destruct (wp_inv _ _ _ (ldu_wp P LO work1 ltac:(fold m; lia))) as (w & _ & _ & Hw & _).
          fold m in Hw. exists (v_ w). split; [|intros; lia].
          intros i Hi. rewrite Hw by auto. apply W1a; lia.
        - destruct (lo_E O P LO) as (WE & E1 & E2); [fold m; lia|]. rewrite En in E2. fold m nm in E1, E2.
          wpb. eapply wp_conseq. { apply (ldu_wp P LO work1). fold m; lia. }
          fold m. intros work2 (W2 & W2a & _).
          wpb. apply on_tail_wp; [lia|].
          destruct (ccs_multiply_nt_low_correct O RL (pE P) work2 (skipn m y) WE) as (r & Er & Lr & Hr & _).
          { lia. } { rewrite skipn_length. lia. }
          rewrite Er. simpl. split; auto. intros y1 L1 Y1a Y1b.
          wpb. eapply wp_conseq.
          { apply (upd_range_wp m n _ (fun i a => bh (ps P) (pp P) b i - a)); [lia|].
            intros i a Hi. rewrite (scp_s P LO) by lia. reflexivity. }
          intros y2 (L2 & Y2a & _). simpl. split; [lia|]. split; [lia|]. split; [lia|].
          exists (v_ work2). split.
          + intros i Hi. rewrite W2a by auto. apply W1a; lia.
          + intros i Hi. rewrite Y2a by lia. rewrite Y1b, Hr by lia. now rewrite E1. }
      intros [y1 work2] (L1 & W2 & W2a & w & Hw & Y1). simpl in L1, W2, W2a, Y1.
      (* Schur complement *)
      wpb. eapply wp_conseq with (P := fun r =>
        length (fst r) = n /\ length (snd r) = length work /\
        (nm = Datatypes.O -> forall i, (i < m)%nat -> v_ (snd r) i = bh (ps P) (pp P) b i) /\
        veq nm (mvec nm C (fun j => v_ (fst r) (Nat.add m j))) (fun i => v_ y1 (Nat.add m i))).
      { destruct (is_last_level O P) eqn:LL.
        - destruct (Nat.eqb_spec nm Datatypes.O) as [Z|Z]; cbn [negb].
          + apply wp_ok. simpl. rewrite Z. split; auto. split; auto. split; auto. intros i Hi; lia.
          + destruct HC as [HC|HC]; [lia|]. wpb. apply on_sub_wp; [lia|].
            destruct (di_solve O P ld C HC (slice m nm y1)) as (z & Ez & Lz & Hz).
            { rewrite slice_length by lia. now rewrite En. }
            rewrite En in Lz, Hz. fold m nm in Ez, Lz, Hz. rewrite Ez. simpl. split; auto.
            intros y2 L2 Y2a Y2b. split; [lia|]. split; auto. split; [lia|].
            intros i Hi. rewrite (mvec_eq_x O nm C _ (v_ z) i) by (intros j Hj; apply Y2b; auto).
            rewrite Hz by auto. now apply v_slice.
        - wpb. eapply wp_conseq. { apply (copy_range_wp y1 m nm work2 m); lia. }
          intros work3 (W3 & W3a & _).
          destruct (Nat.leb_spec (Nat.add m nm) (length y1)); [|lia].
          destruct (Nat.leb_spec n (length work3)); [|lia].
          wpb. eapply wp_conseq.
          { apply (IH nm ld C); auto.
            - now rewrite slice_length by lia.
            - now rewrite slice_length by lia.
            - rewrite skipn_length. lia. }
          intros [ym wn] (Lm & Lwn & Hy). simpl in Lm, Lwn, Hy. apply wp_ok. simpl.
          destruct (splice_facts m nm y1 ym) as (A1 & A2 & A3); auto.
          split; [lia|]. split; [rewrite app_length, firstn_length, Lwn, skipn_length; lia|].
          split.
          { intros Z. exfalso. pose proof (not_last_lt P LO LL). unfold nm, m in Z. lia. }
          intros i Hi. rewrite (mvec_eq_x O nm C _ (v_ ym) i) by (intros j Hj; apply A3; auto).
          rewrite Hy by auto. rewrite v_slice by auto. now rewrite W3a. }
      intros [y2 work3] (L2 & W3 & W3a & Hy2). simpl in L2, W3, W3a, Hy2.
      (* back substitution *)
      wpb. eapply wp_conseq. { apply (copy_range_wp y2 m (Nat.sub (length y2) m) work3 m); lia. }
      intros work4 (W4 & W4a & W4b).
      assert (W4c : forall j, (j < nm)%nat -> v_ work4 (Nat.add m j) = v_ y2 (Nat.add m j)).
      { intros j Hj. apply W4a. lia. }
      wpb. eapply wp_conseq with (P := fun r => length r = length work /\ (forall j, (j < nm)%nat -> v_ r (Nat.add m j) = v_ y2 (Nat.add m j)) /\ forall i, (i < m)%nat -> v_ r i = bh (ps P) (pp P) b i - mvec nm (ccs_mat (pF P)) (fun j => v_ y2 (Nat.add m j)) i).
      { assert (FC := lo_Fc O P LO). rewrite En in FC. fold m nm in FC. rewrite FC.
        destruct (Nat.eqb_spec nm Datatypes.O) as [Z|Z]; cbn [negb].
        - apply wp_ok. split; [lia|]. split; [intros; lia|]. intros i Hi.
          rewrite W4b by lia. rewrite W3a by auto. rewrite Z. unfold mvec. simpl. ring.
        - destruct (lo_F O P LO) as (WF & F1); [fold m; lia|]. fold m in F1.
          destruct (ccs_multiply_nt_low_correct O RL (pF P) (skipn m y2) work4 WF) as (r & Er & Lr & Hr & Hr').
          { rewrite skipn_length. lia. } { lia. }
          wpb. rewrite Er. simpl. eapply wp_conseq.
          { apply (upd_range_wp Datatypes.O m _ (fun i a => bh (ps P) (pp P) b i - a)); [lia|].
            intros i a Hi. rewrite (scp_s P LO) by lia. reflexivity. }
          intros work5 (W5 & W5a & W5b). split; [lia|]. split.
          + intros j Hj. rewrite W5b by lia. rewrite Hr' by lia. auto.
          + intros i Hi. rewrite W5a by lia. f_equal. rewrite Hr by lia. rewrite FC.
            apply (mvec_eq_x O). intros j Hj. apply v_skipn. }
      intros work5 (W5 & W5b & W5a).
      wpb. eapply wp_conseq. { apply (ldu_wp P LO work5). fold m; lia. }
      fold m. intros work6 (W6 & W6a & W6b).
      assert (Lt := proj1 (lo_t O P LO)). rewrite En in Lt.
      destruct (lo_q O P LO) as (Lq & Lqi & Q1 & Q2). rewrite En in Lq, Lqi, Q1, Q2.
      wpb. eapply wp_conseq.
      { apply (upd_range_wp Datatypes.O n _ (fun i _ => v_ (pt P) i * v_ work6 (nth i (pq_inv P) Datatypes.O))); [lia|].
        intros i a Hi. rewrite (get_nth _ (pt P) i 0) by lia. cbn [bind].
        rewrite (get_nth _ (pq_inv P) i Datatypes.O) by lia. cbn [bind].
        destruct (Q2 i ltac:(lia)).
        rewrite (get_nth _ work6 (nth i (pq_inv P) Datatypes.O) 0) by lia. reflexivity. }
      intros y3 (L3 & Y3 & _). apply wp_ok. simpl. split; [lia|]. split; [lia|].
      assert (Hxh : forall j, (j < nm)%nat -> v_ work6 (Nat.add m j) = v_ y2 (Nat.add m j)).
      { intros j Hj. rewrite W6b by lia. auto. }
      refine (level_solve O FL m n (v_ (ps P)) (v_ (pt P)) (pp P) (pp_inv P) (pq P) (pq_inv P)
        (Bmat P) (ccs_mat (pF P)) (ccs_mat (pE P)) C M (v_ b) (v_ work6) (v_ y3) w Hm _ _ _ _ HLv Hw _ _ _).
      - rewrite <- En. apply (lo_p O P LO).
      - rewrite <- En. apply (lo_q O P LO).
      - rewrite <- En. apply (lo_s O P LO).
      - apply (B_inj P LO).
      - fold nm. intros i Hi. rewrite (mvec_eq_x O nm C _ _ i Hxh). rewrite Hy2 by auto. apply Y1; auto.
      - fold nm. intros i Hi. rewrite W6a by auto. rewrite W5a by auto. unfold bh. f_equal.
        apply (mvec_eq_x O). intros j Hj. symmetry. auto.
      - intros i Hi. apply Y3; lia.
    Qed.

    (** ** Adjoint of a level *)
    Lemma finite_choice : forall (n : nat) (R : nat -> (nat -> T) -> Prop),
      (forall j, (j < n)%nat -> exists v, R j v) ->
      exists V : nat -> nat -> T, forall j, (j < n)%nat -> R j (fun i => V i j).
    Proof.
      induction n; intros R H.
      - exists (fun _ _ => 0). intros; lia.
      - destruct (IHn R) as [V HV]; [intros; apply H; lia|].
        destruct (H n ltac:(lia)) as [v Hv].
        exists (fun i j => if Nat.eqb j n then v i else V i j). intros j Hj.
        destruct (Nat.eqb_spec j n).
        + subst. exact Hv.
        + apply HV. lia.
    Qed.

    Lemma v_map_seq : forall (f : nat -> T) m i, (i < m)%nat -> v_ (map f (seq 0 m)) i = f i.
    Proof. intros. unfold v_. now apply nth_map_seq. Qed.

    Lemma B_range : forall P, level_ok P -> forall nm (F : nat -> nat -> T),
      exists W, meq (pm P) nm (mmul (pm P) (Bmat P) W) F.
    Proof.
      intros P LO nm F.
      destruct (finite_choice nm (fun j v => veq (pm P) (mvec (pm P) (Bmat P) v) (fun i => F i j))) as [W HW].
      - intros j Hj.
        pose proof (ldu_wp P LO (map (fun i => F i j) (seq 0 (pm P)))) as H.
        rewrite map_length, seq_length in H. specialize (H (le_n _)).
        destruct (wp_inv _ _ _ H) as (y & _ & _ & Hy & _). exists (v_ y). intros i Hi.
        rewrite Hy by auto. exact (v_map_seq (fun i => F i j) _ _ Hi).
      - exists W. intros i j Hi Hj. apply HW; auto.
    Qed.

    Lemma BH_range : forall P, level_ok P -> forall nm (F : nat -> nat -> T),
      exists W, meq (pm P) nm (mmul (pm P) (madj (Bmat P)) W) F.
    Proof.
      intros P LO nm F.
      destruct (finite_choice nm (fun j v => veq (pm P) (mvec (pm P) (madj (Bmat P)) v) (fun i => F i j))) as [W HW].
      - intros j Hj.
        pose proof (utdlt_wp P LO (map (fun i => F i j) (seq 0 (pm P)))) as H.
        rewrite map_length, seq_length in H. specialize (H (le_n _)).
        destruct (wp_inv _ _ _ H) as (y & _ & _ & Hy & _). exists (v_ y). intros i Hi.
        rewrite Hy by auto. exact (v_map_seq (fun i => F i j) _ _ Hi).
      - exists W. intros i j Hi Hj. apply HW; auto.
    Qed.

    Lemma level_adj_ok : forall P (C M : nat -> nat -> T), level_ok P -> real_scaling P ->
      level_of (pm P) (pn P) (v_ (ps P)) (v_ (pt P)) (pp P) (pq P)
                 (Bmat P) (ccs_mat (pF P)) (ccs_mat (pE P)) C M ->
      level_of (pm P) (pn P) (v_ (pt P)) (v_ (ps P)) (pq P) (pp P)
                 (madj (Bmat P)) (madj (ccs_mat (pE P))) (madj (ccs_mat (pF P))) (madj C) (madj M).
    Proof.
      intros P C M LO [R1 R2] H. apply (level_adj O FL); auto.
      - apply (lo_m O P LO).
      - intros i Hi. destruct (lo_p O P LO) as (_ & _ & Q & _). now apply Q.
      - intros i Hi. destruct (lo_q O P LO) as (_ & _ & Q & _). now apply Q.
      - now apply BH_range.
    Qed.

    (** ** prec_solve_tran *)
    Lemma prec_solve_tran_wp : forall precs n ld M b y work,
      hier_ok ld precs n -> Forall real_scaling precs -> prec_matrix ld precs M ->
      length b = n -> length y = n -> (compute_prec_work_space O precs <= length work)%nat ->
      wp (prec_solve_tran O precs b ld y work) (fun r => length (fst r) = n /\
        length (snd r) = length work /\ veq n (mvec n (madj M) (v_ (fst r))) (v_ b)).
    Proof.
      induction precs as [|P rest IH]; intros n ld M b y work HO HR HM Lb Ly Lw; [contradiction|].
      destruct HO as (LO & En & HT). destruct HM as (C & HLv & HC).
      inversion HR as [|? ? RS HR']; subst.
      apply level_adj_ok in HLv; auto. remember (pn P) as n eqn:En. symmetry in En.
      rewrite cws_cons in Lw. rewrite En in *. cbn [prec_solve_tran]. rewrite En.
      assert (Hm := lo_m O P LO). rewrite En in Hm.
      set (m := pm P) in *. set (nm := Nat.sub n m) in *.
      assert (FC := lo_Fc O P LO). rewrite En in FC. fold m nm in FC. rewrite FC.
      wpb. eapply wp_conseq.
      { apply (upd_range_wp Datatypes.O m _ (fun i _ => bh (pt P) (pq P) b i)); [lia|].
        intros i a Hi. apply (scp_t P LO); lia. }
      intros work1 (W1 & W1a & _).
      (* forward elimination *)
      wpb. eapply wp_conseq with (P := fun r =>
        length (fst r) = n /\ length (snd r) = length work /\
        exists w, veq m (mvec m (madj (Bmat P)) w) (bh (pt P) (pq P) b) /\
        forall i, (i < nm)%nat -> v_ (fst r) (Nat.add m i) = bh (pt P) (pq P) b (Nat.add m i) - mvec m (madj (ccs_mat (pF P))) w i).
      { destruct (Nat.eqb_spec nm Datatypes.O) as [Z|Z]; cbn [negb].
        - apply wp_ok. simpl. split; auto. split; [lia|].
          destruct (wp_inv _ _ _ (utdlt_wp P LO work1 ltac:(fold m; lia))) as (w & _ & _ & Hw & _).
          fold m in Hw. exists (v_ w). split; [|intros; lia].
          intros i Hi. rewrite Hw by auto. apply W1a; lia.
        - destruct (lo_F O P LO) as (WF & F1); [fold m; lia|]. fold m in F1.
          wpb. eapply wp_conseq. { apply (utdlt_wp P LO work1). fold m; lia. }
          fold m. intros work2 (W2 & W2a & _).
          wpb. apply on_tail_wp; [lia|].
          destruct (ccs_multiply_t_low_correct O RL (pF P) work2 (skipn m y) WF) as (r & Er & Lr & Hr & _).
          { lia. } { rewrite skipn_length. lia. }
          rewrite Er. simpl. split; auto. intros y1 L1 Y1a Y1b.
          wpb. eapply wp_conseq.
          { apply (upd_range_wp m n _ (fun i a => bh (pt P) (pq P) b i - a)); [lia|].
            intros i a Hi. rewrite (scp_t P LO) by lia. reflexivity. }
          intros y2 (L2 & Y2a & _). simpl. split; [lia|]. split; [lia|].
          exists (v_ work2). split.
          + intros i Hi. rewrite W2a by auto. apply W1a; lia.
          + intros i Hi. rewrite Y2a by lia. rewrite Y1b, Hr by lia. now rewrite F1. }
      intros [y1 work2] (L1 & W2 & w & Hw & Y1). simpl in L1, W2, Y1.
      (* Schur complement *)
      wpb. eapply wp_conseq with (P := fun r =>
        length (fst r) = n /\ length (snd r) = length work /\
        veq nm (mvec nm (madj C) (fun j => v_ (fst r) (Nat.add m j))) (fun i => v_ y1 (Nat.add m i))).
      { destruct (is_last_level O P) eqn:LL.
        - destruct (Nat.eqb_spec nm Datatypes.O) as [Z|Z]; cbn [negb].
          + apply wp_ok. simpl. rewrite Z. split; auto. split; auto. intros i Hi; lia.
          + destruct HC as [HC|HC]; [lia|]. wpb. apply on_sub_wp; [lia|].
            destruct (di_solve_t O P ld C HC (slice m nm y1)) as (z & Ez & Lz & Hz).
            { rewrite slice_length by lia. now rewrite En. }
            rewrite En in Lz, Hz. fold m nm in Ez, Lz, Hz. rewrite Ez. simpl. split; auto.
            intros y2 L2 Y2a Y2b. split; [lia|]. split; auto.
            intros i Hi. rewrite (mvec_eq_x O nm (madj C) _ (v_ z) i) by (intros j Hj; apply Y2b; auto).
            rewrite Hz by auto. now apply v_slice.
        - wpb. eapply wp_conseq. { apply (copy_range_wp y1 m nm work2 m); lia. }
          intros work3 (W3 & W3a & _).
          destruct (Nat.leb_spec (Nat.add m nm) (length y1)); [|lia].
          destruct (Nat.leb_spec n (length work3)); [|lia].
          wpb. eapply wp_conseq.
          { apply (IH nm ld C); auto.
            - now rewrite slice_length by lia.
            - now rewrite slice_length by lia.
            - rewrite skipn_length. lia. }
          intros [ym wn] (Lm & Lwn & Hy). simpl in Lm, Lwn, Hy. apply wp_ok. simpl.
          destruct (splice_facts m nm y1 ym) as (A1 & A2 & A3); auto.
          split; [lia|]. split; [rewrite app_length, firstn_length, Lwn, skipn_length; lia|].
          intros i Hi. rewrite (mvec_eq_x O nm (madj C) _ (v_ ym) i) by (intros j Hj; apply A3; auto).
          rewrite Hy by auto. rewrite v_slice by auto. now rewrite W3a. }
      intros [y2 work3] (L2 & W3 & Hy2). simpl in L2, W3, Hy2.
      (* back substitution *)
      wpb. eapply wp_conseq. { apply (copy_range_wp y2 m (Nat.sub (length y2) m) work3 m); lia. }
      intros work4 (W4 & W4a & W4b).
      assert (W4c : forall j, (j < nm)%nat -> v_ work4 (Nat.add m j) = v_ y2 (Nat.add m j)).
      { intros j Hj. apply W4a. lia. }
      wpb. eapply wp_conseq with (P := fun r => length r = length work /\
        (forall j, (j < nm)%nat -> v_ r (Nat.add m j) = v_ y2 (Nat.add m j)) /\
        forall i, (i < m)%nat -> v_ r i = bh (pt P) (pq P) b i - mvec nm (madj (ccs_mat (pE P))) (fun j => v_ y2 (Nat.add m j)) i).
      { destruct (Nat.eqb_spec nm Datatypes.O) as [Z|Z]; cbn [negb].
        - eapply wp_conseq.
          { apply (upd_range_wp Datatypes.O m _ (fun i a => bh (pt P) (pq P) b i)); [lia|].
            intros i a Hi. apply (scp_t P LO); lia. }
          intros work5 (W5 & W5a & W5b). split; [lia|]. split; [intros; lia|]. intros i Hi.
          rewrite W5a by lia. rewrite Z. unfold mvec. simpl. ring.
        - destruct (lo_E O P LO) as (WE & E1 & E2); [fold m; lia|]. rewrite En in E2. fold m nm in E1, E2.
          destruct (ccs_multiply_t_low_correct O RL (pE P) (skipn m y2) work4 WE) as (r & Er & Lr & Hr & Hr').
          { rewrite skipn_length. lia. } { lia. }
          wpb. rewrite Er. simpl. eapply wp_conseq.
          { apply (upd_range_wp Datatypes.O m _ (fun i a => bh (pt P) (pq P) b i - a)); [lia|].
            intros i a Hi. rewrite (scp_t P LO) by lia. reflexivity. }
          intros work5 (W5 & W5a & W5b). split; [lia|]. split.
          + intros j Hj. rewrite W5b by lia. rewrite Hr' by lia. auto.
          + intros i Hi. rewrite W5a by lia. f_equal. rewrite Hr by lia. rewrite E2.
            apply (mvec_eq_x O). intros j Hj. apply v_skipn. }
      intros work5 (W5 & W5b & W5a).
      wpb. eapply wp_conseq. { apply (utdlt_wp P LO work5). fold m; lia. }
      fold m. intros work6 (W6 & W6a & W6b).
      assert (Ls := proj1 (lo_s O P LO)). rewrite En in Ls.
      destruct (lo_p O P LO) as (Lq & Lqi & Q1 & Q2). rewrite En in Lq, Lqi, Q1, Q2.
      wpb. eapply wp_conseq.
      { apply (upd_range_wp Datatypes.O n _ (fun i _ => v_ (ps P) i * v_ work6 (nth i (pp_inv P) Datatypes.O))); [lia|].
        intros i a Hi. rewrite (get_nth _ (ps P) i 0) by lia. cbn [bind].
        rewrite (get_nth _ (pp_inv P) i Datatypes.O) by lia. cbn [bind].
        destruct (Q2 i ltac:(lia)).
        rewrite (get_nth _ work6 (nth i (pp_inv P) Datatypes.O) 0) by lia. reflexivity. }
      intros y3 (L3 & Y3 & _). apply wp_ok. simpl. split; [lia|]. split; [lia|].
      assert (Hxh : forall j, (j < nm)%nat -> v_ work6 (Nat.add m j) = v_ y2 (Nat.add m j)).
      { intros j Hj. rewrite W6b by lia. auto. }
      refine (level_solve O FL m n (v_ (pt P)) (v_ (ps P)) (pq P) (pq_inv P) (pp P) (pp_inv P)
        (madj (Bmat P)) (madj (ccs_mat (pE P))) (madj (ccs_mat (pF P))) (madj C) (madj M)
        (v_ b) (v_ work6) (v_ y3) w Hm _ _ _ _ HLv Hw _ _ _).
      - rewrite <- En. apply (lo_q O P LO).
      - rewrite <- En. apply (lo_p O P LO).
      - rewrite <- En. apply (lo_t O P LO).
      - apply (BH_inj P LO).
      - fold nm. intros i Hi. rewrite (mvec_eq_x O nm (madj C) _ _ i Hxh). rewrite Hy2 by auto. apply Y1; auto.
      - fold nm. intros i Hi. rewrite W6a by auto. rewrite W5a by auto. unfold bh. f_equal.
        apply (mvec_eq_x O). intros j Hj. symmetry. auto.
      - intros i Hi. apply Y3; lia.
    Qed.

    Lemma B_form : forall P xh Y i, (i < pm P)%nat ->
      (forall j, (j < pm P)%nat -> Y j = (mvec (pm P) (ccs_mat (pU P)) xh j + xh j) * v_ (pd P) j) ->
      mvec (pm P) (Bmat P) xh i = mvec (pm P) (ccs_mat (pL P)) Y i + Y i.
    Proof.
      intros P xh Y i Hi HY. rewrite B_apply, (mvec_madd O RL), (mvec_mid O RL) by auto.
      assert (Q : veq (pm P) (mvec (pm P) (mdiag (v_ (pd P))) (mvec (pm P) (madd mid (ccs_mat (pU P))) xh)) Y).
      { intros j Hj. rewrite (mvec_diag O RL) by auto. rewrite (mvec_madd O RL), (mvec_mid O RL) by auto.
        rewrite HY by auto. ring. }
      rewrite (mvec_eq_x O _ _ _ _ i Q), (Q i Hi). ring.
    Qed.
    Lemma BH_form : forall P xh Y i, (i < pm P)%nat ->
      (forall j, (j < pm P)%nat -> Y j = (mvec (pm P) (madj (ccs_mat (pL P))) xh j + xh j) * tconj O (v_ (pd P) j)) ->
      mvec (pm P) (madj (Bmat P)) xh i = mvec (pm P) (madj (ccs_mat (pU P))) Y i + Y i.
    Proof.
      intros P xh Y i Hi HY. rewrite BH_apply, adj_unit, (mvec_madd O RL), (mvec_mid O RL) by auto.
      assert (Q : veq (pm P) (mvec (pm P) (madj (mdiag (v_ (pd P)))) (mvec (pm P) (madj (madd mid (ccs_mat (pL P)))) xh)) Y).
      { intros j Hj. rewrite adj_diag, adj_unit, (mvec_madd O RL), (mvec_mid O RL) by auto.
        rewrite HY by auto. ring. }
      rewrite (mvec_eq_x O _ _ _ _ i Q), (Q i Hi). ring.
    Qed.

    (** ** prec_prod *)
    Lemma prec_prod_wp : forall precs n ld M b y work,
      hier_ok ld precs n -> prec_matrix ld precs M ->
      length b = n -> length y = n -> (compute_prec_work_space O precs <= length work)%nat ->
      wp (prec_prod O precs b ld y work) (fun r => length (fst r) = n /\
        length (snd r) = length work /\ veq n (v_ (fst r)) (mvec n M (v_ b))).
    Proof.
      induction precs as [|P rest IH]; intros n ld M b y work HO HM Lb Ly Lw; [contradiction|].
      destruct HO as (LO & En & HT). destruct HM as (C & HLv & HC).
      rewrite cws_cons in Lw. rewrite En in *. cbn [prec_prod]. rewrite En.
      assert (Hm := lo_m O P LO). rewrite En in Hm.
      set (m := pm P) in *. set (nm := Nat.sub n m) in *.
      assert (FC := lo_Fc O P LO). rewrite En in FC. fold m nm in FC. rewrite ?FC.
      set (xh := bu (pt P) (pq P) b).
      wpb. eapply wp_conseq.
      { apply (upd_range_wp m n _ (fun i _ => xh i)); [lia|].
        intros i a Hi. apply (ucp_t P LO); lia. }
      intros work1 (W1 & W1a & _).
      (* Schur complement *)
      wpb. eapply wp_conseq with (P := fun r =>
        length (fst r) = n /\ length (snd r) = length work /\
        (forall i, (i < nm)%nat -> v_ (snd r) (Nat.add m i) = xh (Nat.add m i)) /\
        veq nm (fun i => v_ (fst r) (Nat.add m i)) (mvec nm C (fun j => xh (Nat.add m j)))).
      { destruct (is_last_level O P) eqn:LL.
        - destruct (Nat.eqb_spec nm Datatypes.O) as [Z|Z]; cbn [negb].
          + apply wp_ok. simpl. rewrite Z. split; auto. split; auto. split; intros i Hi; lia.
          + destruct HC as [HC|HC]; [lia|].
            wpb. eapply wp_conseq. { apply (copy_range_wp work1 m nm y m); lia. }
            intros y1 (L1 & Y1a & _).
            wpb. apply on_sub_wp; [lia|].
            destruct (di_mul O P ld C HC (slice m nm y1)) as (z & Ez & Lz & Hz).
            { rewrite slice_length by lia. now rewrite En. }
            rewrite En in Lz, Hz. fold m nm in Ez, Lz, Hz. rewrite Ez. simpl. split; auto.
            intros y2 L2 Y2a Y2b. split; [lia|]. split; auto. split; [intros; apply W1a; lia|].
            intros i Hi. rewrite Y2b by auto. rewrite Hz by auto. apply (mvec_eq_x O).
            intros j Hj. rewrite v_slice by auto. rewrite Y1a by auto. apply W1a; lia.
        - destruct (Nat.leb_spec (Nat.add m nm) (length y)); [|lia].
          destruct (Nat.leb_spec n (length work1)); [|lia].
          wpb. eapply wp_conseq.
          { apply (IH nm ld C); auto.
            - now rewrite slice_length by lia.
            - now rewrite slice_length by lia.
            - rewrite skipn_length. lia. }
          intros [ym wn] (Lm & Lwn & Hy). simpl in Lm, Lwn, Hy. apply wp_ok. simpl.
          destruct (splice_facts m nm y ym) as (A1 & A2 & A3); auto.
          split; [lia|]. split; [rewrite app_length, firstn_length, Lwn, skipn_length; lia|].
          split.
          + intros i Hi. rewrite v_app_l by (rewrite firstn_length; lia). rewrite v_firstn by lia. apply W1a; lia.
          + intros i Hi. rewrite A3 by auto. rewrite Hy by auto. apply (mvec_eq_x O).
            intros j Hj. rewrite v_slice by auto. apply W1a; lia. }
      intros [y1 work1'] (L1 & W1' & W1b & Hy1). simpl in L1, W1', W1b, Hy1.
      wpb. eapply wp_conseq.
      { apply (upd_range_wp Datatypes.O m _ (fun i _ => xh i)); [lia|].
        intros i a Hi. apply (ucp_t P LO); lia. }
      intros work2 (W2 & W2a & W2b).
      destruct (lo_U O P LO) as (WU & U1p & U1s & _). destruct (lo_L O P LO) as (WL & L1p & L1s & _).
      destruct (lo_d O P LO) as [Ld _]. fold m in U1p, U1s, L1p, L1s, Ld.
      destruct (ccs_multiply_nt_low_correct O RL (pU P) work2 y1 WU) as (y2 & Ey2 & L2 & H4 & H4'); [lia|lia|].
      wpb. rewrite Ey2. simpl. wpb. eapply wp_conseq.
      { apply (upd_range_wp Datatypes.O m _ (fun i a => (a + v_ work2 i) * (v_ (pd P) i))); [lia|].
        intros i a Hi. rewrite (get_nth _ work2 i 0) by lia. cbn [bind].
        rewrite (get_nth _ (pd P) i 0) by lia. reflexivity. }
      intros y3 (L3 & Y3a & Y3b).
      destruct (ccs_multiply_nt_low_correct O RL (pL P) y3 work2 WL) as (work3 & Ew3 & W3 & H6 & H6'); [lia|lia|].
      wpb. rewrite Ew3. simpl. wpb. eapply wp_conseq.
      { apply (upd_range_wp Datatypes.O m _ (fun i a => a + v_ y3 i)); [lia|].
        intros i a Hi. rewrite (get_nth _ y3 i 0) by lia. reflexivity. }
      intros work4 (W4 & W4a & W4b).
      assert (BX : forall i, (i < m)%nat -> v_ work4 i = mvec m (Bmat P) xh i).
      { intros i Hi. symmetry. etransitivity.
        { apply (B_form P xh (v_ y3) i Hi). intros j Hj. fold m in Hj |- *.
          rewrite Y3a by lia. rewrite H4 by lia. rewrite U1p. rewrite W2a by lia.
          rewrite (mvec_eq_x O m _ (v_ work2) xh j) by (intros k Hk; apply W2a; lia). reflexivity. }
        fold m. rewrite W4a by lia. rewrite H6 by lia. rewrite L1p. reflexivity. }
      assert (W4c : forall j, (j < nm)%nat -> v_ work4 (Nat.add m j) = xh (Nat.add m j)).
      { intros j Hj. rewrite W4b by lia. rewrite H6' by lia. rewrite W2b by lia. auto. }
      assert (Y3c : forall j, (j < nm)%nat -> v_ y3 (Nat.add m j) = v_ y1 (Nat.add m j)).
      { intros j Hj. rewrite Y3b by lia. apply H4'. lia. }
      (* F part *)
      wpb. eapply wp_conseq with (P := fun r => length (fst r) = n /\ length (snd r) = length work /\
        (forall j, (j < nm)%nat -> v_ (fst r) (Nat.add m j) = v_ y1 (Nat.add m j)) /\
        (nm <> Datatypes.O -> forall i, (i < m)%nat -> v_ (fst r) i = mvec nm (ccs_mat (pF P)) (fun j => xh (Nat.add m j)) i) /\
        forall i, (i < m)%nat -> v_ (snd r) i = mvec m (Bmat P) xh i + mvec nm (ccs_mat (pF P)) (fun j => xh (Nat.add m j)) i).
      { destruct (Nat.eqb_spec nm Datatypes.O) as [Z|Z]; cbn [negb].
        - apply wp_ok. simpl. split; [lia|]. split; [lia|]. split; [intros; lia|]. split; [lia|].
          intros i Hi. rewrite BX by auto. rewrite Z. unfold mvec at 3. simpl. ring.
        - destruct (lo_F O P LO) as (WF & E1); [fold m; lia|]. fold m in E1.
          destruct (ccs_multiply_nt_low_correct O RL (pF P) (skipn m work4) y3 WF) as (y4 & Ey4 & L4 & H7 & H7').
          { rewrite skipn_length. lia. } { lia. }
          wpb. rewrite Ey4. simpl. wpb. eapply wp_conseq.
          { apply (upd_range_wp Datatypes.O m _ (fun i a => a + v_ y4 i)); [lia|].
            intros i a Hi. rewrite (get_nth _ y4 i 0) by lia. reflexivity. }
          intros work5 (W5 & W5a & W5b). simpl.
          assert (FX : forall i, (i < m)%nat -> v_ y4 i = mvec nm (ccs_mat (pF P)) (fun j => xh (Nat.add m j)) i).
          { intros i Hi. rewrite H7 by lia. rewrite FC. apply (mvec_eq_x O). intros j Hj.
            rewrite v_skipn. auto. }
          split; [lia|]. split; [lia|]. split; [|split].
          + intros j Hj. rewrite H7' by lia. auto.
          + auto.
          + intros i Hi. rewrite W5a by lia. rewrite BX by auto. now rewrite FX. }
      intros [y4 work5] (L4 & W5 & Y4b & Y4a & W5a). simpl in L4, W5, Y4b, Y4a, W5a.
      (* E part *)
      wpb. eapply wp_conseq with (P := fun r => length (fst r) = n /\ length (snd r) = length work /\
        (forall i, (i < m)%nat -> v_ (snd r) i = mvec m (Bmat P) xh i + mvec nm (ccs_mat (pF P)) (fun j => xh (Nat.add m j)) i) /\
        exists z, veq m (mvec m (Bmat P) z) (mvec nm (ccs_mat (pF P)) (fun j => xh (Nat.add m j))) /\
        forall i, (i < nm)%nat -> v_ (snd r) (Nat.add m i) = mvec m (ccs_mat (pE P)) (fun j => z j + xh j) i
           + mvec nm C (fun j => xh (Nat.add m j)) i).
      { destruct (Nat.eqb_spec nm Datatypes.O) as [Z|Z]; cbn [negb].
        - apply wp_ok. simpl. split; [lia|]. split; [lia|]. split; auto.
          exists (fun _ => 0). split; [|intros; lia]. intros i Hi. rewrite Z.
          transitivity (0 : T); [|reflexivity]. apply (sum_zero O RL). intros. ring.
        - destruct (lo_E O P LO) as (WE & E1 & E2); [fold m; lia|]. rewrite En in E2. fold m nm in E1, E2.
          wpb. eapply wp_conseq. { apply (ldu_wp P LO y4). fold m; lia. }
          fold m. intros y5 (L5 & Y5a & Y5b).
          wpb. eapply wp_conseq.
          { apply (upd_range_wp Datatypes.O m _ (fun i a => a + xh i)); [lia|].
            intros i a Hi. rewrite (ucp_t P LO) by lia. reflexivity. }
          intros y6 (L6 & Y6a & Y6b).
          wpb. apply on_tail_wp; [lia|].
          destruct (ccs_multiply_nt_low_correct O RL (pE P) y6 (skipn m work5) WE) as (r & Er & Lr & Hr & _).
          { lia. } { rewrite skipn_length. lia. }
          rewrite Er. simpl. split; auto. intros work6 W6 W6a W6b.
          wpb. eapply wp_conseq.
          { apply (upd_range_wp m n _ (fun i a => a + v_ y6 i)); [lia|].
            intros i a Hi. rewrite (get_nth _ y6 i 0) by lia. reflexivity. }
          intros work7 (W7 & W7a & W7b). simpl. split; [lia|]. split; [lia|]. split.
          { intros i Hi. rewrite W7b by lia. rewrite W6a by auto. auto. }
          exists (v_ y5). split.
          { intros i Hi. rewrite Y5a by auto. auto. }
          intros i Hi. rewrite W7a by lia. rewrite W6b. rewrite Hr by lia. rewrite E1. f_equal.
          + apply (mvec_eq_x O). intros j Hj. now rewrite Y6a by lia.
          + rewrite Y6b by lia. rewrite Y5b by lia. rewrite Y4b by auto. now apply Hy1. }
      intros [y5 work6] (L5 & W6 & W6a & z & Hz & W6b). simpl in L5, W6, W6a, W6b.
      destruct (lo_s O P LO) as [Ls Hs]. rewrite En in Ls, Hs.
      destruct (lo_p O P LO) as (Lp & Lpi & P1 & P2). rewrite En in Lp, Lpi, P1, P2.
      wpb. eapply wp_conseq.
      { apply (upd_range_wp Datatypes.O n _ (fun i _ => tdiv O (v_ work6 (nth i (pp_inv P) Datatypes.O)) (v_ (ps P) i))); [lia|].
        intros i a Hi. rewrite (get_nth _ (pp_inv P) i Datatypes.O) by lia. cbn [bind].
        destruct (P2 i ltac:(lia)).
        rewrite (get_nth _ work6 (nth i (pp_inv P) Datatypes.O) 0) by lia. cbn [bind].
        rewrite (get_nth _ (ps P) i 0) by lia. reflexivity. }
      intros y6 (L6 & Y6a & _). apply wp_ok. simpl. split; [lia|]. split; [lia|].
      refine (level_prod O FL m n (v_ (ps P)) (v_ (pt P)) (pp P) (pp_inv P) (pq P) (pq_inv P)
        (Bmat P) (ccs_mat (pF P)) (ccs_mat (pE P)) C M (v_ b) xh (v_ y6) z Hm _ _ _ _ HLv _ Hz _).
      - rewrite <- En. apply (lo_p O P LO).
      - rewrite <- En. apply (lo_q O P LO).
      - auto.
      - apply (B_inj P LO).
      - intros j Hj. unfold xh, bu. transitivity (tdiv O (v_ b (nth j (pq P) Datatypes.O)) (v_ (pt P) (nth j (pq P) Datatypes.O))
          * v_ (pt P) (nth j (pq P) Datatypes.O)); [|ring].
        rewrite (div_mul O FL); auto. apply (proj2 (lo_t O P LO)). rewrite En.
        destruct (lo_q O P LO) as (_ & _ & QQ & _). rewrite En in QQ. now apply QQ.
      - intros k Hk. rewrite Y6a by lia. destruct (P2 k Hk) as [K1 K2].
        transitivity (tdiv O (v_ work6 (nth k (pp_inv P) Datatypes.O)) (v_ (ps P) k) * v_ (ps P) k); [ring|].
        rewrite (div_mul O FL) by auto. fold nm.
        destruct (Nat.ltb_spec (nth k (pp_inv P) Datatypes.O) m).
        + now apply W6a.
        + replace (nth k (pp_inv P) Datatypes.O) with (Nat.add m (Nat.sub (nth k (pp_inv P) Datatypes.O) m)) at 1 by lia.
          apply W6b. unfold nm. lia.
    Qed.

    (** ** prec_prod_tran *)
    Lemma prec_prod_tran_wp : forall precs n ld M b y work,
      hier_ok ld precs n -> Forall real_scaling precs -> prec_matrix ld precs M ->
      length b = n -> length y = n -> (compute_prec_work_space O precs <= length work)%nat ->
      wp (prec_prod_tran O precs b ld y work) (fun r => length (fst r) = n /\
        length (snd r) = length work /\ veq n (v_ (fst r)) (mvec n (madj M) (v_ b))).
    Proof.
      induction precs as [|P rest IH]; intros n ld M b y work HO HR HM Lb Ly Lw; [contradiction|].
      destruct HO as (LO & En & HT). destruct HM as (C & HLv & HC).
      inversion HR as [|? ? RS HR']; subst.
      apply level_adj_ok in HLv; auto. remember (pn P) as n eqn:En. symmetry in En.
      rewrite cws_cons in Lw. rewrite En in *. cbn [prec_prod_tran]. rewrite En.
      assert (Hm := lo_m O P LO). rewrite En in Hm.
      set (m := pm P) in *. set (nm := Nat.sub n m) in *.
      assert (FC := lo_Fc O P LO). rewrite En in FC. fold m nm in FC. rewrite ?FC.
      set (xh := bu (ps P) (pp P) b).
      wpb. eapply wp_conseq.
      { apply (upd_range_wp m n _ (fun i _ => xh i)); [lia|].
        intros i a Hi. apply (ucp_s P LO); lia. }
      intros work1 (W1 & W1a & _).
      (* Schur complement *)
      wpb. eapply wp_conseq with (P := fun r =>
        length (fst r) = n /\ length (snd r) = length work /\
        (forall i, (i < nm)%nat -> v_ (snd r) (Nat.add m i) = xh (Nat.add m i)) /\
        veq nm (fun i => v_ (fst r) (Nat.add m i)) (mvec nm (madj C) (fun j => xh (Nat.add m j)))).
      { destruct (is_last_level O P) eqn:LL.
        - destruct (Nat.eqb_spec nm Datatypes.O) as [Z|Z]; cbn [negb].
          + apply wp_ok. simpl. rewrite Z. split; auto. split; auto. split; intros i Hi; lia.
          + destruct HC as [HC|HC]; [lia|].
            wpb. eapply wp_conseq. { apply (copy_range_wp work1 m nm y m); lia. }
            intros y1 (L1 & Y1a & _).
            wpb. apply on_sub_wp; [lia|].
            destruct (di_mul_t O P ld C HC (slice m nm y1)) as (z & Ez & Lz & Hz).
            { rewrite slice_length by lia. now rewrite En. }
            rewrite En in Lz, Hz. fold m nm in Ez, Lz, Hz. rewrite Ez. simpl. split; auto.
            intros y2 L2 Y2a Y2b. split; [lia|]. split; auto. split; [intros; apply W1a; lia|].
            intros i Hi. rewrite Y2b by auto. rewrite Hz by auto. apply (mvec_eq_x O).
            intros j Hj. rewrite v_slice by auto. rewrite Y1a by auto. apply W1a; lia.
        - destruct (Nat.leb_spec (Nat.add m nm) (length y)); [|lia].
          destruct (Nat.leb_spec n (length work1)); [|lia].
          wpb. eapply wp_conseq.
          { apply (IH nm ld C); auto.
            - now rewrite slice_length by lia.
            - now rewrite slice_length by lia.
            - rewrite skipn_length. lia. }
          intros [ym wn] (Lm & Lwn & Hy). simpl in Lm, Lwn, Hy. apply wp_ok. simpl.
          destruct (splice_facts m nm y ym) as (A1 & A2 & A3); auto.
          split; [lia|]. split; [rewrite app_length, firstn_length, Lwn, skipn_length; lia|].
          split.
          + intros i Hi. rewrite v_app_l by (rewrite firstn_length; lia). rewrite v_firstn by lia. apply W1a; lia.
          + intros i Hi. rewrite A3 by auto. rewrite Hy by auto. apply (mvec_eq_x O).
            intros j Hj. rewrite v_slice by auto. apply W1a; lia. }
      intros [y1 work1'] (L1 & W1' & W1b & Hy1). simpl in L1, W1', W1b, Hy1.
      wpb. eapply wp_conseq.
      { apply (upd_range_wp Datatypes.O m _ (fun i _ => xh i)); [lia|].
        intros i a Hi. apply (ucp_s P LO); lia. }
      intros work2 (W2 & W2a & W2b).
      destruct (lo_L O P LO) as (WU & U1p & U1s & _). destruct (lo_U O P LO) as (WL & L1p & L1s & _).
      destruct (lo_d O P LO) as [Ld _]. fold m in U1p, U1s, L1p, L1s, Ld.
      destruct (ccs_multiply_t_low_correct O RL (pL P) work2 y1 WU) as (y2 & Ey2 & L2 & H4 & H4'); [lia|lia|].
      wpb. rewrite Ey2. simpl. wpb. eapply wp_conseq.
      { apply (upd_range_wp Datatypes.O m _ (fun i a => (a + v_ work2 i) * (tconj O (v_ (pd P) i)))); [lia|].
        intros i a Hi. rewrite (get_nth _ work2 i 0) by lia. cbn [bind].
        rewrite (get_nth _ (pd P) i 0) by lia. reflexivity. }
      intros y3 (L3 & Y3a & Y3b).
      destruct (ccs_multiply_t_low_correct O RL (pU P) y3 work2 WL) as (work3 & Ew3 & W3 & H6 & H6'); [lia|lia|].
      wpb. rewrite Ew3. simpl. wpb. eapply wp_conseq.
      { apply (upd_range_wp Datatypes.O m _ (fun i a => a + v_ y3 i)); [lia|].
        intros i a Hi. rewrite (get_nth _ y3 i 0) by lia. reflexivity. }
      intros work4 (W4 & W4a & W4b).
      assert (BX : forall i, (i < m)%nat -> v_ work4 i = mvec m (madj (Bmat P)) xh i).
      { intros i Hi. symmetry. etransitivity.
        { apply (BH_form P xh (v_ y3) i Hi). intros j Hj. fold m in Hj |- *.
          rewrite Y3a by lia. rewrite H4 by lia. rewrite U1s. rewrite W2a by lia.
          rewrite (mvec_eq_x O m _ (v_ work2) xh j) by (intros k Hk; apply W2a; lia). reflexivity. }
        fold m. rewrite W4a by lia. rewrite H6 by lia. rewrite L1s. reflexivity. }
      assert (W4c : forall j, (j < nm)%nat -> v_ work4 (Nat.add m j) = xh (Nat.add m j)).
      { intros j Hj. rewrite W4b by lia. rewrite H6' by lia. rewrite W2b by lia. auto. }
      assert (Y3c : forall j, (j < nm)%nat -> v_ y3 (Nat.add m j) = v_ y1 (Nat.add m j)).
      { intros j Hj. rewrite Y3b by lia. apply H4'. lia. }
      (* F part *)
      wpb. eapply wp_conseq with (P := fun r => length (fst r) = n /\ length (snd r) = length work /\
        (forall j, (j < nm)%nat -> v_ (fst r) (Nat.add m j) = v_ y1 (Nat.add m j)) /\
        (nm <> Datatypes.O -> forall i, (i < m)%nat -> v_ (fst r) i = mvec nm (madj (ccs_mat (pE P))) (fun j => xh (Nat.add m j)) i) /\
        forall i, (i < m)%nat -> v_ (snd r) i = mvec m (madj (Bmat P)) xh i + mvec nm (madj (ccs_mat (pE P))) (fun j => xh (Nat.add m j)) i).
      { destruct (Nat.eqb_spec nm Datatypes.O) as [Z|Z]; cbn [negb].
        - apply wp_ok. simpl. split; [lia|]. split; [lia|]. split; [intros; lia|]. split; [lia|].
          intros i Hi. rewrite BX by auto. rewrite Z. unfold mvec at 3. simpl. ring.
        - destruct (lo_E O P LO) as (WF & E1 & F1); [fold m; lia|]. rewrite En in F1. fold m nm in E1, F1.
          destruct (ccs_multiply_t_low_correct O RL (pE P) (skipn m work4) y3 WF) as (y4 & Ey4 & L4 & H7 & H7').
          { rewrite skipn_length. lia. } { lia. }
          wpb. rewrite Ey4. simpl. wpb. eapply wp_conseq.
          { apply (upd_range_wp Datatypes.O m _ (fun i a => a + v_ y4 i)); [lia|].
            intros i a Hi. rewrite (get_nth _ y4 i 0) by lia. reflexivity. }
          intros work5 (W5 & W5a & W5b). simpl.
          assert (FX : forall i, (i < m)%nat -> v_ y4 i = mvec nm (madj (ccs_mat (pE P))) (fun j => xh (Nat.add m j)) i).
          { intros i Hi. rewrite H7 by lia. rewrite F1. apply (mvec_eq_x O). intros j Hj.
            rewrite v_skipn. auto. }
          split; [lia|]. split; [lia|]. split; [|split].
          + intros j Hj. rewrite H7' by lia. auto.
          + auto.
          + intros i Hi. rewrite W5a by lia. rewrite BX by auto. now rewrite FX. }
      intros [y4 work5] (L4 & W5 & Y4b & Y4a & W5a). simpl in L4, W5, Y4b, Y4a, W5a.
      (* E part *)
      wpb. eapply wp_conseq with (P := fun r => length (fst r) = n /\ length (snd r) = length work /\
        (forall i, (i < m)%nat -> v_ (snd r) i = mvec m (madj (Bmat P)) xh i + mvec nm (madj (ccs_mat (pE P))) (fun j => xh (Nat.add m j)) i) /\
        exists z, veq m (mvec m (madj (Bmat P)) z) (mvec nm (madj (ccs_mat (pE P))) (fun j => xh (Nat.add m j))) /\
        forall i, (i < nm)%nat -> v_ (snd r) (Nat.add m i) = mvec m (madj (ccs_mat (pF P))) (fun j => z j + xh j) i
           + mvec nm (madj C) (fun j => xh (Nat.add m j)) i).
      { destruct (Nat.eqb_spec nm Datatypes.O) as [Z|Z]; cbn [negb].
        - apply wp_ok. simpl. split; [lia|]. split; [lia|]. split; auto.
          exists (fun _ => 0). split; [|intros; lia]. intros i Hi. rewrite Z.
          transitivity (0 : T); [|reflexivity]. apply (sum_zero O RL). intros. ring.
        - destruct (lo_F O P LO) as (WE & E1); [fold m; lia|]. fold m in E1.
          wpb. eapply wp_conseq. { apply (utdlt_wp P LO y4). fold m; lia. }
          fold m. intros y5 (L5 & Y5a & Y5b).
          wpb. eapply wp_conseq.
          { apply (upd_range_wp Datatypes.O m _ (fun i a => a + xh i)); [lia|].
            intros i a Hi. rewrite (ucp_s P LO) by lia. reflexivity. }
          intros y6 (L6 & Y6a & Y6b).
          wpb. apply on_tail_wp; [lia|].
          destruct (ccs_multiply_t_low_correct O RL (pF P) y6 (skipn m work5) WE) as (r & Er & Lr & Hr & _).
          { lia. } { rewrite skipn_length. lia. }
          rewrite Er. simpl. split; auto. intros work6 W6 W6a W6b.
          wpb. eapply wp_conseq.
          { apply (upd_range_wp m n _ (fun i a => a + v_ y6 i)); [lia|].
            intros i a Hi. rewrite (get_nth _ y6 i 0) by lia. reflexivity. }
          intros work7 (W7 & W7a & W7b). simpl. split; [lia|]. split; [lia|]. split.
          { intros i Hi. rewrite W7b by lia. rewrite W6a by auto. auto. }
          exists (v_ y5). split.
          { intros i Hi. rewrite Y5a by auto. auto. }
          intros i Hi. rewrite W7a by lia. rewrite W6b. rewrite Hr by lia. rewrite E1. f_equal.
          + apply (mvec_eq_x O). intros j Hj. now rewrite Y6a by lia.
          + rewrite Y6b by lia. rewrite Y5b by lia. rewrite Y4b by auto. now apply Hy1. }
      intros [y5 work6] (L5 & W6 & W6a & z & Hz & W6b). simpl in L5, W6, W6a, W6b.
      destruct (lo_t O P LO) as [Ls Hs]. rewrite En in Ls, Hs.
      destruct (lo_q O P LO) as (Lp & Lpi & P1 & P2). rewrite En in Lp, Lpi, P1, P2.
      wpb. eapply wp_conseq.
      { apply (upd_range_wp Datatypes.O n _ (fun i _ => tdiv O (v_ work6 (nth i (pq_inv P) Datatypes.O)) (v_ (pt P) i))); [lia|].
        intros i a Hi. rewrite (get_nth _ (pq_inv P) i Datatypes.O) by lia. cbn [bind].
        destruct (P2 i ltac:(lia)).
        rewrite (get_nth _ work6 (nth i (pq_inv P) Datatypes.O) 0) by lia. cbn [bind].
        rewrite (get_nth _ (pt P) i 0) by lia. reflexivity. }
      intros y6 (L6 & Y6a & _). apply wp_ok. simpl. split; [lia|]. split; [lia|].
      refine (level_prod O FL m n (v_ (pt P)) (v_ (ps P)) (pq P) (pq_inv P) (pp P) (pp_inv P)
        (madj (Bmat P)) (madj (ccs_mat (pE P))) (madj (ccs_mat (pF P))) (madj C) (madj M) (v_ b) xh (v_ y6) z Hm _ _ _ _ HLv _ Hz _).
      - rewrite <- En. apply (lo_q O P LO).
      - rewrite <- En. apply (lo_p O P LO).
      - auto.
      - apply (BH_inj P LO).
      - intros j Hj. unfold xh, bu. transitivity (tdiv O (v_ b (nth j (pp P) Datatypes.O)) (v_ (ps P) (nth j (pp P) Datatypes.O))
          * v_ (ps P) (nth j (pp P) Datatypes.O)); [|ring].
        rewrite (div_mul O FL); auto. apply (proj2 (lo_s O P LO)). rewrite En.
        destruct (lo_p O P LO) as (_ & _ & QQ & _). rewrite En in QQ. now apply QQ.
      - intros k Hk. rewrite Y6a by lia. destruct (P2 k Hk) as [K1 K2].
        transitivity (tdiv O (v_ work6 (nth k (pq_inv P) Datatypes.O)) (v_ (pt P) k) * v_ (pt P) k); [ring|].
        rewrite (div_mul O FL) by auto. fold nm.
        destruct (Nat.ltb_spec (nth k (pq_inv P) Datatypes.O) m).
        + now apply W6a.
        + replace (nth k (pq_inv P) Datatypes.O) with (Nat.add m (Nat.sub (nth k (pq_inv P) Datatypes.O) m)) at 1 by lia.
          apply W6b. unfold nm. lia.
    Qed.
  End Laws.
End PP.
