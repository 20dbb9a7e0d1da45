(** * PivotProofs8: the whole pivoting factorization of one level. *)
From Coq Require Import List Arith Lia Bool Permutation Ring.
From Verif Require Import Base Scalar Spec CSModel CSSpec ConvModel ConvSpec BucketProofs ConvProofs ConvProofs2
  ConvProofs3 ConvProofs4 Mag VecModel VecSpec VecProofs PruneModel PruneProofs CroutModel CroutSpec CroutProofs1 CroutProofs2 CroutProofs3
  CroutProofs4 CroutProofs5 CroutProofs6 CroutProofs7 CroutProofs9 CroutProofs10 CroutProofs11
  AugModel AugProofs1 AugProofs2 AugProofs3 PivotModel PivotProofs1 PivotProofs2 PivotProofs3
  PivotProofs4 PivotProofs5 PivotProofs6 PivotProofs7.
Import ListNotations.

Lemma NoDup_app_i : forall X (l l' : list X), NoDup l -> NoDup l' -> (forall x, In x l -> In x l' -> False) -> NoDup (l ++ l').
Proof.
  induction l as [|a l]; intros l' N N' D; auto. inversion N; subst. cbn [app]. constructor.
  - intros Hin. apply in_app_iff in Hin. destruct Hin as [?|?]; auto. apply (D a); [now left|auto].
  - apply IHl; auto. intros x Hx. apply D. now right.
Qed.

(** the original positions of a rearrangement *)
Lemma rearr : forall n m2 m def p0 p0i p', is_inv n p0 p0i -> is_perm n p' -> m + def = m2 -> m2 <= n ->
  (forall i, m2 <= i < n -> nth (i - def) p' 0 = nth i p0 0) ->
  exists acc dfr, length acc = m /\ length dfr = def /\ Permutation (seq 0 m2) (acc ++ dfr) /\
    arranged n m2 acc dfr p0 p'.
Proof.
  intros n m2 m def p0 p0i p' (L0 & L0i & I1 & I2) (Lp & R & J) Em Hm H.
  set (f := fun i => nth (nth i p' 0) p0i 0).
  assert (F : forall i, i < n -> f i < n /\ nth (f i) p0 0 = nth i p' 0) by (intros i Hi; apply I2; auto).
  assert (FJ : forall i j, i < n -> j < n -> f i = f j -> i = j).
  { intros i j Hi Hj E. apply J; auto. destruct (F i Hi) as (_ & <-). destruct (F j Hj) as (_ & <-). now rewrite E. }
  assert (FM : forall i, m2 <= i < n -> f (i - def) = i).
  { intros i Hi. unfold f. rewrite H by auto. now apply I1. }
  assert (FR : forall i, i < n -> i < m \/ n - def <= i -> f i < m2).
  { intros i Hi Hc. destruct (Nat.lt_ge_cases (f i) m2) as [|Hge]; auto. destruct (F i Hi) as (X & _).
    assert (E : f (f i - def) = f i) by (apply FM; lia). apply FJ in E; lia. }
  exists (map f (seq 0 m)), (map f (seq (n - def) def)). rewrite !map_length, !seq_length. split; auto. split; auto.
  rewrite <- map_app.
  assert (RG : forall i, In i (seq 0 m ++ seq (n - def) def) -> i < n /\ (i < m \/ n - def <= i)).
  { intros i Hi. apply in_app_iff in Hi. destruct Hi as [Hi|Hi]; apply in_seq in Hi; lia. }
  assert (ND : NoDup (map f (seq 0 m ++ seq (n - def) def))).
  { assert (N0 : NoDup (seq 0 m ++ seq (n - def) def)).
    { apply NoDup_app_i; try apply seq_NoDup. intros x Hx Hy. apply in_seq in Hx. apply in_seq in Hy. lia. }
    revert RG N0. generalize (seq 0 m ++ seq (n - def) def). clear - FJ. induction l as [|a l]; intros RG N0; [constructor|].
    inversion N0; subst. cbn [map]. constructor.
    - intros Hin. apply in_map_iff in Hin. destruct Hin as (x & E & Hx). apply FJ in E.
      + subst. auto. + apply RG. now right. + apply RG. now left.
    - apply IHl; auto. intros i Hi. apply RG. now right. }
  split.
  - apply Permutation_sym. apply NoDup_Permutation_bis; auto.
    + rewrite map_length, app_length, !seq_length. lia.
    + intros x Hx. apply in_map_iff in Hx. destruct Hx as (i & <- & Hi). apply RG in Hi. apply in_seq. split; [lia|]. apply FR; tauto.
  - unfold arranged. apply nth_ext with (d := 0) (d' := nth 0 p0 0).
    + rewrite map_length, !app_length, !map_length, !seq_length. lia.
    + intros i Hi. rewrite (map_nth (fun i => nth i p0 0)).
      destruct (Nat.lt_ge_cases i m) as [C1|C1].
      * rewrite app_nth1 by (rewrite map_length, seq_length; lia).
        rewrite (nth_indep (map f _) 0 (f 0)) by (rewrite map_length, seq_length; lia). rewrite (map_nth f), seq_nth by lia.
        symmetry. apply F. lia.
      * rewrite app_nth2 by (rewrite map_length, seq_length; lia). rewrite map_length, seq_length.
        destruct (Nat.lt_ge_cases (i + def) n) as [C2|C2].
        -- rewrite app_nth1 by (rewrite seq_length; lia). rewrite seq_nth by lia. rewrite <- H by lia. f_equal. lia.
        -- rewrite app_nth2 by (rewrite seq_length; lia). rewrite seq_length.
           rewrite (nth_indep (map f _) 0 (f 0)) by (rewrite map_length, seq_length; lia). rewrite (map_nth f), seq_nth by lia.
           replace (n - def + (i - m - (n - m2))) with i by lia. symmetry. apply F. lia.
Qed.

Section A.
  Context {O : Ops}.
  Notation T := (T O).
  Notation row := (list (nat * T)).
  Notation col := (row * row)%type.

  Variable bad : T -> bool.
  Variable klt : T -> T -> bool.
  Variables kbad kok : T -> bool.
  Variable piv : T -> T -> bool.
  Variable srt : list T -> list nat -> list nat.
  Variables is0 big : T -> bool.
  Variable dropU dropL : nat -> list T -> list nat -> SV O -> res (SV O).
  Variables (n m2 : nat) (s t : list T) (A_crs A_ccs : CS O).
  Variable Am : nat -> nat -> T.
  Variables p0 q0 : BiPerm.
  Notation dU := (dU dropU). Notation dL := (dL dropL).
  Notation VH := (VH bad is0).
  Notation VAL := (VAL bad is0 dU dL n).
  Notation N2 := (Nat.mul n 2).
  Notation PINV := (PINV bad is0 dropU dropL n m2 s t Am (bp p0) (bp q0)).
  Notation tot := (tot s t Am).
  Notation RESULT := (RESULT bad is0 dU dL n m2 s t Am).

  Hypothesis HS : forall vals l, Permutation (srt vals l) l.
  Hypothesis V1 : valid A_crs. Hypothesis V2 : valid A_ccs.
  Hypothesis P1 : psize A_crs = n. Hypothesis S1 : ssize A_crs = n.
  Hypothesis P2 : psize A_ccs = n. Hypothesis S2 : ssize A_ccs = n.
  Hypothesis Ls : length s = n. Hypothesis Lt : length t = n. Hypothesis Hm : m2 <= n.
  Hypothesis HA : RingLaws O -> forall i j, i < n -> j < n -> ent A_crs i j = Am i j /\ ent A_ccs j i = Am i j.
  Hypothesis DU : drop_ok n dU. Hypothesis DL : drop_ok n dL.
  Hypothesis Hp : is_inv n (bp p0) (bpi p0). Hypothesis Hq : is_inv n (bp q0) (bpi q0).

  Lemma PRep_init : forall js, length js = m2 ->
    PRep m2 N2 0 0 n (aug_begin O (mkCS m2 N2 [] [] [])) js [].
  Proof.
    intros js Lj. destruct (good_begin O (mkCS m2 N2 [] [] [])) as (_ & lab & val & L & R & MR).
    apply (mk_PRep m2 N2 0 0 n _ js [] lab val L); auto; try lia; try (intros; lia).
  Qed.

  Lemma pivot_init_l : forall jd jk js jP jv ji, length jd = m2 -> length jk = m2 -> length js = m2 -> length jP = n ->
    length jv = N2 -> length ji = N2 ->
    let c := pivot_init n m2 A_ccs p0 q0 jd jk js jP jv ji in
    PINV 0 0 c [] [] (fun _ _ => None) (fun _ _ => None) /\ idle N2 0 (r_l c) /\ idle N2 0 (r_u c).
  Proof.
    intros jd jk js jP jv ji L0 L1 L2 L3 L4 L5 c. unfold c, pivot_init. rewrite P2, S2.
    assert (SV0 : idle N2 0 (sv_new (O:=O) N2 jv ji)).
    { split.
      - split; unfold sv_new; cbn [sv_vals sv_inds sv_cnt sv_dtags sv_stags held]; auto; try lia.
        + apply repeat_length.
        + constructor.
        + simpl. tauto.
      - intros i x Hi E. unfold tg, sv_new in E. cbn [sv_dtags] in E. rewrite nth_repeat in E. discriminate. }
    assert (LP : forall p pi, is_inv n p pi -> length (map Some (firstn n p) ++ jP) = N2).
    { intros p pi (X & _). rewrite app_length, map_length, firstn_length. lia. }
    assert (GP : forall p pi, is_inv n p pi -> gP n p (map Some (firstn n p) ++ jP) = map Some (firstn n p) ++ jP).
    { intros p pi (X & _). unfold gP. rewrite !firstn_all2 by lia. f_equal. rewrite skipn_app, map_length, X, Nat.sub_diag.
      rewrite skipn_all2 by (rewrite map_length; lia). auto. }
    assert (PR' : forall p pi, is_inv n p pi -> forall i, m2 <= i < n -> nth i (map Some (firstn n p) ++ jP) None = Some (nth i p 0) /\ nth i p 0 = nth i p 0).
    { intros p pi H i Hi. split; auto. rewrite <- (GP p pi H). apply gP_lo; [apply H|lia]. }
    split; [|split; cbn [r_l r_u]; auto].
    split; cbn [r_m r_def r_L r_Ls r_U r_Us r_d r_p r_q r_P r_Q r_Pi r_Qi r_kl r_ku r_l r_u]; auto; try lia; rewrite ?Nat.add_0_r; try (intros; lia).
    - now apply PRep_init.
    - now apply PRep_init.
    - eapply LP; eauto.
    - eapply LP; eauto.
    - erewrite GP by eauto. eapply PI_init with (s := s) (t := t) (A_crs := A_crs) (A_ccs := A_ccs) (m2 := m2); eauto.
    - erewrite GP by eauto. eapply PI_init with (s := s) (t := t) (A_crs := A_crs) (A_ccs := A_ccs) (m2 := m2); eauto.
    - eapply PR'; eauto.
    - eapply PR'; eauto.
    - now apply idle_used.
    - now apply idle_used.
    - split; intros; lia.
    - split; intros; lia.
    - split; intros; lia.
  Qed.

  Definition KEEP (o : CRout O) : Prop :=
    (forall i, m2 <= i < n -> nth (i - o_def o) (bp (o_p o)) 0 = nth i (bp p0) 0) /\
    (forall i, m2 <= i < n -> nth (i - o_def o) (bp (o_q o)) 0 = nth i (bp q0) 0).
  (** the accepted pivots are entries of the Schur complement of the factors as stored *)
  Definition DIAG (o : CRout O) (LO UO : nat -> nat -> option T) : Prop :=
    VH -> forall i, i < o_m o -> nth i (o_d o) (t0 O) = tot i (o_d o) LO UO (nth i (bp (o_p o)) 0) (nth i (bp (o_q o)) 0).

  Lemma pivot_finish_l : forall k def c lc uc LO UO, PINV k def c lc uc LO UO -> r_m c = k ->
    wp (pivot_finish n (k, c)) (fun o => RESULT o LO UO /\ KEEP o /\ DIAG o LO UO).
  Proof.
    intros k def c lc uc LO UO I Ek. pose proof I as []. unfold pivot_finish. rewrite j_def, Ek.
    assert (Em : k + def = m2) by lia.
    assert (LLp : length (r_p c) = n) by apply j_p. assert (LLq : length (r_q c) = n) by apply j_q.
    assert (XP : forall i, def + k <= i < n + def -> nth i (r_P c) None = nth i (gP n (r_p c) (r_P c)) None).
    { intros i Hi. destruct (Nat.lt_ge_cases i n).
      - rewrite gP_lo by auto. destruct (j_Pr i ltac:(lia)) as (-> & ->). auto.
      - now rewrite gP_hi. }
    assert (XQ : forall i, def + k <= i < n + def -> nth i (r_Q c) None = nth i (gP n (r_q c) (r_Q c)) None).
    { intros i Hi. destruct (Nat.lt_ge_cases i n).
      - rewrite gP_lo by auto. destruct (j_Qr i ltac:(lia)) as (-> & ->). auto.
      - now rewrite gP_hi. }
    assert (j_p' : PI n k (def + k) (n + def) (r_p c) (r_P c) (r_Pi c)) by (eapply PI_ext; eauto; lia).
    assert (j_q' : PI n k (def + k) (n + def) (r_q c) (r_Q c) (r_Qi c)) by (eapply PI_ext; eauto; lia).
    assert (j_lk' : link k (def + k) (n + def) (r_p c) (r_P c) lc LO) by (eapply link_ext; eauto).
    assert (j_uk' : link k (def + k) (n + def) (r_q c) (r_Q c) uc UO) by (eapply link_ext; eauto).
    wpb. eapply wp_conseq. { eapply gap_l; [exact j_p'|lia]. } intros p' (PP & A1 & A2).
    wpb. eapply wp_conseq. { eapply gap_l; [exact j_q'|lia]. } intros q' (PQ & B1 & B2).
    destruct (build_inv_l n (mkBP p' (r_Pi c))) as (bpp & Ep & Ep2 & Ep3); [exact PP|apply j_p|].
    destruct (build_inv_l n (mkBP q' (r_Qi c))) as (bqq & Eq & Eq2 & Eq3); [exact PQ|apply j_q|].
    rewrite Ep, Eq. cbn [bind]. cbn [bp] in Ep2, Eq2.
    destruct (prep_ne _ _ _ _ _ _ _ _ j_L) as (li & RL'). destruct (prep_ne _ _ _ _ _ _ _ _ j_U) as (ui & RU').
    pose proof RL' as []. pose proof RU' as []. cbn [fm fstart flist] in *.
    rewrite r_fm, r_fm0, !app_nil_r. rewrite !end_assemble_ofrows. rewrite !map_length. rewrite r_k, r_k0.
    wpb. eapply wp_conseq. { apply (globalise_l k N2 k lc (r_Ls c)); auto; lia. } intros Ls' (LLs & HLs).
    wpb. eapply wp_conseq. { apply (globalise_l k N2 k uc (r_Us c)); auto; lia. } intros Us' (LUs & HUs).
    rewrite (compress_tail_l k N2 k def uc Us'); auto; try lia.
    2:{ intros c0 Hc e He. specialize (r_tail0 c0 Hc). apply r_tail0 in He. lia. }
    rewrite (compress_tail_l k N2 k def lc Ls'); auto; try lia.
    2:{ intros c0 Hc e He. specialize (r_tail c0 Hc). apply r_tail in He. lia. }
    cbn [bind]. rewrite Nat.div_mul by lia.
    destruct (fin_factor n m2 k def _ lc (r_p c) (r_P c) p' LO Ls' RL' j_lk' Em Hm A1 A2 HLs) as (F1 & F2 & F3).
    destruct (fin_factor n m2 k def _ uc (r_q c) (r_Q c) q' UO Us' RU' j_uk' Em Hm B1 B2 HUs) as (G1 & G2 & G3).
    apply wp_ok. split; [|split].
    - split; cbn [o_m o_p o_q o_L o_Ls o_U o_Us o_d o_def o_l o_u]; rewrite ?Ep2, ?Eq2; auto; try lia.
      + now rewrite <- Ep2.
      + now rewrite <- Eq2.
      + split; auto.
      + split; auto.
      + destruct j_val. split.
        * intros H c0 x Hc Hx Hi Hs. rewrite B1 by auto. apply vL; auto. intros i Hi'. rewrite <- A1 by lia. auto.
        * intros H c0 x Hc Hx Hi Hs. rewrite A1 by auto. apply vU; auto. intros i Hi'. rewrite <- B1 by lia. auto.
        * intros H HL c0 Hc. rewrite A1, B1 by auto. auto.
        * auto.
        * intros; lia.
      + split; [apply j_l|]. intros i st Hi E. apply j_l in E; auto. lia.
      + split; [apply j_u|]. intros i st Hi E. apply j_u in E; auto. lia.
    - split; cbn [o_def o_p o_q]; rewrite ?Ep2, ?Eq2; intros i Hi.
      + specialize (A2 (i - def) ltac:(lia)). replace (i - def + def) with i in A2 by lia.
        destruct (j_Pr i Hi) as (E & _). rewrite E in A2. now inversion A2.
      + specialize (B2 (i - def) ltac:(lia)). replace (i - def + def) with i in B2 by lia.
        destruct (j_Qr i Hi) as (E & _). rewrite E in B2. now inversion B2.
    - intros H i Hi. cbn [o_d o_p o_q o_m] in *. rewrite Ep2, Eq2, A1, B1 by auto. now apply j_x.
  Qed.

  Lemma pivot_crout_l : forall jd jk js jP jv ji, length jd = m2 -> length jk = m2 -> length js = m2 -> length jP = n ->
    length jv = N2 -> length ji = N2 ->
    wp (pivot_crout bad klt kbad kok piv srt is0 big dropU dropL n m2 s t A_crs A_ccs p0 q0 jd jk js jP jv ji)
      (fun o => exists LO UO, RESULT o LO UO /\ KEEP o /\ DIAG o LO UO).
  Proof.
    intros jd jk js jP jv ji L0 L1 L2 L3 L4 L5. unfold pivot_crout.
    destruct (pivot_init_l jd jk js jP jv ji) as (I & Il & Iu); auto.
    wpb. eapply wp_conseq. { eapply pivot_loop_l; [..|exact I| | |]; eauto; lia. } intros [k c'] (def & lc & uc & LO & UO & I' & E). cbn [fst snd] in *.
    eapply wp_conseq. { eapply pivot_finish_l; eauto. } intros o Ho. exists LO, UO. exact Ho.
  Qed.

  (** on the diagonal L D U is exact whatever is dropped *)
  Lemma pdiag_eq : forall o LO UO, RESULT o LO UO -> DIAG o LO UO -> VH -> forall i, i < o_m o ->
    LDU o i i = hat s t Am (nth i (bp (o_p o)) 0) (nth i (bp (o_q o)) 0).
  Proof.
    intros o LO UO R DG H i Hi. destruct R. pose proof (fl_ring O (proj1 H)) as RL.
    destruct re_l as (E1 & E2). destruct re_u as (F1 & F2).
    assert (PA : pat_above (o_L o)) by apply re_L. assert (PU : pat_above (o_U o)) by apply re_U.
    assert (ZL : psize (o_L o) = o_m o) by apply re_L. assert (ZU : psize (o_U o) = o_m o) by apply re_U.
    unfold LDU. rewrite (sum_cut n m2 s t A_crs A_ccs P1 S1 P2 S2 Ls Lt Hm RL (S i) (o_m o)).
    - cbn [sum]. unfold Umat at 2, Lmat at 2. rewrite Nat.eqb_refl. rewrite ru_1m1 by auto.
      rewrite (DG H i Hi). unfold PivotProofs6.tot.
      rewrite (sum_ext O i _ (prd (o_d o) LO UO (nth i (bp (o_p o)) 0) (nth i (bp (o_q o)) 0))); [now apply ru_subadd|].
      intros c Hc. unfold prd, Lmat, Umat. destruct (Nat.eqb_spec i c); [lia|]. destruct (Nat.eqb_spec c i); [lia|].
      unfold ccs_mat, crs_mat. rewrite E1, F1 by (auto; lia). auto.
    - lia.
    - intros c Hc. unfold Umat. destruct (Nat.eqb_spec c i); [lia|]. unfold crs_mat.
      rewrite (pat_above_ent O RL) by (auto; lia). apply ru_mm0. auto.
  Qed.
End A.
