(** * CroutProofs11: the whole factorization of one level. *)
From Coq Require Import List Arith Lia Bool Permutation Ring.
From Verif Require Import Base Scalar Spec CSModel CSSpec ConvModel ConvSpec BucketProofs ConvProofs ConvProofs2
  ConvProofs3 ConvProofs4 Mag VecModel VecSpec VecProofs PruneModel PruneProofs CroutModel CroutSpec CroutProofs1 CroutProofs2 CroutProofs3
  CroutProofs4 CroutProofs5 CroutProofs6 CroutProofs7 CroutProofs8 CroutProofs9 CroutProofs10.
Import ListNotations.

Section A.
  Context {O : Ops}.
  Notation T := (T O).
  Notation row := (list (nat * T)).
  Notation col := (row * row)%type.

  Variable bad : T -> bool.
  Variable klt : T -> T -> bool.
  Variable kbad : T -> bool.
  Variables is0 big : T -> bool.
  Variable dropU dropL : nat -> CR O -> SV O -> res (SV O).
  Variables (n m2 : nat) (s t : list T) (A_crs A_ccs : CS O).
  Variable Am : nat -> nat -> T.
  Variables p0 q0 : BiPerm.
  Hypothesis V1 : valid A_crs. Hypothesis V2 : valid A_ccs.
  Hypothesis P1 : psize A_crs = n. Hypothesis S1 : ssize A_crs = n.
  Hypothesis P2 : psize A_ccs = n. Hypothesis S2 : ssize A_ccs = n.
  Hypothesis Ls : length s = n. Hypothesis Lt : length t = n. Hypothesis Hm : m2 <= n.
  Hypothesis HA : RingLaws O -> forall i j, i < n -> j < n -> ent A_crs i j = Am i j /\ ent A_ccs j i = Am i j.
  Hypothesis DU : drop_ok n dropU. Hypothesis DL : drop_ok n dropL.
  Hypothesis Hp : is_inv n (bp p0) (bpi p0). Hypothesis Hq : is_inv n (bp q0) (bpi q0).
  Notation INV := (INV bad is0 dropU dropL n m2 s t Am (bp p0) (bp q0)).
  Notation VAL := (VAL bad is0 dropU dropL n m2 s t Am).
  Notation VH := (VH bad is0).

  Lemma PI_init : forall p pi jP, is_inv n p pi -> length jP = n ->
    PI n 0 0 n p (map Some (firstn n p) ++ jP) pi.
  Proof.
    intros p pi jP (L1 & L2 & H1 & H2) LJ. rewrite firstn_all2 by lia.
    assert (NP : forall i, i < n -> nth i (map Some p ++ jP) None = Some (nth i p 0)).
    { intros i Hi. rewrite app_nth1 by (rewrite map_length; lia). rewrite (nth_indep _ None (Some 0)) by (rewrite map_length; lia).
      now rewrite map_nth. }
    split; auto; try (intros; lia).
    - rewrite app_length, map_length. lia.
    - intros r Hr. exists (nth r p 0). destruct (H1 r ltac:(lia)). rewrite NP by lia. auto.
    - intros i Hi. apply NP. lia.
    - intros x Hx _. destruct (H2 x Hx). rewrite NP by auto. auto.
  Qed.

  Lemma Rep_init : forall js, length js = m2 ->
    Rep m2 (Nat.mul n 2) 0 0 n [] (mkFac (begin_assemble O (mkCS m2 (Nat.mul n 2) [] [] [])) (repeat None (Nat.mul n 2)) js) [].
  Proof.
    intros js Lj. split; cbn [fm flist fstart]; auto; try lia; try (intros; lia).
    split; [apply repeat_length|]. intros r Hr. exists []. rewrite nth_repeat. split; [constructor|]. split; [constructor|].
    intros c. simpl. split; [tauto|]. intros (A & _). lia.
  Qed.

  Lemma crout_init_l : forall jd jk js jP jv ji, length jk = m2 -> length js = m2 -> length jP = n ->
    length jv = Nat.mul n 2 -> length ji = Nat.mul n 2 ->
    wp (crout_init n m2 s t A_ccs p0 q0 jd jk js jP jv ji) (fun c => INV 0 0 c [] [] (fun _ _ => None) (fun _ _ => None)).
  Proof.
    intros jd jk js jP jv ji L1 L2 L3 L4 L5. unfold crout_init. rewrite P2, S2.
    pose proof (is_inv_perm _ _ _ Hp) as PP. pose proof (is_inv_perm _ _ _ Hq) as PQ.
    wpb. eapply wp_conseq. { apply (diag_l n m2 s t A_ccs (bp p0) (bp q0) jd); auto. }
    intros d (Ld & Hd). apply wp_ok.
    assert (SV0 : idle (Nat.mul n 2) 0 (sv_new (O:=O) (Nat.mul n 2) jv ji)).
    { split.
      - split; unfold sv_new; cbn [sv_vals sv_inds sv_cnt sv_dtags sv_stags held]; auto; try lia.
        + apply repeat_length.
        + constructor.
        + simpl. tauto.
      - intros i x Hi E. unfold tg, sv_new in E. cbn [sv_dtags] in E. rewrite nth_repeat in E. discriminate. }
    split; cbn [c_def c_m c_L c_U c_d c_p c_q c_P c_Q c_Pi c_Qi c_kl c_ku c_l c_u]; auto; try lia; rewrite ?Nat.add_0_r.
    - now apply Rep_init.
    - now apply Rep_init.
    - now apply PI_init.
    - now apply PI_init.
    - split; intros; lia.
    - split; intros; lia.
    - split; try (intros; lia). intros H _ i Hi. pose proof (fl_ring O (proj1 H)) as RL. rewrite Hd by (auto; lia).
      cbn [sum]. rewrite ru_sub0 by auto. unfold hat.
      destruct PP as (_ & RP & _). destruct PQ as (_ & RQ & _). now rewrite (proj2 (HA RL _ _ (RP i ltac:(lia)) (RQ i ltac:(lia)))).
    - assert (HH : forall p pi, is_inv n p pi -> HI n p [] [] p (map Some (firstn n p) ++ jP)).
      { intros p pi (X1 & _). split; [simpl; intros; lia|]. split; [auto|simpl; intros; lia]. }
      exists [], []. split; [repeat split; auto|]. split; eapply HH; eauto.
  Qed.

  Definition split_facts (k : nat) (A : CS O) (p' : list nat) (LO : nat -> nat -> option T) : Prop :=
    (RingLaws O -> forall c i, c < k -> c < i -> i < n -> ent A c i = ov (LO c (nth i p' 0))) /\
    (forall c i v, c < k -> c < i -> i < n -> (stored A c i v <-> LO c (nth i p' 0) = Some v)).

  Record RESULT (o : CRout O) (LO UO : nat -> nat -> option T) : Prop := mkRES {
    re_m : o_m o + o_def o = m2;
    re_p : is_inv n (bp (o_p o)) (bpi (o_p o)); re_q : is_inv n (bp (o_q o)) (bpi (o_q o));
    re_L : factor_ok n (o_m o) (o_L o) (o_Ls o); re_U : factor_ok n (o_m o) (o_U o) (o_Us o);
    re_Ll : length (o_Ls o) = m2; re_Ul : length (o_Us o) = m2;
    re_d : length (o_d o) = m2; re_b : forall i, i < o_m o -> bad (nth i (o_d o) (t0 O)) = false;
    re_l : split_facts (o_m o) (o_L o) (bp (o_p o)) LO; re_u : split_facts (o_m o) (o_U o) (bp (o_q o)) UO;
    re_v : VAL (o_m o) m2 (bp (o_p o)) (bp (o_q o)) (o_d o) LO UO;
    re_bl : idle (Nat.mul n 2) (S (o_m o)) (o_l o); re_bu : idle (Nat.mul n 2) (S (o_m o)) (o_u o) }.

  Definition HIST (o : CRout O) : Prop :=
    exists acc dfr, HS (o_m o) (o_def o) acc dfr /\ arranged n m2 acc dfr (bp p0) (bp (o_p o)) /\ arranged n m2 acc dfr (bp q0) (bp (o_q o)).

  Lemma finish_l : forall k def c lc uc LO UO, INV k def c lc uc LO UO -> c_m c = k ->
    wp (crout_finish n (k, c)) (fun o => RESULT o LO UO /\ HIST o).
  Proof.
    intros k def c lc uc LO UO I Ek. pose proof I as []. unfold crout_finish. rewrite i_def, Ek.
    assert (Em : k + def = m2) by lia.
    wpb. eapply wp_conseq. { eapply gap_l; [exact i_p|lia]. } intros p' (PP & A1 & A2).
    wpb. eapply wp_conseq. { eapply gap_l; [exact i_q|lia]. } intros q' (PQ & B1 & B2).
    destruct (build_inv_l n (mkBP p' (c_Pi c))) as (bpp & Ep & Ep2 & Ep3); [exact PP|apply i_p|].
    destruct (build_inv_l n (mkBP q' (c_Qi c))) as (bqq & Eq & Eq2 & Eq3); [exact PQ|apply i_q|].
    rewrite Ep, Eq. cbn [bind]. cbn [bp] in Ep2, Eq2.
    pose proof i_L as RL'. pose proof i_U as RU'. destruct RL'. destruct RU'.
    rewrite r_fm, r_fm0, !app_nil_r. rewrite !end_assemble_ofrows. rewrite !map_length. rewrite r_k, r_k0.
    wpb. eapply wp_conseq. { apply (globalise_l k (Nat.mul n 2) k lc (fstart (c_L c))); auto; lia. } intros Ls' (LLs & HLs).
    wpb. eapply wp_conseq. { apply (globalise_l k (Nat.mul n 2) k uc (fstart (c_U c))); auto; lia. } intros Us' (LUs & HUs).
    rewrite (compress_tail_l k (Nat.mul n 2) k def uc Us'); auto; try lia.
    2:{ intros c0 Hc e He. specialize (r_tail0 c0 Hc). apply r_tail0 in He. lia. }
    rewrite (compress_tail_l k (Nat.mul n 2) k def lc Ls'); auto; try lia.
    2:{ intros c0 Hc e He. specialize (r_tail c0 Hc). apply r_tail in He. lia. }
    cbn [bind]. rewrite Nat.div_mul by lia.
    destruct (fin_factor n m2 k def (c_L c) lc (c_p c) (c_P c) p' LO Ls' i_L i_lk Em Hm A1 A2 HLs) as (F1 & F2 & F3).
    destruct (fin_factor n m2 k def (c_U c) uc (c_q c) (c_Q c) q' UO Us' i_U i_uk Em Hm B1 B2 HUs) as (G1 & G2 & G3).
    apply wp_ok. split; [|
      unfold HIST; cbn [o_m o_p o_q o_def]; rewrite Ep2, Eq2; destruct i_h as (acc & dfr & X1 & X2 & X3); exists acc, dfr; split; auto; split;
      [apply (arranged_l n k def m2 acc dfr (bp p0) (c_p c) (c_P c) p'); auto; try exact (proj1 PP); try (intros i Hi; apply (pi_d _ _ _ _ _ _ _ i_p); lia)
      |apply (arranged_l n k def m2 acc dfr (bp q0) (c_q c) (c_Q c) q'); auto; try exact (proj1 PQ); try (intros i Hi; apply (pi_d _ _ _ _ _ _ _ i_q); lia)]].
    split; cbn [o_m o_p o_q o_L o_Ls o_U o_Us o_d o_def o_l o_u]; rewrite ?Ep2, ?Eq2; auto; try lia.
    - now rewrite <- Ep2.
    - now rewrite <- Eq2.
    - split; auto.
    - split; auto.
    - destruct i_val. split.
      + intros H c0 x Hc Hx Hi Hs. rewrite B1 by auto. apply vL; auto. intros i Hi'. rewrite <- A1 by lia. auto.
      + intros H c0 x Hc Hx Hi Hs. rewrite A1 by auto. apply vU; auto. intros i Hi'. rewrite <- B1 by lia. auto.
      + intros H HL c0 Hc. rewrite A1, B1 by auto. auto.
      + auto.
      + intros; lia.
    - split; [apply i_l|]. intros i st Hi E. apply i_l in E; auto.
    - split; [apply i_u|]. intros i st Hi E. apply i_u in E; auto.
  Qed.

  Lemma crout_l : forall jd jk js jP jv ji, length jk = m2 -> length js = m2 -> length jP = n ->
    length jv = Nat.mul n 2 -> length ji = Nat.mul n 2 ->
    wp (crout bad klt kbad is0 big dropU dropL n m2 s t A_crs A_ccs p0 q0 jd jk js jP jv ji)
      (fun o => (exists LO UO, RESULT o LO UO) /\ HIST o).
  Proof.
    intros jd jk js jP jv ji L1 L2 L3 L4 L5. unfold crout.
    wpb. eapply wp_conseq. { now apply crout_init_l. } intros c I.
    wpb. eapply wp_conseq. { eapply crout_loop_l; [..|exact I|]; eauto; lia. } intros [k c'] (def & lc & uc & LO & UO & I' & E). cbn [fst snd] in *.
    eapply wp_conseq. { eapply finish_l; eauto. } intros o (Ho & Hh). split; [exists LO, UO; exact Ho|exact Hh].
  Qed.

  (** ** Values of the product *)
  Lemma sum_cut : RingLaws O -> forall a b (f : nat -> T), a <= b -> (forall c, a <= c < b -> f c = t0 O) -> sum b f = sum a f.
  Proof.
    intros RL a b f H Hz. induction H; auto. cbn [sum]. rewrite Hz by lia. rewrite ru_add0 by auto. apply IHle. intros. apply Hz. lia.
  Qed.

  Lemma lower_eq : forall o LO UO, RESULT o LO UO -> VH -> forall i j, i < n -> j < o_m o -> j < i ->
    LS dropU dropL n \/ (exists v, stored (o_L o) j i v) ->
    LDU o i j = hat s t Am (nth i (bp (o_p o)) 0) (nth j (bp (o_q o)) 0).
  Proof.
    intros o LO UO [] H i j Hi Hj Hij Hs. pose proof (fl_ring O (proj1 H)) as RL.
    destruct re_l0 as (E1 & E2). destruct re_u0 as (F1 & F2).
    destruct re_p0 as (_ & _ & I1 & _). destruct re_q0 as (_ & _ & J1 & _).
    assert (PA : pat_above (o_L o)) by apply re_L0. assert (PU : pat_above (o_U o)) by apply re_U0.
    assert (ZL : psize (o_L o) = o_m o) by apply re_L0. assert (ZU : psize (o_U o) = o_m o) by apply re_U0.
    unfold LDU. rewrite (sum_cut RL (S j) (o_m o)).
    - cbn [sum]. unfold Umat at 2. rewrite Nat.eqb_refl. rewrite ru_am1 by auto. unfold Lmat at 2.
      destruct (Nat.eqb_spec i j); [lia|]. unfold ccs_mat. rewrite E1 by auto.
      rewrite (vL _ _ _ _ _ _ _ _ _ _ _ _ _ _ _ _ re_v0 H j (nth i (bp (o_p o)) 0)); auto.
      + rewrite (sum_ext O j _ (prd (o_d o) LO UO (nth i (bp (o_p o)) 0) (nth j (bp (o_q o)) 0))); [now apply ru_subadd|].
        intros c Hc. unfold prd, Lmat, Umat. destruct (Nat.eqb_spec i c); [lia|]. destruct (Nat.eqb_spec c j); [lia|].
        unfold ccs_mat, crs_mat. rewrite E1, F1 by (auto; lia). auto.
      + now apply I1.
      + intros i0 Hi0 E. destruct (I1 i Hi) as (_ & X). destruct (I1 i0 ltac:(lia)) as (_ & Y). rewrite E in Y. lia.
      + destruct Hs as [?|(v & Hv)]; auto. right. apply E2 in Hv; auto. congruence.
    - lia.
    - intros c Hc. unfold Umat. destruct (Nat.eqb_spec c j); [lia|]. unfold crs_mat.
      rewrite (pat_above_ent O RL) by (auto; lia). apply ru_mm0. auto.
  Qed.

  Lemma upper_eq : forall o LO UO, RESULT o LO UO -> VH -> forall i j, j < n -> i < o_m o -> i < j ->
    LS dropU dropL n \/ (exists v, stored (o_U o) i j v) ->
    LDU o i j = hat s t Am (nth i (bp (o_p o)) 0) (nth j (bp (o_q o)) 0).
  Proof.
    intros o LO UO [] H i j Hj Hi Hij Hs. pose proof (fl_ring O (proj1 H)) as RL.
    destruct re_l0 as (E1 & E2). destruct re_u0 as (F1 & F2).
    destruct re_p0 as (_ & _ & I1 & _). destruct re_q0 as (_ & _ & J1 & _).
    assert (PA : pat_above (o_L o)) by apply re_L0. assert (PU : pat_above (o_U o)) by apply re_U0.
    assert (ZL : psize (o_L o) = o_m o) by apply re_L0. assert (ZU : psize (o_U o) = o_m o) by apply re_U0.
    unfold LDU. rewrite (sum_cut RL (S i) (o_m o)).
    - cbn [sum]. unfold Lmat at 2. rewrite Nat.eqb_refl. rewrite ru_1mb by auto. unfold Umat at 2.
      destruct (Nat.eqb_spec i j); [lia|]. unfold crs_mat. rewrite F1 by auto.
      rewrite (vU _ _ _ _ _ _ _ _ _ _ _ _ _ _ _ _ re_v0 H i (nth j (bp (o_q o)) 0)); auto.
      + rewrite (sum_ext O i _ (prd (o_d o) LO UO (nth i (bp (o_p o)) 0) (nth j (bp (o_q o)) 0))); [now apply ru_subadd|].
        intros c Hc. unfold prd, Lmat, Umat. destruct (Nat.eqb_spec i c); [lia|]. destruct (Nat.eqb_spec c j); [lia|].
        unfold ccs_mat, crs_mat. rewrite E1, F1 by (auto; lia). auto.
      + now apply J1.
      + intros i0 Hi0 E. destruct (J1 j Hj) as (_ & X). destruct (J1 i0 ltac:(lia)) as (_ & Y). rewrite E in Y. lia.
      + destruct Hs as [?|(v & Hv)]; auto. right. apply F2 in Hv; auto. congruence.
    - lia.
    - intros c Hc. unfold Lmat. destruct (Nat.eqb_spec i c); [lia|]. unfold ccs_mat.
      rewrite (pat_above_ent O RL) by (auto; lia). apply ru_0mm. auto.
  Qed.

  Lemma diag_eq : forall o LO UO, RESULT o LO UO -> VH -> LS dropU dropL n -> forall i, i < o_m o ->
    LDU o i i = hat s t Am (nth i (bp (o_p o)) 0) (nth i (bp (o_q o)) 0).
  Proof.
    intros o LO UO [] H HL i Hi. pose proof (fl_ring O (proj1 H)) as RL.
    destruct re_l0 as (E1 & E2). destruct re_u0 as (F1 & F2).
    assert (PA : pat_above (o_L o)) by apply re_L0. assert (PU : pat_above (o_U o)) by apply re_U0.
    assert (ZL : psize (o_L o) = o_m o) by apply re_L0. assert (ZU : psize (o_U o) = o_m o) by apply re_U0.
    unfold LDU. rewrite (sum_cut RL (S i) (o_m o)).
    - cbn [sum]. unfold Umat at 2, Lmat at 2. rewrite Nat.eqb_refl. rewrite ru_1m1 by auto.
      rewrite (vD _ _ _ _ _ _ _ _ _ _ _ _ _ _ _ _ re_v0 H HL i Hi).
      rewrite (sum_ext O i _ (prd (o_d o) LO UO (nth i (bp (o_p o)) 0) (nth i (bp (o_q o)) 0))); [now apply ru_subadd|].
      intros c Hc. unfold prd, Lmat, Umat. destruct (Nat.eqb_spec i c); [lia|]. destruct (Nat.eqb_spec c i); [lia|].
      unfold ccs_mat, crs_mat. rewrite E1, F1 by (auto; lia). auto.
    - lia.
    - intros c Hc. unfold Umat. destruct (Nat.eqb_spec c i); [lia|]. unfold crs_mat.
      rewrite (pat_above_ent O RL) by (auto; lia). apply ru_mm0. auto.
  Qed.
End A.
