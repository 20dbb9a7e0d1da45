(** * PivotProofs7: elimination and the loop of the pivoting update. *)
From Coq Require Import List Arith Lia Bool Permutation Ring.
From Verif Require Import Base Scalar Spec CSModel CSSpec ConvModel ConvSpec BucketProofs ConvProofs ConvProofs2
  ConvProofs3 ConvProofs4 Mag VecModel VecSpec VecProofs PruneModel PruneProofs CroutModel CroutProofs1 CroutProofs2 CroutProofs3
  CroutProofs4 CroutProofs5 CroutProofs6 CroutProofs7 AugModel AugProofs1 AugProofs2 PivotModel PivotProofs1 PivotProofs2 PivotProofs3
  PivotProofs4 PivotProofs5 PivotProofs6.
Import ListNotations.

Section A.
  Context {O : Ops}.
  Notation T := (T O).
  Notation row := (list (nat * T)).
  Notation col := (row * row)%type.
  Notation tl' c cols := (snd (nth c cols (dcol (O:=O)))).
  Notation dn' c cols := (fst (nth c cols (dcol (O:=O)))).

  Variable bad : T -> bool.
  Variable klt : T -> T -> bool.
  Variables kbad kok : T -> bool.
  Variable piv : T -> T -> bool.
  Variable srt : list T -> list nat -> list nat.
  Variables is0 big : T -> bool.
  Variable dropU dropL : nat -> list T -> list nat -> SV O -> res (SV O).
  Variables (n m2 : nat) (s t : list T) (A_crs A_ccs : CS O).
  Variable Am : nat -> nat -> T.
  Variables p0 q0 : list nat.
  Notation dU := (dU dropU). Notation dL := (dL dropL).
  Notation VH := (VH bad is0).
  Notation VAL := (VAL bad is0 dU dL n).
  Notation N2 := (Nat.mul n 2).
  Notation PINV := (PINV bad is0 dropU dropL n m2 s t Am p0 q0).
  Notation dgx := (dgx bad is0 s t Am).
  Notation tot := (tot s t Am).

  Hypothesis HS : forall vals l, Permutation (srt vals l) l.
  Hypothesis V1 : valid A_crs. Hypothesis V2 : valid A_ccs.
  Hypothesis P1 : psize A_crs = n. Hypothesis S1 : ssize A_crs = n.
  Hypothesis P2 : psize A_ccs = n. Hypothesis S2 : ssize A_ccs = n.
  Hypothesis Ls : length s = n. Hypothesis Lt : length t = n. Hypothesis Hm : m2 <= n.
  Hypothesis HA : RingLaws O -> forall i j, i < n -> j < n -> ent A_crs i j = Am i j /\ ent A_ccs j i = Am i j.
  Hypothesis DU : drop_ok n dU. Hypothesis DL : drop_ok n dL.

  Ltac rcb := cbn [r_m r_def r_L r_Ls r_U r_Us r_d r_p r_q r_P r_Q r_Pi r_Qi r_kl r_ku r_l r_u].

  Lemma VAL_up : forall k g p q d LO UO, VAL 0 s t Am k g p q d LO UO ->
    (VH -> nth g d (t0 O) = tot k d LO UO (nth g p 0) (nth g q 0)) -> VAL (S g) s t Am k g p q d LO UO.
  Proof.
    intros k g p q d LO UO [] H. split; auto. intros HV _ i Hi. replace i with g by lia. apply H. auto.
  Qed.
  Lemma VAL_down : forall m k g g' p q d LO UO, VAL m s t Am k g p q d LO UO -> VAL 0 s t Am k g' p q d LO UO.
  Proof. intros m k g g' p q d LO UO []. split; auto. intros; lia. Qed.

  Lemma peliminate_l : forall k def c lc uc LO UO, PINV k def c lc uc LO UO -> def + k < m2 ->
    bad (nth (def + k) (r_d c) (t0 O)) = false -> dgx k def c LO UO ->
    wp (peliminate is0 big dropU dropL s t A_crs A_ccs k c) (fun c' => exists lc' uc' LO' UO',
      PINV (S k) def c' lc' uc' LO' UO' /\ r_m c' = r_m c /\ idle N2 (S k) (r_l c') /\ idle N2 (S k) (r_u c')).
  Proof.
    intros k def c lc uc LO UO I Hg Hbad Hdg. pose proof I as []. unfold peliminate. rewrite j_def.
    pose proof j_p as [pp1 pp2 pp3 pa pb pc pd pe pf]. pose proof j_q as [qq1 qq2 qq3 qa qb qc qd qe qf].
    destruct (PI_g _ _ _ _ _ _ _ j_p ltac:(lia) ltac:(lia)) as (G1 & G2).
    destruct (PI_g _ _ _ _ _ _ _ j_q ltac:(lia) ltac:(lia)) as (H1 & H2).
    wpb. eapply wp_conseq. { apply (restore_used N2 k (r_l c)); auto. } intros l0 Hl0.
    wpb. apply wp_get with (d := 0); [lia|].
    wpb. eapply wp_conseq. { eapply (c_l bad is0 dropU dropL n m2 s t A_crs A_ccs Am p0 q0); [..|exact I|exact Hg|exact Hl0]; eauto. } intros l1 (fl & AL0 & FL0).
    wpb. eapply wp_conseq. { apply (restore_used N2 k (r_u c)); auto. } intros u0 Hu0.
    wpb. apply wp_get with (d := 0); [lia|].
    wpb. eapply wp_conseq. { eapply (c_ut bad is0 dropU dropL n m2 s t A_crs A_ccs Am p0 q0); [..|exact I|exact Hg|exact Hu0]; eauto. } intros ut1 (fu0 & AU0 & FU0).
    set (g := def + k) in *. assert (Kg : k <= g) by (unfold g; lia).
    wpb. apply wp_get with (d := t0 O); [lia|]. wpb. apply wp_set; [lia|].
    wpb. apply wp_get with (d := 0); [lia|]. wpb. apply wp_set; [lia|].
    wpb. apply wp_get with (d := 0); [lia|]. wpb. apply wp_set; [lia|].
    set (dg := nth g (r_d c) (t0 O)) in *. set (pg := nth g (r_p c) 0) in *. set (qg := nth g (r_q c) 0) in *.
    set (d1 := upd (r_d c) k dg). set (p1 := upd (r_p c) k pg). set (q1 := upd (r_q c) k qg).
    assert (Ld1 : length d1 = m2) by (unfold d1; now rewrite upd_length).
    assert (Ek1 : nth k d1 (t0 O) = dg) by (unfold d1; now rewrite nth_upd_eq by lia).
    assert (Ei1 : forall i, i <> k -> nth i d1 (t0 O) = nth i (r_d c) (t0 O)) by (intros; unfold d1; now apply nth_upd_neq; auto).
    wpb. eapply wp_conseq. { apply (scale_l N2 k g (n + def) is0 big d1 ut1 fu0 AU0); lia. }
    intros ut2 (fu & AU & EU1 & EU2 & SU).
    wpb. eapply wp_conseq. { apply (scale_l N2 k g (n + def) is0 big d1 l1 fl AL0); lia. }
    intros l2 (fl2 & AL & EL1 & EL2 & SL).
    set (c1 := mkCR 0 0 (mkFac (a_cs (r_L c)) [] []) (mkFac (a_cs (r_U c)) [] []) d1 p1 q1 (r_P c) (r_Q c) (r_Pi c) (r_Qi c) (r_kl c) (r_ku c) l2 ut2).
    assert (PD : predrop n k c1).
    { unfold predrop, c1. cbn [c_kl c_ku c_p c_q]. unfold p1, q1. rewrite !upd_length, !nth_upd_eq by lia. lia. }
    change (dropU k (r_ku c) p1 ut2) with (dU k c1 ut2).
    apply wp_assoc. wpb. eapply wp_conseq. { exact (drop_sort n m2 s t A_crs A_ccs P1 S1 P2 S2 Ls Lt Hm dU k g (n + def) k c1 ut2 fu DU PD AU). }
    intros ut3 (okU & idU & soU & rgU & NU1 & NU2).
    wpb. eapply wp_conseq. { apply (push_s m2 N2 k g (n + def) (r_U c) (r_Us c) uc N2 ut3 j_U); auto. intros i Hi. specialize (rgU i Hi). lia. }
    intros U1 RU1. change (dropL k (r_kl c) q1 l2) with (dL k c1 l2).
    apply wp_assoc. wpb. eapply wp_conseq. { exact (drop_sort n m2 s t A_crs A_ccs P1 S1 P2 S2 Ls Lt Hm dL k g (n + def) k c1 l2 fl2 DL PD AL). }
    intros l3 (okL & idL & soL & rgL & NL1 & NL2).
    wpb. eapply wp_conseq. { apply (push_s m2 N2 k g (n + def) (r_L c) (r_Ls c) lc N2 l3 j_L); auto. intros i Hi. specialize (rgL i Hi). lia. }
    intros L1 RL1.
    assert (NR : forall v : SV O, sv_ok N2 v -> (forall i, In i (held v) -> S g <= i < n + def) ->
       asc (map fst (newrow v)) /\ forall e, In e (newrow v) -> S g <= fst e < n + def).
    { intros v [] Hr. unfold newrow. rewrite map_map. cbn [fst]. rewrite map_id. split.
      - apply isort_asc. auto.
      - intros e He. apply in_map_iff in He. destruct He as (i & <- & Hi). cbn [fst]. apply Hr.
        eapply Permutation_in; [apply isort_perm|]. auto. }
    destruct (NR ut3 okU rgU) as (NRU1 & NRU2). destruct (NR l3 okL rgL) as (NRL1 & NRL2).
    destruct (prep_ne _ _ _ _ _ _ _ _ j_U) as (liU & RpU). destruct (prep_ne _ _ _ _ _ _ _ _ j_L) as (liL & RpL).
    wpb. eapply wp_conseq. { apply (compress_s m2 N2 k g def (n + def) U1 (r_Us c) uc (newrow ut3) _ RU1 RpU); auto; lia. }
    intros [U2 Us2] RU2. cbn [fst snd] in RU2.
    wpb. eapply wp_conseq. { apply (compress_s m2 N2 k g def (n + def) L1 (r_Ls c) lc (newrow l3) _ RL1 RpL); auto; lia. }
    intros [L2 Ls2] RL2. cbn [fst snd] in RL2. apply wp_ok.
    exists (map (compc g def) lc ++ [([], newrow l3)]), (map (compc g def) uc ++ [([], newrow ut3)]),
       (ext k g (r_Pi c) (newrow l3) LO), (ext k g (r_Qi c) (newrow ut3) UO).
    assert (EG : def + S k = S g) by (unfold g; lia).
    assert (LP1 : length p1 = n) by (unfold p1; rewrite upd_length; auto). assert (LQ1 : length q1 = n) by (unfold q1; rewrite upd_length; auto).
    assert (GE : forall p P a, length p = n -> forall i, S g <= i < n + def -> nth i (gP n (upd p k a) P) None = nth i (gP n p P) None).
    { intros p P a Lp i Hi. assert (length (upd p k a) = n) by (now rewrite upd_length). destruct (Nat.lt_ge_cases i n).
      - rewrite !gP_lo by auto. now rewrite nth_upd_neq by lia.
      - rewrite !gP_hi by auto. auto. }
    assert (PRX : forall x y e, e < k -> prd d1 (ext k g (r_Pi c) (newrow l3) LO) (ext k g (r_Qi c) (newrow ut3) UO) x y e = prd (r_d c) LO UO x y e).
    { intros x y e He. unfold prd, ext. rewrite Ei1 by lia. destruct (Nat.eqb_spec e k); [lia|auto]. }
    assert (TX : forall x y e, e <= k -> tot e d1 (ext k g (r_Pi c) (newrow l3) LO) (ext k g (r_Qi c) (newrow ut3) UO) x y = tot e (r_d c) LO UO x y).
    { intros x y e He. unfold PivotProofs6.tot. f_equal. apply sum_ext. intros i Hi. apply PRX. lia. }
    split; [|auto]. split; rcb; rewrite ?EG; auto; try lia.
    - eapply PI_ext; [apply PI_elim; [exact j_p|lia|lia|lia]|lia|apply gP_len; auto|]. intros i Hi. apply GE; auto.
    - eapply PI_ext; [apply PI_elim; [exact j_q|lia|lia|lia]|lia|apply gP_len; auto|]. intros i Hi. apply GE; auto.
    - intros i Hi. destruct (j_Pr i Hi). split; auto. unfold p1. rewrite nth_upd_neq by lia. auto.
    - intros i Hi. destruct (j_Qr i Hi). split; auto. unfold q1. rewrite nth_upd_neq by lia. auto.
    - now apply idle_used.
    - now apply idle_used.
    - eapply link_ext; [refine (link_elim _ _ _ _ _ _ _ _ _ _ _ _ _ (newrow l3) RpL j_p _ _ _ j_lk); lia| |auto]. intros i Hi. apply GE; auto.
    - eapply link_ext; [refine (link_elim _ _ _ _ _ _ _ _ _ _ _ _ _ (newrow ut3) RpU j_q _ _ _ j_uk); lia| |auto]. intros i Hi. apply GE; auto.
    - apply (VAL_down (S g) (S k) (S g)).
      apply (VAL_elim bad is0 dU dL n (S g) s t A_crs A_ccs Am P1 S1 P2 S2 Ls Lt ltac:(lia) k g (n + def) (r_p c) (r_q c)
        (gP n (r_p c) (r_P c)) (gP n (r_q c) (r_Q c)) (r_Pi c) (r_Qi c) (r_d c) d1 LO UO (newrow l3) (newrow ut3) fl fl2 fu0 fu); auto; try lia.
      + apply VAL_up; auto.
      + intros i Hi. apply Ei1. lia.
      + intros (F & S0 & B) Hd i. rewrite <- (SL F S0) by (rewrite Ek1; auto). now rewrite Ek1.
      + intros (F & S0 & B) Hd i. rewrite <- (SU F S0) by (rewrite Ek1; auto). now rewrite Ek1.
      + intros (F & _). pose proof (fl_ring O F). intros; apply FL0; auto.
      + intros (F & _). pose proof (fl_ring O F). intros; apply FU0; auto.
      + intros RL (LSU & LSL). auto.
      + intros RL (LSU & LSL). auto.
    - intros H i Hi. unfold p1, q1. rewrite TX by lia. rewrite !nth_upd by lia. destruct (Nat.eqb_spec i k) as [->|Hn].
      + rewrite Ek1. apply Hdg. auto.
      + rewrite Ei1 by auto. apply j_x; auto. lia.
    - intros i Hi. destruct (Nat.eq_dec i k) as [->|]; [now rewrite Ek1|]. rewrite Ei1 by auto. apply j_b. lia.
  Qed.

  Lemma pivot_loop_l : forall fuel k def c lc uc LO UO, PINV k def c lc uc LO UO -> idle N2 k (r_l c) -> idle N2 k (r_u c) -> m2 - (def + k) < fuel ->
    wp (pivot_loop bad klt kbad kok piv srt is0 big dropU dropL n m2 s t A_crs A_ccs fuel k c) (fun r => exists def' lc' uc' LO' UO',
       PINV (fst r) def' (snd r) lc' uc' LO' UO' /\ r_m (snd r) = fst r).
  Proof.
    induction fuel; intros k def c lc uc LO UO I Il Iu Hf; [lia|]. cbn [pivot_loop].
    destruct (PINV_f _ _ _ _ _ _ _ _ _ _ _ _ _ _ _ _ _ _ I) as (Ed & Em & Ek & Ld & Lq & Lp).
    destruct (Nat.ltb_spec k (r_m c)) as [Hk|Hk].
    2:{ apply wp_ok. cbn [fst snd]. exists def, lc, uc, LO, UO. split; auto. lia. }
    wpb. eapply wp_conseq. { eapply rounds_l; eauto; try lia. }
    intros c1 (lc1 & uc1 & I1 & M1 & D1 & _).
    destruct (PINV_f _ _ _ _ _ _ _ _ _ _ _ _ _ _ _ _ _ _ I1) as (Ed1 & Em1 & Ek1 & Ld1 & Lq1 & Lp1).
    rewrite Ed1. wpb. apply wp_get with (d := t0 O); [lia|]. cbv zeta.
    wpb. eapply wp_conseq. { eapply pkappas_l with (A_crs := A_crs) (A_ccs := A_ccs); [..|exact I1|]; eauto; lia. } intros c2 (I2 & E2a & E2b & E2p & E2q).
    wpb. apply wp_conseq with (P := fun pvt => pvt = false -> bad (nth (def + k) (r_d c1) (t0 O)) = false).
    { destruct (bad _) eqn:B; [apply wp_ok; discriminate|]. eapply wp_conseq. { eapply pkappa_bad_l with (A_crs := A_crs) (A_ccs := A_ccs); [..|exact I2|]; eauto; lia. } auto. }
    intros pvt Hp.
    wpb. apply wp_conseq with (P := fun c3 : PR O => exists def' lc' uc', PINV k def' c3 lc' uc' LO UO /\ def <= def' /\
       (k < r_m c3 -> bad (nth (def' + k) (r_d c3) (t0 O)) = false /\ dgx k def' c3 LO UO) /\ (pvt = false -> k < r_m c3)).
    { destruct pvt.
      - eapply wp_conseq. { eapply pdefer_loop_l with (A_crs := A_crs) (Am := Am); [..|exact I2|]; eauto; lia. } intros c3 (d3 & lc3 & uc3 & I3 & H3 & H4).
        exists d3, lc3, uc3. split; auto. split; auto. split; [|discriminate]. apply H4. lia.
      - apply wp_ok. exists def, lc1, uc1. split; auto. split; auto. split; [|intros; lia]. intros _. unfold PivotProofs6.dgx. rewrite E2b, E2p, E2q. auto. }
    intros c3 (d3 & lc3 & uc3 & I3 & Hd & Hb & Hk3).
    destruct (PINV_f _ _ _ _ _ _ _ _ _ _ _ _ _ _ _ _ _ _ I3) as (Ed3 & Em3 & Ek3 & Ld3 & Lq3 & Lp3).
    destruct (pvt && (r_m c3 =? k)) eqn:B.
    { apply andb_true_iff in B. destruct B as (_ & B). apply Nat.eqb_eq in B. apply wp_ok. cbn [fst snd].
      exists d3, lc3, uc3, LO, UO. auto. }
    assert (Hk4 : k < r_m c3).
    { destruct pvt; auto. cbn [andb] in B. apply Nat.eqb_neq in B. lia. }
    destruct (Hb Hk4) as (Hb1 & Hb2).
    wpb. eapply wp_conseq. { eapply peliminate_l; eauto. lia. } intros c4 (lc4 & uc4 & LO4 & UO4 & I4 & E4 & Il4 & Iu4).
    eapply IHfuel; [exact I4|auto|auto|lia].
  Qed.
End A.
