(** * SymmProofs2: the elimination step and the whole factorization of one symmetric level. *)
From Coq Require Import List Arith Lia Bool Permutation Ring.
From Verif Require Import Base Scalar Spec CSModel CSSpec ConvModel ConvSpec BucketProofs ConvProofs ConvProofs2
  ConvProofs3 ConvProofs4 Mag VecModel VecSpec VecProofs PruneModel PruneProofs CroutModel CroutSpec CroutProofs1 CroutProofs2 CroutProofs3
  CroutProofs4 CroutProofs5 CroutProofs6 CroutProofs7 CroutProofs8 CroutProofs9 CroutProofs10 CroutProofs11 SchurModel PrecModel FactorModel SymmModel SymmProofs1.
Import ListNotations.

Section A.
  Context {O : Ops}.
  Notation T := (T O).
  Notation row := (list (nat * T)).
  Notation col := (row * row)%type.
  Notation tl' c cols := (snd (nth c cols (dcol (O:=O)))).

  Variable bad : T -> bool.
  Variable klt : T -> T -> bool.
  Variable kbad : T -> bool.
  Variables is0 is0' big : T -> bool.
  Variable drop : nat -> SR O -> SV O -> res (SV O).
  Variables (n m2 : nat) (s t : list T) (A : CS O).
  Variables p0 q0 : BiPerm.
  Definition sdrop (k : nat) (c : CR O) (v : SV O) : res (SV O) := drop k (to_SR c) v.
  Notation Am := (fun i j => ent A j i).
  Hypothesis V2 : valid A. Hypothesis P2 : psize A = n. Hypothesis S2 : ssize A = n.
  Hypothesis Ls : length s = n. Hypothesis Lt : length t = n. Hypothesis Hm : m2 <= n.
  Hypothesis DS : drop_ok n sdrop.
  Hypothesis Hp : is_inv n (bp p0) (bpi p0). Hypothesis Hq : is_inv n (bp q0) (bpi q0).
  (** the value part of the invariant is about symmetric scaled matrices *)
  Hypothesis HY : VH bad is0' -> VH bad is0 /\ (forall i j, i < n -> j < n -> hat s t Am i j = hat s t Am j i) /\ bp q0 = bp p0.
  Notation INV k def c lc LO := (INV bad is0' sdrop sdrop n m2 s t Am (bp p0) (bp p0) k def (of_SR c) lc lc LO LO).

  Lemma prd_sym : RingLaws O -> forall d LO x y e, prd (O:=O) d LO LO x y e = prd d LO LO y x e.
  Proof. intros RL d LO x y e. unfold prd. now apply ru_sym3. Qed.

  Lemma symm_eliminate_l : forall k def c lc LO, INV k def c lc LO -> def + k < m2 ->
    bad (nth (def + k) (y_d c) (t0 O)) = false ->
    wp (symm_eliminate is0 big drop m2 s t A k c) (fun c' => exists lc' LO', INV (S k) def c' lc' LO' /\ y_m c' = y_m c).
  Proof.
    intros k def c lc LO I Hg Hbad. pose proof I as []. cbn [of_SR c_def c_m c_L c_U c_d c_p c_q c_P c_Q c_Pi c_Qi c_kl c_ku c_l c_u] in *.
    unfold symm_eliminate. rewrite i_def.
    set (g := def + k) in *. assert (Kg : k <= g) by (unfold g; lia).
    pose proof i_p as [pp1 pp2 pp3 pa pb pc pd pe pf].
    destruct (PI_g _ _ _ _ _ _ _ i_p ltac:(lia) ltac:(lia)) as (G1 & G2).
    wpb. apply wp_get with (d := t0 O); [lia|]. wpb. apply wp_set; [lia|].
    wpb. apply wp_get with (d := 0); [lia|]. wpb. apply wp_set; [lia|].
    set (dg := nth g (y_d c) (t0 O)) in *. set (pg := nth g (y_p c) 0) in *.
    set (d1 := upd (y_d c) k dg). set (p1 := upd (y_p c) k pg).
    assert (Ld1 : length d1 = m2) by (unfold d1; now rewrite upd_length).
    wpb. apply wp_get with (d := 0); [unfold p1; rewrite upd_length; lia|].
    replace (nth k p1 0) with pg by (unfold p1; now rewrite nth_upd_eq by lia).
    wpb. eapply wp_conseq.
    { apply (compute_symm_l (Nat.mul n 2) m2 (Nat.mul n 2) k g (n + def) (y_L c) lc s t d1 A pg (y_Pi c) (y_l c)); auto; try lia.
      - intros j Hj Hgj. apply pe; lia.
      - intros j j' Hj Hj' Hgj E. destruct (pe j ltac:(lia) ltac:(lia)) as (_ & X1). destruct (pe j' ltac:(lia) ltac:(lia)) as (_ & X2).
        rewrite E in X1. congruence. }
    intros l1 (fl & AL0 & FL0).
    wpb. eapply wp_conseq. { apply (scale_l (Nat.mul n 2) k g (n + def) is0 big d1 l1 fl AL0); lia. }
    intros l2 (fl2 & AL & EL1 & EL2 & SL).
    wpb. eapply wp_conseq. { apply (update_diag_symm_l (Nat.mul n 2) k g (n + def) m2 l2 fl2 d1); auto; lia. }
    intros d2 (Ld2 & D2a & D2b).
    assert (Ek1 : nth k d1 (t0 O) = dg) by (unfold d1; now rewrite nth_upd_eq by lia).
    assert (Ek2 : nth k d2 (t0 O) = dg) by (rewrite D2a by lia; auto).
    assert (Ei1 : forall i, i <> k -> nth i d1 (t0 O) = nth i (y_d c) (t0 O)) by (intros; unfold d1; now apply nth_upd_neq; auto).
    cbv zeta. set (c1 := mkSR _ _ _ _ _ _ _ _ _).
    assert (PD : predrop n k (of_SR c1)).
    { unfold predrop, c1. cbn [of_SR c_kl c_ku c_p c_q y_kl y_p]. unfold p1. rewrite !upd_length, !nth_upd_eq by lia. lia. }
    apply wp_assoc. wpb. eapply wp_conseq. { exact (drop_sort n m2 s t A A P2 S2 P2 S2 Ls Lt Hm sdrop k g (n + def) k (of_SR c1) l2 fl2 DS PD AL). }
    intros l3 (okL & idL & soL & rgL & NL1 & NL2).
    wpb. eapply wp_conseq. { apply (push_sv_l _ _ _ _ _ (Nat.mul n 2) _ _ l3 i_L); auto. }
    intros L1 RL1.
    assert (NRL1 : asc (map fst (newrow l3))).
    { unfold newrow. rewrite map_map. cbn [fst]. rewrite map_id. apply isort_asc. apply okL. }
    assert (NRL2 : forall e, In e (newrow l3) -> S g <= fst e < n + def).
    { unfold newrow. intros e He. apply in_map_iff in He. destruct He as (i & <- & Hi). cbn [fst]. apply rgL.
      eapply Permutation_in; [apply isort_perm|]. auto. }
    wpb. eapply wp_conseq. { apply (compress_l m2 (Nat.mul n 2) k g def (n + def) (newrow l3) L1 lc); auto; lia. }
    intros L2 RL2. apply wp_ok.
    exists (map (compc g def) lc ++ [([], newrow l3)]), (ext k g (y_Pi c) (newrow l3) LO).
    assert (EG : def + S k = S g) by (unfold g; lia).
    split; [|reflexivity].
    assert (PE : PI n (S k) (S g) (n + def) p1 (y_P c) (y_Pi c)) by (apply PI_elim; auto; lia).
    assert (LE : link (S k) (S g) (n + def) p1 (y_P c) (map (compc g def) lc ++ [([], newrow l3)]) (ext k g (y_Pi c) (newrow l3) LO))
      by (eapply link_elim; eauto; lia).
    split; cbn [of_SR c_def c_m c_L c_U c_d c_p c_q c_P c_Q c_Pi c_Qi c_kl c_ku c_l c_u y_m y_def y_L y_d y_p y_P y_Pi y_kl y_l]; rewrite ?EG; auto; try lia.
    - destruct i_lk as (lk1 & lk2).
      assert (SLV : VH bad is0' -> dg <> t0 O -> forall i, tmul O (fl2 i) dg = fl i).
      { intros H Hd i. destruct (HY H) as ((F & S0 & B) & _). rewrite <- (SL F S0) by (rewrite Ek1; auto). now rewrite Ek1. }
      assert (FV : VH bad is0' -> forall x, x < n -> g < nth x (y_Pi c) 0 ->
        fl (nth x (y_Pi c) 0) = tsub O (hat s t Am x pg) (sum k (prd (y_d c) LO LO x pg))).
      { intros H x Hx Hgx. pose proof (fl_ring O (proj1 H)) as RL. rewrite FL0 by (auto; lia). unfold hat. f_equal.
        apply sum_ext. intros e He. unfold prd. rewrite Ei1 by lia. unfold lkv.
        rewrite (lk1 e g pg) by (auto; try lia; apply pd; lia).
        destruct (pe x Hx ltac:(lia)) as (X1 & X2). rewrite (lk1 e (nth x (y_Pi c) 0) x) by (auto; lia). now apply ru_dcl. }
      assert (DN : VH bad is0' -> dg <> t0 O).
      { intros (_ & _ & B) E. rewrite E in Hbad. congruence. }
      apply (VAL_elim bad is0' sdrop sdrop n m2 s t A A Am P2 S2 P2 S2 Ls Lt Hm) with (lim := n + def) (P := y_P c) (Q := y_P c) (d := y_d c)
         (fl := fl) (fl2 := fl2) (fu0 := fl) (fu := fl2); auto; try lia.
      + intros i Hi. rewrite D2a by lia. apply Ei1. lia.
      + intros H i Hi. pose proof (fl_ring O (proj1 H)) as RL. rewrite D2b by auto. rewrite Ei1 by lia. rewrite Ek1. now rewrite (SLV H (DN H)).
      + intros H x Hx Hgx. rewrite FV by auto. destruct (HY H) as (_ & SY & _). fold pg. rewrite (SY x pg Hx G1). f_equal.
        apply sum_ext. intros e He. apply prd_sym. apply (fl_ring O (proj1 H)).
      + intros RL (LSU & LSL). auto.
      + intros RL (LSU & LSL). auto.
    - intros i Hi. destruct (Nat.eq_dec i k) as [->|]; [now rewrite Ek2|]. rewrite D2a by lia. rewrite Ei1 by lia. apply i_b. lia.
    - destruct i_h as (acc & dfr & X1 & X2 & X3). exists (acc ++ [g]), dfr.
      split; [now apply (HS_elim n m2 s t A A P2 S2 P2 S2 Ls Lt Hm)|]. split; (eapply (HI_elim n m2 s t A A P2 S2 P2 S2 Ls Lt Hm); eauto; lia).
  Qed.

  Lemma INV_fs : forall k def c lc LO, INV k def c lc LO -> y_def c = def /\ y_m c + def = m2 /\ def + k <= m2 /\ length (y_d c) = m2.
  Proof. intros k def c lc LO []. auto. Qed.

  Lemma symm_kappa_l : forall k def c lc LO, INV k def c lc LO -> def + k < m2 ->
    wp (symm_kappa klt k c) (fun c' => INV k def c' lc LO /\ y_m c' = y_m c /\ y_d c' = y_d c).
  Proof.
    intros k def c lc LO [] Hg. cbn [of_SR c_def c_m c_L c_U c_d c_p c_q c_P c_Q c_Pi c_Qi c_kl c_ku c_l c_u] in *. unfold symm_kappa. rewrite i_def. wpb. eapply wp_conseq.
    { apply (update_kappa_l m2 (Nat.mul n 2) klt k (def + k) (n + def) (y_L c) lc); auto; lia. }
    intros kl Lkl. apply wp_ok. split; [|auto].
    split; cbn [of_SR c_def c_m c_L c_U c_d c_p c_q c_P c_Q c_Pi c_Qi c_kl c_ku c_l c_u y_m y_def y_L y_d y_p y_P y_Pi y_kl y_l]; auto; congruence.
  Qed.

  Lemma symm_kbad_l : forall k def c lc LO, INV k def c lc LO -> def + k < m2 -> wp (symm_kbad kbad k c) (fun _ => True).
  Proof.
    intros k def c lc LO [] Hg. cbn [of_SR c_kl] in *. unfold symm_kbad. wpb. apply wp_get with (d := t0 O); [lia|]. apply wp_ok. auto.
  Qed.

  Lemma symm_defer_one_l : forall k def c lc LO, INV k def c lc LO -> def + k < m2 ->
    wp (symm_defer_one n k c) (fun c' => exists lc', INV k (S def) c' lc' LO).
  Proof.
    intros k def c lc LO I Hg. pose proof I as []. cbn [of_SR c_def c_m c_L c_U c_d c_p c_q c_P c_Q c_Pi c_Qi c_kl c_ku c_l c_u] in *.
    unfold symm_defer_one. rewrite i_def. assert (Kg : k <= def + k) by lia.
    wpb. eapply wp_conseq. { apply (defer_l m2 (Nat.mul n 2) k (def + k) (n + def) (y_L c) lc); auto; lia. }
    intros L' RL'. pose proof i_p as []. destruct (PI_g _ _ _ _ _ _ _ i_p ltac:(lia) ltac:(lia)) as (G1 & G2).
    wpb. apply wp_get with (d := 0); [lia|]. wpb. apply wp_set; [lia|].
    wpb. apply wp_set; [lia|]. wpb. apply wp_set; [rewrite upd_length; lia|].
    apply wp_ok. exists (map (deferc (def + k) (n + def)) lc).
    assert (PD : PI n k (def + S k) (n + S def) (y_p c) (upd (upd (y_P c) (n + def) (Some (nth (def + k) (y_p c) 0))) (def + k) None)
       (upd (y_Pi c) (nth (def + k) (y_p c) 0) (n + def))) by (rewrite !Nat.add_succ_r; apply PI_defer; auto; lia).
    assert (LD : link k (def + S k) (n + S def) (y_p c) (upd (upd (y_P c) (n + def) (Some (nth (def + k) (y_p c) 0))) (def + k) None)
       (map (deferc (def + k) (n + def)) lc) LO) by (rewrite !Nat.add_succ_r; eapply link_defer; eauto; lia).
    rewrite Nat.add_succ_r in PD, LD.
    split; cbn [of_SR c_def c_m c_L c_U c_d c_p c_q c_P c_Q c_Pi c_Qi c_kl c_ku c_l c_u y_m y_def y_L y_d y_p y_P y_Pi y_kl y_l]; auto; try lia.
    - rewrite Nat.add_succ_r. exact RL'.
    - rewrite Nat.add_succ_r. exact RL'.
    - destruct i_val. split; auto. intros H H' i Hi. apply vP; auto. lia.
    - destruct i_h as (acc & dfr & X1 & X2 & X3). exists acc, (dfr ++ [def + k]).
      split; [now apply (HS_defer n m2 s t A A P2 S2 P2 S2 Ls Lt Hm)|]. split; (eapply (HI_defer n m2 s t A A P2 S2 P2 S2 Ls Lt Hm); eauto; lia).
  Qed.

  Lemma symm_defer_loop_l : forall fuel k def c lc LO, INV k def c lc LO -> m2 - (def + k) < fuel ->
    wp (symm_defer_loop bad klt kbad n m2 fuel k c) (fun c' => exists def' lc', INV k def' c' lc' LO /\ def <= def' /\
      (k < y_m c -> k < y_m c' -> bad (nth (def' + k) (y_d c') (t0 O)) = false)).
  Proof.
    induction fuel; intros k def c lc LO I Hf; [lia|]. cbn [symm_defer_loop].
    destruct (INV_fs _ _ _ _ _ I) as (Ed & Em & Ek & Ld).
    destruct (Nat.ltb_spec k (y_m c)) as [Hk|Hk].
    2:{ apply wp_ok. exists def, lc. split; auto. split; auto. intros. lia. }
    wpb. eapply wp_conseq. { eapply symm_defer_one_l; [exact I|lia]. }
    intros c1 (lc1 & I1).
    destruct (INV_fs _ _ _ _ _ I1) as (Ed1 & Em1 & Ek1 & Ld1). rewrite Ed1.
    destruct (Nat.leb_spec m2 (S def + k)) as [Hle|Hgt].
    { apply wp_ok. exists (S def), lc1. split.
      - change (of_SR (symm_with_m k c1)) with (with_m k (of_SR c1)). apply INV_with_m; auto. lia.
      - split; [lia|]. cbn [symm_with_m y_m]. lia. }
    wpb. apply wp_get with (d := t0 O); [lia|]. destruct (bad _) eqn:B.
    { eapply wp_conseq. { eapply IHfuel; [exact I1|lia]. } intros c2 (d2 & lc2 & I2 & H2 & H3). exists d2, lc2. split; auto.
      split; [lia|]. intros _. apply H3. lia. }
    wpb. eapply wp_conseq. { eapply symm_kappa_l; [exact I1|lia]. } intros c2 (I2 & E2a & E2b).
    wpb. eapply wp_conseq. { eapply symm_kbad_l; [exact I2|lia]. } intros kb _. destruct kb.
    - eapply wp_conseq. { eapply IHfuel; [exact I2|lia]. } intros c3 (d3 & lc3 & I3 & H3 & H4). exists d3, lc3. split; auto.
      split; [lia|]. intros _. apply H4. rewrite E2a. lia.
    - apply wp_ok. exists (S def), lc1. split; auto. split; [lia|]. intros _ _. now rewrite E2b.
  Qed.

  Lemma symm_loop_l : forall fuel k def c lc LO, INV k def c lc LO -> m2 - (def + k) < fuel ->
    wp (symm_loop bad klt kbad is0 big drop n m2 s t A fuel k c) (fun r => exists def' lc' LO',
       INV (fst r) def' (snd r) lc' LO' /\ y_m (snd r) = fst r).
  Proof.
    induction fuel; intros k def c lc LO I Hf; [lia|]. cbn [symm_loop].
    destruct (INV_fs _ _ _ _ _ I) as (Ed & Em & Ek & Ld).
    destruct (Nat.ltb_spec k (y_m c)) as [Hk|Hk].
    2:{ apply wp_ok. cbn [fst snd]. exists def, lc, LO. split; auto. lia. }
    rewrite Ed. wpb. apply wp_get with (d := t0 O); [lia|]. cbv zeta.
    wpb. eapply wp_conseq. { eapply symm_kappa_l; [exact I|lia]. } intros c1 (I1 & E1a & E1b).
    wpb. apply wp_conseq with (P := fun pvt => pvt = false -> bad (nth (def + k) (y_d c) (t0 O)) = false).
    { destruct (bad _) eqn:B; [apply wp_ok; discriminate|]. eapply wp_conseq. { eapply symm_kbad_l; [exact I1|lia]. } auto. }
    intros pvt Hpv.
    wpb. apply wp_conseq with (P := fun c2 => exists def' lc', INV k def' c2 lc' LO /\ def <= def' /\
       (k < y_m c2 -> bad (nth (def' + k) (y_d c2) (t0 O)) = false) /\ (pvt = false -> k < y_m c2)).
    { destruct pvt.
      - eapply wp_conseq. { eapply symm_defer_loop_l; [exact I1|lia]. } intros c2 (d2 & lc2 & I2 & H2 & H3).
        exists d2, lc2. split; auto. split; auto. split; [|discriminate]. apply H3. lia.
      - apply wp_ok. exists def, lc. split; auto. split; auto. rewrite E1a, E1b. auto. }
    intros c2 (d2 & lc2 & I2 & Hd & Hb & Hk2).
    destruct (INV_fs _ _ _ _ _ I2) as (Ed2 & Em2 & Ek2 & Ld2).
    destruct (pvt && (y_m c2 =? k)) eqn:B.
    { apply andb_true_iff in B. destruct B as (_ & B). apply Nat.eqb_eq in B. apply wp_ok. cbn [fst snd].
      exists d2, lc2, LO. auto. }
    assert (Hk3 : k < y_m c2).
    { destruct pvt; auto. cbn [andb] in B. apply Nat.eqb_neq in B. lia. }
    wpb. eapply wp_conseq. { eapply symm_eliminate_l; [exact I2|lia|]. apply Hb. lia. } intros c3 (lc3 & LO3 & I3 & E3).
    eapply IHfuel; [exact I3|lia].
  Qed.

  Lemma symm_init_l : forall jd jk js jP jv ji, length jk = m2 -> length js = m2 -> length jP = n ->
    length jv = Nat.mul n 2 -> length ji = Nat.mul n 2 ->
    wp (symm_init n m2 s t A p0 q0 jd jk js jP jv ji) (fun c => INV 0 0 c [] (fun _ _ => None)).
  Proof.
    intros jd jk js jP jv ji L1 L2 L3 L4 L5. unfold symm_init.
    pose proof (is_inv_perm _ _ _ Hp) as PP. pose proof (is_inv_perm _ _ _ Hq) as PQ.
    wpb. eapply wp_conseq. { apply (diag_l n m2 s t A (bp p0) (bp q0) jd); auto. }
    intros d (Ld & Hd). apply wp_ok.
    assert (SV0 : idle (Nat.mul n 2) 0 (sv_new (O:=O) (Nat.mul n 2) jv ji)).
    { split.
      - split; unfold sv_new; cbn [sv_vals sv_inds sv_cnt sv_dtags sv_stags held]; auto; try lia.
        + apply repeat_length.
        + constructor.
        + simpl. tauto.
      - intros i x Hi E. unfold tg, sv_new in E. cbn [sv_dtags] in E. rewrite nth_repeat in E. discriminate. }
    split; cbn [of_SR c_def c_m c_L c_U c_d c_p c_q c_P c_Q c_Pi c_Qi c_kl c_ku c_l c_u y_m y_def y_L y_d y_p y_P y_Pi y_kl y_l]; auto; try lia; rewrite ?Nat.add_0_r.
    - now apply (Rep_init n m2 s t A A P2 S2 P2 S2 Ls Lt Hm).
    - now apply (Rep_init n m2 s t A A P2 S2 P2 S2 Ls Lt Hm).
    - now apply (PI_init n m2 s t A A P2 S2 P2 S2 Ls Lt Hm).
    - now apply (PI_init n m2 s t A A P2 S2 P2 S2 Ls Lt Hm).
    - split; intros; lia.
    - split; intros; lia.
    - split; try (intros; lia). intros H _ i Hi. pose proof (fl_ring O (proj1 H)) as RL. rewrite Hd by (auto; lia).
      cbn [sum]. rewrite ru_sub0 by auto. unfold hat. destruct (HY H) as (_ & _ & ->). reflexivity.
    - assert (HH : HI n (bp p0) [] [] (bp p0) (map Some (firstn n (bp p0)) ++ jP)).
      { destruct Hp as (X1 & _). split; [simpl; intros; lia|]. split; [auto|simpl; intros; lia]. }
      exists [], []. split; [repeat split; auto|]. split; exact HH.
  Qed.

  Lemma symm_crout_l : forall jd jk js jP jv ji, length jk = m2 -> length js = m2 -> length jP = n ->
    length jv = Nat.mul n 2 -> length ji = Nat.mul n 2 ->
    wp (symm_crout bad klt kbad is0 big drop n m2 s t A p0 q0 jd jk js jP jv ji)
      (fun o => (exists LO, RESULT bad is0' sdrop sdrop n m2 s t Am o LO LO) /\ HIST n m2 p0 p0 o /\
         o_q o = o_p o /\ o_U o = o_L o /\ o_Us o = o_Ls o /\ o_u o = o_l o).
  Proof.
    intros jd jk js jP jv ji L1 L2 L3 L4 L5. unfold symm_crout.
    wpb. eapply wp_conseq. { now apply symm_init_l. } intros c I.
    wpb. eapply wp_conseq. { eapply symm_loop_l; [exact I|lia]. } intros [k c'] (def & lc & LO & I' & E). cbn [fst snd] in *.
    apply wp_conseq with (P := fun o => (RESULT bad is0' sdrop sdrop n m2 s t Am o LO LO /\ HIST n m2 p0 p0 o) /\ symm_finish n (k, c') = Ok o).
    - rewrite <- finish_sim. assert (W : wp (crout_finish n (k, of_SR c')) (fun o => RESULT bad is0' sdrop sdrop n m2 s t Am o LO LO /\ HIST n m2 p0 p0 o)).
      { eapply finish_l; eauto. }
      destruct (crout_finish n (k, of_SR c')) as [o| |]; auto. split; auto.
    - intros o ((R & H) & Ef). split; [exists LO; exact R|]. split; auto.
      unfold symm_finish in Ef.
      destruct (assign_gap _ _ _ _ _) as [p| |]; cbn [bind] in Ef; try discriminate.
      destruct (build_inv _) as [bpp| |]; cbn [bind] in Ef; try discriminate. cbv zeta in Ef.
      destruct (globalise _ _ _) as [Ls'| |]; cbn [bind] in Ef; try discriminate.
      destruct (compress_tail _ _ _ _) as [L| |]; cbn [bind] in Ef; try discriminate.
      inversion Ef. cbn [o_q o_p o_U o_L o_Us o_Ls o_u o_l]. auto.
  Qed.
End A.
