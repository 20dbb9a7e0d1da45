(** * FillProofs2: the fill of one Crout update with pivoting. *)
From Coq Require Import List Arith Lia Bool Permutation Ring.
From Verif Require Import Base Scalar Spec CSModel CSSpec ConvModel ConvSpec BucketProofs ConvProofs ConvProofs2
  ConvProofs3 ConvProofs4 Mag VecModel VecSpec VecProofs PruneModel PruneProofs CroutModel CroutSpec CroutProofs1 CroutProofs2 CroutProofs3
  CroutProofs4 CroutProofs5 CroutProofs6 CroutProofs7 CroutProofs9 CroutProofs10 CroutProofs11
  AugModel AugProofs1 AugProofs2 AugProofs3 PivotModel PivotProofs1 PivotProofs2 PivotProofs3
  PivotProofs4 PivotProofs5 PivotProofs6 PivotProofs7 PivotProofs8 FillSpec FillProofs1.
Import ListNotations.

Lemma wp_okp : forall X (m : res X) (P Q : X -> Prop), wp m P -> okp m Q -> wp m (fun a => P a /\ Q a).
Proof. intros X m P Q H K. destruct (wp_inv _ _ _ H) as (a & E & Pa). eapply wp_intro; eauto. Qed.

Section A.
  Context {O : Ops}.
  Notation T := (T O).
  Notation ais F := (ind_start (a_cs F)).

  Lemma finish_is : forall (F : aug O) i k c, okp (AugModel.finish O F i k c) (fun F' => ais F' = ais F).
  Proof. intros. unfold AugModel.finish. ob; oany. ob; oany. ob; oany. now apply okp_ok. Qed.
  Lemma adefer_is : forall (F : aug O) i k, okp (AugModel.defer O i k F) (fun F' => ais F' = ais F).
  Proof. intros. unfold AugModel.defer. ob; oany. ob; oany. apply finish_is. Qed.
  Lemma ainter_is : forall (F : aug O) i k, okp (AugModel.interchange O i k F) (fun F' => ais F' = ais F).
  Proof. intros. unfold AugModel.interchange. destruct (i =? k); [now apply okp_ok|]. ob; oany. ob; oany. ob; oany. apply finish_is. Qed.
  Lemma apush_is : forall step (F : aug O) v, okp (push_aug step F v) (fun F' => ais F' = ais F ++ [nth (length (ais F) - 1) (ais F) 0 + sv_cnt v]).
  Proof.
    intros step F v. unfold push_aug. destruct (Nat.leb_spec (sv_cnt v) (length (sv_inds v))); [|apply okp_ub].
    unfold aug_push. ob. cbn [push_step]. unfold push_primary. ob; oany. ob. apply okp_get with (d := 0). intros _. apply okp_ok.
    unfold with_nodes. ob; oany. destruct a0 as [[[[[[? ?] ?] ?] ?] ?] ?]. apply okp_ok. cbn [a_cs ind_start]. now rewrite firstn_length, Nat.min_l by auto.
  Qed.
  Lemma pcompress_is : forall step def (F : aug O) start, okp (pupdate_compress step def F start) (fun r => ais (fst r) = ais F).
  Proof.
    intros. unfold pupdate_compress. ob; oany. ob; oany. destruct a0 as [? ?]. do 7 (ob; oany). now apply okp_ok.
  Qed.
  Lemma pint_is : forall g j (F : aug O) p pi d a, okp (pinterchange g j F p pi d a) (fun r => ais (fst (fst (fst (fst r)))) = ais F).
  Proof.
    intros. unfold pinterchange. ob; oany. ob. eapply okp_conseq; [apply ainter_is|]. intros F' E. do 4 (ob; oany). now apply okp_ok.
  Qed.

  Variable bad : T -> bool.
  Variable klt : T -> T -> bool.
  Variables kbad kok : T -> bool.
  Variable piv : T -> T -> bool.
  Variable srt : list T -> list nat -> list nat.
  Variables is0 big : T -> bool.
  Variable dropU dropL : nat -> list T -> list nat -> SV O -> res (SV O).
  Variables (n m2 : nat) (s t : list T) (A_crs A_ccs : CS O).
  Variables WU WL : nat -> nat.
  Hypothesis CU : forall step kappa p v, okp (dropU step kappa p v) (fun v' => sv_cnt v' <= WU (nth step p 0)).
  Hypothesis CL : forall step kappa p v, okp (dropL step kappa p v) (fun v' => sv_cnt v' <= WL (nth step p 0)).

  Definition ST (c c' : PR O) : Prop := ais (r_U c') = ais (r_U c) /\ ais (r_L c') = ais (r_L c).
  Definition PF (k : nat) (c : PR O) : Prop := FILL WU k (r_p c) (ais (r_U c)) /\ FILL WL k (r_q c) (ais (r_L c)).
  Lemma PF_ext : forall k c c', PF k c -> ST c c' -> same_below k c c' -> PF k c'.
  Proof.
    intros k c c' (H1 & H2) (E1 & E2) K. split; [rewrite E1|rewrite E2]; eapply FILL_ext; eauto; intros i Hi; now apply K.
  Qed.

  Lemma row_st : forall first step c, okp (row_part klt kok piv srt m2 s t A_ccs first step c) (fun r => ST c (fst (fst r))).
  Proof.
    intros. unfold row_part. ob; oany. ob; oany. ob; oany. ob; oany. ob; oany. destruct a3 as [pv kl]. ob; oany. ob; oany. cbv zeta.
    destruct pv; [|apply okp_ok; now split]. ob; oany. destruct (piv a5 a3); [|apply okp_ok; now split].
    ob. eapply okp_conseq; [apply pint_is|]. intros [[[[F p] pi] d] l] E. cbn [fst] in E. apply okp_ok. now split.
  Qed.
  Lemma col_st : forall first lp step c, okp (col_part klt kok piv srt m2 s t A_crs A_ccs first lp step c) (fun r => ST c (fst r)).
  Proof.
    intros. unfold col_part. ob; oany. ob; oany. ob; oany. ob; oany. ob; oany. destruct a3 as [pv kl]. ob; oany. cbv zeta.
    destruct pv; [|apply okp_ok; now split]. ob; oany. ob; oany. destruct (piv _ _); [|apply okp_ok; now split].
    ob. eapply okp_conseq; [apply pint_is|]. intros [[[[F p] pi] d] l] E. cbn [fst] in E. apply okp_ok. now split.
  Qed.
  Lemma ST_trans : forall a b c, ST a b -> ST b c -> ST a c.
  Proof. intros a b c (H1 & H2) (H3 & H4). split; congruence. Qed.
  Lemma rounds_st : forall fuel first step c, okp (pivot_rounds klt kok piv srt m2 s t A_crs A_ccs fuel first step c) (ST c).
  Proof.
    induction fuel; intros first step c; cbn [pivot_rounds]; [apply okp_ok; now split|].
    ob. eapply okp_conseq; [apply row_st|]. intros [[c1 lp] stop] H1. cbn [fst] in H1. destruct stop; [now apply okp_ok|].
    ob. eapply okp_conseq; [apply col_st|]. intros [c2 stop] H2. cbn [fst] in H2. destruct stop; [apply okp_ok; eapply ST_trans; eauto|].
    eapply okp_conseq; [apply IHfuel|]. intros c3 H3. eauto using ST_trans.
  Qed.
  Lemma pkappas_f : forall k step c, PF k c -> okp (pkappas klt step c) (PF k).
  Proof. intros k step c H. unfold pkappas. ob; oany. ob; oany. apply okp_ok. exact H. Qed.
  Lemma pdefer_one_f : forall k step c, PF k c -> okp (pdefer_one n step c) (PF k).
  Proof.
    intros k step c H. unfold pdefer_one. ob. eapply okp_conseq; [apply adefer_is|]. intros U EU. ob. eapply okp_conseq; [apply adefer_is|]. intros L EL.
    do 8 (ob; oany). apply okp_ok. unfold PF in *. cbn [r_U r_L r_p r_q]. now rewrite EU, EL.
  Qed.
  Lemma pdefer_loop_f : forall fuel k step c, PF k c -> okp (pdefer_loop bad klt kbad n m2 s t A_ccs fuel step c) (PF k).
  Proof.
    induction fuel; intros k step c H; cbn [pdefer_loop]; [apply okp_ub|]. destruct (step <? r_m c); [|now apply okp_ok].
    ob. eapply okp_conseq; [apply pdefer_one_f; exact H|]. intros c1 H1. cbv zeta. destruct (m2 <=? _); [apply okp_ok; exact H1|].
    ob. eapply okp_conseq; [apply pkappas_f; exact H1|]. intros c2 H2. ob; oany. destruct a; [now apply IHfuel|].
    ob; oany. ob; oany. ob; oany. destruct (bad a0); [now apply IHfuel|apply okp_ok; exact H2].
  Qed.
  Lemma peliminate_f : forall k c, PF k c -> okp (peliminate is0 big dropU dropL s t A_crs A_ccs k c) (PF (S k)).
  Proof.
    intros k c (HU & HL). unfold peliminate. cbv zeta.
    do 6 (ob; oany). ob; oany. ob; oany. ob; oany. ob. apply okp_set. ob; oany. ob. apply okp_set.
    match goal with |- context [upd (r_p c) k ?x] => set (p := upd (r_p c) k x) end. match goal with |- context [upd (r_q c) k ?x] => set (q := upd (r_q c) k x) end.
    ob; oany. ob; oany.
    ob. eapply okp_conseq; [apply CU|]. intros u1 Hu1. ob. eapply okp_conseq; [apply sort_cnt|]. intros u2 Hu2.
    ob. eapply okp_conseq; [apply apush_is|]. intros U1 EU1.
    ob. eapply okp_conseq; [apply CL|]. intros l1 Hl1. ob. eapply okp_conseq; [apply sort_cnt|]. intros l2 Hl2.
    ob. eapply okp_conseq; [apply apush_is|]. intros L1 EL1.
    ob. eapply okp_conseq; [apply pcompress_is|]. intros [U2 Us2] EU2. ob. eapply okp_conseq; [apply pcompress_is|]. intros [L2 Ls2] EL2. cbn [fst] in *.
    apply okp_ok. unfold PF. cbn [r_U r_L r_p r_q] in *. rewrite EU2, EU1, EL2, EL1. split.
    - apply FILL_push with (p := r_p c); [exact HU| |lia]. intros i Hi. unfold p. apply nth_upd_neq. lia.
    - apply FILL_push with (p := r_q c); [exact HL| |lia]. intros i Hi. unfold q. apply nth_upd_neq. lia.
  Qed.
  Lemma pivot_finish_f : forall r, PF (fst r) (snd r) -> r_m (snd r) <= fst r -> okp (pivot_finish n r) (RF WU WL).
  Proof.
    intros [k c] (HU & HL) Hm. cbn [fst snd] in *. unfold pivot_finish.
    ob. eapply okp_conseq; [apply gap_f|]. intros p1 Hp1. ob. eapply okp_conseq; [apply gap_f|]. intros q1 Hq1.
    ob. eapply okp_conseq; [apply build_inv_f|]. intros p2 Hp2. ob. eapply okp_conseq; [apply build_inv_f|]. intros q2 Hq2. cbn [bp] in *.
    cbv zeta. ob; oany. ob; oany. ob. eapply okp_conseq; [apply tail_f|]. intros U' EU. ob. eapply okp_conseq; [apply tail_f|]. intros L' EL.
    rewrite end_is in EU, EL. apply okp_ok. intros i Hi. cbn [o_m o_p o_q o_L o_U] in *. unfold in_primary, st. rewrite EU, EL, Hp2, Hq2, Hp1, Hq1 by lia.
    split; [apply HU|apply HL]; lia.
  Qed.

  (** ** With the invariant of the pivoting update *)
  Variable Am : nat -> nat -> T.
  Variables p0 q0 : BiPerm.
  Notation dU := (dU dropU). Notation dL := (dL dropL).
  Notation N2 := (Nat.mul n 2).
  Notation PINV := (PINV bad is0 dropU dropL n m2 s t Am (bp p0) (bp q0)).
  Notation dgx := (dgx bad is0 s t Am).
  Hypothesis HS : forall vals l, Permutation (srt vals l) l.
  Hypothesis V1 : valid A_crs. Hypothesis V2 : valid A_ccs.
  Hypothesis P1 : psize A_crs = n. Hypothesis S1 : ssize A_crs = n.
  Hypothesis P2 : psize A_ccs = n. Hypothesis S2 : ssize A_ccs = n.
  Hypothesis Ls : length s = n. Hypothesis Lt : length t = n. Hypothesis Hm : m2 <= n.
  Hypothesis HA : RingLaws O -> forall i j, i < n -> j < n -> ent A_crs i j = Am i j /\ ent A_ccs j i = Am i j.
  Hypothesis DU : drop_ok n dU. Hypothesis DL : drop_ok n dL.
  Hypothesis Hp : is_inv n (bp p0) (bpi p0). Hypothesis Hq : is_inv n (bp q0) (bpi q0).

  Lemma pivot_loop_f : forall fuel k def c lc uc LO UO, PINV k def c lc uc LO UO -> idle N2 k (r_l c) -> idle N2 k (r_u c) -> m2 - (def + k) < fuel -> PF k c ->
    okp (pivot_loop bad klt kbad kok piv srt is0 big dropU dropL n m2 s t A_crs A_ccs fuel k c) (fun r => PF (fst r) (snd r) /\ r_m (snd r) <= fst r).
  Proof.
    induction fuel; intros k def c lc uc LO UO I Il Iu Hf HF; [lia|]. cbn [pivot_loop].
    destruct (PINV_f _ _ _ _ _ _ _ _ _ _ _ _ _ _ _ _ _ _ I) as (Ed & Em & Ek & Ld & Lq & Lp).
    destruct (Nat.ltb_spec k (r_m c)) as [Hk|Hk].
    2:{ apply okp_ok. cbn [fst snd]. auto. }
    ob. intros c1 E1.
    assert (W1 : wp (pivot_rounds klt kok piv srt m2 s t A_crs A_ccs 4 true k c) (fun c' => exists lc' uc', PINV k def c' lc' uc' LO UO /\ r_m c' = r_m c /\ dgx k def c' LO UO /\ same_below k c c')).
    { eapply rounds_l; eauto; try lia. }
    apply (wp_ok_inv _ _ _ _ E1) in W1. destruct W1 as (lc1 & uc1 & I1 & M1 & D1 & K1).
    pose proof (PF_ext k c c1 HF (rounds_st _ _ _ _ _ E1) K1) as F1.
    destruct (PINV_f _ _ _ _ _ _ _ _ _ _ _ _ _ _ _ _ _ _ I1) as (Ed1 & Em1 & Ek1 & Ld1 & Lq1 & Lp1).
    rewrite Ed1. ob. apply okp_get with (d := t0 O). intros _. cbv zeta.
    ob. intros c2 E2.
    assert (W2 : wp (pkappas klt k c1) (fun c' => PINV k def c' lc1 uc1 LO UO /\ r_m c' = r_m c1 /\ r_d c' = r_d c1 /\ r_p c' = r_p c1 /\ r_q c' = r_q c1)).
    { eapply pkappas_l with (A_crs := A_crs) (A_ccs := A_ccs); [..|exact I1|]; eauto; lia. }
    apply (wp_ok_inv _ _ _ _ E2) in W2. destruct W2 as (I2 & E2a & E2b & E2p & E2q).
    pose proof (pkappas_f k k c1 F1 c2 E2) as F2.
    ob. apply okp_conseq with (P := fun pvt => pvt = false -> bad (nth (def + k) (r_d c1) (t0 O)) = false).
    { destruct (bad _) eqn:B; [apply okp_ok; discriminate|]. oany. auto. }
    intros pvt Hpv. ob. intros c3 E3.
    assert (F3 : PF k c3). { destruct pvt; [exact (pdefer_loop_f _ _ _ _ F2 _ E3)|now injection E3 as <-]. }
    assert (X : exists def' lc' uc', PINV k def' c3 lc' uc' LO UO /\ def <= def' /\
       (k < r_m c3 -> bad (nth (def' + k) (r_d c3) (t0 O)) = false /\ dgx k def' c3 LO UO) /\ (pvt = false -> k < r_m c3)).
    { destruct pvt.
      - assert (W3 : wp (pdefer_loop bad klt kbad n m2 s t A_ccs (S m2) k c2) (fun c' : PR O => exists def' lc' uc', PINV k def' c' lc' uc' LO UO /\ def <= def' /\ (k < r_m c2 -> k < r_m c' -> bad (nth (def' + k) (r_d c') (t0 O)) = false /\ dgx k def' c' LO UO))).
        { eapply pdefer_loop_l with (A_crs := A_crs) (Am := Am); [..|exact I2|]; eauto; lia. }
        apply (wp_ok_inv _ _ _ _ E3) in W3. destruct W3 as (d3 & lc3 & uc3 & I3 & H3 & H4).
        exists d3, lc3, uc3. split; auto. split; auto. split; [|discriminate]. apply H4. lia.
      - injection E3 as <-. exists def, lc1, uc1. split; auto. split; auto. split; [|intros; lia]. intros _. unfold PivotProofs6.dgx. rewrite E2b, E2p, E2q. auto. }
    destruct X as (d3 & lc3 & uc3 & I3 & Hd & Hb & Hk3).
    destruct (PINV_f _ _ _ _ _ _ _ _ _ _ _ _ _ _ _ _ _ _ I3) as (Ed3 & Em3 & Ek3 & Ld3 & Lq3 & Lp3).
    destruct (pvt && (r_m c3 =? k)) eqn:B.
    { apply andb_true_iff in B. destruct B as (_ & B). apply Nat.eqb_eq in B. apply okp_ok. cbn [fst snd]. split; auto. lia. }
    assert (Hk4 : k < r_m c3).
    { destruct pvt; auto. cbn [andb] in B. apply Nat.eqb_neq in B. lia. }
    destruct (Hb Hk4) as (Hb1 & Hb2).
    ob. intros c4 E4.
    assert (W4 : wp (peliminate is0 big dropU dropL s t A_crs A_ccs k c3) (fun c' => exists lc' uc' LO' UO',
      PINV (S k) d3 c' lc' uc' LO' UO' /\ r_m c' = r_m c3 /\ idle N2 (S k) (r_l c') /\ idle N2 (S k) (r_u c'))).
    { eapply peliminate_l; eauto. lia. }
    apply (wp_ok_inv _ _ _ _ E4) in W4. destruct W4 as (lc4 & uc4 & LO4 & UO4 & I4 & E4m & Il4 & Iu4).
    pose proof (peliminate_f k c3 F3 c4 E4) as F4.
    eapply IHfuel; [exact I4|auto|auto|lia|exact F4].
  Qed.

  Lemma pivot_crout_f : forall jd jk js jP jv ji, length jd = m2 -> length jk = m2 -> length js = m2 -> length jP = n ->
    length jv = N2 -> length ji = N2 ->
    okp (pivot_crout bad klt kbad kok piv srt is0 big dropU dropL n m2 s t A_crs A_ccs p0 q0 jd jk js jP jv ji) (RF WU WL).
  Proof.
    intros jd jk js jP jv ji L0 L1 L2 L3 L4 L5. unfold pivot_crout.
    assert (X : let c := pivot_init n m2 A_ccs p0 q0 jd jk js jP jv ji in
      PINV 0 0 c [] [] (fun _ _ => None) (fun _ _ => None) /\ idle N2 0 (r_l c) /\ idle N2 0 (r_u c)).
    { eapply pivot_init_l with (A_crs := A_crs) (Am := Am) (A_ccs := A_ccs); eauto. }
    destruct X as (I & Il & Iu). ob. eapply okp_conseq.
    { eapply pivot_loop_f; [exact I|exact Il|exact Iu|lia|]. split; (split; [reflexivity|intros; lia]). }
    intros r (H1 & H2). now apply pivot_finish_f.
  Qed.
End A.
