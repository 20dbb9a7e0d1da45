(** * PivotProofs6: the invariant of the pivoting update; pivoting rounds and deferral. *)
From Coq Require Import List Arith Lia Bool Permutation Ring.
From Verif Require Import Base Scalar Spec CSModel CSSpec ConvModel ConvSpec BucketProofs ConvProofs ConvProofs2
  ConvProofs3 ConvProofs4 Mag VecModel VecSpec VecProofs PruneModel PruneProofs CroutModel CroutProofs1 CroutProofs2 CroutProofs3
  CroutProofs4 CroutProofs5 CroutProofs6 CroutProofs7 AugModel AugProofs1 AugProofs2 PivotModel PivotProofs1 PivotProofs2 PivotProofs3
  PivotProofs4 PivotProofs5.
Import ListNotations.

Section A.
  Context {O : Ops}.
  Notation T := (T O).
  Notation row := (list (nat * T)).
  Notation col := (row * row)%type.
  Notation tl' c cols := (snd (nth c cols (dcol (O:=O)))).
  Notation dn' c cols := (fst (nth c cols (dcol (O:=O)))).

  (** interchanging two rows (columns) that are still to be processed *)
  Lemma pint_l : forall n m2 ps k g def (F : aug O) start (cols : list col) p P Pi LO d a j, 
    PRep ps (Nat.mul n 2) k g (n + def) F start cols -> PI n k g (n + def) p (gP n p P) Pi -> length P = Nat.mul n 2 ->
    link k g (n + def) p (gP n p P) cols LO -> k <= g -> g < j < m2 -> m2 <= n -> length d = m2 -> used (Nat.mul n 2) k a ->
    wp (pinterchange g j F p Pi d a) (fun r => let '(F', p', Pi', d', a') := r in exists cols',
      PRep ps (Nat.mul n 2) k g (n + def) F' start cols' /\ PI n k g (n + def) p' (gP n p' P) Pi' /\
      link k g (n + def) p' (gP n p' P) cols' LO /\
      (forall i, i < n -> nth i p' 0 = nth (sw g j i) p 0) /\ (forall i, i < k -> nth i p' 0 = nth i p 0) /\
      d' = upd d g (vv a j) /\ used (Nat.mul n 2) k a').
  Proof.
    intros n m2 ps k g def F start cols p P Pi LO d a j R HP LP HL Hk Hj Hm Ld Hu. unfold pinterchange.
    destruct (bp_swap _ _ _ _ _ _ _ j HP ltac:(lia) ltac:(lia)) as (p' & Pi' & E & L1 & L2 & N1 & N2). rewrite E. cbn [bind].
    destruct (pinterchange_s _ _ _ _ _ _ _ _ j R ltac:(lia) ltac:(lia)) as (F' & cols' & E' & R' & HT). rewrite E'. cbn [bind].
    pose proof Hu as ([] & _). rewrite (get_nth _ _ _ (t0 O)) by lia. cbn [bind]. rewrite (get_nth _ _ _ (t0 O)) by lia. cbn [bind].
    rewrite set_ok by lia. cbn [bind]. wpb. eapply wp_conseq. { apply (setval_used (Nat.mul n 2) k a j (nth g d (t0 O))); auto. lia. }
    intros a' Hu'. apply wp_ok. cbn [bp bpi]. exists cols'.
    assert (Lp : length p = n) by apply HP.
    assert (NK : forall i, i < k -> nth i p' 0 = nth i p 0). { intros i Hi. rewrite N1, sw_lt by lia. auto. }
    assert (NG : forall r, g <= r < n + def -> nth r (gP n p' P) None = nth (sw g j r) (gP n p P) None).
    { intros r Hr. destruct (Nat.lt_ge_cases r n).
      - pose proof (sw_ge g j r n ltac:(lia) ltac:(lia)). rewrite (gP_lo n p'), (gP_lo n p) by lia. now rewrite N1 by auto.
      - replace (sw g j r) with r by (unfold sw; natb; lia). rewrite !gP_hi; auto. }
    split; auto. split; [|split; [|split; [|split]]]; auto.
    - eapply PI_swap; eauto; try lia. now apply gP_len.
    - eapply link_swap; eauto. lia.
  Qed.

  Variable bad : T -> bool.
  Variable klt : T -> T -> bool.
  Variables kbad kok : T -> bool.
  Variable piv : T -> T -> bool.
  Variable srt : list T -> list nat -> list nat.
  Variables is0 big : T -> bool.
  Variable dropU dropL : nat -> list T -> list nat -> SV O -> res (SV O).
  Variables (n m2 : nat) (s t : list T) (A_crs A_ccs : CS O).
  Variable Am : nat -> nat -> T.
  Variables p0 q0 : list nat.

  (** the droppings in the form used for the update without pivoting *)
  Definition dU (step : nat) (c : CR O) (v : SV O) : res (SV O) := dropU step (c_ku c) (c_p c) v.
  Definition dL (step : nat) (c : CR O) (v : SV O) : res (SV O) := dropL step (c_kl c) (c_q c) v.
  Notation VH := (VH bad is0).
  Notation VAL := (VAL bad is0 dU dL n).
  Notation hat := (hat s t Am).
  Notation N2 := (Nat.mul n 2).

  Hypothesis HS : forall vals l, Permutation (srt vals l) l.
  Hypothesis V1 : valid A_crs. Hypothesis V2 : valid A_ccs.
  Hypothesis P1 : psize A_crs = n. Hypothesis S1 : ssize A_crs = n.
  Hypothesis P2 : psize A_ccs = n. Hypothesis S2 : ssize A_ccs = n.
  Hypothesis Ls : length s = n. Hypothesis Lt : length t = n. Hypothesis Hm : m2 <= n.
  Hypothesis HA : RingLaws O -> forall i j, i < n -> j < n -> ent A_crs i j = Am i j /\ ent A_ccs j i = Am i j.

  Definition tot (k : nat) (d : list T) (LO UO : nat -> nat -> option T) (x y : nat) : T :=
    tsub O (hat x y) (sum k (prd d LO UO x y)).
  Lemma tot_ext : forall k d d' LO UO x y, (forall i, i < k -> nth i d' (t0 O) = nth i d (t0 O)) -> tot k d' LO UO x y = tot k d LO UO x y.
  Proof. intros. unfold tot. f_equal. apply sum_ext. intros i Hi. unfold prd. now rewrite H. Qed.

  Lemma VAL_ext : forall k g g' p q d p' q' d' LO UO, VAL 0 s t Am k g p q d LO UO ->
    (forall i, i < k -> nth i p' 0 = nth i p 0) -> (forall i, i < k -> nth i q' 0 = nth i q 0) ->
    (forall i, i < k -> nth i d' (t0 O) = nth i d (t0 O)) -> VAL 0 s t Am k g' p' q' d' LO UO.
  Proof.
    intros k g g' p q d p' q' d' LO UO [] Ep Eq Ed.
    assert (SM : forall c x y, c <= k -> sum c (prd d' LO UO x y) = sum c (prd d LO UO x y)).
    { intros c x y Hc. apply sum_ext. intros i Hi. unfold prd. now rewrite Ed by lia. }
    split.
    - intros H c x Hc Hx Hi Hs. rewrite SM, Ed, Eq by lia. apply vL; auto. intros i Hi'. rewrite <- Ep by lia. auto.
    - intros H c x Hc Hx Hi Hs. rewrite SM, Ed, Ep by lia. apply vU; auto. intros i Hi'. rewrite <- Eq by lia. auto.
    - intros H HL c Hc. rewrite SM, Ed, Ep, Eq by lia. auto.
    - intros H c Hc. rewrite Ed by auto. auto.
    - intros; lia.
  Qed.

  Record PINV (k def : nat) (c : PR O) (lc uc : list col) (LO UO : nat -> nat -> option T) : Prop := mkPINV {
    j_def : r_def c = def; j_m : r_m c + def = m2; j_k : def + k <= m2;
    j_L : PRep m2 N2 k (def + k) (n + def) (r_L c) (r_Ls c) lc;
    j_U : PRep m2 N2 k (def + k) (n + def) (r_U c) (r_Us c) uc;
    j_d : length (r_d c) = m2;
    j_kl : length (r_kl c) = m2; j_ku : length (r_ku c) = m2;
    j_P : length (r_P c) = N2; j_Q : length (r_Q c) = N2;
    j_p : PI n k (def + k) (n + def) (r_p c) (gP n (r_p c) (r_P c)) (r_Pi c);
    j_q : PI n k (def + k) (n + def) (r_q c) (gP n (r_q c) (r_Q c)) (r_Qi c);
    j_Pr : forall i, m2 <= i < n -> nth i (r_P c) None = Some (nth i p0 0) /\ nth i (r_p c) 0 = nth i p0 0;
    j_Qr : forall i, m2 <= i < n -> nth i (r_Q c) None = Some (nth i q0 0) /\ nth i (r_q c) 0 = nth i q0 0;
    j_l : used N2 k (r_l c); j_u : used N2 k (r_u c);
    j_lk : link k (def + k) (n + def) (r_p c) (gP n (r_p c) (r_P c)) lc LO;
    j_uk : link k (def + k) (n + def) (r_q c) (gP n (r_q c) (r_Q c)) uc UO;
    j_val : VAL 0 s t Am k (def + k) (r_p c) (r_q c) (r_d c) LO UO;
    j_x : VH -> forall i, i < k -> nth i (r_d c) (t0 O) = tot i (r_d c) LO UO (nth i (r_p c) 0) (nth i (r_q c) 0);
    j_b : forall i, i < k -> bad (nth i (r_d c) (t0 O)) = false }.

  (** the diagonal entry of the current position is the entry of the Schur complement *)
  Definition dgx (k def : nat) (c : PR O) (LO UO : nat -> nat -> option T) : Prop :=
    VH -> nth (def + k) (r_d c) (t0 O) = tot k (r_d c) LO UO (nth (def + k) (r_p c) 0) (nth (def + k) (r_q c) 0).

  Ltac rcb := cbn [r_m r_def r_L r_Ls r_U r_Us r_d r_p r_q r_P r_Q r_Pi r_Qi r_kl r_ku r_l r_u].

  Lemma c_ut : forall k def c lc uc LO UO v, PINV k def c lc uc LO UO -> def + k < m2 -> idle N2 k v ->
    wp (pcompute_ut k (def + k) s A_crs t (nth (def + k) (r_p c) 0) (r_Qi c) (r_L c) (r_d c) (r_U c) (r_Us c) v) (fun u => exists f,
      acc N2 k (S (def + k)) (n + def) u f /\
      (RingLaws O -> forall y, y < n -> def + k < nth y (r_Qi c) 0 -> f (nth y (r_Qi c) 0) = tot k (r_d c) LO UO (nth (def + k) (r_p c) 0) y)).
  Proof.
    intros k def c lc uc LO UO v I Hg Hid. pose proof I as []. set (g := def + k) in *.
    pose proof j_p0 as [pp1 pp2 pp3 pa pb pc pd pe pf]. pose proof j_q0 as [qq1 qq2 qq3 qa qb qc qd qe qf].
    destruct (PI_g _ _ _ _ _ _ _ j_p0 ltac:(lia) ltac:(lia)) as (G1 & G2).
    eapply wp_conseq.
    { apply (pcompute_ut_l N2 m2 m2 N2 N2 k g (n + def) (n + def) (r_L c) (r_U c) (r_Ls c) (r_Us c) lc uc s t (r_d c) A_crs (nth g (r_p c) 0) (r_Qi c) v); auto; try lia.
      - intros j Hj Hgj. apply qe; lia.
      - intros j j' Hj Hj' Hgj E. destruct (qe j ltac:(lia) ltac:(lia)) as (_ & X1). destruct (qe j' ltac:(lia) ltac:(lia)) as (_ & X2).
        rewrite E in X1. congruence. }
    intros u (f & AU & FU). exists f. split; auto. intros RL y Hy Hgy. rewrite FU by (auto; lia). unfold tot, CroutProofs7.hat.
    rewrite (proj1 (HA RL _ y G1 Hy)). f_equal. apply sum_ext. intros e He. unfold prd, lkv.
    rewrite (proj1 j_lk0 e g (nth g (r_p c) 0)) by (auto; try lia; apply pd; lia).
    destruct (qe y Hy ltac:(lia)) as (X1 & X2). rewrite (proj1 j_uk0 e (nth y (r_Qi c) 0) y) by (auto; lia). reflexivity.
  Qed.

  Lemma c_l : forall k def c lc uc LO UO v, PINV k def c lc uc LO UO -> def + k < m2 -> idle N2 k v ->
    wp (pcompute_l k (def + k) s A_ccs t (r_Pi c) (nth (def + k) (r_q c) 0) (r_L c) (r_Ls c) (r_d c) (r_U c) v) (fun l => exists f,
      acc N2 k (S (def + k)) (n + def) l f /\
      (RingLaws O -> forall x, x < n -> def + k < nth x (r_Pi c) 0 -> f (nth x (r_Pi c) 0) = tot k (r_d c) LO UO x (nth (def + k) (r_q c) 0))).
  Proof.
    intros k def c lc uc LO UO v I Hg Hid. pose proof I as []. set (g := def + k) in *.
    pose proof j_p0 as [pp1 pp2 pp3 pa pb pc pd pe pf]. pose proof j_q0 as [qq1 qq2 qq3 qa qb qc qd qe qf].
    destruct (PI_g _ _ _ _ _ _ _ j_q0 ltac:(lia) ltac:(lia)) as (H1 & H2).
    eapply wp_conseq.
    { apply (pcompute_l_l N2 m2 m2 N2 N2 k g (n + def) (n + def) (r_L c) (r_U c) (r_Ls c) (r_Us c) lc uc s t (r_d c) A_ccs (nth g (r_q c) 0) (r_Pi c) v); auto; try lia.
      - intros j Hj Hgj. apply pe; lia.
      - intros j j' Hj Hj' Hgj E. destruct (pe j ltac:(lia) ltac:(lia)) as (_ & X1). destruct (pe j' ltac:(lia) ltac:(lia)) as (_ & X2).
        rewrite E in X1. congruence. }
    intros u (f & AU & FU). exists f. split; auto. intros RL x Hx Hgx. rewrite FU by (auto; lia). unfold tot, CroutProofs7.hat.
    rewrite (proj2 (HA RL x _ Hx H1)). f_equal. apply sum_ext. intros e He. unfold prd, lkv.
    rewrite (proj1 j_uk0 e g (nth g (r_q c) 0)) by (auto; try lia; apply qd; lia).
    destruct (pe x Hx ltac:(lia)) as (X1 & X2). rewrite (proj1 j_lk0 e (nth x (r_Pi c) 0) x) by (auto; lia). now apply ru_swap3.
  Qed.

  Lemma c_dk : forall k def c lc uc LO UO, PINV k def c lc uc LO UO -> def + k < m2 ->
    wp (compute_dk k (def + k) s A_ccs t (r_Pi c) (nth (def + k) (r_q c) 0) (r_L c) (r_Ls c) (r_d c) (r_U c)) (fun dk =>
      VH -> dk = tot k (r_d c) LO UO (nth (def + k) (r_p c) 0) (nth (def + k) (r_q c) 0)).
  Proof.
    intros k def c lc uc LO UO I Hg. pose proof I as []. set (g := def + k) in *.
    pose proof j_p0 as [pp1 pp2 pp3 pa pb pc pd pe pf]. pose proof j_q0 as [qq1 qq2 qq3 qa qb qc qd qe qf].
    destruct (PI_g _ _ _ _ _ _ _ j_p0 ltac:(lia) ltac:(lia)) as (G1 & G2).
    destruct (PI_g _ _ _ _ _ _ _ j_q0 ltac:(lia) ltac:(lia)) as (H1 & H2).
    eapply wp_conseq.
    { apply (compute_dk_l m2 m2 N2 N2 k g (n + def) (n + def) (r_L c) (r_U c) (r_Ls c) (r_Us c) lc uc s t (r_d c) A_ccs (nth g (r_q c) 0) (r_Pi c)); auto; try lia.
      intros j j' Hj Hj' E E'. destruct (pe j ltac:(lia) ltac:(lia)) as (_ & X1). destruct (pe j' ltac:(lia) ltac:(lia)) as (_ & X2).
      rewrite E in X1. rewrite E' in X2. congruence. }
    intros dk HD H. pose proof (fl_ring O (proj1 H)) as RL. rewrite (HD RL (nth g (r_p c) 0)) by (auto; lia). unfold tot, CroutProofs7.hat.
    rewrite (proj2 (HA RL _ _ G1 H1)). f_equal. apply sum_ext. intros e He. unfold prd, lkv.
    rewrite (proj1 j_uk0 e g (nth g (r_q c) 0)) by (auto; try lia; apply qd; lia).
    rewrite (proj1 j_lk0 e g (nth g (r_p c) 0)) by (auto; try lia; apply pd; lia). now apply ru_swap3.
  Qed.

  (** changes that do not touch the factors *)
  Lemma PINV_upd : forall k def c lc uc LO UO d kl ku l u, PINV k def c lc uc LO UO ->
    length d = m2 -> (forall i, i < k -> nth i d (t0 O) = nth i (r_d c) (t0 O)) -> length kl = m2 -> length ku = m2 ->
    used N2 k l -> used N2 k u ->
    PINV k def (mkPR (r_m c) def (r_L c) (r_Ls c) (r_U c) (r_Us c) d (r_p c) (r_q c) (r_P c) (r_Q c) (r_Pi c) (r_Qi c) kl ku l u) lc uc LO UO.
  Proof.
    intros k def c lc uc LO UO d kl ku l u [] Ld Ed Lkl Lku Hl Hu. split; rcb; auto.
    - eapply VAL_ext; eauto.
    - intros H i Hi. rewrite Ed by auto. rewrite (tot_ext i (r_d c)) by (intros; apply Ed; lia). auto.
    - intros i Hi. rewrite Ed by auto. auto.
  Qed.

  Definition same_below (k : nat) (c c' : PR O) : Prop := forall i, i < k -> nth i (r_p c') 0 = nth i (r_p c) 0 /\ nth i (r_q c') 0 = nth i (r_q c) 0.

  Lemma row_part_l : forall first k def c lc uc LO UO, PINV k def c lc uc LO UO -> def + k < m2 -> (first = true -> idle N2 k (r_l c)) ->
    wp (row_part klt kok piv srt m2 s t A_ccs first k c) (fun r => let '(c', lp, stop) := r in exists lc',
      PINV k def c' lc' uc LO UO /\ r_m c' = r_m c /\ r_u c' = r_u c /\ (lp = false -> dgx k def c' LO UO) /\ (stop = true -> lp = false) /\ same_below k c c').
  Proof.
    intros first k def c lc uc LO UO I Hg Hf. pose proof I as []. unfold row_part. rewrite j_def0.
    wpb. apply wp_conseq with (P := fun v => idle N2 k v).
    { destruct first; [apply wp_ok; auto|]. now apply restore_used. }
    intros l0 Hl0. wpb. apply wp_get with (d := 0). { pose proof (pi_p _ _ _ _ _ _ _ j_q0). lia. }
    wpb. eapply wp_conseq. { eapply (c_l _ _ _ _ _ _ _ _ I); eauto. } intros l1 (f & A1 & F1).
    wpb. eapply wp_conseq. { apply (msort_l srt HS _ _ _ _ _ _ A1). } intros l2 A2. fold (held l2).
    wpb. eapply wp_conseq. { apply (find_l klt kok m2 N2 m2 k (def + k) (n + def) (r_L c) (r_Ls c) lc (held l2) (r_kl c)); auto; try lia.
      intros i Hi. apply (ac_rng _ _ _ _ _ _ A2) in Hi. lia. }
    intros [pv kl] (Lkl & Hpv). cbn [fst snd] in *.
    wpb. eapply wp_conseq. { eapply (c_dk _ _ _ _ _ _ _ I); eauto. } intros dk Hdk.
    wpb. apply wp_set; [lia|].
    assert (U2 : used N2 k l2) by (eapply acc_used; eauto).
    assert (Ed : forall v i, i < k -> nth i (upd (r_d c) (def + k) v) (t0 O) = nth i (r_d c) (t0 O)) by (intros; apply nth_upd_neq; lia).
    set (c1 := mkPR _ _ _ _ _ _ _ _ _ _ _ _ _ _ _ _ _).
    assert (I1 : PINV k def c1 lc uc LO UO). { unfold c1. apply PINV_upd; auto; rewrite ?upd_length; auto; congruence. }
    assert (D1 : dgx k def c1 LO UO).
    { intros H. unfold c1. rcb. rewrite nth_upd_eq by lia. rewrite (Hdk H). symmetry. apply tot_ext. intros. apply Ed; auto. }
    assert (FIN : wp (Ok (c1, false, negb first)) (fun r => let '(c', lp, stop) := r in exists lc',
      PINV k def c' lc' uc LO UO /\ r_m c' = r_m c /\ r_u c' = r_u c /\ (lp = false -> dgx k def c' LO UO) /\ (stop = true -> lp = false) /\ same_below k c c')).
    { apply wp_ok. exists lc. repeat (split; auto). }
    destruct pv as [j|]; [|exact FIN]. destruct (Hpv j eq_refl) as (Hj1 & Hj2). pose proof (ac_rng _ _ _ _ _ _ A2 j Hj1) as Hj3.
    pose proof U2 as ([] & _).
    wpb. apply wp_get with (d := t0 O); [lia|]. destruct (piv _ _); [|exact FIN].
    wpb. eapply wp_conseq. { eapply (pint_l n m2 m2 k (def + k) def (r_L c) (r_Ls c) lc (r_p c) (r_P c) (r_Pi c) LO _ l2 j); eauto; try lia. now rewrite upd_length. }
    intros [[[[L' p'] Pi'] d'] l'] (lc' & R' & PI' & LK' & NP & NK & -> & UL'). apply wp_ok. exists lc'.
    split; [|split; [|split; [|split; [|split]]]]; auto; try discriminate; [|intros i Hi; rcb; auto].
    split; rcb; auto; rewrite ?upd_length; auto; try congruence.
    - intros i Hi. destruct (j_Pr0 i Hi). split; auto. rewrite NP by lia. replace (sw (def + k) j i) with i by (unfold sw; natb; lia). auto.
    - eapply VAL_ext; eauto. intros i Hi. rewrite nth_upd_neq by lia. apply Ed; auto.
    - intros H i Hi. rewrite nth_upd_neq by lia. rewrite NK, Ed by auto. rewrite (tot_ext i (r_d c)); auto.
      intros x Hx. rewrite nth_upd_neq by lia. apply Ed. lia.
    - intros i Hi. rewrite nth_upd_neq by lia. rewrite Ed by auto. auto.
  Qed.

  Lemma col_part_l : forall first lp k def c lc uc LO UO, PINV k def c lc uc LO UO -> def + k < m2 -> (first = true -> idle N2 k (r_u c)) ->
    (lp = false -> dgx k def c LO UO) ->
    wp (col_part klt kok piv srt m2 s t A_crs A_ccs first lp k c) (fun r => let '(c', stop) := r in exists uc',
      PINV k def c' lc uc' LO UO /\ r_m c' = r_m c /\ dgx k def c' LO UO /\ same_below k c c').
  Proof.
    intros first lp k def c lc uc LO UO I Hg Hf Hdg. pose proof I as []. unfold col_part. rewrite j_def0.
    assert (Lp : length (r_p c) = n) by apply j_p0. assert (Lq : length (r_q c) = n) by apply j_q0.
    wpb. apply wp_conseq with (P := fun v => idle N2 k v).
    { destruct first; [apply wp_ok; auto|]. now apply restore_used. }
    intros l0 Hl0. wpb. apply wp_get with (d := 0); [lia|].
    wpb. eapply wp_conseq. { eapply (c_ut _ _ _ _ _ _ _ _ I); eauto. } intros l1 (f & A1 & F1).
    wpb. eapply wp_conseq. { apply (msort_l srt HS _ _ _ _ _ _ A1). } intros l2 A2. fold (held l2).
    wpb. eapply wp_conseq. { apply (find_l klt kok m2 N2 m2 k (def + k) (n + def) (r_U c) (r_Us c) uc (held l2) (r_ku c)); auto; try lia.
      intros i Hi. apply (ac_rng _ _ _ _ _ _ A2) in Hi. lia. }
    intros [pv ku] (Lku & Hpv). cbn [fst snd] in *.
    wpb. apply wp_conseq with (P := fun d => length d = m2 /\ (forall i, i < k -> nth i d (t0 O) = nth i (r_d c) (t0 O)) /\
      (VH -> nth (def + k) d (t0 O) = tot k (r_d c) LO UO (nth (def + k) (r_p c) 0) (nth (def + k) (r_q c) 0))).
    { destruct lp.
      - wpb. apply wp_get with (d := 0); [lia|]. wpb. eapply wp_conseq. { eapply (c_dk _ _ _ _ _ _ _ I); eauto. } intros dk Hdk.
        apply wp_set; [lia|]. rewrite upd_length. split; auto. split; [intros; apply nth_upd_neq; lia|]. intros H. rewrite nth_upd_eq by lia. auto.
      - apply wp_ok. split; auto. split; auto. intros H. apply (Hdg eq_refl H). }
    intros d (Ld & Ed & Dd). cbv zeta.
    assert (U2 : used N2 k l2) by (eapply acc_used; eauto).
    set (c1 := mkPR _ _ _ _ _ _ _ _ _ _ _ _ _ _ _ _ _).
    assert (I1 : PINV k def c1 lc uc LO UO). { unfold c1. apply PINV_upd; auto; congruence. }
    assert (D1 : dgx k def c1 LO UO).
    { intros H. unfold c1. rcb. rewrite (Dd H). symmetry. apply tot_ext. auto. }
    assert (FIN : wp (Ok (c1, true)) (fun r => let '(c', stop) := r in exists uc', PINV k def c' lc uc' LO UO /\ r_m c' = r_m c /\ dgx k def c' LO UO /\ same_below k c c')).
    { apply wp_ok. exists uc. repeat (split; auto). }
    destruct pv as [j|]; [|exact FIN]. destruct (Hpv j eq_refl) as (Hj1 & Hj2). pose proof (ac_rng _ _ _ _ _ _ A2 j Hj1) as Hj3.
    pose proof U2 as ([] & _).
    wpb. apply wp_get with (d := t0 O); [lia|]. wpb. apply wp_get with (d := t0 O); [lia|]. destruct (piv _ _); [|exact FIN].
    wpb. eapply wp_conseq. { eapply (pint_l n m2 m2 k (def + k) def (r_U c) (r_Us c) uc (r_q c) (r_Q c) (r_Qi c) UO d l2 j); eauto; try lia. }
    intros [[[[U' q'] Qi'] d'] u'] (uc' & R' & PI' & LK' & NQ & NK & -> & UL'). apply wp_ok. exists uc'.
    split; [|split; [|split]]; auto; [| |intros i Hi; rcb; auto].
    - split; rcb; auto; rewrite ?upd_length; auto; try congruence.
      + intros i Hi. destruct (j_Qr0 i Hi). split; auto. rewrite NQ by lia. replace (sw (def + k) j i) with i by (unfold sw; natb; lia). auto.
      + eapply VAL_ext; eauto. intros i Hi. rewrite nth_upd_neq by lia. apply Ed; auto.
      + intros H i Hi. rewrite nth_upd_neq by lia. rewrite NK, Ed by auto. rewrite (tot_ext i (r_d c)); auto.
        intros x Hx. rewrite nth_upd_neq by lia. apply Ed. lia.
      + intros i Hi. rewrite nth_upd_neq by lia. rewrite Ed by auto. auto.
    - intros H. pose proof (fl_ring O (proj1 H)) as RL. rcb. rewrite nth_upd_eq by lia. rewrite NQ by lia.
      replace (sw (def + k) j (def + k)) with j by (unfold sw; natb; lia).
      rewrite (ac_val _ _ _ _ _ _ A2 RL j Hj1).
      destruct (PI_i _ _ _ _ _ _ _ j j_q0 ltac:(lia) ltac:(lia)) as (Q1 & Q2).
      specialize (F1 RL (nth j (r_q c) 0) Q1 ltac:(lia)). rewrite Q2 in F1. rewrite F1. symmetry. apply tot_ext.
      intros x Hx. rewrite nth_upd_neq by lia. now apply Ed.
  Qed.

  Lemma rounds_l : forall fuel first k def c lc uc LO UO, PINV k def c lc uc LO UO -> def + k < m2 ->
    (first = true -> idle N2 k (r_l c) /\ idle N2 k (r_u c)) -> (fuel = 0 -> dgx k def c LO UO) ->
    wp (pivot_rounds klt kok piv srt m2 s t A_crs A_ccs fuel first k c) (fun c' => exists lc' uc', PINV k def c' lc' uc' LO UO /\ r_m c' = r_m c /\ dgx k def c' LO UO /\ same_below k c c').
  Proof.
    induction fuel; intros first k def c lc uc LO UO I Hg Hf Hd; cbn [pivot_rounds].
    - apply wp_ok. exists lc, uc. repeat (split; auto).
    - wpb. eapply wp_conseq. { apply (row_part_l first _ _ _ _ _ _ _ I Hg). intros; now apply Hf. }
      intros [[c1 lp] stop] (lc1 & I1 & M1 & U1 & D1 & S3 & K1). destruct stop.
      { apply wp_ok. exists lc1, uc. split; auto. }
      wpb. eapply wp_conseq. { apply (col_part_l first lp _ _ _ _ _ _ _ I1 Hg). rewrite U1. intros; now apply Hf. auto. }
      intros [c2 stop] (uc2 & I2 & M2 & D2 & K2). destruct stop.
      { apply wp_ok. exists lc1, uc2. split; auto. split; [congruence|]. split; auto. intros i Hi. destruct (K1 i Hi), (K2 i Hi). split; congruence. }
      eapply wp_conseq. { apply (IHfuel false _ _ _ _ _ _ _ I2 Hg); auto. discriminate. }
      intros c3 (lc3 & uc3 & I3 & M3 & D3 & K3). exists lc3, uc3. split; auto. split; [congruence|]. split; auto. intros i Hi. destruct (K1 i Hi), (K2 i Hi), (K3 i Hi). split; congruence.
  Qed.

  Lemma pkappas_l : forall k def c lc uc LO UO, PINV k def c lc uc LO UO -> def + k < m2 ->
    wp (pkappas klt k c) (fun c' => PINV k def c' lc uc LO UO /\ r_m c' = r_m c /\ r_d c' = r_d c /\ r_p c' = r_p c /\ r_q c' = r_q c).
  Proof.
    intros k def c lc uc LO UO I Hg. pose proof I as []. unfold pkappas. rewrite j_def0. wpb. eapply wp_conseq.
    { apply (pupdate_kappa_l m2 N2 klt k (def + k) (n + def) (r_U c) (r_Us c) uc); auto; lia. }
    intros ku Lku. wpb. eapply wp_conseq.
    { apply (pupdate_kappa_l m2 N2 klt k (def + k) (n + def) (r_L c) (r_Ls c) lc); auto; lia. }
    intros kl Lkl. cbv beta in *. apply wp_ok. split; [|auto]. apply PINV_upd; auto; congruence.
  Qed.

  Lemma pkappa_bad_l : forall k def c lc uc LO UO, PINV k def c lc uc LO UO -> def + k < m2 -> wp (pkappa_bad kbad k c) (fun _ => True).
  Proof.
    intros k def c lc uc LO UO [] Hg. unfold pkappa_bad. wpb. apply wp_get with (d := t0 O); [lia|].
    wpb. apply wp_get with (d := t0 O); [lia|]. apply wp_ok. auto.
  Qed.

  Lemma pdefer_one_l : forall k def c lc uc LO UO, PINV k def c lc uc LO UO -> def + k < m2 ->
    wp (pdefer_one n k c) (fun c' => exists lc' uc', PINV k (S def) c' lc' uc' LO UO).
  Proof.
    intros k def c lc uc LO UO I Hg. pose proof I as []. unfold pdefer_one. rewrite j_def0.
    destruct (pdefer_s _ _ _ _ _ _ _ _ j_U0 ltac:(lia) ltac:(lia) ltac:(lia)) as (U' & EU & RU). rewrite EU. cbn [bind].
    destruct (pdefer_s _ _ _ _ _ _ _ _ j_L0 ltac:(lia) ltac:(lia) ltac:(lia)) as (L' & EL & RL'). rewrite EL. cbn [bind].
    pose proof j_p0 as [pp1 pp2 pp3 pa pb pc pd pe pf]. pose proof j_q0 as [qq1 qq2 qq3 qa qb qc qd qe qf].
    destruct (PI_g _ _ _ _ _ _ _ j_p0 ltac:(lia) ltac:(lia)) as (G1 & G2).
    destruct (PI_g _ _ _ _ _ _ _ j_q0 ltac:(lia) ltac:(lia)) as (H1 & H2).
    wpb. apply wp_get with (d := 0); [lia|]. wpb. apply wp_set; [lia|].
    wpb. apply wp_get with (d := 0); [lia|]. wpb. apply wp_set; [lia|].
    wpb. apply wp_set; [lia|]. wpb. apply wp_set; [lia|].
    wpb. apply wp_set; [rewrite upd_length; lia|]. wpb. apply wp_set; [rewrite upd_length; lia|].
    apply wp_ok. exists (map (deferc (def + k) (n + def)) lc), (map (deferc (def + k) (n + def)) uc).
    assert (GE : forall p P, length p = n -> length P = N2 -> forall i, S (def + k) <= i < S (n + def) ->
      nth i (gP n p (upd (upd P (n + def) (Some (nth (def + k) p 0))) (def + k) None)) None =
      nth i (upd (upd (gP n p P) (n + def) (Some (nth (def + k) p 0))) (def + k) None) None).
    { intros p P Lp LP i Hi.  destruct (Nat.lt_ge_cases i n).
      - rewrite gP_lo by auto. rewrite !nth_upd_neq by lia. now rewrite gP_lo by auto.
      - rewrite gP_hi by auto. rewrite !(nth_upd_neq _ _ (def + k)) by lia. rewrite !nth_upd by (rewrite ?gP_len; lia). rewrite gP_hi by auto. auto. }
    assert (LG : forall (P : list (option nat)) a b x y, length P = N2 -> length (upd (upd P a x) b y) = N2) by (intros; now rewrite !upd_length).
    assert (SG : S def + k = S (def + k)) by lia. assert (SL : n + S def = S (n + def)) by lia.
    split; rcb; auto; try lia; rewrite ?SG, ?SL; auto.
    - eapply PI_ext; [apply PI_defer; eauto; lia|lia|apply gP_len; auto|]. intros i Hi. apply GE; auto.
    - eapply PI_ext; [apply PI_defer; eauto; lia|lia|apply gP_len; auto|]. intros i Hi. apply GE; auto.
    - intros i Hi. rewrite !nth_upd_neq by lia. auto.
    - intros i Hi. rewrite !nth_upd_neq by lia. auto.
    - destruct (prep_ne _ _ _ _ _ _ _ _ j_L0) as (li & Rp). eapply link_ext; [refine (link_defer _ _ _ _ _ _ _ _ _ _ _ _ Rp j_p0 _ _ _ j_lk0); lia| |auto]. intros i Hi. apply GE; auto.
    - destruct (prep_ne _ _ _ _ _ _ _ _ j_U0) as (li & Rp). eapply link_ext; [refine (link_defer _ _ _ _ _ _ _ _ _ _ _ _ Rp j_q0 _ _ _ j_uk0); lia| |auto]. intros i Hi. apply GE; auto.
    - eapply VAL_ext; eauto.
  Qed.

  Lemma PINV_with_m : forall k def c lc uc LO UO m, PINV k def c lc uc LO UO -> m + def = m2 -> PINV k def (pwith_m m c) lc uc LO UO.
  Proof. intros k def c lc uc LO UO m [] Em. split; auto. Qed.

  Lemma PINV_f : forall k def c lc uc LO UO, PINV k def c lc uc LO UO ->
    r_def c = def /\ r_m c + def = m2 /\ def + k <= m2 /\ length (r_d c) = m2 /\ length (r_q c) = n /\ length (r_p c) = n.
  Proof. intros k def c lc uc LO UO []. repeat (split; auto). apply j_q0. apply j_p0. Qed.

  Lemma pdefer_loop_l : forall fuel k def c lc uc LO UO, PINV k def c lc uc LO UO -> m2 - (def + k) < fuel ->
    wp (pdefer_loop bad klt kbad n m2 s t A_ccs fuel k c) (fun c' : PR O => exists def' lc' uc', PINV k def' c' lc' uc' LO UO /\ def <= def' /\ (k < r_m c -> k < r_m c' -> bad (nth (def' + k) (r_d c') (t0 O)) = false /\ dgx k def' c' LO UO)).
  Proof.
    induction fuel; intros k def c lc uc LO UO I Hf; [lia|]. cbn [pdefer_loop].
    destruct (PINV_f _ _ _ _ _ _ _ I) as (Ed & Em & Ek & Ld & Lq & Lp).
    destruct (Nat.ltb_spec k (r_m c)) as [Hk|Hk].
    2:{ apply wp_ok. exists def, lc, uc. split; auto. split; auto. intros. lia. }
    wpb. eapply wp_conseq. { eapply pdefer_one_l; [exact I|lia]. }
    intros c1 (lc1 & uc1 & I1).
    destruct (PINV_f _ _ _ _ _ _ _ I1) as (Ed1 & Em1 & Ek1 & Ld1 & Lq1 & Lp1). rewrite Ed1.
    destruct (Nat.leb_spec m2 (S def + k)) as [Hle|Hgt].
    { apply wp_ok. exists (S def), lc1, uc1. split. { apply PINV_with_m; auto. lia. } split; [lia|]. cbn [pwith_m r_m]. lia. }
    wpb. eapply wp_conseq. { eapply pkappas_l; [exact I1|lia]. } intros c2 (I2 & E2a & E2b & E2p & E2q).
    destruct (PINV_f _ _ _ _ _ _ _ I2) as (Ed2 & Em2 & Ek2 & Ld2 & Lq2 & Lp2).
    wpb. eapply wp_conseq. { eapply pkappa_bad_l; [exact I2|lia]. } intros kb _. destruct kb.
    { eapply wp_conseq. { eapply IHfuel; [exact I2|lia]. } intros c3 (d3 & lc3 & uc3 & I3 & H3 & H4). exists d3, lc3, uc3. split; auto.
      split; [lia|]. intros _. apply H4. lia. }
    wpb. apply wp_get with (d := 0); [lia|]. wpb. eapply wp_conseq. { eapply (c_dk _ _ _ _ _ _ _ I2); lia. } intros dk Hdk.
    wpb. apply wp_set; [lia|].
    assert (Edd : forall v i, i < k -> nth i (upd (r_d c2) (S def + k) v) (t0 O) = nth i (r_d c2) (t0 O)) by (intros; apply nth_upd_neq; lia).
    assert (I3 : PINV k (S def) (pwith_d (upd (r_d c2) (S def + k) dk) c2) lc1 uc1 LO UO).
    { unfold pwith_d. rewrite Ed2. pose proof I2 as []. apply PINV_upd; auto. now rewrite upd_length. }
    destruct (bad dk) eqn:B.
    - eapply wp_conseq. { eapply IHfuel; [exact I3|lia]. } intros c3 (d3 & lc3 & uc3 & I4 & H3 & H4). exists d3, lc3, uc3. split; auto.
      split; [lia|]. intros _. apply H4. cbn [pwith_d r_m]. lia.
    - apply wp_ok. exists (S def), lc1, uc1. split; auto. split; [lia|]. intros _ _. cbn [pwith_d r_d]. rewrite nth_upd_eq by lia. split; auto.
      intros H. cbn [pwith_d r_d r_p r_q]. rewrite nth_upd_eq by lia. rewrite (Hdk H). symmetry. apply tot_ext. auto.
  Qed.
End A.
