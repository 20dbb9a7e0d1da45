(** * EqDual5: the kernel returns optimal dual values with a complete matching. *)
From Coq Require Import List Arith ZArith Bool Lia Reals Lra.
From Verif Require Import Base EqModel EqSpec DualSpec EqProofs1 EqProofs2 EqProofs3 EqProofs4 EqDual1 EqDual2 EqDual3 EqDual4.
Import ListNotations.
Local Open Scope nat_scope.

Section Kernel.
  Variable K : ROps.
  Variable ev : RR K -> option R.
  Hypothesis EA : exact_arith K ev.
  Notation fin := (fin K ev).
  Notation rv := (rv K ev).
  Notation kle := (kle K).
  Notation RR := (RR K).
  Notation ndx := (n1 (r0 K)).
  Variable n : nat.
  Variables ip irn : list nat.
  Variable a : list RR.
  Hypothesis PW : pattern1 n ip irn.
  Hypothesis La : length irn <= length a.
  Hypothesis REQ : req K (rinf K) (rinf K) = true.
  Hypothesis HF : half_full n ip.
  Hypothesis FBH : FB K n ip irn a fin.
  Notation incol := (incol ip).
  Notation RC := (RC K ev irn a).
  Notation dual := (dual K ev n ip irn a).

  Definition optimal (p : list Z) (u d : list RR) : Prop :=
    ufin K irn fin u /\
    forall j, 1 <= j <= n -> fin (ndx d j) /\
      (exists k, incol j k /\ n1 0%Z p (N1 irn k) = Z.of_nat j /\ rv (ndx d j) = RC u k) /\
      forall k, incol j k -> (rv (ndx d j) <= RC u k)%R.

  Lemma cleanup_d : forall num iperm jperm out u d, MI n ip irn n iperm jperm -> num = cnt n iperm -> length u = n ->
    ufin K irn fin u -> dual u jperm ->
    wlp (cleanup K n irn a num iperm jperm out u d) (fun '(p, u', d') => num = n -> optimal p u' d').
  Proof.
    intros num iperm jperm out u d MM Hnum Lu UF HD. pose proof MM as (Li & Lj & M1 & M2). destruct (Nat.eqb_spec num n) as [En|En].
    2:{ intros [[p u'] d'] _. intros; contradiction. }
    assert (FULL : forall i, 1 <= i <= n -> N1 iperm i <> 0) by (apply (cnt_full K irn a La); lia).
    (* every column is matched *)
    assert (FULLJ : forall j, 1 <= j <= n -> N1 jperm j <> 0).
    { intros j Hj. assert (IN : In j (map (fun i => N1 iperm i) (seq 1 n))).
      { refine (NoDup_length_incl (l := map (fun i => N1 iperm i) (seq 1 n)) (l' := seq 1 n) _ _ _ j _).
        - assert (G : forall l, (forall i, In i l -> 1 <= i <= n) -> NoDup l -> NoDup (map (fun i => N1 iperm i) l)).
          { induction l as [|x l]; intros G1 G2; cbn [map]; constructor; apply NoDup_cons_iff in G2; destruct G2 as (NI & ND).
            - intros Hin. apply in_map_iff in Hin. destruct Hin as (y & Ey & Hy). apply NI.
              assert (x = y); [|congruence]. assert (Rx : 1 <= x <= n) by (apply G1; now left). assert (Ry : 1 <= y <= n) by (apply G1; now right).
              destruct (M1 x Rx) as (_ & _ & X); [auto|]. destruct (M1 y Ry) as (_ & _ & Y); [auto|]. rewrite Ey in Y. congruence.
            - apply IHl; auto. intros; apply G1; now right. }
          apply G; [|apply seq_NoDup]. intros i Hi. apply in_seq in Hi. lia.
        - now rewrite map_length.
        - intros x Hx. apply in_map_iff in Hx. destruct Hx as (i & <- & Hi). apply in_seq in Hi. apply in_seq. destruct (M1 i ltac:(lia)); [apply FULL; lia|lia].
        - apply in_seq. lia. }
      apply in_map_iff in IN. destruct IN as (i & <- & Hi). apply in_seq in Hi. apply M1; [lia|]. apply FULL; lia. }
    unfold cleanup. lb. apply wlp_conseq with (P := fun '(u', d') => u' = u /\ forall j, 1 <= j < S n ->
      ndx d' j = rsub K (ndx a (N1 jperm j)) (ndx u (N1 irn (N1 jperm j)))).
    { eapply wlp_conseq with (P := fun '(u', d') => u' = u /\ forall j, 1 <= j < S n ->
      ndx d' j = rsub K (ndx a (N1 jperm j)) (ndx u (N1 irn (N1 jperm j)))); [|auto].
      apply (wlp_for_range _ (fun jc '(u', d') => u' = u /\ forall j, 1 <= j < jc ->
      ndx d' j = rsub K (ndx a (N1 jperm j)) (ndx u (N1 irn (N1 jperm j))))); [lia|split; [auto|intros; lia]|].
      intros jc [u' d'] Hjc (-> & ID). lg 0. destruct (Nat.eqb_spec (N1 jperm jc) 0) as [E|E]; [exfalso; apply (FULLJ jc); auto; lia|]. cbn [negb].
      lb. unfold reduced. lg 0. lg (r0 K). lg (r0 K). apply wlp_ok. ls. lg 0.
      destruct (Nat.eqb_spec (N1 iperm jc) 0) as [E'|E']; [exfalso; apply (FULL jc); auto; lia|]. cbn [bind]. apply wlp_ok. split; [auto|].
      intros j Hj. rewrite n1_upd by lia. destruct (Nat.eqb_spec j jc) as [->|]; [auto|]. apply ID. lia. }
    intros [u' d'] (-> & ID). destruct (Nat.eqb_spec num n); [|contradiction]. apply wlp_ok. intros _. split; [auto|].
    intros j Hj. destruct (M2 j Hj (FULLJ j Hj)) as (X1 & X2 & X3).
    pose proof (incol_k K n ip irn a PW La j _ Hj X1) as Rk.
    destruct (red_f K ev EA n ip irn a FBH u UF _ Rk) as (G1 & G2). rewrite ID by lia. split; [auto|]. rewrite G2. split.
    - exists (N1 jperm j). split; [auto|]. split; [|auto]. rewrite n1_map. congruence.
    - intros k Hk. apply HD; auto.
  Qed.

  Lemma kernel_d : forall jo jq, length jo = n -> length jq = n ->
    wlp (kernel K n ip irn a jo jq) (fun '(p, num, u', d') => num = n -> optimal p u' d').
  Proof.
    intros jo jq Ljo Ljq. unfold kernel. cbv zeta.
    lb. eapply wlp_conseq.
    { apply wlp_and; [apply w2; apply (init_u_l K n ip irn a PW La)|]. apply wlp_and.
      - apply w2. apply (init_u_fin K n ip irn a PW La fin FBH).
      - apply (init_u_d K ev EA n ip irn a PW La FBH). }
    intros [[u iperm] l] ((Lu & Li & Ll & C) & UF & UD).
    pose proof (init_nonneg K ev EA n ip irn a La FBH u iperm l UD UF) as NN. destruct UD as (_ & _ & _ & _ & UM).
    lb. eapply wlp_conseq. { apply wlp_and; [apply w2; apply (cheap_l K n ip irn a PW La iperm l Li Ll C)|apply (cheap_d K n ip irn a La iperm l Li Ll)]. }
    intros [[iperm1 jperm1] num] ((M1 & N1') & HJ).
    assert (TIGHT : forall j, 1 <= j <= n -> N1 jperm1 j <> 0 -> RC u (N1 jperm1 j) = 0%R).
    { intros j Hj Hne. destruct (HJ j Hj Hne) as (i & Hi & Hp & ->). destruct (C i Hi) as [F|(_ & _ & F)]; [contradiction|].
      unfold EqDual2.RC, CC, UU. rewrite F, (UM i Hi Hp). lra. }
    assert (D1 : dual u jperm1).
    { intros j Hj Hne k Hk. rewrite TIGHT by auto. apply NN. eapply (incol_k K n ip irn a PW La); eauto. }
    destruct (Nat.eqb_spec num n) as [En|En].
    { lb. eapply wlp_conseq. { apply (cleanup_d num iperm1 jperm1 jo u); auto. } intros [[p u1] d1] X. apply wlp_ok. auto. }
    lb. apply wlp_conseq with (P := fun s => AI K n ip irn s /\ AD K ev n ip irn a u s).
    { eapply wlp_conseq with (P := fun s => AI K n ip irn s /\ AD K ev n ip irn a u s); [|auto].
      apply (wlp_for_range _ (fun _ s => AI K n ip irn s /\ AD K ev n ip irn a u s)); [lia| |].
      - split.
        + pose proof (pw_ip _ _ _ PW) as Lip.
          split; [auto|]. split; [auto|]. cbn [a_pr a_d]. split; [rewrite firstn_length; lia|]. split; [apply repeat_length|].
          intros j Hj. assert (E : N1 (firstn n ip) j = N1 ip j). { unfold n1. rewrite nth_firstn_lt by lia. reflexivity. }
          rewrite E. split; [lia|]. apply PW; lia.
        + intros j Hj Hne. cbn [a_jperm a_d] in *. rewrite n1_repeat by auto. split. { eexists. apply (ea_0 _ _ EA). }
          assert (Z : rv (r0 K) = 0%R) by (unfold EqDual2.rv; rewrite (ea_0 _ _ EA); auto). rewrite Z. intros k Hk.
          pose proof (NN k ltac:(eapply (incol_k K n ip irn a PW La); eauto)). split; [rewrite TIGHT by auto|]; auto.
      - intros j s Hj (HA & HD). apply wlp_and.
        + apply w2. apply (scan_col_l K n ip irn a PW La); auto. lia.
        + apply (scan_col_d K ev EA n ip irn a PW La FBH u Lu UF); auto. lia. }
    intros s (HA & HD). pose proof HA as (MA & NA & LpA & LdA & _).
    assert (D2 : dual u (a_jperm K s)). { intros j Hj Hne k Hk. apply HD; auto. }
    destruct (Nat.eqb_spec (a_num K s) n) as [En2|En2].
    { lb. eapply wlp_conseq. { eapply (cleanup_d (a_num K s)); eauto. } intros [[p u1] d1] X. apply wlp_ok. auto. }
    lb. apply wlp_conseq with (P := fun m => MS K n ip irn m /\ MF K n ip irn a fin m /\ dual (m_u K m) (m_jperm K m)).
    { eapply wlp_conseq with (P := fun m => MS K n ip irn m /\ MF K n ip irn a fin m /\ dual (m_u K m) (m_jperm K m)); [|auto].
      apply (wlp_for_range _ (fun _ m => MS K n ip irn m /\ MF K n ip irn a fin m /\ dual (m_u K m) (m_jperm K m))); [lia| |].
      - split; [|split].
        + split; [auto|]. split; [auto|]. split; [auto|]. split; [auto|]. cbn [m_l m_out m_pr m_d].
          split; [apply repeat_length|]. split; [intros; now apply n1_repeat|]. split; [auto|]. split; [now rewrite map_length|apply repeat_length].
        + intros _. cbn [m_u m_d]. split; [auto|]. intros. now apply n1_repeat.
        + exact D2.
      - intros j m Hj (HM & HMF & HMD).
        assert (W : wlp (main_step K n ip irn a j m) (fun m' => (MS K n ip irn m' /\ MF K n ip irn a fin m') /\ dual (m_u K m') (m_jperm K m'))).
        { apply wlp_and.
          - apply w2. eapply wp_conseq; [apply (main_step_l K n ip irn a PW La REQ HF fin); auto; lia|]. intros m' (X1 & X2 & _). auto.
          - apply (main_step_d K ev EA n ip irn a PW La REQ HF FBH); auto. lia. }
        eapply wlp_conseq; [exact W|]. intros m' ((X1 & X2) & X3). auto. }
    intros m ((MM & NM & LuM & _) & HMF & HMD).
    lb. eapply wlp_conseq. { eapply (cleanup_d (m_num K m)); eauto. apply HMF. exact FBH. } intros [[p u1] d1] X. apply wlp_ok. auto.
  Qed.
End Kernel.
