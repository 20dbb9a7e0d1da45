(** * EqProofs4: the main loop, the completion of the matching and the whole kernel. *)
From Coq Require Import List Arith ZArith Bool Lia.
From Verif Require Import Base EqModel EqSpec EqProofs1 EqProofs2 EqProofs3.
Import ListNotations.

Section Main.
  Variable K : ROps.
  Notation R := (RR K).
  Variable n : nat.
  Variables ip irn : list nat.
  Variable a : list R.
  Hypothesis PW : pattern1 n ip irn.
  Hypothesis La : length irn <= length a.
  Hypothesis REQ : req K (rinf K) (rinf K) = true.
  Hypothesis HF : half_full n ip.
  Notation incol := (incol ip).
  (** Finite numbers: the laws and finiteness of the costs. *)
  Variable fin : R -> Prop.
  Definition FB : Prop :=
    (forall x y, fin x -> fin y -> fin (rsub K x y)) /\ (forall x y, fin x -> fin y -> fin (radd K x y)) /\
    (forall x, fin x -> rle K (rinf K) x = false) /\ (forall x, fin x -> req K x (rinf K) = false) /\
    (forall k, 1 <= k <= length irn -> fin (n1 (r0 K) a k)) /\
    ((forall x, fin x -> rlt K (rinf K) x = false) /\ N1 ip 1 = 1 /\ N1 ip (S n) = S (length irn)).
  Definition ufin (u : list R) : Prop := forall k, 1 <= k <= length irn -> fin (n1 (r0 K) u (N1 irn k)).
  Definition FX : Prop := (forall x, fin x -> rlt K (rinf K) x = false) /\ N1 ip 1 = 1 /\ N1 ip (S n) = S (length irn).
  Lemma FB_FL : forall u, FB -> ufin u -> FL K irn a u fin FX.
  Proof. intros u (F1 & F2 & F3 & F4 & F5 & F6) HU. repeat (split; [assumption|]). exact F6. Qed.
  Lemma FL_FB : forall u, FL K irn a u fin FX -> FB.
  Proof. intros u (F1 & F2 & F3 & F4 & F5 & _ & F6). repeat (split; [assumption|]). exact F6. Qed.

  Lemma clear_rows_l : forall b e q d l, b <= e -> 1 <= b -> e <= S n -> length q = n -> length d = n -> length l = n ->
    (forall kk, b <= kk < e -> 1 <= N1 q kk <= n) ->
    wp (clear_rows K b e q (d, l)) (fun '(d', l') => length d' = n /\ length l' = n /\
      (forall i, 1 <= i <= n -> N1 l i = 0 \/ (exists kk, b <= kk < e /\ N1 q kk = i) -> N1 l' i = 0) /\
      forall i, 1 <= i <= n -> n1 (r0 K) d i = rinf K \/ (exists kk, b <= kk < e /\ N1 q kk = i) -> n1 (r0 K) d' i = rinf K).
  Proof.
    intros b e q d l Hbe Hb He Lq Ld Ll Hq. unfold clear_rows.
    apply (for_range_inv _ (fun kc '(d', l') => length d' = n /\ length l' = n /\
      (forall i, 1 <= i <= n -> N1 l i = 0 \/ (exists kk, b <= kk < kc /\ N1 q kk = i) -> N1 l' i = 0) /\
      forall i, 1 <= i <= n -> n1 (r0 K) d i = rinf K \/ (exists kk, b <= kk < kc /\ N1 q kk = i) -> n1 (r0 K) d' i = rinf K)); [lia| |].
    - split; [auto|]. split; [auto|]. split; intros i Hi [H|(kk & H & _)]; try lia; auto.
    - intros kc [d' l'] Hkc (I1 & I2 & I3 & I4). specialize (Hq kc Hkc) as Hqk. g1s 0. s1s. s1s. apply wp_ok.
      split; [now rewrite upd_length|]. split; [now rewrite upd_length|]. split; intros i Hi Hc; rewrite n1_upd by lia;
      (destruct (Nat.eqb_spec i (N1 q kc)) as [|Hne]; [auto|]); [apply I3|apply I4]; auto; (destruct Hc as [|(kk & H1 & H2)]; [auto|];
      right; exists kk; split; [|auto]; assert (kk <> kc) by congruence; lia).
  Qed.

  Definition MS (s : mst K) : Prop :=
    MI n ip irn n (m_iperm K s) (m_jperm K s) /\ m_num K s = cnt n (m_iperm K s) /\ length (m_u K s) = n /\
    length (m_q K s) = n /\ length (m_l K s) = n /\ (forall i, 1 <= i <= n -> N1 (m_l K s) i = 0) /\
    length (m_out K s) = n /\ length (m_pr K s) = n /\ length (m_d K s) = n.

  Definition MF (s : mst K) : Prop := FB -> ufin (m_u K s) /\ forall i, 1 <= i <= n -> n1 (r0 K) (m_d K s) i = rinf K.

  Lemma main_step_l : forall jord s, 1 <= jord <= n -> MS s -> MF s -> wp (main_step K n ip irn a jord s) (fun s' => MS s' /\ MF s' /\
    (FB -> deficient n ip irn \/ N1 (m_jperm K s') jord <> 0) /\
    forall j, 1 <= j <= n -> N1 (m_jperm K s) j <> 0 -> N1 (m_jperm K s') j <> 0).
  Proof.
    intros jord s Hj HM HMF. pose proof HM as (MM & Hnum & Lu & Lq & Ll & Zl & Lo & Lp & Ld). pose proof MM as (Li & Lj & _).
    unfold main_step. g1s 0. destruct (Nat.eqb_spec (N1 (m_jperm K s) jord) 0) as [E|E]; cbn [negb]. 2:{ apply wp_ok. auto 10. }
    s1s. cbv zeta. set (pr := upd (m_pr K s) (jord - 1) None).
    assert (Lp' : length pr = n) by (unfold pr; now rewrite upd_length).
    assert (PJ : n1 None pr jord = None) by (unfold pr; apply n1_eq; lia).
    set (t0 := mkSst K (m_q K s) (m_l K s) (m_out K s) pr (m_d K s) (rinf K) (rinf K) (m_isp K s) (m_jsp K s) 0 (S n) (S n)).
    pose proof (HF jord Hj) as HFj.
    wpb. eapply wp_conseq.
    { apply (scan_first_l K n ip irn a PW La REQ (m_iperm K s) (m_jperm K s) (m_u K s) MM Lu fin FX jord Hj E t0); auto.
      intros FLH i Hi. apply HMF; auto. exact (FL_FB _ FLH). }
    intros t1 T1. wpb. eapply wp_conseq.
    { apply (build_heap_l K n ip irn a PW La (m_iperm K s) (m_jperm K s) (m_u K s) MM Lu fin FX jord Hj E t0 t1 T1); auto. }
    intros t2 (S2 & U2 & FI2). wpb. eapply wp_conseq.
    { apply (search_l K n ip irn a PW La REQ (m_iperm K s) (m_jperm K s) (m_u K s) MM Lu fin FX jord Hj E (m_num K s) t2 S2 FI2 U2 Hnum). }
    intros t (ST & NUM & FIT & DT). pose proof ST as (HH & Q1 & Q2 & Q3 & Ldt & T & SP). pose proof HH as (Lqt & Llt & A & B).
    assert (LOW : 1 <= t_low K t) by lia.
    assert (QHI : forall kk, t_low K t <= kk < S n -> 1 <= N1 (t_q K t) kk <= n).
    { intros kk Hkk. destruct (A kk) as (X & _); [unfold reg; lia|lia|auto]. }
    assert (QLO : forall kk, 1 <= kk < S (t_qlen K t) -> 1 <= N1 (t_q K t) kk <= n).
    { intros kk Hkk. destruct (A kk) as (X & _); [unfold reg; lia|lia|auto]. }
    wpb. apply wp_conseq with (P := fun '(iperm', jperm', num', u') => MI n ip irn n iperm' jperm' /\ num' = cnt n iperm' /\ length u' = n /\
      (FB -> ufin u') /\ (FB -> deficient n ip irn \/ N1 jperm' jord <> 0) /\ forall j, 1 <= j <= n -> N1 (m_jperm K s) j <> 0 -> N1 jperm' j <> 0).
    { destruct (req K (t_csp K t) (rinf K)) eqn:ER; cbn [negb].
      { apply wp_ok. split; [auto|]. split; [auto|]. split; [auto|]. split; [apply HMF|]. split; [|auto]. intros FBH. left.
        apply (search_fails K n ip irn a PW La (m_iperm K s) (m_jperm K s) (m_u K s) MM Lu fin FX jord Hj E t ST FIT DT); auto.
        apply FB_FL; auto. apply HMF; auto. }
      wpb. eapply wp_conseq.
      { apply (augment_l K n ip irn a PW La (m_iperm K s) (m_jperm K s) (m_u K s) MM Lu jord Hj E (S (m_num K s)) t ST); [lia|auto]. }
      intros [iperm' jperm'] (M1 & M2 & M3 & M4). wpb. apply wp_conseq with (P := fun u' => length u' = n /\ (FB -> ufin u')).
      { apply (for_range_inv _ (fun _ u' => length u' = n /\ (FB -> ufin u'))); [lia|split; [auto|apply HMF]|]. intros kk u' Hkk (Lu' & Fu').
        pose proof (QHI kk ltac:(lia)). g1s 0. g1s (r0 K). g1s (r0 K). apply wp_s1; [lia|]. split; [now rewrite upd_length|].
        intros FBH. pose proof (Fu' FBH) as FU. pose proof FBH as (F1 & F2 & _). intros k Hk.
        destruct (FIT (FB_FL _ FBH (proj1 (HMF FBH)))) as (FD & FC & _).
        pose proof (pw_rows _ _ _ PW k Hk). rewrite n1_upd by lia. destruct (Nat.eqb_spec (N1 irn k) (N1 (t_q K t) kk)) as [Ek|]; [|apply FU; auto].
        apply F1; [apply F2|].
        - rewrite <- Ek. apply FU; auto.
        - apply FD; auto. destruct (A kk) as (_ & _ & _ & X); [unfold reg; lia|lia|]. rewrite X. lia.
        - destruct FC as [FC|FC]; [|auto]. rewrite FC, REQ in ER. discriminate. }
      intros u' (Lu' & Fu'). apply wp_ok. split; [auto|]. split; [lia|]. split; [auto|]. split; [auto|]. split; auto. }
    intros [[[iperm' jperm'] num'] u'] (M1 & M2 & M3 & M4 & M5 & M6).
    wpb. eapply wp_conseq. { apply clear_rows_l; auto; lia. }
    intros [d1 l1] (D1 & L1 & C1 & C1'). wpb. eapply wp_conseq. { apply (clear_rows_l 1 (S (t_qlen K t)) (t_q K t) d1 l1); auto; lia. }
    intros [d2 l2] (D2 & L2 & C2 & C2'). apply wp_ok. destruct T as (To & Tp & _). cbn [m_jperm].
    split; [|split; [|split; [auto|auto]]].
    - split; [auto|]. split; [auto|]. split; [auto|]. split; [auto|]. split; [auto|]. cbn. split; [|auto].
      intros i Hi. apply C2; [auto|]. destruct (B i Hi ltac:(lia) ltac:(lia)) as [Z|(Z1 & _ & Z2)].
      + left. apply C1; auto.
      + destruct Z1 as (Z3 & [Z4|Z4]).
        * right. exists (N1 (t_l K t) i). split; [lia|auto].
        * left. apply C1; auto. right. exists (N1 (t_l K t) i). split; [lia|auto].
    - intros FBH. cbn [m_u m_d]. split; [auto|]. intros i Hi. apply C2'; [auto|].
      destruct (FIT (FB_FL _ FBH (proj1 (HMF FBH)))) as (FD & _). destruct (B i Hi ltac:(lia) ltac:(lia)) as [Z|(Z1 & _ & Z2)].
      + left. apply C1'; auto. left. apply FD; auto.
      + destruct Z1 as (Z3 & [Z4|Z4]).
        * right. exists (N1 (t_l K t) i). split; [lia|auto].
        * left. apply C1'; auto. right. exists (N1 (t_l K t) i). split; [lia|auto].
  Qed.

  (** The first dual values are costs. *)
  Lemma init_u_fin : FB -> wp (init_u K n ip irn a) (fun '(u, _, _) => ufin u).
  Proof.
    intros FBH. pose proof FBH as (_ & _ & _ & _ & F6 & F5 & B1 & BE). unfold init_u.
    set (I := fun e (s : list R * list nat * list nat) => let '(u, iperm, l) := s in length u = n /\ length iperm = n /\ length l = n /\
      (forall k, 1 <= k < e -> fin (n1 (r0 K) u (N1 irn k))) /\ forall i, 1 <= i <= n -> n1 (r0 K) u i = rinf K \/ fin (n1 (r0 K) u i)).
    apply wp_conseq with (P := I (N1 ip (S n))).
    2:{ intros [[u iperm] l] (_ & _ & _ & H & _). intros k Hk. apply H. lia. }
    apply (for_range_inv _ (fun j => I (N1 ip j))); [lia| |].
    - unfold I. rewrite !repeat_length. split; [auto|]. split; [auto|]. split; [auto|]. split; [intros; lia|]. intros i Hi. left. now apply n1_repeat.
    - intros j s Hj HI0. apply (over_col_l K n ip irn a PW La _ j _ s I); [lia|auto|].
      intros k [[u iperm] l] Hk (Lu & Li & Ll & C & D).
      pose proof (incol_row K n ip irn a PW La j k ltac:(lia) Hk). pose proof (incol_k K n ip irn a PW La j k ltac:(lia) Hk).
      g1s 0. g1s (r0 K). g1s (r0 K). destruct (rlt K _ _) eqn:ER.
      { apply wp_ok. split; [auto|]. split; [auto|]. split; [auto|]. split; [|auto]. intros k' Hk'. destruct (Nat.eq_dec k' k) as [->|]; [|apply C; lia].
        destruct (D (N1 irn k) H) as [D1|D1]; [|auto]. rewrite D1, F5 in ER by auto. discriminate. }
      s1s. s1s. s1s. apply wp_ok. unfold I. rewrite !upd_length. split; [auto|]. split; [auto|]. split; [auto|]. split.
      + intros k' Hk'. pose proof (pw_rows _ _ _ PW k' ltac:(lia)). rewrite n1_upd by lia. destruct (Nat.eqb_spec (N1 irn k') (N1 irn k)); [auto|].
        apply C. assert (k' <> k) by congruence. lia.
      + intros i Hi. rewrite n1_upd by lia. destruct (_ =? _); auto.
  Qed.

  (** All columns matched: the matching is complete. *)
  Lemma all_matched : forall iperm jperm, MI n ip irn n iperm jperm -> (forall j, 1 <= j <= n -> N1 jperm j <> 0) -> cnt n iperm = n.
  Proof.
    intros iperm jperm (Li & Lj & M1 & M2) H.
    assert (CN : forall m, cnt m iperm = length (filter (fun i => negb (N1 iperm i =? 0)) (seq 1 m))).
    { induction m; [reflexivity|]. rewrite seq_S, filter_app, app_length. cbn [cnt filter]. rewrite IHm. cbn [plus].
      destruct (N1 iperm (S m) =? 0); cbn; lia. }
    pose proof (cnt_le K irn a La n iperm). enough (n <= cnt n iperm) by lia. rewrite CN.
    replace n with (length (map (fun j => N1 irn (N1 jperm j)) (seq 1 n))) at 1 by now rewrite map_length, seq_length.
    apply NoDup_incl_length.
    - assert (G : forall l, (forall j, In j l -> 1 <= j <= n) -> NoDup l -> NoDup (map (fun j => N1 irn (N1 jperm j)) l)).
      { induction l as [|x l]; intros H1 H2; cbn; constructor; inversion H2 as [|? ? NI ND]; subst.
        - intros Hin. apply in_map_iff in Hin. destruct Hin as (y & E & Hy). apply NI.
          assert (Rx := H1 x (or_introl eq_refl)). assert (Ry := H1 y (or_intror Hy)).
          destruct (M2 x Rx (H x Rx)) as (_ & _ & X). destruct (M2 y Ry (H y Ry)) as (_ & _ & Y). rewrite E in Y. congruence.
        - apply IHl; auto. intros; apply H1; now right. }
      apply G; [|apply seq_NoDup]. intros j Hj. apply in_seq in Hj. lia.
    - intros r Hr. apply in_map_iff in Hr. destruct Hr as (j & <- & Hj). apply in_seq in Hj. assert (Rj : 1 <= j <= n) by lia.
      destruct (M2 j Rj (H j Rj)) as (X1 & X2 & X3). pose proof (incol_row K n ip irn a PW La j _ Rj X1). apply filter_In.
      split; [apply in_seq; lia|]. rewrite X3. destruct (Nat.eqb_spec j 0); [lia|auto].
  Qed.

  (** ** Completion *)
  Lemma n1_map : forall (l : list nat) i, n1 0%Z (map Z.of_nat l) i = Z.of_nat (N1 l i).
  Proof. intros. unfold n1. apply (map_nth Z.of_nat l 0). Qed.

  Lemma cnt_upd : forall m l i v, 1 <= i <= length l -> m <= length l ->
    cnt m (upd l (i - 1) v) + (if (i <=? m) && negb (N1 l i =? 0) then 1 else 0) =
    cnt m l + (if (i <=? m) && negb (v =? 0) then 1 else 0).
  Proof.
    induction m; intros l i v Hi Hm. { destruct (Nat.leb_spec i 0); [lia|]. cbn. lia. }
    cbn [cnt]. specialize (IHm l i v Hi ltac:(lia)). rewrite n1_upd by lia.
    destruct (Nat.eqb_spec (S m) i).
    - subst i. destruct (Nat.leb_spec (S m) m); [lia|]. destruct (Nat.leb_spec (S m) (S m)); [|lia]. cbn [andb] in *.
      destruct (N1 l (S m) =? 0), (v =? 0); cbn [negb] in *; lia.
    - destruct (Nat.leb_spec i m), (Nat.leb_spec i (S m)); try lia; cbn [andb] in *; lia.
  Qed.
  Lemma cnt_zero : forall m l, (forall i, 1 <= i <= m -> N1 l i = 0) -> cnt m l = 0.
  Proof. induction m; intros l H; cbn [cnt]; auto. rewrite IHm, (H (S m)); auto; [lia|]. intros; apply H; lia. Qed.
  Lemma cnt_part : forall m l, cnt m l < m -> exists i, 1 <= i <= m /\ N1 l i = 0.
  Proof.
    induction m; intros l H; [lia|]. cbn [cnt] in H. destruct (Nat.eqb_spec (N1 l (S m)) 0).
    - exists (S m). split; [lia|auto].
    - destruct (IHm l ltac:(lia)) as (i & H1 & H2). exists i. split; [lia|auto].
  Qed.
  Lemma cnt_mono : forall l m m', m <= m' -> m - cnt m l <= m' - cnt m' l.
  Proof.
    intros l m m' H. induction H; [lia|]. cbn [cnt]. pose proof (cnt_le K irn a La m0 l). destruct (_ =? 0); lia.
  Qed.

  Lemma cleanup_l : forall num iperm jperm out u d, MI n ip irn n iperm jperm -> num = cnt n iperm ->
    length out = n -> length u = n -> length d = n ->
    wp (cleanup K n irn a num iperm jperm out u d) (fun '(p, u', d') => length u' = n /\ length d' = n /\ perm_abs n p /\
      (forall i, 1 <= i <= n -> (0 < n1 0 p i)%Z -> stored1 ip irn i (Z.to_nat (n1 0%Z p i))) /\
      (num = n -> forall i, 1 <= i <= n -> (0 < n1 0 p i)%Z) /\
      (num <> n -> exists i, 1 <= i <= n /\ (n1 0 p i < 0)%Z)).
  Proof.
    intros num iperm jperm out u d MM Hnum Lo Lu Ld. pose proof MM as (Li & Lj & M1 & M2). unfold cleanup.
    assert (IINJ : forall i i', 1 <= i <= n -> 1 <= i' <= n -> N1 iperm i <> 0 -> N1 iperm i = N1 iperm i' -> i = i').
    { intros i i' H1 H2 H3 E. destruct (M1 i H1 H3) as (_ & _ & X). destruct (M1 i' H2) as (_ & _ & Y); congruence. }
    assert (STO : forall i, 1 <= i <= n -> N1 iperm i <> 0 -> stored1 ip irn i (N1 iperm i)).
    { intros i Hi Hne. destruct (M1 i Hi Hne) as (X1 & X2 & X3). destruct (M2 _ X1 X2) as (Y1 & _ & _).
      exists (N1 jperm (N1 iperm i)). split; [exact Y1|auto]. }
    wpb. apply wp_conseq with (P := fun '(u, d) => length u = n /\ length d = n).
    { apply (for_range_inv _ (fun _ '(u, d) => length u = n /\ length d = n)); [lia|auto|].
      intros j [u1 d1] Hj (L1 & L2). g1s 0. wpb. apply wp_conseq with (P := fun _ => True).
      { destruct (Nat.eqb_spec (N1 jperm j) 0) as [E|E]; cbn [negb]; [apply wp_ok; auto|].
        destruct (M2 j ltac:(lia) E) as (X1 & _). apply (reduced_l K n irn a La); auto.
        - eapply (incol_k K n ip irn a PW La); eauto. lia.
        - eapply (incol_row K n ip irn a PW La); eauto. lia. }
      intros dj _. s1s. g1s 0. wpb. apply wp_conseq with (P := fun u => length u = n).
      { destruct (_ =? 0); [apply wp_s1; [lia|now rewrite upd_length]|apply wp_ok; auto]. }
      intros u2 L3. apply wp_ok. split; [auto|now rewrite upd_length]. }
    intros [u1 d1] (L1 & L2). destruct (Nat.eqb_spec num n) as [En|En].
    - apply wp_ok. split; [auto|]. split; [auto|]. assert (FULL : forall i, 1 <= i <= n -> N1 iperm i <> 0) by (apply (cnt_full K irn a La); lia).
      split; [|split; [|split; [|lia]]].
      + split; [now rewrite map_length|]. split.
        * intros i Hi. rewrite n1_map. rewrite Zabs2Nat.id. apply M1; auto.
        * intros i i' Hi Hi'. rewrite !n1_map, !Zabs2Nat.id. intros Ei. apply IINJ; auto.
      + intros i Hi. rewrite n1_map, Nat2Z.id. intros H. apply STO; auto.
      + intros _ i Hi. rewrite n1_map. specialize (FULL i Hi). lia.
    - wpb. apply wp_conseq with (P := fun jp => length jp = n /\ forall j, 1 <= j < S n -> N1 jp j = 0).
      { apply (for_range_inv _ (fun jc jp => length jp = n /\ forall j, 1 <= j < jc -> N1 jp j = 0)); [lia|split; [auto|intros; lia]|].
        intros jc jp Hjc (L3 & Z3). apply wp_s1; [lia|]. split; [now rewrite upd_length|]. intros j Hj. rewrite n1_upd by lia.
        destruct (Nat.eqb_spec j jc); [auto|apply Z3; lia]. }
      intros jp0 (Ljp0 & Zjp0). wpb.
      set (I2 := fun ic '(jp, o, k) => length jp = n /\ length o = n /\ k + cnt (ic - 1) iperm = ic - 1 /\ cnt n jp = cnt (ic - 1) iperm /\
        (forall i, 1 <= i < ic -> N1 iperm i <> 0 -> N1 jp (N1 iperm i) = i) /\
        (forall j, 1 <= j <= n -> N1 jp j <> 0 -> 1 <= N1 jp j < ic /\ N1 iperm (N1 jp j) = j) /\
        (forall t, 1 <= t <= k -> 1 <= N1 o t < ic /\ N1 iperm (N1 o t) = 0) /\
        (forall t t', 1 <= t -> t < t' -> t' <= k -> N1 o t < N1 o t') /\
        (forall i, 1 <= i < ic -> N1 iperm i = 0 -> exists t, 1 <= t <= k /\ N1 o t = i)).
      apply wp_conseq with (P := I2 (S n)).
      { apply (for_range_inv _ I2); [lia| |].
        - cbn. split; [auto|]. split; [auto|]. split; [lia|]. split. { apply cnt_zero. intros; apply Zjp0; lia. }
          split; [intros; lia|]. split. { intros j Hj H. exfalso. apply H, Zjp0. lia. }
          split; [intros; lia|]. split; [intros; lia|]. intros; lia.
        - intros ic [[jp o] k] Hic (J1 & J2 & J3 & J4 & J5 & J6 & J7 & J8 & J9).
          assert (Cn : cnt ic iperm = cnt (ic - 1) iperm + (if N1 iperm ic =? 0 then 0 else 1)).
          { replace ic with (S (ic - 1)) at 1 3 by lia. reflexivity. }
          pose proof (cnt_le K irn a La (ic - 1) iperm).
          g1s 0. destruct (Nat.eqb_spec (N1 iperm ic) 0) as [E|E].
          + s1s. apply wp_ok. unfold I2. replace (S ic - 1) with ic by lia. rewrite Cn.
            split; [auto|]. split; [now rewrite upd_length|]. split; [lia|]. split; [lia|].
            split. { intros i Hi Hne. apply J5; auto. assert (i <> ic) by congruence. lia. }
            split. { intros j Hj Hne. destruct (J6 j Hj Hne). split; [lia|auto]. }
            split. { intros t Ht. rewrite n1_upd by lia. destruct (Nat.eqb_spec t (S k)); [split; [lia|auto]|]. destruct (J7 t ltac:(lia)). split; [lia|auto]. }
            split. { intros t t' H1 H2 H3. rewrite !n1_upd by lia. destruct (Nat.eqb_spec t (S k)); [lia|]. destruct (Nat.eqb_spec t' (S k)).
              - destruct (J7 t ltac:(lia)). lia.
              - apply J8; lia. }
            intros i Hi Hz. destruct (Nat.eq_dec i ic) as [->|]. { exists (S k). split; [lia|]. apply n1_eq. lia. }
            destruct (J9 i ltac:(lia) Hz) as (t & Ht & Et). exists t. split; [lia|]. rewrite n1_neq by lia. auto.
          + destruct (M1 ic ltac:(lia) E) as (X1 & _ & _). s1s. apply wp_ok. unfold I2. replace (S ic - 1) with ic by lia. rewrite Cn.
            assert (Z0 : N1 jp (N1 iperm ic) = 0).
            { destruct (Nat.eq_dec (N1 jp (N1 iperm ic)) 0); [auto|]. destruct (J6 _ X1 n0) as (Y1 & Y2).
              assert (N1 jp (N1 iperm ic) = ic); [|lia]. apply IINJ; try lia. }
            split; [now rewrite upd_length|]. split; [auto|]. split; [lia|]. split.
            { pose proof (cnt_upd n jp (N1 iperm ic) ic ltac:(lia) ltac:(lia)) as C. rewrite Z0 in C. cbn [Nat.eqb negb] in C.
              destruct (Nat.leb_spec (N1 iperm ic) n); [|lia]. destruct (Nat.eqb_spec ic 0); [lia|]. cbn [andb negb] in C. lia. }
            split. { intros i Hi Hne. rewrite n1_upd by (try lia; destruct (M1 i ltac:(lia) Hne); lia).
              destruct (Nat.eqb_spec (N1 iperm i) (N1 iperm ic)). { apply IINJ; auto; lia. }
              apply J5; auto. assert (i <> ic) by congruence. lia. }
            split. { intros j Hj. rewrite n1_upd by lia. destruct (Nat.eqb_spec j (N1 iperm ic)). { intros _. split; [lia|auto]. }
              intros Hne. destruct (J6 j Hj Hne). split; [lia|auto]. }
            split. { intros t Ht. destruct (J7 t Ht). split; [lia|auto]. }
            split; [auto|]. intros i Hi Hz. apply J9; auto. assert (i <> ic) by congruence. lia. }
      intros [[jp o] k] (J1 & J2 & J3 & J4 & J5 & J6 & J7 & J8 & J9). rewrite Nat.sub_succ, Nat.sub_0_r in J3, J4.
      set (I3 := fun jc '(p, k') => length p = n /\ k' + cnt (jc - 1) jp = jc - 1 /\
        (forall i, 1 <= i <= n -> N1 iperm i <> 0 -> n1 0%Z p i = Z.of_nat (N1 iperm i)) /\
        (forall t, 1 <= t <= k' -> exists c, 1 <= c < jc /\ N1 jp c = 0 /\ n1 0%Z p (N1 o t) = (- Z.of_nat c)%Z) /\
        (forall t t', 1 <= t -> t < t' -> t' <= k' -> (n1 0 p (N1 o t') < n1 0 p (N1 o t))%Z)).
      assert (KK : forall jc, jc <= n -> jc - cnt jc jp <= k). { intros jc Hjc. pose proof (cnt_mono jp jc n Hjc). lia. }
      wpb. apply wp_conseq with (P := I3 (S n)).
      { apply (for_range_inv _ I3); [lia| |].
        - split; [now rewrite map_length|]. split; [cbn; lia|]. split; [intros; apply n1_map|]. split; intros; lia.
        - intros jc [p k'] Hjc (P1 & P2 & P3 & P4 & P5).
          assert (Cn : cnt jc jp = cnt (jc - 1) jp + (if N1 jp jc =? 0 then 0 else 1)).
          { replace jc with (S (jc - 1)) at 1 3 by lia. reflexivity. }
          pose proof (cnt_le K irn a La (jc - 1) jp). pose proof (cnt_le K irn a La jc jp). specialize (KK jc ltac:(lia)) as KKj.
          g1s 0. destruct (Nat.eqb_spec (N1 jp jc) 0) as [E|E]; cbn [negb].
          + destruct (J7 (S k') ltac:(lia)) as (O1 & O2). g1s 0. s1s. apply wp_ok. unfold I3. replace (S jc - 1) with jc by lia. rewrite Cn.
            assert (ODIFF : forall t, 1 <= t <= k' -> N1 o t <> N1 o (S k')). { intros t Ht. pose proof (J8 t (S k') ltac:(lia) ltac:(lia) ltac:(lia)). lia. }
            assert (OR : forall t, 1 <= t <= k' -> 1 <= N1 o t <= n). { intros t Ht. destruct (J7 t ltac:(lia)). lia. }
            split; [now rewrite upd_length|]. split; [lia|].
            split. { intros i Hi Hne. rewrite n1_neq; auto; try lia. congruence. }
            split. { intros t Ht. destruct (Nat.eq_dec t (S k')) as [->|].
              - exists jc. split; [lia|]. split; [auto|]. apply n1_eq. lia.
              - destruct (P4 t ltac:(lia)) as (c & C1 & C2 & C3). exists c. split; [lia|]. split; [auto|].
                rewrite n1_neq; auto; try lia. apply OR; lia. apply ODIFF; lia. }
            intros t t' H1 H2 H3. rewrite (n1_neq _ _ p _ (N1 o t)); try lia. 2:{ apply OR; lia. } 2:{ apply ODIFF; lia. }
            destruct (Nat.eq_dec t' (S k')) as [->|].
            * rewrite n1_eq by lia. destruct (P4 t ltac:(lia)) as (c & C1 & C2 & C3). lia.
            * rewrite n1_neq; try lia. { apply P5; lia. } { apply OR; lia. } apply ODIFF; lia.
          + apply wp_ok. unfold I3. replace (S jc - 1) with jc by lia. rewrite Cn.
            split; [auto|]. split; [lia|]. split; [auto|]. split; [|auto].
            intros t Ht. destruct (P4 t Ht) as (c & C1 & C2 & C3). exists c. split; [lia|auto]. }
      intros [p k'] (P1 & P2 & P3 & P4 & P5). rewrite Nat.sub_succ, Nat.sub_0_r in P2. assert (k' = k) by lia. subst k'.
      apply wp_ok. split; [auto|]. split; [auto|].
      assert (NEG : forall i, 1 <= i <= n -> N1 iperm i = 0 -> exists t c, 1 <= t <= k /\ N1 o t = i /\ 1 <= c <= n /\ N1 jp c = 0 /\ n1 0%Z p i = (- Z.of_nat c)%Z).
      { intros i Hi Hz. destruct (J9 i ltac:(lia) Hz) as (t & Ht & Et). destruct (P4 t Ht) as (c & C1 & C2 & C3).
        exists t, c. rewrite Et in C3. split; [auto|]. split; [auto|]. split; [lia|auto]. }
      split; [|split; [|split; [lia|]]].
      + split; [auto|]. split.
        * intros i Hi. destruct (Nat.eq_dec (N1 iperm i) 0) as [Hz|Hz].
          -- destruct (NEG i Hi Hz) as (t & c & _ & _ & C1 & _ & ->). lia.
          -- rewrite P3 by auto. rewrite Zabs2Nat.id. apply M1; auto.
        * intros i i' Hi Hi'. destruct (Nat.eq_dec (N1 iperm i) 0) as [Hz|Hz], (Nat.eq_dec (N1 iperm i') 0) as [Hz'|Hz'].
          -- destruct (NEG i Hi Hz) as (t & c & T1 & <- & C1 & C2 & C3), (NEG i' Hi' Hz') as (t' & c' & T1' & <- & C1' & C2' & C3'). intros EA.
             destruct (Nat.lt_trichotomy t t') as [H|[->|H]]; [|auto|].
             ++ pose proof (P5 t t' ltac:(lia) H ltac:(lia)). lia.
             ++ pose proof (P5 t' t ltac:(lia) H ltac:(lia)). lia.
          -- destruct (NEG i Hi Hz) as (t & c & T1 & <- & C1 & C2 & C3). rewrite C3, P3 by auto. intros EA.
             assert (c = N1 iperm i') by lia. subst c. rewrite J5 in C2 by (auto; lia). lia.
          -- destruct (NEG i' Hi' Hz') as (t & c & T1 & <- & C1 & C2 & C3). rewrite C3, P3 by auto. intros EA.
             assert (c = N1 iperm i) by lia. subst c. rewrite J5 in C2 by (auto; lia). lia.
          -- rewrite !P3 by auto. rewrite !Zabs2Nat.id. apply IINJ; auto.
      + intros i Hi. destruct (Nat.eq_dec (N1 iperm i) 0) as [Hz|Hz].
        * destruct (NEG i Hi Hz) as (t & c & _ & _ & C1 & _ & ->). lia.
        * rewrite P3 by auto. rewrite Nat2Z.id. intros _. apply STO; auto.
      + intros _. destruct (cnt_part n iperm) as (i & Hi & Hz). { pose proof (cnt_le K irn a La n iperm). lia. }
        exists i. split; [auto|]. destruct (NEG i Hi Hz) as (t & c & _ & _ & C1 & _ & ->). lia.
  Qed.

  (** ** The kernel *)
  Lemma kernel_l : forall jo jq, length jo = n -> length jq = n ->
    wp (kernel K n ip irn a jo jq) (fun '(p, num, u', d') => length u' = n /\ length d' = n /\ perm_abs n p /\
      (forall i, 1 <= i <= n -> (0 < n1 0 p i)%Z -> stored1 ip irn i (Z.to_nat (n1 0%Z p i))) /\ num <= n /\
      (num = n -> forall i, 1 <= i <= n -> (0 < n1 0 p i)%Z) /\
      (num <> n -> exists i, 1 <= i <= n /\ (n1 0 p i < 0)%Z) /\ (FB -> num <> n -> deficient n ip irn)).
  Proof.
    intros jo jq Ljo Ljq. unfold kernel. cbv zeta.
    wpb. apply wp_conseq with (P := fun '(u, iperm, l) => (length u = n /\ length iperm = n /\ length l = n /\
      forall i, 1 <= i <= n -> cand n ip irn iperm l i) /\ (FB -> ufin u)).
    { pose proof (init_u_l K n ip irn a PW La) as W. apply wp_inv in W. destruct W as ([[u iperm] l] & W1 & W2). rewrite W1. apply wp_ok.
      split; [auto|]. intros FBH. pose proof (init_u_fin FBH) as W. rewrite W1 in W. exact W. }
    intros [[u iperm] l] ((Lu & Li & Ll & C) & UF).
    wpb. eapply wp_conseq; [apply (cheap_l K n ip irn a PW La); eauto|]. intros [[iperm1 jperm1] num] (M1 & N1').
    destruct (Nat.eqb_spec num n) as [En|En].
    { wpb. eapply wp_conseq. { apply cleanup_l; eauto. apply repeat_length. }
      intros [[p u1] d1] (X1 & X2 & X3 & X4 & X5 & X6). apply wp_ok. repeat (split; [auto; try lia|]). intros; lia. }
    wpb. apply wp_conseq with (P := AI K n ip irn).
    { apply (for_range_inv _ (fun _ => AI K n ip irn)); [lia| |].
      - pose proof (pw_ip _ _ _ PW) as Lip.
        split; [auto|]. split; [auto|]. cbn [a_pr a_d]. split; [rewrite firstn_length; lia|]. split; [apply repeat_length|].
        intros j Hj. assert (E : N1 (firstn n ip) j = N1 ip j). { unfold n1. rewrite nth_firstn_lt by lia. reflexivity. }
        rewrite E. split; [lia|]. apply PW; lia.
      - intros j s Hj HA. apply (scan_col_l K n ip irn a PW La); auto. lia. }
    intros s (MA & NA & LpA & LdA & _). destruct (Nat.eqb_spec (a_num K s) n) as [En2|En2].
    { wpb. eapply wp_conseq. { apply cleanup_l; eauto. }
      intros [[p u1] d1] (X1 & X2 & X3 & X4 & X5 & X6). apply wp_ok. repeat (split; [auto; try lia|]). intros; lia. }
    wpb. apply wp_conseq with (P := fun m => MS m /\ (FB -> deficient n ip irn \/ forall j, 1 <= j < S n -> N1 (m_jperm K m) j <> 0)).
    { apply wp_conseq with (P := fun m => MS m /\ MF m /\ (FB -> deficient n ip irn \/ forall j, 1 <= j < S n -> N1 (m_jperm K m) j <> 0)).
      2:{ intros m (H1 & _ & H2). auto. }
      apply (for_range_inv _ (fun jc m => MS m /\ MF m /\ (FB -> deficient n ip irn \/ forall j, 1 <= j < jc -> N1 (m_jperm K m) j <> 0))); [lia| |].
      - split; [|split].
        + split; [auto|]. split; [auto|]. split; [auto|]. split; [auto|]. cbn [m_l m_out m_pr m_d].
          split; [apply repeat_length|]. split; [intros; now apply n1_repeat|]. split; [auto|]. split; [now rewrite map_length|apply repeat_length].
        + intros FBH. cbn [m_u m_d]. split; [auto|]. intros. now apply n1_repeat.
        + intros _. right. intros; lia.
      - intros j m Hj (HM & HMF & HD). eapply wp_conseq; [apply main_step_l; auto; lia|]. intros m' (Q1 & Q2 & Q3 & Q4).
        split; [auto|]. split; [auto|]. intros FBH. destruct (HD FBH) as [HD'|HD']; [auto|]. destruct (Q3 FBH) as [Q3'|Q3']; [auto|].
        right. intros j' Hj'. destruct (Nat.eq_dec j' j) as [->|]; [auto|]. apply Q4; [lia|]. apply HD'. lia. }
    intros m ((MM & NM & LuM & LqM & LlM & _ & LoM & LpM & LdM) & HDM).
    wpb. eapply wp_conseq. { apply cleanup_l; eauto. }
    intros [[p u1] d1] (X1 & X2 & X3 & X4 & X5 & X6). apply wp_ok. pose proof (cnt_le K irn a La n (m_iperm K m)). repeat (split; [auto; try lia|]).
    intros FBH Hne. destruct (HDM FBH) as [HD'|HD']; [auto|]. exfalso. apply Hne. rewrite NM. eapply all_matched; eauto.
    intros; apply HD'; lia.
  Qed.
End Main.

(** A deficient set of columns excludes a full matching. *)
Lemma deficient_singular : forall n ip irn, deficient n ip irn -> ~ nonsingular_pattern n ip irn.
Proof.
  intros n ip irn (rows & f & c0 & ND & H0 & HR & INJ & COV) (s & S1 & S2).
  assert (G : forall (g : nat -> nat) (l : list nat), NoDup l -> (forall r r', In r l -> In r' l -> g r = g r' -> r = r') -> NoDup (map g l)).
  { intros g. induction l as [|x l]; intros N I; cbn [map]; constructor; inversion N as [|? ? NI N']; subst.
    - intros Hin. apply in_map_iff in Hin. destruct Hin as (y & E & Hy). apply NI. rewrite (I x y); auto; [now left|now right].
    - apply IHl; auto. intros; apply I; auto; now right. }
  assert (ONTO : forall c, 1 <= c <= n -> exists i, 1 <= i <= n /\ s i = c).
  { intros c Hc. assert (IN : In c (map s (seq 1 n))).
    { refine (NoDup_length_incl (l := map s (seq 1 n)) (l' := seq 1 n) _ _ _ c _).
      - apply G; [apply seq_NoDup|]. intros r r' Hr Hr'. apply in_seq in Hr, Hr'. apply S2; lia.
      - now rewrite map_length.
      - intros x Hx. apply in_map_iff in Hx. destruct Hx as (i & <- & Hi). apply in_seq in Hi. apply in_seq. destruct (S1 i); lia.
      - apply in_seq. lia. }
    apply in_map_iff in IN. destruct IN as (i & E & Hi). apply in_seq in Hi. exists i. split; [lia|auto]. }
  assert (NS : NoDup (c0 :: map f rows)).
  { constructor; [|apply G; auto]. intros H. apply in_map_iff in H. destruct H as (r & E & Hr). destruct (HR r Hr) as (_ & _ & H). auto. }
  assert (INC : incl (c0 :: map f rows) (map s rows)).
  { intros c Hc. assert (HC : c = c0 \/ exists r, In r rows /\ c = f r).
    { destruct Hc as [<-|Hc]; [now left|]. right. apply in_map_iff in Hc. destruct Hc as (r & E & Hr). exists r. auto. }
    assert (RC : 1 <= c <= n). { destruct HC as [->|(r & Hr & ->)]; [auto|]. apply HR; auto. }
    destruct (ONTO c RC) as (i & Hi & <-). apply in_map. apply (COV (s i)); auto. apply S1; auto. }
  pose proof (NoDup_incl_length NS INC) as L. cbn [length] in L. rewrite !map_length in L. lia.
Qed.

Section Whole.
  Variable K : ROps.
  Variable V : Type.
  Variable rabs : V -> RR K.
  Variable rlog : RR K -> RR K.
  Variable rbig : nat -> RR K.
  Variable rhuge : RR K.
  Hypothesis REQ : req K (rinf K) (rinf K) = true.

  Lemma costs_l : forall n ip irn vals mx c, pattern1 n ip irn -> length vals = length irn -> length mx = n -> length c = length irn ->
    wp (costs K V rabs rlog rbig n ip vals mx c) (fun '(mx', c') => length mx' = n /\ length c' = length irn).
  Proof.
    intros n ip irn vals mx c PW Lv Lm Lc. unfold costs.
    assert (IK : forall j k, 1 <= j <= n -> incol ip j k -> 1 <= k <= length irn) by (intros; eapply (incol_k K n ip irn c PW ltac:(lia)); eauto).
    apply (for_range_inv _ (fun _ '(mx', c') => length mx' = n /\ length c' = length irn)); [lia|auto|].
    intros j [mx' c'] Hj (L1 & L2). wpb. apply wp_conseq with (P := fun '(_, c) => length c = length irn).
    { apply (over_col_l K n ip irn c PW ltac:(lia) _ j _ _ (fun _ '(_, c) => length c = length irn)); [lia|auto|].
      intros k [fact c2] Hk L3. pose proof (IK j k ltac:(lia) Hk).
      destruct vals as [|v0 vs] eqn:EV. { cbn in Lv. lia. } rewrite <- EV in *.
      g1s v0. s1s. apply wp_ok. now rewrite upd_length. }
    intros [fact c2] L3. s1s. wpb. apply wp_conseq with (P := fun c => length c = length irn).
    { apply (over_col_l K n ip irn c PW ltac:(lia) _ j _ _ (fun _ c => length c = length irn)); [lia|auto|].
      intros k c3 Hk L4. pose proof (IK j k ltac:(lia) Hk). g1s (r0 K). apply wp_s1; [lia|]. now rewrite upd_length. }
    intros c3 L4. apply wp_ok. split; [now rewrite upd_length|auto].
  Qed.

  Variable fin : RR K -> Prop.
  Lemma costs_fin : forall n ip irn vals mx c, pattern1 n ip irn -> length vals = length irn -> length mx = n -> length c = length irn ->
    finite_laws K fin -> nonzero_values K V rabs rlog fin vals -> tight1 n ip irn ->
    wp (costs K V rabs rlog rbig n ip vals mx c) (fun '(_, c') => forall k, 1 <= k <= length irn -> fin (n1 (r0 K) c' k)).
  Proof.
    intros n ip irn vals mx c PW Lv Lm Lc FLW NZ (T1 & T2). unfold costs.
    assert (IK : forall j k, 1 <= j <= n -> incol ip j k -> 1 <= k <= length irn) by (intros; eapply (incol_k K n ip irn c PW ltac:(lia)); eauto).
    destruct vals as [|v0 vs] eqn:EV.
    { eapply wp_conseq; [eapply costs_l; eauto|]. intros [mx' c'] _ k Hk. cbn in Lv. lia. }
    rewrite <- EV in *. clear EV vs.
    assert (NZV : forall k, 1 <= k <= length irn -> rlt K (r0 K) (rabs (n1 v0 vals k)) = true /\ req K (rabs (n1 v0 vals k)) (r0 K) = false /\
      fin (rlog (rabs (n1 v0 vals k)))). { intros k Hk. apply NZ. unfold n1. apply nth_In. lia. }
    apply wp_conseq with (P := fun '(mx', c') => length mx' = n /\ length c' = length irn /\ forall k, 1 <= k < N1 ip (S n) -> fin (n1 (r0 K) c' k)).
    2:{ intros [mx' c'] (_ & _ & H) k Hk. apply H. lia. }
    apply (for_range_inv _ (fun j '(mx', c') => length mx' = n /\ length c' = length irn /\ forall k, 1 <= k < N1 ip j -> fin (n1 (r0 K) c' k))); [lia| |].
    { split; [auto|]. split; [auto|]. intros; lia. }
    intros j [mx' c'] Hj (L1 & L2 & D).
    set (I1 := fun e '(fact, c1) => length c1 = length irn /\ (forall k, 1 <= k < N1 ip j -> fin (n1 (r0 K) c1 k)) /\
      (forall k, N1 ip j <= k < e -> n1 (r0 K) c1 k = rabs (n1 v0 vals k)) /\
      (fact = r0 K /\ e = N1 ip j \/ req K fact (r0 K) = false /\ fin (rlog fact))).
    wpb. apply wp_conseq with (P := I1 (N1 ip (S j))).
    { apply (over_col_l K n ip irn c PW ltac:(lia) _ j _ _ I1); [lia| |].
      - split; [auto|]. split; [auto|]. split; [intros; lia|auto].
      - intros k [fact c2] Hk (L3 & D3 & E3 & F3). pose proof (IK j k ltac:(lia) Hk) as Rk. pose proof (NZV k Rk) as (Z1 & Z2 & Z3). destruct Hk as (Hk1 & Hk2).
        g1s v0. s1s. apply wp_ok. split; [now rewrite upd_length|]. split; [|split].
        + intros k' Hk'. rewrite n1_neq; auto; lia.
        + intros k' Hk'. assert (1 <= N1 ip j). { pose proof (ip_mono K n ip irn c PW ltac:(lia) 1 j ltac:(lia) ltac:(lia) ltac:(lia)). lia. }
          rewrite n1_upd by lia. destruct (Nat.eqb_spec k' k) as [->|]; [auto|]. apply E3. lia.
        + right. destruct F3 as [(-> & ->)|F3]; [rewrite Z1; auto|]. destruct (rlt K fact _); auto. }
    intros [fact c2] (L3 & D3 & E3 & F3). s1s.
    set (I2 := fun e c1 => length c1 = length irn /\ (forall k, 1 <= k < e -> fin (n1 (r0 K) c1 k)) /\
      (forall k, e <= k < N1 ip (S j) -> n1 (r0 K) c1 k = rabs (n1 v0 vals k))).
    wpb. apply wp_conseq with (P := I2 (N1 ip (S j))).
    { apply (over_col_l K n ip irn c PW ltac:(lia) _ j _ _ I2); [lia| |].
      - split; [auto|]. split; [auto|]. auto.
      - intros k c3 Hk (L4 & D4 & E4). pose proof (IK j k ltac:(lia) Hk) as Rk. pose proof (NZV k Rk) as (Z1 & Z2 & Z3). destruct Hk as (Hk1 & Hk2).
        g1s (r0 K). apply wp_s1; [lia|]. rewrite E4 by lia. rewrite Z2. cbn [negb].
        destruct F3 as [(_ & F3)|(F3 & F4)]; [lia|]. rewrite F3. cbn [negb].
        split; [now rewrite upd_length|]. split.
        + intros k' Hk'. rewrite n1_upd by lia. destruct (Nat.eqb_spec k' k) as [->|]; [|apply D4; lia]. apply (fl_sub _ _ FLW); auto.
        + intros k' Hk'. rewrite n1_neq by lia. apply E4. lia. }
    intros c3 (L4 & D4 & E4). apply wp_ok. split; [now rewrite upd_length|]. split; auto.
  Qed.

  Lemma compute_l : forall n nnz ip irn vals jo jq jmx jc, 1 <= n -> 1 <= nnz -> pattern1 n ip irn -> half_full n ip ->
    length vals = length irn -> length jo = n -> length jq = n -> length jmx = n -> length jc = length irn ->
    exists info p u d, compute K V rabs rlog rbig rhuge n nnz ip irn vals jo jq jmx jc = Ok (Good K info p u d) /\
      info <= 2 /\ length u = n /\ length d = n /\ perm_abs n p /\
      (forall i, 1 <= i <= n -> (0 < n1 0 p i)%Z -> stored1 ip irn i (Z.to_nat (n1 0%Z p i))) /\
      (info = 0 -> forall i, 1 <= i <= n -> (0 < n1 0 p i)%Z) /\
      (info = 1 -> exists i, 1 <= i <= n /\ (n1 0 p i < 0)%Z) /\
      (finite_laws K fin -> nonzero_values K V rabs rlog fin vals -> tight1 n ip irn -> info = 1 -> ~ nonsingular_pattern n ip irn).
  Proof.
    intros n nnz ip irn vals jo jq jmx jc Hn Hz PW HF Lv Lo Lq Lm Lc.
    assert (W : wp (compute K V rabs rlog rbig rhuge n nnz ip irn vals jo jq jmx jc) (fun r => match r with Bad _ => False | Good _ info p u d =>
      info <= 2 /\ length u = n /\ length d = n /\ perm_abs n p /\
      (forall i, 1 <= i <= n -> (0 < n1 0 p i)%Z -> stored1 ip irn i (Z.to_nat (n1 0%Z p i))) /\
      (info = 0 -> forall i, 1 <= i <= n -> (0 < n1 0 p i)%Z) /\
      (info = 1 -> exists i, 1 <= i <= n /\ (n1 0 p i < 0)%Z) /\
      (finite_laws K fin -> nonzero_values K V rabs rlog fin vals -> tight1 n ip irn -> info = 1 -> ~ nonsingular_pattern n ip irn) end)).
    { unfold compute. destruct (Nat.ltb_spec n 1); [lia|]. destruct (Nat.ltb_spec nnz 1); [lia|].
      wpb. apply wp_conseq with (P := fun '(mx', c') => (length mx' = n /\ length c' = length irn) /\
        (finite_laws K fin -> nonzero_values K V rabs rlog fin vals -> tight1 n ip irn -> forall k, 1 <= k <= length irn -> fin (n1 (r0 K) c' k))).
      { pose proof (costs_l n ip irn vals jmx jc PW Lv Lm Lc) as W. apply wp_inv in W. destruct W as ([mx c] & W1 & W2). rewrite W1. apply wp_ok.
        split; [exact W2|]. intros A1 A2 A3. pose proof (costs_fin n ip irn vals jmx jc PW Lv Lm Lc A1 A2 A3) as W. rewrite W1 in W. exact W. }
      intros [mx c] ((L1 & L2) & CF).
      wpb. eapply wp_conseq; [apply (kernel_l K n ip irn c PW ltac:(lia) REQ HF fin jo jq Lo Lq)|].
      intros [[[p num] u] d] (X1 & X2 & X3 & X4 & X5 & X6 & X7 & X8).
      wpb. apply wp_conseq with (P := fun d => length d = n).
      { destruct (num =? n); [|apply wp_ok; auto]. apply (for_range_inv _ (fun _ d => length d = n)); [lia|auto|].
        intros j d' Hj Ld'. g1s (r0 K). g1s (r0 K). apply wp_s1; [lia|]. now rewrite upd_length. }
      intros d' Ld'. wpb. apply wp_conseq with (P := fun _ : bool => True).
      { apply (for_range_inv _ (fun _ _ => True)); [lia|auto|]. intros j o Hj _. g1s (r0 K). g1s (r0 K). apply wp_ok. auto. }
      intros over _. apply wp_ok. split; [destruct over; [lia|destruct (_ <? _); lia]|]. split; [auto|]. split; [auto|]. split; [auto|]. split; [auto|].
      destruct over; [split; [discriminate|split; discriminate]|]. destruct (Nat.ltb_spec num n); (split; [|split]); try discriminate; [intros _; apply X7; lia| |intros _; apply X6; lia].
      intros A1 A2 A3 _. apply deficient_singular. apply X8; [|lia]. destruct A3. repeat (split; [apply A1|]). split; [apply CF; auto; split; auto|].
      split; [apply A1|]. split; auto. }
    apply wp_inv in W. destruct W as ([|info p u d] & W1 & W2); [contradiction|]. exists info, p, u, d. auto.
  Qed.
End Whole.
