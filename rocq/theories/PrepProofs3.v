(** * PrepProofs3: [do_maching] and [do_preprocessing]. *)
From Coq Require Import List Arith ZArith Lia Bool Permutation.
From Verif Require Import PropPre PropRcm Base Scalar Spec CSModel CSSpec CSProofs ConvModel ConvSpec ConvProofs ConvProofs3 ConvProofs4 Mag VecModel VecProofs PruneModel
  PreModel PreSpec PreProofs PreProofs2 PreProofs3 PrepModel PrepSpec EqModel EqSpec RcmModel RcmSpec PrepProofs1 PrepProofs2.
Import ListNotations.
Local Open Scope nat_scope.

  Lemma rowl_len : forall {O : Ops} (A : CS O) i, length (rowl A i) = st A (S i) - st A i.
  Proof. intros O A i. unfold rowl. now rewrite map_length, seq_length. Qed.

  Lemma tight_valid_len : forall {O : Ops} (B : CS O) m (A : CS O) i, valid B -> psize B = m -> ssize B = m -> valid A -> i < m -> m <= psize A ->
    (forall j v, stored B i j v <-> j < m /\ stored A i j v) -> st B (S i) - st B i = length (lead_row A m i).
  Proof.
    intros O B m A i VB PB SB VA Hi Hm H. rewrite <- rowl_len. apply Permutation_length, NoDup_Permutation.
    - apply NoDup_map_inv with (f := fst). apply valid_nodup; [apply VB|lia].
    - apply NoDup_filter. apply NoDup_map_inv with (f := fst). apply valid_nodup; [apply VA|lia].
    - intros [j v]. unfold lead_row. rewrite filter_In. cbn [fst]. rewrite Nat.ltb_lt. specialize (H j v). unfold stored in H. tauto.
  Qed.


Section P3.
  Context {O : Ops} (G : Mag O) (K : ROps).
  Hypothesis ML : MagLaws G.
  Variable mone eps : M G.
  Variable mrec : M G -> M G.
  Variable smul : T O -> M G -> T O.
  Variable msqrt : M G -> M G.
  Variable mexp : RR K -> M G.
  Variable mdiff : M G -> M G.
  Variable mbig : M G -> bool.
  Variable rmag : M G -> RR K.
  Variable rlog : RR K -> RR K.
  Variable rbig : nat -> RR K.
  Variable rhuge : RR K.
  Variable un : nat -> list nat.
  Variable um : nat -> list (M G).
  Variable ur : nat -> list (RR K).
  Variable ji : nat.
  Variable jv : T O.
  Variable amd : list nat -> list nat -> nat -> list nat.
  Hypothesis LN : forall k, length (un k) = k.
  Hypothesis LM : forall k, length (um k) = k.
  Hypothesis LR : forall k, length (ur k) = k.
  Hypothesis INF : req K (rinf K) (rinf K) = true.
  Hypothesis AMD : forall start ind k, is_perm k (amd start ind k).

  Lemma matching_input_l : forall (A : CS O) m0 M ps, valid A -> tight A -> psize A = M -> ssize A = M -> 1 <= m0 -> m0 <= M ->
    (exists i j v, i < m0 /\ j < m0 /\ stored A i j v) ->
    (forall i, i < m0 -> 2 * length (lead_row A m0 i) <= m0 + 1) ->
    exists B, matching_input ji jv A m0 M ps = Ok B /\ valid B /\ tight B /\ psize B = m0 /\ ssize B = m0 /\ 1 <= nnz_of B /\ half B /\
      (forall i j v, i < m0 -> (stored B i j v <-> j < m0 /\ stored A i j v)).
  Proof.
    intros A m0 M ps V TT PA SA H1 H2 NE HF.
    assert (FIN : forall B, valid B -> tight B -> psize B = m0 -> ssize B = m0 ->
      (forall i j v, i < m0 -> (stored B i j v <-> j < m0 /\ stored A i j v)) -> 1 <= nnz_of B /\ half B).
    { intros B VB TB PB SB HS. split.
      - destruct NE as (i & j & v & Hi & Hj & S0). assert (S1 : stored B i j v) by (apply HS; auto). unfold stored in S1.
        assert (L : 0 < length (rowl B i)). { destruct (length (rowl B i)) eqn:EL; [|lia]. apply length_zero_iff_nil in EL. rewrite EL in S1. destruct S1. }
        rewrite rowl_len in L. unfold nnz_of. destruct VB as (WB & _). pose proof (st_mono O B WB (S i) (psize B) ltac:(lia) ltac:(lia)). lia.
      - intros i Hi. rewrite PB in Hi |- *.
        rewrite (tight_valid_len B m0 A i VB PB SB V Hi ltac:(lia)); [apply HF; auto|]. intros j v. apply HS. auto. }
    unfold matching_input. destruct (Nat.eqb_spec m0 M) as [->|Hne].
    - assert (R : forall i j v, i < M -> (stored A i j v <-> j < M /\ stored A i j v)).
      { intros i j v Hi. split; [|tauto]. intros H. split; auto. destruct V as (W & _). pose proof (wf_rowl_range O A W i (j, v) ltac:(lia) H) as R. simpl in R. lia. }
      assert (EA : mkCS M M (ind_start A) (indices A) (vals A) = A). { destruct A; cbn in *. subst. reflexivity. }
      destruct (ps =? 0)%Z.
      + exists A. rewrite EA. split; [auto|]. split; [auto|]. split; [auto|]. split; [auto|]. split; [auto|].
        destruct (FIN A V TT PA SA R). auto.
      + destruct V as (W & SO). rewrite (nnz_ok A W TT) by congruence. cbn [bind]. pose proof TT as (T1 & T2 & T3). unfold nnz_of. rewrite T3, Nat.leb_refl, Nat.sub_diag.
        cbn [repeat]. rewrite app_nil_r, EA. exists A. split; [auto|]. split; [split; auto|]. split; [auto|]. split; [auto|]. split; [auto|].
        destruct (FIN A (conj W SO) TT PA SA R). auto.
    - destruct (C11_l O m0 A ji jv V ltac:(lia) NE) as (B & E & VB & TB & PB & SB & HS). exists B. split; [auto|]. split; [auto|]. split; [auto|]. split; [auto|]. split; [auto|].
      destruct (FIN B VB TB PB SB HS). auto.
  Qed.

  (** The factors of a diagonal are kept, or both replaced by the root of their product. *)
  Definition repaired (s t s' t' : list (M G)) (a b : nat) : Prop :=
    nth a s' (Mag.m0 G) = nth a s (Mag.m0 G) /\ nth b t' (Mag.m0 G) = nth b t (Mag.m0 G) \/
    nth a s' (Mag.m0 G) = msqrt (mmul G (nth a s (Mag.m0 G)) (nth b t (Mag.m0 G))) /\ nth b t' (Mag.m0 G) = msqrt (mmul G (nth a s (Mag.m0 G)) (nth b t (Mag.m0 G))).

  (** Repair of the scaling: only positions of the leading block change. *)
  Lemma fix_l : forall m0 level p q s t beta n, m0 <= length p -> m0 <= length q -> length s = n -> length t = n -> m0 <= n ->
    (forall i, i < m0 -> nth i p 0 < m0 /\ nth i q 0 < m0) ->
    (forall i j, i < m0 -> j < m0 -> nth i p 0 = nth j p 0 \/ nth i q 0 = nth j q 0 -> i = j) ->
    wp (fix_poor_scaling G msqrt m0 level p q s t beta) (fun '(s', t') => length s' = n /\ length t' = n /\
      (forall i, m0 <= i -> nth i s' (Mag.m0 G) = nth i s (Mag.m0 G) /\ nth i t' (Mag.m0 G) = nth i t (Mag.m0 G)) /\
      (level <= 1 \/ beta = None -> s' = s /\ t' = t) /\
      ((forall i, i < m0 -> nth i p 0 = nth i q 0) -> s = t -> s' = t') /\
      (forall i, i < m0 -> repaired s t s' t' (nth i p 0) (nth i q 0))).
  Proof.
    intros m0 level p q s t beta n L1 L2 L3 L4 Hm R IN. unfold fix_poor_scaling. assert (KP : forall i, i < m0 -> repaired s t s t (nth i p 0) (nth i q 0)) by (intros i _; left; auto).
    destruct beta as [b|]; [|apply wp_ok; repeat split; auto].
    destruct (Nat.ltb_spec 1 level); [|apply wp_ok; repeat split; auto]. clear KP.
    eapply wp_conseq; [apply for_range_inv with (I := fun k '(s', t') => length s' = n /\ length t' = n /\
      (forall i, m0 <= i -> nth i s' (Mag.m0 G) = nth i s (Mag.m0 G) /\ nth i t' (Mag.m0 G) = nth i t (Mag.m0 G)) /\
      ((forall i, i < m0 -> nth i p 0 = nth i q 0) -> s = t -> s' = t') /\
      (forall i, i < k -> repaired s t s' t' (nth i p 0) (nth i q 0)) /\
      (forall i, k <= i < m0 -> nth (nth i p 0) s' (Mag.m0 G) = nth (nth i p 0) s (Mag.m0 G) /\ nth (nth i q 0) t' (Mag.m0 G) = nth (nth i q 0) t (Mag.m0 G)));
      [lia|repeat split; auto; lia|]|].
    2:{ intros [s' t'] (J1 & J2 & J3 & J4 & J5 & _). split; [auto|]. split; [auto|]. split; [exact J3|]. split; [|auto]. intros [H'|H']; [lia|discriminate]. }
    intros i [s' t'] Hi (J1 & J2 & J3 & J4 & J5 & J6). destruct (R i ltac:(lia)) as (R1 & R2).
    wpb. apply wp_get with (d := 0); [lia|]. wpb. apply wp_get with (d := 0); [lia|]. wpb. apply wp_get with (d := Mag.m0 G); [lia|]. wpb. apply wp_get with (d := Mag.m0 G); [lia|].
    destruct (J6 i ltac:(lia)) as (V1 & V2).
    destruct (mlt _ _ _).
    2:{ apply wp_ok. split; [auto|]. split; [auto|]. split; [auto|]. split; [auto|]. split; [|intros; apply J6; lia]. intros k Hk.
      destruct (Nat.eq_dec k i) as [->|Hne]; [left; auto|apply J5; lia]. }
    wpb. apply wp_set; [lia|]. wpb. apply wp_set; [lia|]. apply wp_ok. rewrite !upd_length. split; [auto|]. split; [auto|]. split; [|split; [|split]].
    - intros k Hk. rewrite !nth_upd_neq by lia. auto.
    - intros E1 E2. rewrite (J4 E1 E2). rewrite (E1 i) by lia. reflexivity.
    - intros k Hk. unfold repaired. destruct (Nat.eq_dec k i) as [->|Hne].
      + right. rewrite !nth_upd_eq by lia. rewrite V1, V2. auto.
      + rewrite !nth_upd_neq by (intros C; apply Hne; apply IN; auto; lia). apply J5. lia.
    - intros k Hk. rewrite !nth_upd_neq by (intros C; assert (k = i) by (apply IN; auto; lia); lia). apply J6. lia.
  Qed.

  (** Filling the rest: identity and factors 1. *)
  Lemma fill2_l : forall m0 n (p : list nat) (s : list (M G)), m0 <= n -> length p = n -> length s = n ->
    wp (for_range m0 n (fun i '(p, s) => p <- set p i i ;; s <- set s i mone ;; Ok (p, s)) (p, s)) (fun '(p', s') =>
      length p' = n /\ length s' = n /\ (forall i, nth i p' 0 = if (m0 <=? i) && (i <? n) then i else nth i p 0) /\
      (forall i, nth i s' (Mag.m0 G) = if (m0 <=? i) && (i <? n) then mone else nth i s (Mag.m0 G))).
  Proof.
    intros m0 n p s H L1 L2. apply for_range_inv with (I := fun k '(p', s') => length p' = n /\ length s' = n /\
      (forall i, nth i p' 0 = if (m0 <=? i) && (i <? k) then i else nth i p 0) /\
      (forall i, nth i s' (Mag.m0 G) = if (m0 <=? i) && (i <? k) then mone else nth i s (Mag.m0 G))); auto.
    - repeat split; auto; intros i; destruct (Nat.leb_spec m0 i), (Nat.ltb_spec i m0); auto; lia.
    - intros k [p' s'] Hk (J1 & J2 & J3 & J4). wpb. apply wp_set; [lia|]. wpb. apply wp_set; [lia|]. apply wp_ok. rewrite !upd_length. split; [auto|]. split; [auto|].
      split; intros i; rewrite nth_upd by lia; (destruct (Nat.eqb_spec i k) as [->|Hn]; [destruct (Nat.leb_spec m0 k); [|lia]; destruct (Nat.ltb_spec k (S k)); [auto|lia]|]).
      + rewrite J3. destruct (Nat.leb_spec m0 i); cbn [andb]; auto. destruct (Nat.ltb_spec i k), (Nat.ltb_spec i (S k)); auto; lia.
      + rewrite J4. destruct (Nat.leb_spec m0 i); cbn [andb]; auto. destruct (Nat.ltb_spec i k), (Nat.ltb_spec i (S k)); auto; lia.
  Qed.

  (** RCM on the leading pattern of a symmetric matrix. *)
  Lemma order_rcm_l : forall (A : CS O) n m p pinv q start ind, valid A -> psize A = n -> ssize A = n -> m <= n -> is_inv n p pinv -> is_perm n q ->
    leading_block A m pinv q ji = Ok (start, ind) -> (forall i, i < m -> nth i p 0 = nth i q 0) ->
    (forall i j v, i < m -> j < m -> stored A (nth i q 0) (nth j q 0) v -> exists v', stored A (nth j q 0) (nth i q 0) v') ->
    exists R, order_rcm (O := O) un m (start, ind) = Ok R /\ is_perm m R.
  Proof.
    intros A n m p pinv q start ind V PA SA Hm I Q E PQ SYM.
    destruct (C46_leading_pattern O A n m p pinv q ji V PA SA Hm I Q) as (start' & ind' & E' & L1 & L2 & L3 & L4 & L5 & L6).
    rewrite E in E'. injection E' as <- <-. set (B := @mkCS O m m start ind (repeat (t0 O) (length ind))).
    assert (W : wf B).
    { assert (RNG : forall c i, c < m -> nth c start 0 <= i < nth (S c) start 0 -> nth i ind 0 < m). { intros c i Hc Hi. apply (proj1 (L6 c (nth i ind 0) Hc)). eauto. }
      constructor; cbn [psize ssize ind_start indices vals B]; auto; unfold st, ix; cbn [ind_start indices B psize]; try lia.
      - rewrite repeat_length. unfold st. cbn. lia.
      - intros k Hk. unfold st in Hk. cbn in Hk.
        assert (X : exists c, c < m /\ nth c start 0 <= k < nth (S c) start 0).
        { clear - L2 L4 Hk. assert (GG : forall c, c <= m -> k < nth c start 0 -> exists c', c' < c /\ nth c' start 0 <= k < nth (S c') start 0).
          { induction c; intros Hc Hk'; [lia|]. destruct (Nat.lt_ge_cases k (nth c start 0)) as [H|H]; [|exists c; lia]. destruct (IHc ltac:(lia) H) as (c' & X1 & X2). exists c'. split; [lia|auto]. }
          destruct (GG m ltac:(lia) Hk) as (c & X1 & X2). eauto. }
        destruct X as (c & X1 & X2). eapply RNG; eauto. }
    assert (EDGE : forall i j, i < m -> (edge B i j <-> j < m /\ exists v, stored A (nth i q 0) (nth j p 0) v)).
    { intros i j Hi. rewrite <- (L6 i j Hi). unfold edge, st, ix. cbn. split; intros (k & X); exists k; intuition lia. }
    destruct (C34_permutation_partial O B (un m) W eq_refl ltac:(cbn; lia) ltac:(cbn; rewrite LN; auto)) as (P & X1 & X2).
    { intros i j Hi X. cbn in Hi. apply EDGE in X; auto. destruct X as (Hj & v & X). apply EDGE; auto. split; [auto|].
      rewrite PQ in X by auto. destruct (SYM i j v Hi Hj X) as (v' & Y). exists v'. rewrite PQ by auto. auto. }
    exists P. split; [|auto]. unfold order_rcm. cbn [fst snd].
    change (run_rcm (@mkCS O m m start ind []) (un m)) with (run_rcm B (un m)). rewrite X1. reflexivity.
  Qed.

  Section Main.
  Variables (symm : bool) (A A_crs : CS O) (n m0 level : nat) (o : popts (M G)).
  Hypothesis VA : valid A.
  Hypothesis VC : valid A_crs.
  Hypothesis TC : tight A_crs.
  Hypothesis SA : psize A = n /\ ssize A = n /\ psize A_crs = n /\ ssize A_crs = n.
  Hypothesis Hm1 : 1 <= m0.
  Hypothesis Hm0 : m0 <= n.
  Hypothesis NE : exists i j v, i < m0 /\ j < m0 /\ stored A_crs i j v.
  Hypothesis HF : forall i, i < m0 -> 2 * length (lead_row A_crs m0 i) <= m0 + 1.
  Hypothesis OK : (0 <= po_reorder o < REORDER_NULL)%Z.
  Hypothesis RCM : rcm_used symm o -> symm = true /\
    forall i j v, i < m0 -> j < m0 -> stored A i j v -> exists v', stored A j i v'.
  Notation MATCHED B := (matched G K mone mrec smul msqrt mexp mdiff mbig rmag rlog rbig rhuge un um ur symm (po_prescale o) B (um n) (um n)).

  Lemma do_preprocessing_l : exists m s t P Q info B p0 q0 s1 t1,
    do_preprocessing G K mone eps mrec smul msqrt mexp mdiff mbig rmag rlog rbig rhuge un um ur ji jv amd symm A A_crs m0 level o = Ok (m, s, t, P, Q, info) /\
    valid B /\ tight B /\ psize B = m0 /\ ssize B = m0 /\ (forall i j v, i < m0 -> (stored B i j v <-> j < m0 /\ stored A_crs i j v)) /\
    MATCHED B p0 q0 s1 t1 info /\
    m <= m0 /\ is_inv n (bp P) (bpi P) /\ is_inv n (bp Q) (bpi Q) /\
    (forall i, i < m -> acceptable G mone eps A A_crs (diag_at (bp P) (bp Q) i)) /\
    (forall i, m <= i < m0 -> ~ acceptable G mone eps A A_crs (diag_at (bp P) (bp Q) i)) /\
    (forall i, m0 <= i < n -> diag_at (bp P) (bp Q) i = (i, i)) /\
    (forall i, i < m0 -> exists j, j < m0 /\ diag_at (bp P) (bp Q) i = (nth j p0 0, nth j q0 0)) /\
    length s = n /\ length t = n /\ (forall i, m0 <= i < n -> nth i s (Mag.m0 G) = mone /\ nth i t (Mag.m0 G) = mone) /\
    (level <= 1 \/ po_beta o = None -> forall i, i < m0 -> nth i s (Mag.m0 G) = nth i s1 (Mag.m0 G) /\ nth i t (Mag.m0 G) = nth i t1 (Mag.m0 G)) /\
    (symm = true -> bp P = bp Q /\ s = t) /\
    (forall j, j < m0 -> repaired s1 t1 s t (nth j p0 0) (nth j q0 0)).
  Proof.
    destruct SA as (SA1 & SA2 & SA3 & SA4). unfold do_preprocessing. destruct ((po_reorder o <? 0)%Z || (REORDER_NULL <=? po_reorder o)%Z) eqn:EO.
    { apply orb_prop in EO. destruct EO as [EO|EO]; [apply Z.ltb_lt in EO|apply Z.leb_le in EO]; lia. }
    unfold do_maching. rewrite SA1, SA2.
    destruct (matching_input_l A_crs m0 n (po_prescale o) VC TC SA3 SA4 Hm1 Hm0 NE HF) as (B & -> & VB & TB & PB & SB & NB & HB & HS). cbn [bind].
    pose proof (do_matching_l G K mone mrec smul msqrt mexp mdiff mbig rmag rlog rbig rhuge un um ur LN LM LR INF symm (po_prescale o) B (un n) (un n) (um n) (um n)
      VB TB ltac:(congruence) ltac:(lia) NB HB ltac:(rewrite LN; lia) ltac:(rewrite LN; lia) ltac:(rewrite LM; lia) ltac:(rewrite LM; lia)) as W.
    apply wp_inv in W. destruct W as ([[[[p0 q0] s0] t0] info] & -> & Lp & Lq & Ls & Lt & MA). cbn [bind]. rewrite LN in Lp, Lq. rewrite LM in Ls, Lt.
    destruct (matched_perm _ _ _ _ _ _ _ _ _ _ _ _ _ _ _ _ _ _ _ _ _ _ _ _ _ _ MA ltac:(lia) ltac:(lia)) as (PP0 & PQ0). rewrite PB in PP0, PQ0.
    assert (SYM0 : symm = true -> (forall i, i < m0 -> nth i p0 0 = nth i q0 0) /\ (forall i, i < m0 -> nth i s0 (Mag.m0 G) = nth i t0 (Mag.m0 G))).
    { intros Es. destruct MA as (B2 & s1 & t1 & perm & u & d & _ & _ & _ & _ & _ & _ & _ & _ & _ & _ & _ & Q & S1 & T1). rewrite Es, PB in *. split; intros i Hi.
      - symmetry. apply Q. auto. - rewrite S1, T1 by auto. reflexivity. }
    pose proof (fill2_l m0 n p0 s0 Hm0 Lp Ls) as F1. apply wp_inv in F1. destruct F1 as ([p1 s1] & -> & L1 & L2 & E1 & E2). cbn [bind].
    pose proof (fill2_l m0 n q0 t0 Hm0 Lq Lt) as F2. apply wp_inv in F2. destruct F2 as ([q1 t1] & -> & L3 & L4 & E3 & E4). cbn [bind].
    pose proof (extend_perm n m0 p0 p1 Hm0 Lp L1 PP0 E1) as P1. pose proof (extend_perm n m0 q0 q1 Hm0 Lq L3 PQ0 E3) as Q1.
    assert (LOW : forall i, i < m0 -> nth i p1 0 = nth i p0 0 /\ nth i q1 0 = nth i q0 0 /\ nth i p0 0 < m0 /\ nth i q0 0 < m0).
    { intros i Hi. rewrite E1, E3. destruct (Nat.leb_spec m0 i); [lia|]. cbn [andb]. split; [auto|]. split; [auto|].
      destruct PP0 as (_ & X & _). destruct PQ0 as (_ & Y & _). specialize (X i Hi). specialize (Y i Hi). rewrite nth_firstn_lt in X, Y by auto. auto. }
    pose proof (fix_l m0 level p1 q1 s1 t1 (po_beta o) n ltac:(lia) ltac:(lia) L2 L4 Hm0) as F3.
    assert (X : forall i, i < m0 -> nth i p1 0 < m0 /\ nth i q1 0 < m0). { intros i Hi. destruct (LOW i Hi) as (-> & -> & ? & ?). auto. }
    specialize (F3 X). clear X.
    assert (X : forall i j, i < m0 -> j < m0 -> nth i p1 0 = nth j p1 0 \/ nth i q1 0 = nth j q1 0 -> i = j).
    { intros i j Hi Hj [E|E]; [apply P1|apply Q1]; auto; lia. }
    specialize (F3 X). clear X. apply wp_inv in F3. destruct F3 as ([s t] & -> & L5 & L6 & K1 & K2 & K3 & K4). cbn [bind].
    set (g := accb G mone eps A A_crs).
    assert (GG : forall i, i < m0 -> is_good_diag G mone eps A A_crs (nth i p1 0) (nth i q1 0) = Ok (g (diag_at p1 q1 i))).
    { intros i Hi. destruct (LOW i Hi) as (A1 & A2 & A3 & A4). unfold diag_at, g. apply accb_spec; auto; try lia. apply VC. }
    assert (GA : forall z, In z (diags p1 q1 m0) -> g z = true <-> acceptable G mone eps A A_crs z).
    { intros z Hz. unfold diags in Hz. apply in_map_iff in Hz. destruct Hz as (i & <- & Hi). apply in_seq in Hi. destruct (LOW i ltac:(lia)) as (A1 & A2 & A3 & A4).
      unfold diag_at, g. apply accb_spec; auto; try lia. apply VC. }
    pose proof (defer_l (is_good_diag G mone eps A A_crs) g m0 p1 q1 GG ltac:(lia) ltac:(lia) (un n) (un n) ltac:(rewrite LN; lia) ltac:(rewrite LN; lia)) as F3.
    apply wp_inv in F3. destruct F3 as ([[[[p2 q2] pi2] qi2] m] & -> & A1 & A2 & A3 & A4 & A5 & A6 & A7). cbn [bind]. rewrite LN in A3, A4.
    set (goods := filter g (diags p1 q1 m0)) in *. set (bads := filter (fun z => negb (g z)) (diags p1 q1 m0)) in *.
    assert (Hlen : m + length bads = m0). { apply (f_equal (@length _)) in A6. rewrite app_length, diags_length in A6. lia. }
    assert (PQ : is_perm n p2 /\ is_perm n q2).
    { apply (perm_rearr n p1 q1 p2 q2); auto; try lia. replace n with (m0 + (n - m0)) by lia. rewrite !diags_app. apply Permutation_app.
      - rewrite A6. apply filter_partition.
      - replace (map (diag_at p2 q2) (seq m0 (n - m0))) with (map (diag_at p1 q1) (seq m0 (n - m0))); auto.
        apply map_ext_in. intros i Hi. apply in_seq in Hi. symmetry. apply A7. lia. }
    destruct PQ as [P2 Q2].
    assert (N1 : forall i, i < m -> diag_at p2 q2 i = nth i goods (0, 0)).
    { intros i Hi. rewrite <- (nth_diags p2 q2 m0 i (0, 0)) by lia. rewrite A6, app_nth1; [auto|]. lia. }
    assert (N2 : forall i, m <= i < m0 -> diag_at p2 q2 i = nth (i - m) bads (0, 0)).
    { intros i Hi. rewrite <- (nth_diags p2 q2 m0 i (0, 0)) by lia. rewrite A6, app_nth2; [f_equal; lia|]. lia. }
    assert (N3 : forall i, m0 <= i < n -> diag_at p2 q2 i = (i, i)).
    { intros i Hi. rewrite A7 by lia. unfold diag_at. rewrite E1, E3. destruct (Nat.leb_spec m0 i); [|lia]. destruct (Nat.ltb_spec i n); [auto|lia]. }
    assert (G1 : forall i, i < m -> In (diag_at p2 q2 i) (diags p1 q1 m0) /\ g (diag_at p2 q2 i) = true).
    { intros i Hi. rewrite N1 by auto. apply filter_In. apply nth_In. unfold goods in A5. lia. }
    assert (G2 : forall i, m <= i < m0 -> In (diag_at p2 q2 i) (diags p1 q1 m0) /\ g (diag_at p2 q2 i) = false).
    { intros i Hi. rewrite N2 by auto. assert (I : In (nth (i - m) bads (0, 0)) bads) by (apply nth_In; lia). apply filter_In in I. destruct I as (I1 & I2).
      split; auto. now apply negb_true_iff. }
    assert (G3 : forall z, In z (diags p1 q1 m0) -> exists j, j < m0 /\ z = (nth j p0 0, nth j q0 0)).
    { intros z Hz. unfold diags in Hz. apply in_map_iff in Hz. destruct Hz as (j & <- & Hj). apply in_seq in Hj. exists j. split; [lia|]. unfold diag_at.
      destruct (LOW j ltac:(lia)) as (-> & -> & _). auto. }
    assert (SYM2 : symm = true -> p2 = q2).
    { intros Es. destruct (SYM0 Es) as (S1 & _). apply (list_ext _ _ _ 0); [lia|]. intros i Hi.
      destruct (Nat.lt_ge_cases i m0) as [H|H].
      - assert (I : In (diag_at p2 q2 i) (diags p1 q1 m0)). { destruct (Nat.lt_ge_cases i m) as [H'|H']; [apply G1; auto|apply G2; auto]. }
        destruct (G3 _ I) as (j & Hj & Ej). unfold diag_at in Ej. injection Ej as -> ->. auto.
      - pose proof (N3 i ltac:(lia)) as X. unfold diag_at in X. injection X as -> ->. auto. }
    assert (ST : symm = true -> s = t).
    { intros Es. destruct (SYM0 Es) as (S1 & S2). apply K3.
      - intros i Hi. destruct (LOW i Hi) as (-> & -> & _). auto.
      - apply (list_ext _ _ _ (Mag.m0 G)); [lia|]. intros i Hi. rewrite E2, E4. destruct (Nat.leb_spec m0 i); cbn [andb].
        + destruct (Nat.ltb_spec i n); [auto|lia]. + apply S2; auto. }
    assert (SREST : forall i, m0 <= i < n -> nth i s (Mag.m0 G) = mone /\ nth i t (Mag.m0 G) = mone).
    { intros i Hi. destruct (K1 i ltac:(lia)) as (-> & ->). rewrite E2, E4. destruct (Nat.leb_spec m0 i); [|lia]. destruct (Nat.ltb_spec i n); [auto|lia]. }
    assert (SKEEP : level <= 1 \/ po_beta o = None -> forall i, i < m0 -> nth i s (Mag.m0 G) = nth i s0 (Mag.m0 G) /\ nth i t (Mag.m0 G) = nth i t0 (Mag.m0 G)).
    { intros H i Hi. destruct (K2 H) as (-> & ->). rewrite E2, E4. destruct (Nat.leb_spec m0 i); [lia|]. auto. }
    assert (SREP : forall j, j < m0 -> repaired s0 t0 s t (nth j p0 0) (nth j q0 0)).
    { intros j Hj. specialize (K4 j Hj). destruct (LOW j Hj) as (Y1 & Y2 & Y3 & Y4). rewrite Y1, Y2 in K4. unfold repaired in K4 |- *.
      rewrite E2, E4 in K4. destruct (Nat.leb_spec m0 (nth j p0 0)); [lia|]. destruct (Nat.leb_spec m0 (nth j q0 0)); [lia|]. exact K4. }
    (* what is left after any rearrangement of the leading block *)
    assert (DONE : forall r (ord : nat -> nat) P Q, is_inv n (bp P) (bpi P) -> is_inv n (bp Q) (bpi Q) -> r = Ok (m, s, t, P, Q, info) ->
      (forall i, i < m -> ord i < m) ->
      (forall i, i < n -> nth i (bp P) 0 = nth (if i <? m then ord i else i) p2 0 /\ nth i (bp Q) 0 = nth (if i <? m then ord i else i) q2 0) ->
      exists m' s' t' P' Q' info' B' p0' q0' s1' t1', r = Ok (m', s', t', P', Q', info') /\
        valid B' /\ tight B' /\ psize B' = m0 /\ ssize B' = m0 /\ (forall i j v, i < m0 -> (stored B' i j v <-> j < m0 /\ stored A_crs i j v)) /\
        MATCHED B' p0' q0' s1' t1' info' /\
        m' <= m0 /\ is_inv n (bp P') (bpi P') /\ is_inv n (bp Q') (bpi Q') /\
        (forall i, i < m' -> acceptable G mone eps A A_crs (diag_at (bp P') (bp Q') i)) /\
        (forall i, m' <= i < m0 -> ~ acceptable G mone eps A A_crs (diag_at (bp P') (bp Q') i)) /\
        (forall i, m0 <= i < n -> diag_at (bp P') (bp Q') i = (i, i)) /\
        (forall i, i < m0 -> exists j, j < m0 /\ diag_at (bp P') (bp Q') i = (nth j p0' 0, nth j q0' 0)) /\
        length s' = n /\ length t' = n /\ (forall i, m0 <= i < n -> nth i s' (Mag.m0 G) = mone /\ nth i t' (Mag.m0 G) = mone) /\
        (level <= 1 \/ po_beta o = None -> forall i, i < m0 -> nth i s' (Mag.m0 G) = nth i s1' (Mag.m0 G) /\ nth i t' (Mag.m0 G) = nth i t1' (Mag.m0 G)) /\
        (symm = true -> bp P' = bp Q' /\ s' = t') /\
        (forall j, j < m0 -> repaired s1' t1' s' t' (nth j p0' 0) (nth j q0' 0))).
    { intros r ord P Q IP IQ -> OR HO. exists m, s, t, P, Q, info, B, p0, q0, s0, t0.
      assert (DG : forall i, i < n -> diag_at (bp P) (bp Q) i = diag_at p2 q2 (if i <? m then ord i else i)).
      { intros i Hi. unfold diag_at. destruct (HO i Hi) as (-> & ->). auto. }
      split; [auto|]. split; [auto|]. split; [auto|]. split; [auto|]. split; [auto|]. split; [auto|]. split; [exact MA|]. split; [lia|]. split; [auto|]. split; [auto|].
      split. { intros i Hi. rewrite DG by lia. destruct (Nat.ltb_spec i m); [|lia]. destruct (G1 (ord i) (OR i Hi)) as (I1 & I2). apply GA; auto. }
      split. { intros i Hi. rewrite DG by lia. destruct (Nat.ltb_spec i m); [lia|]. destruct (G2 i Hi) as (I1 & I2). intros C. apply GA in C; auto. congruence. }
      split. { intros i Hi. rewrite DG by lia. destruct (Nat.ltb_spec i m); [lia|]. apply N3; auto. }
      split. { intros i Hi. rewrite DG by lia. apply G3. destruct (Nat.ltb_spec i m); [apply G1; auto|apply G2; lia]. }
      split; [auto|]. split; [auto|]. split; [auto|]. split; [auto|]. split; [|exact SREP]. intros Es. split; [|auto].
      apply (list_ext _ _ _ 0). { destruct IP as (-> & _). destruct IQ as (-> & _). auto. }
      intros i Hi. destruct IP as (LP & _). rewrite LP in Hi. destruct (HO i Hi) as (-> & ->). now rewrite (SYM2 Es). }
    destruct (build_inv_l n (mkBP p2 pi2) P2 ltac:(simpl; lia)) as (PP & B1 & B2 & B3).
    destruct (build_inv_l n (mkBP q2 qi2) Q2 ltac:(simpl; lia)) as (QQ & C1 & C2 & C3). cbn [bp] in B2, C2.
    destruct (negb (po_reorder o =? REORDER_OFF)%Z && negb (m =? 0)) eqn:EC; pose proof EC as EC0.
    - apply andb_prop in EC. destruct EC as (EC1 & EC2). apply negb_true_iff, Nat.eqb_neq in EC2. apply negb_true_iff, Z.eqb_neq in EC1.
      rewrite B1. cbn [bind].
      assert (NA : negb symm && (po_reorder o =? REORDER_RCM)%Z = false).
      { apply andb_false_iff. destruct (Z.eqb_spec (po_reorder o) REORDER_RCM) as [E|E]; [|auto]. left. destruct (RCM (or_introl E)) as (-> & _). reflexivity. }
      rewrite NA.
      destruct (C46_leading_pattern O A n m (bp PP) (bpi PP) q2 ji VA SA1 SA2 ltac:(lia) B3 Q2) as (start & ind & EL & _). rewrite EL. cbn [bind].
      assert (RR : rcm_used symm o -> exists R, order_rcm (O := O) un m (start, ind) = Ok R /\ is_perm m R).
      { intros U. destruct (RCM U) as (Es & SY). apply (order_rcm_l A n m (bp PP) (bpi PP) q2 start ind VA SA1 SA2 ltac:(lia) B3 Q2 EL).
        - intros i Hi. rewrite B2. now rewrite (SYM2 Es).
        - intros i j v Hi Hj. assert (LT : forall k, k < m -> nth k q2 0 < m0).
          { intros k Hk. destruct (G3 _ (proj1 (G1 k Hk))) as (l & Hl & El). unfold diag_at in El. injection El as _ ->. apply LOW; auto. }
          apply SY; auto. }
      assert (OR : exists R, (if (po_reorder o =? REORDER_AUTO)%Z then if symm && (level =? 1) && negb (m =? m0) then order_rcm (O := O) un m (start, ind) else Ok (amd start ind m)
           else if (po_reorder o =? REORDER_AMD)%Z then Ok (amd start ind m) else order_rcm (O := O) un m (start, ind)) = Ok R /\ is_perm m R).
      { destruct (Z.eqb_spec (po_reorder o) REORDER_AUTO) as [Eo|Eo].
        - destruct symm; cbn [andb]; [|eauto]. destruct ((level =? 1) && negb (m =? m0)); [apply RR; right; auto|eauto].
        - destruct (Z.eqb_spec (po_reorder o) REORDER_AMD) as [Eo'|Eo']; [eauto|]. apply RR. left. unfold REORDER_OFF, REORDER_AUTO, REORDER_AMD, REORDER_RCM, REORDER_NULL in *. lia. }
      destruct OR as (R & ER & PR). cbn [fst snd]. rewrite ER. cbn [bind].
      pose proof (finalize_l n m R PP ltac:(rewrite B2; auto) ltac:(apply B3) ltac:(lia) PR) as FP. apply wp_inv in FP. destruct FP as (RP & -> & FP1 & FP2). cbn [bind].
      pose proof (finalize_l n m R (mkBP q2 qi2) Q2 ltac:(simpl; lia) ltac:(lia) PR) as FQ. apply wp_inv in FQ. destruct FQ as (RQ & -> & FQ1 & FQ2). cbn [bind bp] in *.
      rewrite ?EC0. apply (DONE _ (fun i => nth i R 0) RP RQ FP1 FQ1 eq_refl).
      + intros i Hi. apply PR. auto.
      + intros i Hi. rewrite FP2, FQ2, B2 by auto. destruct (i <? m); auto.
    - cbn [bind]. rewrite ?EC0, B1. cbn [bind]. rewrite C1. cbn [bind]. apply (DONE _ (fun i => i) PP QQ B3 C3 eq_refl); auto.
      intros i Hi. rewrite B2, C2. destruct (i <? m); auto.
  Qed.
  End Main.
End P3.
