(** * CroutProofs10: the factorization of one level from start to end. *)
From Coq Require Import List Arith Lia Bool Permutation Ring.
From Verif Require Import Base Scalar Spec CSModel CSSpec ConvModel ConvSpec BucketProofs ConvProofs ConvProofs2
  ConvProofs3 ConvProofs4 Mag VecModel VecSpec VecProofs PruneModel PruneProofs CroutModel CroutSpec CroutProofs1 CroutProofs2 CroutProofs3
  CroutProofs4 CroutProofs5 CroutProofs6 CroutProofs7 CroutProofs8 CroutProofs9.
Import ListNotations.

Section RingU.
  Variable O : Ops.
  Hypothesis RL : RingLaws O.
  Add Ring TRU5 : (rl_ring O RL).
  Lemma ru_subadd : forall a b, tadd O b (tsub O a b) = a. Proof. intros. ring. Qed.
  Lemma ru_1m1 : forall a, tmul O (tmul O (t1 O) a) (t1 O) = a. Proof. intros. ring. Qed.
  Lemma ru_1mb : forall a b, tmul O (tmul O (t1 O) a) b = tmul O b a. Proof. intros. ring. Qed.
  Lemma ru_am1 : forall a b, tmul O (tmul O a b) (t1 O) = tmul O a b. Proof. intros. ring. Qed.
  Lemma ru_0mm : forall a b, tmul O (tmul O (t0 O) a) b = t0 O. Proof. intros. ring. Qed.
  Lemma ru_mm0 : forall a b, tmul O (tmul O a b) (t0 O) = t0 O. Proof. intros. ring. Qed.
  Lemma ru_add0 : forall a, tadd O a (t0 O) = a. Proof. intros. ring. Qed.
End RingU.

Section A.
  Context {O : Ops}.
  Notation T := (T O).
  Notation row := (list (nat * T)).
  Notation col := (row * row)%type.
  Notation tl' c cols := (snd (nth c cols (dcol (O:=O)))).
  Notation dn' c cols := (fst (nth c cols (dcol (O:=O)))).

  (** permutation at the end *)
  Lemma gap_l : forall n k def p P Pi, PI n k (def + k) (n + def) p P Pi -> def + k <= n ->
    wp (assign_gap n k def P p) (fun p' => is_perm n p' /\ (forall i, i < k -> nth i p' 0 = nth i p 0) /\
      (forall i, k <= i < n -> nth (i + def) P None = Some (nth i p' 0))).
  Proof.
    intros n k def p P Pi [] Hk. unfold assign_gap. eapply wp_conseq.
    { apply (for_range_inv _ (fun j p' => length p' = n /\ (forall i, i < k -> nth i p' 0 = nth i p 0) /\
        (forall i, k <= i < j -> nth (i + def) P None = Some (nth i p' 0)))); [lia| |].
      - split; auto. split; auto. intros; lia.
      - intros j p' Hj (L & H1 & H2). wpb. apply wp_get with (d := None); [lia|].
        destruct (pi_a (j + def) ltac:(lia)) as (x & Hx & E1 & E2). rewrite E1. apply wp_set; [lia|]. rewrite upd_length.
        split; auto. split.
        + intros i Hi. rewrite nth_upd by lia. destruct (Nat.eqb_spec i j); [lia|auto].
        + intros i Hi. rewrite nth_upd by lia. destruct (Nat.eqb_spec i j) as [->|]; auto. apply H2. lia. }
    intros p' (L & H1 & H2). split; [|auto].
    assert (HI : forall i, k <= i < n -> nth i p' 0 < n /\ nth (nth i p' 0) Pi 0 = i + def).
    { intros i Hi. destruct (pi_a (i + def) ltac:(lia)) as (x & Hx & E1 & E2). rewrite H2 in E1 by auto. inversion E1; subst x. auto. }
    split; auto. split.
    - intros i Hi. destruct (Nat.lt_ge_cases i k); [rewrite H1 by auto; now apply pi_b|now apply HI].
    - intros i j Hi Hj E. destruct (Nat.lt_ge_cases i k) as [A|A], (Nat.lt_ge_cases j k) as [B|B].
      + rewrite !H1 in E by auto. now apply pi_c.
      + rewrite H1 in E by auto. destruct (pi_b i A). destruct (HI j ltac:(lia)). rewrite E in *. lia.
      + rewrite (H1 j) in E by auto. destruct (pi_b j B). destruct (HI i ltac:(lia)). rewrite E in *. lia.
      + destruct (HI i ltac:(lia)). destruct (HI j ltac:(lia)). rewrite E in *. lia.
  Qed.

  Lemma asc_lt : forall l i j, asc l -> i < j < length l -> nth i l 0 < nth j l 0.
  Proof. intros l i j A H. apply asc_nth; auto; lia. Qed.

  Lemma arranged_l : forall n k def m2 acc dfr r0 p P p', HS k def acc dfr -> HI n r0 acc dfr p P -> k + def = m2 -> m2 <= n ->
    length p' = n -> (forall i, m2 <= i < n -> nth i P None = Some (nth i p 0)) ->
    (forall i, i < k -> nth i p' 0 = nth i p 0) -> (forall i, k <= i < n -> nth (i + def) P None = Some (nth i p' 0)) ->
    arranged n m2 acc dfr r0 p'.
  Proof.
    intros n k def m2 acc dfr r0 p P p' (L1 & L2 & _) (H1 & H2 & H3) Em Hm Lp HP G1 G2. unfold arranged.
    assert (LL : length (map (fun i => nth i r0 0) (acc ++ seq m2 (n - m2) ++ dfr)) = n)
      by (rewrite map_length, !app_length, seq_length; lia).
    apply nth_ext with (d := 0) (d' := nth 0 r0 0); [now rewrite LL|]. intros i Hi. rewrite (map_nth (fun i => nth i r0 0)).
    destruct (Nat.lt_ge_cases i k).
    - rewrite app_nth1 by lia. rewrite G1, H1 by lia. auto.
    - rewrite app_nth2 by lia. specialize (G2 i ltac:(lia)). destruct (Nat.lt_ge_cases (i + def) n).
      + rewrite app_nth1 by (rewrite seq_length; lia). rewrite seq_nth by lia.
        rewrite HP in G2 by lia. inversion G2. rewrite H2 by lia. f_equal. lia.
      + rewrite app_nth2 by (rewrite seq_length; lia). rewrite seq_length.
        replace (i + def) with (n + (i - length acc - (n - m2))) in G2 by lia. rewrite H3 in G2 by lia. congruence.
  Qed.

  (** one factor at the end *)
  Lemma fin_col : forall n k def c (x : col), asc (map fst (snd x)) -> (forall e, In e (snd x) -> def + k <= fst e < n + def) ->
    asc (map fst (fst x)) -> (forall e, In e (fst x) -> c < fst e < k) -> c < k -> k <= n ->
    asc (map fst (fin def x)) /\ (forall e, In e (fin def x) -> c < fst e < n) /\
    (forall j, j < length (fin def x) -> (fst (nth j (fin def x) (0, t0 O)) < k <-> j < length (fst x))) /\
    (forall i, i < k -> lko (fin def x) i = lko (fst x) i) /\
    (forall i, k <= i -> lko (fin def x) i = lko (snd x) (i + def)).
  Proof.
    intros n k def c [dn tl] A1 R1 A2 R2 Hc Hk. cbn [fst snd] in *. unfold fin. cbn [fst snd].
    set (sh := fun e : nat * T => (fst e - def, snd e)).
    assert (AS : asc (map fst (map sh tl))).
    { rewrite map_map. revert A1 R1. clear. induction tl; simpl; auto. intros (A & B) R. split.
      - intros y Hy. apply in_map_iff in Hy. destruct Hy as (e & <- & He). pose proof (R _ (or_intror He)).
        pose proof (R _ (or_introl eq_refl)). specialize (A (fst e) (in_map _ _ _ He)). simpl. lia.
      - apply IHtl; auto. }
    assert (RS : forall e, In e (map sh tl) -> k <= fst e < n).
    { intros e He. apply in_map_iff in He. destruct He as (e0 & <- & He). specialize (R1 e0 He). simpl. lia. }
    split; [|split; [|split; [|split]]].
    - rewrite map_app. apply asc_app. split; auto. split; auto. intros a b Ha Hb.
      apply in_map_iff in Ha. destruct Ha as (e & <- & He). apply in_map_iff in Hb. destruct Hb as (e' & <- & He').
      specialize (R2 _ He). specialize (RS _ He'). lia.
    - intros e He. apply in_app_or in He. destruct He as [He|He]; [specialize (R2 _ He)|specialize (RS _ He)]; lia.
    - intros j Hj. rewrite app_length in Hj. destruct (Nat.lt_ge_cases j (length dn)) as [L|L].
      + rewrite app_nth1 by auto. pose proof (R2 _ (nth_In _ (0, t0 O) L)). lia.
      + rewrite app_nth2 by auto. assert (L' : j - length dn < length (map sh tl)) by lia.
        pose proof (RS _ (nth_In _ (0, t0 O) L')). lia.
    - intros i Hi. rewrite lko_app. destruct (lko dn i); auto. apply lko_none. intros Hin.
      apply in_map_iff in Hin. destruct Hin as (e & E & He). specialize (RS _ He). lia.
    - intros i Hi. rewrite lko_app. assert (E : lko dn i = None).
      { apply lko_none. intros Hin. apply in_map_iff in Hin. destruct Hin as (e & E & He). specialize (R2 _ He). lia. }
      rewrite E. clear - R1 Hi. induction tl as [|[a v] tl IH]; simpl; auto.
      pose proof (R1 _ (or_introl eq_refl)) as R0. simpl in R0.
      destruct (Nat.eqb_spec (a - def) i), (Nat.eqb_spec a (i + def)); auto; try lia. all: apply IH; intros; apply R1; now right.
  Qed.

  Lemma nth_map_fin : forall def (cols : list col) c, nth c (map (fin def) cols) [] = fin def (nth c cols dcol).
  Proof. intros. change (@nil (nat * T)) with (fin def (@dcol O)) at 1. apply map_nth. Qed.

  Lemma fin_factor : forall n m2 k def F (cols : list col) p P p' LO start,
    Rep m2 (Nat.mul n 2) k (def + k) (n + def) [] F cols -> link k (def + k) (n + def) p P cols LO ->
    k + def = m2 -> m2 <= n ->
    (forall i, i < k -> nth i p' 0 = nth i p 0) -> (forall i, k <= i < n -> nth (i + def) P None = Some (nth i p' 0)) ->
    (forall c, c < k -> nth c start 0 = offs (map whole cols) c + length (fst (nth c cols dcol))) ->
    factor_ok n k (ofrows k n (map (fin def) cols)) start /\
    (RingLaws O -> forall c i, c < k -> c < i -> i < n -> ent (ofrows k n (map (fin def) cols)) c i = ov (LO c (nth i p' 0))) /\
    (forall c i v, c < k -> c < i -> i < n -> (stored (ofrows k n (map (fin def) cols)) c i v <-> LO c (nth i p' 0) = Some v)).
  Proof.
    intros n m2 k def F cols p P p' LO start R (K1 & K2) Em Hm G1 G2 Hs. destruct R.
    assert (FC : forall c, c < k -> asc (map fst (fin def (nth c cols dcol))) /\ (forall e, In e (fin def (nth c cols dcol)) -> c < fst e < n) /\
      (forall j, j < length (fin def (nth c cols dcol)) -> (fst (nth j (fin def (nth c cols dcol)) (0, t0 O)) < k <-> j < length (fst (nth c cols dcol)))) /\
      (forall i, i < k -> lko (fin def (nth c cols dcol)) i = lko (dn' c cols) i) /\
      (forall i, k <= i -> lko (fin def (nth c cols dcol)) i = lko (tl' c cols) (i + def))).
    { intros c Hc. destruct (r_tail c Hc). destruct (r_done c Hc). apply fin_col; auto. lia. }
    assert (LR : length (map (fin def) cols) = k) by now rewrite map_length.
    set (A := ofrows k n (map (fin def) cols)).
    assert (LK : forall c i, c < k -> c < i -> i < n -> lko (fin def (nth c cols dcol)) i = LO c (nth i p' 0)).
    { intros c i Hc Hi Hn. destruct (FC c Hc) as (_ & _ & _ & F4 & F5). destruct (Nat.lt_ge_cases i k).
      - rewrite F4 by auto. rewrite G1 by auto. now apply K2.
      - rewrite F5 by auto. apply K1; [auto|lia|]. apply G2. lia. }
    assert (W : wf A).
    { apply wf_ofrows; auto. intros c e Hc He. rewrite nth_map_fin in He. apply (proj1 (proj2 (FC c Hc))) in He. lia. }
    assert (SO : sorted A).
    { apply sorted_ofrows; auto. intros c Hc. rewrite nth_map_fin. apply FC. auto. }
    assert (OE : forall c, offs (map (fin def) cols) c = offs (map whole cols) c).
    { intros. apply offs_len. rewrite !map_map. apply map_ext. intros. apply fin_length. }
    assert (IX : forall c k0, c < k -> st A c <= k0 < st A (S c) -> In (ix A k0, vl A k0) (fin def (nth c cols dcol)) /\
       ix A k0 = fst (nth (k0 - st A c) (fin def (nth c cols dcol)) (0, t0 O)) /\ k0 - st A c < length (fin def (nth c cols dcol))).
    { intros c k0 Hc Hk0. pose proof (rowl_ofrows k n (map (fin def) cols) c ltac:(lia)) as RE. fold A in RE. rewrite nth_map_fin in RE.
      rewrite <- RE. split; [apply rowl_in; exists k0; auto|]. split; [|rewrite rowl_length; lia].
      rewrite rowl_nth by lia. cbn [fst]. f_equal. lia. }
    split; [|split].
    - split; [split; auto|]. split; [reflexivity|]. split; [reflexivity|]. split; [|split; [|split; [|split]]].
      + intros c k0 Hc Hk0. cbn [psize A ofrows] in Hc. destruct (IX c k0 Hc Hk0) as (Hin & _).
        apply (proj1 (proj2 (FC c Hc))) in Hin. simpl in Hin. lia.
      + unfold A, ofrows. cbn [ind_start]. rewrite starts_length. lia.
      + unfold A. rewrite st_ofrows by lia. unfold ofrows. cbn [indices]. rewrite map_length. rewrite <- offs_all. now rewrite LR.
      + unfold A. rewrite st_ofrows by lia. unfold ofrows. cbn [vals]. rewrite map_length. rewrite <- offs_all. now rewrite LR.
      + intros c Hc. assert (E1 : st A c = offs (map whole cols) c) by (unfold A; rewrite st_ofrows by lia; apply OE).
        assert (E2 : st A (S c) = st A c + length (fin def (nth c cols dcol))).
        { unfold A. rewrite !st_ofrows by lia. rewrite offs_S by lia. now rewrite nth_map_fin. }
        assert (LF : length (fst (nth c cols dcol)) <= length (fin def (nth c cols dcol))) by (unfold fin; rewrite app_length; lia).
        rewrite Hs by auto. split; [lia|]. intros k0 Hk0. destruct (IX c k0 Hc Hk0) as (_ & EI & LI). rewrite EI.
        rewrite (proj1 (proj2 (proj2 (FC c Hc)))) by auto. lia.
    - intros RL c i Hc Hi Hn. unfold A. rewrite (ent_ofrows RL) by (auto; rewrite nth_map_fin; now apply FC).
      rewrite nth_map_fin. now rewrite LK.
    - intros c i v Hc Hi Hn. unfold stored, A. rewrite rowl_ofrows by lia. rewrite nth_map_fin. rewrite <- LK by auto. split.
      + apply in_lko. apply asc_NoDup. now apply FC.
      + apply lko_in.
  Qed.
End A.
