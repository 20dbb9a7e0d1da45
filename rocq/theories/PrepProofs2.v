(** * PrepProofs2: [do_matching]. *)
From Coq Require Import List Arith ZArith Lia Bool.
From Verif Require Import Base Scalar Spec CSModel CSSpec CSProofs ConvModel ConvSpec ConvProofs ConvProofs3 Mag VecModel PruneModel PreModel PrepModel EqModel EqSpec EqProofs4 PrepProofs1.
Import ListNotations.
Local Open Scope nat_scope.

Lemma set_range_l : forall X (d : X) lo n (f : nat -> X) (l : list X), lo <= n -> n <= length l ->
  wp (for_range lo n (fun i l => set l i (f i)) l) (fun l' => length l' = length l /\
    forall i, nth i l' d = if (lo <=? i) && (i <? n) then f i else nth i l d).
Proof.
  intros X d lo n f l H1 H2. apply for_range_inv with (I := fun k l' => length l' = length l /\
    forall i, nth i l' d = if (lo <=? i) && (i <? k) then f i else nth i l d); auto.
  - split; auto. intros i. destruct (Nat.leb_spec lo i), (Nat.ltb_spec i lo); auto; lia.
  - intros k l' Hk (J1 & J2). apply wp_set; [lia|]. rewrite upd_length. split; auto. intros i. rewrite nth_upd by lia.
    destruct (Nat.eqb_spec i k) as [->|Hn].
    + destruct (Nat.leb_spec lo k); [|lia]. destruct (Nat.ltb_spec k (S k)); [auto|lia].
    + rewrite J2. destruct (Nat.leb_spec lo i); cbn [andb]; auto. destruct (Nat.ltb_spec i k), (Nat.ltb_spec i (S k)); auto; lia.
Qed.

(** The same with a body that first reads. *)
Lemma read_range_l : forall X (d : X) lo n (f : nat -> X) (g : nat -> list X -> res (list X)) (l : list X), lo <= n -> n <= length l ->
  (forall i l', lo <= i < n -> length l' = length l -> (forall j, i <= j -> nth j l' d = nth j l d) -> g i l' = set l' i (f i)) ->
  wp (for_range lo n g l) (fun l' => length l' = length l /\
    forall i, nth i l' d = if (lo <=? i) && (i <? n) then f i else nth i l d).
Proof.
  intros X d lo n f g l H1 H2 H3. apply for_range_inv with (I := fun k l' => length l' = length l /\
    forall i, nth i l' d = if (lo <=? i) && (i <? k) then f i else nth i l d); auto.
  - split; auto. intros i. destruct (Nat.leb_spec lo i), (Nat.ltb_spec i lo); auto; lia.
  - intros k l' Hk (J1 & J2). rewrite H3; auto.
    2:{ intros j Hj. rewrite J2. destruct (Nat.ltb_spec j k); [lia|]. now rewrite andb_false_r. }
    apply wp_set; [lia|]. rewrite upd_length. split; auto. intros i. rewrite nth_upd by lia.
    destruct (Nat.eqb_spec i k) as [->|Hn].
    + destruct (Nat.leb_spec lo k); [|lia]. destruct (Nat.ltb_spec k (S k)); [auto|lia].
    + rewrite J2. destruct (Nat.leb_spec lo i); cbn [andb]; auto. destruct (Nat.ltb_spec i k), (Nat.ltb_spec i (S k)); auto; lia.
Qed.

Section P2.
  Context {O : Ops} (G : Mag O) (K : ROps).
  Variable mone : M G.
  Variable mrec : M G -> M G.
  Variable smul : T O -> M G -> T O.
  Variable msqrt : M G -> M G.
  Variable mexp : RR K -> M G.
  Variable mdiff : M G -> M G.
  Variable mbig : M G -> bool.
  Variable rmag : M G -> RR K.
  Variable rlog : RR K -> RR K.
  Variable rbig : nat -> RR K.
  Variable rhuge : RR K.
  Variable un : nat -> list nat.
  Variable um : nat -> list (M G).
  Variable ur : nat -> list (RR K).
  Hypothesis LN : forall k, length (un k) = k.
  Hypothesis LM : forall k, length (um k) = k.
  Hypothesis LR : forall k, length (ur k) = k.
  Hypothesis INF : req K (rinf K) (rinf K) = true.
  Notation pre_scaling := (pre_scaling G mone mrec smul msqrt mdiff mbig um).
  Notation run B n nz vals := (compute K (T O) (fun v => rmag (mabs G v)) rlog rbig rhuge n nz (map S (ind_start B)) (map S (indices B)) vals
           (un n) (un n) (ur n) (ur nz)).

  (** At most (n + 1) / 2 entries in each primary. *)
  Definition half (B : CS O) : Prop := forall i, i < psize B -> 2 * (st B (S i) - st B i) <= psize B + 1.

  Definition matched (symm : bool) (ps : Z) (B : CS O) (s0 t0 : list (M G)) (p q : list nat) (s t : list (M G)) (info : nat) : Prop :=
    let n := psize B in
    exists B2 s1 t1 perm u d, pre_scaling symm ps B s0 t0 = Ok (B2, s1, t1) /\ same_pattern B B2 /\
      run B n (nnz_of B) (vals B2) = Ok (Good K info perm u d) /\ perm_abs n perm /\ length perm = n /\ length u = n /\ length d = n /\ info <= 2 /\
      (forall i, 1 <= i <= n -> (0 < n1 0%Z perm i)%Z -> stored1 (map S (ind_start B)) (map S (indices B)) i (Z.to_nat (n1 0%Z perm i))) /\
      (info = 0 -> forall i, 1 <= i <= n -> (0 < n1 0%Z perm i)%Z) /\
      (forall i, i < n -> nth i p 0 = Z.abs_nat (nth i perm 0%Z) - 1) /\
      (forall i, i < n -> nth i q 0 = if symm then nth i p 0 else i) /\
      let s2 i := mmul G (nth i s1 (m0 G)) (mexp (nth i d (r0 K))) in
      let t2 i := mmul G (nth i t1 (m0 G)) (mexp (nth i u (r0 K))) in
      (forall i, i < n -> nth i s (m0 G) = if symm then msqrt (mmul G (s2 i) (t2 i)) else s2 i) /\
      (forall i, i < n -> nth i t (m0 G) = if symm then msqrt (mmul G (s2 i) (t2 i)) else t2 i).

  Lemma do_matching_l : forall symm ps B p q s t, valid B -> tight B -> ssize B = psize B -> 1 <= psize B -> 1 <= nnz_of B -> half B ->
    psize B <= length p -> psize B <= length q -> psize B <= length s -> psize B <= length t ->
    wp (do_matching G K mone mrec smul msqrt mexp mdiff mbig rmag rlog rbig rhuge un um ur symm ps B p q s t) (fun '(p', q', s', t', info) =>
      length p' = length p /\ length q' = length q /\ length s' = length s /\ length t' = length t /\
      matched symm ps B s t p' q' s' t' info).
  Proof.
    intros symm ps B p q s t (W & SO) TT SQ Hn Hz HF Lp Lq Ls Lt. unfold do_matching. cbv zeta. rewrite (nnz_ok B W TT) by auto. wpb. apply wp_ok.
    pose proof (pre_scaling_l G mone mrec smul msqrt mdiff mbig um LM B W TT SQ symm ps s t Ls Lt) as P. apply wp_inv in P.
    destruct P as ([[B2 s1] t1] & EP & SP & L1 & L2). rewrite EP. cbn [bind]. pose proof SP as (SP1 & SP2 & SP3 & SP4 & SP5).
    rewrite SP3, SP4. pose proof TT as (T1 & T2 & T3). set (n := psize B) in *.
    destruct (compute_l K (T O) (fun v => rmag (mabs G v)) rlog rbig rhuge INF (fun _ => True) n (nnz_of B) (map S (ind_start B)) (map S (indices B)) (vals B2)
      (un n) (un n) (ur n) (ur (nnz_of B))) as (info & perm & u & d & E & X0 & X1 & X2 & X3 & X4 & X5 & _); auto.
    { apply shift_pattern; auto. }
    { intros j Hj. rewrite !ip_shift by (auto; fold n; lia). replace (S j - 1) with (S (j - 1)) by lia. specialize (HF (j - 1) ltac:(fold n; lia)). fold n in HF. lia. }
    { rewrite map_length. lia. }
    { rewrite LR, map_length. unfold nnz_of. fold n. lia. }
    rewrite E. cbn [bind]. pose proof X3 as (LP & X31 & X32).
    set (s2 := fun i => mmul G (nth i s1 (m0 G)) (mexp (nth i d (r0 K)))). set (t2 := fun i => mmul G (nth i t1 (m0 G)) (mexp (nth i u (r0 K)))).
    wpb. eapply wp_conseq with (P := fun '(s', t') => length s' = length s /\ length t' = length t /\
       (forall i, i < n -> nth i s' (m0 G) = s2 i) /\ (forall i, i < n -> nth i t' (m0 G) = t2 i)).
    { eapply wp_conseq; [apply for_range_inv with (I := fun k '(s', t') => length s' = length s /\ length t' = length t /\
        (forall i, nth i s' (m0 G) = if i <? k then s2 i else nth i s1 (m0 G)) /\ (forall i, nth i t' (m0 G) = if i <? k then t2 i else nth i t1 (m0 G))); [lia| |]|].
      - repeat split; auto.
      - intros k [s' t'] Hk (J1 & J2 & J3 & J4). wpb. apply wp_get with (d := m0 G); [lia|]. wpb. apply wp_get with (d := r0 K); [lia|].
        wpb. apply wp_set; [lia|]. wpb. apply wp_get with (d := m0 G); [lia|]. wpb. apply wp_get with (d := r0 K); [lia|].
        wpb. apply wp_set; [lia|]. apply wp_ok. rewrite !upd_length. split; [auto|]. split; [auto|]. split; intros i; rewrite nth_upd by lia.
        + destruct (Nat.eqb_spec i k) as [->|Hn']. { destruct (Nat.ltb_spec k (S k)); [|lia]. rewrite J3, Nat.ltb_irrefl. reflexivity. }
          rewrite J3. destruct (Nat.ltb_spec i k), (Nat.ltb_spec i (S k)); auto; lia.
        + destruct (Nat.eqb_spec i k) as [->|Hn']. { destruct (Nat.ltb_spec k (S k)); [|lia]. rewrite J4, Nat.ltb_irrefl. reflexivity. }
          rewrite J4. destruct (Nat.ltb_spec i k), (Nat.ltb_spec i (S k)); auto; lia.
      - intros [s' t'] (J1 & J2 & J3 & J4). repeat split; auto; intros i Hi; [rewrite J3|rewrite J4]; destruct (Nat.ltb_spec i n); auto; lia. }
    intros [s' t'] (J1 & J2 & J3 & J4). wpb.
    eapply wp_conseq; [apply (read_range_l _ 0 0 n (fun i => Z.abs_nat (nth i perm 0%Z) - 1)); [lia|lia|]|].
    { intros i l' Hi _ _. rewrite (get_nth _ _ _ 0%Z) by lia. reflexivity. }
    intros p' (Q1 & Q2). assert (Q3 : forall i, i < n -> nth i p' 0 = Z.abs_nat (nth i perm 0%Z) - 1).
    { intros i Hi. rewrite Q2. cbn [Nat.leb andb]. destruct (Nat.ltb_spec i n); [auto|lia]. } clear Q2.
    assert (FIN : forall q' s'' t'', (forall i, i < n -> nth i q' 0 = if symm then nth i p' 0 else i) ->
      (forall i, i < n -> nth i s'' (m0 G) = if symm then msqrt (mmul G (s2 i) (t2 i)) else s2 i) ->
      (forall i, i < n -> nth i t'' (m0 G) = if symm then msqrt (mmul G (s2 i) (t2 i)) else t2 i) -> matched symm ps B s t p' q' s'' t'' info).
    { intros q' s'' t'' H1 H2 H3. exists B2, s1, t1, perm, u, d. fold n. repeat (split; [solve [auto]|]). exact H3. }
    destruct symm.
    - wpb. eapply wp_conseq; [apply (read_range_l _ 0 0 n (fun i => nth i p' 0)); [lia|lia|]|].
      { intros i l' Hi _ _. rewrite (get_nth _ _ _ 0) by lia. reflexivity. }
      intros q' (Y1 & Y2). wpb.
      eapply wp_conseq; [apply (read_range_l _ (m0 G) 0 n (fun i => msqrt (mmul G (s2 i) (t2 i)))); [lia|lia|]|].
      { intros i l' Hi L J. rewrite (get_nth _ _ _ (m0 G)) by lia. cbn [bind]. rewrite (get_nth _ _ _ (m0 G)) by lia. cbn [bind]. rewrite J, J3, J4 by lia. reflexivity. }
      intros s'' (Y3 & Y4). wpb.
      eapply wp_conseq; [apply (read_range_l _ (m0 G) 0 n (fun i => nth i s'' (m0 G))); [lia|lia|]|].
      { intros i l' Hi L J. rewrite (get_nth _ _ _ (m0 G)) by lia. reflexivity. }
      intros t'' (Y5 & Y6). apply wp_ok. do 4 (split; [lia|]). cbn [Nat.leb andb] in *. apply FIN.
      + intros i Hi. rewrite Y2. destruct (Nat.ltb_spec i n); [auto|lia].
      + intros i Hi. rewrite Y4. destruct (Nat.ltb_spec i n); [auto|lia].
      + intros i Hi. rewrite Y6, Y4. destruct (Nat.ltb_spec i n); [auto|lia].
    - wpb. eapply wp_conseq; [apply (set_range_l _ 0 0 n (fun i => i)); lia|]. intros q' (Y1 & Y2). apply wp_ok. do 4 (split; [lia|]). apply FIN; auto.
      intros i Hi. rewrite Y2. cbn [Nat.leb andb]. destruct (Nat.ltb_spec i n); [auto|lia].
  Qed.

  (** The permutations of the matching. *)
  Lemma matched_perm : forall symm ps B s0 t0 p q s t info, matched symm ps B s0 t0 p q s t info -> psize B <= length p -> psize B <= length q ->
    is_perm (psize B) (firstn (psize B) p) /\ is_perm (psize B) (firstn (psize B) q).
  Proof.
    intros symm ps B s0 t0 p q s t info (B2 & s1 & t1 & perm & u & d & _ & _ & _ & (LP & R1 & R2) & _ & _ & _ & _ & _ & _ & P & Q & _) Lp Lq.
    set (n := psize B) in *.
    assert (E : forall i, i < n -> S (nth i p 0) = Z.abs_nat (n1 0%Z perm (S i)) /\ nth i p 0 < n).
    { intros i Hi. rewrite P by auto. pose proof (R1 (S i) ltac:(lia)) as R. unfold n1 in *. replace (S i - 1) with i in * by lia. lia. }
    assert (PP : is_perm n (firstn n p)).
    { split; [rewrite firstn_length; lia|]. split.
      - intros i Hi. rewrite nth_firstn_lt by auto. apply E; auto.
      - intros i j Hi Hj. rewrite !nth_firstn_lt by auto. intros Eq. destruct (E i Hi) as (E1 & _). destruct (E j Hj) as (E2 & _).
        enough (S i = S j) by lia. apply R2; lia. }
    split; [auto|]. destruct symm.
    - replace (firstn n q) with (firstn n p); [auto|]. apply (list_ext _ _ _ 0). { rewrite !firstn_length; lia. }
      intros i Hi. rewrite firstn_length in Hi. rewrite !nth_firstn_lt by lia. symmetry. apply Q. lia.
    - split; [rewrite firstn_length; lia|]. split; intros i; intros; rewrite nth_firstn_lt, Q in * by lia; [lia|]. rewrite nth_firstn_lt, Q in * by lia. lia.
  Qed.

  (** With flag 0 position [i] of the permutations is a stored entry. *)
  Lemma matched_stored : forall symm ps B s0 t0 p q s t info, wf B -> tight B -> ssize B = psize B ->
    matched symm ps B s0 t0 p q s t info -> info = 0 -> forall i, i < psize B -> nth i p 0 < psize B /\ exists v, stored B (nth i p 0) i v.
  Proof.
    intros symm ps B s0 t0 p q s t info W TT SQ (B2 & s1 & t1 & perm & u & d & _ & _ & _ & (LP & R1 & R2) & _ & _ & _ & _ & S1 & S0 & P & Q & _) E0 i Hi.
    set (n := psize B) in *. rewrite P by auto. specialize (S0 E0 (S i) ltac:(lia)). specialize (S1 (S i) ltac:(lia) S0). specialize (R1 (S i) ltac:(lia)).
    unfold n1 in S0, S1, R1. replace (S i - 1) with i in * by lia. set (z := nth i perm 0%Z) in *. destruct S1 as (k & K1 & K2).
    assert (Ez : Z.to_nat z = Z.abs_nat z) by lia. rewrite Ez in K1. set (j := Z.abs_nat z) in *. split; [lia|].
    fold (n1 0 (map S (indices B)) k) in K2. rewrite !ip_shift in K1 by (auto; fold n; lia). replace (S j - 1) with (S (j - 1)) in K1 by lia.
    pose proof (st_le B W TT SQ (j - 1) ltac:(fold n; lia)) as (Y1 & Y2 & Y3). rewrite irn_shift in K2 by lia.
    exists (vl B (k - 1)). unfold stored, rowl. apply in_map_iff. exists (k - 1). split; [f_equal; lia|]. apply in_seq. lia.
  Qed.
End P2.
