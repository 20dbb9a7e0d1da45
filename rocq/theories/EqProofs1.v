(** * EqProofs1: loops, 1-based arrays, the heap of the matching kernel. *)
From Coq Require Import List Arith ZArith Bool Lia.
From Verif Require Import Base EqModel EqSpec.
Import ListNotations.

Notation N1 := (n1 0).

Lemma wp_g1 : forall A (l : list A) i d (Q : A -> Prop), 1 <= i <= length l -> Q (n1 d l i) -> wp (g1 l i) Q.
Proof. intros A l i d Q H HQ. destruct i; [lia|]. cbn [g1]. apply wp_get with (d := d); [lia|]. unfold n1 in HQ. now rewrite Nat.sub_succ, Nat.sub_0_r in HQ. Qed.

Lemma wp_s1 : forall A (l : list A) i v (Q : list A -> Prop), 1 <= i <= length l -> Q (upd l (i - 1) v) -> wp (s1 l i v) Q.
Proof. intros A l i v Q H HQ. destruct i; [lia|]. cbn [s1]. apply wp_set; [lia|]. now rewrite Nat.sub_succ, Nat.sub_0_r in HQ. Qed.

Lemma n1_upd : forall A (d : A) l i j v, 1 <= i <= length l -> 1 <= j -> n1 d (upd l (i - 1) v) j = if j =? i then v else n1 d l j.
Proof.
  intros. unfold n1. rewrite nth_upd by lia. destruct (Nat.eqb_spec (j - 1) (i - 1)), (Nat.eqb_spec j i); auto; lia.
Qed.
Lemma n1_eq : forall A (d : A) l i v, 1 <= i <= length l -> n1 d (upd l (i - 1) v) i = v.
Proof. intros. rewrite n1_upd by lia. now rewrite Nat.eqb_refl. Qed.
Lemma n1_neq : forall A (d : A) l i j v, 1 <= i <= length l -> 1 <= j -> j <> i -> n1 d (upd l (i - 1) v) j = n1 d l j.
Proof. intros. rewrite n1_upd by lia. destruct (Nat.eqb_spec j i); auto; lia. Qed.
Lemma n1_repeat : forall A (a d : A) n i, 1 <= i <= n -> n1 d (repeat a n) i = a.
Proof. intros. unfold n1. apply nth_repeat_any. lia. Qed.

(** Rewrites a read after a write with known (dis)equality. *)
Ltac n1s := repeat first [rewrite n1_eq by (auto; try lia) | rewrite n1_neq by (auto; try lia; congruence)].
Ltac g1s z := apply wp_bind; apply (fun l i => wp_g1 _ l i z); [try lia|].
Ltac s1s := apply wp_bind; apply wp_s1; [try lia|].

Lemma wp_loop : forall S (I : nat -> S -> Prop) (P : S -> Prop) n (f : S -> res (bool * S)) s,
  I 0 s -> (forall s, I n s -> P s) ->
  (forall k s, k < n -> I k s -> wp (f s) (fun r => if fst r then I (Datatypes.S k) (snd r) else P (snd r))) ->
  wp (loop n f s) P.
Proof.
  intros S I P n f s H0 HP Hs.
  assert (G : forall m k s, k + m = n -> I k s -> wp (loop m f s) P).
  { induction m; intros k s1 E H1; cbn [loop].
    - apply wp_ok. apply HP. now replace n with k by lia.
    - wpb. eapply wp_conseq. { apply (Hs k); [lia|auto]. }
      intros [go s2] H2. cbn [fst snd] in H2. destruct go; [|exact H2]. apply (IHm (Datatypes.S k)); [lia|auto]. }
  now apply (G n 0).
Qed.

Lemma wp_forever : forall S (I : S -> Prop) (mu : S -> nat) (P : S -> Prop) (f : S -> res (bool * S)) fuel s,
  I s -> mu s < fuel ->
  (forall s, I s -> wp (f s) (fun r => if fst r then I (snd r) /\ mu (snd r) < mu s else P (snd r))) ->
  wp (forever fuel f s) P.
Proof.
  induction fuel; intros s H0 Hm Hs; [lia|]. cbn [forever]. wpb. eapply wp_conseq; [apply Hs, H0|].
  intros [go s2] H2. cbn [fst snd] in H2. destruct go; [|exact H2]. destruct H2. apply IHfuel; auto; lia.
Qed.

Section Heap.
  Variable K : ROps.
  Notation R := (RR K).
  Variable n : nat.

  (** Positions in use. *)
  Definition reg (qlen low pos : nat) : Prop := 1 <= pos <= n /\ (pos <= qlen \/ low <= pos).

  (** [q] and [l] are inverse to each other on the positions in use, except for the hole [h],
      the row [j] about to be placed there and the removed row [x]. *)
  Definition HI (qlen low x j h : nat) (q l : list nat) : Prop :=
    length q = n /\ length l = n /\
    (forall pos, reg qlen low pos -> pos <> h ->
       1 <= N1 q pos <= n /\ N1 q pos <> x /\ N1 q pos <> j /\ N1 l (N1 q pos) = pos) /\
    (forall i, 1 <= i <= n -> i <> x -> i <> j -> N1 l i = 0 \/ (reg qlen low (N1 l i) /\ N1 l i <> h /\ N1 q (N1 l i) = i)).

  (** Only the heap part changes. *)
  Definition FR (qlen x j : nat) (q l q' l' : list nat) : Prop :=
    (forall pos, 1 <= pos -> qlen < pos -> N1 q' pos = N1 q pos) /\
    (forall i, 1 <= i <= n -> i <> x -> i <> j ->
       (N1 l i = 0 -> N1 l' i = 0) /\ (qlen < N1 l i -> N1 l' i = N1 l i) /\ (1 <= N1 l i <= qlen -> 1 <= N1 l' i <= qlen)).

  Lemma FR_refl : forall qlen x j q l, FR qlen x j q l q l.
  Proof. intros. split; auto. Qed.
  Lemma FR_trans : forall qlen x j q l q1 l1 q2 l2, FR qlen x j q l q1 l1 -> FR qlen x j q1 l1 q2 l2 -> FR qlen x j q l q2 l2.
  Proof.
    intros qlen x j q l q1 l1 q2 l2 [A B] [C D]. split.
    - intros. rewrite C, A; auto.
    - intros i Hi Hx Hj. destruct (B i Hi Hx Hj) as (B1 & B2 & B3). destruct (D i Hi Hx Hj) as (D1 & D2 & D3).
      split; [auto|]. split; [|auto]. intros H. rewrite D2; [auto|]. rewrite B2; auto.
  Qed.

  Lemma hole_move : forall qlen low x j h h' q l, HI qlen low x j h q l -> qlen < low -> qlen <= n ->
    1 <= h <= qlen -> 1 <= h' <= qlen -> h' <> h ->
    HI qlen low x j h' (upd q (h - 1) (N1 q h')) (upd l (N1 q h' - 1) h) /\
    FR qlen x j q l (upd q (h - 1) (N1 q h')) (upd l (N1 q h' - 1) h).
  Proof.
    intros qlen low x j h h' q l (Lq & Ll & A & B) Hlow Hn Hh Hh' Hne.
    assert (Hr' : reg qlen low h') by (unfold reg; lia).
    destruct (A h' Hr' Hne) as (A1 & A2 & A3 & A4).
    split.
    - split; [now rewrite upd_length|]. split; [now rewrite upd_length|]. split.
      + intros pos Hr Hp.
        assert (1 <= pos) by (destruct Hr; lia).
        rewrite n1_upd by lia. destruct (Nat.eqb_spec pos h).
        * subst. n1s. auto.
        * destruct (A pos Hr n0) as (E1 & E2 & E3 & E4). rewrite n1_neq; auto; try lia. congruence.
      + intros i Hi Hx Hj. destruct (Nat.eq_dec i (N1 q h')) as [->|Hq].
        * right. n1s. split; [unfold reg; lia|]. auto.
        * rewrite n1_neq by (auto; lia). destruct (B i Hi Hx Hj) as [E|(E1 & E2 & E3)]; [auto|]. right.
          split; auto. split. { intros E. apply Hq. now rewrite <- E, E3. }
          rewrite n1_neq; auto; try lia. destruct E1; lia.
    - split.
      + intros pos H1 H2. apply n1_neq; lia.
      + intros i Hi Hx Hj. destruct (Nat.eq_dec i (N1 q h')) as [->|Hq].
        * rewrite A4, n1_eq by lia. repeat split; lia.
        * rewrite n1_neq by (auto; lia). auto.
  Qed.

  Lemma place_l : forall qlen low x j h q l, HI qlen low x j h q l -> qlen < low -> qlen <= n ->
    1 <= h <= qlen -> 1 <= j <= n -> j <> x ->
    wp (place j (q, l, h)) (fun '(q', l') => HI qlen low x 0 0 q' l' /\ FR qlen x j q l q' l' /\ N1 l' j = h /\ N1 q' h = j).
  Proof.
    intros qlen low x j h q l (Lq & Ll & A & B) Hlow Hn Hh Hj Hx. unfold place.
    s1s. s1s. apply wp_ok. split; [|split].
    - split; [now rewrite upd_length|]. split; [now rewrite upd_length|]. split.
      + intros pos Hr Hp.
        assert (1 <= pos) by (destruct Hr; lia).
        rewrite n1_upd by lia. destruct (Nat.eqb_spec pos h).
        * subst. n1s. repeat split; auto; lia.
        * destruct (A pos Hr n0) as (E1 & E2 & E3 & E4). rewrite n1_neq by (auto; lia). repeat split; auto; lia.
      + intros i Hi Hxi Hj0. destruct (Nat.eq_dec i j) as [->|Hij].
        * right. n1s. split; [unfold reg; lia|]. split; [lia|auto].
        * rewrite n1_neq by (auto; lia). destruct (B i Hi Hxi Hij) as [E|(E1 & E2 & E3)]; [auto|]. right.
          split; auto. split. { destruct E1; lia. } rewrite n1_neq; auto; try lia. destruct E1; lia.
    - split.
      + intros pos H1 H2. apply n1_neq; lia.
      + intros i Hi Hxi Hij. rewrite n1_neq by (auto; lia). auto.
    - n1s. auto.
  Qed.

  (** Opening and closing. *)
  Lemma hi_open : forall qlen low j q l, HI qlen low 0 0 0 q l -> 1 <= j <= n -> N1 l j <> 0 ->
    HI qlen low 0 j (N1 l j) q l.
  Proof.
    intros qlen low j q l (Lq & Ll & A & B) Hj Hl. split; [auto|]. split; [auto|]. split.
    - intros pos Hr Hp. assert (pos <> 0) by (destruct Hr; lia).
      destruct (A pos Hr H) as (A1 & A2 & A3 & A4). repeat split; auto; try lia. intros E. apply Hp. now rewrite <- A4, E.
    - intros i Hi Hx Hij. destruct (B i Hi Hx) as [E|(E1 & E2 & E3)]; [lia|auto|]. right. split; auto. split; auto.
      intros E. apply Hij. destruct (B j Hj) as [F|(F1 & F2 & F3)]; try lia. congruence.
  Qed.

  (** A new row at the end of the heap. *)
  Lemma hi_insert : forall qlen low j q l, HI qlen low 0 0 0 q l -> 1 <= j <= n -> N1 l j = 0 -> S qlen < low -> S qlen <= n ->
    HI (S qlen) low 0 j (S qlen) q (upd l (j - 1) (S qlen)).
  Proof.
    intros qlen low j q l (Lq & Ll & A & B) Hj Hl Hlow Hn. split; [auto|]. split; [now rewrite upd_length|]. split.
    - intros pos Hr Hp. assert (reg qlen low pos) by (unfold reg in *; lia). assert (pos <> 0) by (destruct Hr; lia).
      destruct (A pos H H0) as (A1 & A2 & A3 & A4).
      assert (N1 q pos <> j) by (intros E; rewrite E in A4; lia).
      rewrite n1_neq by (auto; lia). auto.
    - intros i Hi Hx Hij. rewrite n1_neq by (auto; lia). destruct (B i Hi Hx) as [E|(E1 & E2 & E3)]; [lia|auto|]. right.
      unfold reg in *. repeat split; auto; lia.
  Qed.

  (** A row outside [q] may be regarded as removed. *)
  Lemma hi_out : forall qlen low x q l, HI qlen low 0 0 0 q l -> 1 <= x <= n -> N1 l x = 0 -> HI qlen low x 0 0 q l.
  Proof.
    intros qlen low x q l (Lq & Ll & A & B) Hx Hl. split; [auto|]. split; [auto|]. split.
    - intros pos Hr Hp. destruct (A pos Hr Hp) as (A1 & A2 & A3 & A4). repeat split; auto; try lia.
      intros E. rewrite E in A4. destruct Hr; lia.
    - intros i Hi _ H0. apply B; auto.
  Qed.

  (** The removed row enters the upper part. *)
  Lemma push_low : forall qlen low x q l, HI qlen low x 0 0 q l -> 1 <= x <= n -> S qlen < low -> low <= S n ->
    HI qlen (low - 1) 0 0 0 (upd q (low - 1 - 1) x) (upd l (x - 1) (low - 1)).
  Proof.
    intros qlen low x q l (Lq & Ll & A & B) Hx Hlow Hn. split; [now rewrite upd_length|]. split; [now rewrite upd_length|]. split.
    - intros pos Hr Hp. destruct (Nat.eq_dec pos (low - 1)) as [->|Hne].
      + n1s. repeat split; auto; lia.
      + assert (reg qlen low pos) by (unfold reg in *; lia).
        destruct (A pos H Hp) as (A1 & A2 & A3 & A4). rewrite n1_neq by lia. rewrite n1_neq by lia. repeat split; auto; lia.
    - intros i Hi H0 H1. destruct (Nat.eq_dec i x) as [->|Hne].
      + right. n1s. unfold reg. repeat split; auto; lia.
      + rewrite n1_neq by lia. destruct (B i Hi Hne H1) as [E|(E1 & E2 & E3)]; [auto|]. right.
        split. { unfold reg in *; lia. } split; [auto|]. rewrite n1_neq; auto; unfold reg in *; lia.
  Qed.

  (** There is room for one more row. *)
  Lemma space : forall qlen low x q l, HI qlen low 0 0 0 q l -> 1 <= x <= n -> N1 l x = 0 -> qlen < low -> low <= S n -> S qlen < low.
  Proof.
    intros qlen low x q l (Lq & Ll & A & B) Hx Hl Hlow Hn.
    destruct (Nat.eq_dec low (S qlen)); [|lia]. exfalso.
    (* then every position is in use, so q is onto *)
    set (s := x :: map (N1 q) (seq 1 n)).
    assert (RG : forall pos, In pos (seq 1 n) -> reg qlen low pos).
    { intros pos H. apply in_seq in H. unfold reg. lia. }
    assert (ND : NoDup s).
    { constructor.
      - intros H. apply in_map_iff in H. destruct H as (pos & E & Hp). apply RG in Hp.
        destruct (A pos Hp) as (_ & _ & _ & A4); [destruct Hp; lia|]. rewrite E in A4. destruct Hp; lia.
      - apply NoDup_nth with (d := 0). intros i i' Hi Hi'. rewrite map_length, seq_length in Hi, Hi'.
        rewrite !nth_indep with (d := 0) (d' := N1 q 0) by (rewrite map_length, seq_length; auto).
        rewrite !map_nth, !seq_nth by auto. intros E.
        assert (R1 : reg qlen low (1 + i)) by (apply RG, in_seq; lia).
        assert (R2 : reg qlen low (1 + i')) by (apply RG, in_seq; lia).
        destruct (A _ R1) as (_ & _ & _ & X); [lia|]. destruct (A _ R2) as (_ & _ & _ & Y); [lia|].
        rewrite E in X. rewrite X in Y. lia. }
    assert (IN : incl s (seq 1 n)).
    { intros y [<-|H]; [apply in_seq; lia|]. apply in_map_iff in H. destruct H as (pos & E & Hp). apply RG in Hp.
      destruct (A pos Hp) as (A1 & _); [destruct Hp; lia|]. apply in_seq. lia. }
    pose proof (NoDup_incl_length ND IN) as L. unfold s in L. cbn [length] in L. rewrite map_length, seq_length in L. lia.
  Qed.

  (** ** The loops *)
  Lemma sift_up_l : forall qlen low x j d dj (Ld : length d = n) q l pos,
    HI qlen low x j pos q l -> qlen < low -> qlen <= n -> 2 <= pos <= qlen ->
    wp (sift_up K d dj (q, l, pos)) (fun r => let '(q', l', pos') := snd r in
      HI qlen low x j pos' q' l' /\ FR qlen x j q l q' l' /\ 1 <= pos' <= qlen /\ (fst r = true -> 2 <= pos')).
  Proof.
    intros qlen low x j d dj Ld q l pos HH Hlow Hn Hpos. unfold sift_up.
    pose proof HH as (Lq & Ll & A & B).
    assert (D : 1 <= Nat.div2 pos < pos).
    { split; [|apply Nat.lt_div2; lia]. destruct pos as [|[|p]]; try lia. cbn [Nat.div2]. lia. }
    assert (Hr : reg qlen low (Nat.div2 pos)) by (unfold reg; lia).
    destruct (A _ Hr ltac:(lia)) as (A1 & _).
    g1s 0. apply wp_bind. apply wp_g1 with (d := r0 K); [lia|].
    destruct (rle K _ dj).
    - apply wp_ok. cbn [fst snd]. split; [auto|]. split; [apply FR_refl|]. split; [lia|discriminate].
    - s1s. s1s. apply wp_ok. cbn [fst snd].
      destruct (hole_move qlen low x j pos (Nat.div2 pos) q l HH) as (M1 & M2); auto; try lia.
      split; [auto|]. split; [auto|]. split; [lia|]. intros H. apply Nat.ltb_lt in H. lia.
  Qed.

  Lemma sift_up_loop : forall qlen low x j d dj (Ld : length d = n) q l pos k,
    HI qlen low x j pos q l -> qlen < low -> qlen <= n -> 2 <= pos <= qlen ->
    wp (loop k (sift_up K d dj) (q, l, pos)) (fun '(q', l', pos') =>
      HI qlen low x j pos' q' l' /\ FR qlen x j q l q' l' /\ 1 <= pos' <= qlen).
  Proof.
    intros qlen low x j d dj Ld q l pos k HH Hlow Hn Hpos.
    apply wp_loop with (I := fun _ '(q', l', pos') => HI qlen low x j pos' q' l' /\ FR qlen x j q l q' l' /\ 2 <= pos' <= qlen).
    - split; [auto|]. split; [apply FR_refl|lia].
    - intros [[q' l'] pos'] (H1 & H2 & H3). split; [auto|]. split; [auto|lia].
    - intros _ [[q' l'] pos'] _ (H1 & H2 & H3). eapply wp_conseq; [apply sift_up_l; eauto|].
      intros [go [[q2 l2] p2]]. cbn [fst snd]. intros (G1 & G2 & G3 & G4).
      pose proof (FR_trans _ _ _ _ _ _ _ _ _ H2 G2). destruct go; split; auto; split; auto. specialize (G4 eq_refl). lia.
  Qed.

  Lemma sift_down_loop : forall qlen low x j d dj (Ld : length d = n) q l pos k,
    HI qlen low x j pos q l -> qlen < low -> qlen <= n -> 1 <= pos -> (pos <= qlen \/ qlen = 0) ->
    wp (loop k (sift_down K d dj qlen) (q, l, pos)) (fun '(q', l', pos') =>
      HI qlen low x j pos' q' l' /\ FR qlen x j q l q' l' /\ 1 <= pos' /\ (pos' <= qlen \/ (pos' = pos /\ q' = q /\ l' = l))).
  Proof.
    intros qlen low x j d dj Ld q l pos k HH Hlow Hn H1 Hpos.
    apply wp_loop with (I := fun _ '(q', l', pos') => HI qlen low x j pos' q' l' /\ FR qlen x j q l q' l' /\
       1 <= pos' /\ (pos' <= qlen \/ (pos' = pos /\ q' = q /\ l' = l))).
    - split; [auto|]. split; [apply FR_refl|]. split; auto.
    - auto.
    - intros _ [[q' l'] pos'] _ HI'. pose proof HI' as (G1 & G2 & G3 & G4). unfold sift_down.
      destruct (Nat.ltb_spec qlen (2 * pos')). { apply wp_ok. cbn [fst snd]. exact HI'. }
      assert (pos' <= qlen) by lia.
      pose proof G1 as (Lq & Ll & A & B).
      assert (X : forall p, 1 <= p <= qlen -> p <> pos' -> 1 <= N1 q' p <= n). { intros p Hp Hne. apply A; auto. unfold reg; lia. }
      assert (MOVE : forall p dk, 1 <= p <= qlen -> p <> pos' ->
        wp (if rle K dj dk then Ok (false, (q', l', pos'))
            else qk <- g1 q' p;; q <- s1 q' pos' qk;; l <- s1 l' qk pos';; Ok (true, (q, l, p)))
          (fun r => if fst r then (let '(q'0, l'0, pos'0) := snd r in HI qlen low x j pos'0 q'0 l'0 /\ FR qlen x j q l q'0 l'0 /\ 1 <= pos'0 /\ (pos'0 <= qlen \/ (pos'0 = pos /\ q'0 = q /\ l'0 = l)))
             else (let '(q'0, l'0, pos'0) := snd r in HI qlen low x j pos'0 q'0 l'0 /\ FR qlen x j q l q'0 l'0 /\ 1 <= pos'0 /\ (pos'0 <= qlen \/ (pos'0 = pos /\ q'0 = q /\ l'0 = l))))).
      { intros p dk Hp Hne. destruct (rle K dj dk).
        - apply wp_ok. cbn [fst snd]. exact HI'.
        - specialize (X p Hp Hne). g1s 0. s1s. s1s. apply wp_ok. cbn [fst snd].
          destruct (hole_move qlen low x j pos' p q' l' G1) as (M1 & M2); auto; try lia.
          split; [auto|]. split; [eapply FR_trans; eauto|]. split; [lia|]. left. lia. }
      pose proof (X (2 * pos') ltac:(lia) ltac:(lia)).
      g1s 0. apply wp_bind. apply wp_g1 with (d := r0 K); [lia|].
      destruct (Nat.ltb_spec (2 * pos') qlen).
      + pose proof (X (S (2 * pos')) ltac:(lia) ltac:(lia)).
        wpb. g1s 0. apply wp_bind. apply wp_g1 with (d := r0 K); [lia|]. apply wp_ok.
        destruct (rlt K _ _); apply MOVE; lia.
      + wpb. apply wp_ok. apply MOVE; lia.
  Qed.

  (** ** The three heap routines *)
  Lemma heap_up_l : forall qlen low j d (Ld : length d = n) q l,
    HI qlen low 0 j (N1 l j) q l -> qlen < low -> qlen <= n -> 1 <= j <= n -> 1 <= N1 l j <= qlen ->
    wp (heap_up K j n q d l) (fun '(q', l') => HI qlen low 0 0 0 q' l' /\ FR qlen 0 j q l q' l' /\ 1 <= N1 l' j <= qlen).
  Proof.
    intros qlen low j d Ld q l HH Hlow Hn Hj Hl. unfold heap_up. pose proof HH as (Lq & Ll & A & B).
    g1s 0. wpb.
    apply wp_conseq with (P := fun '(q', l', pos') => HI qlen low 0 j pos' q' l' /\ FR qlen 0 j q l q' l' /\ 1 <= pos' <= qlen).
    - destruct (Nat.ltb_spec 1 (N1 l j)).
      + apply wp_bind. apply wp_g1 with (d := r0 K); [lia|]. apply sift_up_loop; auto; lia.
      + apply wp_ok. split; [auto|]. split; [apply FR_refl|lia].
    - intros [[q' l'] pos'] (G1 & G2 & G3). eapply wp_conseq; [eapply place_l; eauto; lia|].
      intros [q2 l2] (P1 & P2 & P3 & P4). split; [auto|]. split; [eapply FR_trans; eauto|]. rewrite P3; lia.
  Qed.

  (** Removing the last position of the heap: row [q qlen] must be placed elsewhere. *)
  Lemma hi_shrink : forall qlen low x h q l, HI qlen low 0 0 0 q l -> qlen < low -> qlen <= n -> 1 <= h < qlen -> x = N1 q h ->
    HI (qlen - 1) low x (N1 q qlen) h q l.
  Proof.
    intros qlen low x h q l (Lq & Ll & A & B) Hlow Hn Hh ->.
    destruct (A h) as (H1 & _ & _ & H4); [unfold reg; lia|lia|].
    destruct (A qlen) as (J1 & _ & _ & J4); [unfold reg; lia|lia|].
    split; [auto|]. split; [auto|]. split.
    - intros pos Hr Hp. assert (R1 : reg qlen low pos) by (unfold reg in *; lia).
      destruct (A pos R1) as (A1 & A2 & A3 & A4); [destruct Hr; lia|]. split; [auto|].
      split. { intros E. rewrite E in A4. lia. } split; [|auto].
      intros E. rewrite E in A4. unfold reg in Hr. lia.
    - intros i Hi Hx Hj. destruct (B i Hi) as [E|(E1 & E2 & E3)]; [lia|lia|auto|]. right. split.
      + assert (N1 l i <> qlen) by (intros E; rewrite E in E3; congruence). unfold reg in *. lia.
      + split; [|auto]. intros E. rewrite E in E3. congruence.
  Qed.

  Lemma hi_last : forall qlen low q l, HI qlen low 0 0 0 q l -> qlen < low -> 1 <= qlen <= n ->
    HI (qlen - 1) low (N1 q qlen) 0 0 q l.
  Proof.
    intros qlen low q l (Lq & Ll & A & B) Hlow Hn.
    destruct (A qlen) as (J1 & _ & _ & J4); [unfold reg; lia|lia|].
    split; [auto|]. split; [auto|]. split.
    - intros pos Hr Hp. assert (R1 : reg qlen low pos) by (unfold reg in *; lia).
      destruct (A pos R1) as (A1 & A2 & A3 & A4); [destruct Hr; lia|]. split; [auto|]. split; [|auto].
      intros E. rewrite E in A4. unfold reg in Hr. lia.
    - intros i Hi Hx Hj. destruct (B i Hi) as [E|(E1 & E2 & E3)]; [lia|lia|auto|]. right. split; [|auto].
      assert (N1 l i <> qlen) by (intros E; rewrite E in E3; congruence). unfold reg in *. lia.
  Qed.

  (** What removal of row [x] leaves: rows keep their kind of position. *)
  Definition KEEP (qlen x : nat) (q l q' l' : list nat) : Prop :=
    (forall pos, 1 <= pos -> qlen < pos -> N1 q' pos = N1 q pos) /\
    (forall i, 1 <= i <= n -> i <> x ->
       (N1 l i = 0 -> N1 l' i = 0) /\ (qlen < N1 l i -> N1 l' i = N1 l i) /\ (1 <= N1 l i <= qlen -> 1 <= N1 l' i <= qlen - 1)).

  Lemma keep_l : forall qlen low x j q l q' l', HI qlen low 0 0 0 q l -> 1 <= qlen -> j = N1 q qlen -> 1 <= j <= n ->
    N1 l j = qlen -> FR (qlen - 1) x j q l q' l' -> 1 <= N1 l' j <= qlen - 1 -> N1 q' qlen = N1 q qlen -> KEEP qlen x q l q' l'.
  Proof.
    intros qlen low x j q l q' l' (Lq & Ll & A & B) Hq -> Hj Hjl [F1 F2] Hl Hqq. split.
    - intros. apply F1; lia.
    - intros i Hi Hx. destruct (Nat.eq_dec i (N1 q qlen)) as [->|Hne].
      + rewrite Hjl. repeat split; try lia.
      + destruct (F2 i Hi Hx Hne) as (X1 & X2 & X3). split; [auto|]. split; [intros; apply X2; lia|].
        intros H. apply X3. destruct (B i Hi) as [E|(E1 & E2 & E3)]; [lia|lia|lia|].
        assert (N1 l i <> qlen) by (intros E; rewrite E in E3; congruence). lia.
  Qed.

  Lemma heap_pop_l : forall qlen low d (Ld : length d = n) q l, HI qlen low 0 0 0 q l -> qlen < low -> 1 <= qlen <= n ->
    wp (heap_pop K qlen n q d l) (fun '(q', l', qlen') => qlen' = qlen - 1 /\
      HI (qlen - 1) low (N1 q 1) 0 0 q' l' /\ KEEP qlen (N1 q 1) q l q' l').
  Proof.
    intros qlen low d Ld q l HH Hlow Hn. unfold heap_pop. pose proof HH as (Lq & Ll & A & B).
    destruct (A qlen) as (J1 & _ & _ & J4); [unfold reg; lia|lia|].
    g1s 0. apply wp_bind. apply wp_g1 with (d := r0 K); [lia|]. cbv zeta.
    destruct (Nat.eq_dec qlen 1) as [->|Hq1].
    - (* the heap becomes empty *)
      wpb. apply wp_conseq with (P := fun s => s = (q, l, 1)).
      { apply wp_loop with (I := fun _ s => s = (q, l, 1)); auto.
        intros k s _ ->. unfold sift_down. cbn [Nat.sub Nat.mul Nat.ltb Nat.leb Nat.add]. apply wp_ok. cbn. auto. }
      intros s ->. unfold place. wpb. s1s. s1s. apply wp_ok. apply wp_ok. split; [auto|].
      split.
      + destruct (hi_last 1 low q l HH Hlow ltac:(lia)) as (_ & _ & A' & B').
        split; [now rewrite upd_length|]. split; [now rewrite upd_length|]. cbn [Nat.sub] in *. split.
        * intros pos Hr Hp. destruct (A' pos Hr Hp) as (X1 & X2 & X3 & X4). unfold reg in Hr.
          rewrite (n1_neq _ 0 q 1 pos) by lia. rewrite n1_neq by lia. auto.
        * intros i Hi Hx H0. rewrite n1_neq by lia. destruct (B' i Hi Hx H0) as [E|(E1 & E2 & E3)]; [auto|]. right.
          split; [auto|]. split; [auto|]. unfold reg in E1. rewrite (n1_neq _ 0 q 1) by lia. auto.
      + split.
        * intros. apply (n1_neq _ 0 q 1); lia.
        * intros i Hi Hx. rewrite n1_neq by lia. destruct (B i Hi) as [E|(E1 & E2 & E3)]; [lia|lia|..].
          { rewrite E. repeat split; auto; lia. }
          { repeat split; auto; intros; try lia; exfalso; apply Hx; rewrite <- E3; f_equal; lia. }
    - wpb. eapply wp_conseq.
      { apply (sift_down_loop (qlen - 1) low (N1 q 1) (N1 q qlen)); auto; try lia. apply hi_shrink; auto; lia. }
      intros [[q' l'] pos'] (G1 & G2 & G3 & G4).
      assert (NE : N1 q qlen <> N1 q 1).
      { intros E. destruct (A 1) as (_ & _ & _ & X); [unfold reg; lia|lia|]. rewrite <- E in X. lia. }
      assert (1 <= pos' <= qlen - 1) by lia.
      wpb. eapply wp_conseq; [eapply place_l; eauto; lia|].
      intros [q2 l2] (P1 & P2 & P3 & P4). apply wp_ok. split; [auto|]. split; [auto|].
      pose proof (FR_trans _ _ _ _ _ _ _ _ _ G2 P2) as F. apply (keep_l qlen low (N1 q 1) (N1 q qlen)); auto; try lia. apply F; lia.
  Qed.

  Lemma heap_del_l : forall qlen low d (Ld : length d = n) q l x, HI qlen low 0 0 0 q l -> qlen < low -> qlen <= n ->
    1 <= x <= n -> 1 <= N1 l x <= qlen ->
    wp (heap_del K (N1 l x) qlen n q d l) (fun '(q', l', qlen') => qlen' = qlen - 1 /\
      HI (qlen - 1) low x 0 0 q' l' /\ KEEP qlen x q l q' l').
  Proof.
    intros qlen low d Ld q l x HH Hlow Hn Hx Hl. unfold heap_del. pose proof HH as (Lq & Ll & A & B).
    assert (QX : N1 q (N1 l x) = x). { destruct (B x Hx) as [E|(E1 & E2 & E3)]; try lia. }
    destruct (A qlen) as (J1 & _ & _ & J4); [unfold reg; lia|lia|].
    destruct (Nat.eqb_spec qlen (N1 l x)).
    - apply wp_ok. split; [auto|]. split.
      + replace x with (N1 q qlen) by congruence. apply hi_last; auto; lia.
      + split; [auto|]. intros i Hi Hne. split; [auto|]. split; [auto|]. intros H.
        assert (N1 l i <> qlen); [|lia]. intros E. destruct (B i Hi) as [E'|(E1 & E2 & E3)]; try lia. congruence.
    - g1s 0. apply wp_bind. apply wp_g1 with (d := r0 K); [lia|]. cbv zeta.
      assert (NE : N1 q qlen <> x). { intros E. rewrite E in J4. lia. }
      assert (H0 : HI (qlen - 1) low x (N1 q qlen) (N1 l x) q l) by (apply hi_shrink; auto; lia).
      wpb. apply wp_conseq with (P := fun '(q', l', pos') => HI (qlen - 1) low x (N1 q qlen) pos' q' l' /\
        FR (qlen - 1) x (N1 q qlen) q l q' l' /\ 1 <= pos' <= qlen - 1).
      { destruct (Nat.ltb_spec 1 (N1 l x)).
        - apply sift_up_loop; auto; lia.
        - apply wp_ok. split; [auto|]. split; [apply FR_refl|lia]. }
      intros [[q1 l1] pos1] (G1 & G2 & G3).
      wpb. eapply wp_conseq; [eapply place_l; eauto; lia|].
      intros [q2 l2] (P1 & P2 & P3 & P4).
      pose proof (FR_trans _ _ _ _ _ _ _ _ _ G2 P2) as F.
      destruct (Nat.eqb_spec pos1 (N1 l x)); cbn [negb].
      2:{ apply wp_ok. split; [auto|]. split; [auto|]. apply (keep_l qlen low x (N1 q qlen)); auto; try lia. apply F; lia. }
      wpb. eapply wp_conseq.
      { apply (sift_down_loop (qlen - 1) low x (N1 q qlen)) with (pos := pos1); auto; try lia.
        (* the row just placed is taken up again *)
        destruct P1 as (Lq2 & Ll2 & A2 & B2). split; [auto|]. split; [auto|]. split.
        - intros pos Hr Hp. destruct (A2 pos Hr) as (X1 & X2 & X3 & X4); [destruct Hr; lia|].
          split; [auto|]. split; [auto|]. split; [|auto]. intros E. apply Hp. rewrite <- X4, E. auto.
        - intros i Hi Hxi Hj. destruct (B2 i Hi Hxi) as [E|(E1 & E2 & E3)]; [lia|auto|]. right. split; [auto|].
          split; [|auto]. intros E. apply Hj. rewrite <- E3, E. auto. }
      intros [[q3 l3] pos3] (G4 & G5 & G6 & G7).
      assert (1 <= pos3 <= qlen - 1) by lia.
      wpb. eapply wp_conseq; [eapply place_l; eauto; lia|].
      intros [q4 l4] (P5 & P6 & P7 & P8). apply wp_ok. split; [auto|]. split; [auto|].
      pose proof (FR_trans _ _ _ _ _ _ _ _ _ F (FR_trans _ _ _ _ _ _ _ _ _ G5 P6)) as F'.
      apply (keep_l qlen low x (N1 q qlen)); auto; try lia. apply F'; lia.
  Qed.
End Heap.
