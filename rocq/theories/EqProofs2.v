(** * EqProofs2: matchings; the first two phases of the matching kernel. *)
From Coq Require Import List Arith ZArith Bool Lia.
From Verif Require Import Base EqModel EqSpec EqProofs1.
Import ListNotations.

Section Match.
  Variable K : ROps.
  Notation R := (RR K).
  Variable n : nat.
  Variables ip irn : list nat.
  Variable a : list R.
  Hypothesis PW : pattern1 n ip irn.
  Hypothesis La : length irn <= length a.

  Definition incol (j k : nat) : Prop := N1 ip j <= k < N1 ip (S j).

  Lemma ip_mono : forall j j', 1 <= j -> j <= j' -> j' <= S n -> N1 ip j <= N1 ip j'.
  Proof.
    intros j j' H1 H2 H3. induction j'; [lia|]. destruct (Nat.eq_dec j (S j')) as [->|]; [lia|].
    transitivity (N1 ip j'); [apply IHj'; lia|]. apply PW. lia.
  Qed.
  Lemma incol_k : forall j k, 1 <= j <= n -> incol j k -> 1 <= k <= length irn.
  Proof.
    intros j k Hj [H1 H2]. pose proof (ip_mono 1 j ltac:(lia) ltac:(lia) ltac:(lia)). pose proof (ip_mono (S j) (S n) ltac:(lia) ltac:(lia) ltac:(lia)).
    pose proof (pw_pos _ _ _ PW). pose proof (pw_end _ _ _ PW). lia.
  Qed.
  Lemma incol_row : forall j k, 1 <= j <= n -> incol j k -> 1 <= N1 irn k <= n.
  Proof. intros. apply PW. eapply incol_k; eauto. Qed.

  Lemma over_col_l : forall S j (f : nat -> S -> res S) s (I : nat -> S -> Prop), 1 <= j <= n -> I (N1 ip j) s ->
    (forall k s, incol j k -> I k s -> wp (f k s) (I (Datatypes.S k))) ->
    wp (over_col ip j f s) (I (N1 ip (Datatypes.S j))).
  Proof.
    intros S j f s I Hj H0 Hs. unfold over_col. pose proof (pw_ip _ _ _ PW).
    g1s 0. g1s 0. apply for_range_inv; auto. apply PW; lia.
  Qed.

  Lemma reduced_l : forall (u : list R) k (Q : R -> Prop), 1 <= k <= length irn -> length u = n -> 1 <= N1 irn k <= n ->
    Q (rsub K (n1 (r0 K) a k) (n1 (r0 K) u (N1 irn k))) -> wp (reduced K irn a u k) Q.
  Proof. intros u k Q Hk Lu Hi HQ. unfold reduced. g1s 0. g1s (r0 K). g1s (r0 K). exact HQ. Qed.

  (** ** Counting *)
  Fixpoint cnt (m : nat) (l : list nat) : nat :=
    match m with 0 => 0 | S m => cnt m l + (if N1 l (S m) =? 0 then 0 else 1) end.

  Lemma cnt_ext : forall m l l', (forall i, 1 <= i <= m -> N1 l i = N1 l' i) -> cnt m l = cnt m l'.
  Proof. induction m; intros l l' H; cbn [cnt]; auto. rewrite (IHm l l'), (H (S m)); auto; [lia|]. intros; apply H; lia. Qed.
  Lemma cnt_le : forall m l, cnt m l <= m.
  Proof. induction m; intros; cbn [cnt]; auto. specialize (IHm l). destruct (_ =? 0); lia. Qed.
  Lemma cnt_full : forall m l, cnt m l = m -> forall i, 1 <= i <= m -> N1 l i <> 0.
  Proof.
    induction m; intros l H i Hi; [lia|]. cbn [cnt] in H. pose proof (cnt_le m l).
    destruct (Nat.eqb_spec (N1 l (S m)) 0); [lia|]. destruct (Nat.eq_dec i (S m)) as [->|]; auto. apply IHm; lia.
  Qed.
  Lemma cnt_new : forall m l r v, 1 <= r <= length l -> m <= length l -> N1 l r = 0 -> v <> 0 ->
    cnt m (upd l (r - 1) v) = cnt m l + (if r <=? m then 1 else 0).
  Proof.
    induction m; intros l r v Hr Hm H0 Hv; cbn [cnt]. { destruct (Nat.leb_spec r 0); lia. }
    rewrite IHm by (auto; lia). rewrite n1_upd by lia.
    destruct (Nat.eqb_spec (S m) r).
    - subst r. rewrite H0. cbn [Nat.eqb]. destruct (Nat.eqb_spec v 0); [lia|]. destruct (Nat.leb_spec (S m) m), (Nat.leb_spec (S m) (S m)); lia.
    - destruct (Nat.leb_spec r m), (Nat.leb_spec r (S m)); lia.
  Qed.
  Lemma cnt_same : forall m l r v, 1 <= r <= length l -> m <= length l -> N1 l r <> 0 -> v <> 0 -> cnt m (upd l (r - 1) v) = cnt m l.
  Proof.
    induction m; intros l r v Hr Hm H0 Hv; cbn [cnt]; auto. rewrite IHm by (auto; lia). rewrite n1_upd by lia.
    destruct (Nat.eqb_spec (S m) r); auto. subst. destruct (Nat.eqb_spec v 0), (Nat.eqb_spec (N1 l (S m)) 0); lia.
  Qed.

  (** ** Matchings: rows up to [m] *)
  Definition MI (m : nat) (iperm jperm : list nat) : Prop :=
    length iperm = n /\ length jperm = n /\
    (forall i, 1 <= i <= m -> N1 iperm i <> 0 ->
       1 <= N1 iperm i <= n /\ N1 jperm (N1 iperm i) <> 0 /\ N1 irn (N1 jperm (N1 iperm i)) = i) /\
    (forall j, 1 <= j <= n -> N1 jperm j <> 0 ->
       incol j (N1 jperm j) /\ N1 irn (N1 jperm j) <= m /\ N1 iperm (N1 irn (N1 jperm j)) = j).

  Lemma match1 : forall m iperm jperm j k, MI m iperm jperm -> m <= n -> 1 <= j <= n -> incol j k -> N1 irn k <= m ->
    N1 iperm (N1 irn k) = 0 -> N1 jperm j = 0 ->
    MI m (upd iperm (N1 irn k - 1) j) (upd jperm (j - 1) k).
  Proof.
    intros m iperm jperm j k (Li & Lj & M1 & M2) Hm Hj Hk Hi E1 E2. pose proof (incol_row j k Hj Hk). pose proof (incol_k j k Hj Hk).
    split; [now rewrite upd_length|]. split; [now rewrite upd_length|]. split.
    - intros i Hi'. rewrite n1_upd by lia. destruct (Nat.eqb_spec i (N1 irn k)).
      + intros _. subst i. n1s. repeat split; auto; lia.
      + intros Hne. destruct (M1 i Hi' Hne) as (X1 & X2 & X3). split; [auto|].
        rewrite n1_neq; auto; try lia. congruence.
    - intros j' Hj'. rewrite n1_upd by lia. destruct (Nat.eqb_spec j' j).
      + intros _. subst j'. n1s. auto.
      + intros Hne. destruct (M2 j' Hj' Hne) as (X1 & X2 & X3). split; [auto|]. split; [auto|].
        pose proof (incol_row j' _ Hj' X1). rewrite n1_neq; auto; try lia. intros E. rewrite E in X3. lia.
  Qed.

  (** Column [jj] gives its row [irn k] up for [irn kk]; column [j] takes it. *)
  Lemma steal1 : forall iperm jperm j k jj kk, MI n iperm jperm -> 1 <= j <= n -> incol j k -> N1 jperm j = 0 ->
    N1 iperm (N1 irn k) = jj -> jj <> 0 -> incol jj kk -> N1 iperm (N1 irn kk) = 0 ->
    MI n (upd (upd iperm (N1 irn kk - 1) jj) (N1 irn k - 1) j) (upd (upd jperm (jj - 1) kk) (j - 1) k).
  Proof.
    intros iperm jperm j k jj kk MM Hj Hk E1 E2 Hjj Hkk E3. pose proof (incol_row j k Hj Hk). pose proof (incol_k j k Hj Hk).
    pose proof MM as (Li & Lj & M1 & M2).
    destruct (M1 (N1 irn k) ltac:(lia)) as (Y1 & Y2 & Y3); [congruence|]. rewrite E2 in *.
    pose proof (incol_row jj kk ltac:(lia) Hkk). pose proof (incol_k jj kk ltac:(lia) Hkk).
    assert (J : jj <> j) by congruence.
    assert (RN : N1 irn kk <> N1 irn k) by congruence.
    split; [now rewrite !upd_length|]. split; [now rewrite !upd_length|]. split.
    - intros i Hi. rewrite (n1_upd _ 0 (upd iperm _ _)) by (rewrite ?upd_length; lia). destruct (Nat.eqb_spec i (N1 irn k)).
      + intros _. subst i. rewrite n1_eq by (rewrite upd_length; lia). repeat split; auto; lia.
      + rewrite n1_upd by lia. destruct (Nat.eqb_spec i (N1 irn kk)).
        * intros _. subst i. rewrite n1_neq by (rewrite ?upd_length; lia). n1s. repeat split; auto; lia.
        * intros Hne. destruct (M1 i Hi Hne) as (X1 & X2 & X3). split; [auto|].
          assert (N1 iperm i <> jj). { intros E. rewrite E in X3. congruence. }
          assert (N1 iperm i <> j) by congruence.
          rewrite !n1_neq by (rewrite ?upd_length; lia). auto.
    - intros j' Hj'. rewrite (n1_upd _ 0 (upd jperm _ _)) by (rewrite ?upd_length; lia). destruct (Nat.eqb_spec j' j).
      + intros _. subst j'. rewrite n1_eq by (rewrite ?upd_length; lia). split; [auto|]. split; [lia|auto].
      + rewrite (n1_upd _ 0 jperm) by lia. destruct (Nat.eqb_spec j' jj).
        * intros _. subst j'. rewrite n1_neq by (rewrite ?upd_length; lia). n1s. split; [auto|]. split; [lia|auto].
        * intros Hne. destruct (M2 j' Hj' Hne) as (X1 & X2 & X3). split; [auto|]. split; [auto|].
          pose proof (incol_row j' _ Hj' X1).
          rewrite !n1_neq; rewrite ?upd_length; auto; try lia; intros E; rewrite E in X3; lia.
  Qed.

  (** ** First phase *)
  Definition cand (iperm l : list nat) (i : nat) : Prop :=
    N1 iperm i = 0 \/ (1 <= N1 iperm i <= n /\ incol (N1 iperm i) (N1 l i) /\ N1 irn (N1 l i) = i).

  Lemma init_u_l : wp (init_u K n ip irn a) (fun '(u, iperm, l) =>
    length u = n /\ length iperm = n /\ length l = n /\ forall i, 1 <= i <= n -> cand iperm l i).
  Proof.
    unfold init_u.
    set (I := fun (s : list R * list nat * list nat) => let '(u, iperm, l) := s in
      length u = n /\ length iperm = n /\ length l = n /\ forall i, 1 <= i <= n -> cand iperm l i).
    apply (for_range_inv _ (fun _ => I)); [lia| |].
    - unfold I. rewrite !repeat_length. repeat split; auto. intros i Hi. left. now apply n1_repeat.
    - intros j s Hj HI0. apply (over_col_l _ j _ s (fun _ => I)); [lia|auto|].
      intros k [[u iperm] l] Hk (Lu & Li & Ll & C). pose proof (incol_row j k ltac:(lia) Hk). pose proof (incol_k j k ltac:(lia) Hk).
      g1s 0. g1s (r0 K). g1s (r0 K). destruct (rlt K _ _). { apply wp_ok. repeat split; auto. }
      s1s. s1s. s1s. apply wp_ok. unfold I. rewrite !upd_length. repeat split; auto. intros i Hi. unfold cand.
      rewrite !n1_upd by lia. destruct (Nat.eqb_spec i (N1 irn k)); [|apply C; auto]. subst. right. split; [lia|auto].
  Qed.

  Lemma MI_extend : forall i iperm jperm, MI (i - 1) iperm jperm -> 1 <= i <= n -> N1 iperm i = 0 -> MI i iperm jperm.
  Proof.
    intros i iperm jperm (Li & Lj & M1 & M2) Hi H0. split; [auto|]. split; [auto|]. split.
    - intros r Hr Hne. apply M1; auto. destruct (Nat.eq_dec r i); [congruence|lia].
    - intros j Hj Hne. destruct (M2 j Hj Hne) as (X1 & X2 & X3). split; [auto|]. split; [lia|auto].
  Qed.

  Lemma cheap_l : forall iperm l, length iperm = n -> length l = n -> (forall i, 1 <= i <= n -> cand iperm l i) ->
    wp (cheap n ip iperm l) (fun '(iperm, jperm, num) => MI n iperm jperm /\ num = cnt n iperm).
  Proof.
    intros iperm0 l Li0 Ll C0. unfold cheap.
    apply wp_conseq with (P := fun '(iperm, jperm, num) => MI (S n - 1) iperm jperm /\ num = cnt (S n - 1) iperm /\
      forall r, S n <= r <= n -> N1 iperm r = N1 iperm0 r).
    2:{ intros [[iperm jperm] num] (H1 & H2 & _). rewrite Nat.sub_succ, Nat.sub_0_r in *. auto. }
    apply (for_range_inv _ (fun i '(iperm, jperm, num) => MI (i - 1) iperm jperm /\ num = cnt (i - 1) iperm /\
      forall r, i <= r <= n -> N1 iperm r = N1 iperm0 r)); [lia| |].
    - split; [|auto]. split; [auto|]. split; [apply repeat_length|]. split; [intros; lia|].
      intros j Hj H. exfalso. apply H. now apply n1_repeat.
    - intros i [[iperm jperm] num] Hi (MM & -> & KP). pose proof MM as (Li & Lj & M1 & M2).
      assert (Cn : forall iperm', length iperm' = n -> cnt i iperm' = cnt (i - 1) iperm' + (if N1 iperm' i =? 0 then 0 else 1)).
      { intros p' _. replace i with (S (i - 1)) at 1 3 by lia. reflexivity. }
      replace (S i - 1) with i by lia.
      g1s 0. destruct (Nat.eqb_spec (N1 iperm i) 0) as [E|E].
      { apply wp_ok. split; [apply MI_extend; auto; lia|]. split; [rewrite Cn, E by auto; cbn; lia|]. intros; apply KP; lia. }
      s1s.
      set (ip0 := upd iperm (i - 1) 0).
      assert (L0 : length ip0 = n) by (unfold ip0; now rewrite upd_length).
      assert (E0 : N1 ip0 i = 0) by (unfold ip0; apply n1_eq; lia).
      assert (SAME : forall r, 1 <= r -> r <> i -> N1 ip0 r = N1 iperm r) by (intros; unfold ip0; apply n1_neq; auto; lia).
      assert (MM0 : MI i ip0 jperm).
      { apply MI_extend; auto; [|lia]. split; [auto|]. split; [auto|]. split.
        - intros r Hr. rewrite SAME by lia. apply M1; auto.
        - intros j Hj Hne. destruct (M2 j Hj Hne) as (X1 & X2 & X3). split; [auto|]. split; [auto|].
          pose proof (incol_row _ _ Hj X1). rewrite SAME; auto; lia. }
      assert (C1 : cnt i ip0 = cnt (i - 1) iperm).
      { rewrite Cn, E0 by auto. cbn. rewrite Nat.add_0_r. apply cnt_ext. intros; apply SAME; lia. }
      assert (KP0 : forall r, S i <= r <= n -> N1 ip0 r = N1 iperm0 r). { intros r Hr. rewrite SAME by lia. apply KP; lia. }
      destruct (C0 i ltac:(lia)) as [F|(F1 & F2 & F3)]; [exfalso; apply E; rewrite KP; auto; lia|].
      assert (EQ : N1 iperm0 i = N1 iperm i) by (symmetry; apply KP; lia). rewrite EQ in F1, F2.
      g1s 0.
      destruct (Nat.eqb_spec (N1 jperm (N1 iperm i)) 0) as [Ej|Ej]; cbn [negb].
      2:{ apply wp_ok. auto. }
      pose proof (pw_ip _ _ _ PW). g1s 0. g1s 0. destruct (_ && _). { apply wp_ok. auto. }
      s1s. g1s 0. s1s. apply wp_ok. split; [|split].
      + pose proof (match1 i ip0 jperm (N1 iperm i) (N1 l i) MM0 ltac:(lia) F1 F2) as X. rewrite F3 in X. apply X; auto; lia.
      + rewrite cnt_new by (auto; lia). rewrite C1. destruct (Nat.leb_spec i i); lia.
      + intros r Hr. rewrite n1_neq by lia. auto.
  Qed.

  (** ** Second phase *)
  Definition AI (s : ast K) : Prop :=
    MI n (a_iperm K s) (a_jperm K s) /\ a_num K s = cnt n (a_iperm K s) /\
    length (a_pr K s) = n /\ length (a_d K s) = n /\
    forall j, 1 <= j <= n -> N1 ip j <= N1 (a_pr K s) j <= N1 ip (S j).

  Lemma col_min_l : forall iperm u b e, length iperm = n -> length u = n -> b < e ->
    (forall k, b <= k < e -> 1 <= k <= length irn /\ 1 <= N1 irn k <= n) ->
    wp (col_min K irn a iperm u b e) (fun '(vj, i0, k0) => b <= k0 < e /\ i0 = N1 irn k0 /\
      (N1 iperm i0 <> 0 -> forall k, k0 < k < e ->
         rlt K vj (rsub K (n1 (r0 K) a k) (n1 (r0 K) u (N1 irn k))) = true \/ N1 iperm (N1 irn k) <> 0)).
  Proof.
    intros iperm u b e Li Lu Hbe Hk. unfold col_min.
    destruct (Hk b ltac:(lia)) as (H1 & H2). g1s 0. wpb. apply reduced_l; auto.
    apply (for_range_inv _ (fun kc '(vj, i0, k0) => b <= k0 < kc /\ i0 = N1 irn k0 /\
      (N1 iperm i0 <> 0 -> forall k, k0 < k < kc ->
         rlt K vj (rsub K (n1 (r0 K) a k) (n1 (r0 K) u (N1 irn k))) = true \/ N1 iperm (N1 irn k) <> 0))); [lia| |].
    - split; [lia|]. split; [auto|]. intros; lia.
    - intros k [[vj i0] k0] Hkk (G1 & -> & G3). destruct (Hk k ltac:(lia)) as (H3 & H4). destruct (Hk k0 ltac:(lia)) as (H5 & H6).
      g1s 0. wpb. apply reduced_l; auto.
      set (di := rsub K _ _).
      assert (NEW : (fun '(vj, i0, k0) => b <= k0 < S k /\ i0 = N1 irn k0 /\
        (N1 iperm i0 <> 0 -> forall k', k0 < k' < S k ->
         rlt K vj (rsub K (n1 (r0 K) a k') (n1 (r0 K) u (N1 irn k'))) = true \/ N1 iperm (N1 irn k') <> 0)) (di, N1 irn k, k)).
      { split; [lia|]. split; [auto|]. intros; lia. }
      destruct (rlt K vj di) eqn:E1.
      { apply wp_ok. split; [lia|]. split; [auto|]. intros HN k' Hk'. destruct (Nat.eq_dec k' k) as [->|]; [left; exact E1|]. apply G3; auto; lia. }
      destruct (rlt K di vj || req K di (rinf K)). { apply wp_ok. exact NEW. }
      g1s 0. g1s 0.
      destruct (Nat.eqb_spec (N1 iperm (N1 irn k)) 0) as [Ex|Ex]; cbn [negb orb].
      + destruct (Nat.eqb_spec (N1 iperm (N1 irn k0)) 0) as [Ey|Ey].
        * apply wp_ok. split; [lia|]. split; [auto|]. intros; lia.
        * apply wp_ok. exact NEW.
      + apply wp_ok. split; [lia|]. split; [auto|]. intros HN k' Hk'. destruct (Nat.eq_dec k' k) as [->|]; [right; exact Ex|]. apply G3; auto; lia.
  Qed.

  Lemma try_steal_l : forall u j k jj kk1 s, AI s -> length u = n -> 1 <= j <= n -> incol j k -> N1 (a_jperm K s) j = 0 ->
    N1 (a_iperm K s) (N1 irn k) = jj -> jj <> 0 -> N1 ip jj <= kk1 -> kk1 <= N1 ip (S jj) ->
    wp (try_steal K irn a u j k (N1 irn k) jj kk1 (N1 ip (S jj)) s) (fun '(going, s') => AI s' /\ (going = true -> s' = s)).
  Proof.
    intros u j k jj kk1 s HA Lu Hj Hk E1 E2 Hjj Hb He. unfold try_steal.
    pose proof HA as ((Li & Lj & M1 & M2) & Hc & Lpr & Ld & Hpr).
    pose proof (incol_row j k Hj Hk). pose proof (incol_k j k Hj Hk).
    destruct (M1 (N1 irn k) ltac:(lia)) as (Y1 & Y2 & Y3); [congruence|]. rewrite E2 in *.
    wpb. apply wp_conseq with (P := fun '(_, going, s') => AI s' /\ (going = true -> s' = s)).
    2:{ intros [[kk g] s'] H1. apply wp_ok. exact H1. }
    apply (wp_loop _ (fun t '(kk, g, s') => kk = kk1 + t /\ g = true /\ s' = s)).
    - split; [lia|auto].
    - intros [[kk g] s'] (_ & _ & ->). auto.
    - intros t [[kk g] s'] Ht (-> & -> & ->).
      assert (IC : incol jj (kk1 + t)) by (unfold incol; lia).
      pose proof (incol_row jj _ ltac:(lia) IC). pose proof (incol_k jj _ ltac:(lia) IC).
      g1s 0. g1s 0. destruct (Nat.ltb_spec 0 (N1 (a_iperm K s) (N1 irn (kk1 + t)))).
      { apply wp_ok. cbn [fst snd]. split; [lia|auto]. }
      wpb. apply reduced_l; auto. apply wp_bind. apply wp_g1 with (d := r0 K); [lia|].
      destruct (rle K _ _). 2:{ apply wp_ok. cbn [fst snd]. split; [lia|auto]. }
      s1s. s1s. s1s. s1s. { rewrite upd_length; lia. } s1s. { rewrite upd_length; lia. } s1s. { rewrite upd_length; lia. }
      apply wp_ok. cbn [fst snd]. split; [|discriminate].
      split; [|split; [|split; [|split]]]; cbn [a_iperm a_jperm a_pr a_d a_num].
      + apply steal1; auto; try lia. split; auto.
      + assert (NE : N1 irn (kk1 + t) <> N1 irn k) by (intros E; rewrite E in *; lia).
        rewrite cnt_same; rewrite ?upd_length; try lia.
        * rewrite cnt_new by lia. destruct (Nat.leb_spec (N1 irn (kk1 + t)) n); lia.
        * rewrite n1_neq by lia. congruence.
      + now rewrite !upd_length.
      + auto.
      + intros j' Hj'. rewrite n1_upd by (rewrite ?upd_length; lia). destruct (Nat.eqb_spec j' j).
        * subst. destruct Hk. lia.
        * rewrite n1_upd by lia. destruct (Nat.eqb_spec j' jj); [|auto]. subst j'. destruct IC. lia.
  Qed.

  Lemma scan_col_l : forall u j s, AI s -> length u = n -> 1 <= j <= n -> wp (scan_col K ip irn a u j s) AI.
  Proof.
    intros u j s HA Lu Hj. unfold scan_col.
    pose proof HA as (MM & Hc & Lpr & Ld & Hpr). pose proof MM as (Li & Lj & M1 & M2).
    g1s 0. destruct (Nat.eqb_spec (N1 (a_jperm K s) j) 0) as [E|E]; cbn [negb]. 2:{ apply wp_ok. auto. }
    pose proof (pw_ip _ _ _ PW). g1s 0. g1s 0. destruct (Nat.leb_spec (N1 ip (S j)) (N1 ip j)). { apply wp_ok; auto. }
    wpb. eapply wp_conseq.
    { apply (col_min_l (a_iperm K s) u (N1 ip j) (N1 ip (S j))); auto.
      intros k Hk. split; [eapply incol_k; eauto|eapply incol_row; eauto]. }
    intros [[vj i0] k0] (Hk0 & -> & TIE).
    pose proof (incol_row j k0 Hj Hk0). pose proof (incol_k j k0 Hj Hk0).
    s1s. cbn [a_iperm a_jperm a_pr a_d a_num]. g1s 0.
    destruct (Nat.eqb_spec (N1 (a_iperm K s) (N1 irn k0)) 0) as [E0|E0].
    - s1s. s1s. s1s. apply wp_ok. split; [|split; [|split; [|split]]]; cbn [a_iperm a_jperm a_pr a_d a_num].
      + apply match1; auto; lia.
      + rewrite cnt_new by lia. destruct (Nat.leb_spec (N1 irn k0) n); lia.
      + now rewrite upd_length.
      + now rewrite upd_length.
      + intros j' Hj'. rewrite n1_upd by lia. destruct (Nat.eqb_spec j' j); [|auto]. subst. lia.
    - specialize (TIE E0).
      set (s0 := mkAst K (a_iperm K s) (a_jperm K s) (a_pr K s) (upd (a_d K s) (j - 1) vj) (a_num K s)).
      assert (A0 : AI s0). { split; [auto|]. split; [auto|]. split; [auto|]. split; [cbn; now rewrite upd_length|auto]. }
      wpb. apply wp_conseq with (P := fun '(_, s') => AI s'). 2:{ intros [k' s'] H'. apply wp_ok. exact H'. }
      apply (wp_loop _ (fun t '(k, s') => k = k0 + t /\ AI s' /\ a_iperm K s' = a_iperm K s /\ a_jperm K s' = a_jperm K s)).
      + split; [lia|auto].
      + intros [k' s'] (_ & H' & _). exact H'.
      + intros t [k' s'] Ht (-> & A1 & I1 & J1). pose proof A1 as (MM1 & Hc1 & Lpr1 & Ld1 & Hpr1).
        set (k := k0 + t). assert (Hk : incol j k) by (unfold incol, k; lia).
        pose proof (incol_row j k Hj Hk). pose proof (incol_k j k Hj Hk).
        g1s 0. wpb. apply reduced_l; auto. set (r := rsub K _ _).
        destruct (rlt K vj r) eqn:ER. { apply wp_ok. cbn [fst snd]. split; [unfold k; lia|auto]. }
        assert (NZ : N1 (a_iperm K s) (N1 irn k) <> 0).
        { destruct (Nat.eq_dec t 0) as [->|]. { unfold k. now rewrite Nat.add_0_r. }
          destruct (TIE k ltac:(unfold k; lia)) as [X|X]; [|auto]. unfold r in ER. rewrite X in ER. discriminate. }
        destruct (M1 (N1 irn k) ltac:(lia) NZ) as (Y1 & Y2 & Y3). rewrite I1.
        apply wp_bind. apply wp_g1 with (d := 0); [lia|]. rewrite I1 || idtac. set (jj := N1 (a_iperm K s) (N1 irn k)) in *.
        g1s 0. g1s 0. destruct (Nat.leb_spec (N1 ip (S jj)) (N1 (a_pr K s') jj)).
        { apply wp_ok. cbn [fst snd]. split; [unfold k; lia|auto]. }
        wpb. eapply wp_conseq.
        { apply try_steal_l with (kk1 := N1 (a_pr K s') jj); auto; try congruence; try lia.
          - rewrite I1. reflexivity.
          - apply Hpr1. lia. }
        intros [going s2] (A2 & E2). destruct going.
        * rewrite (E2 eq_refl). s1s. apply wp_ok. cbn [fst snd]. split; [unfold k; lia|].
          split; [|cbn; auto]. split; [auto|]. split; [auto|]. cbn [a_iperm a_jperm a_pr a_d a_num]. split; [now rewrite upd_length|].
          split; [auto|]. intros j' Hj'. rewrite n1_upd by lia. destruct (Nat.eqb_spec j' jj); [|auto]. subst j'.
          pose proof (pw_mono _ _ _ PW jj ltac:(lia)). lia.
        * apply wp_ok. cbn [fst snd]. exact A2.
  Qed.
End Match.
