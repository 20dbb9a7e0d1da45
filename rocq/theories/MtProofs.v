(** * Proofs for MtModel. *)
From Coq Require Import List Arith Lia Bool.
From Verif Require Import Base Scalar CSModel MtModel.
Import ListNotations.

(** ** partition *)
Definition pstart (n th t : nat) := fst (uniform_partition n th t).
Definition pend (n th t : nat) := snd (uniform_partition n th t).

Lemma part_arith : forall n th, 0 < th -> exists B r, n = B * th + r /\ r < th /\ B = n / th /\ n - B * th = r.
Proof.
  intros n th H. exists (n / th), (n mod th). pose proof (Nat.div_mod n th ltac:(lia)) as E.
  pose proof (Nat.mod_upper_bound n th ltac:(lia)). repeat split; auto; nia.
Qed.

Lemma part_cases : forall n th t, 0 < th -> exists B r, n = B * th + r /\ r < th /\
  ((t < th - r /\ pstart n th t = B * t /\ pend n th t = B * t + B) \/
   (th - r <= t /\ r <> 0 /\ pstart n th t = B * t + (t - (th - r)) /\ pend n th t = B * t + (t - (th - r)) + B + 1) \/
   (th <= t /\ r = 0 /\ pstart n th t = B * t /\ pend n th t = B * t + B)).
Proof.
  intros n th t H. destruct (part_arith n th H) as (B & r & E & Hr & EB & Er).
  exists B, r. split; auto. split; auto. unfold pstart, pend, uniform_partition. rewrite <- EB, Er.
  destruct (Nat.eqb_spec r 0).
  - destruct (le_lt_dec th t); [right; right|left]; subst; simpl; repeat split; auto; lia.
  - destruct (Nat.leb_spec (th - r) t); [right; left|left]; simpl; repeat split; auto; lia.
Qed.

Lemma part_same : forall B r B' r' th, B * th + r = B' * th + r' -> r < th -> r' < th -> B = B' /\ r = r'.
Proof. intros. assert (B = B'). { destruct (Nat.lt_trichotomy B B') as [?|[?|?]]; auto; nia. } subst. lia. Qed.

Lemma part_first : forall n th, 0 < th -> pstart n th 0 = 0.
Proof. intros n th H. destruct (part_cases n th 0 H) as (B & r & E & Hr & [C|[C|C]]); lia. Qed.

Lemma part_next : forall n th t, 0 < th -> S t < th -> pstart n th (S t) = pend n th t.
Proof.
  intros n th t H Ht. destruct (part_cases n th t H) as (B & r & E & Hr & C).
  destruct (part_cases n th (S t) H) as (B' & r' & E' & Hr' & C').
  rewrite E in E'. destruct (part_same _ _ _ _ _ E' Hr Hr'). subst B' r'.
  destruct C as [C|[C|C]], C' as [C'|[C'|C']]; nia.
Qed.

Lemma part_last : forall n th, 0 < th -> pend n th (th - 1) = n.
Proof.
  intros n th H. destruct (part_cases n th (th - 1) H) as (B & r & E & Hr & [C|[C|C]]).
  - destruct C as (C1 & C2 & ->). assert (r = 0) by lia. subst r. nia.
  - destruct C as (C1 & C2 & C3 & ->). nia.
  - lia.
Qed.

Lemma part_size : forall n th t, 0 < th -> t < th ->
  pend n th t = pstart n th t + n / th \/ pend n th t = pstart n th t + n / th + 1.
Proof.
  intros n th t H Ht. destruct (part_cases n th t H) as (B & r & E & Hr & C).
  assert (B = n / th). { apply (Nat.div_unique n th B r); lia. } lia.
Qed.

Lemma part_le : forall n th t, 0 < th -> pstart n th t <= pend n th t.
Proof. intros n th t H. destruct (part_cases n th t H) as (B & r & E & Hr & [C|[C|C]]); lia. Qed.

Lemma part_mono : forall n th d t, 0 < th -> t + d < th -> pend n th t <= pend n th (t + d).
Proof.
  induction d; intros t H Ht. rewrite Nat.add_0_r; lia.
  specialize (IHd t H ltac:(lia)). replace (t + S d) with (S (t + d)) by lia.
  pose proof (part_next n th (t + d) H ltac:(lia)). pose proof (part_le n th (S (t + d)) H). lia.
Qed.

Lemma part_end_le : forall n th t, 0 < th -> t < th -> pend n th t <= n.
Proof.
  intros n th t H Ht. rewrite <- (part_last n th H) at 2. replace (th - 1) with (t + (th - 1 - t)) by lia.
  apply part_mono; lia.
Qed.

Lemma part_disjoint : forall n th t u, 0 < th -> t < u -> u < th -> pend n th t <= pstart n th u.
Proof.
  intros n th t u H Htu Hu. destruct u; [lia|]. rewrite part_next by lia.
  replace u with (t + (u - t)) by lia. apply part_mono; lia.
Qed.

Lemma part_cover : forall n th i, 0 < th -> i < n -> exists t, t < th /\ pstart n th t <= i < pend n th t.
Proof.
  intros n th i H Hi.
  assert (G : forall k, k <= th -> (exists t, t < k /\ pstart n th t <= i < pend n th t) \/
     (k = 0 \/ pend n th (k - 1) <= i)).
  { induction k; intros Hk; auto. destruct (IHk ltac:(lia)) as [(t & Ht & K)|K].
    - left. exists t. split; auto.
    - destruct (le_lt_dec (pend n th (S k - 1)) i); auto. left. exists k. split; auto.
      replace (S k - 1) with k in l by lia. split; auto.
      destruct K as [->|K]. { rewrite part_first; auto; lia. }
      destruct k; [rewrite part_first; auto; lia|]. rewrite part_next by lia.
      replace (S k - 1) with k in K by lia. lia. }
  destruct (G th ltac:(lia)) as [?|[?|K]]; auto; try lia. rewrite part_last in K; auto; lia.
Qed.

(** ** threads *)
Section Threads.
  Context {O : Ops}.
  Notation T := (T O).
  Variable L : Type.
  Variable init : L.
  Variable acc : nat -> T -> L -> res L.
  Variable N : nat.
  Variable out : L -> nat -> res T.
  Variable A : CS O.
  Notation tstep := (tstep L init acc N out A).
  Notation crun := (crun L init acc N out A).
  Notation cstep := (cstep L init acc N out A).

  Definition entry (k : nat) (tmp : L) : res L :=
    j <- get (indices A) k ;; v <- get (vals A) k ;; acc j v tmp.

  (** The serial loop. *)
  Definition serial (n : nat) (y : list T) : res (list T) :=
    for_range 0 n (fun i y =>
      tmp <- row_iter O A i acc init ;;
      for_range 0 N (fun c y => w <- out tmp c ;; set y (i * N + c) w) y) y.

  (** What the serial loop computes, row by row. *)
  Record rows_ok (n : nat) (y y' : list T) : Prop := mk_rows_ok {
    ro_len : length y' = length y;
    ro_fit : n * N <= length y;
    ro_row : forall i, i < n -> exists tmp, row_iter O A i acc init = Ok tmp /\
      forall c, c < N -> exists w, out tmp c = Ok w /\ nth (i * N + c) y' (t0 O) = w;
    ro_rest : forall k, n * N <= k -> nth k y' (t0 O) = nth k y (t0 O) }.

  Lemma bind_ok : forall X Y (m : res X) (f : X -> res Y) b, bind m f = Ok b -> exists a, m = Ok a /\ f a = Ok b.
  Proof. intros X Y [a| |] f b H; simpl in H; try discriminate. eauto. Qed.
  Lemma set_inv : forall X (l l' : list X) i v, set l i v = Ok l' -> i < length l /\ l' = upd l i v.
  Proof. intros X l l' i v H. unfold set in H. destruct (Nat.ltb_spec i (length l)); inversion H; auto. Qed.

  Lemma write_row : forall i tmp c y y', for_n 0 c (fun c y => w <- out tmp c ;; set y (i * N + c) w) y = Ok y' ->
    length y' = length y /\ (0 < c -> i * N + c <= length y) /\
    (forall d, d < c -> exists w, out tmp d = Ok w /\ nth (i * N + d) y' (t0 O) = w) /\
    (forall k, ~ (i * N <= k < i * N + c) -> nth k y' (t0 O) = nth k y (t0 O)).
  Proof.
    induction c; intros y y' H.
    - simpl in H. inversion H; subst. repeat split; auto; intros; lia.
    - replace (S c) with (c + 1) in H by lia. rewrite for_n_app in H. apply bind_ok in H. destruct H as (y1 & E1 & H).
      simpl in H. apply bind_ok in H. destruct H as (y2 & E2 & H). inversion H; subst y2. clear H.
      apply bind_ok in E2. destruct E2 as (w & Ew & E2). apply set_inv in E2. destruct E2 as (Hl & ->).
      destruct (IHc _ _ E1) as (A1 & A2 & A3 & A4). rewrite upd_length. split; auto. split; [lia|]. split.
      + intros d Hd. rewrite nth_upd by auto. destruct (Nat.eqb_spec (i * N + d) (i * N + c)).
        * assert (d = c) by lia. subst. eauto.
        * apply A3. lia.
      + intros k Hk. rewrite nth_upd by auto. destruct (Nat.eqb_spec k (i * N + c)); [lia|]. apply A4. lia.
  Qed.

  Lemma serial_rows : forall n y y', serial n y = Ok y' -> rows_ok n y y'.
  Proof.
    unfold serial, for_range. intros n y y' H. rewrite Nat.sub_0_r in H. revert y' H.
    induction n; intros y' H.
    - simpl in H. inversion H; subst. split; auto; try (intros; lia).
    - replace (S n) with (n + 1) in H by lia. rewrite for_n_app in H. apply bind_ok in H. destruct H as (y1 & E1 & H).
      simpl in H. apply bind_ok in H. destruct H as (y2 & E2 & H). inversion H; subst y2. clear H.
      apply bind_ok in E2. destruct E2 as (tmp & Et & E2). rewrite Nat.sub_0_r in E2.
      destruct (write_row _ _ _ _ _ E2) as (A1 & A2 & A3 & A4). destruct (IHn _ E1) as [B1 B2 B3 B4].
      split; [lia| | |].
      + destruct (Nat.eq_dec N 0) as [Z|Z]; [rewrite Z in *; lia|]. specialize (A2 ltac:(lia)). lia.
      + intros i Hi. destruct (Nat.eq_dec i n) as [->|Hn]. { eauto. }
        destruct (B3 i ltac:(lia)) as (tm & Etm & Hc). exists tm. split; auto. intros c Hc'. destruct (Hc c Hc') as (w & Ew & E).
        exists w. split; auto. rewrite A4; auto. assert (i + 1 <= n) by lia. nia.
      + intros k Hk. rewrite A4 by lia. apply B4. lia.
  Qed.

  (** Invariant of one thread with rows [lo,hi). *)
  Variable n : nat.
  Variable y0 yf : list T.
  Hypothesis RO : rows_ok n y0 yf.

  Definition row_written (y : list T) (i : nat) : Prop := forall c, c < N -> nth (i * N + c) y (t0 O) = nth (i * N + c) yf (t0 O).

  Definition tinv (lo hi : nat) (l : loc L) (y : list T) : Prop :=
    match l with
    | RowStart i => lo <= i <= hi /\ forall r, lo <= r < i -> row_written y r
    | InRow i k e tmp => lo <= i < hi /\ (forall r, lo <= r < i -> row_written y r) /\
        exists b, get (ind_start A) i = Ok b /\ get (ind_start A) (S i) = Ok e /\ b <= k <= e /\
          for_range b k entry init = Ok tmp
    | Writing i c tmp => lo <= i < hi /\ (forall r, lo <= r < i -> row_written y r) /\
        row_iter O A i acc init = Ok tmp /\ c <= N /\
        forall d, d < c -> nth (i * N + d) y (t0 O) = nth (i * N + d) yf (t0 O)
    | Done => forall r, lo <= r < hi -> row_written y r
    end.

  Lemma row_iter_entry : forall i, row_iter O A i acc init =
    (b <- get (ind_start A) i ;; e <- get (ind_start A) (S i) ;;
     if e <? b then UB else for_range b e entry init).
  Proof. reflexivity. Qed.

  (** A step never goes wrong, keeps the invariant, writes only inside rows [lo,hi). *)
  Lemma tstep_inv : forall lo hi l y, lo <= hi -> hi <= n -> length y = length y0 -> tinv lo hi l y ->
    exists l' y', tstep hi l y = Ok (l', y') /\ tinv lo hi l' y' /\ length y' = length y0 /\
      (y' = y \/ exists i c w, lo <= i < hi /\ c < N /\ y' = upd y (i * N + c) w).
  Proof.
    intros lo hi l y Hlh Hhn Ly I. destruct l as [i|i k e tmp|i c tmp|]; simpl in *.
    - destruct I as (Hi & Hr). destruct (Nat.ltb_spec i hi).
      + destruct (ro_row _ _ _ RO i ltac:(lia)) as (tmp & Et & _). rewrite row_iter_entry in Et.
        apply bind_ok in Et. destruct Et as (b & Eb & Et). apply bind_ok in Et. destruct Et as (e & Ee & Et).
        rewrite Eb, Ee. simpl. destruct (Nat.ltb_spec e b); [discriminate|].
        eexists _, _. split; [reflexivity|]. simpl. repeat split; auto; try lia.
        exists b. repeat split; auto; try lia. unfold for_range. rewrite Nat.sub_diag. reflexivity.
      + eexists _, _. split; [reflexivity|]. simpl. repeat split; auto. intros r Hr'. apply Hr. lia.
    - destruct I as (Hi & Hr & b & Eb & Ee & Hk & Ef).
      destruct (ro_row _ _ _ RO i ltac:(lia)) as (tmpf & Et & _). rewrite row_iter_entry, Eb, Ee in Et. simpl in Et.
      destruct (Nat.ltb_spec e b); [lia|].
      destruct (Nat.ltb_spec k e).
      + unfold for_range in Et. replace (e - b) with ((k - b) + (1 + (e - S k))) in Et by lia.
        rewrite for_n_app in Et. unfold for_range in Ef. rewrite Ef in Et. simpl in Et.
        replace (b + (k - b)) with k in Et by lia. apply bind_ok in Et. destruct Et as (tmp1 & E1 & _).
        pose proof E1 as E1'. unfold entry in E1. apply bind_ok in E1. destruct E1 as (j & -> & E1).
        apply bind_ok in E1. destruct E1 as (v & -> & E1). simpl. rewrite E1. simpl.
        eexists _, _. split; [reflexivity|]. simpl. repeat split; auto; try lia.
        exists b. repeat split; auto; try lia. unfold for_range. replace (S k - b) with ((k - b) + 1) by lia.
        rewrite for_n_app, Ef. simpl. replace (b + (k - b)) with k by lia. rewrite E1'. reflexivity.
      + eexists _, _. split; [reflexivity|]. simpl. repeat split; auto; try lia.
        * rewrite row_iter_entry, Eb, Ee. simpl. destruct (Nat.ltb_spec e b); [lia|].
          replace e with k by lia. exact Ef.
    - destruct I as (Hi & Hr & Et & Hc & Hd). destruct (Nat.ltb_spec c N).
      + destruct (ro_row _ _ _ RO i ltac:(lia)) as (tmp' & Et' & Hw). rewrite Et in Et'. inversion Et'; subst tmp'.
        destruct (Hw c H) as (w & Ew & En). rewrite Ew. simpl. pose proof (ro_fit _ _ _ RO) as Fit.
        assert (Hin : i * N + c < length y) by nia. rewrite set_ok by auto. simpl.
        eexists _, _. split; [reflexivity|]. simpl. rewrite upd_length. repeat split; auto; try lia.
        * intros r Hr' d Hd'. rewrite nth_upd by auto. destruct (Nat.eqb_spec (r * N + d) (i * N + c)).
          -- exfalso. assert (r + 1 <= i) by lia. nia.
          -- apply Hr; auto.
        * intros d Hd'. rewrite nth_upd by auto. destruct (Nat.eqb_spec (i * N + d) (i * N + c)).
          -- rewrite e. congruence.
          -- apply Hd. lia.
        * right. exists i, c, w. auto.
      + eexists _, _. split; [reflexivity|]. simpl. repeat split; auto; try lia.
        intros r Hr'. destruct (Nat.eq_dec r i); [|apply Hr; lia]. subst. intros d Hd'. apply Hd. lia.
    - eexists _, _. split; [reflexivity|]. simpl. auto.
  Qed.

  Lemma tinv_frame : forall lo hi l y i c w lo' hi', tinv lo hi l y -> hi <= lo' \/ hi' <= lo ->
    lo' <= i < hi' -> c < N -> i * N + c < length y -> tinv lo hi l (upd y (i * N + c) w).
  Proof.
    intros lo hi l y i c w lo' hi' I D Hi Hc Hl.
    assert (F : forall r d, lo <= r < hi -> d < N -> nth (r * N + d) (upd y (i * N + c) w) (t0 O) = nth (r * N + d) y (t0 O)).
    { intros r d Hr Hd. rewrite nth_upd by auto. destruct (Nat.eqb_spec (r * N + d) (i * N + c)); auto. exfalso.
      destruct D. assert (r + 1 <= i) by lia. nia. assert (i + 1 <= r) by lia. nia. }
    destruct l as [j|j k e tmp|j d tmp|]; simpl in *.
    - destruct I as (Hj & Hr). split; auto. intros r Hr' dd Hdd. rewrite F; try lia. now apply Hr.
    - destruct I as (Hj & Hr & K). split; auto. split; auto. intros r Hr' dd Hdd. rewrite F; try lia. apply Hr; auto.
    - destruct I as (Hj & Hr & Et & Hd & Hw). repeat split; auto; try lia.
      + intros r Hr' dd Hdd. rewrite F; try lia. apply Hr; auto.
      + intros dd Hdd. rewrite F; try lia. apply Hw; auto.
    - intros r Hr' dd Hdd. rewrite F; try lia. apply I; auto.
  Qed.

  Variable th : nat.
  Hypothesis Hth : 0 < th.
  Notation lo_ t := (pstart n th t). 
  Notation hi_ t := (pend n th t).

  Record cinv (team : nat) (c : conf L) : Prop := mk_cinv {
    ci_len : length (cy c) = length y0;
    ci_team : length (cthreads c) = team;
    ci_t : forall t, t < team -> exists l, nth t (cthreads c) (0, Done) = (hi_ t, l) /\ tinv (lo_ t) (hi_ t) l (cy c);
    ci_rest : forall k, n * N <= k -> nth k (cy c) (t0 O) = nth k yf (t0 O) }.

  Lemma cstep_inv : forall team t c, team <= th -> cinv team c -> exists c', cstep t c = Ok c' /\ cinv team c'.
  Proof.
    intros team t c Hteam I. destruct I as [I1 I2 I3 I4]. unfold MtModel.cstep.
    destruct (nth_error (cthreads c) t) as [[hi l]|] eqn:E.
    2:{ exists c. split; auto. split; auto. }
    assert (Ht : t < team). { rewrite <- I2. apply nth_error_Some. congruence. }
    apply (nth_error_nth _ _ (0, Done)) in E. destruct (I3 t Ht) as (l0 & E0 & T0). rewrite E in E0. inversion E0; subst hi l0.
    destruct (tstep_inv (lo_ t) (hi_ t) l (cy c)) as (l' & y' & Es & T' & L' & W); auto.
    { now apply part_le. } { apply part_end_le; lia. }
    rewrite Es. simpl. eexists. split; [reflexivity|]. split; simpl; auto.
    - now rewrite upd_length.
    - intros u Hu. rewrite nth_upd by lia. destruct (Nat.eqb_spec u t). { subst. eauto. }
      destruct (I3 u Hu) as (lu & Eu & Tu). exists lu. split; auto.
      destruct W as [->|(i & cc & w & Hi & Hc & ->)]; auto.
      apply (tinv_frame _ _ _ _ _ _ _ (lo_ t) (hi_ t)); auto.
      + destruct (Nat.lt_ge_cases u t); [left|right]; apply part_disjoint; lia.
      + rewrite I1. pose proof (ro_fit _ _ _ RO). pose proof (part_end_le n th t Hth ltac:(lia)). nia.
    - intros k Hk. destruct W as [->|(i & cc & w & Hi & Hc & ->)]; auto.
      pose proof (part_end_le n th t Hth ltac:(lia)).
      destruct (lt_dec (i * N + cc) (length (cy c))).
      + rewrite nth_upd by auto. destruct (Nat.eqb_spec k (i * N + cc)); auto. nia.
      + rewrite upd_overflow by lia. auto.
  Qed.

  Lemma crun_inv : forall team sched c, team <= th -> cinv team c -> exists c', crun sched c = Ok c' /\ cinv team c'.
  Proof.
    induction sched as [|t sched IH]; intros c Hteam I.
    - exists c. split; auto.
    - destruct (cstep_inv team t c Hteam I) as (c1 & E1 & I1). destruct (IH c1 Hteam I1) as (c2 & E2 & I2).
      exists c2. split; auto. unfold crun, MtModel.crun in *. simpl. fold (cstep t c). rewrite E1. simpl. auto.
  Qed.

  Lemma cinv_done : forall c, cinv th c -> all_done c -> cy c = yf.
  Proof.
    intros c I D. destruct I as [I1 I2 I3 I4]. apply (list_ext _ _ _ (t0 O)).
    - rewrite I1. symmetry. apply (ro_len _ _ _ RO).
    - intros k Hk. destruct (le_lt_dec (n * N) k) as [K|K]; auto.
      assert (HN : N <> 0) by (intros Z; rewrite Z in K; lia).
      assert (Hi : k / N < n) by (apply Nat.div_lt_upper_bound; lia).
      pose proof (Nat.div_mod k N HN) as E. pose proof (Nat.mod_upper_bound k N HN) as Hm.
      destruct (part_cover n th (k / N) Hth Hi) as (t & Ht & Hp).
      destruct (I3 t Ht) as (l & El & Tl).
      assert (l = Done). { apply (D (hi_ t)). rewrite <- El. apply nth_In. lia. }
      subst l. simpl in Tl. specialize (Tl _ Hp (k mod N) Hm). rewrite (Nat.mul_comm N) in E. rewrite <- E in Tl. exact Tl.
  Qed.

  (** ** Progress: a thread scheduled often enough is done. *)
  Definition rowlen (i : nat) : nat := nth (S i) (ind_start A) 0 - nth i (ind_start A) 0.
  Fixpoint cost (i k : nat) : nat := match k with 0 => 1 | S k => rowlen i + N + 3 + cost (S i) k end.
  Definition meas (hi : nat) (l : loc L) : nat :=
    match l with
    | RowStart i => cost i (hi - i)
    | InRow i k e _ => (e - k) + N + 2 + cost (S i) (hi - S i)
    | Writing i c _ => (N - c) + 1 + cost (S i) (hi - S i)
    | Done => 0
    end.

  Lemma cost_pos : forall k i, 0 < cost i k.
  Proof. destruct k; simpl; lia. Qed.

  Lemma tstep_meas : forall lo hi l y l' y', tinv lo hi l y -> tstep hi l y = Ok (l', y') -> l <> Done ->
    meas hi l' < meas hi l.
  Proof.
    intros lo hi l y l' y' I H ND. destruct l as [i|i k e tmp|i c tmp|]; simpl in *; [| | |congruence].
    - destruct (Nat.ltb_spec i hi).
      + apply bind_ok in H. destruct H as (b & Eb & H). apply bind_ok in H. destruct H as (e & Ee & H).
        destruct (Nat.ltb_spec e b); inversion H; subst. simpl. apply get_ok in Eb, Ee.
        replace (hi - i) with (S (hi - S i)) by lia. simpl. unfold rowlen.
        destruct Eb as (_ & Eb), Ee as (_ & Ee). rewrite Eb, Ee. lia.
      + inversion H; subst. simpl. apply cost_pos.
    - destruct I as (_ & _ & b & _ & _ & Hk & _). destruct (Nat.ltb_spec k e).
      + apply bind_ok in H. destruct H as (j & _ & H). apply bind_ok in H. destruct H as (v & _ & H).
        apply bind_ok in H. destruct H as (t & _ & H). inversion H; subst. simpl. lia.
      + inversion H; subst. simpl. lia.
    - destruct (Nat.ltb_spec c N).
      + apply bind_ok in H. destruct H as (w & _ & H). apply bind_ok in H. destruct H as (y1 & _ & H). inversion H; subst. simpl. lia.
      + inversion H; subst. simpl. lia.
  Qed.

  Lemma meas_done : forall hi l, meas hi l = 0 -> l = Done.
  Proof. intros hi [i|i k e tmp|i c tmp|] H; simpl in H; auto; try (pose proof (cost_pos (hi - i) i)); lia. Qed.

  Lemma cstep_meas : forall team t c c', team <= th -> cinv team c -> cstep t c = Ok c' ->
    forall u, u < team -> meas (hi_ u) (snd (nth u (cthreads c') (0, Done))) <=
       meas (hi_ u) (snd (nth u (cthreads c) (0, Done))) - (if u =? t then 1 else 0).
  Proof.
    intros team t c c' Hteam I H u Hu. destruct I as [I1 I2 I3 I4]. unfold MtModel.cstep in H.
    destruct (nth_error (cthreads c) t) as [[hi l]|] eqn:E.
    2:{ apply nth_error_None in E. inversion H; subst. destruct (Nat.eqb_spec u t); lia. }
    assert (Ht : t < team). { rewrite <- I2. apply nth_error_Some. congruence. }
    apply (nth_error_nth _ _ (0, Done)) in E. destruct (I3 t Ht) as (l0 & E0 & T0). rewrite E in E0. inversion E0; subst hi l0.
    apply bind_ok in H. destruct H as ([l' y'] & Es & H). inversion H; subst c'. simpl.
    rewrite nth_upd by lia. destruct (Nat.eqb_spec u t).
    - subst u. rewrite E. simpl. destruct l as [i|i k e tmp|i cc tmp|] eqn:El.
      4:{ simpl in Es. inversion Es; subst. simpl. lia. }
      all: (assert (meas (hi_ t) l' < meas (hi_ t) l) by (subst l; eapply tstep_meas; eauto; discriminate); subst l; lia).
    - lia.
  Qed.

  Lemma crun_meas : forall team sched c c', team <= th -> cinv team c -> crun sched c = Ok c' ->
    forall u, u < team -> meas (hi_ u) (snd (nth u (cthreads c') (0, Done))) <=
       meas (hi_ u) (snd (nth u (cthreads c) (0, Done))) - count_occ Nat.eq_dec sched u.
  Proof.
    induction sched as [|t sched IH]; intros c c' Hteam I H u Hu.
    - unfold MtModel.crun in H. simpl in H. inversion H; subst. simpl. lia.
    - unfold MtModel.crun in H. simpl in H. apply bind_ok in H. destruct H as (c1 & E1 & H).
      destruct (cstep_inv team t c Hteam I) as (c1' & E1' & I1).
      assert (c1' = c1) by (rewrite E1 in E1'; congruence). subst c1'.
      pose proof (cstep_meas team t c c1 Hteam I E1 u Hu) as M1.
      pose proof (IH c1 c' Hteam I1 H u Hu) as M2. simpl. destruct (Nat.eq_dec t u), (Nat.eqb_spec u t); subst; try congruence; lia.
  Qed.

  Lemma crun_done : forall sched c c', cinv th c -> crun sched c = Ok c' ->
    (forall u, u < th -> meas (hi_ u) (snd (nth u (cthreads c) (0, Done))) <= count_occ Nat.eq_dec sched u) -> all_done c'.
  Proof.
    intros sched c c' I H HC hi l Hin. destruct (crun_inv th sched c ltac:(lia) I) as (c2 & E2 & I2).
    assert (c2 = c') by congruence. subst c2.
    apply In_nth with (d := (0, Done)) in Hin. destruct Hin as (u & Hu & Eu). rewrite (ci_team _ _ I2) in Hu.
    pose proof (crun_meas th sched c c' ltac:(lia) I H u Hu) as M1. specialize (HC u Hu). rewrite Eu in M1. simpl in M1.
    apply (meas_done (hi_ u)). lia.
  Qed.
End Threads.
