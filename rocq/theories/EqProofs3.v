(** * EqProofs3: the shortest-path search of the matching kernel. *)
From Coq Require Import List Arith ZArith Bool Lia.
From Verif Require Import Base EqModel EqSpec EqProofs1 EqProofs2.
Import ListNotations.

Lemma NoDup_app_i : forall X (l l' : list X), NoDup l -> NoDup l' -> (forall x, In x l -> In x l' -> False) -> NoDup (l ++ l').
Proof.
  induction l as [|a l]; intros l' N N' D; auto. inversion N; subst. cbn [app]. constructor.
  - intros Hin. apply in_app_iff in Hin. destruct Hin as [?|?]; auto. apply (D a); [now left|auto].
  - apply IHl; auto. intros x Hx. apply D. now right.
Qed.

Section Search.
  Variable K : ROps.
  Notation R := (RR K).
  Variable n : nat.
  Variables ip irn : list nat.
  Variable a : list R.
  Hypothesis PW : pattern1 n ip irn.
  Hypothesis La : length irn <= length a.
  Hypothesis REQ : req K (rinf K) (rinf K) = true.
  Notation incol := (incol ip).

  Variables iperm jperm : list nat.
  Variable u : list R.
  Hypothesis MM : MI n ip irn n iperm jperm.
  Hypothesis Lu : length u = n.
  (** Finite numbers; what is said about them holds under the laws [FL]. *)
  Variable fin : R -> Prop.
  (** Whatever else is known. *)
  Variable XTRA : Prop.
  Definition FL : Prop :=
    (forall x y, fin x -> fin y -> fin (rsub K x y)) /\ (forall x y, fin x -> fin y -> fin (radd K x y)) /\
    (forall x, fin x -> rle K (rinf K) x = false) /\ (forall x, fin x -> req K x (rinf K) = false) /\
    (forall k, 1 <= k <= length irn -> fin (n1 (r0 K) a k)) /\
    (forall k, 1 <= k <= length irn -> fin (n1 (r0 K) u (N1 irn k))) /\ XTRA.
  Lemma fin_inf : FL -> fin (rinf K) -> False.
  Proof. intros (_ & _ & _ & H & _) F. rewrite (H _ F) in REQ. discriminate. Qed.
  Lemma fin_le : FL -> forall x, fin x -> rle K (rinf K) x = true -> False.
  Proof. intros (_ & _ & H & _) x F E. rewrite (H _ F) in E. discriminate. Qed.

  Variable jord : nat.
  Hypothesis Hjord : 1 <= jord <= n.
  Hypothesis Fjord : N1 jperm jord = 0.

  Local Lemma Li : length iperm = n. Proof. apply MM. Qed.
  Local Lemma Lj : length jperm = n. Proof. apply MM. Qed.
  Lemma iperm_ok : forall i, 1 <= i <= n -> N1 iperm i <> 0 ->
    1 <= N1 iperm i <= n /\ N1 jperm (N1 iperm i) <> 0 /\ N1 irn (N1 jperm (N1 iperm i)) = i.
  Proof. apply MM. Qed.
  Lemma iperm_inj : forall i i', 1 <= i <= n -> 1 <= i' <= n -> N1 iperm i <> 0 -> N1 iperm i = N1 iperm i' -> i = i'.
  Proof.
    intros i i' Hi Hi' Hne E. destruct (iperm_ok i Hi Hne) as (_ & _ & X). destruct (iperm_ok i' Hi') as (_ & _ & Y); congruence.
  Qed.
  Lemma iperm_jord : forall i, 1 <= i <= n -> N1 iperm i <> jord.
  Proof. intros i Hi E. destruct (iperm_ok i Hi) as (_ & X & _); [lia|]. rewrite E in X. auto. Qed.

  (** Column [c] is a node of the tree already settled. *)
  Definition settled (up : nat) (l : list nat) (c : nat) : Prop :=
    c = jord \/ exists r, 1 <= r <= n /\ N1 iperm r = c /\ up <= N1 l r.

  Definition TI (up : nat) (l out : list nat) (pr : list (option nat)) : Prop :=
    length out = n /\ length pr = n /\ n1 None pr jord = None /\
    forall i, 1 <= i <= n -> N1 l i <> 0 -> N1 iperm i <> 0 /\ exists pj, 1 <= pj <= n /\
      incol pj (N1 out (N1 iperm i)) /\ N1 irn (N1 out (N1 iperm i)) = i /\ n1 None pr (N1 iperm i) = Some pj /\
      (pj = jord \/ exists r, 1 <= r <= n /\ N1 iperm r = pj /\ up <= N1 l r /\ (up <= N1 l i -> N1 l i < N1 l r)).

  Definition SPI (up : nat) (l : list nat) (csp : R) (isp jsp : nat) : Prop :=
    req K csp (rinf K) = false -> 1 <= jsp <= n /\ incol jsp isp /\ N1 iperm (N1 irn isp) = 0 /\ settled up l jsp.

  (** Rows other than [x] stay out, settled rows stay where they are. *)
  Definition LS (up x : nat) (l l' : list nat) : Prop := forall i, 1 <= i <= n -> i <> x ->
    (N1 l i = 0 -> N1 l' i = 0) /\ (up <= N1 l i -> N1 l' i = N1 l i) /\ (N1 l i < up -> N1 l' i < up) /\
    (N1 l i <> 0 -> N1 l' i <> 0).

  Lemma settled_ls : forall up x l l' c, settled up l c -> LS up x l l' -> N1 l x < up -> settled up l' c.
  Proof.
    intros up x l l' c [->|(r & Hr & E & Hu)] HL Hx; [now left|]. right. exists r. split; [auto|]. split; [auto|].
    destruct (HL r Hr) as (_ & X & _). { intros ->. lia. } rewrite X; auto.
  Qed.
  Lemma SPI_ls : forall up x l l' csp isp jsp, SPI up l csp isp jsp -> LS up x l l' -> N1 l x < up -> SPI up l' csp isp jsp.
  Proof. intros up x l l' csp isp jsp H HL Hx E. destruct (H E) as (H1 & H2 & H3 & H4). repeat split; auto. all: try apply H1; try apply H2. eapply settled_ls; eauto. Qed.

  Lemma TI_step : forall up x l l' out pr k j, TI up l out pr -> 1 <= x <= n -> N1 iperm x <> 0 -> LS up x l l' ->
    N1 l x < up -> N1 l' x < up -> 1 <= j <= n -> incol j k -> N1 irn k = x -> settled up l j ->
    TI up l' (upd out (N1 iperm x - 1) k) (upd pr (N1 iperm x - 1) (Some j)).
  Proof.
    intros up x l l' out pr k j (Lo & Lp & PJ & T) Hx Nx HL Hl Hl' Hj Hk Ek HS.
    destruct (iperm_ok x Hx Nx) as (Y1 & Y2 & Y3).
    split; [now rewrite upd_length|]. split; [now rewrite upd_length|]. split.
    { pose proof (iperm_jord x Hx). rewrite n1_neq by lia. auto. }
    intros i Hi Hne. destruct (Nat.eq_dec i x) as [->|Hix].
    - split; [auto|]. exists j. rewrite !n1_eq by lia. split; [auto|]. split; [auto|]. split; [auto|]. split; [auto|].
      destruct HS as [->|(r & Hr & E & Hu)]; [now left|]. right. exists r. split; [auto|]. split; [auto|].
      destruct (HL r Hr) as (_ & X & _). { intros ->. lia. } rewrite X by auto. split; [auto|]. lia.
    - destruct (HL i Hi Hix) as (L1 & L2 & L3 & _).
      assert (N1 l i <> 0) by (intros E; apply Hne; auto).
      destruct (T i Hi H) as (T1 & pj & T2 & T3 & T4 & T5 & T6). split; [auto|]. exists pj.
      destruct (iperm_ok i Hi T1) as (Z1 & _).
      assert (N1 iperm i <> N1 iperm x). { intros E. apply Hix. apply iperm_inj; auto. }
      rewrite !n1_neq by (auto; lia). split; [auto|]. split; [auto|]. split; [auto|]. split; [auto|].
      destruct T6 as [->|(r & Hr & E & Hu & Hlt)]; [now left|]. right. exists r. split; [auto|]. split; [auto|].
      destruct (HL r Hr) as (_ & X & _). { intros ->. lia. } rewrite X by auto. split; [auto|]. intros Hup.
      destruct (Nat.le_gt_cases up (N1 l i)); [|specialize (L3 H1); lia]. rewrite L2 by auto. auto.
  Qed.

  (** Rows already in the tree may move below [up]. *)
  Lemma TI_same : forall up l l' out pr, TI up l out pr -> LS up 0 l l' -> TI up l' out pr.
  Proof.
    intros up l l' out pr (Lo & Lp & PJ & T) HL. split; [auto|]. split; [auto|]. split; [auto|].
    intros i Hi Hne. destruct (HL i Hi ltac:(lia)) as (L1 & L2 & L3 & _).
    assert (N1 l i <> 0) by (intros E; apply Hne; auto).
    destruct (T i Hi H) as (T1 & pj & T2 & T3 & T4 & T5 & T6). split; [auto|]. exists pj.
    split; [auto|]. split; [auto|]. split; [auto|]. split; [auto|].
    destruct T6 as [->|(r & Hr & E & Hu & Hlt)]; [now left|]. right. exists r. split; [auto|]. split; [auto|].
    destruct (HL r Hr ltac:(lia)) as (_ & X & _). rewrite X by auto. split; [auto|]. intros Hup.
    destruct (Nat.le_gt_cases up (N1 l i)); [|specialize (L3 H0); lia]. rewrite L2 by auto. auto.
  Qed.

  Lemma TI_up : forall up l out pr, TI up l out pr -> 1 <= up -> TI (up - 1) l out pr.
  Proof.
    intros up l out pr (Lo & Lp & PJ & T) Hup. split; [auto|]. split; [auto|]. split; [auto|].
    intros i Hi Hne. destruct (T i Hi Hne) as (T1 & pj & T2 & T3 & T4 & T5 & T6). split; [auto|]. exists pj.
    split; [auto|]. split; [auto|]. split; [auto|]. split; [auto|].
    destruct T6 as [->|(r & Hr & E & Hu & Hlt)]; [now left|]. right. exists r. split; [auto|]. split; [auto|].
    split; [lia|]. intros H. destruct (Nat.le_gt_cases up (N1 l i)); [auto|lia].
  Qed.
  Lemma SPI_up : forall up l csp isp jsp, SPI up l csp isp jsp -> SPI (up - 1) l csp isp jsp.
  Proof.
    intros up l csp isp jsp H E. destruct (H E) as (H1 & H2 & H3 & H4). split; [auto|]. split; [auto|]. split; [auto|].
    destruct H4 as [->|(r & Hr & E' & Hu)]; [now left|]. right. exists r. repeat split; auto; lia.
  Qed.

  Definition SI (s : sst K) : Prop :=
    HI n (t_qlen K s) (t_low K s) 0 0 0 (t_q K s) (t_l K s) /\ t_qlen K s < t_low K s /\ t_low K s <= t_up K s /\ t_up K s <= S n /\
    length (t_d K s) = n /\ TI (t_up K s) (t_l K s) (t_out K s) (t_pr K s) /\
    SPI (t_up K s) (t_l K s) (t_csp K s) (t_isp K s) (t_jsp K s).

  (** Tentative distances are finite exactly on the rows in use; as long as no free row has
      been found, every entry of a settled column other than [ex] leads to a row in use. *)
  Definition FI (ex : nat -> nat -> Prop) (s : sst K) : Prop := FL ->
    (forall i, 1 <= i <= n -> (N1 (t_l K s) i <> 0 -> fin (n1 (r0 K) (t_d K s) i)) /\ (N1 (t_l K s) i = 0 -> n1 (r0 K) (t_d K s) i = rinf K)) /\
    (t_csp K s = rinf K \/ fin (t_csp K s)) /\
    (t_csp K s = rinf K -> forall c k, 1 <= c <= n -> settled (t_up K s) (t_l K s) c -> incol c k -> ex c k \/ N1 (t_l K s) (N1 irn k) <> 0).

  Lemma FI_ls : forall ex s s', FI ex s -> t_d K s' = t_d K s -> t_csp K s' = t_csp K s -> t_up K s' = t_up K s -> 1 <= t_up K s ->
    LS (t_up K s) 0 (t_l K s) (t_l K s') -> FI ex s'.
  Proof.
    intros ex s s' H Ed Ec Eu Hu HL FLH. destruct (H FLH) as (D & C & V). rewrite Ed, Ec, Eu.
    split; [|split; [auto|]].
    - intros i Hi. destruct (HL i Hi ltac:(lia)) as (L1 & L2 & L3 & L4). destruct (D i Hi) as (D1 & D2).
      split; intros E; [apply D1|apply D2]; destruct (Nat.eq_dec (N1 (t_l K s) i) 0); auto; tauto.
    - intros E c k Hc HS Hk. destruct (V E c k Hc) as [X|X]; auto.
      + destruct HS as [->|(r & Hr & Er & Hup)]; [now left|]. right. exists r. split; [auto|]. split; [auto|].
        destruct (HL r Hr ltac:(lia)) as (L1 & L2 & L3 & L4). destruct (Nat.le_gt_cases (t_up K s) (N1 (t_l K s) r)); [auto|]. specialize (L3 H0). lia.
      + right. apply (HL (N1 irn k)); auto; try lia. eapply (incol_row K n ip irn a PW La); eauto.
        pose proof (incol_row K n ip irn a PW La c k Hc Hk). lia.
  Qed.

  (** ** Insertions *)

  (** Row [x], not in use, goes to the heap. *)
  Lemma ins_heap : forall qlen low up q l d x, HI n qlen low 0 0 0 q l -> qlen < low -> low <= up -> up <= S n -> length d = n ->
    1 <= x <= n -> N1 l x = 0 ->
    wp (l <- s1 l x (S qlen) ;; heap_up K x n q d l) (fun '(q', l') =>
      HI n (S qlen) low 0 0 0 q' l' /\ S qlen < low /\ LS up x l l' /\ N1 l' x < up /\ N1 l' x <> 0 /\
      forall pos, S qlen < pos -> N1 q' pos = N1 q pos).
  Proof.
    intros qlen low up q l d x HH H1 H2 H3 Ld Hx E.
    pose proof (space n qlen low x q l HH Hx E H1 ltac:(lia)) as SP. pose proof HH as (Lq & Ll & A & B).
    s1s. eapply wp_conseq.
    { apply (heap_up_l K n (S qlen) low x d Ld); auto; try lia; rewrite n1_eq by lia; try lia. apply hi_insert; auto; lia. }
    intros [q' l'] (G1 & (F1 & F2) & G3). split; [auto|]. split; [auto|]. split; [|split; [lia|split; [lia|]]].
    - intros i Hi Hne. destruct (F2 i Hi ltac:(lia) Hne) as (X1 & X2 & X3). rewrite n1_neq in X1, X2, X3 by (auto; lia).
      split; [auto|]. split; [intros; apply X2; lia|]. split; intros H.
      + destruct (Nat.eq_dec (N1 l i) 0) as [E0|]; [rewrite X1 by auto; lia|].
        destruct (Nat.le_gt_cases (N1 l i) (S qlen)); [specialize (X3 ltac:(lia)); lia|rewrite X2; auto].
      + destruct (Nat.le_gt_cases (N1 l i) (S qlen)); [specialize (X3 ltac:(lia)); lia|rewrite X2; auto].
    - intros pos Hp. apply F1; lia.
  Qed.

  (** Row [x] already in the heap moves up. *)
  Lemma up_heap : forall qlen low up q l d x, HI n qlen low 0 0 0 q l -> qlen < low -> low <= up -> up <= S n -> length d = n ->
    1 <= x <= n -> 1 <= N1 l x <= qlen ->
    wp (heap_up K x n q d l) (fun '(q', l') => HI n qlen low 0 0 0 q' l' /\ LS up x l l' /\ N1 l' x < up /\ N1 l' x <> 0).
  Proof.
    intros qlen low up q l d x HH H1 H2 H3 Ld Hx E. eapply wp_conseq.
    { apply (heap_up_l K n qlen low x d Ld); auto; try lia. apply hi_open; auto; lia. }
    intros [q' l'] (G1 & (F1 & F2) & G3). split; [auto|]. split; [|lia].
    intros i Hi Hne. destruct (F2 i Hi ltac:(lia) Hne) as (X1 & X2 & X3). split; [auto|]. split; [intros; apply X2; lia|].
    split; intros H.
    - destruct (Nat.eq_dec (N1 l i) 0); [rewrite X1 by auto; lia|].
      destruct (Nat.le_gt_cases (N1 l i) qlen); [specialize (X3 ltac:(lia)); lia|rewrite X2; auto].
    - destruct (Nat.le_gt_cases (N1 l i) qlen); [specialize (X3 ltac:(lia)); lia|rewrite X2; auto].
  Qed.

  (** A removed row goes to the upper part. *)
  Lemma ins_low : forall qlen low up q l x, HI n qlen low x 0 0 q l -> S qlen < low -> low <= up -> up <= S n -> 1 <= x <= n ->
    wp (q <- s1 q (low - 1) x ;; l <- s1 l x (low - 1) ;; Ok (q, l)) (fun '(q', l') =>
      HI n qlen (low - 1) 0 0 0 q' l' /\ LS up x l l' /\ N1 l' x < up /\ N1 l' x <> 0 /\
      forall pos, 1 <= pos -> pos < low - 1 -> N1 q' pos = N1 q pos).
  Proof.
    intros qlen low up q l x HH H1 H2 H3 Hx. pose proof HH as (Lq & Ll & A & B).
    s1s. s1s. apply wp_ok. split; [apply push_low; auto; lia|]. split; [|rewrite n1_eq by lia; split; [lia|split; [lia|]]].
    - intros i Hi Hne. rewrite n1_neq by (auto; lia). auto.
    - intros pos Hp Hlt. apply n1_neq; lia.
  Qed.

  Lemma keep_ls : forall qlen low up x q l q' l', KEEP n qlen x q l q' l' -> qlen < low -> low <= up -> LS up x l l'.
  Proof.
    intros qlen low up x q l q' l' (_ & F2) H1 H2 i Hi Hne. destruct (F2 i Hi Hne) as (X1 & X2 & X3).
    split; [auto|]. split; [intros; apply X2; lia|].
    split; intros H.
    - destruct (Nat.eq_dec (N1 l i) 0); [rewrite X1 by auto; lia|].
      destruct (Nat.le_gt_cases (N1 l i) qlen); [specialize (X3 ltac:(lia)); lia|rewrite X2; auto].
    - destruct (Nat.le_gt_cases (N1 l i) qlen); [specialize (X3 ltac:(lia)); lia|rewrite X2; auto].
  Qed.
  Lemma LS_trans : forall up x l l1 l2, LS up x l l1 -> LS up x l1 l2 -> LS up x l l2.
  Proof.
    intros up x l l1 l2 A B i Hi Hne. destruct (A i Hi Hne) as (A1 & A2 & A3 & A4). destruct (B i Hi Hne) as (B1 & B2 & B3 & B4).
    split; [auto|]. split; [|auto]. intros H. rewrite B2; [auto|]. rewrite A2; auto.
  Qed.
  Lemma LS_0 : forall up x l l', LS up x l l' -> N1 l x <> 0 -> N1 l x < up -> N1 l' x < up -> N1 l' x <> 0 -> LS up 0 l l'.
  Proof.
    intros up x l l' H Hx H1 H2 H3 i Hi _. destruct (Nat.eq_dec i x) as [->|]; [|now apply H]. split; [lia|]. split; [lia|]. split; lia.
  Qed.

  Lemma set_tree_l : forall up x l l' out pr k j, TI up l out pr -> 1 <= x <= n -> N1 iperm x <> 0 -> LS up x l l' ->
    N1 l x < up -> N1 l' x < up -> 1 <= j <= n -> incol j k -> N1 irn k = x -> settled up l j ->
    wp (set_tree iperm x k j out pr) (fun '(out', pr') => TI up l' out' pr').
  Proof.
    intros. unfold set_tree. pose proof Li. destruct (iperm_ok x H0 H1) as (Y1 & _). pose proof H as (Lo & Lp & _).
    g1s 0. s1s. s1s. apply wp_ok. eapply TI_step; eauto.
  Qed.

  (** ** The starting column *)
  Definition first_inv (s0 : sst K) (kc : nat) (s : sst K) : Prop :=
    t_l K s = t_l K s0 /\ t_out K s = t_out K s0 /\ t_pr K s = t_pr K s0 /\ t_low K s = t_low K s0 /\ t_up K s = t_up K s0 /\
    length (t_q K s) = n /\ length (t_d K s) = n /\
    t_qlen K s <= kc - N1 ip jord /\
    (forall kk, 1 <= kk <= t_qlen K s -> N1 ip jord <= N1 (t_q K s) kk < kc /\ N1 iperm (N1 irn (N1 (t_q K s) kk)) <> 0) /\
    (forall kk kk', 1 <= kk -> kk < kk' -> kk' <= t_qlen K s -> N1 (t_q K s) kk < N1 (t_q K s) kk') /\
    SPI (S n) (t_l K s) (t_csp K s) (t_isp K s) (t_jsp K s) /\
    (FL -> (forall i, 1 <= i <= n -> n1 (r0 K) (t_d K s) i = rinf K \/ exists kk, 1 <= kk <= t_qlen K s /\ N1 irn (N1 (t_q K s) kk) = i) /\
      (forall kk, 1 <= kk <= t_qlen K s -> fin (n1 (r0 K) (t_d K s) (N1 irn (N1 (t_q K s) kk)))) /\
      (t_csp K s = rinf K \/ fin (t_csp K s)) /\
      (t_csp K s = rinf K -> forall k, N1 ip jord <= k < kc -> exists kk, 1 <= kk <= t_qlen K s /\ N1 (t_q K s) kk = k)).

  Lemma scan_first_l : forall s0, t_qlen K s0 = 0 -> length (t_q K s0) = n -> length (t_d K s0) = n -> t_csp K s0 = rinf K ->
    (FL -> forall i, 1 <= i <= n -> n1 (r0 K) (t_d K s0) i = rinf K) ->
    2 * (N1 ip (S jord) - N1 ip jord) <= n + 1 ->
    wp (scan_first K ip irn a iperm u jord s0) (first_inv s0 (N1 ip (S jord))).
  Proof.
    intros s0 Hq Lq Ld Hc HD HF. unfold scan_first.
    apply (over_col_l K n ip irn a PW La _ jord _ s0 (first_inv s0)); [auto| |].
    - do 5 (split; [auto|]). split; [auto|]. split; [auto|]. split; [lia|]. split; [intros; lia|]. split; [intros; lia|].
      split. { intros E. rewrite Hc, REQ in E. discriminate. }
      intros FLH. split; [left; auto|]. split; [intros; lia|]. split; [left; auto|]. intros; lia.
    - intros k s Hk (I1 & I2 & I3 & I4 & I5 & I6 & I7 & I8 & I9 & I10 & I11 & I12).
      pose proof (incol_row K n ip irn a PW La jord k Hjord Hk) as Rk. pose proof (incol_k K n ip irn a PW La jord k Hjord Hk) as Kk. pose proof Li.
      g1s 0. wpb. apply (reduced_l K n irn a La); auto.
      assert (NEXT : forall kk, 1 <= kk <= t_qlen K s -> N1 ip jord <= N1 (t_q K s) kk < S k /\ N1 iperm (N1 irn (N1 (t_q K s) kk)) <> 0).
      { intros kk Hkk. destruct (I9 kk Hkk). split; [lia|auto]. }
      assert (DN : FL -> fin (rsub K (n1 (r0 K) a k) (n1 (r0 K) u (N1 irn k)))). { intros (F1 & _ & _ & _ & F5 & F6 & _). apply F1; auto. }
      destruct (rle K _ _) eqn:ERL.
      { apply wp_ok. do 7 (split; [auto|]). split; [destruct Hk; lia|]. split; [auto|]. split; [auto|]. split; [auto|].
        intros FLH. destruct (I12 FLH) as (V1 & V2 & V3 & V4). split; [auto|]. split; [auto|]. split; [auto|]. intros E. exfalso.
        rewrite E in ERL. exact (fin_le FLH _ (DN FLH) ERL). }
      g1s 0. destruct (Nat.eqb_spec (N1 iperm (N1 irn k)) 0) as [E|E].
      + apply wp_ok. do 7 (split; [auto|]). split; [cbn [t_qlen]; destruct Hk; lia|]. split; [auto|]. split; [auto|].
        cbn [t_csp t_isp t_jsp t_up t_l t_q t_d t_qlen]. split. { intros _. split; [auto|]. split; [auto|]. split; [auto|]. now left. }
        intros FLH. destruct (I12 FLH) as (V1 & V2 & V3 & V4). split; [auto|]. split; [auto|]. split; [right; apply DN; auto|].
        intros EC. exfalso. apply (fin_inf FLH). rewrite <- EC. apply DN; auto.
      + s1s. destruct Hk as (Hk1 & Hk2). s1s. apply wp_ok. do 5 (split; [auto|]).
        cbn [t_q t_d t_qlen t_csp t_isp t_jsp t_l].
        split; [now rewrite upd_length|]. split; [now rewrite upd_length|]. split; [lia|]. split; [|split; [|split; [exact I11|]]].
        * intros kk Hkk. rewrite n1_upd by lia. destruct (Nat.eqb_spec kk (S (t_qlen K s))); [split; [lia|auto]|]. apply NEXT; lia.
        * intros kk kk' H1 H2 H3. rewrite !n1_upd by lia.
          destruct (Nat.eqb_spec kk (S (t_qlen K s))); [lia|]. destruct (Nat.eqb_spec kk' (S (t_qlen K s))).
          -- destruct (I9 kk); lia.
          -- apply I10; lia.
        * intros FLH. destruct (I12 FLH) as (V1 & V2 & V3 & V4). split; [|split; [|split; [auto|]]].
          -- intros i Hi. rewrite n1_upd by lia. destruct (Nat.eqb_spec i (N1 irn k)).
             ++ right. exists (S (t_qlen K s)). split; [lia|]. rewrite n1_eq by lia. auto.
             ++ destruct (V1 i Hi) as [V|(kk & Hkk & V)]; [left; auto|]. right. exists kk. split; [lia|]. rewrite n1_neq by lia. auto.
          -- intros kk Hkk. rewrite (n1_upd _ _ (t_q K s)) by lia. destruct (Nat.eqb_spec kk (S (t_qlen K s))).
             ++ rewrite n1_eq by lia. auto.
             ++ destruct (I9 kk ltac:(lia)) as (X1 & _).
                pose proof (incol_row K n ip irn a PW La jord (N1 (t_q K s) kk) Hjord ltac:(unfold EqProofs2.incol; lia)).
                rewrite n1_upd by lia. destruct (_ =? _); [auto|apply V2; lia].
          -- intros EC k' Hk'. destruct (Nat.eq_dec k' k) as [->|].
             ++ exists (S (t_qlen K s)). split; [lia|]. apply n1_eq. lia.
             ++ destruct (V4 EC k' ltac:(lia)) as (kk & Hkk & V). exists kk. split; [lia|]. rewrite n1_neq by lia. auto.
  Qed.

  (** ** Building the heap *)
  Definition build_body (j : nat) (kk : nat) (s : sst K) : res (sst K) :=
      k <- g1 (t_q K s) kk ;;
      i <- g1 irn k ;;
      di <- g1 (t_d K s) i ;;
      if rle K (t_csp K s) di then
        d <- s1 (t_d K s) i (rinf K) ;;
        Ok (mkSst K (t_q K s) (t_l K s) (t_out K s) (t_pr K s) d (t_dmin K s) (t_csp K s) (t_isp K s) (t_jsp K s) (t_qlen K s) (t_low K s) (t_up K s))
      else
        '(q, l, qlen, low) <- (if rle K di (t_dmin K s) then
            let low := t_low K s - 1 in
            q <- s1 (t_q K s) low i ;; l <- s1 (t_l K s) i low ;; Ok (q, l, t_qlen K s, low)
          else
            l <- s1 (t_l K s) i (S (t_qlen K s)) ;;
            '(q, l) <- heap_up K i n (t_q K s) (t_d K s) l ;; Ok (q, l, S (t_qlen K s), t_low K s)) ;;
        '(out, pr) <- set_tree iperm i k j (t_out K s) (t_pr K s) ;;
        Ok (mkSst K q l out pr (t_d K s) (t_dmin K s) (t_csp K s) (t_isp K s) (t_jsp K s) qlen low (t_up K s)).
  Definition build_inv (s : sst K) (kc : nat) (s' : sst K) : Prop := SI s' /\ t_up K s' = S n /\
      (forall kk, kc <= kk <= t_qlen K s -> N1 (t_q K s') kk = N1 (t_q K s) kk /\ N1 (t_l K s') (N1 irn (N1 (t_q K s) kk)) = 0) /\
      (t_csp K s' = t_csp K s /\ (FL ->
        (forall i, 1 <= i <= n -> (N1 (t_l K s') i <> 0 -> fin (n1 (r0 K) (t_d K s') i)) /\
           (N1 (t_l K s') i = 0 -> n1 (r0 K) (t_d K s') i = rinf K \/ exists kk, kc <= kk <= t_qlen K s /\ N1 irn (N1 (t_q K s) kk) = i)) /\
        (forall kk, kc <= kk <= t_qlen K s -> fin (n1 (r0 K) (t_d K s') (N1 irn (N1 (t_q K s) kk)))) /\
        (t_csp K s = rinf K -> forall kk, 1 <= kk < kc -> N1 (t_l K s') (N1 irn (N1 (t_q K s) kk)) <> 0))) /\
      t_qlen K s' < kc /\ n + 2 <= t_low K s' + kc.
  Definition build_0 (s : sst K) : sst K :=
    mkSst K (t_q K s) (t_l K s) (t_out K s) (t_pr K s) (t_d K s) (t_dmin K s) (t_csp K s) (t_isp K s) (t_jsp K s) 0 (t_low K s) (t_up K s).

  Lemma build_step : forall s0 s, first_inv s0 (N1 ip (S jord)) s ->
    2 * (N1 ip (S jord) - N1 ip jord) <= n + 1 -> t_low K s0 = S n -> t_up K s0 = S n ->
    length (t_l K s0) = n -> (forall i, 1 <= i <= n -> N1 (t_l K s0) i = 0) ->
    length (t_out K s0) = n -> length (t_pr K s0) = n -> n1 None (t_pr K s0) jord = None ->
    build_inv s 1 (build_0 s) /\ (forall kc t, 1 <= kc < S (t_qlen K s) -> build_inv s kc t -> wp (build_body jord kc t) (build_inv s (S kc))) /\
    forall s', build_inv s (S (t_qlen K s)) s' -> SI s' /\ t_up K s' = S n /\ FI (fun _ _ => False) s'.
  Proof.
    intros s0 s (I1 & I2 & I3 & I4 & I5 & I6 & I7 & I8 & I9 & I10 & I11 & I12) HF E1 E2 Ll Zl Lo Lp PJ. unfold build_0, build_body, build_inv.
    rewrite <- I1 in Ll, Zl. rewrite <- I2 in Lo. rewrite <- I3 in Lp, PJ. rewrite I4 in *. rewrite I5 in *. rewrite E1, E2 in *.
    set (KS := t_qlen K s) in *. set (kf := N1 (t_q K s)) in *.
    assert (KF : forall kk, 1 <= kk <= KS -> incol jord (kf kk) /\ N1 iperm (N1 irn (kf kk)) <> 0 /\
      1 <= kf kk <= length irn /\ 1 <= N1 irn (kf kk) <= n).
    { intros kk Hkk. destruct (I9 kk Hkk) as (X1 & X2). split; [exact X1|]. split; [auto|].
      split; [eapply (incol_k K n ip irn a PW La); eauto|eapply (incol_row K n ip irn a PW La); eauto]. }
    assert (KINJ : forall kk kk', 1 <= kk -> kk < kk' -> kk' <= KS -> N1 irn (kf kk) <> N1 irn (kf kk')).
    { intros kk kk' H1 H2 H3 E. pose proof (I10 kk kk' H1 H2 H3). 
      pose proof (pw_nodup _ _ _ PW jord (kf kk) (kf kk') Hjord (proj1 (KF kk ltac:(lia))) (proj1 (KF kk' ltac:(lia))) E). unfold kf in *. lia. }
    set (LI := fun kc s' => SI s' /\ t_up K s' = S n /\
      (forall kk, kc <= kk <= KS -> N1 (t_q K s') kk = kf kk /\ N1 (t_l K s') (N1 irn (kf kk)) = 0) /\
      (t_csp K s' = t_csp K s /\ (FL ->
        (forall i, 1 <= i <= n -> (N1 (t_l K s') i <> 0 -> fin (n1 (r0 K) (t_d K s') i)) /\
           (N1 (t_l K s') i = 0 -> n1 (r0 K) (t_d K s') i = rinf K \/ exists kk, kc <= kk <= KS /\ N1 irn (kf kk) = i)) /\
        (forall kk, kc <= kk <= KS -> fin (n1 (r0 K) (t_d K s') (N1 irn (kf kk)))) /\
        (t_csp K s = rinf K -> forall kk, 1 <= kk < kc -> N1 (t_l K s') (N1 irn (kf kk)) <> 0))) /\
      t_qlen K s' < kc /\ n + 2 <= t_low K s' + kc).
    split; [|split].
    - unfold LI. cbn [t_q t_l t_up t_qlen t_low t_csp t_d]. split; [|split; [auto|split; [|split; [|lia]]]].
      + split; [|cbn; split; [lia|split; [lia|split; [lia|split; [auto|split; [|exact I11]]]]]]; cbn [t_q t_l t_qlen t_low t_up t_out t_pr].
        * split; [auto|]. split; [auto|]. split; [intros pos [H1 H2] _; lia|]. intros i Hi _ _. left. apply Zl; auto.
        * split; [auto|]. split; [auto|]. split; [auto|]. intros i Hi Hne. exfalso. apply Hne, Zl; auto.
      + intros kk Hkk. split; [reflexivity|]. apply Zl. apply KF; lia.
      + split; [auto|]. intros FLH. destruct (I12 FLH) as (V1 & V2 & V3 & V4). split; [|split; [auto|intros; lia]].
        intros i Hi. split; [intros Hne; exfalso; apply Hne, Zl; auto|]. intros _. auto.
    - intros kc t Hkc (S0 & S1 & S2 & (SC & SF) & S3 & S4). pose proof S0 as (HH & Q1 & Q2 & Q3 & Ld & T & SP). pose proof HH as (Lq' & Ll' & A & B).
      rewrite S1 in *.
      destruct (S2 kc ltac:(lia)) as (KQ & KL). destruct (KF kc ltac:(lia)) as (F1 & F2 & F3 & F4).
      g1s 0. rewrite KQ. g1s 0. g1s (r0 K).
      assert (LATER : forall kk, S kc <= kk <= KS -> N1 (t_q K t) kk = kf kk /\ N1 (t_l K t) (N1 irn (kf kk)) = 0) by (intros; apply S2; lia).
      destruct (rle K (t_csp K t) _) eqn:ERL.
      { s1s. apply wp_ok. split; [|split; [auto|split; [exact LATER|split; [|cbn [t_qlen t_low]; lia]]]].
        2:{ cbn [t_csp t_l t_d]. split; [auto|]. intros FLH. destruct (SF FLH) as (D1 & D2 & D3). split; [|split].
          - intros i Hi. rewrite n1_upd by lia. destruct (D1 i Hi) as (X1 & X2). destruct (Nat.eqb_spec i (N1 irn (kf kc))) as [->|Hne].
            + split; [intros Y; congruence|auto].
            + split; [auto|]. intros E. destruct (X2 E) as [|(kk & Hkk & Ek)]; [auto|]. right. exists kk. split; [|auto].
              destruct (Nat.eq_dec kk kc); [congruence|lia].
          - intros kk Hkk. destruct (KF kk ltac:(lia)) as (_ & _ & _ & Z). pose proof (KINJ kc kk ltac:(lia) ltac:(lia) ltac:(lia)). rewrite n1_neq by lia. apply D2; lia.
          - intros EC. exfalso. rewrite SC, EC in ERL. apply (fin_le FLH _ (D2 kc ltac:(lia)) ERL). }
        split; [auto|]. split; [auto|]. split; [cbn; lia|]. split; [cbn; lia|]. split; [cbn; now rewrite upd_length|]. cbn. rewrite ?S1. auto. }
      set (x := N1 irn (kf kc)) in *.
      pose proof (space n _ _ x _ _ HH F4 KL Q1 ltac:(lia)) as SPC.
      wpb. apply wp_conseq with (P := fun '(q', l', qlen', low') => HI n qlen' low' 0 0 0 q' l' /\ qlen' < low' /\ low' <= S n /\
         LS (S n) x (t_l K t) l' /\ (N1 l' x < S n /\ N1 l' x <> 0) /\ qlen' < S kc /\ n + 2 <= low' + S kc /\ forall kk, kc < kk <= KS -> N1 q' kk = N1 (t_q K t) kk).
      { clear ERL; destruct (rle K _ _).
        - pose proof (ins_low (t_qlen K t) (t_low K t) (S n) (t_q K t) (t_l K t) x (hi_out _ _ _ _ _ _ HH F4 KL) SPC Q2 ltac:(lia) F4) as W.
          apply wp_inv in W. destruct W as ([q' l'] & W & W1 & W2 & W3 & W3' & W4).
          destruct (s1 (t_q K t) (t_low K t - 1) x) as [q1| |]; cbn [bind] in W |- *; try discriminate.
          destruct (s1 (t_l K t) x (t_low K t - 1)) as [l1| |]; cbn [bind] in W |- *; try discriminate. inversion W; subst q1 l1.
          apply wp_ok. split; [auto|]. split; [lia|]. split; [lia|]. split; [auto|]. split; [split; auto|]. split; [lia|]. split; [lia|].
          intros kk Hkk. apply W4; lia.
        - pose proof (ins_heap (t_qlen K t) (t_low K t) (S n) (t_q K t) (t_l K t) (t_d K t) x HH Q1 Q2 ltac:(lia) Ld F4 KL) as W.
          apply wp_inv in W. destruct W as ([q' l'] & W & W1 & W2 & W3 & W4 & W4' & W5).
          destruct (s1 (t_l K t) x (S (t_qlen K t))) as [l1| |]; cbn [bind] in W |- *; try discriminate. rewrite W. cbn [bind].
          apply wp_ok. split; [auto|]. split; [lia|]. split; [lia|]. split; [auto|]. split; [split; auto|]. split; [lia|]. split; [lia|].
          intros kk Hkk. apply W5; lia. }
      intros [[[q' l'] qlen'] low'] (G1 & G2 & G3 & G4 & (G5 & G5') & G6 & G7 & G8).
      wpb. eapply wp_conseq.
      { apply (set_tree_l (S n) x (t_l K t) l' (t_out K t) (t_pr K t) (kf kc) jord); auto; try lia. now left. }
      intros [out' pr'] T'. apply wp_ok. unfold LI. cbn [t_q t_l t_up t_qlen t_low t_csp t_d]. split; [|split; [auto|split; [|split; [|lia]]]].
      + split; [auto|]. cbn. split; [auto|]. split; [lia|]. split; [lia|]. split; [auto|]. rewrite ?S1. split; [auto|].
        eapply SPI_ls; eauto. lia.
      + intros kk Hkk. destruct (LATER kk Hkk) as (X1 & X2). split; [rewrite G8 by lia; auto|].
        destruct (KF kk ltac:(lia)) as (_ & _ & _ & Z). apply (G4 _ Z); auto. apply not_eq_sym. apply KINJ; lia.
      + split; [auto|]. intros FLH. destruct (SF FLH) as (D1 & D2 & D3). split; [|split].
        * intros i Hi. destruct (Nat.eq_dec i x) as [->|Hix]. { split; [intros _; apply D2; lia|congruence]. }
          destruct (G4 i Hi Hix) as (L1 & L2 & L3 & L4). destruct (D1 i Hi) as (X1 & X2).
          split; intros E.
          -- apply X1. intros E0. apply E, L1, E0.
          -- destruct (Nat.eq_dec (N1 (t_l K t) i) 0) as [E0|E0]; [|tauto]. destruct (X2 E0) as [|(kk & Hkk & Ek)]; [auto|]. right. exists kk.
             split; [|auto]. destruct (Nat.eq_dec kk kc); [subst; tauto|lia].
        * intros kk Hkk. apply D2; lia.
        * intros EC kk Hkk. destruct (Nat.eq_dec kk kc) as [->|]; [exact G5'|].
          destruct (KF kk ltac:(lia)) as (_ & _ & _ & Z). apply (G4 _ Z). { apply KINJ; lia. } apply D3; auto; lia.
    - intros s' (H1 & H2 & _ & (H3 & H4) & _). split; [auto|]. split; [auto|]. intros FLH. destruct (H4 FLH) as (D1 & D2 & D3).
      destruct (I12 FLH) as (V1 & V2 & V3 & V4). rewrite H3. split; [|split; [auto|]].
      + intros i Hi. destruct (D1 i Hi) as (X1 & X2). split; [auto|]. intros E. destruct (X2 E) as [|(kk & Hkk & _)]; [auto|lia].
      + intros EC c k Hc HS Hk. right. rewrite H2 in HS. destruct HS as [->|(r & Hr & _ & Hu)].
        * destruct (V4 EC k Hk) as (kk & Hkk & Ek). rewrite <- Ek. apply (D3 EC kk). lia.
        * destruct H1 as ((_ & _ & _ & B) & _). destruct (B r Hr) as [X|(X & _)]; [lia|lia|lia|]. destruct X. lia.
  Qed.

  Lemma build_heap_l : forall s0 s, first_inv s0 (N1 ip (S jord)) s ->
    2 * (N1 ip (S jord) - N1 ip jord) <= n + 1 -> t_low K s0 = S n -> t_up K s0 = S n ->
    length (t_l K s0) = n -> (forall i, 1 <= i <= n -> N1 (t_l K s0) i = 0) ->
    length (t_out K s0) = n -> length (t_pr K s0) = n -> n1 None (t_pr K s0) jord = None ->
    wp (build_heap K n irn iperm jord s) (fun s' => SI s' /\ t_up K s' = S n /\ FI (fun _ _ => False) s').
  Proof.
    intros s0 s H1 H2 H3 H4 H5 H6 H7 H8 H9. destruct (build_step s0 s H1 H2 H3 H4 H5 H6 H7 H8 H9) as (B1 & B2 & B3).
    apply wp_conseq with (P := build_inv s (S (t_qlen K s))); [|exact B3].
    apply (for_range_inv _ (build_inv s)); [lia|exact B1|exact B2].
  Qed.

  (** ** Refilling the upper part *)
  Definition done (s : sst K) : Prop := FL -> t_csp K s = rinf K -> t_low K s = t_up K s /\ t_qlen K s = 0.

  Lemma refill_l : forall s ex, SI s -> FI ex s -> wp (refill K n s) (fun r => SI (snd r) /\ t_up K (snd r) = t_up K s /\
    (fst r = true -> t_low K (snd r) < t_up K (snd r)) /\ FI ex (snd r) /\ (fst r = false -> done (snd r))).
  Proof.
    intros s ex HS HFI. pose proof HS as (HH & Q1 & Q2 & Q3 & Ld & T & SP). pose proof HH as (Lq & Ll & A & B). unfold refill.
    destruct (Nat.eqb_spec (t_low K s) (t_up K s)) as [E|E]; cbn [negb].
    2:{ apply wp_ok. cbn [fst snd]. split; [auto|]. split; [auto|]. split; [lia|]. split; [auto|discriminate]. }
    destruct (Nat.eqb_spec (t_qlen K s) 0) as [E0|E0].
    { apply wp_ok. cbn [fst snd]. split; [auto|]. split; [auto|]. split; [discriminate|]. split; [auto|]. intros _ _ _. auto. }
    destruct (A 1) as (X1 & _ & _ & X4); [unfold reg; lia|lia|].
    g1s 0. g1s (r0 K). destruct (rle K _ _) eqn:ERL.
    { apply wp_ok. cbn [fst snd]. split; [auto|]. split; [auto|]. split; [discriminate|]. split; [auto|]. intros _ FLH EC. exfalso.
      destruct (HFI FLH) as (D & _). rewrite EC in ERL. refine (fin_le FLH _ _ ERL). apply D; [auto|lia]. }
    clear ERL. set (di := n1 (r0 K) (t_d K s) (N1 (t_q K s) 1)).
    wpb. apply wp_conseq with (P := fun '(q, l, qlen, low, _) => HI n qlen low 0 0 0 q l /\ qlen < low /\ low < t_up K s /\
      LS (t_up K s) 0 (t_l K s) l).
    { apply (wp_forever _ (fun '(q, l, qlen, low, i) => HI n qlen low 0 0 0 q l /\ 1 <= qlen /\ qlen < low /\ low <= t_up K s /\
        i = N1 q 1 /\ LS (t_up K s) 0 (t_l K s) l) (fun '(q, l, qlen, low, i) => qlen)).
      - split; [auto|]. split; [lia|]. split; [auto|]. split; [lia|]. split; [auto|]. intros i Hi _. auto.
      - lia.
      - intros [[[[q l] qlen] low] i] (H1 & H2 & H3 & H4 & -> & H6). pose proof H1 as (Lq' & Ll' & A' & B').
        destruct (A' 1) as (X & _ & _ & X'); [unfold reg; lia|lia|].
        wpb. eapply wp_conseq; [apply heap_pop_l with (low := low); auto; lia|].
        intros [[q1 l1] qlen1] (-> & P1 & P2). cbv zeta.
        pose proof (ins_low (qlen - 1) low (t_up K s) q1 l1 (N1 q 1) P1 ltac:(lia) H4 Q3 X) as W.
        apply wp_inv in W. destruct W as ([q' l'] & W & W1 & W2 & W3 & W3' & W4).
        destruct (s1 q1 (low - 1) (N1 q 1)) as [q2| |]; cbn [bind] in W |- *; try discriminate.
        destruct (s1 l1 (N1 q 1) (low - 1)) as [l2| |]; cbn [bind] in W |- *; try discriminate. inversion W; subst q2 l2.
        assert (HLS : LS (t_up K s) 0 (t_l K s) l').
        { eapply LS_trans; [exact H6|]. apply (LS_0 _ (N1 q 1)).
          - eapply LS_trans; [eapply keep_ls; eauto|auto].
          - lia.
          - lia.
          - auto.
          - auto. }
        destruct (Nat.eqb_spec (qlen - 1) 0).
        + apply wp_ok. cbn [fst snd]. split; [auto|]. split; [lia|]. split; [lia|auto].
        + pose proof W1 as (Lq2 & Ll2 & A2 & B2). destruct (A2 1) as (X2 & _); [unfold reg; lia|lia|].
          g1s 0. g1s (r0 K). apply wp_ok. cbn [fst snd]. destruct (negb _).
          * split; [|lia]. split; [auto|]. split; [lia|]. split; [lia|]. split; [lia|auto].
          * split; [auto|]. split; [lia|]. split; [lia|auto]. }
    intros [[[[q l] qlen] low] i] (G1 & G2 & G3 & G4). apply wp_ok. cbn [fst snd t_up t_low]. split; [|split; [auto|split; [lia|split; [eapply FI_ls; cbn; eauto; lia|discriminate]]]].
    split; [auto|]. cbn. split; [auto|]. split; [lia|]. split; [auto|]. split; [auto|]. split; [eapply TI_same; eauto|].
    intros Ec. destruct (SP Ec) as (Y1 & Y2 & Y3 & Y4). split; [auto|]. split; [auto|]. split; [auto|].
    destruct Y4 as [->|(r & Hr & E' & Hu)]; [now left|]. right. exists r. split; [auto|]. split; [auto|].
    destruct (G4 r Hr ltac:(lia)) as (_ & Z & _). rewrite Z; auto.
  Qed.

  (** ** Scanning the column of a settled row *)
  Definition next_body (j : nat) (vj : R) (k : nat) (s : sst K) : res (sst K) :=
      i <- g1 irn k ;;
      li <- g1 (t_l K s) i ;;
      if t_up K s <=? li then Ok s
      else
        ak <- g1 a k ;; ui <- g1 u i ;;
        let dnew := rsub K (radd K vj ak) ui in
        if rle K (t_csp K s) dnew then Ok s
        else
          x <- g1 iperm i ;;
          if x =? 0 then Ok (mkSst K (t_q K s) (t_l K s) (t_out K s) (t_pr K s) (t_d K s) (t_dmin K s) dnew k j (t_qlen K s) (t_low K s) (t_up K s))
          else
            di <- g1 (t_d K s) i ;;
            if rle K di dnew then Ok s
            else if t_low K s <=? li then Ok s
            else
              d <- s1 (t_d K s) i dnew ;;
              '(q, l, qlen, low) <- (if rle K dnew (t_dmin K s) then
                  '(q, l, qlen) <- (if negb (li =? 0) then heap_del K li (t_qlen K s) n (t_q K s) d (t_l K s)
                    else Ok (t_q K s, t_l K s, t_qlen K s)) ;;
                  let low := t_low K s - 1 in
                  q <- s1 q low i ;; l <- s1 l i low ;; Ok (q, l, qlen, low)
                else
                  '(l, qlen) <- (if li =? 0 then l <- s1 (t_l K s) i (S (t_qlen K s)) ;; Ok (l, S (t_qlen K s))
                    else Ok (t_l K s, t_qlen K s)) ;;
                  '(q, l) <- heap_up K i n (t_q K s) d l ;;
                  Ok (q, l, qlen, t_low K s)) ;;
              '(out, pr) <- set_tree iperm i k j (t_out K s) (t_pr K s) ;;
              Ok (mkSst K q l out pr d (t_dmin K s) (t_csp K s) (t_isp K s) (t_jsp K s) qlen low (t_up K s)).
  Definition next_inv (s : sst K) (j q0 k : nat) (s' : sst K) : Prop :=
    SI s' /\ t_up K s' = t_up K s /\ t_up K s <= N1 (t_l K s') q0 /\ FI (fun c k' => c = j /\ k <= k') s'.

  Lemma next_step : forall s j vj q0, 1 <= q0 <= n -> N1 iperm q0 = j -> j <> 0 -> 1 <= j <= n -> 1 <= t_up K s -> (FL -> fin vj) ->
    forall k t, incol j k -> next_inv s j q0 k t -> wp (next_body j vj k t) (next_inv s j q0 (S k)).
  Proof.
    intros s j vj q0 Hq Ej Hj0 Hj Hup1 HV. set (LI := next_inv s j q0). unfold next_body.
    intros k t Hk (S0 & S1 & S2 & S3). pose proof S0 as (HH & Q1 & Q2 & Q3 & Ld & T & SP). pose proof HH as (Lq & Ll & A & B).
    rewrite S1 in *.
    pose proof (incol_row K n ip irn a PW La j k Hj Hk) as Rk. pose proof (incol_k K n ip irn a PW La j k Hj Hk) as Kk. pose proof Li.
    (* entry [k] is dealt with *)
    assert (KEEPFI : forall t', t_l K t' = t_l K t -> t_d K t' = t_d K t -> t_up K t' = t_up K t ->
      (FL -> t_csp K t' = rinf K \/ fin (t_csp K t')) -> (FL -> t_csp K t' = rinf K -> t_csp K t = rinf K /\ N1 (t_l K t) (N1 irn k) <> 0) ->
      FI (fun c k' => c = j /\ S k <= k') t').
    { intros t' E1 E2 E3 E4 E5 FLH. destruct (S3 FLH) as (D & C & V). rewrite E1, E2, E3. split; [auto|]. split; [auto|].
      intros EC c k' Hc HSt Hk'. destruct (E5 FLH EC) as (E6 & E7). destruct (V E6 c k' Hc HSt Hk') as [(-> & X)|X]; [|auto].
      destruct (Nat.eq_dec k' k) as [->|]; [right; auto|left; split; [auto|lia]]. }
    assert (COV : N1 (t_l K t) (N1 irn k) <> 0 -> FI (fun c k' => c = j /\ S k <= k') t).
    { intros Hc. apply KEEPFI; auto. intros FLH. apply (S3 FLH). }
    g1s 0. g1s 0. set (x := N1 irn k) in *.
    destruct (Nat.leb_spec (t_up K s) (N1 (t_l K t) x)) as [Hx|Hx].
    { apply wp_ok. split; [auto|]. split; [auto|]. split; [auto|]. apply COV. lia. }
    g1s (r0 K). g1s (r0 K). cbv zeta. set (dnew := rsub K _ _).
    assert (DN : FL -> fin dnew). { intros FLH. pose proof FLH as (F1 & F2 & _ & _ & F5 & F6 & _). unfold dnew, x. apply F1; [apply F2|]; auto. }
    destruct (rle K _ dnew) eqn:ERL.
    { apply wp_ok. split; [auto|]. split; [auto|]. split; [auto|]. apply KEEPFI; auto. { intros FLH. apply (S3 FLH). }
      intros FLH EC. exfalso. rewrite EC in ERL. exact (fin_le FLH _ (DN FLH) ERL). }
    clear ERL.
    assert (ST : settled (t_up K s) (t_l K t) j). { right. exists q0. auto. }
    g1s 0. destruct (Nat.eqb_spec (N1 iperm x) 0) as [E|E].
    { apply wp_ok. unfold LI, next_inv. cbn [t_up t_l]. split; [|split; [auto|split; [auto|]]].
      - split; [auto|]. cbn. rewrite ?S1. do 4 (split; [auto|]). split; [auto|]. intros _. auto.
      - apply KEEPFI; auto. cbn [t_csp]. intros FLH EC. exfalso. apply (fin_inf FLH). rewrite <- EC. auto. }
    g1s (r0 K). destruct (rle K _ dnew) eqn:ERL.
    { apply wp_ok. split; [auto|]. split; [auto|]. split; [auto|]. apply KEEPFI; auto. { intros FLH. apply (S3 FLH). }
      intros FLH EC. split; [auto|]. intros E0. destruct (S3 FLH) as (D & _). destruct (D x Rk) as (_ & D2). rewrite (D2 E0) in ERL.
      exact (fin_le FLH _ (DN FLH) ERL). }
    clear ERL. destruct (Nat.leb_spec (t_low K t) (N1 (t_l K t) x)) as [Hlx|Hlx].
    { apply wp_ok. split; [auto|]. split; [auto|]. split; [auto|]. apply COV. lia. }
    assert (HX : N1 (t_l K t) x = 0 \/ 1 <= N1 (t_l K t) x <= t_qlen K t).
    { destruct (B x Rk) as [F|(F1 & F2 & F3)]; [lia|lia|auto|]. right. unfold reg in F1. lia. }
    s1s. set (d' := upd (t_d K t) (x - 1) dnew). assert (Ld' : length d' = n) by (unfold d'; now rewrite upd_length).
    wpb. apply wp_conseq with (P := fun '(q', l', qlen', low') => HI n qlen' low' 0 0 0 q' l' /\ qlen' < low' /\ low' <= t_up K s /\
         LS (t_up K s) x (t_l K t) l' /\ N1 l' x < t_up K s /\ N1 l' x <> 0).
    { destruct (rle K dnew (t_dmin K t)).
      - (* to the upper part *)
        wpb. apply wp_conseq with (P := fun '(q1, l1, qlen1) => HI n qlen1 (t_low K t) x 0 0 q1 l1 /\ S qlen1 < t_low K t /\
          LS (t_up K s) x (t_l K t) l1).
        { destruct HX as [HX|HX].
          - rewrite HX. cbn [Nat.eqb negb]. apply wp_ok.
            pose proof (space n _ _ x _ _ HH Rk HX Q1 ltac:(lia)). split; [apply hi_out; auto|]. split; [auto|]. intros i Hi _. auto.
          - destruct (Nat.eqb_spec (N1 (t_l K t) x) 0); [lia|]. cbn [negb].
            eapply wp_conseq; [apply heap_del_l with (low := t_low K t); auto; lia|].
            intros [[q1 l1] qlen1] (-> & P1 & P2). split; [auto|]. split; [lia|]. eapply keep_ls; eauto. }
        intros [[q1 l1] qlen1] (P1 & P2 & P3). cbv zeta.
        pose proof (ins_low qlen1 (t_low K t) (t_up K s) q1 l1 x P1 P2 Q2 Q3 Rk) as W.
        apply wp_inv in W. destruct W as ([q' l'] & W & W1 & W2 & W3 & W3' & W4).
        destruct (s1 q1 (t_low K t - 1) x) as [q2| |]; cbn [bind] in W |- *; try discriminate.
        destruct (s1 l1 x (t_low K t - 1)) as [l2| |]; cbn [bind] in W |- *; try discriminate. inversion W; subst q2 l2.
        apply wp_ok. split; [auto|]. split; [lia|]. split; [lia|]. split; [|split; auto]. eapply LS_trans; eauto.
      - destruct HX as [HX|HX].
        + rewrite HX. cbn [Nat.eqb].
          pose proof (ins_heap (t_qlen K t) (t_low K t) (t_up K s) (t_q K t) (t_l K t) d' x HH Q1 Q2 Q3 Ld' Rk HX) as W.
          apply wp_inv in W. destruct W as ([q' l'] & W & W1 & W2 & W3 & W4 & W4' & W5).
          destruct (s1 (t_l K t) x (S (t_qlen K t))) as [l1| |]; cbn [bind] in W |- *; try discriminate. rewrite W. cbn [bind].
          apply wp_ok. split; [auto|]. split; [auto|]. split; [auto|]. split; auto.
        + destruct (Nat.eqb_spec (N1 (t_l K t) x) 0); [lia|]. wpb. apply wp_ok. wpb.
          eapply wp_conseq; [apply (up_heap (t_qlen K t) (t_low K t) (t_up K s)); auto|].
          intros [q' l'] (P1 & P2 & P3 & P4). apply wp_ok. auto 10. }
    intros [[[q' l'] qlen'] low'] (G1 & G2 & G3 & G4 & G5 & G6).
    wpb. eapply wp_conseq.
    { apply (set_tree_l (t_up K s) x (t_l K t) l' (t_out K t) (t_pr K t) k j); auto. }
    intros [out' pr'] T'. apply wp_ok. unfold LI, next_inv. cbn [t_up t_l]. split; [|split; [auto|split]].
    - split; [auto|]. cbn. rewrite ?S1. do 4 (split; [auto|]). split; [auto|]. eapply SPI_ls; eauto.
    - destruct (G4 q0 Hq) as (_ & Z & _). { intros ->. lia. } rewrite Z; auto.
    - intros FLH. cbn [t_l t_d t_csp t_up]. destruct (S3 FLH) as (D & C & V). split; [|split; [auto|]].
      + intros i Hi. unfold d'. rewrite n1_upd by lia. destruct (Nat.eqb_spec i x) as [->|Hix]. { split; [auto|tauto]. }
        destruct (G4 i Hi Hix) as (L1 & L2 & L3 & L4). destruct (D i Hi) as (X1 & X2). split; intros E0.
        * apply X1. tauto.
        * apply X2. destruct (Nat.eq_dec (N1 (t_l K t) i) 0); tauto.
      + intros EC c k' Hc HSt Hk'.
        assert (HSt' : settled (t_up K t) (t_l K t) c).
        { destruct HSt as [->|(r & Hr & Er & Hu)]; [now left|]. right. exists r. split; [auto|]. split; [auto|].
          destruct (Nat.eq_dec r x) as [->|Hrx]; [lia|]. destruct (G4 r Hr Hrx) as (_ & _ & L3 & _).
          destruct (Nat.le_gt_cases (t_up K t) (N1 (t_l K t) r)); [auto|]. rewrite S1 in *. specialize (L3 H0). lia. }
        destruct (V EC c k' Hc HSt' Hk') as [(-> & X)|X].
        * destruct (Nat.eq_dec k' k) as [->|]; [right; auto|left; split; [auto|lia]].
        * right. destruct (Nat.eq_dec (N1 irn k') x) as [Ex|Ex]; [rewrite Ex; auto|].
          apply (G4 _ (incol_row K n ip irn a PW La _ _ Hc Hk') Ex). auto.
  Qed.

  Lemma scan_next_l : forall s j vj q0, SI s -> 1 <= q0 <= n -> N1 iperm q0 = j -> j <> 0 -> t_up K s <= N1 (t_l K s) q0 -> 1 <= t_up K s ->
    FI (fun c _ => c = j) s -> (FL -> fin vj) ->
    wp (scan_next K n ip irn a iperm u j vj s) (fun s' => SI s' /\ t_up K s' = t_up K s /\ FI (fun _ _ => False) s').
  Proof.
    intros s j vj q0 HS Hq Ej Hj0 Hup Hup1 HFI HV. unfold scan_next.
    assert (Hj : 1 <= j <= n). { subst j. apply iperm_ok; auto. }
    apply wp_conseq with (P := next_inv s j q0 (N1 ip (S j))).
    2:{ intros s' (H1 & H2 & _ & H3). split; [auto|]. split; [auto|]. intros FLH. destruct (H3 FLH) as (D & C & V). split; [auto|]. split; [auto|].
      intros EC c k Hc HSt Hk. right. destruct (V EC c k Hc HSt Hk) as [(-> & X)|X]; [destruct Hk; lia|auto]. }
    apply (over_col_l K n ip irn a PW La _ j _ s (next_inv s j q0)); [auto| |].
    { split; [auto|]. split; [auto|]. split; [auto|]. intros FLH. destruct (HFI FLH) as (D & C & V). split; [auto|]. split; [auto|].
      intros EC c k Hc HSt Hk. destruct (V EC c k Hc HSt Hk) as [->|X]; [left; split; [auto|destruct Hk; lia]|auto]. }
    intros k t Hk HI0. apply (next_step s j vj q0 Hq Ej Hj0 Hj Hup1 HV k t Hk HI0).
  Qed.

  Notation FI0 := (FI (fun _ _ => False)).
  Lemma search_step_l : forall s, SI s -> FI0 s -> wp (search_step K n ip irn a iperm jperm u s) (fun r => SI (snd r) /\ FI0 (snd r) /\
    (if fst r then t_up K (snd r) = t_up K s - 1 /\ 1 <= t_up K s else t_up K (snd r) = t_up K s /\ done (snd r))).
  Proof.
    intros s HS HFI. unfold search_step. wpb. eapply wp_conseq; [eapply refill_l; eauto|].
    intros [go t] (HT & HU & HG & HF & HD). cbn [fst snd] in *. destruct go; cbn [negb]. 2:{ apply wp_ok. cbn [fst snd]. auto. }
    specialize (HG eq_refl). pose proof HT as (HH & Q1 & Q2 & Q3 & Ld & T & SP). pose proof HH as (Lq & Ll & A & B).
    destruct (A (t_up K t - 1)) as (X1 & _ & _ & X2); [unfold reg; lia|lia|]. set (q0 := N1 (t_q K t) (t_up K t - 1)) in *.
    g1s 0. fold q0. g1s (r0 K). destruct (rle K _ _) eqn:ERL.
    { apply wp_ok. cbn [fst snd]. split; [auto|]. split; [auto|]. split; [auto|]. intros FLH EC. exfalso. destruct (HF FLH) as (D & _).
      rewrite EC in ERL. refine (fin_le FLH _ _ ERL). apply D; [auto|lia]. }
    clear ERL.
    destruct T as (Lo & Lp & PJ & T0) eqn:ET. destruct (T0 q0 X1) as (N0 & _); [lia|].
    destruct (iperm_ok q0 X1 N0) as (Y1 & Y2 & Y3). pose proof Li. pose proof Lj.
    g1s 0. g1s 0.
    destruct MM as (_ & _ & _ & M2). destruct (M2 _ Y1 Y2) as (Z1 & _). pose proof (incol_k K n ip irn a PW La _ _ Y1 Z1).
    g1s (r0 K). g1s (r0 K). wpb. eapply wp_conseq.
    { apply scan_next_l with (q0 := q0); auto; cbn [t_up t_l]; try lia.
      - split; [auto|]. cbn. split; [auto|]. split; [lia|]. split; [lia|]. split; [auto|].
        split; [apply TI_up; [auto|lia]|apply SPI_up; auto].
      - intros FLH. cbn [t_l t_d t_csp t_up]. destruct (HF FLH) as (D & C & V). split; [auto|]. split; [auto|].
        intros EC c k Hc HSt Hk. destruct (Nat.eq_dec c (N1 iperm q0)) as [|Hcq]; [left; auto|].
        destruct (V EC c k Hc) as [[]|X]; auto. destruct HSt as [->|(r & Hr & Er & Hu)]; [now left|]. right. exists r. split; [auto|]. split; [auto|].
        destruct (Nat.le_gt_cases (t_up K t) (N1 (t_l K t) r)); [auto|]. exfalso. apply Hcq. rewrite <- Er. f_equal.
        assert (El : N1 (t_l K t) r = t_up K t - 1) by lia.
        destruct (B r Hr) as [Y|(_ & _ & Y)]; [lia|lia|lia|]. rewrite El in Y. auto.
      - intros FLH. pose proof FLH as (F1 & F2 & _ & _ & F5 & F6 & _). destruct (HF FLH) as (D & _). apply F2; [apply F1|].
        + apply D; [auto|lia].
        + auto.
        + rewrite <- Y3. apply F6. auto. }
    intros s' (S1 & S2 & S3). cbn [t_up] in S2. apply wp_ok. cbn [fst snd]. split; [auto|]. split; [auto|]. split; lia.
  Qed.

  (** Rows in use are matched, hence at most as many as matched rows. *)
  Lemma used_le : forall s, SI s -> t_qlen K s + (S n - t_low K s) <= cnt n iperm.
  Proof.
    intros s ((Lq & Ll & A & B) & Q1 & Q2 & Q3 & _ & (_ & _ & _ & T) & _).
    set (ps := seq 1 (t_qlen K s) ++ seq (t_low K s) (S n - t_low K s)).
    assert (RG : forall pos, In pos ps -> reg n (t_qlen K s) (t_low K s) pos).
    { intros pos H. unfold ps in H. apply in_app_iff in H. unfold reg. destruct H as [H|H]; apply in_seq in H; lia. }
    assert (ND : NoDup (map (N1 (t_q K s)) ps)).
    { assert (G : forall l, (forall p, In p l -> In p ps) -> NoDup l -> NoDup (map (N1 (t_q K s)) l)).
      { induction l; intros H1 H2; cbn; constructor; inversion H2; subst.
        - intros H. apply in_map_iff in H. destruct H as (p & E & Hp). apply H3.
          assert (R1 := RG _ (H1 a0 (or_introl eq_refl))). assert (R2 := RG _ (H1 p (or_intror Hp))).
          destruct (A _ R1) as (_ & _ & _ & X); [destruct R1; lia|]. destruct (A _ R2) as (_ & _ & _ & Y); [destruct R2; lia|]. 
          rewrite E in Y. rewrite Y in X. now subst.
        - apply IHl; auto. intros; apply H1; now right. }
      apply G; auto. unfold ps. apply NoDup_app_i.
      - apply seq_NoDup.
      - apply seq_NoDup.
      - intros x H1 H2. apply in_seq in H1, H2. lia. }
    assert (CN : forall m, cnt m iperm = length (filter (fun i => negb (N1 iperm i =? 0)) (seq 1 m))).
    { induction m; [reflexivity|]. rewrite seq_S, filter_app, app_length. cbn [cnt filter]. rewrite IHm. cbn [plus].
      destruct (N1 iperm (S m) =? 0); cbn; lia. }
    rewrite CN. replace (t_qlen K s + (S n - t_low K s)) with (length (map (N1 (t_q K s)) ps)).
    2:{ rewrite map_length. unfold ps. rewrite app_length, !seq_length. lia. }
    apply NoDup_incl_length; [exact ND|]. intros r Hr. apply in_map_iff in Hr. destruct Hr as (p & <- & Hp). apply RG in Hp.
    destruct (A _ Hp) as (X1 & _ & _ & X2); [destruct Hp; lia|]. apply filter_In. split; [apply in_seq; lia|].
    destruct (T (N1 (t_q K s) p) X1) as (Y & _). { destruct Hp; lia. } destruct (Nat.eqb_spec (N1 iperm (N1 (t_q K s) p)) 0); [contradiction|auto].
  Qed.

  Lemma search_l : forall num s, SI s -> FI0 s -> t_up K s = S n -> num = cnt n iperm ->
    wp (loop num (search_step K n ip irn a iperm jperm u) s) (fun s' => SI s' /\ S n <= t_up K s' + num /\ FI0 s' /\ done s').
  Proof.
    intros num s HS HF0 HU HN. apply (wp_loop _ (fun t s' => SI s' /\ FI0 s' /\ S n = t_up K s' + t)).
    - split; [auto|]. split; [auto|lia].
    - intros s' (S1 & S2 & S3). split; [auto|]. split; [lia|]. split; [auto|]. intros _ _. pose proof (used_le s' S1).
      destruct S1 as (_ & Q1 & Q2 & Q3 & _). lia.
    - intros t s' Ht (S1 & S2 & S3). eapply wp_conseq; [apply search_step_l; auto|]. intros [go s2]. cbn [fst snd]. intros (S4 & S5 & S6).
      destruct go; (split; [auto|]). { split; [auto|]. lia. } destruct S6. split; [lia|]. auto.
  Qed.

  (** A failing search leaves a set of columns with too few rows. *)
  Definition deficient : Prop := exists (rows : list nat) (f : nat -> nat) (c0 : nat),
    NoDup rows /\ 1 <= c0 <= n /\ (forall r, In r rows -> 1 <= r <= n /\ 1 <= f r <= n /\ f r <> c0) /\
    (forall r r', In r rows -> In r' rows -> f r = f r' -> r = r') /\
    forall c i, (c = c0 \/ exists r, In r rows /\ c = f r) -> stored1 ip irn i c -> In i rows.

  Lemma search_fails : forall s, SI s -> FI0 s -> done s -> FL -> req K (t_csp K s) (rinf K) = true -> deficient.
  Proof.
    intros s HS HF HD FLH ER. destruct (HF FLH) as (D & C & V).
    assert (EC : t_csp K s = rinf K). { destruct C as [|C]; [auto|]. destruct FLH as (_ & _ & _ & F & _). rewrite (F _ C) in ER. discriminate. }
    destruct (HD FLH EC) as (E1 & E2). pose proof HS as (HH & Q1 & Q2 & Q3 & _ & T & _). pose proof HH as (Lq & Ll & A & B).
    destruct T as (_ & _ & _ & T).
    exists (filter (fun r => negb (N1 (t_l K s) r =? 0)) (seq 1 n)), (N1 iperm), jord.
    assert (IN : forall r, In r (filter (fun r => negb (N1 (t_l K s) r =? 0)) (seq 1 n)) <-> 1 <= r <= n /\ N1 (t_l K s) r <> 0).
    { intros r. rewrite filter_In, in_seq. destruct (Nat.eqb_spec (N1 (t_l K s) r) 0); cbn [negb]; intuition (try lia; try congruence). }
    split; [apply NoDup_filter, seq_NoDup|]. split; [auto|]. split; [|split].
    - intros r Hr. apply IN in Hr. destruct Hr as (Hr & Hl). destruct (T r Hr Hl) as (X & _). split; [auto|]. split; [apply iperm_ok; auto|].
      apply iperm_jord; auto.
    - intros r r' Hr Hr' E. apply IN in Hr, Hr'. destruct Hr as (Hr & Hl). destruct (T r Hr Hl) as (X & _). apply iperm_inj; tauto.
    - intros c i Hc (k & Hk & Ek). apply IN.
      assert (HC : 1 <= c <= n /\ settled (t_up K s) (t_l K s) c).
      { destruct Hc as [->|(r & Hr & ->)]; [split; [auto|now left]|]. apply IN in Hr. destruct Hr as (Hr & Hl). destruct (T r Hr Hl) as (X & _).
        split; [apply iperm_ok; auto|]. right. exists r. split; [auto|]. split; [auto|].
        destruct (B r Hr) as [Y|(Y & _)]; [lia|lia|tauto|]. destruct Y. lia. }
      destruct HC as (HC1 & HC2). destruct (V EC c k HC1 HC2 Hk) as [[]|X]. rewrite Ek in X.
      pose proof (incol_row K n ip irn a PW La c k HC1 Hk). rewrite Ek in H. auto.
  Qed.

  (** ** Augmenting *)
  Lemma augment_l : forall num s, SI s -> S n <= t_up K s + num -> req K (t_csp K s) (rinf K) = false ->
    wp (augment K irn num s iperm jperm) (fun '(iperm', jperm') => MI n ip irn n iperm' jperm' /\ cnt n iperm' = S (cnt n iperm) /\
      N1 jperm' jord <> 0 /\ forall j, 1 <= j <= n -> N1 jperm j <> 0 -> N1 jperm' j <> 0).
  Proof.
    intros num s HS Hnum Hc. pose proof HS as (HH & Q1 & Q2 & Q3 & Ld & T & SP). pose proof HH as (Lq & Ll & A & B).
    destruct T as (Lo & Lp & PJ & T). destruct (SP Hc) as (J1 & J2 & J3 & J4). unfold augment.
    pose proof (incol_row K n ip irn a PW La _ _ J1 J2) as Rk. pose proof (incol_k K n ip irn a PW La _ _ J1 J2) as Kk. pose proof Li as L1. pose proof Lj as L2.
    destruct MM as (_ & _ & M1 & M2).
    set (up := t_up K s) in *. set (l := t_l K s) in *.
    assert (LN : forall r, 1 <= r <= n -> N1 l r <= n).
    { intros r Hr. destruct (B r Hr) as [E|(E & _)]; [lia|lia|lia|]. destruct E; lia. }
    (* the stale row of column j *)
    set (stale := fun t iperm' jperm' j => exists r, 1 <= r <= n /\ N1 iperm r = j /\ up + t <= N1 l r /\ N1 iperm' r = j /\
       N1 irn (N1 jperm' j) <> r /\ N1 jperm' jord = 0 /\
       (forall r', 1 <= r' <= n -> N1 l r <= N1 l r' -> N1 iperm' r' = N1 iperm r') /\
       (forall i, 1 <= i <= n -> i <> r -> N1 iperm' i <> 0 ->
          1 <= N1 iperm' i <= n /\ N1 jperm' (N1 iperm' i) <> 0 /\ N1 irn (N1 jperm' (N1 iperm' i)) = i)).
    set (AInv := fun t (x : list nat * list nat * nat) => let '(iperm', jperm', j) := x in
       length iperm' = n /\ length jperm' = n /\ 1 <= j <= n /\ cnt n iperm' = S (cnt n iperm) /\
       (forall j', 1 <= j' <= n -> N1 jperm' j' <> 0 ->
         incol j' (N1 jperm' j') /\ N1 irn (N1 jperm' j') <= n /\ N1 iperm' (N1 irn (N1 jperm' j')) = j') /\
       ((MI n ip irn n iperm' jperm' /\ N1 jperm' jord <> 0) /\ j = jord \/ (j <> jord /\ stale t iperm' jperm' j)) /\
       (forall j, 1 <= j <= n -> N1 jperm j <> 0 -> N1 jperm' j <> 0)).
    g1s 0. s1s. s1s. wpb.
    apply wp_conseq with (P := fun '(iperm', jperm', _) => MI n ip irn n iperm' jperm' /\ cnt n iperm' = S (cnt n iperm) /\
      N1 jperm' jord <> 0 /\ forall j, 1 <= j <= n -> N1 jperm j <> 0 -> N1 jperm' j <> 0).
    2:{ intros [[p1 p2] p3] H. apply wp_ok. exact H. }
    apply (wp_loop _ AInv).
    - (* initially *)
      set (k := t_isp K s) in *. set (j := t_jsp K s) in *.
      assert (M2' : forall j', 1 <= j' <= n -> N1 (upd jperm (j - 1) k) j' <> 0 ->
         incol j' (N1 (upd jperm (j - 1) k) j') /\ N1 irn (N1 (upd jperm (j - 1) k) j') <= n /\
         N1 (upd iperm (N1 irn k - 1) j) (N1 irn (N1 (upd jperm (j - 1) k) j')) = j').
      { intros j' Hj'. rewrite n1_upd by lia. destruct (Nat.eqb_spec j' j).
        - intros _. subst j'. n1s. split; [auto|]. split; [lia|auto].
        - intros Hne. destruct (M2 j' Hj' Hne) as (X1 & X2 & X3). split; [auto|]. split; [auto|].
          pose proof (incol_row K n ip irn a PW La j' _ Hj' X1). rewrite n1_neq; auto; try lia. intros E. rewrite E in X3. lia. }
      split; [now rewrite upd_length|]. split; [now rewrite upd_length|]. split; [auto|].
      split. { rewrite (cnt_new K irn a La) by lia. destruct (Nat.leb_spec (N1 irn k) n); lia. }
      split; [exact M2'|]. split.
      2:{ intros j' Hj' Hne. rewrite n1_upd by lia. destruct (_ =? _); [lia|auto]. }
      destruct (Nat.eq_dec j jord) as [Ejo|Ejo].
      + left. split; [|auto]. split. 2:{ rewrite <- Ejo. rewrite n1_eq by lia. lia. } apply (match1 K n ip irn a PW La); auto; try lia. rewrite Ejo; auto.
      + right. split; [auto|]. destruct J4 as [|(r & Hr & Er & Hu)]; [contradiction|]. exists r.
        assert (r <> N1 irn k). { intros ->. lia. }
        split; [auto|]. split; [auto|]. split; [unfold l, up in *; lia|]. split; [rewrite n1_neq; auto; lia|].
        split; [rewrite n1_eq by lia; auto|]. split; [rewrite n1_neq; auto; lia|]. split.
        * intros r' Hr' Hl'. rewrite n1_neq; auto; try lia. intros ->.
          destruct (Nat.eq_dec (N1 l (N1 irn k)) 0) as [E|E]; [unfold l, up in *; lia|]. destruct (T _ Rk E). contradiction.
        * intros i Hi Hir. rewrite n1_upd by lia. destruct (Nat.eqb_spec i (N1 irn k)).
          -- intros _. subst i. n1s. repeat split; auto; lia.
          -- intros Hne. destruct (M1 i Hi Hne) as (X1 & X2 & X3). split; [auto|].
             rewrite n1_neq; auto; try lia. intros E. apply Hir. eapply iperm_inj; auto. rewrite Er; auto.
    - (* after num steps the path is at its end *)
      intros [[p1 p2] j] (_ & _ & _ & C & _ & [((X & X') & _)|(_ & r & Hr & _ & Hl & _)] & PS); [auto|]. specialize (LN r Hr). lia.
    - intros t [[p1 p2] j] Ht (I1 & I2 & I3 & I4 & I5 & I6 & PS). g1s (@None nat).
      destruct I6 as [((MX & MX') & ->)|(Hjo & r & Hr & Er & Hl & Er' & Hs & HJ & HK & HM)].
      { rewrite PJ. apply wp_ok. cbn [fst snd]. auto. }
      destruct (T r Hr) as (N0 & pj & T2 & T3 & T4 & T5 & T6); [fold l; lia|]. rewrite Er in *. rewrite T5.
      set (k := N1 (t_out K s) j) in *.
      pose proof (incol_k K n ip irn a PW La _ _ T2 T3) as Kk'.
      g1s 0. fold k. g1s 0. rewrite T4. s1s. s1s. apply wp_ok. cbn [fst snd].
      assert (NJ : pj <> j).
      { intros ->. destruct T6 as [|(r2 & Hr2 & Er2 & Hu2 & Hlt2)]; [contradiction|].
        assert (r2 = r) by (apply iperm_inj; auto; congruence). subst r2. unfold l, up in *; lia. }
      split; [now rewrite upd_length|]. split; [now rewrite upd_length|]. split; [auto|].
      split. { rewrite (cnt_same K irn a La); auto; lia. }
      split.
      { intros j' Hj'. rewrite (n1_upd _ 0 p2) by lia. destruct (Nat.eqb_spec j' pj).
        - intros _. subst j'. rewrite T4. n1s. split; [auto|]. split; [lia|auto].
        - intros Hne. destruct (I5 j' Hj' Hne) as (X1 & X2 & X3). split; [auto|]. split; [auto|].
          pose proof (incol_row K n ip irn a PW La j' _ Hj' X1). rewrite n1_neq; auto; try lia. intros E. rewrite E in X3.
          rewrite Er' in X3. subst j'. congruence. }
      split. 2:{ intros j' Hj' Hne. rewrite n1_upd by lia. destruct (_ =? _); [lia|auto]. }
      destruct T6 as [->|(r2 & Hr2 & Er2 & Hu2 & Hlt2)].
      + (* the root is reached *)
        left. split; [|auto]. split. 2:{ rewrite n1_eq by lia. lia. } split; [now rewrite upd_length|]. split; [now rewrite upd_length|]. split.
        * intros i Hi. rewrite (n1_upd _ 0 p1) by lia. destruct (Nat.eqb_spec i r).
          -- intros _. subst i. n1s. split; [auto|]. split; [lia|auto].
          -- intros Hne. destruct (HM i Hi n0 Hne) as (X1 & X2 & X3). split; [auto|].
             rewrite n1_neq; auto; try lia. intros E. rewrite E in X2. contradiction.
        * intros j' Hj'. rewrite (n1_upd _ 0 p2) by lia. destruct (Nat.eqb_spec j' jord).
          -- intros _. subst j'. rewrite T4. n1s. split; [auto|]. split; [lia|auto].
          -- intros Hne. destruct (I5 j' Hj' Hne) as (X1 & X2 & X3). split; [auto|]. split; [auto|].
             pose proof (incol_row K n ip irn a PW La j' _ Hj' X1). rewrite n1_neq; auto; try lia. intros E. rewrite E in X3.
             rewrite Er' in X3. subst j'. congruence.
      + right. specialize (Hlt2 ltac:(lia)).
        assert (NR : r2 <> r) by (intros ->; lia).
        assert (PR : N1 p1 r2 = pj). { rewrite HK; auto; lia. }
        destruct (HM r2 Hr2 NR) as (Z1 & Z2 & Z3). { rewrite PR. lia. } rewrite PR in Z2, Z3.
        split. { intros E. eapply (iperm_jord r2); eauto; congruence. }
        exists r2. split; [auto|]. split; [auto|]. split; [lia|]. split; [rewrite n1_neq; auto; lia|].
        split; [rewrite n1_eq by lia; congruence|]. split.
        { rewrite n1_neq; auto; try lia. intros E. eapply (iperm_jord r2); eauto; congruence. } split.
        * intros r' Hr' Hl'. rewrite n1_neq; auto; try lia. { apply HK; auto; lia. } intros ->. lia.
        * intros i Hi Hir. rewrite (n1_upd _ 0 p1) by lia. destruct (Nat.eqb_spec i r).
          -- intros _. subst i. n1s. split; [auto|]. split; [lia|auto].
          -- intros Hne. destruct (HM i Hi n0 Hne) as (X1 & X2 & X3). split; [auto|].
             rewrite n1_neq; auto; try lia. intros E. apply Hir. rewrite E in X3. congruence.
  Qed.
End Search.
