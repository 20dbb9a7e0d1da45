(** * EqDual1: partial-correctness rules; the heap keeps its order. *)
From Coq Require Import List Arith ZArith Bool Lia.
From Verif Require Import Base EqModel EqSpec EqProofs1.
Import ListNotations.

(** Whatever is returned satisfies [Q]. *)
Definition wlp {A} (m : res A) (Q : A -> Prop) : Prop := forall r, m = Ok r -> Q r.

Lemma wlp_ok : forall A (a : A) (Q : A -> Prop), Q a -> wlp (Ok a) Q.
Proof. intros A a Q H r E. injection E as <-. auto. Qed.
Lemma wlp_bind : forall A B (m : res A) (f : A -> res B) Q, wlp m (fun a => wlp (f a) Q) -> wlp (bind m f) Q.
Proof. intros A B m f Q H r E. destruct m as [a| |]; cbn [bind] in E; try discriminate. apply (H a eq_refl r E). Qed.
Lemma wlp_conseq : forall A (m : res A) (P Q : A -> Prop), wlp m P -> (forall a, P a -> Q a) -> wlp m Q.
Proof. intros A m P Q H HP r E. auto. Qed.
Lemma wlp_use : forall A (m : res A) (P Q : A -> Prop), wp m P -> wlp m (fun a => P a -> Q a) -> wlp m Q.
Proof. intros A m P Q H H2 r E. apply (H2 r E). eapply wp_ok_inv; eauto. Qed.
Lemma wp_wlp : forall A (m : res A) (P Q : A -> Prop), wp m P -> wlp m Q -> wp m (fun a => P a /\ Q a).
Proof. intros A m P Q H H2. apply wp_inv in H. destruct H as (a & E & Ha). eapply wp_intro; eauto. Qed.
Lemma wlp_err : forall A (Q : A -> Prop), wlp Err Q. Proof. intros A Q r E. discriminate. Qed.
Lemma wlp_ub : forall A (Q : A -> Prop), wlp UB Q. Proof. intros A Q r E. discriminate. Qed.

Lemma wlp_g1 : forall A (l : list A) i d (Q : A -> Prop), (1 <= i <= length l -> Q (n1 d l i)) -> wlp (g1 l i) Q.
Proof.
  intros A l i d Q H r E. destruct i as [|i]; cbn [g1] in E; [discriminate|]. unfold get in E.
  destruct (nth_error l i) eqn:En; [|discriminate]. injection E as <-.
  assert (i < length l) by (apply nth_error_Some; congruence). specialize (H ltac:(lia)). unfold n1 in H. rewrite Nat.sub_succ, Nat.sub_0_r in H.
  rewrite (nth_error_nth _ _ d En) in H. exact H.
Qed.
Lemma wlp_s1 : forall A (l : list A) i v (Q : list A -> Prop), (1 <= i <= length l -> Q (upd l (i - 1) v)) -> wlp (s1 l i v) Q.
Proof.
  intros A l i v Q H. destruct (Nat.eq_dec i 0) as [->|]; [apply wlp_ub|]. destruct (le_gt_dec i (length l)).
  - intros r E. specialize (H ltac:(lia)). assert (W : wp (s1 l i v) Q) by (apply wp_s1; [lia|auto]). eapply wp_ok_inv; eauto.
  - intros r E. destruct i as [|i]; [lia|]. cbn [s1] in E. unfold set in E. destruct (Nat.ltb_spec i (length l)); [lia|discriminate].
Qed.

Lemma wlp_for_n : forall S (I : nat -> S -> Prop) n lo (f : nat -> S -> res S) s, I lo s ->
  (forall k s, lo <= k < lo + n -> I k s -> wlp (f k s) (I (Datatypes.S k))) -> wlp (for_n lo n f s) (I (lo + n)).
Proof.
  induction n; intros lo f s H0 Hs; cbn [for_n].
  - apply wlp_ok. now rewrite Nat.add_0_r.
  - apply wlp_bind. eapply wlp_conseq; [apply Hs; [lia|auto]|]. intros s2 H2. replace (lo + Datatypes.S n) with (Datatypes.S lo + n) by lia.
    apply IHn; auto. intros; apply Hs; auto; lia.
Qed.
Lemma wlp_for_range : forall S (I : nat -> S -> Prop) lo hi (f : nat -> S -> res S) s, lo <= hi -> I lo s ->
  (forall k s, lo <= k < hi -> I k s -> wlp (f k s) (I (Datatypes.S k))) -> wlp (for_range lo hi f s) (I hi).
Proof.
  intros S I lo hi f s Hle H0 Hs. unfold for_range. replace hi with (lo + (hi - lo)) at 2 by lia. apply wlp_for_n; auto. intros; apply Hs; auto; lia.
Qed.
Lemma wlp_loop : forall S (I : nat -> S -> Prop) (P : S -> Prop) n (f : S -> res (bool * S)) s,
  I 0 s -> (forall s, I n s -> P s) ->
  (forall k s, k < n -> I k s -> wlp (f s) (fun r => if fst r then I (Datatypes.S k) (snd r) else P (snd r))) ->
  wlp (loop n f s) P.
Proof.
  intros S I P n f s H0 HP Hs.
  assert (G : forall m k s, k + m = n -> I k s -> wlp (loop m f s) P).
  { induction m; intros k s1 E H1; cbn [loop].
    - apply wlp_ok. apply HP. now replace n with k by lia.
    - apply wlp_bind. eapply wlp_conseq; [apply (Hs k); [lia|auto]|]. intros [go s2] H2. cbn [fst snd] in H2.
      destruct go; [apply (IHm (Datatypes.S k)); [lia|auto]|apply wlp_ok; auto]. }
  apply (G n 0); auto.
Qed.
Lemma wlp_forever : forall S (I P : S -> Prop) (f : S -> res (bool * S)) fuel s, I s ->
  (forall s, I s -> wlp (f s) (fun r => if fst r then I (snd r) else P (snd r))) -> wlp (forever fuel f s) P.
Proof.
  induction fuel; intros s H0 Hs; cbn [forever]; [apply wlp_ub|]. apply wlp_bind. eapply wlp_conseq; [apply Hs; auto|].
  intros [go s2] H2. cbn [fst snd] in H2. destruct go; [auto|apply wlp_ok; auto].
Qed.

Ltac lb := apply wlp_bind.
Ltac lg z := apply wlp_bind; apply (fun l i => wlp_g1 _ l i z); intros ?.
Ltac ls := apply wlp_bind; apply wlp_s1; intros ?.

Lemma div2_spec : forall p, p = 2 * Nat.div2 p \/ p = 2 * Nat.div2 p + 1.
Proof. intros p. pose proof (Nat.div2_odd p). destruct (Nat.odd p); cbn [Nat.b2n] in *; lia. Qed.
Lemma div2_of : forall p, Nat.div2 (2 * p) = p /\ Nat.div2 (S (2 * p)) = p.
Proof. intros. pose proof (div2_spec (2 * p)). pose proof (div2_spec (S (2 * p))). lia. Qed.

Section HeapOrder.
  Variable K : ROps.
  Notation R := (RR K).
  Definition kle (x y : R) : Prop := rle K x y = true.
  Hypothesis KT : forall x y z, kle x y -> kle y z -> kle x z.
  Hypothesis KTOT : forall x y, kle x y \/ kle y x.
  Hypothesis KLT : forall x y, rlt K x y = negb (rle K y x).

  Lemma kgt : forall x y, rle K x y = false -> kle y x.
  Proof. intros x y E. destruct (KTOT x y) as [H|H]; auto. unfold kle in H. congruence. Qed.
  Lemma krefl : forall x, kle x x.
  Proof. intros x. destruct (KTOT x x); auto. Qed.
  Lemma kltt : forall x y, rlt K x y = true -> kle x y.
  Proof. intros x y E. rewrite KLT in E. apply kgt. now destruct (rle K y x). Qed.
  Lemma kltf : forall x y, rlt K x y = false -> kle y x.
  Proof. intros x y E. rewrite KLT in E. unfold kle. now destruct (rle K y x). Qed.

  Variable d : list R.
  Notation key q pos := (n1 (r0 K) d (N1 q pos)).

  Definition HO (qlen : nat) (q : list nat) : Prop := forall pos, 2 <= pos <= qlen -> kle (key q (Nat.div2 pos)) (key q pos).
  (** Order except around the hole [h]. *)
  Definition HOX (qlen h : nat) (q : list nat) : Prop :=
    (forall pos, 2 <= pos <= qlen -> pos <> h -> Nat.div2 pos <> h -> kle (key q (Nat.div2 pos)) (key q pos)) /\
    (forall pos, 2 <= pos <= qlen -> Nat.div2 pos = h -> 2 <= h -> kle (key q (Nat.div2 h)) (key q pos)).
  Definition UPc (qlen h : nat) (q : list nat) (x : R) : Prop := forall pos, 2 <= pos <= qlen -> Nat.div2 pos = h -> kle x (key q pos).
  Definition DNc (h : nat) (q : list nat) (x : R) : Prop := 2 <= h -> kle (key q (Nat.div2 h)) x.

  Lemma HO_HOX : forall qlen h q, HO qlen q -> h <= qlen -> HOX qlen h q.
  Proof.
    intros qlen h q H Hh. split; [auto|]. intros pos Hp E H2. apply KT with (key q h); [apply H; lia|]. rewrite <- E. apply H; auto.
  Qed.
  Lemma HOX_mono : forall qlen h q, HOX (S qlen) h q -> HOX qlen h q.
  Proof. intros qlen h q (A & B). split; intros; [apply A|apply B]; auto; lia. Qed.

  Lemma up_move : forall qlen h q x, HOX qlen h q -> 2 <= h <= qlen -> h <= length q -> kle x (key q (Nat.div2 h)) ->
    let q' := upd q (h - 1) (N1 q (Nat.div2 h)) in HOX qlen (Nat.div2 h) q' /\ UPc qlen (Nat.div2 h) q' x.
  Proof.
    intros qlen h q x (A & B) Hh Lq Hx q'. set (h' := Nat.div2 h) in *.
    assert (D : 1 <= h' < h) by (unfold h'; pose proof (div2_spec h); lia).
    assert (QN : forall p, 1 <= p -> p <> h -> N1 q' p = N1 q p) by (intros; unfold q'; apply n1_neq; auto; lia).
    assert (QH : N1 q' h = N1 q h') by (unfold q'; apply n1_eq; lia).
    assert (DP : forall p, 2 <= p -> 1 <= Nat.div2 p < p) by (intros p Hp; pose proof (div2_spec p); lia).
    split; [split|].
    - intros pos Hp N1' N2. assert (pos <> h) by (intros ->; apply N2; reflexivity). rewrite (QN pos) by lia. specialize (DP pos ltac:(lia)).
      destruct (Nat.eq_dec (Nat.div2 pos) h) as [E|E].
      + rewrite E, QH. apply B; auto. lia.
      + rewrite QN by lia. apply A; auto.
    - intros pos Hp E H2. specialize (DP h' ltac:(lia)). rewrite (QN (Nat.div2 h')) by lia.
      assert (X : kle (key q (Nat.div2 h')) (key q h')) by (apply A; lia).
      destruct (Nat.eq_dec pos h) as [->|]; [rewrite QH; auto|]. rewrite QN by lia. apply KT with (key q h'); auto. rewrite <- E. apply A; auto; lia.
    - intros pos Hp E. destruct (Nat.eq_dec pos h) as [->|]; [rewrite QH; auto|]. rewrite QN by lia. apply KT with (key q h'); auto. rewrite <- E. apply A; auto; lia.
  Qed.

  Lemma down_move : forall qlen h c q x, HOX qlen h q -> 1 <= h -> 2 <= c <= qlen -> h <= length q -> Nat.div2 c = h -> kle (key q c) x ->
    (forall o, 2 <= o <= qlen -> Nat.div2 o = h -> kle (key q c) (key q o)) ->
    let q' := upd q (h - 1) (N1 q c) in HOX qlen c q' /\ DNc c q' x.
  Proof.
    intros qlen h c q x (A & B) H1 Hc Lq Ec Hx Ho q'. assert (D : h < c) by (pose proof (div2_spec c); lia).
    assert (QN : forall p, 1 <= p -> p <> h -> N1 q' p = N1 q p) by (intros; unfold q'; apply n1_neq; auto; lia).
    assert (QH : N1 q' h = N1 q c) by (unfold q'; apply n1_eq; lia).
    assert (DP : forall p, 2 <= p -> 1 <= Nat.div2 p < p) by (intros p Hp; pose proof (div2_spec p); lia).
    split; [split|].
    - intros pos Hp N1' N2. specialize (DP pos ltac:(lia)). destruct (Nat.eq_dec pos h) as [->|].
      + rewrite QH, QN by lia. apply B; auto; lia.
      + rewrite (QN pos) by lia. destruct (Nat.eq_dec (Nat.div2 pos) h) as [E|E].
        * rewrite E, QH. apply Ho; auto.
        * rewrite QN by lia. apply A; auto.
    - intros pos Hp E H2. rewrite Ec, QH. pose proof (DP pos ltac:(lia)). rewrite QN by lia. rewrite <- E. apply A; try lia.
    - intros _. rewrite Ec, QH. auto.
  Qed.

  Lemma place_ho : forall qlen h q j, HOX qlen h q -> 1 <= h -> h <= length q -> UPc qlen h q (n1 (r0 K) d j) -> DNc h q (n1 (r0 K) d j) ->
    HO qlen (upd q (h - 1) j).
  Proof.
    intros qlen h q j (A & B) H1 Lq HU HD pos Hp. assert (DP : 1 <= Nat.div2 pos < pos) by (pose proof (div2_spec pos); lia).
    destruct (Nat.eq_dec pos h) as [->|].
    - rewrite n1_eq by lia. rewrite n1_neq by lia. apply HD. lia.
    - rewrite (n1_neq _ _ _ _ pos) by lia. destruct (Nat.eq_dec (Nat.div2 pos) h) as [E|E].
      + rewrite E, n1_eq by lia. apply HU; auto.
      + rewrite n1_neq by lia. apply A; auto.
  Qed.
  Lemma HOX_upd : forall qlen h q j, HOX qlen h q -> 1 <= h <= length q -> HOX qlen h (upd q (h - 1) j).
  Proof.
    intros qlen h q j (A & B) H1. assert (DP : forall p, 2 <= p -> 1 <= Nat.div2 p < p) by (intros p Hp; pose proof (div2_spec p); lia).
    split; intros pos Hp X Y; pose proof (DP pos ltac:(lia)).
    - rewrite !n1_neq by lia. auto.
    - pose proof (DP h Y). rewrite !n1_neq by lia. auto.
  Qed.
  Lemma DNc_upd : forall h q j x, DNc h q x -> 1 <= h <= length q -> DNc h (upd q (h - 1) j) x.
  Proof. intros h q j x H H1 H2. pose proof (div2_spec h). rewrite n1_neq by lia. auto. Qed.

  (** The loops *)
  Lemma sift_up_o : forall n qlen dj q l h, HOX qlen h q -> 2 <= h <= qlen -> qlen <= n ->
    wlp (loop n (sift_up K d dj) (q, l, h)) (fun '(q', l', h') => HOX qlen h' q' /\ DNc h' q' dj /\ 1 <= h' <= h /\
      (h' <> h -> UPc qlen h' q' dj) /\ (h' = h -> q' = q) /\ length q' = length q).
  Proof.
    intros n qlen dj q l h H Hh Hn.
    apply (wlp_loop _ (fun t '(q', l', h') => HOX qlen h' q' /\ 2 <= h' /\ h' + t <= h /\ (h' <> h -> UPc qlen h' q' dj) /\
      (h' = h -> q' = q) /\ length q' = length q)).
    - split; [auto|]. split; [lia|]. split; [lia|]. split; [congruence|auto].
    - intros [[q' l'] h'] (_ & ? & ? & _). lia.
    - intros t [[q' l'] h'] Ht (A & B & C & D & E & L). unfold sift_up. pose proof (div2_spec h') as DS. lg 0. lg (r0 K). destruct (rle K _ dj) eqn:ER.
      + apply wlp_ok. cbn [fst snd]. split; [auto|]. split; [intros _; exact ER|]. split; [lia|auto].
      + ls. ls. apply wlp_ok. cbn [fst snd]. apply kgt in ER.
        destruct (up_move qlen h' q' dj A ltac:(lia) ltac:(lia) ER) as (U1 & U2).
        destruct (Nat.ltb_spec 1 (Nat.div2 h')).
        * split; [auto|]. split; [lia|]. split; [lia|]. split; [auto|]. split; [lia|now rewrite upd_length].
        * split; [auto|]. split; [intros ?; lia|]. split; [lia|]. split; [auto|]. split; [lia|now rewrite upd_length].
  Qed.

  Lemma sift_down_o : forall n qlen dj q l h, HOX qlen h q -> DNc h q dj -> 1 <= h -> qlen <= n ->
    wlp (loop n (sift_down K d dj qlen) (q, l, h)) (fun '(q', l', h') => HOX qlen h' q' /\ DNc h' q' dj /\ UPc qlen h' q' dj /\ h <= h' /\
      length q' = length q).
  Proof.
    intros n qlen dj q l h H HD Hh Hn.
    apply (wlp_loop _ (fun t '(q', l', h') => HOX qlen h' q' /\ DNc h' q' dj /\ h + t <= h' /\ length q' = length q)).
    - split; [auto|]. split; [auto|]. split; [lia|auto].
    - intros [[q' l'] h'] (A & B & C & L). split; [auto|]. split; [auto|]. split; [|split; [lia|auto]].
      intros pos Hp E. pose proof (div2_spec pos). lia.
    - intros t [[q' l'] h'] Ht (A & B & C & L). unfold sift_down. cbv zeta. destruct (Nat.ltb_spec qlen (2 * h')) as [X|X].
      { apply wlp_ok. cbn [fst snd]. split; [auto|]. split; [auto|]. split; [|split; [lia|auto]]. intros pos Hp E. pose proof (div2_spec pos). lia. }
      lg 0. lg (r0 K). lb.
      apply wlp_conseq with (P := fun '(c, dk) => 2 <= c <= qlen /\ Nat.div2 c = h' /\ dk = key q' c /\
        forall o, 2 <= o <= qlen -> Nat.div2 o = h' -> kle dk (key q' o)).
      { pose proof (div2_of h') as (D1 & D2). destruct (Nat.ltb_spec (2 * h') qlen).
        - lg 0. lg (r0 K). apply wlp_ok. destruct (rlt K _ _) eqn:ER.
          + split; [lia|]. split; [auto|]. split; [auto|]. intros o Ho E. pose proof (div2_spec o).
            destruct (Nat.eq_dec o (2 * h')) as [->|]; [apply kltt; auto|]. replace o with (S (2 * h')) by lia. apply krefl.
          + split; [lia|]. split; [auto|]. split; [auto|]. intros o Ho E. pose proof (div2_spec o).
            destruct (Nat.eq_dec o (2 * h')) as [->|]; [apply krefl|]. replace o with (S (2 * h')) by lia. apply kltf; auto.
        - apply wlp_ok. split; [lia|]. split; [auto|]. split; [auto|]. intros o Ho E. pose proof (div2_spec o).
          replace o with (2 * h') by lia. apply krefl. }
      intros [c dk] (C1 & C2 & -> & C4). destruct (rle K dj _) eqn:ER.
      { apply wlp_ok. cbn [fst snd]. split; [auto|]. split; [auto|]. split; [|split; [lia|auto]]. intros pos Hp E. apply KT with (key q' c); auto. }
      lg 0. ls. ls. apply wlp_ok. cbn [fst snd]. apply kgt in ER. pose proof (div2_spec c).
      destruct (down_move qlen h' c q' dj A ltac:(lia) C1 ltac:(lia) C2 ER C4) as (U1 & U2).
      split; [auto|]. split; [auto|]. split; [lia|now rewrite upd_length].
  Qed.

  Lemma heap_up_o : forall n qlen j q l, HOX qlen (N1 l j) q -> UPc qlen (N1 l j) q (n1 (r0 K) d j) -> 1 <= N1 l j <= qlen -> qlen <= n -> n <= length q ->
    wlp (heap_up K j n q d l) (fun '(q', l') => HO qlen q').
  Proof.
    intros n qlen j q l HX HU Hl Hn Lq. unfold heap_up. lg 0. lb.
    apply wlp_conseq with (P := fun '(q', l', h') => HOX qlen h' q' /\ DNc h' q' (n1 (r0 K) d j) /\ UPc qlen h' q' (n1 (r0 K) d j) /\ 1 <= h' <= qlen /\ length q' = length q).
    - destruct (Nat.ltb_spec 1 (N1 l j)).
      + lg (r0 K). eapply wlp_conseq; [apply (sift_up_o n qlen); auto; lia|]. intros [[q' l'] h'] (A & B & C & D & E & L).
        split; [auto|]. split; [auto|]. split; [|split; [lia|auto]]. destruct (Nat.eq_dec h' (N1 l j)); [|auto]. subst h'. rewrite E; auto.
      + apply wlp_ok. split; [auto|]. split; [intros ?; lia|]. split; [auto|]. split; [lia|auto].
    - intros [[q' l'] h'] (A & B & C & D & L). unfold place. ls. ls. apply wlp_ok. apply place_ho; auto; lia.
  Qed.

  Lemma heap_pop_o : forall n qlen q l, HO qlen q -> 1 <= qlen <= n -> n <= length q ->
    wlp (heap_pop K qlen n q d l) (fun '(q', l', qlen') => HO qlen' q').
  Proof.
    intros n qlen q l HH Hq Lq. unfold heap_pop. lg 0. lg (r0 K). cbv zeta. lb.
    assert (HX : HOX (qlen - 1) 1 q). { apply HOX_mono. replace (S (qlen - 1)) with qlen by lia. apply HO_HOX; auto; lia. }
    eapply wlp_conseq; [apply (sift_down_o n (qlen - 1)); auto; try lia; intros ?; lia|]. intros [[q' l'] h'] (A & B & C & D & L).
    lb. unfold place. ls. ls. apply wlp_ok. apply wlp_ok. apply place_ho; auto; lia.
  Qed.

  Lemma heap_del_o : forall n qlen q l pos, HOX qlen pos q -> 1 <= pos <= qlen -> qlen <= n -> n <= length q ->
    wlp (heap_del K pos qlen n q d l) (fun '(q', l', qlen') => HO qlen' q').
  Proof.
    intros n qlen q l pos HX Hp Hq Lq. unfold heap_del. destruct (Nat.eqb_spec qlen pos) as [E|E].
    - apply wlp_ok. intros p Hp2. pose proof (div2_spec p). apply HX; lia.
    - lg 0. lg (r0 K). cbv zeta. set (j := N1 q qlen). set (dj := n1 (r0 K) d j).
      assert (HX' : HOX (qlen - 1) pos q) by (apply HOX_mono; replace (S (qlen - 1)) with qlen by lia; auto).
      lb. apply wlp_conseq with (P := fun '(q', l', h') => HOX (qlen - 1) h' q' /\ DNc h' q' dj /\ 1 <= h' <= pos /\
        (h' <> pos -> UPc (qlen - 1) h' q' dj) /\ length q' = length q).
      { destruct (Nat.ltb_spec 1 pos).
        - eapply wlp_conseq; [apply (sift_up_o n (qlen - 1)); auto; lia|]. intros [[q' l'] h'] (A & B & C & D & _ & L). auto.
        - apply wlp_ok. split; [auto|]. split; [intros ?; lia|]. split; [lia|]. split; [lia|auto]. }
      intros [[q' l'] h'] (A & B & C & D & L). lb. unfold place at 1. ls. ls. apply wlp_ok.
      destruct (Nat.eqb_spec h' pos) as [E2|E2]; cbn [negb].
      2:{ apply wlp_ok. apply place_ho; auto; lia. }
      lb. eapply wlp_conseq; [apply (sift_down_o n (qlen - 1))|].
      + apply HOX_upd; auto; lia.
      + apply DNc_upd; eauto; lia.
      + lia.
      + lia.
      + intros [[q2 l2] h2] (A2 & B2 & C2 & D2 & L2). rewrite upd_length in L2. lb. unfold place. ls. ls. apply wlp_ok. apply wlp_ok. apply place_ho; auto; lia.
  Qed.
End HeapOrder.
