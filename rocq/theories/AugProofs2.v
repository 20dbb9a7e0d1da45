(** * AugProofs2: column lists, interchange, deferral, pushes, refinement. *)
From Coq Require Import List Arith Lia Bool Sorted.
From Verif Require Import Base Scalar CSModel CSSpec ConvModel ConvSpec ConvProofs2 ConvProofs4 PruneModel PruneProofs AugModel AugSpec AugProofs1.
Import ListNotations.

Definition mem (z : nat) (l : list nat) : bool := existsb (Nat.eqb z) l.
Lemma mem_In : forall z l, mem z l = true <-> In z l.
Proof.
  intros. unfold mem. rewrite existsb_exists. split.
  - intros (x & H & E). apply Nat.eqb_eq in E. now subst.
  - intros H. exists z. split; auto. apply Nat.eqb_refl.
Qed.
Lemma mem_nIn : forall z l, mem z l = false <-> ~ In z l.
Proof. intros. rewrite <- mem_In. destruct (mem z l); split; congruence. Qed.
Lemma mem_dec : forall z l, (In z l /\ mem z l = true) \/ (~ In z l /\ mem z l = false).
Proof. intros. destruct (mem z l) eqn:E; [left|right]; split; auto. now apply mem_In. now apply mem_nIn. Qed.

Fixpoint linked (nx : list (option nat)) (l : list nat) : Prop :=
  match l with
  | [] => True
  | x :: t => x < length nx /\ nth x nx None = hd_error t /\ linked nx t
  end.

Definition incr (inds : list nat) (l : list nat) : Prop :=
  StronglySorted (fun x y => nth x inds 0 < nth y inds 0) l.

Lemma incr_hd : forall inds x l, incr inds (x :: l) -> forall z, In z l -> nth x inds 0 < nth z inds 0.
Proof. intros inds x l H z Hz. inversion H; subst. rewrite Forall_forall in H3. auto. Qed.
Lemma incr_tl : forall inds x l, incr inds (x :: l) -> incr inds l.
Proof. intros inds x l H. inversion H; subst. auto. Qed.
Lemma incr_nodup : forall inds l, incr inds l -> NoDup l.
Proof.
  induction l; intros H; constructor.
  - intros Q. pose proof (incr_hd _ _ _ H a Q). lia.
  - apply IHl. eapply incr_tl; eauto.
Qed.

Section P.
  Variable O : Ops.
  Notation T := (T O).
  Notation core := (core O).

  Lemma core_ext : forall np N nc stt inds lab lab' val c, core np N nc stt inds lab val c ->
    (forall x, x < N -> lab x = lab' x) -> core np N nc stt inds lab' val c.
  Proof.
    intros np N nc stt inds lab lab' val c C E. destruct C as [a1 a2 a3 a4 a5 a6 a7 a8 a9 a10 a11 a12 a13 a14].
    constructor; auto; intros; rewrite <- E by auto; auto.
  Qed.

  Lemma iloop_l : forall np N nc stt inds val nx i k, i < nc -> k < nc -> i <> k -> forall fuel li lk lab c,
    length li + length lk < fuel -> core np N nc stt inds lab val c ->
    linked nx li -> linked nx lk -> incr inds li -> incr inds lk ->
    (forall x, In x li -> x < N /\ lab x = i) -> (forall x, In x lk -> x < N /\ lab x = k) ->
    (forall y, y < N -> lab y = i -> In y li \/ forall z, In z (li ++ lk) -> nth y inds 0 < nth z inds 0) ->
    (forall y, y < N -> lab y = k -> In y lk \/ forall z, In z (li ++ lk) -> nth y inds 0 < nth z inds 0) ->
    exists c', interchange_loop O fuel stt inds nx i k (hd_error li) (hd_error lk) c = Ok c' /\
      core np N nc stt inds (fun z => if mem z li then k else if mem z lk then i else lab z) val c'.
  Proof.
    intros np N nc stt inds val nx i k Hi Hk NE. induction fuel; intros li lk lab c HF C Li Lk Ii Ik Ai Ak Di Dk; [lia|].
    cbn [interchange_loop].
    assert (MI : forall x li', li = x :: li' -> (forall y, In y lk -> nth x inds 0 < nth y inds 0) ->
      exists c', (c' <- move_cell O stt (nth x inds 0) (nth x (c_vp c) 0) k c ;;
                  x' <- get nx x ;; interchange_loop O fuel stt inds nx i k x' (hd_error lk) c') = Ok c' /\
        core np N nc stt inds (fun z => if mem z li then k else if mem z lk then i else lab z) val c').
    { intros x li' -> HX. destruct (Ai x (or_introl eq_refl)) as [Hx Ex].
      destruct (move_cell_l O np N nc stt inds lab val c x k C Hx Hk) as (c1 & -> & C1).
      { intros y Hy ER EL. destruct (Dk y Hy EL) as [Q|Q].
        - pose proof (HX y Q). lia.
        - pose proof (Q x (or_introl eq_refl)). lia. }
      cbn [bind]. destruct Li as (Lx & Ln & Lt). rewrite (get_nth _ nx x None Lx), Ln. cbn [bind].
      pose proof (incr_nodup _ _ Ii) as ND. inversion ND as [|? ? NI ND']; subst.
      destruct (IHfuel li' lk (fun z => if z =? x then k else lab z) c1) as (c2 & E2 & C2); auto.
      - simpl in HF. lia.
      - eapply incr_tl; eauto.
      - intros z Hz. destruct (Ai z (or_intror Hz)). split; auto. destruct (Nat.eqb_spec z x); auto. subst. contradiction.
      - intros z Hz. destruct (Ak z Hz). split; auto. destruct (Nat.eqb_spec z x); auto.
      - intros y Hy Ey. destruct (Nat.eqb_spec y x); [congruence|]. destruct (Di y Hy Ey) as [[Q|Q]|Q]; try congruence; auto.
        right. intros z Hz. apply Q. simpl. auto.
      - intros y Hy Ey. destruct (Nat.eqb_spec y x).
        + subst y. right. intros z Hz. apply in_app_or in Hz. destruct Hz as [Hz|Hz]; [eapply incr_hd; eauto|auto].
        + destruct (Dk y Hy Ey) as [Q|Q]; auto. right. intros z Hz. apply Q. simpl. auto.
      - exists c2. split; auto. eapply core_ext; [exact C2|]. intros z Hz. cbn beta.
        unfold mem at 3. cbn [existsb]. fold (mem z li').
        destruct (Nat.eqb_spec z x); cbn [orb]; auto. destruct (mem z li') eqn:?; auto.
        destruct (mem z lk) eqn:M; auto. apply mem_In in M. destruct (Ak z M). congruence. }
    assert (MK : forall y lk', lk = y :: lk' -> (forall x, In x li -> nth y inds 0 < nth x inds 0) ->
      exists c', (c' <- move_cell O stt (nth y inds 0) (nth y (c_vp c) 0) i c ;;
                  y' <- get nx y ;; interchange_loop O fuel stt inds nx i k (hd_error li) y' c') = Ok c' /\
        core np N nc stt inds (fun z => if mem z li then k else if mem z lk then i else lab z) val c').
    { intros x lk' -> HX. destruct (Ak x (or_introl eq_refl)) as [Hx Ex].
      destruct (move_cell_l O np N nc stt inds lab val c x i C Hx Hi) as (c1 & -> & C1).
      { intros y Hy ER EL. destruct (Di y Hy EL) as [Q|Q].
        - pose proof (HX y Q). lia.
        - pose proof (Q x ltac:(apply in_or_app; simpl; auto)). lia. }
      cbn [bind]. destruct Lk as (Lx & Ln & Lt). rewrite (get_nth _ nx x None Lx), Ln. cbn [bind].
      pose proof (incr_nodup _ _ Ik) as ND. inversion ND as [|? ? NI ND']; subst.
      assert (IA : forall z, In z (li ++ lk') -> In z (li ++ x :: lk')).
      { intros z Hz. apply in_or_app. apply in_app_or in Hz. simpl. tauto. }
      destruct (IHfuel li lk' (fun z => if z =? x then i else lab z) c1) as (c2 & E2 & C2); auto.
      - simpl in HF. lia.
      - eapply incr_tl; eauto.
      - intros z Hz. destruct (Ai z Hz). split; auto. destruct (Nat.eqb_spec z x); auto.
      - intros z Hz. destruct (Ak z (or_intror Hz)). split; auto. destruct (Nat.eqb_spec z x); auto. subst. contradiction.
      - intros y Hy Ey. destruct (Nat.eqb_spec y x).
        + subst y. right. intros z Hz. apply in_app_or in Hz. destruct Hz as [Hz|Hz]; [auto|eapply incr_hd; eauto].
        + destruct (Di y Hy Ey) as [Q|Q]; auto.
      - intros y Hy Ey. destruct (Nat.eqb_spec y x); [congruence|]. destruct (Dk y Hy Ey) as [[Q|Q]|Q]; try congruence; auto.
      - exists c2. split; auto. eapply core_ext; [exact C2|]. intros z Hz. cbn beta.
        unfold mem at 4. cbn [existsb]. fold (mem z lk').
        destruct (mem z li) eqn:M. { auto. }
        destruct (Nat.eqb_spec z x); cbn [orb]; auto. destruct (mem z lk') eqn:?; auto. }
    destruct li as [|x li']; destruct lk as [|y lk']; cbn [hd_error].
    - exists c. split; auto.
    - destruct (Ak y (or_introl eq_refl)) as [Hy Ey].
      rewrite (get_nth _ inds y 0) by (rewrite (k_lr _ _ _ _ _ _ _ _ _ C); auto). cbn [bind].
      rewrite (get_nth _ (c_vp c) y 0) by (rewrite (i_l1 _ _ _ (k_inv _ _ _ _ _ _ _ _ _ C)); auto). cbn [bind].
      destruct (MK y lk' eq_refl) as (c' & E & C'); [intros ? []|]. exists c'. split; auto.
    - destruct (Ai x (or_introl eq_refl)) as [Hx Ex].
      rewrite (get_nth _ inds x 0) by (rewrite (k_lr _ _ _ _ _ _ _ _ _ C); auto). cbn [bind].
      rewrite (get_nth _ (c_vp c) x 0) by (rewrite (i_l1 _ _ _ (k_inv _ _ _ _ _ _ _ _ _ C)); auto). cbn [bind].
      destruct (MI x li' eq_refl) as (c' & E & C'); [intros ? []|]. exists c'. split; auto.
    - destruct (Ai x (or_introl eq_refl)) as [Hx Ex]. destruct (Ak y (or_introl eq_refl)) as [Hy Ey].
      rewrite (get_nth _ inds x 0), (get_nth _ inds y 0) by (rewrite (k_lr _ _ _ _ _ _ _ _ _ C); auto). cbn [bind].
      rewrite (get_nth _ (c_vp c) x 0), (get_nth _ (c_vp c) y 0) by (rewrite (i_l1 _ _ _ (k_inv _ _ _ _ _ _ _ _ _ C)); auto). cbn [bind].
      destruct (Nat.eqb_spec (nth x inds 0) (nth y inds 0)) as [ER|NR].
      + assert (NXY : x <> y) by congruence.
        destruct (swap_cells_l O np N nc stt inds lab val c x y C Hx Hy NXY ER) as (c1 & -> & C1). cbn [bind].
        destruct Li as (Lx & Lnx & Lt). rewrite (get_nth _ nx x None Lx), Lnx. cbn [bind].
        destruct Lk as (Ly & Lny & Ltk). rewrite (get_nth _ nx y None Ly), Lny. cbn [bind].
        pose proof (incr_nodup _ _ Ii) as ND. inversion ND as [|? ? NI ND']; subst.
        pose proof (incr_nodup _ _ Ik) as NDk. inversion NDk as [|? ? NIk NDk']; subst.
        assert (IA : forall z, In z (li' ++ lk') -> In z ((x :: li') ++ y :: lk')).
        { intros z Hz. simpl. right. apply in_or_app. apply in_app_or in Hz. simpl. tauto. }
        assert (BX : forall z, In z (li' ++ lk') -> nth x inds 0 < nth z inds 0).
        { intros z Hz. apply in_app_or in Hz. destruct Hz as [Hz|Hz]; [eapply incr_hd; eauto|].
          rewrite ER. eapply incr_hd; eauto. }
        destruct (IHfuel li' lk' (fun z => if z =? x then lab y else if z =? y then lab x else lab z) c1) as (c2 & E2 & C2); auto.
        * simpl in HF. lia.
        * eapply incr_tl; eauto.
        * eapply incr_tl; eauto.
        * intros z Hz. destruct (Ai z (or_intror Hz)) as [Q1 Q2]. split; auto.
          destruct (Nat.eqb_spec z x). { subst. contradiction. } destruct (Nat.eqb_spec z y); congruence.
        * intros z Hz. destruct (Ak z (or_intror Hz)) as [Q1 Q2]. split; auto.
          destruct (Nat.eqb_spec z x); auto. destruct (Nat.eqb_spec z y); auto. subst. contradiction.
        * intros u Hu Eu. destruct (Nat.eqb_spec u x); [congruence|]. destruct (Nat.eqb_spec u y).
          { subst u. right. intros z Hz. rewrite <- ER. auto. }
          destruct (Di u Hu Eu) as [[Q|Q]|Q]; try congruence; auto.
        * intros u Hu Eu. destruct (Nat.eqb_spec u x). { subst u. right. auto. }
          destruct (Nat.eqb_spec u y). { congruence. }
          destruct (Dk u Hu Eu) as [[Q|Q]|Q]; try congruence; auto.
        * exists c2. split; auto. eapply core_ext; [exact C2|]. intros z Hz. cbn beta.
          unfold mem at 3 4. cbn [existsb]. fold (mem z li'). fold (mem z lk').
          destruct (Nat.eqb_spec z x); cbn [orb].
          { subst z. replace (mem x li') with false by (symmetry; now apply mem_nIn).
            destruct (mem x lk') eqn:M; auto. apply mem_In in M. destruct (Ak x (or_intror M)). congruence. }
          destruct (mem z li') eqn:M1; auto.
          destruct (Nat.eqb_spec z y); cbn [orb].
          { subst z. destruct (mem y lk') eqn:M; auto. }
          destruct (mem z lk'); auto.
      + destruct (Nat.ltb_spec (nth x inds 0) (nth y inds 0)) as [LT|GE].
        * destruct (MI x li' eq_refl) as (c' & E & C').
          { intros z [<-|Hz]; auto. pose proof (incr_hd _ _ _ Ik z Hz). lia. }
          exists c'. split; auto.
        * destruct (MK y lk' eq_refl) as (c' & E & C').
          { intros z [<-|Hz]; [lia|]. pose proof (incr_hd _ _ _ Ii z Hz). lia. }
          exists c'. split; auto.
  Qed.

  Lemma dloop_l : forall np N nc stt inds val nx from to, to < nc -> forall fuel l lab c,
    length l < fuel -> core np N nc stt inds lab val c -> linked nx l -> incr inds l ->
    (forall x, In x l -> x < N /\ lab x = from) ->
    (forall x y, In x l -> y < N -> y <> x -> nth y inds 0 = nth x inds 0 -> lab y < to) ->
    exists c', defer_loop O fuel stt inds nx to (hd_error l) c = Ok c' /\
      core np N nc stt inds (fun z => if mem z l then to else lab z) val c'.
  Proof.
    intros np N nc stt inds val nx from to Ht. induction fuel; intros l lab c HF C Lk Ik A D; [lia|].
    cbn [defer_loop]. destruct l as [|x l']; cbn [hd_error].
    { exists c. split; auto. }
    destruct (A x (or_introl eq_refl)) as [Hx Ex].
    rewrite (get_nth _ inds x 0) by (rewrite (k_lr _ _ _ _ _ _ _ _ _ C); auto). cbn [bind].
    rewrite (get_nth _ (c_vp c) x 0) by (rewrite (i_l1 _ _ _ (k_inv _ _ _ _ _ _ _ _ _ C)); auto). cbn [bind].
    rewrite set_ok by (rewrite (k_li _ _ _ _ _ _ _ _ _ C); now apply (k_inv _ _ _ _ _ _ _ _ _ C)). cbn [bind].
    rewrite (get_nth _ stt _ 0) by (rewrite (k_stl _ _ _ _ _ _ _ _ _ C); pose proof (k_R _ _ _ _ _ _ _ _ _ C x Hx); lia).
    cbn [bind].
    destruct (defer_cell_l O np N nc stt inds lab val c x to C Hx Ht) as (ind & v & vp & vpi & E1 & E2 & E3 & C').
    { intros y Hy Ny Ry. eapply D; eauto. simpl; auto. }
    rewrite E1. cbn [bind]. rewrite E2. cbn [bind]. rewrite E3. cbn [bind].
    destruct Lk as (Lx & Lnx & Lt). rewrite (get_nth _ nx x None Lx), Lnx. cbn [bind].
    pose proof (incr_nodup _ _ Ik) as ND. inversion ND as [|? ? NI ND']; subst.
    destruct (IHfuel l' (fun z => if z =? x then to else lab z) (mkCells ind v vp vpi)) as (c2 & E4 & C2); auto.
    - simpl in HF. lia.
    - eapply incr_tl; eauto.
    - intros z Hz. destruct (A z (or_intror Hz)). split; auto. destruct (Nat.eqb_spec z x); auto. subst. contradiction.
    - intros z y Hz Hy Ny Ry. destruct (Nat.eqb_spec y x).
      + subst y. pose proof (incr_hd _ _ _ Ik z Hz). lia.
      + apply (D z y); simpl; auto.
    - exists c2. split; auto. eapply core_ext; [exact C2|]. intros z Hz. cbn beta.
      unfold mem at 2. cbn [existsb]. fold (mem z l'). destruct (Nat.eqb_spec z x); cbn [orb]; auto.
      destruct (mem z l'); auto.
  Qed.

  (** Column lists, for the columns from [lo] on. *)
  Record chains (N lo nc : nat) (inds : list nat) (hd nx tl : list (option nat)) (cnt : list nat)
    (lab : nat -> nat) (L : nat -> list nat) : Prop := {
    h_hd : length hd = nc; h_tl : length tl = nc; h_cn : length cnt = nc; h_nx : N <= length nx;
    h_1 : forall j, lo <= j < nc -> nth j hd None = hd_error (L j);
    h_2 : forall j, lo <= j < nc -> nth j tl None = hd_error (rev (L j));
    h_3 : forall j, lo <= j < nc -> nth j cnt 0 = length (L j);
    h_4 : forall j, lo <= j < nc -> linked nx (L j);
    h_5 : forall j, lo <= j < nc -> incr inds (L j);
    h_6 : forall j x, lo <= j < nc -> (In x (L j) <-> x < N /\ lab x = j)
  }.

  Definition arep (np lo nc : nat) (s : aug O) (lab : nat -> nat) (val : nat -> T) (L : nat -> list nat) : Prop :=
    core np (length (a_inds s)) nc (ind_start (a_cs s)) (a_inds s) lab val (cells_of O s) /\
    chains (length (a_inds s)) lo nc (a_inds s) (a_start s) (a_next s) (a_end s) (a_cnt s) lab L /\
    length (a_next s) = length (a_inds s).

  Definition mrel (M : list (nat -> option T)) (s : aug O) (lab : nat -> nat) (val : nat -> T) : Prop :=
    forall r c v, entry O M r c = Some v <->
      exists x, x < length (a_inds s) /\ nth x (a_inds s) 0 = r /\ lab x = c /\ val x = v.

  Lemma len_le : forall N (l : list nat), NoDup l -> (forall x, In x l -> x < N) -> length l <= N.
  Proof.
    intros N l ND H. rewrite <- (seq_length N 0). apply NoDup_incl_length; auto.
    intros x Hx. apply in_seq. pose proof (H x Hx). lia.
  Qed.

  Definition sw (i k c : nat) : nat := if c =? i then k else if c =? k then i else c.
  Lemma sw_sw : forall i k c, sw i k (sw i k c) = c.
  Proof. intros. unfold sw. natb; lia. Qed.

  Lemma finish_l : forall np lo nc s lab val L i k c lab', arep np lo nc s lab val L -> lo <= i < nc -> lo <= k < nc -> i <> k ->
    core np (length (a_inds s)) nc (ind_start (a_cs s)) (a_inds s) lab' val c ->
    (forall j x, lo <= j < nc -> (In x (L (sw i k j)) <-> x < length (a_inds s) /\ lab' x = j)) ->
    exists s', finish O s i k c = Ok s' /\ arep np lo nc s' lab' val (fun j => L (sw i k j)) /\ a_inds s' = a_inds s
      /\ ssize (a_cs s') = ssize (a_cs s).
  Proof.
    intros np lo nc s lab val L i k c lab' (C & H & LN) Hi Hk NE C' HL. unfold finish.
    pose proof (h_hd _ _ _ _ _ _ _ _ _ _ H) as L1. pose proof (h_tl _ _ _ _ _ _ _ _ _ _ H) as L2. pose proof (h_cn _ _ _ _ _ _ _ _ _ _ H) as L3.
    destruct (swap_at_l _ None (a_start s) i k) as (hd' & E1 & Lh & Hh); try lia. rewrite E1. cbn [bind].
    destruct (swap_at_l _ None (a_end s) i k) as (tl' & E2 & Lt & Htl); try lia. rewrite E2. cbn [bind].
    destruct (swap_at_l _ 0 (a_cnt s) i k) as (cn' & E3 & Lc & Hc); try lia. rewrite E3. cbn [bind].
    eexists. split; [reflexivity|]. cbn [a_inds]. split; auto.
    assert (SW : forall j, (if j =? k then i else if j =? i then k else j) = sw i k j) by (intros; unfold sw; natb; lia).
    assert (SL : forall j, lo <= j < nc -> lo <= sw i k j < nc) by (intros; unfold sw; natb; lia).
    split; [|split]; cbn [a_inds a_cs ind_start a_start a_next a_end a_cnt cells_of]; auto.
    - unfold cells_of. cbn [a_cs indices vals a_vp a_vpi]. destruct c as [c1 c2 c3 c4]. exact C'.
    - constructor; try lia.
      + intros j Hj. rewrite Hh, SW. apply H. auto.
      + intros j Hj. rewrite Htl, SW. apply H. auto.
      + intros j Hj. rewrite Hc, SW. apply H. auto.
      + intros j Hj. apply H. auto.
      + intros j Hj. apply H. auto.
      + auto.
  Qed.

  Lemma interchange_l : forall np lo nc s lab val L i k, arep np lo nc s lab val L -> lo <= i < nc -> lo <= k < nc -> i <> k ->
    exists s', interchange O i k s = Ok s' /\ arep np lo nc s' (fun x => sw i k (lab x)) val (fun j => L (sw i k j)) /\
      a_inds s' = a_inds s /\ ssize (a_cs s') = ssize (a_cs s).
  Proof.
    intros np lo nc s lab val L i k R Hi Hk NE. pose proof R as (C & H & LN). unfold interchange.
    destruct (Nat.eqb_spec i k); [contradiction|].
    pose proof (h_hd _ _ _ _ _ _ _ _ _ _ H) as L1. pose proof (h_1 _ _ _ _ _ _ _ _ _ _ H) as H1.
    pose proof (h_6 _ _ _ _ _ _ _ _ _ _ H) as H6. pose proof (h_5 _ _ _ _ _ _ _ _ _ _ H) as H5.
    rewrite (get_nth _ _ i None), (get_nth _ _ k None) by lia. cbn [bind]. rewrite !H1 by auto.
    destruct (iloop_l np (length (a_inds s)) nc (ind_start (a_cs s)) (a_inds s) val (a_next s) i k (proj2 Hi) (proj2 Hk) NE
       (S (2 * length (a_inds s))) (L i) (L k) lab (cells_of O s)) as (c' & -> & C'); auto.
    - assert (length (L i) <= length (a_inds s)).
      { apply len_le. eapply incr_nodup; eauto. intros x Hx. apply H6 in Hx; auto. tauto. }
      assert (length (L k) <= length (a_inds s)).
      { apply len_le. eapply incr_nodup; eauto. intros x Hx. apply H6 in Hx; auto. tauto. }
      lia.
    - now apply H.
    - now apply H.
    - intros x Hx. now apply H6 in Hx.
    - intros x Hx. now apply H6 in Hx.
    - intros y Hy Ey. left. now apply H6.
    - intros y Hy Ey. left. now apply H6.
    - cbn [bind]. eapply finish_l; eauto.
      + eapply core_ext; [exact C'|]. intros x Hx. cbn beta. unfold sw.
        destruct (mem_dec x (L i)) as [(Q & ->)|(Q & ->)].
        { apply H6 in Q; auto. destruct Q as [_ ->]. now rewrite Nat.eqb_refl. }
        destruct (Nat.eqb_spec (lab x) i). { exfalso. apply Q. now apply H6. }
        destruct (mem_dec x (L k)) as [(Q' & ->)|(Q' & ->)].
        { apply H6 in Q'; auto. destruct Q' as [_ ->]. now rewrite Nat.eqb_refl. }
        destruct (Nat.eqb_spec (lab x) k); auto. exfalso. apply Q'. now apply H6.
      + intros j x Hj. rewrite H6 by (unfold sw; natb; lia). split; intros (A & B); split; auto.
        * rewrite B. apply sw_sw.
        * rewrite <- B. symmetry. apply sw_sw.
  Qed.

  Lemma defer_l : forall np lo nc s lab val L from to, arep np lo nc s lab val L -> lo <= from -> from < to -> to < nc ->
    (forall x, x < length (a_inds s) -> lab x <> to) ->
    (forall x y, x < length (a_inds s) -> y < length (a_inds s) -> lab x = from ->
       nth y (a_inds s) 0 = nth x (a_inds s) 0 -> lab y <= to) ->
    exists s' L', defer O from to s = Ok s' /\ arep np lo nc s' (fun x => sw from to (lab x)) val L' /\
      a_inds s' = a_inds s /\ ssize (a_cs s') = ssize (a_cs s).
  Proof.
    intros np lo nc s lab val L i k R Hlo Hik Hk NT ND. pose proof R as (C & H & LN). unfold defer.
    pose proof (h_hd _ _ _ _ _ _ _ _ _ _ H) as L1. pose proof (h_1 _ _ _ _ _ _ _ _ _ _ H) as H1.
    pose proof (h_6 _ _ _ _ _ _ _ _ _ _ H) as H6. pose proof (h_5 _ _ _ _ _ _ _ _ _ _ H) as H5.
    rewrite (get_nth _ _ i None) by lia. cbn [bind]. rewrite !H1 by lia.
    destruct (dloop_l np (length (a_inds s)) nc (ind_start (a_cs s)) (a_inds s) val (a_next s) i k Hk
       (S (length (a_inds s))) (L i) lab (cells_of O s)) as (c' & -> & C'); auto.
    - assert (length (L i) <= length (a_inds s)).
      { apply len_le. eapply incr_nodup; apply H5; lia. intros x Hx. apply H6 in Hx; [tauto|lia]. }
      lia.
    - apply H; lia.
    - apply H5; lia.
    - intros x Hx. apply H6 in Hx; auto. lia.
    - intros x y Hx Hy NE Ry. apply H6 in Hx; [|lia]. destruct Hx as [Hx Ex].
      pose proof (ND x y Hx Hy Ex Ry). pose proof (NT y Hy). lia.
    - cbn [bind]. edestruct (finish_l np lo nc s lab val L i k c' (fun x => sw i k (lab x))) as (s' & E & R' & A & B); eauto; try lia.
      + eapply core_ext; [exact C'|]. intros x Hx. cbn beta. unfold sw.
        destruct (mem_dec x (L i)) as [(Q & ->)|(Q & ->)].
        { apply H6 in Q; [|lia]. destruct Q as [_ ->]. now rewrite Nat.eqb_refl. }
        destruct (Nat.eqb_spec (lab x) i). { exfalso. apply Q. apply H6; auto. lia. }
        destruct (Nat.eqb_spec (lab x) k); auto. exfalso. eapply NT; eauto.
      + intros j x Hj. rewrite H6 by (unfold sw; natb; lia). split; intros (A & B); split; auto.
        * rewrite B. apply sw_sw.
        * rewrite <- B. symmetry. apply sw_sw.
      + exists s', (fun j => L (sw i k j)). auto.
  Qed.
End P.
