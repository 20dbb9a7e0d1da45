(** * PivotProofs2: interchange, deferral, storing and compression of a factor in an augmented storage. *)
From Coq Require Import List Arith Lia Bool Permutation.
From Verif Require Import Base Scalar Spec CSModel CSSpec ConvModel ConvSpec BucketProofs ConvProofs ConvProofs2
  ConvProofs3 ConvProofs4 Mag VecModel VecSpec VecProofs PruneModel PruneProofs CroutModel CroutProofs1 CroutProofs2 CroutProofs3
  CroutProofs4 CroutProofs5 CroutProofs9 AugModel AugSpec AugProofs1 AugProofs2 AugProofs3 PivotModel PivotProofs1.
Import ListNotations.

Section A.
  Context {O : Ops}.
  Notation T := (T O).
  Notation row := (list (nat * T)).
  Notation col := (row * row)%type.
  Notation tl' c cols := (snd (nth c cols (dcol (O:=O)))).
  Notation dn' c cols := (fst (nth c cols (dcol (O:=O)))).
  Notation arep := (arep O).

  Lemma finish_sizes : forall (s s' : aug O) i k c, finish O s i k c = Ok s' -> psize (a_cs s') = psize (a_cs s) /\ ssize (a_cs s') = ssize (a_cs s).
  Proof.
    intros s s' i k c H. unfold finish in H.
    destruct (swap_at (a_start s) i k) as [x1| |]; cbn [bind] in H; try discriminate.
    destruct (swap_at (a_end s) i k) as [x2| |]; cbn [bind] in H; try discriminate.
    destruct (swap_at (a_cnt s) i k) as [x3| |]; cbn [bind] in H; try discriminate.
    inversion H. split; reflexivity.
  Qed.
  Lemma interchange_sizes : forall (s s' : aug O) i k, AugModel.interchange O i k s = Ok s' -> psize (a_cs s') = psize (a_cs s) /\ ssize (a_cs s') = ssize (a_cs s).
  Proof.
    intros s s' i k H. unfold AugModel.interchange in H. destruct (i =? k). { inversion H. auto. }
    destruct (get (a_start s) i); cbn [bind] in H; try discriminate. destruct (get (a_start s) k); cbn [bind] in H; try discriminate.
    destruct (interchange_loop _ _ _ _ _ _ _ _ _ _); cbn [bind] in H; try discriminate. eapply finish_sizes; eauto.
  Qed.
  Lemma defer_sizes : forall (s s' : aug O) i k, AugModel.defer O i k s = Ok s' -> psize (a_cs s') = psize (a_cs s) /\ ssize (a_cs s') = ssize (a_cs s).
  Proof.
    intros s s' i k H. unfold AugModel.defer in H.
    destruct (get (a_start s) i); cbn [bind] in H; try discriminate.
    destruct (defer_loop _ _ _ _ _ _ _ _); cbn [bind] in H; try discriminate. eapply finish_sizes; eauto.
  Qed.

  Lemma arep_lo : forall np lo lo' nc s lab val L, lo <= lo' -> arep np lo nc s lab val L -> arep np lo' nc s lab val L.
  Proof.
    intros np lo lo' nc s lab val L H (C & [a1 a2 a3 a4 a5 a6 a7 a8 a9 a10] & LN). split; auto. split; auto.
    constructor; auto; intros; try (apply a5; lia); try (apply a6; lia); try (apply a7; lia); try (apply a8; lia); try (apply a9; lia).
    apply a10; lia.
  Qed.

  Lemma lko_iff : forall (l l' : row) r r', NoDup (map fst l) -> NoDup (map fst l') ->
    (forall v, In (r, v) l <-> In (r', v) l') -> lko l r = lko l' r'.
  Proof.
    intros l l' r r' N N' H. destruct (lko l r) as [v|] eqn:E.
    - symmetry. apply in_lko; auto. apply H. now apply lko_in.
    - destruct (lko l' r') as [v|] eqn:E'; auto. apply lko_in in E'. apply H in E'. apply (in_lko _ _ _ _ N) in E'. congruence.
  Qed.

  Lemma prep_ne : forall ps nc k lo lim (s : aug O) start cols, PRep ps nc k lo lim s start cols -> exists li, Rep ps nc k lo lim [] (mkFac (a_cs s) li start) cols.
  Proof. intros ps nc k lo lim s start cols (lab & val & L & li & R & Rp & HC). eauto. Qed.

  Lemma pinterchange_s : forall ps nc k g lim (s : aug O) start cols j, PRep ps nc k g lim s start cols -> g < j < lim -> k <= nc ->
    exists s' cols', AugModel.interchange O g j s = Ok s' /\ PRep ps nc k g lim s' start cols' /\
      forall c, c < k -> dn' c cols' = dn' c cols /\ forall r, lko (tl' c cols') r = lko (tl' c cols) (sw g j r).
  Proof.
    intros ps nc k g lim s start cols j (lab & val & L & li & R & Rp & HC) Hj Hk. pose proof Rp as [].
    destruct (interchange_l O k g nc s lab val L g j R) as (s' & E & R' & Ei & Es); try lia.
    destruct (interchange_sizes _ _ _ _ E) as (E1 & E2).
    destruct (relab_l ps nc k g lim g lim s s' start cols (sw g j) lab val L _ _ R (ex_intro _ li Rp) HC R' Ei E1 E2) as (cols' & PR' & HT); auto.
    - intros i Hi. unfold sw. natb; lia.
    - intros i Hi. unfold sw. natb; lia.
    - exists s', cols'. split; auto. split; auto. intros c Hc. destruct (HT c Hc) as (H1 & H2). split; auto.
      intros r. apply lko_iff.
      + destruct (prep_ne _ _ _ _ _ _ _ _ PR') as (li' & []). apply asc_NoDup. apply r_tail0; auto.
      + apply asc_NoDup. apply r_tail; auto.
      + intros v. rewrite H2. split.
        * intros (i & Hi & ->). now rewrite sw_sw.
        * intros Hi. exists (sw g j r). split; auto. now rewrite sw_sw.
  Qed.

  Lemma prep_lab : forall ps nc k lo lim (s : aug O) start cols lab val li, core O k (length (a_inds s)) nc (ind_start (a_cs s)) (a_inds s) lab val (cells_of O s) ->
    Rep ps nc k lo lim [] (mkFac (a_cs s) li start) cols ->
    (forall c i v, c < k -> (In (i, v) (whole (nth c cols dcol)) <-> cell s lab val c i v)) ->
    forall x, x < length (a_inds s) -> lab x < k \/ lo <= lab x < lim.
  Proof.
    intros ps nc k lo lim s start cols lab val li C Rp HC x Hx. pose proof (k_R _ _ _ _ _ _ _ _ _ C x Hx) as Hc. pose proof Rp as [].
    assert (I : In (lab x, val x) (whole (nth (nth x (a_inds s) 0) cols dcol))). { apply HC; auto. exists x. auto. }
    unfold whole in I. apply in_app_or in I. destruct I as [I|I].
    - destruct (r_done _ Hc) as (_ & D). apply D in I. simpl in I. lia.
    - destruct (r_tail _ Hc) as (_ & D). apply D in I. auto.
  Qed.

  Lemma pdefer_s : forall ps nc k g lim (s : aug O) start cols, PRep ps nc k g lim s start cols -> g < lim -> lim < nc -> k <= nc ->
    exists s', AugModel.defer O g lim s = Ok s' /\ PRep ps nc k (S g) (S lim) s' start (map (deferc g lim) cols).
  Proof.
    intros ps nc k g lim s start cols (lab & val & L & li & R & Rp & HC) Hg Hl Hk. pose proof Rp as [].
    pose proof R as (C & _ & _). pose proof (prep_lab _ _ _ _ _ _ _ _ _ _ _ C Rp HC) as LB.
    destruct (defer_l O k g nc s lab val L g lim R) as (s' & L' & E & R' & Ei & Es); try lia.
    { intros x Hx E. pose proof (LB x Hx). lia. }
    { intros x y Hx Hy _ _. pose proof (LB y Hy). lia. }
    destruct (defer_sizes _ _ _ _ E) as (E1 & E2). apply (arep_lo k g (S g)) in R'; [|lia].
    destruct (relab_l ps nc k g lim (S g) (S lim) s s' start cols (sw g lim) lab val L _ _ R (ex_intro _ li Rp) HC R' Ei E1 E2) as (cols' & PR' & HT); auto.
    - intros i Hi. unfold sw. natb; lia.
    - intros i Hi. unfold sw. natb; lia.
    - exists s'. split; auto.
      assert (EQ : cols' = map (deferc g lim) cols); [|rewrite <- EQ; auto].
      destruct (prep_ne _ _ _ _ _ _ _ _ PR') as (li' & [xfm xk xst xkps xklo xlim xstart xtail xdone xchain]).
      apply (nth_ext_d _ _ _ dcol). { rewrite map_length. lia. }
      intros c Hc. rewrite xk in Hc. rewrite (nth_indep (map (deferc g lim) cols) dcol (deferc g lim dcol)) by (rewrite map_length; lia). rewrite map_nth.
      destruct (HT c Hc) as (H1 & H2). destruct (xtail c Hc) as (X1 & X2). destruct (r_tail c Hc) as (T1 & T2).
      destruct (nth c cols' dcol) as [dn1 tl1]. destruct (nth c cols dcol) as [dn0 tl0]. cbn [fst snd] in *. subst dn1.
      assert (G : forall l2, asc (map fst l2) -> (forall i v, In (i, v) l2 <-> exists j, In (j, v) tl0 /\ i = sw g lim j) -> tl1 = l2).
      { intros l2 A2 I2. apply asc_pairs_eq; auto. intros [i v]. now rewrite H2, I2. }
      unfold deferc. cbn [fst snd]. destruct tl0 as [|[i v] t]. { f_equal. apply G; simpl; auto. intros. split; [intros []|intros (? & [] & _)]. }
      cbn [map fst asc] in T1. destruct T1 as (T0 & T1).
      assert (TT : forall e, In e t -> i < fst e < lim). { intros e He. pose proof (T0 (fst e) (in_map fst _ _ He)). pose proof (T2 e (or_intror He)). lia. }
      pose proof (T2 (i, v) (or_introl eq_refl)) as Ti. cbn [fst] in Ti.
      destruct (Nat.eqb_spec i g) as [->|Hn].
      + f_equal. apply G.
        * rewrite map_app. apply asc_app. split; auto. split; [simpl; split; auto; intros ? []|].
          intros a b Ha Hb. simpl in Hb. destruct Hb as [<-|[]]. apply in_map_iff in Ha. destruct Ha as (e & <- & He). apply TT in He. lia.
        * intros i w. rewrite in_app_iff. split.
          { intros [Hi|[Hi|[]]].
            - exists i. split; [right; auto|]. apply TT in Hi. cbn [fst] in Hi. unfold sw. natb; lia.
            - inversion Hi; subst. exists g. split; [left; auto|]. unfold sw. now rewrite Nat.eqb_refl. }
          { intros (j & [Hj|Hj] & ->).
            - inversion Hj; subst. right. left. unfold sw. now rewrite Nat.eqb_refl.
            - left. pose proof (TT _ Hj) as Q. cbn [fst] in Q. replace (sw g lim j) with j; auto. unfold sw. natb; lia. }
      + f_equal. apply G. { cbn [map fst asc]. auto. }
        intros i' w. split.
        * intros Hi. exists i'. split; auto. assert (g < i' < lim). { destruct Hi as [Hi|Hi]; [inversion Hi; subst; lia|]. apply TT in Hi. cbn [fst] in Hi. lia. }
          unfold sw. natb; lia.
        * intros (j & Hj & ->). assert (g < j < lim). { destruct Hj as [Hi|Hi]; [inversion Hi; subst; lia|]. apply TT in Hi. cbn [fst] in Hi. lia. }
          replace (sw g lim j) with j; auto. unfold sw. natb; lia.
  Qed.

  (** storing a row: the state between the push and the compression *)
  Definition PMid (ps nc k g lim : nat) (s : aug O) (start : list nat) (cols : list col) (new : row) : Prop :=
    exists lab val L, arep (S k) g nc s lab val L /\ psize (a_cs s) = ps /\ ssize (a_cs s) = nc /\
      (forall c i v, c < k -> (In (i, v) (whole (nth c cols dcol)) <-> cell s lab val c i v)) /\
      (forall i v, In (i, v) new <-> cell s lab val k i v).

  Lemma assoc_lko : forall c (l : row), assoc O c l = lko l c.
  Proof. induction l as [|[i v] l IH]; simpl; auto. rewrite Nat.eqb_sym. destruct (i =? c); auto. Qed.

  Lemma push_s : forall ps nc k g lim (s : aug O) start cols N (v : SV O), PRep ps nc k g lim s start cols -> sv_ok N v -> held v = isort (held v) ->
    (forall i, In i (held v) -> g <= i < nc) ->
    wp (push_aug k s v) (fun s' => PMid ps nc k g lim s' start cols (newrow v)).
  Proof.
    intros ps nc k g lim s start cols N v (lab & val & L & li & R & Rp & HC) [s1 s2 s3 s4 s5 s6 s7] EH HR. pose proof Rp as [].
    pose proof R as (C & H & LN).
    unfold push_aug. rewrite s2. rewrite (proj2 (Nat.leb_le _ _) s3). fold (held v).
    assert (PL : pushed O (Push O (held v) (sv_vals v)) = newrow v). { cbn [pushed]. unfold newrow, vv. now rewrite <- EH. }
    unfold aug_push.
    rewrite (push_step_l O _ (a_cs s) (length (a_inds s))).
    2:{ cbn [push_ok]. intros i Hi. rewrite s1. apply s7. auto. }
    2:{ rewrite (k_stl _ _ _ _ _ _ _ _ _ C). lia. }
    2:{ rewrite (k_stl _ _ _ _ _ _ _ _ _ C). cbn [Nat.sub]. rewrite Nat.sub_0_r. apply (k_N _ _ _ _ _ _ _ _ _ C). }
    cbn [bind]. rewrite PL.
    assert (EF : map fst (newrow v) = held v). { unfold newrow. rewrite map_map. cbn [fst]. rewrite map_id. auto. }
    assert (AS : asc (held v)). { rewrite EH. now apply isort_asc. }
    destruct (push_rep O k g nc s lab val L (psize (a_cs s)) (ssize (a_cs s)) (newrow v) [held v] R) as (s' & lab' & val' & L' & E & R' & MR & Ecs & Ein).
    - cbn [concat]. now rewrite app_nil_r, EF.
    - rewrite EF. auto.
    - intros a b Hab Hb. rewrite EF. apply (proj1 (asc_nth _) AS); auto. rewrite <- (map_length fst), EF in Hb. auto.
    - rewrite E. cbn [wp]. exists lab', val', L'. split; auto. rewrite Ecs. cbn [psize ssize].
      split; [cbn [fm] in r_fm; rewrite r_fm; reflexivity|]. split; [cbn [fm] in r_fm; rewrite r_fm; reflexivity|].
      set (M := map (fun x : col => (fun c => assoc O c (whole x))) cols).
      assert (NW : forall c, c < k -> NoDup (map fst (whole (nth c cols dcol)))).
      { intros c Hc. apply asc_NoDup. destruct (r_tail c Hc) as (T1 & T2). destruct (r_done c Hc) as (D1 & D2).
        apply (asc_whole k g); auto; intros e He; [apply D2 in He|apply T2 in He]; lia. }
      assert (EM : forall c i, c < k -> entry O M c i = lko (whole (nth c cols dcol)) i).
      { intros c i Hc. unfold entry, M. rewrite (nth_indep _ _ (fun i => assoc O i (whole dcol))) by (rewrite map_length; lia).
        rewrite (map_nth (fun x : col => fun i => assoc O i (whole x))). apply assoc_lko. }
      assert (LM : length M = k) by (unfold M; rewrite map_length; auto).
      assert (MR0 : mrel O M s lab val).
      { intros r c w. destruct (Nat.lt_ge_cases r k) as [Hr|Hr].
        - rewrite EM by auto. fold (cell s lab val r c w). rewrite <- HC by auto. split; [apply lko_in|apply in_lko; auto].
        - unfold entry. rewrite nth_overflow by lia. split; [discriminate|]. intros (x & X1 & X2 & _).
          pose proof (k_R _ _ _ _ _ _ _ _ _ C x X1). lia. }
      pose proof (MR M MR0 LM) as MR1. split.
      + intros c i w Hc. unfold cell. rewrite <- (MR1 c i w). unfold entry. rewrite app_nth1 by lia. fold (entry O M c i). rewrite EM by auto.
        split; [apply in_lko; auto|apply lko_in].
      + intros i w. unfold cell. rewrite <- (MR1 k i w). unfold entry. rewrite app_nth2 by lia. rewrite LM, Nat.sub_diag. cbn [nth].
        rewrite assoc_lko. split; [apply in_lko|apply lko_in]. rewrite EF. now apply asc_NoDup.
  Qed.
End A.
