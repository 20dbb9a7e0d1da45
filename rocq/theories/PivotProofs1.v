(** * PivotProofs1: a factor kept in an augmented storage: representation, interchange, deferral, storing and compression. *)
From Coq Require Import List Arith Lia Bool Permutation.
From Verif Require Import Base Scalar Spec CSModel CSSpec ConvModel ConvSpec BucketProofs ConvProofs ConvProofs2
  ConvProofs3 ConvProofs4 Mag VecModel VecSpec VecProofs PruneModel PruneProofs CroutModel CroutProofs1 CroutProofs2 CroutProofs3
  CroutProofs4 CroutProofs5 CroutProofs9 AugModel AugSpec AugProofs1 AugProofs2 AugProofs3 PivotModel.
Import ListNotations.

Section G.
  Lemma ghost_chain : forall k lo ss (hd : nat -> option nat), k <= lo -> k <= ss ->
    exists li, CH k lo ss li hd.
  Proof.
    induction k; intros lo ss hd H1 H2.
    - exists (repeat None ss). split; [apply repeat_length|]. intros r Hr. exists []. rewrite nth_repeat_any by lia. split; [constructor|].
      split; [constructor|]. intros c. split; [intros []|lia].
    - destruct (IHk lo ss hd) as (li & C); [lia|lia|]. pose proof (CH_S_none _ _ _ _ _ C) as C'.
      assert (G : (forall r, hd k = Some r -> ~ (lo <= r < ss)) \/ exists r, hd k = Some r /\ lo <= r < ss).
      { destruct (hd k) as [r|]; [|left; discriminate]. destruct (le_lt_dec lo r), (lt_dec r ss).
        - right. exists r. auto.
        - left. intros r' E. inversion E. lia.
        - left. intros r' E. inversion E. lia.
        - left. intros r' E. inversion E. lia. }
      destruct G as [G|(r & Er & Hr)].
      + exists li. destruct C' as (L & H). split; auto. intros r Hr. destruct (H r Hr) as (l & X1 & X2 & X3). exists l.
        split; auto. split; auto. intros c. rewrite X3. destruct (Nat.eqb_spec c k) as [->|]; [|tauto].
        split; intros (A & B); [discriminate|]. exfalso. apply (G r); auto.
      + eexists. eapply CH_ext; [|apply (CH_link (S k) lo ss li _ k r C'); try lia].
        * intros c Hc. cbv beta. destruct (Nat.eqb_spec c k) as [->|]; auto.
        * cbv beta. rewrite Nat.eqb_refl. discriminate.
  Qed.
End G.

Section A.
  Context {O : Ops}.
  Notation T := (T O).
  Notation row := (list (nat * T)).
  Notation col := (row * row)%type.
  Notation tl' c cols := (snd (nth c cols (dcol (O:=O)))).
  Notation dn' c cols := (fst (nth c cols (dcol (O:=O)))).
  Notation arep := (arep O).

  (** the entry [(r, i, v)] of a storage *)
  Definition cell (s : aug O) (lab : nat -> nat) (val : nat -> T) (r i : nat) (v : T) : Prop :=
    exists x, x < length (a_inds s) /\ nth x (a_inds s) 0 = r /\ lab x = i /\ val x = v.

  Lemma core_in : forall np nc s lab val, core O np (length (a_inds s)) nc (ind_start (a_cs s)) (a_inds s) lab val (cells_of O s) ->
    forall r i v, r < np -> (In (i, v) (rowl (a_cs s) r) <-> cell s lab val r i v).
  Proof.
    intros np nc s lab val C r i v Hr. pose proof (k_inv _ _ _ _ _ _ _ _ _ C) as I. cbn [cells_of c_vp c_vpi] in I.
    unfold rowl, cell. rewrite in_map_iff. unfold ix, vl, st. split.
    - intros (p & E & Hp). injection E as <- <-. apply in_seq in Hp.
      destruct (core_row O _ _ _ _ _ _ _ _ C r p Hr ltac:(lia)) as (P1 & P2 & P3 & P4). cbn [cells_of c_ind c_val c_vp c_vpi] in *.
      exists (nth p (a_vpi s) 0). split; auto. split; auto. split; auto.
      pose proof (k_val _ _ _ _ _ _ _ _ _ C _ P2) as KV. cbn [cells_of c_vp c_val] in KV. rewrite <- KV.
      now rewrite (i_1 _ _ _ I p P1).
    - intros (x & Q1 & Q2 & Q3 & Q4). exists (nth x (a_vp s) 0).
      pose proof (k_val _ _ _ _ _ _ _ _ _ C _ Q1) as KV. pose proof (k_lab _ _ _ _ _ _ _ _ _ C _ Q1) as KL.
      pose proof (k_pos _ _ _ _ _ _ _ _ _ C _ Q1) as KP.
      cbn [cells_of c_ind c_vp c_val] in *. split. { now rewrite KV, KL, Q3, Q4. }
      rewrite Q2 in KP. apply in_seq. lia.
  Qed.

  Lemma core_asc : forall np nc s lab val, core O np (length (a_inds s)) nc (ind_start (a_cs s)) (a_inds s) lab val (cells_of O s) ->
    forall r, r < np -> asc (map fst (rowl (a_cs s) r)).
  Proof.
    intros np nc s lab val C r Hr. apply asc_nth. intros a b Hab Hb. rewrite map_length, rowl_length in Hb.
    assert (NN : forall q, q < st (a_cs s) (S r) - st (a_cs s) r -> nth q (map fst (rowl (a_cs s) r)) 0 = ix (a_cs s) (st (a_cs s) r + q)).
    { intros q Hq. rewrite (nth_indep _ 0 (fst (0, t0 O))) by (rewrite map_length, rowl_length; lia). now rewrite map_nth, rowl_nth by lia. }
    rewrite !NN by lia.
    apply (k_sorted _ _ _ _ _ _ _ _ _ C r); auto; unfold st in *; lia.
  Qed.

  Lemma concat_rowl : forall (A : CS O) n, (forall i, i < n -> st A i <= st A (S i)) -> st A 0 = 0 ->
    concat (map (rowl A) (seq 0 n)) = map (fun p => (ix A p, vl A p)) (seq 0 (st A n)).
  Proof.
    intros A n H Z. induction n.
    - simpl. now rewrite Z.
    - rewrite seq_S, map_app, concat_app. rewrite IHn by auto. simpl. rewrite app_nil_r. unfold rowl.
      pose proof (H n ltac:(lia)). replace (st A (S n)) with (st A n + (st A (S n) - st A n)) at 2 by lia.
      rewrite seq_app, map_app. reflexivity.
  Qed.

  Lemma core_cs : forall np nc s lab val (rows : list row), core O np (length (a_inds s)) nc (ind_start (a_cs s)) (a_inds s) lab val (cells_of O s) ->
    length rows = np -> (forall r, r < np -> nth r rows [] = rowl (a_cs s) r) ->
    a_cs s = ofrows (psize (a_cs s)) (ssize (a_cs s)) rows.
  Proof.
    intros np nc s lab val rows C L E. pose proof C as [c1 c2 c3 c4 c5 c6 c7 c8 c9 c10 c11 c12 c13 c14].
    cbn [cells_of c_ind c_val] in *.
    assert (ER : rows = map (rowl (a_cs s)) (seq 0 np)).
    { apply (nth_ext _ _ [] []). { now rewrite map_length, seq_length. }
      intros r Hr. rewrite E by lia. rewrite (nth_indep _ [] (rowl (a_cs s) 0)) by (rewrite map_length, seq_length; lia).
      rewrite map_nth. f_equal. now rewrite seq_nth by lia. }
    assert (EC : forall n, n <= np -> concat (map (rowl (a_cs s)) (seq 0 n)) = map (fun p => (ix (a_cs s) p, vl (a_cs s) p)) (seq 0 (st (a_cs s) n))).
    { intros n Hn. apply concat_rowl; auto. intros i Hi. apply c3; lia. }
    assert (EN : concat rows = map (fun p => (ix (a_cs s) p, vl (a_cs s) p)) (seq 0 (length (a_inds s)))).
    { rewrite ER, EC by lia. unfold st. now rewrite c4. }
    assert (NN : forall X (l : list X) d, l = map (fun p => nth p l d) (seq 0 (length l))).
    { intros X l d. apply (nth_ext _ _ d d). { now rewrite map_length, seq_length. }
      intros i Hi. rewrite (nth_indep (map _ _) d (nth 0 l d)) by (rewrite map_length, seq_length; lia).
      rewrite (map_nth (fun p => nth p l d)). now rewrite seq_nth by lia. }
    destruct (a_cs s) as [ps ss stt ind va] eqn:EA. unfold ofrows. cbn [psize ssize ind_start indices vals] in *. f_equal.
    - apply (nth_ext _ _ 0 0). { now rewrite starts_length, L. }
      intros i Hi. rewrite c2 in Hi. pose proof (get_start rows i ltac:(lia)) as G. destruct (get_ok _ _ _ _ G) as (_ & G2). rewrite (G2 0).
      unfold offs. rewrite ER. rewrite firstn_map.
      assert (F : firstn i (seq 0 np) = seq 0 i).
      { replace np with (i + (np - i)) by lia. rewrite seq_app, firstn_app, firstn_all2 by (rewrite seq_length; lia).
        rewrite seq_length, Nat.sub_diag. simpl. now rewrite app_nil_r. }
      rewrite F, EC by lia. rewrite map_length, seq_length. reflexivity.
    - rewrite EN, map_map. cbn [fst]. rewrite <- c5. unfold ix. cbn [indices]. apply NN.
    - rewrite EN, map_map. cbn [snd]. rewrite <- c6. unfold vl. cbn [vals]. apply NN.
  Qed.

  (** A factor: the storage, where the tails start, and the columns it stands for. *)
  Definition PRep (ps nc k lo lim : nat) (s : aug O) (start : list nat) (cols : list col) : Prop :=
    exists lab val L li, arep k lo nc s lab val L /\ Rep ps nc k lo lim [] (mkFac (a_cs s) li start) cols /\
      forall c i v, c < k -> (In (i, v) (whole (nth c cols dcol)) <-> cell s lab val c i v).

  Lemma asc_whole : forall k lo (x : col), k <= lo -> asc (map fst (fst x)) -> asc (map fst (snd x)) ->
    (forall e, In e (fst x) -> fst e < k) -> (forall e, In e (snd x) -> lo <= fst e) -> asc (map fst (whole x)).
  Proof.
    intros k lo x H A1 A2 R1 R2. unfold whole. rewrite map_app. apply asc_app. split; auto. split; auto.
    intros a b Ha Hb. apply in_map_iff in Ha. apply in_map_iff in Hb. destruct Ha as (e & <- & He), Hb as (f & <- & Hf).
    specialize (R1 e He). specialize (R2 f Hf). lia.
  Qed.

  Lemma mk_PRep : forall ps nc k lo lim s start cols lab val L, arep k lo nc s lab val L ->
    psize (a_cs s) = ps -> ssize (a_cs s) = nc -> length cols = k -> length start = ps -> k <= ps -> k <= lo -> lim <= nc -> k <= nc ->
    (forall c, c < k -> nth c start 0 = length (dn' c cols)) ->
    (forall c, c < k -> asc (map fst (tl' c cols)) /\ forall e, In e (tl' c cols) -> lo <= fst e < lim) ->
    (forall c, c < k -> asc (map fst (dn' c cols)) /\ forall e, In e (dn' c cols) -> c < fst e < k) ->
    (forall c i v, c < k -> (In (i, v) (whole (nth c cols dcol)) <-> cell s lab val c i v)) ->
    PRep ps nc k lo lim s start cols.
  Proof.
    intros ps nc k lo lim s start cols lab val L R Eps Ess Lc Ls Hps Hlo Hlim Hnc Hst Htl Hdn Hin.
    destruct (ghost_chain k lo nc (hds cols) Hlo Hnc) as (li & C).
    exists lab, val, L, li. split; auto. split; auto. pose proof R as (Co & _).
    constructor; cbn [fm fstart flist]; auto.
    rewrite <- Eps, <- Ess. apply (core_cs k nc s lab val); auto.
    - now rewrite app_length, map_length, Lc, Nat.add_0_r.
    - intros r Hr. rewrite nth_rows by lia. apply asc_pairs_eq.
      + destruct (Htl r Hr) as (T1 & T2). destruct (Hdn r Hr) as (D1 & D2).
        apply (asc_whole k lo); auto; intros e He; [apply D2 in He|apply T2 in He]; lia.
      + eapply core_asc; eauto.
      + intros [i v]. rewrite Hin by auto. symmetry. eapply core_in; eauto.
  Qed.

  (** reading the secondary list of [j] *)
  Lemma while_aug : forall S (nx : list (option nat)) inds l fuel (body : nat -> S -> res (S * option nat)) (b' : nat -> S -> res S) s,
    linked nx l -> length l < fuel ->
    (forall x s, In x l -> body x s = (s' <- b' (nth x inds 0) s ;; Ok (s', nth x nx None))) ->
    while_chain fuel body (hd_error l) s = for_list (map (fun x => nth x inds 0) l) b' s.
  Proof.
    intros S nx inds l. induction l as [|x l IH]; intros fuel body b' s HL HF HB; cbn [hd_error map for_list].
    - destruct fuel; auto.
    - destruct fuel; [simpl in HF; lia|]. cbn [while_chain]. rewrite HB by (left; auto). destruct HL as (X1 & X2 & X3).
      destruct (b' (nth x inds 0) s) as [s'| |]; cbn [bind]; auto. rewrite X2. apply IH; auto. simpl in HF; lia.
      intros. apply HB. right; auto.
  Qed.

  Lemma incr_map_nodup : forall inds l, incr inds l -> NoDup (map (fun x => nth x inds 0) l).
  Proof.
    induction l as [|x l IH]; intros H; simpl; constructor.
    - intros I. apply in_map_iff in I. destruct I as (y & E & Hy). pose proof (incr_hd _ _ _ H y Hy). lia.
    - apply IH. eapply incr_tl; eauto.
  Qed.

  Lemma whole_tail : forall k lo (x : col) j v, k <= lo -> (forall e, In e (fst x) -> fst e < k) -> (forall e, In e (snd x) -> lo <= fst e) ->
    lo <= j -> (In (j, v) (whole x) <-> In (j, v) (snd x)).
  Proof.
    intros k lo x j v H D E Hj. unfold whole. rewrite in_app_iff. split; auto. intros [I|I]; auto. apply D in I. simpl in I. lia.
  Qed.

  Lemma aug_chain : forall ps nc k lo lim s start cols j, PRep ps nc k lo lim s start cols -> lo <= j < nc ->
    exists l, get (a_start s) j = Ok (hd_error l) /\ linked (a_next s) l /\ length l < fuel_aug s /\
      NoDup (map (fun x => nth x (a_inds s) 0) l) /\
      (forall x, In x l -> nth x (a_inds s) 0 < k /\
         node s x = Ok (nth x (a_inds s) 0, lkv (tl' (nth x (a_inds s) 0) cols) j, nth x (a_next s) None)) /\
      (forall c, In c (map (fun x => nth x (a_inds s) 0) l) <-> c < k /\ lko (tl' c cols) j <> None).
  Proof.
    intros ps nc k lo lim s start cols j (lab & val & L & li & R & Rp & HC) Hj. pose proof R as (C & H & LN). pose proof Rp as [].
    assert (X : forall x, In x (L j) -> x < length (a_inds s) /\ lab x = j). { intros x. apply (h_6 _ _ _ _ _ _ _ _ _ _ H). auto. }
    pose proof (k_R _ _ _ _ _ _ _ _ _ C) as KR.
    assert (TL : forall c v, c < k -> (In (j, v) (tl' c cols) <-> cell s lab val c j v)).
    { intros c v Hc. rewrite <- HC by auto. symmetry. apply (whole_tail k lo); try lia.
      - intros e He. destruct (r_done c Hc) as (_ & D). apply D in He. lia.
      - intros e He. destruct (r_tail c Hc) as (_ & D). apply D in He. lia. }
    assert (LK : forall x, In x (L j) -> lko (tl' (nth x (a_inds s) 0) cols) j = Some (val x)).
    { intros x Hx. destruct (X x Hx) as (X1 & X2). pose proof (KR x X1) as K. apply in_lko.
      - destruct (r_tail _ K) as (A1 & _). apply asc_NoDup. auto.
      - apply TL; auto. exists x. auto. }
    exists (L j). split. { rewrite (get_nth _ _ _ None) by (rewrite (h_hd _ _ _ _ _ _ _ _ _ _ H); lia). now rewrite (h_1 _ _ _ _ _ _ _ _ _ _ H) by auto. }
    split. { apply (h_4 _ _ _ _ _ _ _ _ _ _ H); auto. }
    pose proof (h_5 _ _ _ _ _ _ _ _ _ _ H j Hj) as HI.
    split. { unfold fuel_aug. pose proof (len_le (length (a_inds s)) (L j) (incr_nodup _ _ HI) (fun x Hx => proj1 (X x Hx))). lia. }
    split. { now apply incr_map_nodup. }
    split.
    - intros x Hx. destruct (X x Hx) as (X1 & X2). split; auto. unfold node.
      pose proof (k_inv _ _ _ _ _ _ _ _ _ C) as I. cbn [cells_of c_vp c_vpi] in I.
      pose proof (k_lv _ _ _ _ _ _ _ _ _ C) as LV. cbn [cells_of c_val] in LV.
      rewrite (get_nth _ _ x 0) by auto. cbn [bind].
      rewrite (get_nth _ (a_vp s) x 0) by (rewrite (i_l1 _ _ _ I); auto). cbn [bind].
      rewrite (get_nth _ (vals _) _ (t0 O)) by (rewrite LV; now apply I). cbn [bind].
      rewrite (get_nth _ _ x None) by lia. cbn [bind].
      pose proof (k_val _ _ _ _ _ _ _ _ _ C x X1) as KV. cbn [cells_of c_vp c_val] in KV. rewrite KV.
      unfold lkv. rewrite LK by auto. reflexivity.
    - intros c. rewrite in_map_iff. split.
      + intros (x & <- & Hx). destruct (X x Hx) as (X1 & X2). split; auto. rewrite LK by auto. discriminate.
      + intros (Hc & Hn). destruct (lko (tl' c cols) j) as [v|] eqn:E; [|congruence]. apply lko_in in E. apply TL in E; auto.
        destruct E as (x & E1 & E2 & E3 & E4). exists x. split; auto. apply (h_6 _ _ _ _ _ _ _ _ _ _ H); auto.
  Qed.

  (** moving labels *)
  Lemma relab_l : forall ps nc k lo lim lo' lim' s s' start cols f lab val L lab' L',
    arep k lo nc s lab val L -> (exists li, Rep ps nc k lo lim [] (mkFac (a_cs s) li start) cols) ->
    (forall c i v, c < k -> (In (i, v) (whole (nth c cols dcol)) <-> cell s lab val c i v)) ->
    arep k lo' nc s' lab' val L' -> a_inds s' = a_inds s -> psize (a_cs s') = psize (a_cs s) -> ssize (a_cs s') = ssize (a_cs s) ->
    (forall x, x < length (a_inds s) -> lab' x = f (lab x)) -> (forall i, i < k -> f i = i) ->
    (forall i, lo <= i < lim -> lo' <= f i < lim') -> lo <= lo' -> lim' <= nc -> k <= nc ->
    exists cols', PRep ps nc k lo' lim' s' start cols' /\
      forall c, c < k -> dn' c cols' = dn' c cols /\ forall i v, In (i, v) (tl' c cols') <-> exists j, In (j, v) (tl' c cols) /\ i = f j.
  Proof.
    intros ps nc k lo lim lo' lim' s s' start cols f lab val L lab' L' R (li & Rp) HC R' Ei Eps Ess HF F1 F2 Hlo Hlim Hk.
    pose proof Rp as [rfm rk rst rkps rklo rlim rstart rtail rdone rchain]. cbn [fm fstart flist] in *.
    pose proof R' as (C' & _ & _). pose proof (core_in k nc s' lab' val C') as CI. pose proof (core_asc k nc s' lab' val C') as CA.
    set (cols' := map (fun c => (dn' c cols, filter (fun e => lo' <=? fst e) (rowl (a_cs s') c))) (seq 0 k)).
    assert (NC : forall c, c < k -> nth c cols' dcol = (dn' c cols, filter (fun e => lo' <=? fst e) (rowl (a_cs s') c))).
    { intros c Hc. unfold cols'. rewrite (nth_indep _ dcol ((fun c => (dn' c cols, filter (fun e => lo' <=? fst e) (rowl (a_cs s') c))) 0)) by (rewrite map_length, seq_length; auto).
      rewrite (map_nth (fun c => (dn' c cols, filter (fun e => lo' <=? fst e) (rowl (a_cs s') c)))). now rewrite seq_nth. }
    assert (WT : forall c j v, c < k -> lo <= j -> (In (j, v) (whole (nth c cols dcol)) <-> In (j, v) (tl' c cols))).
    { intros c j v Hc Hj. apply (whole_tail k lo); auto.
      - intros e He. destruct (rdone c Hc) as (_ & D). apply D in He. lia.
      - intros e He. destruct (rtail c Hc) as (_ & D). apply D in He. lia. }
    assert (CL : forall c i v, c < k -> (cell s' lab' val c i v <-> exists j, cell s lab val c j v /\ i = f j)).
    { intros c i v Hc. unfold cell. rewrite Ei. split.
      - intros (x & X1 & X2 & X3 & X4). exists (lab x). split; [exists x; auto|]. rewrite <- X3. auto.
      - intros (j & (x & X1 & X2 & X3 & X4) & ->). exists x. split; auto. split; auto. split; auto. rewrite HF by auto. now rewrite X3. }
    assert (DT : forall c i v, c < k -> In (i, v) (whole (nth c cols dcol)) -> (i < k /\ In (i, v) (dn' c cols)) \/ (lo <= i < lim /\ In (i, v) (tl' c cols))).
    { intros c i v Hc Hi. unfold whole in Hi. apply in_app_or in Hi. destruct Hi as [Hi|Hi]; [left|right]; split; auto.
      - destruct (rdone c Hc) as (_ & D). apply D in Hi. simpl in Hi. lia.
      - destruct (rtail c Hc) as (_ & D). apply D in Hi. auto. }
    assert (TI : forall c i v, c < k -> (In (i, v) (filter (fun e => lo' <=? fst e) (rowl (a_cs s') c)) <-> exists j, In (j, v) (tl' c cols) /\ i = f j)).
    { intros c i v Hc. rewrite filter_In. cbn [fst]. rewrite Nat.leb_le. rewrite CI by auto. rewrite CL by auto. split.
      - intros ((j & Hj & ->) & Hi). exists j. split; auto. apply HC in Hj; auto. destruct (DT c j v Hc Hj) as [(Q1 & Q2)|(Q1 & Q2)]; auto.
        rewrite F1 in Hi by auto. lia.
      - intros (j & Hj & ->). pose proof (proj2 (rtail c Hc) _ Hj) as Q. cbn [fst] in Q. split; [|apply F2; auto].
        exists j. split; auto. apply HC; auto. apply WT; auto. lia. }
    exists cols'. split.
    - eapply mk_PRep; eauto; try lia.
      + rewrite Eps. rewrite rfm. reflexivity.
      + rewrite Ess. rewrite rfm. reflexivity.
      + unfold cols'. now rewrite map_length, seq_length.
      + intros c Hc. rewrite NC by auto. cbn [fst]. auto.
      + intros c Hc. rewrite NC by auto. cbn [snd]. split.
        * apply filter_asc; auto.
        * intros [i v] He. apply TI in He; auto. destruct He as (j & Hj & ->). cbn [fst]. apply F2.
          apply (proj2 (rtail c Hc) _ Hj).
      + intros c Hc. rewrite NC by auto. cbn [fst]. auto.
      + intros c i v Hc. rewrite NC by auto. unfold whole. cbn [fst snd]. rewrite in_app_iff, TI, CL by auto. split.
        * intros [Q|(j & Hj & ->)].
          { exists i. split. { apply HC; auto. unfold whole. apply in_or_app. auto. }
            symmetry. apply F1. destruct (rdone c Hc) as (_ & D). apply D in Q. simpl in Q. lia. }
          exists j. split; auto. apply HC; auto. unfold whole. apply in_or_app. auto.
        * intros (j & Hj & ->). apply HC in Hj; auto. destruct (DT c j v Hc Hj) as [(Q1 & Q2)|(Q1 & Q2)].
          { left. now rewrite F1. } right. exists j. auto.
    - intros c Hc. rewrite NC by auto. cbn [fst snd]. split; auto.
  Qed.
End A.
