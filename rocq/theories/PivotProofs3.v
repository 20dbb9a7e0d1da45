(** * PivotProofs3: compression of a factor in an augmented storage. *)
From Coq Require Import List Arith Lia Bool Permutation.
From Verif Require Import Base Scalar Spec CSModel CSSpec ConvModel ConvSpec BucketProofs ConvProofs ConvProofs2
  ConvProofs3 ConvProofs4 Mag VecModel VecSpec VecProofs PruneModel PruneProofs CroutModel CroutProofs1 CroutProofs2 CroutProofs3
  CroutProofs4 CroutProofs5 CroutProofs6 CroutProofs9 AugModel AugSpec AugProofs1 AugProofs2 AugProofs3 PivotModel PivotProofs1 PivotProofs2.
Import ListNotations.

Section A.
  Context {O : Ops}.
  Notation T := (T O).
  Notation row := (list (nat * T)).
  Notation col := (row * row)%type.
  Notation tl' c cols := (snd (nth c cols (dcol (O:=O)))).
  Notation dn' c cols := (fst (nth c cols (dcol (O:=O)))).
  Notation arep := (arep O).

  Lemma compc_in : forall k g def lim (x : col), g = def + k -> asc (map fst (snd x)) -> (forall e, In e (snd x) -> g <= fst e < lim) ->
    (forall e, In e (fst x) -> fst e < k) ->
    forall i v, In (i, v) (whole (compc g def x)) <-> exists j, In (j, v) (whole x) /\ i = if j =? g then k else j.
  Proof.
    intros k g def lim [dn tl] Eg HA HT HD i v. cbn [fst snd] in *.
    assert (DN : forall j w, In (j, w) dn -> (if j =? g then k else j) = j).
    { intros j w H. apply HD in H. cbn [fst] in H. destruct (Nat.eqb_spec j g); lia. }
    unfold compc, whole. cbn [fst snd]. destruct tl as [|[i0 v0] t]; cbn [fst snd].
    - rewrite app_nil_r. split.
      + intros H. exists i. split; auto. symmetry. eauto.
      + intros (j & H & ->). rewrite (DN j v) by auto. auto.
    - cbn [map fst asc] in HA. destruct HA as (A0 & A1).
      assert (TN : forall j w, In (j, w) t -> (if j =? g then k else j) = j).
      { intros j w H. pose proof (A0 j (in_map fst _ _ H)). pose proof (HT (i0, v0) (or_introl eq_refl)). cbn [fst] in *.
        destruct (Nat.eqb_spec j g); lia. }
      destruct (Nat.eqb_spec i0 g) as [->|Hn]; cbn [fst snd].
      + rewrite !in_app_iff. cbn [In]. split.
        * intros [[H|[H|[]]]|H].
          -- exists i. rewrite !in_app_iff. split; auto. symmetry. eauto.
          -- injection H as H1 H2. exists g. rewrite in_app_iff, H2. cbn [In]. split; auto. rewrite Nat.eqb_refl. lia.
          -- exists i. rewrite !in_app_iff. cbn [In]. split; auto. symmetry. eauto.
        * intros (j & H & ->). apply in_app_or in H. destruct H as [H|[H|H]].
          -- rewrite (DN j v) by auto. auto.
          -- injection H as H1 H2. rewrite <- H1, Nat.eqb_refl, H2. left. right. left. f_equal. lia.
          -- rewrite (TN j v) by auto. auto.
      + assert (IN : forall j w, In (j, w) (dn ++ (i0, v0) :: t) -> (if j =? g then k else j) = j).
        { intros j w H. apply in_app_or in H. destruct H as [H|[H|H]]; eauto. injection H as H1 H2.
          destruct (Nat.eqb_spec j g); congruence. }
        split.
        * intros H. exists i. split; auto. symmetry. eauto.
        * intros (j & H & ->). rewrite (IN j v) by auto. auto.
  Qed.

  Lemma compress_s : forall ps nc k g def lim (s : aug O) start (cols : list col) new F,
    PMid ps nc k g lim s start cols new -> Rep ps nc k g lim [] F cols -> fstart F = start ->
    k < ps -> g = def + k -> g < lim -> k < nc -> asc (map fst new) -> (forall e, In e new -> S g <= fst e < lim) ->
    wp (pupdate_compress k def s start) (fun r => PRep ps nc (S k) (S g) lim (fst r) (snd r) (map (compc g def) cols ++ [([], new)])).
  Proof.
    intros ps nc k g def lim s start cols new F (lab & val & L & R & Eps & Ess & HC & HN) Rp ES Hps Eg Hgl Hknc NA NR.
    pose proof Rp as [rfm rk rst rkps rklo rlim rstart rtail rdone rchain]. rewrite ES in *. clear rfm rchain.
    pose proof R as (C & H & LN). pose proof C as [c1 c2 c3 c4 c5 c6 c7 c8 c9 c10 c11 c12 c13 c14].
    cbn [cells_of c_ind c_val c_vp c_vpi] in *. set (N := length (a_inds s)) in *. set (stt := ind_start (a_cs s)) in *.
    pose proof H as [h1 h2 h3 h4 h5 h6 h7 h8 h9 h10].
    (* labels *)
    assert (LB : forall x, x < N -> lab x < k \/ g <= lab x < lim).
    { intros x Hx. pose proof (c9 x Hx) as Hc. destruct (Nat.eq_dec (nth x (a_inds s) 0) k) as [E|E].
      - assert (I : In (lab x, val x) new) by (apply HN; exists x; auto). apply NR in I. simpl in I. lia.
      - assert (I : In (lab x, val x) (whole (nth (nth x (a_inds s) 0) cols dcol))). { apply HC; [lia|]. exists x; auto. }
        unfold whole in I. apply in_app_or in I. destruct I as [I|I].
        + destruct (rdone (nth x (a_inds s) 0) ltac:(lia)) as (_ & D). apply D in I. simpl in I. lia.
        + destruct (rtail (nth x (a_inds s) 0) ltac:(lia)) as (_ & D). apply D in I. auto. }
    assert (LK : forall x, x < N -> nth x (a_inds s) 0 = k -> g < lab x).
    { intros x Hx E. assert (I : In (lab x, val x) new) by (apply HN; exists x; auto). apply NR in I. simpl in I. lia. }
    assert (RW : forall c, c < k -> rowl (a_cs s) c = whole (nth c cols dcol)).
    { intros c Hc. destruct (rtail c Hc) as (T1 & T2). destruct (rdone c Hc) as (D1 & D2). apply asc_pairs_eq.
      - eapply core_asc; eauto.
      - apply (asc_whole k g); auto; intros e He; [apply D2 in He|apply T2 in He]; lia.
      - intros [i v]. rewrite HC by auto. eapply core_in; eauto. }
    set (pos := fun c => nth c stt 0 + length (dn' c cols)).
    assert (PX : forall x, In x (L g) -> x < N /\ lab x = g /\ nth x (a_inds s) 0 < k /\ nth x (a_vp s) 0 = pos (nth x (a_inds s) 0)).
    { intros x Hx. apply h10 in Hx; [|lia]. destruct Hx as (X1 & X2). split; auto. split; auto.
      assert (Hc : nth x (a_inds s) 0 < k). { pose proof (c9 x X1). pose proof (LK x X1). lia. }
      split; auto. set (c := nth x (a_inds s) 0) in *. destruct (rtail c Hc) as (T1 & T2). destruct (rdone c Hc) as (D1 & D2).
      assert (I : In (g, val x) (tl' c cols)).
      { apply (whole_tail k g); auto.
        - intros e He. apply D2 in He. lia.
        - intros e He. apply T2 in He. lia.
        - apply HC; auto. exists x. auto. }
      destruct (tl' c cols) as [|[i v] t] eqn:Et; [inversion I|].
      assert (Ei : i = g). { destruct I as [I|I]; [inversion I; auto|]. cbn [map fst asc] in T1. destruct T1 as (T0 & _).
        pose proof (T0 g (in_map fst _ _ I)). pose proof (T2 (i, v) (or_introl eq_refl)). cbn [fst] in *. lia. }
      subst i. assert (LW : length (rowl (a_cs s) c) = length (dn' c cols) + S (length t)).
      { rewrite RW by auto. unfold whole. rewrite app_length, Et. reflexivity. }
      rewrite rowl_length in LW. pose proof (c10 x X1) as Px. fold c in Px. pose proof (c3 c (S c) ltac:(lia) ltac:(lia)) as Mc.
      assert (Ip : nth (pos c) (indices (a_cs s)) 0 = g).
      { assert (Q : nth (length (dn' c cols)) (rowl (a_cs s) c) (0, t0 O) = (g, v)).
        { rewrite RW by auto. unfold whole. rewrite app_nth2, Nat.sub_diag by lia. now rewrite Et. }
        rewrite rowl_nth in Q by (rewrite LW; lia). inversion Q. reflexivity. }
      pose proof (c11 x X1) as Lx. rewrite X2 in Lx.
      assert (Hp : nth c stt 0 <= pos c < nth (S c) stt 0). { unfold pos, st in *. unfold stt in *. lia. }
      destruct (lt_eq_lt_dec (nth x (a_vp s) 0) (pos c)) as [[Q|Q]|Q]; auto.
      - pose proof (c14 c _ _ ltac:(lia) (proj1 Px) Q (proj2 Hp)). lia.
      - pose proof (c14 c _ _ ltac:(lia) (proj1 Hp) Q (proj2 Px)). lia. }
    set (cs := map (fun x => nth x (a_inds s) 0) (L g)).
    assert (NDc : NoDup cs) by (apply incr_map_nodup; apply h9; lia).
    assert (Hcs : forall c, In c cs -> c < k /\ nth (pos c) (indices (a_cs s)) 0 = g /\ pos c < N).
    { intros c Hc. apply in_map_iff in Hc. destruct Hc as (x & <- & Hx). destruct (PX x Hx) as (X1 & X2 & X3 & X4).
      split; auto. rewrite <- X4. split. { rewrite <- X2. auto. } apply c7; auto. }
    assert (Pinj : forall c c', In c cs -> In c' cs -> pos c = pos c' -> c = c').
    { intros c c' Hc Hc' E. apply in_map_iff in Hc. apply in_map_iff in Hc'. destruct Hc as (x & <- & Hx), Hc' as (y & <- & Hy).
      destruct (PX x Hx) as (X1 & X2 & X3 & X4). destruct (PX y Hy) as (Y1 & Y2 & Y3 & Y4). rewrite <- X4, <- Y4 in E.
      f_equal. rewrite <- (i_2 _ _ _ c7 x X1), <- (i_2 _ _ _ c7 y Y1). now rewrite E. }
    unfold pupdate_compress. replace (def + k) with g by lia.
    wpb. apply wp_get with (d := None); [lia|]. rewrite h5 by lia.
    rewrite (while_aug _ (a_next s) (a_inds s) (L g) _ _ (fun c (st : list nat * list nat) =>
      let '(inds, start) := st in
      b <- get (ind_start (a_cs s)) c ;; o <- get start c ;;
      let pos := Nat.add b o in
      i <- get inds pos ;;
      if i <? def then UB
      else
        inds <- set inds pos (Nat.sub i def) ;;
        start <- set start c (S o) ;;
        Ok (inds, start))).
    2:{ apply h8; lia. }
    2:{ unfold fuel_aug. fold N. pose proof (len_le N (L g) (incr_nodup _ _ (h9 g ltac:(lia))) (fun x Hx => proj1 (PX x Hx))). lia. }
    2:{ intros x [inds0 start0] Hx. destruct (PX x Hx) as (X1 & _). rewrite (get_nth _ (a_inds s) x 0) by auto. cbn [bind].
        destruct (get (ind_start (a_cs s)) (nth x (a_inds s) 0)) as [b| |]; cbn [bind]; auto.
        destruct (get start0 (nth x (a_inds s) 0)) as [o| |]; cbn [bind]; auto.
        destruct (get inds0 (b + o)) as [i| |]; cbn [bind]; auto. destruct (i <? def); auto.
        destruct (set inds0 (b + o) (i - def)) as [i1| |]; cbn [bind]; auto.
        destruct (set start0 (nth x (a_inds s) 0) (S o)) as [s1| |]; cbn [bind]; auto.
        rewrite (get_nth _ _ x None) by (rewrite LN; auto). reflexivity. }
    fold cs. wpb. eapply wp_conseq.
    { apply (for_list_inv _ _ (fun pre (st : list nat * list nat) =>
        length (fst st) = N /\ length (snd st) = ps /\
        (forall c, nth c (snd st) 0 = if in_dec Nat.eq_dec c pre then S (nth c start 0) else nth c start 0) /\
        (forall p, (forall c, In c pre -> p <> pos c) -> nth p (fst st) 0 = nth p (indices (a_cs s)) 0) /\
        (forall c, In c pre -> nth (pos c) (fst st) 0 = k))).
      - cbn [fst snd]. split; auto. split; [lia|]. split; auto. split; auto. intros c [].
      - intros pre c post [inds0 start0] E (I1 & I2 & I3 & I4 & I5). cbn [fst snd] in *.
        assert (Hc : In c cs) by (rewrite E; apply in_or_app; right; left; auto).
        assert (Hnp : ~ In c pre). { rewrite E in NDc. apply NoDup_remove_2 in NDc. intros Q. apply NDc. apply in_or_app. auto. }
        assert (Hpre : forall c', In c' pre -> In c' cs) by (intros; rewrite E; apply in_or_app; auto).
        destruct (Hcs c Hc) as (K1 & K2 & K3).
        wpb. apply wp_get with (d := 0); [fold stt; lia|]. wpb. apply wp_get with (d := 0); [lia|].
        rewrite I3. destruct (in_dec Nat.eq_dec c pre); [contradiction|]. rewrite rstart by auto. cbv zeta. fold stt. fold (pos c).
        wpb. apply wp_get with (d := 0); [lia|].
        assert (Ep : nth (pos c) inds0 0 = g). { rewrite I4; auto. intros c' Hc' E'. apply Hnp. rewrite (Pinj c c'); auto. }
        rewrite Ep. destruct (Nat.ltb_spec g def); [lia|]. wpb. apply wp_set; [lia|]. wpb. apply wp_set; [lia|]. apply wp_ok. cbn [fst snd].
        rewrite !upd_length. split; auto. split; auto. split; [|split].
        + intros c'. rewrite nth_upd by lia. rewrite I3. destruct (Nat.eqb_spec c' c) as [->|Hn].
          * destruct (in_dec Nat.eq_dec c (pre ++ [c])) as [_|Q]; [now rewrite rstart by auto|]. exfalso. apply Q. apply in_or_app. right. left. auto.
          * destruct (in_dec Nat.eq_dec c' pre) as [Q|Q], (in_dec Nat.eq_dec c' (pre ++ [c])) as [Q'|Q']; auto.
            -- exfalso. apply Q'. apply in_or_app. auto.
            -- exfalso. apply in_app_or in Q'. destruct Q' as [Q'|[Q'|[]]]; auto.
        + intros p Hp. rewrite nth_upd_neq. { apply I4. intros c' Hc'. apply Hp. apply in_or_app. auto. }
          apply not_eq_sym. apply Hp. apply in_or_app. right. left. auto.
        + intros c' Hc'. apply in_app_or in Hc'. destruct (Nat.eq_dec c' c) as [->|Hn].
          * rewrite nth_upd_eq by lia. lia.
          * destruct Hc' as [Hc'|[Hc'|[]]]; [|congruence]. rewrite nth_upd_neq; auto. }
    intros [inds' start'] (I1 & I2 & I3 & I4 & I5). cbn [fst snd] in *.
    wpb. apply wp_set; [lia|]. wpb. apply wp_get with (d := None); [lia|]. wpb. apply wp_set; [lia|].
    wpb. apply wp_get with (d := None); [lia|]. wpb. apply wp_set; [lia|].
    wpb. apply wp_get with (d := 0); [lia|]. wpb. apply wp_set; [lia|]. cbv zeta. apply wp_ok. cbn [fst snd].
    set (s' := mkAug _ _ _ _ _ _ _ _).
    set (f := fun j => if j =? g then k else j). set (lab' := fun x => f (lab x)).
    assert (LV : forall x, x < N -> nth (nth x (a_vp s) 0) inds' 0 = lab' x).
    { intros x Hx. unfold lab', f. destruct (Nat.eqb_spec (lab x) g) as [E|E].
      - assert (Q : In x (L g)) by (apply h10; auto; lia). destruct (PX x Q) as (_ & _ & _ & X4). rewrite X4. apply I5.
        unfold cs. apply in_map_iff. exists x. auto.
      - rewrite I4; auto. intros c Hc E'. apply in_map_iff in Hc. destruct Hc as (y & <- & Hy). destruct (PX y Hy) as (Y1 & Y2 & Y3 & Y4).
        rewrite <- Y4 in E'. apply E. rewrite <- Y2. f_equal. rewrite <- (i_2 _ _ _ c7 x Hx), <- (i_2 _ _ _ c7 y Y1). now rewrite E'. }
    assert (C' : core O (S k) N nc stt (a_inds s) lab' val (cells_of O s')).
    { constructor; auto; unfold s'; cbn [cells_of c_ind c_val c_vp c_vpi a_cs indices vals a_vp a_vpi]; auto.
      - intros x Hx. unfold lab', f. destruct (Nat.eqb_spec (lab x) g); auto.
      - intros r p q Hr Hp Hpq Hq.
        destruct (core_row O _ _ _ _ _ _ _ _ C r p Hr ltac:(fold stt; lia)) as (P1 & P2 & P3 & P4).
        destruct (core_row O _ _ _ _ _ _ _ _ C r q Hr ltac:(fold stt; lia)) as (Q1 & Q2 & Q3 & Q4).
        cbn [cells_of c_ind c_val c_vp c_vpi] in *.
        pose proof (c14 r p q Hr Hp Hpq Hq) as HS. rewrite <- P4, <- Q4 in HS.
        pose proof (LV _ P2) as V1. pose proof (LV _ Q2) as V2. rewrite (i_1 _ _ _ c7 p P1) in V1. rewrite (i_1 _ _ _ c7 q Q1) in V2.
        rewrite V1, V2. unfold lab', f. pose proof (LB _ P2). pose proof (LB _ Q2).
        destruct (Nat.eqb_spec (lab (nth p (a_vpi s) 0)) g), (Nat.eqb_spec (lab (nth q (a_vpi s) 0)) g); lia. }
    assert (R' : arep (S k) (S g) nc s' lab' val L).
    { split; [|split]; auto.
      unfold s'. cbn [a_inds a_start a_next a_end a_cnt]. constructor; rewrite ?upd_length; auto.
      - intros j Hj. rewrite nth_upd_neq by lia. apply h5. lia.
      - intros j Hj. rewrite nth_upd_neq by lia. apply h6. lia.
      - intros j Hj. rewrite nth_upd_neq by lia. apply h7. lia.
      - intros j Hj. apply h8. lia.
      - intros j Hj. apply h9. lia.
      - intros j x Hj. rewrite h10 by lia. unfold lab', f. split; intros (A & B); split; auto.
        + rewrite B. destruct (Nat.eqb_spec j g); lia.
        + destruct (Nat.eqb_spec (lab x) g); lia. }
    assert (ICS : forall c, c < k -> (In c cs <-> exists v t, tl' c cols = (g, v) :: t)).
    { intros c Hc. destruct (rtail c Hc) as (T1 & T2). split.
      - intros Hi. apply in_map_iff in Hi. destruct Hi as (x & <- & Hx). destruct (PX x Hx) as (X1 & X2 & X3 & X4).
        set (c := nth x (a_inds s) 0) in *. assert (I : In (g, val x) (tl' c cols)).
        { destruct (rdone c Hc) as (D1 & D2). apply (whole_tail k g); auto.
          - intros e He. apply D2 in He. lia.
          - intros e He. apply T2 in He. lia.
          - apply HC; auto. exists x. auto. }
        destruct (tl' c cols) as [|[i v] t]; [inversion I|]. exists v, t. f_equal. f_equal.
        destruct I as [I|I]; [inversion I; auto|]. cbn [map fst asc] in T1. destruct T1 as (T0 & _).
        pose proof (T0 g (in_map fst _ _ I)). pose proof (T2 (i, v) (or_introl eq_refl)). cbn [fst] in *. lia.
      - intros (v & t & E). assert (I : cell s lab val c g v). { apply HC; auto. unfold whole. rewrite E. apply in_or_app. right. left. auto. }
        destruct I as (x & X1 & X2 & X3 & X4). apply in_map_iff. exists x. split; auto. apply h10; auto. lia. }
    assert (NC : forall c, c < k -> nth c (map (compc g def) cols ++ [([], new)]) dcol = compc g def (nth c cols dcol)).
    { intros c Hc. rewrite app_nth1 by (rewrite map_length; lia). now apply nth_map_d; lia. }
    assert (NK : nth k (map (compc g def) cols ++ [([], new)]) dcol = ([], new)).
    { rewrite app_nth2 by (rewrite map_length; lia). rewrite map_length, rk, Nat.sub_diag. reflexivity. }
    eapply mk_PRep with (lab := lab') (val := val) (L := L); auto; try lia.
    - rewrite app_length, map_length. simpl. lia.
    - rewrite upd_length. auto.
    - intros c Hc. rewrite nth_upd by lia. destruct (Nat.eqb_spec c k) as [->|Hn]. { rewrite NK. reflexivity. }
      rewrite NC by lia. rewrite I3. destruct (in_dec Nat.eq_dec c cs) as [Q|Q].
      + apply ICS in Q; [|lia]. destruct Q as (v & t & E). unfold compc. rewrite E. rewrite Nat.eqb_refl. cbn [fst]. rewrite app_length. simpl.
        rewrite rstart by lia. lia.
      + unfold compc. destruct (tl' c cols) as [|[i v] t] eqn:E. { apply rstart. lia. }
        destruct (Nat.eqb_spec i g) as [->|]. { exfalso. apply Q. apply ICS; [lia|]. eauto. } apply rstart. lia.
    - intros c Hc. destruct (Nat.eq_dec c k) as [->|Hn]. { rewrite NK. auto. }
      rewrite NC by lia. destruct (rtail c ltac:(lia)) as (T1 & T2). unfold compc. destruct (tl' c cols) as [|[i v] t] eqn:E.
      { rewrite E. split; simpl; auto. intros e []. }
      pose proof (T2 (i, v) (or_introl eq_refl)) as Ti. cbn [map fst asc] in T1, Ti. destruct T1 as (T0 & T1).
      assert (TT : forall e, In e t -> i < fst e < lim). { intros e He. pose proof (T0 (fst e) (in_map fst _ _ He)). pose proof (T2 e (or_intror He)). lia. }
      destruct (Nat.eqb_spec i g) as [->|].
      + cbn [snd]. split; auto.
      + rewrite E. split; [cbn [map fst asc]; auto|]. intros e [<-|He]; [cbn [fst]; lia|]. apply TT in He. lia.
    - intros c Hc. destruct (Nat.eq_dec c k) as [->|Hn]. { rewrite NK. cbn [fst]. split; simpl; auto. intros e []. }
      rewrite NC by lia. destruct (rdone c ltac:(lia)) as (D1 & D2).
      assert (DD : asc (map fst (dn' c cols)) /\ forall e, In e (dn' c cols) -> c < fst e < S k). { split; auto. intros e He. apply D2 in He. lia. }
      unfold compc. destruct (tl' c cols) as [|[i v] t]; auto.
      destruct (Nat.eqb_spec i g) as [->|]; auto. cbn [fst]. split.
      + rewrite map_app. apply asc_app. split; auto. split; [simpl; split; auto; intros ? []|].
        intros a b Ha Hb. simpl in Hb. destruct Hb as [<-|[]]. apply in_map_iff in Ha. destruct Ha as (e & <- & He). apply D2 in He. lia.
      + intros e He. apply in_app_or in He. destruct He as [He|[<-|[]]]; [apply D2 in He; lia|]. cbn [fst]. lia.
    - intros c i v Hc. unfold cell. change (a_inds s') with (a_inds s). fold N. destruct (Nat.eq_dec c k) as [->|Hn].
      + rewrite NK. unfold whole. cbn [fst snd app]. rewrite HN. unfold cell. fold N.
        split; intros (x & X1 & X2 & X3 & X4); exists x; (split; [exact X1|split; [exact X2|split; [|exact X4]]]).
        * unfold lab', f. rewrite X3. pose proof (LK x X1 X2). destruct (Nat.eqb_spec i g); lia.
        * unfold lab', f in X3. pose proof (LK x X1 X2). destruct (Nat.eqb_spec (lab x) g); lia.
      + rewrite NC by lia. destruct (rtail c ltac:(lia)) as (T1 & T2). destruct (rdone c ltac:(lia)) as (D1 & D2).
        rewrite (compc_in k g def lim); [|auto|auto|auto|intros e He; apply D2 in He; lia].
        split.
        * intros (j & Hj & ->). apply HC in Hj; [|lia]. destruct Hj as (x & X1 & X2 & X3 & X4). exists x. split; auto. split; auto. split; auto.
          unfold lab', f. now rewrite X3.
        * intros (x & X1 & X2 & X3 & X4). exists (lab x). split. { apply HC; [lia|]. exists x. auto. } rewrite <- X3. reflexivity.
  Qed.
End A.
