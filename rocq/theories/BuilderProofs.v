(** * BuilderProofs: histories of a HIF object, refinement, filter. *)
From Coq Require Import List Arith Lia Bool Ring.
From Verif Require Import Base Scalar Spec CSModel PrecModel PrecSpec MrhsProofs StaleProofs BuilderModel BuilderSpec.
Import ListNotations.

Section BP.
  Variable O : Ops.
  Notation T := (T O).

  Record Rel (s : HIF O) (a : Abs O) : Prop := {
    R_p : hprecs s = aprecs a;
    R_sz : hsz s = asz a;
    R_f : hnsp s = ansp a;
    R_ft : hnspt s = anspt a;
    R_w0 : aprecs a = [] -> hwork s = [];
    R_w : hwork s = [] \/ compute_prec_work_space O (aprecs a) <= length (hwork s);
    R_g : aprecs a = [] \/ exists n, asz a = Some (n, n) /\ hier_good (aprecs a) n;
    R_fg : filter_good O (ansp a);
    R_ftg : filter_good O (anspt a)
  }.

  Lemma fresh_length : forall junk k, length (fresh O junk k) = k.
  Proof. intros. unfold fresh. now rewrite map_length, seq_length. Qed.

  Lemma zeros_length : forall k, length (zeros O k) = k.
  Proof. intros. apply repeat_length. Qed.

  Lemma Rel_with_work : forall s a w, Rel s a -> aprecs a <> [] ->
    compute_prec_work_space O (aprecs a) <= length w -> Rel (with_work O s w) a.
  Proof. intros s a w [] N L. constructor; simpl; auto. intros; contradiction. Qed.

  Lemma Rel_with_ir : forall s a xk r, Rel s a -> Rel (with_ir O s xk r) a.
  Proof. intros s a xk r []. constructor; simpl; auto. Qed.

  Lemma ensure_work_len : forall s a junk, Rel s a ->
    compute_prec_work_space O (aprecs a) <= length (ensure_work O junk s (compute_prec_work_space O (aprecs a))).
  Proof.
    intros s a junk R. unfold ensure_work. destruct (R_w s a R) as [E|E].
    - rewrite E, fresh_length. auto.
    - destruct (hwork s); [rewrite fresh_length|]; auto.
  Qed.

  (** The concrete solve in any state and with any buffers computes [spec_solve]. *)
  Lemma solve_step : forall s a junk b x tran r, Rel s a -> aprecs a <> [] ->
    asz a = Some (length b, length b) -> length x = length b ->
    (exists s' z, solve O junk s b x tran r = Ret s' z /\ spec_solve O a tran r b = Ok z /\ length z = length b /\
       Rel s' a /\ hxk s' = hxk s /\ hr s' = hr s) \/
    (exists s', solve O junk s b x tran r = Throw s' /\ spec_solve O a tran r b = Err /\ Rel s' a).
  Proof.
    intros s a junk b x tran r R N Sz Lx.
    destruct (R_g s a R) as [E|(n & Sn & G)]; [contradiction|].
    rewrite Sz in Sn. injection Sn as ? _. subst n.
    pose proof (ensure_work_len s a junk R) as LW.
    set (w := ensure_work O junk s (compute_prec_work_space O (aprecs a))) in *.
    unfold solve, spec_solve. rewrite (R_p s a R).
    destruct (aprecs a) as [|P rest] eqn:EP; [contradiction|].
    set (pr := P :: rest) in *. fold w. rewrite (proj2 (Nat.eqb_eq _ _)) by auto. simpl negb. cbv iota.
    destruct (G r tran) as [GS _].
    assert (K : exists z w1 w2,
      (if tran then prec_solve_tran O pr b r x w else prec_solve O pr b r x w) = Ok (z, w1) /\
      (if tran then prec_solve_tran O pr b r (zeros O (length b)) (zeros O (compute_prec_work_space O pr))
       else prec_solve O pr b r (zeros O (length b)) (zeros O (compute_prec_work_space O pr))) = Ok (z, w2) /\
      length z = length b /\ length w1 = length w).
    { destruct tran.
      - destruct (prec_solve_tran_stale O pr (length b) r b x (zeros O (length b)) w
          (zeros O (compute_prec_work_space O pr))) as ([z w1] & [z' w2] & E1 & E2 & (A & B & C & D));
        rewrite ?zeros_length; auto.
        simpl in *. subst z'. exists z, w1, w2. auto.
      - destruct (prec_solve_stale O pr (length b) r b x (zeros O (length b)) w
          (zeros O (compute_prec_work_space O pr))) as ([z w1] & [z' w2] & E1 & E2 & (A & B & C & D));
        rewrite ?zeros_length; auto.
        simpl in *. subst z'. exists z, w1, w2. auto. }
    destruct K as (z & w1 & w2 & E1 & E2 & Lz & Lw1). rewrite E1, E2. simpl.
    rewrite (R_f s a R), (R_ft s a R).
    assert (FG : filter_good O (if tran then anspt a else ansp a)).
    { destruct tran; [exact (R_ftg s a R)|exact (R_fg s a R)]. }
    assert (RW : Rel (with_work O s w1) a) by (apply Rel_with_work; auto; rewrite ?EP; try discriminate; fold pr; lia).
    destruct (FG z) as [F|(y & F & Ly)]; rewrite F.
    - right. eauto.
    - left. exists (with_work O s w1), y. do 2 (split; [auto; fail|]). split; [lia|]. auto.
  Qed.

  Lemma mul_step : forall s a junk b x tran r, Rel s a -> aprecs a <> [] ->
    asz a = Some (length b, length b) -> length x = length b ->
    (exists s' z, mmultiply O junk s b x tran r = Ret s' z /\ spec_mul O a tran r b = Ok z /\ length z = length b /\
       Rel s' a /\ hxk s' = hxk s /\ hr s' = hr s).
  Proof.
    intros s a junk b x tran r R N Sz Lx.
    destruct (R_g s a R) as [E|(n & Sn & G)]; [contradiction|].
    rewrite Sz in Sn. injection Sn as ? _. subst n.
    pose proof (ensure_work_len s a junk R) as LW.
    set (w := ensure_work O junk s (compute_prec_work_space O (aprecs a))) in *.
    unfold mmultiply, spec_mul. rewrite (R_p s a R).
    destruct (aprecs a) as [|P rest] eqn:EP; [contradiction|].
    set (pr := P :: rest) in *. fold w. rewrite (proj2 (Nat.eqb_eq _ _)) by auto. simpl negb. cbv iota.
    destruct (G r tran) as [_ GS].
    assert (K : exists z w1 w2,
      (if tran then prec_prod_tran O pr b r x w else prec_prod O pr b r x w) = Ok (z, w1) /\
      (if tran then prec_prod_tran O pr b r (zeros O (length b)) (zeros O (compute_prec_work_space O pr))
       else prec_prod O pr b r (zeros O (length b)) (zeros O (compute_prec_work_space O pr))) = Ok (z, w2) /\
      length z = length b /\ length w1 = length w).
    { destruct tran.
      - destruct (prec_prod_tran_stale O pr (length b) r b x (zeros O (length b)) w
          (zeros O (compute_prec_work_space O pr))) as ([z w1] & [z' w2] & E1 & E2 & (A & B & C & D));
        rewrite ?zeros_length; auto.
        simpl in *. subst z'. exists z, w1, w2. auto.
      - destruct (prec_prod_stale O pr (length b) r b x (zeros O (length b)) w
          (zeros O (compute_prec_work_space O pr))) as ([z w1] & [z' w2] & E1 & E2 & (A & B & C & D));
        rewrite ?zeros_length; auto.
        simpl in *. subst z'. exists z, w1, w2. auto. }
    destruct K as (z & w1 & w2 & E1 & E2 & Lz & Lw1). rewrite E1, E2. simpl.
    exists (with_work O s w1), z. do 3 (split; [auto; fail|]). split; [|auto].
    apply Rel_with_work; auto; rewrite ?EP; try discriminate; fold pr; lia.
  Qed.

  (** ** vector helpers *)
  Lemma vmap2_length : forall f u v, length u = length v -> length (vmap2 O f u v) = length u.
  Proof. intros. unfold vmap2. rewrite map_length, combine_length. lia. Qed.

  Lemma nth_vmap2 : forall f u v i d, i < length u -> length u = length v ->
    nth i (vmap2 O f u v) d = f (nth i u d) (nth i v d).
  Proof.
    intros f u v i d Hi L. unfold vmap2.
    rewrite nth_indep with (d' := (fun p => f (fst p) (snd p)) (d, d)).
    - rewrite (map_nth (fun p => f (fst p) (snd p))). now rewrite combine_nth.
    - rewrite map_length, combine_length. lia.
  Qed.

  Lemma copy_all : forall (src dst : list T), length src = length dst ->
    copy_range O src 0 (length src) dst 0 = Ok src.
  Proof.
    intros src dst L.
    assert (W : wp (copy_range O src 0 (length src) dst 0)
      (fun l => length l = length dst /\ forall i, i < length src -> nth i l (t0 O) = nth i src (t0 O))).
    { unfold copy_range. apply (for_range_inv _ (fun k l => length l = length dst /\ forall i, i < k -> nth i l (t0 O) = nth i src (t0 O))).
      - lia.
      - split; auto. intros; lia.
      - intros i l Hi [Ll H]. wpb. apply (wp_get _ _ _ (t0 O)). { simpl; lia. }
        apply wp_set. { simpl; lia. } simpl. split. { now rewrite upd_length. }
        intros j Hj. rewrite nth_upd by lia. destruct (Nat.eqb_spec j i); subst; auto. apply H; lia. }
    destruct (wp_inv _ _ _ W) as (l & E & Ll & H). rewrite E. f_equal.
    apply (list_ext _ _ _ (t0 O)); [lia|]. intros; apply H; lia.
  Qed.

  Lemma zip_upd_ok : forall f (u x : list T), length u = length x ->
    zip_upd O (length u) f u x = Ok (vmap2 O f u x).
  Proof.
    intros f u x L.
    assert (W : wp (zip_upd O (length u) f u x)
      (fun l => length l = length x /\ forall i, i < length x -> nth i l (t0 O) = f (nth i u (t0 O)) (nth i x (t0 O)))).
    { unfold zip_upd. eapply wp_conseq.
      - apply (for_range_inv _ (fun k l => length l = length x /\ forall i, i < length x ->
           nth i l (t0 O) = if i <? k then f (nth i u (t0 O)) (nth i x (t0 O)) else nth i x (t0 O))).
        + lia.
        + split; auto.
        + intros i l Hi [Ll H]. wpb. apply (wp_get _ _ _ (t0 O)). { lia. }
          wpb. apply (wp_get _ _ _ (t0 O)). { lia. }
          apply wp_set. { lia. } split. { now rewrite upd_length. }
          intros j Hj. rewrite nth_upd by lia. destruct (Nat.eqb_spec j i).
          * subst. rewrite (proj2 (Nat.ltb_lt _ _)) by lia. rewrite H by lia.
            now rewrite (proj2 (Nat.ltb_ge _ _)) by lia.
          * rewrite H by lia. destruct (Nat.ltb_spec j i), (Nat.ltb_spec j (S i)); auto; lia.
      - intros l [Ll H]. split; auto. intros i Hi. rewrite H by auto. now rewrite (proj2 (Nat.ltb_lt _ _)) by lia. }
    destruct (wp_inv _ _ _ W) as (l & E & Ll & H). rewrite E. f_equal.
    apply (list_ext _ _ _ (t0 O)); [rewrite vmap2_length; lia|]. intros. rewrite nth_vmap2 by lia. apply H; lia.
  Qed.

  Lemma add_loop_ok : forall f (r xk x : list T), length r = length xk -> length x = length xk ->
    for_range 0 (length xk) (fun j x => rj <- get r j ;; xj <- get xk j ;; set x j (f rj xj)) x
    = Ok (vmap2 O f r xk).
  Proof.
    intros f r xk x L1 L2.
    assert (W : wp (for_range 0 (length xk) (fun j x => rj <- get r j ;; xj <- get xk j ;; set x j (f rj xj)) x)
      (fun l => length l = length xk /\ forall i, i < length xk -> nth i l (t0 O) = f (nth i r (t0 O)) (nth i xk (t0 O)))).
    { apply (for_range_inv _ (fun k l => length l = length xk /\ forall i, i < k ->
           nth i l (t0 O) = f (nth i r (t0 O)) (nth i xk (t0 O)))).
      - lia.
      - split; auto. intros; lia.
      - intros i l Hi [Ll H]. wpb. apply (wp_get _ _ _ (t0 O)). { lia. }
        wpb. apply (wp_get _ _ _ (t0 O)). { lia. }
        apply wp_set. { lia. } split. { now rewrite upd_length. }
        intros j Hj. rewrite nth_upd by lia. destruct (Nat.eqb_spec j i); subst; auto. apply H; lia. }
    destruct (wp_inv _ _ _ W) as (l & E & Ll & H). rewrite E. f_equal.
    apply (list_ext _ _ _ (t0 O)); [rewrite vmap2_length; lia|]. intros. rewrite nth_vmap2 by lia. apply H; lia.
  Qed.

  (** ** refinement loop *)
  Lemma ir_pass_step : forall mulA s a junk b x tran ld i, Rel s a -> aprecs a <> [] ->
    asz a = Some (length b, length b) -> length x = length b -> mul_good O mulA tran (length b) ->
    length (hxk s) = length b -> length (hr s) = length b ->
    let nxt := r <- residual O (fun v => mulA tran v v) b i x ;;
               z <- spec_solve O a tran ld r ;; Ok (vmap2 O (tadd O) z x) in
    (exists s' z, ir_pass O mulA junk s b x tran ld i = Ret s' z /\ nxt = Ok z /\ length z = length b /\
       Rel s' a /\ length (hxk s') = length b /\ length (hr s') = length b) \/
    (exists s', ir_pass O mulA junk s b x tran ld i = Throw s' /\ nxt = Err /\ Rel s' a).
  Proof.
    intros mulA s a junk b x tran ld i R N Sz Lx MG Lk Lr. cbn zeta.
    unfold ir_pass. rewrite copy_all by lia. cbn [lift].
    set (s1 := with_ir O s x (hr s)).
    assert (R1 : Rel s1 a) by now apply Rel_with_ir.
    assert (K : exists r, (if i =? 0 then copy_range O b 0 (length b) x 0
                 else y <- mulA tran x x ;; zip_upd O (length b) (fun bj yj => tsub O bj yj) b y) = Ok r /\
                 residual O (fun v => mulA tran v v) b i x = Ok r /\ length r = length b).
    { destruct i; simpl.
      - rewrite copy_all by lia. exists b; auto.
      - destruct (MG x x Lx Lx) as (z & E & _ & Lz). rewrite E. simpl.
        rewrite zip_upd_ok by lia. eexists; split; [reflexivity|]. split; auto. rewrite vmap2_length; lia. }
    destruct K as (r & E1 & E2 & Lrr). rewrite E1, E2. cbn [lift bind].
    assert (Sz' : asz a = Some (length r, length r)) by now rewrite Lrr.
    destruct (solve_step s1 a junk r (hr s1) tran ld R1 N Sz') as [(s' & z & S1 & S2 & Lz & R' & H1 & H2)|(s' & S1 & S2 & R')].
    { unfold s1; simpl; lia. }
    - rewrite S1, S2. cbn [bind]. left.
      assert (Hx : hxk s' = x) by (rewrite H1; reflexivity).
      cbn [with_ir hxk]. rewrite Hx. replace (length b) with (length x) by lia.
      rewrite (add_loop_ok (tadd O) z x r) by lia. cbn [lift].
      eexists _, _. split; [reflexivity|]. split; [reflexivity|]. simpl.
      split. { rewrite vmap2_length; lia. } split. { now apply Rel_with_ir. } split; lia.
    - right. exists s'. rewrite S1, S2. auto.
  Qed.

  Lemma ir_loop_step : forall mulA a junk b tran ld, aprecs a <> [] ->
    asz a = Some (length b, length b) -> mul_good O mulA tran (length b) ->
    forall cnt i s x, Rel s a -> length x = length b ->
    length (hxk s) = length b -> length (hr s) = length b ->
    refine O (spec_solve O a tran ld) (fun v => mulA tran v v) (tadd O) b i = Ok x ->
    let fin := refine O (spec_solve O a tran ld) (fun v => mulA tran v v) (tadd O) b (i + cnt) in
    (exists s' z, ir_loop O mulA junk s b x tran ld i cnt = Ret s' z /\ fin = Ok z /\ length z = length b /\ Rel s' a) \/
    (exists s', ir_loop O mulA junk s b x tran ld i cnt = Throw s' /\ fin = Err /\ Rel s' a).
  Proof.
    intros mulA a junk b tran ld N Sz MG. induction cnt; intros i s x R Lx Lk Lr E fin; unfold fin.
    - left. rewrite Nat.add_0_r. exists s, x. auto.
    - cbn [ir_loop].
      destruct (ir_pass_step mulA s a junk b x tran ld i R N Sz Lx MG Lk Lr) as
        [(s' & z & E1 & E2 & Lz & R' & L1 & L2)|(s' & E1 & E2 & R')]; rewrite E1.
      + replace (i + S cnt) with (S i + cnt) by lia. apply IHcnt; auto.
        cbn [refine]. rewrite E. cbn [bind]. exact E2.
      + right. exists s'. split; auto. split; auto.
        assert (F : refine O (spec_solve O a tran ld) (fun v => mulA tran v v) (tadd O) b (S i) = Err).
        { cbn [refine]. rewrite E. cbn [bind]. exact E2. }
        clear -F. replace (i + S cnt) with (cnt + S i) by lia.
        induction cnt; auto. cbn [Nat.add refine]. now rewrite IHcnt.
  Qed.

  Lemma hifir_step : forall mulA s a junk b N x tran ld, Rel s a -> 1 < N -> 0 < length b ->
    asz a = Some (length b, length b) -> length x = length b -> mul_good O mulA tran (length b) ->
    let fin := refine O (spec_solve O a tran ld) (fun v => mulA tran v v) (tadd O) b N in
    (exists s' z, hifir O mulA junk s b N x tran ld = Ret s' z /\ fin = Ok z /\ length z = length b /\ Rel s' a) \/
    (exists s', hifir O mulA junk s b N x tran ld = Throw s' /\ fin = Err /\ Rel s' a).
  Proof.
    intros mulA s a junk b N x tran ld R HN Hb Sz Lx MG fin. unfold hifir.
    rewrite (proj2 (Nat.leb_gt _ _)) by auto. rewrite (R_sz s a R), Sz. unfold ir_init.
    rewrite (proj2 (Nat.eqb_neq _ _)) by lia.
    assert (RR : forall xk r, Rel (mkHIF (hprecs s) (hwork s) (hsz s) (hnsp s) (hnspt s) xk r) a)
      by (intros; now apply Rel_with_ir).
    replace (Some (length b, length b)) with (hsz s) by (rewrite <- Sz; apply R).
    destruct (aprecs a) as [|P rest] eqn:EP.
    - (* empty: the first inner solve throws *)
      right. destruct N as [|N]; [lia|]. cbn [ir_loop]. unfold ir_pass. rewrite Lx.
      rewrite copy_all by (rewrite repeat_length; cbn [hxk]; rewrite fresh_length; auto).
      cbn [lift Nat.eqb].
      rewrite copy_all by (rewrite repeat_length; auto). cbn [lift].
      unfold solve. cbn [with_ir hprecs]. rewrite (R_p s a R), EP.
      eexists. split; [reflexivity|]. split.
      + unfold fin. clear - EP. assert (S1 : refine O (spec_solve O a tran ld) (fun v => mulA tran v v) (tadd O) b 1 = Err).
        { cbn. unfold spec_solve. rewrite EP. reflexivity. }
        replace (S N) with (N + 1) by lia. induction N; auto. cbn [Nat.add refine]. rewrite IHN. reflexivity.
      + unfold with_ir; simpl. rewrite <- EP, <- (R_p s a R). apply RR.
    - apply (ir_loop_step mulA a junk b tran ld) with (i := 0) (cnt := N); auto.
      + congruence.
      + rewrite repeat_length; auto.
      + apply fresh_length.
      + apply fresh_length.
      + rewrite Lx. reflexivity.
  Qed.

  (** ** one call *)
  Lemma step_refines : forall junk s a o, Rel s a -> op_good O a o ->
    exists s', step O junk s o = Some (s', snd (spec_step O a o)) /\ Rel s' (fst (spec_step O a o)).
  Proof.
    intros junk s a o R G. destruct o; simpl in G.
    - (* factorize *)
      simpl. unfold factorize. rewrite (R_p s a R).
      assert (W : match aprecs a with [] => hwork s | _ => [] end = []).
      { destruct (aprecs a) eqn:E; auto. now apply (R_w0 s a R). }
      rewrite W. destruct ok; simpl.
      + destruct G as [-> G]. eexists; split; [reflexivity|]. destruct R. constructor; simpl; auto. eauto.
      + subst lv. eexists; split; [reflexivity|]. destruct R. constructor; simpl; auto.
    - eexists; split; [reflexivity|]. destruct R. constructor; simpl; auto; intros x; right; exists x; auto.
    - eexists; split; [reflexivity|]. destruct R. constructor; simpl; auto.
    - eexists; split; [reflexivity|]. destruct R. constructor; simpl; auto.
    - (* solve *)
      cbn [spec_step snd fst step]. destruct (Nat.eqb_spec (length b) (length x)).
      + destruct (aprecs a) as [|P rest] eqn:EP.
        * unfold solve. rewrite (R_p s a R), EP. simpl. unfold spec_solve. rewrite EP. simpl. eauto.
        * destruct G as [G|[G|G]]; try congruence.
          destruct (solve_step s a junk b x tran r R) as [(s' & z & E1 & E2 & _ & R' & _)|(s' & E1 & E2 & R')]; try congruence;
          rewrite E1, E2; simpl; eauto.
      + unfold solve. rewrite (R_p s a R). destruct (aprecs a); simpl; eauto.
        rewrite (proj2 (Nat.eqb_neq _ _)) by auto. simpl. eauto.
    - cbn [spec_step snd fst step]. destruct (Nat.eqb_spec (length b) (length x)).
      + destruct (aprecs a) as [|P rest] eqn:EP.
        * unfold mmultiply. rewrite (R_p s a R), EP. simpl. unfold spec_mul. rewrite EP. simpl. eauto.
        * destruct G as [G|[G|G]]; try congruence.
          destruct (mul_step s a junk b x tran r R) as (s' & z & E1 & E2 & _ & R' & _); try congruence;
          rewrite E1, E2; simpl; eauto.
      + unfold mmultiply. rewrite (R_p s a R). destruct (aprecs a); simpl; eauto.
        rewrite (proj2 (Nat.eqb_neq _ _)) by auto. simpl. eauto.
    - contradiction.
    - cbn [spec_step snd fst step]. destruct (Nat.leb_spec N 1).
      + unfold hifir. rewrite (proj2 (Nat.leb_le _ _)) by auto.
        destruct (Nat.eqb_spec (length b) (length x)).
        * destruct (aprecs a) as [|P rest] eqn:EP.
          -- unfold solve. rewrite (R_p s a R), EP. simpl. unfold spec_solve. rewrite EP. simpl. eauto.
          -- destruct G as [G|[G|G]]; try congruence.
             destruct (solve_step s a junk b x tran r R) as [(s' & z & E1 & E2 & _ & R' & _)|(s' & E1 & E2 & R')]; try congruence;
             rewrite E1, E2; simpl; eauto.
        * unfold solve. rewrite (R_p s a R). destruct (aprecs a); simpl; eauto.
          rewrite (proj2 (Nat.eqb_neq _ _)) by auto. simpl. eauto.
      + destruct G as (G1 & G2 & G3 & G4).
        destruct (hifir_step mulA s a junk b N x tran r R) as [(s' & z & E1 & E2 & _ & R')|(s' & E1 & E2 & R')]; auto;
        rewrite E1, E2; simpl; eauto.
  Qed.

  Lemma run_refines : forall h s a, Rel s a -> hist_good O a h ->
    exists s', run O s h = Some (s', spec_run O a h).
  Proof.
    induction h as [|[junk o] h IH]; intros s a R G.
    - simpl. eauto.
    - destruct G as [G1 G2]. destruct (step_refines junk s a o R G1) as (s' & E & R').
      destruct (IH _ _ R' G2) as (s'' & E'). cbn [run spec_run].
      rewrite E, E'. destruct (spec_step O a o). eauto.
  Qed.

  Lemma Rel_new : Rel (hif_new O) (abs_new O).
  Proof. constructor; simpl; auto; intros x; right; exists x; auto. Qed.

  Lemma history_refines : forall h, hist_good O (abs_new O) h ->
    exists s', run O (hif_new O) h = Some (s', spec_run O (abs_new O) h).
  Proof. intros. apply run_refines; auto. apply Rel_new. Qed.
End BP.
