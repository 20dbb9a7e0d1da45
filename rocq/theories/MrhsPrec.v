(** * MrhsPrec: the multi-RHS preconditioner solve, fully factored level. *)
From Coq Require Import List Arith Lia Bool.
From Verif Require Import Base Scalar Spec CSModel CSSpec CSProofs MrhsProofs PrecModel PrecSpec PrecProofs.
Import ListNotations.

Section MP.
  Variable O : Ops.
  Notation T := (T O).
  Notation "0" := (t0 O).
  Variables (N c : nat).
  Hypothesis Hc : c < N.

  Lemma rwp_upd_blocks : forall lo hi g g' f Y y,
    colrel O N c Y y -> hi <= length y ->
    (forall i k a, lo <= i < hi -> k < N -> g i k a = Ok (g' i k a)) ->
    (forall i a, lo <= i < hi -> f i a = Ok (g' i c a)) ->
    rwp (upd_blocks O N lo hi g Y) (upd_range O lo hi f y)
        (fun Y' y' => colrel O N c Y' y' /\ length y' = length y).
  Proof.
    intros lo hi g g' f Y y HC HL Hg Hf. unfold upd_blocks, upd_range.
    apply rwp_for_range; auto. intros i A a Hi (HR & HLa).
    destruct (blk_upd_col O N c Hc i (g i) (g' i) A a HR) as (A' & a' & E1 & E2 & R1); try lia.
    { intros; apply Hg; auto. }
    rewrite (get_nth _ a i 0) by lia. simpl. rewrite Hf by auto. simpl.
    exists A', a'. split; auto. split; auto. split; auto.
    unfold set in E2. destruct (_ <? _) in E2; [|discriminate]. injection E2 as <-. rewrite upd_length. auto.
  Qed.

  Lemma rwp_ldu_cols : forall P : Prec O, level_shape P -> forall Y y, colrel O N c Y y -> pm P <= length y ->
    rwp (prec_solve_ldu_mrhs O N (pU P) (pd P) (pL P) Y) (prec_solve_ldu O (pU P) (pd P) (pL P) y)
        (fun Y' y' => colrel O N c Y' y' /\ length y' = length y).
  Proof.
    intros P LS Y y HC HL. destruct (ls_L O P LS) as (WL & L1 & L2).
    destruct (ls_U O P LS) as (WU & U1 & U2). assert (Ld := ls_d O P LS).
    unfold prec_solve_ldu_mrhs, prec_solve_ldu. rewrite U2.
    destruct (Nat.eqb_spec (pm P) 0) as [Z|Z]; [apply rwp_ok; auto|].
    eapply rwp_bind with (R := fun Y' y' => colrel O N c Y' y' /\ length y' = length y).
    { unfold ccs_solve_strict_lower_mrhs, ccs_solve_strict_lower. apply rwp_for_range; auto.
      intros j Y1 y1 Hj (HR & HLr).
      destruct (ssolve_rel O N c Hc (pL P) WL (idT O) j Y1 y1) as (Y' & y' & E1 & E2 & HR' & HL'); auto; try lia.
      exists Y', y'. split; [exact E1|split; [exact E2|split; [exact HR'|lia]]]. }
    intros Y1 y1 (C1 & N1). eapply rwp_bind.
    { apply (rwp_upd_blocks Datatypes.O (pm P) _ (fun i _ a => tdiv O a (v_ (pd P) i)) _ Y1 y1 C1); [lia| |].
      - intros i k a Hi Hk. rewrite (get_nth _ (pd P) i 0) by lia. reflexivity.
      - intros i a Hi. rewrite (get_nth _ (pd P) i 0) by lia. reflexivity. }
    intros Y2 y2 (C2 & N2).
    unfold ccs_solve_strict_upper_mrhs, ccs_solve_strict_upper, down_from.
    assert (K : exists k, psize (pU P) = Datatypes.S k) by (exists (pred (pm P)); lia).
    destruct K as [k K]. rewrite K. apply rwp_for_down; [split; auto; lia|].
    intros j Y3 y3 Hj (HR & HLr).
    destruct (ssolve_rev_rel O N c Hc (pU P) WU (idT O) j Y3 y3) as (Y' & y' & E1 & E2 & HR' & HL'); auto; try lia.
    exists Y', y'. split; [exact E1|split; [exact E2|split; [exact HR'|lia]]].
  Qed.

  Lemma copy0 : forall (src : list T) so dst d, copy_range O src so 0 dst d = Ok dst.
  Proof. reflexivity. Qed.

  Lemma mrhs_full_level : forall P : Prec O, forall ld B b Y y W w,
    level_shape P -> pm P = pn P ->
    colrel O N c B b -> colrel O N c Y y -> colrel O N c W w ->
    length b = pn P -> length y = pn P -> pn P <= length w ->
    rwp (prec_solve_mrhs O N [P] B ld Y W) (prec_solve O [P] b ld y w)
        (fun R r => colrel O N c (fst R) (fst r) /\ length (fst r) = pn P).
  Proof.
    intros P ld B b Y y W w LS Em CB CY CW Lb Ly Lw.
    destruct (ls_p O P LS) as (Lp & _ & P1 & _). destruct (ls_q O P LS) as (_ & Lqi & _ & Q2).
    assert (Ls := ls_s O P LS). assert (Lt := ls_t O P LS).
    cbn [prec_solve_mrhs prec_solve]. rewrite (ls_Fc O P LS), Em, Nat.sub_diag. cbn [Nat.eqb negb].
    assert (LL : is_last_level O P = true).
    { unfold is_last_level. rewrite Em, Nat.eqb_refl. destruct (pdense P), (psymm P); auto. }
    rewrite LL. set (n := pn P) in *.
    assert (SB : forall i k, i < n -> k < N ->
      sc_perm_blk O N (ps P) (pp P) B i k = Ok (tmul O (v_ (ps P) (nth i (pp P) Datatypes.O)) (nth (nth i (pp P) Datatypes.O * N + k) B 0))).
    { intros i k Hi Hk. unfold sc_perm_blk. rewrite (get_nth _ (pp P) i Datatypes.O) by lia. cbn [bind].
      destruct (P1 i Hi) as [K _]. rewrite (get_nth _ (ps P) _ 0) by lia. cbn [bind].
      rewrite (get_nth _ B _ 0) by (apply (colrel_len O N c Hc B b _ k CB); lia). reflexivity. }
    eapply rwp_bind.
    { eapply (rwp_upd_blocks Datatypes.O n _ (fun i k _ => tmul O (v_ (ps P) (nth i (pp P) Datatypes.O)) (nth (nth i (pp P) Datatypes.O * N + k) B 0))); [exact CW|lia| |].
      - intros i k a Hi Hk. apply SB; lia.
      - intros i a Hi. unfold sc_perm. rewrite (get_nth _ (pp P) i Datatypes.O) by lia. cbn [bind].
        destruct (P1 i ltac:(lia)) as [K _]. rewrite (get_nth _ (ps P) _ 0) by lia. cbn [bind].
        rewrite (get_nth _ b _ 0) by lia. cbn [bind]. do 2 f_equal. symmetry. apply CB. lia. }
    intros W1 w1 (C1 & N1). cbn [bind].
    replace (length y - n) with Datatypes.O by lia. rewrite Nat.mul_0_l.
    rewrite !copy0. cbn [bind].
    eapply rwp_bind. { apply (rwp_ldu_cols P LS W1 w1 C1). lia. }
    intros W2 w2 (C2 & N2).
    eapply rwp_bind.
    { eapply (rwp_upd_blocks Datatypes.O n _ (fun i k _ => tmul O (v_ (pt P) i) (nth (nth i (pq_inv P) Datatypes.O * N + k) W2 0))); [exact CY|lia| |].
      - intros i k a Hi Hk. rewrite (get_nth _ (pt P) i 0) by lia. cbn [bind].
        rewrite (get_nth _ (pq_inv P) i Datatypes.O) by lia. cbn [bind].
        destruct (Q2 i ltac:(lia)) as [K _].
        rewrite (get_nth _ W2 _ 0) by (apply (colrel_len O N c Hc W2 w2 _ k C2); lia). reflexivity.
      - intros i a Hi. rewrite (get_nth _ (pt P) i 0) by lia. cbn [bind].
        rewrite (get_nth _ (pq_inv P) i Datatypes.O) by lia. cbn [bind].
        destruct (Q2 i ltac:(lia)) as [K _].
        rewrite (get_nth _ w2 _ 0) by lia. cbn [bind]. do 2 f_equal. symmetry. apply C2. lia. }
    intros Y3 y3 (C3 & N3). apply rwp_ok. simpl. split; auto. lia.
  Qed.
End MP.
