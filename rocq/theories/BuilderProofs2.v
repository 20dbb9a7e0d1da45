(** * BuilderProofs2: exact-arithmetic facts on refinement, bounded refinement,
    the constant filter and the queries. *)
From Coq Require Import List Arith Lia Bool Ring.
From Verif Require Import Base Scalar Spec CSModel PrecModel PrecSpec PrecProofs MrhsProofs StaleProofs
  BuilderModel BuilderSpec BuilderProofs.
Import ListNotations.

(** ** Refinement in exact arithmetic *)
Section RM.
  Variable O : Ops.
  Hypothesis RL : RingLaws O.
  Notation T := (T O).
  Infix "+" := (tadd O). Infix "*" := (tmul O). Infix "-" := (tsub O).
  Add Ring TB : (rl_ring O RL).

  Lemma mvec_sub : forall n (A : nat -> nat -> T) x y i,
    mvec n A (fun j => x j - y j) i = mvec n A x i - mvec n A y i.
  Proof. intros. unfold mvec. rewrite <- sum_sub by auto. apply sum_ext. intros. ring. Qed.
  Lemma mvec_zero : forall n (A : nat -> nat -> T) i, mvec n A (fun _ => t0 O) i = t0 O.
  Proof. intros. unfold mvec. apply sum_zero; auto. intros. ring. Qed.
  Lemma mvec_ext : forall n (A : nat -> nat -> T) x y i, veq n x y -> mvec n A x i = mvec n A y i.
  Proof. intros. unfold mvec. apply sum_ext. intros. now rewrite H. Qed.

  Section It.
    Variables (n : nat) (Sv Av : list T -> res (list T)) (M A : nat -> nat -> T) (b : list T).
    Hypothesis HA : applies n Av A.
    Hypothesis HS : solves n Sv M.
    Hypothesis Lb : length b = n.
    Variable plus : T -> T -> T.
    Hypothesis Hplus : forall x y, plus x y = x + y.

    Lemma v_zeros : forall k i, v_ (zeros O k) i = t0 O.
    Proof.
      intros. unfold v_, zeros. destruct (Nat.lt_ge_cases i k).
      - now apply nth_repeat_any.
      - apply nth_overflow. now rewrite repeat_length.
    Qed.

    Lemma refine_step : forall k, exists x x',
      refine O Sv Av plus b k = Ok x /\ refine O Sv Av plus b (S k) = Ok x' /\
      length x = n /\ length x' = n /\ (k = Datatypes.O -> x = zeros O n) /\
      veq n (mvec n M (fun i => v_ x' i - v_ x i)) (fun i => v_ b i - mvec n A (v_ x) i).
    Proof.
      assert (G : forall k x, refine O Sv Av plus b k = Ok x -> length x = n ->
        (k = Datatypes.O -> x = zeros O n) ->
        exists x', refine O Sv Av plus b (S k) = Ok x' /\ length x' = n /\
        veq n (mvec n M (fun i => v_ x' i - v_ x i)) (fun i => v_ b i - mvec n A (v_ x) i)).
      { intros k x E Lx H0. cbn [refine]. rewrite E. cbn [bind].
        assert (K : exists r, residual O Av b k x = Ok r /\ length r = n /\
                    veq n (v_ r) (fun i => v_ b i - mvec n A (v_ x) i)).
        { destruct k.
          - exists b. split; [reflexivity|]. split; auto. intros i Hi. rewrite (H0 eq_refl).
            rewrite (mvec_ext n A _ (fun _ => t0 O)) by (intros j Hj; apply v_zeros).
            rewrite mvec_zero. ring.
          - cbn [residual]. destruct (HA x Lx) as (y & Ey & Ly & Vy). rewrite Ey. cbn [bind].
            eexists; split; [reflexivity|]. split. { rewrite vmap2_length; lia. }
            intros i Hi. unfold v_ at 1. rewrite nth_vmap2 by lia. fold (v_ b i) (v_ y i). now rewrite Vy. }
        destruct K as (r & Er & Lr & Vr). rewrite Er. cbn [bind].
        destruct (HS r Lr) as (z & Ez & Lz & Vz). rewrite Ez. cbn [bind].
        eexists; split; [reflexivity|]. split. { rewrite vmap2_length; lia. }
        intros i Hi. rewrite <- Vr, <- Vz by auto. apply mvec_ext. intros j Hj.
        unfold v_ at 1. rewrite nth_vmap2 by lia. rewrite Hplus. fold (v_ z j) (v_ x j). ring. }
      assert (L : forall k, exists x, refine O Sv Av plus b k = Ok x /\ length x = n /\ (k = Datatypes.O -> x = zeros O n)).
      { induction k.
        - exists (zeros O n). cbn [refine]. rewrite Lb. repeat split; auto. apply zeros_length.
        - destruct IHk as (x & E & Lx & H0). destruct (G k x E Lx H0) as (x' & E' & Lx' & _).
          exists x'. repeat split; auto. discriminate. }
      intros k. destruct (L k) as (x & E & Lx & H0). destruct (G k x E Lx H0) as (x' & E' & Lx' & V).
      exists x, x'. auto 10.
    Qed.

    (** error recursion *)
    Lemma refine_error : forall xs, veq n (mvec n A xs) (v_ b) -> forall k x x',
      refine O Sv Av plus b k = Ok x -> refine O Sv Av plus b (S k) = Ok x' ->
      veq n (mvec n M (fun i => xs i - v_ x' i)) (mvec n (msub M A) (fun i => xs i - v_ x i)).
    Proof.
      intros xs Hxs k x x' E E'. destruct (refine_step k) as (y & y' & F & F' & _ & _ & _ & V).
      assert (y = x) by congruence. assert (y' = x') by congruence. subst y y'.
      intros i Hi. specialize (V i Hi). cbv beta in V.
      assert (M2 : mvec n (msub M A) (fun j => xs j - v_ x j) i
                 = mvec n M (fun j => xs j - v_ x j) i - mvec n A (fun j => xs j - v_ x j) i).
      { unfold mvec, msub. rewrite <- sum_sub by auto. apply sum_ext. intros. ring. }
      rewrite M2, !mvec_sub, (Hxs i Hi). rewrite mvec_sub in V.
      rewrite <- V. ring.
    Qed.

    Lemma refine_exact : (forall v, veq n (mvec n M v) (mvec n A v)) -> forall k x,
      refine O Sv Av plus b (S k) = Ok x -> veq n (mvec n A (v_ x)) (v_ b).
    Proof.
      intros HMA k x E. destruct (refine_step k) as (y & y' & F & F' & _ & _ & _ & V).
      assert (y' = x) by congruence. subst y'. intros i Hi. specialize (V i Hi). cbv beta in V.
      rewrite mvec_sub, !HMA in V by auto.
      transitivity (mvec n A (v_ x) i - mvec n A (v_ y) i + mvec n A (v_ y) i); [ring|].
      rewrite V. ring.
    Qed.
  End It.
End RM.

(** A hierarchy without filter solves with its matrix. *)
Lemma spec_solve_solves : forall O, FieldLaws O -> forall (a : Abs O) ld n M, hier_ok ld (aprecs a) n ->
  prec_matrix ld (aprecs a) M -> ansp a = None ->
  solves n (spec_solve O a false ld) M.
Proof.
  intros O FL a ld n M H HM HN b Lb. unfold spec_solve.
  destruct (aprecs a) as [|P rest] eqn:EP; [contradiction|]. set (pr := P :: rest) in *.
  destruct (wp_inv _ _ _ (prec_solve_wp O FL pr n ld M b (zeros O (length b)) (zeros O (compute_prec_work_space O pr))
     H HM Lb ltac:(now rewrite zeros_length) ltac:(rewrite zeros_length; auto))) as ([x w'] & E & Lx & _ & V).
  rewrite E. simpl. rewrite HN. simpl. eauto.
Qed.

(** ** Bounded refinement *)
Section BR.
  Variable O : Ops.
  Notation T := (T O).
  Variable mulA : bool -> list T -> list T -> res (list T).
  Variable D : Type.
  Variable nrm : list T -> D.
  Variable ddiv : D -> D -> D.
  Variables is0 le_lo gt_hi : D -> bool.
  Variable a : Abs O.
  Variables (b : list T) (tran : bool) (ld N : nat) (bnorm : D) (junk : nat -> T).
  Hypothesis Na : aprecs a <> [].
  Hypothesis Sz : asz a = Some (length b, length b).
  Hypothesis MG : mul_good O mulA tran (length b).
  Let Sv := spec_solve O a tran ld.
  Let Av := fun v => mulA tran v v.
  Let plus := fun z x => tadd O x z.
  Notation iter := (refine O Sv Av plus b).
  Notation relres := (relres O mulA D nrm ddiv b tran bnorm).
  Notation truthful := (truthful O mulA D nrm ddiv le_lo gt_hi a b tran ld N bnorm).

  Lemma irb_loop_step : forall fuel s x iters,
    Rel O s a -> length x = length b -> length (hxk s) = length b -> length (hr s) = length b ->
    iter iters = Ok x -> residual O Av b iters x = Ok (hr s) -> iters < N -> fuel = N - iters ->
    (forall k, 1 <= k <= iters -> exists y d, iter k = Ok y /\ relres y = Ok d /\ le_lo d = false /\ gt_hi d = false) ->
    (exists s' z it flag, irb_loop O mulA D nrm ddiv le_lo gt_hi junk fuel s b x bnorm tran ld N iters = Ret s' (z, it, flag)
       /\ truthful z it flag /\ length z = length b /\ Rel O s' a) \/
    (exists s' k, irb_loop O mulA D nrm ddiv le_lo gt_hi junk fuel s b x bnorm tran ld N iters = Throw s'
       /\ k <= N /\ iter k = Err /\ Rel O s' a).
  Proof.
    induction fuel; intros s x iters R Lx Lk Lr Ex Er Hi Hf Hp; [lia|].
    cbn [irb_loop].
    assert (Sz' : asz a = Some (length (hr s), length (hr s))) by now rewrite Lr.
    destruct (solve_step O s a junk (hr s) (hxk s) tran ld R Na Sz') as
      [(s' & z & S1 & S2 & Lz & R' & H1 & H2)|(s' & S1 & S2 & R')]; [lia| |].
    2:{ right. exists s', (S iters). rewrite S1. split; [reflexivity|]. split; [lia|]. split; auto.
        cbn [refine]. rewrite Ex. cbn [bind]. rewrite Er. cbn [bind]. unfold Sv. rewrite S2. reflexivity. }
    rewrite S1. cbv zeta. cbn [with_ir].
    assert (ZU : forall f, zip_upd O (length b) f z x = Ok (vmap2 O f z x)).
    { intros. replace (length b) with (length z) by lia. apply zip_upd_ok. lia. }
    rewrite ZU. cbn [lift].
    assert (E' : iter (S iters) = Ok (vmap2 O plus z x)).
    { cbn [refine]. rewrite Ex. cbn [bind]. rewrite Er. cbn [bind]. unfold Sv. rewrite S2. reflexivity. }
    change (fun a0 b0 : T => tadd O b0 a0) with plus.
    set (x' := vmap2 O plus z x) in *.
    assert (Lx' : length x' = length b) by (unfold x'; rewrite vmap2_length; lia).
    destruct (Nat.leb_spec N (S iters)).
    - left. exists (with_ir O s' z (hr s')), x', (S iters), None. split; [reflexivity|].
      split. { split; [lia|]. split; [exact E'|]. split; [|lia]. intros k Hk. apply Hp. lia. }
      split; auto. now apply Rel_with_ir.
    - destruct (MG x' z Lx' ltac:(lia)) as (y & Ey & Ey' & Ly). rewrite Ey. cbn [lift].
      assert (Lr' : length (hr s') = length b) by (rewrite H2; lia).
      change (hr (with_ir O s' z (hr s'))) with (hr s').
      assert (AL : for_range 0 (length b) (fun j r => bj <- get b j ;; aj <- get y j ;; set r j (tsub O bj aj)) (hr s')
                   = Ok (vmap2 O (tsub O) b y)).
      { replace (length b) with (length y) by lia. apply (add_loop_ok O (tsub O) b y (hr s')); lia. }
      rewrite AL. cbn [lift].
      assert (RS : forall j, residual O Av b (S j) x' = Ok (vmap2 O (tsub O) b y)).
      { intros. cbn [residual]. unfold Av. rewrite Ey'. reflexivity. }
      assert (RR : relres x' = Ok (ddiv (nrm (vmap2 O (tsub O) b y)) bnorm)).
      { unfold BuilderSpec.relres. rewrite RS. reflexivity. }
      set (d := ddiv (nrm (vmap2 O (tsub O) b y)) bnorm) in *.
      destruct (le_lo d) eqn:LO; [|destruct (gt_hi d) eqn:GH].
      + left. eexists _, x', (S iters), (Some true). split; [reflexivity|]. split.
        { split; [lia|]. split; [exact E'|]. split; [intros k Hk; apply Hp; lia|]. split; eauto. }
        split; auto. unfold with_ir; simpl. apply (Rel_with_ir O s' a). auto.
      + left. eexists _, x', (S iters), (Some false). split; [reflexivity|]. split.
        { split; [lia|]. split; [exact E'|]. split; [intros k Hk; apply Hp; lia|]. split; eauto. }
        split; auto. unfold with_ir; simpl. apply (Rel_with_ir O s' a). auto.
      + unfold with_ir; cbn [hprecs hwork hsz hnsp hnspt].
        apply IHfuel.
        * apply (Rel_with_ir O s' a). auto.
        * auto.
        * simpl; lia.
        * simpl. rewrite vmap2_length; lia.
        * auto.
        * apply RS.
        * lia.
        * lia.
        * intros k Hk. destruct (Nat.eq_dec k (S iters)); [subst k; eauto 8|apply Hp; lia].
  Qed.
End BR.

Lemma hifir_bounded_step : forall O mulA D nrm ddiv is0 le_lo gt_hi (s : HIF O) a junk b N x tran ld,
  Rel O s a -> aprecs a <> [] -> 1 < N -> 0 < length b ->
  asz a = Some (length b, length b) -> length x = length b -> mul_good O mulA tran (length b) ->
  is0 (nrm b) = false ->
  (exists s' z it flag, hifir_bounded O mulA D nrm ddiv is0 le_lo gt_hi junk s b N x tran ld = Ret s' (z, it, flag)
     /\ truthful O mulA D nrm ddiv le_lo gt_hi a b tran ld N (nrm b) z it flag /\ length z = length b) \/
  (exists s' k, hifir_bounded O mulA D nrm ddiv is0 le_lo gt_hi junk s b N x tran ld = Throw s'
     /\ k <= N /\ refine O (spec_solve O a tran ld) (fun v => mulA tran v v) (fun z x => tadd O x z) b k = Err).
Proof.
  intros O mulA D nrm ddiv is0 le_lo gt_hi s a junk b N x tran ld R Na HN Hb Sz Lx MG H0.
  unfold hifir_bounded. rewrite (proj2 (Nat.leb_gt _ _)) by auto. rewrite H0.
  rewrite (R_sz O s a R), Sz. unfold ir_init. rewrite (proj2 (Nat.eqb_neq _ _)) by lia.
  cbn [hr hxk]. rewrite copy_all by (rewrite fresh_length; auto). cbn [lift with_ir hprecs hwork hsz hnsp hnspt hxk].
  destruct (irb_loop_step O mulA D nrm ddiv le_lo gt_hi a b tran ld N (nrm b) junk Na Sz MG N
    (with_ir O (mkHIF (hprecs s) (hwork s) (hsz s) (hnsp s) (hnspt s) (fresh O junk (length b)) (fresh O junk (length b)))
       (fresh O junk (length b)) b) (repeat (t0 O) (length x)) 0) as [(s' & z & it & flag & E & Tr & L & _)|(s' & k & E & K & F & _)];
    try (simpl; rewrite ?repeat_length, ?fresh_length; auto; lia).
  - apply (Rel_with_ir O s a). auto.
  - simpl. now rewrite Lx.
  - left. exists s', z, it, flag. auto.
  - right. exists s', k. auto.
Qed.

(** ** The constant filter *)
Section CF.
  Variable O : Ops.
  Hypothesis FL : FieldLaws O.
  Let RL := fl_ring O FL.
  Notation T := (T O).
  Infix "+" := (tadd O). Infix "*" := (tmul O). Infix "-" := (tsub O). Infix "/" := (tdiv O).
  Add Ring TC : (rl_ring O RL).

  Notation range_sum := (range_sum O).
  Notation projected := (projected O).

  Lemma range_sum_S : forall lo hi x, (lo <= hi)%nat -> range_sum lo (S hi) x = range_sum lo hi x + v_ x hi.
  Proof.
    intros. unfold BuilderSpec.range_sum. rewrite Nat.sub_succ_l by auto. simpl.
    do 2 f_equal. lia.
  Qed.

  Lemma accumulate_ok : forall start stop x, (start <= stop)%nat -> (stop <= length x)%nat ->
    for_range start stop (fun i a => v <- get x i ;; Ok (a + v)) (t0 O) = Ok (range_sum start stop x).
  Proof.
    intros start stop x H1 H2.
    assert (W : wp (for_range start stop (fun i a => v <- get x i ;; Ok (a + v)) (t0 O))
                   (fun v => v = range_sum start stop x)).
    { apply (for_range_inv _ (fun k v => v = range_sum start k x)); auto.
      - unfold BuilderSpec.range_sum. now rewrite Nat.sub_diag.
      - intros i v Hi ->. wpb. apply (wp_get _ _ _ (t0 O)); [lia|]. simpl.
        rewrite range_sum_S by lia. reflexivity. }
    destruct (wp_inv _ _ _ W) as (v & -> & ->). auto.
  Qed.

  Lemma sum_sub_const : forall n (f : nat -> T) c, sum n (fun i => f i - c) = sum n f - c * of_nat O n.
  Proof. induction n; simpl; intros. ring. rewrite IHn. ring. Qed.

  Lemma const_filter_ok : forall start stop (x : list T),
    let e := match stop with None => length x | Some e => if e <? start then length x else e end in
    (start <= e)%nat -> (e <= length x)%nat ->
    ((start < e)%nat -> of_nat O (Nat.sub e start) <> t0 O) ->
    exists y, const_filter O start stop x = Ok y /\ projected start e x y /\
      (range_sum start e x = t0 O -> y = x).
  Proof.
    intros start stop x e H1 H2 HC. unfold const_filter. fold e.
    rewrite (proj2 (Nat.ltb_ge e start)), (proj2 (Nat.ltb_ge (length x) e)) by lia. simpl.
    destruct (Nat.eqb_spec start e).
    - exists x. split; auto. split; auto. split; auto. split; auto. split.
      + unfold BuilderSpec.range_sum. replace (Nat.sub e start) with Datatypes.O by lia. reflexivity.
      + exists (t0 O). intros; lia.
    - rewrite accumulate_ok by lia. cbn [bind].
      set (sh := range_sum start e x / of_nat O (Nat.sub e start)).
      assert (W : wp (for_range start e (fun i x => v <- get x i ;; set x i (v - sh)) x)
        (fun y => length y = length x /\ forall i, v_ y i = if (start <=? i) && (i <? e) then v_ x i - sh else v_ x i)).
      { apply (for_range_inv _ (fun k y => length y = length x /\
            forall i, v_ y i = if (start <=? i) && (i <? k) then v_ x i - sh else v_ x i)).
        - lia.
        - split; auto. intros i. destruct (Nat.leb_spec start i), (Nat.ltb_spec i start); auto; lia.
        - intros k y Hk [Ly H]. wpb. apply (wp_get _ _ _ (t0 O)); [lia|].
          apply wp_set; [lia|]. split. { now rewrite upd_length. }
          intros i. unfold v_ at 1. rewrite nth_upd by lia. fold (v_ y i) (v_ y k). rewrite !H.
          destruct (Nat.eqb_spec i k).
          + subst. rewrite (proj2 (Nat.leb_le start k)), (proj2 (Nat.ltb_ge k k)), (proj2 (Nat.ltb_lt k (S k))) by lia. reflexivity.
          + destruct (Nat.leb_spec start i), (Nat.ltb_spec i k), (Nat.ltb_spec i (S k)); auto; lia. }
      destruct (wp_inv _ _ _ W) as (y & E & Ly & Hy). exists y. split; auto.
      assert (P : projected start e x y).
      { split; auto. split.
        { intros i Hi. rewrite Hy. destruct (Nat.leb_spec start i), (Nat.ltb_spec i e); auto; lia. }
        split.
        - unfold BuilderSpec.range_sum. rewrite (sum_ext _ _ _ (fun i => v_ x (Nat.add start i) - sh)).
          + rewrite sum_sub_const. fold (range_sum start e x). unfold sh.
            rewrite (div_mul O FL) by (apply HC; lia). ring.
          + intros i Hi. rewrite Hy. rewrite (proj2 (Nat.leb_le _ _)), (proj2 (Nat.ltb_lt _ _)) by lia. reflexivity.
        - exists sh. intros i Hi. rewrite Hy. now rewrite (proj2 (Nat.leb_le _ _)), (proj2 (Nat.ltb_lt _ _)) by lia. }
      split; auto. intros Z.
      assert (S0 : sh = t0 O). { unfold sh. rewrite Z, (fl_div O FL). ring. }
      apply (list_ext _ _ _ (t0 O)); auto. intros i Hi. fold (v_ y i) (v_ x i). rewrite Hy, S0.
      destruct ((start <=? i) && (i <? e)); auto. ring.
  Qed.
End CF.

(** The constant filter never leaves the vector (no law). *)
Lemma const_filter_good : forall O start stop, filter_good O (Some (@NspConst O start stop)).
Proof.
  intros O start stop x. cbn [opt_filter nsp_filter]. unfold const_filter.
  set (e := match stop with None => length x | Some e => if e <? start then length x else e end).
  destruct (Nat.ltb_spec e start); simpl; auto.
  destruct (Nat.ltb_spec (length x) e); simpl; auto.
  destruct (Nat.eqb_spec start e); [right; eauto|].
  right.
  assert (W : wp (for_range start e (fun i a => v <- get x i ;; Ok (tadd O a v)) (t0 O)) (fun _ => True)).
  { apply (for_range_inv _ (fun _ _ => True)); auto. intros i a Hi _. wpb. apply (wp_get _ _ _ (t0 O)); [lia|exact I]. }
  destruct (wp_inv _ _ _ W) as (acc & -> & _). cbn [bind].
  assert (V : wp (for_range start e (fun i x => v <- get x i ;; set x i (tsub O v (tdiv O acc (of_nat O (e - start))))) x)
    (fun y => length y = length x)).
  { apply (for_range_inv _ (fun _ y => length y = length x)); auto. intros i y Hi L. wpb. apply (wp_get _ _ _ (t0 O)); [lia|].
    apply wp_set; [lia|]. now rewrite upd_length. }
  destruct (wp_inv _ _ _ V) as (y & -> & L). eauto.
Qed.

(** ** Queries *)
Section QP.
  Variable O : Ops.

  Lemma fold_add : forall (f : Prec O -> nat) l acc, fold_left (fun a P => a + f P) l acc = acc + list_sum (map f l).
  Proof. induction l; simpl; intros; [lia|]. rewrite IHl. lia. Qed.

  Lemma nnz_ef_le : forall P : Prec O, prec_nnz_ef O P <= prec_nnz O P.
  Proof. intros. unfold prec_nnz. cbv zeta. generalize ((pn P - pm P) * (pn P - pm P)). intros. destruct (pdense P), (psymm P); lia. Qed.

  Lemma nnz_sum : forall s : HIF O, hif_nnz O s = list_sum (map (prec_nnz O) (hprecs s)).
  Proof. intros. unfold hif_nnz. apply fold_add. Qed.

  Lemma nnz_ldu_ok : forall s : HIF O, exists k, hif_nnz_ldu O s = Ok k /\ k + hif_nnz_ef O s = hif_nnz O s.
  Proof.
    intros s. unfold hif_nnz_ldu. assert (hif_nnz_ef O s <= hif_nnz O s).
    { unfold hif_nnz_ef. rewrite nnz_sum, fold_add. simpl.
      induction (hprecs s); simpl; auto. pose proof (nnz_ef_le a). lia. }
    rewrite (proj2 (Nat.ltb_ge _ _)) by auto. eexists; split; [reflexivity|]. lia.
  Qed.

  Lemma hier_sizes_last : forall precs n, hier_sizes O precs n ->
    exists pre P, precs = pre ++ [P] /\ is_last_level O P = true /\ pm P <= pn P /\ last_rank O P <= pn P - pm P /\
      list_sum (map pm precs) + (pn P - pm P) = n.
  Proof.
    induction precs as [|P rest IH]; intros n H; [contradiction|].
    destruct H as (H1 & H2 & H3). destruct (is_last_level O P) eqn:E.
    - destruct H3 as [-> H3]. exists [], P. simpl. repeat split; auto. lia.
    - destruct (IH _ H3) as (pre & Q & -> & A & B & C & D). exists (P :: pre), Q. simpl.
      repeat split; auto. lia.
  Qed.

  Lemma rank_ok : forall (s : HIF O) n, hier_sizes O (hprecs s) n -> hsz s = Some (n, n) ->
    hif_rank O s = Ok (list_sum (map pm (hprecs s)) + hif_schur_rank O s) /\
    list_sum (map pm (hprecs s)) + hif_schur_size O s = n /\
    hif_schur_rank O s <= hif_schur_size O s.
  Proof.
    intros s n H Sz. destruct (hier_sizes_last _ _ H) as (pre & P & E & A & B & C & D).
    unfold hif_rank, hif_schur_rank, hif_schur_size, last_prec, hif_nrows, hif_ncols. rewrite Sz.
    rewrite E, rev_unit in *. cbn [bind]. unfold usub.
    rewrite (proj2 (Nat.ltb_ge _ _)) by lia. cbn [bind].
    rewrite (proj2 (Nat.ltb_ge _ _)) by lia. cbn [bind].
    rewrite Nat.min_id. rewrite (proj2 (Nat.ltb_ge _ _)) by lia. split; [f_equal; lia|]. split; lia.
  Qed.

  Lemma prec_at_ok : forall (s : HIF O) k, k < length (hprecs s) -> exists P, prec_at O s k = Ok P.
  Proof.
    intros s k H. unfold prec_at, levels.
    assert (K : k < match rev (hprecs s) with [] => 0 | last :: _ => length (hprecs s) + some_n (pdense last) + some_n (psymm last) end).
    { destruct (rev (hprecs s)) eqn:E; [|lia]. apply (f_equal (@length _)) in E. rewrite rev_length in E. simpl in E. lia. }
    rewrite (proj2 (Nat.leb_gt _ _)) by auto.
    unfold get. destruct (nth_error (hprecs s) k) eqn:E; eauto. apply nth_error_None in E. lia.
  Qed.
End QP.
