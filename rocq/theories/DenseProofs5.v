(** * DenseProofs5: solving and multiplying with the eigenvalue solver; LU. *)
From Coq Require Import List Arith Lia Bool QArith Qabs Permutation Ring.
From Verif Require Import Base Scalar Spec VecProofs DenseModel DenseSpec DenseProofs1 DenseProofs2 DenseProofs3 DenseProofs4.
Import ListNotations.
Local Open Scope nat_scope.
Local Arguments bind {A B} !m f /.

Section SyA.
  Variable O : Ops.
  Notation T := (T O).
  Variable is0 : T -> bool.
  Variable inj : Q -> T.
  Variable gemv : bool -> list T -> list T.
  Notation "0" := (t0 O).
  Infix "+" := (tadd O). Infix "*" := (tmul O). Infix "-" := (tsub O).
  Notation "x ^*" := (tconj O x) (at level 30).

  Lemma core_wp : forall (s : SY) (div : bool) n rk x, s_n s = n -> length (s_w s) = n -> Permutation (seq 0 n) (s_order s) -> rk <= n ->
    length x = n -> (forall b v, length v = n -> length (gemv b v) = n) ->
    (div = true -> forall k, kept (s_order s) rk k -> is0 (inj (nth k (s_w s) 0%Q)) = false) ->
    wp (sy_core O is0 inj gemv s div rk x) (fun z => exists y, z = gemv false y /\ length y = n /\
      forall i, i < n -> let k := nth i (s_order s) Datatypes.O in
        v_ y k = if i <? rk then (if div then tdiv O (v_ (gemv true x) k) (inj (nth k (s_w s) 0%Q)) else v_ (gemv true x) k * inj (nth k (s_w s) 0%Q)) else 0).
  Proof.
    intros s div n rk x Hn Lw P Hr Lx HG HD. unfold sy_core. rewrite Hn.
    pose proof (proj2 (is_perm_Permutation n (s_order s)) P) as (LP & RP & IP).
    set (order := s_order s) in *. set (W := gemv true x). assert (LW : length W = n) by (apply HG; auto).
    wpb. eapply wp_conseq; [apply (for_range_inv _ (fun q y => length y = n /\ (forall i, i < n -> let k := nth i order Datatypes.O in
      v_ y k = if i <? q then (if div then tdiv O (v_ W k) (inj (nth k (s_w s) 0%Q)) else v_ W k * inj (nth k (s_w s) 0%Q)) else v_ W k))); [lia| |]|].
    - split; auto.
    - intros i y Hi (Ly & Hy). wpb. apply (wp_get _ _ _ Datatypes.O); [lia|]. pose proof (RP i ltac:(lia)) as Rk. set (k := nth i order Datatypes.O) in *.
      wpb. apply (wp_get _ _ _ 0); [lia|]. fold (v_ y k). wpb. apply (wp_get _ _ _ 0%Q); [lia|].
      assert (EK : v_ y k = v_ W k). { specialize (Hy i ltac:(lia)). cbn zeta in Hy. fold k in Hy. rewrite Hy. destruct (Nat.ltb_spec i i); auto; lia. }
      wpb. assert (E : (if div then divz O is0 (v_ y k) (inj (nth k (s_w s) 0%Q)) else Ok (v_ y k * inj (nth k (s_w s) 0%Q))) =
        Ok (if div then tdiv O (v_ W k) (inj (nth k (s_w s) 0%Q)) else v_ W k * inj (nth k (s_w s) 0%Q))).
      { rewrite EK. destruct div; auto. unfold divz. rewrite HD; auto. exists i. split; auto. lia. }
      rewrite E. cbn [wp]. apply wp_set; [lia|]. split; [rewrite upd_length; auto|].
      intros j Hj. cbn zeta. rewrite upd_v by lia. destruct (Nat.eqb_spec (nth j order Datatypes.O) k) as [Q|N].
      + apply IP in Q; try lia. subst j. destruct (Nat.ltb_spec i (S i)); [|lia]. auto.
      + specialize (Hy j Hj). cbn zeta in Hy. rewrite Hy. destruct (Nat.ltb_spec j i), (Nat.ltb_spec j (S i)); auto; try lia. exfalso. apply N. unfold k. f_equal. lia.
    - intros y (Ly & Hy). wpb.
      eapply wp_conseq; [apply (for_range_inv _ (fun q y' => length y' = n /\ (forall i, i < n -> let k := nth i order Datatypes.O in
        v_ y' k = if (rk <=? i) && (i <? q) then 0 else v_ y k))); [lia| |]|].
      + split; auto. intros i Hi. cbn zeta. destruct (Nat.leb_spec rk i), (Nat.ltb_spec i rk); auto; lia.
      + intros i y' Hi (Ly' & Hy'). wpb. apply (wp_get _ _ _ Datatypes.O); [lia|]. pose proof (RP i ltac:(lia)) as Rk. apply wp_set; [lia|].
        split; [rewrite upd_length; auto|]. intros j Hj. cbn zeta. rewrite upd_v by lia. destruct (Nat.eqb_spec (nth j order Datatypes.O) (nth i order Datatypes.O)) as [Q|N].
        * apply IP in Q; try lia. subst j. destruct (Nat.leb_spec rk i), (Nat.ltb_spec i (S i)); auto; lia.
        * specialize (Hy' j Hj). cbn zeta in Hy'. rewrite Hy'. destruct (Nat.leb_spec rk j), (Nat.ltb_spec j i), (Nat.ltb_spec j (S i)); auto; try lia. exfalso. apply N. f_equal. lia.
      + intros y' (Ly' & Hy'). cbn [wp]. exists y'. split; auto. split; auto. intros i Hi. cbn zeta. specialize (Hy i Hi). specialize (Hy' i Hi). cbn zeta in Hy, Hy'.
        rewrite Hy', Hy. destruct (Nat.leb_spec rk i), (Nat.ltb_spec i n), (Nat.ltb_spec i rk); auto; lia.
  Qed.

  Section Alg.
    Hypothesis RL : RingLaws O.
    Add Ring TR5 : (rl_ring O RL).
    Variables (n : nat) (A V : nat -> nat -> T) (w : list Q).
    Hypothesis SV : syev_ok inj n A w V gemv.

    Lemma coord_of : forall (y : nat -> T) k, k < n -> eig_coord n V k (fun i => sum n (fun j => V i j * y j)) = y k.
    Proof.
      intros y k Hk. unfold eig_coord. destruct SV as [S1 S2 S3 S4 S5 S6 S7].
      transitivity (sum n (fun j => mid k j * y j)).
      { transitivity (sum n (fun i => sum n (fun j => (V i k)^* * V i j * y j))).
        { apply sum_ext. intros i Hi. rewrite <- (sum_scal_l O RL). apply sum_ext. intros; ring. }
        rewrite (sum_swap O RL). apply sum_ext. intros j Hj. rewrite (sum_scal_r O RL). rewrite S3 by lia. auto. }
      rewrite (sum_one_nz O RL n k); auto; unfold mid; [rewrite Nat.eqb_refl; ring|]. intros j Hj N. destruct (Nat.eqb_spec k j); [congruence|ring].
    Qed.
    Lemma coord_ext : forall x y k, (forall i, i < n -> x i = y i) -> eig_coord n V k x = eig_coord n V k y.
    Proof. intros. unfold eig_coord. apply sum_ext. intros. now rewrite H. Qed.
    (** A vector is determined by its coordinates. *)
    Lemma coord_inj : forall x y, (forall k, k < n -> eig_coord n V k x = eig_coord n V k y) -> forall i, i < n -> x i = y i.
    Proof.
      intros x y H i Hi. destruct SV as [S1 S2 S3 S4 S5 S6 S7].
      assert (B : forall x, sum n (fun k => V i k * eig_coord n V k x) = x i).
      { intros b. unfold eig_coord. transitivity (sum n (fun k => mid i k * b k)).
        { transitivity (sum n (fun l => sum n (fun k => V i l * (V k l)^* * b k))).
          { apply sum_ext. intros l Hl. rewrite <- (sum_scal_l O RL). apply sum_ext. intros; ring. }
          rewrite (sum_swap O RL). apply sum_ext. intros k Hk. rewrite (sum_scal_r O RL). rewrite S4 by lia. auto. }
        rewrite (sum_one_nz O RL n i); auto; unfold mid; [rewrite Nat.eqb_refl; ring|]. intros k Hk N. destruct (Nat.eqb_spec i k); [congruence|ring]. }
      rewrite <- (B x), <- (B y). apply sum_ext. intros k Hk. now rewrite H.
    Qed.
    Lemma coord_A : forall x k, k < n -> eig_coord n V k (mvec n A x) = inj (nth k w 0%Q) * eig_coord n V k x.
    Proof.
      intros x k Hk. pose proof SV as [S1 S2 S3 S4 S5 S6 S7].
      transitivity (eig_coord n V k (fun i => sum n (fun j => V i j * (inj (nth j w 0%Q) * eig_coord n V j x)))).
      - apply coord_ext. intros i Hi. unfold mvec, eig_coord.
        transitivity (sum n (fun j => sum n (fun l => V i l * inj (nth l w 0%Q) * ((V j l)^* * x j)))).
        { apply sum_ext. intros j Hj. rewrite S2 by auto. rewrite <- (sum_scal_r O RL). apply sum_ext. intros; ring. }
        rewrite (sum_swap O RL). apply sum_ext. intros l Hl. rewrite (sum_scal_l O RL). ring.
      - now apply coord_of.
    Qed.
  End Alg.

  Lemma sy_apply_len : forall (s : SY) (div : bool) n x rank, 1 <= n -> s_n s = n -> length (s_w s) = n -> Permutation (seq 0 n) (s_order s) ->
    use_rank n rank (s_rank s) <= n -> length x = n -> (forall b v, length v = n -> length (gemv b v) = n) ->
    (div = true -> forall k, kept (s_order s) (use_rank n rank (s_rank s)) k -> is0 (inj (nth k (s_w s) 0%Q)) = false) ->
    exists z y, sy_apply O is0 inj gemv s div x rank = Ok z /\ length z = n /\ z = gemv false y /\ length y = n /\
      forall i, i < n -> let k := nth i (s_order s) Datatypes.O in
        v_ y k = if i <? use_rank n rank (s_rank s) then (if div then tdiv O (v_ (gemv true x) k) (inj (nth k (s_w s) 0%Q)) else v_ (gemv true x) k * inj (nth k (s_w s) 0%Q)) else 0.
  Proof.
    intros s div n x rank H1 Hn Lw P Hr Lx HG HD. unfold sy_apply. rewrite Hn, Lw. destruct (Nat.eqb_spec n Datatypes.O); [lia|]. cbn [orb].
    rewrite (proj2 (Nat.eqb_eq _ _) Lx). cbn [negb]. pose proof (core_wp s div n _ x Hn Lw P Hr Lx HG HD) as W. apply wp_inv in W.
    destruct W as (z & E & y & -> & Ly & Hy). exists (gemv false y), y. split; auto.
  Qed.

  Lemma sy_exact : forall (s : SY) (div : bool) n A V x rank, 1 <= n -> s_n s = n -> Permutation (seq 0 n) (s_order s) ->
    syev_ok inj n A (s_w s) V gemv -> use_rank n rank (s_rank s) <= n -> length x = n ->
    (div = true -> forall k, kept (s_order s) (use_rank n rank (s_rank s)) k -> is0 (inj (nth k (s_w s) 0%Q)) = false) ->
    FieldLaws O -> (forall a, is0 a = false -> a <> 0) ->
    exists z, sy_apply O is0 inj gemv s div x rank = Ok z /\ length z = n /\
      (forall k, k < n -> kept (s_order s) (use_rank n rank (s_rank s)) k ->
        if div then eig_coord n V k (mvec n A (v_ z)) = eig_coord n V k (v_ x) else eig_coord n V k (v_ z) = eig_coord n V k (mvec n A (v_ x))) /\
      (forall k, k < n -> ~ kept (s_order s) (use_rank n rank (s_rank s)) k -> eig_coord n V k (v_ z) = 0) /\
      (use_rank n rank (s_rank s) = n -> if div then veq n (mvec n A (v_ z)) (v_ x) else veq n (v_ z) (mvec n A (v_ x))).
  Proof.
    intros s div n A V x rank H1 Hn P SV Hr Lx HD FL Z. pose proof (fl_ring O FL) as RL. pose proof SV as [S1 S2 S3 S4 S5 S6 S7].
    destruct (sy_apply_len s div n x rank H1 Hn S1 P Hr Lx S5 HD) as (z & y & E & Lz & EZ & Ly & Hy). exists z. split; auto. split; auto.
    set (rk := use_rank n rank (s_rank s)) in *.
    pose proof (proj2 (is_perm_Permutation n (s_order s)) P) as IP.
    assert (CZ : forall k, k < n -> eig_coord n V k (v_ z) = v_ y k).
    { intros k Hk. rewrite <- (coord_of RL n A V (s_w s) SV (v_ y) k Hk). apply coord_ext. intros i Hi. rewrite EZ. unfold v_ at 1. now apply S7. }
    assert (CX : forall k, k < n -> v_ (gemv true x) k = eig_coord n V k (v_ x)).
    { intros k Hk. unfold v_ at 1, eig_coord. now apply S6. }
    assert (K : forall k, k < n -> kept (s_order s) rk k ->
        if div then eig_coord n V k (mvec n A (v_ z)) = eig_coord n V k (v_ x) else eig_coord n V k (v_ z) = eig_coord n V k (mvec n A (v_ x))).
    { intros k Hk HK. pose proof HK as (i & Hi & EI). specialize (Hy i ltac:(lia)). cbn zeta in Hy. rewrite EI in Hy. destruct (Nat.ltb_spec i rk); [|lia].
      destruct div.
      - rewrite (coord_A RL n A V (s_w s) SV) by auto. rewrite CZ, Hy, CX by auto. rewrite (mulC O RL). apply (div_mul O FL). apply Z, HD; auto.
      - rewrite (coord_A RL n A V (s_w s) SV) by auto. rewrite CZ, Hy, CX by auto. apply (mulC O RL). }
    split; auto. split.
    - intros k Hk NK. destruct (is_perm_surj n _ k IP Hk) as (i & Hi & EI). specialize (Hy i Hi). cbn zeta in Hy. rewrite EI in Hy.
      rewrite CZ, Hy by auto. destruct (Nat.ltb_spec i rk); auto. exfalso. apply NK. exists i. auto.
    - intros R. assert (KA : forall k, k < n -> kept (s_order s) rk k). { intros k Hk. destruct (is_perm_surj n _ k IP Hk) as (i & Hi & EI). exists i. split; auto. lia. }
      destruct div; intros i Hi; revert i Hi; apply (coord_inj RL n A V (s_w s) SV); intros k Hk; apply K; auto.
  Qed.

  (** With two or more right-hand sides the second round leaves the buffer. *)
  Lemma sy_mrhs_ub : forall (s : SY) (div : bool) nrhs x rank, 1 <= s_n s -> length (s_w s) = s_n s -> length x = s_n s -> 2 <= nrhs ->
    sy_core O is0 inj gemv s div (use_rank (s_n s) rank (s_rank s)) (rhs_col 0 Datatypes.O x) <> Err ->
    (forall v, length (gemv false v) = s_n s) ->
    sy_apply_mrhs O is0 inj gemv s div nrhs x rank = UB.
  Proof.
    intros s div nrhs x rank H1 Lw Lx HN HE HG. unfold sy_apply_mrhs. rewrite Lw. destruct (Nat.eqb_spec (s_n s) Datatypes.O); [lia|]. cbn [orb].
    rewrite (proj2 (Nat.eqb_eq _ _) Lx). cbn [negb]. unfold for_range. rewrite Nat.sub_0_r. destruct nrhs as [|[|k]]; try lia. cbn [for_n].
    pose proof (to_cols_length O (S (S k)) x) as LC. rewrite Lx in LC. set (X := to_cols O (S (S k)) x) in *.
    assert (CX : col (s_n s) 0 X = rhs_col 0 Datatypes.O x) by (rewrite <- Lx; apply to_cols_col; lia).
    cbn [Nat.mul]. rewrite (get_col_ok (s_n s) (S (S k))) by (auto; lia). cbn [bind].
    change (t0 O) with 0 in *. rewrite CX. destruct (sy_core O is0 inj gemv s div _ (rhs_col 0 Datatypes.O x)) as [v| |] eqn:E; cbn [bind]; [|congruence|auto].
    assert (Lv : length v = s_n s).
    { unfold sy_core in E. destruct (for_range _ _ _ _); cbn [bind] in E; try discriminate. destruct (for_range _ _ _ _); cbn [bind] in E; try discriminate. injection E as <-. auto. }
    destruct (put_col_ok (s_n s) (S (S k)) 0 X v ltac:(lia) LC Lv) as (x' & EP & L' & _ & _). rewrite EP. cbn [bind].
    unfold get_col at 1. destruct (Nat.leb_spec ((S (S k) + 0) * s_n s + s_n s) (length x')); [nia|]. auto.
  Qed.

  (** ** LU *)
  Lemma info_l : forall piv pos, 1 <= pos ->
    (getrf_info O is0 pos piv = Datatypes.O -> forall d, In d piv -> is0 d = false) /\
    (getrf_info O is0 pos piv <> Datatypes.O -> let k := (getrf_info O is0 pos piv - pos)%nat in
      pos <= getrf_info O is0 pos piv /\ k < length piv /\ is0 (nth k piv 0) = true /\ forall i, i < k -> is0 (nth i piv 0) = false).
  Proof.
    induction piv as [|d t IH]; intros pos Hp; cbn [getrf_info].
    - split; [intros _ d []|congruence].
    - destruct (is0 d) eqn:E.
      + split; [lia|]. intros _. cbn zeta. rewrite Nat.sub_diag. cbn. split; auto. split; [lia|]. split; auto. intros; lia.
      + destruct (IH (S pos) ltac:(lia)) as (I1 & I2). split.
        * intros Z x [<-|Hx]; auto.
        * intros NZ. specialize (I2 NZ). cbn zeta in *. set (q := getrf_info O is0 (S pos) t) in *.
          destruct I2 as (A1 & A2 & A3 & A4). split; [lia|]. replace (q - pos)%nat with (S (q - S pos)) by lia. cbn [length nth]. split; [lia|]. split; auto.
          intros [|i] Hi; auto. apply A4. lia.
  Qed.
  Lemma lup_rank_l : forall piv, piv <> [] -> exists r, lup_rank O is0 piv = Ok r /\ r <= length piv /\
    (forall i, i < r -> is0 (nth i piv 0) = false) /\ (r < length piv -> is0 (nth r piv 0) = true).
  Proof.
    intros piv NE. unfold lup_rank. destruct (Nat.eqb_spec (length piv) Datatypes.O) as [E|E]; [destruct piv; [congruence|discriminate]|]. cbn zeta.
    destruct (info_l piv 1 (le_n _)) as (I1 & I2). destruct (Nat.ltb_spec Datatypes.O (getrf_info O is0 1 piv)) as [L|L].
    - destruct (I2 ltac:(lia)) as (A1 & A2 & A3 & A4). eexists. split; [reflexivity|]. split; [lia|]. split; auto.
    - eexists. split; [reflexivity|]. split; auto. split; [|lia]. intros i Hi. apply I1; [lia|]. now apply nth_In.
  Qed.
  Lemma lup_divides_l : forall piv, ((exists d, In d piv /\ is0 d = true) -> lup_divides O is0 piv = UB) /\
    ((forall d, In d piv -> is0 d = false) -> lup_divides O is0 piv = Ok tt).
  Proof.
    intros piv. unfold lup_divides, for_range. rewrite Nat.sub_0_r.
    assert (G : forall t h, piv = h ++ t -> ((exists d, In d t /\ is0 d = true) -> for_n (length h) (length t) (fun i _ => d <- get piv i ;; _ <- divz O is0 (t1 O) d ;; Ok tt) tt = UB) /\
      ((forall d, In d t -> is0 d = false) -> for_n (length h) (length t) (fun i _ => d <- get piv i ;; _ <- divz O is0 (t1 O) d ;; Ok tt) tt = Ok tt)).
    { induction t as [|d t IH]; intros h EP; cbn [length for_n].
      - split; auto. intros (d & [] & _).
      - assert (EG : get piv (length h) = Ok d) by (rewrite EP; unfold get; rewrite nth_error_app2, Nat.sub_diag by lia; auto).
        rewrite EG. cbn [bind]. unfold divz at 1 3. destruct (is0 d) eqn:Z; cbn [bind].
        + split; auto. intros H. specialize (H d (or_introl eq_refl)). congruence.
        + specialize (IH (h ++ [d])). rewrite app_length in IH. cbn [length] in IH. rewrite Nat.add_1_r in IH. destruct IH as (I1 & I2); [rewrite <- app_assoc; auto|].
          split.
          * intros (e & [<-|He] & Ze); [congruence|]. apply I1. eauto.
          * intros H. apply I2. intros; apply H; now right. }
    apply (G piv []); auto.
  Qed.
End SyA.

(** A zero pivot within the rank used makes the solve divide by zero. *)
Lemma trsv_n_ub : forall O is0 n r (m : list (T O)), (n * r <= length m)%nat -> forall k x, k <= r -> k <= n -> length x = n ->
  (exists i, i < k /\ is0 (cm n m i i) = true) -> trsv_n O is0 n m k x = UB.
Proof.
  intros O is0 n r m L. induction k as [|k IH]; intros x Hr Hn Lx (i & Hi & Z); [lia|]. cbn [trsv_n].
  rewrite (get_nth _ _ _ (t0 O)) by lia. cbn [bind]. rewrite (dget_ok O n r) by lia. cbn [bind]. unfold divz. destruct (is0 (cm n m k k)) eqn:E; cbn [bind]; auto.
  rewrite set_ok by lia. cbn [bind]. pose proof (axpy_loop O n r m k (tdiv O (nth k x (t0 O)) (cm n m k k)) (upd x k (tdiv O (nth k x (t0 O)) (cm n m k k)))) as W.
  rewrite upd_length in W. specialize (W L ltac:(lia) ltac:(lia) ltac:(lia)). apply wp_inv in W. destruct W as (x' & E' & L' & _). rewrite E'. cbn [bind].
  apply IH; try lia. exists i. split; auto. destruct (Nat.eq_dec i k); [subst; congruence|lia].
Qed.
