(** * Properties C41 and C50: the dense solvers of the last level. *)
From Coq Require Import List Arith Lia Bool ZArith QArith Qabs Qcanon Lqa Permutation.
From Verif Require Import Base Scalar Spec DenseModel DenseSpec DenseProofs1 DenseProofs2 DenseProofs3 DenseProofs4 DenseProofs5.
Import ListNotations.
Close Scope Qc_scope. Close Scope Q_scope. Open Scope nat_scope.

(** ** C41.  QRCP: unless the first pivot is exactly zero, the reported rank covers nonzero
    pivots only, and solving with the reported rank (either way) never divides by zero. *)
Theorem C41_qrcp_rank_nonzero : forall O is0 mag fmul laic1 jv diag_tol cond_def cond_opt nr nc (m : list (T O)),
  laic1_ok is0 laic1 -> mag_ok is0 mag -> fmul_ok fmul -> (0 < diag_tol)%Q ->
  1 <= nc -> nc <= nr -> length m = nr * nc -> is0 (cm nr m 0 0) = false ->
  exists r, qrcp_rank O mag fmul laic1 jv diag_tol cond_def cond_opt nr nc m = Ok r /\ r <= nc /\
    (forall i, i < r -> is0 (cm nr m i i) = false) /\
    forall ormqr jpvt tran x, nr = nc -> good_pivots nc jpvt -> (forall tr k v, k <= nc -> length v = nc -> length (ormqr tr k v) = nc) ->
      (forall a, is0 (tconj O a) = is0 a) -> length x = nc ->
      exists z, qr_solve O is0 ormqr jv (mkQR nr nc m jpvt r) x 0 tran = Ok z /\ length z = nc.
Proof.
  intros O is0 mag fmul laic1 jv diag_tol cond_def cond_opt nr nc m LA MG FM HT H1 H2 LM Z0.
  assert (P0 : (0 < mag (cm nr m 0 0))%Q).
  { pose proof (mg_nn _ _ MG (cm nr m 0 0)) as A. destruct (Qlt_le_dec 0 (mag (cm nr m 0 0))); auto. exfalso.
    assert (E : (mag (cm nr m 0 0) == 0)%Q) by lra. apply (mg_0 _ _ MG) in E. congruence. }
  destruct (qrcp_rank_cases O mag fmul laic1 jv nr nc m H2 H1 LM diag_tol cond_def cond_opt) as (t & E & Ht).
  assert (R : exists r, (if t then est_rank_2norm O mag fmul laic1 jv nr nc m (if Qle_bool cond_opt 0 then cond_def else cond_opt) else Ok nc) = Ok r /\ r <= nc /\
    (forall i, i < r -> is0 (cm nr m i i) = false)).
  { destruct t.
    - unfold est_rank_2norm. rewrite (dg O nr nc m H2 H1 LM) by lia. cbn [bind]. rewrite set_ok by (rewrite repeat_length; lia). cbn [bind].
      pose proof (est_loop_safe O is0 fmul laic1 nr nc m H2 H1 LM LA FM nc (if Qle_bool cond_opt 0 then cond_def else cond_opt) 0
        (upd (repeat jv nc) 0 (t1 O)) (upd (repeat jv nc) 0 (t1 O)) (mag (cm nr m 0 0)) (mag (cm nr m 0 0))) as W.
      rewrite upd_length, repeat_length in W. specialize (W eq_refl eq_refl eq_refl ltac:(lra) P0). apply wp_inv in W.
      destruct W as (r & ER & K1 & K2). exists r. split; auto. split; [lia|]. intros i Hi. apply K2. lia.
    - exists nc. split; auto. split; auto. intros i Hi. destruct (is0 (cm nr m i i)) eqn:Z; auto. exfalso.
      apply (mg_0 _ _ MG) in Z. assert (X : false = true); [|discriminate]. apply Ht. exists i. split; auto. pose proof (fm_pos _ FM _ _ HT P0). lra. }
  destruct R as (r & ER & Hr & Hz). exists r. rewrite E. split; auto. split; auto. split; auto.
  intros ormqr jpvt tran x <- GP HL HC Lx.
  apply (qr_solve_ok O is0 ormqr jv (mkQR nr nr m jpvt r) nr H1 eq_refl HL LM GP 0); auto.
  intros i Hi. cbn in Hi. cbn [q_mat]. rewrite HC, (Hz i Hi). auto.
Qed.
Print Assumptions C41_qrcp_rank_nonzero.

(** What the rank is: full if no diagonal entry of [R] is below [diag_tol * |R(0,0)|]; otherwise
    the longest leading block passing the condition test in which the largest singular value is
    replaced by [|R(0,0)|]: the estimate of the largest singular value is never improved
    beyond it (its vector is lost in the first round). *)
Theorem C41_qrcp_rank_is : forall O mag fmul laic1 jv diag_tol cond_def cond_opt nr nc (m : list (T O)),
  RingLaws O -> laic1_special mag laic1 -> 1 <= nc -> nc <= nr -> length m = nr * nc ->
  (0 < mag (cm nr m 0 0))%Q -> (forall i, i < nc -> (mag (cm nr m i i) <= mag (cm nr m 0 0))%Q) ->
  let tol := if Qle_bool cond_opt 0 then cond_def else cond_opt in
  let passes k := (mag (cm nr m 0 0) <= fmul (snd (min_est mag laic1 jv nr nc m k)) tol)%Q in
  exists r, qrcp_rank O mag fmul laic1 jv diag_tol cond_def cond_opt nr nc m = Ok r /\ r <= nc /\
    ((forall i, i < nc -> (fmul diag_tol (mag (cm nr m 0 0)) <= mag (cm nr m i i))%Q) -> r = nc) /\
    ((exists i, i < nc /\ (mag (cm nr m i i) < fmul diag_tol (mag (cm nr m 0 0)))%Q) ->
       (forall k, 1 <= k <= r -> passes k) /\ (r < nc -> ~ passes (S r))).
Proof.
  intros O mag fmul laic1 jv diag_tol cond_def cond_opt nr nc m RL LS H1 H2 LM P0 HD tol passes.
  destruct (qrcp_rank_cases O mag fmul laic1 jv nr nc m H2 H1 LM diag_tol cond_def cond_opt) as (t & E & Ht). rewrite E. fold tol. destruct t.
  - pose proof (est_rank_deg O mag fmul laic1 jv nr nc m H2 H1 LM RL LS tol P0 HD) as W. apply wp_inv in W. destruct W as (r & ER & K1 & K2 & K3).
    exists r. split; auto. split; auto. split.
    + intros A. destruct (proj1 Ht eq_refl) as (i & Hi & L). specialize (A i Hi). lra.
    + intros _. split.
      * intros k Hk. unfold passes. replace k with (S (k - 1)) by lia. apply K2. lia.
      * intros Hr P. specialize (K3 Hr). unfold passes in P. lra.
  - exists nc. split; auto. split; auto. split; auto. intros S. apply Ht in S. discriminate.
Qed.
Print Assumptions C41_qrcp_rank_is.

(** For a diagonal [R] with decreasing magnitudes, the usual case being the one with exact
    singular values: the rank counts exactly the pivots above the threshold. *)
Theorem C41_qrcp_rank_diagonal : forall O is0 mag fmul laic1 jv diag_tol cond_def cond_opt nr nc (m : list (T O)),
  RingLaws O -> laic1_ok is0 laic1 -> laic1_special mag laic1 -> mag_ok is0 mag -> fmul_ok fmul ->
  1 <= nc -> nc <= nr -> length m = nr * nc -> is0 (cm nr m 0 0) = false ->
  (forall i j, i < j -> j < nc -> cm nr m i j = t0 O) ->
  (forall i j, i <= j -> j < nc -> (mag (cm nr m j j) <= mag (cm nr m i i))%Q) ->
  let tol := if Qle_bool cond_opt 0 then cond_def else cond_opt in (0 < tol)%Q ->
  (exists i, i < nc /\ (mag (cm nr m i i) < fmul diag_tol (mag (cm nr m 0 0)))%Q) ->
  exists r, qrcp_rank O mag fmul laic1 jv diag_tol cond_def cond_opt nr nc m = Ok r /\
    forall i, i < nc -> (i < r <-> (mag (cm nr m 0 0) <= fmul (mag (cm nr m i i)) tol)%Q).
Proof.
  intros O is0 mag fmul laic1 jv diag_tol cond_def cond_opt nr nc m RL LA LS MG FM H1 H2 LM Z0 OFF DEC tol HT SUS.
  assert (POS : forall i, is0 (cm nr m i i) = false -> (0 < mag (cm nr m i i))%Q).
  { intros i Z. pose proof (mg_nn _ _ MG (cm nr m i i)) as A. destruct (Qlt_le_dec 0 (mag (cm nr m i i))); auto. exfalso.
    assert (E : (mag (cm nr m i i) == 0)%Q) by lra. apply (mg_0 _ _ MG) in E. congruence. }
  pose proof (POS 0 Z0) as P0.
  destruct (qrcp_rank_cases O mag fmul laic1 jv nr nc m H2 H1 LM diag_tol cond_def cond_opt) as (t & E & Ht). fold tol in E.
  apply Ht in SUS. subst t. rewrite E.
  pose proof (est_rank_deg O mag fmul laic1 jv nr nc m H2 H1 LM RL LS tol P0 (fun i Hi => DEC 0 i ltac:(lia) Hi)) as W. apply wp_inv in W. destruct W as (r & ER & K1 & K2 & K3).
  assert (NZ : forall i, i < r -> (0 < mag (cm nr m i i))%Q).
  { assert (W : wp (est_rank_2norm O mag fmul laic1 jv nr nc m tol) (fun k => forall i, i < k -> is0 (cm nr m i i) = false)).
    { unfold est_rank_2norm. rewrite (dg O nr nc m H2 H1 LM) by lia. cbn [bind]. rewrite set_ok by (rewrite repeat_length; lia). cbn [bind].
      eapply wp_conseq; [apply (est_loop_safe O is0 fmul laic1 nr nc m H2 H1 LM LA FM); rewrite ?upd_length, ?repeat_length; auto; lra|]. cbn. intros k (A & B) i Hi. apply B. lia. }
    rewrite ER in W. cbn in W. intros i Hi. apply POS, W, Hi. }
  pose proof (min_est_diag O mag laic1 jv nr nc m H2 H1 LM LS P0 (fun i Hi => DEC 0 i ltac:(lia) Hi) OFF DEC) as MD.
  exists r. split; auto. intros i Hi. split.
  - intros L. rewrite <- (MD i Hi) by (intros k Hk; apply NZ; lia). apply K2, L.
  - intros P. destruct (Nat.lt_ge_cases i r) as [|G]; auto. exfalso. specialize (K3 ltac:(lia)). rewrite MD in K3 by first [lia | auto].
    pose proof (fm_mono _ FM (mag (cm nr m i i)) (mag (cm nr m r r)) tol (mg_nn _ _ MG _) (DEC r i G Hi) HT). lra.
Qed.
Print Assumptions C41_qrcp_rank_diagonal.

(** The exception is real: the zero matrix (of any size) is reported as having full rank and
    solving with it divides by zero. *)
Theorem C41_qrcp_zero_refuted : forall O is0 mag laic1 ormqr jv diag_tol cond_def cond_opt n jpvt x,
  is0 (t0 O) = true -> (mag (t0 O) == 0)%Q -> 1 <= n -> good_pivots n jpvt -> length x = n ->
  (forall tr k v, k <= n -> length v = n -> length (ormqr tr k v) = n) ->
  let m := repeat (t0 O) (n * n) in
  qrcp_rank O mag Qmult laic1 jv diag_tol cond_def cond_opt n n m = Ok n /\
  qr_solve O is0 ormqr jv (mkQR n n m jpvt n) x 0 false = UB.
Proof.
  intros O is0 mag laic1 ormqr jv diag_tol cond_def cond_opt n jpvt x Z MZ H1 GP Lx HL m.
  assert (LM : length m = n * n) by apply repeat_length.
  assert (CZ : forall i, i < n -> cm n m i i = t0 O) by (intros i Hi; unfold cm, m; apply nth_repeat_any; nia). split.
  - destruct (qrcp_rank_cases O mag Qmult laic1 jv n n m (le_n _) H1 LM diag_tol cond_def cond_opt) as (t & E & Ht). rewrite E. destruct t; auto. exfalso.
    destruct (proj1 Ht eq_refl) as (i & Hi & L). rewrite !CZ in L by lia. rewrite MZ in L. lra.
  - rewrite (solve_nt_1 O is0 ormqr jv (mkQR n n m jpvt n) n H1 eq_refl HL LM GP 0) by (cbn; auto). cbn [q_mat q_rank use_rank Nat.eqb].
    rewrite (trsv_n_ub O is0 n n); auto; [rewrite LM; lia|exists 0; split; [lia|rewrite CZ; [auto|lia]]].
Qed.
Print Assumptions C41_qrcp_zero_refuted.

(** A rank argument above the reported rank is not checked either. *)
Theorem C41_qrcp_user_rank_refuted : forall O is0 ormqr jv n (m : list (T O)) jpvt own rank x,
  1 <= n -> length m = n * n -> good_pivots n jpvt -> length x = n -> (forall tr k v, k <= n -> length v = n -> length (ormqr tr k v) = n) ->
  rank <= n -> (exists i, i < rank /\ is0 (cm n m i i) = true) ->
  qr_solve O is0 ormqr jv (mkQR n n m jpvt own) x rank false = UB.
Proof.
  intros O is0 ormqr jv n m jpvt own rank x H1 LM GP Lx HL Hr (i & Hi & Z).
  assert (U : use_rank n rank own = rank). { unfold use_rank. destruct (Nat.eqb_spec rank 0); [lia|]. destruct (Nat.ltb_spec n rank); lia. }
  rewrite (solve_nt_1 O is0 ormqr jv (mkQR n n m jpvt own) n H1 eq_refl HL LM GP rank) by (cbn [q_rank]; rewrite ?U; auto). cbn [q_mat q_rank]. rewrite U.
  rewrite (trsv_n_ub O is0 n n); auto; [lia|eauto].
Qed.
Print Assumptions C41_qrcp_user_rank_refuted.

(** SYEIG in indefinite mode, when the eigenvalues of largest magnitude are all positive: the rank
    is the number of eigenvalues above [eps] times the largest magnitude, these come
    first in the order, and solving with the reported rank never divides by zero.
    Missing for the full property: the cases refuted below. *)
Theorem C41_syeig_indefinite_partial : forall O is0 inj gemv fmul sort eps (w : list Q),
  sort_ok sort -> fmul_ok fmul -> (0 < eps)%Q -> w <> [] ->
  (forall x y, In x w -> In y w -> (forall u, In u w -> Qabs u <= Qabs y)%Q -> (Qabs y <= Qabs x)%Q -> (0 < x)%Q) ->
  (forall q, is0 (inj q) = true <-> q == 0)%Q ->
  exists M order rank, sy_truncate fmul sort eps Eq w = Ok (order, rank) /\
    In M w /\ (forall x, In x w -> Qabs x <= M)%Q /\ Permutation (seq 0 (length w)) order /\
    rank = length (filter (fun x => qltb (fmul eps M) (Qabs x)) w) /\
    (forall i, i < length w -> (i < rank <-> (fmul eps M < Qabs (nth (nth i order 0%nat) w 0%Q))%Q)) /\
    forall x, length x = length w -> (forall b v, length v = length w -> length (gemv b v) = length w) ->
      exists z, sy_apply O is0 inj gemv (mkSY (length w) w order rank) true x 0 = Ok z /\ length z = length w.
Proof.
  intros O is0 inj gemv fmul sort eps w SO FM HE NE DOM INJ.
  destruct (sy_indefinite fmul sort SO w eps NE) as (M & order & rank & E & IM & MX & P & RK & ORD).
  assert (HM : (0 < M)%Q) by (apply (DOM M M); auto; lra).
  assert (EM : (Qabs M == M)%Q) by (apply Qabs_pos; lra).
  exists M, order, rank. split; auto. split; auto. split; [intros x Hx; specialize (MX x Hx); lra|]. split; auto. split; auto. split; auto.
  intros x Lx HG. assert (RL : rank <= length w). { rewrite RK. clear. induction w; cbn; auto. destruct (qltb _ _); cbn; lia. }
  destruct (sy_apply_len O is0 inj gemv (mkSY (length w) w order rank) true (length w) x 0) as (z & y & EZ & LZ & _); cbn [s_n s_w s_order s_rank use_rank Nat.eqb]; auto.
  - destruct w; [congruence|cbn; lia].
  - intros _ k (i & Hi & <-). destruct (is0 _) eqn:Z; auto. exfalso. apply INJ in Z. apply ORD in Hi; [|lia].
    rewrite Z in Hi. cbn in Hi. pose proof (fm_pos _ FM _ _ HE HM). change (Qabs 0) with 0%Q in Hi. lra.
  - eauto.
Qed.
Print Assumptions C41_syeig_indefinite_partial.

(** If an eigenvalue of largest magnitude is negative and comes first, the threshold is negative: nothing is ever
    truncated, however small, and a zero eigenvalue is divided by. *)
Theorem C41_syeig_negative_refuted : forall O is0 inj gemv sort eps (w : list Q) w0 wt,
  sort_ok sort -> (0 < eps)%Q -> w = w0 :: wt -> (w0 < 0)%Q -> (forall x, In x w -> Qabs x <= Qabs w0)%Q ->
  is0 (inj 0%Q) = true ->
  exists order, sy_truncate Qmult sort eps Eq w = Ok (order, length w) /\
    forall x, In 0%Q w -> length x = length w -> (forall b v, length v = length w -> length (gemv b v) = length w) ->
      sy_apply O is0 inj gemv (mkSY (length w) w order (length w)) true x 0 = UB.
Proof.
  intros O is0 inj gemv sort eps w w0 wt SO HE EW H0 MX Z.
  destruct (sy_indefinite Qmult sort SO w eps ltac:(rewrite EW; discriminate)) as (M & order & rank & E & IM & MX' & P & RK & ORD).
  assert (MW : forall l, (forall x, In x l -> Qabs x <= Qabs w0)%Q -> max_abs w0 l = w0).
  { induction l as [|a l IH]; intros H; auto. cbn. destruct (qltb (Qabs w0) (Qabs a)) eqn:Q; [|apply IH; intros; apply H; now right].
    apply qltb_t in Q. specialize (H a (or_introl eq_refl)). lra. }
  assert (T0 : exists o r, sy_truncate Qmult sort eps Eq (w0 :: wt) = Ok (o, r) /\ r = length (w0 :: wt)).
  { cbn [sy_truncate]. do 2 eexists. split; [reflexivity|]. rewrite MW by (intros x Hx; apply MX; rewrite EW; now right).
    assert (B : forall x, Qle_bool (Qabs x) (eps * w0) = false). { intros x. apply qle_f. pose proof (Qabs_nonneg x). nra. }
    destruct (rev _); cbn; auto. now rewrite B. }
  rewrite <- EW in T0. destruct T0 as (o & r & E' & ->). rewrite E in E'. injection E' as <- E'. subst rank.
  exists order. split; [now rewrite E, E'|]. intros x I0 Lx HG.
  unfold sy_apply. cbn [s_n s_w]. assert (N : length w <> 0) by (rewrite EW; discriminate). destruct (Nat.eqb_spec (length w) 0); [lia|]. cbn [orb].
  rewrite (proj2 (Nat.eqb_eq _ _) Lx). cbn [negb use_rank Nat.eqb s_rank]. unfold sy_core. cbn [s_order s_w s_n].
  pose proof (proj2 (VecProofs.is_perm_Permutation _ _) P) as PP. pose proof PP as (LP & RP & IP).
  apply In_nth with (d := 0%Q) in I0. destruct I0 as (k & Hk & EK). destruct (VecProofs.is_perm_surj _ _ k PP Hk) as (i & Hi & EI).
  assert (G : forall j lo (y : list (T O)), lo <= i < lo + j -> lo + j = length w -> length y = length w ->
    for_n lo j (fun i0 w1 => k <- get order i0 ;; a <- get w1 k ;; l <- get w k ;; b <- divz O is0 a (inj l) ;; set w1 k b) y = UB).
  { induction j as [|j IH]; intros lo y H1 H2 Ly; [lia|]. cbn [for_n]. rewrite (get_nth _ _ _ 0) by lia. cbn [bind]. pose proof (RP lo ltac:(lia)) as Rl.
    rewrite (get_nth _ _ _ (t0 O)) by lia. cbn [bind]. rewrite (get_nth _ _ _ 0%Q) by lia. cbn [bind]. unfold divz at 1.
    destruct (is0 (inj (nth (nth lo order 0) w 0%Q))) eqn:ZL; cbn [bind]; auto. rewrite set_ok by lia. cbn [bind]. apply IH; try lia; [|now rewrite upd_length].
    destruct (Nat.eq_dec lo i); [|lia]. subst lo. rewrite EI, EK in ZL. congruence. }
  unfold for_range. rewrite Nat.sub_0_r. rewrite G; auto; lia.
Qed.
Print Assumptions C41_syeig_negative_refuted.

(** In the modes for definite matrices the scan starts at the eigenvalue farthest from zero
    (LAPACK sorts increasingly), so it stops at once: nothing is truncated, whatever the others are. *)
Theorem C41_syeig_definite_refuted : forall sort eps (w : list Q) M,
  (0 < eps < 1)%Q ->
  (w <> [] /\ last w 0%Q = M /\ (0 < M)%Q /\ (forall x, In x w -> Qabs x <= M)%Q ->
     exists order, sy_truncate Qmult sort eps Gt w = Ok (order, length w)) /\
  (w <> [] /\ hd 0%Q w = M /\ (M < 0)%Q /\ (forall x, In x w -> Qabs x <= - M)%Q ->
     exists order, sy_truncate Qmult sort eps Lt w = Ok (order, length w)).
Proof.
  intros sort eps w M HE. split; intros (NE & EM & HM & MX).
  - destruct w as [|w0 wt] eqn:EW; [congruence|]. cbn [sy_truncate]. rewrite <- EW in *. eexists. f_equal. f_equal.
    destruct (max_abs_l wt w0) as (I1 & I2). rewrite <- EW in I1, I2. set (X := max_abs w0 wt) in *.
    destruct (exists_last NE) as (l & a & El). rewrite El in EM. rewrite last_last in EM. subst a.
    replace (rev w) with (M :: rev l) by (rewrite El, rev_app_distr; auto). cbn [scan_bad].
    assert (L1 : (Qabs X <= M)%Q) by auto. pose proof (Qle_Qabs X).
    assert (B1 : Qle_bool M 0 = false) by (now apply qle_f). assert (B2 : Qle_bool (Qabs M) (eps * X) = false).
    { apply qle_f. rewrite Qabs_pos by lra. nra. }
    rewrite B1, B2. auto.
  - destruct w as [|w0 wt] eqn:EW; [congruence|]. cbn in EM. subst w0. cbn [sy_truncate]. eexists. f_equal. f_equal. cbn [scan_bad].
    assert (MW : forall l, (forall x, In x l -> Qabs x <= - M)%Q -> max_abs M l = M).
    { induction l as [|a l IH]; intros H; auto. cbn. destruct (qltb (Qabs M) (Qabs a)) eqn:Q; [|apply IH; intros; apply H; now right].
      apply qltb_t in Q. specialize (H a (or_introl eq_refl)). rewrite (Qabs_neg M) in Q by lra. lra. }
    rewrite MW by (intros x Hx; apply MX; now right).
    assert (B1 : Qle_bool 0 M = false) by (now apply qle_f). assert (B2 : Qle_bool (Qabs M) (eps * M) = false).
    { apply qle_f. rewrite Qabs_neg by lra. nra. }
    rewrite B1, B2. auto.
Qed.
Print Assumptions C41_syeig_definite_refuted.

(** LUP: the rank is the number of pivots before the first exactly zero one, and [full_rank]
    holds exactly when all pivots are nonzero. *)
Theorem C41_lup_rank : forall O is0 (pivots : list (T O)), pivots <> [] ->
  exists r, lup_rank O is0 pivots = Ok r /\ r <= length pivots /\
    (forall i, i < r -> is0 (nth i pivots (t0 O)) = false) /\ (r < length pivots -> is0 (nth r pivots (t0 O)) = true) /\
    (full_rank r (length pivots) = true <-> forall d, In d pivots -> is0 d = false).
Proof.
  intros O is0 pivots NE. destruct (lup_rank_l O is0 pivots NE) as (r & E & Hr & H1 & H2). exists r. do 4 (split; [solve [auto]|]). split.
  - unfold full_rank. rewrite andb_true_iff, negb_true_iff, Nat.eqb_eq. intros (_ & ->) d Hd. apply In_nth with (d := t0 O) in Hd. destruct Hd as (i & Hi & <-). auto.
  - intros H. unfold full_rank. rewrite andb_true_iff, negb_true_iff, Nat.eqb_eq, Nat.eqb_neq.
    assert (r = length pivots). { destruct (Nat.eq_dec r (length pivots)); auto. specialize (H2 ltac:(lia)). rewrite H in H2; [discriminate|]. apply nth_In. lia. }
    split; auto. destruct pivots; [congruence|cbn in *; lia].
Qed.
Print Assumptions C41_lup_rank.

(** But the solve ignores the rank: if it is not full, solving divides by zero. *)
Theorem C41_lup_solve_refuted : forall O is0 getrs n (pivots x : list (T O)) tran,
  pivots <> [] -> length x = n ->
  ((exists d, In d pivots /\ is0 d = true) -> lup_solve O is0 getrs n pivots x tran = UB) /\
  ((forall d, In d pivots -> is0 d = false) -> exists z, lup_solve O is0 getrs n pivots x tran = Ok z).
Proof.
  intros O is0 getrs n pivots x tran NE Lx. unfold lup_solve. destruct (Nat.eqb_spec (length pivots) 0); [destruct pivots; [congruence|discriminate]|].
  rewrite (proj2 (Nat.eqb_eq _ _) Lx). cbn [negb]. destruct (lup_divides_l O is0 pivots) as (H1 & H2). split; intros H; [rewrite (H1 H)|rewrite (H2 H)]; cbn; eauto.
Qed.
Print Assumptions C41_lup_solve_refuted.

(** ** C50.  QRCP computes with the matrix it was given: with rank [r] the solve returns the
    basic least-squares solution on the first [r] pivot columns, the exact solution at
    full rank; the transposed solve solves the equations of the adjoint for these
    columns; the products are those with these columns. *)
Theorem C50_qrcp : forall O is0 ormqr jv (s : QR O) n A Q rank b,
  FieldLaws O -> (forall a, is0 a = true <-> a = t0 O) -> 1 <= n -> q_nr s = n -> q_rank s <= n -> length b = n ->
  geqp3_ok n A (q_mat s) (q_jpvt s) Q -> ormqr_ok n Q ormqr ->
  let r := if rank =? 0 then q_rank s else Nat.min rank n in
  ((forall i, i < r -> cm n (q_mat s) i i <> t0 O) ->
    (exists z, qr_solve O is0 ormqr jv s b rank false = Ok z /\ basic_solution n A (q_jpvt s) r b z /\ (r = n -> veq n (mvec n A (v_ z)) (v_ b))) /\
    (exists z, qr_solve O is0 ormqr jv s b rank true = Ok z /\ basic_solution_adj n A (q_jpvt s) r b z /\ (r = n -> veq n (mvec n (madj A) (v_ z)) (v_ b)))) /\
  (exists z, qr_multiply O ormqr jv s b rank false = Ok z /\ length z = n /\
     (forall i, i < n -> v_ z i = sum r (fun k => tmul O (A i (piv (q_jpvt s) k)) (v_ b (piv (q_jpvt s) k)))) /\ (r = n -> veq n (v_ z) (mvec n A (v_ b)))) /\
  (exists z, qr_multiply O ormqr jv s b rank true = Ok z /\ length z = n /\
     (forall j, pivot_col (q_jpvt s) r j -> v_ z j = mvec n (madj A) (v_ b) j) /\
     (forall j, j < n -> ~ pivot_col (q_jpvt s) r j -> v_ z j = t0 O) /\ (r = n -> veq n (v_ z) (mvec n (madj A) (v_ b)))).
Proof.
  intros O is0 ormqr jv s n A Q rank b FL Z H1 Hn Hr Lb GQ OQ r. pose proof (fl_ring O FL) as RL.
  assert (U : use_rank n rank (q_rank s) = r). { unfold use_rank, r. destruct (rank =? 0); [reflexivity|]. destruct (Nat.ltb_spec n rank); lia. }
  assert (HR : use_rank n rank (q_rank s) <= n) by (unfold use_rank; destruct (rank =? 0); [lia|destruct (Nat.ltb_spec n rank); lia]).
  assert (ZF : forall a, is0 a = false -> a <> t0 O). { intros a E ->. rewrite (proj2 (Z _) eq_refl) in E. discriminate. }
  assert (FZ : forall a, a <> t0 O -> is0 a = false). { intros a E. destruct (is0 a) eqn:X; auto. apply Z in X. congruence. }
  pose proof GQ as [G1 G2 _ _ _]. pose proof OQ as [O1 _ _].
  split; [|split].
  - intros NZ. rewrite <- U in *. split.
    + apply (solve_nt_exact O is0 ormqr jv s n H1 Hn O1 G1 G2 A Q GQ OQ rank HR FL ZF b Lb). intros i Hi. apply FZ, NZ, Hi.
    + apply (solve_t_exact O is0 ormqr jv s n H1 Hn O1 G1 G2 A Q GQ OQ rank HR FL ZF b Lb). intros i Hi. split; [apply FZ, NZ, Hi|]. apply FZ, (conj_nz O FL), NZ, Hi.
  - rewrite <- U. apply (multiply_nt_exact O ormqr jv s n H1 Hn O1 G1 G2 A Q GQ OQ rank HR RL b Lb).
  - rewrite <- U. apply (multiply_t_exact O ormqr jv s n H1 Hn O1 G1 G2 A Q GQ OQ rank HR RL b Lb).
Qed.
Print Assumptions C50_qrcp.

(** Several right-hand sides: every column is treated exactly as it would be alone. *)
Theorem C50_qrcp_several : forall O is0 ormqr jv (s : QR O) nrhs x rank (tran : bool),
  (forall tr r v, length v = q_nr s -> length (ormqr tr r v) = q_nr s) -> length (q_jpvt s) <= q_nr s -> length x = q_nr s ->
  let agrees (multi : res (list (list (T O)))) (single : list (T O) -> res (list (T O))) :=
    match multi with
    | Ok y => length y = length x /\ (forall row, In row y -> length row = nrhs) /\
              forall j, j < nrhs -> single (rhs_col (t0 O) j x) = Ok (rhs_col (t0 O) j y)
    | Err => forall j, single (rhs_col (t0 O) j x) = Err
    | UB => exists j, j < nrhs /\ single (rhs_col (t0 O) j x) = UB
    end in
  agrees (qr_solve_mrhs O is0 ormqr jv s nrhs x rank tran) (fun v => qr_solve O is0 ormqr jv s v rank tran) /\
  agrees (qr_multiply_mrhs O ormqr jv s nrhs x rank tran) (fun v => qr_multiply O ormqr jv s v rank tran).
Proof.
  intros O is0 ormqr jv s nrhs x rank tran HL HP Lx agrees. split; [now apply solve_mrhs_l|now apply multiply_mrhs_l].
Qed.
Print Assumptions C50_qrcp_several.

(** SYEIG: with rank [r] the solve and the product act on the eigenvectors kept and vanish on the
    others; at full rank they are exact. *)
Theorem C50_syeig : forall O is0 inj gemv (s : SY) (div : bool) n A V x rank,
  FieldLaws O -> (forall a, is0 a = false -> a <> t0 O) -> 1 <= n -> s_n s = n -> Permutation (seq 0 n) (s_order s) ->
  syev_ok inj n A (s_w s) V gemv -> s_rank s <= n -> length x = n ->
  let r := if rank =? 0 then s_rank s else Nat.min rank n in
  (div = true -> forall k, kept (s_order s) r k -> is0 (inj (nth k (s_w s) 0%Q)) = false) ->
  exists z, sy_apply O is0 inj gemv s div x rank = Ok z /\ length z = n /\
    (forall k, k < n -> kept (s_order s) r k ->
      if div then eig_coord n V k (mvec n A (v_ z)) = eig_coord n V k (v_ x) else eig_coord n V k (v_ z) = eig_coord n V k (mvec n A (v_ x))) /\
    (forall k, k < n -> ~ kept (s_order s) r k -> eig_coord n V k (v_ z) = t0 O) /\
    (r = n -> if div then veq n (mvec n A (v_ z)) (v_ x) else veq n (v_ z) (mvec n A (v_ x))).
Proof.
  intros O is0 inj gemv s div n A V x rank FL Z H1 Hn P SV Hr Lx r HD.
  assert (U : use_rank n rank (s_rank s) = r). { unfold use_rank, r. destruct (rank =? 0); [reflexivity|]. destruct (Nat.ltb_spec n rank); lia. }
  rewrite <- U in *. apply sy_exact; auto. rewrite U. unfold r. destruct (rank =? 0); auto. lia.
Qed.
Print Assumptions C50_syeig.

(** But its version for two or more right-hand sides always leaves its buffer. *)
Theorem C50_syeig_several_refuted : forall O is0 inj gemv (s : SY) (div : bool) nrhs x rank n,
  1 <= n -> s_n s = n -> length (s_w s) = n -> Permutation (seq 0 n) (s_order s) -> s_rank s <= n -> length x = n -> 2 <= nrhs ->
  (forall b v, length (gemv b v) = n) ->
  sy_apply_mrhs O is0 inj gemv s div nrhs x rank = UB.
Proof.
  intros O is0 inj gemv s div nrhs x rank n H1 Hn Lw P Hr Lx HN HG. rewrite <- Hn in *. apply sy_mrhs_ub; auto.
  unfold sy_core, for_range. intros E.
  match type of E with bind ?m _ = _ => destruct m as [y| |] eqn:E1; cbn [bind] in E end; try discriminate.
  - match type of E with bind ?m _ = _ => destruct m as [y2| |] eqn:E2; cbn [bind] in E end; try discriminate.
    revert E2. apply for_n_not_err. intros i a. destruct (get _ _) eqn:G; cbn [bind]; try discriminate; [apply set_not_err|now apply get_not_err in G].
  - revert E1. apply for_n_not_err. intros i a. destruct (get (s_order s) i) eqn:G1; cbn [bind]; try discriminate; [|now apply get_not_err in G1].
    destruct (get a a0) eqn:G2; cbn [bind]; try discriminate; [|now apply get_not_err in G2].
    destruct (get (s_w s) a0) eqn:G3; cbn [bind]; try discriminate; [|now apply get_not_err in G3].
    destruct div; cbn [bind]; [|apply set_not_err]. destruct (divz O is0 a1 (inj a2)) eqn:G4; cbn [bind]; try discriminate; [apply set_not_err|now apply divz_not_err in G4].
Qed.
Print Assumptions C50_syeig_several_refuted.

(** LUP: with [getrs] as specified by LAPACK, the plain solve is exact; the transposed solve solves with
    the transpose, which is the adjoint for real matrices. *)
Definition optr {O} (o : trop) (A : nat -> nat -> T O) : nat -> nat -> T O :=
  match o with opN => A | opT => fun i j => A j i | opC => madj A end.
Theorem C50_lup_partial : forall O is0 getrs n A (pivots x : list (T O)) (tran : bool),
  pivots <> [] -> length x = n -> (forall d, In d pivots -> is0 d = false) ->
  (forall o v, length v = n -> length (getrs o v) = n /\ veq n (mvec n (optr o A) (v_ (getrs o v))) (v_ v)) ->
  (forall i j, i < n -> j < n -> tconj O (A i j) = A i j) ->
  exists z, lup_solve O is0 getrs n pivots x tran = Ok z /\ length z = n /\ veq n (mvec n (if tran then madj A else A) (v_ z)) (v_ x).
Proof.
  intros O is0 getrs n A pivots x tran NE Lx NZ GS RE. unfold lup_solve. destruct (Nat.eqb_spec (length pivots) 0); [destruct pivots; [congruence|discriminate]|].
  rewrite (proj2 (Nat.eqb_eq _ _) Lx). cbn [negb]. destruct (lup_divides_l O is0 pivots) as (_ & H2). rewrite (H2 NZ). cbn [bind]. eexists. split; [reflexivity|].
  destruct tran; [destruct (GS opT x Lx) as (L & V)|destruct (GS opN x Lx) as (L & V)]; split; auto.
  intros i Hi. rewrite <- V by auto. unfold mvec. apply sum_ext. intros j Hj. unfold madj, optr. now rewrite RE.
Qed.
Print Assumptions C50_lup_partial.
(** For complex matrices the transposed solve is not the one with the adjoint. *)
Theorem C50_lup_adjoint_refuted : exists (getrs : trop -> list (T OG) -> list (T OG)) A (x z : list (T OG)),
  (forall o v, length v = 1 -> length (getrs o v) = 1 /\ veq 1 (mvec 1 (optr o A) (v_ (getrs o v))) (v_ v)) /\
  lup_solve OG (fun _ => false) getrs 1 [A 0 0] x true = Ok z /\ ~ veq 1 (mvec 1 (madj A) (v_ z)) (v_ x).
Proof.
  pose (I := mkG (Q2Qc 0) (Q2Qc 1)).
  exists (fun o v => [tmul OG (match o with opC => I | _ => gconj I end) (nth 0 v (t0 OG))]), (fun _ _ => I), [t1 OG], [tmul OG (gconj I) (t1 OG)].
  split; [|split].
  - intros o [|a [|? ?]] L; try discriminate. split; auto. intros i Hi. assert (i = 0) by lia. subst i. destruct a as [a b].
    destruct o; unfold mvec, optr, madj, I, v_; cbn; apply GQ_ext; cbn; ring.
  - reflexivity.
  - intros H. specialize (H 0 ltac:(lia)). apply (f_equal re) in H. vm_compute in H. discriminate.
Qed.
Print Assumptions C50_lup_adjoint_refuted.

(** ** Concrete cases meeting the hypotheses. *)
Definition fq (z : Z) (d : positive) : T OQ := Q2Qc (z # d).
Definition is0q (a : T OQ) : bool := Qeq_bool (this a) 0.
Definition magq (a : T OQ) : Q := Qabs (this a).
Definition laicq (job : bool) (r : nat) (x : list (T OQ)) (s : Q) (w : list (T OQ)) (g : T OQ) : Q * T OQ * T OQ :=
  if job then (s, t1 OQ, t0 OQ) else (magq g, t0 OQ, t1 OQ).
Definition vals (r : res (list (T OQ))) : res (list Q) := match r with Ok z => Ok (map this z) | Err => Err | UB => UB end.
Lemma magq_ok : mag_ok (O := OQ) is0q magq.
Proof.
  split; intros a; unfold is0q, magq; [apply Qabs_nonneg|]. rewrite Qeq_bool_iff. split; intros H.
  - rewrite H. reflexivity.
  - apply Qabs_case with (x := this a) (P := fun q => (q == 0)%Q -> (this a == 0)%Q) in H; auto. intros _ E. lra.
Qed.
Lemma laicq_ok : laic1_ok (O := OQ) is0q laicq.
Proof.
  split; intros; cbn; auto.
  - now apply (mg_0 _ _ magq_ok).
  - apply Qabs_nonneg.
Qed.
Lemma laicq_special : laic1_special (O := OQ) magq laicq.
Proof. split; intros; reflexivity. Qed.
Lemma qmult_ok : fmul_ok Qmult.
Proof.
  split; intros.
  - rewrite H. ring.
  - now apply Qmult_lt_0_compat.
  - apply Qmult_le_compat_r; lra.
Qed.
(** diag(5, 1/10): with condition threshold 20 the second pivot is dropped. *)
Definition ex_m : list (T OQ) := [fq 5 1; fq 0 1; fq 0 1; fq 1 10].
Example C41_qrcp_ex : qrcp_rank OQ magq Qmult laicq (t0 OQ) (1 # 8) (1000 # 1) (20 # 1) 2 2 ex_m = Ok 1 /\
  is0q (cm 2 ex_m 0 0) = false /\ (0 < magq (cm 2 ex_m 0 0))%Q /\
  (forall i j, i < j -> j < 2 -> cm (O := OQ) 2 ex_m i j = t0 OQ) /\
  (forall i j, i <= j -> j < 2 -> (magq (cm 2 ex_m j j) <= magq (cm 2 ex_m i i))%Q) /\
  (exists i, i < 2 /\ (magq (cm 2 ex_m i i) < (1 # 8) * magq (cm 2 ex_m 0 0))%Q) /\
  vals (qr_solve OQ is0q (fun _ _ v => v) (t0 OQ) (mkQR 2 2 ex_m [2; 1] 1) [fq 10 1; fq 3 1] 0 false) = Ok [0; 2]%Q.
Proof.
  split; [vm_compute; reflexivity|]. split; [vm_compute; reflexivity|]. split; [vm_compute; reflexivity|]. split; [|split; [|split]].
  - intros i j H1 H2. destruct j as [|[|j]]; [lia| |lia]. destruct i; [|lia]. vm_compute. reflexivity.
  - intros i j H1 H2. destruct j as [|[|j]]; [| |lia]; destruct i as [|[|i]]; try lia; vm_compute; discriminate.
  - exists 1. split; [lia|]. vm_compute. reflexivity.
  - vm_compute. reflexivity.
Qed.

(** Applying [Q] as a matrix meets the contract of [ormqr]. *)
Definition apply_q {O} n (Q : nat -> nat -> T O) (adj : bool) (r : nat) (v : list (T O)) : list (T O) :=
  if adj then map (fun j => sum n (fun i => tmul O (tconj O (Q i j)) (v_ v i))) (seq 0 n)
  else map (fun i => sum n (fun j => tmul O (Q i j) (v_ v j))) (seq 0 n).
Lemma apply_q_ok : forall O n (Q : nat -> nat -> T O), RingLaws O -> ormqr_ok n Q (apply_q n Q).
Proof.
  intros O n Q RL. assert (N : forall f i, i < n -> nth i (map f (seq 0 n)) (t0 O) = f i).
  { intros f i Hi. rewrite nth_indep with (d' := f 0) by (now rewrite map_length, seq_length). rewrite map_nth. now rewrite seq_nth. }
  split.
  - intros [|] r v _ _; unfold apply_q; now rewrite map_length, seq_length.
  - intros r v j Hr _ Hj. unfold apply_q. apply N. lia.
  - intros r v i Hr _ Hi HZ. unfold apply_q. rewrite N by auto. apply DenseProofs2.sum_cut; auto.
    intros j Hj. unfold v_. rewrite HZ by auto. pose proof (rl_ring _ RL) as RT. rewrite (Rmul_comm RT). apply (Ring_theory.ARmul_0_l (Ring_theory.Rth_ARth (Ring_theory.Eqsth (T O)) (Ring_theory.Eq_ext _ _ _) RT)).
Qed.
(** A = [[7/5, 6], [26/5, 8]] as Q R with the columns swapped, Q a rotation by the 3-4-5 angle. *)
Definition ex_Q (i j : nat) : T OQ :=
  match i, j with 0, 0 => fq 3 5 | 0, 1 => fq (-4) 5 | 1, 0 => fq 4 5 | 1, 1 => fq 3 5 | _, _ => t0 OQ end.
Definition ex_R : list (T OQ) := [fq 10 1; fq 7 1; fq 5 1; fq 2 1].
Definition ex_A (i j : nat) : T OQ :=
  match i, j with 0, 1 => fq 6 1 | 1, 1 => fq 8 1 | 0, 0 => fq 7 5 | 1, 0 => fq 26 5 | _, _ => t0 OQ end.
Example C50_qrcp_ex : geqp3_ok (O := OQ) 2 ex_A ex_R [2; 1] ex_Q /\ ormqr_ok 2 ex_Q (apply_q 2 ex_Q) /\
  vals (qr_solve OQ is0q (apply_q 2 ex_Q) (t0 OQ) (mkQR 2 2 ex_R [2; 1] 2) [fq 37 5; fq 66 5] 0 false) = Ok [1; 1]%Q /\
  vals (qr_solve OQ is0q (apply_q 2 ex_Q) (t0 OQ) (mkQR 2 2 ex_R [2; 1] 2) [fq 37 5; fq 66 5] 1 false) = Ok [0; 3 # 2]%Q.
Proof.
  split; [|split; [apply apply_q_ok, OQ_ring|split; vm_compute; reflexivity]]. split.
  - reflexivity.
  - split; [reflexivity|]. split.
    + intros [|[|i]] Hi; cbn; lia.
    + intros [|[|i]] [|[|j]] Hi Hj; cbn; try lia.
  - intros [|[|i]] [|[|j]] Hi Hj; try lia; apply Qc_is_canon; vm_compute; reflexivity.
  - intros [|[|i]] [|[|j]] Hi Hj; try lia; apply Qc_is_canon; vm_compute; reflexivity.
  - intros [|[|i]] [|[|j]] Hi Hj; try lia; apply Qc_is_canon; vm_compute; reflexivity.
Qed.

(** Insertion sort meets the contract of [std::sort]. *)
Fixpoint ins (lt : nat -> nat -> bool) (a : nat) (l : list nat) : list nat :=
  match l with [] => [a] | b :: t => if lt b a then b :: ins lt a t else a :: b :: t end.
Definition isort (lt : nat -> nat -> bool) (l : list nat) : list nat := fold_right (ins lt) [] l.
Lemma ins_perm : forall lt a l, Permutation (a :: l) (ins lt a l).
Proof.
  induction l as [|b t IH]; cbn; auto. destruct (lt b a); auto. eapply perm_trans; [apply perm_swap|]. now apply perm_skip.
Qed.
Lemma isort_perm : forall lt l, Permutation l (isort lt l).
Proof. induction l; cbn; auto. eapply perm_trans; [apply perm_skip; eassumption|]. apply ins_perm. Qed.
Lemma isort_ok : sort_ok isort.
Proof.
  intros lt l IR TR NT. split; [apply isort_perm|].
  assert (AS : forall a b, In a l -> In b l -> lt a b = true -> lt b a = false).
  { intros a b Ha Hb E. destruct (lt b a) eqn:F; auto. rewrite <- (IR a Ha). symmetry. apply (TR a b a); auto. }
  assert (SS : forall k, (forall x, In x k -> In x l) -> forall i j d, i < j < length k -> lt (nth j (isort lt k) d) (nth i (isort lt k) d) = false).
  { induction k as [|a k IH]; intros HK i j d Hij; [cbn in Hij; lia|]. cbn [isort fold_right]. fold (isort lt k).
    assert (IN : forall x, In x (isort lt k) -> In x l). { intros x Hx. apply HK. right. eapply Permutation_in; [|exact Hx]. apply Permutation_sym, isort_perm. }
    assert (S : forall i j d, i < j < length (isort lt k) -> lt (nth j (isort lt k) d) (nth i (isort lt k) d) = false).
    { intros i0 j0 d0 H. apply IH; [intros; apply HK; now right|]. now rewrite (Permutation_length (isort_perm lt k)). }
    rewrite (Permutation_length (Permutation_trans (perm_skip a (isort_perm lt k)) (ins_perm lt a (isort lt k)))) in Hij.
    assert (Ha : In a l) by (apply HK; now left). revert IN S i j Hij. generalize (isort lt k). clear IH HK k.
    induction l0 as [|b t IH]; intros IN S i j Hij; [cbn in Hij; lia|]. cbn in Hij |- *. destruct (lt b a) eqn:E.
    - assert (S' : forall i j d, i < j < length t -> lt (nth j t d) (nth i t d) = false) by (intros i0 j0 d0 H; apply (S (Datatypes.S i0) (Datatypes.S j0)); cbn; lia).
      assert (Hb : In b l) by (apply IN; now left).
      destruct j as [|j]; [lia|]. destruct i as [|i]; cbn in Hij |- *.
      + assert (J : In (nth j (ins lt a t) d) (ins lt a t)) by (apply nth_In; lia). apply (Permutation_in _ (Permutation_sym (ins_perm lt a t))) in J. destruct J as [<-|J]; [now apply AS|].
        apply In_nth with (d := d) in J. destruct J as (q & Hq & <-). apply (S 0 (Datatypes.S q) d). cbn. lia.
      + apply IH; auto; [|lia]. intros x Hx. apply IN. now right.
    - assert (Hb : In b l) by (apply IN; now left). destruct j as [|j]; [lia|]. destruct i as [|i]; cbn in Hij |- *.
      + destruct j as [|j]; auto. cbn. apply (NT _ b a); auto; [apply IN; right; apply nth_In; lia|]. apply (S 0 (Datatypes.S j) d). cbn. lia.
      + apply (S i j d). cbn. lia. }
  apply SS; auto.
Qed.

Definition injq (q : Q) : T OQ := Q2Qc q.
(** Eigenvalues -1, 1/1000, 3 with tolerance 1/100: two are kept, 3 first. *)
Example C41_syeig_ex : sy_truncate Qmult isort (1 # 100) Eq [(-1) # 1; 1 # 1000; 3 # 1]%Q = Ok ([2; 0; 1], 2) /\
  (forall x y, In x [(-1) # 1; 1 # 1000; 3 # 1]%Q -> In y [(-1) # 1; 1 # 1000; 3 # 1]%Q ->
     (forall u, In u [(-1) # 1; 1 # 1000; 3 # 1]%Q -> (Qabs u <= Qabs y)%Q) -> (Qabs y <= Qabs x)%Q -> (0 < x)%Q).
Proof.
  split; [vm_compute; reflexivity|]. intros x y [<-|[<-|[<-|[]]]] Hy H1 H2; try reflexivity. exfalso.
  specialize (H1 (3 # 1)%Q ltac:(cbn; auto)). destruct Hy as [<-|[<-|[<-|[]]]]; vm_compute in H1, H2; firstorder.
Qed.
Example C41_syeig_negative_ex : sy_truncate Qmult isort (1 # 100) Eq [(-2) # 1; 0]%Q = Ok ([0; 1], 2) /\
  sy_apply OQ is0q injq (fun _ v => v) (mkSY 2 [(-2) # 1; 0]%Q [0; 1] 2) true [fq 1 1; fq 1 1] 0 = UB.
Proof. split; vm_compute; reflexivity. Qed.
Example C41_syeig_definite_ex : sy_truncate Qmult isort (1 # 100) Gt [0; 1]%Q = Ok ([0; 1], 2) /\ sy_truncate Qmult isort (1 # 100) Lt [(-1)#1; 0]%Q = Ok ([1; 0], 2).
Proof. split; vm_compute; reflexivity. Qed.
Example C41_lup_ex : lup_rank OQ is0q [fq 2 1; fq 0 1; fq 3 1] = Ok 1 /\ lup_solve OQ is0q (fun _ v => v) 3 [fq 2 1; fq 0 1; fq 3 1] [fq 1 1; fq 1 1; fq 1 1] false = UB /\
  lup_solve OQ is0q (fun _ v => v) 1 [fq 2 1] [fq 1 1] false = Ok [fq 1 1].
Proof. repeat split; vm_compute; reflexivity. Qed.
(** Two right-hand sides at once. *)
Example C50_several_ex : bind (qr_solve_mrhs OQ is0q (apply_q 2 ex_Q) (t0 OQ) (mkQR 2 2 ex_R [2; 1] 2) 2 [[fq 37 5; fq 6 1]; [fq 66 5; fq 8 1]] 0 false) (fun y => Ok (map (map this) y)) = Ok [[1; 0]; [1; 1]]%Q.
Proof. vm_compute. reflexivity. Qed.
(** A symmetric matrix with eigenvectors [ex_Q]: eigenvalues -1 and 4. *)
Definition ex_S (i j : nat) : T OQ := sum 2 (fun k => tmul OQ (tmul OQ (ex_Q i k) (injq (nth k [(-1) # 1; 4 # 1]%Q 0%Q))) (ex_Q j k)).
Example C50_syeig_ex : syev_ok (O := OQ) injq 2 ex_S [(-1) # 1; 4 # 1]%Q ex_Q (fun adj => apply_q 2 ex_Q adj 2) /\
  Permutation (seq 0 2) [1; 0] /\
  vals (sy_apply OQ is0q injq (fun adj => apply_q 2 ex_Q adj 2) (mkSY 2 [(-1) # 1; 4 # 1]%Q [1; 0] 2) true [ex_S 0 0; ex_S 1 0] 0) = Ok [1; 0]%Q /\
  sy_apply_mrhs OQ is0q injq (fun adj => apply_q 2 ex_Q adj 2) (mkSY 2 [(-1) # 1; 4 # 1]%Q [1; 0] 2) true 2 [[fq 1 1; fq 1 1]; [fq 1 1; fq 1 1]] 0 = UB.
Proof.
  split; [split|split; [repeat constructor|split; vm_compute; reflexivity]].
  - reflexivity.
  - intros i j Hi Hj. reflexivity.
  - intros [|[|i]] [|[|j]] Hi Hj; try lia; apply Qc_is_canon; vm_compute; reflexivity.
  - intros [|[|i]] [|[|j]] Hi Hj; try lia; apply Qc_is_canon; vm_compute; reflexivity.
  - intros b v L. apply (oq_len _ _ _ (apply_q_ok OQ 2 ex_Q OQ_ring)); auto.
  - intros v j L Hj. apply (oq_adj _ _ _ (apply_q_ok OQ 2 ex_Q OQ_ring)); auto.
  - intros v i L Hi. apply (oq_app _ _ _ (apply_q_ok OQ 2 ex_Q OQ_ring)); auto. intros; lia.
Qed.
