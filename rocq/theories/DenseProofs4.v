(** * DenseProofs4: the ranks. *)
From Coq Require Import List Arith Lia Bool QArith Qabs Lqa Permutation.
From Verif Require Import Base Scalar Spec VecProofs DenseModel DenseSpec DenseProofs1 DenseProofs2.
Import ListNotations.
Local Open Scope nat_scope.
Local Arguments bind {A B} !m f /.

Lemma qltb_t : forall a b, qltb a b = true <-> (a < b)%Q.
Proof.
  intros. unfold qltb. destruct (Qle_bool b a) eqn:E; cbn.
  - apply Qle_bool_iff in E. split; [discriminate|intros; lra].
  - split; auto. intros _. destruct (Qlt_le_dec a b); auto. apply Qle_bool_iff in q. congruence.
Qed.
Lemma qle_f : forall a b, Qle_bool a b = false <-> (b < a)%Q.
Proof.
  intros. destruct (Qle_bool a b) eqn:E.
  - apply Qle_bool_iff in E. split; [discriminate|intros; lra].
  - split; auto. intros _. destruct (Qlt_le_dec b a); auto. apply Qle_bool_iff in q. congruence.
Qed.

Section Rank.
  Variable O : Ops.
  Notation T := (T O).
  Variable is0 : T -> bool.
  Variable mag : T -> Q.
  Variable fmul : Q -> Q -> Q.
  Variable laic1 : bool -> nat -> list T -> Q -> list T -> T -> Q * T * T.
  Notation "0" := (t0 O).
  Variables (jv : T) (nr nc : nat) (m : list T).
  Hypothesis Hc : nc <= nr. Hypothesis Hc1 : 1 <= nc.
  Hypothesis Lm : length m = nr * nc.

  Lemma dg : forall i j, i < nr -> j < nc -> dget O nr m i j = Ok (cm nr m i j).
  Proof. intros. apply (dget_ok O nr nc); auto. lia. Qed.
  Lemma gc : forall r, r < nc -> get_col nr r m = Ok (map (fun i => cm nr m i r) (seq 0 nr)).
  Proof.
    intros r Hr. rewrite (get_col_ok nr nc) by auto. f_equal. apply (list_ext _ _ _ 0).
    - rewrite (col_length nr nc) by auto. now rewrite map_length, seq_length.
    - rewrite (col_length nr nc) by auto. intros i Hi. rewrite nth_map_seq by auto. unfold col, cm. rewrite nth_slice by auto. f_equal. lia.
  Qed.
  Lemma scale_loop : forall r (x : list T) a, r <= length x ->
    for_range 0 r (fun i x => v <- get x i ;; set x i (tmul O v a)) x =
    Ok (map (fun i => if i <? r then tmul O (nth i x 0) a else nth i x 0) (seq 0 (length x))).
  Proof.
    intros r x a Hr.
    assert (W : wp (for_range 0 r (fun i x => v <- get x i ;; set x i (tmul O v a)) x)
      (fun y => length y = length x /\ forall i, i < length x -> nth i y 0 = if i <? r then tmul O (nth i x 0) a else nth i x 0)).
    { apply (for_range_inv _ (fun k y => length y = length x /\ forall i, i < length x -> nth i y 0 = if i <? k then tmul O (nth i x 0) a else nth i x 0)); [lia| |].
      - split; auto.
      - intros k y Hk (L & H). wpb. apply (wp_get _ _ _ 0); [lia|]. apply wp_set; [lia|]. split; [rewrite upd_length; auto|].
        intros i Hi. rewrite nth_upd by lia. destruct (Nat.eqb_spec i k) as [->|N].
        + rewrite H by lia. destruct (Nat.ltb_spec k k), (Nat.ltb_spec k (S k)); try lia; auto.
        + rewrite H by lia. destruct (Nat.ltb_spec i k), (Nat.ltb_spec i (S k)); try lia; auto. }
    apply wp_inv in W. destruct W as (y & E & L & H). rewrite E. f_equal. apply (list_ext _ _ _ 0); [now rewrite map_length, seq_length|].
    intros i Hi. rewrite nth_map_seq by lia. apply H. lia.
  Qed.
  Lemma upd_map : forall r (x : list T) a c, r < length x ->
    upd (map (fun i => if i <? r then tmul O (nth i x 0) a else nth i x 0) (seq 0 (length x))) r c =
    map (fun i => if i <? r then tmul O (nth i x 0) a else if i =? r then c else nth i x 0) (seq 0 (length x)).
  Proof.
    intros r x a c Hr. apply (list_ext _ _ _ 0); [now rewrite upd_length, !map_length|]. rewrite upd_length, map_length, seq_length. intros i Hi.
    rewrite nth_upd by (now rewrite map_length, seq_length). rewrite !nth_map_seq by auto.
    destruct (Nat.eqb_spec i r) as [->|]; auto. destruct (Nat.ltb_spec r r); auto; lia.
  Qed.
  Definition ext (r : nat) (x : list T) (a c : T) : list T :=
    map (fun i => if i <? r then tmul O (nth i x 0) a else if i =? r then c else nth i x 0) (seq 0 nc).

  Lemma est_step : forall fuel tol r x y smin smax, r < nc -> length x = nc -> length y = nc ->
    est_loop O fmul laic1 (S fuel) nr m tol r x y smin smax =
    let W := map (fun i => cm nr m i r) (seq 0 nr) in
    let '(sminpr, s1, c1) := laic1 false r x smin W (cm nr m r r) in
    let '(smaxpr, s2, c2) := laic1 true r y smax W (cm nr m r r) in
    if Qle_bool smaxpr (fmul sminpr tol) then est_loop O fmul laic1 fuel nr m tol (S r) (ext r x s1 c1) (ext r y s2 c2) sminpr smaxpr else Ok r.
  Proof.
    intros fuel tol r x y smin smax Hr Lx Ly. cbn [est_loop]. rewrite gc by auto. cbn [bind]. rewrite dg by lia. cbn [bind]. cbn zeta.
    destruct (laic1 false _ _ _ _ _) as [[sminpr s1] c1]. destruct (laic1 true _ _ _ _ _) as [[smaxpr s2] c2].
    destruct (Qle_bool smaxpr (fmul sminpr tol)); auto.
    rewrite !scale_loop by lia. cbn [bind].
    assert (E : forall (u : list T) a c, length u = nc -> set (map (fun i => if i <? r then tmul O (nth i u 0) a else nth i u 0) (seq 0 (length u))) r c = Ok (ext r u a c)).
    { intros u a c L. rewrite set_ok by (rewrite map_length, seq_length; lia). rewrite upd_map by lia. unfold ext. now rewrite L. }
    rewrite (E x), (E y) by auto. cbn [bind]. auto.
  Qed.
  Lemma ext_len : forall r x a c, length (ext r x a c) = nc.
  Proof. intros. unfold ext. now rewrite map_length, seq_length. Qed.

  Section Safe.
    Hypothesis LA : laic1_ok is0 laic1.
    Hypothesis FM : fmul_ok fmul.

    Lemma est_loop_safe : forall fuel tol r x y smin smax, r + fuel = nc -> length x = nc -> length y = nc -> (0 <= smin)%Q -> (0 < smax)%Q ->
      wp (est_loop O fmul laic1 fuel nr m tol r x y smin smax) (fun k => r <= k <= nc /\ forall i, r <= i < k -> is0 (cm nr m i i) = false).
    Proof.
      induction fuel as [|fuel IH]; intros tol r x y smin smax Hr Lx Ly H1 H2.
      - cbn. split; [lia|]. intros; lia.
      - rewrite est_step by (auto; lia). cbn zeta. set (W := map _ _).
        pose proof (la_min0 _ _ LA r x smin W (cm nr m r r)) as M0. pose proof (la_min _ _ LA r x smin W (cm nr m r r) H1) as M1.
        pose proof (la_max _ _ LA r y smax W (cm nr m r r) H2) as M2.
        destruct (laic1 false _ _ _ _ _) as [[sminpr s1] c1]. destruct (laic1 true _ _ _ _ _) as [[smaxpr s2] c2]. cbn [fst] in *.
        destruct (Qle_bool smaxpr (fmul sminpr tol)) eqn:E.
        + eapply wp_conseq; [apply IH; auto using ext_len; lia|]. intros k (K1 & K2). split; [lia|]. intros i Hi.
          destruct (Nat.eq_dec i r) as [->|]; [|apply K2; lia]. destruct (is0 (cm nr m r r)) eqn:Z; auto. exfalso.
          specialize (M0 eq_refl H1). apply Qle_bool_iff in E. pose proof (fm_0 _ FM sminpr tol M0). lra.
        + cbn. split; [lia|]. intros; lia.
    Qed.
  End Safe.

  Section Deg.
    Hypothesis RL : RingLaws O.
    Hypothesis LS : laic1_special mag laic1.
    Variable tol : Q.
    Notation S0 := (mag (cm nr m 0%nat 0%nat)).
    Hypothesis P0 : (0 < S0)%Q.
    Hypothesis HD : forall i, i < nc -> (mag (cm nr m i i) <= S0)%Q.

    Lemma est_loop_deg : forall fuel r x y smin, r + fuel = nc -> length x = nc -> length y = nc ->
      min_est mag laic1 jv nr nc m r = (x, smin) -> (forall i, i < r -> nth i y 0 = 0) ->
      wp (est_loop O fmul laic1 fuel nr m tol r x y smin S0) (fun k => r <= k <= nc /\
        (forall i, r <= i < k -> (S0 <= fmul (snd (min_est mag laic1 jv nr nc m (S i))) tol)%Q) /\
        (k < nc -> (fmul (snd (min_est mag laic1 jv nr nc m (S k))) tol < S0)%Q)).
    Proof.
      induction fuel as [|fuel IH]; intros r x y smin Hr Lx Ly EM HY.
      - cbn. split; [lia|]. split; intros; lia.
      - rewrite est_step by (auto; lia). cbn zeta.
        assert (N : min_est mag laic1 jv nr nc m (S r) = let '(sminpr, s1, c1) := laic1 false r x smin (map (fun i => cm nr m i r) (seq 0 nr)) (cm nr m r r) in (ext r x s1 c1, sminpr)).
        { cbn [min_est]. rewrite EM. destruct (laic1 false r x smin _ _) as [[? ?] ?]. auto. }
        destruct (laic1 false _ _ _ _ _) as [[sminpr s1] c1].
        rewrite (ls_max _ _ LS) by (auto; apply HD; lia).
        destruct (Qle_bool S0 (fmul sminpr tol)) eqn:E.
        + eapply wp_conseq; [apply IH; auto using ext_len; [lia|]|].
          * intros i Hi. unfold ext. rewrite nth_map_seq by lia. destruct (Nat.ltb_spec i r).
            -- rewrite HY by auto. apply (mul0l O RL).
            -- destruct (Nat.eqb_spec i r); auto. lia.
          * intros k (K1 & K2 & K3). split; [lia|]. split; auto. intros i Hi. destruct (Nat.eq_dec i r) as [->|]; [|apply K2; lia].
            rewrite N. cbn. now apply Qle_bool_iff.
        + cbn [wp]. split; [lia|]. split; [intros; lia|]. intros _. rewrite N. cbn. now apply qle_f.
    Qed.

    Lemma est_rank_deg : wp (est_rank_2norm O mag fmul laic1 jv nr nc m tol) (fun k => k <= nc /\
        (forall i, i < k -> (S0 <= fmul (snd (min_est mag laic1 jv nr nc m (S i))) tol)%Q) /\
        (k < nc -> (fmul (snd (min_est mag laic1 jv nr nc m (S k))) tol < S0)%Q)).
    Proof.
      unfold est_rank_2norm. rewrite dg by lia. cbn [bind]. rewrite set_ok by (rewrite repeat_length; lia). cbn [bind].
      assert (E : upd (repeat jv nc) 0 (t1 O) = map (fun i => if i =? 0%nat then t1 O else jv) (seq 0 nc)).
      { apply (list_ext _ _ _ 0); [now rewrite upd_length, repeat_length, map_length, seq_length|]. rewrite upd_length, repeat_length. intros i Hi.
        rewrite nth_upd by (rewrite repeat_length; lia). rewrite nth_map_seq by auto. rewrite nth_repeat_any by auto. auto. }
      eapply wp_conseq; [apply est_loop_deg|]; auto; try (now rewrite upd_length, repeat_length).
      - cbn [min_est]. now rewrite E.
      - intros; lia.
      - intros k (K1 & K2 & K3). split; [lia|]. split; auto. intros i Hi. apply K2. lia.
    Qed.

    (** Diagonal [R]: the estimates are the diagonal entries. *)
    Hypothesis OFF : forall i j, i < j -> j < nc -> cm nr m i j = 0.
    Hypothesis DEC : forall i j, i <= j -> j < nc -> (mag (cm nr m j j) <= mag (cm nr m i i))%Q.
    Lemma min_est_diag : forall i, i < nc -> (forall k, k < i -> (0 < mag (cm nr m k k))%Q) -> snd (min_est mag laic1 jv nr nc m (S i)) = mag (cm nr m i i).
    Proof.
      induction i as [|i IH]; intros Hi HP.
      - cbn [min_est]. rewrite (ls_min _ _ LS); auto; first [intros; lia | lra].
      - specialize (IH ltac:(lia) ltac:(intros; apply HP; lia)). remember (S i) as i1 eqn:E1. cbn [min_est].
        destruct (min_est mag laic1 jv nr nc m i1) as [x s] eqn:E. cbn [snd] in IH. subst s.
        rewrite (ls_min _ _ LS); auto.
        + intros k Hk. right. rewrite nth_map_seq by lia. apply OFF; lia.
        + apply HP. lia.
        + apply DEC; lia.
    Qed.
  End Deg.

  Section Top.
    Variables diag_tol cond_def cond_opt : Q.
    Notation tol := (if Qle_bool cond_opt 0%Q then cond_def else cond_opt).
    Notation S0 := (mag (cm nr m 0%nat 0%nat)).
    Definition suspicious : Prop := exists i, i < nc /\ (mag (cm nr m i i) < fmul diag_tol S0)%Q.

    Lemma qrcp_rank_cases : exists t : bool,
      qrcp_rank O mag fmul laic1 jv diag_tol cond_def cond_opt nr nc m = (if t then est_rank_2norm O mag fmul laic1 jv nr nc m tol else Ok nc) /\
      (t = true <-> suspicious).
    Proof.
      unfold qrcp_rank. destruct (Nat.eqb_spec (nr * nc) 0%nat); [nia|]. destruct (Nat.ltb_spec nr nc); [lia|]. cbn zeta. rewrite dg by lia. cbn [bind].
      rewrite Nat.min_r by lia.
      assert (W : wp (for_down 0 nc (fun i t => d <- dget O nr m i i ;; Ok (t || qltb (mag d) (fmul diag_tol S0))) false)
        (fun t => t = true <-> exists i, i < nc /\ (mag (cm nr m i i) < fmul diag_tol S0)%Q)).
      { eapply wp_conseq; [apply (for_down_inv _ (fun q t => t = true <-> exists i, q <= i < nc /\ (mag (cm nr m i i) < fmul diag_tol S0)%Q) nc 0)|].
        - cbn. split; [discriminate|]. intros (i & Hi & _). lia.
        - cbn [Nat.add]. intros i t Hi Ht. rewrite dg by lia. cbn. rewrite orb_true_iff, Ht, qltb_t. split.
          + intros [(k & Hk & L)|L]; [exists k; split; auto; lia|exists i; split; auto; lia].
          + intros (k & Hk & L). destruct (Nat.eq_dec k i) as [->|]; auto. left. exists k. split; auto. lia.
        - intros t Ht. rewrite Ht. split; intros (i & Hi & L); exists i; split; auto; lia. }
      apply wp_inv in W. destruct W as (t & E & Ht). rewrite E. cbn [bind]. exists t. split; auto.
    Qed.
  End Top.
End Rank.

(** ** Symmetric eigenvalue solver: the order and the rank *)
Section Sy.
  Lemma scan_skip : forall bad l1 l2 r, (forall x, In x l1 -> bad x = true) -> scan_bad bad (l1 ++ l2) r = scan_bad bad l2 (r - length l1).
  Proof.
    induction l1 as [|a l1 IH]; intros l2 r H; cbn; [now rewrite Nat.sub_0_r|]. rewrite (H a) by now left. rewrite IH by (intros; apply H; now right). f_equal. lia.
  Qed.
  Lemma scan_split : forall bad g b, (forall x, In x g -> bad x = false) -> (forall x, In x b -> bad x = true) ->
    scan_bad bad (rev (g ++ b)) (length (g ++ b)) = length g.
  Proof.
    intros bad g b Hg Hb. rewrite rev_app_distr, scan_skip by (intros x Hx; apply Hb; now apply in_rev). rewrite rev_length, app_length.
    replace (length g + length b - length b) with (length g) by lia. destruct g as [|a g'] using rev_ind; auto. rewrite rev_app_distr. cbn.
    now rewrite Hg by (apply in_or_app; right; now left).
  Qed.
  Lemma split_sorted : forall (bad : Q -> bool) u, (forall i j, i < j -> j < length u -> bad (nth j u 0%Q) = false -> bad (nth i u 0%Q) = false) ->
    exists g b, u = g ++ b /\ (forall x, In x g -> bad x = false) /\ (forall x, In x b -> bad x = true).
  Proof.
    intros bad. induction u as [|x u IH]; intros H; [exists [], []; cbn; intuition|]. destruct (bad x) eqn:E.
    - exists [], (x :: u). cbn [app]. split; auto. split; [intros y []|]. intros y [<-|Hy]; auto. destruct (bad y) eqn:F; auto. exfalso.
      apply In_nth with (d := 0%Q) in Hy. destruct Hy as (j & Hj & <-). specialize (H 0 (S j) ltac:(lia) ltac:(cbn; lia) F). cbn in H. congruence.
    - destruct IH as (g & b & -> & G & B).
      { intros i j Hi Hj F. apply (H (S i) (S j)); auto; cbn; lia. }
      exists (x :: g), b. split; auto. split; auto. intros y [<-|Hy]; auto.
  Qed.
  Lemma max_abs_l : forall l a, In (max_abs a l) (a :: l) /\ (forall x, In x (a :: l) -> Qabs x <= Qabs (max_abs a l))%Q.
  Proof.
    induction l as [|b l IH]; intros a; cbn [max_abs].
    - split; [now left|]. intros x [<-|[]]. lra.
    - destruct (IH (if qltb (Qabs a) (Qabs b) then b else a)) as (I1 & I2). split.
      + destruct I1 as [E|I1]; [rewrite <- E; destruct (qltb (Qabs a) (Qabs b)); cbn; auto|right; now right].
      + intros x Hx. pose proof (I2 _ (or_introl eq_refl)) as M. destruct (qltb (Qabs a) (Qabs b)) eqn:E.
        * apply qltb_t in E. destruct Hx as [<-|[<-|Hx]]; [lra|lra|apply I2; now right].
        * assert (~ (Qabs a < Qabs b)%Q) by (rewrite <- qltb_t; congruence). destruct Hx as [<-|[<-|Hx]]; [lra|lra|apply I2; now right].
  Qed.

  Variable fmul : Q -> Q -> Q.
  Variable sort : (nat -> nat -> bool) -> list nat -> list nat.
  Hypothesis SO : sort_ok sort.
  Variable w : list Q.
  Notation n := (length w).
  Notation wv i := (nth i w 0%Q).
  Definition by_mag (a b : nat) : bool := qltb (Qabs (wv b)) (Qabs (wv a)).
  Lemma sort_l : Permutation (seq 0 n) (sort by_mag (seq 0 n)) /\
    forall i j, i < j < n -> (Qabs (wv (nth j (sort by_mag (seq 0 n)) 0%nat)) <= Qabs (wv (nth i (sort by_mag (seq 0 n)) 0%nat)))%Q.
  Proof.
    destruct (SO by_mag (seq 0 n)) as (P & S).
    - intros a _. unfold by_mag. destruct (qltb _ _) eqn:E; auto. apply qltb_t in E. lra.
    - intros a b c _ _ _. unfold by_mag. rewrite !qltb_t. intros; lra.
    - intros a b c _ _ _. unfold by_mag, qltb. rewrite !negb_false_iff, !Qle_bool_iff. intros; lra.
    - split; auto. intros i j Hij. rewrite <- (seq_length n 0) in Hij at 1. specialize (S i j 0%nat Hij). unfold by_mag, qltb in S. rewrite negb_false_iff in S. now apply Qle_bool_iff in S.
  Qed.

  Lemma sy_indefinite : forall eps, w <> [] -> exists M order rank,
    sy_truncate fmul sort eps Eq w = Ok (order, rank) /\ In M w /\ (forall x, In x w -> Qabs x <= Qabs M)%Q /\
    Permutation (seq 0 n) order /\ rank = length (filter (fun x => qltb (fmul eps M) (Qabs x)) w) /\
    (forall i, i < n -> i < rank <-> (fmul eps M < Qabs (wv (nth i order 0%nat)))%Q).
  Proof.
    intros eps NE. destruct w as [|w0 wt] eqn:EW; [congruence|]. cbn [sy_truncate]. rewrite <- EW in *.
    destruct (max_abs_l wt w0) as (I1 & I2). rewrite <- EW in I1, I2. set (M := max_abs w0 wt) in *. cbn zeta.
    destruct sort_l as (P & S). fold by_mag. set (order := sort by_mag (seq 0 n)) in *.
    set (u := map (fun i => wv i) order). set (small := fun x => Qle_bool (Qabs x) (fmul eps M)).
    pose proof (Permutation_length P) as LP. rewrite seq_length in LP.
    assert (Lu : length u = n) by (unfold u; rewrite map_length; lia).
    assert (NU : forall i, i < n -> nth i u 0%Q = wv (nth i order 0%nat)).
    { intros i Hi. unfold u. rewrite nth_indep with (d' := (fun i => wv i) 0%nat) by (rewrite map_length; lia). apply (map_nth (fun i => wv i)). }
    destruct (split_sorted small u) as (g & b & EU & G & B).
    { intros i j Hij Hj F. rewrite !NU in * by lia. specialize (S i j ltac:(lia)). unfold small in *. apply qle_f in F. apply qle_f. lra. }
    exists M, order, (scan_bad small (rev u) n). split; [reflexivity|]. split; auto. split; auto. split; auto.
    assert (R : scan_bad small (rev u) n = length g). { rewrite <- Lu, EU. now apply scan_split. }
    rewrite R. split.
    - assert (PW : Permutation w u).
      { transitivity (map (fun i => wv i) (seq 0 n)).
        - replace w with (map (fun i => wv i) (seq 0 n)) at 1; auto. apply (list_ext _ _ _ 0%Q); [now rewrite map_length, seq_length|].
          rewrite map_length, seq_length. intros i Hi. now rewrite nth_map_seq.
        - unfold u. now apply Permutation_map. }
      assert (FL : forall l1 l2 : list Q, Permutation l1 l2 -> length (filter (fun x => qltb (fmul eps M) (Qabs x)) l1) = length (filter (fun x => qltb (fmul eps M) (Qabs x)) l2)).
      { induction 1; cbn; auto; repeat match goal with |- context [if ?c then _ else _] => destruct c end; cbn; auto; lia. }
      rewrite (FL _ _ PW), EU, filter_app.
      assert (F1 : filter (fun x => qltb (fmul eps M) (Qabs x)) g = g).
      { clear - G. induction g; auto. cbn. assert (E : qltb (fmul eps M) (Qabs a) = true) by (apply qltb_t, qle_f, (G a); now left). rewrite E. f_equal. apply IHg. intros; apply G; now right. }
      assert (F2 : filter (fun x => qltb (fmul eps M) (Qabs x)) b = []).
      { clear - B. induction b; auto. cbn. destruct (qltb (fmul eps M) (Qabs a)) eqn:E; [|apply IHb; intros; apply B; now right].
        exfalso. apply qltb_t in E. specialize (B a (or_introl eq_refl)). unfold small in B. apply Qle_bool_iff in B. lra. }
      rewrite F1, F2, app_nil_r. auto.
    - intros i Hi. rewrite <- NU by auto. rewrite EU. split.
      + intros Hg. rewrite app_nth1 by auto. apply qle_f, (G _ (nth_In g 0%Q Hg)).
      + intros L. destruct (Nat.lt_ge_cases i (length g)); auto. exfalso. rewrite app_nth2 in L by auto.
        assert (Hb : i - length g < length b). { rewrite EU, app_length in Lu. lia. }
        pose proof (B _ (nth_In b 0%Q Hb)) as F. unfold small in F. apply Qle_bool_iff in F. lra.
  Qed.
End Sy.
