(** * CSProofs: products and triangular solves. *)
From Coq Require Import List Arith Lia Bool Ring.
From Verif Require Import Base Scalar Spec CSModel CSSpec.
Import ListNotations.

Section P.
  Variable O : Ops.
  Notation T := (T O).
  Notation "0" := (t0 O).
  Infix "+" := (tadd O). Infix "*" := (tmul O). Infix "-" := (tsub O).

  (** ** Facts that need no algebra *)

  Lemma fill_n_wp : forall A (y : list A) cnt v (Q : list A -> Prop),
    (cnt <= length y)%nat ->
    (forall y', length y' = length y ->
       (forall i d, (i < cnt)%nat -> nth i y' d = v) ->
       (forall i d, (cnt <= i)%nat -> nth i y' d = nth i y d) -> Q y') ->
    wp (fill_n y cnt v) Q.
  Proof.
    intros A y cnt v Q H HQ. unfold fill_n. destruct (Nat.leb_spec cnt (length y)); [|lia].
    simpl. apply HQ.
    - rewrite app_length, repeat_length, skipn_length. lia.
    - intros. rewrite app_nth1 by (rewrite repeat_length; auto). now apply nth_repeat_any.
    - intros. rewrite app_nth2 by (rewrite repeat_length; auto).
      rewrite repeat_length, nth_skipn'. f_equal. lia.
  Qed.

  (** The gather loop computes the row sum, operation by operation. *)
  Lemma gather_wp : forall A i x (h : T -> T -> T), wf A -> (i < psize A)%nat ->
    (ssize A <= length x)%nat ->
    row_iter O A i (fun j v tmp => xj <- get x j ;; Ok (tmp + h v xj)) 0
      = Ok (rsum A i (fun j v => h v (v_ x j))).
  Proof.
    intros A i x h W Hi Hx.
    assert (H : wp (row_iter O A i (fun j v tmp => xj <- get x j ;; Ok (tmp + h v xj)) 0)
      (fun tmp => tmp = sum (Nat.sub (st A (S i)) (st A i))
          (fun q => h (vl A (Nat.add (st A i) q)) (v_ x (ix A (Nat.add (st A i) q)))))).
    { apply (row_iter_wp O T
        (fun k tmp => tmp = sum (Nat.sub k (st A i))
          (fun q => h (vl A (Nat.add (st A i) q)) (v_ x (ix A (Nat.add (st A i) q)))))); auto.
      - now rewrite Nat.sub_diag.
      - intros k s Hk Hr Hs. wpb. apply wp_get with (d := 0); [lia|]. apply wp_ok.
        rewrite Nat.sub_succ_l by lia. simpl. rewrite Hs.
        replace (Nat.add (st A i) (Nat.sub k (st A i))) with k by lia. reflexivity. }
    apply wp_inv in H. destruct H as (a & E & Ha).
    rewrite E, Ha. reflexivity.
  Qed.

  Section Laws.
    Hypothesis RL : RingLaws O.
    Add Ring TP : (rl_ring O RL).

    (** The scatter loop: [y[idx] = upd y[idx] v] with [upd a v = a + g v]. *)
    Lemma scatter_wp : forall A i (g : T -> T) f y, wf A -> (i < psize A)%nat ->
      (ssize A <= length y)%nat ->
      (forall a v, f a v = a + g v) ->
      wp (row_iter O A i (fun j v y => yj <- get y j ;; set y j (f yj v)) y)
         (fun y' => length y' = length y /\
            forall c, v_ y' c = v_ y c + rsum A i (fun j v => if Nat.eqb j c then g v else 0)).
    Proof.
      intros A i g f y W Hi Hy Hf.
      eapply wp_conseq.
      - apply (row_iter_wp O (list T)
        (fun k y' => length y' = length y /\ forall c,
           v_ y' c = v_ y c + sum (Nat.sub k (st A i)) (fun q =>
             if Nat.eqb (ix A (Nat.add (st A i) q)) c then g (vl A (Nat.add (st A i) q)) else 0)));
          auto.
        + split; auto. intros c. rewrite Nat.sub_diag. simpl. ring.
        + intros k s Hk Hr [Ls Hs]. wpb. apply wp_get with (d := 0); [lia|].
          apply wp_set; [lia|]. split. now rewrite upd_length.
          intros c. rewrite Nat.sub_succ_l by lia. simpl.
          replace (Nat.add (st A i) (Nat.sub k (st A i))) with k by lia.
          unfold v_ at 1. rewrite nth_upd by lia. rewrite Hf.
          destruct (Nat.eqb_spec c (ix A k)).
          * subst. rewrite Nat.eqb_refl. fold (v_ s (ix A k)). rewrite Hs. ring.
          * destruct (Nat.eqb_spec (ix A k) c); [congruence|].
            fold (v_ s c). rewrite Hs. ring.
      - intros y' [L H]. split; auto.
    Qed.

    Lemma scatter_rev_wp : forall A i (g : T -> T) f y, wf A -> (i < psize A)%nat ->
      (ssize A <= length y)%nat ->
      (forall a v, f a v = a + g v) ->
      wp (row_iter_rev O A i (fun j v y => yj <- get y j ;; set y j (f yj v)) y)
         (fun y' => length y' = length y /\
            forall c, v_ y' c = v_ y c + rsum A i (fun j v => if Nat.eqb j c then g v else 0)).
    Proof.
      intros A i g f y W Hi Hy Hf.
      set (G := fun c k => if Nat.eqb (ix A k) c then g (vl A k) else 0).
      eapply wp_conseq.
      - apply (row_iter_rev_wp O (list T)
        (fun k y' => length y' = length y /\ forall c,
           v_ y' c = v_ y c + sum (Nat.sub (st A (S i)) k) (fun q => G c (Nat.add k q))));
          auto.
        + split; auto. intros c. rewrite Nat.sub_diag. simpl. ring.
        + intros k s Hk Hr [Ls Hs]. wpb. apply wp_get with (d := 0); [lia|].
          apply wp_set; [lia|]. split. now rewrite upd_length.
          intros c. replace (Nat.sub (st A (S i)) k) with (S (Nat.sub (st A (S i)) (S k))) by lia.
          rewrite sum_S_l by auto. rewrite Nat.add_0_r.
          rewrite (sum_ext O _ _ (fun q => G c (Nat.add (S k) q)))
            by (intros; f_equal; lia).
          unfold v_ at 1. rewrite nth_upd by lia. rewrite Hf.
          unfold G at 1.
          destruct (Nat.eqb_spec c (ix A k)).
          * subst. rewrite Nat.eqb_refl. fold (v_ s (ix A k)). rewrite Hs. ring.
          * destruct (Nat.eqb_spec (ix A k) c); [congruence|].
            fold (v_ s c). rewrite Hs. ring.
      - intros y' [L H]. split; auto.
    Qed.

    Lemma conj_lin : (forall a b, tconj O (a + b) = tconj O a + tconj O b) /\ tconj O 0 = 0.
    Proof. split. apply (rl_conj_add O RL). apply conj_0; auto. Qed.

    (** ** Gather products *)
    Lemma gather_product : forall A x (f : T -> T -> T) (h : T -> T) y,
      wf A -> (ssize A <= length x)%nat -> (psize A <= length y)%nat ->
      (forall a b, h (a + b) = h a + h b) -> h 0 = 0 ->
      (forall v a, f v a = h v * a) ->
      forall lo hi, (lo <= hi)%nat -> (hi <= psize A)%nat ->
      wp (for_range lo hi (fun i y =>
           tmp <- row_iter O A i (fun j v tmp => xj <- get x j ;; Ok (tmp + f v xj)) 0 ;;
           set y i tmp) y)
         (fun y' => length y' = length y /\
           (forall i, (lo <= i < hi)%nat -> v_ y' i = sum (ssize A) (fun j => h (ent A i j) * v_ x j)) /\
           (forall i, ~ (lo <= i < hi)%nat -> v_ y' i = v_ y i)).
    Proof.
      intros A x f h y W Hx Hy Ha H0 Hf lo hi L1 L2.
      eapply wp_conseq.
      - apply (for_range_inv _ (fun k y' => length y' = length y /\
           (forall i, (lo <= i < k)%nat -> v_ y' i = sum (ssize A) (fun j => h (ent A i j) * v_ x j)) /\
           (forall i, ~ (lo <= i < k)%nat -> v_ y' i = v_ y i))); auto.
        + split; auto. split; intros; auto; lia.
        + intros i s Hi (Ls & Hs & Hn). rewrite (gather_wp A i x f) by (auto; lia). simpl.
          apply wp_set; [lia|]. rewrite upd_length. split; auto. split.
          * intros q Hq. unfold v_ at 1. rewrite nth_upd by lia.
            destruct (Nat.eqb_spec q i).
            -- subst. rewrite <- rsum_mvec by (auto; lia).
               apply rsum_ext; auto; try lia.
            -- apply Hs; lia.
          * intros q Hq. unfold v_ at 1. rewrite nth_upd by lia.
            destruct (Nat.eqb_spec q i); [lia|]. apply Hn; lia.
      - intros y' (L & H1 & H2). auto.
    Qed.

    Lemma crs_multiply_nt_part_correct : forall A x istart len y,
      wf A -> (ssize A <= length x)%nat -> (psize A <= length y)%nat ->
      (Nat.add istart len <= psize A)%nat ->
      exists y', crs_multiply_nt_part O A x istart len y = Ok y' /\ length y' = length y /\
        (forall i, (istart <= i < Nat.add istart len)%nat -> v_ y' i = mvec (ssize A) (crs_mat A) (v_ x) i) /\
        (forall i, ~ (istart <= i < Nat.add istart len)%nat -> v_ y' i = v_ y i).
    Proof.
      intros A x istart len y W Hx Hy Hl.
      apply wp_inv. unfold crs_multiply_nt_part.
      apply (gather_product A x (fun v a => v * a) (fun v => v)); auto; lia.
    Qed.

    Lemma crs_multiply_nt_low_correct : forall A x y,
      wf A -> (ssize A <= length x)%nat -> (psize A <= length y)%nat ->
      exists y', crs_multiply_nt_low O A x y = Ok y' /\ length y' = length y /\
        veq (psize A) (v_ y') (mvec (ssize A) (crs_mat A) (v_ x)) /\
        (forall i, (psize A <= i)%nat -> v_ y' i = v_ y i).
    Proof.
      intros A x y W Hx Hy.
      destruct (crs_multiply_nt_part_correct A x Datatypes.O (psize A) y W Hx Hy) as (y' & E & L & H1 & H2).
      { simpl; lia. }
      exists y'. split; auto. split; auto. split.
      - intros i Hi. apply H1. simpl; lia.
      - intros i Hi. apply H2. simpl; lia.
    Qed.

    Lemma ccs_multiply_t_low_correct : forall A x y,
      wf A -> (ssize A <= length x)%nat -> (psize A <= length y)%nat ->
      exists y', ccs_multiply_t_low O A x y = Ok y' /\ length y' = length y /\
        veq (psize A) (v_ y') (mvec (ssize A) (madj (ccs_mat A)) (v_ x)) /\
        (forall i, (psize A <= i)%nat -> v_ y' i = v_ y i).
    Proof.
      intros A x y W Hx Hy. apply wp_inv. unfold ccs_multiply_t_low.
      eapply wp_conseq.
      - apply (gather_product A x (fun v a => a * tconj O v) (tconj O)); auto; try lia;
          try apply conj_lin. intros; ring.
      - intros y' (L & H1 & H2). split; auto. split.
        + intros i Hi. apply H1. lia.
        + intros i Hi. apply H2. lia.
    Qed.

    (** ** Scatter products *)
    Lemma scatter_product : forall A x (f : T -> T -> T) (h : T -> T) y,
      wf A -> (psize A <= length x)%nat -> (ssize A <= length y)%nat ->
      (forall a b, h (a + b) = h a + h b) -> h 0 = 0 ->
      (forall v a, f v a = h v * a) ->
      wp (y <- fill_n y (ssize A) 0 ;;
          for_range Datatypes.O (psize A) (fun i y =>
           temp <- get x i ;;
           row_iter O A i (fun j v y => yj <- get y j ;; set y j (yj + f v temp)) y) y)
         (fun y' => length y' = length y /\
           (forall i, (i < ssize A)%nat -> v_ y' i = sum (psize A) (fun j => h (ent A j i) * v_ x j)) /\
           (forall i, (ssize A <= i)%nat -> v_ y' i = v_ y i)).
    Proof.
      intros A x f h y W Hx Hy Ha H0 Hf. wpb. apply fill_n_wp; auto.
      intros y0 L0 Z0 F0.
      eapply wp_conseq.
      - apply (for_range_inv _ (fun k y' => length y' = length y /\
           (forall i, (i < ssize A)%nat -> v_ y' i = sum k (fun j => h (ent A j i) * v_ x j)) /\
           (forall i, (ssize A <= i)%nat -> v_ y' i = v_ y i))); [lia| |].
        + split; auto. split.
          * intros i Hi. simpl. apply Z0; auto.
          * intros i Hi. apply F0; auto.
        + intros k s Hk (Ls & Hs & Hn). wpb. apply wp_get with (d := 0); [lia|].
          fold (v_ x k). eapply wp_conseq.
          * apply (scatter_wp A k (fun v => h v * v_ x k) (fun a v => a + f v (v_ x k)));
              auto; try lia. intros; now rewrite Hf.
          * intros y' (L' & H'). split; [lia|].
            assert (Hl : forall i, rsum A k (fun j v => if Nat.eqb j i then h v * v_ x k else 0)
                              = h (ent A k i) * v_ x k).
            { intros i. rewrite <- (rsum_ent_lin O A k i (fun v => h v * v_ x k)); auto.
              - intros. rewrite Ha. ring.
              - rewrite H0. ring. }
            split.
            -- intros i Hi. rewrite H', Hl, Hs by auto. reflexivity.
            -- intros i Hi. rewrite H', Hl, Hn by auto.
               rewrite ent_outside by (auto; lia). rewrite H0. ring.
      - intros y' (L & H1 & H2). auto.
    Qed.

    Lemma ccs_multiply_nt_low_correct : forall A x y,
      wf A -> (psize A <= length x)%nat -> (ssize A <= length y)%nat ->
      exists y', ccs_multiply_nt_low O A x y = Ok y' /\ length y' = length y /\
        veq (ssize A) (v_ y') (mvec (psize A) (ccs_mat A) (v_ x)) /\
        (forall i, (ssize A <= i)%nat -> v_ y' i = v_ y i).
    Proof.
      intros A x y W Hx Hy. apply wp_inv.
      pose proof (scatter_product A x (fun v a => a * v) (fun v => v) y W Hx Hy
        ltac:(auto) ltac:(auto) ltac:(intros; cbv beta; ring)) as H.
      unfold ccs_multiply_nt_low. destruct (fill_n y (ssize A) 0) as [y0| |]; simpl in *; auto.
      destruct (Nat.eqb_spec (psize A) Datatypes.O) as [E|E].
      - rewrite E in H. unfold for_range in H. simpl in H.
        simpl. destruct H as (L & H1 & H2). split; auto. split; auto.
        intros i Hi. rewrite E. apply H1; auto.
      - eapply wp_conseq; [exact H|]. intros y' (L & H1 & H2). split; auto.
    Qed.

    Lemma crs_multiply_t_low_correct : forall A x y,
      wf A -> (0 < psize A)%nat -> (psize A <= length x)%nat -> (ssize A <= length y)%nat ->
      exists y', crs_multiply_t_low O A x y = Ok y' /\ length y' = length y /\
        veq (ssize A) (v_ y') (mvec (psize A) (madj (crs_mat A)) (v_ x)) /\
        (forall i, (ssize A <= i)%nat -> v_ y' i = v_ y i).
    Proof.
      intros A x y W Hp Hx Hy. apply wp_inv.
      pose proof (scatter_product A x (fun v a => a * tconj O v) (tconj O) y W Hx Hy
        (proj1 conj_lin) (proj2 conj_lin) ltac:(intros; cbv beta; ring)) as H.
      unfold crs_multiply_t_low. destruct (Nat.eqb_spec (psize A) Datatypes.O) as [E|E]; [lia|].
      eapply wp_conseq; [exact H|]. intros y' (L & H1 & H2). split; auto.
    Qed.

    (** ** Diagonal scaling *)
    Lemma scale_secondary_correct : forall A t,
      wf A -> (ssize A <= length t)%nat -> length (indices A) = st A (psize A) ->
      exists A', scale_secondary O A t = Ok A' /\ wf A' /\
        psize A' = psize A /\ ssize A' = ssize A /\ ind_start A' = ind_start A /\
        indices A' = indices A /\
        forall i j, (i < psize A)%nat -> (j < ssize A)%nat -> ent A' i j = ent A i j * v_ t j.
    Proof.
      intros A t W Ht Hi. apply wp_inv. unfold scale_secondary.
      destruct (Nat.ltb_spec (length t) (ssize A)); [lia|].
      wpb. rewrite Hi. eapply wp_conseq.
      - apply (for_range_inv _ (fun k vs => length vs = length (vals A) /\
          (forall q, (q < k)%nat -> nth q vs 0 = vl A q * v_ t (ix A q)) /\
          (forall q, (k <= q)%nat -> nth q vs 0 = vl A q))); [lia| |].
        + split; auto. split; auto. intros; lia.
        + intros k vs Hk (L & H1 & H2).
          assert (Lv := wf_vals O A W). assert (Lr := wf_range O A W k ltac:(lia)).
          wpb. apply wp_get with (d := Datatypes.O); [lia|].
          wpb. apply wp_get with (d := 0); [lia|]. fold (ix A k).
          wpb. apply wp_get with (d := 0); [lia|].
          apply wp_set; [lia|]. rewrite upd_length. split; auto. split.
          * intros q Hq. rewrite nth_upd by lia. destruct (Nat.eqb_spec q k).
            -- subst. now rewrite H2.
            -- apply H1; lia.
          * intros q Hq. rewrite nth_upd by lia. destruct (Nat.eqb_spec q k); [lia|].
            apply H2; lia.
      - intros vs (L & H1 & _). simpl. split.
        { destruct W; constructor; simpl; auto. fold (st A (psize A)).
          unfold st in *; simpl; lia. }
        repeat split; auto. intros i j Hi' Hj. unfold ent, rsum. simpl.
        rewrite <- (sum_scal_r O RL). apply sum_ext. intros q Hq.
        assert (B : (st A (S i) <= st A (psize A))%nat) by (apply st_mono; auto; lia).
        unfold st, ix, vl in *. simpl in *.
        rewrite H1 by lia.
        destruct (Nat.eqb_spec (nth (nth i (ind_start A) Datatypes.O + q) (indices A) Datatypes.O) j).
        + subst. reflexivity.
        + ring.
    Qed.

    Lemma scale_primary_correct : forall A s,
      wf A -> length (ind_start A) = S (psize A) -> (psize A <= length s)%nat ->
      exists A', scale_primary O A s = Ok A' /\ wf A' /\
        psize A' = psize A /\ ssize A' = ssize A /\ ind_start A' = ind_start A /\
        indices A' = indices A /\
        forall i j, (i < psize A)%nat -> (j < ssize A)%nat -> ent A' i j = v_ s i * ent A i j.
    Proof.
      intros A s W Hl Hs. apply wp_inv. unfold scale_primary.
      destruct (Nat.ltb_spec (Nat.add (length s) 1) (length (ind_start A))); [lia|].
      wpb. rewrite Hl. eapply wp_conseq.
      - apply (for_range_inv _ (fun k vs => length vs = length (vals A) /\
          (forall i q, (i < Nat.sub k 1)%nat -> (st A i <= q < st A (S i))%nat -> nth q vs 0 = vl A q * v_ s i) /\
          (forall q, (st A (Nat.sub k 1) <= q)%nat -> nth q vs 0 = vl A q))); [lia| |].
        + simpl. split; auto. split; auto. intros; lia.
        + intros k vs Hk (L & H1 & H2). destruct k as [|k]; [lia|].
          rewrite Nat.sub_succ, Nat.sub_0_r in *.
          wpb. apply wp_get with (d := 0); [lia|]. fold (v_ s k).
          wpb. apply wp_get with (d := Datatypes.O); [lia|].
          wpb. apply wp_get with (d := Datatypes.O); [lia|].
          fold (st A k). fold (st A (S k)).
          assert (M := wf_mono O A W k ltac:(lia)).
          assert (B : (st A (S k) <= st A (psize A))%nat) by (apply st_mono; auto; lia).
          assert (Lv := wf_vals O A W).
          destruct (Nat.ltb_spec (st A (S k)) (st A k)); [lia|].
          eapply wp_conseq.
          * apply (for_range_inv _ (fun q0 vs' => length vs' = length (vals A) /\
              (forall q, (st A k <= q < q0)%nat -> nth q vs' 0 = vl A q * v_ s k) /\
              (forall q, ~ (st A k <= q < q0)%nat -> nth q vs' 0 = nth q vs 0))); auto.
            -- split; auto. split; auto. intros; lia.
            -- intros q0 vs' Hq (L' & G1 & G2).
               wpb. apply wp_get with (d := 0); [lia|]. apply wp_set; [lia|].
               rewrite upd_length. split; auto. split.
               ++ intros q Hq'. rewrite nth_upd by lia. destruct (Nat.eqb_spec q q0).
                  ** subst. rewrite G2, H2 by lia. reflexivity.
                  ** apply G1; lia.
               ++ intros q Hq'. rewrite nth_upd by lia. destruct (Nat.eqb_spec q q0); [lia|].
                  apply G2; lia.
          * intros vs' (L' & G1 & G2). split; auto. split.
            -- intros i q Hi Hq. destruct (Nat.eq_dec i k).
               ++ subst. apply G1; auto.
               ++ assert ((st A (S i) <= st A k)%nat) by (apply st_mono; auto; lia).
                  rewrite G2 by lia. apply H1; auto; lia.
            -- intros q Hq. cbn in Hq. rewrite G2 by lia. apply H2; lia.
      - intros vs (L & H1 & _). rewrite Nat.sub_succ, Nat.sub_0_r in *. simpl. split.
        { destruct W; constructor; simpl; auto. unfold st in *; simpl; lia. }
        repeat split; auto. intros i j Hi' Hj. unfold ent, rsum. simpl.
        rewrite <- (sum_scal_l O RL). apply sum_ext. intros q Hq.
        unfold st, ix, vl in *. simpl in *.
        rewrite (H1 i) by lia. destruct (Nat.eqb _ j); ring.
    Qed.

    (** ** Triangular solves *)

    Lemma sum_skip : forall n (M : nat -> T) j (x y : nat -> T),
      M j = 0 -> (forall k, (k < n)%nat -> k <> j -> x k = y k) ->
      sum n (fun k => M k * x k) = sum n (fun k => M k * y k).
    Proof.
      intros n M j x y HM H. apply sum_ext. intros k Hk. destruct (Nat.eq_dec k j).
      - subst. rewrite HM. ring.
      - now rewrite H.
    Qed.

    (** [body j] performs a row (gather) elimination step with the matrix [M]. *)
    Definition gstep n (M : nat -> nat -> T) (body : nat -> list T -> res (list T)) : Prop :=
      forall j y, (j < n)%nat -> (n <= length y)%nat ->
      wp (body j y) (fun y' => length y' = length y /\
        v_ y' j = v_ y j - sum n (fun k => M j k * v_ y k) /\
        forall i, i <> j -> v_ y' i = v_ y i).
    (** [body j] performs a column (scatter) elimination step with the matrix [M]. *)
    Definition sstep n (M : nat -> nat -> T) (body : nat -> list T -> res (list T)) : Prop :=
      forall j y, (j < n)%nat -> (n <= length y)%nat ->
      wp (body j y) (fun y' => length y' = length y /\
        (forall i, (i < n)%nat -> v_ y' i = v_ y i - M i j * v_ y j) /\
        (forall i, (n <= i)%nat -> v_ y' i = v_ y i)).

    (** What a solve with unit triangular [I + M] must do. *)
    Definition solves n (M : nat -> nat -> T) (b y' : list T) : Prop :=
      length y' = length b /\
      veq n (mvec n (madd mid M) (v_ y')) (v_ b) /\
      (forall i, (n <= i)%nat -> v_ y' i = v_ b i).

    Lemma solves_intro : forall n M b y', length y' = length b ->
      (forall i, (i < n)%nat -> v_ y' i + sum n (fun k => M i k * v_ y' k) = v_ b i) ->
      (forall i, (n <= i)%nat -> v_ y' i = v_ b i) -> solves n M b y'.
    Proof.
      intros n M b y' L H F. split; auto. split; auto. intros i Hi.
      rewrite (mvec_madd O RL), (mvec_mid O RL) by auto. apply H; auto.
    Qed.

    Lemma fwd_gather : forall n M body b, strict_lower n M -> gstep n M body ->
      (n <= length b)%nat ->
      wp (for_range 1 n body b) (solves n M b).
    Proof.
      intros n M body b HM HB Hb.
      destruct (Nat.eq_dec n Datatypes.O) as [E|E].
      { subst. unfold for_range. simpl. apply solves_intro; auto. intros; lia. }
      eapply wp_conseq.
      - apply (for_range_inv _ (fun j y => length y = length b /\
          (forall i, (i < j)%nat -> v_ y i + sum n (fun k => M i k * v_ y k) = v_ b i) /\
          (forall i, (j <= i)%nat -> v_ y i = v_ b i))); [lia| |].
        + split; auto. split; auto. intros i Hi. rewrite (sum_zero O RL). ring.
          intros k Hk. rewrite HM by lia. ring.
        + intros j y Hj (L & H1 & H2). eapply wp_conseq. apply HB; lia.
          intros y' (L' & Hj' & Ho). split; [lia|]. split.
          * intros i Hi. rewrite (sum_skip n (M i) j (v_ y') (v_ y)).
            -- destruct (Nat.eq_dec i j).
               ++ subst. rewrite Hj', H2 by lia. ring.
               ++ rewrite Ho by auto. apply H1; lia.
            -- apply HM; lia.
            -- intros; apply Ho; auto.
          * intros i Hi. rewrite Ho by lia. apply H2; lia.
      - intros y (L & H1 & H2). apply solves_intro; auto.
    Qed.

    Lemma bwd_gather : forall n M body b, strict_upper n M -> gstep n M body ->
      (0 < n)%nat -> (n <= length b)%nat ->
      wp (down_pred n body b) (solves n M b).
    Proof.
      intros n M body b HM HB Hn Hb. destruct n as [|n]; [lia|].
      unfold down_pred. eapply wp_conseq.
      - apply (for_down_inv _ (fun j y => length y = length b /\
          (forall i, (j <= i < S n)%nat -> v_ y i + sum (S n) (fun k => M i k * v_ y k) = v_ b i) /\
          (forall i, (i < j \/ S n <= i)%nat -> v_ y i = v_ b i))).
        + split; auto. split; auto. intros i Hi. rewrite (sum_zero O RL). ring.
          intros k Hk. rewrite HM by lia. ring.
        + intros j y Hj (L & H1 & H2). eapply wp_conseq. apply HB; lia.
          intros y' (L' & Hj' & Ho). split; [lia|]. split.
          * intros i Hi. rewrite (sum_skip (S n) (M i) j (v_ y') (v_ y)).
            -- destruct (Nat.eq_dec i j).
               ++ subst. rewrite Hj', H2 by lia. ring.
               ++ rewrite Ho by auto. apply H1; lia.
            -- apply HM; lia.
            -- intros; apply Ho; auto.
          * intros i Hi. rewrite Ho by lia. apply H2; lia.
      - intros y (L & H1 & H2). apply solves_intro; auto.
        + intros i Hi. apply H1. lia.
    Qed.

    Lemma fwd_scatter : forall n M body b, strict_lower n M -> sstep n M body ->
      (n <= length b)%nat ->
      wp (for_range Datatypes.O n body b) (solves n M b).
    Proof.
      intros n M body b HM HB Hb. eapply wp_conseq.
      - apply (for_range_inv _ (fun j y => length y = length b /\
          (forall i, (i < n)%nat -> v_ y i + sum j (fun k => M i k * v_ y k) = v_ b i) /\
          (forall i, (n <= i)%nat -> v_ y i = v_ b i))); [lia| |].
        + split; auto. split; auto. intros i Hi. simpl. ring.
        + intros j y Hj (L & H1 & H2). eapply wp_conseq. apply HB; lia.
          intros y' (L' & Hj' & Ho). split; [lia|]. split.
          * intros i Hi. simpl.
            assert (Q : forall k, (k <= j)%nat -> v_ y' k = v_ y k).
            { intros k Hk. rewrite Hj' by lia. rewrite HM by lia. ring. }
            rewrite (sum_ext O j _ (fun k => M i k * v_ y k)) by (intros; rewrite Q by lia; auto).
            rewrite (Q j) by lia. rewrite (Hj' i) by lia. rewrite <- (H1 i Hi). ring.
          * intros i Hi. rewrite Ho by lia. apply H2; lia.
      - intros y (L & H1 & H2). apply solves_intro; auto.
    Qed.

    (** Backward scatter, columns [lo .. n-1]; columns below [lo] are zero. *)
    Lemma bwd_scatter : forall n lo M body b, strict_upper n M -> sstep n M body ->
      (forall i k, (i < n)%nat -> (k < lo)%nat -> M i k = 0) -> (lo <= n)%nat ->
      (n <= length b)%nat ->
      wp (for_down lo (Nat.sub n lo) body b) (solves n M b).
    Proof.
      intros n lo M body b HM HB Hlo Hl Hb. eapply wp_conseq.
      - apply (for_down_inv _ (fun j y => length y = length b /\
          (forall i, (i < n)%nat -> v_ y i + sum n (fun k => if Nat.ltb k j then 0 else M i k * v_ y k) = v_ b i) /\
          (forall i, (n <= i)%nat -> v_ y i = v_ b i))).
        + split; auto. split; auto. intros i Hi. rewrite (sum_zero O RL). ring.
          intros k Hk. destruct (Nat.ltb_spec k (lo + (n - lo))); auto; lia.
        + intros j y Hj (L & H1 & H2). eapply wp_conseq. apply HB; lia.
          intros y' (L' & Hj' & Ho). split; [lia|]. split.
          * intros i Hi.
            assert (Q : forall k, (j <= k < n)%nat -> v_ y' k = v_ y k).
            { intros k Hk. rewrite Hj' by lia. rewrite HM by lia. ring. }
            rewrite (sum_ext O n _ (fun k => (if Nat.ltb k (S j) then 0 else M i k * v_ y k)
                        + (if Nat.eqb j k then M i k * v_ y k else 0))).
            -- rewrite (sum_add O RL), (sum_delta O RL) by lia.
               rewrite Hj' by lia. rewrite <- (H1 i Hi). ring.
            -- intros k Hk. destruct (Nat.ltb_spec k j), (Nat.ltb_spec k (S j)), (Nat.eqb_spec j k);
                 try lia; try ring; rewrite Q by lia; ring.
          * intros i Hi. rewrite Ho by lia. apply H2; lia.
      - intros y (L & H1 & H2). apply solves_intro; auto.
        intros i Hi. rewrite <- (H1 i Hi). f_equal. apply sum_ext. intros k Hk.
        destruct (Nat.ltb_spec k lo); auto. rewrite Hlo by auto. ring.
    Qed.

    (** The model's loop bodies are such steps. *)
    Lemma gsolve_row_step : forall A h n, wf A -> psize A = n -> ssize A = n ->
      (forall a b, h (a + b) = h a + h b) -> h 0 = 0 ->
      gstep n (fun i k => h (ent A i k)) (gsolve_row O h A).
    Proof.
      intros A h n W Hp Hs Ha H0 j y Hj Hy. unfold gsolve_row.
      rewrite (gather_wp A j y (fun v a => h v * a)) by (auto; lia). simpl.
      wpb. apply wp_get with (d := 0); [lia|]. apply wp_set; [lia|].
      rewrite upd_length. split; auto. split.
      - unfold v_ at 1. rewrite nth_upd_eq by lia. fold (v_ y j).
        rewrite rsum_mvec by (auto; lia). now rewrite Hs.
      - intros i Hi. unfold v_. now rewrite nth_upd_neq by auto.
    Qed.

    Lemma ssolve_col_step : forall A h n, wf A -> psize A = n -> ssize A = n ->
      (forall a b, h (a + b) = h a + h b) -> h 0 = 0 ->
      sstep n (fun i k => h (ent A k i)) (ssolve_col O h A).
    Proof.
      intros A h n W Hp Hs Ha H0 j y Hj Hy. unfold ssolve_col.
      wpb. apply wp_get with (d := 0); [lia|]. fold (v_ y j).
      eapply wp_conseq.
      - apply (scatter_wp A j (fun v => topp O (h v * v_ y j))); auto; try lia.
        intros; ring.
      - intros y' (L & H).
        assert (Hl : forall i, rsum A j (fun q v => if Nat.eqb q i then topp O (h v * v_ y j) else 0)
                        = topp O (h (ent A j i) * v_ y j)).
        { intros i. rewrite <- (rsum_ent_lin O A j i (fun v => topp O (h v * v_ y j))); auto.
          intros; rewrite Ha; ring. rewrite H0; ring. }
        split; auto. split.
        + intros i Hi. rewrite H, Hl. ring.
        + intros i Hi. rewrite H, Hl. rewrite ent_outside by (auto; lia). rewrite H0. ring.
    Qed.

    Lemma ssolve_col_rev_step : forall A h n, wf A -> psize A = n -> ssize A = n ->
      (forall a b, h (a + b) = h a + h b) -> h 0 = 0 ->
      sstep n (fun i k => h (ent A k i)) (ssolve_col_rev O h A).
    Proof.
      intros A h n W Hp Hs Ha H0 j y Hj Hy. unfold ssolve_col_rev.
      wpb. apply wp_get with (d := 0); [lia|]. fold (v_ y j).
      eapply wp_conseq.
      - apply (scatter_rev_wp A j (fun v => topp O (h v * v_ y j))); auto; try lia.
        intros; ring.
      - intros y' (L & H).
        assert (Hl : forall i, rsum A j (fun q v => if Nat.eqb q i then topp O (h v * v_ y j) else 0)
                        = topp O (h (ent A j i) * v_ y j)).
        { intros i. rewrite <- (rsum_ent_lin O A j i (fun v => topp O (h v * v_ y j))); auto.
          intros; rewrite Ha; ring. rewrite H0; ring. }
        split; auto. split.
        + intros i Hi. rewrite H, Hl. ring.
        + intros i Hi. rewrite H, Hl. rewrite ent_outside by (auto; lia). rewrite H0. ring.
    Qed.

    Lemma strict_lower_conj : forall n M, strict_upper n M ->
      strict_lower n (fun i k => tconj O (M k i)).
    Proof. intros n M H i j Hi Hj L. rewrite H by auto. apply conj_0; auto. Qed.
    Lemma strict_upper_conj : forall n M, strict_lower n M ->
      strict_upper n (fun i k => tconj O (M k i)).
    Proof. intros n M H i j Hi Hj L. rewrite H by auto. apply conj_0; auto. Qed.

    Section Solves.
      Variables (A : CS O) (n : nat) (b : list T).
      Hypotheses (W : wf A) (Hp : psize A = n) (Hs : ssize A = n) (Hb : (n <= length b)%nat).

      Let La : forall a b : T, idT O (a + b) = idT O a + idT O b := fun a b => eq_refl.
      Let L0 : idT O 0 = 0 := eq_refl.

      Lemma crs_lower_ok : strict_lower n (crs_mat A) ->
        wp (crs_solve_strict_lower O A b) (solves n (crs_mat A) b).
      Proof.
        intros H. unfold crs_solve_strict_lower. rewrite Hp. apply fwd_gather; auto.
        apply (gsolve_row_step A (idT O)); auto.
      Qed.
      Lemma crs_upper_ok : (0 < n)%nat -> strict_upper n (crs_mat A) ->
        wp (crs_solve_strict_upper O A b) (solves n (crs_mat A) b).
      Proof.
        intros Hn H. unfold crs_solve_strict_upper. rewrite Hp. apply bwd_gather; auto.
        apply (gsolve_row_step A (idT O)); auto.
      Qed.
      Lemma crs_lower_tran_ok : strict_lower n (crs_mat A) ->
        wp (crs_solve_strict_lower_tran O A b) (solves n (madj (crs_mat A)) b).
      Proof.
        intros H. unfold crs_solve_strict_lower_tran. rewrite Hs.
        replace n with (Nat.sub n Datatypes.O) at 1 by lia.
        apply bwd_scatter; auto; try lia.
        - now apply strict_upper_conj.
        - apply (ssolve_col_rev_step A (tconj O)); auto; apply conj_lin.
      Qed.
      Lemma crs_upper_tran_ok : strict_upper n (crs_mat A) ->
        wp (crs_solve_strict_upper_tran O A b) (solves n (madj (crs_mat A)) b).
      Proof.
        intros H. unfold crs_solve_strict_upper_tran. rewrite Hs.
        apply fwd_scatter; auto.
        - now apply strict_lower_conj.
        - apply (ssolve_col_step A (tconj O)); auto; apply conj_lin.
      Qed.
      Lemma ccs_lower_ok : strict_lower n (ccs_mat A) ->
        wp (ccs_solve_strict_lower O A b) (solves n (ccs_mat A) b).
      Proof.
        intros H. unfold ccs_solve_strict_lower. rewrite Hp.
        apply fwd_scatter; auto. apply (ssolve_col_step A (idT O)); auto.
      Qed.
      Lemma ccs_upper_ok : (0 < n)%nat -> strict_upper n (ccs_mat A) ->
        wp (ccs_solve_strict_upper O A b) (solves n (ccs_mat A) b).
      Proof.
        intros Hn H. unfold ccs_solve_strict_upper, down_from. rewrite Hp.
        destruct n as [|n'] eqn:En; [lia|].
        replace n' with (Nat.sub (S n') 1) at 1 by lia.
        apply bwd_scatter; auto; try lia.
        - apply (ssolve_col_rev_step A (idT O)); auto.
        - intros i k Hi Hk. apply H; lia.
      Qed.
      Lemma ccs_lower_tran_ok : (0 < n)%nat -> strict_lower n (ccs_mat A) ->
        wp (ccs_solve_strict_lower_tran O A b) (solves n (madj (ccs_mat A)) b).
      Proof.
        intros Hn H. unfold ccs_solve_strict_lower_tran. rewrite Hs.
        apply bwd_gather; auto.
        - now apply strict_upper_conj.
        - apply (gsolve_row_step A (tconj O)); auto; apply conj_lin.
      Qed.
      Lemma ccs_upper_tran_ok : strict_upper n (ccs_mat A) ->
        wp (ccs_solve_strict_upper_tran O A b) (solves n (madj (ccs_mat A)) b).
      Proof.
        intros H. unfold ccs_solve_strict_upper_tran. rewrite Hs.
        apply fwd_gather; auto.
        - now apply strict_lower_conj.
        - apply (gsolve_row_step A (tconj O)); auto; apply conj_lin.
      Qed.
    End Solves.

    (** Unit triangular systems have at most one solution. *)
    Lemma unit_lower_unique : forall n M (x y : nat -> T), strict_lower n M ->
      veq n (mvec n (madd mid M) x) (mvec n (madd mid M) y) -> veq n x y.
    Proof.
      intros n M x y HM H i. induction i as [i IH] using lt_wf_ind. intros Hi.
      pose proof (H i Hi) as E. rewrite !(mvec_madd O RL), !(mvec_mid O RL) in E by auto.
      assert (F : mvec n M x i = mvec n M y i).
      { apply sum_ext. intros j Hj. destruct (le_lt_dec i j).
        - rewrite HM by auto. ring.
        - now rewrite IH by lia. }
      rewrite F in E.
      replace (x i) with (x i + mvec n M y i - mvec n M y i) by ring. rewrite E. ring.
    Qed.
    Lemma unit_upper_unique : forall n M (x y : nat -> T), strict_upper n M ->
      veq n (mvec n (madd mid M) x) (mvec n (madd mid M) y) -> veq n x y.
    Proof.
      intros n M x y HM H.
      assert (G : forall d i, (Nat.sub n i <= d)%nat -> (i < n)%nat -> x i = y i).
      { induction d; intros i Hd Hi; [lia|].
        pose proof (H i Hi) as E. rewrite !(mvec_madd O RL), !(mvec_mid O RL) in E by auto.
        assert (F : mvec n M x i = mvec n M y i).
        { apply sum_ext. intros j Hj. destruct (le_lt_dec j i).
          - rewrite HM by auto. ring.
          - now rewrite IHd by lia. }
        rewrite F in E.
        replace (x i) with (x i + mvec n M y i - mvec n M y i) by ring. rewrite E. ring. }
      intros i Hi. apply (G (Nat.sub n i)); auto.
    Qed.

    Lemma solves_lower_spec : forall n M b y', strict_lower n M ->
      solves n M b y' -> unit_solve_spec n M b y'.
    Proof.
      intros n M b y' HM (L & H & F). split; auto. split; auto. split; auto.
      intros x Hx. apply (unit_lower_unique n M); auto. intros i Hi. now rewrite Hx, H.
    Qed.
    Lemma solves_upper_spec : forall n M b y', strict_upper n M ->
      solves n M b y' -> unit_solve_spec n M b y'.
    Proof.
      intros n M b y' HM (L & H & F). split; auto. split; auto. split; auto.
      intros x Hx. apply (unit_upper_unique n M); auto. intros i Hi. now rewrite Hx, H.
    Qed.

    Ltac spec_of lem side :=
      intros A b n W Hp Hs Hb; intros;
      apply wp_inv; eapply wp_conseq; [eapply lem; eassumption|]; intros y' Hy'; apply side; auto.

    Lemma C06_crs_lower_l : forall A b n, wf A -> psize A = n -> ssize A = n -> (n <= length b)%nat ->
      strict_lower n (crs_mat A) ->
      exists y', crs_solve_strict_lower O A b = Ok y' /\ unit_solve_spec n (crs_mat A) b y'.
    Proof. spec_of crs_lower_ok solves_lower_spec. Qed.
    Lemma C06_crs_upper_l : forall A b n, wf A -> psize A = n -> ssize A = n -> (n <= length b)%nat ->
      (0 < n)%nat -> strict_upper n (crs_mat A) ->
      exists y', crs_solve_strict_upper O A b = Ok y' /\ unit_solve_spec n (crs_mat A) b y'.
    Proof. spec_of crs_upper_ok solves_upper_spec. Qed.
    Lemma C06_crs_lower_tran_l : forall A b n, wf A -> psize A = n -> ssize A = n -> (n <= length b)%nat ->
      strict_lower n (crs_mat A) ->
      exists y', crs_solve_strict_lower_tran O A b = Ok y' /\ unit_solve_spec n (madj (crs_mat A)) b y'.
    Proof. spec_of crs_lower_tran_ok solves_upper_spec. now apply strict_upper_conj. Qed.
    Lemma C06_crs_upper_tran_l : forall A b n, wf A -> psize A = n -> ssize A = n -> (n <= length b)%nat ->
      strict_upper n (crs_mat A) ->
      exists y', crs_solve_strict_upper_tran O A b = Ok y' /\ unit_solve_spec n (madj (crs_mat A)) b y'.
    Proof. spec_of crs_upper_tran_ok solves_lower_spec. now apply strict_lower_conj. Qed.
    Lemma C06_ccs_lower_l : forall A b n, wf A -> psize A = n -> ssize A = n -> (n <= length b)%nat ->
      strict_lower n (ccs_mat A) ->
      exists y', ccs_solve_strict_lower O A b = Ok y' /\ unit_solve_spec n (ccs_mat A) b y'.
    Proof. spec_of ccs_lower_ok solves_lower_spec. Qed.
    Lemma C06_ccs_upper_l : forall A b n, wf A -> psize A = n -> ssize A = n -> (n <= length b)%nat ->
      (0 < n)%nat -> strict_upper n (ccs_mat A) ->
      exists y', ccs_solve_strict_upper O A b = Ok y' /\ unit_solve_spec n (ccs_mat A) b y'.
    Proof. spec_of ccs_upper_ok solves_upper_spec. Qed.
    Lemma C06_ccs_lower_tran_l : forall A b n, wf A -> psize A = n -> ssize A = n -> (n <= length b)%nat ->
      (0 < n)%nat -> strict_lower n (ccs_mat A) ->
      exists y', ccs_solve_strict_lower_tran O A b = Ok y' /\ unit_solve_spec n (madj (ccs_mat A)) b y'.
    Proof. spec_of ccs_lower_tran_ok solves_upper_spec. now apply strict_upper_conj. Qed.
    Lemma C06_ccs_upper_tran_l : forall A b n, wf A -> psize A = n -> ssize A = n -> (n <= length b)%nat ->
      strict_upper n (ccs_mat A) ->
      exists y', ccs_solve_strict_upper_tran O A b = Ok y' /\ unit_solve_spec n (madj (ccs_mat A)) b y'.
    Proof. spec_of ccs_upper_tran_ok solves_lower_spec. now apply strict_lower_conj. Qed.

    (** ** Size-guarded entry points *)
    Lemma veq_list : forall (y y' : list T) n, length y = n -> length y' = n ->
      veq n (v_ y) (v_ y') -> y = y'.
    Proof.
      intros y y' n L L' H. apply (list_ext _ _ _ 0); [congruence|].
      intros i Hi. apply H. lia.
    Qed.

    Lemma C01_crs_l : forall A x y, wf A -> length x = ssize A -> length y = psize A ->
      exists y', crs_multiply O A x y false = Ok y' /\ length y' = psize A /\
        veq (psize A) (v_ y') (mvec (ssize A) (crs_mat A) (v_ x)).
    Proof.
      intros A x y W Lx Ly. unfold crs_multiply, crs_multiply_nt. rewrite Lx, Ly, !Nat.eqb_refl.
      destruct (crs_multiply_nt_low_correct A x y W) as (y' & E & L & H & _); try lia.
      exists y'. simpl. split; auto. split; auto. lia.
    Qed.
    Lemma C01_ccs_l : forall A x y, wf A -> length x = psize A -> length y = ssize A ->
      exists y', ccs_multiply O A x y false = Ok y' /\ length y' = ssize A /\
        veq (ssize A) (v_ y') (mvec (psize A) (ccs_mat A) (v_ x)).
    Proof.
      intros A x y W Lx Ly. unfold ccs_multiply, ccs_multiply_nt. rewrite Lx, Ly, !Nat.eqb_refl.
      destruct (ccs_multiply_nt_low_correct A x y W) as (y' & E & L & H & _); try lia.
      exists y'. simpl. split; auto. split; auto. lia.
    Qed.
    Lemma C02_crs_l : forall A x y, wf A -> (0 < psize A)%nat -> length x = psize A -> length y = ssize A ->
      exists y', crs_multiply O A x y true = Ok y' /\ length y' = ssize A /\
        veq (ssize A) (v_ y') (mvec (psize A) (madj (crs_mat A)) (v_ x)).
    Proof.
      intros A x y W Hp Lx Ly. unfold crs_multiply, crs_multiply_t. rewrite Lx, Ly, !Nat.eqb_refl.
      destruct (crs_multiply_t_low_correct A x y W Hp) as (y' & E & L & H & _); try lia.
      exists y'. simpl. split; auto. split; auto. lia.
    Qed.
    Lemma C02_ccs_l : forall A x y, wf A -> length x = ssize A -> length y = psize A ->
      exists y', ccs_multiply O A x y true = Ok y' /\ length y' = psize A /\
        veq (psize A) (v_ y') (mvec (ssize A) (madj (ccs_mat A)) (v_ x)).
    Proof.
      intros A x y W Lx Ly. unfold ccs_multiply, ccs_multiply_t. rewrite Lx, Ly, !Nat.eqb_refl.
      destruct (ccs_multiply_t_low_correct A x y W) as (y' & E & L & H & _); try lia.
      exists y'. simpl. split; auto. split; auto. lia.
    Qed.

    Lemma C01_same_l : forall A B x y z, wf A -> wf B ->
      psize A = ssize B -> ssize A = psize B ->
      meq (psize A) (ssize A) (crs_mat A) (ccs_mat B) ->
      length x = ssize A -> length y = psize A -> length z = psize A ->
      exists r, crs_multiply O A x y false = Ok r /\ ccs_multiply O B x z false = Ok r.
    Proof.
      intros A B x y z WA WB H1 H2 HM Lx Ly Lz.
      destruct (C01_crs_l A x y WA Lx Ly) as (r & E & L & H).
      destruct (C01_ccs_l B x z WB ltac:(lia) ltac:(lia)) as (r' & E' & L' & H').
      exists r. split; auto. rewrite E'. f_equal. apply (veq_list _ _ (psize A)); try lia.
      intros i Hi. rewrite H, H' by lia. rewrite <- H2. apply sum_ext. intros j Hj.
      now rewrite HM.
    Qed.

    Lemma inner_ext : forall n (x x' y y' : nat -> T), veq n x x' -> veq n y y' -> inner n x y = inner n x' y'.
    Proof. intros. unfold inner. apply sum_ext. intros i Hi. now rewrite H, H0. Qed.

    Lemma C02_adjoint_crs_l : forall A x y u w, wf A -> (0 < psize A)%nat ->
      length x = ssize A -> length y = psize A -> length u = psize A -> length w = ssize A ->
      exists Ax Ahy, crs_multiply O A x u false = Ok Ax /\ crs_multiply O A y w true = Ok Ahy /\
        inner (psize A) (v_ Ax) (v_ y) = inner (ssize A) (v_ x) (v_ Ahy).
    Proof.
      intros A x y u w W Hp Lx Ly Lu Lw.
      destruct (C01_crs_l A x u W Lx Lu) as (r & E & _ & H).
      destruct (C02_crs_l A y w W Hp Ly Lw) as (r' & E' & _ & H').
      exists r, r'. split; auto. split; auto.
      rewrite (inner_ext _ _ _ _ (v_ y) H) by (intros i Hi; auto).
      rewrite (inner_ext (ssize A) (v_ x) (v_ x) _ _ ltac:(intros i Hi; auto) H').
      now apply adjoint_spec.
    Qed.
    Lemma C02_adjoint_ccs_l : forall A x y u w, wf A ->
      length x = psize A -> length y = ssize A -> length u = ssize A -> length w = psize A ->
      exists Ax Ahy, ccs_multiply O A x u false = Ok Ax /\ ccs_multiply O A y w true = Ok Ahy /\
        inner (ssize A) (v_ Ax) (v_ y) = inner (psize A) (v_ x) (v_ Ahy).
    Proof.
      intros A x y u w W Lx Ly Lu Lw.
      destruct (C01_ccs_l A x u W Lx Lu) as (r & E & _ & H).
      destruct (C02_ccs_l A y w W Ly Lw) as (r' & E' & _ & H').
      exists r, r'. split; auto. split; auto.
      rewrite (inner_ext _ _ _ _ (v_ y) H) by (intros i Hi; auto).
      rewrite (inner_ext (psize A) (v_ x) (v_ x) _ _ ltac:(intros i Hi; auto) H').
      now apply adjoint_spec.
    Qed.

    Lemma C08_crs_left_l : forall A s, wf A -> length (ind_start A) = S (psize A) -> (psize A <= length s)%nat ->
      exists A', crs_scale_diag_left O A s = Ok A' /\ wf A' /\
        psize A' = psize A /\ ssize A' = ssize A /\ ind_start A' = ind_start A /\ indices A' = indices A /\
        meq (psize A) (ssize A) (crs_mat A') (mmul (psize A) (mdiag (v_ s)) (crs_mat A)).
    Proof.
      intros A s W Hl Hs. destruct (scale_primary_correct A s W Hl Hs) as (A' & E & W' & P1 & P2 & P3 & P4 & H).
      exists A'. repeat (split; auto); try apply W'. intros i j Hi Hj. unfold crs_mat. rewrite H by auto.
      unfold mmul, mdiag. rewrite <- (sum_delta O RL (psize A) i (fun k => v_ s i * ent A k j) Hi).
      apply sum_ext. intros k Hk. destruct (Nat.eqb i k); ring.
    Qed.
    Lemma C08_crs_right_l : forall A t, wf A -> length (indices A) = st A (psize A) -> (ssize A <= length t)%nat ->
      exists A', crs_scale_diag_right O A t = Ok A' /\ wf A' /\
        psize A' = psize A /\ ssize A' = ssize A /\ ind_start A' = ind_start A /\ indices A' = indices A /\
        meq (psize A) (ssize A) (crs_mat A') (mmul (ssize A) (crs_mat A) (mdiag (v_ t))).
    Proof.
      intros A s W Hl Hs. destruct (scale_secondary_correct A s W Hs Hl) as (A' & E & W' & P1 & P2 & P3 & P4 & H).
      exists A'. repeat (split; auto); try apply W'. intros i j Hi Hj. unfold crs_mat. rewrite H by auto.
      unfold mmul, mdiag. rewrite <- (sum_delta' O RL (ssize A) j (fun k => ent A i k * v_ s k) Hj).
      apply sum_ext. intros k Hk. destruct (Nat.eqb k j); ring.
    Qed.
    Lemma C08_ccs_right_l : forall A t, wf A -> length (ind_start A) = S (psize A) -> (psize A <= length t)%nat ->
      exists A', ccs_scale_diag_right O A t = Ok A' /\ wf A' /\
        psize A' = psize A /\ ssize A' = ssize A /\ ind_start A' = ind_start A /\ indices A' = indices A /\
        meq (ssize A) (psize A) (ccs_mat A') (mmul (psize A) (ccs_mat A) (mdiag (v_ t))).
    Proof.
      intros A s W Hl Hs. destruct (scale_primary_correct A s W Hl Hs) as (A' & E & W' & P1 & P2 & P3 & P4 & H).
      exists A'. repeat (split; auto); try apply W'. intros i j Hi Hj. unfold ccs_mat. rewrite H by auto.
      unfold mmul, mdiag. rewrite <- (sum_delta' O RL (psize A) j (fun k => v_ s j * ent A k i) Hj).
      apply sum_ext. intros k Hk. destruct (Nat.eqb_spec k j); subst; ring.
    Qed.
    Lemma C08_ccs_left_l : forall A s, wf A -> length (indices A) = st A (psize A) -> (ssize A <= length s)%nat ->
      exists A', ccs_scale_diag_left O A s = Ok A' /\ wf A' /\
        psize A' = psize A /\ ssize A' = ssize A /\ ind_start A' = ind_start A /\ indices A' = indices A /\
        meq (ssize A) (psize A) (ccs_mat A') (mmul (ssize A) (mdiag (v_ s)) (ccs_mat A)).
    Proof.
      intros A s W Hl Hs. destruct (scale_secondary_correct A s W Hs Hl) as (A' & E & W' & P1 & P2 & P3 & P4 & H).
      exists A'. repeat (split; auto); try apply W'. intros i j Hi Hj. unfold ccs_mat. rewrite H by auto.
      unfold mmul, mdiag. rewrite <- (sum_delta O RL (ssize A) i (fun k => ent A j k * v_ s k) Hi).
      apply sum_ext. intros k Hk. destruct (Nat.eqb_spec i k); subst; ring.
    Qed.
  End Laws.
End P.
