(** * DenseProofs1: triangular kernels, permutation steps, columns. *)
From Coq Require Import List Arith Lia Bool QArith Ring.
From Verif Require Import Base Scalar Spec DenseModel DenseSpec.
Import ListNotations.
Local Open Scope nat_scope.
Local Arguments bind {A B} !m f /.

(** ** Columns *)
Section Cols.
  Context {A : Type}.
  Definition col (nr c : nat) (x : list A) : list A := slice (c * nr) nr x.

  Lemma col_lt : forall nr nrhs c, c < nrhs -> c * nr + nr <= nr * nrhs.
  Proof. intros. nia. Qed.
  Lemma get_col_ok : forall nr nrhs c (x : list A), c < nrhs -> length x = nr * nrhs -> get_col nr c x = Ok (col nr c x).
  Proof. intros. unfold get_col. pose proof (col_lt nr nrhs c H). destruct (Nat.leb_spec (c * nr + nr) (length x)); auto; lia. Qed.
  Lemma col_length : forall nr nrhs c (x : list A), c < nrhs -> length x = nr * nrhs -> length (col nr c x) = nr.
  Proof. intros. unfold col. apply slice_length. pose proof (col_lt nr nrhs c H). lia. Qed.
  Lemma put_col_ok : forall nr nrhs c (x v : list A), c < nrhs -> length x = nr * nrhs -> length v = nr ->
    exists x', put_col nr c x v = Ok x' /\ length x' = nr * nrhs /\ col nr c x' = v /\
      forall c', c' < nrhs -> c' <> c -> col nr c' x' = col nr c' x.
  Proof.
    intros nr nrhs c x v Hc Lx Lv. pose proof (col_lt nr nrhs c Hc) as B. unfold put_col.
    destruct (Nat.leb_spec (c * nr + nr) (length x)); [|lia]. rewrite (proj2 (Nat.eqb_eq _ _) Lv). cbn [andb].
    eexists. split; [reflexivity|].
    assert (L1 : length (firstn (c * nr) x) = c * nr) by (rewrite firstn_length; lia).
    assert (L2 : length (skipn (c * nr + nr) x) = nr * nrhs - (c * nr + nr)) by (rewrite skipn_length; lia).
    assert (L : length (firstn (c * nr) x ++ v ++ skipn (c * nr + nr) x) = nr * nrhs) by (rewrite !app_length, L1, L2; lia).
    split; auto. split.
    - unfold col, slice. rewrite skipn_app, L1, Nat.sub_diag, (skipn_all2 (firstn _ x)) by lia. cbn [app skipn].
      rewrite firstn_app, Lv, Nat.sub_diag, firstn_all2 by lia. cbn. apply app_nil_r.
    - intros c' Hc' N. destruct v as [|d v'].
      + cbn in Lv. unfold col, slice. rewrite <- Lv. reflexivity.
      + apply (list_ext _ _ _ d); [rewrite !(col_length nr nrhs); auto|].
        rewrite (col_length nr nrhs) by auto. intros i Hi. unfold col. rewrite !nth_slice by auto.
        assert (c' * nr + i < c * nr \/ c * nr + nr <= c' * nr + i) as [C|C] by nia.
        * rewrite app_nth1 by lia. apply nth_firstn_lt. lia.
        * rewrite app_nth2 by lia. rewrite app_nth2 by (rewrite L1; lia). rewrite nth_skipn'. f_equal. rewrite L1. lia.
  Qed.

  Variable O : Ops.
End Cols.

Lemma each_col_spec : forall O nr nrhs f (x : list (T O)),
  (forall v z, length v = nr -> f v = Ok z -> length z = nr) -> (forall v, f v <> Err) -> length x = nr * nrhs ->
  match each_col O nr nrhs f x with
  | Ok x' => length x' = nr * nrhs /\ forall c, c < nrhs -> f (col nr c x) = Ok (col nr c x')
  | Err => False
  | UB => exists c, c < nrhs /\ f (col nr c x) = UB
  end.
Proof.
  intros O nr nrhs f x HL HE Lx. unfold each_col, for_range. rewrite Nat.sub_0_r.
  assert (G : forall k lo y, lo + k = nrhs -> length y = nr * nrhs -> (forall c, lo <= c < nrhs -> col nr c y = col nr c x) ->
    (forall c, c < lo -> f (col nr c x) = Ok (col nr c y)) ->
    match for_n lo k (fun c x => v <- get_col nr c x ;; v <- f v ;; put_col nr c x v) y with
    | Ok x' => length x' = nr * nrhs /\ forall c, c < nrhs -> f (col nr c x) = Ok (col nr c x')
    | Err => False
    | UB => exists c, c < nrhs /\ f (col nr c x) = UB
    end).
  { induction k as [|k IH]; intros lo y E Ly Hy Hd.
    - cbn. split; auto. intros c Hc. apply Hd. lia.
    - cbn [for_n]. rewrite (get_col_ok nr nrhs) by (auto; lia). cbn [bind]. rewrite Hy by lia.
      destruct (f (col nr lo x)) as [v| |] eqn:EF; cbn [bind].
      + assert (Lv : length v = nr) by (eapply HL; [|exact EF]; apply (col_length nr nrhs); auto; lia).
        destruct (put_col_ok nr nrhs lo y v ltac:(lia) Ly Lv) as (x' & EP & Lx' & C1 & C2). rewrite EP. cbn [bind].
        apply IH; auto; [lia| |].
        * intros c Hc. rewrite C2 by lia. apply Hy. lia.
        * intros c Hc. destruct (Nat.eq_dec c lo) as [->|]; [rewrite C1; auto|rewrite C2 by lia; apply Hd; lia].
      + now apply HE in EF.
      + exists lo. split; auto. lia. }
  apply G; auto. intros; lia.
Qed.

Lemma col_1 : forall A nr (x : list A), length x = nr -> col nr 0 x = x.
Proof. intros. unfold col, slice. cbn. rewrite firstn_all2; auto; lia. Qed.
Lemma each_col_1 : forall O nr f (x : list (T O)),
  (forall v z, length v = nr -> f v = Ok z -> length z = nr) -> length x = nr -> each_col O nr 1 f x = f x.
Proof.
  intros O nr f x HL Lx. unfold each_col, for_range. cbn [Nat.sub for_n].
  rewrite (get_col_ok nr 1) by lia. cbn [bind]. rewrite col_1 by auto. destruct (f x) as [z| |] eqn:E; cbn [bind]; auto.
  destruct (put_col_ok nr 1 0 x z) as (x' & EP & L' & C & _); try lia. { eapply HL; eauto. }
  rewrite EP. cbn. f_equal. rewrite <- C. rewrite col_1; auto. lia.
Qed.

Section Kern.
  Variable O : Ops.
  Notation T := (T O).
  Variable is0 : T -> bool.
  Notation "0" := (t0 O).
  Infix "+" := (tadd O). Infix "*" := (tmul O). Infix "-" := (tsub O).

  Lemma idx_lt : forall n i j r, i < n -> j < r -> (i + j * n < n * r)%nat.
  Proof. intros. nia. Qed.
  Lemma dget_ok : forall n r (m : list T) i j, (n * r <= length m)%nat -> i < n -> j < r -> dget O n m i j = Ok (cm n m i j).
  Proof.
    intros n r m i j L Hi Hj. unfold dget, cm. destruct (Nat.ltb_spec i n); [|lia]. pose proof (idx_lt n i j r Hi Hj). apply get_nth. lia.
  Qed.
  Lemma upper_in : forall n (m : list T) i j, i <= j -> upper n m i j = cm n m i j.
  Proof. intros. unfold upper. destruct (Nat.leb_spec i j); auto; lia. Qed.
  Lemma upper_out : forall n (m : list T) i j, j < i -> upper n m i j = 0.
  Proof. intros. unfold upper. destruct (Nat.leb_spec i j); auto; lia. Qed.

  (** Results do not become shorter or longer. *)
  Lemma set_len : forall A (l : list A) i v l', set l i v = Ok l' -> length l' = length l.
  Proof. intros A l i v l' H. unfold set in H. destruct (i <? length l); [|discriminate]. injection H as <-. apply upd_length. Qed.
  Lemma get_not_err : forall A (l : list A) i, get l i <> Err.
  Proof. intros. unfold get. destruct (nth_error l i); discriminate. Qed.
  Lemma set_not_err : forall A (l : list A) i v, set l i v <> Err.
  Proof. intros. unfold set. destruct (i <? length l); discriminate. Qed.
  Lemma dget_not_err : forall n (m : list T) i j, dget O n m i j <> Err.
  Proof. intros. unfold dget. destruct (i <? n); [apply get_not_err|discriminate]. Qed.
  Lemma for_n_pres : forall S (P : S -> Prop) k lo (f : nat -> S -> res S) s s',
    (forall i a b, P a -> f i a = Ok b -> P b) -> P s -> for_n lo k f s = Ok s' -> P s'.
  Proof.
    induction k; intros lo f s s' Hf Hs E; cbn in E; [injection E as <-; auto|].
    destruct (f lo s) eqn:E1; cbn in E; try discriminate. eapply IHk; [|eapply Hf; eauto|exact E]. auto.
  Qed.
  Lemma for_n_not_err : forall S k lo (f : nat -> S -> res S) s, (forall i a, f i a <> Err) -> for_n lo k f s <> Err.
  Proof.
    induction k; intros lo f s Hf; cbn; [discriminate|]. destruct (f lo s) eqn:E; cbn; try discriminate; [apply IHk; auto|now apply Hf in E].
  Qed.
  Lemma for_down_pres : forall S (P : S -> Prop) k lo (f : nat -> S -> res S) s s',
    (forall i a b, P a -> f i a = Ok b -> P b) -> P s -> for_down lo k f s = Ok s' -> P s'.
  Proof.
    induction k; intros lo f s s' Hf Hs E; cbn in E; [injection E as <-; auto|].
    destruct (f (lo + k)%nat s) eqn:E1; cbn in E; try discriminate. eapply IHk; [|eapply Hf; eauto|exact E]. auto.
  Qed.
  Lemma for_down_not_err : forall S k lo (f : nat -> S -> res S) s, (forall i a, f i a <> Err) -> for_down lo k f s <> Err.
  Proof.
    induction k; intros lo f s Hf; cbn; [discriminate|]. destruct (f (lo + k)%nat s) eqn:E; cbn; try discriminate; [apply IHk; auto|now apply Hf in E].
  Qed.
  Lemma divz_not_err : forall a b, divz O is0 a b <> Err.
  Proof. intros. unfold divz. destruct (is0 b); discriminate. Qed.

  Local Ltac inv_bind H := match type of H with bind ?m _ = Ok _ => let E := fresh "E" in destruct m eqn:E; cbn [bind] in H; [|discriminate H|discriminate H] end.
  Local Ltac ne := repeat match goal with
    | |- bind ?m _ <> Err => let E := fresh "E" in destruct m eqn:E; cbn [bind]; [| |discriminate]
    | H : get _ _ = Err |- _ => now apply get_not_err in H
    | H : set _ _ _ = Err |- _ => now apply set_not_err in H
    | H : dget _ _ _ _ _ = Err |- _ => now apply dget_not_err in H
    | H : divz _ _ _ _ = Err |- _ => now apply divz_not_err in H
    | |- set _ _ _ <> Err => apply set_not_err
    | |- Ok _ <> Err => discriminate
    | H : for_n _ _ _ _ = Err |- _ => exfalso; revert H; apply for_n_not_err; intros
    end.

  Lemma trsv_n_len : forall nr m k x z, trsv_n O is0 nr m k x = Ok z -> length z = length x.
  Proof.
    induction k; intros x z H; cbn in H; [injection H as <-; auto|]. inv_bind H. inv_bind H. inv_bind H. inv_bind H. inv_bind H.
    apply IHk in H. apply set_len in E2. rewrite H, <- E2. unfold for_range in E3.
    revert E3. apply (for_n_pres _ (fun y => length y = length a2)); auto. intros i u v Hu F. inv_bind F. inv_bind F. apply set_len in F. congruence.
  Qed.
  Lemma trsv_n_not_err : forall nr m k x, trsv_n O is0 nr m k x <> Err.
  Proof. induction k; intros x; cbn; [discriminate|]. unfold for_range. ne. apply IHk. Qed.
  Lemma trsv_c_len : forall nr m k x z, trsv_c O is0 nr m k x = Ok z -> length z = length x.
  Proof.
    intros nr m k x z. unfold trsv_c, for_range. apply (for_n_pres _ (fun y => length y = length x)); auto.
    intros i u v Hu F. inv_bind F. inv_bind F. inv_bind F. inv_bind F. apply set_len in F. congruence.
  Qed.
  Lemma trsv_c_not_err : forall nr m k x, trsv_c O is0 nr m k x <> Err.
  Proof. intros. unfold trsv_c, for_range. apply for_n_not_err. intros. ne. Qed.
  Lemma trmv_n_len : forall nr m k x z, trmv_n O nr m k x = Ok z -> length z = length x.
  Proof.
    intros nr m k x z. unfold trmv_n, for_range. apply (for_n_pres _ (fun y => length y = length x)); auto.
    intros i u v Hu F. inv_bind F. apply set_len in F. congruence.
  Qed.
  Lemma trmv_n_not_err : forall nr m k x, trmv_n O nr m k x <> Err.
  Proof. intros. unfold trmv_n, for_range. apply for_n_not_err. intros. ne. Qed.
  Lemma trmv_c_len : forall nr m k x z, trmv_c O nr m k x = Ok z -> length z = length x.
  Proof.
    intros nr m k x z. unfold trmv_c. apply (for_down_pres _ (fun y => length y = length x)); auto.
    intros i u v Hu F. inv_bind F. apply set_len in F. congruence.
  Qed.
  Lemma trmv_c_not_err : forall nr m k x, trmv_c O nr m k x <> Err.
  Proof. intros. unfold trmv_c. apply for_down_not_err. intros. unfold for_range. ne. Qed.
  Lemma scatter_len : forall jv s rk x z, length (q_jpvt s) <= q_nr s -> length (q_jpvt s) <= length x ->
    scatter_p O jv s rk x = Ok z -> length z = length x.
  Proof.
    intros jv s rk x z H1 H2 H. unfold scatter_p, for_range in H. inv_bind H. inv_bind H. injection H as <-.
    assert (L : length a = q_nr s).
    { revert E. apply (for_n_pres _ (fun y => length y = q_nr s)); [|apply repeat_length]. intros i u v Hu F. inv_bind F. inv_bind F. apply set_len in F. congruence. }
    assert (L' : length a0 = q_nr s).
    { revert E0. apply (for_n_pres _ (fun y => length y = q_nr s)); auto. intros i u v Hu F. inv_bind F. apply set_len in F. congruence. }
    rewrite app_length, firstn_length, skipn_length. lia.
  Qed.
  Lemma scatter_not_err : forall jv s rk x, scatter_p O jv s rk x <> Err.
  Proof. intros. unfold scatter_p, for_range. ne. Qed.
  Lemma gather_len : forall jv s rk x z, length (q_jpvt s) <= q_nr s -> length (q_jpvt s) <= length x ->
    gather_p O jv s rk x = Ok z -> length z = length x.
  Proof.
    intros jv s rk x z H1 H2 H. unfold gather_p, for_range in H. inv_bind H. inv_bind H. injection H as <-.
    assert (L : length a = q_nr s).
    { revert E. apply (for_n_pres _ (fun y => length y = q_nr s)); [|apply repeat_length]. intros i u v Hu F. inv_bind F. inv_bind F. apply set_len in F. congruence. }
    assert (L' : length a0 = q_nr s).
    { revert E0. apply (for_n_pres _ (fun y => length y = q_nr s)); auto. intros i u v Hu F. apply set_len in F. congruence. }
    rewrite app_length, firstn_length, skipn_length. lia.
  Qed.
  Lemma gather_not_err : forall jv s rk x, gather_p O jv s rk x <> Err.
  Proof. intros. unfold gather_p, for_range. ne. Qed.

  (** ** What the kernels compute *)
  Section RingL.
    Hypothesis RL : RingLaws O.
    Add Ring TR : (rl_ring O RL).
    Lemma mul0l : forall a, 0 * a = 0. Proof. intros; ring. Qed.
    Lemma mul0r : forall a, a * 0 = 0. Proof. intros; ring. Qed.
    Lemma add0l : forall a, 0 + a = a. Proof. intros; ring. Qed.
    Lemma add0r : forall a, a + 0 = a. Proof. intros; ring. Qed.
    Lemma mulC : forall a b, a * b = b * a. Proof. intros; ring. Qed.
    Lemma sub_add : forall a b, a - b + b = a. Proof. intros; ring. Qed.
  End RingL.
  Lemma upd_v : forall (x : list T) i v j, i < length x -> v_ (upd x i v) j = if j =? i then v else v_ x j.
  Proof. intros. unfold v_. now apply nth_upd. Qed.

  Lemma axpy_loop : forall n r (m : list T) k' y (x : list T), (n * r <= length m)%nat -> k' < r -> k' <= n -> k' <= length x ->
    wp (for_range 0 k' (fun i x => xi <- get x i ;; r <- dget O n m i k' ;; set x i (xi - r * y)) x)
       (fun x' => length x' = length x /\ forall j, v_ x' j = if j <? k' then v_ x j - cm n m j k' * y else v_ x j).
  Proof.
    intros n r m k' y x L Hk Hn Hx.
    eapply wp_conseq; [apply (for_range_inv _ (fun i x' => length x' = length x /\ forall j, v_ x' j = if j <? i then v_ x j - cm n m j k' * y else v_ x j)); [lia| |]|auto].
    - split; auto.
    - intros i s Hi (Ls & Hs). wpb. apply (wp_get _ _ _ 0); [lia|]. wpb. rewrite (dget_ok n r) by lia. cbn [wp]. apply wp_set; [lia|].
      split; [rewrite upd_length; auto|]. intros j. rewrite upd_v by lia. fold (v_ s i). destruct (Nat.eqb_spec j i) as [->|N].
      + destruct (Nat.ltb_spec i (S i)); [|lia]. rewrite (Hs i). destruct (Nat.ltb_spec i i); [lia|auto].
      + rewrite (Hs j). destruct (Nat.ltb_spec j i), (Nat.ltb_spec j (S i)); auto; lia.
  Qed.

  Lemma trsv_n_wp : forall n r (m : list T), (n * r <= length m)%nat -> forall k x, k <= r -> k <= n -> length x = n ->
    (forall i, i < k -> is0 (cm n m i i) = false) ->
    wp (trsv_n O is0 n m k x) (fun z => length z = n /\ (forall i, k <= i -> v_ z i = v_ x i) /\
      (FieldLaws O -> (forall a, is0 a = false -> a <> 0) -> forall i, i < k -> mvec k (upper n m) (v_ z) i = v_ x i)).
  Proof.
    intros n r m L. induction k as [|k IH]; intros x Hr Hn Lx Hd; cbn [trsv_n].
    - cbn. split; auto. split; auto. intros; lia.
    - wpb. apply (wp_get _ _ _ 0); [lia|]. wpb. rewrite (dget_ok n r) by lia. cbn [wp]. wpb. unfold divz. rewrite Hd by lia. cbn [wp].
      set (y := tdiv O (nth k x 0) (cm n m k k)). wpb. apply wp_set; [lia|]. wpb.
      eapply wp_conseq; [apply (axpy_loop n r); auto; rewrite ?upd_length; lia|].
      intros x' (L' & H'). rewrite upd_length in L'. eapply wp_conseq; [apply IH; auto; try lia; intros; apply Hd; lia|].
      intros z (Lz & Hz1 & Hz2). split; auto. split.
      + intros i Hi. rewrite Hz1 by lia. rewrite H'. destruct (Nat.ltb_spec i k); [lia|]. rewrite upd_v by lia. destruct (Nat.eqb_spec i k); [lia|auto].
      + intros FL Z i Hi. pose proof (fl_ring O FL) as RL.
        assert (Zk : v_ z k = y). { rewrite Hz1 by lia. rewrite H'. destruct (Nat.ltb_spec k k); [lia|]. rewrite upd_v by lia. now rewrite Nat.eqb_refl. }
        unfold mvec. cbn [sum]. rewrite Zk. destruct (Nat.eq_dec i k) as [->|N].
        * rewrite (sum_zero O RL). 2:{ intros j Hj. rewrite upper_out by lia. apply (mul0l RL). }
          rewrite upper_in by lia. unfold y. fold (v_ x k). rewrite (add0l RL), (mulC RL). apply (div_mul O FL). apply Z, Hd. lia.
        * specialize (Hz2 FL Z i ltac:(lia)). unfold mvec in Hz2. rewrite Hz2, H'. destruct (Nat.ltb_spec i k); [|lia].
          rewrite upd_v by lia. destruct (Nat.eqb_spec i k); [lia|]. rewrite upper_in by lia. apply (sub_add RL).
  Qed.

  (** The inner loops of the transposed solve and of the products accumulate sums. *)
  Lemma dot_sub : forall n r (m : list T) j (x : list T) t, (n * r <= length m)%nat -> j < r -> j <= n -> j <= length x ->
    wp (for_range 0 j (fun i t => r <- dget O n m i j ;; xi <- get x i ;; Ok (t - tconj O r * xi)) t)
       (fun t' => RingLaws O -> t' + sum j (fun i => tconj O (cm n m i j) * v_ x i) = t).
  Proof.
    intros n r m j x t L Hj Hn Hx.
    eapply wp_conseq; [apply (for_range_inv _ (fun i t' => RingLaws O -> t' + sum i (fun i => tconj O (cm n m i j) * v_ x i) = t)); [lia| |]|auto].
    - intros RL. cbn. apply (add0r RL).
    - intros i s Hi Hs. wpb. rewrite (dget_ok n r) by lia. cbn [wp]. wpb. apply (wp_get _ _ _ 0); [lia|]. cbn [wp]. intros RL. cbn [sum].
      fold (v_ x i). rewrite <- (Hs RL). set (u := tconj O (cm n m i j) * v_ x i). set (w := sum i _).
      destruct (rl_ring O RL).
      rewrite (Rsub_def s u), <- Radd_assoc. f_equal. rewrite (Radd_comm w u), Radd_assoc, (Radd_comm (topp O u) u), Ropp_def, Radd_0_l. auto.
  Qed.

  Lemma trsv_c_wp : forall n r (m : list T), (n * r <= length m)%nat -> forall k x, k <= r -> k <= n -> length x = n ->
    (forall i, i < k -> is0 (tconj O (cm n m i i)) = false) ->
    wp (trsv_c O is0 n m k x) (fun z => length z = n /\ (forall i, k <= i -> v_ z i = v_ x i) /\
      (FieldLaws O -> (forall a, is0 a = false -> a <> 0) -> forall j, j < k -> sum (S j) (fun i => tconj O (upper n m i j) * v_ z i) = v_ x j)).
  Proof.
    intros n r m L k x Hr Hn Lx Hd. unfold trsv_c.
    eapply wp_conseq; [apply (for_range_inv _ (fun q z => length z = n /\ (forall i, q <= i -> v_ z i = v_ x i) /\
      (FieldLaws O -> (forall a, is0 a = false -> a <> 0) -> forall j, j < q -> sum (S j) (fun i => tconj O (upper n m i j) * v_ z i) = v_ x j))); [lia| |]|auto].
    - split; auto. split; auto. intros; lia.
    - intros j z Hj (Lz & H1 & H2). wpb. apply (wp_get _ _ _ 0); [lia|]. wpb. eapply wp_conseq; [apply (dot_sub n r); auto; lia|].
      intros t Ht. wpb. rewrite (dget_ok n r) by lia. cbn [wp]. wpb. unfold divz. rewrite Hd by lia. cbn [wp]. apply wp_set; [lia|].
      split; [rewrite upd_length; auto|]. split.
      + intros i Hi. rewrite upd_v by lia. destruct (Nat.eqb_spec i j); [lia|]. apply H1; lia.
      + intros FL Z j' Hj'. pose proof (fl_ring O FL) as RL. destruct (Nat.eq_dec j' j) as [->|N].
        * cbn [sum]. rewrite upd_v by lia. rewrite Nat.eqb_refl. rewrite (upper_in n m j j) by lia. rewrite (mulC RL (tconj O _)), (div_mul O FL) by (apply Z, Hd; lia).
          rewrite <- (H1 j) by lia. fold (v_ z j) in Ht. rewrite <- (Ht RL).
          rewrite (Radd_comm (rl_ring O RL) t). f_equal. apply sum_ext. intros i Hi. rewrite upper_in by lia. rewrite upd_v by lia.
          destruct (Nat.eqb_spec i j); [lia|auto].
        * rewrite <- (H2 FL Z j') by lia. apply sum_ext. intros i Hi. rewrite upd_v by lia. destruct (Nat.eqb_spec i j); [lia|auto].
  Qed.

  Lemma trmv_n_wp : forall n r (m : list T), (n * r <= length m)%nat -> forall k x, k <= r -> k <= n -> length x = n ->
    wp (trmv_n O n m k x) (fun z => length z = n /\ (forall i, k <= i -> v_ z i = v_ x i) /\
      (RingLaws O -> forall i, i < k -> v_ z i = mvec k (upper n m) (v_ x) i)).
  Proof.
    intros n r m L k x Hr Hn Lx. unfold trmv_n.
    eapply wp_conseq; [apply (for_range_inv _ (fun q z => length z = n /\ (forall i, q <= i -> v_ z i = v_ x i) /\
      (RingLaws O -> forall i, i < q -> v_ z i = mvec k (upper n m) (v_ x) i))); [lia| |]|].
    - split; auto. split; auto. intros; lia.
    - intros i z Hi (Lz & H1 & H2). wpb.
      eapply wp_conseq; [apply (for_range_inv _ (fun q s => RingLaws O -> s = sum q (fun j => upper n m i j * v_ x j))); [lia| |]|].
      + intros RL. symmetry. apply (sum_zero O RL). intros j Hj. rewrite upper_out by lia. apply (mul0l RL).
      + intros j s Hj Hs. wpb. rewrite (dget_ok n r) by lia. cbn [wp]. wpb. apply (wp_get _ _ _ 0); [lia|]. cbn [wp]. intros RL.
        cbn [sum]. rewrite <- (Hs RL). f_equal. rewrite upper_in by lia. f_equal. apply H1. lia.
      + intros s Hs. apply wp_set; [lia|]. split; [rewrite upd_length; auto|]. split.
        * intros j Hj. rewrite upd_v by lia. destruct (Nat.eqb_spec j i); [lia|]. apply H1; lia.
        * intros RL j Hj. rewrite upd_v by lia. destruct (Nat.eqb_spec j i) as [->|]; [apply (Hs RL)|apply H2; auto; lia].
    - intros z (H1 & H2 & H3). auto.
  Qed.

  Lemma trmv_c_wp : forall n r (m : list T), (n * r <= length m)%nat -> forall k x, k <= r -> k <= n -> length x = n ->
    wp (trmv_c O n m k x) (fun z => length z = n /\ (forall i, k <= i -> v_ z i = v_ x i) /\
      (RingLaws O -> forall j, j < k -> v_ z j = sum k (fun i => tconj O (upper n m i j) * v_ x i))).
  Proof.
    intros n r m L k x Hr Hn Lx. unfold trmv_c.
    eapply wp_conseq; [apply (for_down_inv _ (fun q z => length z = n /\ (forall i, i < q \/ k <= i -> v_ z i = v_ x i) /\
      (RingLaws O -> forall j, q <= j < k -> v_ z j = sum k (fun i => tconj O (upper n m i j) * v_ x i))) k 0)|].
    - split; auto. split; auto. cbn. intros; lia.
    - cbn [Nat.add]. intros j z Hj (Lz & H1 & H2). wpb.
      eapply wp_conseq; [apply (for_range_inv _ (fun q s => RingLaws O -> s = sum q (fun i => tconj O (upper n m i j) * v_ x i))); [lia| |]|].
      + intros RL. auto.
      + intros i s Hi Hs. wpb. rewrite (dget_ok n r) by lia. cbn [wp]. wpb. apply (wp_get _ _ _ 0); [lia|]. cbn [wp]. intros RL.
        cbn [sum]. rewrite <- (Hs RL). f_equal. rewrite upper_in by lia. f_equal. apply H1. lia.
      + intros s Hs. apply wp_set; [lia|]. split; [rewrite upd_length; auto|]. split.
        * intros i Hi. rewrite upd_v by lia. destruct (Nat.eqb_spec i j); [lia|]. apply H1; lia.
        * intros RL i Hi. rewrite upd_v by lia. destruct (Nat.eqb_spec i j) as [->|]; [|apply H2; auto; lia].
          rewrite (Hs RL). replace k with (S j + (k - S j))%nat by lia. rewrite (sum_split O RL).
          rewrite (sum_zero O RL (k - S j)). { rewrite (add0r RL). auto. }
          intros i Hi'. rewrite upper_out by lia. rewrite (conj_0 O RL). apply (mul0l RL).
    - intros z (H1 & H2 & H3). split; auto. split; [intros; apply H2; lia|]. intros RL j Hj. apply H3; auto. lia.
  Qed.

  (** The permutation steps. *)
  Lemma scatter_wp : forall jv (s : QR O) n rk x, q_nr s = n -> good_pivots n (q_jpvt s) -> rk <= n -> length x = n ->
    wp (scatter_p O jv s rk x) (fun z => length z = n /\
      forall k, k < n -> v_ z (piv (q_jpvt s) k) = if k <? rk then v_ x k else 0).
  Proof.
    intros jv s n rk x Hn (LP & HP & IP) Hr Lx. unfold scatter_p. rewrite LP.
    assert (PL : forall i, i < n -> piv (q_jpvt s) i < n) by (intros i Hi; unfold piv; specialize (HP i Hi); lia).
    assert (PI : forall i j, i < n -> j < n -> piv (q_jpvt s) i = piv (q_jpvt s) j -> i = j).
    { intros i j Hi Hj E. apply IP; auto. unfold piv in E. pose proof (HP i Hi). pose proof (HP j Hj). lia. }
    wpb. eapply wp_conseq; [apply (for_range_inv _ (fun q w => length w = n /\ forall k, k < q -> v_ w (piv (q_jpvt s) k) = v_ x k)); [lia| |]|].
    - split; [rewrite repeat_length; auto|intros; lia].
    - intros i w Hi (Lw & Hw). wpb. apply (wp_get _ _ _ Datatypes.O); [lia|]. wpb. apply (wp_get _ _ _ 0); [lia|].
      fold (piv (q_jpvt s) i). fold (v_ x i). pose proof (PL i ltac:(lia)). apply wp_set; [lia|]. split; [rewrite upd_length; auto|].
      intros k Hk. rewrite upd_v by lia. destruct (Nat.eqb_spec (piv (q_jpvt s) k) (piv (q_jpvt s) i)) as [E|E].
      + apply PI in E; try lia. now subst.
      + apply Hw. destruct (Nat.eq_dec k i); [subst; lia|lia].
    - intros w (Lw & Hw). wpb.
      eapply wp_conseq; [apply (for_range_inv _ (fun q w => length w = n /\ forall k, k < q -> v_ w (piv (q_jpvt s) k) = if k <? rk then v_ x k else 0)); [lia| |]|].
      + split; auto. intros k Hk. destruct (Nat.ltb_spec k rk); [auto|lia].
      + intros i w' Hi (Lw' & Hw'). wpb. apply (wp_get _ _ _ Datatypes.O); [lia|]. fold (piv (q_jpvt s) i). pose proof (PL i ltac:(lia)).
        apply wp_set; [lia|]. split; [rewrite upd_length; auto|].
        intros k Hk. rewrite upd_v by lia. destruct (Nat.eqb_spec (piv (q_jpvt s) k) (piv (q_jpvt s) i)) as [E|E].
        * apply PI in E; try lia. subst k. destruct (Nat.ltb_spec i rk); [lia|auto].
        * apply Hw'. destruct (Nat.eq_dec k i); [subst; lia|lia].
      + intros w' (Lw' & Hw'). cbn [wp]. rewrite firstn_all2, skipn_all2 by lia. rewrite app_nil_r. auto.
  Qed.

  Lemma gather_wp : forall jv (s : QR O) n rk x, q_nr s = n -> good_pivots n (q_jpvt s) -> rk <= n -> length x = n ->
    wp (gather_p O jv s rk x) (fun z => length z = n /\
      forall k, k < n -> v_ z k = if k <? rk then v_ x (piv (q_jpvt s) k) else 0).
  Proof.
    intros jv s n rk x Hn (LP & HP & IP) Hr Lx. unfold gather_p. rewrite LP.
    assert (PL : forall i, i < n -> piv (q_jpvt s) i < n) by (intros i Hi; unfold piv; specialize (HP i Hi); lia).
    wpb. eapply wp_conseq; [apply (for_range_inv _ (fun q w => length w = n /\ forall k, k < q -> v_ w k = v_ x (piv (q_jpvt s) k))); [lia| |]|].
    - split; [rewrite repeat_length; auto|intros; lia].
    - intros i w Hi (Lw & Hw). wpb. apply (wp_get _ _ _ Datatypes.O); [lia|]. fold (piv (q_jpvt s) i). pose proof (PL i ltac:(lia)).
      wpb. apply (wp_get _ _ _ 0); [lia|]. fold (v_ x (piv (q_jpvt s) i)). apply wp_set; [lia|]. split; [rewrite upd_length; auto|].
      intros k Hk. rewrite upd_v by lia. destruct (Nat.eqb_spec k i) as [->|]; auto. apply Hw. lia.
    - intros w (Lw & Hw). wpb.
      eapply wp_conseq; [apply (for_range_inv _ (fun q w => length w = n /\ forall k, k < q -> v_ w k = if k <? rk then v_ x (piv (q_jpvt s) k) else 0)); [lia| |]|].
      + split; auto. intros k Hk. destruct (Nat.ltb_spec k rk); [auto|lia].
      + intros i w' Hi (Lw' & Hw'). apply wp_set; [lia|]. split; [rewrite upd_length; auto|].
        intros k Hk. rewrite upd_v by lia. destruct (Nat.eqb_spec k i) as [->|]; [destruct (Nat.ltb_spec i rk); [lia|auto]|apply Hw'; lia].
      + intros w' (Lw' & Hw'). cbn [wp]. rewrite firstn_all2, skipn_all2 by lia. rewrite app_nil_r. auto.
  Qed.
End Kern.
