(** * LevelMath: block algebra of one preconditioner level (no data structures). *)
From Coq Require Import List Arith Lia Bool Ring.
From Verif Require Import Base Scalar Spec CSProofs.
Import ListNotations.

Section LM.
  Variable O : Ops.
  Notation T := (T O).
  Notation "0" := (t0 O). Notation "1" := (t1 O).
  Infix "+" := (tadd O). Infix "*" := (tmul O). Infix "-" := (tsub O).
  Notation "x ^*" := (tconj O x) (at level 30).

  (** The 2x2 block matrix [[B F] [E C]] with leading block of size [m]. *)
  Definition blk2 (m : nat) (B F E C : nat -> nat -> T) : nat -> nat -> T := fun i j =>
    if Nat.ltb i m then (if Nat.ltb j m then B i j else F i (Nat.sub j m))
    else (if Nat.ltb j m then E (Nat.sub i m) j else C (Nat.sub i m) (Nat.sub j m)).

  (** [M] is, after scaling by [s],[t] and permuting by [p],[q], the block matrix
      [[B F] [E  E B^-1 F + C]]; [W] plays the role of [B^-1 F]. *)
  Definition level_of (m n : nat) (s t : nat -> T) (p q : list nat)
             (B F E C M : nat -> nat -> T) : Prop :=
    exists W, meq m (Nat.sub n m) (mmul m B W) F /\
      forall i j, (i < n)%nat -> (j < n)%nat ->
        s (nth i p Datatypes.O) * M (nth i p Datatypes.O) (nth j q Datatypes.O) * t (nth j q Datatypes.O)
        = blk2 m B F E (madd (mmul m E W) C) i j.

  Definition injective_on (n : nat) (A : nat -> nat -> T) : Prop :=
    forall x y, veq n (mvec n A x) (mvec n A y) -> veq n x y.

  Section Laws.
    Hypothesis FL : FieldLaws O.
    Let RL := fl_ring O FL.
    Add Ring TLM : (rl_ring O RL).

    Lemma sum_reindex : forall n q qi (f : nat -> T), is_inv n q qi ->
      sum n (fun j => f (nth j q Datatypes.O)) = sum n f.
    Proof.
      intros n q qi f (Lq & Lqi & H1 & H2).
      transitivity (sum n (fun j => sum n (fun k => if Nat.eqb (nth j q Datatypes.O) k then f k else 0))).
      - apply sum_ext. intros j Hj. rewrite (sum_delta O RL); auto. apply H1; auto.
      - rewrite (sum_swap O RL). apply sum_ext. intros k Hk.
        rewrite (sum_one_nz O RL n (nth k qi Datatypes.O)).
        + destruct (H2 k Hk) as [_ E]. rewrite E, Nat.eqb_refl. auto.
        + apply H2; auto.
        + intros i Hi Hn. destruct (Nat.eqb_spec (nth i q Datatypes.O) k); auto.
          exfalso. apply Hn. subst. destruct (H1 i Hi). congruence.
    Qed.

    (** Splitting a product with a block matrix. *)
    Lemma blk2_top : forall m n B F E C x i, (m <= n)%nat -> (i < m)%nat ->
      mvec n (blk2 m B F E C) x i
      = mvec m B x i + mvec (Nat.sub n m) F (fun j => x (Nat.add m j)) i.
    Proof.
      intros m n B F E C x i Hm Hi. unfold mvec, blk2.
      replace n with (Nat.add m (Nat.sub n m)) at 1 by lia.
      rewrite (sum_split O RL). f_equal; apply sum_ext; intros j Hj.
      - destruct (Nat.ltb_spec i m); [|lia]. destruct (Nat.ltb_spec j m); [|lia]. auto.
      - destruct (Nat.ltb_spec i m); [|lia]. destruct (Nat.ltb_spec (Nat.add m j) m); [lia|].
        replace (Nat.sub (Nat.add m j) m) with j by lia. auto.
    Qed.
    Lemma blk2_bot : forall m n B F E C x i, (m <= n)%nat -> (i < Nat.sub n m)%nat ->
      mvec n (blk2 m B F E C) x (Nat.add m i)
      = mvec m E x i + mvec (Nat.sub n m) C (fun j => x (Nat.add m j)) i.
    Proof.
      intros m n B F E C x i Hm Hi. unfold mvec, blk2.
      replace n with (Nat.add m (Nat.sub n m)) at 1 by lia.
      rewrite (sum_split O RL). f_equal; apply sum_ext; intros j Hj;
      destruct (Nat.ltb_spec (Nat.add m i) m); try lia;
      replace (Nat.sub (Nat.add m i) m) with i by lia.
      - destruct (Nat.ltb_spec j m); [|lia]. auto.
      - destruct (Nat.ltb_spec (Nat.add m j) m); [lia|].
        replace (Nat.sub (Nat.add m j) m) with j by lia. auto.
    Qed.

    Lemma mvec_eq_x : forall n (A : nat -> nat -> T) x y i, veq n x y -> mvec n A x i = mvec n A y i.
    Proof. intros. apply sum_ext. intros. now rewrite H. Qed.

    (** Block elimination: the three solves give a solution of the block system. *)
    Lemma block_solve : forall m nm B F E C W (b1 b2 w1 y2 x1 : nat -> T),
      injective_on m B -> meq m nm (mmul m B W) F ->
      veq m (mvec m B w1) b1 ->
      veq nm (mvec nm C y2) (fun i => b2 i - mvec m E w1 i) ->
      veq m (mvec m B x1) (fun i => b1 i - mvec nm F y2 i) ->
      (forall i, (i < m)%nat -> mvec m B x1 i + mvec nm F y2 i = b1 i) /\
      (forall i, (i < nm)%nat -> mvec m E x1 i + mvec nm (madd (mmul m E W) C) y2 i = b2 i).
    Proof.
      intros m nm B F E C W b1 b2 w1 y2 x1 HB HW H1 H2 H3. split.
      - intros i Hi. rewrite H3 by auto. ring.
      - intros i Hi. rewrite (mvec_madd O RL), (mvec_mmul O RL), H2 by auto.
        assert (Q : veq m (fun j => x1 j + mvec nm W y2 j) w1).
        { apply HB. intros j Hj. rewrite (mvec_add_r O RL), H1, H3 by auto.
          rewrite <- (mvec_mmul O RL).
          rewrite (mvec_ext O nm (mmul m B W) F y2 y2 j); auto. ring. }
        rewrite <- (mvec_eq_x m E _ _ i Q), (mvec_add_r O RL). ring.
    Qed.

    (** Block product: what prec_prod computes. *)
    Lemma block_prod : forall m nm B F E C W (x1 x2 z : nat -> T),
      injective_on m B -> meq m nm (mmul m B W) F ->
      veq m (mvec m B z) (mvec nm F x2) ->
      forall i, (i < nm)%nat ->
      mvec m E (fun j => z j + x1 j) i + mvec nm C x2 i
      = mvec m E x1 i + mvec nm (madd (mmul m E W) C) x2 i.
    Proof.
      intros m nm B F E C W x1 x2 z HB HW Hz i Hi.
      rewrite (mvec_madd O RL), (mvec_mmul O RL), (mvec_add_r O RL).
      assert (Q : veq m z (mvec nm W x2)).
      { apply HB. intros j Hj. rewrite Hz by auto. rewrite <- (mvec_mmul O RL).
        apply (mvec_ext O); auto. intros; symmetry; auto. }
      rewrite (mvec_eq_x m E _ _ i Q). ring.
    Qed.

    Lemma block_inj : forall m n B F E C W, (m <= n)%nat ->
      injective_on m B -> injective_on (Nat.sub n m) C -> meq m (Nat.sub n m) (mmul m B W) F ->
      injective_on n (blk2 m B F E (madd (mmul m E W) C)).
    Proof.
      intros m n B F E C W Hm HB HC HW x y H.
      set (nm := Nat.sub n m) in *.
      assert (T1 : forall i, (i < m)%nat -> mvec m B x i + mvec nm F (fun j => x (Nat.add m j)) i
                      = mvec m B y i + mvec nm F (fun j => y (Nat.add m j)) i).
      { intros i Hi. pose proof (H i ltac:(lia)) as E1. now rewrite !blk2_top in E1 by auto. }
      assert (Q : veq m (fun j => x j + mvec nm W (fun j => x (Nat.add m j)) j)
                        (fun j => y j + mvec nm W (fun j => y (Nat.add m j)) j)).
      { apply HB. intros j Hj. rewrite !(mvec_add_r O RL), <- !(mvec_mmul O RL).
        rewrite !(mvec_ext O nm (mmul m B W) F _ _ j (fun k Hk => HW j k Hj Hk) (fun k _ => eq_refl)).
        apply T1; auto. }
      assert (Z : veq nm (fun j => x (Nat.add m j)) (fun j => y (Nat.add m j))).
      { apply HC. intros i Hi. pose proof (H (Nat.add m i) ltac:(lia)) as E1.
        rewrite !blk2_bot in E1 by auto. fold nm in E1.
        rewrite !(mvec_madd O RL), !(mvec_mmul O RL) in E1.
        assert (E2 : mvec m E x i + mvec m E (mvec nm W (fun j => x (Nat.add m j))) i
                   = mvec m E y i + mvec m E (mvec nm W (fun j => y (Nat.add m j))) i).
        { rewrite <- !(mvec_add_r O RL). now apply mvec_eq_x. }
        set (cx := mvec nm C (fun j => x (Nat.add m j)) i) in *.
        set (cy := mvec nm C (fun j => y (Nat.add m j)) i) in *.
        transitivity (mvec m E x i + mvec m E (mvec nm W (fun j => x (Nat.add m j))) i + cx
             - (mvec m E x i + mvec m E (mvec nm W (fun j => x (Nat.add m j))) i)); [ring|].
        rewrite E2.
        replace (mvec m E y i + mvec m E (mvec nm W (fun j => y (Nat.add m j))) i + cx)
          with (mvec m E x i + (mvec m E (mvec nm W (fun j => x (Nat.add m j))) i + cx))
          by (rewrite <- E2; ring).
        rewrite E1. ring. }
      intros i Hi. destruct (le_lt_dec m i).
      - specialize (Z (Nat.sub i m) ltac:(lia)). cbv beta in Z.
        now replace (Nat.add m (Nat.sub i m)) with i in Z by lia.
      - specialize (Q i l). cbv beta in Q.
        rewrite (mvec_eq_x nm W _ _ i Z) in Q.
        transitivity (x i + mvec nm W (fun j => y (Nat.add m j)) i
                       - mvec nm W (fun j => y (Nat.add m j)) i); [ring|].
        rewrite Q. ring.
    Qed.

    (** From block coordinates to the unscaled, unpermuted matrix. *)
    Section Perm.
      Variables (m n : nat) (s t : nat -> T) (p pi q qi : list nat).
      Hypotheses (Hm : (m <= n)%nat)
        (Hp : is_inv n p pi) (Hq : is_inv n q qi)
        (Hs : forall i, (i < n)%nat -> s i <> 0) (Ht : forall i, (i < n)%nat -> t i <> 0).

      (** With [x j = t(q j) * xh j] permuted back, [s (M x)] is the block product. *)
      Lemma scaled_product : forall M A (xh x : nat -> T),
        (forall i j, (i < n)%nat -> (j < n)%nat ->
          s (nth i p Datatypes.O) * M (nth i p Datatypes.O) (nth j q Datatypes.O) * t (nth j q Datatypes.O) = A i j) ->
        (forall j, (j < n)%nat -> x (nth j q Datatypes.O) = t (nth j q Datatypes.O) * xh j) ->
        forall i, (i < n)%nat -> s (nth i p Datatypes.O) * mvec n M x (nth i p Datatypes.O) = mvec n A xh i.
      Proof.
        intros M A xh x HM Hx i Hi. unfold mvec.
        rewrite <- (sum_reindex n q qi _ Hq). rewrite <- (sum_scal_l O RL).
        apply sum_ext. intros j Hj. rewrite Hx, <- HM by auto. ring.
      Qed.
    End Perm.

    Lemma mul_cancel_l : forall c a b : T, c <> 0 -> c * a = c * b -> a = b.
    Proof.
      intros c a b Hc H. apply (mul_cancel_r O FL a b c Hc).
      transitivity (c * a); [ring|]. rewrite H. ring.
    Qed.

    Lemma level_solve : forall m n s t p pi q qi B F E C M (b xh y w1 : nat -> T),
      (m <= n)%nat -> is_inv n p pi -> is_inv n q qi ->
      (forall i, (i < n)%nat -> s i <> 0) ->
      injective_on m B -> level_of m n s t p q B F E C M ->
      (* forward, Schur and backward solves *)
      veq m (mvec m B w1) (fun i => s (nth i p Datatypes.O) * b (nth i p Datatypes.O)) ->
      veq (Nat.sub n m) (mvec (Nat.sub n m) C (fun j => xh (Nat.add m j)))
          (fun i => s (nth (Nat.add m i) p Datatypes.O) * b (nth (Nat.add m i) p Datatypes.O) - mvec m E w1 i) ->
      veq m (mvec m B xh) (fun i => s (nth i p Datatypes.O) * b (nth i p Datatypes.O)
                               - mvec (Nat.sub n m) F (fun j => xh (Nat.add m j)) i) ->
      (forall i, (i < n)%nat -> y i = t i * xh (nth i qi Datatypes.O)) ->
      veq n (mvec n M y) b.
    Proof.
      intros m n s t p pi q qi B F E C M b xh y w1 Hm Hp Hq Hs HB (W & HW & HM) H1 H2 H3 Hy.
      destruct (block_solve m (Nat.sub n m) B F E C W _ _ w1 (fun j => xh (Nat.add m j)) xh HB HW H1 H2 H3)
        as [Top Bot].
      assert (Hx : forall j, (j < n)%nat -> y (nth j q Datatypes.O) = t (nth j q Datatypes.O) * xh j).
      { intros j Hj. destruct Hq as (_ & _ & Q1 & _). destruct (Q1 j Hj) as [Q2 Q3].
        rewrite Hy by auto. now rewrite Q3. }
      intros k Hk. destruct Hp as (Lp & Lpi & P1 & P2). destruct (P2 k Hk) as [K1 K2].
      set (i := nth k pi Datatypes.O) in *.
      pose proof (scaled_product n s t p q qi Hq M _ xh y HM Hx i K1) as SP.
      rewrite K2 in SP. apply (mul_cancel_l (s k)); [apply Hs; auto|].
      rewrite SP. destruct (le_lt_dec m i).
      - replace i with (Nat.add m (Nat.sub i m)) at 1 by lia.
        rewrite blk2_bot by lia. rewrite Bot by lia.
        replace (Nat.add m (Nat.sub i m)) with i by lia. now rewrite K2.
      - rewrite blk2_top by lia. rewrite Top by lia. now rewrite K2.
    Qed.

    Lemma level_prod : forall m n s t p pi q qi B F E C M (b xh y z : nat -> T),
      (m <= n)%nat -> is_inv n p pi -> is_inv n q qi ->
      (forall i, (i < n)%nat -> s i <> 0) ->
      injective_on m B -> level_of m n s t p q B F E C M ->
      (forall j, (j < n)%nat -> b (nth j q Datatypes.O) = t (nth j q Datatypes.O) * xh j) ->
      veq m (mvec m B z) (mvec (Nat.sub n m) F (fun j => xh (Nat.add m j))) ->
      (forall k, (k < n)%nat -> s k * y k =
         (if Nat.ltb (nth k pi Datatypes.O) m
          then mvec m B xh (nth k pi Datatypes.O) + mvec (Nat.sub n m) F (fun j => xh (Nat.add m j)) (nth k pi Datatypes.O)
          else mvec m E (fun j => z j + xh j) (Nat.sub (nth k pi Datatypes.O) m)
               + mvec (Nat.sub n m) C (fun j => xh (Nat.add m j)) (Nat.sub (nth k pi Datatypes.O) m))) ->
      veq n y (mvec n M b).
    Proof.
      intros m n s t p pi q qi B F E C M b xh y z Hm Hp Hq Hs HB (W & HW & HM) Hx Hz Hy.
      intros k Hk. destruct Hp as (Lp & Lpi & P1 & P2). destruct (P2 k Hk) as [K1 K2].
      apply (mul_cancel_l (s k)); [apply Hs; auto|]. rewrite Hy by auto. clear Hy.
      set (i := nth k pi Datatypes.O) in *.
      pose proof (scaled_product n s t p q qi Hq M _ xh b HM Hx i K1) as SP.
      rewrite K2 in SP. rewrite SP. destruct (Nat.ltb_spec i m).
      - now rewrite blk2_top by lia.
      - rewrite (block_prod m (Nat.sub n m) B F E C W) by (auto; lia).
        replace i with (Nat.add m (Nat.sub i m)) at 3 by lia. now rewrite blk2_bot by lia.
    Qed.

    Lemma level_inj : forall m n s t p pi q qi B F E C M,
      (m <= n)%nat -> is_inv n p pi -> is_inv n q qi ->
      (forall i, (i < n)%nat -> s i <> 0) -> (forall i, (i < n)%nat -> t i <> 0) ->
      injective_on m B -> injective_on (Nat.sub n m) C -> level_of m n s t p q B F E C M ->
      injective_on n M.
    Proof.
      intros m n s t p pi q qi B F E C M Hm Hp Hq Hs Ht HB HC (W & HW & HM) x y H.
      assert (I := block_inj m n B F E C W Hm HB HC HW).
      set (xh := fun j => tinv O (t (nth j q Datatypes.O)) * x (nth j q Datatypes.O)).
      set (yh := fun j => tinv O (t (nth j q Datatypes.O)) * y (nth j q Datatypes.O)).
      destruct Hq as (Lq & Lqi & Q1 & Q2). destruct Hp as (Lp & Lpi & P1 & P2).
      assert (Hx : forall j, (j < n)%nat -> x (nth j q Datatypes.O) = t (nth j q Datatypes.O) * xh j).
      { intros j Hj. unfold xh. transitivity ((tinv O (t (nth j q Datatypes.O)) * t (nth j q Datatypes.O)) * x (nth j q Datatypes.O)); [|ring].
        rewrite (fl_inv O FL) by (apply Ht, Q1; auto). ring. }
      assert (Hy : forall j, (j < n)%nat -> y (nth j q Datatypes.O) = t (nth j q Datatypes.O) * yh j).
      { intros j Hj. unfold yh. transitivity ((tinv O (t (nth j q Datatypes.O)) * t (nth j q Datatypes.O)) * y (nth j q Datatypes.O)); [|ring].
        rewrite (fl_inv O FL) by (apply Ht, Q1; auto). ring. }
      assert (E1 : veq n xh yh).
      { apply I. intros i Hi.
        rewrite <- (scaled_product n s t p q qi ltac:(repeat split; auto; apply Q1 || apply Q2; auto) M _ xh x HM Hx i Hi).
        rewrite <- (scaled_product n s t p q qi ltac:(repeat split; auto; apply Q1 || apply Q2; auto) M _ yh y HM Hy i Hi).
        f_equal. apply H. apply P1; auto. }
      intros k Hk. destruct (Q2 k Hk) as [K1 K2].
      rewrite <- K2. rewrite Hx, Hy, E1 by auto. auto.
    Qed.

    (** Adjoint of a level. *)
    Lemma mvec_adj_mmul : forall n (A B : nat -> nat -> T) x i,
      mvec n (madj (mmul n A B)) x i = mvec n (madj B) (mvec n (madj A) x) i.
    Proof.
      intros. rewrite <- (mvec_mmul O RL). apply sum_ext. intros j Hj. f_equal.
      unfold madj, mmul. rewrite (sum_conj O RL). apply sum_ext. intros k Hk.
      rewrite (rl_conj_mul O RL). ring.
    Qed.

    Lemma level_adj : forall m n s t p q B F E C M,
      (m <= n)%nat ->
      (forall i, (i < n)%nat -> (nth i p Datatypes.O < n)%nat) ->
      (forall i, (i < n)%nat -> (nth i q Datatypes.O < n)%nat) ->
      (forall i, (i < n)%nat -> (s i)^* = s i) -> (forall i, (i < n)%nat -> (t i)^* = t i) ->
      level_of m n s t p q B F E C M ->
      (exists V, meq m (Nat.sub n m) (mmul m (madj B) V) (madj E)) ->
      level_of m n t s q p (madj B) (madj E) (madj F) (madj C) (madj M).
    Proof.
      intros m n s t p q B F E C M Hm Hp Hq Hs Ht (W & HW & HM) (V & HV).
      exists V. split; auto. intros i j Hi Hj.
      transitivity ((s (nth j p Datatypes.O) * M (nth j p Datatypes.O) (nth i q Datatypes.O) * t (nth i q Datatypes.O))^*).
      { rewrite !(rl_conj_mul O RL), Hs, Ht by auto. unfold madj. ring. }
      rewrite HM by auto. unfold blk2.
      destruct (Nat.ltb_spec j m), (Nat.ltb_spec i m); auto.
      set (i' := Nat.sub i m) in *. set (j' := Nat.sub j m) in *.
      unfold madj at 2, madd. rewrite (rl_conj_add O RL). f_equal.
      (* (E W)^* (j',i') = (F^H V)(i',j') *)
      unfold mmul. rewrite (sum_conj O RL).
      assert (EE : forall k, (k < m)%nat -> (E j' k)^* = sum m (fun l => (B l k)^* * V l j')).
      { intros k Hk. symmetry. apply (HV k j'); auto. unfold j'; lia. }
      assert (FF : forall k, (k < m)%nat -> (F k i')^* = sum m (fun l => (B k l)^* * (W l i')^*)).
      { intros k Hk. rewrite <- (HW k i') by (auto; unfold i'; lia). unfold mmul.
        rewrite (sum_conj O RL). apply sum_ext. intros. apply (rl_conj_mul O RL). }
      transitivity (sum m (fun k => sum m (fun l => (B l k)^* * V l j' * (W k i')^*))).
      { apply sum_ext. intros k Hk. rewrite (rl_conj_mul O RL), EE by auto.
        now rewrite <- (sum_scal_r O RL). }
      rewrite (sum_swap O RL). apply sum_ext. intros k Hk.
      unfold madj. rewrite FF by auto. rewrite <- (sum_scal_r O RL).
      apply sum_ext. intros. ring.
    Qed.
  End Laws.
End LM.
Arguments blk2 {O}. Arguments level_of {O}. Arguments injective_on {O}.
