(** * FactorMath: a complete L D U on the leading rows and columns is one level. *)
From Coq Require Import List Arith Lia Bool Ring.
From Verif Require Import Base Scalar Spec CSProofs LevelMath LinAlg.
Import ListNotations.

Section FM.
  Variable O : Ops.
  Notation T := (T O).
  Notation "0" := (t0 O). Notation "1" := (t1 O).
  Infix "+" := (tadd O). Infix "*" := (tmul O). Infix "-" := (tsub O).
  Hypothesis FL : FieldLaws O.
  Let RL := fl_ring O FL.
  Add Ring TFM : (rl_ring O RL).

  Lemma ldu_E_W : forall m nm (LB UB : nat -> nat -> T) (d : nat -> T) (LE UF W : nat -> nat -> T),
    strict_lower m LB -> (forall i, (i < m)%nat -> d i <> 0) ->
    meq m nm (mmul m (mmul m (madd mid LB) (mmul m (mdiag d) (madd mid UB))) W)
             (fun i j => sum m (fun c => madd mid LB i c * d c * UF c j)) ->
    forall a j, (j < nm)%nat ->
      sum m (fun k => sum m (fun c => LE a c * d c * madd mid UB c k) * W k j) = sum m (fun c => LE a c * d c * UF c j).
  Proof.
    intros m nm LB UB d LE UF W SL Hd HW a j Hj.
    set (w := fun k => W k j).
    (* (I+UB) w = UF(:,j) *)
    assert (X : veq m (mvec m (madd mid UB) w) (fun c => UF c j)).
    { assert (Y : veq m (mvec m (mdiag d) (mvec m (madd mid UB) w)) (mvec m (mdiag d) (fun c => UF c j))).
      { apply (unit_lower_unique O RL m _ _ _ SL). intros i Hi.
        transitivity (mmul m (mmul m (madd mid LB) (mmul m (mdiag d) (madd mid UB))) W i j).
        - unfold mmul at 1. change (sum m (fun k => mmul m (madd mid LB) (mmul m (mdiag d) (madd mid UB)) i k * W k j))
            with (mvec m (mmul m (madd mid LB) (mmul m (mdiag d) (madd mid UB))) w i).
          rewrite (mvec_mmul O RL). apply (mvec_eq_x O). intros k Hk. symmetry. apply (mvec_mmul O RL).
        - rewrite (HW i j Hi Hj). unfold mvec at 1. apply sum_ext. intros c Hc. rewrite (mvec_diag O RL) by auto. ring. }
      intros c Hc. specialize (Y c Hc). rewrite !(mvec_diag O RL) in Y by auto.
      apply (mul_cancel_l O FL (d c)); auto. }
    transitivity (sum m (fun k => sum m (fun c => LE a c * d c * madd mid UB c k * W k j))).
    { apply sum_ext. intros. now rewrite (sum_scal_r O RL). }
    rewrite (sum_swap O RL). apply sum_ext. intros c Hc. rewrite <- (X c Hc). unfold mvec. rewrite <- (sum_scal_l O RL).
    apply sum_ext. intros k Hk. unfold w. ring.
  Qed.

  (** The matrix of the following level is nonsingular when this one is. *)
  Lemma level_inj_rev : forall m n s t p pi q qi B F E C M,
    (m <= n)%nat -> is_inv n p pi -> is_inv n q qi ->
    (forall i, (i < n)%nat -> s i <> 0) -> (forall i, (i < n)%nat -> t i <> 0) ->
    level_of m n s t p q B F E C M -> injective_on n M -> injective_on (Nat.sub n m) C.
  Proof.
    intros m n s t p pi q qi B F E C M Hm Hp Hq Hs Ht (W & HW & HM) HI.
    apply (inj_ker O FL). intros x Hx. set (nm := Nat.sub n m) in *.
    set (xh := fun j => if Nat.ltb j m then 0 - mvec nm W x j else x (Nat.sub j m)).
    set (y := fun k => t k * xh (nth k qi Datatypes.O)).
    assert (Y : veq n y (fun _ => 0)).
    { apply (proj2 (inj_ker O FL n M) HI). intros k Hk. destruct Hp as (Lp & Lpi & P1 & P2).
      destruct (P2 k Hk) as (Hpk & Epk).
      apply (mul_cancel_l O FL (s k)); auto. rewrite <- Epk.
      rewrite (scaled_product O FL n s t p q qi Hq M (blk2 m B F E (madd (mmul m E W) C)) xh y); auto.
      2:{ intros j Hj. unfold y. destruct Hq as (_ & _ & Q1 & _). destruct (Q1 j Hj) as (_ & E'). now rewrite E'. }
      set (i := nth k pi Datatypes.O) in *.
      assert (XT : forall j, (j < nm)%nat -> xh (Nat.add m j) = x j).
      { intros j Hj. unfold xh. destruct (Nat.ltb_spec (Nat.add m j) m); [lia|]. f_equal. lia. }
      assert (XB : forall (K : nat -> nat -> T) i, mvec m K xh i = 0 - mvec m K (mvec nm W x) i).
      { intros K i'. unfold mvec at 1 2. transitivity (sum m (fun j => 0 - K i' j * mvec nm W x j)).
        - apply sum_ext. intros j Hj. unfold xh. destruct (Nat.ltb_spec j m); [ring|lia].
        - rewrite (sum_sub O RL). rewrite (sum_zero O RL m (fun _ => 0)); auto. }
      destruct (Nat.lt_ge_cases i m) as [Hi|Hi].
      - rewrite (blk2_top O FL) by auto. rewrite XB.
        rewrite (mvec_ext O nm F (mmul m B W) _ x i).
        2:{ intros j Hj. symmetry. now apply HW. } 2:{ exact XT. }
        rewrite (mvec_mmul O RL). ring.
      - replace i with (Nat.add m (Nat.sub i m)) by lia. rewrite (blk2_bot O FL) by (unfold nm in *; lia).
        rewrite XB. rewrite (mvec_eq_x O nm _ _ x) by exact XT. rewrite (mvec_madd O RL), (mvec_mmul O RL).
        fold nm. rewrite (Hx (Nat.sub i m)) by (unfold nm; lia). ring. }
    intros j Hj. assert (Hmj : (Nat.add m j < n)%nat) by (unfold nm in Hj; lia).
    destruct Hq as (_ & _ & Q1 & _). destruct (Q1 _ Hmj) as (Hq1 & Eq1). pose proof (Y _ Hq1) as Z. unfold y in Z. rewrite Eq1 in Z.
    unfold xh in Z. destruct (Nat.ltb_spec (Nat.add m j) m); [lia|]. replace (Nat.sub (Nat.add m j) m) with j in Z by lia.
    apply (mul_cancel_l O FL (t (nth (Nat.add m j) q Datatypes.O))); auto. rewrite Z. ring.
  Qed.
End FM.
