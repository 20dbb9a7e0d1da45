(** * Scalars.

    HIFIR is templated over the value type (float, double, complex of both).
    The model is parametric in a structure of operations.  [Ops] carries only
    operations; [RingLaws] / [FieldLaws] are separate records that a theorem
    takes as hypothesis when it needs algebra.  Theorems without such a
    hypothesis hold for floating-point arithmetic as well. *)

From Coq Require Import List Arith Lia Ring Ring_theory Field QArith Qcanon.
From Verif Require Import Base.
Import ListNotations.
Close Scope Q_scope. Close Scope Qc_scope. Open Scope nat_scope.

Record Ops : Type := mkOps {
  T : Type;
  t0 : T;
  t1 : T;
  tadd : T -> T -> T;
  tmul : T -> T -> T;
  tsub : T -> T -> T;
  topp : T -> T;
  tinv : T -> T;
  tdiv : T -> T -> T;
  tconj : T -> T
}.

Record RingLaws (O : Ops) : Prop := mkRingLaws {
  rl_ring : ring_theory (t0 O) (t1 O) (tadd O) (tmul O) (tsub O) (topp O) eq;
  rl_conj_add : forall a b, tconj O (tadd O a b) = tadd O (tconj O a) (tconj O b);
  rl_conj_mul : forall a b, tconj O (tmul O a b) = tmul O (tconj O a) (tconj O b);
  rl_conj_inv : forall a, tconj O (tconj O a) = a
}.

Record FieldLaws (O : Ops) : Prop := mkFieldLaws {
  fl_ring : RingLaws O;
  fl_one : t1 O <> t0 O;
  fl_div : forall a b, tdiv O a b = tmul O a (tinv O b);
  fl_inv : forall a, a <> t0 O -> tmul O (tinv O a) a = t1 O
}.

Section RingFacts.
  Variable O : Ops.
  Hypothesis RL : RingLaws O.
  Notation "0" := (t0 O). Notation "1" := (t1 O).
  Infix "+" := (tadd O). Infix "*" := (tmul O). Infix "-" := (tsub O).
  Notation "- x" := (topp O x). Notation "x ^*" := (tconj O x) (at level 30).
  Add Ring TR : (rl_ring O RL).

  Lemma conj_0 : 0^* = 0.
  Proof.
    assert (H : 0^* + 0^* = 0^*).
    { rewrite <- (rl_conj_add O RL). f_equal. ring. }
    assert (0^* + 0^* - 0^* = 0^* - 0^*) by now rewrite H.
    transitivity (0^* + 0^* - 0^*); [ring|]. rewrite H0. ring.
  Qed.

  Lemma conj_1 : 1^* = 1.
  Proof.
    assert (H : 1^* * (1^*)^* = (1^*)^*).
    { rewrite <- (rl_conj_mul O RL). f_equal. ring. }
    rewrite (rl_conj_inv O RL) in H. transitivity (1^* * 1); [ring|exact H].
  Qed.

  Lemma conj_opp : forall a, (- a)^* = - (a^*).
  Proof.
    intros. assert (H : (-a)^* + a^* = 0).
    { rewrite <- (rl_conj_add O RL). rewrite <- conj_0. f_equal. ring. }
    transitivity ((-a)^* + a^* - a^*); [ring|]. rewrite H. ring.
  Qed.

  Lemma conj_sub : forall a b, (a - b)^* = a^* - b^*.
  Proof.
    intros. replace (a - b) with (a + - b) by ring.
    rewrite (rl_conj_add O RL), conj_opp. ring.
  Qed.
End RingFacts.

Section FieldFacts.
  Variable O : Ops.
  Hypothesis FL : FieldLaws O.
  Notation "0" := (t0 O). Notation "1" := (t1 O).
  Infix "+" := (tadd O). Infix "*" := (tmul O). Infix "-" := (tsub O).
  Notation "- x" := (topp O x). Notation "x ^*" := (tconj O x) (at level 30).
  Let RL := fl_ring O FL.
  Add Ring TF : (rl_ring O RL).

  Lemma mul_nz : forall a b, a <> 0 -> b <> 0 -> a * b <> 0.
  Proof.
    intros a b Ha Hb E. apply Hb.
    transitivity (tinv O a * a * b).
    - rewrite (fl_inv O FL a Ha). ring.
    - transitivity (tinv O a * (a * b)); [ring|]. rewrite E. ring.
  Qed.

  Lemma conj_nz : forall a, a <> 0 -> a^* <> 0.
  Proof.
    intros a Ha E. apply Ha. rewrite <- (rl_conj_inv O RL a), E. apply conj_0; auto.
  Qed.

  Lemma inv_nz : forall a, a <> 0 -> tinv O a <> 0.
  Proof.
    intros a Ha E. apply (fl_one O FL). rewrite <- (fl_inv O FL a Ha), E. ring.
  Qed.

  Lemma div_mul : forall a b, b <> 0 -> tdiv O a b * b = a.
  Proof.
    intros. rewrite (fl_div O FL). transitivity (a * (tinv O b * b)); [ring|].
    rewrite (fl_inv O FL b H). ring.
  Qed.

  Lemma mul_div : forall a b, b <> 0 -> tdiv O (a * b) b = a.
  Proof.
    intros. rewrite (fl_div O FL). transitivity (a * (tinv O b * b)); [ring|].
    rewrite (fl_inv O FL b H). ring.
  Qed.

  Lemma mul_cancel_r : forall a b c, c <> 0 -> a * c = b * c -> a = b.
  Proof.
    intros. rewrite <- (mul_div a c), <- (mul_div b c) by auto. now rewrite H0.
  Qed.

  Lemma conj_tinv : forall a, a <> 0 -> (tinv O a)^* = tinv O (a^*).
  Proof.
    intros a Ha. apply (mul_cancel_r _ _ (a^*)). { now apply conj_nz. }
    rewrite <- (rl_conj_mul O RL), (fl_inv O FL a Ha), (fl_inv O FL _ (conj_nz a Ha)).
    apply conj_1; auto.
  Qed.
End FieldFacts.

(** ** Instance 1: rationals (canonical), trivial conjugation: a real field. *)
Definition OQ : Ops :=
  mkOps Qc (Q2Qc 0) (Q2Qc 1) Qcplus Qcmult Qcminus Qcopp Qcinv Qcdiv (fun a => a).

Lemma OQ_ring : RingLaws OQ.
Proof. constructor; simpl; auto. exact Qcrt. Qed.

Lemma OQ_field : FieldLaws OQ.
Proof.
  constructor; simpl; auto.
  - exact OQ_ring.
  - intros H. apply (f_equal this) in H. discriminate.
  - intros. rewrite Qcmult_comm. now apply Qcmult_inv_r.
Qed.

(** ** Instance 2: Gaussian rationals: a complex field with real conjugation. *)
Record GQ := mkG { re : Qc; im : Qc }.

Definition gadd a b := mkG (re a + re b)%Qc (im a + im b)%Qc.
Definition gsub a b := mkG (re a - re b)%Qc (im a - im b)%Qc.
Definition gopp a := mkG (- re a)%Qc (- im a)%Qc.
Definition gmul a b := mkG (re a * re b - im a * im b)%Qc (re a * im b + im a * re b)%Qc.
Definition gnorm a := (re a * re a + im a * im a)%Qc.
Definition ginv a := mkG (re a / gnorm a)%Qc (- im a / gnorm a)%Qc.
Definition gdiv a b := gmul a (ginv b).
Definition gconj a := mkG (re a) (- im a)%Qc.
Definition OG : Ops :=
  mkOps GQ (mkG (Q2Qc 0) (Q2Qc 0)) (mkG (Q2Qc 1) (Q2Qc 0)) gadd gmul gsub gopp ginv gdiv gconj.

Lemma GQ_ext : forall a b, re a = re b -> im a = im b -> a = b.
Proof. intros [a1 a2] [b1 b2]; simpl; intros; subst; auto. Qed.

Lemma OG_ring : RingLaws OG.
Proof.
  constructor.
  - constructor; simpl; intros; apply GQ_ext; simpl; ring.
  - simpl; intros; apply GQ_ext; simpl; ring.
  - simpl; intros; apply GQ_ext; simpl; ring.
  - simpl; intros; apply GQ_ext; simpl; ring.
Qed.

Lemma Qc_sq_sum : forall a b : Qc, (a * a + b * b)%Qc = Q2Qc 0 -> a = Q2Qc 0 /\ b = Q2Qc 0.
Proof.
  assert (P : forall x : Qc, (0 <= x * x)%Qc).
  { intros. destruct (Qclt_le_dec x 0).
    - replace (x * x)%Qc with ((-x) * (-x))%Qc by ring.
      assert (0 <= - x)%Qc.
      { replace (Q2Qc 0) with (- (Q2Qc 0))%Qc by (apply Qc_is_canon; reflexivity).
        apply Qcopp_le_compat. now apply Qclt_le_weak. }
      replace (Q2Qc 0) with (0 * (-x))%Qc by ring. apply Qcmult_le_compat_r; auto.
    - replace (Q2Qc 0) with (0 * x)%Qc by ring. apply Qcmult_le_compat_r; auto. }
  assert (Z : forall x y : Qc, (x * x + y * y)%Qc = Q2Qc 0 -> x = Q2Qc 0).
  { intros x y H. assert (x * x <= 0)%Qc.
    { rewrite <- H. pose proof (P y). 
      replace (x * x)%Qc with (x * x + 0)%Qc at 1 by ring.
      apply Qcplus_le_compat; auto. apply Qcle_refl. }
    assert (x * x = Q2Qc 0)%Qc by (apply Qcle_antisym; auto).
    apply Qcmult_integral in H1. tauto. }
  intros. split; [eapply Z; eauto|]. apply (Z b a). rewrite <- H. ring.
Qed.

Lemma OG_field : FieldLaws OG.
Proof.
  constructor.
  - exact OG_ring.
  - simpl. intros H. apply (f_equal re) in H. simpl in H. apply (f_equal this) in H. discriminate.
  - reflexivity.
  - simpl. intros [a b] H. apply GQ_ext; simpl; unfold gnorm; simpl.
    + assert (a * a + b * b <> Q2Qc 0)%Qc.
      { intros E. apply Qc_sq_sum in E. destruct E; subst. now apply H. }
      field. auto.
    + assert (a * a + b * b <> Q2Qc 0)%Qc.
      { intros E. apply Qc_sq_sum in E. destruct E; subst. now apply H. }
      field. auto.
Qed.

(** ** Integers and Gaussian integers: rings, used for computed witnesses.
    (They have no division: [tinv] and [tdiv] are placeholders, and only
    [RingLaws] is claimed.) *)
Definition OZ : Ops :=
  mkOps Z 0%Z 1%Z Z.add Z.mul Z.sub Z.opp (fun _ => 0%Z) Z.div (fun a => a).

Lemma OZ_ring : RingLaws OZ.
Proof.
  constructor; auto. exact InitialRing.Zth.
Qed.

Record GI : Type := mkGI { gre : Z; gim : Z }.
Definition OI : Ops :=
  mkOps GI (mkGI 0 0) (mkGI 1 0)
    (fun a b => mkGI (gre a + gre b) (gim a + gim b))
    (fun a b => mkGI (gre a * gre b - gim a * gim b) (gre a * gim b + gim a * gre b))
    (fun a b => mkGI (gre a - gre b) (gim a - gim b))
    (fun a => mkGI (- gre a) (- gim a))
    (fun _ => mkGI 0 0)
    (fun a _ => a)
    (fun a => mkGI (gre a) (- gim a)).

Lemma GI_ext : forall a b, gre a = gre b -> gim a = gim b -> a = b.
Proof. intros [a b] [c d]; simpl; intros; subst; auto. Qed.

Lemma OI_ring : RingLaws OI.
Proof.
  constructor; [constructor|..]; intros; apply GI_ext;
    cbn [OI T tadd tmul tsub topp tconj t0 t1 gre gim]; ring.
Qed.
