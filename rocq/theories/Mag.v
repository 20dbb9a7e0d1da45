(** * Mag: magnitudes.

    Dropping and pruning compare absolute values (of type [scalar_type]).  As for
    [Ops], the operations come without laws; [MagLaws] is a separate hypothesis
    (it holds for real arithmetic and, without NaN, for IEEE comparison). *)
From Coq Require Import List Arith Lia Bool QArith Qcanon.
From Verif Require Import Base Scalar.
Import ListNotations.
Close Scope Q_scope. Close Scope Qc_scope. Open Scope nat_scope.

Record Mag (O : Ops) : Type := mkMag {
  M : Type;
  m0 : M;
  mabs : T O -> M;          (* std::abs *)
  mlt : M -> M -> bool;     (* operator<  *)
  mle : M -> M -> bool;     (* operator<= *)
  mmul : M -> M -> M
}.
Arguments M {O}. Arguments m0 {O}. Arguments mabs {O}. Arguments mlt {O}. Arguments mle {O}. Arguments mmul {O}.

Record MagLaws {O : Ops} (G : Mag O) : Prop := mkMagLaws {
  ml_le : forall a b, mle G a b = negb (mlt G b a);
  ml_irr : forall a, mlt G a a = false;
  ml_trans : forall a b c, mlt G a b = true -> mlt G b c = true -> mlt G a c = true;
  ml_total : forall a b, mlt G a b = false -> mlt G b a = false -> a = b;
  ml_abs : forall v, mle G (m0 G) (mabs G v) = true;
  ml_abs0 : forall v, mabs G v = m0 G <-> v = t0 O;
  ml_mul0 : forall a, mmul G (m0 G) a = m0 G;
  ml_mono : forall e a b, mle G (m0 G) e = true -> mle G a b = true -> mle G (mmul G e a) (mmul G e b) = true
}.

(** [std::max(a,b)] = [(a < b) ? b : a], [std::min(a,b)] = [(b < a) ? b : a]. *)
Definition mmax {O} (G : Mag O) (a b : M G) : M G := if mlt G a b then b else a.
Definition mmin {O} (G : Mag O) (a b : M G) : M G := if mlt G b a then b else a.

Section L.
  Context {O : Ops} {G : Mag O}.
  Hypothesis L : MagLaws G.
  Notation le a b := (mle G a b = true).
  Notation lt a b := (mlt G a b = true).

  Lemma mle_refl : forall a, le a a.
  Proof. intros. rewrite (ml_le G L), (ml_irr G L). auto. Qed.
  Lemma mlt_nle : forall a b, lt a b <-> ~ le b a.
  Proof. intros. rewrite (ml_le G L). destruct (mlt G a b); simpl; intuition congruence. Qed.
  Lemma mle_nlt : forall a b, le a b <-> ~ lt b a.
  Proof. intros. rewrite (ml_le G L). destruct (mlt G b a); simpl; intuition congruence. Qed.
  Lemma mlt_le : forall a b, lt a b -> le a b.
  Proof.
    intros a b H. apply mle_nlt. intros H'. pose proof (ml_trans G L _ _ _ H H') as C.
    rewrite (ml_irr G L) in C. discriminate.
  Qed.
  Lemma mle_trans : forall a b c, le a b -> le b c -> le a c.
  Proof.
    intros a b c H1 H2. apply mle_nlt. intros H.
    destruct (mlt G a b) eqn:E.
    - apply mle_nlt in H2. apply H2. eapply (ml_trans G L); eauto.
    - destruct (mlt G b a) eqn:E'.
      + apply mle_nlt in H1. contradiction.
      + rewrite (ml_total G L a b E E') in H. apply mle_nlt in H2. contradiction.
  Qed.
  Lemma mle_antisym : forall a b, le a b -> le b a -> a = b.
  Proof.
    intros a b H1 H2. apply mle_nlt in H1, H2. apply (ml_total G L).
    - destruct (mlt G a b); congruence.
    - destruct (mlt G b a); congruence.
  Qed.
  Lemma mle_total : forall a b, le a b \/ lt b a.
  Proof. intros. rewrite (ml_le G L). destruct (mlt G b a); auto. Qed.
  Lemma mlt_le_trans : forall a b c, lt a b -> le b c -> lt a c.
  Proof.
    intros a b c H1 H2. apply mlt_nle. intros H. apply mlt_nle in H1. apply H1. eapply mle_trans; eauto.
  Qed.
  Lemma mle_lt_trans : forall a b c, le a b -> lt b c -> lt a c.
  Proof.
    intros a b c H1 H2. apply mlt_nle. intros H. apply mlt_nle in H2. apply H2. eapply mle_trans; eauto.
  Qed.
  Lemma mmin_le : forall a b c, le c (mmin G a b) <-> le c a /\ le c b.
  Proof.
    intros. unfold mmin. destruct (mlt G b a) eqn:E; split; intros H.
    - split; auto. eapply mle_trans; eauto. now apply mlt_le.
    - tauto.
    - split; auto. eapply mle_trans; eauto. rewrite (ml_le G L), E. auto.
    - tauto.
  Qed.
  Lemma mmax_l : forall a b, le a (mmax G a b).
  Proof. intros. unfold mmax. destruct (mlt G a b) eqn:E. now apply mlt_le. apply mle_refl. Qed.
  Lemma mmax_r : forall a b, le b (mmax G a b).
  Proof. intros. unfold mmax. destruct (mlt G a b) eqn:E. apply mle_refl. rewrite (ml_le G L), E. auto. Qed.
  Lemma mmax_lub : forall a b c, le a c -> le b c -> le (mmax G a b) c.
  Proof. intros. unfold mmax. destruct (mlt G a b); auto. Qed.
End L.

(** ** Instance: rational absolute value *)
Definition qlt (a b : Qc) : bool := negb (Qle_bool b a).
Definition qle (a b : Qc) : bool := Qle_bool a b.
Definition qabs (a : Qc) : Qc := if qle (Q2Qc 0) a then a else Qcopp a.
Definition MQ : Mag OQ := @mkMag OQ Qc (Q2Qc 0) qabs qlt qle Qcmult.

Lemma qle_iff : forall a b, qle a b = true <-> Qcle a b.
Proof. intros. unfold qle, Qcle. apply Qle_bool_iff. Qed.
Lemma qlt_iff : forall a b, qlt a b = true <-> Qclt a b.
Proof.
  intros. unfold qlt, Qclt. rewrite negb_true_iff. split.
  - intros H. destruct (Qlt_le_dec a b); auto. apply Qle_bool_iff in q. congruence.
  - intros H. destruct (Qle_bool b a) eqn:E; auto. apply Qle_bool_iff in E. exfalso. eapply Qlt_not_le; eauto.
Qed.

Lemma MQ_laws : MagLaws MQ.
Proof.
  split; simpl.
  - intros. unfold qle, qlt. now rewrite negb_involutive.
  - intros. unfold qlt. apply negb_false_iff. apply qle_iff. apply Qcle_refl.
  - intros a b c. rewrite !qlt_iff. apply Qclt_trans.
  - intros a b H1 H2. unfold qlt in *. apply negb_false_iff in H1, H2.
    apply Qcle_antisym; now apply qle_iff.
  - intros v. apply qle_iff. unfold qabs. destruct (qle (Q2Qc 0) v) eqn:E.
    + now apply qle_iff.
    + assert (H : Qclt v (Q2Qc 0)). { apply qlt_iff. unfold qlt. unfold qle in E. now rewrite E. }
      apply Qclt_le_weak in H. apply Qcopp_le_compat in H.
      replace (Qcopp (Q2Qc 0)) with (Q2Qc 0) in H by reflexivity. exact H.
  - intros v. unfold qabs. destruct (qle (Q2Qc 0) v); [tauto|]. split.
    + intros H. rewrite <- (Qcopp_involutive v), H. reflexivity.
    + intros ->. reflexivity.
  - intros. apply Qcmult_0_l.
  - intros e a b He Hab. rewrite qle_iff in *.
    rewrite (Qcmult_comm e a), (Qcmult_comm e b). now apply Qcmult_le_compat_r.
Qed.
