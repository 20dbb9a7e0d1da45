(** * CroutProofs8: the loops, the initial state and the final assembly. *)
From Coq Require Import List Arith Lia Bool Permutation Ring.
From Verif Require Import Base Scalar Spec CSModel CSSpec ConvModel ConvSpec BucketProofs ConvProofs ConvProofs2
  ConvProofs3 ConvProofs4 Mag VecModel VecSpec VecProofs PruneModel PruneProofs CroutModel CroutProofs1 CroutProofs2 CroutProofs3
  CroutProofs4 CroutProofs5 CroutProofs6 CroutProofs7.
Import ListNotations.

Section A.
  Context {O : Ops}.
  Notation T := (T O).
  Notation row := (list (nat * T)).
  Notation col := (row * row)%type.
  Notation tl' c cols := (snd (nth c cols (dcol (O:=O)))).
  Notation dn' c cols := (fst (nth c cols (dcol (O:=O)))).

  Variable bad : T -> bool.
  Variable klt : T -> T -> bool.
  Variable kbad : T -> bool.
  Variables is0 big : T -> bool.
  Variable dropU dropL : nat -> CR O -> SV O -> res (SV O).
  Variables (n m2 : nat) (s t : list T) (A_crs A_ccs : CS O).
  Variable Am : nat -> nat -> T.
  Variables p0 q0 : list nat.
  Hypothesis V1 : valid A_crs. Hypothesis V2 : valid A_ccs.
  Hypothesis P1 : psize A_crs = n. Hypothesis S1 : ssize A_crs = n.
  Hypothesis P2 : psize A_ccs = n. Hypothesis S2 : ssize A_ccs = n.
  Hypothesis Ls : length s = n. Hypothesis Lt : length t = n. Hypothesis Hm : m2 <= n.
  Hypothesis HA : RingLaws O -> forall i j, i < n -> j < n -> ent A_crs i j = Am i j /\ ent A_ccs j i = Am i j.
  Hypothesis DU : drop_ok n dropU. Hypothesis DL : drop_ok n dropL.
  Notation INV := (INV bad is0 dropU dropL n m2 s t Am p0 q0).

  Lemma INV_with_m : forall k def c lc uc LO UO m, INV k def c lc uc LO UO -> m + def = m2 -> INV k def (with_m m c) lc uc LO UO.
  Proof. intros k def c lc uc LO UO m [] Em. split; auto. Qed.

  Lemma INV_f : forall k def c lc uc LO UO, INV k def c lc uc LO UO ->
    c_def c = def /\ c_m c + def = m2 /\ def + k <= m2 /\ length (c_d c) = m2.
  Proof. intros k def c lc uc LO UO []. auto. Qed.

  Lemma defer_loop_l : forall fuel k def c lc uc LO UO, INV k def c lc uc LO UO -> m2 - (def + k) < fuel ->
    wp (defer_loop bad klt kbad n m2 fuel k c) (fun c' : CR O => exists def' lc' uc', INV k def' c' lc' uc' LO UO /\ def <= def' /\ (k < c_m c -> k < c_m c' -> bad (nth (def' + k) (c_d c') (t0 O)) = false)).
  Proof.
    induction fuel; intros k def c lc uc LO UO I Hf; [lia|]. cbn [defer_loop].
    destruct (INV_f _ _ _ _ _ _ _ I) as (Ed & Em & Ek & Ld).
    destruct (Nat.ltb_spec k (c_m c)) as [Hk|Hk].
    2:{ apply wp_ok. exists def, lc, uc. split; auto. split; auto. intros. lia. }
    wpb. eapply wp_conseq. { eapply defer_one_l; [..|exact I|]; eauto; lia. }
    intros c1 (lc1 & uc1 & I1).
    destruct (INV_f _ _ _ _ _ _ _ I1) as (Ed1 & Em1 & Ek1 & Ld1). rewrite Ed1.
    destruct (Nat.leb_spec m2 (S def + k)) as [Hle|Hgt].
    { apply wp_ok. exists (S def), lc1, uc1. split. { apply INV_with_m; auto. lia. } split; [lia|]. cbn [with_m c_m]. lia. }
    wpb. apply wp_get with (d := t0 O); [lia|]. destruct (bad _) eqn:B.
    { eapply wp_conseq. { eapply IHfuel; [exact I1|lia]. } intros c2 (d2 & lc2 & uc2 & I2 & H2 & H3). exists d2, lc2, uc2. split; auto.
      split; [lia|]. intros _. apply H3. lia. }
    wpb. eapply wp_conseq. { eapply kappas_l; [..|exact I1|]; eauto; lia. } intros c2 (I2 & E2a & E2b).
    wpb. eapply wp_conseq. { eapply kappa_bad_l; [..|exact I2|]; eauto; lia. } intros kb _. destruct kb.
    - eapply wp_conseq. { eapply IHfuel; [exact I2|lia]. } intros c3 (d3 & lc3 & uc3 & I3 & H3 & H4). exists d3, lc3, uc3. split; auto.
      split; [lia|]. intros _. apply H4. rewrite E2a. lia.
    - apply wp_ok. exists (S def), lc1, uc1. split; auto. split; [lia|]. intros _ _. now rewrite E2b.
  Qed.

  Lemma crout_loop_l : forall fuel k def c lc uc LO UO, INV k def c lc uc LO UO -> m2 - (def + k) < fuel ->
    wp (crout_loop bad klt kbad is0 big dropU dropL n m2 s t A_crs A_ccs fuel k c) (fun r => exists def' lc' uc' LO' UO',
       INV (fst r) def' (snd r) lc' uc' LO' UO' /\ c_m (snd r) = fst r).
  Proof.
    induction fuel; intros k def c lc uc LO UO I Hf; [lia|]. cbn [crout_loop].
    destruct (INV_f _ _ _ _ _ _ _ I) as (Ed & Em & Ek & Ld).
    destruct (Nat.ltb_spec k (c_m c)) as [Hk|Hk].
    2:{ apply wp_ok. cbn [fst snd]. exists def, lc, uc, LO, UO. split; auto. lia. }
    rewrite Ed. wpb. apply wp_get with (d := t0 O); [lia|]. cbv zeta.
    wpb. eapply wp_conseq. { eapply kappas_l; [..|exact I|]; eauto; lia. } intros c1 (I1 & E1a & E1b).
    wpb. apply wp_conseq with (P := fun pvt => pvt = false -> bad (nth (def + k) (c_d c) (t0 O)) = false).
    { destruct (bad _) eqn:B; [apply wp_ok; discriminate|]. eapply wp_conseq. { eapply kappa_bad_l; [..|exact I1|]; eauto; lia. } auto. }
    intros pvt Hp.
    wpb. apply wp_conseq with (P := fun c2 => exists def' lc' uc', INV k def' c2 lc' uc' LO UO /\ def <= def' /\
       (k < c_m c2 -> bad (nth (def' + k) (c_d c2) (t0 O)) = false) /\ (pvt = false -> k < c_m c2)).
    { destruct pvt.
      - eapply wp_conseq. { eapply defer_loop_l; [exact I1|lia]. } intros c2 (d2 & lc2 & uc2 & I2 & H2 & H3).
        exists d2, lc2, uc2. split; auto. split; auto. split; [|discriminate]. apply H3. lia.
      - apply wp_ok. exists def, lc, uc. split; auto. split; auto. rewrite E1a, E1b. auto. }
    intros c2 (d2 & lc2 & uc2 & I2 & Hd & Hb & Hk2).
    destruct (INV_f _ _ _ _ _ _ _ I2) as (Ed2 & Em2 & Ek2 & Ld2).
    destruct (pvt && (c_m c2 =? k)) eqn:B.
    { apply andb_true_iff in B. destruct B as (_ & B). apply Nat.eqb_eq in B. apply wp_ok. cbn [fst snd].
      exists d2, lc2, uc2, LO, UO. auto. }
    assert (Hk3 : k < c_m c2).
    { destruct pvt; auto. cbn [andb] in B. apply Nat.eqb_neq in B. lia. }
    wpb. eapply wp_conseq. { eapply eliminate_l; eauto. lia. } intros c3 (lc3 & uc3 & LO3 & UO3 & I3 & E3).
    eapply IHfuel; [exact I3|lia].
  Qed.
End A.
