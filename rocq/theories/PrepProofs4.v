(** * PrepProofs4: the scaling over the real numbers. *)
From Coq Require Import List Arith ZArith Lia Lra Bool Reals.
From Verif Require Import Base Scalar Spec CSModel CSSpec CSProofs ConvModel ConvSpec ConvProofs ConvProofs3 Mag VecModel PruneModel PreModel PreSpec PreProofs3 PropPre
  EqModel EqSpec DualSpec PropDual PrepModel PrepSpec PrepProofs1 PrepProofs2.
Import ListNotations.
Close Scope R_scope. Open Scope nat_scope.

Lemma MRe_laws : MagLaws MRe.
Proof.
  constructor; cbn; intros.
  - destruct (Rle_dec a b), (Rlt_dec b a); auto; lra.
  - destruct (Rlt_dec a a); auto; lra.
  - destruct (Rlt_dec a b), (Rlt_dec b c), (Rlt_dec a c); auto; lra.
  - destruct (Rlt_dec a b), (Rlt_dec b a); try discriminate; lra.
  - destruct (Rle_dec 0 (Rabs v)) as [|X]; auto. pose proof (Rabs_pos v). lra.
  - split; [|intros ->; apply Rabs_R0]. intros H. destruct (Req_dec v 0); auto. pose proof (Rabs_no_R0 v). tauto.
  - apply Rmult_0_l.
  - destruct (Rle_dec 0 e); [|discriminate]. destruct (Rle_dec a b); [|discriminate]. destruct (Rle_dec (e * a) (e * b)) as [|X]; auto.
    exfalso. apply X. apply Rmult_le_compat_l; auto.
Qed.

Lemma ScaleR : ScaleLaws MRe 1%R Rinv Rmult.
Proof.
  constructor; cbn.
  - destruct (Rlt_dec 0 1); auto; lra.
  - intros v a. destruct (Rlt_dec 0 a); [|discriminate]. intros _. rewrite Rabs_mult, (Rabs_pos_eq a); lra.
  - intros a. destruct (Rlt_dec 0 a); [|discriminate]. intros _. destruct (Rlt_dec 0 (/ a)) as [|X]; auto. exfalso. apply X. now apply Rinv_0_lt_compat.
  - intros x a. destruct (Rlt_dec 0 x); [|discriminate]. destruct (Rlt_dec 0 a); [|discriminate]. intros _ _. destruct (Rlt_dec 0 (x * a)) as [|X]; auto. exfalso. apply X. now apply Rmult_lt_0_compat.
  - intros x a. destruct (Rlt_dec 0 a) as [P|]; [|discriminate]. destruct (Rle_dec 0 x); [|discriminate]. destruct (Rle_dec x a); [|discriminate]. intros _ _ _.
    destruct (Rle_dec (x * / a) 1) as [|X]; auto. exfalso. apply X. replace 1%R with (a * / a)%R by (field; lra). apply Rmult_le_compat_r; auto. left. now apply Rinv_0_lt_compat.
  - intros a. destruct (Rlt_dec 0 a); [|discriminate]. intros _. field. lra.
Qed.

Section R4.
  Variable mdiff : R -> R.
  Variable mbig : R -> bool.
  Variable rbig : nat -> option R.
  Variable rhuge : option R.
  Variable un : nat -> list nat.
  Variable um : nat -> list R.
  Variable ur : nat -> list (option R).
  Hypothesis LN : forall k, length (un k) = k.
  Hypothesis LM : forall k, length (um k) = k.
  Hypothesis LR : forall k, length (ur k) = k.
  Notation MATCHED := (matched MRe KR 1%R Rinv Rmult sqrt exp_opt mdiff mbig (fun x => Some x) (option_map ln) rbig rhuge un um ur).
  Notation PRE := (pre_scaling MRe 1%R Rinv Rmult sqrt mdiff mbig um).
  Notation nthr i l := (nth i l 0%R).
  Local Notation R := Rdefinitions.R.

  (** [B2] is [B] scaled by the positive factors [s1] and [t1]. *)
  Definition scaled_by (B B2 : CS ORe) (s1 t1 : list R) : Prop :=
    (forall i, i < psize B -> (0 < nthr i s1)%R /\ (0 < nthr i t1)%R) /\
    forall i k, i < psize B -> st B i <= k < st B (S i) -> (nthr k (vals B2) = nthr i s1 * nthr k (vals B) * nthr (ix B k) t1)%R.

  Lemma stored_at : forall (B : CS ORe) i j v, stored B i j v <-> exists k, st B i <= k < st B (S i) /\ ix B k = j /\ nthr k (vals B) = v.
  Proof.
    intros. unfold stored, rowl. rewrite in_map_iff. split.
    - intros (k & E & H). apply in_seq in H. injection E as <- <-. exists k. split; [lia|auto].
    - intros (k & H & <- & <-). exists k. split; [reflexivity|]. apply in_seq. lia.
  Qed.

  Lemma real_nz : forall (B B2 : CS ORe) s1 t1, wf B -> tight B -> ssize B = psize B -> (forall i j v, i < psize B -> stored B i j v -> v <> 0%R) ->
    length (vals B2) = length (indices B) -> scaled_by B B2 s1 t1 -> forall v, In v (vals B2) -> v <> 0%R.
  Proof.
    intros B B2 s1 t1 W TT SQ NZ L2 (POS & REL). pose proof TT as (T1 & T2 & T3). set (n := psize B) in *.
    assert (ROWOF : forall k, k < length (indices B) -> exists i, i < n /\ st B i <= k < st B (S i)).
    { intros k Hk. assert (GG : forall c, c <= n -> k < st B c -> exists i, i < c /\ st B i <= k < st B (S i)).
      { induction c; intros Hc Hk'. { pose proof (wf_first ORe B W) as F. unfold st in *. lia. } destruct (Nat.lt_ge_cases k (st B c)) as [H|H]; [|exists c; lia].
        destruct (IHc ltac:(lia) H) as (i & X1 & X2). exists i. split; [lia|auto]. }
      destruct (GG n ltac:(lia)) as (i & X1 & X2); [fold n in T2; lia|]. exists i. split; [lia|auto]. }
    intros v Hv. apply (In_nth _ _ 0%R) in Hv. destruct Hv as (k & Hk & <-). destruct (ROWOF k ltac:(rewrite <- L2; exact Hk)) as (i & Hi & Ik).
      enough (Y : (nthr i s1 * nthr k (vals B) * nthr (ix B k) t1 <> 0)%R) by (intros C; apply Y; exact (eq_trans (eq_sym (REL i k Hi Ik)) C)). destruct (POS i Hi) as (P1 & _). destruct (POS (ix B k) (ix_lt B W SQ i k Hi Ik)) as (_ & P2).
      assert (NV : nthr k (vals B) <> 0%R). { apply (NZ i (ix B k)); auto. apply stored_at. exists k. auto. }
      apply Rmult_integral_contrapositive_currified; [apply Rmult_integral_contrapositive_currified; [apply Rgt_not_eq; exact P1|exact NV]|apply Rgt_not_eq; exact P2].
  Qed.

  Lemma real_matched : forall symm ps (B : CS ORe) s0 t0 p q s t info, valid B -> tight B -> ssize B = psize B -> 1 <= psize B -> 1 <= nnz_of B -> half B ->
    MATCHED symm ps B s0 t0 p q s t info -> info = 0 ->
    (forall i j v, i < psize B -> stored B i j v -> v <> 0%R) ->
    (forall B2 s1 t1, PRE symm ps B s0 t0 = Ok (B2, s1, t1) -> scaled_by B B2 s1 t1) ->
    exists D U : nat -> R, (forall i, i < psize B -> (0 < D i)%R /\ (0 < U i)%R) /\
      (forall i j v, i < psize B -> stored B i j v -> (Rabs (D i * v * U j) <= 1)%R) /\
      (forall i, i < psize B -> nth i p 0 < psize B /\ exists v, stored B (nth i p 0) i v /\ (Rabs (D (nth i p 0%nat) * v * U i) = 1)%R) /\
      (forall i, i < psize B -> nthr i s = if symm then sqrt (D i * U i) else D i) /\
      (forall i, i < psize B -> nthr i t = if symm then sqrt (D i * U i) else U i).
  Proof.
    intros symm ps B s0 t0 p q s t info (W & SO) TT SQ Hn Hz HF (B2 & s1 & t1 & perm & u & d & EP & SP & ER & PA & LP & Lu & Ld & _ & S1 & S0 & P & Q & FS & FT) E0 NZ PR.
    specialize (PR _ _ _ EP). destruct PR as (POS & REL). destruct SP as (SP1 & SP2 & SP3 & SP4 & SP5). pose proof TT as (T1 & T2 & T3). set (n := psize B) in *.
    assert (L2 : length (vals B2) = length (indices B)) by lia.
    pose proof (real_nz B B2 s1 t1 W TT SQ NZ L2 (conj POS REL)) as NZ2.
    destruct (C56_real_matrix_partial rbig rhuge n (nnz_of B) (map S (ind_start B)) (map S (indices B)) (vals B2) (un n) (un n) (ur n) (ur (nnz_of B)) NZ2 Hn Hz)
      as (info' & perm' & u' & d' & E & X); auto.
    { apply shift_pattern; auto. }
    { apply shift_tight; auto. }
    { intros j Hj. rewrite !ip_shift by (auto; fold n; lia). replace (S j - 1) with (S (j - 1)) by lia. specialize (HF (j - 1) ltac:(fold n; lia)). fold n in HF. lia. }
    { rewrite map_length. exact L2. }
    { rewrite LR, map_length. unfold nnz_of. fold n. lia. }
    cbn [mabs MRe] in ER. match type of ER with ?a = _ => match type of E with ?b = _ => change a with b in ER end end.
    rewrite E in ER. injection ER as -> -> -> ->. destruct (X E0) as (sg & TS & _ & U & D & X1 & X2 & X3). clear X.
    assert (XU : forall i, i < n -> nth i u (r0 KR) = Some (U (S i)) /\ nth i d (r0 KR) = Some (D (S i))).
    { intros i Hi. specialize (X1 (S i) ltac:(lia)). unfold n1 in X1. replace (S i - 1) with i in X1 by lia. exact X1. }
    exists (fun i => nthr i s1 * exp (D (S i)))%R, (fun i => nthr i t1 * exp (U (S i)))%R.
    assert (VK : forall i k, i < n -> st B i <= k < st B (S i) ->
      ((nthr i s1 * exp (D (S i))) * nthr k (vals B) * (nthr (ix B k) t1 * exp (U (S (ix B k)))) = exp (U (S (ix B k))) * nthr k (vals B2) * exp (D (S i)))%R).
    { intros i k Hi Hk.
      assert (RR : forall a b c d e : R, ((a * d) * b * (c * e) = e * (a * b * c) * d)%R) by (intros; ring).
      exact (eq_trans (RR _ _ _ _ _) (f_equal (fun x => (exp (U (S (ix B k))) * x * exp (D (S i)))%R) (eq_sym (REL i k Hi Hk)))). }
    assert (AB : forall a b c, (Rabs (exp a * b * exp c) = exp a * Rabs b * exp c)%R).
    { intros. rewrite !Rabs_mult, !(Rabs_pos_eq (exp _)); auto; left; apply exp_pos. }
    split. { intros i Hi. destruct (POS i Hi). split; apply Rmult_lt_0_compat; auto; apply exp_pos. }
    split. { intros i j v Hi Hs. apply stored_at in Hs. destruct Hs as (k & Hk & <- & <-). rewrite VK, AB by auto.
      pose proof (st_le B W TT SQ i Hi) as (Y1 & Y2 & Y3).
      specialize (X2 (S i) (S k) ltac:(lia)). rewrite !ip_shift in X2 by (auto; fold n; lia). replace (S (S i) - 1) with (S i) in X2 by lia. replace (S i - 1) with i in X2 by lia.
      rewrite irn_shift in X2 by lia. unfold n1 at 1 in X2. replace (S k - 1) with k in X2 by lia. apply X2. lia. }
    split. { intros i Hi. specialize (X3 (S i) ltac:(lia)). destruct TS as (TS1 & _). specialize (TS1 (S i) ltac:(lia)). cbv beta in TS1.
      specialize (S0 E0 (S i) ltac:(lia)). assert (En : n1 0%Z perm (S i) = nth i perm 0%Z) by (unfold n1; f_equal; lia). rewrite P by auto. rewrite En in *.
      set (z := nth i perm 0%Z) in *. set (j := Z.to_nat z) in *. assert (Ez : Z.abs_nat z = j) by lia. rewrite Ez.
      destruct TS1 as (J1 & J2 & J3). rewrite !ip_shift in J2 by (auto; fold n; lia). replace (S j - 1) with (S (j - 1)) in J2 by lia.
      pose proof (st_le B W TT SQ (j - 1) ltac:(fold n; lia)) as (Y1 & Y2 & Y3).
      set (k := sg (S i)) in *. rewrite irn_shift in J3 by lia. assert (Ix : ix B (k - 1) = i) by lia.
      split; [lia|]. exists (nthr (k - 1) (vals B)). split. { apply stored_at. exists (k - 1). split; [lia|auto]. }
      pose proof (VK (j - 1) (k - 1) ltac:(lia) ltac:(lia)) as V. rewrite Ix in V. refine (eq_trans (f_equal Rabs V) _). rewrite AB.
      replace (S (j - 1)) with j by lia. exact X3. }
    split; intros i Hi; destruct (XU i Hi) as (E1 & E2); [rewrite FS by auto|rewrite FT by auto]; rewrite E1, E2; reflexivity.
  Qed.

  (** Without overflow a block with a full matching gets flag 0. *)
  Lemma real_complete : forall symm ps (B : CS ORe) s0 t0 p q s t info, valid B -> tight B -> ssize B = psize B -> 1 <= psize B -> 1 <= nnz_of B -> half B ->
    MATCHED symm ps B s0 t0 p q s t info ->
    (forall i j v, i < psize B -> stored B i j v -> v <> 0%R) ->
    (forall B2 s1 t1, PRE symm ps B s0 t0 = Ok (B2, s1, t1) -> scaled_by B B2 s1 t1) -> rhuge = None ->
    (exists f, (forall j, j < psize B -> f j < psize B /\ exists v, stored B (f j) j v) /\ forall j j', j < psize B -> j' < psize B -> f j = f j' -> j = j') ->
    info = 0.
  Proof.
    intros symm ps B s0 t0 p q s t info (W & SO) TT SQ Hn Hz HF (B2 & s1 & t1 & perm & u & d & EP & SP & ER & _) NZ PR EH (f & F1 & F2).
    specialize (PR _ _ _ EP). destruct SP as (SP1 & SP2 & SP3 & SP4 & SP5). pose proof TT as (T1 & T2 & T3). set (n := psize B) in *.
    assert (L2 : length (vals B2) = length (indices B)) by lia.
    pose proof (real_nz B B2 s1 t1 W TT SQ NZ L2 PR) as NZ2.
    destruct (C56_verdict_partial KR (fun x => x) R (fun v => Some (Rabs v)) (option_map ln) rbig rhuge n (nnz_of B) (map S (ind_start B)) (map S (indices B)) (vals B2)
      (un n) (un n) (ur n) (ur (nnz_of B)) (fun k => ln (Rabs (n1 0%R (vals B2) k))) KR_exact)
      as (info' & perm' & u' & d' & E & X); auto.
    { intros v Hv. specialize (NZ2 v Hv). pose proof (Rabs_pos_lt v NZ2) as P. cbn. destruct (Rlt_dec 0 (Rabs v)); [|lra]. destruct (Req_EM_T (Rabs v) 0); [lra|].
      split; [auto|]. split; [auto|]. eauto. }
    { intros k v H. cbn. unfold n1. rewrite Nat.sub_succ, Nat.sub_0_r, (nth_error_nth _ _ _ H). reflexivity. }
    { intros x a ->. rewrite EH. reflexivity. }
    { apply shift_pattern; auto. }
    { apply shift_tight; auto. }
    { intros j Hj. rewrite !ip_shift by (auto; fold n; lia). replace (S j - 1) with (S (j - 1)) by lia. specialize (HF (j - 1) ltac:(fold n; lia)). fold n in HF. lia. }
    { rewrite map_length. exact L2. }
    { rewrite LR, map_length. unfold nnz_of. fold n. lia. }
    cbn [mabs MRe] in ER. match type of ER with ?a = _ => match type of E with ?b = _ => change a with b in ER end end.
    rewrite E in ER. injection ER as -> -> -> ->. apply X. exists (fun i => S (f (i - 1))). split.
    - intros i Hi. destruct (F1 (i - 1) ltac:(lia)) as (G1 & v & G2). split; [lia|]. apply stored_at in G2. destruct G2 as (k & K1 & K2 & _).
      pose proof (st_le B W TT SQ (f (i - 1)) ltac:(fold n; lia)) as (Y1 & Y2 & Y3).
      exists (S k). rewrite !ip_shift by (auto; fold n; lia). replace (S (S (f (i - 1))) - 1) with (S (f (i - 1))) by lia. replace (S (f (i - 1)) - 1) with (f (i - 1)) by lia.
      rewrite irn_shift by lia. split; [lia|]. replace (S k - 1) with k by lia. lia.
    - intros i i' Hi Hi' Ei. injection Ei as Ei. pose proof (F2 (i - 1) (i' - 1) ltac:(lia) ltac:(lia) Ei). lia.
  Qed.
End R4.

(** A scaling that is the identity. *)
Lemma eye_rel : forall mdiff mbig um symm (B : CS ORe) s0 t0 B2 s1 t1, psize B <= length s0 -> psize B <= length t0 -> wf B -> tight B -> ssize B = psize B ->
  pre_scaling MRe 1%R Rinv Rmult sqrt mdiff mbig um symm 0%Z B s0 t0 = Ok (B2, s1, t1) -> scaled_by B B2 s1 t1.
Proof.
  intros mdiff mbig um symm B s0 t0 B2 s1 t1 L1 L2 W TT SQ E. unfold pre_scaling in E. cbn [Z.eqb] in E.
  pose proof (scale_eye_l MRe 1%R B SQ (psize B) s0 t0 L1 L2) as X. apply wp_inv in X. destruct X as ([s t] & EX & _ & _ & F). rewrite EX in E. cbn [bind] in E.
  injection E as <- <- <-. split.
  - intros i Hi. destruct (F i Hi) as (F1 & F2). cbn in F1, F2. rewrite F1, F2. lra.
  - intros i k Hi Hk. destruct (F i Hi) as (F1 & _). destruct (F (ix B k) (ix_lt B W SQ i k Hi Hk)) as (_ & F2). cbn in F1, F2. rewrite F1, F2.
    symmetry. etransitivity; [apply Rmult_1_r|]. apply Rmult_1_l.
Qed.
