(** * PropSymm: factorization of one symmetric level (C54). *)
From Coq Require Import List Arith Lia Bool Permutation ZArith QArith Qcanon.
From Verif Require Import Base Scalar Spec CSModel CSSpec ConvModel ConvSpec BucketProofs ConvProofs ConvProofs2
  ConvProofs3 ConvProofs4 Mag VecModel VecSpec VecProofs PruneModel PruneProofs CroutModel CroutSpec CroutProofs5 CroutProofs7 CroutProofs8
  CroutProofs9 CroutProofs10 CroutProofs11 PropCrout SchurModel PrecModel FactorModel SymmModel SymmSpec SymmProofs1 SymmProofs2.
Import ListNotations.
Close Scope Q_scope. Close Scope Qc_scope. Open Scope nat_scope.

Lemma symm_ldu : forall O (o : CRout O), o_U o = o_L o -> forall i j, LDU o i j = LDLt o i j.
Proof.
  intros O o E i j. unfold LDU, LDLt. apply sum_ext. intros c _. f_equal. unfold Umat, Lmat. rewrite E, (Nat.eqb_sym c j).
  unfold crs_mat, ccs_mat. reflexivity.
Qed.

Lemma symm_drop_ok : forall O n (drop : nat -> SR O -> SV O -> res (SV O)), symm_rule n drop -> drop_ok n (sdrop drop).
Proof.
  intros O n drop D step c v (A1 & A2 & A3 & A4 & A5 & A6) H. destruct (D step (to_SR c) v) as (v' & E & R).
  - repeat (split; [assumption|]); assumption.
  - exists v'. split; auto.
Qed.

Lemma symm_run : forall O bad klt kbad is0 is0' big drop n m2 s t (A : CS O) p q jd jk js jP jv ji,
  symm_input n m2 s t A p q jk js jP jv ji -> symm_rule n drop ->
  (VH bad is0' -> VH bad is0 /\ symm_scaled n s t A /\ bp q = bp p) ->
  exists o, symm_crout bad klt kbad is0 big drop n m2 s t A p q jd jk js jP jv ji = Ok o /\
    (exists LO, RESULT bad is0' (sdrop drop) (sdrop drop) n m2 s t (ccs_mat A) o LO LO) /\ HIST n m2 p p o /\
         o_q o = o_p o /\ o_U o = o_L o /\ o_Us o = o_Ls o /\ o_u o = o_l o.
Proof.
  intros O bad klt kbad is0 is0' big drop n m2 s t A p q jd jk js jP jv ji
    (V & P & S & L1 & L2 & Hm & Hp & Hq & J1 & J2 & J3 & J4 & J5) D HY.
  assert (W := symm_crout_l bad klt kbad is0 is0' big drop n m2 s t A p q V P S L1 L2 Hm (symm_drop_ok O n drop D) Hp Hq HY jd jk js jP jv ji J1 J2 J3 J4 J5).
  apply wp_inv in W. destruct W as (o & E & W). exists o. split; auto.
Qed.

(** For every square matrix, symmetric or not, every dropping rule and every sequence
    of accept/defer decisions: the symmetric factorization ends normally; the leading
    size plus the number of deferrals is the size it started with; the permutation is
    the given one with the deferred positions moved, in order, behind everything else;
    [L] is strictly lower triangular, in valid sorted storage, split at the leading
    block; every accepted pivot passed the test. *)
Theorem C54_level : forall O bad klt kbad is0 big drop n m2 s t (A : CS O) p q jd jk js jP jv ji,
  symm_input n m2 s t A p q jk js jP jv ji -> symm_rule n drop ->
  exists o, symm_crout bad klt kbad is0 big drop n m2 s t A p q jd jk js jP jv ji = Ok o /\
    is_inv n (bp (o_p o)) (bpi (o_p o)) /\
    (exists acc dfr, length acc = o_m o /\ length dfr = o_def o /\ history m2 acc dfr /\
       arranged n m2 acc dfr (bp p) (bp (o_p o))) /\
    factor_ok n (o_m o) (o_L o) (o_Ls o) /\
    o_m o + o_def o = m2 /\ length (o_d o) = m2 /\
    (forall i, i < o_m o -> bad (nth i (o_d o) (t0 O)) = false).
Proof.
  intros O bad klt kbad is0 big drop n m2 s t A p q jd jk js jP jv ji HI D.
  destruct (symm_run O bad klt kbad is0 (fun _ => true) big drop n m2 s t A p q jd jk js jP jv ji HI D) as (o & E & (LO & []) & re_h & _).
  { intros (FL & SO & _). exfalso. apply (fl_one O FL). apply SO. reflexivity. }
  exists o. split; auto. split; auto. split; [|split; [exact re_L|split; [auto|split; auto]]].
  destruct re_h as (acc & dfr & (H1 & H2 & H3 & H4 & H5) & B & C). exists acc, dfr. split; auto. split; auto.
  split; [split; [|split]|auto].
  - intros i j Hij. now apply asc_lt.
  - intros i j Hij. now apply asc_lt.
  - replace m2 with (o_def o + o_m o) by lia. auto.
Qed.
Print Assumptions C54_level.

(** A symmetric scaled matrix, the same permutation of rows and columns: if nothing but
    zeros is dropped, L D L^T equals the permuted scaled matrix on every row and every
    column of the leading block, whatever was deferred, and no pivot is zero. *)
Theorem C54_exact : forall O bad klt kbad is0 big drop n m2 s t (A : CS O) p q jd jk js jP jv ji,
  FieldLaws O -> (forall x, is0 x = true -> x = t0 O) -> bad (t0 O) = true ->
  symm_input n m2 s t A p q jk js jP jv ji -> symm_scaled n s t A -> bp q = bp p ->
  symm_rule n drop -> symm_only_zeros n drop ->
  exists o, symm_crout bad klt kbad is0 big drop n m2 s t A p q jd jk js jP jv ji = Ok o /\
    is_inv n (bp (o_p o)) (bpi (o_p o)) /\
    (forall i, i < o_m o -> nth i (o_d o) (t0 O) <> t0 O) /\
    forall i j, i < n -> j < n -> i < o_m o \/ j < o_m o ->
      LDLt o i j = scaled s t (ccs_mat A) (nth i (bp (o_p o)) 0) (nth j (bp (o_p o)) 0).
Proof.
  intros O bad klt kbad is0 big drop n m2 s t A p q jd jk js jP jv ji FL Z B HI HS HQ D HZ.
  destruct (symm_run O bad klt kbad is0 is0 big drop n m2 s t A p q jd jk js jP jv ji HI D) as (o & E & (LO & R) & _ & Eq & EU & _); [auto|].
  assert (H : VH bad is0) by (split; auto). destruct HI as (V & P & S & L1 & L2 & Hm & _).
  assert (HL : LS (sdrop drop) (sdrop drop) n).
  { split; intros step c v v' (A1 & A2 & A3 & A4 & A5 & A6) H7 E8; (apply (HZ step (to_SR c) v v'); [repeat (split; [assumption|]); assumption|exact E8]). }
  pose proof R as R'. destruct R'. exists o. split; auto. split; auto. split.
  - intros i Hi E0. pose proof (re_b i Hi) as X. rewrite E0 in X. congruence.
  - intros i j Hi Hj Hij. rewrite <- symm_ldu by auto. rewrite <- Eq at 2. destruct (Nat.lt_trichotomy i j) as [L|[->|L]].
    + apply (upper_eq bad is0 (sdrop drop) (sdrop drop) n m2 s t A A (ccs_mat A) P S P S L1 L2 Hm o LO LO R H); eauto; lia.
    + apply (diag_eq bad is0 (sdrop drop) (sdrop drop) n m2 s t A A (ccs_mat A) P S P S L1 L2 Hm o LO LO R H); eauto; lia.
    + apply (lower_eq bad is0 (sdrop drop) (sdrop drop) n m2 s t A A (ccs_mat A) P S P S L1 L2 Hm o LO LO R H); eauto; lia.
Qed.
Print Assumptions C54_exact.

(** With any dropping: wherever an off-diagonal entry of [L] is stored, L D L^T still
    agrees with the matrix exactly, at that place and at the mirrored one. *)
Theorem C54_exact_where_stored : forall O bad klt kbad is0 big drop n m2 s t (A : CS O) p q jd jk js jP jv ji,
  FieldLaws O -> (forall x, is0 x = true -> x = t0 O) -> bad (t0 O) = true ->
  symm_input n m2 s t A p q jk js jP jv ji -> symm_scaled n s t A -> bp q = bp p -> symm_rule n drop ->
  exists o, symm_crout bad klt kbad is0 big drop n m2 s t A p q jd jk js jP jv ji = Ok o /\
    forall c i v, stored (o_L o) c i v -> c < o_m o ->
      LDLt o i c = scaled s t (ccs_mat A) (nth i (bp (o_p o)) 0) (nth c (bp (o_p o)) 0) /\
      LDLt o c i = scaled s t (ccs_mat A) (nth c (bp (o_p o)) 0) (nth i (bp (o_p o)) 0).
Proof.
  intros O bad klt kbad is0 big drop n m2 s t A p q jd jk js jP jv ji FL Z B HI HS HQ D.
  destruct (symm_run O bad klt kbad is0 is0 big drop n m2 s t A p q jd jk js jP jv ji HI D) as (o & E & (LO & R) & _ & Eq & EU & _); [auto|].
  assert (H : VH bad is0) by (split; auto). destruct HI as (V & P & S & L1 & L2 & Hm & _).
  pose proof R as R'. destruct R'. exists o. split; auto. intros c i v HSt Hc.
  assert (Hr : c < i < n).
  { destruct re_L as ((W & So) & Ps & Ss & PA & _). unfold stored in HSt. pose proof HSt as HS'. apply rowl_in in HS'.
    destruct HS' as (k & Hk & <- & _). split; [apply (PA c k); [lia|auto]|].
    rewrite <- Ss. apply (wf_rowl_range O (o_L o) W c (ix (o_L o) k, v)); [lia|auto]. }
  rewrite <- !symm_ldu by auto. rewrite <- Eq at 2 3. split.
  - apply (lower_eq bad is0 (sdrop drop) (sdrop drop) n m2 s t A A (ccs_mat A) P S P S L1 L2 Hm o LO LO R H); eauto; lia.
  - rewrite Eq. rewrite <- Eq at 2. apply (upper_eq bad is0 (sdrop drop) (sdrop drop) n m2 s t A A (ccs_mat A) P S P S L1 L2 Hm o LO LO R H); try lia. right. exists v. rewrite EU. exact HSt.
Qed.
Print Assumptions C54_exact_where_stored.

(** The dropping of the code is such a rule; disabled, it drops nothing. *)
Theorem C54_code_dropping : forall O (G : Mag O) mdiv cm ne n tau kappa_d alpha sizes,
  MagLaws G -> nth_element_ok (mle G) ne -> n <= length sizes ->
  symm_rule n (symm_drop G mdiv cm ne tau kappa_d alpha sizes) /\
  ((forall x, mle G (mdiv tau x) (m0 G) = true) ->
   mle G alpha (m0 G) = true \/ (forall i, i < n -> n * 2 <= cm alpha (nth i sizes 0)) ->
   symm_only_zeros n (symm_drop G mdiv cm ne tau kappa_d alpha sizes)).
Proof.
  intros O G mdiv cm ne n tau kappa_d alpha sizes ML NE Ln. split.
  - intros step c v (H1 & H2 & H3 & Hv). unfold symm_drop. rewrite (get_nth _ (y_kl c) _ (t0 O)) by auto. cbn [bind].
    destruct (num_incl O G mdiv _ tau (mmul G (mabs G (nth step (y_kl c) (t0 O))) kappa_d) v Hv) as (v1 & E1 & K1 & A1 & B1 & I1 & _). rewrite E1. cbn [bind].
    rewrite (get_nth _ (y_p c) _ 0) by auto. cbn [bind]. rewrite (get_nth _ _ _ 0) by lia. cbn [bind].
    destruct (space_incl O G cm ne ML NE _ (nth (nth step (y_p c) 0) sizes 0) alpha 0 v1 K1) as (v2 & E2 & K2 & A2 & B2 & I2 & _).
    exists v2. rewrite E2. split; auto. split; auto. split; [congruence|]. split; [congruence|]. eapply incl_tran; eauto.
  - intros Ht Ha step c v v' (H1 & H2 & H3 & Hv) E i Hi Hn. exfalso. apply Hn. unfold symm_drop in E.
    rewrite (get_nth _ (y_kl c) _ (t0 O)) in E by auto. cbn [bind] in E. unfold apply_num_dropping in E. rewrite Ht in E. cbn [bind] in E.
    rewrite (get_nth _ (y_p c) _ 0) in E by auto. cbn [bind] in E. rewrite (get_nth _ _ _ 0) in E by lia. cbn [bind] in E.
    destruct (space_drop_l G cm ne ML NE _ (nth (nth step (y_p c) 0) sizes 0) alpha 0 v Hv) as (v2 & E2 & _ & _ & _ & C2 & _).
    rewrite E2 in E. inversion E; subst v'. rewrite C2; auto. destruct Ha as [Ha|Ha]; [auto|]. right. specialize (Ha _ H3). unfold space_limit.
    assert (length (held v) <= n * 2); [|destruct (Nat.leb_spec (cm alpha (nth (nth step (y_p c) 0) sizes 0)) 0); lia]. unfold held. rewrite firstn_length. pose proof (so_cnt _ _ Hv). lia.
Qed.
Print Assumptions C54_code_dropping.

(** ** Concrete run: symmetric 4x4, the second pivot vanishes and is deferred *)
Definition ey_A : CS OQ := @mkCS OQ 4 4 [0;3;6;8;10] [0;1;3;0;1;2;1;2;0;3] (map qz [1;2;1;2;4;1;1;3;1;5]%Z).
Definition ey_run := symm_crout (O:=OQ) isz (fun a b => qlt (qabs a) (qabs b)) (fun _ => false) isz (fun _ => true)
  (fun _ _ v => Ok v) 4 4 one4 one4 ey_A id4 id4
  (qz 0) one4 [0;0;0;0] (repeat None 4) (repeat (qz 0) 8) (repeat 0 8).

Example C54_input : symm_input (O:=OQ) 4 4 one4 one4 ey_A id4 id4 one4 [0;0;0;0] (repeat None 4) (repeat (qz 0) 8) (repeat 0 8) /\
  symm_scaled (O:=OQ) 4 one4 one4 ey_A.
Proof.
  assert (I : is_inv 4 [0;1;2;3] [0;1;2;3]).
  { split; [reflexivity|]. split; [reflexivity|]. split; intros [|[|[|[|i]]]] H; simpl; lia. }
  split.
  - split; [split; [apply wfb_wf|apply sortedb_sorted]; vm_compute; reflexivity|].
    do 4 (split; [reflexivity|]). split; [auto|]. split; [exact I|]. split; [exact I|]. repeat split; reflexivity.
  - intros [|[|[|[|i]]]] [|[|[|[|j]]]] H1 H2; try lia; apply Qc_is_canon; vm_compute; reflexivity.
Qed.
Example C54_rule : symm_rule (O:=OQ) 4 (fun _ _ v => Ok v) /\ symm_only_zeros (O:=OQ) 4 (fun _ _ v => Ok v).
Proof.
  split.
  - intros step c v (_ & _ & _ & H). exists v. repeat split; auto; try apply H. apply incl_refl.
  - intros step c v v' _ E i Hi Hn. inversion E; subst. contradiction.
Qed.
Example C54_run : match ey_run with Ok o => (o_m o, o_def o, bp (o_p o), o_Ls o, map this (o_d o)) | _ => (0, 0, [], [], []) end =
  (3, 1, [0;2;3;1], [1;2;3;0], [1;3;4;4]%Q).
Proof. vm_compute. reflexivity. Qed.
