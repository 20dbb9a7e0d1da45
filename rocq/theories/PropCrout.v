(** * PropCrout: factorization of one level (C38, C44). *)
From Coq Require Import List Arith Lia Bool Permutation ZArith QArith Qcanon.
From Verif Require Import Base Scalar Spec CSModel CSSpec ConvModel ConvSpec BucketProofs ConvProofs ConvProofs2
  ConvProofs3 ConvProofs4 Mag VecModel VecSpec VecProofs PruneModel PruneProofs CroutModel CroutSpec CroutProofs5 CroutProofs7 CroutProofs8
  CroutProofs9 CroutProofs10 CroutProofs11.
Import ListNotations.
Close Scope Q_scope. Close Scope Qc_scope. Open Scope nat_scope.

(** The input of a level: the matrix in both storages, scalings of the right
    length, permutations with their inverses, work arrays of the right size. *)
Definition level_input {O} (n m2 : nat) (s t : list (T O)) (A_crs A_ccs : CS O) (p q : BiPerm)
  (jk : list (T O)) (js : list nat) (jP : list (option nat)) (jv : list (T O)) (ji : list nat) : Prop :=
  valid A_crs /\ valid A_ccs /\ psize A_crs = n /\ ssize A_crs = n /\ psize A_ccs = n /\ ssize A_ccs = n /\
  length s = n /\ length t = n /\ m2 <= n /\
  (RingLaws O -> forall i j, i < n -> j < n -> ccs_mat A_ccs i j = crs_mat A_crs i j) /\
  is_inv n (bp p) (bpi p) /\ is_inv n (bp q) (bpi q) /\
  length jk = m2 /\ length js = m2 /\ length jP = n /\ length jv = n * 2 /\ length ji = n * 2.

Lemma run_l : forall O bad klt kbad is0 big dropU dropL n m2 s t (A_crs A_ccs : CS O) p q jd jk js jP jv ji,
  level_input n m2 s t A_crs A_ccs p q jk js jP jv ji -> drop_rule n dropU -> drop_rule n dropL ->
  exists o, crout bad klt kbad is0 big dropU dropL n m2 s t A_crs A_ccs p q jd jk js jP jv ji = Ok o /\
    (exists LO UO, RESULT bad is0 dropU dropL n m2 s t (crs_mat A_crs) o LO UO) /\ HIST n m2 p q o.
Proof.
  intros O bad klt kbad is0 big dropU dropL n m2 s t A_crs A_ccs p q jd jk js jP jv ji
    (V1 & V2 & P1 & S1 & P2 & S2 & L1 & L2 & Hm & HA & Hp & Hq & J1 & J2 & J3 & J4 & J5) DU DL.
  assert (W : wp (crout bad klt kbad is0 big dropU dropL n m2 s t A_crs A_ccs p q jd jk js jP jv ji)
    (fun o => (exists LO UO, RESULT bad is0 dropU dropL n m2 s t (crs_mat A_crs) o LO UO) /\ HIST n m2 p q o)).
  { apply crout_l; auto.
    - intros RL i j Hi Hj. split; auto. now apply HA.
    - intros step c v (A1 & A2 & A3 & A4 & A5 & A6) H. destruct (DU step c v) as (v' & E & R); [repeat (split; [assumption|]); assumption|]. exists v'. split; auto.
    - intros step c v (A1 & A2 & A3 & A4 & A5 & A6) H. destruct (DL step c v) as (v' & E & R); [repeat (split; [assumption|]); assumption|]. exists v'. split; auto. }
  apply wp_inv in W. exact W.
Qed.

(** For every matrix, every dropping rule and every sequence of accept/defer
    decisions (the decision functions are arbitrary): the factorization ends
    normally; the leading size plus the number of deferrals is the size it started
    with; [p], [q] are permutations with correct inverses, obtained from the given
    ones by moving the deferred positions, in order, behind everything else, the
    same way for rows and columns; [L] and [U] are strictly triangular, in valid
    sorted storage, split at the leading block; every accepted pivot passed the
    test. *)
Theorem C44_deferral : forall O bad klt kbad is0 big dropU dropL n m2 s t (A_crs A_ccs : CS O) p q jd jk js jP jv ji,
  level_input n m2 s t A_crs A_ccs p q jk js jP jv ji -> drop_rule n dropU -> drop_rule n dropL ->
  exists o, crout bad klt kbad is0 big dropU dropL n m2 s t A_crs A_ccs p q jd jk js jP jv ji = Ok o /\
    is_inv n (bp (o_p o)) (bpi (o_p o)) /\ is_inv n (bp (o_q o)) (bpi (o_q o)) /\
    (exists acc dfr, length acc = o_m o /\ length dfr = o_def o /\ history m2 acc dfr /\
       arranged n m2 acc dfr (bp p) (bp (o_p o)) /\ arranged n m2 acc dfr (bp q) (bp (o_q o))) /\
    factor_ok n (o_m o) (o_L o) (o_Ls o) /\ factor_ok n (o_m o) (o_U o) (o_Us o) /\
    o_m o + o_def o = m2 /\ length (o_d o) = m2 /\
    (forall i, i < o_m o -> bad (nth i (o_d o) (t0 O)) = false).
Proof.
  intros O bad klt kbad is0 big dropU dropL n m2 s t A_crs A_ccs p q jd jk js jP jv ji HI DU DL.
  destruct (run_l O bad klt kbad is0 big dropU dropL n m2 s t A_crs A_ccs p q jd jk js jP jv ji HI DU DL) as (o & E & (LO & UO & []) & re_h).
  exists o. split; auto. split; auto. split; auto. split; [|split; [exact re_L|split; [exact re_U|split; [auto|split; auto]]]].
  destruct re_h as (acc & dfr & (H1 & H2 & H3 & H4 & H5) & B & C). exists acc, dfr. split; auto. split; auto. split; auto.
  split; [|split].
  - intros i j Hij. now apply asc_lt.
  - intros i j Hij. now apply asc_lt.
  - replace m2 with (o_def o + o_m o) by lia. auto.
Qed.
Print Assumptions C44_deferral.

(** If nothing but zeros is dropped, L D U equals the permuted scaled matrix on
    every row and every column of the leading block: B = L_B D U_B, E = L_E D U_B,
    F = L_B D U_F, whatever was deferred.  ([bad 0]: a zero pivot is rejected.) *)
Theorem C38_exact : forall O bad klt kbad is0 big dropU dropL n m2 s t (A_crs A_ccs : CS O) p q jd jk js jP jv ji,
  FieldLaws O -> (forall x, is0 x = true -> x = t0 O) -> bad (t0 O) = true ->
  level_input n m2 s t A_crs A_ccs p q jk js jP jv ji -> drop_rule n dropU -> drop_rule n dropL ->
  drops_only_zeros n dropU -> drops_only_zeros n dropL ->
  exists o, crout bad klt kbad is0 big dropU dropL n m2 s t A_crs A_ccs p q jd jk js jP jv ji = Ok o /\
    is_inv n (bp (o_p o)) (bpi (o_p o)) /\ is_inv n (bp (o_q o)) (bpi (o_q o)) /\
    (forall i, i < o_m o -> nth i (o_d o) (t0 O) <> t0 O) /\
    forall i j, i < n -> j < n -> i < o_m o \/ j < o_m o ->
      LDU o i j = scaled s t (crs_mat A_crs) (nth i (bp (o_p o)) 0) (nth j (bp (o_q o)) 0).
Proof.
  intros O bad klt kbad is0 big dropU dropL n m2 s t A_crs A_ccs p q jd jk js jP jv ji FL Z B HI DU DL LU LL.
  destruct (run_l O bad klt kbad is0 big dropU dropL n m2 s t A_crs A_ccs p q jd jk js jP jv ji HI DU DL) as (o & E & (LO & UO & R) & _).
  assert (H : VH bad is0) by (split; auto). destruct HI as (V1 & V2 & P1 & S1 & P2 & S2 & L1 & L2 & Hm & _). assert (HL : LS dropU dropL n).
  { split; intros step c v v' (A1 & A2 & A3 & A4 & A5 & A6) H7 E8; [apply (LU step c v v')|apply (LL step c v v')]; auto; repeat (split; [assumption|]); assumption. }
  pose proof R as R'. destruct R'. exists o. split; auto. split; auto. split; auto. split.
  - intros i Hi E0. pose proof (re_b i Hi) as X. rewrite E0 in X. congruence.
  - intros i j Hi Hj Hij. destruct (Nat.lt_trichotomy i j) as [L|[->|L]].
    + apply (upper_eq bad is0 dropU dropL n m2 s t A_crs A_ccs (crs_mat A_crs) P1 S1 P2 S2 L1 L2 Hm o LO UO R H); eauto; lia.
    + apply (diag_eq bad is0 dropU dropL n m2 s t A_crs A_ccs (crs_mat A_crs) P1 S1 P2 S2 L1 L2 Hm o LO UO R H); eauto; lia.
    + apply (lower_eq bad is0 dropU dropL n m2 s t A_crs A_ccs (crs_mat A_crs) P1 S1 P2 S2 L1 L2 Hm o LO UO R H); eauto; lia.
Qed.
Print Assumptions C38_exact.

(** With any dropping: wherever an off-diagonal entry of [L] or [U] is stored, the
    product L D U still agrees with the matrix exactly. *)
Theorem C38_exact_where_stored : forall O bad klt kbad is0 big dropU dropL n m2 s t (A_crs A_ccs : CS O) p q jd jk js jP jv ji,
  FieldLaws O -> (forall x, is0 x = true -> x = t0 O) -> bad (t0 O) = true ->
  level_input n m2 s t A_crs A_ccs p q jk js jP jv ji -> drop_rule n dropU -> drop_rule n dropL ->
  exists o, crout bad klt kbad is0 big dropU dropL n m2 s t A_crs A_ccs p q jd jk js jP jv ji = Ok o /\
    (forall c i v, stored (o_L o) c i v -> c < o_m o ->
      LDU o i c = scaled s t (crs_mat A_crs) (nth i (bp (o_p o)) 0) (nth c (bp (o_q o)) 0)) /\
    (forall c j v, stored (o_U o) c j v -> c < o_m o ->
      LDU o c j = scaled s t (crs_mat A_crs) (nth c (bp (o_p o)) 0) (nth j (bp (o_q o)) 0)).
Proof.
  intros O bad klt kbad is0 big dropU dropL n m2 s t A_crs A_ccs p q jd jk js jP jv ji FL Z B HI DU DL.
  destruct (run_l O bad klt kbad is0 big dropU dropL n m2 s t A_crs A_ccs p q jd jk js jP jv ji HI DU DL) as (o & E & (LO & UO & R) & _).
  assert (H : VH bad is0) by (split; auto). destruct HI as (V1 & V2 & P1 & S1 & P2 & S2 & L1 & L2 & Hm & _). pose proof R as R'. destruct R'. exists o. split; auto.
  assert (FR : forall (A : CS O) start c i v, factor_ok n (o_m o) A start -> stored A c i v -> c < o_m o -> c < i < n).
  { intros A start c i v ((W & So) & Ps & Ss & PA & _) HS Hc. unfold stored in HS. pose proof HS as HS'. apply rowl_in in HS.
    destruct HS as (k & Hk & <- & _). split; [apply (PA c k); [lia|auto]|].
    rewrite <- Ss. apply (wf_rowl_range O A W c (ix A k, v)); [lia|auto]. }
  split.
  - intros c i v HS Hc. destruct (FR _ _ _ _ _ re_L HS Hc). apply (lower_eq bad is0 dropU dropL n m2 s t A_crs A_ccs (crs_mat A_crs) P1 S1 P2 S2 L1 L2 Hm o LO UO R H); eauto; lia.
  - intros c j v HS Hc. destruct (FR _ _ _ _ _ re_U HS Hc). apply (upper_eq bad is0 dropU dropL n m2 s t A_crs A_ccs (crs_mat A_crs) P1 S1 P2 S2 L1 L2 Hm o LO UO R H); eauto; lia.
Qed.
Print Assumptions C38_exact_where_stored.

(** ** The dropping used by the code is such a rule; disabled, it drops nothing *)
Lemma space_incl : forall O (G : Mag O) cm ne, MagLaws G -> nth_element_ok (mle G) ne ->
  forall N nnz alpha start (v : SV O), sv_ok N v ->
  exists v', apply_space_dropping G cm ne nnz alpha v start = Ok v' /\ sv_ok N v' /\
    sv_vals v' = sv_vals v /\ sv_dtags v' = sv_dtags v /\ incl (held v') (held v) /\ (mle G alpha (m0 G) = true -> v' = v).
Proof.
  intros O G cm ne ML NE N nnz alpha start v H.
  destruct (space_drop_l G cm ne ML NE N nnz alpha start v H) as (v' & E & K & A & B & C & D). exists v'.
  split; auto. split; auto. split; auto. split; auto. split; [|auto].
  destruct (mle G alpha (m0 G)) eqn:EA; [rewrite C by auto; apply incl_refl|].
  destruct (Nat.lt_ge_cases (space_limit G cm nnz alpha start) (length (held v))) as [Hl|Hl].
  - destruct (D eq_refl Hl) as (_ & dr & PP & _). intros x Hx. eapply Permutation_in; [symmetry; exact PP|]. apply in_or_app. auto.
  - rewrite C by auto. apply incl_refl.
Qed.
Lemma num_incl : forall O (G : Mag O) mdiv N tau kappa (v : SV O), sv_ok N v ->
  exists v', apply_num_dropping G mdiv tau kappa v = Ok v' /\ sv_ok N v' /\
    sv_vals v' = sv_vals v /\ sv_dtags v' = sv_dtags v /\ incl (held v') (held v) /\ (mle G (mdiv tau kappa) (m0 G) = true -> v' = v).
Proof.
  intros O G mdiv N tau kappa v H. destruct (num_drop_l G mdiv N tau kappa v H) as (v' & E & K & A & B & C & D).
  exists v'. split; auto. split; auto. split; auto. split; auto. split; auto.
  destruct (mle G (mdiv tau kappa) (m0 G)); [rewrite C by auto; apply incl_refl|]. rewrite D by auto. intros x Hx. apply filter_In in Hx. tauto.
Qed.

Theorem C44_code_dropping : forall O (G : Mag O) mdiv cm ne n tau kappa_d alpha sizes,
  MagLaws G -> nth_element_ok (mle G) ne -> n <= length sizes ->
  drop_rule n (hif_dropU G mdiv cm ne tau kappa_d alpha sizes) /\ drop_rule n (hif_dropL G mdiv cm ne tau kappa_d alpha sizes) /\
  ((forall x, mle G (mdiv tau x) (m0 G) = true) ->
   mle G alpha (m0 G) = true \/ (forall i, i < n -> n * 2 <= cm alpha (nth i sizes 0)) ->
   drops_only_zeros n (hif_dropU G mdiv cm ne tau kappa_d alpha sizes) /\ drops_only_zeros n (hif_dropL G mdiv cm ne tau kappa_d alpha sizes)).
Proof.
  intros O G mdiv cm ne n tau kappa_d alpha sizes ML NE Ln.
  assert (Go : forall kap idx v, idx < n -> sv_ok (n * 2) v ->
    exists v', (v <- apply_num_dropping G mdiv tau kap v ;; nz <- get sizes idx ;; apply_space_dropping G cm ne nz alpha v 0) = Ok v' /\
      sv_ok (n * 2) v' /\ sv_vals v' = sv_vals v /\ sv_dtags v' = sv_dtags v /\ incl (held v') (held v)).
  { intros kap idx v Hi Hv. destruct (num_incl O G mdiv _ tau kap v Hv) as (v1 & E1 & K1 & A1 & B1 & I1 & _). rewrite E1. cbn [bind].
    rewrite (get_nth _ _ _ 0) by lia. cbn [bind].
    destruct (space_incl O G cm ne ML NE _ (nth idx sizes 0) alpha 0 v1 K1) as (v2 & E2 & K2 & A2 & B2 & I2 & _).
    exists v2. rewrite E2. split; auto. split; auto. split; [congruence|]. split; [congruence|]. eapply incl_tran; eauto. }
  split; [|split].
  - intros step c v (H1 & H2 & H3 & H4 & H5 & H6 & Hv). unfold hif_dropU. rewrite (get_nth _ (c_ku c) _ (t0 O)) by auto. cbn [bind].
    rewrite (get_nth _ (c_p c) _ 0) by auto. cbn [bind]. now apply Go.
  - intros step c v (H1 & H2 & H3 & H4 & H5 & H6 & Hv). unfold hif_dropL. rewrite (get_nth _ (c_kl c) _ (t0 O)) by auto. cbn [bind].
    rewrite (get_nth _ (c_q c) _ 0) by auto. cbn [bind]. now apply Go.
  - intros Ht Ha.
    assert (Id : forall kap idx v, idx < n -> sv_ok (n * 2) v ->
      (v <- apply_num_dropping G mdiv tau kap v ;; nz <- get sizes idx ;; apply_space_dropping G cm ne nz alpha v 0) = Ok v).
    { intros kap idx v Hi Hv. unfold apply_num_dropping. rewrite Ht. cbn [bind]. rewrite (get_nth _ _ _ 0) by lia. cbn [bind].
      destruct (space_drop_l G cm ne ML NE _ (nth idx sizes 0) alpha 0 v Hv) as (v2 & E2 & _ & _ & _ & C2 & _).
      rewrite E2, C2; auto. destruct Ha as [Ha|Ha]; [auto|]. right. specialize (Ha idx Hi). unfold space_limit.
      assert (length (held v) <= n * 2); [|destruct (Nat.leb_spec (cm alpha (nth idx sizes 0)) 0); lia]. unfold held. rewrite firstn_length. pose proof (so_cnt _ _ Hv). lia. }
    split; intros step c v v' (H1 & H2 & H3 & H4 & H5 & H6 & Hv) E i Hi Hn; exfalso; apply Hn; [unfold hif_dropU in E|unfold hif_dropL in E].
    + rewrite (get_nth _ (c_ku c) _ (t0 O)) in E by auto. cbn [bind] in E.
      rewrite (get_nth _ (c_p c) _ 0) in E by auto. cbn [bind] in E. rewrite Id in E by auto. congruence.
    + rewrite (get_nth _ (c_kl c) _ (t0 O)) in E by auto. cbn [bind] in E.
      rewrite (get_nth _ (c_q c) _ 0) in E by auto. cbn [bind] in E. rewrite Id in E by auto. congruence.
Qed.
Print Assumptions C44_code_dropping.

(** ** Concrete run: 4x4, the second pivot vanishes and is deferred *)
Definition qz (z : Z) : Qc := Q2Qc (inject_Z z).
Definition ex_crs : CS OQ := @mkCS OQ 4 4 [0;3;6;8;10] [0;1;3;0;1;2;1;2;0;3] (map qz [2;1;1;4;2;1;1;3;1;5]%Z).
Definition ex_ccs : CS OQ := @mkCS OQ 4 4 [0;3;6;8;10] [0;1;3;0;1;2;1;2;0;3] (map qz [2;4;1;1;2;1;1;3;1;5]%Z).
Definition isz (x : Qc) : bool := qle x (qz 0) && qle (qz 0) x.
Definition one4 := repeat (qz 1) 4.
Definition id4 := mkBP [0;1;2;3] [0;1;2;3].
Definition ex_run := crout (O:=OQ) isz (fun a b => qlt (qabs a) (qabs b)) (fun _ => false) isz (fun _ => true)
  (fun _ _ v => Ok v) (fun _ _ v => Ok v) 4 4 one4 one4 ex_crs ex_ccs id4 id4
  (qz 0) one4 [0;0;0;0] (repeat None 4) (repeat (qz 0) 8) (repeat 0 8).

Example C44_input : level_input (O:=OQ) 4 4 one4 one4 ex_crs ex_ccs id4 id4 one4 [0;0;0;0] (repeat None 4) (repeat (qz 0) 8) (repeat 0 8).
Proof.
  assert (I : is_inv 4 [0;1;2;3] [0;1;2;3]).
  { split; [reflexivity|]. split; [reflexivity|]. split; intros [|[|[|[|i]]]] H; simpl; lia. }
  split; [split; [apply wfb_wf|apply sortedb_sorted]; vm_compute; reflexivity|].
  split; [split; [apply wfb_wf|apply sortedb_sorted]; vm_compute; reflexivity|].
  do 6 (split; [reflexivity|]). split; [auto|]. split.
  { intros _ [|[|[|[|i]]]] [|[|[|[|j]]]] H1 H2; try lia; apply Qc_is_canon; vm_compute; reflexivity. }
  split; [exact I|]. split; [exact I|]. repeat split; reflexivity.
Qed.
Example C44_rule : drop_rule (O:=OQ) 4 (fun _ _ v => Ok v) /\ drops_only_zeros (O:=OQ) 4 (fun _ _ v => Ok v).
Proof.
  split.
  - intros step c v (_ & _ & _ & _ & _ & _ & H). exists v. repeat split; auto; try apply H. apply incl_refl.
  - intros step c v v' _ E i Hi Hn. inversion E; subst. contradiction.
Qed.
Example C44_run : match ex_run with Ok o => (o_m o, o_def o, bp (o_p o), o_Ls o) | _ => (0, 0, [], []) end = (3, 1, [0;2;3;1], [1;2;3;0]).
Proof. vm_compute. reflexivity. Qed.
Example C38_hyps : (forall x, isz x = true -> x = qz 0) /\ isz (qz 0) = true.
Proof.
  split; [|reflexivity]. intros x H. unfold isz in H. apply andb_prop in H. destruct H as (A & B).
  unfold qle in *. apply Qc_is_canon. apply Qle_bool_iff in A, B. now apply Qle_antisym.
Qed.
