(** * PropPivot: C38 and C44 for the level factorization with rook pivoting. *)
From Coq Require Import List Arith ZArith QArith Qcanon Lia Bool Permutation.
From Verif Require Import Base Scalar Spec CSModel CSSpec ConvModel ConvSpec Mag VecModel VecSpec VecProofs PruneModel PruneSpec PruneProofs
  CroutModel CroutSpec CroutProofs7 CroutProofs11 ConvProofs ConvProofs4 PropCrout PivotModel PivotSpec PivotProofs6 PivotProofs8.
Import ListNotations.
Local Open Scope nat_scope.

Lemma pivot_run_l : forall O bad klt kbad kok piv srt is0 big dropU dropL n m2 s t (A_crs A_ccs : CS O) p q jd jk js jP jv ji,
  level_input n m2 s t A_crs A_ccs p q jk js jP jv ji -> length jd = m2 -> rearranges srt ->
  pdrop_rule n dropU -> pdrop_rule n dropL ->
  exists o, pivot_crout bad klt kbad kok piv srt is0 big dropU dropL n m2 s t A_crs A_ccs p q jd jk js jP jv ji = Ok o /\
    exists LO UO, RESULT bad is0 (dU dropU) (dL dropL) n m2 s t (crs_mat A_crs) o LO UO /\ KEEP n m2 p q o /\
      DIAG bad is0 s t (crs_mat A_crs) o LO UO.
Proof.
  intros O bad klt kbad kok piv srt is0 big dropU dropL n m2 s t A_crs A_ccs p q jd jk js jP jv ji
    (V1 & V2 & P1 & S1 & P2 & S2 & L1 & L2 & Hm & HA & Hp & Hq & J1 & J2 & J3 & J4 & J5) Jd SR DU DL.
  assert (W : wp (pivot_crout bad klt kbad kok piv srt is0 big dropU dropL n m2 s t A_crs A_ccs p q jd jk js jP jv ji)
    (fun o => exists LO UO, RESULT bad is0 (dU dropU) (dL dropL) n m2 s t (crs_mat A_crs) o LO UO /\ KEEP n m2 p q o /\
      DIAG bad is0 s t (crs_mat A_crs) o LO UO)).
  { apply pivot_crout_l; auto.
    - intros RL i j Hi Hj. split; auto. now apply HA.
    - intros step c v (A1 & A2 & A3 & A4 & A5 & A6) H. destruct (DU step (c_ku c) (c_p c) v) as (v' & E & R); [split; [assumption|split; [assumption|split; assumption]]|]. exists v'. split; auto.
    - intros step c v (A1 & A2 & A3 & A4 & A5 & A6) H. destruct (DL step (c_kl c) (c_q c) v) as (v' & E & R); [split; [assumption|split; [assumption|split; assumption]]|]. exists v'. split; auto. }
  apply wp_inv in W. exact W.
Qed.

(** For every matrix, every dropping rule, every sort and every sequence of pivot,
    accept and defer decisions (the decision functions are arbitrary): the pivoting
    factorization ends normally; the leading size plus the number of deferrals is
    the size it started with; [p], [q] are permutations with correct inverses, in
    which the first [m2] rows (columns) are split into the accepted ones, in front,
    and the deferred ones, behind everything else, and the others keep their order;
    [L] and [U] are strictly triangular, in valid sorted storage, split at the
    leading block; every accepted pivot passed the test. *)
Theorem C44_pivoting : forall O bad klt kbad kok piv srt is0 big dropU dropL n m2 s t (A_crs A_ccs : CS O) p q jd jk js jP jv ji,
  level_input n m2 s t A_crs A_ccs p q jk js jP jv ji -> length jd = m2 -> rearranges srt ->
  pdrop_rule n dropU -> pdrop_rule n dropL ->
  exists o, pivot_crout bad klt kbad kok piv srt is0 big dropU dropL n m2 s t A_crs A_ccs p q jd jk js jP jv ji = Ok o /\
    is_inv n (bp (o_p o)) (bpi (o_p o)) /\ is_inv n (bp (o_q o)) (bpi (o_q o)) /\
    (exists acc dfr, length acc = o_m o /\ length dfr = o_def o /\ Permutation (seq 0 m2) (acc ++ dfr) /\
       arranged n m2 acc dfr (bp p) (bp (o_p o))) /\
    (exists acc dfr, length acc = o_m o /\ length dfr = o_def o /\ Permutation (seq 0 m2) (acc ++ dfr) /\
       arranged n m2 acc dfr (bp q) (bp (o_q o))) /\
    factor_ok n (o_m o) (o_L o) (o_Ls o) /\ factor_ok n (o_m o) (o_U o) (o_Us o) /\
    o_m o + o_def o = m2 /\ length (o_d o) = m2 /\
    (forall i, i < o_m o -> bad (nth i (o_d o) (t0 O)) = false).
Proof.
  intros O bad klt kbad kok piv srt is0 big dropU dropL n m2 s t A_crs A_ccs p q jd jk js jP jv ji HI Jd SR DU DL.
  destruct (pivot_run_l O bad klt kbad kok piv srt is0 big dropU dropL n m2 s t A_crs A_ccs p q jd jk js jP jv ji HI Jd SR DU DL) as (o & E & LO & UO & [] & (K1 & K2) & _).
  destruct HI as (_ & _ & _ & _ & _ & _ & _ & _ & Hm & _ & Hp & Hq & _).
  exists o. split; auto. split; auto. split; auto. split; [|split; [|split; [exact re_L|split; [exact re_U|split; [auto|split; auto]]]]].
  - eapply rearr; eauto. now apply is_inv_perm in re_p.
  - eapply rearr; eauto. now apply is_inv_perm in re_q.
Qed.
Print Assumptions C44_pivoting.

(** If nothing but zeros is dropped, L D U equals the permuted scaled matrix on
    every row and every column of the leading block. *)
Theorem C38_pivot_exact : forall O bad klt kbad kok piv srt is0 big dropU dropL n m2 s t (A_crs A_ccs : CS O) p q jd jk js jP jv ji,
  FieldLaws O -> (forall x, is0 x = true -> x = t0 O) -> bad (t0 O) = true ->
  level_input n m2 s t A_crs A_ccs p q jk js jP jv ji -> length jd = m2 -> rearranges srt ->
  pdrop_rule n dropU -> pdrop_rule n dropL -> pdrops_only_zeros n dropU -> pdrops_only_zeros n dropL ->
  exists o, pivot_crout bad klt kbad kok piv srt is0 big dropU dropL n m2 s t A_crs A_ccs p q jd jk js jP jv ji = Ok o /\
    is_inv n (bp (o_p o)) (bpi (o_p o)) /\ is_inv n (bp (o_q o)) (bpi (o_q o)) /\
    (forall i, i < o_m o -> nth i (o_d o) (t0 O) <> t0 O) /\
    forall i j, i < n -> j < n -> i < o_m o \/ j < o_m o ->
      LDU o i j = scaled s t (crs_mat A_crs) (nth i (bp (o_p o)) 0) (nth j (bp (o_q o)) 0).
Proof.
  intros O bad klt kbad kok piv srt is0 big dropU dropL n m2 s t A_crs A_ccs p q jd jk js jP jv ji FL Z B HI Jd SR DU DL LU LL.
  destruct (pivot_run_l O bad klt kbad kok piv srt is0 big dropU dropL n m2 s t A_crs A_ccs p q jd jk js jP jv ji HI Jd SR DU DL) as (o & E & LO & UO & R & _ & DG).
  assert (H : VH bad is0) by (split; auto). destruct HI as (V1 & V2 & P1 & S1 & P2 & S2 & L1 & L2 & Hm & _).
  assert (HL : LS (dU dropU) (dL dropL) n).
  { split; intros step c v v' (A1 & A2 & A3 & A4 & A5 & A6) H7 E8; [apply (LU step (c_ku c) (c_p c) v v')|apply (LL step (c_kl c) (c_q c) v v')]; auto; (split; [assumption|split; [assumption|split; assumption]]). }
  pose proof R as R'. destruct R'. exists o. split; auto. split; auto. split; auto. split.
  - intros i Hi E0. pose proof (re_b i Hi) as X. rewrite E0 in X. congruence.
  - intros i j Hi Hj Hij. destruct (Nat.lt_trichotomy i j) as [L|[->|L]].
    + apply (upper_eq bad is0 _ _ n m2 s t A_crs A_ccs (crs_mat A_crs) P1 S1 P2 S2 L1 L2 Hm o LO UO R H); eauto; lia.
    + apply (diag_eq bad is0 _ _ n m2 s t A_crs A_ccs (crs_mat A_crs) P1 S1 P2 S2 L1 L2 Hm o LO UO R H); eauto; lia.
    + apply (lower_eq bad is0 _ _ n m2 s t A_crs A_ccs (crs_mat A_crs) P1 S1 P2 S2 L1 L2 Hm o LO UO R H); eauto; lia.
Qed.
Print Assumptions C38_pivot_exact.

(** With any dropping: the product L D U agrees with the matrix exactly on the
    whole diagonal of the leading block (pivots are computed from what is stored,
    unlike without pivoting) and wherever an off-diagonal entry is stored. *)
Theorem C38_pivot_exact_where_stored : forall O bad klt kbad kok piv srt is0 big dropU dropL n m2 s t (A_crs A_ccs : CS O) p q jd jk js jP jv ji,
  FieldLaws O -> (forall x, is0 x = true -> x = t0 O) -> bad (t0 O) = true ->
  level_input n m2 s t A_crs A_ccs p q jk js jP jv ji -> length jd = m2 -> rearranges srt ->
  pdrop_rule n dropU -> pdrop_rule n dropL ->
  exists o, pivot_crout bad klt kbad kok piv srt is0 big dropU dropL n m2 s t A_crs A_ccs p q jd jk js jP jv ji = Ok o /\
    (forall i, i < o_m o -> LDU o i i = scaled s t (crs_mat A_crs) (nth i (bp (o_p o)) 0) (nth i (bp (o_q o)) 0)) /\
    (forall c i v, stored (o_L o) c i v -> c < o_m o ->
      LDU o i c = scaled s t (crs_mat A_crs) (nth i (bp (o_p o)) 0) (nth c (bp (o_q o)) 0)) /\
    (forall c j v, stored (o_U o) c j v -> c < o_m o ->
      LDU o c j = scaled s t (crs_mat A_crs) (nth c (bp (o_p o)) 0) (nth j (bp (o_q o)) 0)).
Proof.
  intros O bad klt kbad kok piv srt is0 big dropU dropL n m2 s t A_crs A_ccs p q jd jk js jP jv ji FL Z B HI Jd SR DU DL.
  destruct (pivot_run_l O bad klt kbad kok piv srt is0 big dropU dropL n m2 s t A_crs A_ccs p q jd jk js jP jv ji HI Jd SR DU DL) as (o & E & LO & UO & R & _ & DG).
  assert (H : VH bad is0) by (split; auto). destruct HI as (V1 & V2 & P1 & S1 & P2 & S2 & L1 & L2 & Hm & _). pose proof R as R'. destruct R'. exists o. split; auto.
  assert (FR : forall (A : CS O) start c i v, factor_ok n (o_m o) A start -> stored A c i v -> c < o_m o -> c < i < n).
  { intros A start c i v ((W & So) & Ps & Ss & PA & _) HS Hc. unfold stored in HS. pose proof HS as HS'. apply rowl_in in HS.
    destruct HS as (k & Hk & <- & _). split; [apply (PA c k); [lia|auto]|].
    rewrite <- Ss. apply (wf_rowl_range O A W c (ix A k, v)); [lia|auto]. }
  split; [|split].
  - intros i Hi. apply (pdiag_eq bad is0 dropU dropL n m2 s t A_crs A_ccs (crs_mat A_crs) P1 S1 P2 S2 L1 L2 Hm o LO UO R DG H i Hi).
  - intros c i v HS Hc. destruct (FR _ _ _ _ _ re_L HS Hc). apply (lower_eq bad is0 _ _ n m2 s t A_crs A_ccs (crs_mat A_crs) P1 S1 P2 S2 L1 L2 Hm o LO UO R H); eauto; lia.
  - intros c j v HS Hc. destruct (FR _ _ _ _ _ re_U HS Hc). apply (upper_eq bad is0 _ _ n m2 s t A_crs A_ccs (crs_mat A_crs) P1 S1 P2 S2 L1 L2 Hm o LO UO R H); eauto; lia.
Qed.
Print Assumptions C38_pivot_exact_where_stored.

(** The dropping used by the code is such a rule; disabled, it drops nothing. *)
Theorem C44_pivot_code_dropping : forall O (G : Mag O) mdiv cm ne n tau kappa_d alpha sizes,
  MagLaws G -> nth_element_ok (mle G) ne -> n <= length sizes ->
  pdrop_rule n (piv_drop G mdiv cm ne tau kappa_d alpha sizes) /\
  ((forall x, mle G (mdiv tau x) (m0 G) = true) ->
   mle G alpha (m0 G) = true \/ (forall i, i < n -> n * 2 <= cm alpha (nth i sizes 0)) ->
   pdrops_only_zeros n (piv_drop G mdiv cm ne tau kappa_d alpha sizes)).
Proof.
  intros O G mdiv cm ne n tau kappa_d alpha sizes ML NE Ln. split.
  - intros step kap p v (H1 & H2 & H3 & Hv). unfold piv_drop. rewrite (get_nth _ kap _ (t0 O)) by auto. cbn [bind].
    destruct (num_incl O G mdiv _ tau (mmul G (mabs G (nth step kap (t0 O))) kappa_d) v Hv) as (v1 & E1 & K1 & A1 & B1 & I1 & _). rewrite E1. cbn [bind].
    rewrite (get_nth _ p _ 0) by auto. cbn [bind]. rewrite (get_nth _ sizes _ 0) by lia. cbn [bind].
    destruct (space_incl O G cm ne ML NE _ (nth (nth step p 0) sizes 0) alpha 0 v1 K1) as (v2 & E2 & K2 & A2 & B2 & I2 & _).
    exists v2. rewrite E2. split; auto. split; auto. split; [congruence|]. split; [congruence|]. eapply incl_tran; eauto.
  - intros Ht Ha step kap p v v' (H1 & H2 & H3 & Hv) E i Hi Hn. exfalso. apply Hn. unfold piv_drop in E.
    rewrite (get_nth _ kap _ (t0 O)) in E by auto. cbn [bind] in E. unfold apply_num_dropping in E. rewrite Ht in E. cbn [bind] in E.
    rewrite (get_nth _ p _ 0) in E by auto. cbn [bind] in E. rewrite (get_nth _ sizes _ 0) in E by lia. cbn [bind] in E.
    destruct (space_drop_l G cm ne ML NE _ (nth (nth step p 0) sizes 0) alpha 0 v Hv) as (v2 & E2 & _ & _ & _ & C2 & _).
    rewrite E2, C2 in E; [congruence|]. destruct Ha as [Ha|Ha]; [auto|]. right. specialize (Ha _ H3). unfold space_limit.
    assert (length (held v) <= n * 2); [|destruct (Nat.leb_spec (cm alpha (nth (nth step p 0) sizes 0)) 0); lia].
    unfold held. rewrite firstn_length. pose proof (so_cnt _ _ Hv). lia.
Qed.
Print Assumptions C44_pivot_code_dropping.

(** ** Concrete run: the matrix of C44; the vanishing second pivot is now avoided by
    exchanges instead of a deferral.  [piv a b]: is [b] too small compared to [a]? *)
Definition piv_run :=
  pivot_crout (O:=OQ) isz (fun a b => qlt (qabs a) (qabs b)) (fun _ => false) (fun _ => true)
    (fun a b => qlt (qabs b) (qabs a)) (fun _ l => l) isz (fun _ => true)
    (fun _ _ _ v => Ok v) (fun _ _ _ v => Ok v) 4 4 one4 one4 ex_crs ex_ccs id4 id4
    one4 one4 [0;0;0;0] (repeat None 4) (repeat (qz 0) 8) (repeat 0 8).
Example C44_pivot_rule : pdrop_rule (O:=OQ) 4 (fun _ _ _ v => Ok v) /\ pdrops_only_zeros (O:=OQ) 4 (fun _ _ _ v => Ok v) /\ rearranges (O:=OQ) (fun _ l => l).
Proof.
  split; [|split].
  - intros step kap p v (_ & _ & _ & H). exists v. repeat split; auto; try apply H. apply incl_refl.
  - intros step kap p v v' _ E i Hi Hn. inversion E; subst. contradiction.
  - intros vals l. apply Permutation_refl.
Qed.
Example C44_pivot_run : match piv_run with Ok o => (o_m o, o_def o, bp (o_p o), bp (o_q o), map this (o_d o)) | _ => (0, 0, [], [], []) end
  = (4, 0, [1;2;3;0], [0;2;3;1], [4%Q; 3%Q; 5%Q; (1 # 4)%Q]).
Proof. vm_compute. reflexivity. Qed.
(** The same with exchanges switched off: the second pivot is deferred. *)
Example C44_pivot_defers : match
  pivot_crout (O:=OQ) isz (fun a b => qlt (qabs a) (qabs b)) (fun _ => false) (fun _ => true)
    (fun a b => false) (fun _ l => l) isz (fun _ => true)
    (fun _ _ _ v => Ok v) (fun _ _ _ v => Ok v) 4 4 one4 one4 ex_crs ex_ccs id4 id4
    one4 one4 [0;0;0;0] (repeat None 4) (repeat (qz 0) 8) (repeat 0 8)
  with Ok o => (o_m o, o_def o, bp (o_p o), o_Ls o) | _ => (0, 0, [], []) end = (3, 1, [0;2;3;1], [1;2;3;0]).
Proof. vm_compute. reflexivity. Qed.
