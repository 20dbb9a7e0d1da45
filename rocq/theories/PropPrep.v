(** * PropPrep: preprocessing of one level (C57). *)
From Coq Require Import List Arith ZArith Lia Lra Bool Permutation Reals QArith Qcanon.
From Verif Require Import Base Scalar Spec CSModel CSSpec CSProofs ConvModel ConvSpec ConvProofs ConvProofs3 ConvProofs4 Mag VecModel VecProofs PruneModel
  PreModel PreSpec PreProofs PreProofs3 PropPre PropRcm PropConv PropEq RcmModel RcmSpec EqModel EqSpec DualSpec PropDual PrepModel PrepSpec PrepProofs1 PrepProofs2 PrepProofs3 PrepProofs4 PrepProofs5.
Import ListNotations.
Close Scope Q_scope. Close Scope Qc_scope. Close Scope R_scope. Open Scope nat_scope.

(** Preprocessing of a matrix with a leading block that is neither empty nor too full in a row
    does not fail.  The leading block splits into [m] acceptable diagonals and [m0 - m] that are
    not acceptable, which come behind; positions from [m0] on are left alone with scaling 1; the
    permutations have correct inverses; in symmetric mode rows and columns are treated alike.
    Missing: rows with more than (m0 + 1) / 2 entries (C52_work_overlap_refuted), RCM for
    unsymmetric matrices (C46_symmetrised_pattern_refuted); AMD is assumed to return
    permutations. *)
Theorem C57_preprocessing_partial : forall (O : Ops) (G : Mag O) (K : ROps) (mone eps : M G) (mrec : M G -> M G) (smul : T O -> M G -> T O)
  (msqrt : M G -> M G) (mexp : RR K -> M G) (mdiff : M G -> M G) (mbig : M G -> bool) (rmag : M G -> RR K) (rlog : RR K -> RR K)
  (rbig : nat -> RR K) (rhuge : RR K) (un : nat -> list nat) (um : nat -> list (M G)) (ur : nat -> list (RR K)) (ji : nat) (jv : T O)
  (amd : list nat -> list nat -> nat -> list nat) (symm : bool) (A A_crs : CS O) (n m0 level : nat) (o : popts (M G)),
  MagLaws G -> (forall k, length (un k) = k) -> (forall k, length (um k) = k) -> (forall k, length (ur k) = k) ->
  req K (rinf K) (rinf K) = true -> (forall start ind k, is_perm k (amd start ind k)) ->
  valid A -> valid A_crs -> tight A_crs -> psize A = n /\ ssize A = n /\ psize A_crs = n /\ ssize A_crs = n -> 1 <= m0 -> m0 <= n ->
  (exists i j v, i < m0 /\ j < m0 /\ stored A_crs i j v) -> (forall i, i < m0 -> 2 * length (lead_row A_crs m0 i) <= m0 + 1) ->
  (0 <= po_reorder o < REORDER_NULL)%Z ->
  (rcm_used symm o -> symm = true /\ forall i j v, i < m0 -> j < m0 -> stored A i j v -> exists v', stored A j i v') ->
  exists m s t P Q info,
    do_preprocessing G K mone eps mrec smul msqrt mexp mdiff mbig rmag rlog rbig rhuge un um ur ji jv amd symm A A_crs m0 level o = Ok (m, s, t, P, Q, info) /\
    m <= m0 /\ info <= 2 /\ is_inv n (bp P) (bpi P) /\ is_inv n (bp Q) (bpi Q) /\ length s = n /\ length t = n /\
    (forall i, i < m -> acceptable G mone eps A A_crs (nth i (bp P) 0, nth i (bp Q) 0)) /\
    (forall i, m <= i < m0 -> ~ acceptable G mone eps A A_crs (nth i (bp P) 0, nth i (bp Q) 0)) /\
    (forall i, i < m0 -> nth i (bp P) 0 < m0 /\ nth i (bp Q) 0 < m0) /\
    (info = 0 -> symm = false -> forall i, i < m0 -> exists v, stored A_crs (nth i (bp P) 0) (nth i (bp Q) 0) v) /\
    (forall i, m0 <= i < n -> nth i (bp P) 0 = i /\ nth i (bp Q) 0 = i /\ nth i s (Mag.m0 G) = mone /\ nth i t (Mag.m0 G) = mone) /\
    (symm = true -> bp P = bp Q /\ s = t).
Proof.
  intros O G K mone eps mrec smul msqrt mexp mdiff mbig rmag rlog rbig rhuge un um ur ji jv amd symm A A_crs n m0 level o ML LN LM LR INF AMD VA VC TC SZ H1 H2 NE HF RO RC.
  destruct (do_preprocessing_l G K ML mone eps mrec smul msqrt mexp mdiff mbig rmag rlog rbig rhuge un um ur ji jv amd LN LM LR INF AMD symm A A_crs n m0 level o
    VA VC TC SZ H1 H2 NE HF RO RC) as (m & s & t & P & Q & info & B & p0 & q0 & s1 & t1 & E & VB & TB & PB & SB & HS & MA & X1 & X2 & X3 & X4 & X5 & X6 & X7 & X8 & X9 & X10 & X11 & X12 & X13).
  exists m, s, t, P, Q, info. split; [exact E|]. split; [auto|].
  pose proof MA as (B2 & s2 & t2 & perm & u & d & _ & _ & _ & (LP & R1 & R2) & _ & _ & _ & I2 & _ & _ & PF & QF & _). rewrite PB in *.
  assert (RNG : forall j, j < m0 -> nth j p0 0 < m0 /\ nth j q0 0 < m0).
  { intros j Hj. assert (Y : nth j p0 0 < m0). { rewrite PF by auto. specialize (R1 (S j) ltac:(lia)). unfold n1 in R1. replace (S j - 1) with j in R1 by lia. lia. }
    split; [auto|]. rewrite QF by auto. destruct symm; auto. }
  split; [auto|]. split; [auto|]. split; [auto|]. split; [auto|]. split; [auto|]. split; [exact X4|]. split; [exact X5|].
  split. { intros i Hi. destruct (X7 i Hi) as (j & Hj & Ej). unfold diag_at in Ej. injection Ej as -> ->. auto. }
  split. { intros E0 Es i Hi. destruct (X7 i Hi) as (j & Hj & Ej). unfold diag_at in Ej. injection Ej as -> ->.
    destruct (matched_stored G K mone mrec smul msqrt mexp mdiff mbig rmag rlog rbig rhuge un um ur symm (po_prescale o) B (um n) (um n) p0 q0 s1 t1 info
      (proj1 VB) TB ltac:(congruence) MA E0 j ltac:(lia)) as (Y1 & v & Y2). exists v. rewrite QF, Es by auto. apply HS; [lia|auto]. }
  split; [|auto]. intros i Hi. specialize (X6 i Hi). unfold diag_at in X6. injection X6 as -> ->. specialize (X10 i Hi). auto.
Qed.
Print Assumptions C57_preprocessing_partial.

(** An invalid reordering option and a leading block without entries are refused. *)
Theorem C57_rejected : forall (O : Ops) (G : Mag O) (K : ROps) (mone eps : M G) (mrec : M G -> M G) (smul : T O -> M G -> T O)
  (msqrt : M G -> M G) (mexp : RR K -> M G) (mdiff : M G -> M G) (mbig : M G -> bool) (rmag : M G -> RR K) (rlog : RR K -> RR K)
  (rbig : nat -> RR K) (rhuge : RR K) (un : nat -> list nat) (um : nat -> list (M G)) (ur : nat -> list (RR K)) (ji : nat) (jv : T O)
  (amd : list nat -> list nat -> nat -> list nat) (symm : bool) (A A_crs : CS O) (n m0 level : nat) (o : popts (M G)),
  (forall k, length (um k) = k) -> valid A_crs -> tight A_crs -> psize A = n /\ ssize A = n /\ psize A_crs = n /\ ssize A_crs = n -> m0 <= n ->
  ~ (0 <= po_reorder o < REORDER_NULL)%Z \/ (forall i j v, i < m0 -> j < m0 -> ~ stored A_crs i j v) ->
  do_preprocessing G K mone eps mrec smul msqrt mexp mdiff mbig rmag rlog rbig rhuge un um ur ji jv amd symm A A_crs m0 level o = Err.
Proof.
  intros O G K mone eps mrec smul msqrt mexp mdiff mbig rmag rlog rbig rhuge un um ur ji jv amd symm A A_crs n m0 level o LM VC TC (S1 & S2 & S3 & S4) Hm HE.
  unfold do_preprocessing. destruct ((po_reorder o <? 0)%Z || (REORDER_NULL <=? po_reorder o)%Z) eqn:EO; [reflexivity|].
  apply orb_false_elim in EO. destruct EO as (E1 & E2). apply Z.ltb_ge in E1. apply Z.leb_gt in E2. destruct HE as [HE|HE]; [lia|].
  unfold do_maching. rewrite S1, S2. unfold matching_input. destruct (Nat.eqb_spec m0 n) as [->|Hne].
  2:{ rewrite (C11_empty_block_raises O m0 A_crs ji jv VC ltac:(lia) HE). reflexivity. }
  assert (EA : mkCS n n (ind_start A_crs) (indices A_crs) (vals A_crs) = A_crs). { destruct A_crs; cbn in *. subst. reflexivity. }
  pose proof VC as (W & SO).
  assert (Z0 : nnz_of A_crs = 0).
  { rewrite (nnz_flat O A_crs W). destruct (flat O (rowl A_crs) (psize A_crs)) as [|x l] eqn:EF; [reflexivity|exfalso].
    assert (I : In x (flat O (rowl A_crs) (psize A_crs))) by (rewrite EF; left; reflexivity).
    unfold flat in I. apply in_flat_map in I. destruct I as (i & Hi & I2). apply in_seq in Hi.
    destruct x as (j, v). pose proof (wf_rowl_range O A_crs W i (j, v) ltac:(lia) I2) as R. simpl in R. apply (HE i j v); [lia|lia|exact I2]. }
  assert (MI : (if (po_prescale o =? 0)%Z then Ok (mkCS n n (ind_start A_crs) (indices A_crs) (vals A_crs)) else
      nz <- nnz O A_crs ;; (if length (vals A_crs) <=? nz then Ok (mkCS n n (ind_start A_crs) (indices A_crs) (vals A_crs ++ repeat jv (nz - length (vals A_crs)))) else UB)) = Ok A_crs).
  { destruct (po_prescale o =? 0)%Z; [now rewrite EA|]. rewrite (nnz_ok A_crs W TC) by congruence. cbn [bind]. pose proof TC as (T1 & T2 & T3). unfold nnz_of.
    rewrite T3, Nat.leb_refl, Nat.sub_diag. cbn [repeat]. now rewrite app_nil_r, EA. }
  rewrite MI. cbn [bind]. unfold do_matching. rewrite (nnz_ok A_crs W TC) by congruence. cbn [bind].
  pose proof (pre_scaling_l G mone mrec smul msqrt mdiff mbig um LM A_crs W TC ltac:(congruence) symm (po_prescale o) (um n) (um n) ltac:(rewrite LM; lia) ltac:(rewrite LM; lia)) as X.
  apply wp_inv in X. destruct X as ([[B2 s] t] & -> & _). cbn [bind]. rewrite Z0.
  rewrite C52_empty_rejected. reflexivity.
Qed.
Print Assumptions C57_rejected.

(** Over the real numbers, for a leading block of nonzero entries, with any of the a priori
    scalings: the flag is 0 if the entries allow a full matching and no number counts as
    overflow.  With flag 0 the scaling factors are positive; in general mode the diagonals chosen
    by the permutations are exactly 1 after scaling, and no other choice of one stored entry per
    column in different rows has a larger product of absolute values; unless the factors are
    repaired on a deeper level ([beta]), every entry of the scaled leading block is at most 1 in
    absolute value; in symmetric mode this holds on all levels, for matrices with symmetric
    absolute values.  Missing: as for [C57_preprocessing_partial]. *)
Theorem C57_scaling_partial : forall (eps : R) (mdiff : R -> R) (mbig : R -> bool) (rbig : nat -> option R) (rhuge : option R)
  (un : nat -> list nat) (um : nat -> list R) (ur : nat -> list (option R)) (ji : nat) (jv : R) (amd : list nat -> list nat -> nat -> list nat)
  (symm : bool) (A A_crs : CS ORe) (n m0 level : nat) (o : popts R),
  (forall k, length (un k) = k) -> (forall k, length (um k) = k) -> (forall k, length (ur k) = k) -> (forall start ind k, is_perm k (amd start ind k)) ->
  valid A -> valid A_crs -> tight A_crs -> psize A = n /\ ssize A = n /\ psize A_crs = n /\ ssize A_crs = n -> 1 <= m0 -> m0 <= n ->
  (exists i j v, i < m0 /\ j < m0 /\ stored A_crs i j v) -> (forall i, i < m0 -> 2 * length (lead_row A_crs m0 i) <= m0 + 1) ->
  (0 <= po_reorder o < REORDER_NULL)%Z ->
  (rcm_used symm o -> symm = true /\ forall i j v, i < m0 -> j < m0 -> stored A i j v -> exists v', stored A j i v') ->
  (forall i j v, i < m0 -> j < m0 -> stored A_crs i j v -> v <> 0%R) ->
  exists m s t P Q info, prep_real eps mdiff mbig rbig rhuge un um ur ji jv amd symm A A_crs m0 level o = Ok (m, s, t, P, Q, info) /\
    (rhuge = None -> (exists f, (forall j, j < m0 -> f j < m0 /\ exists v, stored A_crs (f j) j v) /\ (forall j j', j < m0 -> j' < m0 -> f j = f j' -> j = j')) -> info = 0) /\
    (info = 0 ->
      (forall i, i < n -> (0 < nth i s 0%R)%R /\ (0 < nth i t 0%R)%R) /\
      (symm = false ->
        (exists x : nat -> R,
          (forall k, k < m0 -> stored A_crs (nth k (bp P) 0) (nth k (bp Q) 0) (x k) /\
            (Rabs (nth (nth k (bp P) 0%nat) s 0%R * x k * nth (nth k (bp Q) 0%nat) t 0%R) = 1)%R) /\
          (forall f w, (forall j, j < m0 -> f j < m0 /\ stored A_crs (f j) j (w j)) -> (forall j j', j < m0 -> j' < m0 -> f j = f j' -> j = j') ->
            (prod_below m0 (fun j => Rabs (w j)) <= prod_below m0 (fun k => Rabs (x k)))%R)) /\
        (level <= 1 \/ po_beta o = None -> forall i j v, i < m0 -> j < m0 -> stored A_crs i j v -> (Rabs (nth i s 0%R * v * nth j t 0%R) <= 1)%R)) /\
      (symm = true -> (forall i j v, i < m0 -> j < m0 -> stored A_crs i j v -> exists v', stored A_crs j i v' /\ Rabs v' = Rabs v) ->
        forall i j v, i < m0 -> j < m0 -> stored A_crs i j v -> (Rabs (nth i s 0%R * v * nth j t 0%R) <= 1)%R)).
Proof.
  intros eps mdiff mbig rbig rhuge un um ur ji jv amd symm A A_crs n m0 level o LN LM LR AMD VA VC TC SZ H1 H2 NE HF RO RC NZ.
  destruct (do_preprocessing_l MRe KR MRe_laws 1%R eps Rinv Rmult sqrt exp_opt mdiff mbig (fun x => Some x) (option_map ln) rbig rhuge un um ur ji jv amd LN LM LR eq_refl AMD
    symm A A_crs n m0 level o VA VC TC SZ H1 H2 NE HF RO RC)
    as (m & s & t & P & Q & info & B & p0 & q0 & s1 & t1 & E & VB & TB & PB & SB & HS & MA & X1 & X2 & X3 & X4 & X5 & X6 & X7 & X8 & X9 & X10 & X11 & X12 & X13).
  exists m, s, t, P, Q, info. split; [exact E|].
  assert (NB : 1 <= nnz_of B /\ half B).
  { split.
    - destruct NE as (i & j & v & Hi & Hj & S0). assert (S1 : stored B i j v) by (apply HS; auto). apply stored_at in S1. destruct S1 as (k & K1 & _).
      unfold nnz_of. destruct VB as (WB & _). pose proof (st_mono ORe B WB (S i) (psize B) ltac:(lia) ltac:(lia)). lia.
    - intros i Hi. rewrite PB in *. rewrite (tight_valid_len B m0 A_crs i VB PB SB VC Hi ltac:(lia)); [apply HF; auto|]. intros j v. apply HS. auto. }
  destruct NB as (NB & HB). pose proof MA as (B2 & s2 & t2 & perm & u & d & EP & _ & _ & _ & _ & _ & _ & _ & _ & _ & _ & QF & _).
  assert (NZB : forall i j v, i < psize B -> stored B i j v -> v <> 0%R).
  { intros i j v Hi S0. rewrite PB in Hi. apply HS in S0; auto. destruct S0 as (Hj & S0). exact (NZ i j v Hi Hj S0). }
  assert (REL : (forall i, i < m0 -> exists j v, stored B i j v) -> (forall j, j < m0 -> exists i v, i < m0 /\ stored B i j v) ->
    forall B2' s2' t2', pre_scaling MRe 1%R Rinv Rmult sqrt mdiff mbig um symm (po_prescale o) B (um n) (um n) = Ok (B2', s2', t2') -> scaled_by B B2' s2' t2').
  { intros RN CN B2' s2' t2' E2. eapply pre_rel; [exact LM| | | | | | | | |exact E2]; try rewrite LM; try lia; try rewrite PB; auto; [apply VB|].
    rewrite PB in NZB. exact NZB. }
  split.
  { intros RH (f & F1 & F2).
    assert (PF : is_perm m0 (map f (seq 0 m0))).
    { split; [now rewrite map_length, seq_length|].
      assert (EF : forall i, i < m0 -> nth i (map f (seq 0 m0)) 0 = f i) by (intros i Hi; rewrite nth_indep with (d' := f 0) by (rewrite map_length, seq_length; lia); rewrite map_nth, seq_nth by lia; reflexivity).
      split; [intros i Hi; rewrite EF by auto; apply F1; auto|]. intros i j Hi Hj. rewrite !EF by auto. auto. }
    assert (RN : forall i, i < m0 -> exists j v, stored B i j v).
    { intros i Hi. destruct (is_perm_surj _ _ _ PF Hi) as (j & Hj & Ej). rewrite nth_indep with (d' := f 0) in Ej by (rewrite map_length, seq_length; lia). rewrite map_nth, seq_nth in Ej by lia. cbn in Ej.
      destruct (F1 j Hj) as (_ & v & S0). rewrite Ej in S0. exists j, v. apply HS; auto. }
    assert (CN : forall j, j < m0 -> exists i v, i < m0 /\ stored B i j v).
    { intros j Hj. destruct (F1 j Hj) as (Y1 & v & S0). exists (f j), v. split; [auto|]. apply HS; auto. }
    apply (real_complete mdiff mbig rbig rhuge un um ur LN LR symm (po_prescale o) B (um n) (um n) p0 q0 s1 t1 info VB TB ltac:(congruence) ltac:(lia) NB HB MA NZB (REL RN CN) RH).
    exists f. rewrite PB. split; [|auto]. intros j Hj. destruct (F1 j Hj) as (Y1 & v & Y2). split; [auto|]. exists v. apply HS; auto. }
  intros E0.
  (* the permutations map the leading block to itself and meet every row and column *)
  assert (RNG : forall i, i < m0 -> exists j, j < m0 /\ nth i (bp P) 0 = nth j p0 0 /\ nth i (bp Q) 0 = nth j q0 0).
  { intros i Hi. destruct (X7 i Hi) as (j & Hj & Ej). unfold diag_at in Ej. injection Ej as -> ->. eauto. }
  assert (SURJ : forall (pq : nat -> nat), (pq = (fun i => nth i (bp P) 0) \/ pq = (fun i => nth i (bp Q) 0)) -> forall r, r < m0 -> exists i, i < m0 /\ pq i = r).
  { intros pq Hpq r Hr. assert (Y : exists i, i < n /\ pq i = r).
    { destruct Hpq as [->| ->]; [apply is_inv_perm in X2|apply is_inv_perm in X3]; [eapply is_perm_surj; [exact X2|lia]|eapply is_perm_surj; [exact X3|lia]]. }
    destruct Y as (i & Hi & Ei). exists i. split; [|auto]. destruct (Nat.lt_ge_cases i m0) as [H|H]; [auto|]. specialize (X6 i ltac:(lia)). unfold diag_at in X6. injection X6 as Y1 Y2.
    destruct Hpq as [->| ->]; lia. }
  assert (MS : forall j, j < m0 -> nth j p0 0 < m0 /\ exists v, stored B (nth j p0 0) j v).
  { intros j Hj. pose proof (matched_stored MRe KR 1%R Rinv Rmult sqrt exp_opt mdiff mbig (fun x => Some x) (option_map ln) rbig rhuge un um ur symm (po_prescale o) B (um n) (um n) p0 q0 s1 t1 info
      (proj1 VB) TB ltac:(congruence) MA E0 j ltac:(lia)) as Y. rewrite PB in Y. exact Y. }
  assert (SP : forall r, r < m0 -> exists j, j < m0 /\ nth j p0 0 = r).
  { intros r Hr. destruct (SURJ _ (or_introl eq_refl) r Hr) as (i & Hi & Ei). destruct (RNG i Hi) as (j & Hj & Y & _). exists j. split; [auto|]. cbv beta in Ei. congruence. }
  assert (SQ : forall r, r < m0 -> exists j, j < m0 /\ nth j q0 0 = r).
  { intros r Hr. destruct (SURJ _ (or_intror eq_refl) r Hr) as (i & Hi & Ei). destruct (RNG i Hi) as (j & Hj & _ & Y). exists j. split; [auto|]. cbv beta in Ei. congruence. }
  assert (RN : forall i, i < m0 -> exists j v, stored B i j v).
  { intros i Hi. destruct (SP i Hi) as (j & Hj & <-). destruct (MS j Hj) as (_ & v & S0). eauto. }
  assert (CN : forall j, j < m0 -> exists i v, i < m0 /\ stored B i j v).
  { intros j Hj. destruct (MS j Hj) as (Y & v & S0). eauto. }
  destruct (real_matched mdiff mbig rbig rhuge un um ur LN LR symm (po_prescale o) B (um n) (um n) p0 q0 s1 t1 info VB TB ltac:(congruence) ltac:(lia) NB HB MA E0 NZB (REL RN CN))
    as (D & U & POS & BND & ONE & FS & FT).
  rewrite PB in *. cbn [Mag.m0 MRe M mmul T ORe] in *.
  assert (QR : forall j, j < m0 -> nth j q0 0 < m0). { intros j Hj. rewrite QF by auto. destruct symm; [apply MS; auto|auto]. }
  set (Sv := fun i => if symm then sqrt (D i * U i) else D i) in *. set (Tv := fun i => if symm then sqrt (D i * U i) else U i) in *.
  assert (POSV : forall i, i < m0 -> (0 < Sv i)%R /\ (0 < Tv i)%R).
  { intros i Hi. unfold Sv, Tv. destruct (POS i Hi) as (Y1 & Y2). destruct symm; [|auto]. split; apply sqrt_lt_R0, Rmult_lt_0_compat; auto. }
  assert (REP : forall j, j < m0 -> let a := nth j p0 0 in let b := nth j q0 0 in
    nth a s 0%R = Sv a /\ nth b t 0%R = Tv b \/ nth a s 0%R = sqrt (Sv a * Tv b) /\ nth b t 0%R = sqrt (Sv a * Tv b)).
  { intros j Hj a b. specialize (X13 j Hj). fold a in X13. fold b in X13. unfold repaired in X13. cbn [Mag.m0 MRe M mmul] in X13.
    destruct (MS j Hj) as (La & _). pose proof (QR j Hj) as Lb. fold a in La. fold b in Lb. pose proof (FS a La) as EA. pose proof (FT b Lb) as EB.
    rewrite EA, EB in X13. exact X13. }
  assert (KEEP : level <= 1 \/ po_beta o = None -> forall i, i < m0 -> nth i s 0%R = Sv i /\ nth i t 0%R = Tv i).
  { intros LB i Hi. destruct (X11 LB i Hi) as (Y1 & Y2). split; [exact (eq_trans Y1 (FS i Hi))|exact (eq_trans Y2 (FT i Hi))]. }
  split. { intros i Hi. destruct (Nat.lt_ge_cases i m0) as [H|H].
    - assert (PM : forall a b, a < m0 -> b < m0 -> (0 < sqrt (Sv a * Tv b))%R).
      { intros a b Ha Hb. apply sqrt_lt_R0, Rmult_lt_0_compat; [apply (POSV a Ha)|apply (POSV b Hb)]. }
      split.
      + destruct (SP i H) as (j & Hj & Ej). pose proof (QR j Hj) as Lb. destruct (REP j Hj) as [(Y1 & Y2)|(Y1 & Y2)]; rewrite Ej in *; rewrite Y1; [apply POSV; auto|apply PM; auto].
      + destruct (SQ i H) as (j & Hj & Ej). destruct (MS j Hj) as (La & _). destruct (REP j Hj) as [(Y1 & Y2)|(Y1 & Y2)]; rewrite Ej in *; rewrite Y2; [apply POSV; auto|apply PM; auto].
    - destruct (X10 i ltac:(lia)) as (Y1 & Y2). split; [exact (eq_ind_r (fun z => 0 < z)%R Rlt_0_1 Y1)|exact (eq_ind_r (fun z => 0 < z)%R Rlt_0_1 Y2)]. }
  split.
  - intros Es. assert (EV : forall i, Sv i = D i /\ Tv i = U i) by (intros i; unfold Sv, Tv; rewrite Es; auto).
    split.
    + destruct (fin_choice R 0%R m0 (fun k v => stored B (nth k (bp P) 0) (nth k (bp Q) 0) v /\ Rabs (D (nth k (bp P) 0) * v * U (nth k (bp Q) 0)) = 1%R)) as (x & Hx).
      { intros k Hk. destruct (RNG k Hk) as (j & Hj & -> & ->). destruct (ONE j Hj) as (Y1 & v & Y2 & Y3). exists v. rewrite (QF j Hj), Es. auto. }
      exists x. split.
      * intros k Hk. destruct (Hx k Hk) as (Y1 & Y2). destruct (RNG k Hk) as (j & Hj & EP1 & EQ1). destruct (MS j Hj) as (La & _). split. { rewrite EP1 in *. apply HS in Y1; auto. apply Y1. }
        destruct (REP j Hj) as [(Z1 & Z2)|(Z1 & Z2)]; rewrite EP1, EQ1, Z1, Z2; rewrite EP1, EQ1 in Y2; destruct (EV (nth j p0 0)) as (-> & _); destruct (EV (nth j q0 0)) as (_ & ->); [exact Y2|].
        destruct (POS _ La) as (W1 & _). destruct (POS _ (QR j Hj)) as (_ & W2).
        replace (sqrt (D (nth j p0 0%nat) * U (nth j q0 0%nat)) * x k * sqrt (D (nth j p0 0%nat) * U (nth j q0 0%nat)))%R
          with ((sqrt (D (nth j p0 0%nat) * U (nth j q0 0%nat)) * sqrt (D (nth j p0 0%nat) * U (nth j q0 0%nat))) * x k)%R by ring.
        rewrite sqrt_sqrt by (left; apply Rmult_lt_0_compat; auto). rewrite <- Y2. f_equal. ring.
      * intros f w Hf If. apply (prod_maximal m0 (stored B) D U (fun k => nth k (bp P) 0) (fun k => nth k (bp Q) 0) x POS) with (f := f); auto.
        -- intros k Hk. destruct (RNG k Hk) as (j & Hj & -> & ->). split; [apply MS; auto|auto].
        -- intros i j Hi Hj. apply is_inv_perm in X2. apply X2; lia.
        -- intros i j Hi Hj. apply is_inv_perm in X3. apply X3; lia.
        -- intros k Hk. apply Hx. auto.
        -- intros j Hj. destruct (Hf j Hj) as (Y1 & Y2). split; [auto|]. apply HS; auto.
    + intros LB i j v Hi Hj S0. destruct (KEEP LB i Hi) as (-> & _). destruct (KEEP LB j Hj) as (_ & ->). destruct (EV i) as (-> & _). destruct (EV j) as (_ & ->). apply BND; auto. apply HS; auto.
  - intros Es SY i j v Hi Hj S0. destruct (SY i j v Hi Hj S0) as (v' & S1 & EV).
    assert (DU : forall i, i < m0 -> nth i s 0%R = sqrt (D i * U i) /\ nth i t 0%R = sqrt (D i * U i)).
    { intros k Hk. destruct (SP k Hk) as (l & Hl & El). pose proof (REP l Hl) as Y. rewrite (QF l Hl), Es, El in Y. cbv zeta in Y. unfold Sv, Tv in Y. rewrite Es in Y.
      rewrite sqrt_square in Y by apply sqrt_pos. tauto. }
    destruct (DU i Hi) as (-> & _). destruct (DU j Hj) as (_ & ->).
    pose proof (BND i j v Hi ltac:(apply HS; auto)) as Z1. pose proof (BND j i v' Hj ltac:(apply HS; auto)) as Z2.
    destruct (POS i Hi) as (D1 & U1). destruct (POS j Hj) as (D2 & U2).
    rewrite !Rabs_mult in Z1, Z2. rewrite (Rabs_pos_eq (D i)), (Rabs_pos_eq (U j)) in Z1 by (left; assumption). rewrite (Rabs_pos_eq (D j)), (Rabs_pos_eq (U i)) in Z2 by (left; assumption). rewrite EV in Z2.
    rewrite !Rabs_mult, !(Rabs_pos_eq (sqrt _)) by apply sqrt_pos. set (a := Rabs v) in *. assert (A0 : (0 <= a)%R) by apply Rabs_pos.
    replace (sqrt (D i * U i) * a * sqrt (D j * U j))%R with (sqrt ((D i * a * U j) * (D j * a * U i)))%R.
    + rewrite <- sqrt_1. apply sqrt_le_1_alt. replace 1%R with (1 * 1)%R by lra. apply Rmult_le_compat; [| |exact Z1|exact Z2]; repeat apply Rmult_le_pos; solve [left; assumption|assumption].
    + replace (D i * a * U j * (D j * a * U i))%R with ((D i * U i) * (D j * U j) * (a * a))%R by ring.
      rewrite sqrt_mult, sqrt_mult, sqrt_square by (repeat apply Rmult_le_pos; solve [left; assumption|assumption]). ring.
Qed.
Print Assumptions C57_scaling_partial.

(** ** Cases *)
Definition pe_start := [0; 3; 5; 7; 8; 9].
Definition pe_ind := [0; 1; 4; 1; 3; 2; 3; 0; 4].
Definition pe_cstart := [0; 2; 4; 5; 7; 9].
Definition pe_cind := [0; 3; 0; 1; 2; 1; 2; 0; 4].
(** A general matrix by rows and by columns.  The only entry of column 2 is tiny compared with
    the other entry of its row. *)
Definition pe_crs : CS OQ := @mkCS OQ 5 5 pe_start pe_ind [qz 4; qz 8; qz 3; qz 8; qz 16; Q2Qc (1 # 1000); qz 16; qz 16; qz 1].
Definition pe_ccs : CS OQ := @mkCS OQ 5 5 pe_cstart pe_cind [qz 4; qz 16; qz 8; qz 8; Q2Qc (1 # 1000); qz 16; qz 16; qz 3; qz 1].
(** Logarithms to base 2, rounded. *)
Definition qmag (x : Qc) : option Z := Some ((Qnum x * 1024) / Zpos (Qden x))%Z.
Definition q2pow (x : option Z) : Qc :=
  match x with Some z => if (0 <=? z)%Z then qz (2 ^ z) else Qcinv (qz (2 ^ (- z))) | None => qz 0 end.
Definition prep_q (symm : bool) (A A_crs : CS OQ) (m0 level : nat) (o : popts Qc) :=
  do_preprocessing MQ KZ (qz 1) (Q2Qc (1 # 100)) Qcinv Qcmult (fun x => x) q2pow (fun x => x) (fun _ => true) qmag (option_map Z.log2)
    (fun _ => None) None (fun k => repeat 77 k) (fun k => repeat (qz 5) k) (fun k => repeat None k) 9 (qz 9) (fun _ _ k => seq 0 k) symm A A_crs m0 level o.

Lemma seq_perm : forall k, is_perm k (seq 0 k).
Proof. intros k. split; [apply seq_length|]. split; intros i; intros; rewrite !seq_nth in * by lia; lia. Qed.

(** The hypotheses of [C57_preprocessing_partial] hold for it with leading block 4, and the run
    defers the tiny diagonal. *)
Example C57_hyps : MagLaws MQ /\ valid pe_ccs /\ valid pe_crs /\ tight pe_crs /\
  (exists i j v, i < 4 /\ j < 4 /\ stored pe_crs i j v) /\ (forall i, i < 4 -> 2 * length (lead_row pe_crs 4 i) <= 4 + 1) /\
  (forall (start ind : list nat) k, is_perm k (seq 0 k)) /\ ~ rcm_used false (mkPO REORDER_AUTO 0 (None : option Qc)).
Proof.
  split; [exact MQ_laws|]. split; [split; [apply wfb_wf|apply sortedb_sorted]; vm_compute; reflexivity|].
  split; [split; [apply wfb_wf|apply sortedb_sorted]; vm_compute; reflexivity|]. split; [apply tightb_tight; vm_compute; reflexivity|].
  split. { exists 0, 0, (qz 4). split; [lia|]. split; [lia|]. left. reflexivity. }
  split. { intros i Hi. do 4 (destruct i as [|i]; [vm_compute; lia|]). lia. }
  split; [intros; apply seq_perm|]. intros [H|(_ & H)]; discriminate H.
Qed.
Definition prep_perms {X Y Z} (r : res (X * Y * Z * BiPerm * BiPerm * nat)) : option (X * (list nat * list nat) * nat) :=
  match r with Ok (m, _, _, P, Q, info) => Some (m, (bp P, bp Q), info) | _ => None end.
Example C57_run : prep_perms (prep_q false pe_ccs pe_crs 4 1 (mkPO REORDER_AUTO 0 None)) = Some (3, ([3; 0; 1; 2; 4], [0; 1; 3; 2; 4]), 0).
Proof. vm_compute. reflexivity. Qed.
(** With the other two a priori scalings, the same permutations. *)
Example C57_run_scaled : prep_perms (prep_q false pe_ccs pe_crs 4 2 (mkPO REORDER_AMD 1 (Some (qz 2)))) = Some (3, ([3; 0; 1; 2; 4], [0; 1; 3; 2; 4]), 0) /\
  prep_perms (prep_q false pe_ccs pe_crs 4 1 (mkPO REORDER_OFF 2 None)) = Some (3, ([3; 0; 1; 2; 4], [0; 1; 3; 2; 4]), 0).
Proof. split; vm_compute; reflexivity. Qed.
Example C57_run_rejected : prep_q false pe_ccs pe_crs 4 1 (mkPO REORDER_NULL 0 None) = Err /\ prep_q false pe_ccs pe_crs 0 1 (mkPO REORDER_AUTO 0 None) = Err.
Proof. split; vm_compute; reflexivity. Qed.

(** A symmetric matrix (a path through 0 - 3 - 1 - 4 - 2 with a dominant diagonal), RCM. *)
Definition ps_A : CS OQ := @mkCS OQ 5 5 [0; 2; 5; 7; 10; 13] [0; 3; 1; 3; 4; 2; 4; 0; 1; 3; 1; 2; 4]
  [qz 8; qz 1; qz 8; qz 1; qz 1; qz 8; qz 1; qz 1; qz 1; qz 8; qz 1; qz 1; qz 8].
Example C57_run_symmetric : prep_perms (prep_q true ps_A ps_A 5 1 (mkPO REORDER_RCM 0 None)) = Some (5, ([2; 4; 1; 3; 0], [2; 4; 1; 3; 0]), 0).
Proof. vm_compute. reflexivity. Qed.

(** The real case: the same general matrix. *)
Definition pr_crs : CS ORe := @mkCS ORe 5 5 pe_start pe_ind [4; 8; 3; 8; 16; (1 / 1000); 16; 16; 1]%R.
Definition pr_ccs : CS ORe := @mkCS ORe 5 5 pe_cstart pe_cind [4; 16; 8; 8; (1 / 1000); 16; 16; 3; 1]%R.
Example C57_real_case : exists m s t P Q,
  prep_real (1 / 100)%R (fun x => x) (fun _ => true) (fun _ => None) None (fun k => repeat 77 k) (fun k => repeat 5%R k) (fun k => repeat None k) 9 9%R
    (fun _ _ k => seq 0 k) false pr_ccs pr_crs 4 1 (mkPO REORDER_AUTO 2 None) = Ok (m, s, t, P, Q, 0) /\
  (Rabs (nth 2 s 0%R * 16 * nth 3 t 0%R) <= 1)%R.
Proof.
  destruct (C57_scaling_partial (1 / 100)%R (fun x => x) (fun _ => true) (fun _ => None) None (fun k => repeat 77 k) (fun k => repeat 5%R k) (fun k => repeat None k) 9 9%R
    (fun _ _ k => seq 0 k) false pr_ccs pr_crs 5 4 1 (mkPO REORDER_AUTO 2 None)) as (m & s & t & P & Q & info & E & X1 & X2).
  1-3: intros; apply repeat_length.
  - intros; apply seq_perm.
  - split; [apply wfb_wf|apply sortedb_sorted]; reflexivity.
  - split; [apply wfb_wf|apply sortedb_sorted]; reflexivity.
  - apply tightb_tight. reflexivity.
  - auto.
  - lia.
  - lia.
  - exists 0, 0, 4%R. split; [lia|]. split; [lia|]. left. reflexivity.
  - intros i Hi. do 4 (destruct i as [|i]; [cbn; lia|]). lia.
  - cbn. unfold REORDER_AUTO, REORDER_NULL. lia.
  - intros [H|(_ & H)]; discriminate H.
  - intros i j v Hi Hj Hv. do 4 (destruct i as [|i]; [cbn in Hv; repeat (destruct Hv as [Hv|Hv]; [injection Hv as <- <-; cbn; lra|]); contradiction|]). lia.
  - assert (E0 : info = 0).
    { apply X1; [reflexivity|]. exists (fun j => nth j [3; 0; 2; 1] 0). split.
      - intros j Hj. do 4 (destruct j as [|j]; [cbn; split; [lia|]; eexists; cbn; eauto 10|]). lia.
      - intros j j' Hj Hj'. do 4 (destruct j as [|j]; [do 4 (destruct j' as [|j']; [cbn; intros; congruence|]); lia|]). lia. }
    subst info. exists m, s, t, P, Q. split; [exact E|]. destruct (X2 eq_refl) as (_ & Y & _). apply (proj2 (Y eq_refl) (or_introl (le_n 1)) 2 3 16%R); [lia|lia|]. right. left. reflexivity.
Qed.
