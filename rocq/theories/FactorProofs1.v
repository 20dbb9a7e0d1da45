(** * FactorProofs1: sizes, splitting and the Schur complement of one level. *)
From Coq Require Import List Arith Lia Bool Permutation.
From Verif Require Import Base Scalar Spec CSModel CSSpec ConvModel ConvSpec BucketProofs ConvProofs ConvProofs2
  ConvProofs3 ConvProofs4 Mag VecModel VecSpec VecProofs PruneModel CroutModel CroutSpec CroutProofs3 CroutProofs9
  SchurModel SchurSpec SchurProofs3 PrecModel FactorModel FactorSpec PropConv PropSchur.
Import ListNotations.

Section P.
  Context {O : Ops}.
  Notation T := (T O).

  Lemma factor_tight : forall n m (A : CS O) s, factor_ok n m A s -> tight A.
  Proof. intros n m A s (_ & P & _ & _ & A1 & A2 & A3 & _). unfold tight. rewrite P. auto. Qed.
  Lemma factor_splits : forall n m (A : CS O) s, factor_ok n m A s -> forall i, i < psize A -> splits O A m i (nth i s 0).
  Proof.
    intros n m A s (_ & P & _ & _ & _ & _ & _ & H) i Hi. rewrite P in Hi. destruct (H i Hi) as (H1 & H2).
    split; auto. split; intros k Hk.
    - apply H2; lia.
    - destruct (Nat.lt_ge_cases (ix A k) m); auto. apply H2 in H0; lia.
  Qed.

  (** Row or column sizes *)
  Lemma first_sizes_l : forall lower (A : CS O), wf A ->
    exists rs, first_sizes lower A = Ok rs /\ length rs = psize A /\
      forall i, i < psize A -> nth i rs 0 = Nat.max lower (st A (S i) - st A i).
  Proof.
    intros lower A W. apply wp_inv. unfold first_sizes. pose proof (wf_len O A W) as L. eapply wp_conseq.
    { apply (for_range_inv _ (fun i (rs : list nat) => length rs = psize A /\
        forall k, k < i -> nth k rs 0 = Nat.max lower (st A (S k) - st A k))); [lia| |].
      - rewrite repeat_length. split; auto. intros; lia.
      - intros i rs Hi (Lr & Hr). wpb. apply wp_get with (d := 0); [lia|]. wpb. apply wp_get with (d := 0); [lia|].
        fold (st A i) (st A (S i)). apply wp_set; [lia|]. rewrite upd_length. split; auto. intros k Hk. rewrite nth_upd by lia.
        destruct (Nat.eqb_spec k i); [subst|apply Hr; lia]. destruct (Nat.ltb_spec (st A (S i) - st A i) lower); lia. }
    cbn beta. intros rs (H1 & H2). auto.
  Qed.

  Lemma ref_sizes_l : forall m n p sizes buf, m <= n -> is_perm n p -> n <= length sizes -> n - m < length buf ->
    exists R, ref_sizes m n p sizes buf = Ok R /\ length R = length buf /\
      forall i, i < n - m -> nth (S i) R 0 = nth i R 0 + nth (nth (m + i) p 0) sizes 0.
  Proof.
    intros m n p sizes buf Hm (Lp & Pr & _) Ls Lb. apply wp_inv. unfold ref_sizes. wpb. apply wp_set; [lia|]. eapply wp_conseq.
    { apply (for_range_inv _ (fun k (R : list nat) => length R = length buf /\
        forall i, i < k - m -> nth (S i) R 0 = nth i R 0 + nth (nth (m + i) p 0) sizes 0)); [lia| |].
      - rewrite upd_length. split; auto. intros; lia.
      - intros k R Hk (L1 & HR). wpb. apply wp_get with (d := 0); [lia|]. wpb. apply wp_get with (d := 0); [lia|].
        specialize (Pr k ltac:(lia)). wpb. apply wp_get with (d := 0); [lia|]. apply wp_set; [lia|]. rewrite upd_length. split; auto.
        intros i Hi. rewrite !nth_upd by lia. destruct (Nat.eqb_spec (S i) (k - m + 1)).
        + assert (i = k - m) by lia. destruct (Nat.eqb_spec i (k - m + 1)); [lia|]. rewrite H. replace (m + (k - m)) with k by lia. auto.
        + destruct (Nat.eqb_spec i (k - m + 1)); [lia|]. apply HR. lia. }
    cbn beta. intros R (H1 & H2). auto.
  Qed.

  Lemma next_sizes_l : forall m n p sizes buf, m <= n -> is_perm n p -> n <= length sizes -> n <= length buf ->
    exists R, next_sizes m n p sizes buf = Ok R /\ length R = length sizes /\
      forall i, i < n - m -> nth i R 0 = nth (nth (m + i) p 0) sizes 0.
  Proof.
    intros m n p sizes buf Hm (Lp & Pr & _) Ls Lb. apply wp_inv. unfold next_sizes. wpb. eapply wp_conseq.
    { apply (for_range_inv _ (fun k (R : list nat) => length R = length buf /\
        forall i, m <= i < k -> nth i R 0 = nth (nth i p 0) sizes 0)); [lia| |].
      - split; auto. intros; lia.
      - intros k R Hk (L1 & HR). wpb. apply wp_get with (d := 0); [lia|]. 
        specialize (Pr k ltac:(lia)). wpb. apply wp_get with (d := 0); [lia|]. apply wp_set; [lia|]. rewrite upd_length. split; auto.
        intros i Hi. rewrite !nth_upd by lia. destruct (Nat.eqb_spec i k); [now subst|]. apply HR. lia. }
    cbn beta. intros b2 (Lb2 & Hb2). eapply wp_conseq.
    { apply (for_range_inv _ (fun k (R : list nat) => length R = length sizes /\
        forall i, i < k - m -> nth i R 0 = nth (m + i) b2 0)); [lia| |].
      - split; auto. intros; lia.
      - intros k R Hk (L1 & HR). wpb. apply wp_get with (d := 0); [lia|]. apply wp_set; [lia|]. rewrite upd_length. split; auto.
        intros i Hi. rewrite !nth_upd by lia. destruct (Nat.eqb_spec i (k - m)); [subst; f_equal; lia|]. apply HR. lia. }
    cbn beta. intros R (H1 & H2). split; auto. intros i Hi. rewrite H2 by lia. apply Hb2. lia.
  Qed.

  (** Splitting into the other storage *)
  Lemma split_dual_at_l : forall ji jv (second : bool) n m (A : CS O) start, factor_ok n m A start -> m <= n -> m <= length start ->
    exists B, split_dual_at ji jv second m A start = Ok B /\
      is_storage B (if second then n - m else m) m
        (fun j i v => i < m /\ if second then stored A i (m + j) v else stored A i j v /\ j < m).
  Proof.
    intros ji jv second n m A start F Hm Hl. pose proof F as (V & P & S & _). unfold split_dual_at.
    destruct (Nat.ltb_spec (ssize A) m); [lia|]. destruct (Nat.ltb_spec (length start) (psize A)); [lia|].
    destruct (C10_dual_start_l O second m A start ji jv V (factor_tight _ _ _ _ F) ltac:(lia) ltac:(lia) (factor_splits _ _ _ _ F)) as (B & E & H1).
    exists B. split; auto. rewrite P, S in H1. exact H1.
  Qed.

  (** Dropping with a generous limit keeps every entry. *)
  Lemma nodup_bound : forall (A : CS O) i, wf A -> distinct A -> i < psize A -> length (rowl A i) <= ssize A.
  Proof.
    intros A i W D Hi. rewrite <- (map_length fst). rewrite <- (seq_length (ssize A) 0).
    apply NoDup_incl_length; [now apply D|]. intros x Hx. apply in_map_iff in Hx. destruct Hx as (e & <- & He).
    apply in_seq. pose proof (wf_rowl_range O A W i e Hi He). lia.
  Qed.
  Lemma kept_all : forall G lim (A B : CS O), wf A -> distinct A -> largest_kept G lim A B ->
    (forall i, i < psize A -> ssize A <= lim i) -> forall i j v, i < psize A -> (stored B i j v <-> stored A i j v).
  Proof.
    intros G lim A B W D (_ & _ & K) HL i j v Hi. destruct (K i Hi) as (dr & P & Ln & _).
    pose proof (nodup_bound A i W D Hi). specialize (HL i Hi).
    assert (dr = []). { apply Permutation_length in P. rewrite app_length in P. apply length_zero_iff_nil. lia. }
    rewrite H0, app_nil_r in P. unfold stored. split; intros Hs; [apply (Permutation_in _ (Permutation_sym P))|apply (Permutation_in _ P)]; auto.
  Qed.

  (** ** Blocks and Schur complement *)
  Variable G : Mag O.
  Variable times : M G -> nat -> M G.
  Variable ceil_mul : M G -> nat -> nat.
  Variable nth_el : (nat -> M G) -> nat -> list nat -> list nat.
  Variable opts : HOpts G.
  Variable junkT : nat -> nat -> nat -> T.
  Variable junkN : nat -> nat -> nat -> nat.
  Variables (ji : nat) (jv : T).
  Hypothesis NE : nth_element_ok (mle G) nth_el.

  Notation aL := (aL G times opts). Notation aU := (aU G times opts).
  Notation ceil_pos := (ceil_pos G ceil_mul). Notation generous := (generous G ceil_mul).
  Lemma jarrN_len : forall l a k, length (jarrN junkN l a k) = k.
  Proof. intros. unfold jarrN. now rewrite map_length, seq_length. Qed.
  Lemma jarrT_len : forall l a k, length (jarrT junkT l a k) = k.
  Proof. intros. unfold jarrT. now rewrite map_length, seq_length. Qed.

  Lemma build_blocks_l : forall (piv : bool) lvl n m s t (A : CS O) (r : CRout O) rs cs,
    valid A -> psize A = n -> ssize A = n -> length s = n -> length t = n -> m <= n -> 1 <= n ->
    is_inv n (bp (o_p r)) (bpi (o_p r)) -> is_inv n (bp (o_q r)) (bpi (o_q r)) ->
    factor_ok n m (o_L r) (o_Ls r) -> factor_ok n m (o_U r) (o_Us r) -> m <= length (o_Ls r) -> m <= length (o_Us r) ->
    m <= length (o_d r) -> idle (n * 2) (S m) (o_l r) -> idle (n * 2) (S m) (o_u r) ->
    n <= length rs -> n <= length cs -> (forall i, i < n -> 1 <= nth i rs 0) -> (forall i, i < n -> 1 <= nth i cs 0) ->
    ceil_pos (aL piv lvl) -> ceil_pos (aU piv lvl) ->
    exists L_B U_B Sc, build_blocks G times ceil_mul nth_el opts junkT junkN ji jv piv lvl n m s t A r rs cs = Ok (L_B, U_B, Sc) /\
      is_storage L_B m m (fun c i v => stored (o_L r) c i v /\ i < m) /\
      is_storage U_B m m (fun j c v => c < m /\ stored (o_U r) c j v /\ j < m) /\
      (m = n -> Sc = mkCS 0 0 [] [] []) /\
      (m < n -> valid Sc /\ tight Sc /\ psize Sc = n - m /\ ssize Sc = n - m /\
        (RingLaws O -> generous n (aL piv lvl) -> generous n (aU piv lvl) -> forall i j, i < n - m -> j < n - m ->
          crs_mat Sc i j = schur_of (fun i j => pscaled s t (crs_mat A) (bp (o_p r)) (bp (o_q r)) (m + i) (m + j)) m
            (fun i c => ccs_mat (o_L r) (m + i) c) (o_d r) (fun c j => crs_mat (o_U r) c (m + j)) i j)).
  Proof.
    intros piv lvl n m s t A r rs cs V Pn Sn Ls Lt Hm Hn Ip Iq FL FU HLs HUs Hd IL IU Lrs Lcs Prs Pcs CL CU.
    destruct (split_dual_at_l ji jv true n m _ _ FL Hm HLs) as (L_E & E1 & (VE & TE & PE & SE & HE)).
    assert (X : exists B, split_at O false m (o_L r) (o_Ls r) ji jv = Ok B /\ is_storage B m m (fun c i v => stored (o_L r) c i v /\ i < m)).
    { pose proof FL as (VL & PL & SL & _).
      destruct (C10_split_at_l O false m (o_L r) (o_Ls r) ji jv VL (factor_tight _ _ _ _ FL) ltac:(lia) ltac:(lia) (factor_splits _ _ _ _ FL)) as (B & E & HB).
      exists B. split; auto. rewrite PL in HB. exact HB. }
    destruct X as (L_B & E2 & HLB).
    destruct (split_dual_at_l ji jv true n m _ _ FU Hm HUs) as (U_F2 & E3 & (VF & TF & PF & SF & HF)).
    destruct (split_dual_at_l ji jv false n m _ _ FU Hm HUs) as (U_B & E4 & HUB). cbn [negb] in *.
    unfold build_blocks. rewrite E1, E2, E3, E4. cbn [bind]. cbv zeta. fold (offset_factor G times opts (h_alpha_L G opts) piv lvl) (offset_factor G times opts (h_alpha_U G opts) piv lvl). fold aL aU.
    assert (DD : exists L_E' U_F2', (if m <? n then
        P <- ref_sizes m n (bp (o_p r)) rs (jarrN junkN lvl 0 (n * 2)) ;;
        Q <- ref_sizes m n (bp (o_q r)) cs (jarrN junkN lvl 1 (n * 2)) ;;
        L_E <- drop_block G ceil_mul nth_el P (aL piv lvl) L_E (sv_vals (o_l r)) (sv_inds (o_l r)) ;;
        U_F2 <- drop_block G ceil_mul nth_el Q (aU piv lvl) U_F2 (sv_vals (o_u r)) (sv_inds (o_u r)) ;;
        Ok (L_E, U_F2)
      else Ok (L_E, U_F2)) = Ok (L_E', U_F2') /\
      wf L_E' /\ tight L_E' /\ distinct L_E' /\ psize L_E' = n - m /\ ssize L_E' = m /\
      wf U_F2' /\ tight U_F2' /\ distinct U_F2' /\ psize U_F2' = n - m /\ ssize U_F2' = m /\
      (generous n (aL piv lvl) -> generous n (aU piv lvl) -> forall i j v, i < n - m ->
        (stored L_E' i j v <-> stored L_E i j v) /\ (stored U_F2' i j v <-> stored U_F2 i j v))).
    { destruct (Nat.ltb_spec m n) as [Hlt|Hge].
      - destruct (ref_sizes_l m n (bp (o_p r)) rs (jarrN junkN lvl 0 (n * 2)) Hm (is_inv_perm _ _ _ Ip) Lrs ltac:(rewrite jarrN_len; lia)) as (P & EP & LP & HP).
        destruct (ref_sizes_l m n (bp (o_q r)) cs (jarrN junkN lvl 1 (n * 2)) Hm (is_inv_perm _ _ _ Iq) Lcs ltac:(rewrite jarrN_len; lia)) as (Q & EQ & LQ & HQ).
        rewrite jarrN_len in LP, LQ. rewrite EP, EQ. cbn [bind].
        destruct IL as (OL & _). destruct IU as (OU & _).
        assert (Ppos : forall i, i < n - m -> 1 <= nth (S i) P 0 - nth i P 0).
        { intros i Hi. rewrite HP by auto. destruct Ip as (_ & _ & I1 & _). pose proof (Prs _ (proj1 (I1 (m + i) ltac:(lia)))). lia. }
        assert (Qpos : forall i, i < n - m -> 1 <= nth (S i) Q 0 - nth i Q 0).
        { intros i Hi. rewrite HQ by auto. destruct Iq as (_ & _ & I1 & _). pose proof (Pcs _ (proj1 (I1 (m + i) ltac:(lia)))). lia. }
        assert (DE : distinct L_E) by (apply sorted_distinct; apply VE).
        assert (DF : distinct U_F2) by (apply sorted_distinct; apply VF).
        destruct (C37_largest_kept O G ceil_mul nth_el P (aL piv lvl) L_E (sv_vals (o_l r)) (sv_inds (o_l r)) NE) as (L' & EL & W1 & T1 & D1 & K1); auto.
        { apply VE. } { apply TE. } { rewrite PE. lia. }
        { intros i Hi. rewrite PE in Hi. rewrite HP by auto. lia. }
        { intros Ha i Hi _. rewrite PE in Hi. apply CL; auto. }
        { rewrite SE, (so_vals _ _ OL). lia. } { rewrite PE, (so_inds _ _ OL). lia. }
        destruct (C37_largest_kept O G ceil_mul nth_el Q (aU piv lvl) U_F2 (sv_vals (o_u r)) (sv_inds (o_u r)) NE) as (U' & EU & W2 & T2 & D2 & K2); auto.
        { apply VF. } { apply TF. } { rewrite PF. lia. }
        { intros i Hi. rewrite PF in Hi. rewrite HQ by auto. lia. }
        { intros Ha i Hi _. rewrite PF in Hi. apply CU; auto. }
        { rewrite SF, (so_vals _ _ OU). lia. } { rewrite PF, (so_inds _ _ OU). lia. }
        exists L', U'. rewrite EL, EU. cbn [bind]. split; auto. pose proof K1 as (KP1 & KS1 & _). pose proof K2 as (KP2 & KS2 & _).
        do 3 (split; [assumption|]). split; [congruence|]. split; [congruence|]. do 3 (split; [assumption|]). split; [congruence|]. split; [congruence|].
        intros (GL0 & GL) (GU0 & GU) i j v Hi. split.
        + apply (kept_all G _ L_E L'  (proj1 VE) DE K1); [|lia]. intros k Hk. rewrite GL0. rewrite PE in Hk. specialize (Ppos k Hk). specialize (GL _ Ppos). lia.
        + apply (kept_all G _ U_F2 U'  (proj1 VF) DF K2); [|lia]. intros k Hk. rewrite GU0. rewrite PF in Hk. specialize (Qpos k Hk). specialize (GU _ Qpos). lia.
      - exists L_E, U_F2. split; auto. split; [apply VE|]. split; auto. split; [apply sorted_distinct, VE|]. split; auto. split; auto.
        split; [apply VF|]. split; auto. split; [apply sorted_distinct, VF|]. split; auto. split; auto. intros _ _ i j v Hi. lia. }
    destruct DD as (L' & U' & ED & WL & TL & DL & PL & SL & WU & TU & DU & PU & SU & KK). rewrite ED. cbn [bind].
    destruct (C04_conversion_keeps_entries O U' ji jv WU TU) as (U_F & E5 & WF & TF' & PF' & SF' & _ & HST & HSO & _).
    rewrite E5. cbn [bind].
    set (l := scratched (o_l r) (jarrN junkN lvl 2 (n * 2)) (jarrT junkT lvl 2 (n * 2))).
    destruct (Nat.eq_dec m n) as [Em|Nm].
    { destruct (C36_nothing_left O n s t (o_d r) A (bp (o_p r)) (bpi (o_q r)) L' U_F l (jarrT junkT lvl 3 (n * 2)) ji jv Pn) as (Sc & E6 & _).
      assert (E7 : compute_schur s t (o_d r) A (bp (o_p r)) (bpi (o_q r)) m L' U_F l (jarrT junkT lvl 3 (n * 2)) ji jv = Ok (mkCS 0 0 [] [] [])).
      { unfold compute_schur. rewrite Pn, Em, Nat.eqb_refl. auto. }
      rewrite E7. cbn [bind]. exists L_B, U_B, (mkCS 0 0 [] [] []). split; auto. split; auto. split; auto. split; auto. intros; lia. }
    assert (Ol : sv_ok (n * 2) l).
    { destruct IL as (OL & _). destruct OL. unfold l, scratched. constructor; cbn [sv_vals sv_inds sv_cnt sv_dtags sv_stags]; auto.
      - apply jarrT_len. - apply jarrN_len. - lia. - constructor. - intros i []. }
    destruct (C36_schur O n m s t (o_d r) A (bp (o_p r)) (bp (o_q r)) (bpi (o_q r)) L' U_F (n * 2) l (jarrT junkT lvl 3 (n * 2)) ji jv) as (Sc & E6 & VS & TS & PS & SS & _ & HS); auto; try lia.
    { now apply is_inv_perm in Ip. }
    { intros i k Hk. destruct IL as (OL & HT). unfold l, scratched in Hk. cbn [sv_dtags] in Hk.
      destruct (Nat.lt_ge_cases i (n * 2)) as [Hi|Hi].
      - specialize (HT i k Hi Hk). lia.
      - rewrite nth_overflow in Hk by (rewrite (so_tags _ _ OL); lia). discriminate. }
    { rewrite jarrT_len. lia. }
    rewrite E6. cbn [bind]. exists L_B, U_B, Sc. split; auto. split; auto. split; auto. split; [intros; lia|].
    intros Hlt. do 4 (split; [assumption|]). intros RL GL GU i j Hi Hj. rewrite HS by auto. unfold schur_of. f_equal.
    apply sum_ext. intros c Hc.
    assert (NL : NoDup (map fst (rowl L' i))) by (apply DL; lia).
    assert (NU : NoDup (map fst (rowl U_F c))) by (apply sorted_distinct; [apply HSO; auto|lia]).
    f_equal; [f_equal|].
    - unfold crs_mat, ccs_mat. apply (ent_same O RL); auto. { apply valid_nodup; [apply FL|]. destruct FL as (_ & ? & _). lia. }
      intros v. rewrite (proj1 (KK GL GU i c v Hi)), HE by auto. split; [tauto|]. intros; split; auto.
    - unfold crs_mat. apply (ent_same O RL); auto. { apply valid_nodup; [apply FU|]. destruct FU as (_ & ? & _). lia. }
      intros v. rewrite HST by lia. rewrite (proj2 (KK GL GU j c v Hj)), HF by auto. split; [tauto|]. intros; split; auto.
  Qed.
End P.
