(** * SymmProofs3: blocks, Schur complement and the finished symmetric level. *)
From Coq Require Import List Arith Lia Bool Permutation.
From Verif Require Import Base Scalar Spec CSModel CSSpec CSProofs ConvModel ConvSpec BucketProofs ConvProofs ConvProofs2
  ConvProofs3 ConvProofs4 Mag VecModel VecSpec VecProofs PruneModel CroutModel CroutSpec CroutProofs3 CroutProofs9
  SchurModel SchurSpec SchurProofs3 PrecModel PrecSpec LevelMath LinAlg PrecProofs FactorModel FactorSpec PropConv PropVec PropSchur
  FactorProofs1 FactorProofs2 FactorProofs3 SymmModel.
Import ListNotations.

Section P.
  Context {O : Ops}.
  Notation T := (T O).
  Variable G : Mag O.
  Variable times : M G -> nat -> M G.
  Variable ceil_mul : M G -> nat -> nat.
  Variable nth_el : (nat -> M G) -> nat -> list nat -> list nat.
  Variable opts : HOpts G.
  Variable go_dense : nat -> nat -> nat -> bool.
  Variable mk_symm : nat -> list T -> Dense O.
  Variable junkT : nat -> nat -> nat -> T.
  Variable junkN : nat -> nat -> nat -> nat.
  Variables (ji : nat) (jv : T).
  Hypothesis NE : nth_element_ok (mle G) nth_el.
  Notation aL := (aL G times opts).
  Notation ceil_pos := (ceil_pos G ceil_mul). Notation generous := (generous G ceil_mul).

  (** The conjugate transpose in the same storage. *)
  Lemma adjoint_storage_l : forall A : CS O, wf A -> tight A -> distinct A ->
    exists B, adjoint_storage ji jv A = Ok B /\ valid B /\ tight B /\ psize B = ssize A /\ ssize B = psize A /\
      forall i j v, i < psize A -> j < ssize A -> (stored B j i v <-> exists w, v = tconj O w /\ stored A i j w).
  Proof.
    intros A W Ti Di. destruct (C04_conversion_keeps_entries O A ji jv W Ti) as (B & E & WB & TB & PB & SB & _ & HS & SO & _).
    specialize (SO Di). unfold adjoint_storage. rewrite E. cbn [bind]. eexists. split; [reflexivity|].
    set (C := mkCS _ _ _ _ _).
    split; [|split; [|split; [exact PB|split; [exact SB|]]]].
    - destruct WB. split; [split|]; cbn [psize ssize ind_start indices vals C]; auto. rewrite map_length. exact wf_vals.
    - destruct TB as (T1 & T2 & T3). split; [exact T1|]. split; [exact T2|]. cbn [vals C]. rewrite map_length. exact T3.
    - intros i j v Hi Hj.
      assert (VC : forall k, k < st B (S j) -> vl C k = tconj O (vl B k)).
      { intros k Hk. unfold vl, C. cbn [vals]. assert (k < length (vals B)). { pose proof (st_mono O B WB (S j) (psize B) ltac:(lia) ltac:(lia)). pose proof (wf_vals _ _ WB). lia. }
        rewrite (nth_indep _ (t0 O) (tconj O (t0 O))) by (rewrite map_length; auto). apply map_nth. }
      unfold stored at 1. rewrite rowl_in. change (st C j) with (st B j). change (st C (S j)) with (st B (S j)). split.
      + intros (k & Hk & E1 & E2). exists (vl B k). split; [rewrite <- E2; apply VC; lia|]. apply HS; auto. unfold stored. apply rowl_in. exists k. split; auto.
      + intros (w & -> & Hw). apply HS in Hw; auto. unfold stored in Hw. apply rowl_in in Hw. destruct Hw as (k & Hk & E1 & E2).
        exists k. split; auto. split; [exact E1|]. rewrite VC by lia. congruence.
  Qed.

  Lemma symm_blocks_l : forall lvl n m s t (A : CS O) (r : CRout O) rs,
    valid A -> psize A = n -> ssize A = n -> length s = n -> length t = n -> m <= n -> 1 <= n ->
    is_inv n (bp (o_p r)) (bpi (o_p r)) -> factor_ok n m (o_L r) (o_Ls r) -> m <= length (o_Ls r) ->
    m <= length (o_d r) -> idle (n * 2) (S m) (o_l r) ->
    n <= length rs -> (forall i, i < n -> 1 <= nth i rs 0) -> ceil_pos (aL false lvl) ->
    exists L_B U_B Sc, symm_blocks G times ceil_mul nth_el opts junkT junkN ji jv lvl n m s t A r rs = Ok (L_B, U_B, Sc) /\
      is_storage L_B m m (fun c i v => stored (o_L r) c i v /\ i < m) /\
      is_storage U_B m m (fun j c v => c < m /\ (exists w, v = tconj O w /\ stored (o_L r) c j w) /\ j < m) /\
      (m = n -> Sc = mkCS 0 0 [] [] []) /\
      (m < n -> valid Sc /\ tight Sc /\ psize Sc = n - m /\ ssize Sc = n - m /\
        (RingLaws O -> (forall x, tconj O x = x) -> generous n (aL false lvl) -> forall i j, i < n - m -> j < n - m ->
          crs_mat Sc i j = schur_of (fun i j => pscaled s t (crs_mat A) (bp (o_p r)) (bp (o_p r)) (m + i) (m + j)) m
            (fun i c => ccs_mat (o_L r) (m + i) c) (o_d r) (fun c j => crs_mat (o_L r) c (m + j)) i j)).
  Proof.
    intros lvl n m s t A r rs V Pn Sn Ls Lt Hm Hn Ip FL HLs Hd IL Lrs Prs CL.
    destruct (split_dual_at_l ji jv true n m _ _ FL Hm HLs) as (L_E & E1 & (VE & TE & PE & SE & HE)).
    assert (X : exists B, split_at O false m (o_L r) (o_Ls r) ji jv = Ok B /\ is_storage B m m (fun c i v => stored (o_L r) c i v /\ i < m)).
    { pose proof FL as (VL & PL & SL & _).
      destruct (C10_split_at_l O false m (o_L r) (o_Ls r) ji jv VL (factor_tight _ _ _ _ FL) ltac:(lia) ltac:(lia) (factor_splits _ _ _ _ FL)) as (B & E & HB).
      exists B. split; auto. rewrite PL in HB. exact HB. }
    destruct X as (L_B & E2 & HLB). pose proof HLB as (VB & TB & PB & SB & HB).
    destruct (adjoint_storage_l L_B (proj1 VB) TB (sorted_distinct _ _ (proj2 VB))) as (U_B & E3 & VUB & TUB & PUB & SUB & HUB).
    unfold symm_blocks. rewrite E1, E2. cbn [bind]. rewrite E3. cbn [bind]. cbv zeta. change (if (lvl =? 1) && h_fat_schur_1st G opts then times (h_alpha_L G opts) 2 else h_alpha_L G opts) with (aL false lvl).
    assert (DD : exists L_E', (if m <? n then
        P <- ref_sizes m n (bp (o_p r)) rs (jarrN junkN lvl 0 (n * 2)) ;;
        drop_block G ceil_mul nth_el P (aL false lvl) L_E (sv_vals (o_l r)) (sv_inds (o_l r))
      else Ok L_E) = Ok L_E' /\
      wf L_E' /\ tight L_E' /\ distinct L_E' /\ psize L_E' = n - m /\ ssize L_E' = m /\
      (generous n (aL false lvl) -> forall i j v, i < n - m -> (stored L_E' i j v <-> stored L_E i j v))).
    { destruct (Nat.ltb_spec m n) as [Hlt|Hge].
      - destruct (ref_sizes_l m n (bp (o_p r)) rs (jarrN junkN lvl 0 (n * 2)) Hm (is_inv_perm _ _ _ Ip) Lrs ltac:(rewrite jarrN_len; lia)) as (P & EP & LP & HP).
        rewrite jarrN_len in LP. rewrite EP. cbn [bind].
        destruct IL as (OL & _).
        assert (Ppos : forall i, i < n - m -> 1 <= nth (S i) P 0 - nth i P 0).
        { intros i Hi. rewrite HP by auto. destruct Ip as (_ & _ & I1 & _). pose proof (Prs _ (proj1 (I1 (m + i) ltac:(lia)))). lia. }
        assert (DE : distinct L_E) by (apply sorted_distinct; apply VE).
        destruct (C37_largest_kept O G ceil_mul nth_el P (aL false lvl) L_E (sv_vals (o_l r)) (sv_inds (o_l r)) NE) as (L' & EL & W1 & T1 & D1 & K1); auto.
        { apply VE. } { apply TE. } { rewrite PE. lia. }
        { intros i Hi. rewrite PE in Hi. rewrite HP by auto. lia. }
        { intros Ha i Hi _. rewrite PE in Hi. apply CL; auto. }
        { rewrite SE, (so_vals _ _ OL). lia. } { rewrite PE, (so_inds _ _ OL). lia. }
        exists L'. split; auto. pose proof K1 as (KP1 & KS1 & _).
        do 3 (split; [assumption|]). split; [congruence|]. split; [congruence|].
        intros (GL0 & GL) i j v Hi.
        apply (kept_all G _ L_E L'  (proj1 VE) DE K1); [|lia]. intros k Hk. rewrite GL0. rewrite PE in Hk. specialize (Ppos k Hk). specialize (GL _ Ppos). lia.
      - exists L_E. split; auto. split; [apply VE|]. split; auto. split; [apply sorted_distinct, VE|]. split; auto. split; auto. intros _ i j v Hi. lia. }
    destruct DD as (L' & ED & WL & TL & DL & PL & SL & KK). rewrite ED. cbn [bind].
    destruct (adjoint_storage_l L' WL TL DL) as (U_F & E5 & VF & TF' & PF' & SF' & HST).
    rewrite E5. cbn [bind].
    assert (HUB' : is_storage U_B m m (fun j c v => c < m /\ (exists w, v = tconj O w /\ stored (o_L r) c j w) /\ j < m)).
    { split; auto. split; auto. split; [lia|]. split; [lia|]. intros j c v Hj. split.
      - intros Hs. assert (Hc : c < m). { unfold stored in Hs. pose proof (wf_rowl_range O U_B (proj1 VUB) j (c, v) ltac:(lia) Hs). cbn [fst] in *. lia. }
        split; auto. apply HUB in Hs; try lia. destruct Hs as (w & -> & Hw). apply HB in Hw; auto. split; [|tauto]. exists w. tauto.
      - intros (Hc & (w & -> & Hw) & _). apply HUB; try lia. exists w. split; auto. apply HB; auto. }
    set (l := scratched (o_l r) (jarrN junkN lvl 2 (n * 2)) (jarrT junkT lvl 2 (n * 2))).
    destruct (Nat.eq_dec m n) as [Em|Nm].
    { assert (E7 : compute_schur s t (o_d r) A (bp (o_p r)) (bpi (o_p r)) m L' U_F l (jarrT junkT lvl 3 (n * 2)) ji jv = Ok (mkCS 0 0 [] [] [])).
      { unfold compute_schur. rewrite Pn, Em, Nat.eqb_refl. auto. }
      rewrite E7. cbn [bind]. exists L_B, U_B, (mkCS 0 0 [] [] []). split; auto. split; auto. split; auto. split; auto. intros; lia. }
    assert (Ol : sv_ok (n * 2) l).
    { destruct IL as (OL & _). destruct OL. unfold l, scratched. constructor; cbn [sv_vals sv_inds sv_cnt sv_dtags sv_stags]; auto.
      - apply jarrT_len. - apply jarrN_len. - lia. - constructor. - intros i []. }
    destruct (C36_schur O n m s t (o_d r) A (bp (o_p r)) (bp (o_p r)) (bpi (o_p r)) L' U_F (n * 2) l (jarrT junkT lvl 3 (n * 2)) ji jv) as (Sc & E6 & VS & TS & PS & SS & _ & HS); auto; try lia.
    { now apply is_inv_perm in Ip. } { apply VF. }
    { intros i k Hk. destruct IL as (OL & HT). unfold l, scratched in Hk. cbn [sv_dtags] in Hk.
      destruct (Nat.lt_ge_cases i (n * 2)) as [Hi|Hi].
      - specialize (HT i k Hi Hk). lia.
      - rewrite nth_overflow in Hk by (rewrite (so_tags _ _ OL); lia). discriminate. }
    { rewrite jarrT_len. lia. }
    rewrite E6. cbn [bind]. exists L_B, U_B, Sc. split; auto. split; auto. split; auto. split; [intros; lia|].
    intros Hlt. do 4 (split; [assumption|]). intros RL CJ GL i j Hi Hj. rewrite HS by auto. unfold schur_of. f_equal.
    apply sum_ext. intros c Hc. pose proof FL as (VLo & PLo & SLo & _).
    assert (NL : NoDup (map fst (rowl L' i))) by (apply DL; lia).
    assert (NU : NoDup (map fst (rowl U_F c))) by (apply sorted_distinct; [apply VF|lia]).
    assert (NO : NoDup (map fst (rowl (o_L r) c))) by (apply valid_nodup; [apply VLo|lia]).
    f_equal; [f_equal|].
    - unfold crs_mat, ccs_mat. apply (ent_same O RL); auto.
      intros v. rewrite (KK GL i c v Hi), HE by auto. split; [tauto|]. intros; split; auto.
    - unfold crs_mat. apply (ent_same O RL); auto.
      intros v. rewrite HST by lia. split.
      + intros (w & -> & Hw). rewrite CJ. apply (KK GL) in Hw; auto. apply HE in Hw; auto. tauto.
      + intros Hv. exists v. split; [now rewrite CJ|]. apply (KK GL); auto. apply HE; auto.
  Qed.

  (** ** From the blocks to the finished level *)
  Definition ssizes_ok (n : nat) (rs : list nat) : Prop := n <= length rs /\ forall i, i < n -> 1 <= nth i rs 0.

  Lemma symm_finish_l : forall lvl n m m2 rm moderate A r rs L_B U_B Sc s t p,
    1 <= n -> valid A -> psize A = n -> ssize A = n ->
    MID n m m2 L_B U_B Sc s t p p -> ssizes_ok n rs -> m <= length (o_d r) ->
    exists P Sc' rs', symm_finish_level go_dense mk_symm junkN ji jv lvl n m rm moderate A r rs L_B U_B Sc s t p = Ok (P, Sc', rs') /\
      pm P = m /\ pn P = n /\ pdense P = None /\ fix_ok P /\ level_shape (fixP P) /\
      pL P = L_B /\ pU P = U_B /\ pd P = o_d r /\ ps P = s /\ pt P = t /\ pp P = bp p /\ pq P = bp p /\
      (is_last_level O P = false -> 1 <= m < n /\ valid Sc' /\ tight Sc' /\ psize Sc' = n - m /\ ssize Sc' = n - m /\
         ssizes_ok (n - m) rs' /\ (RingLaws O -> meq (n - m) (n - m) (matof rm Sc') (crs_mat Sc))) /\
      (is_last_level O P = true -> m < n -> exists D, psymm P = Some (mk_symm (n - m) D) /\
         length D = (n - m) * (n - m) /\ (RingLaws O -> forall i j, i < n - m -> j < n - m -> nth (i + j * (n - m)) D (t0 O) = crs_mat Sc i j)) /\
      (RingLaws O -> forall a k, a < n - m -> k < m -> ccs_mat (pE P) a k = pscaled s t (crs_mat A) (bp p) (bp p) (m + a) k) /\
      (RingLaws O -> forall k i, k < m -> i < n - m -> ccs_mat (pF P) k i = ccs_mat (pE P) i k).
  Proof.
    intros lvl n m m2 rm moderate A r rs L_B U_B Sc s t p Hn V P0 S0 MI (Lr & Pr) Ld.
    destruct MI as [md_m0 Md0 Md1 md_s0 md_t0 md_p0 _ md_S1 md_S2]. unfold symm_finish_level.
    pose proof (is_inv_perm _ _ _ md_p0) as Pp.
    match goal with |- context [for_range m n ?f 0] => assert (X1 : exists k, for_range m n f 0 = Ok k); [assert (W : wp (for_range m n f 0) (fun _ => True))|] end.
    { apply (for_range_inv _ (fun _ _ => True)); auto. intros i acc Hi _. destruct Pp as (Lp & Rp & _).
      specialize (Rp i ltac:(lia)). wpb. apply wp_get with (d := 0); [lia|]. wpb. apply wp_get with (d := 0); [lia|]. apply wp_ok. auto. }
    { apply wp_inv in W. destruct W as (k & E & _). eauto. }
    destruct X1 as (AmB & EA). rewrite EA. cbn [bind]. clear EA. cbv zeta.
    assert (X2 : exists dense, (if moderate || go_dense lvl (n - m) AmB || (m =? 0) then
          D <- dense_of_crs O Sc ;; Ok (if psize Sc =? 0 then None else Some (mk_symm (psize Sc) D))
        else Ok None) = Ok dense /\
        (dense = None -> m = n \/ 1 <= m) /\
        (forall D0, dense = Some D0 -> m < n /\ exists D, D0 = mk_symm (n - m) D /\
           length D = (n - m) * (n - m) /\ (RingLaws O -> forall i j, i < n - m -> j < n - m -> nth (i + j * (n - m)) D (t0 O) = crs_mat Sc i j))).
    { destruct (moderate || go_dense lvl (n - m) AmB || (m =? 0)) eqn:EM.
      - destruct (Nat.eq_dec m n) as [Em|Nm].
        + rewrite (md_S1 Em). cbn. exists None. split; auto. split; [auto|]. intros; discriminate.
        + destruct (md_S2 ltac:(lia)) as (VS & TS & PS & SS).
          assert (XD : exists D, dense_of_crs O Sc = Ok D /\ length D = (n - m) * (n - m)).
          { destruct VS as (WS & SSo). unfold dense_of_crs. pose proof (dense_wp O Sc (fun r j => r + j * psize Sc) (psize Sc * ssize Sc) WS SSo) as G1.
            apply wp_inv in G1.
            - destruct G1 as (D & ED & LD & _). rewrite PS, SS in LD. eauto.
            - intros i j Hi Hj. nia.
            - intros i j i' j' Hi Hj Hi' Hj' E. rewrite PS in *. assert (j = j') by nia. subst. lia. }
          destruct XD as (D & ED & LD0). rewrite ED. cbn [bind]. destruct (Nat.eqb_spec (psize Sc) 0); [lia|]. eexists. split; [reflexivity|].
          split; [discriminate|]. intros D0 E0. split; [lia|]. exists D. rewrite PS in E0. split; [congruence|]. split; [exact LD0|]. intros RL.
          destruct (C43_dense_of_crs O RL Sc VS) as (D' & ED' & LD & HD). rewrite ED in ED'. injection ED' as <-. rewrite PS, SS in *. auto.
      - exists None. split; auto. split; [|intros; discriminate]. intros _. right.
        apply orb_false_elim in EM. destruct EM as (_ & E0). apply Nat.eqb_neq in E0. lia. }
    destruct X2 as (dense & ED & HD0 & HD1). rewrite ED. cbn [bind]. clear ED.
    assert (X3 : exists rs', (match dense with
        | Some _ => Ok rs
        | None => next_sizes m n (bp p) rs (jarrN junkN lvl 6 (n * 2))
        end) = Ok rs' /\ (dense = None -> ssizes_ok (n - m) rs')).
    { destruct dense as [D0|]. { exists rs. split; auto. discriminate. }
      destruct (next_sizes_l m n (bp p) rs (jarrN junkN lvl 6 (n * 2)) md_m0 Pp Lr ltac:(rewrite jarrN_len; lia)) as (R1 & E1 & L1 & H1).
      exists R1. split; auto. intros _. split; [lia|].
      destruct Pp as (_ & Rp & _). intros i Hi. rewrite H1 by auto. apply Pr, Rp; lia. }
    destruct X3 as (rs' & ER & HR). rewrite ER. cbn [bind]. clear ER.
    destruct (C35_lower_left O n m s t A (bp p) (bp p) (bpi p) ji jv V P0 S0 md_s0 md_t0 md_m0 Pp md_p0) as (E & EE & (VE & TE & PE & SE & _) & HE).
    rewrite EE. cbn [bind].
    destruct (C04_conversion_keeps_entries O E ji jv (proj1 VE) TE) as (F & EF & WF & TF & PF & SF & _ & _ & SOF & HF).
    rewrite EF. cbn [bind].
    set (P := mkPrec m n L_B (o_d r) U_B E F s t (bp p) (bpi p) (bp p) (bpi p) None dense).
    assert (LastF : is_last_level O P = false -> dense = None /\ 1 <= m < n).
    { unfold is_last_level, P. cbn [pdense psymm pm pn]. destruct dense; [discriminate|]. intros E0. apply Nat.eqb_neq in E0. split; auto.
      destruct (HD0 eq_refl); lia. }
    assert (X4 : exists Sc', (if is_last_level O P then Ok (mkCS 0 0 [] [] []) else if rm then Ok Sc else other_storage O ji jv Sc) = Ok Sc' /\
       (is_last_level O P = false -> valid Sc' /\ tight Sc' /\ psize Sc' = n - m /\ ssize Sc' = n - m /\ (RingLaws O -> meq (n - m) (n - m) (matof rm Sc') (crs_mat Sc)))).
    { destruct (is_last_level O P) eqn:EL. { eexists. split; [reflexivity|]. discriminate. }
      destruct (LastF eq_refl) as (_ & Hmn). destruct (md_S2 ltac:(lia)) as (VS & TS & PS & SS). destruct rm.
      - exists Sc. split; auto. intros _. repeat (split; [assumption|]). intros RL i j Hi Hj. reflexivity.
      - destruct (C04_conversion_keeps_entries O Sc ji jv (proj1 VS) TS) as (B & E1 & WB & TB & PB & SB & _ & _ & SO & HM).
        exists B. split; auto. intros _. split. { split; auto. apply SO. apply sorted_distinct, VS. }
        split; auto. split; [lia|]. split; [lia|]. intros RL i j Hi Hj. unfold matof. apply HM; auto; lia. }
    destruct X4 as (Sc' & ES & HS). rewrite ES. cbn [bind].
    exists P, Sc', rs'. split; auto. do 3 (split; [reflexivity|]).
    assert (FX : fix_ok P). { intros E0. cbn in E0. apply Md0; auto. }
    split; auto. split.
    { unfold fixP. cbn [pm P]. destruct (Nat.eqb_spec m 0) as [E0|E0].
      - assert (W0 : wf (@mkCS O 0 0 [0] [] [])) by (apply wfb_wf; reflexivity).
        split; cbn [pm pn pL pU pd pE pF ps pt pp pp_inv pq pq_inv P]; auto; try lia; try (split; [exact W0|split; auto; cbn; lia]).
        all: intros _; split; [first [apply VE|exact WF]|lia].
      - destruct (Md1 ltac:(lia)) as (A1 & A2 & A3 & A4 & A5 & A6).
        split; cbn [pm pn pL pU pd pE pF ps pt pp pp_inv pq pq_inv P]; auto; try lia.
        all: intros _; split; [first [apply VE|exact WF]|lia]. }
    do 7 (split; [reflexivity|]). split; [|split; [|split]].
    - intros EL. destruct (LastF EL) as (Dn & Hmn). destruct (HS EL) as (B1 & B2 & B3 & B4 & B5). split; [lia|]. split; [exact B1|]. split; [exact B2|]. split; [exact B3|]. split; [exact B4|]. split; [exact (HR Dn)|exact B5].
    - intros EL Hlt. cbn [psymm P]. unfold is_last_level, P in EL. cbn [pdense psymm pm pn] in EL. destruct dense as [D0|].
      + destruct (HD1 D0 eq_refl) as (_ & D & E0 & E1). exists D. split; [congruence|auto].
      + apply Nat.eqb_eq in EL. lia.
    - intros RL a k Ha Hk. apply HE; auto.
    - intros RL k i Hk Hi. cbn [pF pE P]. specialize (HF RL k i ltac:(lia) ltac:(lia)). unfold ccs_mat, crs_mat in *. exact HF.
  Qed.
End P.
