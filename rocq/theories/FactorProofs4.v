(** * FactorProofs4: one level, complete. *)
From Coq Require Import List Arith Lia Bool Permutation Ring.
From Verif Require Import Base Scalar Spec CSModel CSSpec CSProofs ConvModel ConvSpec BucketProofs ConvProofs ConvProofs2
  ConvProofs3 ConvProofs4 Mag VecModel VecSpec VecProofs PruneModel CroutModel CroutSpec CroutProofs3 CroutProofs9 CroutProofs11 PivotModel PivotSpec PivotProofs6 PivotProofs8
  SchurModel SchurSpec SchurProofs3 PrecModel PrecSpec LevelMath LinAlg PrecProofs FactorModel FactorSpec FactorMath PropConv PropVec PropCrout PropSchur PropPivot
  FactorProofs1 FactorProofs2 FactorProofs3.
Import ListNotations.

Section L.
  Context {O : Ops}.
  Notation T := (T O).
  Variable G : Mag O.
  Variables root shrink times : M G -> nat -> M G.
  Variable bad : M G -> T -> bool.
  Variable big : T -> bool.
  Variable mdiv : M G -> M G -> M G.
  Variable ceil_mul : M G -> nat -> nat.
  Variable nth_el : (nat -> M G) -> nat -> list nat -> list nat.
  Variable srt : list T -> list nat -> list nat.
  Variable opts : HOpts G.
  Variable pre : nat -> CS O -> CS O -> res (list T * list T * BiPerm * BiPerm * nat).
  Variable low : nat -> nat -> nat.
  Variable go_dense : nat -> nat -> nat -> bool.
  Variable mk_dense : nat -> list T -> Dense O.
  Variable junkT : nat -> nat -> nat -> T.
  Variable junkN : nat -> nat -> nat -> nat.
  Variables (ji : nat) (jv : T).
  Hypothesis ML : MagLaws G.
  Hypothesis NE : nth_element_ok (mle G) nth_el.
  Hypothesis SR : rearranges srt.

  Notation level_factorize := (level_factorize G root shrink times bad big mdiv ceil_mul nth_el srt opts pre low go_dense mk_dense junkT junkN ji jv).
  Notation aL := (aL G times opts). Notation aU := (aU G times opts).
  Notation no_drop := (no_drop G root shrink times mdiv ceil_mul opts).
  Notation kd_of := (kd_of G root shrink times opts).

  Lemma is0_zero : forall x : T, mle G (mabs G x) (m0 G) = true -> x = t0 O.
  Proof. intros x H. apply (ml_abs0 G ML). apply (mle_antisym ML); auto. apply (ml_abs G ML). Qed.

  (** The product L D U read off the blocks. *)
  Lemma ldu_blocks : FieldLaws O -> forall n m (r : CRout O) (L_B U_B : CS O) (Ah : nat -> nat -> T), o_m r = m -> m <= n ->
    factor_ok n m (o_L r) (o_Ls r) -> factor_ok n m (o_U r) (o_Us r) ->
    is_storage L_B m m (fun c i v => stored (o_L r) c i v /\ i < m) ->
    is_storage U_B m m (fun j c v => c < m /\ stored (o_U r) c j v /\ j < m) ->
    (forall i j, i < n -> j < n -> i < m \/ j < m -> LDU r i j = Ah i j) ->
    let LB := ccs_mat L_B in let UB := ccs_mat U_B in let d := v_ (o_d r) in
    strict_lower m LB /\ strict_upper m UB /\
    (forall i j, i < m -> j < m -> Spec.mmul m (madd mid LB) (Spec.mmul m (mdiag d) (madd mid UB)) i j = Ah i j) /\
    (forall i j, i < m -> j < n - m -> sum m (fun c => tmul O (tmul O (madd mid LB i c) (d c)) (crs_mat (o_U r) c (m + j))) = Ah i (m + j)) /\
    (forall a k, a < n - m -> k < m -> sum m (fun c => tmul O (tmul O (ccs_mat (o_L r) (m + a) c) (d c)) (madd mid UB c k)) = Ah (m + a) k).
  Proof.
    intros FL n m r L_B U_B Ah Em Hm FLo FUo (VL & TL & PL & SL & HL) (VU & TU & PU & SU & HU) HA. cbv zeta. pose proof (fl_ring O FL) as RL.
    destruct FLo as (VLo & PLo & SLo & ALo & _). destruct FUo as (VUo & PUo & SUo & AUo & _).
    assert (EL : forall i c, i < m -> c < m -> ccs_mat L_B i c = ccs_mat (o_L r) i c).
    { intros i c Hi Hc. unfold ccs_mat. apply (ent_same O RL); [apply valid_nodup; [apply VL|lia]|apply valid_nodup; [apply VLo|lia]|].
      intros v. rewrite HL by auto. tauto. }
    assert (EU : forall c j, c < m -> j < m -> ccs_mat U_B c j = crs_mat (o_U r) c j).
    { intros c j Hc Hj. unfold ccs_mat, crs_mat. apply (ent_same O RL); [apply valid_nodup; [apply VU|lia]|apply valid_nodup; [apply VUo|lia]|].
      intros v. rewrite HU by auto. tauto. }
    assert (ZL : forall i c, c < m -> i <= c -> ccs_mat (o_L r) i c = t0 O) by (intros; apply (pat_above_ent O RL); auto; lia).
    assert (ZU : forall c j, c < m -> j <= c -> crs_mat (o_U r) c j = t0 O) by (intros; apply (pat_above_ent O RL); auto; lia).
    assert (ML1 : forall i c, i < m -> c < m -> madd mid (ccs_mat L_B) i c = Lmat r i c).
    { intros i c Hi Hc. unfold madd, mid, Lmat. rewrite EL by auto. destruct (Nat.eqb_spec i c).
      - rewrite ZL by lia. apply (madd0_r O FL). - apply (madd0_l O FL). }
    assert (MU1 : forall c j, c < m -> j < m -> madd mid (ccs_mat U_B) c j = Umat r c j).
    { intros c j Hc Hj. unfold madd, mid, Umat. rewrite EU by auto. destruct (Nat.eqb_spec c j).
      - rewrite ZU by lia. apply (madd0_r O FL). - apply (madd0_l O FL). }
    split; [|split; [|split; [|split]]].
    - intros i j Hi Hj Hij. rewrite EL by auto. apply ZL; auto.
    - intros i j Hi Hj Hij. rewrite EU by auto. apply ZU; auto.
    - intros i j Hi Hj. rewrite <- HA by lia. unfold Spec.mmul at 1, LDU. rewrite Em. apply sum_ext. intros c Hc. rewrite ML1 by auto.
      change (Spec.mmul m (mdiag (v_ (o_d r))) (madd mid (ccs_mat U_B)) c j) with (mvec m (mdiag (v_ (o_d r))) (fun k => madd mid (ccs_mat U_B) k j) c).
      rewrite (mvec_diag O RL) by auto. rewrite MU1 by auto. unfold v_. apply (mass O FL).
    - intros i j Hi Hj. rewrite <- HA by lia. unfold LDU. rewrite Em. apply sum_ext. intros c Hc. rewrite ML1 by auto.
      f_equal. unfold Umat. destruct (Nat.eqb_spec c (m + j)); [lia|auto].
    - intros a k Ha Hk. rewrite <- HA by lia. unfold LDU. rewrite Em. apply sum_ext. intros c Hc. rewrite MU1 by auto.
      f_equal. f_equal. unfold Lmat. destruct (Nat.eqb_spec (m + a) c); [lia|auto].
  Qed.

  (** The Crout update, in either form. *)
  Lemma crout_phase_l : forall (piv : bool) lvl n m2 s t (A_crs A_ccs : CS O) p q rs cs,
    valid A_crs -> valid A_ccs -> psize A_crs = n -> ssize A_crs = n -> psize A_ccs = n -> ssize A_ccs = n ->
    (RingLaws O -> meq n n (ccs_mat A_ccs) (crs_mat A_crs)) ->
    pre_good n s t p q m2 -> sizes_ok n rs cs ->
    exists r, crout_phase G root shrink times bad big mdiv ceil_mul nth_el srt opts junkT junkN jv piv lvl n m2 s t A_crs A_ccs p q rs cs = Ok r /\
      (exists dU dL LO UO, RESULT (bad (kd_of lvl)) (fun x : T => mle G (mabs G x) (m0 G)) dU dL n m2 s t (crs_mat A_crs) r LO UO) /\
      (FieldLaws O -> bad (kd_of lvl) (t0 O) = true -> no_drop piv lvl n ->
        forall i j, i < n -> j < n -> i < o_m r \/ j < o_m r -> LDU r i j = pscaled s t (crs_mat A_crs) (bp (o_p r)) (bp (o_q r)) i j).
  Proof.
    intros piv lvl n m2 s t A_crs A_ccs p q rs cs V1 V2 P1 S1 P2 S2 HM [gs gt gm gp gq gs0 gt0 gsr gtr] (Lrs & Lcs & Prs & Pcs).
    unfold crout_phase, FactorProofs3.no_drop, FactorProofs3.kd_of. destruct (determine_fac_pars G root shrink times opts lvl) as (((((kd, kk), tl), tu), al), au) eqn:DET.
    cbv zeta. set (klt := fun a b : T => mlt G (mabs G a) (mabs G b)). set (kbad := fun a : T => mlt G kk (mabs G a)). set (is0 := fun x : T => mle G (mabs G x) (m0 G)).
    assert (LI : level_input n m2 s t A_crs A_ccs p q (jarrT junkT lvl 4 m2) (jarrN junkN lvl 3 m2) (map (fun k => Some k) (jarrN junkN lvl 4 n)) (jarrT junkT lvl 5 (n * 2)) (jarrN junkN lvl 5 (n * 2))).
    { split; auto. split; auto. do 7 (split; [assumption|]). split. { intros RL i j Hi Hj. now apply HM. }
      split; auto. split; auto. rewrite map_length, !jarrN_len, !jarrT_len. auto. }
    destruct piv.
    - destruct (C44_pivot_code_dropping O G mdiv ceil_mul nth_el n tu kd (times au 4) rs ML NE Lrs) as (DU & DUZ).
      destruct (C44_pivot_code_dropping O G mdiv ceil_mul nth_el n tl kd (times al 4) cs ML NE Lcs) as (DL & DLZ).
      set (dropU := piv_drop G mdiv ceil_mul nth_el tu kd (times au 4) rs) in *. set (dropL := piv_drop G mdiv ceil_mul nth_el tl kd (times al 4) cs) in *.
      match goal with |- context [pivot_crout _ _ _ ?k1 ?k2] => set (kok := k1); set (gam := k2) end.
      assert (Jd : length (jarrT junkT lvl 8 m2) = m2) by apply jarrT_len.
      destruct (pivot_run_l O (bad kd) klt kbad kok gam srt is0 big dropU dropL n m2 s t A_crs A_ccs p q _ _ _ _ _ _ LI Jd SR DU DL) as (r & ERn & LO & UO & RES & _).
      exists r. split; [exact ERn|]. split; [eauto|].
      intros FL Hb (H1 & H2 & H3 & H4 & _) i j Hi Hj Hij.
      specialize (DUZ H2). specialize (DLZ H1).
      destruct (C38_pivot_exact O (bad kd) klt kbad kok gam srt is0 big dropU dropL n m2 s t A_crs A_ccs p q _ _ _ _ _ _ FL is0_zero Hb LI Jd SR DU DL) as (r' & E' & _ & _ & _ & HX).
      { apply DUZ. right. intros k Hk. apply H4. auto. } { apply DLZ. right. intros k Hk. apply H3. auto. }
      rewrite ERn in E'. injection E' as <-. unfold pscaled. apply HX; auto.
    - destruct (C44_code_dropping O G mdiv ceil_mul nth_el n tu kd au rs ML NE Lrs) as (DU & _ & DUZ).
      destruct (C44_code_dropping O G mdiv ceil_mul nth_el n tl kd al cs ML NE Lcs) as (_ & DL & DLZ).
      set (dropU := hif_dropU G mdiv ceil_mul nth_el tu kd au rs) in *. set (dropL := hif_dropL G mdiv ceil_mul nth_el tl kd al cs) in *.
      destruct (run_l O (bad kd) klt kbad is0 big dropU dropL n m2 s t A_crs A_ccs p q jv _ _ _ _ _ LI DU DL) as (r & ERn & (LO & UO & RES) & _).
      exists r. split; [exact ERn|]. split; [eauto|].
      intros FL Hb (H1 & H2 & H3 & H4 & _) i j Hi Hj Hij.
      destruct (DUZ H2) as (DUZ1 & _). { right. intros k Hk. auto. }
      destruct (DLZ H1) as (_ & DLZ1). { right. intros k Hk. auto. }
      destruct (C38_exact O (bad kd) klt kbad is0 big dropU dropL n m2 s t A_crs A_ccs p q jv _ _ _ _ _ FL is0_zero Hb LI DU DL DUZ1 DLZ1) as (r' & E' & _ & _ & _ & HX).
      rewrite ERn in E'. injection E' as <-. unfold pscaled. apply HX; auto.
  Qed.

  Lemma level_l : forall (piv retry : bool) lvl (rm : bool) (A : CS O) rs cs s t p q m2,
    valid A -> tight A -> ssize A = psize A -> 1 <= psize A ->
    (forall k j, 1 <= k -> 1 <= low k j) ->
    (lvl = 1 -> 1 <= nnz_of A) -> (lvl <> 1 -> sizes_ok (psize A) rs cs) ->
    ceil_pos G ceil_mul (aL piv lvl) -> ceil_pos G ceil_mul (aU piv lvl) ->
    (forall B, other_storage O ji jv A = Ok B -> pre lvl (if rm then B else A) (if rm then A else B) = Ok (s, t, p, q, m2)) ->
    pre_good (psize A) s t p q m2 ->
    retry = true /\ level_factorize piv retry lvl rm A rs cs = Ok None \/
    exists P Sc rs' cs' C, level_factorize piv retry lvl rm A rs cs = Ok (Some (P, Sc, rs', cs')) /\
      pn P = psize A /\ psymm P = None /\ fix_ok P /\ level_shape (fixP P) /\
      (is_last_level O P = false -> 1 <= pm P < psize A /\ valid Sc /\ tight Sc /\ psize Sc = psize A - pm P /\ ssize Sc = psize A - pm P /\
         sizes_ok (psize A - pm P) rs' cs' /\ (RingLaws O -> meq (psize A - pm P) (psize A - pm P) (matof rm Sc) C)) /\
      (is_last_level O P = true -> pm P < psize A -> exists D, pdense P = Some (mk_dense (psize A - pm P) D) /\
         length D = (psize A - pm P) * (psize A - pm P) /\
         (RingLaws O -> forall i j, i < psize A - pm P -> j < psize A - pm P -> nth (i + j * (psize A - pm P)) D (t0 O) = C i j)) /\
      (FieldLaws O -> real_scaling (fixP P)) /\
      (FieldLaws O -> bad (kd_of lvl) (t0 O) = true -> level_ok (fixP P)) /\
      (FieldLaws O -> bad (kd_of lvl) (t0 O) = true -> no_drop piv lvl (psize A) ->
         level_of (pm P) (psize A) (v_ (ps P)) (v_ (pt P)) (pp P) (pq P) (Bmat (fixP P)) (ccs_mat (pF P)) (ccs_mat (pE P)) C (matof rm A)).
  Proof.
    intros piv retry lvl rm A rs0 cs0 s t p q m2 VA TA SA Hn HLow Hz Hsz CL CU HPre PG. set (n := psize A) in *.
    destruct (both_storages ji jv rm A VA TA (eq_sym SA)) as (B & EB & V1 & V2 & P1 & S1 & P2 & S2 & HM & HMA).
    specialize (HPre B EB). fold n in P1, S1, P2, S2, HM, HMA.
    set (A_crs := if rm then A else B) in *. set (A_ccs := if rm then B else A) in *.
    unfold FactorModel.level_factorize. destruct (Nat.eqb_spec (psize A) (ssize A)); [|lia]. cbn [negb]. fold n. rewrite EB. cbn [bind].
    cbv zeta. fold A_crs A_ccs.
    rewrite (nnz_l A (proj1 VA) TA). cbn [bind].
    assert (X : exists rs cs, (if lvl =? 1 then first_sizes (low (nnz_of A) n) A_crs else Ok rs0) = Ok rs /\
                              (if lvl =? 1 then first_sizes (low (nnz_of A) n) A_ccs else Ok cs0) = Ok cs /\ sizes_ok n rs cs).
    { destruct (Nat.eqb_spec lvl 1) as [E1|E1].
      - destruct (first_sizes_l (low (nnz_of A) n) A_crs (proj1 V1)) as (r1 & F1 & L1 & H1).
        destruct (first_sizes_l (low (nnz_of A) n) A_ccs (proj1 V2)) as (r2 & F2 & L2 & H2). specialize (HLow (nnz_of A) n (Hz E1)).
        exists r1, r2. split; auto. split; auto. split; [lia|]. split; [lia|]. split; intros i Hi; [rewrite H1 by lia|rewrite H2 by lia]; lia.
      - exists rs0, cs0. auto. }
    destruct X as (rs & cs & ER & EC & SZ). rewrite ER, EC. cbn [bind]. clear ER EC. rewrite HPre. cbn [bind].
    pose proof SZ as (Lrs & Lcs & Prs & Pcs).
    destruct (crout_phase_l piv lvl n m2 s t A_crs A_ccs p q rs cs V1 V2 P1 S1 P2 S2 HM PG SZ) as (r & ERn & (dU & dL & LO & UO & RES) & DET').
    destruct PG as [gs gt gm gp gq gs0 gt0 gsr gtr].
    rewrite ERn. cbn [bind]. destruct RES.
    set (m := if 4 * o_m r <=? m2 then 0 else o_m r).
    assert (Hm2 : o_m r <= m2) by lia.
    match goal with |- context [if retry && ?c then _ else _] => destruct (retry && c) eqn:RT end.
    { left. apply andb_prop in RT. split; [apply RT|reflexivity]. }
    right. clear RT.
    destruct (Nat.eqb_spec m 0) as [M0|M0]; cbn [negb].
    - (* nothing eliminated *)
      destruct (C14_make_eye n (o_p r)) as (Ep & Ip); [apply re_p|apply re_p|]. destruct (C14_make_eye n (o_q r)) as (Eq & Iq); [apply re_q|apply re_q|].
      rewrite Ep, Eq. cbn [bind]. rewrite M0 in *.
      assert (MI : MID n 0 m2 (mkCS 0 0 [] [] []) (mkCS 0 0 [] [] []) A_crs (repeat (t1 O) (length s)) (repeat (t1 O) (length t)) (mkBP (seq 0 n) (seq 0 n)) (mkBP (seq 0 n) (seq 0 n))).
      { split; try lia; auto; try (rewrite repeat_length; auto). intros _. rewrite !Nat.sub_0_r. split; auto. split; [|split; lia].
        unfold A_crs. destruct rm; auto. destruct (C04_conversion_keeps_entries O A ji jv (proj1 VA) TA) as (B' & EB' & _ & TB & _). rewrite EB in EB'. now injection EB' as <-. }
      destruct (finish_l go_dense mk_dense junkN ji jv lvl n 0 m2 rm (negb (4 * o_m r <=? m2) && (5 * 0 <=? 2 * m2)) A_crs A_ccs r rs cs _ _ _ _ _ _ _ Hn V1 V2 P1 S1 P2 S2 MI SZ ltac:(lia) ltac:(lia))
        as (P & Sc & rs' & cs' & E & Em & En & Esy & FX & LS & EL & EU & Ed & Es & Et & Epp & Epq & HNL & HLast & HE & HF).
      exists P, Sc, rs', cs', (crs_mat A_crs). split; [rewrite E; reflexivity|]. split; auto. split; auto. split; auto. split; auto. rewrite Em.
      split; [exact HNL|]. split; [exact HLast|].
      assert (V1' : forall i, i < n -> v_ (repeat (t1 O) n) i = t1 O). { intros i Hi. unfold v_. rewrite nth_repeat_any; auto. }
      assert (SS : forall i, i < n -> v_ (ps P) i = t1 O /\ v_ (pt P) i = t1 O).
      { intros i Hi. rewrite Es, Et, gs, gt. auto. }
      split; [|split].
      + intros FL. split; intros i Hi; rewrite fix_n, En in Hi; destruct (SS i Hi) as (X1 & X2); unfold fixP; destruct (pm P =? 0); cbn [ps pt]; rewrite ?X1, ?X2; apply conj_1, (fl_ring O FL).
      + intros FL _. destruct LS. rewrite fix_n, En in *. rewrite fix_m, Em in *.
        assert (FP : ps (fixP P) = ps P /\ pt (fixP P) = pt P) by (unfold fixP; destruct (pm P =? 0); auto). destruct FP as (FP1 & FP2).
        split; rewrite ?fix_m, ?fix_n, ?Em, ?En; auto; try lia.
        * split; [apply ls_L|]. split; [apply ls_L|]. split; [apply ls_L|]. intros i j Hi; lia.
        * split; [apply ls_U|]. split; [apply ls_U|]. split; [apply ls_U|]. intros i j Hi; lia.
        * split; [lia|]. intros i Hi; lia.
        * split; auto. intros i Hi. rewrite FP1. destruct (SS i Hi) as (-> & _). apply (fl_one O FL).
        * split; auto. intros i Hi. rewrite FP2. destruct (SS i Hi) as (_ & ->). apply (fl_one O FL).
      + intros FL _ _. exists (fun _ _ => t0 O). split; [intros i j Hi; lia|]. intros i j Hi Hj. rewrite Epp, Epq. cbn [bp].
        rewrite !seq_nth by auto. cbn [Nat.add]. destruct (SS i Hi) as (-> & _). destruct (SS j Hj) as (_ & ->).
        rewrite (mul1 O FL). unfold blk2. destruct (Nat.ltb_spec i 0); [lia|]. destruct (Nat.ltb_spec j 0); [lia|]. rewrite !Nat.sub_0_r.
        unfold madd, Spec.mmul. cbn [sum]. rewrite (madd0_l O FL). symmetry. apply HMA; auto. apply (fl_ring O FL).
    - (* a leading block of size m *)
      assert (Em : m = o_m r) by (unfold m in *; destruct (4 * o_m r <=? m2); auto; lia). clearbody m. rewrite <- Em in re_L, re_U, re_b, re_bl, re_bu, Hm2.
      assert (Hmn : m <= n) by lia.
      destruct (build_blocks_l G times ceil_mul nth_el opts junkT junkN ji jv NE piv lvl n m s t A_crs r rs cs V1 P1 S1 gs gt Hmn Hn re_p re_q re_L re_U ltac:(lia) ltac:(lia) ltac:(lia) re_bl re_bu Lrs Lcs Prs Pcs CL CU)
        as (L_B & U_B & Sc0 & EBB & HLB & HUB & HS0 & HS1).
      rewrite EBB. cbn [bind].
      assert (MI : MID n m m2 L_B U_B Sc0 s t (o_p r) (o_q r)).
      { destruct HLB as (A1 & A2 & A3 & A4 & _). destruct HUB as (B1 & B2 & B3 & B4 & _). split; auto; try lia.
        - intros _. split; [apply A1|]. split; auto. split; auto. split; [apply B1|]. auto.
        - intros H. destruct (HS1 H) as (C1 & C2 & C3 & C4 & _). auto. }
      destruct (finish_l go_dense mk_dense junkN ji jv lvl n m m2 rm (negb (4 * o_m r <=? m2) && (5 * m <=? 2 * m2)) A_crs A_ccs r rs cs _ _ _ _ _ _ _ Hn V1 V2 P1 S1 P2 S2 MI SZ ltac:(lia) ltac:(rewrite (so_vals _ _ (proj1 re_bu)); lia))
        as (P & Sc & rs' & cs' & E & Epm & En & Esy & FX & LS & EL & EU & Ed & Es & Et & Epp & Epq & HNL & HLast & HE & HF).
      exists P, Sc, rs', cs', (crs_mat Sc0). split; [rewrite E; reflexivity|]. split; auto. split; auto. split; auto. split; auto. rewrite Epm.
      split; [exact HNL|]. split; [exact HLast|].
      assert (FP : fixP P = P). { unfold fixP. rewrite Epm. destruct (Nat.eqb_spec m 0); [contradiction|auto]. } rewrite FP in *.
      split; [|split].
      + intros FL. split; intros i Hi; rewrite En in Hi; rewrite ?Es, ?Et; [apply gsr|apply gtr]; auto.
      + intros FL Hb. pose proof (fl_ring O FL) as RL.
        assert (XL : strict_lower m (ccs_mat L_B)).
        { intros i j Hi Hj Hij. destruct HLB as (A1 & A2 & A3 & A4 & A5). unfold ccs_mat. apply (ent_not_stored O RL). intros v Hv. apply A5 in Hv; auto.
          destruct Hv as (Hv & _). unfold stored in Hv. apply rowl_in in Hv. destruct Hv as (k & Hk & Ek & _).
          destruct re_L as (_ & PLo & _ & PA & _). specialize (PA j k ltac:(lia) Hk). lia. }
        assert (XU : strict_upper m (ccs_mat U_B)).
        { intros i j Hi Hj Hij. destruct HUB as (A1 & A2 & A3 & A4 & A5). unfold ccs_mat. apply (ent_not_stored O RL). intros v Hv. apply A5 in Hv; auto.
          destruct Hv as (_ & Hv & _). unfold stored in Hv. apply rowl_in in Hv. destruct Hv as (k & Hk & Ek & _).
          destruct re_U as (_ & PUo & _ & PA & _). specialize (PA i k ltac:(lia) Hk). lia. }
        destruct LS. rewrite En in *. rewrite Epm in *. split; rewrite ?Epm, ?En; auto.
        * rewrite EL in *. intuition. * rewrite EU in *. intuition.
        * rewrite Ed in *. split; auto. intros i Hi E0. pose proof (re_b i Hi) as X. unfold v_ in E0. rewrite E0 in X. congruence.
        * rewrite Es in *. split; auto. * rewrite Et in *. split; auto.
      + intros FL Hb ND. pose proof (fl_ring O FL) as RL.
        specialize (DET' FL Hb ND).
        assert (N56 : generous G ceil_mul n (aL piv lvl) /\ generous G ceil_mul n (aU piv lvl)).
        { unfold FactorProofs3.no_drop in ND. destruct (determine_fac_pars G root shrink times opts lvl) as (((((?, ?), ?), ?), ?), ?). apply ND. }
        destruct N56 as (N5 & N6).
        destruct (ldu_blocks FL n m r L_B U_B (pscaled s t (crs_mat A_crs) (bp (o_p r)) (bp (o_q r))) (eq_sym Em) Hmn re_L re_U HLB HUB) as (B1 & B2 & B3 & B4 & B5).
        { rewrite <- Em in DET'. exact DET'. }
        assert (DN : forall i, i < m -> v_ (o_d r) i <> t0 O). { intros i Hi E0. pose proof (re_b i Hi) as X. unfold v_ in E0. rewrite E0 in X. congruence. }
        assert (LOK : exists W, meq m (n - m) (Spec.mmul m (Bmat P) W) (fun i j => sum m (fun c => tmul O (tmul O (madd mid (ccs_mat L_B) i c) (v_ (o_d r) c)) (crs_mat (o_U r) c (m + j))))).
        { assert (LOK : level_ok P).
          { destruct LS. rewrite En in *. rewrite Epm in *. split; rewrite ?Epm, ?En; auto.
            - rewrite EL in *. intuition. - rewrite EU in *. intuition. - rewrite Ed in *. split; auto.
            - rewrite Es in *. split; auto. - rewrite Et in *. split; auto. }
          destruct (B_range O FL P LOK (n - m) (fun i j => sum m (fun c => tmul O (tmul O (madd mid (ccs_mat L_B) i c) (v_ (o_d r) c)) (crs_mat (o_U r) c (m + j))))) as (W & HW).
          rewrite Epm in HW. eauto. }
        destruct LOK as (W & HW). exists W. unfold Bmat in HW. rewrite Epm, EL, EU, Ed in HW.
        assert (MM : forall i j, i < n -> j < n -> tmul O (tmul O (v_ s i) (matof rm A i j)) (v_ t j) = tmul O (tmul O (v_ s i) (crs_mat A_crs i j)) (v_ t j)).
        { intros i j Hi Hj. rewrite (HMA RL i j) by auto. auto. }
        split.
        * intros i j Hi Hj. unfold Bmat. rewrite Epm, EL, EU, Ed. rewrite (HW i j) by auto. rewrite B4 by auto. rewrite (HF RL) by auto.
          unfold pscaled, scaled. rewrite (HM RL) ; auto; [apply re_p|apply re_q]; lia.
        * intros i j Hi Hj. rewrite Epp, Epq, Es, Et.
          rewrite MM; [|apply re_p; auto|apply re_q; auto].
          change (pscaled s t (crs_mat A_crs) (bp (o_p r)) (bp (o_q r)) i j = blk2 m (Bmat P) (ccs_mat (pF P)) (ccs_mat (pE P)) (madd (Spec.mmul m (ccs_mat (pE P)) W) (crs_mat Sc0)) i j).
          unfold blk2. destruct (Nat.ltb_spec i m) as [Hi'|Hi']; destruct (Nat.ltb_spec j m) as [Hj'|Hj'].
          -- unfold Bmat. rewrite Epm, EL, EU, Ed. symmetry. now apply B3.
          -- rewrite (HF RL) by lia. replace (m + (j - m)) with j by lia. unfold pscaled, scaled. rewrite (HM RL); auto; [apply re_p|apply re_q]; lia.
          -- rewrite (HE RL) by lia. replace (m + (i - m)) with i by lia. auto.
          -- destruct (HS1 ltac:(lia)) as (_ & _ & _ & _ & HSV). unfold madd at 1. rewrite (HSV RL N5 N6) by lia. unfold schur_of.
             assert (X : Spec.mmul m (ccs_mat (pE P)) W (i - m) (j - m) = sum m (fun c => tmul O (tmul O (ccs_mat (o_L r) (m + (i - m)) c) (v_ (o_d r) c)) (crs_mat (o_U r) c (m + (j - m))))).
             { rewrite <- (ldu_E_W O FL m (n - m) (ccs_mat L_B) (ccs_mat U_B) (v_ (o_d r)) (fun a c => ccs_mat (o_L r) (m + a) c) (fun c j => crs_mat (o_U r) c (m + j)) W B1 DN HW (i - m) (j - m) ltac:(lia)).
               unfold Spec.mmul. apply sum_ext. intros k Hk. f_equal. rewrite (HE RL) by lia. symmetry. apply B5; lia. }
             rewrite X. unfold v_. rewrite (msub_add O FL). f_equal; lia.
  Qed.
End L.
