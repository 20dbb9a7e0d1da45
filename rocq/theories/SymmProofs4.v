(** * SymmProofs4: one symmetric level, complete. *)
From Coq Require Import List Arith Lia Bool Permutation Ring.
From Verif Require Import Base Scalar Spec CSModel CSSpec CSProofs ConvModel ConvSpec BucketProofs ConvProofs ConvProofs2
  ConvProofs3 ConvProofs4 Mag VecModel VecSpec VecProofs PruneModel CroutModel CroutSpec CroutProofs3 CroutProofs7 CroutProofs9 CroutProofs11
  SchurModel SchurSpec SchurProofs3 PrecModel PrecSpec LevelMath LinAlg PrecProofs FactorModel FactorSpec FactorMath PropConv PropVec PropCrout PropSchur
  FactorProofs1 FactorProofs2 FactorProofs3 FactorProofs4 SymmModel SymmSpec SymmProofs1 SymmProofs2 PropSymm SymmProofs3.
Import ListNotations.

Section Math.
  Variable O : Ops.
  Hypothesis FL : FieldLaws O.
  Let RL := fl_ring O FL.
  Add Ring TMS : (rl_ring O RL).
  Lemma sym_scal : forall a x b : T O, tmul O (tmul O a x) b = tmul O (tmul O b x) a. Proof. intros. ring. Qed.
  Lemma sym_prod : forall a x b : T O, tmul O (tmul O a x) b = tmul O (tmul O b x) a. Proof. intros. ring. Qed.
End Math.

Section L.
  Context {O : Ops}.
  Notation T := (T O).
  Variable G : Mag O.
  Variables root shrink times : M G -> nat -> M G.
  Variable bad : M G -> T -> bool.
  Variable big : T -> bool.
  Variable mdiv : M G -> M G -> M G.
  Variable ceil_mul : M G -> nat -> nat.
  Variable nth_el : (nat -> M G) -> nat -> list nat -> list nat.
  Variable opts : HOpts G.
  Variable pre : nat -> CS O -> CS O -> res (list T * list T * BiPerm * BiPerm * nat).
  Variable low : nat -> nat -> nat.
  Variable go_dense : nat -> nat -> nat -> bool.
  Variable mk_symm : nat -> list T -> Dense O.
  Variable junkT : nat -> nat -> nat -> T.
  Variable junkN : nat -> nat -> nat -> nat.
  Variables (ji : nat) (jv : T).
  Hypothesis ML : MagLaws G.
  Hypothesis NE : nth_element_ok (mle G) nth_el.

  Notation symm_level := (symm_level G root shrink times bad big mdiv ceil_mul nth_el opts pre low go_dense mk_symm junkT junkN ji jv).
  Notation aL := (aL G times opts).
  Notation no_drop := (no_drop G root shrink times mdiv ceil_mul opts).
  Notation kd_of := (kd_of G root shrink times opts).

  Lemma symm_phase_l : forall lvl n m2 s t (A : CS O) p q rs,
    valid A -> psize A = n -> ssize A = n -> pre_good n s t p q m2 -> ssizes_ok n rs ->
    exists r, symm_phase G root shrink times bad big mdiv ceil_mul nth_el opts junkT junkN jv lvl n m2 s t A p q rs = Ok r /\
      (exists dr LO, RESULT (bad (kd_of lvl)) (fun _ => true) dr dr n m2 s t (ccs_mat A) r LO LO) /\
      o_q r = o_p r /\ o_U r = o_L r /\ o_Us r = o_Ls r /\
      (FieldLaws O -> bad (kd_of lvl) (t0 O) = true -> no_drop false lvl n -> symm_scaled n s t A -> bp q = bp p ->
        forall i j, i < n -> j < n -> i < o_m r \/ j < o_m r -> LDU r i j = pscaled s t (ccs_mat A) (bp (o_p r)) (bp (o_p r)) i j).
  Proof.
    intros lvl n m2 s t A p q rs V P S [gs gt gm gp gq gs0 gt0 gsr gtr] (Lrs & Prs).
    unfold symm_phase, FactorProofs3.no_drop, FactorProofs3.kd_of. destruct (determine_fac_pars G root shrink times opts lvl) as (((((kd, kk), tl), tu), al), au) eqn:DET.
    cbv zeta. set (klt := fun a b : T => mlt G (mabs G a) (mabs G b)). set (kbad := fun a : T => mlt G kk (mabs G a)). set (is0 := fun x : T => mle G (mabs G x) (m0 G)).
    assert (LI : symm_input n m2 s t A p q (jarrT junkT lvl 4 m2) (jarrN junkN lvl 3 m2) (map (fun k => Some k) (jarrN junkN lvl 4 n)) (jarrT junkT lvl 5 (n * 2)) (jarrN junkN lvl 5 (n * 2))).
    { do 8 (split; [assumption|]). rewrite map_length, !jarrN_len, !jarrT_len. auto. }
    destruct (C54_code_dropping O G mdiv ceil_mul nth_el n tl kd al rs ML NE Lrs) as (D & DZ).
    set (drop := symm_drop G mdiv ceil_mul nth_el tl kd al rs) in *.
    destruct (symm_run O (bad kd) klt kbad is0 (fun _ => true) big drop n m2 s t A p q jv _ _ _ _ _ LI D) as (r & E & (LO & R) & _ & Eq & EU & EUs & _).
    { intros (FL & SO & _). exfalso. apply (fl_one O FL). apply SO. reflexivity. }
    exists r. split; [exact E|]. split; [eauto|]. split; auto. split; auto. split; auto.
    intros FL Hb (H1 & H2 & H3 & H4 & _) HS HQ i j Hi Hj Hij.
    assert (Z : symm_only_zeros n drop). { apply DZ; auto. }
    destruct (C54_exact O (bad kd) klt kbad is0 big drop n m2 s t A p q jv _ _ _ _ _ FL (is0_zero G ML) Hb LI HS HQ D Z) as (r' & E' & _ & _ & HX).
    rewrite E in E'. injection E' as <-. rewrite symm_ldu by auto. unfold pscaled. apply HX; auto.
  Qed.

  Lemma symm_level_l : forall lvl (rm : bool) (A : CS O) rs s t p q m2,
    valid A -> tight A -> ssize A = psize A -> 1 <= psize A ->
    (forall k j, 1 <= k -> 1 <= low k j) ->
    (lvl = 1 -> 1 <= nnz_of A) -> (lvl <> 1 -> ssizes_ok (psize A) rs) ->
    ceil_pos G ceil_mul (aL false lvl) ->
    pre lvl A A = Ok (s, t, p, q, m2) -> pre_good (psize A) s t p q m2 ->
    exists P Sc rs' C, symm_level lvl rm A rs = Ok (P, Sc, rs') /\
      pn P = psize A /\ pdense P = None /\ fix_ok P /\ level_shape (fixP P) /\
      (is_last_level O P = false -> 1 <= pm P < psize A /\ valid Sc /\ tight Sc /\ psize Sc = psize A - pm P /\ ssize Sc = psize A - pm P /\
         ssizes_ok (psize A - pm P) rs' /\ (RingLaws O -> meq (psize A - pm P) (psize A - pm P) (matof rm Sc) C)) /\
      (is_last_level O P = true -> pm P < psize A -> exists D, psymm P = Some (mk_symm (psize A - pm P) D) /\
         length D = (psize A - pm P) * (psize A - pm P) /\
         (RingLaws O -> forall i j, i < psize A - pm P -> j < psize A - pm P -> nth (i + j * (psize A - pm P)) D (t0 O) = C i j)) /\
      (FieldLaws O -> real_scaling (fixP P)) /\
      (FieldLaws O -> bad (kd_of lvl) (t0 O) = true -> level_ok (fixP P)) /\
      (FieldLaws O -> (forall x, tconj O x = x) -> bad (kd_of lvl) (t0 O) = true -> no_drop false lvl (psize A) ->
         meq (psize A) (psize A) (crs_mat A) (ccs_mat A) -> t = s -> bp q = bp p ->
         meq (psize A - pm P) (psize A - pm P) C (fun i j => C j i) /\
         level_of (pm P) (psize A) (v_ (ps P)) (v_ (pt P)) (pp P) (pq P) (Bmat (fixP P)) (ccs_mat (pF P)) (ccs_mat (pE P)) C (matof rm A)).
  Proof.
    intros lvl rm A rs0 s t p q m2 VA TA SA Hn HLow Hz Hsz CL HPre PG. set (n := psize A) in *.
    unfold SymmModel.symm_level. destruct (Nat.eqb_spec (psize A) (ssize A)); [|lia]. cbn [negb]. fold n. cbv zeta.
    rewrite (nnz_l A (proj1 VA) TA). cbn [bind].
    assert (X : exists rs, (if lvl =? 1 then first_sizes (low (nnz_of A) n) A else Ok rs0) = Ok rs /\ ssizes_ok n rs).
    { destruct (Nat.eqb_spec lvl 1) as [E1|E1].
      - destruct (first_sizes_l (low (nnz_of A) n) A (proj1 VA)) as (r1 & F1 & L1 & H1). specialize (HLow (nnz_of A) n (Hz E1)).
        exists r1. split; auto. split; [lia|]. intros i Hi. rewrite H1 by lia. lia.
      - exists rs0. auto. }
    destruct X as (rs & ER & SZ). rewrite ER. cbn [bind]. clear ER. rewrite HPre. cbn [bind].
    pose proof SZ as (Lrs & Prs).
    destruct (symm_phase_l lvl n m2 s t A p q rs VA eq_refl SA PG SZ) as (r & ERn & (dr & LO & RES) & Eqp & EUL & EUs & DET').
    destruct PG as [gs gt gm gp gq gs0 gt0 gsr gtr].
    rewrite ERn. cbn [bind]. destruct RES.
    set (m := if 4 * o_m r <=? m2 then 0 else o_m r).
    assert (Hm2 : o_m r <= m2) by lia.
    destruct (Nat.eqb_spec m 0) as [M0|M0]; cbn [negb].
    - (* nothing eliminated *)
      destruct (C14_make_eye n (o_p r)) as (Ep & Ip); [apply re_p|apply re_p|].
      rewrite Ep. cbn [bind]. rewrite M0 in *.
      assert (MI : MID n 0 m2 (mkCS 0 0 [] [] []) (mkCS 0 0 [] [] []) A (repeat (t1 O) (length s)) (repeat (t1 O) (length t)) (mkBP (seq 0 n) (seq 0 n)) (mkBP (seq 0 n) (seq 0 n))).
      { split; try lia; auto; try (rewrite repeat_length; auto). intros _. rewrite !Nat.sub_0_r. auto. }
      destruct (symm_finish_l go_dense mk_symm junkN ji jv lvl n 0 m2 rm (negb (4 * o_m r <=? m2) && (5 * 0 <=? 2 * m2)) A r rs _ _ _ _ _ _ Hn VA eq_refl SA MI SZ ltac:(lia))
        as (P & Sc & rs' & E & Em & En & Ede & FX & LS & EL & EU & Ed & Es & Et & Epp & Epq & HNL & HLast & HE & HF).
      exists P, Sc, rs', (crs_mat A). split; [exact E|]. split; auto. split; auto. split; auto. split; auto. rewrite Em.
      split; [exact HNL|]. split; [exact HLast|].
      assert (V1' : forall i, i < n -> v_ (repeat (t1 O) n) i = t1 O). { intros i Hi. unfold v_. rewrite nth_repeat_any; auto. }
      assert (SS : forall i, i < n -> v_ (ps P) i = t1 O /\ v_ (pt P) i = t1 O).
      { intros i Hi. rewrite Es, Et, gs, gt. auto. }
      split; [|split].
      + intros FL. split; intros i Hi; rewrite fix_n, En in Hi; destruct (SS i Hi) as (X1 & X2); unfold fixP; destruct (pm P =? 0); cbn [ps pt]; rewrite ?X1, ?X2; apply conj_1, (fl_ring O FL).
      + intros FL _. destruct LS. rewrite fix_n, En in *. rewrite fix_m, Em in *.
        assert (FP : ps (fixP P) = ps P /\ pt (fixP P) = pt P) by (unfold fixP; destruct (pm P =? 0); auto). destruct FP as (FP1 & FP2).
        split; rewrite ?fix_m, ?fix_n, ?Em, ?En; auto; try lia.
        * split; [apply ls_L|]. split; [apply ls_L|]. split; [apply ls_L|]. intros i j Hi; lia.
        * split; [apply ls_U|]. split; [apply ls_U|]. split; [apply ls_U|]. intros i j Hi; lia.
        * split; [lia|]. intros i Hi; lia.
        * split; auto. intros i Hi. rewrite FP1. destruct (SS i Hi) as (-> & _). apply (fl_one O FL).
        * split; auto. intros i Hi. rewrite FP2. destruct (SS i Hi) as (_ & ->). apply (fl_one O FL).
      + intros FL CJ _ _ SYM _ _. rewrite Nat.sub_0_r. split. { intros i j Hi Hj. rewrite SYM by auto. reflexivity. }
        exists (fun _ _ => t0 O). split; [intros i j Hi; lia|]. intros i j Hi Hj. rewrite Epp, Epq. cbn [bp].
        rewrite !seq_nth by auto. cbn [Nat.add]. destruct (SS i Hi) as (-> & _). destruct (SS j Hj) as (_ & ->).
        rewrite (mul1 O FL). unfold blk2. destruct (Nat.ltb_spec i 0); [lia|]. destruct (Nat.ltb_spec j 0); [lia|]. rewrite !Nat.sub_0_r.
        unfold madd, Spec.mmul. cbn [sum]. rewrite (madd0_l O FL). unfold matof. destruct rm; auto. symmetry. now apply SYM.
    - (* a leading block of size m *)
      assert (Em : m = o_m r) by (unfold m in *; destruct (4 * o_m r <=? m2); auto; lia). clearbody m. rewrite <- Em in re_L, re_U, re_b, re_bl, re_bu, Hm2.
      assert (Hmn : m <= n) by lia.
      destruct (symm_blocks_l G times ceil_mul nth_el opts go_dense mk_symm junkT junkN ji jv NE lvl n m s t A r rs VA eq_refl SA gs gt Hmn Hn re_p re_L ltac:(lia) ltac:(lia) re_bl Lrs Prs CL)
        as (L_B & U_B & Sc0 & EBB & HLB & HUB & HS0 & HS1).
      rewrite EBB. cbn [bind].
      assert (MI : MID n m m2 L_B U_B Sc0 s t (o_p r) (o_p r)).
      { destruct HLB as (A1 & A2 & A3 & A4 & _). destruct HUB as (B1 & B2 & B3 & B4 & _). split; auto; try lia.
        - intros _. split; [apply A1|]. split; auto. split; auto. split; [apply B1|]. auto.
        - intros H. destruct (HS1 H) as (C1 & C2 & C3 & C4 & _). auto. }
      destruct (symm_finish_l go_dense mk_symm junkN ji jv lvl n m m2 rm (negb (4 * o_m r <=? m2) && (5 * m <=? 2 * m2)) A r rs _ _ _ _ _ _ Hn VA eq_refl SA MI SZ ltac:(lia))
        as (P & Sc & rs' & E & Epm & En & Ede & FX & LS & EL & EU & Ed & Es & Et & Epp & Epq & HNL & HLast & HE & HF).
      exists P, Sc, rs', (crs_mat Sc0). split; [exact E|]. split; auto. split; auto. split; auto. split; auto. rewrite Epm.
      split; [exact HNL|]. split; [exact HLast|].
      assert (FP : fixP P = P). { unfold fixP. rewrite Epm. destruct (Nat.eqb_spec m 0); [contradiction|auto]. } rewrite FP in *.
      assert (LOK : FieldLaws O -> bad (kd_of lvl) (t0 O) = true -> level_ok P).
      { intros FL Hb. pose proof (fl_ring O FL) as RL.
        assert (PA : forall c i v, stored (o_L r) c i v -> c < m -> c < i).
        { intros c i v Hv Hc. unfold stored in Hv. apply rowl_in in Hv. destruct Hv as (k & Hk & Ek & _).
          destruct re_L as (_ & PLo & _ & PA & _). specialize (PA c k ltac:(lia) Hk). lia. }
        assert (XL : strict_lower m (ccs_mat L_B)).
        { intros i j Hi Hj Hij. destruct HLB as (A1 & A2 & A3 & A4 & A5). unfold ccs_mat. apply (ent_not_stored O RL). intros v Hv. apply A5 in Hv; auto.
          destruct Hv as (Hv & _). apply PA in Hv; lia. }
        assert (XU : strict_upper m (ccs_mat U_B)).
        { intros i j Hi Hj Hij. destruct HUB as (A1 & A2 & A3 & A4 & A5). unfold ccs_mat. apply (ent_not_stored O RL). intros v Hv. apply A5 in Hv; auto.
          destruct Hv as (_ & (w & _ & Hv) & _). apply PA in Hv; lia. }
        destruct LS. rewrite En in *. rewrite Epm in *. split; rewrite ?Epm, ?En; auto.
        * rewrite EL in *. intuition. * rewrite EU in *. intuition.
        * rewrite Ed in *. split; auto. intros i Hi E0. pose proof (re_b i Hi) as X. unfold v_ in E0. rewrite E0 in X. congruence.
        * rewrite Es in *. split; auto. * rewrite Et in *. split; auto. }
      split; [|split; [exact LOK|]].
      + intros FL. split; intros i Hi; rewrite En in Hi; rewrite ?Es, ?Et; [apply gsr|apply gtr]; auto.
      + intros FL CJ Hb ND SYM Ets Hqp. pose proof (fl_ring O FL) as RL. rewrite Ets in *.
        assert (SSC : forall x y, x < n -> y < n -> scaled s s (crs_mat A) x y = scaled s s (crs_mat A) y x).
        { intros x y Hx Hy. unfold scaled. rewrite (SYM x y) by auto. unfold ccs_mat, crs_mat. apply (sym_scal O FL). }
        assert (SCC : forall x y, x < n -> y < n -> scaled s s (ccs_mat A) x y = scaled s s (crs_mat A) x y).
        { intros x y Hx Hy. unfold scaled. now rewrite (SYM x y) by auto. }
        assert (SS : symm_scaled n s s A). { intros x y Hx Hy. rewrite !SCC by auto. now apply SSC. }
        specialize (DET' FL Hb ND SS Hqp).
        assert (N5 : generous G ceil_mul n (aL false lvl)).
        { unfold FactorProofs3.no_drop in ND. destruct (determine_fac_pars G root shrink times opts lvl) as (((((?, ?), ?), ?), ?), ?). apply ND. }
        pose proof re_p as (_ & _ & IP & _).
        assert (PSY : forall i j, i < n -> j < n -> pscaled s s (crs_mat A) (bp (o_p r)) (bp (o_p r)) i j = pscaled s s (crs_mat A) (bp (o_p r)) (bp (o_p r)) j i).
        { intros i j Hi Hj. unfold pscaled. apply SSC; apply IP; auto. }
        destruct (ldu_blocks big pre low go_dense mk_symm junkT junkN ji jv FL n m r L_B U_B (pscaled s s (crs_mat A) (bp (o_p r)) (bp (o_p r))) (eq_sym Em) Hmn re_L re_U HLB) as (B1 & B2 & B3 & B4 & B5).
        { rewrite EUL. destruct HUB as (A1 & A2 & A3 & A4 & A5). split; auto. split; auto. split; auto. split; auto. intros j c v Hj. rewrite A5 by auto. split.
          - intros (Hc & (w & -> & Hw) & Hjm). rewrite CJ. auto.
          - intros (Hc & Hw & Hjm). split; auto. split; auto. exists v. rewrite CJ. auto. }
        { rewrite <- Em in DET'. intros i j Hi Hj Hij. rewrite DET' by auto. unfold pscaled. apply SCC; apply IP; auto. }
        rewrite EUL in B4.
        assert (DN : forall i, i < m -> v_ (o_d r) i <> t0 O). { intros i Hi E0. pose proof (re_b i Hi) as X. unfold v_ in E0. rewrite E0 in X. congruence. }
        assert (XW : exists W, meq m (n - m) (Spec.mmul m (Bmat P) W) (fun i j => sum m (fun c => tmul O (tmul O (madd mid (ccs_mat L_B) i c) (v_ (o_d r) c)) (crs_mat (o_L r) c (m + j))))).
        { destruct (B_range O FL P (LOK FL Hb) (n - m) (fun i j => sum m (fun c => tmul O (tmul O (madd mid (ccs_mat L_B) i c) (v_ (o_d r) c)) (crs_mat (o_L r) c (m + j))))) as (W & HW).
          rewrite Epm in HW. eauto. }
        destruct XW as (W & HW). unfold Bmat in HW. rewrite Epm, EL, EU, Ed in HW.
        assert (MM : forall i j, i < n -> j < n -> tmul O (tmul O (v_ s i) (matof rm A i j)) (v_ s j) = tmul O (tmul O (v_ s i) (crs_mat A i j)) (v_ s j)).
        { intros i j Hi Hj. unfold matof. destruct rm; auto. now rewrite (SYM i j) by auto. }
        assert (HFs : forall k i, k < m -> i < n - m -> ccs_mat (pF P) k i = pscaled s s (crs_mat A) (bp (o_p r)) (bp (o_p r)) k (m + i)).
        { intros k i Hk Hi. rewrite (HF RL), (HE RL) by auto. apply PSY; lia. }
        split.
        { intros i j Hi Hj. destruct (HS1 ltac:(lia)) as (_ & _ & _ & _ & HSV). rewrite !(HSV RL CJ N5) by auto. unfold schur_of. f_equal.
          - apply PSY; lia.
          - apply sum_ext. intros c Hc. unfold ccs_mat, crs_mat. apply (sym_prod O FL). }
        exists W. split.
        * intros i j Hi Hj. unfold Bmat. rewrite Epm, EL, EU, Ed. rewrite (HW i j) by auto. rewrite B4 by auto. rewrite HFs by auto. reflexivity.
        * intros i j Hi Hj. rewrite Epp, Epq, Es, Et.
          rewrite MM; [|apply re_p; auto|apply re_p; auto].
          change (pscaled s s (crs_mat A) (bp (o_p r)) (bp (o_p r)) i j = blk2 m (Bmat P) (ccs_mat (pF P)) (ccs_mat (pE P)) (madd (Spec.mmul m (ccs_mat (pE P)) W) (crs_mat Sc0)) i j).
          unfold blk2. destruct (Nat.ltb_spec i m) as [Hi'|Hi']; destruct (Nat.ltb_spec j m) as [Hj'|Hj'].
          -- unfold Bmat. rewrite Epm, EL, EU, Ed. symmetry. now apply B3.
          -- rewrite HFs by lia. replace (m + (j - m)) with j by lia. auto.
          -- rewrite (HE RL) by lia. replace (m + (i - m)) with i by lia. auto.
          -- destruct (HS1 ltac:(lia)) as (_ & _ & _ & _ & HSV). unfold madd at 1. rewrite (HSV RL CJ N5) by lia. unfold schur_of.
             assert (X : Spec.mmul m (ccs_mat (pE P)) W (i - m) (j - m) = sum m (fun c => tmul O (tmul O (ccs_mat (o_L r) (m + (i - m)) c) (v_ (o_d r) c)) (crs_mat (o_L r) c (m + (j - m))))).
             { rewrite <- (ldu_E_W O FL m (n - m) (ccs_mat L_B) (ccs_mat U_B) (v_ (o_d r)) (fun a c => ccs_mat (o_L r) (m + a) c) (fun c j => crs_mat (o_L r) c (m + j)) W B1 DN HW (i - m) (j - m) ltac:(lia)).
               unfold Spec.mmul. apply sum_ext. intros k Hk. f_equal. rewrite (HE RL) by lia. symmetry. apply B5; lia. }
             rewrite X. unfold v_. rewrite (msub_add O FL). f_equal; lia.
  Qed.
End L.
