(** * FactorProofs5: all levels. *)
From Coq Require Import List Arith Lia Bool Permutation Ring Ring_theory.
From Verif Require Import Base Scalar Spec CSModel CSSpec CSProofs ConvModel ConvSpec BucketProofs ConvProofs ConvProofs2
  ConvProofs3 ConvProofs4 Mag VecModel VecSpec VecProofs PruneModel CroutModel CroutSpec CroutProofs3 CroutProofs9 CroutProofs11 PivotSpec
  SchurModel SchurSpec SchurProofs3 PrecModel PrecSpec LevelMath LinAlg PrecProofs FactorModel FactorSpec FactorMath PropConv PropVec PropCrout PropSchur
  FactorProofs1 FactorProofs2 FactorProofs3 FactorProofs4.
Import ListNotations.

Lemma level_of_ext : forall O m n s t p q (B F E C C' M : nat -> nat -> T O),
  meq (n - m) (n - m) C C' -> level_of m n s t p q B F E C M -> level_of m n s t p q B F E C' M.
Proof.
  intros O m n s t p q B F E C C' M H (W & H1 & H2). exists W. split; auto. intros i j Hi Hj. rewrite H2 by auto.
  unfold blk2. destruct (Nat.ltb_spec i m); destruct (Nat.ltb_spec j m); auto. unfold madd. f_equal. apply H; lia.
Qed.
Lemma injective_ext : forall O n (A B : nat -> nat -> T O), meq n n A B -> injective_on n A -> injective_on n B.
Proof.
  intros O n A B H I x y E. apply I. intros i Hi. transitivity (mvec n B x i); [|transitivity (mvec n B y i)]; auto; unfold mvec; apply sum_ext; intros; rewrite H; auto.
Qed.

Lemma mul0 : forall O, RingLaws O -> forall x : T O, tmul O (t0 O) x = t0 O.
Proof. intros O RL x. pose proof (rl_ring O RL) as R. apply (ARmul_0_l (Rth_ARth (Eqsth (T O)) (Eq_ext _ _ _) R)). Qed.

Section L.
  Context {O : Ops}.
  Notation T := (T O).
  Variable G : Mag O.
  Variables root shrink times : M G -> nat -> M G.
  Variable bad : M G -> T -> bool.
  Variable big : T -> bool.
  Variable mdiv : M G -> M G -> M G.
  Variable ceil_mul : M G -> nat -> nat.
  Variable nth_el : (nat -> M G) -> nat -> list nat -> list nat.
  Variable srt : list T -> list nat -> list nat.
  Variable opts : HOpts G.
  Variable pre : nat -> CS O -> CS O -> res (list T * list T * BiPerm * BiPerm * nat).
  Variable low : nat -> nat -> nat.
  Variable go_dense : nat -> nat -> nat -> bool.
  Variable mk_dense : nat -> list T -> Dense O.
  Variable junkT : nat -> nat -> nat -> T.
  Variable junkN : nat -> nat -> nat -> nat.
  Variables (ji : nat) (jv : T).
  Hypothesis ML : MagLaws G.
  Hypothesis NE : nth_element_ok (mle G) nth_el.
  Hypothesis SR : rearranges srt.

  Notation level_factorize := (level_factorize G root shrink times bad big mdiv ceil_mul nth_el srt opts pre low go_dense mk_dense junkT junkN ji jv).
  Notation factorize_kernel := (factorize_kernel G root shrink times bad big mdiv ceil_mul nth_el srt opts pre low go_dense mk_dense junkT junkN ji jv).
  Notation aL := (aL G times opts). Notation aU := (aU G times opts).
  Notation no_drop := (no_drop G root shrink times mdiv ceil_mul opts).
  Notation dropping_off := (dropping_off G shrink times mdiv ceil_mul opts).

  Lemma level_err : forall (piv retry : bool) lvl (rm : bool) (A : CS O) rs cs,
    valid A -> tight A -> ssize A = psize A -> 
    (forall B, other_storage O ji jv A = Ok B -> pre lvl (if rm then B else A) (if rm then A else B) = Err) ->
    level_factorize piv retry lvl rm A rs cs = Err.
  Proof.
    intros piv retry lvl rm A rs0 cs0 VA TA SA HPre. 
    destruct (both_storages ji jv rm A VA TA (eq_sym SA)) as (B & EB & V1 & V2 & P1 & S1 & P2 & S2 & _).
    specialize (HPre B EB). set (A_crs := if rm then A else B) in *. set (A_ccs := if rm then B else A) in *.
    unfold FactorModel.level_factorize. destruct (Nat.eqb_spec (psize A) (ssize A)); [|lia]. cbn [negb]. rewrite EB. cbn [bind].
    cbv zeta. fold A_crs A_ccs. rewrite (nnz_l A (proj1 VA) TA). cbn [bind].
    destruct (first_sizes_l (low (nnz_of A) (psize A)) A_crs (proj1 V1)) as (r1 & F1 & _).
    destruct (first_sizes_l (low (nnz_of A) (psize A)) A_ccs (proj1 V2)) as (r2 & F2 & _).
    destruct (lvl =? 1); rewrite ?F1, ?F2; cbn [bind]; rewrite HPre; reflexivity.
  Qed.

  (** ** The hierarchy is always usable *)
  Lemma kernel_safe : pre_safe pre -> total_dense mk_dense -> (forall k j, 1 <= k -> 1 <= low k j) ->
    (forall piv lvl, ceil_pos G ceil_mul (aL piv lvl)) -> (forall piv lvl, ceil_pos G ceil_mul (aU piv lvl)) ->
    forall fuel lvl (must rm : bool) (A : CS O) rs cs, 1 <= lvl ->
    valid A -> tight A -> ssize A = psize A -> 1 <= psize A -> psize A + (if must then 0 else 1) <= fuel ->
    (lvl = 1 -> 1 <= nnz_of A) -> (lvl <> 1 -> sizes_ok (psize A) rs cs) ->
    factorize_kernel fuel lvl must rm A rs cs = Err \/
    exists precs, factorize_kernel fuel lvl must rm A rs cs = Ok precs /\ Forall fix_ok precs /\ length precs <= psize A /\
      (forall ld tr, hier_shape (fun P => dense_solve O P ld tr) (map fixP precs) (psize A)) /\
      (forall ld tr, hier_shape (fun P => dense_mul O P ld tr) (map fixP precs) (psize A)).
  Proof.
    intros HP HD HL CL CU. induction fuel as [|fuel IH]; intros lvl must rm A rs cs Hl VA TA SA Hn Hf Hz Hs; [lia|].
    cbn [FactorModel.factorize_kernel]. destruct (Nat.eqb_spec (psize A) (ssize A)); [|lia]. cbn [negb]. cbv zeta.
    set (pv := match h_pivot G opts with PivOff => false | PivOn => true | PivAuto => must end). set (rt := match h_pivot G opts with PivAuto => negb must | _ => false end).
    destruct (both_storages ji jv rm A VA TA (eq_sym SA)) as (B & EB & V1 & V2 & P1 & S1 & P2 & S2 & _).
    destruct (HP lvl (psize A) _ _ V2 V1 P2 S2 P1 S1 Hn) as [E|(s & t & p & q & m2 & E & PG)].
    { rewrite level_err; auto. intros B' EB'. rewrite EB in EB'. injection EB' as <-. exact E. }
    destruct (level_l G root shrink times bad big mdiv ceil_mul nth_el srt opts pre low go_dense mk_dense junkT junkN ji jv ML NE SR
      pv rt lvl rm A rs cs s t p q m2 VA TA SA Hn HL Hz Hs (CL pv lvl) (CU pv lvl)) as [(RT & EL)|(P & Sc & rs' & cs' & C & EL & EN & SY & FX & LS & NL & LA & _)]; auto.
    { intros B' EB'. rewrite EB in EB'. injection EB' as <-. exact E. }
    { assert (must = false) by (unfold rt in RT; destruct (h_pivot G opts); try discriminate; destruct must; auto; discriminate). subst must.
      rewrite EL. cbn [bind]. apply (IH lvl true); auto. lia. }
    rewrite EL. cbn [bind].
    assert (LS2 : pm P <= psize A). { pose proof (ls_m _ _ LS) as X. rewrite fix_m, fix_n in X. lia. }
    destruct (is_last_level O P) eqn:LL.
    - right. exists [P]. split; auto. split; [constructor; auto|]. split; [cbn; lia|]. split; intros ld tr; cbn [map hier_shape]; rewrite fix_n, fix_m, fix_last, LL; (split; [auto|split; [auto|]]).
      all: intros Hm y Ly; rewrite EN in *; destruct (LA eq_refl Hm) as (D & ED & LD & _); unfold dense_solve, dense_mul; rewrite fix_dense, ED; apply (HD (psize A - pm P) D ld tr y ltac:(lia) LD Ly).
    - destruct (NL eq_refl) as (Hm & VS & TS & PS & SS & SZ & _).
      destruct (IH (S lvl) must rm Sc rs' cs' ltac:(lia) VS TS ltac:(lia) ltac:(lia) ltac:(lia) ltac:(lia)) as [E'|(precs & E' & F' & L' & H1 & H2)].
      { rewrite PS. auto. }
      { left. rewrite E'. auto. }
      right. rewrite E'. cbn [bind]. exists (P :: precs). split; auto. split; [constructor; auto|]. split; [cbn [length]; lia|].
      split; intros ld tr; cbn [map hier_shape]; rewrite fix_n, fix_m, fix_last, LL, EN; (split; [auto|split; [auto|]]); rewrite <- PS; auto.
  Qed.

  (** ** Without dropping it is the matrix *)
  Lemma generous_le : forall n k a, k <= n -> generous G ceil_mul n a -> generous G ceil_mul k a.
  Proof. intros n k a H (H1 & H2). split; auto. intros j Hj. specialize (H2 j Hj). lia. Qed.
  Lemma generous_pos : forall n a, 1 <= n -> generous G ceil_mul n a -> ceil_pos G ceil_mul a.
  Proof. intros n a H (H1 & H2) _ j Hj. specialize (H2 j Hj). lia. Qed.
  Lemma off_a : forall n (piv : bool) lvl, dropping_off n -> generous G ceil_mul n (aL piv lvl) /\ generous G ceil_mul n (aU piv lvl).
  Proof.
    intros n piv lvl [_ _ _ _ A B]. unfold multiples in *. rewrite !Forall_cons_iff in A, B.
    unfold FactorSpec.aL, FactorSpec.aU, offset_factor. destruct piv; destruct ((lvl =? 1) && h_fat_schur_1st G opts); tauto.
  Qed.
  Lemma off_no_drop : forall n k (piv : bool) lvl, dropping_off n -> 1 <= lvl -> k <= n -> no_drop piv lvl k.
  Proof.
    intros n k piv lvl HO Hl Hk. destruct (off_a n piv lvl HO) as (X1 & X2). destruct HO as [D1 D2 D3 D4 A B].
    unfold multiples in *. rewrite !Forall_cons_iff in A, B. destruct A as (A1 & A2 & A3 & A4 & A5 & A6 & A7 & _). destruct B as (B1 & B2 & B3 & B4 & B5 & B6 & B7 & _).
    unfold FactorProofs3.no_drop, determine_fac_pars. rewrite D3, D4, !D2.
    assert (Y : forall a, generous G ceil_mul n a -> forall j, 1 <= j -> k * 2 <= ceil_mul a j). { intros a (_ & H) j Hj. specialize (H j Hj). lia. }
    assert (Z : Nat.min lvl 2 = 1 \/ Nat.min lvl 2 = 2) by lia.
    destruct (h_rf_par G opts); [destruct (Nat.ltb_spec 2 lvl)|].
    all: split; [exact D1|]; split; [exact D1|].
    all: split; [destruct Z as [Z|Z]; rewrite ?Z; destruct piv; now apply Y|]; split; [destruct Z as [Z|Z]; rewrite ?Z; destruct piv; now apply Y|]; split; eapply generous_le; eauto.
  Qed.

  Lemma zdec : forall x : T, mle G (mabs G x) (m0 G) = true <-> x = t0 O.
  Proof.
    intros x. split; [apply is0_zero; auto|]. intros E. apply (ml_abs0 G ML) in E. rewrite E. apply (mle_refl ML).
  Qed.

  Lemma inj_nnz : FieldLaws O -> forall rm (A : CS O), valid A -> ssize A = psize A -> 1 <= psize A -> injective_on (psize A) (matof rm A) -> 1 <= nnz_of A.
  Proof.
    intros FL rm A (W & S) SA Hn I. pose proof (fl_ring O FL) as RL. destruct (Nat.le_gt_cases 1 (nnz_of A)); auto. exfalso.
    assert (Z : nnz_of A = 0) by lia.
    assert (E : forall i j, i < psize A -> ent A i j = t0 O).
    { intros i j Hi. apply (ent_not_stored O RL). intros v Hv. unfold stored in Hv. apply rowl_in in Hv. destruct Hv as (k & Hk & _).
      pose proof (st_mono O A W (Datatypes.S i) (psize A) ltac:(lia) ltac:(lia)). unfold nnz_of in Z. lia. }
    assert (MZ : forall i j, i < psize A -> j < psize A -> matof rm A i j = t0 O). { intros i j Hi Hj. destruct rm; unfold matof, crs_mat, ccs_mat; apply E; auto. }
    apply (fl_one O FL). apply (I (fun _ => t1 O) (fun _ => t0 O)) with (i := 0); [|lia].
    intros i Hi. unfold mvec. apply sum_ext. intros j Hj. rewrite MZ by auto. rewrite !(mul0 O RL). auto.
  Qed.

  Lemma kernel_exact : FieldLaws O -> pre_total pre -> (forall k j, 1 <= k -> 1 <= low k j) ->
    (forall kd, bad kd (t0 O) = true) ->
    forall N, dropping_off N ->
    forall fuel lvl (must rm : bool) (A : CS O) rs cs, 1 <= lvl -> psize A <= N ->
    valid A -> tight A -> ssize A = psize A -> 1 <= psize A -> psize A + (if must then 0 else 1) <= fuel ->
    injective_on (psize A) (matof rm A) -> (lvl <> 1 -> sizes_ok (psize A) rs cs) ->
    exists precs k D, factorize_kernel fuel lvl must rm A rs cs = Ok precs /\ Forall fix_ok precs /\ Forall real_scaling (map fixP precs) /\
      k <= psize A /\ (1 <= k -> length D = k * k /\ injective_on k (col_mat k D) /\ exists l P, precs = l ++ [P] /\ pdense P = Some (mk_dense k D)) /\
      forall ld, (1 <= k -> exact_at ld k (col_mat k D) (mk_dense k D)) -> hier_ok ld (map fixP precs) (psize A) /\ prec_matrix ld (map fixP precs) (matof rm A).
  Proof.
    intros FL HP HL HB N HO. pose proof (fl_ring O FL) as RL.
    induction fuel as [|fuel IH]; intros lvl must rm A rs cs Hl HN VA TA SA Hn Hf HI Hs; [lia|].
    cbn [FactorModel.factorize_kernel]. destruct (Nat.eqb_spec (psize A) (ssize A)); [|lia]. cbn [negb]. cbv zeta.
    set (pv := match h_pivot G opts with PivOff => false | PivOn => true | PivAuto => must end). set (rt := match h_pivot G opts with PivAuto => negb must | _ => false end).
    destruct (both_storages ji jv rm A VA TA (eq_sym SA)) as (B & EB & V1 & V2 & P1 & S1 & P2 & S2 & _ & HMA). specialize (HMA RL).
    assert (IC : injective_on (psize A) (crs_mat (if rm then A else B))).
    { eapply injective_ext; [|exact HI]. intros i j Hi Hj. symmetry. now apply HMA. }
    destruct (HP lvl (psize A) _ _ V2 V1 P2 S2 P1 S1 Hn IC) as (s & t & p & q & m2 & E & PG).
    pose proof (inj_nnz FL rm A VA SA Hn HI) as HZ. destruct (off_a N pv lvl HO) as (GL & GU).
    pose proof (generous_pos N _ ltac:(lia) GL) as CL. pose proof (generous_pos N _ ltac:(lia) GU) as CU.
    destruct (level_l G root shrink times bad big mdiv ceil_mul nth_el srt opts pre low go_dense mk_dense junkT junkN ji jv ML NE SR
      pv rt lvl rm A rs cs s t p q m2 VA TA SA Hn HL (fun _ => HZ) Hs CL CU) as [(RT & EL)|(P & Sc & rs' & cs' & C & EL & EN & SY & FX & LS & NL & LA & RS & LO & LV)]; auto.
    { intros B' EB'. rewrite EB in EB'. injection EB' as <-. exact E. }
    { assert (must = false) by (unfold rt in RT; destruct (h_pivot G opts); try discriminate; destruct must; auto; discriminate). subst must.
      rewrite EL. cbn [bind]. apply (IH lvl true); auto. lia. }
    specialize (RS FL). specialize (LO FL (HB _)). specialize (LV FL (HB _) (off_no_drop N (psize A) pv lvl HO Hl HN)).
    assert (FPS : ps (fixP P) = ps P /\ pt (fixP P) = pt P /\ pp (fixP P) = pp P /\ pq (fixP P) = pq P /\ pF (fixP P) = pF P /\ pE (fixP P) = pE P).
    { unfold fixP. destruct (pm P =? 0); cbn; auto 10. } destruct FPS as (FP1 & FP2 & FP3 & FP4 & FP5 & FP6).
    assert (IC2 : injective_on (psize A - pm P) C).
    { pose proof LO as LO'. destruct LO'. rewrite fix_n, ?fix_m, ?FP1, ?FP2, ?FP3, ?FP4, EN in *.
      eapply (level_inj_rev O FL); [| | | | |exact LV|exact HI]; eauto; [apply lo_s|apply lo_t]. }
    assert (LS2 : pm P <= psize A). { pose proof (ls_m _ _ LS) as X. rewrite fix_m, fix_n in X. lia. }
    rewrite EL. cbn [bind]. destruct (is_last_level O P) eqn:LL.
    - set (k := psize A - pm P). exists [P], k.
      assert (LD : exists D, 1 <= k -> pdense P = Some (mk_dense k D) /\ length D = k * k /\ meq k k (col_mat k D) C).
      { destruct (Nat.eq_dec k 0) as [Z|Z]; [exists []; lia|]. destruct (LA eq_refl ltac:(lia)) as (D & ED & LD & HD2). exists D. intros _. split; auto. split; auto.
        intros i j Hi Hj. unfold col_mat. now apply (HD2 RL). }
      destruct LD as (D & LD). exists D. split; auto. split; [constructor; auto|]. split; [constructor; auto|]. split; [lia|].
      assert (ID : 1 <= k -> injective_on k (col_mat k D)).
      { intros Hk. destruct (LD Hk) as (_ & _ & EC). eapply injective_ext; [|exact IC2]. intros i j Hi Hj. symmetry. now apply EC. }
      split. { intros Hk. destruct (LD Hk) as (ED & LD' & _). split; auto. split; auto. exists [], P. auto. }
      assert (DI : pm P < psize A -> forall ld, (1 <= k -> exact_at ld k (col_mat k D) (mk_dense k D)) -> dense_is (fixP P) ld C).
      { intros Hm ld HD. assert (Hk : 1 <= k) by lia. specialize (HD Hk). destruct (LD Hk) as (ED & LD' & EC).
        assert (EC2 : meq k k (madj (col_mat k D)) (madj C)) by (intros i j Hi Hj; unfold madj; rewrite EC; auto).
        assert (X : forall (M M' : nat -> nat -> T) x, meq k k M M' -> veq k (mvec k M x) (mvec k M' x)).
        { intros M M' x EM i Hi. unfold mvec. apply sum_ext. intros j Hj. rewrite EM; auto. }
        split; rewrite ?fix_n, ?fix_m, EN; auto; fold k.
        1-4: intros y Ly; unfold dense_solve, dense_mul; rewrite fix_dense, ED; destruct (HD y Ly) as ((z1 & D1 & L1 & V1') & (z2 & D2 & L2 & V2') & (z3 & D3 & L3 & V3) & (z4 & D4 & L4 & V4)).
        - exists z1. split; auto. split; auto. intros i Hi. rewrite <- V1' by auto. symmetry. apply X; auto.
        - exists z2. split; auto. split; auto. intros i Hi. rewrite <- V2' by auto. symmetry. apply X; auto.
        - exists z3. split; auto. split; auto. intros i Hi. rewrite V3 by auto. apply X; auto.
        - exists z4. split; auto. split; auto. intros i Hi. rewrite V4 by auto. apply X; auto.
        - apply (adj_inj O (fun x => mle G (mabs G x) (m0 G)) FL zdec). auto. }
      intros ld HD; split; cbn [map hier_ok prec_matrix]; rewrite fix_last, LL.
      + split; auto. rewrite fix_n, fix_m, EN. split; auto. destruct (Nat.eq_dec (pm P) (psize A)); auto. right. exists C. apply DI; [lia|auto].
      + exists C. rewrite fix_n, fix_m, EN, FP1, FP2, FP3, FP4, FP5, FP6. split; auto. destruct (Nat.eq_dec (pm P) (psize A)); auto. right. apply DI; [lia|auto].
    - destruct (NL eq_refl) as (Hm & VS & TS & PS & SS & SZ & HM). specialize (HM RL).
      assert (IS : injective_on (psize Sc) (matof rm Sc)). { rewrite PS. eapply injective_ext; [|exact IC2]. intros i j Hi Hj. symmetry. now apply HM. }
      destruct (IH (S lvl) must rm Sc rs' cs' ltac:(lia) ltac:(lia) VS TS ltac:(lia) ltac:(lia) ltac:(lia) IS) as (precs & k & D & E' & F' & R' & K1 & K2 & H12).
      { rewrite PS. auto. }
      rewrite E'. cbn [bind]. exists (P :: precs), k, D. split; auto. split; [constructor; auto|]. split; [cbn [map]; constructor; auto|]. split; [lia|].
      split. { intros Hk. destruct (K2 Hk) as (L1 & L2 & l & P' & -> & EP). split; auto. split; auto. exists (P :: l), P'. auto. }
      intros ld HD; destruct (H12 ld HD) as (H1 & H2); split; cbn [map hier_ok prec_matrix]; rewrite fix_last, LL.
      + split; auto. rewrite fix_n, fix_m, EN. split; auto. rewrite <- PS. auto.
      + exists (matof rm Sc). rewrite fix_n, fix_m, EN, FP1, FP2, FP3, FP4, FP5, FP6. split; auto.
        eapply level_of_ext; [|exact LV]. intros i j Hi Hj. symmetry. apply HM; auto.
  Qed.
End L.
