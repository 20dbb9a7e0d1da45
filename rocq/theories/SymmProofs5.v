(** * SymmProofs5: the symmetric hierarchy. *)
From Coq Require Import List Arith Lia Bool Permutation Ring.
From Verif Require Import Base Scalar Spec CSModel CSSpec CSProofs ConvModel ConvSpec BucketProofs ConvProofs ConvProofs2
  ConvProofs3 ConvProofs4 Mag VecModel VecSpec VecProofs PruneModel CroutModel CroutSpec
  SchurModel SchurSpec PrecModel PrecSpec LevelMath LinAlg PrecProofs StaleProofs FactorModel FactorSpec FactorMath PropConv PropVec PropCrout PropSchur
  FactorProofs1 FactorProofs2 FactorProofs3 FactorProofs4 FactorProofs5 SymmModel SymmSpec SymmProofs3 SymmProofs4.
Import ListNotations.

Lemma matof_sym : forall O rm (A : CS O), meq (psize A) (psize A) (crs_mat A) (ccs_mat A) <-> meq (psize A) (psize A) (matof rm A) (fun i j => matof rm A j i).
Proof. intros O rm A. unfold matof, crs_mat, ccs_mat, meq. destruct rm; [tauto|]. split; intros H i j Hi Hj; symmetry; auto. Qed.

Section L.
  Context {O : Ops}.
  Notation T := (T O).
  Variable G : Mag O.
  Variables root shrink times : M G -> nat -> M G.
  Variable bad : M G -> T -> bool.
  Variable big : T -> bool.
  Variable mdiv : M G -> M G -> M G.
  Variable ceil_mul : M G -> nat -> nat.
  Variable nth_el : (nat -> M G) -> nat -> list nat -> list nat.
  Variable opts : HOpts G.
  Variable pre : nat -> CS O -> CS O -> res (list T * list T * BiPerm * BiPerm * nat).
  Variable low : nat -> nat -> nat.
  Variable go_dense : nat -> nat -> nat -> bool.
  Variable mk_symm : nat -> list T -> Dense O.
  Variable junkT : nat -> nat -> nat -> T.
  Variable junkN : nat -> nat -> nat -> nat.
  Variables (ji : nat) (jv : T).
  Hypothesis ML : MagLaws G.
  Hypothesis NE : nth_element_ok (mle G) nth_el.

  Notation symm_level := (symm_level G root shrink times bad big mdiv ceil_mul nth_el opts pre low go_dense mk_symm junkT junkN ji jv).
  Notation symm_kernel := (symm_kernel G root shrink times bad big mdiv ceil_mul nth_el opts pre low go_dense mk_symm junkT junkN ji jv).
  Notation aL := (aL G times opts).
  Notation dropping_off := (dropping_off G shrink times mdiv ceil_mul opts).

  Lemma symm_level_err : forall lvl (rm : bool) (A : CS O) rs, valid A -> tight A -> ssize A = psize A ->
    pre lvl A A = Err -> symm_level lvl rm A rs = Err.
  Proof.
    intros lvl rm A rs VA TA SA HP. unfold SymmModel.symm_level. destruct (Nat.eqb_spec (psize A) (ssize A)); [|lia]. cbn [negb]. cbv zeta.
    rewrite (nnz_l A (proj1 VA) TA). cbn [bind].
    destruct (first_sizes_l (low (nnz_of A) (psize A)) A (proj1 VA)) as (r1 & F1 & _).
    destruct (lvl =? 1); rewrite ?F1; cbn [bind]; rewrite HP; reflexivity.
  Qed.

  Lemma symm_kernel_safe : symm_pre_safe pre -> symm_total mk_symm -> (forall k j, 1 <= k -> 1 <= low k j) ->
    (forall lvl, ceil_pos G ceil_mul (aL false lvl)) ->
    forall fuel lvl (rm : bool) (A : CS O) rs, 1 <= lvl ->
    valid A -> tight A -> ssize A = psize A -> 1 <= psize A -> psize A <= fuel ->
    (lvl = 1 -> 1 <= nnz_of A) -> (lvl <> 1 -> ssizes_ok (psize A) rs) ->
    symm_kernel fuel lvl rm A rs = Err \/
    exists precs, symm_kernel fuel lvl rm A rs = Ok precs /\ Forall fix_ok precs /\ length precs <= psize A /\
      (forall ld tr, hier_shape (fun P => dense_solve O P ld tr) (map fixP precs) (psize A)) /\
      (forall ld tr, hier_shape (fun P => dense_mul O P ld tr) (map fixP precs) (psize A)).
  Proof.
    intros HP HD HL CL. induction fuel as [|fuel IH]; intros lvl rm A rs Hl VA TA SA Hn Hf Hz Hs; [lia|].
    cbn [SymmModel.symm_kernel]. destruct (Nat.eqb_spec (psize A) (ssize A)); [|lia]. cbn [negb].
    destruct (HP lvl (psize A) A VA eq_refl SA Hn) as [E|(s & t & p & q & m2 & E & PG)].
    { rewrite symm_level_err; auto. }
    destruct (symm_level_l G root shrink times bad big mdiv ceil_mul nth_el opts pre low go_dense mk_symm junkT junkN ji jv ML NE
      lvl rm A rs s t p q m2 VA TA SA Hn HL Hz Hs (CL lvl) E PG) as (P & Sc & rs' & C & EL & EN & DN & FX & LS & NL & LA & _).
    rewrite EL. cbn [bind].
    assert (LS2 : pm P <= psize A). { pose proof (ls_m _ _ LS) as X. rewrite fix_m, fix_n in X. lia. }
    assert (FSY : psymm (fixP P) = psymm P) by (unfold fixP; destruct (pm P =? 0); auto).
    destruct (is_last_level O P) eqn:LL.
    - right. exists [P]. split; auto. split; [constructor; auto|]. split; [cbn; lia|]. split; intros ld tr; cbn [map hier_shape]; rewrite fix_n, fix_m, fix_last, LL; (split; [auto|split; [auto|]]).
      all: intros Hm y Ly; rewrite EN in *; destruct (LA eq_refl Hm) as (D & ED & LD & _); unfold dense_solve, dense_mul; rewrite fix_dense, DN, FSY, ED; apply (HD (psize A - pm P) D ld y ltac:(lia) LD Ly).
    - destruct (NL eq_refl) as (Hm & VS & TS & PS & SS & SZ & _).
      destruct (IH (S lvl) rm Sc rs' ltac:(lia) VS TS ltac:(lia) ltac:(lia) ltac:(lia) ltac:(lia)) as [E'|(precs & E' & F' & L' & H1 & H2)].
      { rewrite PS. auto. }
      { left. rewrite E'. auto. }
      right. rewrite E'. cbn [bind]. exists (P :: precs). split; auto. split; [constructor; auto|]. split; [cbn [length]; lia|].
      split; intros ld tr; cbn [map hier_shape]; rewrite fix_n, fix_m, fix_last, LL, EN; (split; [auto|split; [auto|]]); rewrite <- PS; auto.
  Qed.

  Lemma symm_kernel_exact : FieldLaws O -> (forall x, tconj O x = x) -> symm_pre_total pre -> (forall k j, 1 <= k -> 1 <= low k j) ->
    (forall kd, bad kd (t0 O) = true) ->
    forall N, dropping_off N ->
    forall fuel lvl (rm : bool) (A : CS O) rs, 1 <= lvl -> psize A <= N ->
    valid A -> tight A -> ssize A = psize A -> 1 <= psize A -> psize A <= fuel ->
    meq (psize A) (psize A) (crs_mat A) (ccs_mat A) ->
    injective_on (psize A) (matof rm A) -> (lvl <> 1 -> ssizes_ok (psize A) rs) ->
    exists precs k D, symm_kernel fuel lvl rm A rs = Ok precs /\ Forall fix_ok precs /\ Forall real_scaling (map fixP precs) /\
      k <= psize A /\ (1 <= k -> length D = k * k /\ injective_on k (col_mat k D) /\ meq k k (col_mat k D) (fun i j => col_mat k D j i) /\
        exists l P, precs = l ++ [P] /\ psymm P = Some (mk_symm k D)) /\
      forall ld, (1 <= k -> symm_exact_at ld k (col_mat k D) (mk_symm k D)) -> hier_ok ld (map fixP precs) (psize A) /\ prec_matrix ld (map fixP precs) (matof rm A).
  Proof.
    intros FL CJ HP HL HB N HO. pose proof (fl_ring O FL) as RL.
    induction fuel as [|fuel IH]; intros lvl rm A rs Hl HN VA TA SA Hn Hf HY HI Hs; [lia|].
    cbn [SymmModel.symm_kernel]. destruct (Nat.eqb_spec (psize A) (ssize A)); [|lia]. cbn [negb].
    assert (IC : injective_on (psize A) (crs_mat A)).
    { destruct rm; [exact HI|]. eapply injective_ext; [|exact HI]. intros i j Hi Hj. unfold matof. symmetry. now apply HY. }
    destruct (HP lvl (psize A) A VA eq_refl SA Hn HY IC) as (s & p & q & m2 & E & PG & Hqp).
    pose proof (inj_nnz FL rm A VA SA Hn HI) as HZ.
    assert (GL : generous G ceil_mul N (aL false lvl)). { destruct (off_a G shrink times big mdiv ceil_mul opts pre low go_dense mk_symm junkT junkN ji jv N false lvl HO). auto. }
    pose proof (generous_pos G ceil_mul N _ ltac:(lia) GL) as CL.
    destruct (symm_level_l G root shrink times bad big mdiv ceil_mul nth_el opts pre low go_dense mk_symm junkT junkN ji jv ML NE
      lvl rm A rs s s p q m2 VA TA SA Hn HL (fun _ => HZ) Hs CL E PG) as (P & Sc & rs' & C & EL & EN & DN & FX & LS & NL & LA & RS & LO & LV).
    specialize (RS FL). specialize (LO FL (HB _)).
    specialize (LV FL CJ (HB _) (off_no_drop G root shrink times big mdiv ceil_mul opts pre low go_dense mk_symm junkT junkN ji jv N (psize A) false lvl HO Hl HN) HY eq_refl Hqp). destruct LV as (CS_ & LV).
    assert (FPS : ps (fixP P) = ps P /\ pt (fixP P) = pt P /\ pp (fixP P) = pp P /\ pq (fixP P) = pq P /\ pF (fixP P) = pF P /\ pE (fixP P) = pE P).
    { unfold fixP. destruct (pm P =? 0); cbn; auto 10. } destruct FPS as (FP1 & FP2 & FP3 & FP4 & FP5 & FP6).
    assert (FSY : psymm (fixP P) = psymm P) by (unfold fixP; destruct (pm P =? 0); auto).
    assert (IC2 : injective_on (psize A - pm P) C).
    { pose proof LO as LO'. destruct LO'. rewrite fix_n, ?fix_m, ?FP1, ?FP2, ?FP3, ?FP4, EN in *.
      eapply (level_inj_rev O FL); [| | | | |exact LV|exact HI]; eauto; [apply lo_s|apply lo_t]. }
    assert (LS2 : pm P <= psize A). { pose proof (ls_m _ _ LS) as X. rewrite fix_m, fix_n in X. lia. }
    rewrite EL. cbn [bind]. destruct (is_last_level O P) eqn:LL.
    - set (k := psize A - pm P) in *. exists [P], k.
      assert (LD : exists D, 1 <= k -> psymm P = Some (mk_symm k D) /\ length D = k * k /\ meq k k (col_mat k D) C).
      { destruct (Nat.eq_dec k 0) as [Z|Z]; [exists []; lia|]. destruct (LA eq_refl ltac:(lia)) as (D & ED & LD & HD2). exists D. intros _. split; auto. split; auto.
        intros i j Hi Hj. unfold col_mat. now apply (HD2 RL). }
      destruct LD as (D & LD). exists D. split; auto. split; [constructor; auto|]. split; [constructor; auto|]. split; [lia|].
      assert (ID : 1 <= k -> injective_on k (col_mat k D)).
      { intros Hk. destruct (LD Hk) as (_ & _ & EC). eapply injective_ext; [|exact IC2]. intros i j Hi Hj. symmetry. now apply EC. }
      split. { intros Hk. destruct (LD Hk) as (ED & LD' & EC). split; auto. split; auto. split; [|exists [], P; auto]. intros i j Hi Hj. rewrite !EC by auto. now apply CS_. }
      assert (DI : pm P < psize A -> forall ld, (1 <= k -> symm_exact_at ld k (col_mat k D) (mk_symm k D)) -> dense_is (fixP P) ld C).
      { intros Hm ld HD. assert (Hk : 1 <= k) by lia. specialize (HD Hk). destruct (LD Hk) as (ED & LD' & EC).
        assert (EC2 : meq k k (col_mat k D) (madj C)). { intros i j Hi Hj. unfold madj. rewrite CJ, EC by auto. now apply CS_. }
        assert (X : forall (M M' : nat -> nat -> T) x, meq k k M M' -> veq k (mvec k M x) (mvec k M' x)).
        { intros M M' x EM i Hi. unfold mvec. apply sum_ext. intros j Hj. rewrite EM; auto. }
        split; rewrite ?fix_n, ?fix_m, EN; auto; fold k.
        1-4: intros y Ly; unfold dense_solve, dense_mul; rewrite fix_dense, DN, FSY, ED; destruct (HD y Ly) as ((z1 & D1 & L1 & V1') & (z3 & D3 & L3 & V3)).
        - exists z1. split; auto. split; auto. intros i Hi. rewrite <- V1' by auto. symmetry. apply X; auto.
        - exists z1. split; auto. split; auto. intros i Hi. rewrite <- V1' by auto. symmetry. apply X; auto.
        - exists z3. split; auto. split; auto. intros i Hi. rewrite V3 by auto. apply X; auto.
        - exists z3. split; auto. split; auto. intros i Hi. rewrite V3 by auto. apply X; auto.
        - eapply injective_ext; [|exact (ID Hk)]. exact EC2. }
      intros ld HD; split; cbn [map hier_ok prec_matrix]; rewrite fix_last, LL.
      + split; auto. rewrite fix_n, fix_m, EN. split; auto. destruct (Nat.eq_dec (pm P) (psize A)); auto. right. exists C. apply DI; [lia|auto].
      + exists C. rewrite fix_n, fix_m, EN, FP1, FP2, FP3, FP4, FP5, FP6. split; auto. destruct (Nat.eq_dec (pm P) (psize A)); auto. right. apply DI; [lia|auto].
    - destruct (NL eq_refl) as (Hm & VS & TS & PS & SS & SZ & HM). specialize (HM RL).
      assert (IS : injective_on (psize Sc) (matof rm Sc)). { rewrite PS. eapply injective_ext; [|exact IC2]. intros i j Hi Hj. symmetry. now apply HM. }
      assert (SYS : meq (psize Sc) (psize Sc) (crs_mat Sc) (ccs_mat Sc)).
      { apply (matof_sym O rm). rewrite PS. intros i j Hi Hj. rewrite !HM by auto. now apply CS_. }
      destruct (IH (S lvl) rm Sc rs' ltac:(lia) ltac:(lia) VS TS ltac:(lia) ltac:(lia) ltac:(lia) SYS IS) as (precs & k & D & E' & F' & R' & K1 & K2 & H12).
      { rewrite PS. auto. }
      rewrite E'. cbn [bind]. exists (P :: precs), k, D. split; auto. split; [constructor; auto|]. split; [cbn [map]; constructor; auto|]. split; [lia|].
      split. { intros Hk. destruct (K2 Hk) as (L1 & L2 & L3 & l & P' & -> & EP). split; auto. split; auto. split; auto. exists (P :: l), P'. auto. }
      intros ld HD; destruct (H12 ld HD) as (H1 & H2); split; cbn [map hier_ok prec_matrix]; rewrite fix_last, LL.
      + split; auto. rewrite fix_n, fix_m, EN. split; auto. rewrite <- PS. auto.
      + exists (matof rm Sc). rewrite fix_n, fix_m, EN, FP1, FP2, FP3, FP4, FP5, FP6. split; auto.
        eapply level_of_ext; [|exact LV]. intros i j Hi Hj. symmetry. apply HM; auto.
  Qed.
End L.
