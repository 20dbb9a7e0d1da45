(** * FactorProofs3: one level. *)
From Coq Require Import List Arith Lia Bool Permutation Ring.
From Verif Require Import Base Scalar Spec CSModel CSSpec CSProofs ConvModel ConvSpec BucketProofs ConvProofs ConvProofs2
  ConvProofs3 ConvProofs4 Mag VecModel VecSpec VecProofs PruneModel CroutModel CroutSpec CroutProofs3 CroutProofs9 CroutProofs11
  SchurModel SchurSpec SchurProofs3 PrecModel PrecSpec LevelMath LinAlg PrecProofs FactorModel FactorSpec FactorMath PropConv PropVec PropCrout PropSchur
  FactorProofs1 FactorProofs2.
Import ListNotations.

Section Math.
  Variable O : Ops.
  Hypothesis FL : FieldLaws O.
  Let RL := fl_ring O FL.
  Add Ring TM3 : (rl_ring O RL).
  Lemma madd0_l : forall x : T O, tadd O (t0 O) x = x. Proof. intros. ring. Qed.
  Lemma madd0_r : forall x : T O, tadd O x (t0 O) = x. Proof. intros. ring. Qed.
  Lemma msub_add : forall x y : T O, tadd O y (tsub O x y) = x. Proof. intros. ring. Qed.
  Lemma mul1 : forall x : T O, tmul O (tmul O (t1 O) x) (t1 O) = x. Proof. intros. ring. Qed.
  Lemma mass : forall a b c : T O, tmul O a (tmul O b c) = tmul O (tmul O a b) c. Proof. intros. ring. Qed.
End Math.

Section L.
  Context {O : Ops}.
  Notation T := (T O).
  Variable G : Mag O.
  Variables root shrink times : M G -> nat -> M G.
  Variable bad : M G -> T -> bool.
  Variable big : T -> bool.
  Variable mdiv : M G -> M G -> M G.
  Variable ceil_mul : M G -> nat -> nat.
  Variable nth_el : (nat -> M G) -> nat -> list nat -> list nat.
  Variable opts : HOpts G.
  Variable pre : nat -> CS O -> CS O -> res (list T * list T * BiPerm * BiPerm * nat).
  Variable low : nat -> nat -> nat.
  Variable go_dense : nat -> nat -> nat -> bool.
  Variable mk_dense : nat -> list T -> Dense O.
  Variable junkT : nat -> nat -> nat -> T.
  Variable junkN : nat -> nat -> nat -> nat.
  Variables (ji : nat) (jv : T).
  Hypothesis ML : MagLaws G.
  Hypothesis NE : nth_element_ok (mle G) nth_el.

  Notation aL := (aL G times opts). Notation aU := (aU G times opts).

  Definition sizes_ok (n : nat) (rs cs : list nat) : Prop :=
    n <= length rs /\ n <= length cs /\ (forall i, i < n -> 1 <= nth i rs 0) /\ (forall i, i < n -> 1 <= nth i cs 0).

  (** Nothing is dropped at level [lvl] of size [n]. *)
  Definition no_drop (piv : bool) (lvl n : nat) : Prop :=
    let '(kd, kk, tl, tu, al, au) := determine_fac_pars G root shrink times opts lvl in
    let al := if piv then times al 4 else al in let au := if piv then times au 4 else au in
    (forall x, mle G (mdiv tl x) (m0 G) = true) /\ (forall x, mle G (mdiv tu x) (m0 G) = true) /\
    (forall k, 1 <= k -> n * 2 <= ceil_mul al k) /\ (forall k, 1 <= k -> n * 2 <= ceil_mul au k) /\
    generous G ceil_mul n (aL piv lvl) /\ generous G ceil_mul n (aU piv lvl).
  Definition kd_of (lvl : nat) : M G := let '(kd, _, _, _, _, _) := determine_fac_pars G root shrink times opts lvl in kd.

  Lemma nnz_l : forall A : CS O, wf A -> tight A -> nnz O A = Ok (nnz_of A).
  Proof.
    intros A W (T1 & T2 & T3). unfold nnz, nnz_of. destruct (indices A) as [|x l] eqn:E.
    - rewrite <- T2. reflexivity.
    - pose proof (wf_first O A W) as F. unfold st in *. rewrite (get_nth _ (ind_start A) 0 0) by lia. cbn [bind].
      rewrite (get_nth _ (ind_start A) _ 0) by lia. cbn [bind]. rewrite F. f_equal. rewrite Nat.sub_0_r. f_equal. lia.
  Qed.

  Lemma both_storages : forall (rm : bool) (A : CS O), valid A -> tight A -> psize A = ssize A ->
    exists B, other_storage O ji jv A = Ok B /\
      let A_crs := (if rm then A else B) in let A_ccs := (if rm then B else A) in
      valid A_crs /\ valid A_ccs /\ psize A_crs = psize A /\ ssize A_crs = psize A /\ psize A_ccs = psize A /\ ssize A_ccs = psize A /\
      (RingLaws O -> meq (psize A) (psize A) (ccs_mat A_ccs) (crs_mat A_crs)) /\
      (RingLaws O -> meq (psize A) (psize A) (crs_mat A_crs) (matof rm A)).
  Proof.
    intros rm A (W & S) T E. destruct (C04_conversion_keeps_entries O A ji jv W T) as (B & E1 & WB & TB & PB & SB & _ & _ & SO & HM).
    exists B. split; auto. assert (VB : valid B) by (split; auto; apply SO; now apply sorted_distinct).
    unfold matof. destruct rm; cbn zeta.
    - split; [split; auto|]. split; auto. split; auto. split; [lia|]. split; [lia|]. split; [lia|]. split; [|intros RL i j Hi Hj; auto].
      intros RL i j Hi Hj. apply HM; auto; lia.
    - split; auto. split; [split; auto|]. split; [lia|]. split; [lia|]. split; auto. split; [lia|].
      assert (X : RingLaws O -> meq (psize A) (psize A) (ccs_mat A) (crs_mat B)).
      { intros RL i j Hi Hj. unfold ccs_mat, crs_mat. specialize (HM RL j i ltac:(lia) ltac:(lia)). unfold ccs_mat, crs_mat in HM. auto. }
      split; auto. intros RL i j Hi Hj. symmetry. now apply X.
  Qed.

  (** ** From the blocks to the finished level *)
  Record MID (n m m2 : nat) (L_B U_B Sc : CS O) (s t : list T) (p q : BiPerm) : Prop := {
    md_m : m <= n;
    md_0 : m = 0 -> L_B = mkCS 0 0 [] [] [] /\ U_B = mkCS 0 0 [] [] [];
    md_1 : 0 < m -> wf L_B /\ psize L_B = m /\ ssize L_B = m /\ wf U_B /\ psize U_B = m /\ ssize U_B = m;
    md_s : length s = n; md_t : length t = n;
    md_p : is_inv n (bp p) (bpi p); md_q : is_inv n (bp q) (bpi q);
    md_S0 : m = n -> Sc = mkCS 0 0 [] [] [];
    md_S : m < n -> valid Sc /\ tight Sc /\ psize Sc = n - m /\ ssize Sc = n - m }.

  Notation finish := (finish_level go_dense mk_dense junkN ji jv).

  Lemma finish_l : forall lvl n m m2 rm moderate A_crs A_ccs r rs cs L_B U_B Sc s t p q,
    1 <= n -> valid A_crs -> valid A_ccs -> psize A_crs = n -> ssize A_crs = n -> psize A_ccs = n -> ssize A_ccs = n ->
    MID n m m2 L_B U_B Sc s t p q -> sizes_ok n rs cs -> m <= length (o_d r) -> m <= length (sv_vals (o_u r)) ->
    exists P Sc' rs' cs', finish lvl n m rm moderate A_crs A_ccs r rs cs L_B U_B Sc s t p q = Ok (P, Sc', rs', cs') /\
      pm P = m /\ pn P = n /\ psymm P = None /\ fix_ok P /\ level_shape (fixP P) /\
      pL P = L_B /\ pU P = U_B /\ pd P = o_d r /\ ps P = s /\ pt P = t /\ pp P = bp p /\ pq P = bp q /\
      (is_last_level O P = false -> 1 <= m < n /\ valid Sc' /\ tight Sc' /\ psize Sc' = n - m /\ ssize Sc' = n - m /\
         sizes_ok (n - m) rs' cs' /\ (RingLaws O -> meq (n - m) (n - m) (matof rm Sc') (crs_mat Sc))) /\
      (is_last_level O P = true -> m < n -> exists D, pdense P = Some (mk_dense (n - m) D) /\
         length D = (n - m) * (n - m) /\ (RingLaws O -> forall i j, i < n - m -> j < n - m -> nth (i + j * (n - m)) D (t0 O) = crs_mat Sc i j)) /\
      (RingLaws O -> forall a k, a < n - m -> k < m -> ccs_mat (pE P) a k = pscaled s t (crs_mat A_crs) (bp p) (bp q) (m + a) k) /\
      (RingLaws O -> forall k i, k < m -> i < n - m -> ccs_mat (pF P) k i = pscaled s t (ccs_mat A_ccs) (bp p) (bp q) k (m + i)).
  Proof.
    intros lvl n m m2 rm moderate A_crs A_ccs r rs cs L_B U_B Sc s t p q Hn V1 V2 P1 S1 P2 S2 MI (Lr & Lc & Pr & Pc) Ld Lu.
    destruct MI as [md_m0 Md0 Md1 md_s0 md_t0 md_p0 md_q0 md_S1 md_S2]. unfold finish_level.
    pose proof (is_inv_perm _ _ _ md_p0) as Pp. pose proof (is_inv_perm _ _ _ md_q0) as Pq.
    assert (X1 : exists k, for_range m n (fun i acc =>
        pi <- get (bp p) i ;; a <- get rs pi ;; qi <- get (bp q) i ;; b <- get cs qi ;; Ok (acc + (a + b))%nat) 0 = Ok k).
    { assert (W : wp (for_range m n (fun i acc =>
        pi <- get (bp p) i ;; a <- get rs pi ;; qi <- get (bp q) i ;; b <- get cs qi ;; Ok (acc + (a + b))%nat) 0) (fun _ => True)).
      { apply (for_range_inv _ (fun _ _ => True)); auto. intros i acc Hi _. destruct Pp as (Lp & Rp & _). destruct Pq as (Lq & Rq & _).
        specialize (Rp i ltac:(lia)). specialize (Rq i ltac:(lia)).
        wpb. apply wp_get with (d := 0); [lia|]. wpb. apply wp_get with (d := 0); [lia|]. wpb. apply wp_get with (d := 0); [lia|].
        wpb. apply wp_get with (d := 0); [lia|]. apply wp_ok. auto. }
      apply wp_inv in W. destruct W as (k & E & _). eauto. }
    destruct X1 as (AmB & EA). rewrite EA. cbn [bind]. clear EA. cbv zeta.
    assert (X2 : exists dense, (if moderate || go_dense lvl (n - m) AmB || (m =? 0) then
          D <- dense_of_crs O Sc ;; Ok (if psize Sc =? 0 then None else Some (mk_dense (psize Sc) D))
        else Ok None) = Ok dense /\
        (dense = None -> m = n \/ 1 <= m) /\
        (forall D0, dense = Some D0 -> m < n /\ exists D, D0 = mk_dense (n - m) D /\
           length D = (n - m) * (n - m) /\ (RingLaws O -> forall i j, i < n - m -> j < n - m -> nth (i + j * (n - m)) D (t0 O) = crs_mat Sc i j))).
    { destruct (moderate || go_dense lvl (n - m) AmB || (m =? 0)) eqn:EM.
      - destruct (Nat.eq_dec m n) as [Em|Nm].
        + rewrite (md_S1 Em). cbn. exists None. split; auto. split; [auto|]. intros; discriminate.
        + destruct (md_S2 ltac:(lia)) as (VS & TS & PS & SS).
          assert (XD : exists D, dense_of_crs O Sc = Ok D /\ length D = (n - m) * (n - m)).
          { destruct VS as (WS & SSo). unfold dense_of_crs. pose proof (dense_wp O Sc (fun r j => r + j * psize Sc) (psize Sc * ssize Sc) WS SSo) as G1.
            apply wp_inv in G1.
            - destruct G1 as (D & ED & LD & _). rewrite PS, SS in LD. eauto.
            - intros i j Hi Hj. nia.
            - intros i j i' j' Hi Hj Hi' Hj' E. rewrite PS in *. assert (j = j') by nia. subst. lia. }
          destruct XD as (D & ED & LD0). rewrite ED. cbn [bind]. destruct (Nat.eqb_spec (psize Sc) 0); [lia|]. eexists. split; [reflexivity|].
          split; [discriminate|]. intros D0 E0. split; [lia|]. exists D. rewrite PS in E0. split; [congruence|]. split; [exact LD0|]. intros RL.
          destruct (C43_dense_of_crs O RL Sc VS) as (D' & ED' & LD & HD). rewrite ED in ED'. injection ED' as <-. rewrite PS, SS in *. auto.
      - exists None. split; auto. split; [|intros; discriminate]. intros _. right.
        apply orb_false_elim in EM. destruct EM as (_ & E0). apply Nat.eqb_neq in E0. lia. }
    destruct X2 as (dense & ED & HD0 & HD1). rewrite ED. cbn [bind]. clear ED.
    assert (X3 : exists rs' cs', (match dense with
        | Some _ => Ok (rs, cs)
        | None =>
          rs <- next_sizes m n (bp p) rs (jarrN junkN lvl 6 (n * 2)) ;;
          cs <- next_sizes m n (bp q) cs (jarrN junkN lvl 7 (n * 2)) ;;
          Ok (rs, cs)
        end) = Ok (rs', cs') /\ (dense = None -> sizes_ok (n - m) rs' cs')).
    { destruct dense as [D0|]. { exists rs, cs. split; auto. discriminate. }
      destruct (next_sizes_l m n (bp p) rs (jarrN junkN lvl 6 (n * 2)) md_m0 Pp Lr ltac:(rewrite jarrN_len; lia)) as (R1 & E1 & L1 & H1).
      destruct (next_sizes_l m n (bp q) cs (jarrN junkN lvl 7 (n * 2)) md_m0 Pq Lc ltac:(rewrite jarrN_len; lia)) as (R2 & E2 & L2 & H2).
      rewrite E1, E2. cbn [bind]. exists R1, R2. split; auto. intros _. split; [lia|]. split; [lia|].
      destruct Pp as (_ & Rp & _). destruct Pq as (_ & Rq & _). split; intros i Hi; [rewrite H1 by auto|rewrite H2 by auto]; [apply Pr, Rp|apply Pc, Rq]; lia. }
    destruct X3 as (rs' & cs' & ER & HR). rewrite ER. cbn [bind fst snd]. clear ER.
    destruct (C35_lower_left O n m s t A_crs (bp p) (bp q) (bpi q) ji jv V1 P1 S1 md_s0 md_t0 md_m0 Pp md_q0) as (E & EE & (VE & TE & PE & SE & _) & HE).
    rewrite EE. cbn [bind].
    destruct (C35_upper_right O n m s t A_ccs (bp p) (bpi p) (bp q) (sv_vals (o_u r)) ji jv V2 P2 S2 md_s0 md_t0 md_m0 Pq md_p0 Lu) as (F & EF & (VF & TF & PF & SF & _) & HF).
    rewrite EF. cbn [bind].
    set (P := mkPrec m n L_B (o_d r) U_B E F s t (bp p) (bpi p) (bp q) (bpi q) dense None).
    assert (LastF : is_last_level O P = false -> dense = None /\ 1 <= m < n).
    { unfold is_last_level, P. cbn [pdense psymm pm pn]. destruct dense; [discriminate|]. intros E0. apply Nat.eqb_neq in E0. split; auto.
      destruct (HD0 eq_refl); lia. }
    assert (X4 : exists Sc', (if is_last_level O P then Ok (mkCS 0 0 [] [] []) else if rm then Ok Sc else other_storage O ji jv Sc) = Ok Sc' /\
       (is_last_level O P = false -> valid Sc' /\ tight Sc' /\ psize Sc' = n - m /\ ssize Sc' = n - m /\ (RingLaws O -> meq (n - m) (n - m) (matof rm Sc') (crs_mat Sc)))).
    { destruct (is_last_level O P) eqn:EL. { eexists. split; [reflexivity|]. discriminate. }
      destruct (LastF eq_refl) as (_ & Hmn). destruct (md_S2 ltac:(lia)) as (VS & TS & PS & SS). destruct rm.
      - exists Sc. split; auto. intros _. repeat (split; [assumption|]). intros RL i j Hi Hj. reflexivity.
      - destruct (C04_conversion_keeps_entries O Sc ji jv (proj1 VS) TS) as (B & E1 & WB & TB & PB & SB & _ & _ & SO & HM).
        exists B. split; auto. intros _. split. { split; auto. apply SO. apply sorted_distinct, VS. }
        split; auto. split; [lia|]. split; [lia|]. intros RL i j Hi Hj. unfold matof. apply HM; auto; lia. }
    destruct X4 as (Sc' & ES & HS). rewrite ES. cbn [bind].
    exists P, Sc', rs', cs'. split; auto. do 3 (split; [reflexivity|]).
    assert (FX : fix_ok P). { intros E0. cbn in E0. apply Md0; auto. }
    split; auto. split.
    { unfold fixP. cbn [pm P]. destruct (Nat.eqb_spec m 0) as [E0|E0].
      - assert (W0 : wf (@mkCS O 0 0 [0] [] [])) by (apply wfb_wf; reflexivity).
        split; cbn [pm pn pL pU pd pE pF ps pt pp pp_inv pq pq_inv P]; auto; try lia; try (split; [exact W0|split; auto; cbn; lia]).
        all: intros _; split; [first [apply VE|apply VF]|auto].
      - destruct (Md1 ltac:(lia)) as (A1 & A2 & A3 & A4 & A5 & A6).
        split; cbn [pm pn pL pU pd pE pF ps pt pp pp_inv pq pq_inv P]; auto; try lia.
        all: intros _; split; [first [apply VE|apply VF]|auto]. }
    do 7 (split; [reflexivity|]). split; [|split; [|split]].
    - intros EL. destruct (LastF EL) as (Dn & Hmn). destruct (HS EL) as (B1 & B2 & B3 & B4 & B5). split; [lia|]. split; [exact B1|]. split; [exact B2|]. split; [exact B3|]. split; [exact B4|]. split; [exact (HR Dn)|exact B5].
    - intros EL Hlt. cbn [pdense P]. unfold is_last_level, P in EL. cbn [pdense psymm pm pn] in EL. destruct dense as [D0|].
      + destruct (HD1 D0 eq_refl) as (_ & D & E0 & E1). exists D. split; [congruence|auto].
      + apply Nat.eqb_eq in EL. lia.
    - intros RL a k Ha Hk. apply HE; auto.
    - intros RL k i Hk Hi. apply HF; auto.
  Qed.
End L.
