(** * FillProofs4: the fill of the symmetric factorization (partial correctness). *)
From Coq Require Import List Arith Lia Bool Permutation.
From Verif Require Import Base Scalar Spec CSModel CSSpec CSProofs ConvModel ConvSpec BucketProofs ConvProofs ConvProofs2
  ConvProofs3 ConvProofs4 Mag VecModel VecSpec VecProofs PruneModel PruneProofs CroutModel CroutSpec CroutProofs3 CroutProofs9
  SchurModel SchurSpec SchurProofs3 PrecModel PrecSpec LevelMath LinAlg PrecProofs FactorModel FactorSpec PropConv PropVec PropSchur
  FactorProofs1 FactorProofs2 FactorProofs3 SymmModel SymmSpec SymmProofs1 SymmProofs2 SymmProofs3 PropSymm SymmProofs4 SymmProofs5 FillSpec FillProofs1 FillProofs3.
Import ListNotations.

Section A.
  Context {O : Ops}.
  Notation T := (T O).
  Notation is F := (ind_start (fm F)).
  Variable bad : T -> bool.
  Variable klt : T -> T -> bool.
  Variable kbad : T -> bool.
  Variables is0 big : T -> bool.
  Variable drop : nat -> SR O -> SV O -> res (SV O).
  Variables (n m2 : nat) (s t : list T) (A : CS O).
  Variable W : nat -> nat.
  Hypothesis DR : forall step c v, okp (drop step c v) (fun v' => sv_cnt v' <= W (nth step (y_p c) 0)).

  Definition SF (k : nat) (c : SR O) : Prop := FILL W k (y_p c) (is (y_L c)).

  Lemma skappa_f : forall k step c, SF k c -> okp (symm_kappa klt step c) (SF k).
  Proof. intros k step c H. unfold symm_kappa. ob; oany. apply okp_ok. exact H. Qed.
  Lemma sdefer_one_f : forall k step c, SF k c -> okp (symm_defer_one n step c) (SF k).
  Proof.
    intros k step c H. unfold symm_defer_one. cbv zeta. ob. eapply okp_conseq; [apply defer_is|]. intros L EL.
    do 4 (ob; oany). apply okp_ok. unfold SF in *. cbn [y_L y_p]. now rewrite EL.
  Qed.
  Lemma sdefer_loop_f : forall fuel k step c, SF k c -> okp (symm_defer_loop bad klt kbad n m2 fuel step c) (SF k).
  Proof.
    induction fuel; intros k step c H; cbn [symm_defer_loop]; [apply okp_ub|]. destruct (step <? y_m c); [|now apply okp_ok].
    ob. eapply okp_conseq; [apply sdefer_one_f; exact H|]. intros c1 H1. destruct (m2 <=? _); [apply okp_ok; exact H1|].
    ob; oany. destruct (bad a); [now apply IHfuel|]. ob. eapply okp_conseq; [apply skappa_f; exact H1|]. intros c2 H2. ob; oany.
    destruct a0; [now apply IHfuel|now apply okp_ok].
  Qed.
  Lemma seliminate_f : forall k c, SF k c -> okp (symm_eliminate is0 big drop m2 s t A k c) (SF (S k)).
  Proof.
    intros k c HL. unfold symm_eliminate. cbv zeta.
    ob; oany. ob; oany. ob; oany. ob. apply okp_set. set (p := upd (y_p c) k a1).
    do 4 (ob; oany).
    ob. eapply okp_conseq; [apply DR|]. intros l1 Hl1. ob. eapply okp_conseq; [apply sort_cnt|]. intros l2 Hl2.
    ob. eapply okp_conseq; [apply push_is|]. intros L1 (_ & EL1).
    ob. eapply okp_conseq; [apply compress_is|]. intros L2 EL2.
    apply okp_ok. unfold SF. cbn [y_L y_p] in *. rewrite EL2, EL1.
    apply FILL_push with (p := y_p c); [exact HL| |lia]. intros i Hi. unfold p. apply nth_upd_neq. lia.
  Qed.
  Lemma symm_loop_f : forall fuel k c, SF k c ->
    okp (symm_loop bad klt kbad is0 big drop n m2 s t A fuel k c) (fun r => SF (fst r) (snd r) /\ y_m (snd r) <= fst r).
  Proof.
    induction fuel; intros k c H; cbn [symm_loop]; [apply okp_ub|]. destruct (Nat.ltb_spec k (y_m c)) as [Hk|Hk].
    2:{ apply okp_ok. cbn [fst snd]. auto. }
    ob; oany. cbv zeta. ob. eapply okp_conseq; [apply skappa_f; exact H|]. intros c1 H1. ob; oany.
    ob. apply okp_conseq with (P := SF k). { destruct a0; [now apply sdefer_loop_f|now apply okp_ok]. }
    intros c2 H2. destruct (a0 && (y_m c2 =? k)) eqn:B.
    { apply okp_ok. cbn [fst snd]. apply andb_prop in B. destruct B as (_ & B). apply Nat.eqb_eq in B. split; auto. lia. }
    ob. eapply okp_conseq; [apply seliminate_f; exact H2|]. intros c3 H3. now apply IHfuel.
  Qed.

  Definition SRF (o : CRout O) : Prop := forall k, k < o_m o -> in_primary (o_L o) k <= W (nth k (bp (o_p o)) 0).

  Lemma symm_finish_f : forall r, SF (fst r) (snd r) -> y_m (snd r) <= fst r -> okp (symm_finish n r) SRF.
  Proof.
    intros [k c] HL Hm. cbn [fst snd] in *. unfold symm_finish.
    ob. eapply okp_conseq; [apply gap_f|]. intros p1 Hp1. ob. eapply okp_conseq; [apply build_inv_f|]. intros p2 Hp2. cbn [bp] in *.
    cbv zeta. ob; oany. ob. eapply okp_conseq; [apply tail_f|]. intros L' EL.
    rewrite end_is in EL. apply okp_ok. intros i Hi. cbn [o_m o_p o_L] in *. unfold in_primary, st. rewrite EL, Hp2, Hp1 by lia.
    apply HL; lia.
  Qed.

  Lemma symm_crout_f : forall p q jd jk js jP jv ji, okp (symm_crout bad klt kbad is0 big drop n m2 s t A p q jd jk js jP jv ji) SRF.
  Proof.
    intros. unfold symm_crout. ob. apply okp_conseq with (P := SF 0).
    { unfold symm_init. ob; oany. apply okp_ok. split; [reflexivity|intros; lia]. }
    intros c Hc. ob. eapply okp_conseq; [apply symm_loop_f; exact Hc|]. intros r (H1 & H2). now apply symm_finish_f.
  Qed.
End A.

Section L.
  Context {O : Ops}.
  Notation T := (T O).
  Variable G : Mag O.
  Variables root shrink times : M G -> nat -> M G.
  Variable bad : M G -> T -> bool.
  Variable big : T -> bool.
  Variable mdiv : M G -> M G -> M G.
  Variable ceil_mul : M G -> nat -> nat.
  Variable nth_el : (nat -> M G) -> nat -> list nat -> list nat.
  Variable opts : HOpts G.
  Variable pre : nat -> CS O -> CS O -> res (list T * list T * BiPerm * BiPerm * nat).
  Variable low : nat -> nat -> nat.
  Variable go_dense : nat -> nat -> nat -> bool.
  Variable mk_symm : nat -> list T -> Dense O.
  Variable junkT : nat -> nat -> nat -> T.
  Variable junkN : nat -> nat -> nat -> nat.
  Variables (ji : nat) (jv : T).
  Hypothesis ML : MagLaws G.
  Hypothesis NE : nth_element_ok (mle G) nth_el.

  Notation symm_level := (symm_level G root shrink times bad big mdiv ceil_mul nth_el opts pre low go_dense mk_symm junkT junkN ji jv).
  Notation symm_kernel := (symm_kernel G root shrink times bad big mdiv ceil_mul nth_el opts pre low go_dense mk_symm junkT junkN ji jv).
  Notation symm_phase := (symm_phase G root shrink times bad big mdiv ceil_mul nth_el opts junkT junkN jv).
  Notation aL := (aL G times opts).
  Variable BL : nat -> nat.
  Hypothesis CapL : Forall (caps G ceil_mul BL) (multiples G times (h_alpha_L G opts)).
  Notation LF := (LF BL BL). Notation good := (good BL BL).

  Lemma alphas_L : forall lvl kd kk tl tu al au, 1 <= lvl -> determine_fac_pars G root shrink times opts lvl = (kd, kk, tl, tu, al, au) ->
    In al (multiples G times (h_alpha_L G opts)).
  Proof.
    intros lvl kd kk tl tu al au Hl H. unfold determine_fac_pars in H. unfold multiples.
    destruct (h_rf_par G opts).
    - destruct (Nat.ltb_spec 2 lvl) as [L|L]; injection H as <- <- <- <- <- <-.
      + cbn [In]. tauto.
      + assert (X : Nat.min lvl 2 = 1 \/ Nat.min lvl 2 = 2) by lia. destruct X as [-> | ->]; cbn [In]; tauto.
    - injection H as <- <- <- <- <- <-. cbn [In]. tauto.
  Qed.

  Lemma symm_phase_f : forall lvl n m2 s t (A : CS O) p q rs, 1 <= lvl ->
    okp (symm_phase lvl n m2 s t A p q rs) (SRF (fun i => BL (nth i rs 0))).
  Proof.
    intros lvl n m2 s t A p q rs Hl. unfold SymmModel.symm_phase.
    destruct (determine_fac_pars G root shrink times opts lvl) as (((((kd, kk), tl), tu), al), au) eqn:DET.
    pose proof (alphas_L _ _ _ _ _ _ _ Hl DET) as AL1. rewrite Forall_forall in CapL. apply CapL in AL1.
    apply symm_crout_f. intros step c v. unfold symm_drop. ob; oany. ob; oany. ob. apply okp_get with (d := 0). intros _. ob. apply okp_get with (d := 0). intros _.
    now apply (space_f G ceil_mul nth_el BL).
  Qed.

  Lemma symm_level_f : forall lvl (rm : bool) (A : CS O) rs0 s t p q m2, 1 <= lvl ->
    valid A -> tight A -> ssize A = psize A -> 1 <= psize A ->
    (forall k j, 1 <= k -> 1 <= low k j) ->
    (lvl = 1 -> 1 <= nnz_of A) -> (lvl <> 1 -> ssizes_ok (psize A) rs0) ->
    ceil_pos G ceil_mul (aL false lvl) ->
    pre lvl A A = Ok (s, t, p, q, m2) -> pre_good (psize A) s t p q m2 ->
    okp (symm_level lvl rm A rs0) (fun r => let '(P, Sc, rs') := r in
      exists rs, (lvl = 1 -> forall i, i < psize A -> nth i rs 0 = Nat.max (low (nnz_of A) (psize A)) (in_primary A i)) /\
        (lvl <> 1 -> rs = rs0) /\ LF P (psize A) rs rs /\ pq P = pp P /\
        (is_last_level O P = false -> forall i, i < psize A - pm P -> nth i rs' 0 = nth (nth (pm P + i) (pp P) 0) rs 0)).
  Proof.
    intros lvl rm A rs0 s t p q m2 Hl VA TA SA Hn HLow Hz Hsz CL HPre PG. set (n := psize A) in *.
    unfold SymmModel.symm_level. destruct (Nat.eqb_spec (psize A) (ssize A)); [|lia]. cbn [negb]. fold n. cbv zeta.
    rewrite (nnz_l A (proj1 VA) TA). cbn [bind].
    assert (X : exists rs, (if lvl =? 1 then first_sizes (low (nnz_of A) n) A else Ok rs0) = Ok rs /\ ssizes_ok n rs /\
       (lvl = 1 -> forall i, i < n -> nth i rs 0 = Nat.max (low (nnz_of A) n) (in_primary A i)) /\ (lvl <> 1 -> rs = rs0)).
    { destruct (Nat.eqb_spec lvl 1) as [E1|E1].
      - destruct (first_sizes_l (low (nnz_of A) n) A (proj1 VA)) as (r1 & F1 & L1 & H1). specialize (HLow (nnz_of A) n (Hz E1)).
        exists r1. split; auto. split; [split; [lia|intros i Hi; rewrite H1 by lia; lia]|]. split; [|lia]. intros _ i Hi. rewrite H1 by lia. reflexivity.
      - exists rs0. split; auto. split; auto. split; [lia|auto]. }
    destruct X as (rs & ER & SZ & XR & XC). rewrite ER. cbn [bind]. clear ER. rewrite HPre. cbn [bind].
    pose proof SZ as (Lrs & Prs).
    destruct (symm_phase_l G root shrink times bad big mdiv ceil_mul nth_el opts junkT junkN jv ML NE lvl n m2 s t A p q rs VA eq_refl SA PG SZ) as (r & ERn & (dr & LO & RES) & Eqp & EUL & EUs & _).
    pose proof (symm_phase_f lvl n m2 s t A p q rs Hl r ERn) as FILLED.
    destruct PG as [gs gt gm gp gq gs0 gt0 gsr gtr].
    rewrite ERn. cbn [bind]. destruct RES.
    set (m := if 4 * o_m r <=? m2 then 0 else o_m r).
    assert (Hm2 : o_m r <= m2) by lia.
    assert (FIN : forall moderate L_B U_B Sc s' t' p', m <= n -> is_inv n (bp p') (bpi p') ->
      (forall k, k < m -> in_secondary U_B k <= BL (nth (nth k (bp p') 0) rs 0)) ->
      (forall k, k < m -> in_primary L_B k <= BL (nth (nth k (bp p') 0) rs 0)) ->
      list_sum (map (in_secondary U_B) (seq 0 m)) = length (indices U_B) -> list_sum (map (in_primary L_B) (seq 0 m)) = length (indices L_B) ->
      okp (symm_finish_level go_dense mk_symm junkN ji jv lvl n m rm moderate A r rs L_B U_B Sc s' t' p') (fun r => let '(P, _, rs') := r in
        LF P n rs rs /\ pq P = pp P /\ (is_last_level O P = false -> forall i, i < n - pm P -> nth i rs' 0 = nth (nth (pm P + i) (pp P) 0) rs 0))).
    { intros moderate L_B U_B Sc s' t' p' Hm Ip H1 H2 H3 H4. apply is_inv_perm in Ip. unfold symm_finish_level. ob; oany. cbv zeta. ob. intros dense _.
      ob. intros rs' E2. ob; oany. ob; oany. ob; oany. apply okp_ok. split; [|split; [reflexivity|]].
      - split; cbn [pn pm pp pq pU pL]; auto.
      - cbn [pm pp pq]. intros LL i Hi. destruct dense as [D|].
        + unfold is_last_level in LL. cbn in LL. discriminate.
        + destruct (next_sizes_l m n (bp p') rs (jarrN junkN lvl 6 (n * 2)) Hm Ip Lrs) as (R' & E' & _ & H'); [rewrite jarrN_len; lia|].
          rewrite E2 in E'. injection E' as <-. auto. }
    destruct (Nat.eqb_spec m 0) as [M0|M0]; cbn [negb].
    - destruct (C14_make_eye n (o_p r)) as (Ep & Ip); [apply re_p|apply re_p|].
      rewrite Ep. cbn [bind]. eapply okp_conseq.
      { apply FIN; auto; try (intros; lia); try (rewrite M0; reflexivity). }
      intros [[P Sc] rs'] H1. exists rs. auto.
    - assert (Em : m = o_m r) by (unfold m in *; destruct (4 * o_m r <=? m2); auto; lia). clearbody m. rewrite <- Em in re_L, re_U, re_b, re_bl, re_bu, Hm2.
      assert (Hmn : m <= n) by lia.
      destruct (symm_blocks_l G times ceil_mul nth_el opts go_dense mk_symm junkT junkN ji jv NE lvl n m s t A r rs VA eq_refl SA gs gt Hmn Hn re_p re_L ltac:(lia) ltac:(lia) re_bl Lrs Prs CL)
        as (L_B & U_B & Sc0 & EBB & HLB & HUB & _).
      rewrite EBB. cbn [bind]. destruct HLB as (VL & TL & PL & SL & HL). destruct HUB as (VU & TU & PU & SU & HU).
      destruct re_L as (VoL & PoL & _).
      eapply okp_conseq.
      { apply FIN; auto.
        - intros k Hk. pose proof (FILLED k ltac:(lia)) as X. eapply Nat.le_trans; [|exact X]. apply count_le; auto; try lia.
          intros i v Hi Hv. apply HU in Hv; [|lia]. destruct Hv as (_ & (w & _ & Hw) & _). exists w. exact Hw.
        - intros k Hk. pose proof (FILLED k ltac:(lia)) as X. eapply Nat.le_trans; [|exact X]. apply primary_le; auto; try lia.
          intros i v Hv. apply HL in Hv; [|lia]. exists v. tauto.
        - apply sum_count. intros x Hx. destruct (In_nth _ _ 0 Hx) as (k & Hk & <-). fold (ix U_B k). rewrite <- SU. apply (wf_range O U_B (proj1 VU)). destruct TU as (_ & -> & _) in Hk. exact Hk.
        - rewrite (total_primary L_B (proj1 VL)) by lia. destruct TL as (_ & -> & _). now rewrite PL. }
      intros [[P Sc] rs'] H1. exists rs. auto.
  Qed.

  Lemma symm_kernel_f : symm_pre_safe pre -> (forall k j, 1 <= k -> 1 <= low k j) -> (forall lvl, ceil_pos G ceil_mul (aL false lvl)) ->
    forall fuel lvl (rm : bool) (A : CS O) rs rsz, 1 <= lvl ->
    valid A -> tight A -> ssize A = psize A -> 1 <= psize A ->
    (lvl = 1 -> 1 <= nnz_of A) -> (lvl <> 1 -> ssizes_ok (psize A) rs) ->
    length rsz = psize A ->
    (lvl = 1 -> forall i, i < psize A -> nth i rsz 0 = Nat.max (low (nnz_of A) (psize A)) (in_primary A i)) ->
    (lvl <> 1 -> forall i, i < psize A -> nth i rsz 0 = nth i rs 0) ->
    okp (symm_kernel fuel lvl rm A rs) (fun precs => good rsz rsz precs /\ precs <> []).
  Proof.
    intros HP HL CL. induction fuel as [|fuel IH]; intros lvl rm A rs rsz Hl VA TA SA Hn Hz Hs Lr H1 H2; [apply okp_ub|].
    cbn [SymmModel.symm_kernel]. destruct (Nat.eqb_spec (psize A) (ssize A)); [|lia]. cbn [negb].
    destruct (HP lvl (psize A) A VA eq_refl SA Hn) as [E|(s & t & p & q & m2 & E & PG)].
    { rewrite (symm_level_err G root shrink times bad big mdiv ceil_mul nth_el opts pre low go_dense mk_symm junkT junkN ji jv lvl rm A rs VA TA SA E). apply okp_err. }
    destruct (symm_level_l G root shrink times bad big mdiv ceil_mul nth_el opts pre low go_dense mk_symm junkT junkN ji jv ML NE
      lvl rm A rs s t p q m2 VA TA SA Hn HL Hz Hs (CL lvl) E PG) as (P & Sc & rs' & C & EL & EN & DN & FX & LS & NL & LA & _).
    pose proof (symm_level_f lvl rm A rs s t p q m2 Hl VA TA SA Hn HL Hz Hs (CL lvl) E PG _ EL) as (rs1 & X1 & X2 & LFP & EQ & X3).
    rewrite EL. cbn [bind].
    assert (Z : forall i, i < psize A -> nth i rsz 0 = nth i rs1 0).
    { intros i Hi. destruct (Nat.eq_dec lvl 1) as [E1|E1]; [rewrite (X1 E1 i Hi); auto|rewrite (X2 E1); auto]. }
    assert (LFZ : LF P (psize A) rsz rsz). { eapply LF_ext; [exact LFP| |]; intros i Hi; apply Z; auto. }
    destruct (is_last_level O P) eqn:LL.
    - apply okp_ok. split; [|discriminate]. cbn [FillProofs3.good]. rewrite Lr. auto.
    - destruct (NL eq_refl) as (Hm & VS & TS & PS & SS & SZ & _). specialize (X3 eq_refl).
      pose proof (lf_p _ _ _ _ _ _ LFP) as (_ & RP & _).
      ob. eapply okp_conseq.
      { apply (IH (S lvl) rm Sc rs' (left_over (pm P) (pn P) (pp P) rsz)); auto; try lia.
        - rewrite PS. auto.
        - unfold left_over. rewrite map_length, seq_length. lia.
        - intros _ i Hi. rewrite PS in Hi. rewrite left_nth by lia. rewrite (X3 i Hi). apply Z, RP. lia. }
      intros rest (HR & _). apply okp_ok. split; [|discriminate]. cbn [FillProofs3.good]. rewrite Lr, EQ. auto.
  Qed.
End L.
