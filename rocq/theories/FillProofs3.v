(** * FillProofs3: counting stored entries, and the fill of the whole hierarchy. *)
From Coq Require Import List Arith Lia Bool Permutation.
From Verif Require Import Base Scalar Spec CSModel CSSpec CSProofs ConvModel ConvSpec ConvProofs ConvProofs4 Mag VecModel VecSpec PruneModel CroutModel CroutSpec CroutProofs7 CroutProofs11
  PivotModel PivotSpec PropCS SchurModel PrecModel PrecSpec FactorModel FactorSpec PropConv PropVec PropCrout PropPivot
  FactorProofs1 FactorProofs2 FactorProofs3 FactorProofs4 FactorProofs5 FillSpec FillProofs1 FillProofs2.
Import ListNotations.

(** ** Lists *)
Lemma count_flat : forall (f : nat -> list nat) k l, (forall i, In i l -> NoDup (f i)) ->
  count_occ Nat.eq_dec (flat_map f l) k = length (filter (fun i => existsb (Nat.eqb k) (f i)) l).
Proof.
  intros f k l. induction l as [|a l IH]; intros H; auto. cbn [flat_map filter]. rewrite count_occ_app, IH by (intros; apply H; now right).
  assert (N : NoDup (f a)) by (apply H; now left).
  destruct (existsb (Nat.eqb k) (f a)) eqn:E; cbn [length].
  - apply existsb_exists in E. destruct E as (x & Hx & E). apply Nat.eqb_eq in E. subst x.
    pose proof (NoDup_count_occ' Nat.eq_dec (f a)) as X. destruct X as (X & _). rewrite (X N k Hx). lia.
  - assert (X : ~ In k (f a)). { intros Hin. assert (existsb (Nat.eqb k) (f a) = true) by (apply existsb_exists; exists k; rewrite Nat.eqb_refl; auto). congruence. }
    apply (count_occ_not_In Nat.eq_dec) in X. lia.
Qed.
Lemma sum_count : forall m l, (forall x, In x l -> x < m) -> list_sum (map (count_occ Nat.eq_dec l) (seq 0 m)) = length l.
Proof.
  intros m l. induction l as [|a l IH]; intros H.
  - cbn [length count_occ]. induction (seq 0 m); cbn [map list_sum fold_right]; auto.
  - cbn [length]. rewrite <- IH by (intros; apply H; now right).
    assert (Ha : a < m) by (apply H; now left). clear - Ha.
    assert (X : forall s n, s <= a < s + n -> list_sum (map (count_occ Nat.eq_dec (a :: l)) (seq s n)) = S (list_sum (map (count_occ Nat.eq_dec l) (seq s n)))).
    { assert (Y : forall s n, (a < s \/ s + n <= a) -> list_sum (map (count_occ Nat.eq_dec (a :: l)) (seq s n)) = list_sum (map (count_occ Nat.eq_dec l) (seq s n))).
      { intros s n; revert s. induction n; intros s Hs; auto. cbn [seq map list_sum fold_right]. fold (list_sum (map (count_occ Nat.eq_dec (a :: l)) (seq (S s) n))).
        rewrite IHn by lia. rewrite count_occ_cons_neq by lia. reflexivity. }
      intros s n; revert s. induction n; intros s Hs; [lia|]. cbn [seq map list_sum fold_right]. fold (list_sum (map (count_occ Nat.eq_dec (a :: l)) (seq (S s) n))). fold (list_sum (map (count_occ Nat.eq_dec l) (seq (S s) n))).
      destruct (Nat.eq_dec s a) as [->|].
      - rewrite count_occ_cons_eq by auto. rewrite Y by lia. lia.
      - rewrite count_occ_cons_neq by lia. rewrite IHn by lia. lia. }
    apply X. lia.
Qed.
Lemma list_sum_le : forall (f g : nat -> nat) l, (forall x, In x l -> f x <= g x) -> list_sum (map f l) <= list_sum (map g l).
Proof.
  intros f g l. induction l as [|a l IH]; intros H; auto. cbn [map list_sum fold_right]. fold (list_sum (map f l)) (list_sum (map g l)).
  specialize (IH ltac:(intros; apply H; now right)). specialize (H a ltac:(now left)). lia.
Qed.
Lemma perm_list_sum : forall l l', Permutation l l' -> list_sum l = list_sum l'.
Proof. intros l l' H. induction H; cbn [list_sum fold_right]; repeat (fold (list_sum l) in * || fold (list_sum l') in *); auto; unfold list_sum in *; lia. Qed.
Lemma perm_seq : forall n p, is_perm n p -> Permutation (map (fun k => nth k p 0) (seq 0 n)) (seq 0 n).
Proof.
  intros n p (L & R & J). apply NoDup_Permutation_bis.
  - apply (NoDup_nth _ 0). rewrite map_length, seq_length. intros i j Hi Hj E. rewrite !nth_map_seq in E by auto. apply J; auto.
  - rewrite map_length, !seq_length. lia.
  - intros x Hx. apply in_map_iff in Hx. destruct Hx as (k & <- & Hk). apply in_seq in Hk. apply in_seq. specialize (R k). lia.
Qed.

Section C.
  Context {O : Ops}.

  Lemma inds_flat : forall A : CS O, wf A -> forall n, n <= psize A -> firstn (st A n) (indices A) = flat_map (fun i => map fst (rowl A i)) (seq 0 n).
  Proof.
    intros A W. induction n; intros Hn.
    - rewrite (wf_first O A W). reflexivity.
    - rewrite seq_S, flat_map_app, <- IHn by lia. cbn [flat_map]. rewrite app_nil_r.
      pose proof (wf_mono O A W n ltac:(lia)) as Hm. pose proof (wf_inds O A W) as Hi.
      assert (HL : st A (S n) <= st A (psize A)).
      { assert (G : forall d, S n + d <= psize A -> st A (S n) <= st A (S n + d)).
        { induction d; intros Hd; [rewrite Nat.add_0_r; lia|]. rewrite Nat.add_succ_r. pose proof (wf_mono O A W (S n + d) ltac:(lia)). specialize (IHd ltac:(lia)). lia. }
        specialize (G (psize A - S n) ltac:(lia)). replace (S n + (psize A - S n)) with (psize A) in G by lia. auto. }
      apply list_ext with (d := 0).
      + rewrite app_length, !firstn_length, map_length, rowl_length. cbn [Nat.add]. lia.
      + intros k Hk. rewrite firstn_length in Hk. rewrite nth_firstn_lt by lia. destruct (Nat.lt_ge_cases k (st A n)).
        * rewrite app_nth1 by (rewrite firstn_length; lia). now rewrite nth_firstn_lt by lia.
        * rewrite app_nth2 by (rewrite firstn_length; lia). rewrite firstn_length, Nat.min_l by lia.
          change 0 with (fst (0, t0 O)). rewrite map_nth. cbn [Nat.add fst]. rewrite rowl_nth by lia. cbn [fst]. unfold ix. f_equal. lia.
  Qed.

  (** The primaries that hold an entry with secondary index [k]. *)
  Definition holders (A : CS O) (k : nat) : list nat := filter (fun i => existsb (Nat.eqb k) (map fst (rowl A i))) (seq 0 (psize A)).
  Lemma count_holders : forall (A : CS O) k, valid A -> tight A -> in_secondary A k = length (holders A k).
  Proof.
    intros A k (W & S) (T1 & T2 & T3). unfold in_secondary, holders. rewrite <- (firstn_all (indices A)), T2, (inds_flat A W) by lia.
    apply count_flat. intros i Hi. apply in_seq in Hi. apply valid_nodup; auto. lia.
  Qed.
  Lemma holders_in : forall (A : CS O) k i, In i (holders A k) <-> i < psize A /\ exists v, stored A i k v.
  Proof.
    intros A k i. unfold holders. rewrite filter_In, in_seq, existsb_exists. cbn [Nat.add]. split.
    - intros (H1 & x & Hx & E). apply Nat.eqb_eq in E. subst x. split; [lia|]. apply in_map_iff in Hx. destruct Hx as ([j v] & <- & Hx). exists v. exact Hx.
    - intros (H1 & v & Hv). split; [lia|]. exists k. rewrite Nat.eqb_refl. split; auto. apply in_map_iff. exists (k, v). auto.
  Qed.
  Lemma holders_nodup : forall (A : CS O) k, NoDup (holders A k).
  Proof. intros. apply NoDup_filter, seq_NoDup. Qed.
  Lemma primary_len : forall (A : CS O) k, in_primary A k = length (map fst (rowl A k)).
  Proof. intros. now rewrite map_length, rowl_length. Qed.
  Lemma primary_in : forall (A : CS O) k j, In j (map fst (rowl A k)) <-> exists v, stored A k j v.
  Proof.
    intros A k j. rewrite in_map_iff. split; [intros ([j' v] & <- & H); exists v; exact H|intros (v & H); exists (j, v); auto].
  Qed.

  Lemma count_le : forall (A B : CS O) k, valid A -> tight A -> k < psize B -> valid B ->
    (forall i v, i < psize A -> stored A i k v -> exists v', stored B k i v') -> in_secondary A k <= in_primary B k.
  Proof.
    intros A B k VA TA Hk VB H. rewrite count_holders, primary_len by auto. apply NoDup_incl_length; [apply holders_nodup|].
    intros i Hi. apply holders_in in Hi. destruct Hi as (Hi & v & Hv). apply primary_in. eauto.
  Qed.
  Lemma primary_le : forall (A B : CS O) k, valid A -> k < psize A ->
    (forall i v, stored A k i v -> exists v', stored B k i v') -> in_primary A k <= in_primary B k.
  Proof.
    intros A B k VA Hk H. rewrite !primary_len. apply NoDup_incl_length; [apply valid_nodup; auto; apply VA|].
    intros i Hi. apply primary_in in Hi. destruct Hi as (v & Hv). apply primary_in. eauto.
  Qed.
  Lemma count_eq : forall (A B : CS O) k, valid A -> tight A -> k < psize B -> valid B -> ssize B = psize A ->
    (forall i v, i < psize A -> stored B k i v <-> stored A i k v) -> in_primary B k = in_secondary A k.
  Proof.
    intros A B k VA TA Hk VB HS H. apply Nat.le_antisymm.
    - rewrite count_holders, primary_len by auto. apply NoDup_incl_length; [apply valid_nodup; auto; apply VB|].
      intros i Hi. apply primary_in in Hi. destruct Hi as (v & Hv). apply holders_in.
      assert (Hi : i < psize A). { rewrite <- HS. apply (wf_rowl_range O B (proj1 VB) k (i, v) Hk Hv). }
      split; auto. exists v. now apply H.
    - apply count_le; auto. intros i v Hi Hv. exists v. now apply H.
  Qed.
  Lemma total_primary : forall A : CS O, wf A -> forall m, m <= psize A -> list_sum (map (in_primary A) (seq 0 m)) = st A m.
  Proof.
    intros A W. induction m; intros Hm; [symmetry; apply (wf_first O A W)|]. rewrite seq_S, map_app, list_sum_app, IHm by lia.
    cbn [map list_sum fold_right]. unfold in_primary. pose proof (wf_mono O A W m ltac:(lia)). cbn [Nat.add]. lia.
  Qed.
End C.

Section L.
  Context {O : Ops}.
  Notation T := (T O).
  Variable G : Mag O.
  Variables root shrink times : M G -> nat -> M G.
  Variable bad : M G -> T -> bool.
  Variable big : T -> bool.
  Variable mdiv : M G -> M G -> M G.
  Variable ceil_mul : M G -> nat -> nat.
  Variable nth_el : (nat -> M G) -> nat -> list nat -> list nat.
  Variable srt : list T -> list nat -> list nat.
  Variable opts : HOpts G.
  Variable pre : nat -> CS O -> CS O -> res (list T * list T * BiPerm * BiPerm * nat).
  Variable low : nat -> nat -> nat.
  Variable go_dense : nat -> nat -> nat -> bool.
  Variable mk_dense : nat -> list T -> Dense O.
  Variable junkT : nat -> nat -> nat -> T.
  Variable junkN : nat -> nat -> nat -> nat.
  Variables (ji : nat) (jv : T).
  Hypothesis ML : MagLaws G.
  Hypothesis NE : nth_element_ok (mle G) nth_el.
  Hypothesis SR : rearranges srt.

  Notation level_factorize := (level_factorize G root shrink times bad big mdiv ceil_mul nth_el srt opts pre low go_dense mk_dense junkT junkN ji jv).
  Notation factorize_kernel := (factorize_kernel G root shrink times bad big mdiv ceil_mul nth_el srt opts pre low go_dense mk_dense junkT junkN ji jv).
  Notation crout_phase := (crout_phase G root shrink times bad big mdiv ceil_mul nth_el srt opts junkT junkN jv).
  Notation aL := (aL G times opts). Notation aU := (aU G times opts).
  Variables BU BL : nat -> nat.
  Hypothesis CapU : Forall (caps G ceil_mul BU) (multiples G times (h_alpha_U G opts)).
  Hypothesis CapL : Forall (caps G ceil_mul BL) (multiples G times (h_alpha_L G opts)).

  Lemma alphas : forall lvl kd kk tl tu al au, 1 <= lvl -> determine_fac_pars G root shrink times opts lvl = (kd, kk, tl, tu, al, au) ->
    (In al (multiples G times (h_alpha_L G opts)) /\ In (times al 4) (multiples G times (h_alpha_L G opts))) /\
    (In au (multiples G times (h_alpha_U G opts)) /\ In (times au 4) (multiples G times (h_alpha_U G opts))).
  Proof.
    intros lvl kd kk tl tu al au Hl H. unfold determine_fac_pars in H. unfold multiples.
    destruct (h_rf_par G opts).
    - destruct (Nat.ltb_spec 2 lvl) as [L|L]; injection H as <- <- <- <- <- <-.
      + cbn [In]. tauto.
      + assert (X : Nat.min lvl 2 = 1 \/ Nat.min lvl 2 = 2) by lia. destruct X as [-> | ->]; cbn [In]; tauto.
    - injection H as <- <- <- <- <- <-. cbn [In]. tauto.
  Qed.

  Lemma crout_phase_f : forall (piv : bool) lvl n m2 s t (A_crs A_ccs : CS O) p q rs cs, 1 <= lvl ->
    valid A_crs -> valid A_ccs -> psize A_crs = n -> ssize A_crs = n -> psize A_ccs = n -> ssize A_ccs = n ->
    (RingLaws O -> meq n n (ccs_mat A_ccs) (crs_mat A_crs)) ->
    pre_good n s t p q m2 -> sizes_ok n rs cs ->
    okp (crout_phase piv lvl n m2 s t A_crs A_ccs p q rs cs) (RF (fun i => BU (nth i rs 0)) (fun i => BL (nth i cs 0))).
  Proof.
    intros piv lvl n m2 s t A_crs A_ccs p q rs cs Hl V1 V2 P1 S1 P2 S2 HM [gs gt gm gp gq gs0 gt0 gsr gtr] (Lrs & Lcs & Prs & Pcs).
    unfold FactorModel.crout_phase. destruct (determine_fac_pars G root shrink times opts lvl) as (((((kd, kk), tl), tu), al), au) eqn:DET.
    destruct (alphas _ _ _ _ _ _ _ Hl DET) as ((AL1 & AL2) & (AU1 & AU2)).
    rewrite Forall_forall in CapU, CapL. apply CapL in AL1, AL2. apply CapU in AU1, AU2. cbv zeta.
    destruct piv.
    - destruct (C44_pivot_code_dropping O G mdiv ceil_mul nth_el n tu kd (times au 4) rs ML NE Lrs) as (DU & _).
      destruct (C44_pivot_code_dropping O G mdiv ceil_mul nth_el n tl kd (times al 4) cs ML NE Lcs) as (DL & _).
      eapply pivot_crout_f with (Am := crs_mat A_crs); eauto.
      + intros step kappa p1 v. eapply okp_conseq; [now apply (pdrop_f G mdiv ceil_mul nth_el BU)|]. auto.
      + intros step kappa p1 v. eapply okp_conseq; [now apply (pdrop_f G mdiv ceil_mul nth_el BL)|]. auto.
      + intros RL i j Hi Hj. split; [reflexivity|]. symmetry. symmetry. now apply HM.
      + intros step c v (A1 & A2 & A3 & A4 & A5 & A6) H. destruct (DU step (c_ku c) (c_p c) v) as (v' & E & R); [split; [assumption|split; [assumption|split; assumption]]|]. exists v'. split; auto.
      + intros step c v (A1 & A2 & A3 & A4 & A5 & A6) H. destruct (DL step (c_kl c) (c_q c) v) as (v' & E & R); [split; [assumption|split; [assumption|split; assumption]]|]. exists v'. split; auto.
      + apply jarrT_len. + apply jarrT_len. + apply jarrN_len. + rewrite map_length. apply jarrN_len. + apply jarrT_len. + apply jarrN_len.
    - apply crout_f.
      + intros step c v. now apply (dropU_f G mdiv ceil_mul nth_el BU).
      + intros step c v. now apply (dropL_f G mdiv ceil_mul nth_el BL).
  Qed.

  (** What one level contributes. *)
  Record LF (P : Prec O) (n : nat) (rs cs : list nat) : Prop := {
    lf_n : pn P = n; lf_m : pm P <= n; lf_p : is_perm n (pp P); lf_q : is_perm n (pq P);
    lf_U : forall k, k < pm P -> in_secondary (pU P) k <= BU (nth (nth k (pp P) 0) rs 0);
    lf_L : forall k, k < pm P -> in_primary (pL P) k <= BL (nth (nth k (pq P) 0) cs 0);
    lf_tU : list_sum (map (in_secondary (pU P)) (seq 0 (pm P))) = length (indices (pU P));
    lf_tL : list_sum (map (in_primary (pL P)) (seq 0 (pm P))) = length (indices (pL P)) }.

  Lemma level_f : forall (piv retry : bool) lvl (rm : bool) (A : CS O) rs0 cs0 s t p q m2, 1 <= lvl ->
    valid A -> tight A -> ssize A = psize A -> 1 <= psize A ->
    (forall k j, 1 <= k -> 1 <= low k j) ->
    (lvl = 1 -> 1 <= nnz_of A) -> (lvl <> 1 -> sizes_ok (psize A) rs0 cs0) ->
    ceil_pos G ceil_mul (aL piv lvl) -> ceil_pos G ceil_mul (aU piv lvl) ->
    (forall B, other_storage O ji jv A = Ok B -> pre lvl (if rm then B else A) (if rm then A else B) = Ok (s, t, p, q, m2)) ->
    pre_good (psize A) s t p q m2 ->
    okp (level_factorize piv retry lvl rm A rs0 cs0) (fun r => match r with None => True | Some (P, Sc, rs', cs') =>
      exists rs cs, (lvl = 1 -> forall i, i < psize A -> nth i rs 0 = Nat.max (low (nnz_of A) (psize A)) (nz_row rm A i) /\ nth i cs 0 = Nat.max (low (nnz_of A) (psize A)) (nz_col rm A i)) /\
        (lvl <> 1 -> rs = rs0 /\ cs = cs0) /\ LF P (psize A) rs cs /\
        (is_last_level O P = false -> forall i, i < psize A - pm P -> nth i rs' 0 = nth (nth (pm P + i) (pp P) 0) rs 0 /\ nth i cs' 0 = nth (nth (pm P + i) (pq P) 0) cs 0) end).
  Proof.
    intros piv retry lvl rm A rs0 cs0 s t p q m2 Hl VA TA SA Hn HLow Hz Hsz CL CU HPre PG. set (n := psize A) in *.
    destruct (both_storages ji jv rm A VA TA (eq_sym SA)) as (B & EB & V1 & V2 & P1 & S1 & P2 & S2 & HM & HMA).
    specialize (HPre B EB). fold n in P1, S1, P2, S2, HM, HMA.
    assert (DUAL : forall k, k < n -> in_primary B k = in_secondary A k).
    { intros k Hk. destruct (C04_conversion_keeps_entries O A ji jv (proj1 VA) TA) as (B' & EB' & _ & _ & PB & SB & _ & HST & _). rewrite EB in EB'. injection EB' as <-.
      apply count_eq; auto; try lia. { destruct rm; auto. } intros i v Hi. apply HST; auto. lia. }
    set (A_crs := if rm then A else B) in *. set (A_ccs := if rm then B else A) in *.
    assert (NR : forall k, k < n -> in_primary A_crs k = nz_row rm A k /\ in_primary A_ccs k = nz_col rm A k).
    { intros k Hk. unfold A_crs, A_ccs, nz_row, nz_col. destruct rm; auto. }
    unfold FactorModel.level_factorize. destruct (Nat.eqb_spec (psize A) (ssize A)); [|lia]. cbn [negb]. fold n. rewrite EB. cbn [bind].
    cbv zeta. fold A_crs A_ccs.
    rewrite (nnz_l A (proj1 VA) TA). cbn [bind].
    assert (X : exists rs cs, (if lvl =? 1 then first_sizes (low (nnz_of A) n) A_crs else Ok rs0) = Ok rs /\
                              (if lvl =? 1 then first_sizes (low (nnz_of A) n) A_ccs else Ok cs0) = Ok cs /\ sizes_ok n rs cs /\
       (lvl = 1 -> forall i, i < n -> nth i rs 0 = Nat.max (low (nnz_of A) n) (nz_row rm A i) /\ nth i cs 0 = Nat.max (low (nnz_of A) n) (nz_col rm A i)) /\
       (lvl <> 1 -> rs = rs0 /\ cs = cs0)).
    { destruct (Nat.eqb_spec lvl 1) as [E1|E1].
      - destruct (first_sizes_l (low (nnz_of A) n) A_crs (proj1 V1)) as (r1 & F1 & L1 & H1).
        destruct (first_sizes_l (low (nnz_of A) n) A_ccs (proj1 V2)) as (r2 & F2 & L2 & H2). specialize (HLow (nnz_of A) n (Hz E1)).
        exists r1, r2. split; auto. split; auto. split.
        { split; [lia|]. split; [lia|]. split; intros i Hi; [rewrite H1 by lia|rewrite H2 by lia]; lia. }
        split; [|lia]. intros _ i Hi. rewrite H1, H2 by lia. destruct (NR i Hi) as (<- & <-). auto.
      - exists rs0, cs0. split; auto. split; auto. split; auto. split; [lia|auto]. }
    destruct X as (rs & cs & ER & EC & SZ & XR & XC). rewrite ER, EC. cbn [bind]. clear ER EC. rewrite HPre. cbn [bind].
    pose proof SZ as (Lrs & Lcs & Prs & Pcs).
    destruct (crout_phase_l G root shrink times bad big mdiv ceil_mul nth_el srt opts junkT junkN jv ML NE SR piv lvl n m2 s t A_crs A_ccs p q rs cs V1 V2 P1 S1 P2 S2 HM PG SZ) as (r & ERn & (dU & dL & LO & UO & RES) & _).
    pose proof (crout_phase_f piv lvl n m2 s t A_crs A_ccs p q rs cs Hl V1 V2 P1 S1 P2 S2 HM PG SZ r ERn) as FILLED.
    destruct PG as [gs gt gm gp gq gs0 gt0 gsr gtr].
    rewrite ERn. cbn [bind]. destruct RES.
    set (m := if 4 * o_m r <=? m2 then 0 else o_m r).
    assert (Hm2 : o_m r <= m2) by lia.
    match goal with |- context [if retry && ?c then _ else _] => destruct (retry && c) eqn:RT end.
    { apply okp_ok. exact I. }
    clear RT.
    assert (NS : forall k pp0 sz buf R, k <= n -> is_perm n pp0 -> n <= length sz -> length buf = n * 2 -> next_sizes k n pp0 sz buf = Ok R ->
       forall i, i < n - k -> nth i R 0 = nth (nth (k + i) pp0 0) sz 0).
    { intros k pp0 sz buf R Hk Pp Lz Lb E i Hi. destruct (next_sizes_l k n pp0 sz buf Hk Pp Lz ltac:(lia)) as (R' & E' & _ & H'). rewrite E in E'. injection E' as <-. auto. }
    assert (FIN : forall moderate L_B U_B Sc s' t' p' q', m <= n -> is_inv n (bp p') (bpi p') -> is_inv n (bp q') (bpi q') ->
      (forall k, k < m -> in_secondary U_B k <= BU (nth (nth k (bp p') 0) rs 0)) ->
      (forall k, k < m -> in_primary L_B k <= BL (nth (nth k (bp q') 0) cs 0)) ->
      list_sum (map (in_secondary U_B) (seq 0 m)) = length (indices U_B) -> list_sum (map (in_primary L_B) (seq 0 m)) = length (indices L_B) ->
      okp (finish_level go_dense mk_dense junkN ji jv lvl n m rm moderate A_crs A_ccs r rs cs L_B U_B Sc s' t' p' q') (fun r => let '(P, _, rs', cs') := r in
        LF P n rs cs /\ (is_last_level O P = false -> forall i, i < n - pm P -> nth i rs' 0 = nth (nth (pm P + i) (pp P) 0) rs 0 /\ nth i cs' 0 = nth (nth (pm P + i) (pq P) 0) cs 0))).
    { intros moderate L_B U_B Sc s' t' p' q' Hm Ip Iq H1 H2 H3 H4. apply is_inv_perm in Ip. apply is_inv_perm in Iq. unfold finish_level. ob; oany. cbv zeta. ob. intros dense _.
      ob. intros [rs' cs'] E2. ob; oany. ob; oany. ob; oany. apply okp_ok. split.
      - split; cbn [pn pm pp pq pU pL]; auto.
      - cbn [pm pp pq fst snd]. intros LL i Hi. destruct dense as [D|].
        + unfold is_last_level in LL. cbn in LL. discriminate.
        + destruct (next_sizes m n (bp p') rs (jarrN junkN lvl 6 (n * 2))) as [x| |] eqn:N1; try discriminate. cbn [bind] in E2.
          destruct (next_sizes m n (bp q') cs (jarrN junkN lvl 7 (n * 2))) as [y| |] eqn:N2; try discriminate. cbn [bind] in E2. injection E2 as <- <-.
          split; [eapply (NS m (bp p') rs _ x)|eapply (NS m (bp q') cs _ y)]; eauto; apply jarrN_len. }
    destruct (Nat.eqb_spec m 0) as [M0|M0]; cbn [negb].
    - destruct (C14_make_eye n (o_p r)) as (Ep & Ip); [apply re_p|apply re_p|]. destruct (C14_make_eye n (o_q r)) as (Eq & Iq); [apply re_q|apply re_q|].
      rewrite Ep, Eq. cbn [bind]. ob. eapply okp_conseq.
      { apply FIN; auto; try (intros; lia); try (rewrite M0; reflexivity). }
      intros [[[P Sc] rs'] cs'] (H1 & H2). apply okp_ok. exists rs, cs. auto.
    - assert (Em : m = o_m r) by (unfold m in *; destruct (4 * o_m r <=? m2); auto; lia). clearbody m. rewrite <- Em in re_L, re_U, re_b, re_bl, re_bu, Hm2.
      assert (Hmn : m <= n) by lia.
      destruct (build_blocks_l G times ceil_mul nth_el opts junkT junkN ji jv NE piv lvl n m s t A_crs r rs cs V1 P1 S1 gs gt Hmn Hn re_p re_q re_L re_U ltac:(lia) ltac:(lia) ltac:(lia) re_bl re_bu Lrs Lcs Prs Pcs CL CU)
        as (L_B & U_B & Sc0 & EBB & HLB & HUB & _ & _).
      rewrite EBB. cbn [bind]. destruct HLB as (VL & TL & PL & SL & HL). destruct HUB as (VU & TU & PU & SU & HU).
      destruct re_L as (VoL & PoL & _). destruct re_U as (VoU & PoU & _).
      ob. eapply okp_conseq.
      { apply FIN; auto.
        - intros k Hk. destruct (FILLED k ltac:(lia)) as (X & _). eapply Nat.le_trans; [|exact X]. apply count_le; auto; try lia.
          intros i v Hi Hv. apply HU in Hv; [|lia]. exists v. tauto.
        - intros k Hk. destruct (FILLED k ltac:(lia)) as (_ & X). eapply Nat.le_trans; [|exact X]. apply primary_le; auto; try lia.
          intros i v Hv. apply HL in Hv; [|lia]. exists v. tauto.
        - apply sum_count. intros x Hx. destruct (In_nth _ _ 0 Hx) as (k & Hk & <-). fold (ix U_B k). rewrite <- SU. apply (wf_range O U_B (proj1 VU)). destruct TU as (_ & -> & _) in Hk. exact Hk.
        - rewrite (total_primary L_B (proj1 VL)) by lia. destruct TL as (_ & -> & _). now rewrite PL. }
      intros [[[P Sc] rs'] cs'] (H1 & H2). apply okp_ok. exists rs, cs. auto.
  Qed.

  (** The hierarchy. *)
  Fixpoint good (rsz csz : list nat) (precs : list (Prec O)) : Prop :=
    match precs with
    | [] => True
    | P :: rest => LF P (length rsz) rsz csz /\ length csz = length rsz /\
        good (left_over (pm P) (pn P) (pp P) rsz) (left_over (pm P) (pn P) (pq P) csz) rest
    end.

  Lemma good_within : forall precs rsz csz, good rsz csz precs -> fill_within BU BL rsz csz precs.
  Proof. induction precs as [|P rest IH]; intros rsz csz H; [exact I|]. destruct H as ([] & _ & H). cbn [fill_within]. auto. Qed.
  Lemma sum_split : forall (B : nat -> nat) n m p sz, is_perm n p -> m <= n -> length sz = n ->
    list_sum (map B sz) = list_sum (map (fun k => B (nth (nth k p 0) sz 0)) (seq 0 m)) + list_sum (map B (left_over m n p sz)).
  Proof.
    intros B n m p sz HP Hm HL. unfold left_over. rewrite map_map, <- list_sum_app, <- map_app.
    replace (seq 0 m ++ seq m (n - m)) with (seq 0 n). 2:{ replace n with (m + (n - m)) at 1 by lia. rewrite seq_app. reflexivity. }
    transitivity (list_sum (map (fun i => B (nth i sz 0)) (seq 0 n))).
    { f_equal. apply list_ext with (d := 0); [rewrite !map_length, seq_length; auto|]. intros i Hi. rewrite map_length in Hi. rewrite nth_map_seq by lia.
      rewrite (nth_indep _ 0 (B 0)) by (rewrite map_length; lia). now rewrite map_nth. }
    apply perm_list_sum. rewrite <- (map_map (fun k => nth k p 0) (fun i => B (nth i sz 0))). apply Permutation_map, Permutation_sym, perm_seq. auto.
  Qed.
  Lemma good_total : forall precs rsz csz, good rsz csz precs ->
    total_U precs <= list_sum (map BU rsz) /\ (precs <> [] -> total_L precs <= list_sum (map BL csz)).
  Proof.
    unfold total_U, total_L. induction precs as [|P rest IH]; intros rsz csz H; [cbn; split; [lia|congruence]|]. destruct H as ([] & HLc & H).
    destruct (IH _ _ H) as (H1 & H2). cbn [map list_sum fold_right]. rewrite lf_n0 in *.
    fold (list_sum (map (fun P : Prec O => length (indices (pU P))) rest)). fold (list_sum (map (fun P : Prec O => length (indices (pL P))) rest)).
    rewrite (sum_split BU (length rsz) (pm P) (pp P) rsz lf_p0 lf_m0 eq_refl). rewrite (sum_split BL (length rsz) (pm P) (pq P) csz lf_q0 lf_m0 HLc).
    rewrite <- lf_tU0, <- lf_tL0.
    pose proof (list_sum_le (in_secondary (pU P)) (fun k => BU (nth (nth k (pp P) 0) rsz 0)) (seq 0 (pm P))) as X1.
    pose proof (list_sum_le (in_primary (pL P)) (fun k => BL (nth (nth k (pq P) 0) csz 0)) (seq 0 (pm P))) as X2.
    assert (Y1 := X1 ltac:(intros x Hx; apply in_seq in Hx; apply lf_U0; lia)). assert (Y2 := X2 ltac:(intros x Hx; apply in_seq in Hx; apply lf_L0; lia)).
    split; [lia|]. intros _. destruct rest as [|P' rest']; [cbn [map list_sum fold_right] in *; lia|]. specialize (H2 ltac:(discriminate)). lia.
  Qed.
  Lemma left_nth : forall m n p sz i, i < n - m -> nth i (left_over m n p sz) 0 = nth (nth (m + i) p 0) sz 0.
  Proof.
    intros. unfold left_over. rewrite (nth_indep _ 0 (nth (nth 0 p 0) sz 0)) by (rewrite map_length, seq_length; auto).
    rewrite (map_nth (fun k => nth (nth k p 0) sz 0)), seq_nth by auto. reflexivity.
  Qed.

  Lemma LF_ext : forall P n rs cs rs' cs', LF P n rs cs -> (forall i, i < n -> nth i rs' 0 = nth i rs 0) -> (forall i, i < n -> nth i cs' 0 = nth i cs 0) -> LF P n rs' cs'.
  Proof.
    intros P n rs cs rs' cs' [] H1 H2. split; auto.
    - intros k Hk. rewrite H1 by (apply lf_p0; lia). auto.
    - intros k Hk. rewrite H2 by (apply lf_q0; lia). auto.
  Qed.

  Lemma kernel_f : pre_safe pre -> (forall k j, 1 <= k -> 1 <= low k j) ->
    (forall piv lvl, ceil_pos G ceil_mul (aL piv lvl)) -> (forall piv lvl, ceil_pos G ceil_mul (aU piv lvl)) ->
    forall fuel lvl (must rm : bool) (A : CS O) rs cs rsz csz, 1 <= lvl ->
    valid A -> tight A -> ssize A = psize A -> 1 <= psize A ->
    (lvl = 1 -> 1 <= nnz_of A) -> (lvl <> 1 -> sizes_ok (psize A) rs cs) ->
    length rsz = psize A -> length csz = psize A ->
    (lvl = 1 -> forall i, i < psize A -> nth i rsz 0 = Nat.max (low (nnz_of A) (psize A)) (nz_row rm A i) /\ nth i csz 0 = Nat.max (low (nnz_of A) (psize A)) (nz_col rm A i)) ->
    (lvl <> 1 -> forall i, i < psize A -> nth i rsz 0 = nth i rs 0 /\ nth i csz 0 = nth i cs 0) ->
    okp (factorize_kernel fuel lvl must rm A rs cs) (fun precs => good rsz csz precs /\ precs <> []).
  Proof.
    intros HP HL CL CU. induction fuel as [|fuel IH]; intros lvl must rm A rs cs rsz csz Hl VA TA SA Hn Hz Hs Lr Lc H1 H2; [apply okp_ub|].
    cbn [FactorModel.factorize_kernel]. destruct (Nat.eqb_spec (psize A) (ssize A)); [|lia]. cbn [negb]. cbv zeta.
    set (pv := match h_pivot G opts with PivOff => false | PivOn => true | PivAuto => must end). set (rt := match h_pivot G opts with PivAuto => negb must | _ => false end).
    destruct (both_storages ji jv rm A VA TA (eq_sym SA)) as (B & EB & V1 & V2 & P1 & S1 & P2 & S2 & _).
    destruct (HP lvl (psize A) _ _ V2 V1 P2 S2 P1 S1 Hn) as [E|(s & t & p & q & m2 & E & PG)].
    { rewrite level_err; auto. { apply okp_err. } intros B' EB'. rewrite EB in EB'. injection EB' as <-. exact E. }
    assert (HPre : forall B, other_storage O ji jv A = Ok B -> pre lvl (if rm then B else A) (if rm then A else B) = Ok (s, t, p, q, m2)).
    { intros B' EB'. rewrite EB in EB'. injection EB' as <-. exact E. }
    ob. intros x EX. pose proof (level_f pv rt lvl rm A rs cs s t p q m2 Hl VA TA SA Hn HL Hz Hs (CL pv lvl) (CU pv lvl) HPre PG x EX) as LFX.
    destruct x as [[[[P Sc] rs'] cs']|]; [|now apply (IH lvl true)].
    destruct LFX as (rs1 & cs1 & X1 & X2 & LFP & X3).
    destruct (level_l G root shrink times bad big mdiv ceil_mul nth_el srt opts pre low go_dense mk_dense junkT junkN ji jv ML NE SR
      pv rt lvl rm A rs cs s t p q m2 VA TA SA Hn HL Hz Hs (CL pv lvl) (CU pv lvl) HPre PG) as [(_ & EL)|(P' & Sc' & rs2 & cs2 & C & EL & EN & SY & FX & LS & NL & _)].
    { rewrite EX in EL. discriminate. }
    rewrite EX in EL. injection EL as <- <- <- <-.
    assert (Z : forall i, i < psize A -> nth i rsz 0 = nth i rs1 0 /\ nth i csz 0 = nth i cs1 0).
    { intros i Hi. destruct (Nat.eq_dec lvl 1) as [E1|E1].
      - destruct (X1 E1 i Hi), (H1 E1 i Hi). split; congruence.
      - destruct (X2 E1) as (-> & ->). auto. }
    assert (LFZ : LF P (psize A) rsz csz). { eapply LF_ext; [exact LFP| |]; intros i Hi; apply Z; auto. }
    destruct (is_last_level O P) eqn:LL.
    - apply okp_ok. split; [|discriminate]. cbn [good]. rewrite Lr. split; auto.
    - destruct (NL eq_refl) as (Hm & VS & TS & PS & SS & SZ & _). specialize (X3 eq_refl).
      pose proof (lf_p _ _ _ _ LFP) as PP. pose proof (lf_q _ _ _ _ LFP) as PQ. destruct PP as (_ & RP & _). destruct PQ as (_ & RQ & _).
      ob. eapply okp_conseq.
      { apply (IH (S lvl) must rm Sc rs' cs' (left_over (pm P) (pn P) (pp P) rsz) (left_over (pm P) (pn P) (pq P) csz)); auto; try lia.
        - rewrite PS. auto.
        - unfold left_over. rewrite map_length, seq_length. lia.
        - unfold left_over. rewrite map_length, seq_length. lia.
        - intros _ i Hi. rewrite PS in Hi. rewrite !left_nth by lia. destruct (X3 i Hi) as (-> & ->). split; apply Z; [apply RP|apply RQ]; lia. }
      intros rest (HR & _). apply okp_ok. split; [|discriminate]. cbn [good]. rewrite Lr. auto.
  Qed.
End L.
