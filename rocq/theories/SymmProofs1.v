(** * SymmProofs1: the Crout update of the symmetric mode, [compute_symm], [update_diag<true>]
    and the reduction of the deferral loop to the general one. *)
From Coq Require Import List Arith Lia Bool Permutation Ring.
From Verif Require Import Base Scalar Spec CSModel CSSpec ConvModel ConvSpec BucketProofs ConvProofs ConvProofs2
  ConvProofs3 ConvProofs4 Mag VecModel VecSpec VecProofs PruneModel PruneProofs CroutModel CroutSpec CroutProofs1 CroutProofs2 CroutProofs3
  CroutProofs4 CroutProofs5 CroutProofs6 CroutProofs7 CroutProofs8 CroutProofs9 CroutProofs10 CroutProofs11 SchurModel PrecModel FactorModel SymmModel.
Import ListNotations.

Section RingU.
  Variable O : Ops.
  Hypothesis RL : RingLaws O.
  Add Ring TRUS : (rl_ring O RL).
  Lemma ru_dk : forall a b c, tsub O a (tmul O (tmul O b c) c) = tsub O a (tmul O c (tmul O c b)). Proof. intros. ring. Qed.
  Lemma ru_sym3 : forall a b c, tmul O (tmul O a b) c = tmul O (tmul O c b) a. Proof. intros. ring. Qed.
  Lemma ru_dcl : forall a b c, tmul O (tmul O a b) c = tmul O (tmul O c a) b. Proof. intros. ring. Qed.
End RingU.

Section A.
  Context {O : Ops}.
  Notation T := (T O).
  Notation row := (list (nat * T)).
  Notation col := (row * row)%type.
  Notation tl' c cols := (snd (nth c cols (dcol (O:=O)))).

  (** reading the tail of a listed column, skipping its first entry *)
  Lemma rep_tail_skip : forall S ps ss k g lim extra (F : Fac O) (cols : list col) c (h : nat -> T -> S -> res S) (s : S),
    Rep ps ss k g lim extra F cols -> c < k -> hds cols c = Some g ->
    (let b := offs (map whole cols ++ extra) c + length (fst (nth c cols dcol)) in
     let e := offs (map whole cols ++ extra) c + length (whole (nth c cols dcol)) in
     let b := if negb (b =? e) then Datatypes.S b else b in
     if e <? b then UB
     else for_range b e (fun k s => i <- get (indices (fm F)) k ;; v <- get (vals (fm F)) k ;; h i v s) s)
    = for_list (untilg g (tl' c cols)) (fun e => h (fst e) (snd e)) s.
  Proof.
    intros S ps ss k g lim extra F cols c h s R Hc Hh.
    rewrite <- (rep_tail_loop S _ _ _ _ _ _ _ _ c h s R Hc). rewrite (rep_pos _ _ _ _ _ _ _ _ _ R Hc). cbn [bind]. cbv zeta.
    pose proof R as []. unfold hds in Hh. apply hdi_some in Hh. destruct Hh as (v & t & E).
    set (rows := map whole cols ++ extra).
    assert (Hl : c < length rows) by (unfold rows; rewrite app_length, map_length; lia).
    assert (Er : nth c rows [] = whole (nth c cols dcol)) by (unfold rows; apply nth_rows; lia).
    assert (Ew : whole (nth c cols dcol) = fst (nth c cols dcol) ++ (g, v) :: t) by (unfold whole; now rewrite E).
    assert (Lw : length (whole (nth c cols dcol)) = length (fst (nth c cols dcol)) + Datatypes.S (length t)) by (rewrite Ew; apply app_length).
    replace (offs rows c + length (fst (nth c cols dcol)) =? offs rows c + length (whole (nth c cols dcol))) with false
      by (symmetry; apply Nat.eqb_neq; lia).
    cbn [negb]. rewrite r_fm. cbn [ofrows indices vals]. fold rows.
    rewrite get_row by (rewrite ?Er; auto; lia). cbn [bind]. rewrite Er, Ew, app_nth2, Nat.sub_diag by lia. cbn [nth fst].
    rewrite Nat.eqb_refl. reflexivity.
  Qed.

  Lemma compute_symm_l : forall N ps ss k g lim (L : Fac O) (lc : list col) s t d (A : CS O) qk pinv l0,
    Rep ps ss k g lim [] L lc -> g < ss -> k <= ss -> k <= length d ->
    valid A -> qk < psize A -> ssize A <= length pinv -> ssize A <= length s -> qk < length t -> lim <= N ->
    (forall j, j < ssize A -> g < nth j pinv 0 -> nth j pinv 0 < lim) ->
    (forall j j', j < ssize A -> j' < ssize A -> g < nth j pinv 0 -> nth j pinv 0 = nth j' pinv 0 -> j = j') ->
    idle N k l0 ->
    wp (compute_symm k g s A t pinv qk L d l0) (fun l' => exists f, acc N k (S g) lim l' f /\
      (RingLaws O -> forall j, j < ssize A -> g < nth j pinv 0 ->
        f (nth j pinv 0) = tsub O (tmul O (tmul O (nth j s (t0 O)) (ent A qk j)) (nth qk t (t0 O)))
          (sum k (fun c => tmul O (tmul O (nth c d (t0 O)) (lkv (tl' c lc) g)) (lkv (tl' c lc) (nth j pinv 0)))))).
  Proof.
    intros N ps ss k g lim L lc s t d A qk pinv l0 Rp Hg Hk Hd HV Hpk Hq Hs Ht HN Hlim Hinj Hid.
    unfold compute_symm. wpb. apply wp_get with (d := t0 O); [lia|]. wpb. eapply wp_conseq.
    { eapply (load_l N k g lim A qk pinv _ (fun j w => tmul O (tmul O (nth j s (t0 O)) w) (nth qk t (t0 O)))); eauto.
      - intros j w Hj. rewrite (get_nth _ _ _ (t0 O)) by lia. reflexivity.
      - now apply acc_reset. }
    intros v1 (f0 & A0 & F1 & F2).
    assert (FE : RingLaws O -> forall j, j < ssize A -> g < nth j pinv 0 ->
      f0 (nth j pinv 0) = tmul O (tmul O (nth j s (t0 O)) (ent A qk j)) (nth qk t (t0 O))).
    { intros RL j Hj Hgj. apply (load_ent RL A qk j (fun j w => tmul O (tmul O (nth j s (t0 O)) w) (nth qk t (t0 O))) f0 pinv g); auto.
      - intros j' H1 H2 H3. symmetry. apply Hinj; auto.
      - intros j'. rewrite (ru_mul0_r O RL). now apply ru_mul0_l. }
    destruct (Nat.eqb_spec k 0) as [Ek|Ek].
    - apply wp_ok. exists f0. split; auto. intros RL j Hj Hgj. rewrite FE by auto. subst k. simpl. symmetry. now apply ru_sub0.
    - destruct (rep_chain _ _ _ _ _ _ _ _ Rp Hg Hk) as (l & G1 & C1 & C2 & C3 & C4). rewrite G1. cbn [bind].
      rewrite (while_chain_read _ (flist L) l _ _ _ (fun c v => for_list (untilg g (tl' c lc)) (fun e v =>
          accum k v (fst e) (tmul O (topp O (tmul O (nth c d (t0 O)) (lkv (tl' c lc) g))) (snd e))
                           (tmul O (snd e) (tmul O (nth c d (t0 O)) (lkv (tl' c lc) g)))) v)); auto.
      2:{ intros c v Hc. apply C4 in Hc. destruct Hc as (Hc & Hh). rewrite (get_nth _ _ _ (t0 O)) by lia. cbn [bind].
          rewrite (rep_pos _ _ _ _ _ _ _ _ _ Rp Hc). cbn [bind].
          rewrite (rep_head _ _ _ _ _ _ _ _ _ Rp Hc Hh). cbn [bind]. cbv zeta.
          rewrite <- (rep_tail_skip _ _ _ _ _ _ _ _ _ c (fun i w v => accum k v i (tmul O (topp O (tmul O (nth c d (t0 O)) (lkv (tl' c lc) g))) w)
                           (tmul O w (tmul O (nth c d (t0 O)) (lkv (tl' c lc) g)))) v Rp Hc Hh). cbv zeta.
          destruct (_ <? _); cbn [bind]; auto. }
      eapply wp_conseq.
      { apply (walk_sum N k g lim lc (fun c w => tmul O (topp O (tmul O (nth c d (t0 O)) (lkv (tl' c lc) g))) w)
           (fun c w => tmul O w (tmul O (nth c d (t0 O)) (lkv (tl' c lc) g)))
           (fun c => tmul O (nth c d (t0 O)) (lkv (tl' c lc) g)) l v1 f0); auto.
        - intros c Hc. apply C4 in Hc. pose proof Rp as []. apply r_tail. tauto.
        - intros RL c w. now apply ru_comm_opp.
        - intros RL c w. now apply ru_comm. }
      intros v2 A2. eexists. split; [exact A2|]. intros RL j Hj Hgj. cbv beta. rewrite FE by auto. f_equal.
      apply (chain_total _ _ _ _ _ _ _ _ _ _ _ _ l (fun c => tmul O (nth c d (t0 O)) (lkv (tl' c lc) g)) RL Rp Rp); auto.
      + intros c E. rewrite E. now apply ru_mul0_r.
      + lia.
  Qed.

  Lemma sv_val_l : forall N (v : SV O), sv_ok N v -> forall i, i < sv_cnt v ->
    sv_val v i = Ok (vv v (nth i (sv_inds v) 0)) /\ In (nth i (sv_inds v) 0) (held v) /\ nth i (sv_inds v) 0 < N.
  Proof.
    intros N v [s1 s2 s3 s4 s5 s6 s7] i Hi.
    assert (Hin : In (nth i (sv_inds v) 0) (held v)).
    { unfold held. rewrite <- (nth_firstn_lt _ (sv_cnt v)) by lia. apply nth_In. rewrite firstn_length. lia. }
    assert (Hr : nth i (sv_inds v) 0 < N) by (now apply s7).
    split; auto. unfold sv_val. rewrite (get_nth _ _ _ 0) by lia. cbn [bind]. rewrite (get_nth _ _ _ (t0 O)) by lia. reflexivity.
  Qed.

  Lemma update_diag_symm_l : forall N k g lim m (l : SV O) fl d,
    acc N k (S g) lim l fl -> m <= length d -> k < length d -> k <= g ->
    wp (update_diag_symm k l m d) (fun d' => length d' = length d /\
      (forall i, i <= g \/ m <= i -> nth i d' (t0 O) = nth i d (t0 O)) /\
      (RingLaws O -> forall i, g < i < m -> nth i d' (t0 O) = tsub O (nth i d (t0 O)) (tmul O (fl i) (tmul O (fl i) (nth k d (t0 O)))))).
  Proof.
    intros N k g lim m l fl d AL Hm Hk Hkg. pose proof AL as [ok at0 ao0 ar0 av0 az0].
    unfold update_diag_symm. wpb. apply wp_get with (d := t0 O); auto. set (dk := nth k d (t0 O)).
    eapply wp_conseq.
    { apply (for_range_inv _ (fun q d' => length d' = length d /\ forall i, nth i d' (t0 O) =
        if in_dec Nat.eq_dec i (firstn q (sv_inds l)) then
          if i <? m then tsub O (nth i d (t0 O)) (tmul O (tmul O dk (vv l i)) (vv l i)) else nth i d (t0 O)
        else nth i d (t0 O))).
      - lia.
      - split; auto.
      - intros q d' Hq (Ld & Hd). destruct (sv_val_l N l ok q ltac:(lia)) as (E1 & E2 & E3).
        pose proof ok as [so1 so2 so3 so4 so5 so6 so7].
        assert (Hni : ~ In (nth q (sv_inds l) 0) (firstn q (sv_inds l))).
        { intros Hin. apply (In_nth _ _ 0) in Hin. destruct Hin as (j & Hj & E). rewrite firstn_length in Hj.
          rewrite nth_firstn_lt in E by lia. unfold held in so6. rewrite (NoDup_nth _ 0) in so6.
          specialize (so6 j q). rewrite !firstn_length in so6. rewrite !nth_firstn_lt in so6 by lia. specialize (so6 ltac:(lia) ltac:(lia) E). lia. }
        wpb. apply wp_get with (d := 0); [lia|]. set (idx := nth q (sv_inds l) 0) in *.
        assert (Eid : nth idx d' (t0 O) = nth idx d (t0 O)).
        { rewrite Hd. destruct (in_dec _ _ _); [contradiction|auto]. }
        assert (ST : forall d'', length d'' = length d -> (forall i, nth i d'' (t0 O) = if i =? idx then
             (if i <? m then tsub O (nth i d (t0 O)) (tmul O (tmul O dk (vv l i)) (vv l i)) else nth i d (t0 O)) else nth i d' (t0 O)) ->
           length d'' = length d /\ forall i, nth i d'' (t0 O) =
          if in_dec Nat.eq_dec i (firstn (S q) (sv_inds l)) then
            if i <? m then tsub O (nth i d (t0 O)) (tmul O (tmul O dk (vv l i)) (vv l i)) else nth i d (t0 O)
          else nth i d (t0 O)).
        { intros d'' L'' H''. split; auto. intros i. rewrite H''. rewrite firstn_snoc by lia. fold idx.
          destruct (Nat.eqb_spec i idx) as [->|Hn].
          - destruct (in_dec _ _ (_ ++ _)) as [|K]; auto. exfalso. apply K. apply in_or_app. simpl. auto.
          - rewrite Hd. destruct (in_dec _ i (firstn q _)) as [I|I], (in_dec _ i (firstn q _ ++ _)) as [J|J]; auto.
            + exfalso. apply J. apply in_or_app. auto.
            + apply in_app_or in J. destruct J as [J|[J|[]]]; [contradiction|congruence]. }
        destruct (idx <? m) eqn:Em.
        + pose proof Em as Em'. apply Nat.ltb_lt in Em'. wpb. apply wp_get with (d := t0 O); [lia|]. rewrite E1. cbn [bind].
          apply wp_set; [lia|]. apply ST. { now rewrite upd_length. }
          intros i. rewrite nth_upd by lia. destruct (Nat.eqb_spec i idx) as [->|]; auto. rewrite Em. now rewrite Eid.
        + apply wp_ok. apply ST; auto. intros i. destruct (Nat.eqb_spec i idx) as [->|]; auto. now rewrite Em. }
    intros d' (Ld & Hd). cbv beta in Hd. split; auto. fold (held l) in Hd. split.
    - intros i Hi. rewrite Hd. destruct (in_dec _ _ _) as [I|I]; auto. destruct (Nat.ltb_spec i m); auto. apply ar0 in I. lia.
    - intros RL i Hi. rewrite Hd. destruct (Nat.ltb_spec i m); [|lia]. destruct (in_dec _ _ _) as [I|I].
      + rewrite av0 by auto. now apply ru_dk.
      + rewrite (az0 RL i) by auto. rewrite (ru_mul0_l O RL). symmetry. now apply ru_sub0.
  Qed.

  (** ** The state of the symmetric mode as a state of the general one *)
  Definition of_SR (c : SR O) : CR O :=
    mkCR (y_m c) (y_def c) (y_L c) (y_L c) (y_d c) (y_p c) (y_p c) (y_P c) (y_P c) (y_Pi c) (y_Pi c) (y_kl c) (y_kl c) (y_l c) (y_l c).
  Definition to_SR (c : CR O) : SR O :=
    mkSR (c_m c) (c_def c) (c_L c) (c_d c) (c_p c) (c_P c) (c_Pi c) (c_kl c) (c_l c).
  Definition map_res {X Y} (f : X -> Y) (m : res X) : res Y := bind m (fun x => Ok (f x)).

  Variable bad : T -> bool.
  Variable klt : T -> T -> bool.
  Variable kbad : T -> bool.
  Variables (n m2 : nat).

  Lemma get_bind2 : forall X Y (l : list X) i (f : X -> X -> res Y), (x <- get l i ;; y <- get l i ;; f x y) = (x <- get l i ;; f x x).
  Proof. intros. destruct (get l i); reflexivity. Qed.

  Lemma kappas_sim : forall k c, kappas klt k (of_SR c) = map_res of_SR (symm_kappa klt k c).
  Proof.
    intros k c. unfold kappas, symm_kappa, map_res. cbn [of_SR c_def c_U c_L c_ku c_kl].
    destruct (update_kappa _ _ _ _ _); reflexivity.
  Qed.
  Lemma kbad_sim : forall k c, kappa_bad kbad k (of_SR c) = symm_kbad kbad k c.
  Proof.
    intros k c. unfold kappa_bad, symm_kbad. cbn [of_SR c_ku c_kl]. destruct (get _ _) as [x| |]; cbn [bind]; auto.
    now rewrite orb_diag.
  Qed.
  Lemma defer_sim : forall k c, defer_one n k (of_SR c) = map_res of_SR (symm_defer_one n k c).
  Proof.
    intros k c. unfold defer_one, symm_defer_one, map_res. cbn [of_SR c_def c_U c_L c_p c_q c_P c_Q c_Pi c_Qi c_d c_m c_kl c_ku c_l c_u].
    destruct (defer_entry _ _ _ _) as [L| |]; cbn [bind]; auto.
    destruct (get (y_p c) _) as [pg| |]; cbn [bind]; auto.
    destruct (set (y_P c) _ _) as [P| |]; cbn [bind]; auto.
    destruct (set (y_Pi c) _ _) as [Pi| |]; cbn [bind]; auto.
    destruct (set P _ _) as [P'| |]; cbn [bind]; auto.
  Qed.
  Lemma defer_loop_sim : forall fuel k c,
    defer_loop bad klt kbad n m2 fuel k (of_SR c) = map_res of_SR (symm_defer_loop bad klt kbad n m2 fuel k c).
  Proof.
    induction fuel; intros k c; auto. cbn [defer_loop symm_defer_loop]. change (c_m (of_SR c)) with (y_m c).
    destruct (k <? y_m c); [|reflexivity]. rewrite defer_sim. unfold map_res at 1.
    destruct (symm_defer_one n k c) as [c1| |]; cbn [bind]; auto.
    change (c_def (of_SR c1)) with (y_def c1). change (c_d (of_SR c1)) with (y_d c1). destruct (m2 <=? y_def c1 + k); [reflexivity|].
    destruct (get (y_d c1) _) as [dg| |]; cbn [bind]; auto. destruct (bad dg); [apply IHfuel|].
    rewrite kappas_sim. unfold map_res at 1. destruct (symm_kappa klt k c1) as [c2| |]; cbn [bind]; auto.
    rewrite kbad_sim. destruct (symm_kbad kbad k c2) as [[]| |]; cbn [bind]; auto.
  Qed.
  Lemma finish_sim : forall k c, crout_finish n (k, of_SR c) = symm_finish n (k, c).
  Proof.
    intros k c. unfold crout_finish, symm_finish. cbn [of_SR c_def c_U c_L c_p c_q c_P c_Q c_Pi c_Qi c_d c_m c_kl c_ku c_l c_u].
    destruct (assign_gap _ _ _ _ _) as [p| |]; cbn [bind]; auto.
    destruct (build_inv _) as [bpp| |]; cbn [bind]; auto. cbv zeta.
    destruct (globalise _ _ _) as [Ls| |]; cbn [bind]; auto.
    destruct (compress_tail _ _ _ _) as [L| |]; cbn [bind]; auto.
  Qed.

  Lemma wp_map : forall X Y (f : X -> Y) m Q, wp (map_res f m) Q -> wp m (fun x => Q (f x)).
  Proof. intros X Y f [x| |] Q H; exact H. Qed.
End A.
