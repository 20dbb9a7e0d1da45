(** * PivotProofs4: the computations of one step of the pivoting update. *)
From Coq Require Import List Arith Lia Bool Permutation Ring.
From Verif Require Import Base Scalar Spec CSModel CSSpec ConvModel ConvSpec BucketProofs ConvProofs ConvProofs2
  ConvProofs3 ConvProofs4 Mag VecModel VecSpec VecProofs PruneModel PruneProofs CroutModel CroutProofs1 CroutProofs2 CroutProofs3
  CroutProofs4 CroutProofs5 CroutProofs6 CroutProofs9 AugModel AugSpec AugProofs1 AugProofs2 AugProofs3 PivotModel PivotProofs1 PivotProofs2.
Import ListNotations.

Section A.
  Context {O : Ops}.
  Notation T := (T O).
  Notation row := (list (nat * T)).
  Notation col := (row * row)%type.
  Notation tl' c cols := (snd (nth c cols (dcol (O:=O)))).
  Notation dn' c cols := (fst (nth c cols (dcol (O:=O)))).

  Lemma acur_pos : forall (F : aug O) li st c, acur F st c = cur_pos (mkFac (a_cs F) li st) c.
  Proof. reflexivity. Qed.

  (** the list walked at the current position is exactly the set of columns whose next entry is there *)
  Lemma aug_heads : forall ps nc k g lim s start cols, PRep ps nc k g lim s start cols -> g < nc ->
    exists l li, get (a_start s) g = Ok (hd_error l) /\ linked (a_next s) l /\ length l < fuel_aug s /\
      NoDup (map (fun x => nth x (a_inds s) 0) l) /\
      (forall x, In x l -> nth x (a_inds s) 0 < k /\
         node s x = Ok (nth x (a_inds s) 0, lkv (tl' (nth x (a_inds s) 0) cols) g, nth x (a_next s) None)) /\
      Rep ps nc k g lim [] (mkFac (a_cs s) li start) cols /\
      (forall c, In c (map (fun x => nth x (a_inds s) 0) l) <-> c < k /\ hds cols c = Some g).
  Proof.
    intros ps nc k g lim s start cols R Hg. destruct (aug_chain _ _ _ _ _ _ _ _ g R ltac:(lia)) as (l & G1 & G2 & G3 & G4 & G5 & G6).
    destruct (prep_ne _ _ _ _ _ _ _ _ R) as (li & Rp). exists l, li. repeat (split; [assumption|]).
    intros c. rewrite G6. pose proof Rp as []. split; intros (Hc & H); split; auto; destruct (r_tail c Hc) as (T1 & T2).
    - rewrite (tail_g g lim) in H by auto. unfold hds, hdi. destruct (tl' c cols) as [|[i v] t']; [congruence|].
      cbn [fst]. destruct (Nat.eqb_spec i g); congruence.
    - rewrite (tail_g g lim) by auto. unfold hds, hdi in H. destruct (tl' c cols) as [|[i v] t']; [congruence|].
      cbn [fst] in H. injection H as ->. rewrite Nat.eqb_refl. congruence.
  Qed.

  Lemma pcompute_ut_l : forall N psL psU ssL ssU k g limL limU (L U : aug O) Lst Ust (lc uc : list col) s t d (A : CS O) pk qinv ut,
    PRep psL ssL k g limL L Lst lc -> PRep psU ssU k g limU U Ust uc -> g < ssL -> k <= length d ->
    valid A -> pk < psize A -> ssize A <= length qinv -> ssize A <= length t -> pk < length s -> limU <= N ->
    (forall j, j < ssize A -> g < nth j qinv 0 -> nth j qinv 0 < limU) ->
    (forall j j', j < ssize A -> j' < ssize A -> g < nth j qinv 0 -> nth j qinv 0 = nth j' qinv 0 -> j = j') ->
    idle N k ut ->
    wp (pcompute_ut k g s A t pk qinv L d U Ust ut) (fun ut' => exists f, acc N k (S g) limU ut' f /\
      (RingLaws O -> forall j, j < ssize A -> g < nth j qinv 0 ->
        f (nth j qinv 0) = tsub O (tmul O (tmul O (nth pk s (t0 O)) (ent A pk j)) (nth j t (t0 O)))
          (sum k (fun c => tmul O (tmul O (lkv (tl' c lc) g) (nth c d (t0 O))) (lkv (tl' c uc) (nth j qinv 0)))))).
  Proof.
    intros N psL psU ssL ssU k g limL limU L U Lst Ust lc uc s t d A pk qinv ut RpL RpU HgL Hd HV Hpk Hq Ht Hs HN Hlim Hinj Hid.
    unfold pcompute_ut. wpb. apply wp_get with (d := t0 O); [lia|]. wpb. eapply wp_conseq.
    { eapply (load_l N k g limU A pk qinv _ (fun j w => tmul O (tmul O (nth pk s (t0 O)) w) (nth j t (t0 O)))); eauto.
      - intros j w Hj. rewrite (get_nth _ _ _ (t0 O)) by lia. reflexivity.
      - now apply acc_reset. }
    intros v1 (f0 & A0 & F1 & F2).
    assert (FE : RingLaws O -> forall j, j < ssize A -> g < nth j qinv 0 ->
      f0 (nth j qinv 0) = tmul O (tmul O (nth pk s (t0 O)) (ent A pk j)) (nth j t (t0 O))).
    { intros RL j Hj Hg. apply (load_ent RL A pk j (fun j w => tmul O (tmul O (nth pk s (t0 O)) w) (nth j t (t0 O))) f0 qinv g); auto.
      - intros j' H1 H2 H3. symmetry. apply Hinj; auto.
      - intros j'. rewrite (ru_mul0_r O RL). now apply ru_mul0_l. }
    destruct (Nat.eqb_spec k 0) as [Ek|Ek].
    - apply wp_ok. exists f0. split; auto. intros RL j Hj Hg. rewrite FE by auto. subst k. simpl. symmetry. now apply ru_sub0.
    - destruct (aug_heads _ _ _ _ _ _ _ _ RpL HgL) as (l & liL & G1 & G2 & G3 & C2 & G5 & R1 & C4).
      destruct (prep_ne _ _ _ _ _ _ _ _ RpU) as (liU & R2). rewrite G1. cbn [bind].
      rewrite (while_aug _ (a_next L) (a_inds L) l _ _ (fun c v => for_list (untilg g (tl' c uc)) (fun e v =>
          accum k v (fst e) (tmul O (topp O (tmul O (lkv (tl' c lc) g) (nth c d (t0 O)))) (snd e))
                           (tmul O (tmul O (lkv (tl' c lc) g) (nth c d (t0 O))) (snd e))) v)); auto.
      2:{ intros x v Hx. destruct (G5 x Hx) as (Hc & En). rewrite En. cbn [bind]. set (c := nth x (a_inds L) 0) in *.
          rewrite (get_nth _ _ _ (t0 O)) by lia. cbn [bind]. cbv zeta.
          rewrite <- (rep_tail_loop _ _ _ _ _ _ _ _ _ c (fun i w v => accum k v i (tmul O (topp O (tmul O (lkv (tl' c lc) g) (nth c d (t0 O)))) w)
                           (tmul O (tmul O (lkv (tl' c lc) g) (nth c d (t0 O))) w)) v R2 Hc).
          rewrite (acur_pos U liU). rewrite (rep_pos _ _ _ _ _ _ _ _ _ R2 Hc). cbn [bind fm].
          match goal with |- context [if negb ?b then ?x else ?y] => destruct (if negb b then x else y) as [up| |]; cbn [bind]; auto end.
          destruct (_ <? up); cbn [bind]; auto. }
      eapply wp_conseq.
      { apply (walk_sum N k g limU uc (fun c w => tmul O (topp O (tmul O (lkv (tl' c lc) g) (nth c d (t0 O)))) w)
           (fun c w => tmul O (tmul O (lkv (tl' c lc) g) (nth c d (t0 O))) w)
           (fun c => tmul O (lkv (tl' c lc) g) (nth c d (t0 O))) _ v1 f0); auto.
        - intros c Hc. apply C4 in Hc. pose proof R2 as []. apply r_tail. tauto.
        - intros RL c w. now apply ru_mul_opp. }
      intros v2 A2. eexists. split; [exact A2|]. intros RL j Hj Hg. cbv beta. rewrite FE by auto. f_equal.
      apply (chain_total _ _ _ _ _ _ _ _ _ _ _ _ _ (fun c => tmul O (lkv (tl' c lc) g) (nth c d (t0 O))) RL R1 R2); auto.
      + intros c E. rewrite E. now apply ru_mul0_l.
      + lia.
  Qed.

  Lemma pcompute_l_l : forall N psL psU ssL ssU k g limL limU (L U : aug O) Lst Ust (lc uc : list col) s t d (A : CS O) qk pinv l0,
    PRep psL ssL k g limL L Lst lc -> PRep psU ssU k g limU U Ust uc -> g < ssU -> k <= length d ->
    valid A -> qk < psize A -> ssize A <= length pinv -> ssize A <= length s -> qk < length t -> limL <= N ->
    (forall j, j < ssize A -> g < nth j pinv 0 -> nth j pinv 0 < limL) ->
    (forall j j', j < ssize A -> j' < ssize A -> g < nth j pinv 0 -> nth j pinv 0 = nth j' pinv 0 -> j = j') ->
    idle N k l0 ->
    wp (pcompute_l k g s A t pinv qk L Lst d U l0) (fun l' => exists f, acc N k (S g) limL l' f /\
      (RingLaws O -> forall j, j < ssize A -> g < nth j pinv 0 ->
        f (nth j pinv 0) = tsub O (tmul O (tmul O (nth j s (t0 O)) (ent A qk j)) (nth qk t (t0 O)))
          (sum k (fun c => tmul O (tmul O (nth c d (t0 O)) (lkv (tl' c uc) g)) (lkv (tl' c lc) (nth j pinv 0)))))).
  Proof.
    intros N psL psU ssL ssU k g limL limU L U Lst Ust lc uc s t d A qk pinv l0 RpL RpU HgL Hd HV Hpk Hq Hs Ht HN Hlim Hinj Hid.
    unfold pcompute_l. wpb. apply wp_get with (d := t0 O); [lia|]. wpb. eapply wp_conseq.
    { eapply (load_l N k g limL A qk pinv _ (fun j w => tmul O (tmul O (nth j s (t0 O)) w) (nth qk t (t0 O)))); eauto.
      - intros j w Hj. rewrite (get_nth _ _ _ (t0 O)) by lia. reflexivity.
      - now apply acc_reset. }
    intros v1 (f0 & A0 & F1 & F2).
    assert (FE : RingLaws O -> forall j, j < ssize A -> g < nth j pinv 0 ->
      f0 (nth j pinv 0) = tmul O (tmul O (nth j s (t0 O)) (ent A qk j)) (nth qk t (t0 O))).
    { intros RL j Hj Hg. apply (load_ent RL A qk j (fun j w => tmul O (tmul O (nth j s (t0 O)) w) (nth qk t (t0 O))) f0 pinv g); auto.
      - intros j' H1 H2 H3. symmetry. apply Hinj; auto.
      - intros j'. rewrite (ru_mul0_r O RL). now apply ru_mul0_l. }
    destruct (Nat.eqb_spec k 0) as [Ek|Ek].
    - apply wp_ok. exists f0. split; auto. intros RL j Hj Hg. rewrite FE by auto. subst k. simpl. symmetry. now apply ru_sub0.
    - destruct (aug_heads _ _ _ _ _ _ _ _ RpU HgL) as (l & liU & G1 & G2 & G3 & C2 & G5 & R2 & C4).
      destruct (prep_ne _ _ _ _ _ _ _ _ RpL) as (liL & R1). rewrite G1. cbn [bind].
      rewrite (while_aug _ (a_next U) (a_inds U) l _ _ (fun c v => for_list (untilg g (tl' c lc)) (fun e v =>
          accum k v (fst e) (tmul O (topp O (tmul O (nth c d (t0 O)) (lkv (tl' c uc) g))) (snd e))
                           (tmul O (snd e) (tmul O (nth c d (t0 O)) (lkv (tl' c uc) g)))) v)); auto.
      2:{ intros x v Hx. destruct (G5 x Hx) as (Hc & En). rewrite En. cbn [bind]. set (c := nth x (a_inds U) 0) in *.
          rewrite (get_nth _ _ _ (t0 O)) by lia. cbn [bind]. cbv zeta.
          rewrite <- (rep_tail_loop _ _ _ _ _ _ _ _ _ c (fun i w v => accum k v i (tmul O (topp O (tmul O (nth c d (t0 O)) (lkv (tl' c uc) g))) w)
                           (tmul O w (tmul O (nth c d (t0 O)) (lkv (tl' c uc) g)))) v R1 Hc).
          rewrite (acur_pos L liL). rewrite (rep_pos _ _ _ _ _ _ _ _ _ R1 Hc). cbn [bind fm].
          match goal with |- context [if negb ?b then ?x else ?y] => destruct (if negb b then x else y) as [up| |]; cbn [bind]; auto end.
          destruct (_ <? up); cbn [bind]; auto. }
      eapply wp_conseq.
      { apply (walk_sum N k g limL lc (fun c w => tmul O (topp O (tmul O (nth c d (t0 O)) (lkv (tl' c uc) g))) w)
           (fun c w => tmul O w (tmul O (nth c d (t0 O)) (lkv (tl' c uc) g)))
           (fun c => tmul O (nth c d (t0 O)) (lkv (tl' c uc) g)) _ v1 f0); auto.
        - intros c Hc. apply C4 in Hc. pose proof R1 as []. apply r_tail. tauto.
        - intros RL c w. now apply ru_comm_opp.
        - intros RL c w. now apply ru_comm. }
      intros v2 A2. eexists. split; [exact A2|]. intros RL j Hj Hg. cbv beta. rewrite FE by auto. f_equal.
      apply (chain_total _ _ _ _ _ _ _ _ _ _ _ _ _ (fun c => tmul O (nth c d (t0 O)) (lkv (tl' c uc) g)) RL R2 R1); auto.
      + intros c E. rewrite E. now apply ru_mul0_r.
      + lia.
  Qed.

  (** update_kappa only reads the factor, at any position still to come *)
  Lemma pupdate_kappa_l : forall ps ss klt k g lim (F : aug O) start (cols : list col) kappa entry,
    PRep ps ss k g lim F start cols -> g < ss -> k < length kappa -> entry = 0 \/ g <= entry < ss ->
    wp (pupdate_kappa klt k g F kappa entry) (fun kappa' => length kappa' = length kappa).
  Proof.
    intros ps ss klt k g lim F start cols kappa entry R Hg HL HE. unfold pupdate_kappa.
    destruct (Nat.eqb_spec k 0). { apply wp_set; [lia|]. apply upd_length. }
    set (j := if entry =? 0 then g else entry).
    assert (Hj : g <= j < ss). { unfold j. destruct (Nat.eqb_spec entry 0); lia. }
    destruct (aug_chain _ _ _ _ _ _ _ _ j R Hj) as (l & G1 & G2 & G3 & G4 & G5 & G6). rewrite G1. cbn [bind].
    rewrite (while_aug _ (a_next F) (a_inds F) l _ _ (fun c sum => Ok (tadd O sum (tmul O (nth c kappa (t0 O)) (lkv (tl' c cols) j))))); auto.
    2:{ intros x v Hx. destruct (G5 x Hx) as (Hc & En). rewrite En. cbn [bind]. rewrite (get_nth _ _ _ (t0 O)) by lia. reflexivity. }
    wpb. eapply wp_conseq. { apply (for_list_inv _ _ (fun _ _ => True)); auto. }
    intros sm _. cbv zeta. apply wp_set; auto. apply upd_length.
  Qed.

  Definition ldk (g : nat) (s : list T) (pinv : list nat) (tq : T) : list (nat * T) -> T :=
    fix go (l : list (nat * T)) : T := match l with
    | [] => t0 O
    | (j, w) :: l => if nth j pinv 0 =? g then tmul O (tmul O (nth j s (t0 O)) w) tq else go l
    end.

  Lemma load_dk_row : forall g s (A : CS O) pinv tq l b, wf A ->
    (forall e, In e l -> fst e < length pinv /\ fst e < length s) ->
    (forall i, i < length l -> get (indices A) (b + i) = Ok (fst (nth i l (0, t0 O))) /\ get (vals A) (b + i) = Ok (snd (nth i l (0, t0 O)))) ->
    load_dk g s A pinv tq (seq b (length l)) = Ok (ldk g s pinv tq l).
  Proof.
    intros g s A pinv tq l. induction l as [|[j w] l IH]; intros b W H1 H2; cbn [length seq load_dk ldk]; auto.
    destruct (H2 0 ltac:(simpl; lia)) as (E1 & E2). rewrite Nat.add_0_r in *. cbn [nth fst snd] in *. rewrite E1. cbn [bind].
    destruct (H1 (j, w) (or_introl eq_refl)) as (X1 & X2). cbn [fst] in *.
    rewrite (get_nth _ _ _ 0) by lia. cbn [bind]. destruct (nth j pinv 0 =? g).
    - rewrite (get_nth _ _ _ (t0 O)) by lia. cbn [bind]. rewrite E2. reflexivity.
    - apply IH; auto. { intros e He. apply H1. right; auto. }
      intros i Hi. specialize (H2 (S i) ltac:(simpl; lia)). rewrite Nat.add_succ_r in H2. cbn [nth] in H2. exact H2.
  Qed.

  Lemma ldk_ent : RingLaws O -> forall (A : CS O) qk j g s pinv tq, valid A -> qk < psize A -> j < ssize A -> nth j pinv 0 = g ->
    (forall j', j' < ssize A -> nth j' pinv 0 = g -> j' = j) ->
    ldk g s pinv tq (rowl A qk) = tmul O (tmul O (nth j s (t0 O)) (ent A qk j)) tq.
  Proof.
    intros RL A qk j g s pinv tq [W SO] Hq Hj Hg Hi.
    assert (RG : forall e, In e (rowl A qk) -> fst e < ssize A) by (intros; now apply (wf_rowl_range O A W qk)).
    destruct (in_dec Nat.eq_dec j (map fst (rowl A qk))) as [I|I].
    - apply in_map_iff in I. destruct I as ([j' w] & E & I). simpl in E. subst j'.
      rewrite (ent_stored_eq O RL A qk j w) by (auto; apply (valid_nodup O A qk SO Hq)).
      pose proof (valid_nodup O A qk SO Hq) as ND. revert RG I ND. induction (rowl A qk) as [|[i v] l IH]; intros RG I ND; [destruct I|].
      cbn [ldk]. cbn [map fst] in ND. inversion ND as [|? ? X Y]; subst. destruct (Nat.eqb_spec (nth i pinv 0) (nth j pinv 0)) as [Ei|Ei].
      + assert (i = j). { apply Hi; auto. apply (RG (i, v)). left; auto. } subst i.
        destruct I as [I|I]; [congruence|]. exfalso. apply X. apply (in_map fst) in I. auto.
      + destruct I as [I|I]; [congruence|]. apply IH; auto. intros e He. apply RG. right; auto.
    - rewrite (ent_not_stored O RL A qk j). 2:{ intros v Hv. apply I. apply (in_map fst) in Hv. auto. }
      transitivity (t0 O). 2:{ rewrite (ru_mul0_r O RL). symmetry. now apply ru_mul0_l. }
      revert RG I. induction (rowl A qk) as [|[i v] l IH]; intros RG I; cbn [ldk]; auto.
      destruct (Nat.eqb_spec (nth i pinv 0) g) as [Ei|Ei].
      + exfalso. apply I. left. cbn [fst]. symmetry. symmetry. apply Hi; auto. apply (RG (i, v)). left; auto.
      + apply IH. intros e He; apply RG; right; auto. intros K. apply I. right; auto.
  Qed.

  (** reading the entry of column [c] at the current position, if it is there *)
  Lemma head_read : forall S ps ss k g lim (F : aug O) li start (cols : list col) c (h : T -> S) (dk : S),
    Rep ps ss k g lim [] (mkFac (a_cs F) li start) cols -> c < k ->
    ('(lpos, le) <- acur F start c ;;
     if negb (lpos =? le) then
       i <- get (indices (a_cs F)) lpos ;;
       if i =? g then lv <- get (vals (a_cs F)) lpos ;; Ok (h lv) else Ok dk
     else Ok dk) = Ok (match lko (tl' c cols) g with Some v => h v | None => dk end).
  Proof.
    intros S ps ss k g lim F li start cols c h dk R Hc. rewrite (acur_pos F li). rewrite (rep_pos _ _ _ _ _ _ _ _ _ R Hc). cbn [bind].
    pose proof R as []. cbn [fm] in *. rewrite r_fm. cbn [ofrows indices vals]. destruct (r_tail c Hc) as (T1 & T2). rewrite (tail_g g lim) by auto.
    assert (Hl : c < length (map whole cols ++ [])) by (rewrite app_length, map_length; lia).
    assert (Er : nth c (map whole cols ++ []) [] = whole (nth c cols dcol)) by (apply nth_rows; lia).
    assert (LW : length (whole (nth c cols dcol)) = length (dn' c cols) + length (tl' c cols)) by apply app_length.
    rewrite LW. clear LW. destruct (tl' c cols) as [|[i v] t] eqn:E.
    - cbn [length]. rewrite Nat.add_0_r, Nat.eqb_refl. reflexivity.
    - cbn [length]. destruct (Nat.eqb_spec (offs (map whole cols ++ []) c + length (dn' c cols)) (offs (map whole cols ++ []) c + (length (dn' c cols) + Datatypes.S (length t)))); [lia|].
      cbn [negb]. assert (HL : length (dn' c cols) < length (nth c (map whole cols ++ []) [])). { rewrite Er. unfold whole. rewrite app_length, E. cbn [length]. lia. }
      rewrite !get_row by auto. rewrite Er. change (whole (nth c cols dcol)) with (dn' c cols ++ tl' c cols). rewrite app_nth2, Nat.sub_diag, E by lia. cbn [nth fst snd bind].
      destruct (i =? g); reflexivity.
  Qed.

  Lemma dk_fold : forall (l : list nat) (u : nat -> T) (cols : list col) g dk,
    for_list l (fun c dk => Ok (match lko (tl' c cols) g with Some v => tsub O dk (tmul O (u c) v) | None => dk end)) dk =
    Ok (fold_left (fun dk c => match lko (tl' c cols) g with Some v => tsub O dk (tmul O (u c) v) | None => dk end) l dk).
  Proof. induction l; intros; cbn [for_list fold_left bind]; auto. Qed.
  Lemma dk_sum : RingLaws O -> forall (l : list nat) (u : nat -> T) (cols : list col) g dk,
    fold_left (fun dk c => match lko (tl' c cols) g with Some v => tsub O dk (tmul O (u c) v) | None => dk end) l dk =
    tsub O dk (lsum O l (fun c => tmul O (u c) (lkv (tl' c cols) g))).
  Proof.
    intros RL. induction l; intros; cbn [fold_left lsum fold_right]. { symmetry. now apply ru_sub0. }
    rewrite IHl. unfold lsum. rewrite <- (ru_sub_add O RL). f_equal. unfold lkv. destruct (lko (tl' a cols) g); cbn [ov]; auto.
    symmetry. now apply ru_sub_mul0.
  Qed.

  (** computing the diagonal entry of the current position *)
  Lemma compute_dk_l : forall psL psU ssL ssU k g limL limU (L U : aug O) Lst Ust (lc uc : list col) s t d (A : CS O) qk pinv,
    PRep psL ssL k g limL L Lst lc -> PRep psU ssU k g limU U Ust uc -> g < ssU -> k <= length d ->
    valid A -> qk < psize A -> ssize A <= length pinv -> ssize A <= length s -> qk < length t ->
    (forall j j', j < ssize A -> j' < ssize A -> nth j pinv 0 = g -> nth j' pinv 0 = g -> j' = j) ->
    wp (compute_dk k g s A t pinv qk L Lst d U) (fun dk =>
      RingLaws O -> forall j, j < ssize A -> nth j pinv 0 = g ->
        dk = tsub O (tmul O (tmul O (nth j s (t0 O)) (ent A qk j)) (nth qk t (t0 O)))
          (sum k (fun c => tmul O (tmul O (nth c d (t0 O)) (lkv (tl' c uc) g)) (lkv (tl' c lc) g)))).
  Proof.
    intros psL psU ssL ssU k g limL limU L U Lst Ust lc uc s t d A qk pinv RpL RpU HgU Hd HV Hpk Hq Hs Ht Hinj.
    unfold compute_dk. pose proof HV as [W SO].
    pose proof (wf_len O A W). pose proof (wf_mono O A W qk Hpk) as B1. pose proof (st_mono O A W (Datatypes.S qk) (psize A) ltac:(lia) ltac:(lia)) as B2.
    pose proof (wf_inds O A W). pose proof (wf_vals O A W).
    wpb. apply wp_get with (d := 0); [lia|]. wpb. apply wp_get with (d := 0); [lia|].
    wpb. apply wp_get with (d := t0 O); [lia|]. fold (st A qk). fold (st A (Datatypes.S qk)).
    destruct (Nat.ltb_spec (st A (Datatypes.S qk)) (st A qk)); [lia|].
    rewrite <- rowl_length. rewrite load_dk_row; auto.
    2:{ intros e He. pose proof (wf_rowl_range O A W qk e Hpk He). lia. }
    2:{ intros i Hi. rewrite rowl_length in Hi. rewrite rowl_nth by auto. cbn [fst snd]. unfold ix, vl.
        rewrite (get_nth _ _ _ 0), (get_nth _ _ _ (t0 O)) by lia. auto. }
    cbn [bind]. set (dk0 := ldk _ _ _ _ _).
    assert (E0 : RingLaws O -> forall j, j < ssize A -> nth j pinv 0 = g -> dk0 = tmul O (tmul O (nth j s (t0 O)) (ent A qk j)) (nth qk t (t0 O))).
    { intros RL j Hj Hg. apply ldk_ent; auto. }
    destruct (Nat.eqb_spec k 0) as [Ek|Ek].
    - apply wp_ok. intros RL j Hj Hg. rewrite (E0 RL j) by auto. subst k. simpl. symmetry. now apply ru_sub0.
    - destruct (aug_heads _ _ _ _ _ _ _ _ RpU HgU) as (l & liU & G1 & G2 & G3 & C2 & G5 & R2 & C4).
      destruct (prep_ne _ _ _ _ _ _ _ _ RpL) as (liL & R1). rewrite G1. cbn [bind].
      rewrite (while_aug _ (a_next U) (a_inds U) l _ _ (fun c dk => Ok (match lko (tl' c lc) g with Some v => tsub O dk (tmul O (tmul O (nth c d (t0 O)) (lkv (tl' c uc) g)) v) | None => dk end))); auto.
      2:{ intros x v Hx. destruct (G5 x Hx) as (Hc & En). rewrite En. cbn [bind]. set (c := nth x (a_inds U) 0) in *.
          rewrite (get_nth _ _ _ (t0 O)) by lia. cbn [bind]. cbv zeta.
          pose proof (head_read _ _ _ _ _ _ _ _ _ _ c (fun lv => tsub O v (tmul O (tmul O (nth c d (t0 O)) (lkv (tl' c uc) g)) lv)) v R1 Hc) as E.
          destruct (acur L Lst c) as [[lpos le]| |]; cbn [bind] in *; try discriminate. rewrite E. reflexivity. }
      rewrite dk_fold. apply wp_ok. intros RL j Hj Hg. rewrite (dk_sum RL). rewrite (E0 RL j) by auto. f_equal.
      apply lsum_sum; auto.
      + intros c Hc. apply C4 in Hc. tauto.
      + intros c Hc Hn. replace (lkv (tl' c uc) g) with (t0 O). { rewrite (ru_mul0_r O RL). now apply ru_mul0_l. }
        pose proof R2 as []. destruct (r_tail c Hc) as (T1 & T2).
        unfold lkv. rewrite (tail_g g limU) by auto. destruct (tl' c uc) as [|[i v] t'] eqn:E; auto.
        destruct (Nat.eqb_spec i g) as [->|]; auto. exfalso. apply Hn. apply C4. split; auto. unfold hds, hdi. now rewrite E.
  Qed.
End A.
