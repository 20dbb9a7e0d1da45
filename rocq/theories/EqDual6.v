(** * EqDual6: the scaling and the matching returned by [compute]. *)
From Coq Require Import List Arith ZArith Bool Lia Reals Lra Permutation.
From Verif Require Import Base EqModel EqSpec DualSpec EqProofs1 EqProofs2 EqProofs3 EqProofs4 EqDual1 EqDual2 EqDual3 EqDual4 EqDual5.
Import ListNotations.
Local Open Scope nat_scope.

(** ** Sums over permutations *)
Lemma rsum_ext : forall n f g, (forall i, 1 <= i <= n -> f i = g i) -> rsum n f = rsum n g.
Proof. induction n; intros f g H; cbn [rsum]; auto. rewrite (IHn f g), (H (S n)) by (try lia; intros; apply H; lia). auto. Qed.
Lemma rsum_le : forall n f g, (forall i, 1 <= i <= n -> (f i <= g i)%R) -> (rsum n f <= rsum n g)%R.
Proof. induction n; intros f g H; cbn [rsum]; [lra|]. pose proof (IHn f g ltac:(intros; apply H; lia)). pose proof (H (S n) ltac:(lia)). lra. Qed.
Lemma rsum_add : forall n f g, rsum n (fun i => (f i + g i)%R) = (rsum n f + rsum n g)%R.
Proof. induction n; intros; cbn [rsum]; [lra|]. rewrite IHn. lra. Qed.
Lemma rsum_opp : forall n f, rsum n (fun i => (- f i)%R) = (- rsum n f)%R.
Proof. induction n; intros; cbn [rsum]; [lra|]. rewrite IHn. lra. Qed.
Fixpoint lsum (l : list R) : R := match l with [] => 0%R | x :: l => (x + lsum l)%R end.
Lemma lsum_app : forall l l', lsum (l ++ l') = (lsum l + lsum l')%R.
Proof. induction l; intros; cbn [lsum app]; [lra|]. rewrite IHl. lra. Qed.
Lemma rsum_lsum : forall n f, rsum n f = lsum (map f (seq 1 n)).
Proof. induction n; intros; [reflexivity|]. rewrite seq_S, map_app, lsum_app. cbn [rsum map lsum plus]. rewrite IHn. lra. Qed.
Lemma lsum_perm : forall l l', Permutation.Permutation l l' -> lsum l = lsum l'.
Proof. induction 1; cbn [lsum]; lra. Qed.
Lemma perm_seq : forall n c, (forall i, 1 <= i <= n -> 1 <= c i <= n) -> (forall i i', 1 <= i <= n -> 1 <= i' <= n -> c i = c i' -> i = i') ->
  Permutation.Permutation (map c (seq 1 n)) (seq 1 n).
Proof.
  intros n c H1 H2. apply Permutation.NoDup_Permutation_bis.
  - assert (G : forall l, (forall i, In i l -> 1 <= i <= n) -> NoDup l -> NoDup (map c l)).
    { induction l as [|x l]; intros G1 G2; cbn [map]; constructor; apply NoDup_cons_iff in G2; destruct G2 as (NI & ND).
      - intros Hin. apply in_map_iff in Hin. destruct Hin as (y & E & Hy). apply NI. rewrite (H2 x y); auto; apply G1; [now left|now right].
      - apply IHl; auto. intros; apply G1; now right. }
    apply G; [|apply seq_NoDup]. intros i Hi. apply in_seq in Hi. lia.
  - now rewrite map_length.
  - intros x Hx. apply in_map_iff in Hx. destruct Hx as (i & <- & Hi). apply in_seq in Hi. apply in_seq. destruct (H1 i ltac:(lia)); lia.
Qed.
Lemma rsum_perm : forall n c (g : nat -> R), (forall i, 1 <= i <= n -> 1 <= c i <= n) -> (forall i i', 1 <= i <= n -> 1 <= i' <= n -> c i = c i' -> i = i') ->
  rsum n (fun i => g (c i)) = rsum n g.
Proof.
  intros n c g H1 H2. rewrite !rsum_lsum. rewrite <- (map_map c g). apply lsum_perm. apply Permutation.Permutation_map. now apply perm_seq.
Qed.

(** A matching tight for a scaling has the greatest sum of logarithms. *)
Lemma dual_max : forall n ip irn (lv U D : nat -> R) s c s' c', transversal n ip irn s c -> transversal n ip irn s' c' ->
  (forall i j k, 1 <= i <= n -> 1 <= j <= n -> n1 0 ip j <= k < n1 0 ip (S j) -> n1 0 irn k = i -> (lv k + U i + D j <= 0)%R) ->
  (forall i, 1 <= i <= n -> (lv (s i) + U i + D (c i) = 0)%R) ->
  (rsum n (fun i => lv (s' i)) <= rsum n (fun i => lv (s i)))%R.
Proof.
  intros n ip irn lv U D s c s' c' (T1 & T2) (T3 & T4) H1 H2.
  assert (E : rsum n (fun i => lv (s i)) = (- (rsum n U + rsum n D))%R).
  { rewrite <- (rsum_perm n c D); [|apply T1|apply T2]. rewrite <- rsum_add, <- rsum_opp. apply rsum_ext. intros i Hi. pose proof (H2 i Hi). lra. }
  rewrite E. rewrite <- (rsum_perm n c' D); [|apply T3|apply T4]. rewrite <- rsum_add, <- rsum_opp. apply rsum_le. intros i Hi.
  destruct (T3 i Hi) as (X1 & X2 & X3). pose proof (H1 i (c' i) (s' i) Hi X1 X2 X3). lra.
Qed.

Section Compute.
  Variable K : ROps.
  Variable ev : RR K -> option R.
  Hypothesis EA : exact_arith K ev.
  Notation fin := (fin K ev).
  Notation rv := (rv K ev).
  Notation RR := (RR K).
  Notation ndx := (n1 (r0 K)).
  Variable V : Type.
  Variable rabs : V -> RR.
  Variable rlog : RR -> RR.
  Variable rbig : nat -> RR.
  Variable rhuge : RR.
  Notation REQ := (proj2 (ea_eq K ev EA (rinf K) (rinf K)) eq_refl).

  Lemma ea_finite_laws : finite_laws K fin.
  Proof.
    constructor.
    - intros x y H1 H2. apply (fsub K ev EA); auto.
    - intros x y H1 H2. apply (fadd K ev EA); auto.
    - intros x H. apply (inf_le K ev EA); auto.
    - intros x (v & E). destruct (rlt K (rinf K) x) eqn:F; auto. apply (ea_lt _ _ EA) in F. rewrite (ea_inf _ _ EA) in F. destruct F.
    - intros x (v & E). destruct (req K x (rinf K)) eqn:F; auto. apply (ea_eq _ _ EA) in F. rewrite (ea_inf _ _ EA), E in F. discriminate.
    - exact REQ.
  Qed.

  Variable n : nat.
  Variables ip irn : list nat.
  Variable vals : list V.
  Hypothesis PW : pattern1 n ip irn.
  Hypothesis Lv : length vals = length irn.
  Hypothesis NZ : nonzero_values K V rabs rlog fin vals.
  Hypothesis T1 : tight1 n ip irn.
  Hypothesis HF : half_full n ip.
  Notation incol := (incol ip).

  Definition good_costs (mx c : list RR) : Prop := forall j k v, 1 <= j <= n -> incol j k -> nth_error vals (k - 1) = Some v ->
    req K (ndx mx j) (r0 K) = false /\ fin (rlog (ndx mx j)) /\ ndx c k = rsub K (rlog (ndx mx j)) (rlog (rabs v)).

  Lemma costs_d : forall mx c, length mx = n -> length c = length irn ->
    wlp (costs K V rabs rlog rbig n ip vals mx c) (fun '(mx', c') => good_costs mx' c').
  Proof.
    intros mx c Lm Lc. unfold good_costs. destruct vals as [|v0 vs] eqn:EV.
    { intros [mx' c'] _ j k v _ _ H. destruct (k - 1); discriminate. }
    rewrite <- EV in *. clear EV vs. unfold costs.
    assert (IK : forall j k, 1 <= j <= n -> incol j k -> 1 <= k <= length irn) by (intros; eapply (incol_k K n ip irn c PW ltac:(lia)); eauto).
    assert (NZV : forall k, 1 <= k <= length irn -> rlt K (r0 K) (rabs (n1 v0 vals k)) = true /\ req K (rabs (n1 v0 vals k)) (r0 K) = false /\
      fin (rlog (rabs (n1 v0 vals k)))). { intros k Hk. apply NZ. unfold n1. apply nth_In. lia. }
    assert (MONO : forall j j', 1 <= j -> j <= j' -> j' <= S n -> N1 ip j <= N1 ip j').
    { intros. apply (ip_mono K n ip irn c PW ltac:(lia)); lia. }
    eapply wlp_conseq with (P := fun '(mx', c') => (length mx' = n /\ length c' = length irn) /\ forall j k, 1 <= j < S n -> incol j k ->
      req K (ndx mx' j) (r0 K) = false /\ fin (rlog (ndx mx' j)) /\ ndx c' k = rsub K (rlog (ndx mx' j)) (rlog (rabs (n1 v0 vals k)))).
    2:{ intros [mx' c'] (_ & H) j k v Hj Hk Hv. destruct (H j k ltac:(lia) Hk) as (X1 & X2 & X3). split; [auto|]. split; [auto|]. rewrite X3. unfold n1. rewrite (nth_error_nth _ _ v0 Hv). auto. }
    apply (wlp_for_range _ (fun jc '(mx', c') => (length mx' = n /\ length c' = length irn) /\ forall j k, 1 <= j < jc -> incol j k ->
      req K (ndx mx' j) (r0 K) = false /\ fin (rlog (ndx mx' j)) /\ ndx c' k = rsub K (rlog (ndx mx' j)) (rlog (rabs (n1 v0 vals k))))); [lia| |].
    { split; [auto|]. intros; lia. }
    intros j [mx' c'] Hj ((L1 & L2) & D).
    set (I1 := fun e '(fact, c1) => length c1 = length irn /\ (forall k, 1 <= k < N1 ip j -> ndx c1 k = ndx c' k) /\
      (forall k, N1 ip j <= k < e -> ndx c1 k = rabs (n1 v0 vals k)) /\
      (fact = r0 K /\ e = N1 ip j \/ req K fact (r0 K) = false /\ fin (rlog fact))).
    lb. apply wlp_conseq with (P := I1 (N1 ip (S j))).
    { apply (over_col_w n ip irn PW _ j _ _ I1); [lia| |].
      - split; [auto|]. split; [auto|]. split; [intros; lia|auto].
      - intros k [fact c2] Hk (L3 & D3 & E3 & F3). pose proof (IK j k ltac:(lia) Hk) as Rk. pose proof (NZV k Rk) as (Z1 & Z2 & Z3). destruct Hk as (Hk1 & Hk2).
        lg v0. ls. apply wlp_ok. split; [now rewrite upd_length|]. pose proof (MONO 1 j ltac:(lia) ltac:(lia) ltac:(lia)). destruct T1 as (T2 & T3).
        split; [|split].
        + intros k' Hk'. rewrite n1_neq; auto; lia.
        + intros k' Hk'. rewrite n1_upd by lia. destruct (Nat.eqb_spec k' k) as [->|]; [auto|]. apply E3. lia.
        + right. destruct F3 as [(-> & ->)|F3]; [rewrite Z1; auto|]. destruct (rlt K fact _); auto. }
    intros [fact c2] (L3 & D3 & E3 & F3). ls.
    set (I2 := fun e c1 => length c1 = length irn /\ (forall k, 1 <= k < N1 ip j -> ndx c1 k = ndx c' k) /\
      (forall k, N1 ip j <= k < e -> ndx c1 k = rsub K (rlog fact) (rlog (rabs (n1 v0 vals k)))) /\
      (forall k, e <= k < N1 ip (S j) -> ndx c1 k = rabs (n1 v0 vals k))).
    lb. apply wlp_conseq with (P := I2 (N1 ip (S j))).
    { apply (over_col_w n ip irn PW _ j _ _ I2); [lia| |].
      - split; [auto|]. split; [auto|]. split; [intros; lia|auto].
      - intros k c3 Hk (L4 & D4 & G4 & E4). pose proof (IK j k ltac:(lia) Hk) as Rk. pose proof (NZV k Rk) as (Z1 & Z2 & Z3). destruct Hk as (Hk1 & Hk2).
        pose proof (MONO 1 j ltac:(lia) ltac:(lia) ltac:(lia)). destruct T1 as (T2 & T3).
        lg (r0 K). apply wlp_s1. intros _. rewrite E4 by lia. rewrite Z2. cbn [negb].
        destruct F3 as [(_ & F3)|(F3 & F4)]; [lia|]. rewrite F3. cbn [negb].
        split; [now rewrite upd_length|]. split; [|split].
        + intros k' Hk'. rewrite n1_neq by lia. apply D4; lia.
        + intros k' Hk'. rewrite n1_upd by lia. destruct (Nat.eqb_spec k' k) as [->|]; [auto|apply G4; lia].
        + intros k' Hk'. rewrite n1_neq by lia. apply E4. lia. }
    intros c3 (L4 & D4 & G4 & E4). apply wlp_ok. split; [split; [now rewrite upd_length|auto]|].
    intros j' k Hj' Hk. destruct (Nat.eq_dec j' j) as [->|Hne].
    - rewrite n1_eq by lia. destruct Hk as (Hk1 & Hk2). destruct F3 as [(_ & F3)|(F3 & F4)]; [lia|]. split; [auto|]. split; [auto|]. apply G4. lia.
    - rewrite n1_neq by lia. destruct (D j' k ltac:(lia) Hk) as (X1 & X2 & X3). split; [auto|]. split; [auto|]. rewrite <- X3. apply D4.
      pose proof (IK j' k ltac:(lia) Hk). destruct Hk. pose proof (MONO (S j') j ltac:(lia) ltac:(lia) ltac:(lia)). lia.
  Qed.

  Lemma compute_d : forall nnz jo jq jmx jc lv, log_values K ev V rabs rlog vals lv ->
    length jo = n -> length jq = n -> length jmx = n -> length jc = length irn ->
    wlp (compute K V rabs rlog rbig rhuge n nnz ip irn vals jo jq jmx jc) (fun r => match r with Bad _ => True | Good _ info p u d =>
      info = 0 -> exists U D : nat -> R,
        (forall i, 1 <= i <= n -> (exists k, 1 <= k <= length irn /\ N1 irn k = i) -> ev (ndx u i) = Some (U i)) /\
        (forall j, 1 <= j <= n -> ev (ndx d j) = Some (D j)) /\
        (forall i j k, 1 <= i <= n -> 1 <= j <= n -> incol j k -> N1 irn k = i -> (lv k + U i + D j <= 0)%R) /\
        (forall j, 1 <= j <= n -> exists k, incol j k /\ n1 0%Z p (N1 irn k) = Z.of_nat j /\ (lv k + U (N1 irn k) + D j = 0)%R) end).
  Proof.
    intros nnz jo jq jmx jc lv LV Lo Lq Lm Lc. unfold compute. destruct (n <? 1). { apply wlp_ok. auto. } destruct (nnz <? 1). { apply wlp_ok. auto. }
    lb. eapply wlp_conseq; [apply wlp_and; [|apply wlp_and]|].
    { apply w2. apply (costs_l K V rabs rlog rbig n ip irn vals jmx jc PW); auto. }
    { apply w2. apply (costs_fin K V rabs rlog rbig fin n ip irn vals jmx jc PW); auto. apply ea_finite_laws. }
    { apply costs_d; auto. }
    intros [mx c] ((L1 & L2) & CF & GC).
    assert (FBH : FB K n ip irn c fin).
    { destruct ea_finite_laws. unfold FB. destruct T1. auto 12. }
    assert (IK : forall j k, 1 <= j <= n -> incol j k -> 1 <= k <= length irn) by (intros; eapply (incol_k K n ip irn c PW ltac:(lia)); eauto).
    lb. eapply wlp_conseq. { apply wlp_and; [apply (kernel_d K ev EA n ip irn c PW ltac:(lia) REQ HF FBH jo jq Lo Lq)|].
      apply w2. apply (kernel_l K n ip irn c PW ltac:(lia) REQ HF fin jo jq Lo Lq). }
    intros [[[p num] u] d] (HO & X1 & X2 & _ & _ & X5 & _).
    lb. apply wlp_conseq with (P := fun d' => num = n -> forall j, 1 <= j <= n -> ndx d' j = if negb (req K (ndx mx j) (r0 K)) then rsub K (ndx d j) (rlog (ndx mx j)) else r0 K).
    { destruct (Nat.eqb_spec num n) as [En|En]; [|apply wlp_ok; intros; contradiction].
      eapply wlp_conseq with (P := fun d' => length d' = n /\ (forall j, S n <= j <= n -> ndx d' j = ndx d j) /\
        forall j, 1 <= j < S n -> ndx d' j = if negb (req K (ndx mx j) (r0 K)) then rsub K (ndx d j) (rlog (ndx mx j)) else r0 K).
      2:{ intros d' (_ & _ & H) _ j Hj. apply H. lia. }
      apply (wlp_for_range _ (fun jc d' => length d' = n /\ (forall j, jc <= j <= n -> ndx d' j = ndx d j) /\
        forall j, 1 <= j < jc -> ndx d' j = if negb (req K (ndx mx j) (r0 K)) then rsub K (ndx d j) (rlog (ndx mx j)) else r0 K)); [lia| |].
      - split; [auto|]. split; [auto|]. intros; lia.
      - intros j1 d' Hj1 (Y1 & Y2 & Y3). lg (r0 K). lg (r0 K). apply wlp_s1. intros _. split; [now rewrite upd_length|]. split.
        + intros j Hj. rewrite n1_neq by lia. apply Y2. lia.
        + intros j Hj. rewrite n1_upd by lia. destruct (Nat.eqb_spec j j1) as [->|]; [rewrite Y2 by lia; auto|apply Y3; lia]. }
    intros d' HD. lb. apply wlp_conseq with (P := fun _ => True); [intros r _; exact I|]. intros over _. apply wlp_ok.
    destruct over; [discriminate|]. destruct (Nat.ltb_spec num n); [discriminate|]. intros _. assert (En : num = n) by lia.
    specialize (HD En). destruct (HO En) as (UF & OD). clear HO.
    assert (VK : forall j k, 1 <= j <= n -> incol j k -> exists v, nth_error vals (k - 1) = Some v /\ ev (rlog (rabs v)) = Some (lv k)).
    { intros j k Hj Hk. pose proof (IK j k Hj Hk). destruct (nth_error vals (k - 1)) as [v|] eqn:E.
      - exists v. split; [auto|]. rewrite (LV _ _ E). f_equal. f_equal. lia.
      - apply nth_error_None in E. lia. }
    (* the cost of an entry *)
    assert (CK : forall j k, 1 <= j <= n -> incol j k -> req K (ndx mx j) (r0 K) = false /\ fin (rlog (ndx mx j)) /\ rv (ndx c k) = (rv (rlog (ndx mx j)) - lv k)%R).
    { intros j k Hj Hk. destruct (VK j k Hj Hk) as (v & V1 & V2). destruct (GC j k v Hj Hk V1) as (G1 & G2 & G3). split; [auto|]. split; [auto|].
      rewrite G3. destruct (fsub K ev EA _ (rlog (rabs v)) G2) as (_ & E); [eexists; eauto|]. rewrite E. f_equal. unfold EqDual2.rv. now rewrite V2. }
    exists (fun i => rv (ndx u i)), (fun j => rv (ndx d' j)).
    assert (DJ : forall j, 1 <= j <= n -> fin (ndx d' j) /\ rv (ndx d' j) = (rv (ndx d j) - rv (rlog (ndx mx j)))%R).
    { intros j Hj. destruct (OD j Hj) as (O1 & (k & O2 & _) & _). destruct (CK j k Hj O2) as (C1 & C2 & _). rewrite HD, C1 by auto. cbn [negb]. apply (fsub K ev EA); auto. }
    split; [|split; [|split]].
    - intros i Hi (k & Hk & <-). destruct (UF k Hk) as (x & E). unfold EqDual2.rv. rewrite E. auto.
    - intros j Hj. destruct (DJ j Hj) as ((x & E) & _). unfold EqDual2.rv. rewrite E. auto.
    - intros i j k Hi Hj Hk <-. destruct (DJ j Hj) as (_ & E). rewrite E. destruct (CK j k Hj Hk) as (_ & _ & C3). destruct (OD j Hj) as (_ & _ & O3).
      specialize (O3 k Hk). unfold RC, CC, UU in O3. rewrite C3 in O3. lra.
    - intros j Hj. destruct (DJ j Hj) as (_ & E). destruct (OD j Hj) as (_ & (k & O1 & O2 & O3) & _). exists k. split; [auto|]. split; [auto|].
      rewrite E, O3. destruct (CK j k Hj O1) as (_ & _ & C3). unfold RC, CC, UU. rewrite C3. lra.
  Qed.
  Lemma compute_complete : forall nnz jo jq jmx jc lv, log_values K ev V rabs rlog vals lv ->
    nonsingular_pattern n ip irn -> (forall x, fin x -> rlt K x rhuge = true) ->
    length jo = n -> length jq = n -> length jmx = n -> length jc = length irn ->
    wlp (compute K V rabs rlog rbig rhuge n nnz ip irn vals jo jq jmx jc) (fun r => match r with Bad _ => True | Good _ info p u d =>
      info = 0 end).
  Proof.
    intros nnz jo jq jmx jc lv LV NS BIG Lo Lq Lm Lc. unfold compute. destruct (n <? 1). { apply wlp_ok. auto. } destruct (nnz <? 1). { apply wlp_ok. auto. }
    lb. eapply wlp_conseq; [apply wlp_and; [|apply wlp_and]|].
    { apply w2. apply (costs_l K V rabs rlog rbig n ip irn vals jmx jc PW); auto. }
    { apply w2. apply (costs_fin K V rabs rlog rbig fin n ip irn vals jmx jc PW); auto. apply ea_finite_laws. }
    { apply costs_d; auto. }
    intros [mx c] ((L1 & L2) & CF & GC).
    assert (FBH : FB K n ip irn c fin).
    { destruct ea_finite_laws. unfold FB. destruct T1. auto 12. }
    assert (IK : forall j k, 1 <= j <= n -> incol j k -> 1 <= k <= length irn) by (intros; eapply (incol_k K n ip irn c PW ltac:(lia)); eauto).
    lb. eapply wlp_conseq. { apply wlp_and; [apply (kernel_d K ev EA n ip irn c PW ltac:(lia) REQ HF FBH jo jq Lo Lq)|].
      apply w2. apply (kernel_l K n ip irn c PW ltac:(lia) REQ HF fin jo jq Lo Lq). }
    intros [[[p num] u] d] (HO & X1 & X2 & _ & _ & X5 & _ & _ & X8).
    assert (En : num = n). { destruct (Nat.eq_dec num n); auto. exfalso. apply (deficient_singular n ip irn); auto. }
    lb. apply wlp_conseq with (P := fun d' => num = n -> forall j, 1 <= j <= n -> ndx d' j = if negb (req K (ndx mx j) (r0 K)) then rsub K (ndx d j) (rlog (ndx mx j)) else r0 K).
    { destruct (Nat.eqb_spec num n) as [En'|En']; [|apply wlp_ok; intros; contradiction].
      eapply wlp_conseq with (P := fun d' => length d' = n /\ (forall j, S n <= j <= n -> ndx d' j = ndx d j) /\
        forall j, 1 <= j < S n -> ndx d' j = if negb (req K (ndx mx j) (r0 K)) then rsub K (ndx d j) (rlog (ndx mx j)) else r0 K).
      2:{ intros d' (_ & _ & H) _ j Hj. apply H. lia. }
      apply (wlp_for_range _ (fun jc d' => length d' = n /\ (forall j, jc <= j <= n -> ndx d' j = ndx d j) /\
        forall j, 1 <= j < jc -> ndx d' j = if negb (req K (ndx mx j) (r0 K)) then rsub K (ndx d j) (rlog (ndx mx j)) else r0 K)); [lia| |].
      - split; [auto|]. split; [auto|]. intros; lia.
      - intros j1 d' Hj1 (Y1 & Y2 & Y3). lg (r0 K). lg (r0 K). apply wlp_s1. intros _. split; [now rewrite upd_length|]. split.
        + intros j Hj. rewrite n1_neq by lia. apply Y2. lia.
        + intros j Hj. rewrite n1_upd by lia. destruct (Nat.eqb_spec j j1) as [->|]; [rewrite Y2 by lia; auto|apply Y3; lia]. }
    intros d' HD. specialize (HD En). destruct (HO En) as (UF & OD). clear HO.
    assert (VK : forall j k, 1 <= j <= n -> incol j k -> exists v, nth_error vals (k - 1) = Some v /\ ev (rlog (rabs v)) = Some (lv k)).
    { intros j k Hj Hk. pose proof (IK j k Hj Hk). destruct (nth_error vals (k - 1)) as [v|] eqn:E.
      - exists v. split; [auto|]. rewrite (LV _ _ E). f_equal. f_equal. lia.
      - apply nth_error_None in E. lia. }
    (* the cost of an entry *)
    assert (CK : forall j k, 1 <= j <= n -> incol j k -> req K (ndx mx j) (r0 K) = false /\ fin (rlog (ndx mx j)) /\ rv (ndx c k) = (rv (rlog (ndx mx j)) - lv k)%R).
    { intros j k Hj Hk. destruct (VK j k Hj Hk) as (v & V1 & V2). destruct (GC j k v Hj Hk V1) as (G1 & G2 & G3). split; [auto|]. split; [auto|].
      rewrite G3. destruct (fsub K ev EA _ (rlog (rabs v)) G2) as (_ & E); [eexists; eauto|]. rewrite E. f_equal. unfold EqDual2.rv. now rewrite V2. }
    assert (DJ : forall j, 1 <= j <= n -> fin (ndx d' j)).
    { intros j Hj. destruct (OD j Hj) as (O1 & (k & O2 & _) & _). destruct (CK j k Hj O2) as (C1 & C2 & _). rewrite HD, C1 by auto. cbn [negb]. apply (fsub K ev EA); auto. }
    assert (UJ : forall i, 1 <= i <= n -> fin (ndx u i)).
    { intros i Hi. destruct NS as (s & NS & _). destruct (NS i Hi) as (N2 & k & N3 & N4). specialize (IK (s i) k N2 N3). rewrite <- N4. apply UF. auto. }
    lb. apply wlp_conseq with (P := fun over : bool => over = false).
    { apply (wlp_for_range _ (fun _ over => over = false)); [lia|auto|]. intros j over Hj ->. lg (r0 K). lg (r0 K). apply wlp_ok.
      rewrite !BIG by (try apply UJ; try apply DJ; lia). reflexivity. }
    intros over ->. apply wlp_ok. destruct (Nat.ltb_spec num n); [lia|reflexivity].
  Qed.
End Compute.
