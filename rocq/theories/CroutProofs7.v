(** * CroutProofs7: deferral and elimination preserve the invariant. *)
From Coq Require Import List Arith Lia Bool Permutation Ring.
From Verif Require Import Base Scalar Spec CSModel CSSpec ConvModel ConvSpec BucketProofs ConvProofs ConvProofs2
  ConvProofs3 ConvProofs4 Mag VecModel VecSpec VecProofs PruneModel PruneProofs CroutModel CroutProofs1 CroutProofs2 CroutProofs3
  CroutProofs4 CroutProofs5 CroutProofs6.
Import ListNotations.

Section RingU.
  Variable O : Ops.
  Hypothesis RL : RingLaws O.
  Add Ring TRU3 : (rl_ring O RL).
  Lemma ru_swap3 : forall a b c, tmul O (tmul O b c) a = tmul O (tmul O a b) c. Proof. intros. ring. Qed.
  Lemma ru_diag : forall d s u l dk, tsub O (tsub O d s) (tmul O u (tmul O l dk)) = tsub O d (tadd O s (tmul O (tmul O l dk) u)).
  Proof. intros. ring. Qed.
End RingU.

Section A.
  Context {O : Ops}.
  Notation T := (T O).
  Notation row := (list (nat * T)).
  Notation col := (row * row)%type.
  Notation tl' c cols := (snd (nth c cols (dcol (O:=O)))).
  Notation dn' c cols := (fst (nth c cols (dcol (O:=O)))).

  Variable bad : T -> bool.
  Variable klt : T -> T -> bool.
  Variable kbad : T -> bool.
  Variables is0 big : T -> bool.
  Variable dropU dropL : nat -> CR O -> SV O -> res (SV O).
  Variables (n m2 : nat) (s t : list T) (A_crs A_ccs : CS O).
  Variable Am : nat -> nat -> T.
  Variables p0 q0 : list nat.

  Definition hat (i j : nat) : T := tmul O (tmul O (nth i s (t0 O)) (Am i j)) (nth j t (t0 O)).

  (** what a dropping routine may rely on *)
  Definition predrop (step : nat) (c : CR O) : Prop :=
    step < length (c_kl c) /\ step < length (c_ku c) /\
    step < length (c_p c) /\ nth step (c_p c) 0 < n /\ step < length (c_q c) /\ nth step (c_q c) 0 < n.
  (** a dropping keeps some of the held indices and changes nothing else *)
  Definition drop_ok (drop : nat -> CR O -> SV O -> res (SV O)) : Prop :=
    forall step c v, predrop step c -> sv_ok (Nat.mul n 2) v ->
    exists v', drop step c v = Ok v' /\ dropped_to (Nat.mul n 2) v v'.
  (** only zeros are dropped *)
  Definition lossless (drop : nat -> CR O -> SV O -> res (SV O)) : Prop :=
    forall step c v v', predrop step c -> sv_ok (Nat.mul n 2) v -> drop step c v = Ok v' -> forall i, In i (held v) -> ~ In i (held v') -> nth i (sv_vals v) (t0 O) = t0 O.

  Definition LS : Prop := lossless dropU /\ lossless dropL.
  Definition VH : Prop := FieldLaws O /\ scal_ok is0 /\ bad (t0 O) = true.

  Hypothesis V1 : valid A_crs. Hypothesis V2 : valid A_ccs.
  Hypothesis P1 : psize A_crs = n. Hypothesis S1 : ssize A_crs = n.
  Hypothesis P2 : psize A_ccs = n. Hypothesis S2 : ssize A_ccs = n.
  Hypothesis Ls : length s = n. Hypothesis Lt : length t = n. Hypothesis Hm : m2 <= n.
  Hypothesis HA : RingLaws O -> forall i j, i < n -> j < n -> ent A_crs i j = Am i j /\ ent A_ccs j i = Am i j.
  Hypothesis DU : drop_ok dropU. Hypothesis DL : drop_ok dropL.

  Definition prd (d : list T) (LO UO : nat -> nat -> option T) (x y e : nat) : T :=
    tmul O (tmul O (ov (LO e x)) (nth e d (t0 O))) (ov (UO e y)).

  Record VAL (k g : nat) (p q : list nat) (d : list T) (LO UO : nat -> nat -> option T) : Prop := mkVAL {
    vL : VH -> forall c x, c < k -> x < n -> (forall i, i <= c -> nth i p 0 <> x) -> LS \/ LO c x <> None ->
         tmul O (ov (LO c x)) (nth c d (t0 O)) = tsub O (hat x (nth c q 0)) (sum c (prd d LO UO x (nth c q 0)));
    vU : VH -> forall c y, c < k -> y < n -> (forall i, i <= c -> nth i q 0 <> y) -> LS \/ UO c y <> None ->
         tmul O (ov (UO c y)) (nth c d (t0 O)) = tsub O (hat (nth c p 0) y) (sum c (prd d LO UO (nth c p 0) y));
    vD : VH -> LS -> forall c, c < k ->
         nth c d (t0 O) = tsub O (hat (nth c p 0) (nth c q 0)) (sum c (prd d LO UO (nth c p 0) (nth c q 0)));
    vN : VH -> forall c, c < k -> nth c d (t0 O) <> t0 O;
    vP : VH -> LS -> forall i, g <= i < m2 ->
         nth i d (t0 O) = tsub O (hat (nth i p 0) (nth i q 0)) (sum k (prd d LO UO (nth i p 0) (nth i q 0))) }.

  (** [acc]: the positions accepted so far, [dfr]: those deferred, in order. *)
  Definition HI (r0 : list nat) (acc dfr : list nat) (p : list nat) (P : list (option nat)) : Prop :=
    (forall i, i < length acc -> nth i p 0 = nth (nth i acc 0) r0 0) /\
    (forall i, length acc + length dfr <= i < n -> nth i p 0 = nth i r0 0) /\
    (forall j, j < length dfr -> nth (n + j) P None = Some (nth (nth j dfr 0) r0 0)).
  Definition HS (k def : nat) (acc dfr : list nat) : Prop :=
    length acc = k /\ length dfr = def /\ asc acc /\ asc dfr /\ Permutation (seq 0 (def + k)) (acc ++ dfr).

  Lemma HS_defer : forall k def acc dfr, HS k def acc dfr -> HS k (S def) acc (dfr ++ [def + k]).
  Proof.
    intros k def acc dfr (A & B & C & D & E). unfold HS. rewrite app_length. cbn [length].
    split; auto. split; [lia|]. split; auto. split.
    - apply asc_app. split; auto. split; [simpl; tauto|]. intros x y Hx [<-|[]].
      assert (In x (seq 0 (def + k))) by (eapply Permutation_in; [symmetry; exact E|apply in_or_app; auto]). apply in_seq in H. lia.
    - change (S def + k) with (S (def + k)). rewrite seq_S. rewrite app_assoc. apply Permutation_app; auto.
  Qed.
  Lemma HS_elim : forall k def acc dfr, HS k def acc dfr -> HS (S k) def (acc ++ [def + k]) dfr.
  Proof.
    intros k def acc dfr (A & B & C & D & E). unfold HS. rewrite app_length. cbn [length].
    split; [lia|]. split; auto. split; [|split; auto].
    - apply asc_app. split; auto. split; [simpl; tauto|]. intros x y Hx [<-|[]].
      assert (In x (seq 0 (def + k))) by (eapply Permutation_in; [symmetry; exact E|apply in_or_app; auto]). apply in_seq in H. lia.
    - rewrite Nat.add_succ_r, seq_S. rewrite <- app_assoc.
      transitivity ((acc ++ dfr) ++ [0 + (def + k)]). { now apply Permutation_app_tail. }
      rewrite <- app_assoc. apply Permutation_app_head. apply Permutation_app_comm.
  Qed.
  Lemma HI_defer : forall r0 k def acc dfr p P, HS k def acc dfr -> HI r0 acc dfr p P -> length P = Nat.mul n 2 ->
    def + k < n -> n + def < Nat.mul n 2 ->
    HI r0 acc (dfr ++ [def + k]) p (upd (upd P (n + def) (Some (nth (def + k) p 0))) (def + k) None).
  Proof.
    intros r0 k def acc dfr p P (A & B & _) (H1 & H2 & H3) Lp Hg Hl. unfold HI. rewrite app_length. cbn [length].
    split; auto. split. { intros i Hi. apply H2. lia. }
    intros j Hj. rewrite nth_upd_neq by lia. rewrite nth_upd by lia. destruct (Nat.eqb_spec (n + j) (n + def)).
    - rewrite app_nth2 by lia. replace (j - length dfr) with 0 by lia. cbn [nth]. f_equal. apply H2. lia.
    - rewrite app_nth1 by lia. apply H3. lia.
  Qed.
  Lemma HI_elim : forall r0 k def acc dfr p P, HS k def acc dfr -> HI r0 acc dfr p P -> length p = n -> def + k < n ->
    HI r0 (acc ++ [def + k]) dfr (upd p k (nth (def + k) p 0)) P.
  Proof.
    intros r0 k def acc dfr p P (A & B & _) (H1 & H2 & H3) Lp Hg. unfold HI. rewrite app_length. cbn [length].
    split; [|split; auto].
    - intros i Hi. rewrite nth_upd by lia. destruct (Nat.eqb_spec i k) as [->|].
      + rewrite app_nth2 by lia. replace (k - length acc) with 0 by lia. cbn [nth]. apply H2. lia.
      + rewrite app_nth1 by lia. apply H1. lia.
    - intros i Hi. rewrite nth_upd by lia. destruct (Nat.eqb_spec i k); [lia|]. apply H2. lia.
  Qed.

  Record INV (k def : nat) (c : CR O) (lc uc : list col) (LO UO : nat -> nat -> option T) : Prop := mkINV {
    i_def : c_def c = def; i_m : c_m c + def = m2; i_k : def + k <= m2;
    i_L : Rep m2 (Nat.mul n 2) k (def + k) (n + def) [] (c_L c) lc;
    i_U : Rep m2 (Nat.mul n 2) k (def + k) (n + def) [] (c_U c) uc;
    i_d : length (c_d c) = m2;
    i_kl : length (c_kl c) = m2; i_ku : length (c_ku c) = m2;
    i_p : PI n k (def + k) (n + def) (c_p c) (c_P c) (c_Pi c);
    i_q : PI n k (def + k) (n + def) (c_q c) (c_Q c) (c_Qi c);
    i_l : idle (Nat.mul n 2) k (c_l c); i_u : idle (Nat.mul n 2) k (c_u c);
    i_lk : link k (def + k) (n + def) (c_p c) (c_P c) lc LO;
    i_uk : link k (def + k) (n + def) (c_q c) (c_Q c) uc UO;
    i_val : VAL k (def + k) (c_p c) (c_q c) (c_d c) LO UO;
    i_b : forall i, i < k -> bad (nth i (c_d c) (t0 O)) = false;
    i_h : exists acc dfr, HS k def acc dfr /\ HI p0 acc dfr (c_p c) (c_P c) /\ HI q0 acc dfr (c_q c) (c_Q c) }.

  Lemma kappas_l : forall k def c lc uc LO UO, INV k def c lc uc LO UO -> def + k < m2 ->
    wp (kappas klt k c) (fun c' => INV k def c' lc uc LO UO /\ c_m c' = c_m c /\ c_d c' = c_d c).
  Proof.
    intros k def c lc uc LO UO I Hg. pose proof I as []. unfold kappas. rewrite i_def0. wpb. eapply wp_conseq.
    { apply (update_kappa_l m2 (Nat.mul n 2) klt k (def + k) (n + def) (c_U c) uc); auto; lia. }
    intros ku Lku. wpb. eapply wp_conseq.
    { apply (update_kappa_l m2 (Nat.mul n 2) klt k (def + k) (n + def) (c_L c) lc); auto; lia. }
    intros kl Lkl. apply wp_ok. split; [|auto]. split; cbn [c_def c_m c_L c_U c_d c_p c_q c_P c_Q c_Pi c_Qi c_kl c_ku c_l c_u]; auto; try congruence.
  Qed.

  Lemma kappa_bad_l : forall k def c lc uc LO UO, INV k def c lc uc LO UO -> def + k < m2 ->
    wp (kappa_bad kbad k c) (fun _ => True).
  Proof.
    intros k def c lc uc LO UO [] Hg. unfold kappa_bad. wpb. apply wp_get with (d := t0 O); [lia|].
    wpb. apply wp_get with (d := t0 O); [lia|]. apply wp_ok. auto.
  Qed.

  Lemma defer_one_l : forall k def c lc uc LO UO, INV k def c lc uc LO UO -> def + k < m2 ->
    wp (defer_one n k c) (fun c' => exists lc' uc', INV k (S def) c' lc' uc' LO UO).
  Proof.
    intros k def c lc uc LO UO I Hg. pose proof I as []. unfold defer_one. rewrite i_def0.
    assert (Kg : k <= def + k) by lia.
    wpb. eapply wp_conseq. { apply (defer_l m2 (Nat.mul n 2) k (def + k) (n + def) (c_U c) uc); auto; lia. }
    intros U' RU. wpb. eapply wp_conseq. { apply (defer_l m2 (Nat.mul n 2) k (def + k) (n + def) (c_L c) lc); auto; lia. }
    intros L' RL'. pose proof i_p0 as []. pose proof i_q0 as [].
    destruct (PI_g _ _ _ _ _ _ _ i_p0 ltac:(lia) ltac:(lia)) as (G1 & G2).
    destruct (PI_g _ _ _ _ _ _ _ i_q0 ltac:(lia) ltac:(lia)) as (H1 & H2).
    wpb. apply wp_get with (d := 0); [lia|]. wpb. apply wp_set; [lia|].
    wpb. apply wp_get with (d := 0); [lia|]. wpb. apply wp_set; [lia|].
    wpb. apply wp_set; [lia|]. wpb. apply wp_set; [lia|].
    wpb. apply wp_set; [rewrite upd_length; lia|]. wpb. apply wp_set; [rewrite upd_length; lia|].
    apply wp_ok. exists (map (deferc (def + k) (n + def)) lc), (map (deferc (def + k) (n + def)) uc).
    split; cbn [c_def c_m c_L c_U c_d c_p c_q c_P c_Q c_Pi c_Qi c_kl c_ku c_l c_u]; auto; try lia.
    - rewrite Nat.add_succ_r. exact RL'.
    - rewrite Nat.add_succ_r. exact RU.
    - rewrite Nat.add_succ_r. apply PI_defer; auto; lia.
    - rewrite Nat.add_succ_r. apply PI_defer; auto; lia.
    - rewrite Nat.add_succ_r. eapply link_defer; eauto; lia.
    - rewrite Nat.add_succ_r. eapply link_defer; eauto; lia.
    - destruct i_val0. split; auto. intros H H' i Hi. apply vP0; auto. lia.
    - destruct i_h0 as (acc & dfr & X1 & X2 & X3). exists acc, (dfr ++ [def + k]).
      split; [now apply HS_defer|]. split; (eapply HI_defer; eauto; lia).
  Qed.

  (** looking up in the stored part of an accumulator *)
  Lemma lko_newrow : forall N (v : SV O) i, sv_ok N v ->
    lko (newrow v) i = if in_dec Nat.eq_dec i (held v) then Some (vv v i) else None.
  Proof.
    intros N v i [_ _ _ _ _ s6 _]. unfold newrow.
    assert (P : Permutation (isort (held v)) (held v)) by apply isort_perm.
    destruct (in_dec _ _ _) as [I|I].
    - apply in_lko.
      + rewrite map_map. simpl. rewrite map_id. eapply Permutation_NoDup; [apply Permutation_sym; exact P|auto].
      + apply in_map_iff. exists i. split; auto. eapply Permutation_in; [apply Permutation_sym; exact P|auto].
    - apply lko_none. rewrite map_map. simpl. rewrite map_id. intros K. apply I. eapply Permutation_in; eauto.
  Qed.

  (** dropping and sorting *)
  Lemma drop_sort : forall drop k g lim step c (v : SV O) f, drop_ok drop -> predrop step c -> acc (Nat.mul n 2) k (S g) lim v f ->
    wp (v <- drop step c v ;; sv_sort v) (fun v' => sv_ok (Nat.mul n 2) v' /\ idle (Nat.mul n 2) (S k) v' /\
      held v' = isort (held v') /\ (forall i, In i (held v') -> S g <= i < lim) /\
      (RingLaws O -> forall i w, lko (newrow v') i = Some w -> w = f i) /\
      (RingLaws O -> lossless drop -> forall i, ov (lko (newrow v') i) = f i)).
  Proof.
    intros drop k g lim step c v f D Hp [ok at0 ao0 ar0 av0 az0]. destruct (D step c v Hp ok) as (v1 & E1 & ok1 & E2 & E3 & E4).
    rewrite E1. cbn [bind]. eapply wp_conseq. { apply sort_l. exact ok1. }
    intros v2 (ok2 & F1 & F2 & F3).
    assert (Per : Permutation (held v2) (held v1)) by (rewrite F3; apply isort_perm).
    assert (Inc : forall i, In i (held v2) -> In i (held v)). { intros i Hi. apply E4. eapply Permutation_in; eauto. }
    split; auto. split; [split; auto|].
    { intros i s0 Hi E. unfold tg in E. rewrite F2, E3 in E. apply ao0 in E; auto. lia. }
    split.
    { rewrite F3. assert (U : forall l l' : list nat, asc l -> asc l' -> Permutation l l' -> l = l').
      { intros l l' A1 A2 PP. pose proof (asc_pairs_eq _ (map (fun x => (x, tt)) l) (map (fun x => (x, tt)) l')) as Q.
        rewrite !map_map in Q. cbn [fst] in Q. rewrite !map_id in Q.
        assert (E : map (fun x => (x, tt)) l = map (fun x => (x, tt)) l').
        { apply Q; auto. intros e. split; apply Permutation_in; [|symmetry]; apply Permutation_map; auto. }
        apply (f_equal (map fst)) in E. rewrite !map_map in E. cbn [fst] in E. now rewrite !map_id in E. }
      apply U.
      - apply isort_asc. apply ok1.
      - apply isort_asc. eapply Permutation_NoDup; [apply Permutation_sym, isort_perm|]. apply ok1.
      - symmetry. apply isort_perm. }
    split; auto.
    assert (VE : forall i, vv v2 i = vv v i) by (intros i; unfold vv; rewrite F1, E2; auto).
    assert (LK : forall i, lko (newrow v2) i = if in_dec Nat.eq_dec i (held v2) then Some (vv v i) else None).
    { intros i. rewrite (lko_newrow _ v2 i ok2). destruct (in_dec _ _ _); auto. now rewrite VE. }
    split.
    - intros RL i w E. rewrite LK in E. destruct (in_dec _ _ _) as [I|I]; [|discriminate]. inversion E. apply av0; auto.
    - intros RL LSS i. rewrite LK. destruct (in_dec _ _ _) as [I|I]; cbn [ov]. { apply av0; auto. }
      destruct (in_dec Nat.eq_dec i (held v)) as [J|J]; [|symmetry; auto].
      rewrite <- av0 by auto. symmetry. apply (LSS step c v v1 Hp ok E1); auto. intros K. apply I. eapply Permutation_in; [apply Permutation_sym; exact Per|auto].
  Qed.

  Definition ext (k g : nat) (Pi : list nat) (new : row) (LO : nat -> nat -> option T) (c x : nat) : option T :=
    if c =? k then (if g <? nth x Pi 0 then lko new (nth x Pi 0) else None) else LO c x.

  Lemma VAL_elim : forall k g lim p q P Q Pi Qi (d d2 : list T) LO UO newL newU (fl fl2 fu0 fu : nat -> T),
    k <= g < m2 -> n <= lim -> PI n k g lim p P Pi -> PI n k g lim q Q Qi ->
    VAL k g p q d LO UO -> bad (nth g d (t0 O)) = false ->
    nth k d2 (t0 O) = nth g d (t0 O) -> (forall i, i < k -> nth i d2 (t0 O) = nth i d (t0 O)) ->
    (VH -> forall i, g < i < m2 -> nth i d2 (t0 O) = tsub O (nth i d (t0 O)) (tmul O (fu i) (fl i))) ->
    (VH -> nth g d (t0 O) <> t0 O -> forall i, tmul O (fl2 i) (nth g d (t0 O)) = fl i) ->
    (VH -> nth g d (t0 O) <> t0 O -> forall i, tmul O (fu i) (nth g d (t0 O)) = fu0 i) ->
    (VH -> forall x, x < n -> g < nth x Pi 0 ->
       fl (nth x Pi 0) = tsub O (hat x (nth g q 0)) (sum k (prd d LO UO x (nth g q 0)))) ->
    (VH -> forall y, y < n -> g < nth y Qi 0 ->
       fu0 (nth y Qi 0) = tsub O (hat (nth g p 0) y) (sum k (prd d LO UO (nth g p 0) y))) ->
    (RingLaws O -> forall i w, lko newL i = Some w -> w = fl2 i) -> (RingLaws O -> LS -> forall i, ov (lko newL i) = fl2 i) ->
    (RingLaws O -> forall i w, lko newU i = Some w -> w = fu i) -> (RingLaws O -> LS -> forall i, ov (lko newU i) = fu i) ->
    VAL (S k) (S g) (upd p k (nth g p 0)) (upd q k (nth g q 0)) d2 (ext k g Pi newL LO) (ext k g Qi newU UO).
  Proof.
    intros k g lim p q P Q Pi Qi d d2 LO UO newL newU fl fl2 fu0 fu Hk Hlim HP HQ HV Hbad Dk Di Dd SL SU FL FU NL1 NL2 NU1 NU2.
    pose proof (PI_elim _ _ _ _ _ _ _ HP ltac:(lia) ltac:(lia) Hlim) as HP'.
    pose proof (PI_elim _ _ _ _ _ _ _ HQ ltac:(lia) ltac:(lia) Hlim) as HQ'.
    assert (DN : VH -> nth g d (t0 O) <> t0 O).
    { intros (_ & _ & B) E. rewrite E in Hbad. congruence. }
    assert (Lp : length p = n) by apply HP. assert (Lq : length q = n) by apply HQ.
    assert (Np : forall i, nth i (upd p k (nth g p 0)) 0 = if i =? k then nth g p 0 else nth i p 0) by (intros; now rewrite nth_upd by lia).
    assert (Nq : forall i, nth i (upd q k (nth g q 0)) 0 = if i =? k then nth g q 0 else nth i q 0) by (intros; now rewrite nth_upd by lia).
    assert (PR : forall x y e, e < k -> prd d2 (ext k g Pi newL LO) (ext k g Qi newU UO) x y e = prd d LO UO x y e).
    { intros x y e He. unfold prd, ext. rewrite Di by auto. destruct (Nat.eqb_spec e k); [lia|auto]. }
    assert (SM : forall x y c, c <= k -> sum c (prd d2 (ext k g Pi newL LO) (ext k g Qi newU UO) x y) = sum c (prd d LO UO x y)).
    { intros x y c Hc. apply sum_ext. intros e He. apply PR. lia. }
    assert (XG : forall x, x < n -> (forall i, i <= k -> nth i (upd p k (nth g p 0)) 0 <> x) -> g < nth x Pi 0).
    { intros x Hx Hi. destruct (Nat.lt_ge_cases g (nth x Pi 0)); auto. exfalso.
      destruct (pi_f _ _ _ _ _ _ _ HP' x Hx ltac:(lia)) as (i & H1 & H2). apply (Hi i); auto. lia. }
    assert (YG : forall x, x < n -> (forall i, i <= k -> nth i (upd q k (nth g q 0)) 0 <> x) -> g < nth x Qi 0).
    { intros x Hx Hi. destruct (Nat.lt_ge_cases g (nth x Qi 0)); auto. exfalso.
      destruct (pi_f _ _ _ _ _ _ _ HQ' x Hx ltac:(lia)) as (i & H1 & H2). apply (Hi i); auto. lia. }
    destruct HV. split.
    - intros H c x Hc Hx Hi Hs. rewrite Nq. destruct (Nat.eqb_spec c k) as [->|Hn].
      + pose proof (fl_ring O (proj1 H)) as RL. rewrite SM by lia. pose proof (XG x Hx Hi) as Hgx. unfold ext in *. rewrite Nat.eqb_refl in *.
        rewrite (proj2 (Nat.ltb_lt _ _) Hgx) in *. rewrite Dk. rewrite <- FL by auto. rewrite <- (SL H (DN H)). f_equal.
        destruct Hs as [HLS|Hs]; [now apply NL2|]. destruct (lko newL (nth x Pi 0)) as [w|] eqn:E; [|congruence]. simpl. now apply NL1.
      + rewrite SM by lia. rewrite Di by lia. unfold ext in *. destruct (Nat.eqb_spec c k); [lia|]. apply vL0; auto; [lia|].
        intros i Hic. specialize (Hi i Hic). rewrite Np in Hi. destruct (Nat.eqb_spec i k); [lia|auto].
    - intros H c x Hc Hx Hi Hs. rewrite Np. destruct (Nat.eqb_spec c k) as [->|Hn].
      + pose proof (fl_ring O (proj1 H)) as RL. rewrite SM by lia. pose proof (YG x Hx Hi) as Hgx. unfold ext in *. rewrite Nat.eqb_refl in *.
        rewrite (proj2 (Nat.ltb_lt _ _) Hgx) in *. rewrite Dk. rewrite <- FU by auto. rewrite <- (SU H (DN H)). f_equal.
        destruct Hs as [HLS|Hs]; [now apply NU2|]. destruct (lko newU (nth x Qi 0)) as [w|] eqn:E; [|congruence]. simpl. now apply NU1.
      + rewrite SM by lia. rewrite Di by lia. unfold ext in *. destruct (Nat.eqb_spec c k); [lia|]. apply vU0; auto; [lia|].
        intros i Hic. specialize (Hi i Hic). rewrite Nq in Hi. destruct (Nat.eqb_spec i k); [lia|auto].
    - intros H HLS c Hc. rewrite Np, Nq. rewrite SM by lia. destruct (Nat.eqb_spec c k) as [->|Hn].
      + rewrite Dk. apply vP0; auto. lia.
      + rewrite Di by lia. apply vD0; auto. lia.
    - intros H c Hc. destruct (Nat.eq_dec c k) as [->|Hn]; [rewrite Dk; auto|]. rewrite Di by lia. apply vN0; auto. lia.
    - intros H HLS i Hi. pose proof (fl_ring O (proj1 H)) as RL. rewrite Np, Nq. destruct (Nat.eqb_spec i k); [lia|].
      rewrite Dd by (auto; lia). rewrite vP0 by (auto; lia). cbn [sum]. rewrite SM by lia.
      destruct (PI_i _ _ _ _ _ _ _ i HP ltac:(lia) Hlim) as (A1 & A2).
      destruct (PI_i _ _ _ _ _ _ _ i HQ ltac:(lia) Hlim) as (B1 & B2).
      unfold prd at 3. unfold ext at 1 2. rewrite Nat.eqb_refl, A2, B2. destruct (Nat.ltb_spec g i); [|lia].
      rewrite NL2, NU2 by auto. rewrite Dk. rewrite <- (SL H (DN H) i). now apply ru_diag.
  Qed.

  Lemma wp_assoc : forall X Y Z (m : res X) (f : X -> res Y) (h : Y -> res Z) Q,
    wp (bind (bind m f) h) Q -> wp (bind m (fun x => bind (f x) h)) Q.
  Proof. intros X Y Z [x| |] f h Q H; exact H. Qed.

  Lemma eliminate_l : forall k def c lc uc LO UO, INV k def c lc uc LO UO -> def + k < m2 ->
    bad (nth (def + k) (c_d c) (t0 O)) = false ->
    wp (eliminate is0 big dropU dropL m2 s t A_crs A_ccs k c) (fun c' => exists lc' uc' LO' UO',
      INV (S k) def c' lc' uc' LO' UO' /\ c_m c' = c_m c).
  Proof.
    intros k def c lc uc LO UO I Hg Hbad. pose proof I as []. unfold eliminate. rewrite i_def0.
    set (g := def + k) in *. assert (Kg : k <= g) by (unfold g; lia).
    pose proof i_p0 as [pp1 pp2 pp3 pa pb pc pd pe pf]. pose proof i_q0 as [qq1 qq2 qq3 qa qb qc qd qe qf].
    destruct (PI_g _ _ _ _ _ _ _ i_p0 ltac:(lia) ltac:(lia)) as (G1 & G2).
    destruct (PI_g _ _ _ _ _ _ _ i_q0 ltac:(lia) ltac:(lia)) as (H1 & H2).
    wpb. apply wp_get with (d := t0 O); [lia|]. wpb. apply wp_set; [lia|].
    wpb. apply wp_get with (d := 0); [lia|]. wpb. apply wp_set; [lia|].
    wpb. apply wp_get with (d := 0); [lia|]. wpb. apply wp_set; [lia|].
    set (dg := nth g (c_d c) (t0 O)) in *. set (pg := nth g (c_p c) 0) in *. set (qg := nth g (c_q c) 0) in *.
    set (d1 := upd (c_d c) k dg). set (p1 := upd (c_p c) k pg). set (q1 := upd (c_q c) k qg).
    assert (Ld1 : length d1 = m2) by (unfold d1; now rewrite upd_length).
    wpb. apply wp_get with (d := 0); [unfold p1; rewrite upd_length; lia|].
    replace (nth k p1 0) with pg by (unfold p1; now rewrite nth_upd_eq by lia).
    wpb. eapply wp_conseq.
    { apply (compute_ut_l (Nat.mul n 2) m2 m2 (Nat.mul n 2) (Nat.mul n 2) k g (n + def) (n + def) (c_L c) (c_U c) lc uc s t d1 A_crs pg (c_Qi c) (c_u c)); auto; try lia.
      - intros j Hj Hgj. apply qe; lia.
      - intros j j' Hj Hj' Hgj E. destruct (qe j ltac:(lia) ltac:(lia)) as (_ & X1). destruct (qe j' ltac:(lia) ltac:(lia)) as (_ & X2).
        rewrite E in X1. congruence. }
    intros ut1 (fu0 & AU0 & FU0).
    wpb. apply wp_get with (d := 0); [unfold q1; rewrite upd_length; lia|].
    replace (nth k q1 0) with qg by (unfold q1; now rewrite nth_upd_eq by lia).
    wpb. eapply wp_conseq.
    { apply (compute_l_l (Nat.mul n 2) m2 m2 (Nat.mul n 2) (Nat.mul n 2) k g (n + def) (n + def) (c_L c) (c_U c) lc uc s t d1 A_ccs qg (c_Pi c) (c_l c)); auto; try lia.
      - intros j Hj Hgj. apply pe; lia.
      - intros j j' Hj Hj' Hgj E. destruct (pe j ltac:(lia) ltac:(lia)) as (_ & X1). destruct (pe j' ltac:(lia) ltac:(lia)) as (_ & X2).
        rewrite E in X1. congruence. }
    intros l1 (fl & AL0 & FL0).
    wpb. eapply wp_conseq. { apply (scale_l (Nat.mul n 2) k g (n + def) is0 big d1 ut1 fu0 AU0); lia. }
    intros ut2 (fu & AU & EU1 & EU2 & SU).
    wpb. eapply wp_conseq. { apply (update_diag_l (Nat.mul n 2) k g (n + def) (n + def) m2 l1 ut2 fl fu d1); auto. lia. }
    intros d2 (Ld2 & D2a & D2b).
    wpb. eapply wp_conseq. { apply (scale_l (Nat.mul n 2) k g (n + def) is0 big d2 l1 fl AL0); lia. }
    intros l2 (fl2 & AL & EL1 & EL2 & SL).
    assert (Ek1 : nth k d1 (t0 O) = dg) by (unfold d1; now rewrite nth_upd_eq by lia).
    assert (Ek2 : nth k d2 (t0 O) = dg) by (rewrite D2a by lia; auto).
    assert (Ei1 : forall i, i <> k -> nth i d1 (t0 O) = nth i (c_d c) (t0 O)) by (intros; unfold d1; now apply nth_upd_neq; auto).
    set (c1 := mkCR _ _ _ _ _ _ _ _ _ _ _ _ _ _ _).
    assert (PD : predrop k c1).
    { unfold predrop, c1. cbn [c_kl c_ku c_p c_q]. unfold p1, q1. rewrite !upd_length, !nth_upd_eq by lia. lia. }
    apply wp_assoc. wpb. eapply wp_conseq. { exact (drop_sort dropU k g (n + def) k c1 ut2 fu DU PD AU). }
    intros ut3 (okU & idU & soU & rgU & NU1 & NU2).
    wpb. eapply wp_conseq. { apply (push_sv_l _ _ _ _ _ (Nat.mul n 2) _ _ ut3 i_U0); auto. }
    intros U1 RU1.
    apply wp_assoc. wpb. eapply wp_conseq. { exact (drop_sort dropL k g (n + def) k c1 l2 fl2 DL PD AL). }
    intros l3 (okL & idL & soL & rgL & NL1 & NL2).
    wpb. eapply wp_conseq. { apply (push_sv_l _ _ _ _ _ (Nat.mul n 2) _ _ l3 i_L0); auto. }
    intros L1 RL1.
    assert (NR : forall v : SV O, sv_ok (Nat.mul n 2) v -> (forall i, In i (held v) -> S g <= i < n + def) ->
       asc (map fst (newrow v)) /\ forall e, In e (newrow v) -> S g <= fst e < n + def).
    { intros v [] Hr. unfold newrow. rewrite map_map. cbn [fst]. rewrite map_id. split.
      - apply isort_asc. auto.
      - intros e He. apply in_map_iff in He. destruct He as (i & <- & Hi). cbn [fst]. apply Hr.
        eapply Permutation_in; [apply isort_perm|]. auto. }
    destruct (NR ut3 okU rgU) as (NRU1 & NRU2). destruct (NR l3 okL rgL) as (NRL1 & NRL2).
    wpb. eapply wp_conseq. { apply (compress_l m2 (Nat.mul n 2) k g def (n + def) (newrow ut3) U1 uc); auto; lia. }
    intros U2 RU2. wpb. eapply wp_conseq. { apply (compress_l m2 (Nat.mul n 2) k g def (n + def) (newrow l3) L1 lc); auto; lia. }
    intros L2 RL2. apply wp_ok.
    exists (map (compc g def) lc ++ [([], newrow l3)]), (map (compc g def) uc ++ [([], newrow ut3)]),
       (ext k g (c_Pi c) (newrow l3) LO), (ext k g (c_Qi c) (newrow ut3) UO).
    assert (EG : def + S k = S g) by (unfold g; lia).
    split; [|reflexivity]. split; cbn [c_def c_m c_L c_U c_d c_p c_q c_P c_Q c_Pi c_Qi c_kl c_ku c_l c_u]; rewrite ?EG; auto; try lia.
    - apply PI_elim; auto; lia.
    - apply PI_elim; auto; lia.
    - eapply link_elim; eauto; try lia.
    - eapply link_elim; eauto; try lia.
    - destruct i_lk0 as (lk1 & lk2). destruct i_uk0 as (uk1 & uk2).
      apply (VAL_elim k g (n + def) (c_p c) (c_q c) (c_P c) (c_Q c) (c_Pi c) (c_Qi c) (c_d c) d2 LO UO (newrow l3) (newrow ut3) fl fl2 fu0 fu); auto; try lia.
      + intros i Hi. rewrite D2a by lia. apply Ei1. lia.
      + intros (F & _) i Hi. pose proof (fl_ring O F) as RL. rewrite D2b by auto. now rewrite Ei1 by lia.
      + intros (F & S0 & B) Hd i. rewrite <- (SL F S0) by (rewrite Ek2; auto). now rewrite Ek2.
      + intros (F & S0 & B) Hd i. rewrite <- (SU F S0) by (rewrite Ek1; auto). now rewrite Ek1.
      + intros (F & _) x Hx Hgx. pose proof (fl_ring O F) as RL. rewrite FL0 by (auto; lia). unfold hat. rewrite (proj2 (HA RL x qg Hx H1)). f_equal.
        apply sum_ext. intros e He. unfold prd. rewrite Ei1 by lia. unfold lkv.
        rewrite (uk1 e g qg) by (auto; try lia; apply qd; lia).
        destruct (pe x Hx ltac:(lia)) as (X1 & X2). rewrite (lk1 e (nth x (c_Pi c) 0) x) by (auto; lia). now apply ru_swap3.
      + intros (F & _) y Hy Hgy. pose proof (fl_ring O F) as RL. rewrite FU0 by (auto; lia). unfold hat. rewrite (proj1 (HA RL pg y G1 Hy)). f_equal.
        apply sum_ext. intros e He. unfold prd. rewrite Ei1 by lia. unfold lkv.
        rewrite (lk1 e g pg) by (auto; try lia; apply pd; lia).
        destruct (qe y Hy ltac:(lia)) as (X1 & X2). rewrite (uk1 e (nth y (c_Qi c) 0) y) by (auto; lia). reflexivity.
      + intros RL (LSU & LSL). auto.
      + intros RL (LSU & LSL). auto.
    - intros i Hi. destruct (Nat.eq_dec i k) as [->|]; [now rewrite Ek2|]. rewrite D2a by lia. rewrite Ei1 by lia. apply i_b0. lia.
    - destruct i_h0 as (acc & dfr & X1 & X2 & X3). exists (acc ++ [g]), dfr.
      split; [now apply HS_elim|]. split; (eapply HI_elim; eauto; lia).
  Qed.
End A.
