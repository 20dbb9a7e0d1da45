(** * PivotProofs5: interchanges of the permutations and the state of the accumulators. *)
From Coq Require Import List Arith Lia Bool Permutation Ring.
From Verif Require Import Base Scalar Spec CSModel CSSpec ConvModel ConvSpec BucketProofs ConvProofs ConvProofs2
  ConvProofs3 ConvProofs4 Mag VecModel VecSpec VecProofs PruneModel PruneProofs CroutModel CroutProofs1 CroutProofs2 CroutProofs3
  CroutProofs4 CroutProofs5 CroutProofs6 CroutProofs7 AugModel AugProofs1 AugProofs2 PivotModel PivotProofs1 PivotProofs4.
Import ListNotations.

Lemma PI_ext : forall n k g lim p P P' Pi, PI n k g lim p P Pi -> n <= lim -> length P' = Nat.mul n 2 ->
  (forall i, g <= i < lim -> nth i P' None = nth i P None) -> PI n k g lim p P' Pi.
Proof.
  intros n k g lim p P P' Pi [] Hl LP E. split; auto.
  - intros r Hr. destruct (pi_a r Hr) as (x & H1 & H2 & H3). exists x. rewrite E by auto. auto.
  - intros i Hi. rewrite E by lia. auto.
  - intros x Hx Hg. destruct (pi_e x Hx Hg). rewrite E by lia. auto.
Qed.

Lemma sw_ge : forall g j r lim, g < j < lim -> g <= r < lim -> g <= sw g j r < lim.
Proof. intros. unfold sw. natb; lia. Qed.
Lemma sw_lt : forall g j r, g < j -> r < g -> sw g j r = r.
Proof. intros. unfold sw. natb; lia. Qed.
Lemma sw_sw : forall g j r, sw g j (sw g j r) = r.
Proof. intros. unfold sw. natb; try lia. Qed.

Lemma PI_swap : forall n k g lim p P Pi j p' P' Pi', PI n k g lim p P Pi -> k <= g -> g < j < n -> n <= lim ->
  length p' = n -> length P' = Nat.mul n 2 -> length Pi' = n ->
  (forall i, i < n -> nth i p' 0 = nth (sw g j i) p 0) ->
  (forall x, x < n -> nth x Pi' 0 = sw g j (nth x Pi 0)) ->
  (forall r, g <= r < lim -> nth r P' None = nth (sw g j r) P None) ->
  PI n k g lim p' P' Pi'.
Proof.
  intros n k g lim p P Pi j p' P' Pi' [] Hk Hj Hl L1 L2 L3 E1 E2 E3. split; auto.
  - intros r Hr. destruct (pi_a (sw g j r)) as (x & X1 & X2 & X3). { apply sw_ge; lia. }
    exists x. split; auto. rewrite E3, E2 by auto. split; auto. rewrite X3. apply sw_sw.
  - intros i Hi. rewrite E1, sw_lt by lia. destruct (pi_b i Hi) as (B1 & B2). split; auto. rewrite E2 by auto. rewrite sw_lt by lia. auto.
  - intros i i' Hi Hi'. rewrite !E1, !sw_lt by lia. auto.
  - intros i Hi. rewrite E3, E1 by lia. pose proof (sw_ge g j i n ltac:(lia) ltac:(lia)). apply pi_d. lia.
  - intros x Hx Hg. rewrite E2 in * by auto. destruct (Nat.lt_ge_cases (nth x Pi 0) g) as [C|C]; [rewrite sw_lt in Hg by lia; lia|].
    destruct (pi_e x Hx C) as (D1 & D2). pose proof (sw_ge g j (nth x Pi 0) lim ltac:(lia) ltac:(lia)). split; [lia|].
    rewrite E3 by lia. now rewrite sw_sw.
  - intros x Hx Hg. rewrite E2 in Hg by auto. destruct (Nat.lt_ge_cases (nth x Pi 0) g) as [C|C].
    + destruct (pi_f x Hx C) as (i & I1 & I2). exists i. split; auto. rewrite E1, sw_lt by lia. auto.
    + destruct (pi_e x Hx C) as (D1 & D2). pose proof (sw_ge g j (nth x Pi 0) lim ltac:(lia) ltac:(lia)). lia.
Qed.

Lemma swap_l : forall X (d : X) a i j, i < length a -> j < length a ->
  exists a', swap a i j = Ok a' /\ length a' = length a /\
    forall x, nth x a' d = nth (sw i j x) a d.
Proof.
  intros X d a i j Hi Hj. unfold swap. rewrite !(get_nth _ _ _ d) by auto. cbn [bind]. rewrite set_ok by auto. cbn [bind].
  rewrite set_ok by (rewrite upd_length; auto). eexists. split; [reflexivity|]. rewrite !upd_length. split; auto.
  intros x. rewrite nth_upd by (rewrite upd_length; auto). rewrite nth_upd by auto. unfold sw. natb; subst; auto; congruence.
Qed.

(** exchanging two positions of a permutation and its inverse *)
Lemma bp_swap : forall n k g lim p P Pi j, PI n k g lim p P Pi -> g < j < n -> n <= lim ->
  exists p' Pi', VecModel.interchange (mkBP p Pi) g j = Ok (mkBP p' Pi') /\ length p' = n /\ length Pi' = n /\
    (forall i, i < n -> nth i p' 0 = nth (sw g j i) p 0) /\
    (forall x, x < n -> nth x Pi' 0 = sw g j (nth x Pi 0)).
Proof.
  intros n k g lim p P Pi j H Hj Hl. pose proof H as [pi_p pi_P pi_Pi pi_a pi_b pi_c pi_d pi_e pi_f]. unfold VecModel.interchange. cbn [bp bpi].
  destruct (swap_l _ 0 p g j) as (p' & E & L & N); try lia. rewrite E. cbn [bind].
  destruct (PI_i _ _ _ _ _ _ _ g H ltac:(lia) Hl) as (G1 & G2).
  destruct (PI_i _ _ _ _ _ _ _ j H ltac:(lia) Hl) as (J1 & J2).
  rewrite !(get_nth _ _ _ 0) by lia. cbn [bind]. rewrite !N.
  replace (sw g j g) with j by (unfold sw; natb; lia). replace (sw g j j) with g by (unfold sw; natb; lia).
  destruct (swap_l _ 0 Pi (nth j p 0) (nth g p 0)) as (Pi' & E' & L' & N'); try lia. rewrite E'. cbn [bind].
  exists p', Pi'. split; auto. split; [lia|]. split; [lia|]. split; auto.
  intros x Hx. rewrite N'. unfold sw at 1. destruct (Nat.eqb_spec x (nth j p 0)) as [->|Hn].
  - rewrite G2, J2. unfold sw. natb; lia.
  - destruct (Nat.eqb_spec x (nth g p 0)) as [->|Hn2].
    + rewrite G2, J2. unfold sw. natb; lia.
    + unfold sw. destruct (Nat.eqb_spec (nth x Pi 0) g) as [Eg|].
      { destruct (pi_e x Hx ltac:(lia)) as (_ & X). rewrite Eg, pi_d in X by lia. congruence. }
      destruct (Nat.eqb_spec (nth x Pi 0) j) as [Eg|]; auto.
      destruct (pi_e x Hx ltac:(lia)) as (_ & X). rewrite Eg, pi_d in X by lia. congruence.
Qed.

(** the positions of the rows that are still to be processed or deferred *)
Definition gP (n : nat) (p : list nat) (P : list (option nat)) : list (option nat) := map Some p ++ skipn n P.
Lemma gP_len : forall n p P, length p = n -> length P = Nat.mul n 2 -> length (gP n p P) = Nat.mul n 2.
Proof. intros. unfold gP. rewrite app_length, map_length, skipn_length. lia. Qed.
Lemma gP_lo : forall n p P i, length p = n -> i < n -> nth i (gP n p P) None = Some (nth i p 0).
Proof.
  intros n p P i L Hi. unfold gP. rewrite app_nth1 by (rewrite map_length; lia).
  rewrite (nth_indep _ None (Some 0)) by (rewrite map_length; lia). now rewrite map_nth.
Qed.
Lemma nth_skipn' : forall X (d : X) n l i, nth i (skipn n l) d = nth (n + i) l d.
Proof. intros X d. induction n; intros l i; cbn [skipn plus]; auto. destruct l; [now destruct i|apply IHn]. Qed.
Lemma gP_hi : forall n p P i, length p = n -> n <= i -> nth i (gP n p P) None = nth i P None.
Proof.
  intros n p P i L Hi. unfold gP. rewrite app_nth2 by (rewrite map_length; lia). rewrite map_length, nth_skipn'. f_equal. lia.
Qed.

Section A.
  Context {O : Ops}.
  Notation T := (T O).
  Notation row := (list (nat * T)).
  Notation col := (row * row)%type.
  Notation tl' c cols := (snd (nth c cols (dcol (O:=O)))).
  Notation dn' c cols := (fst (nth c cols (dcol (O:=O)))).

  Lemma link_ext : forall k g lim p P p' P' (cols : list col) LO, link k g lim p P cols LO ->
    (forall i, g <= i < lim -> nth i P' None = nth i P None) -> (forall i, i < k -> nth i p' 0 = nth i p 0) ->
    link k g lim p' P' cols LO.
  Proof.
    intros k g lim p P p' P' cols LO (H1 & H2) E1 E2. split.
    - intros c r x Hc Hr. rewrite E1 by auto. now apply H1.
    - intros c i Hc Hi. rewrite E2 by auto. now apply H2.
  Qed.

  Lemma link_swap : forall k g lim p P j p' P' (cols cols' : list col) LO, link k g lim p P cols LO -> g < j < lim ->
    (forall r, g <= r < lim -> nth r P' None = nth (sw g j r) P None) -> (forall i, i < k -> nth i p' 0 = nth i p 0) ->
    (forall c, c < k -> dn' c cols' = dn' c cols /\ forall r, lko (tl' c cols') r = lko (tl' c cols) (sw g j r)) ->
    link k g lim p' P' cols' LO.
  Proof.
    intros k g lim p P j p' P' cols cols' LO (H1 & H2) Hj E1 E2 E3. split.
    - intros c r x Hc Hr. rewrite E1 by auto. destruct (E3 c Hc) as (_ & X). rewrite X. apply H1; auto. now apply sw_ge.
    - intros c i Hc Hi. rewrite E2 by auto. destruct (E3 c ltac:(lia)) as (X & _). rewrite X. now apply H2.
  Qed.

  (** an accumulator that has been used in step [k], possibly several times *)
  Definition used (N k : nat) (v : SV O) : Prop :=
    sv_ok N v /\ forall i s, i < N -> tg v i = Some s -> s < k \/ (s = k /\ In i (held v)).

  Lemma idle_used : forall N k v, idle N k v -> used N k v.
  Proof. intros N k v (H1 & H2). split; auto. intros i s Hi E. left. eauto. Qed.
  Lemma acc_used : forall N k lo lim v f, acc N k lo lim v f -> used N k v.
  Proof.
    intros N k lo lim v f []. split; auto. intros i s Hi E. pose proof (ac_old i s Hi E). destruct (Nat.eq_dec s k) as [->|].
    - right. split; auto. apply ac_tag; auto.
    - left. lia.
  Qed.
  Lemma used_idle_S : forall N k v, used N k v -> idle N (S k) v.
  Proof. intros N k v (H1 & H2). split; auto. intros i s Hi E. destruct (H2 i s Hi E); lia. Qed.

  Lemma restore_used : forall N k v, used N k v -> wp (sv_restore v) (fun v' => idle N k v').
  Proof.
    intros N k v ([s1 s2 s3 s4 s5 s6 s7] & H). unfold sv_restore. wpb.
    assert (LH : length (held v) = sv_cnt v) by (unfold held; rewrite firstn_length; lia).
    assert (NH : forall i, i < sv_cnt v -> nth i (sv_inds v) 0 = nth i (held v) 0 /\ In (nth i (sv_inds v) 0) (held v)).
    { intros i Hi. assert (E : nth i (held v) 0 = nth i (sv_inds v) 0).
      { unfold held. rewrite <- (firstn_skipn (sv_cnt v) (sv_inds v)) at 2. rewrite app_nth1; auto. fold (held v). lia. }
      split; auto. rewrite <- E. apply nth_In. lia. }
    eapply wp_conseq.
    { apply (for_range_inv _ (fun i tags => length tags = N /\ (forall j, j < i -> nth (nth j (held v) 0) tags None = None) /\
        forall j, nth j tags None = None \/ nth j tags None = tg v j)); [lia| |].
      - split; auto. split; [intros; lia|]. auto.
      - intros i tags Hi (L & A1 & A2). destruct (NH i ltac:(lia)) as (E & I). wpb. apply wp_get with (d := 0); [lia|].
        rewrite E in *. pose proof (s7 _ I). apply wp_set; [lia|]. rewrite upd_length. split; auto. split.
        + intros j Hj. rewrite nth_upd by lia. destruct (Nat.eqb_spec (nth j (held v) 0) (nth i (held v) 0)); auto. apply A1.
          destruct (Nat.eq_dec i j); [congruence|lia].
        + intros j. rewrite nth_upd by lia. destruct (j =? _); auto. }
    intros tags (L & A1 & A2). apply wp_ok. split.
    - split; cbn [sv_vals sv_inds sv_cnt sv_dtags sv_stags]; auto.
    - intros i x Hi E. unfold tg in E. cbn [sv_dtags] in E. destruct (A2 i) as [X|X]; [congruence|].
      rewrite X in E. destruct (H i x Hi E) as [|(-> & I)]; auto. exfalso.
      apply (In_nth _ _ 0) in I. destruct I as (j & Hj & Ej). specialize (A1 j ltac:(lia)). rewrite Ej in A1.
      fold (tg v i) in X. congruence.
  Qed.

  Lemma setval_used : forall N k v i x, used N k v -> i < N -> wp (sv_setval v i x) (fun v' => used N k v').
  Proof.
    intros N k v i x ([s1 s2 s3 s4 s5 s6 s7] & H) Hi. unfold sv_setval. wpb. apply wp_set; [lia|]. apply wp_ok.
    split; [|exact H]. split; cbn [sv_vals sv_inds sv_cnt sv_dtags sv_stags]; auto. now rewrite upd_length.
  Qed.

  Variable srt : list T -> list nat -> list nat.
  Hypothesis HS : forall vals l, Permutation (srt vals l) l.

  Lemma msort_l : forall N k lo lim v f, acc N k lo lim v f -> wp (sv_msort srt v) (fun v' => acc N k lo lim v' f).
  Proof.
    intros N k lo lim v f [[s1 s2 s3 s4 s5 s6 s7] a1 a2 a3 a4 a5]. unfold sv_msort.
    assert (LH : length (held v) = sv_cnt v) by (unfold held; rewrite firstn_length; lia).
    fold (held v). rewrite (proj2 (Nat.leb_le (sv_cnt v) (length (sv_inds v)))) by lia.
    rewrite (proj2 (forallb_forall _ _)). 2:{ intros x Hx. apply Nat.ltb_lt. rewrite s1. auto. }
    cbn [andb]. apply wp_ok. set (w := mkSV _ _ _ _ _).
    pose proof (HS (sv_vals v) (held v)) as PH.
    assert (EH : held w = srt (sv_vals v) (held v)).
    { unfold held at 1, w. cbn [sv_cnt sv_inds]. apply Permutation_length in PH. rewrite firstn_app, firstn_all2 by lia.
      replace (sv_cnt v - length (srt (sv_vals v) (held v))) with 0 by lia. cbn [firstn]. apply app_nil_r. }
    assert (IH : forall i, In i (held w) <-> In i (held v)).
    { intros i. rewrite EH. split; apply Permutation_in; auto. now apply Permutation_sym. }
    split.
    - split; auto; try rewrite EH.
      + unfold w. cbn [sv_inds]. rewrite app_length, skipn_length. apply Permutation_length in PH. lia.
      + eapply Permutation_NoDup; [apply Permutation_sym; exact PH|auto].
      + intros i Hi. apply s7. rewrite <- EH in Hi. now apply IH.
    - intros i Hi. rewrite IH. apply a1; auto.
    - exact a2.
    - intros i Hi. apply a3. now apply IH.
    - intros RL i Hi. apply a4; auto. now apply IH.
    - intros RL i Hi. apply a5; auto. now rewrite <- IH.
  Qed.

  (** the pivot search returns one of the candidates before [m2] *)
  Lemma find_l : forall klt kok ps ss m2 k g lim (F : aug O) start (cols : list col) l kappa,
    PivotProofs1.PRep ps ss k g lim F start cols -> g < ss -> m2 <= ss -> k < length kappa -> (forall i, In i l -> g < i) ->
    wp (find_pvt (pvt_op klt kok m2 k g F) l kappa) (fun r => length (snd r) = length kappa /\
       forall j, fst r = Some j -> In j l /\ j < m2).
  Proof.
    intros klt kok ps ss m2 k g lim F start cols l. induction l as [|i l IH]; intros kappa R Hg Hm HL HI; cbn [find_pvt].
    - apply wp_ok. cbn [fst snd]. split; auto. discriminate.
    - wpb. apply wp_conseq with (P := fun r => length (snd r) = length kappa /\ (fst r = true -> i < m2)).
      { unfold pvt_op. destruct (Nat.leb_spec m2 i). { apply wp_ok. cbn [fst snd]. split; auto. discriminate. }
        wpb. eapply wp_conseq. { apply (PivotProofs4.pupdate_kappa_l ps ss klt k g lim F start cols kappa i); auto.
          right. specialize (HI i (or_introl eq_refl)). lia. }
        intros ka' L. cbv beta in L. rewrite ?L. wpb. apply wp_get with (d := t0 O); [lia|]. apply wp_ok. cbn [fst snd]. auto. }
      intros [b ka'] (L & B). cbn [fst snd] in *. destruct b.
      + apply wp_ok. cbn [fst snd]. split; auto. intros j E. injection E as <-. split; [left; auto|auto].
      + eapply wp_conseq. { apply (IH ka' R Hg Hm); [lia|]. intros j Hj. apply HI. right; auto. }
        intros [o ka2] (L2 & B2). cbn [fst snd] in *. split; [lia|]. intros j E. destruct (B2 j E). split; auto. right; auto.
  Qed.
End A.
