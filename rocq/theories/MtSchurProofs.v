(** * MtSchurProofs: every interleaving of the threaded Schur complement gives the serial result. *)
From Coq Require Import List Arith Lia Bool Permutation.
From Verif Require Import Base Scalar Spec CSModel CSSpec ConvModel ConvSpec BucketProofs ConvProofs ConvProofs2
  ConvProofs3 ConvProofs4 Mag VecModel VecSpec VecProofs CroutModel CroutSpec CroutProofs3 CroutProofs5 SchurModel SchurSpec SchurProofs1 SchurProofs2
  MtModel MtProofs MtSchurModel.
Import ListNotations.

Section P.
  Context {O : Ops}.
  Notation T := (T O).
  Variables (n m : nat) (s t d : list T) (A : CS O) (p q qinv : list nat) (L_E U_F : CS O).
  Let N := n - m.
  Hypothesis V : valid A. Hypothesis Pn : psize A = n. Hypothesis Sn : ssize A = n.
  Hypothesis Ls : length s = n. Hypothesis Lt : length t = n. Hypothesis Hm : m < n.
  Hypothesis Pp : is_perm n p. Hypothesis Iq : is_inv n q qinv.
  Hypothesis WL : wf L_E. Hypothesis PL : psize L_E = N. Hypothesis SL : ssize L_E = m.
  Hypothesis WU : wf U_F. Hypothesis PU : psize U_F = m. Hypothesis SU : ssize U_F = N.
  Hypothesis Ld : m <= length d.
  Variables (ji : nat) (jv : T) (nth : nat).
  Hypothesis Hth : 0 < nth.

  Notation srow := (srow m s t d A p qinv L_E U_F).
  Notation ridx := (ridx m s t d A p qinv L_E U_F).
  Notation sexact := (sexact m s t d A p qinv L_E U_F).
  Notation sstep := (sstep s t d A p qinv m L_E U_F ji jv).
  Notation sconf := (@sconf O). Notation sth := (@sth O).
  Notation nth_ := List.nth.
  Let ro (r : nat) : nat := length (flat O srow r).
  Let rl (r : nat) : nat := length (ridx r).

  Lemma ro_S : forall r, ro (S r) = ro r + rl r.
  Proof. intros. unfold ro, rl. rewrite flat_S, app_length. f_equal. rewrite <- srow_fst, map_length. reflexivity. Qed.
  Lemma ro_mono : forall a b, a <= b -> ro a <= ro b.
  Proof. intros. now apply flat_len_mono. Qed.
  Lemma ro_fit : forall r k, r < N -> k < rl r -> ro r + k < ro N.
  Proof. intros r k Hr Hk. pose proof (ro_mono (S r) N ltac:(lia)). rewrite ro_S in H. lia. Qed.
  Lemma ro_inj : forall r k r' k', k < rl r -> k' < rl r' -> ro r + k = ro r' + k' -> r = r' /\ k = k'.
  Proof.
    intros r k r' k' Hk Hk' E. destruct (Nat.lt_trichotomy r r') as [C|[C|C]].
    - pose proof (ro_mono (S r) r' ltac:(lia)). rewrite ro_S in H. lia.
    - subst r'. split; auto; lia.
    - pose proof (ro_mono (S r') r ltac:(lia)). rewrite ro_S in H. lia.
  Qed.
  Lemma rl_le : forall r, r < N -> rl r <= N.
  Proof.
    intros r Hr. unfold rl. apply bounded_nodup_length; [apply asc_NoDup, ridx_asc|]. intros i Hi. apply ridx_in in Hi.
    now apply (pushl_lt n m s t d A p q qinv L_E U_F V Pn Sn Ls Lt Hm Pp Iq WL PL SL WU PU SU Ld r).
  Qed.
  Lemma ridx_lt : forall r k, r < N -> k < rl r -> nth_ k (ridx r) 0 < N.
  Proof.
    intros r k Hr Hk. assert (I : In (nth_ k (ridx r) 0) (ridx r)) by (apply nth_In; auto). apply ridx_in in I.
    now apply (pushl_lt n m s t d A p q qinv L_E U_F V Pn Sn Ls Lt Hm Pp Iq WL PL SL WU PU SU Ld r).
  Qed.
  Lemma pat_l : forall i tag buf, i < N -> idle N tag buf ->
    wp (schur_pattern A p qinv m L_E U_F i tag buf) (fun b => idle N (S tag) b /\ held b = firsts (pushl m s t d A p qinv L_E U_F i) /\ sv_cnt b = rl i).
  Proof.
    intros i tag buf Hi Hb. eapply wp_conseq; [apply (pattern_l n m s t d A p q qinv L_E U_F V Pn Sn Ls Lt Hm Pp Iq WL PL SL WU PU SU Ld N); auto|].
    intros b (H1 & H2 & H3 & _). auto.
  Qed.

  Definition lo_ u := pstart N nth u.
  Definition hi_ u := pend N nth u.
  Lemma lo_hi : forall u, u < nth -> lo_ u <= hi_ u /\ hi_ u <= N.
  Proof. intros u Hu. split; [now apply part_le|now apply part_end_le]. Qed.
  Lemma own : forall u v r, u < nth -> v < nth -> u <> v -> lo_ u <= r < hi_ u -> ~ (lo_ v <= r < hi_ v).
  Proof.
    intros u v r Hu Hv NE Hr Hr'. unfold lo_, hi_ in *. destruct (Nat.lt_ge_cases u v).
    - pose proof (part_disjoint N nth u v Hth H Hv). lia.
    - pose proof (part_disjoint N nth v u Hth ltac:(lia) Hu). lia.
  Qed.

  (** Private state. *)
  Definition base (u : nat) (th : sth) : Prop :=
    th_lo th = lo_ u /\ th_hi th = hi_ u /\ idle N (th_tag th) (th_buf th) /\ length (th_bv th) = N.

  Definition ciok (ci : list nat) (r : nat) : Prop := forall k, k < rl r -> nth_ (ro r + k) ci 0 = nth_ k (ridx r) 0.
  Definition vsok (vs : list T) (r : nat) : Prop := forall k, k < rl r -> nth_ (ro r + k) vs (t0 O) = sexact r (nth_ k (ridx r) 0).

  (** Before the first barrier. *)
  Definition tA (u : nat) (rs : list nat) (th : sth) : Prop :=
    match th_pc th with
    | SCount i => lo_ u <= i <= hi_ u /\ forall r, lo_ u <= r < i -> nth_ (S r) rs 0 = rl r
    | SBar1 => forall r, lo_ u <= r < hi_ u -> nth_ (S r) rs 0 = rl r
    | _ => False
    end.
  (** Between the barriers; [tB0] for the master. *)
  Definition tB (th : sth) : Prop := match th_pc th with SBar1 | SBar2 => True | _ => False end.
  Definition tB0 (rs ci : list nat) (vs : list T) (th : sth) : Prop :=
    match th_pc th with
    | SBar1 => (forall r, r < N -> nth_ (S r) rs 0 = rl r) /\ ci = [] /\ vs = []
    | SPrefix i => i <= N /\ (forall k, k <= i -> nth_ k rs 0 = ro k) /\ (forall r, i <= r < N -> nth_ (S r) rs 0 = rl r) /\ ci = [] /\ vs = []
    | SBar2 => (forall k, k <= N -> nth_ k rs 0 = ro k) /\ length ci = ro N /\ length vs = ro N
    | _ => False
    end.
  (** After the second barrier. *)
  Definition tC (u : nat) (ci : list nat) (vs : list T) (th : sth) : Prop :=
    match th_pc th with
    | SBar2 => True
    | SPat i => 0 < ro N /\ lo_ u <= i <= hi_ u /\ (forall r, lo_ u <= r < i -> ciok ci r)
    | SCopy i k => 0 < ro N /\ lo_ u <= i < hi_ u /\ (forall r, lo_ u <= r < i -> ciok ci r) /\
        held (th_buf th) = ridx i /\ sv_cnt (th_buf th) = rl i /\ k <= rl i /\
        (forall k', k' < k -> nth_ (ro i + k') ci 0 = nth_ k' (ridx i) 0)
    | SZero i k => lo_ u <= i <= hi_ u /\ (forall r, lo_ u <= r < hi_ u -> ciok ci r) /\ (forall r, lo_ u <= r < i -> vsok vs r) /\
        (i < hi_ u -> k <= rl i /\ forall k', k' < k -> nth_ (nth_ k' (ridx i) 0) (th_bv th) (t0 O) = t0 O) /\ (i = hi_ u -> k = 0)
    | SFill i => lo_ u <= i < hi_ u /\ (forall r, lo_ u <= r < hi_ u -> ciok ci r) /\ (forall r, lo_ u <= r < i -> vsok vs r) /\
        (forall j, In j (ridx i) -> nth_ j (th_bv th) (t0 O) = t0 O)
    | SOut i k => lo_ u <= i < hi_ u /\ (forall r, lo_ u <= r < hi_ u -> ciok ci r) /\ (forall r, lo_ u <= r < i -> vsok vs r) /\
        (forall j, In j (ridx i) -> nth_ j (th_bv th) (t0 O) = sexact i j) /\ k <= rl i /\
        (forall k', k' < k -> nth_ (ro i + k') vs (t0 O) = sexact i (nth_ k' (ridx i) 0))
    | SFin => (forall r, lo_ u <= r < hi_ u -> ciok ci r) /\ (forall r, lo_ u <= r < hi_ u -> vsok vs r)
    | _ => False
    end.

  Record common (c : sconf) : Prop := mk_common {
    cm_len : length (sc_th c) = nth;
    cm_base : forall u th, nth_error (sc_th c) u = Some th -> base u th;
    cm_rs : length (sc_rs c) = N + 1 }.
  Definition stA (c : sconf) : Prop := common c /\ nth_ 0 (sc_rs c) 0 = 0 /\ sc_ci c = [] /\ sc_vs c = [] /\
    forall u th, nth_error (sc_th c) u = Some th -> tA u (sc_rs c) th.
  Definition stB (c : sconf) : Prop := common c /\ nth_ 0 (sc_rs c) 0 = 0 /\
    forall u th, nth_error (sc_th c) u = Some th -> if u =? 0 then tB0 (sc_rs c) (sc_ci c) (sc_vs c) th else tB th.
  Definition stC (c : sconf) : Prop := common c /\ (forall k, k <= N -> nth_ k (sc_rs c) 0 = ro k) /\
    length (sc_ci c) = ro N /\ length (sc_vs c) = ro N /\
    forall u th, nth_error (sc_th c) u = Some th -> tC u (sc_ci c) (sc_vs c) th.
  Definition sinv (c : sconf) : Prop := stA c \/ stB c \/ stC c.

  Lemma upd_error : forall X (l : list X) u v x y, u < length l -> nth_error (upd l u x) v = Some y ->
    (v = u /\ y = x) \/ (v <> u /\ nth_error l v = Some y).
  Proof.
    induction l; intros u v x y Hu E; cbn [length] in Hu; [lia|]. destruct u; cbn [upd] in E.
    - destruct v; cbn [nth_error] in *; [left; split; congruence|right; split; auto].
    - destruct v; cbn [nth_error] in *; [right; split; auto|]. destruct (IHl u v x y ltac:(lia) E) as [(-> & ->)|(? & ?)]; auto.
  Qed.
  Lemma common_upd : forall c u th' rs ci vs, common c -> u < nth -> base u th' -> length rs = N + 1 -> common (mkSC (upd (sc_th c) u th') rs ci vs).
  Proof.
    intros c u th' rs ci vs [L B R] Hu Hb Hr. split; cbn [sc_th sc_rs]; auto.
    - now rewrite upd_length.
    - intros v th E. apply upd_error in E; [|lia]. destruct E as [(-> & ->)|(_ & E)]; auto.
  Qed.

  Lemma tC_frame : forall u ci vs ci' vs' th,
    (forall r k, lo_ u <= r < hi_ u -> k < rl r -> nth_ (ro r + k) ci' 0 = nth_ (ro r + k) ci 0 /\ nth_ (ro r + k) vs' (t0 O) = nth_ (ro r + k) vs (t0 O)) ->
    tC u ci vs th -> tC u ci' vs' th.
  Proof.
    intros u ci vs ci' vs' th F.
    assert (FC : forall r, lo_ u <= r < hi_ u -> ciok ci r -> ciok ci' r). { intros r Hr H k Hk. rewrite (proj1 (F r k Hr Hk)). now apply H. }
    assert (FV : forall r, lo_ u <= r < hi_ u -> vsok vs r -> vsok vs' r). { intros r Hr H k Hk. rewrite (proj2 (F r k Hr Hk)). now apply H. }
    unfold tC. destruct (th_pc th) as [i| |i| |i|i k|i k|i|i k|]; auto.
    - intros (H0 & H1 & H2). split; auto. split; auto. intros r Hr. apply FC; [lia|]. apply H2; lia.
    - intros (H0 & H1 & H2 & H3 & H4 & H5 & H6). split; auto. split; auto. split. { intros r Hr. apply FC; [lia|]. apply H2; lia. }
      split; auto. split; auto. split; auto. intros k' Hk'. rewrite (proj1 (F i k' H1 ltac:(lia))). now apply H6.
    - intros (H1 & H2 & H3 & H4 & H5). split; auto. split; auto. split; auto. intros r Hr. apply FV; [lia|]. apply H3; lia.
    - intros (H1 & H2 & H3 & H4). split; auto. split; auto. split; auto. intros r Hr. apply FV; [lia|]. apply H3; lia.
    - intros (H1 & H2 & H3 & H4 & H5 & H6). split; auto. split; auto. split. { intros r Hr. apply FV; [lia|]. apply H3; lia. }
      split; auto. split; auto. intros k' Hk'. rewrite (proj2 (F i k' H1 ltac:(lia))). now apply H6.
    - intros (H1 & H2). split; auto.
  Qed.

  (** Steps in the three stages.  Every step succeeds and keeps the invariant. *)
  Lemma stepA : forall u c th, stA c -> nth_error (sc_th c) u = Some th ->
    wp (sstep u th c) (fun r => let '(th', rs, ci, vs) := r in sinv (mkSC (upd (sc_th c) u th') rs ci vs)).
  Proof.
    intros u c th (CM & R0 & E1 & E2 & HT) Eu. pose proof CM as [CL CB CR].
    assert (Hu : u < nth) by (rewrite <- CL; apply nth_error_Some; congruence).
    pose proof (CB _ _ Eu) as (B1 & B2 & B3 & B4). pose proof (HT _ _ Eu) as Ht. destruct (lo_hi u Hu) as (LH1 & LH2).
    destruct c as [ths rs ci vs]. cbn [sc_th sc_rs sc_ci sc_vs] in *. subst ci vs. unfold tA in Ht. unfold MtSchurModel.sstep.
    destruct (th_pc th) as [i| |i| |i|i k|i k|i|i k|] eqn:Epc; try contradiction.
    - destruct Ht as (Hi & Hr). rewrite B2. destruct (Nat.ltb_spec i (hi_ u)) as [C|C].
      + wpb. eapply wp_conseq; [apply pat_l; [lia|exact B3]|]. intros b (Ib & _ & Cb). wpb. apply wp_set; [lia|]. apply wp_ok. left.
        split; [apply (common_upd (mkSC ths rs [] [])); auto; [split; auto|rewrite upd_length; auto]|].
        cbn [sc_th sc_rs sc_ci sc_vs]. split; [rewrite nth_upd by lia; cbn; auto|]. split; auto. split; auto.
        intros v th2 E. apply upd_error in E; [|lia]. destruct E as [(-> & ->)|(NE & E)].
        * unfold tA. cbn [th_pc]. split; [lia|]. intros r Hr'. rewrite nth_upd by lia. destruct (Nat.eqb_spec (S r) (S i)) as [X|X].
          { replace r with i by lia. auto. } apply Hr. lia.
        * pose proof (HT _ _ E) as X. assert (Hv : v < nth) by (rewrite <- CL; apply nth_error_Some; congruence).
          pose proof (own u v i Hu Hv ltac:(auto) ltac:(lia)) as OW. destruct (lo_hi v Hv). unfold tA in *.
          destruct (th_pc th2) as [i2| |?| |?|? ?|? ?|?|? ?|]; auto.
          -- destruct X as (X1 & X2). split; auto. intros r Hr'. rewrite nth_upd by lia. destruct (Nat.eqb_spec (S r) (S i)); [exfalso; apply OW; lia|]. now apply X2.
          -- intros r Hr'. rewrite nth_upd by lia. destruct (Nat.eqb_spec (S r) (S i)); [exfalso; apply OW; lia|]. now apply X.
      + apply wp_ok. left. split; [apply (common_upd (mkSC ths rs [] [])); auto; split; auto|].
        cbn [sc_th sc_rs sc_ci sc_vs]. split; auto. split; auto. split; auto.
        intros v th2 E. apply upd_error in E; [|lia]. destruct E as [(-> & ->)|(NE & E)]; [|now apply HT].
        unfold tA, at_pc. cbn [th_pc]. intros r Hr'. apply Hr. lia.
    - destruct (forallb past1 ths) eqn:FB.
      + apply wp_ok. right. left. rewrite forallb_forall in FB.
        assert (ALL : forall v th2, nth_error ths v = Some th2 -> th_pc th2 = SBar1 /\ forall r, lo_ v <= r < hi_ v -> nth_ (S r) rs 0 = rl r).
        { intros v th2 E. pose proof (HT _ _ E) as X. specialize (FB th2 (nth_error_In _ _ E)). unfold past1 in FB. unfold tA in X.
          destruct (th_pc th2); try discriminate; try contradiction. auto. }
        assert (CNT : forall r, r < N -> nth_ (S r) rs 0 = rl r).
        { intros r Hr. destruct (part_cover N nth r Hth Hr) as (v & Hv & Hvr). destruct (nth_error ths v) as [th2|] eqn:E.
          - destruct (ALL v th2 E) as (_ & X). now apply X.
          - apply nth_error_None in E. lia. }
        split; [apply (common_upd (mkSC ths rs [] [])); auto; destruct (u =? 0); split; auto|]. cbn [sc_th sc_rs sc_ci sc_vs]. split; auto.
        intros v th2 E. apply upd_error in E; [|lia]. destruct E as [(-> & ->)|(NE & E)].
        * destruct (Nat.eqb_spec u 0) as [Z|Z]; unfold tB0, tB, at_pc; cbn [th_pc].
          -- split; [lia|]. split; [intros k Hk; replace k with 0 by lia; exact R0|]. split; auto. intros r Hr'. apply CNT; lia.
          -- exact I.
        * destruct (ALL v th2 E) as (X & _). unfold tB0, tB. rewrite X. destruct (v =? 0); auto.
      + apply wp_ok. left. split; [apply (common_upd (mkSC ths rs [] [])); auto; split; auto|].
        cbn [sc_th sc_rs sc_ci sc_vs]. split; auto. split; auto. split; auto.
        intros v th2 E. apply upd_error in E; [|lia]. destruct E as [(-> & ->)|(NE & E)]; now apply HT.
  Qed.

  Lemma stepB : forall u c th, stB c -> nth_error (sc_th c) u = Some th ->
    wp (sstep u th c) (fun r => let '(th', rs, ci, vs) := r in sinv (mkSC (upd (sc_th c) u th') rs ci vs)).
  Proof.
    intros u c th (CM & R0 & HT) Eu. pose proof CM as [CL CB CR].
    assert (Hu : u < nth) by (rewrite <- CL; apply nth_error_Some; congruence).
    pose proof (CB _ _ Eu) as (B1 & B2 & B3 & B4). pose proof (HT _ _ Eu) as Ht. destruct (lo_hi u Hu) as (LH1 & LH2).
    destruct c as [ths rs ci vs]. cbn [sc_th sc_rs sc_ci sc_vs] in *.
    assert (Keep : forall th', base u th' -> (if u =? 0 then tB0 rs ci vs th' else tB th') -> sinv (mkSC (upd ths u th') rs ci vs)).
    { intros th' Hb Hx. right. left. split; [apply (common_upd (mkSC ths rs ci vs)); auto|]. cbn [sc_th sc_rs sc_ci sc_vs]. split; auto.
      intros v th2 E. apply upd_error in E; [|lia]. destruct E as [(-> & ->)|(NE & E)]; auto. now apply HT. }
    unfold MtSchurModel.sstep. rewrite Pn. fold N.
    assert (PC : th_pc th = SBar1 \/ th_pc th = SBar2 \/ (u = 0 /\ exists i, th_pc th = SPrefix i)).
    { destruct (Nat.eqb_spec u 0); unfold tB0, tB in Ht; destruct (th_pc th); try contradiction; eauto. }
    destruct PC as [Epc|[Epc|(-> & i & Epc)]]; rewrite Epc.
    - destruct (forallb past1 ths); apply wp_ok; apply Keep.
      + destruct (u =? 0); split; auto.
      + destruct (Nat.eqb_spec u 0); unfold tB0, tB in *; rewrite Epc in Ht; cbn [at_pc th_pc]; auto.
        split; [lia|]. split; [intros k Hk; replace k with 0 by lia; exact R0|]. destruct Ht as (H1 & H2 & H3). split; auto. intros r Hr. apply H1; lia.
      + split; auto.
      + exact Ht.
    - destruct (forallb past2 ths) eqn:FB.
      + rewrite forallb_forall in FB.
        assert (ALL : forall v th2, nth_error ths v = Some th2 -> th_pc th2 = SBar2).
        { intros v th2 E. pose proof (HT _ _ E) as X. specialize (FB th2 (nth_error_In _ _ E)). unfold past2 in FB. unfold tB0, tB in X.
          destruct (v =? 0); destruct (th_pc th2); try discriminate; try contradiction; auto. }
        destruct (nth_error ths 0) as [th0|] eqn:E0.
        2: { apply nth_error_None in E0. lia. }
        pose proof (HT _ _ E0) as X0. cbn [Nat.eqb] in X0. unfold tB0 in X0. rewrite (ALL _ _ E0) in X0. destruct X0 as (XR & XC & XV).
        wpb. apply wp_get with (d := 0); [lia|]. apply wp_ok. rewrite XR by lia.
        right. right. split; [apply (common_upd (mkSC ths rs ci vs)); auto; destruct (ro N =? 0); split; auto|]. cbn [sc_th sc_rs sc_ci sc_vs].
        split; auto. split; auto. split; auto. intros v th2 E. apply upd_error in E; [|lia]. destruct E as [(-> & ->)|(NE & E)].
        * unfold tC. destruct (Nat.eqb_spec (ro N) 0) as [Z|Z]; cbn [at_pc th_pc].
          -- assert (NK : forall r k, lo_ u <= r < hi_ u -> k < rl r -> False).
             { intros r k Hr Hk. pose proof (ro_fit r k ltac:(lia) Hk). lia. }
             split; intros r Hr k Hk; exfalso; eapply NK; eauto.
          -- rewrite B1. split; [lia|]. split; [lia|]. intros; lia.
        * unfold tC. now rewrite (ALL _ _ E).
      + apply wp_ok. apply Keep; [split; auto|]. exact Ht.
    - cbn [Nat.eqb] in Ht. unfold tB0 in Ht. rewrite Epc in Ht. destruct Ht as (Hi & H1 & H2 & -> & ->).
      destruct (Nat.ltb_spec i N) as [C|C].
      + wpb. apply wp_get with (d := 0); [lia|]. wpb. apply wp_get with (d := 0); [lia|]. wpb. apply wp_set; [lia|]. apply wp_ok.
        right. left. split; [apply (common_upd (mkSC ths rs [] [])); auto; [split; auto|rewrite upd_length; auto]|]. cbn [sc_th sc_rs sc_ci sc_vs].
        split; [rewrite nth_upd by lia; cbn; auto|]. intros v th2 E. apply upd_error in E; [|lia]. destruct E as [(-> & ->)|(NE & E)].
        * cbn [Nat.eqb]. unfold tB0. cbn [at_pc th_pc]. split; [lia|]. split; [|split; auto].
          -- intros k Hk. rewrite nth_upd by lia. destruct (Nat.eqb_spec k (S i)) as [->|]; [|apply H1; lia]. rewrite (H1 i), (H2 i) by lia. rewrite ro_S. lia.
          -- intros r Hr. rewrite nth_upd by lia. destruct (Nat.eqb_spec (S r) (S i)); [lia|]. apply H2; lia.
        * pose proof (HT _ _ E) as X. destruct (Nat.eqb_spec v 0); [congruence|]. exact X.
      + assert (i = N) by lia. subst i. wpb. apply wp_get with (d := 0); [lia|]. rewrite H1 by lia.
        assert (Fin : forall ci vs, length ci = ro N -> length vs = ro N -> sinv (mkSC (upd ths 0 (at_pc th SBar2)) rs ci vs)).
        { intros ci vs Lc Lv. right. left. split; [apply (common_upd (mkSC ths rs [] [])); auto; split; auto|]. cbn [sc_th sc_rs sc_ci sc_vs]. split; auto.
          intros v th2 E. apply upd_error in E; [|lia]. destruct E as [(-> & ->)|(NE & E)].
          - cbn [Nat.eqb]. unfold tB0. cbn [at_pc th_pc]. auto.
          - pose proof (HT _ _ E) as X. destruct (Nat.eqb_spec v 0); [congruence|]. exact X. }
        destruct (Nat.eqb_spec (ro N) 0) as [Z|Z]; apply wp_ok; apply Fin; rewrite ?repeat_length; auto.
  Qed.

  Lemma stepC : forall u c th, stC c -> nth_error (sc_th c) u = Some th ->
    wp (sstep u th c) (fun r => let '(th', rs, ci, vs) := r in sinv (mkSC (upd (sc_th c) u th') rs ci vs)).
  Proof.
    intros u c th (CM & HR & Lc & Lv & HT) Eu. pose proof CM as [CL CB CR].
    assert (Hu : u < nth) by (rewrite <- CL; apply nth_error_Some; congruence).
    pose proof (CB _ _ Eu) as (B1 & B2 & B3 & B4). pose proof (HT _ _ Eu) as Ht. destruct (lo_hi u Hu) as (LH1 & LH2).
    destruct c as [ths rs ci vs]. cbn [sc_th sc_rs sc_ci sc_vs] in *.
    assert (Keep : forall th' ci' vs', base u th' -> length ci' = ro N -> length vs' = ro N -> tC u ci' vs' th' ->
      (forall v r k, v < nth -> v <> u -> lo_ v <= r < hi_ v -> k < rl r -> nth_ (ro r + k) ci' 0 = nth_ (ro r + k) ci 0 /\ nth_ (ro r + k) vs' (t0 O) = nth_ (ro r + k) vs (t0 O)) ->
      sinv (mkSC (upd ths u th') rs ci' vs')).
    { intros th' ci' vs' Hb L1 L2 Hx Fr. right. right. split; [apply (common_upd (mkSC ths rs ci vs)); auto|]. cbn [sc_th sc_rs sc_ci sc_vs].
      split; auto. split; auto. split; auto. intros v th2 E. apply upd_error in E; [|lia]. destruct E as [(-> & ->)|(NE & E)]; auto.
      assert (Hv : v < nth) by (rewrite <- CL; apply nth_error_Some; congruence).
      apply (tC_frame v ci vs); [|now apply HT]. intros r k Hr Hk. now apply (Fr v). }
    assert (Keep0 : forall th', base u th' -> tC u ci vs th' -> sinv (mkSC (upd ths u th') rs ci vs)).
    { intros th' Hb Hx. apply Keep; auto. }
    assert (Other : forall v r k i k0, v < nth -> v <> u -> lo_ v <= r < hi_ v -> k < rl r -> lo_ u <= i < hi_ u -> k0 < rl i -> ro r + k <> ro i + k0).
    { intros v r k i k0 Hv NE Hr Hk Hi Hk0 E. destruct (ro_inj r k i k0 Hk Hk0 E) as (-> & _). apply (own v u i Hv Hu NE); auto. }
    unfold MtSchurModel.sstep. rewrite Pn. fold N. unfold tC in Ht.
    destruct (th_pc th) as [i| |i| |i|i k|i k|i|i k|] eqn:Epc; try contradiction.
    - (* SBar2 *)
      destruct (forallb past2 ths) eqn:FB.
      + wpb. apply wp_get with (d := 0); [lia|]. apply wp_ok. rewrite HR by lia. apply Keep0; [destruct (ro N =? 0); split; auto|].
        unfold tC. destruct (Nat.eqb_spec (ro N) 0) as [Z|Z]; cbn [at_pc th_pc].
        * assert (NK : forall r k, lo_ u <= r < hi_ u -> k < rl r -> False).
          { intros r k Hr Hk. pose proof (ro_fit r k ltac:(lia) Hk). lia. }
          split; intros r Hr k Hk; exfalso; eapply NK; eauto.
        * rewrite B1. split; [lia|]. split; [lia|]. intros; lia.
      + apply wp_ok. apply Keep0; [split; auto|]. unfold tC. now rewrite Epc.
    - (* SPat *)
      destruct Ht as (HZ & Hi & Hc). rewrite B2. destruct (Nat.ltb_spec i (hi_ u)) as [C|C].
      + wpb. eapply wp_conseq; [apply pat_l; [lia|exact B3]|]. intros b ((Ib1 & Ib2) & Hb & Cb). wpb. eapply wp_conseq; [apply (sort_l N); exact Ib1|].
        intros b' (Ib' & _ & Et & Hb'). apply wp_ok. apply Keep0.
        * split; [cbn; auto|]. split; [cbn; auto|]. cbn [th_tag th_buf th_bv]. split; auto. split; auto. intros j k Hj E. unfold tg in *. rewrite Et in E. now apply (Ib2 j).
        * unfold tC. cbn [th_pc th_buf]. split; auto. split; [lia|]. split; auto.
          assert (HH : held b' = ridx i) by (rewrite Hb', Hb; reflexivity). split; auto. split.
          { assert (X : length (held b') = rl i) by now rewrite HH. unfold held in X. rewrite firstn_length in X. destruct Ib'. lia. }
          split; [lia|]. intros; lia.
      + apply wp_ok. apply Keep0; [split; auto|]. unfold tC, at_pc. cbn [th_pc]. rewrite B1. split; [lia|].
        split; [intros r Hr; apply Hc; lia|]. split; [intros; lia|]. split; [|auto]. intros _. split; [lia|]. intros; lia.
    - (* SCopy *)
      destruct Ht as (HZ & Hi & Hc & Hh & Hn & Hk & Hk'). rewrite Hn. destruct (Nat.ltb_spec k (rl i)) as [C|C].
      + pose proof (ro_fit i k ltac:(lia) C) as FT. assert (LI : k < length (sv_inds (th_buf th))).
        { destruct B3 as ([] & _). lia. }
        wpb. apply wp_get with (d := 0); [lia|]. wpb. apply wp_get with (d := 0); [lia|]. rewrite HR by lia. wpb. apply wp_set; [lia|]. apply wp_ok.
        assert (EJ : nth_ k (sv_inds (th_buf th)) 0 = nth_ k (ridx i) 0).
        { rewrite <- Hh. unfold held. rewrite nth_firstn_lt by lia. reflexivity. }
        apply Keep; auto; [split; auto|now rewrite upd_length| |].
        * unfold tC, at_pc. cbn [th_pc th_buf]. split; auto. split; auto. split.
          { intros r Hr k2 Hk2. rewrite nth_upd by lia. destruct (Nat.eqb_spec (ro r + k2) (ro i + k)) as [E|]; [|now apply Hc].
            destruct (ro_inj r k2 i k Hk2 C E). lia. }
          split; auto. split; auto. split; [lia|]. intros k2 Hk2. rewrite nth_upd by lia. destruct (Nat.eqb_spec (ro i + k2) (ro i + k)) as [E|E].
          { replace k2 with k by lia. exact EJ. } apply Hk'. lia.
        * intros v r k2 Hv NE Hr Hk2. split; auto. rewrite nth_upd by lia. destruct (Nat.eqb_spec (ro r + k2) (ro i + k)) as [E|]; auto.
          exfalso. eapply (Other v r k2 i k); eauto.
      + apply wp_ok. apply Keep0; [split; auto|]. unfold tC, at_pc. cbn [th_pc]. split; auto. split; [lia|]. intros r Hr.
        destruct (Nat.eq_dec r i) as [->|]; [|apply Hc; lia]. intros k2 Hk2. apply Hk'. lia.
    - (* SZero *)
      destruct Ht as (Hi & Hc & Hv & Hz & Hz0). rewrite B2. destruct (Nat.ltb_spec i (hi_ u)) as [C|C].
      + destruct (Hz C) as (Hk & Hb). wpb. apply wp_get with (d := 0); [lia|]. wpb. apply wp_get with (d := 0); [lia|]. rewrite !HR by lia. rewrite ro_S.
        destruct (Nat.ltb_spec (ro i + rl i) (ro i)); [lia|]. destruct (Nat.ltb_spec (ro i + k) (ro i + rl i)) as [C2|C2].
        * pose proof (ro_fit i k ltac:(lia) ltac:(lia)) as FT. wpb. apply wp_get with (d := 0); [lia|]. rewrite (Hc i ltac:(lia) k ltac:(lia)).
          pose proof (ridx_lt i k ltac:(lia) ltac:(lia)) as RK. wpb. apply wp_set; [lia|]. apply wp_ok. apply Keep0.
          -- split; [cbn; auto|]. split; [cbn; auto|]. split; auto. cbn [th_bv]. now rewrite upd_length.
          -- unfold tC. cbn [th_pc th_bv]. split; [lia|]. split; auto. split; auto. split; [|lia]. intros _. split; [lia|].
             intros k2 Hk2. rewrite nth_upd by lia. destruct (Nat.eqb_spec (nth_ k2 (ridx i) 0) (nth_ k (ridx i) 0)); auto. apply Hb.
             destruct (Nat.eq_dec k2 k) as [->|]; [congruence|lia].
        * apply wp_ok. apply Keep0; [split; auto|]. unfold tC, at_pc. cbn [th_pc th_bv]. split; [lia|]. split; auto. split; auto.
          intros j Hj. apply (In_nth _ _ 0) in Hj. destruct Hj as (k2 & Hk2 & <-). fold (rl i) in Hk2. apply Hb. lia.
      + apply wp_ok. apply Keep0; [split; auto|]. unfold tC, at_pc. cbn [th_pc]. split; auto. intros r Hr. apply Hv. lia.
    - (* SFill *)
      destruct Ht as (Hi & Hc & Hv & Hb). wpb. eapply wp_conseq.
      { apply (fill_l n m s t d A p q qinv L_E U_F V Pn Sn Ls Lt Hm Pp Iq WL PL SL WU PU SU Ld i (ridx i)); [fold N; lia| | |fold N; lia|exact Hb].
        - intros j Hj. apply (In_nth _ _ 0) in Hj. destruct Hj as (k2 & Hk2 & <-). apply ridx_lt; [lia|exact Hk2].
        - intros j Hj. now apply ridx_in. }
      intros bv' (Lb & Hb'). apply wp_ok. apply Keep0.
      + split; [cbn; auto|]. split; [cbn; auto|]. split; auto. cbn [th_bv]. lia.
      + unfold tC. cbn [th_pc th_bv]. split; auto. split; auto. split; auto. split; auto. split; [lia|]. intros; lia.
    - (* SOut *)
      destruct Ht as (Hi & Hc & Hv & Hb & Hk & Hk'). wpb. apply wp_get with (d := 0); [lia|]. wpb. apply wp_get with (d := 0); [lia|]. rewrite !HR by lia. rewrite ro_S.
      destruct (Nat.ltb_spec (ro i + k) (ro i + rl i)) as [C2|C2].
      + pose proof (ro_fit i k ltac:(lia) ltac:(lia)) as FT. wpb. apply wp_get with (d := 0); [lia|]. rewrite (Hc i ltac:(lia) k ltac:(lia)).
        pose proof (ridx_lt i k ltac:(lia) ltac:(lia)) as RK. wpb. apply wp_get with (d := t0 O); [lia|]. wpb. apply wp_set; [lia|]. apply wp_ok.
        apply Keep; auto; [split; auto|now rewrite upd_length| |].
        * unfold tC, at_pc. cbn [th_pc th_bv]. split; auto. split; auto. split.
          { intros r Hr k2 Hk2. rewrite nth_upd by lia. destruct (Nat.eqb_spec (ro r + k2) (ro i + k)) as [E|]; [|now apply Hv].
            destruct (ro_inj r k2 i k Hk2 ltac:(lia) E). lia. }
          split; auto. split; [lia|]. intros k2 Hk2. rewrite nth_upd by lia. destruct (Nat.eqb_spec (ro i + k2) (ro i + k)) as [E|E].
          { replace k2 with k by lia. apply Hb. apply nth_In. fold (rl i). lia. } apply Hk'. lia.
        * intros v r k2 Hv' NE Hr Hk2. split; auto. rewrite nth_upd by lia. destruct (Nat.eqb_spec (ro r + k2) (ro i + k)) as [E|]; auto.
          exfalso. eapply (Other v r k2 i k); eauto. lia.
      + apply wp_ok. apply Keep0; [split; auto|]. unfold tC, at_pc. cbn [th_pc th_bv]. split; [lia|]. split; auto. split; [|split; [|auto]].
        * intros r Hr. destruct (Nat.eq_dec r i) as [->|]; [|apply Hv; lia]. intros k2 Hk2. apply Hk'. lia.
        * intros _. split; [lia|]. intros; lia.
    - (* SFin *)
      apply wp_ok. apply Keep0; [split; auto|]. unfold tC. now rewrite Epc.
  Qed.

  Notation sstep_conf := (sstep_conf s t d A p qinv m L_E U_F ji jv).
  Notation srun := (srun s t d A p qinv m L_E U_F ji jv).

  Lemma step_inv : forall u c, sinv c -> wp (sstep_conf u c) sinv.
  Proof.
    intros u c Hc. unfold MtSchurModel.sstep_conf. destruct (nth_error (sc_th c) u) as [th|] eqn:E; [|now apply wp_ok].
    wpb. eapply wp_conseq; [destruct Hc as [H|[H|H]]; [apply (stepA u c th H E)|apply (stepB u c th H E)|apply (stepC u c th H E)]|].
    intros [[[th' rs] ci] vs] X. now apply wp_ok.
  Qed.
  Lemma run_inv : forall sched c, sinv c -> wp (srun sched c) sinv.
  Proof.
    intros sched c Hc. unfold MtSchurModel.srun. apply (for_list_inv _ _ (fun _ => sinv)); auto. intros pre u post c' _ H. now apply step_inv.
  Qed.

  Lemma init_inv : forall jbv jbi, length jbv = N -> length jbi = N ->
    wp (sinit (O:=O) A m ji nth jbv jbi) sinv.
  Proof.
    intros jbv jbi L1 L2. unfold sinit. rewrite Pn. fold N. wpb. apply wp_set; [rewrite repeat_length; lia|]. apply wp_ok.
    assert (X : forall u th, nth_error (map (fun u => let '(lo, hi) := uniform_partition N nth u in
         mkTh lo hi (SCount lo) n (sv_new (O:=O) N jbv jbi) jbv) (seq 0 nth)) u = Some th ->
         u < nth /\ th = mkTh (lo_ u) (hi_ u) (SCount (lo_ u)) n (sv_new (O:=O) N jbv jbi) jbv).
    { intros u th E. assert (Hu : u < nth). { assert (Y : u < length (seq 0 nth)). { rewrite <- (map_length (fun u => let '(lo, hi) := uniform_partition N nth u in
         mkTh lo hi (SCount lo) n (sv_new (O:=O) N jbv jbi) jbv)). apply nth_error_Some. congruence. } now rewrite seq_length in Y. }
      split; auto. rewrite nth_error_map in E. rewrite (nth_error_nth' _ 0) in E by (now rewrite seq_length). rewrite seq_nth in E by auto. cbn [option_map] in E.
      rewrite Nat.add_0_l in E. unfold lo_, hi_, pstart, pend. destruct (uniform_partition N nth u) as [lo hi]. cbn [fst snd]. congruence. }
    left. split; [split|].
    - cbn [sc_th]. now rewrite map_length, seq_length.
    - cbn [sc_th]. intros u th E. apply X in E. destruct E as (Hu & ->). split; [auto|]. split; [auto|]. cbn [th_tag th_buf th_bv]. split; auto. split.
      + constructor; cbn [sv_new sv_vals sv_inds sv_cnt sv_dtags sv_stags]; rewrite ?repeat_length; auto; try lia; try (constructor; fail).
        all: try (intros i []).
      + intros i k Hi E. unfold tg in E. cbn [sv_new sv_dtags] in E. rewrite nth_repeat in E. discriminate.
    - cbn [sc_rs]. now rewrite upd_length, repeat_length.
    - cbn [sc_rs sc_ci sc_vs sc_th]. split; [rewrite nth_upd_eq by (rewrite repeat_length; lia); auto|]. split; auto. split; auto.
      intros u th E. apply X in E. destruct E as (Hu & ->). unfold tA. cbn [th_pc]. destruct (lo_hi u Hu). split; [lia|]. intros; lia.
  Qed.

  Lemma done_result : forall c, sinv c -> sdone c -> sresult A m c = canon O N N srow.
  Proof.
    intros c Hc Hd. destruct Hc as [H|[H|H]].
    - exfalso. destruct H as ([CL _ _] & _ & _ & _ & HT). destruct (nth_error (sc_th c) 0) as [th|] eqn:E; [|apply nth_error_None in E; lia].
      specialize (HT _ _ E). unfold tA in HT. rewrite (Hd th (nth_error_In _ _ E)) in HT. exact HT.
    - exfalso. destruct H as ([CL _ _] & _ & HT). destruct (nth_error (sc_th c) 0) as [th|] eqn:E; [|apply nth_error_None in E; lia].
      specialize (HT _ _ E). cbn [Nat.eqb] in HT. unfold tB0 in HT. rewrite (Hd th (nth_error_In _ _ E)) in HT. exact HT.
    - destruct H as ([CL _ CR] & HR & Lc & Lv & HT).
      assert (ALL : forall r, r < N -> ciok (sc_ci c) r /\ vsok (sc_vs c) r).
      { intros r Hr. destruct (part_cover N nth r Hth Hr) as (v & Hv & Hvr). destruct (nth_error (sc_th c) v) as [th|] eqn:E; [|apply nth_error_None in E; lia].
        specialize (HT _ _ E). unfold tC in HT. rewrite (Hd th (nth_error_In _ _ E)) in HT. destruct HT as (H1 & H2). split; [now apply H1|now apply H2]. }
      unfold sresult, canon. rewrite Pn. fold N. f_equal.
      + apply (list_ext _ _ _ 0). { unfold offs. rewrite map_length, seq_length. auto. } intros k Hk. rewrite offs_nth by lia. apply HR. lia.
      + apply (list_ext _ _ _ 0). { rewrite map_length. exact Lc. }
        intros k Hk. assert (LOC : forall M, M <= N -> k < ro M -> exists r k', r < M /\ k' < rl r /\ k = ro r + k').
        { induction M; intros HM Hk'; [unfold ro in Hk'; cbn in Hk'; lia|]. rewrite ro_S in Hk'. destruct (Nat.lt_ge_cases k (ro M)) as [C|C].
          - destruct (IHM ltac:(lia) C) as (r & k' & ? & ? & ?). exists r, k'. split; [lia|auto].
          - exists M, (k - ro M). split; [lia|]. split; lia. }
        destruct (LOC N ltac:(lia) ltac:(lia)) as (r & k' & Hr & Hk' & ->). destruct (ALL r Hr) as (X & _). rewrite (X k' Hk').
        pose proof (flat_split n m s t d A p qinv L_E U_F Pn Sn Ls Lt Hm PL SL PU SU Ld r Hr) as FS; fold N in FS; rewrite FS; clear FS. rewrite !map_app, app_nth2 by (rewrite map_length; change (length (flat O srow r)) with (ro r); lia).
        rewrite map_length. change (length (flat O srow r)) with (ro r). replace (ro r + k' - ro r) with k' by lia.
        rewrite app_nth1 by (rewrite srow_fst; exact Hk'). now rewrite srow_fst.
      + apply (list_ext _ _ _ (t0 O)). { rewrite map_length. exact Lv. }
        intros k Hk. assert (LOC : forall M, M <= N -> k < ro M -> exists r k', r < M /\ k' < rl r /\ k = ro r + k').
        { induction M; intros HM Hk'; [unfold ro in Hk'; cbn in Hk'; lia|]. rewrite ro_S in Hk'. destruct (Nat.lt_ge_cases k (ro M)) as [C|C].
          - destruct (IHM ltac:(lia) C) as (r & k' & ? & ? & ?). exists r, k'. split; [lia|auto].
          - exists M, (k - ro M). split; [lia|]. split; lia. }
        destruct (LOC N ltac:(lia) ltac:(lia)) as (r & k' & Hr & Hk' & ->). destruct (ALL r Hr) as (_ & X). rewrite (X k' Hk').
        pose proof (flat_split n m s t d A p qinv L_E U_F Pn Sn Ls Lt Hm PL SL PU SU Ld r Hr) as FS; fold N in FS; rewrite FS; clear FS. rewrite !map_app, app_nth2 by (rewrite map_length; change (length (flat O srow r)) with (ro r); lia).
        rewrite map_length. change (length (flat O srow r)) with (ro r). replace (ro r + k' - ro r) with k' by lia.
        assert (SM : map snd (srow r) = map (sexact r) (ridx r)) by (unfold SchurProofs2.srow; rewrite map_map; reflexivity).
        rewrite SM. rewrite app_nth1 by (rewrite map_length; exact Hk').
        rewrite nth_indep with (d' := sexact r 0) by (rewrite map_length; exact Hk'). now rewrite map_nth.
  Qed.

  (** ** Termination: no schedule that keeps serving every thread hangs. *)
  Let X := 2 * N + 4.
  Let C3 := 2 + N * X.
  Let C2 := C3 + 2 + N * (N + 2).
  Definition pot (th : sth) : nat :=
    let h := th_hi th in
    match th_pc th with
    | SFin => 0
    | SZero i k => 1 + (h - i) * X - k
    | SFill i => 1 + (h - i) * X - (N + 1)
    | SOut i k => 1 + (h - i) * X - (N + 2) - k
    | SPat i => C3 + 1 + (h - i) * (N + 2)
    | SCopy i k => C3 + 1 + (h - i) * (N + 2) - 1 - k
    | SBar2 => C2 + 1
    | SPrefix i => C2 + 2 + (N - i)
    | SBar1 => C2 + 4 + N
    | SCount i => C2 + 5 + N + (h - i)
    end.
  Definition mu (c : sconf) : nat := list_sum (map pot (sc_th c)).

  Definition pcok (th : sth) : Prop :=
    th_lo th <= th_hi th /\ th_hi th <= N /\
    match th_pc th with
    | SCopy i k => i < th_hi th /\ k <= N
    | SZero i k => (i < th_hi th -> k <= N) /\ (th_hi th <= i -> k = 0)
    | SFill i => i < th_hi th
    | SOut i k => i < th_hi th /\ k <= N
    | _ => True
    end.
  Lemma inv_pcok : forall u c th, sinv c -> nth_error (sc_th c) u = Some th -> pcok th.
  Proof.
    intros u c th Hc E.
    assert (CM : common c) by (destruct Hc as [H|[H|H]]; apply H). destruct CM as [CL CB _].
    assert (Hu : u < nth) by (rewrite <- CL; apply nth_error_Some; congruence).
    pose proof (CB _ _ E) as (B1 & B2 & _). destruct (lo_hi u Hu) as (H1 & H2). unfold pcok. rewrite B1, B2. split; auto. split; auto.
    destruct Hc as [H|[H|H]].
    - destruct H as (_ & _ & _ & _ & HT). specialize (HT _ _ E). unfold tA in HT. destruct (th_pc th); auto; contradiction.
    - destruct H as (_ & _ & HT). specialize (HT _ _ E). unfold tB0, tB in HT. destruct (u =? 0); destruct (th_pc th); auto; contradiction.
    - destruct H as (_ & _ & _ & _ & HT). specialize (HT _ _ E). unfold tC in HT. destruct (th_pc th) as [i| |i| |i|i k|i k|i|i k|]; auto.
      + destruct HT as (_ & Hi & _ & _ & _ & Hk & _). pose proof (rl_le i ltac:(lia)). lia.
      + destruct HT as (Hi & _ & _ & Hk & Hz). split; [|intros; apply Hz; lia]. intros C. destruct (Hk C) as (Hk' & _). pose proof (rl_le i ltac:(lia)). lia.
      + lia.
      + destruct HT as (Hi & _ & _ & _ & Hk & _). pose proof (rl_le i ltac:(lia)). lia.
  Qed.

  Definition waits (th : sth) (c : sconf) : Prop :=
    (th_pc th = SBar1 /\ forallb past1 (sc_th c) = false) \/ (th_pc th = SBar2 /\ forallb past2 (sc_th c) = false) \/ th_pc th = SFin.
  Ltac gl := repeat match goal with |- context [?a * ?b] => generalize dependent (a * b); intro; intros end; try generalize C2; try generalize C3; intros; lia.
  Lemma step_pot : forall u th c th' rs ci vs, pcok th -> sstep u th c = Ok (th', rs, ci, vs) ->
    (waits th c /\ th' = th /\ rs = sc_rs c /\ ci = sc_ci c /\ vs = sc_vs c) \/ pot th' < pot th.
  Proof.
    intros u th c th' rs ci vs (K1 & K2 & K3) E. destruct c as [ths rs0 ci0 vs0]. unfold MtSchurModel.sstep in E.
    rewrite Pn in E. fold N in E. unfold waits. cbn [sc_th sc_rs sc_ci sc_vs].
    assert (MX : forall i, i < th_hi th -> (th_hi th - i) * X = X + (th_hi th - S i) * X).
    { intros i Hi. replace (th_hi th - i) with (S (th_hi th - S i)) by lia. reflexivity. }
    assert (MN : forall i, i < th_hi th -> (th_hi th - i) * (N + 2) = (N + 2) + (th_hi th - S i) * (N + 2)).
    { intros i Hi. replace (th_hi th - i) with (S (th_hi th - S i)) by lia. reflexivity. }
    assert (HX : (th_hi th - th_lo th) * X <= N * X) by (apply Nat.mul_le_mono_r; lia).
    assert (HN : (th_hi th - th_lo th) * (N + 2) <= N * (N + 2)) by (apply Nat.mul_le_mono_r; lia).
    destruct (th_pc th) as [i| |i| |i|i k|i k|i|i k|] eqn:Epc.
    - right. unfold pot. rewrite Epc. destruct (Nat.ltb_spec i (th_hi th)).
      + apply bind_ok in E. destruct E as (b & _ & E). apply bind_ok in E. destruct E as (r' & _ & E). injection E as <- _ _ _. cbn [th_pc th_hi]. gl.
      + injection E as <- _ _ _. cbn [at_pc th_pc th_hi]. gl.
    - destruct (forallb past1 ths) eqn:FB.
      + right. injection E as <- _ _ _. unfold pot. rewrite Epc. cbn [at_pc th_pc th_hi]. destruct (u =? 0); gl.
      + left. injection E as <- <- <- <-. auto 6.
    - right. unfold pot. rewrite Epc. destruct (Nat.ltb_spec i N).
      + apply bind_ok in E. destruct E as (a & _ & E). apply bind_ok in E. destruct E as (b & _ & E). apply bind_ok in E. destruct E as (r' & _ & E).
        injection E as <- _ _ _. cbn [at_pc th_pc th_hi]. gl.
      + apply bind_ok in E. destruct E as (z & _ & E). destruct (z =? 0); injection E as <- _ _ _; cbn [at_pc th_pc th_hi]; gl.
    - destruct (forallb past2 ths) eqn:FB.
      + right. apply bind_ok in E. destruct E as (z & _ & E). injection E as <- _ _ _. unfold pot. rewrite Epc. cbn [at_pc th_pc th_hi].
        destruct (z =? 0); unfold C2; gl.
      + left. injection E as <- <- <- <-. auto 6.
    - right. unfold pot. rewrite Epc. destruct (Nat.ltb_spec i (th_hi th)) as [C|C].
      + apply bind_ok in E. destruct E as (b & _ & E). apply bind_ok in E. destruct E as (b' & _ & E). injection E as <- _ _ _. cbn [th_pc th_hi].
        rewrite (MN i C). gl.
      + injection E as <- _ _ _. cbn [at_pc th_pc th_hi]. unfold C3. gl.
    - right. destruct K3 as (K3 & K4). unfold pot. rewrite Epc. rewrite (MN i K3). destruct (k <? sv_cnt (th_buf th)).
      + apply bind_ok in E. destruct E as (b & _ & E). apply bind_ok in E. destruct E as (j & _ & E). apply bind_ok in E. destruct E as (c' & _ & E).
        injection E as <- _ _ _. cbn [at_pc th_pc th_hi]. rewrite (MN i K3). gl.
      + injection E as <- _ _ _. cbn [at_pc th_pc th_hi]. gl.
    - right. unfold pot. rewrite Epc. destruct (Nat.ltb_spec i (th_hi th)) as [C|C].
      + destruct K3 as (K3 & _). specialize (K3 C). rewrite (MX i C). assert (N < X) by (unfold X; lia).
        apply bind_ok in E. destruct E as (b & _ & E). apply bind_ok in E. destruct E as (e & _ & E). destruct (e <? b); [discriminate|].
        destruct (b + k <? e).
        * apply bind_ok in E. destruct E as (j & _ & E). apply bind_ok in E. destruct E as (bv & _ & E). injection E as <- _ _ _. cbn [th_pc th_hi].
          rewrite (MX i C). gl.
        * injection E as <- _ _ _. cbn [at_pc th_pc th_hi]. rewrite (MX i C). gl.
      + injection E as <- _ _ _. cbn [at_pc th_pc th_hi]. replace (th_hi th - i) with 0 by gl.
        destruct K3 as (_ & K3). rewrite (K3 C). gl.
    - right. unfold pot. rewrite Epc. apply bind_ok in E. destruct E as (bv & _ & E). injection E as <- _ _ _. cbn [th_pc th_hi].
      rewrite (MX i K3). generalize ((th_hi th - S i) * X); intros; unfold X; lia.
    - right. destruct K3 as (K3 & K4). unfold pot. rewrite Epc. rewrite (MX i K3).
      apply bind_ok in E. destruct E as (b & _ & E). apply bind_ok in E. destruct E as (e & _ & E). destruct (b + k <? e).
      + apply bind_ok in E. destruct E as (j & _ & E). apply bind_ok in E. destruct E as (v & _ & E). apply bind_ok in E. destruct E as (vs' & _ & E).
        injection E as <- _ _ _. cbn [at_pc th_pc th_hi]. rewrite (MX i K3). generalize ((th_hi th - S i) * X); intros; unfold X; lia.
      + injection E as <- _ _ _. cbn [at_pc th_pc th_hi]. generalize ((th_hi th - S i) * X); intros; unfold X; lia.
    - left. injection E as <- <- <- <-. auto 6.
  Qed.

  Lemma mu_upd : forall l u (th th' : sth), nth_error l u = Some th -> pot th' < pot th ->
    list_sum (map pot (upd l u th')) < list_sum (map pot l).
  Proof.
    induction l as [|a l IH]; intros u th th' E H; destruct u; cbn [nth_error] in E; try discriminate.
    - injection E as ->. cbn [upd map list_sum fold_right]. apply Nat.add_lt_mono_r. exact H.
    - cbn [upd map list_sum fold_right]. apply Nat.add_lt_mono_l. eapply IH; eauto.
  Qed.
  Lemma upd_same : forall Y (l : list Y) u x, nth_error l u = Some x -> upd l u x = l.
  Proof.
    induction l; intros u x E; destruct u; cbn [nth_error] in E; try discriminate; cbn [upd].
    - now injection E as ->.
    - f_equal. now apply IHl.
  Qed.

  Lemma conf_step : forall u c, sinv c -> exists c', sstep_conf u c = Ok c' /\ sinv c' /\
    ((c' = c /\ forall th, nth_error (sc_th c) u = Some th -> waits th c) \/ mu c' < mu c).
  Proof.
    intros u c Hc. pose proof (step_inv u c Hc) as W. unfold wp in W. destruct (sstep_conf u c) as [c'| |] eqn:E; try contradiction.
    exists c'. split; auto. split; auto. unfold MtSchurModel.sstep_conf in E. destruct (nth_error (sc_th c) u) as [th|] eqn:Eu.
    - apply bind_ok in E. destruct E as ([[[th' rs] ci] vs] & Es & E). injection E as <-.
      destruct (step_pot u th c th' rs ci vs (inv_pcok u c th Hc Eu) Es) as [(W1 & -> & -> & -> & ->)|D].
      + left. rewrite upd_same by auto. split; [now destruct c|]. intros th2 E2. congruence.
      + right. unfold mu. cbn [sc_th]. eapply mu_upd; eauto.
    - left. injection E as <-. split; auto. intros; discriminate.
  Qed.

  Lemma all_wait_done : forall c, (forall u th, nth_error (sc_th c) u = Some th -> waits th c) -> sdone c.
  Proof.
    intros c H. assert (W : forall th, In th (sc_th c) -> waits th c).
    { intros th I. apply In_nth_error in I. destruct I as (u & E). eauto. }
    assert (F1 : forallb past1 (sc_th c) = true).
    { apply forallb_forall. intros th I. unfold past1. destruct (W th I) as [(E & _)|[(E & _)|E]]; now rewrite E. }
    assert (F2 : forallb past2 (sc_th c) = true).
    { apply forallb_forall. intros th I. unfold past2. destruct (W th I) as [(E & F)|[(E & _)|E]]; rewrite E; auto. congruence. }
    intros th I. destruct (W th I) as [(E & F)|[(E & F)|E]]; auto; congruence.
  Qed.

  (** A round that serves every thread either finds everything finished or makes progress. *)
  Lemma round_l : forall r c, sinv c -> exists c', srun r c = Ok c' /\ sinv c' /\
    ((c' = c /\ forall u th, In u r -> nth_error (sc_th c) u = Some th -> waits th c) \/ mu c' < mu c).
  Proof.
    induction r as [|u r IH]; intros c Hc.
    - exists c. split; auto. split; auto. left. split; auto. intros ? ? [].
    - destruct (conf_step u c Hc) as (c1 & E1 & I1 & D1). destruct (IH c1 I1) as (c2 & E2 & I2 & D2). exists c2.
      split. { unfold MtSchurModel.srun in *. cbn [for_list]. rewrite E1. cbn [bind]. exact E2. }
      split; auto. destruct D1 as [(-> & W1)|D1].
      + destruct D2 as [(-> & W2)|D2]; auto. left. split; auto. intros v th [<-|I]; eauto.
      + right. destruct D2 as [(-> & _)|D2]; lia.
  Qed.
  Lemma step_done : forall u c, sdone c -> sstep_conf u c = Ok c.
  Proof.
    intros u [ths rs ci vs] Hd. unfold MtSchurModel.sstep_conf. cbn [sc_th]. destruct (nth_error ths u) as [th|] eqn:Eu; auto.
    unfold MtSchurModel.sstep. rewrite (Hd th (nth_error_In _ _ Eu)). cbn [bind]. now rewrite upd_same.
  Qed.
  Lemma waits_done_run : forall r c, sdone c -> srun r c = Ok c.
  Proof.
    induction r as [|u r IH]; intros c Hd; [reflexivity|]. unfold MtSchurModel.srun in *. cbn [for_list]. rewrite step_done by auto. cbn [bind]. now apply IH.
  Qed.

  Lemma rounds_l : forall rounds c, sinv c -> mu c < length rounds -> (forall r, In r rounds -> forall u, u < nth -> In u r) ->
    exists c', srun (concat rounds) c = Ok c' /\ sinv c' /\ sdone c'.
  Proof.
    induction rounds as [|r rounds IH]; intros c Hc Hm' HR; [cbn [length] in Hm'; lia|].
    destruct (round_l r c Hc) as (c1 & E1 & I1 & D). cbn [concat]. unfold MtSchurModel.srun in *. rewrite for_list_app, E1. cbn [bind].
    destruct D as [(-> & W)|D].
    - assert (Hd : sdone c).
      { apply all_wait_done. intros u th E. apply W with u; auto. apply (HR r); [now left|].
        assert (CM : common c) by (destruct Hc as [H|[H|H]]; apply H). destruct CM as [CL _ _]. rewrite <- CL. apply nth_error_Some. congruence. }
      exists c. split; [now apply waits_done_run|]. auto.
    - apply IH; auto; [cbn [length] in Hm'; lia|]. intros r' I. apply HR. now right.
  Qed.
End P.
