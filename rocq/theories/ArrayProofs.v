(** * Proofs for ArrayModel. *)
From Coq Require Import List Arith Lia Bool.
From Verif Require Import Base ArrayModel ArraySpec.
Import ListNotations.

Lemma nth_error_upd : forall X (l : list X) i j v, i < length l ->
  nth_error (upd l i v) j = if j =? i then Some v else nth_error l j.
Proof.
  induction l; intros i j v H; simpl in H; [lia|]. destruct i, j; simpl; auto. apply IHl; lia.
Qed.
Lemma nth_error_upd_out : forall X (l : list X) i v, length l <= i -> upd l i v = l.
Proof. intros. now apply upd_overflow. Qed.
Lemma get_error : forall X (l : list X) i a, nth_error l i = Some a -> get l i = Ok a.
Proof. intros. unfold get. now rewrite H. Qed.
Lemma nth_error_lt : forall X (l : list X) i a, nth_error l i = Some a -> i < length l.
Proof. intros. apply nth_error_Some. congruence. Qed.
Lemma nth_error_snoc : forall X (l : list X) x i,
  nth_error (l ++ [x]) i = if i =? length l then Some x else nth_error l i.
Proof.
  intros. destruct (Nat.eqb_spec i (length l)).
  - subst. rewrite nth_error_app2, Nat.sub_diag; auto.
  - destruct (Nat.lt_ge_cases i (length l)). now rewrite nth_error_app1.
    rewrite (proj2 (nth_error_None l i)) by lia. apply nth_error_None. rewrite app_length; simpl; lia.
Qed.

(** ** Counting references *)
Definition hask (k : nat) (o : option arr) : nat :=
  match o with
  | Some a => match a_cnt a with Some c => if c =? k then 1 else 0 | None => 0 end
  | None => 0 end.
Definition refs (l : list (option arr)) (k : nat) : nat := list_sum (map (hask k) l).

Lemma refs_upd : forall l s o o' k, nth_error l s = Some o -> refs (upd l s o') k + hask k o = refs l k + hask k o'.
Proof.
  unfold refs. induction l; intros s o o' k H; destruct s; simpl in *; try discriminate.
  - inversion H; subst. lia.
  - specialize (IHl s o o' k H). lia.
Qed.
Lemma refs_pos : forall l s a k, nth_error l s = Some (Some a) -> a_cnt a = Some k -> 0 < refs l k.
Proof.
  unfold refs. induction l; intros s x k H E; destruct s; simpl in *; try discriminate.
  - inversion H; subst. simpl. rewrite E, Nat.eqb_refl. lia.
  - specialize (IHl s x k H E). lia.
Qed.
Lemma refs_ex : forall l k, 0 < refs l k -> exists s a, nth_error l s = Some (Some a) /\ a_cnt a = Some k.
Proof.
  unfold refs. induction l; intros k H; simpl in *; [lia|].
  destruct a as [a|]; simpl in H.
  - destruct (a_cnt a) as [c|] eqn:E; [destruct (Nat.eqb_spec c k)|].
    + subst. exists 0, a. auto.
    + destruct (IHl k H) as (s & b & ? & ?). exists (S s), b. auto.
    + destruct (IHl k H) as (s & b & ? & ?). exists (S s), b. auto.
  - destruct (IHl k H) as (s & b & ? & ?). exists (S s), b. auto.
Qed.
Lemma refs_two : forall l s s' a a' k, s <> s' -> nth_error l s = Some (Some a) -> nth_error l s' = Some (Some a') ->
  a_cnt a = Some k -> a_cnt a' = Some k -> 2 <= refs l k.
Proof.
  intros l s s' a a' k Hn H H' E E'. pose proof (refs_upd l s (Some a) None k H) as R. simpl in R. rewrite E, Nat.eqb_refl in R.
  assert (nth_error (upd l s None) s' = Some (Some a')).
  { rewrite nth_error_upd by (eapply nth_error_lt; eauto). destruct (Nat.eqb_spec s' s); congruence. }
  pose proof (refs_pos _ _ _ _ H0 E'). lia.
Qed.

(** ** Invariant; [pend] is a buffer already allocated for an object under construction. *)
Record Inv (pend : option nat) (h : heap) : Prop := mkInv {
  iv_cnt : forall k r, nth_error (h_ctrs h) k = Some r -> c_alive r = true -> c_n r = refs (h_arrs h) k /\ 0 < c_n r;
  iv_dead : forall k r, nth_error (h_ctrs h) k = Some r -> c_alive r = false -> refs (h_arrs h) k = 0;
  iv_out : forall k, length (h_ctrs h) <= k -> refs (h_arrs h) k = 0;
  iv_own : forall s a, holds h s a -> a_status a = OWN -> exists d c b r,
    a_data a = Some d /\ a_cnt a = Some c /\ nth_error (h_bufs h) d = Some b /\ nth_error (h_ctrs h) c = Some r /\
    a_size a <= a_cap a /\ a_cap a <= b_len b /\ b_alive b = true /\ b_kind b = (if c_invalid r then BExt else BOwned);
  iv_data : forall s a s' a' d, holds h s a -> holds h s' a' -> owns a d -> owns a' d -> a_cnt a = a_cnt a';
  iv_grp : forall s a s' a' c r, holds h s a -> holds h s' a' -> a_cnt a = Some c -> a_cnt a' = Some c ->
    nth_error (h_ctrs h) c = Some r -> (c_invalid r = false -> a_status a = a_status a') /\
    (a_status a = OWN -> a_status a' = OWN -> a_data a = a_data a') /\
    (c_invalid r = true -> a_status a <> WRAP);
  iv_undef : forall s a, holds h s a -> a_status a = UNDEF -> a_data a = None;
  iv_moved : forall s a, holds h s a -> a_cnt a = None -> a_status a = UNDEF;
  iv_leak : forall d b, nth_error (h_bufs h) d = Some b -> b_kind b = BOwned -> b_alive b = true ->
    pend = Some d \/ exists s a, holds h s a /\ owns a d;
  iv_pend : forall d, pend = Some d -> (exists b, nth_error (h_bufs h) d = Some b /\ b_kind b = BOwned /\ b_alive b = true) /\
    forall s a, holds h s a -> ~ owns a d;
  iv_free : forall d b, nth_error (h_bufs h) d = Some b -> b_frees b = (if b_alive b then 0 else 1) /\ (b_kind b = BExt -> b_alive b = true);
  iv_sz : forall s a, holds h s a -> a_size a <= a_cap a
}.

Lemma holds_set : forall h s o s' a, s < length (h_arrs h) -> (holds (set_arr h s o) s' a <-> (s' = s /\ o = Some a) \/ (s' <> s /\ holds h s' a)).
Proof.
  intros h s o s' a H. unfold holds, set_arr; simpl. rewrite nth_error_upd by auto. destruct (Nat.eqb_spec s' s); split; intros K.
  - left. split; auto. congruence.
  - destruct K as [(? & ->)|(? & ?)]; congruence.
  - right. auto.
  - destruct K as [(? & ->)|(? & ?)]; try congruence.
Qed.

Lemma cnt_alive : forall p h s a c, Inv p h -> holds h s a -> a_cnt a = Some c ->
  exists r, nth_error (h_ctrs h) c = Some r /\ c_alive r = true /\ c_n r = refs (h_arrs h) c /\ 0 < c_n r.
Proof.
  intros p h s a c I H E. pose proof (refs_pos _ _ _ _ H E) as R.
  destruct (nth_error (h_ctrs h) c) as [r|] eqn:Er.
  - exists r. split; auto. destruct (c_alive r) eqn:Al.
    + split; auto. destruct I as [I1 I2 I3 I4 I5 I6 I7 I8 I9 I10 I11 I12]. eapply I1; eauto.
    + rewrite (iv_dead _ _ I _ _ Er Al) in R. lia.
  - apply nth_error_None in Er. rewrite (iv_out _ _ I _ Er) in R. lia.
Qed.

(** *** Destroying the object in slot [s]. *)
Lemma dtor_l : forall p h s a, Inv p h -> holds h s a -> exists h', dtor h a = Ok h' /\ h_arrs h' = h_arrs h /\
  length (h_bufs h') = length (h_bufs h) /\ Inv p (set_arr h' s None).
Proof.
  intros p h s a I Ha. pose proof (nth_error_lt _ _ _ _ Ha) as Hs. unfold dtor.
  destruct (a_cnt a) as [c|] eqn:Ec.
  2:{ (* moved-from *) exists h. split; auto. split; auto. split; auto.
      pose proof (iv_moved _ _ I _ _ Ha Ec) as Est.
      destruct I as [I1 I2 I3 I4 I5 I6 I7 I8 I9 I10 I11 I12].
      assert (R : forall k, refs (h_arrs (set_arr h s None)) k = refs (h_arrs h) k).
      { intros k. simpl. pose proof (refs_upd _ _ _ None k Ha) as R. simpl in R. rewrite Ec in R. lia. }
      assert (HH : forall s' a', holds (set_arr h s None) s' a' -> holds h s' a').
      { intros s' a' K. apply holds_set in K; auto. destruct K as [(? & ?)|(? & ?)]; [discriminate|auto]. }
      split; try (intros; rewrite R; eauto); simpl; eauto.
      - intros d b E1 E2 E3. destruct (I9 d b E1 E2 E3) as [?|(s' & a' & K1 & K2)]; auto. right. exists s', a'. split; auto.
        apply holds_set; auto. right. split; auto. intros ->. unfold holds in *. rewrite Ha in K1. inversion K1; subst a'.
        destruct K2. congruence.
      - intros d E. destruct (I10 d E) as (B & K). split; auto. intros s' a' Ha'. apply (K s'); auto. }
  destruct (cnt_alive _ _ _ _ _ I Ha Ec) as (r & Er & Al & En & Ep).
  pose proof (nth_error_lt _ _ _ _ Er) as Hc.
  unfold ctr_dec, live_ctr. rewrite (get_error _ _ _ _ Er). simpl. rewrite Al. simpl.
  destruct (c_n r) as [|m] eqn:Em; [lia|]. simpl.
  assert (G1 : get (upd (h_ctrs h) c (mkCtr m (c_invalid r) true)) c = Ok (mkCtr m (c_invalid r) true)).
  { apply get_error. rewrite nth_error_upd by auto. now rewrite Nat.eqb_refl. }
  rewrite G1. simpl.
  assert (RU : forall k, refs (upd (h_arrs h) s None) k = refs (h_arrs h) k - (if c =? k then 1 else 0)).
  { intros k. pose proof (refs_upd _ _ _ None k Ha) as R. simpl in R. rewrite Ec in R. destruct (c =? k); lia. }
  assert (HO : forall bs cs s' a', holds (mkHeap (upd (h_arrs h) s None) bs cs) s' a' <-> s' <> s /\ holds h s' a').
  { intros. unfold holds; simpl. rewrite nth_error_upd by auto. destruct (Nat.eqb_spec s' s); split; intros K; try tauto; try congruence.
  }
  destruct (Nat.eqb_spec m 0) as [Z|Z].
  - (* last reference *)
    subst m.
    assert (Last : forall s' a', s' <> s -> holds h s' a' -> a_cnt a' <> Some c).
    { intros s' a' Hn Ha' E'. pose proof (refs_two _ s s' a a' c (not_eq_sym Hn) Ha Ha' Ec E'). lia. }
    assert (Core : forall bs,
      (forall d, length bs = length (h_bufs h) /\
         nth_error bs d = (if (match a_data a, a_status a with Some d', OWN => (d' =? d) && negb (c_invalid r) | _, _ => false end)
                           then match nth_error (h_bufs h) d with Some b => Some (mkBuf (b_len b) BOwned false (S (b_frees b))) | None => None end
                           else nth_error (h_bufs h) d)) ->
      Inv p (mkHeap (upd (h_arrs h) s None) bs (upd (upd (h_ctrs h) c (mkCtr 0 (c_invalid r) true)) c (mkCtr 0 (c_invalid r) false)))).
    { intros bs HB.
      assert (HC : forall k, nth_error (upd (upd (h_ctrs h) c (mkCtr 0 (c_invalid r) true)) c (mkCtr 0 (c_invalid r) false)) k =
         if k =? c then Some (mkCtr 0 (c_invalid r) false) else nth_error (h_ctrs h) k).
      { intros k. rewrite nth_error_upd by (rewrite upd_length; auto). destruct (Nat.eqb_spec k c); auto.
        rewrite nth_error_upd by auto. destruct (Nat.eqb_spec k c); congruence. }
      pose proof I as I'. destruct I as [I1 I2 I3 I4 I5 I6 I7 I8 I9 I10 I11 I12].
      assert (Safe : forall s' a' d, s' <> s -> holds h s' a' -> owns a' d -> nth_error bs d = nth_error (h_bufs h) d).
      { intros s' a' d Hn Ha' Ow. destruct (HB d) as (_ & ->). destruct (a_data a) as [d'|] eqn:Ed; auto. destruct (a_status a) eqn:Es; auto.
        destruct (Nat.eqb_spec d' d); auto. subst d'. exfalso. apply (Last s' a'); auto. rewrite <- Ec. symmetry.
        apply (I5 s a s' a' d); auto. split; auto. }
      split; simpl.
      - intros k rk Ek Ak. rewrite HC in Ek. destruct (Nat.eqb_spec k c). inversion Ek; subst rk; discriminate.
        rewrite RU. destruct (Nat.eqb_spec c k); [congruence|]. rewrite Nat.sub_0_r. eauto.
      - intros k rk Ek Ak. rewrite HC in Ek. rewrite RU. destruct (Nat.eqb_spec k c).
        + subst k. rewrite Nat.eqb_refl. lia.
        + rewrite (I2 k rk Ek Ak). lia.
      - intros k Hk. rewrite !upd_length in Hk. rewrite RU, I3; auto.
      - intros s' a' Ha' Es. apply HO in Ha'. destruct Ha' as (Hn & Ha').
        destruct (I4 s' a' Ha' Es) as (d & c' & b & r' & E1 & E2 & E3 & E4 & E5).
        exists d, c', b, r'. split; auto. split; auto. split. { rewrite (Safe s' a' d Hn Ha' (conj Es E1)); auto. }
        split; auto. rewrite HC. destruct (Nat.eqb_spec c' c); auto. subst c'. exfalso. eapply Last; eauto.
      - intros s1 a1 s2 a2 d H1 H2. apply HO in H1, H2. destruct H1, H2. eauto.
      - intros s1 a1 s2 a2 c' r' H1 H2 E1 E2 E3. apply HO in H1, H2. destruct H1 as (N1 & H1), H2 as (N2 & H2). rewrite HC in E3.
        destruct (Nat.eqb_spec c' c). { subst c'. exfalso. exact (Last s1 a1 N1 H1 E1). }
        exact (I6 s1 a1 s2 a2 c' r' H1 H2 E1 E2 E3).
      - intros s' a' Ha'. apply HO in Ha'. destruct Ha'. eauto.
      - intros s' a' Ha'. apply HO in Ha'. destruct Ha'. eauto.
      - intros d b Eb Kb Ab. destruct (HB d) as (_ & Hd). rewrite Hd in Eb.
        assert (Eb' : nth_error (h_bufs h) d = Some b).
        { destruct (match a_data a with Some d' => match a_status a with OWN => _ | _ => _ end | None => _ end); auto.
          destruct (nth_error (h_bufs h) d); inversion Eb; subst; simpl in *; discriminate. }
        destruct (I9 d b Eb' Kb Ab) as [?|(s' & a' & Ha' & Ow)]; auto.
        destruct (Nat.eq_dec s' s).
        + subst s'. unfold holds in *. rewrite Ha in Ha'. inversion Ha'; subst a'. exfalso. destruct Ow as (O1 & O2).
          rewrite O1, O2, Nat.eqb_refl in Eb. simpl in Eb.
          destruct (I4 s a Ha O1) as (d1 & c1 & b1 & r1 & E1 & E2 & E3 & E4 & E5 & E6 & E7 & E8).
          rewrite O2 in E1. inversion E1; subst d1. rewrite Ec in E2. inversion E2; subst c1.
          rewrite Er in E4. inversion E4; subst r1. rewrite Eb' in E3. inversion E3; subst b1.
          rewrite E8 in Kb. destruct (c_invalid r); [discriminate|]. simpl in Eb. rewrite Eb' in Eb. injection Eb as Eb2. rewrite <- Eb2 in Ab. simpl in Ab. discriminate Ab.
        + right. exists s', a'. split; auto. apply HO. auto.
      - intros d E. destruct (I10 d E) as ((b & B1 & B2 & B3) & K). split.
        + exists b. split; auto. destruct (HB d) as (_ & ->).
          destruct (a_data a) as [d'|] eqn:Ed; auto. destruct (a_status a) eqn:Es; auto.
          destruct (Nat.eqb_spec d' d); auto. subst d'. exfalso. apply (K s a Ha). split; auto.
        + intros s' a' Ha'. apply HO in Ha'. destruct Ha'. eauto.
      - intros d b Eb. destruct (HB d) as (_ & Hd). rewrite Hd in Eb.
        destruct (a_data a) as [d'|] eqn:Ed; [|eauto]. destruct (a_status a) eqn:Es; eauto.
        destruct (Nat.eqb_spec d' d); simpl in Eb; eauto. destruct (c_invalid r) eqn:Ei; simpl in Eb; eauto.
        subst d'. destruct (nth_error (h_bufs h) d) as [b0|] eqn:Eb0; inversion Eb; subst b. simpl. split; [|discriminate].
        destruct (I4 s a Ha Es) as (d1 & c1 & b1 & r1 & E1 & E2 & E3 & E4 & E5 & E6 & E7 & E8).
        rewrite Ed in E1. inversion E1; subst d1. rewrite Eb0 in E3. inversion E3; subst b1.
        destruct (I11 d b0 Eb0) as (F & _). rewrite E7 in F. lia.
      - intros s' a' Ha'. apply HO in Ha'. destruct Ha'. eauto. }
    destruct (a_data a) as [d'|] eqn:Ed; [destruct (a_status a) eqn:Es|].
    + simpl. eexists. split; [reflexivity|]. split; [reflexivity|]. split; [reflexivity|]. apply Core. intros; split; auto.
    + destruct (c_invalid r) eqn:Ei.
      * simpl. eexists. split; [reflexivity|]. split; [reflexivity|]. split; [reflexivity|]. apply Core. intros. split; auto.
        rewrite andb_false_r. auto.
      * simpl. destruct (iv_own _ _ I _ _ Ha Es) as (d1 & c1 & b1 & r1 & E1 & E2 & E3 & E4 & E5 & E6 & E7 & E8).
        rewrite Ed in E1. inversion E1; subst d1. rewrite Ec in E2. inversion E2; subst c1. rewrite Er in E4. inversion E4; subst r1.
        rewrite Ei in E8. unfold free_buf. simpl. rewrite (get_error _ _ _ _ E3). simpl. rewrite E8, E7. simpl.
        eexists. split; [reflexivity|]. split; [reflexivity|]. split; [simpl; now rewrite upd_length|]. apply Core. intros. simpl.
        rewrite upd_length. split; auto. rewrite andb_true_r. rewrite nth_error_upd by (eapply nth_error_lt; eauto).
        rewrite (Nat.eqb_sym d' d). destruct (Nat.eqb_spec d d'); auto. subst d'. rewrite E3. auto.
    + simpl. eexists. split; [reflexivity|]. split; [reflexivity|]. split; [reflexivity|]. apply Core. intros; split; auto.
    + simpl. eexists. split; [reflexivity|]. split; [reflexivity|]. split; [reflexivity|]. apply Core. intros; split; auto.
  - (* other references remain *)
    assert (Hst : (match a_data a with
            | Some d => match a_status a with OWN => if false && negb (c_invalid r) then free_buf (put_ctr h c (mkCtr m (c_invalid r) true)) d
                     else Ok (put_ctr h c (mkCtr m (c_invalid r) true)) | _ => Ok (put_ctr h c (mkCtr m (c_invalid r) true)) end
            | None => Ok (put_ctr h c (mkCtr m (c_invalid r) true)) end) = Ok (put_ctr h c (mkCtr m (c_invalid r) true))).
    { destruct (a_data a); auto. destruct (a_status a); auto. }
    rewrite Hst. simpl. eexists. split; [reflexivity|]. split; [reflexivity|]. split; [reflexivity|].
    assert (HC : forall k, nth_error (upd (h_ctrs h) c (mkCtr m (c_invalid r) true)) k =
         if k =? c then Some (mkCtr m (c_invalid r) true) else nth_error (h_ctrs h) k).
    { intros k. now rewrite nth_error_upd by auto. }
    assert (Other : exists s2 a2, s2 <> s /\ holds h s2 a2 /\ a_cnt a2 = Some c).
    { assert (R2 : 0 < refs (upd (h_arrs h) s None) c). { rewrite RU, Nat.eqb_refl. lia. }
      apply refs_ex in R2. destruct R2 as (s2 & a2 & K1 & K2). exists s2, a2.
      rewrite nth_error_upd in K1 by auto. destruct (Nat.eqb_spec s2 s); [discriminate|]. auto. }
    pose proof I as I'. destruct I as [I1 I2 I3 I4 I5 I6 I7 I8 I9 I10 I11 I12].
    split; simpl.
    + intros k rk Ek Ak. rewrite HC in Ek. rewrite RU. destruct (Nat.eqb_spec k c).
      * subst k. inversion Ek; subst rk. simpl. rewrite Nat.eqb_refl. lia.
      * destruct (Nat.eqb_spec c k); [congruence|]. rewrite Nat.sub_0_r. eauto.
    + intros k rk Ek Ak. rewrite HC in Ek. rewrite RU. destruct (Nat.eqb_spec k c).
      * subst k. inversion Ek; subst rk. discriminate.
      * rewrite (I2 k rk Ek Ak). lia.
    + intros k Hk. rewrite upd_length in Hk. rewrite RU, I3; auto.
    + intros s' a' Ha' Es. apply HO in Ha'. destruct Ha' as (Hn & Ha').
      destruct (I4 s' a' Ha' Es) as (d & c' & b & r' & E1 & E2 & E3 & E4 & E5).
      exists d, c', b. rewrite HC. destruct (Nat.eqb_spec c' c).
      * subst c'. rewrite Er in E4. inversion E4; subst r'. exists (mkCtr m (c_invalid r) true). split; [exact E1|]. split; [exact E2|]. split; [exact E3|]. split; [reflexivity|]. exact E5.
      * exists r'. auto.
    + intros s1 a1 s2 a2 d H1 H2. apply HO in H1, H2. destruct H1, H2. eauto.
    + intros s1 a1 s2 a2 c' r' H1 H2 E1 E2 E3. apply HO in H1, H2. destruct H1, H2. rewrite HC in E3.
      destruct (Nat.eqb_spec c' c).
      * subst c'. inversion E3; subst r'. simpl. eauto.
      * eauto.
    + intros s' a' Ha'. apply HO in Ha'. destruct Ha'. eauto.
    + intros s' a' Ha'. apply HO in Ha'. destruct Ha'. eauto.
    + intros d b Eb Kb Ab. destruct (I9 d b Eb Kb Ab) as [?|(s' & a' & Ha' & Ow)]; auto. right.
      destruct (Nat.eq_dec s' s).
      * subst s'. unfold holds in *. rewrite Ha in Ha'. inversion Ha'; subst a'. destruct Ow as (O1 & O2).
        destruct Other as (s2 & a2 & Hn & Ha2 & Ec2).
        destruct (I4 s a Ha O1) as (d1 & c1 & b1 & r1 & E1 & E2 & E3 & E4 & E5 & E6 & E7 & E8).
        rewrite O2 in E1. inversion E1; subst d1. rewrite Ec in E2. inversion E2; subst c1. rewrite Er in E4. inversion E4; subst r1.
        rewrite Eb in E3. inversion E3; subst b1. rewrite Kb in E8. destruct (c_invalid r) eqn:Ei; [discriminate|].
        destruct (I6 s a s2 a2 c r Ha Ha2 Ec Ec2 Er) as (G & Gd & _).
        exists s2, a2. split. apply HO; auto. specialize (G Ei). rewrite O1 in G. symmetry in G. split; auto. rewrite <- Gd; auto.
      * exists s', a'. split; auto. apply HO. auto.
    + intros d E. destruct (I10 d E) as (B & K). split; auto. intros s' a' Ha'. apply HO in Ha'. destruct Ha'. eauto.
    + eauto.
    + intros s' a' Ha'. apply HO in Ha'. destruct Ha'. eauto.
Qed.

(** *** Constructing with a fresh counter. *)
Lemma refs_set_none : forall h s a k, unused h s -> refs (upd (h_arrs h) s (Some a)) k = refs (h_arrs h) k + hask k (Some a).
Proof. intros h s a k H. pose proof (refs_upd _ _ _ (Some a) k H) as R. simpl in *. lia. Qed.
Lemma holds_new : forall h bs cs s a s' a', unused h s ->
  holds (mkHeap (upd (h_arrs h) s (Some a)) bs cs) s' a' <-> (s' = s /\ a' = a) \/ (s' <> s /\ holds h s' a').
Proof.
  intros h bs cs s a s' a' U. unfold holds; simpl. rewrite nth_error_upd by (eapply nth_error_lt; exact U).
  destruct (Nat.eqb_spec s' s); split; intros K.
  - left. split; auto. congruence.
  - destruct K as [(_ & ->)|(? & _)]; congruence.
  - right. auto.
  - destruct K as [(? & _)|(_ & ?)]; congruence.
Qed.
Lemma holds_not_unused : forall h s a, holds h s a -> unused h s -> False.
Proof. unfold holds, unused. intros. congruence. Qed.
Lemma cnt_lt : forall p h s a c, Inv p h -> holds h s a -> a_cnt a = Some c -> c < length (h_ctrs h).
Proof. intros. destruct (cnt_alive _ _ _ _ _ H H0 H1) as (r & E & _). eapply nth_error_lt; eauto. Qed.

Lemma fresh_l : forall p p' h s a, Inv p h -> unused h s -> a_cnt a = Some (length (h_ctrs h)) ->
  (a_status a = UNDEF -> a_data a = None) -> a_size a <= a_cap a ->
  (a_status a <> OWN -> p' = p) ->
  (a_status a = OWN -> p' = None /\ exists d b, p = Some d /\ a_data a = Some d /\ nth_error (h_bufs h) d = Some b /\ a_size a <= a_cap a /\ a_cap a <= b_len b) ->
  Inv p' (mkHeap (upd (h_arrs h) s (Some a)) (h_bufs h) (h_ctrs h ++ [mkCtr 1 false true])).
Proof.
  intros p p' h s a I U Ec Hu Hsz Hno Ho.
  assert (HC : forall k, nth_error (h_ctrs h ++ [mkCtr 1 false true]) k = if k =? length (h_ctrs h) then Some (mkCtr 1 false true) else nth_error (h_ctrs h) k).
  { intros. apply nth_error_snoc. }
  assert (HH : forall bs cs s' a', holds (mkHeap (upd (h_arrs h) s (Some a)) bs cs) s' a' <-> (s' = s /\ a' = a) \/ (s' <> s /\ holds h s' a')).
  { intros. apply holds_new; auto. }
  assert (HR : forall k, refs (upd (h_arrs h) s (Some a)) k = refs (h_arrs h) k + (if length (h_ctrs h) =? k then 1 else 0)).
  { intros. rewrite refs_set_none by auto. simpl. now rewrite Ec. }
  assert (LT : forall s' a' c, holds h s' a' -> a_cnt a' = Some c -> c <> length (h_ctrs h)).
  { intros s' a' c K1 K2. pose proof (cnt_lt _ _ _ _ _ I K1 K2). lia. }
  destruct I as [I1 I2 I3 I4 I5 I6 I7 I8 I9 I10 I11 I12].
  split; simpl.
  - intros k r Ek Ak. rewrite HC in Ek. rewrite HR. destruct (Nat.eqb_spec k (length (h_ctrs h))).
    + subst k. inversion Ek; subst r. simpl. rewrite Nat.eqb_refl, I3; auto; lia.
    + destruct (Nat.eqb_spec (length (h_ctrs h)) k); [congruence|]. rewrite Nat.add_0_r. eauto.
  - intros k r Ek Ak. rewrite HC in Ek. rewrite HR. destruct (Nat.eqb_spec k (length (h_ctrs h))).
    + subst k. inversion Ek; subst r. discriminate.
    + destruct (Nat.eqb_spec (length (h_ctrs h)) k); [congruence|]. rewrite Nat.add_0_r. eauto.
  - intros k Hk. rewrite app_length in Hk; simpl in Hk. rewrite HR. destruct (Nat.eqb_spec (length (h_ctrs h)) k); [lia|]. rewrite I3 by lia; lia.
  - intros s' a' Ha' Es. apply HH in Ha'. destruct Ha' as [(-> & ->)|(Hn & Ha')].
    + destruct (Ho Es) as (_ & d & b & E1 & E2 & E3 & E4 & E5). destruct (I10 d E1) as ((b' & B1 & B2 & B3) & _).
      rewrite E3 in B1. inversion B1; subst b'.
      exists d, (length (h_ctrs h)), b, (mkCtr 1 false true). split; auto. split; auto. split; auto.
      rewrite HC, Nat.eqb_refl. auto.
    + destruct (I4 s' a' Ha' Es) as (d & c' & b & r' & E1 & E2 & E3 & E4 & E5).
      exists d, c', b, r'. split; auto. split; auto. split; auto. split; auto. rewrite HC.
      destruct (Nat.eqb_spec c' (length (h_ctrs h))); auto. exfalso. eapply LT; eauto.
  - assert (X : forall s' a' d, holds h s' a' -> owns a d -> owns a' d -> False).
    { intros s' a' d K O1 O2. destruct O1 as (Es & Ed). destruct (Ho Es) as (_ & d1 & b & E1 & E2 & _).
      rewrite Ed in E2. inversion E2; subst d1. destruct (I10 d E1) as (_ & N). exact (N s' a' K O2). }
    intros s1 a1 s2 a2 d H1 H2 O1 O2. apply HH in H1, H2.
    destruct H1 as [(-> & ->)|(N1 & H1)], H2 as [(-> & ->)|(N2 & H2)]; auto.
    + exfalso. eapply X; eauto.
    + exfalso. eapply X; eauto.
    + eauto.
  - intros s1 a1 s2 a2 c r H1 H2 E1 E2 E3. apply HH in H1, H2. rewrite HC in E3.
    destruct (Nat.eqb_spec c (length (h_ctrs h))).
    + subst c. inversion E3; subst r. simpl.
      destruct H1 as [(-> & ->)|(N1 & H1)]; [|exfalso; eapply LT; eauto].
      destruct H2 as [(-> & ->)|(N2 & H2)]; [|exfalso; eapply LT; eauto]. repeat split; auto; discriminate.
    + destruct H1 as [(-> & ->)|(N1 & H1)]; [congruence|]. destruct H2 as [(-> & ->)|(N2 & H2)]; [congruence|].
      exact (I6 s1 a1 s2 a2 c r H1 H2 E1 E2 E3).
  - intros s' a' Ha'. apply HH in Ha'. destruct Ha' as [(-> & ->)|(Hn & Ha')]; eauto.
  - intros s' a' Ha'. apply HH in Ha'. destruct Ha' as [(-> & ->)|(Hn & Ha')]; eauto. congruence.
  - intros d b E1 E2 E3. destruct (I9 d b E1 E2 E3) as [E|(s' & a' & K1 & K2)].
    + destruct (a_status a) eqn:Es.
      * left. rewrite Hno; auto; discriminate.
      * destruct (Ho eq_refl) as (_ & d1 & b1 & F1 & F2 & _). right. exists s, a. split. apply HH; auto. split; congruence.
      * left. rewrite Hno; auto; discriminate.
    + right. exists s', a'. split; auto. apply HH. right. split; auto. intros ->. eapply holds_not_unused; eauto.
  - intros d E. assert (Es : a_status a <> OWN). { intros Es. destruct (Ho Es). congruence. }
    rewrite (Hno Es) in E. destruct (I10 d E) as (B & N). split; auto. intros s' a' Ha' Ow. apply HH in Ha'.
    destruct Ha' as [(-> & ->)|(Hn & Ha')]. destruct Ow; congruence. exact (N s' a' Ha' Ow).
  - eauto.
  - intros s' a' Ha'. apply HH in Ha'. destruct Ha' as [(-> & ->)|(Hn & Ha')]; eauto.
Qed.

Lemma newbuf_l : forall h n, Inv None h -> Inv (Some (length (h_bufs h))) (mkHeap (h_arrs h) (h_bufs h ++ [mkBuf n BOwned true 0]) (h_ctrs h)).
Proof.
  intros h n I.
  assert (HB : forall k, nth_error (h_bufs h ++ [mkBuf n BOwned true 0]) k = if k =? length (h_bufs h) then Some (mkBuf n BOwned true 0) else nth_error (h_bufs h) k).
  { intros. apply nth_error_snoc. }
  destruct I as [I1 I2 I3 I4 I5 I6 I7 I8 I9 I10 I11 I12]. split; simpl; auto.
  - intros s a Ha Es. destruct (I4 s a Ha Es) as (d & c' & b & r' & E1 & E2 & E3 & E4 & E5). exists d, c', b, r'.
    split; auto. split; auto. split; auto. rewrite HB. destruct (Nat.eqb_spec d (length (h_bufs h))); auto.
    pose proof (nth_error_lt _ _ _ _ E3); lia.
  - intros d b E1 E2 E3. rewrite HB in E1. destruct (Nat.eqb_spec d (length (h_bufs h))); [left; congruence|].
    destruct (I9 d b E1 E2 E3) as [E|K]; [discriminate|]. auto.
  - intros d E. inversion E; subst d. split.
    + exists (mkBuf n BOwned true 0). rewrite HB, Nat.eqb_refl. auto.
    + intros s a Ha (Es & Ed). destruct (I4 s a Ha Es) as (d & c' & b & r' & E1 & E2 & E3 & E4 & E5).
      rewrite Ed in E1. inversion E1; subst d. pose proof (nth_error_lt _ _ _ _ E3); lia.
  - intros d b E1. rewrite HB in E1. destruct (Nat.eqb_spec d (length (h_bufs h))).
    + inversion E1; subst b. simpl. split; auto; try discriminate.
    + eauto.
Qed.

(** *** Sharing. *)
Lemma share_l : forall h d s a c r, Inv None h -> unused h d -> holds h s a -> a_cnt a = Some c -> nth_error (h_ctrs h) c = Some r ->
  Inv None (mkHeap (upd (h_arrs h) d (Some a)) (h_bufs h) (upd (h_ctrs h) c (mkCtr (S (c_n r)) (c_invalid r) true))).
Proof.
  intros h d s a c r I U Ha Ec Er. destruct (cnt_alive _ _ _ _ _ I Ha Ec) as (r' & Er' & Al & En & Ep).
  rewrite Er in Er'. inversion Er'; subst r'.
  assert (HC : forall k, nth_error (upd (h_ctrs h) c (mkCtr (S (c_n r)) (c_invalid r) true)) k = if k =? c then Some (mkCtr (S (c_n r)) (c_invalid r) true) else nth_error (h_ctrs h) k).
  { intros. rewrite nth_error_upd; auto. eapply nth_error_lt; eauto. }
  assert (HH : forall bs cs s' a', holds (mkHeap (upd (h_arrs h) d (Some a)) bs cs) s' a' <-> (s' = d /\ a' = a) \/ (s' <> d /\ holds h s' a')).
  { intros. apply holds_new; auto. }
  assert (HE : forall bs cs s' a', holds (mkHeap (upd (h_arrs h) d (Some a)) bs cs) s' a' -> exists s0, holds h s0 a').
  { intros bs cs s' a' K. apply HH in K. destruct K as [(-> & ->)|(_ & K)]; eauto. }
  assert (HR : forall k, refs (upd (h_arrs h) d (Some a)) k = refs (h_arrs h) k + (if c =? k then 1 else 0)).
  { intros. rewrite refs_set_none by auto. simpl. now rewrite Ec. }
  destruct I as [I1 I2 I3 I4 I5 I6 I7 I8 I9 I10 I11 I12]. split; simpl.
  - intros k rk Ek Ak. rewrite HC in Ek. rewrite HR. destruct (Nat.eqb_spec k c).
    + subst k. inversion Ek; subst rk. simpl. rewrite Nat.eqb_refl. lia.
    + destruct (Nat.eqb_spec c k); [congruence|]. rewrite Nat.add_0_r. eauto.
  - intros k rk Ek Ak. rewrite HC in Ek. rewrite HR. destruct (Nat.eqb_spec k c).
    + subst k. inversion Ek; subst rk. discriminate.
    + destruct (Nat.eqb_spec c k); [congruence|]. rewrite Nat.add_0_r. eauto.
  - intros k Hk. rewrite upd_length in Hk. rewrite HR. destruct (Nat.eqb_spec c k); [|rewrite I3; lia].
    pose proof (nth_error_lt _ _ _ _ Er). lia.
  - intros s' a' Ha' Es. apply HE in Ha'. destruct Ha' as (s0 & Ha').
    destruct (I4 s0 a' Ha' Es) as (d1 & c' & b & r' & E1 & E2 & E3 & E4 & E5).
    exists d1, c', b. rewrite HC. destruct (Nat.eqb_spec c' c).
    + subst c'. rewrite Er in E4. inversion E4; subst r'. exists (mkCtr (S (c_n r)) (c_invalid r) true).
      split; [exact E1|]. split; [exact E2|]. split; [exact E3|]. split; [reflexivity|]. exact E5.
    + exists r'. auto.
  - intros s1 a1 s2 a2 d1 H1 H2. apply HE in H1, H2. destruct H1 as (t1 & H1), H2 as (t2 & H2). eauto.
  - intros s1 a1 s2 a2 c' r' H1 H2 E1 E2 E3. apply HE in H1, H2. destruct H1 as (t1 & H1), H2 as (t2 & H2). rewrite HC in E3.
    destruct (Nat.eqb_spec c' c).
    + subst c'. inversion E3; subst r'. simpl. exact (I6 _ _ _ _ _ _ H1 H2 E1 E2 Er).
    + exact (I6 _ _ _ _ _ _ H1 H2 E1 E2 E3).
  - intros s' a' Ha'. apply HE in Ha'. destruct Ha' as (s0 & Ha'). eauto.
  - intros s' a' Ha'. apply HE in Ha'. destruct Ha' as (s0 & Ha'). eauto.
  - intros d1 b E1 E2 E3. destruct (I9 d1 b E1 E2 E3) as [E|(s' & a' & K1 & K2)]; [discriminate|].
    right. exists s', a'. split; auto. apply HH. right. split; auto. intros ->. eapply holds_not_unused; eauto.
  - discriminate.
  - eauto.
  - intros s' a' Ha'. apply HE in Ha'. destruct Ha' as (s0 & Ha'). eauto.
Qed.

(** *** Rearranging the objects: same buffers and counters, and the same multiset of
    (counter, data, status); sizes may shrink or grow within capacity. *)
Lemma rearr_l : forall h arrs', Inv None h ->
  (forall k, refs arrs' k = refs (h_arrs h) k) ->
  (forall s a, nth_error arrs' s = Some (Some a) -> a_cnt a = None /\ a_status a = UNDEF /\ a_data a = None /\ a_size a <= a_cap a \/
     exists s0 a0, holds h s0 a0 /\ a_cnt a = a_cnt a0 /\ a_data a = a_data a0 /\ a_status a = a_status a0 /\ a_cap a = a_cap a0 /\
       (a_size a0 <= a_cap a0 -> a_size a <= a_cap a)) ->
  (forall s0 a0, holds h s0 a0 -> a_status a0 = OWN -> exists s a, nth_error arrs' s = Some (Some a) /\ a_data a = a_data a0 /\ a_status a = OWN) ->
  Inv None (mkHeap arrs' (h_bufs h) (h_ctrs h)).
Proof.
  intros h arrs' I HR HF HB. destruct I as [I1 I2 I3 I4 I5 I6 I7 I8 I9 I10 I11 I12].
  assert (HO : forall s a d, nth_error arrs' s = Some (Some a) -> owns a d -> exists s0 a0, holds h s0 a0 /\ a_cnt a = a_cnt a0 /\ owns a0 d).
  { intros s a d E (O1 & O2). destruct (HF s a E) as [(F1 & F2 & F3 & _)|(s0 & a0 & F1 & F2 & F3 & F4 & F5)]; [congruence|].
    exists s0, a0. repeat split; auto; congruence. }
  split; simpl.
  - intros. rewrite HR. eauto.
  - intros. rewrite HR. eauto.
  - intros. rewrite HR. eauto.
  - intros s a Ha Es. destruct (HF s a Ha) as [(F1 & F2 & F3 & _)|(s0 & a0 & F1 & F2 & F3 & F4 & F5 & F6)]; [congruence|].
    rewrite F4 in Es. destruct (I4 s0 a0 F1 Es) as (d1 & c' & b & r' & E1 & E2 & E3 & E4 & E5 & E6 & E7).
    exists d1, c', b, r'. split; [congruence|]. split; [congruence|]. split; auto. split; auto. split; [auto|]. split; [lia|auto].
  - intros s1 a1 s2 a2 d H1 H2 O1 O2. destruct (HO _ _ _ H1 O1) as (t1 & b1 & K1 & L1 & P1). destruct (HO _ _ _ H2 O2) as (t2 & b2 & K2 & L2 & P2).
    rewrite L1, L2. eauto.
  - intros s1 a1 s2 a2 c r H1 H2 E1 E2 E3.
    destruct (HF s1 a1 H1) as [(F1 & F2 & F3 & _)|(t1 & b1 & F1 & F2 & F3 & F4 & F5)]; [congruence|].
    destruct (HF s2 a2 H2) as [(G1 & G2 & G3 & _)|(t2 & b2 & G1 & G2 & G3 & G4 & G5)]; [congruence|].
    rewrite F2 in E1. rewrite G2 in E2. rewrite F3, F4, G3, G4. exact (I6 _ _ _ _ _ _ F1 G1 E1 E2 E3).
  - intros s a Ha Es. destruct (HF s a Ha) as [(F1 & F2 & F3 & _)|(s0 & a0 & F1 & F2 & F3 & F4 & F5 & F6)]; [congruence|].
    rewrite F3. apply (I7 s0 a0 F1). congruence.
  - intros s a Ha Es. destruct (HF s a Ha) as [(F1 & F2 & F3 & _)|(s0 & a0 & F1 & F2 & F3 & F4 & F5 & F6)]; [congruence|].
    rewrite F4. apply (I8 s0 a0 F1). congruence.
  - intros d b E1 E2 E3. destruct (I9 d b E1 E2 E3) as [E|(s' & a' & K1 & (K2 & K3))]; [discriminate|].
    right. destruct (HB s' a' K1 K2) as (s & a & L1 & L2 & L3). exists s, a. split; auto. split; congruence.
  - discriminate.
  - eauto.
  - intros s a Ha. destruct (HF s a Ha) as [(F1 & F2 & F3 & F4)|(s0 & a0 & F1 & F2 & F3 & F4 & F5 & F6)]; eauto.
Qed.

(** *** steal *)
Lemma steal_l : forall h s a d c b r, Inv None h -> holds h s a -> a_status a = OWN -> a_data a = Some d -> a_cnt a = Some c ->
  nth_error (h_bufs h) d = Some b -> nth_error (h_ctrs h) c = Some r ->
  Inv None (mkHeap (upd (h_arrs h) s (Some (mkArr None 0 0 UNDEF (Some c))))
                   (upd (h_bufs h) d (mkBuf (b_len b) BExt (b_alive b) (b_frees b)))
                   (upd (h_ctrs h) c (mkCtr (c_n r) true true))).
Proof.
  intros h s a d c b r I Ha Es Ed Ec Eb Er. destruct (cnt_alive _ _ _ _ _ I Ha Ec) as (r' & Er' & Al & En & Ep).
  rewrite Er in Er'. inversion Er'; subst r'. pose proof (nth_error_lt _ _ _ _ Ha) as Hs.
  assert (HC : forall k, nth_error (upd (h_ctrs h) c (mkCtr (c_n r) true true)) k = if k =? c then Some (mkCtr (c_n r) true true) else nth_error (h_ctrs h) k).
  { intros. rewrite nth_error_upd; auto. eapply nth_error_lt; eauto. }
  assert (HB : forall k, nth_error (upd (h_bufs h) d (mkBuf (b_len b) BExt (b_alive b) (b_frees b))) k =
     if k =? d then Some (mkBuf (b_len b) BExt (b_alive b) (b_frees b)) else nth_error (h_bufs h) k).
  { intros. rewrite nth_error_upd; auto. eapply nth_error_lt; eauto. }
  set (a0 := mkArr None 0 0 UNDEF (Some c)).
  assert (HH : forall bs cs s' a', holds (mkHeap (upd (h_arrs h) s (Some a0)) bs cs) s' a' <-> (s' = s /\ a' = a0) \/ (s' <> s /\ holds h s' a')).
  { intros. unfold holds; simpl. rewrite nth_error_upd by auto. destruct (Nat.eqb_spec s' s); split; intros K.
    - left. split; auto. congruence.
    - destruct K as [(_ & ->)|(? & _)]; congruence.
    - right. auto.
    - destruct K as [(? & _)|(_ & ?)]; congruence. }
  assert (HR : forall k, refs (upd (h_arrs h) s (Some a0)) k = refs (h_arrs h) k).
  { intros. pose proof (refs_upd _ _ _ (Some a0) k Ha) as R. simpl in R. rewrite Ec in R. destruct (c =? k); lia. }
  destruct I as [I1 I2 I3 I4 I5 I6 I7 I8 I9 I10 I11 I12].
  assert (Bal : b_alive b = true). { destruct (I4 s a Ha Es) as (d1 & c' & b1 & r' & E1 & E2 & E3 & E4 & E5 & E6 & E7 & E8). rewrite Ed in E1; inversion E1; subst d1. congruence. }
  split; simpl.
  - intros k rk Ek Ak. rewrite HC in Ek. rewrite HR. destruct (Nat.eqb_spec k c).
    + subst k. inversion Ek; subst rk. simpl. lia.
    + eauto.
  - intros k rk Ek Ak. rewrite HC in Ek. rewrite HR. destruct (Nat.eqb_spec k c).
    + subst k. inversion Ek; subst rk. discriminate.
    + eauto.
  - intros k Hk. rewrite upd_length in Hk. rewrite HR. eauto.
  - intros s' a' Ha' Es'. apply HH in Ha'. destruct Ha' as [(-> & ->)|(Hn & Ha')]; [discriminate|].
    destruct (I4 s' a' Ha' Es') as (d1 & c' & b1 & r' & E1 & E2 & E3 & E4 & E5 & E6 & E7 & E8).
    destruct (Nat.eqb_spec c' c) as [E|N].
    + subst c'. rewrite Er in E4. inversion E4; subst r'.
      assert (d1 = d). { destruct (I6 _ _ _ _ _ _ Ha Ha' Ec E2 Er) as (_ & G & _). specialize (G Es Es'). congruence. }
      subst d1. rewrite Eb in E3. inversion E3; subst b1.
      exists d, c, (mkBuf (b_len b) BExt (b_alive b) (b_frees b)), (mkCtr (c_n r) true true). rewrite HB, HC, !Nat.eqb_refl. simpl. repeat (split; [auto|]). auto.
    + assert (d1 <> d). { intros ->. apply N. pose proof (I5 s a s' a' d Ha Ha' (conj Es Ed) (conj Es' E1)). congruence. }
      exists d1, c', b1, r'. rewrite HB, HC. destruct (Nat.eqb_spec d1 d); [congruence|]. destruct (Nat.eqb_spec c' c); [congruence|]. repeat (split; [auto|]). auto.
  - intros s1 a1 s2 a2 d1 H1 H2 O1 O2. apply HH in H1, H2.
    destruct H1 as [(-> & ->)|(N1 & H1)]; [destruct O1; discriminate|]. destruct H2 as [(-> & ->)|(N2 & H2)]; [destruct O2; discriminate|]. eauto.
  - intros s1 a1 s2 a2 c' r' H1 H2 E1 E2 E3. apply HH in H1, H2. rewrite HC in E3. destruct (Nat.eqb_spec c' c) as [E|N].
    + subst c'. inversion E3; subst r'. simpl. split; [discriminate|].
      assert (W : forall s' a', holds h s' a' -> a_cnt a' = Some c -> a_status a' <> WRAP).
      { intros s' a' K1 K2. destruct (I6 _ _ _ _ _ _ K1 Ha K2 Ec Er) as (G1 & _ & G2). destruct (c_invalid r). auto.
        rewrite G1, Es by auto. discriminate. }
      split.
      * intros S1 S2. destruct H1 as [(-> & ->)|(N1 & H1)]; [discriminate|]. destruct H2 as [(-> & ->)|(N2 & H2)]; [discriminate|].
        destruct (I6 _ _ _ _ _ _ H1 H2 E1 E2 Er) as (_ & G & _). auto.
      * intros _. destruct H1 as [(-> & ->)|(N1 & H1)]; [discriminate|]. eauto.
    + destruct H1 as [(-> & ->)|(N1 & H1)]; [simpl in E1; congruence|]. destruct H2 as [(-> & ->)|(N2 & H2)]; [simpl in E2; congruence|].
      exact (I6 _ _ _ _ _ _ H1 H2 E1 E2 E3).
  - intros s' a' Ha'. apply HH in Ha'. destruct Ha' as [(-> & ->)|(Hn & Ha')]; eauto.
  - intros s' a' Ha'. apply HH in Ha'. destruct Ha' as [(-> & ->)|(Hn & Ha')]; eauto.
  - intros d1 b1 E1 E2 E3. rewrite HB in E1. destruct (Nat.eqb_spec d1 d). { inversion E1; subst b1. discriminate. }
    destruct (I9 d1 b1 E1 E2 E3) as [E|(s' & a' & K1 & K2)]; [discriminate|]. right. exists s', a'. split; auto. apply HH. right. split; auto.
    intros ->. unfold holds in *. rewrite Ha in K1. inversion K1; subst a'. destruct K2. congruence.
  - discriminate.
  - intros d1 b1 E1. rewrite HB in E1. destruct (Nat.eqb_spec d1 d); [|eauto]. inversion E1; subst b1. simpl.
    destruct (I11 d b Eb). auto.
  - intros s' a' Ha'. apply HH in Ha'. destruct Ha' as [(-> & ->)|(Hn & Ha')]; eauto.
Qed.

(** *** Every legal step succeeds and preserves the invariant. *)
Lemma upd_upd : forall X (l : list X) i v w, upd (upd l i v) i w = upd l i w.
Proof. induction l; intros [|i] v w; simpl; auto. now rewrite IHl. Qed.

Lemma free_slot_ok : forall h s, unused h s -> free_slot h s = Ok tt.
Proof. intros h s H. unfold free_slot. rewrite (get_error _ _ _ _ H). auto. Qed.
Lemma object_ok : forall h s a, holds h s a -> object h s = Ok a.
Proof. intros h s a H. unfold object. rewrite (get_error _ _ _ _ H). auto. Qed.
Lemma unused_set_none : forall h s a, holds h s a -> unused (set_arr h s None) s.
Proof. intros h s a H. unfold unused, set_arr; simpl. rewrite nth_error_upd by (eapply nth_error_lt; exact H). now rewrite Nat.eqb_refl. Qed.

Lemma refs_swap2 : forall l d s od os x y k, d <> s -> nth_error l d = Some od -> nth_error l s = Some os ->
  refs (upd (upd l d x) s y) k + hask k od + hask k os = refs l k + hask k x + hask k y.
Proof.
  intros l d s od os x y k N Hd Hs.
  assert (H1 : nth_error (upd l d x) s = Some os). { rewrite nth_error_upd by (eapply nth_error_lt; eauto). destruct (Nat.eqb_spec s d); congruence. }
  pose proof (refs_upd _ _ _ y k H1). pose proof (refs_upd _ _ _ x k Hd). lia.
Qed.

Lemma dtor_len : forall h a h' d b, dtor h a = Ok h' -> nth_error (h_bufs h) d = Some b ->
  exists b', nth_error (h_bufs h') d = Some b' /\ b_len b' = b_len b.
Proof.
  intros g a h' d b E1 G. unfold dtor in E1. destruct (a_cnt a) as [c|]; [|inversion E1; subst h'; eauto].
  unfold ctr_dec, bind in E1. destruct (live_ctr g (Some c)) as [[k r]| |]; try discriminate. destruct (c_n r) as [|n0]; try discriminate.
  destruct (live_ctr (put_ctr g k (mkCtr n0 (c_invalid r) true)) (Some c)) as [[k' r']| |]; try discriminate.
  set (g2 := put_ctr g k (mkCtr n0 (c_invalid r) true)) in *. assert (G2 : h_bufs g2 = h_bufs g) by reflexivity. clearbody g2.
  match type of E1 with match ?X with _ => _ end = _ => assert (FB : forall g3, X = Ok g3 ->
     exists b3, nth_error (h_bufs g3) d = Some b3 /\ b_len b3 = b_len b) end.
  { intros g3 E3. assert (Same : g3 = g2 -> exists b3, nth_error (h_bufs g3) d = Some b3 /\ b_len b3 = b_len b).
    { intros ->. rewrite G2, G. eauto. }
    destruct (a_data a) as [d1|]; [destruct (a_status a)|]; try (inversion E3; auto; fail).
    destruct ((c_n r' =? 0) && negb (c_invalid r')); [|inversion E3; auto].
    unfold free_buf, bind in E3. rewrite G2 in E3. unfold get in E3. destruct (nth_error (h_bufs g) d1) as [b1|] eqn:Eb1; [|discriminate].
    destruct (b_kind b1); [|discriminate]. destruct (b_alive b1); [|discriminate]. inversion E3; subst g3; simpl.
    rewrite nth_error_upd by (eapply nth_error_lt; eauto). destruct (Nat.eqb_spec d d1).
    - eexists; split; [reflexivity|]. simpl. subst d1. rewrite G in Eb1. inversion Eb1; reflexivity.
    - rewrite G. eauto. }
  match type of E1 with match ?X with _ => _ end = _ => destruct X as [g3| |] eqn:E3; try discriminate end.
  destruct (FB g3 eq_refl) as (b3 & F1 & F2).
  destruct (c_n r' =? 0); inversion E1; subst h'; eauto.
Qed.

Lemma realloc_l : forall h s a sz cap ok, Inv None h -> holds h s a -> sz <= cap -> exists h',
  (let '(h, d) := new_buf h cap ok in
   h <- dtor h a ;;
   let '(h, c) := new_ctr h in
   Ok (set_arr h s (Some (if ok then mkArr d sz cap OWN (Some c) else mkArr None 0 0 UNDEF (Some c))))) = Ok h' /\ Inv None h'.
Proof.
  intros h s a sz cap ok I Ha Hle. destruct ok; unfold new_buf.
  - pose proof (newbuf_l h cap I) as I2. set (g := mkHeap (h_arrs h) (h_bufs h ++ [mkBuf cap BOwned true 0]) (h_ctrs h)) in *.
    assert (Ha2 : holds g s a) by exact Ha.
    destruct (dtor_l _ _ _ _ I2 Ha2) as (h' & E1 & E2 & E3 & I3). unfold bind. rewrite E1. unfold new_ctr.
    eexists. split; [reflexivity|]. unfold set_arr; simpl.
    assert (U2 : unused (set_arr h' s None) s). { apply unused_set_none with a. unfold holds. rewrite E2. exact Ha2. }
    assert (G : nth_error (h_bufs g) (length (h_bufs h)) = Some (mkBuf cap BOwned true 0)).
    { unfold g; simpl. rewrite nth_error_snoc, Nat.eqb_refl. auto. }
    destruct (dtor_len _ _ _ _ _ E1 G) as (b & B1 & B2). simpl in B2.
    pose proof (fresh_l (Some (length (h_bufs h))) None _ s (mkArr (Some (length (h_bufs h))) sz cap OWN (Some (length (h_ctrs h')))) I3 U2 eq_refl) as R.
    simpl in R. rewrite upd_upd in R. apply R; auto; try discriminate. congruence.
    intros _. split; auto. exists (length (h_bufs h)), b. repeat split; auto; lia.
  - destruct (dtor_l _ _ _ _ I Ha) as (h' & E1 & E2 & E3 & I3). unfold bind. rewrite E1. unfold new_ctr.
    eexists. split; [reflexivity|]. unfold set_arr; simpl.
    assert (U2 : unused (set_arr h' s None) s). { apply unused_set_none with a. unfold holds. rewrite E2. exact Ha. }
    pose proof (fresh_l None None _ s (mkArr None 0 0 UNDEF (Some (length (h_ctrs h')))) I3 U2 eq_refl) as R.
    simpl in R. rewrite upd_upd in R. apply R; auto; discriminate.
Qed.

Lemma readall_ok : forall p h s a, Inv p h -> holds h s a -> a_status a = OWN \/ readable h a -> readall h a = Ok tt.
Proof.
  intros p h s a I Ha H. unfold readall. destruct (Nat.eqb_spec (a_size a) 0); auto.
  assert (exists d b, a_data a = Some d /\ nth_error (h_bufs h) d = Some b /\ b_alive b = true /\ a_size a <= b_len b) as (d & b & E1 & E2 & E3 & E4).
  { destruct H as [H|[H|H]]; auto; try lia. destruct (iv_own _ _ I _ _ Ha H) as (d & c & b & r & E1 & _ & E3 & _ & E5 & E6 & E7 & _).
    exists d, b. repeat split; auto; lia. }
  rewrite E1, (get_error _ _ _ _ E2). simpl. rewrite E3. destruct (Nat.leb_spec (a_size a) (b_len b)); auto; lia.
Qed.

Lemma step_inv : forall o h, Inv None h -> legal o h -> exists h', astep o h = Ok h' /\ Inv None h'.
Proof.
  intros o h I L. destruct o; simpl in L.
  - (* ODefault *) unfold astep. rewrite free_slot_ok by auto. simpl. eexists. split; [reflexivity|]. unfold set_arr; simpl.
    apply (fresh_l None None); simpl; auto; discriminate.
  - (* ONew *) unfold astep. rewrite free_slot_ok by auto. simpl. destruct ok; simpl; eexists; (split; [reflexivity|]); unfold set_arr; simpl.
    + pose proof (newbuf_l h n I) as I2.
      apply (fresh_l (Some (length (h_bufs h))) None _ s (mkArr (Some (length (h_bufs h))) n n OWN (Some (length (h_ctrs h)))) I2); simpl; auto; try discriminate.
      congruence. intros _. split; auto. exists (length (h_bufs h)), (mkBuf n BOwned true 0). rewrite nth_error_snoc, Nat.eqb_refl. auto.
    + apply (fresh_l None None); simpl; auto; discriminate.
  - (* OCopyFrom *) unfold astep. rewrite free_slot_ok by auto. simpl. destruct ok; simpl; eexists; (split; [reflexivity|]); unfold set_arr; simpl.
    + pose proof (newbuf_l h n I) as I2.
      apply (fresh_l (Some (length (h_bufs h))) None _ s (mkArr (Some (length (h_bufs h))) n n OWN (Some (length (h_ctrs h)))) I2); simpl; auto; try discriminate.
      congruence. intros _. split; auto. exists (length (h_bufs h)), (mkBuf n BOwned true 0). rewrite nth_error_snoc, Nat.eqb_refl. auto.
    + apply (fresh_l None None); simpl; auto; discriminate.
  - (* OWrap *) destruct L as (U & Hp). unfold astep. rewrite free_slot_ok by auto. simpl.
    destruct (nth_error (h_bufs h) p) as [b|] eqn:Eb; [|apply nth_error_None in Eb; lia].
    rewrite (get_error _ _ _ _ Eb). simpl. eexists. split; [reflexivity|]. unfold set_arr; simpl.
    apply (fresh_l None None); simpl; auto; discriminate.
  - (* OCopy *) destruct L as (U & a & Ha & Hm). unfold astep. rewrite free_slot_ok by auto. simpl. rewrite (object_ok _ _ _ Ha). simpl.
    unfold moved_from in Hm. destruct (a_cnt a) as [c|] eqn:Ec; [|congruence].
    destruct (cnt_alive _ _ _ _ _ I Ha Ec) as (r & Er & Al & _). unfold ctr_inc, live_ctr. rewrite (get_error _ _ _ _ Er). simpl. rewrite Al. simpl.
    eexists. split; [reflexivity|]. unfold set_arr, put_ctr; simpl. eapply share_l; eauto.
  - (* OClone *) destruct L as (U & a & Ha & Hr). unfold astep. rewrite free_slot_ok by auto. simpl. rewrite (object_ok _ _ _ Ha). simpl.
    rewrite (readall_ok _ _ _ _ I Ha Hr). simpl.
    eexists. split; [reflexivity|]. unfold set_arr; simpl.
    pose proof (newbuf_l h (a_size a) I) as I2.
    apply (fresh_l (Some (length (h_bufs h))) None _ d (mkArr (Some (length (h_bufs h))) (a_size a) (a_size a) OWN (Some (length (h_ctrs h)))) I2); simpl; auto; try discriminate.
    congruence. intros _. split; auto. exists (length (h_bufs h)), (mkBuf (a_size a) BOwned true 0). rewrite nth_error_snoc, Nat.eqb_refl. auto.
  - (* OMove *) destruct L as (U & a & Ha). unfold astep. rewrite free_slot_ok by auto. simpl. rewrite (object_ok _ _ _ Ha). simpl.
    eexists. split; [reflexivity|]. unfold set_arr; simpl.
    assert (N : d <> s). { intros ->. eapply holds_not_unused; eauto. }
    assert (Ld : d < length (h_arrs h)) by (eapply nth_error_lt; exact U).
    assert (Ls : s < length (upd (h_arrs h) d (Some a))) by (rewrite upd_length; eapply nth_error_lt; exact Ha).
    apply rearr_l; auto.
    + intros k. pose proof (refs_swap2 _ d s _ _ (Some a) (Some reset_arr) k N U Ha). simpl in *. lia.
    + intros s' a' E. rewrite nth_error_upd in E by auto. destruct (Nat.eqb_spec s' s). { inversion E; subst a'. left. auto. }
      rewrite nth_error_upd in E by auto. right. destruct (Nat.eqb_spec s' d). { inversion E; subst a'. exists s, a. repeat split; auto. }
      exists s', a'. repeat split; auto.
    + intros s0 a0 K E. destruct (Nat.eq_dec s0 s).
      * subst s0. unfold holds in *. rewrite Ha in K. inversion K; subst a0. exists d, a. rewrite nth_error_upd by auto.
        destruct (Nat.eqb_spec d s); [congruence|]. rewrite nth_error_upd by auto. rewrite Nat.eqb_refl. auto.
      * exists s0, a0. rewrite nth_error_upd by auto. destruct (Nat.eqb_spec s0 s); [congruence|]. rewrite nth_error_upd by auto.
        destruct (Nat.eqb_spec s0 d). { subst. exfalso. eapply holds_not_unused; eauto. } auto.
  - (* OAssign *) destruct L as ((t & Ht) & a & Ha & Hm). unfold astep. rewrite (object_ok _ _ _ Ht). simpl. rewrite (object_ok _ _ _ Ha). simpl.
    destruct (same_ptr (a_data t) (a_data a)) eqn:Sp. { eauto. }
    assert (N : s <> d). { intros ->. unfold holds in *. rewrite Ht in Ha. inversion Ha; subst t. destruct (a_data a); simpl in Sp; [rewrite Nat.eqb_refl in Sp|]; discriminate. }
    destruct (dtor_l _ _ _ _ I Ht) as (h' & E1 & E2 & E3 & I2). rewrite E1. simpl.
    unfold moved_from in Hm. destruct (a_cnt a) as [c|] eqn:Ec; [|congruence].
    assert (Ha2 : holds (set_arr h' d None) s a). { apply holds_set. rewrite E2. eapply nth_error_lt; exact Ht. right. split; auto. unfold holds. rewrite E2. exact Ha. }
    destruct (cnt_alive _ _ _ _ _ I2 Ha2 Ec) as (r & Er & Al & _). simpl in Er.
    unfold ctr_inc, live_ctr. rewrite (get_error _ _ _ _ Er). simpl. rewrite Al. simpl.
    eexists. split; [reflexivity|]. unfold set_arr, put_ctr; simpl.
    assert (U2 : unused (set_arr h' d None) d). { apply unused_set_none with t. unfold holds. rewrite E2. exact Ht. }
    pose proof (share_l _ d s a c r I2 U2 Ha2 Ec Er) as R. simpl in R. rewrite upd_upd in R. exact R.
  - (* OMoveAssign *) destruct L as ((t & Ht) & a & Ha). unfold astep. rewrite (object_ok _ _ _ Ht). simpl. rewrite (object_ok _ _ _ Ha). simpl.
    destruct (same_ptr (a_data t) (a_data a)) eqn:Sp. { eauto. }
    assert (N : d <> s). { intros ->. unfold holds in *. rewrite Ht in Ha. inversion Ha; subst t. destruct (a_data a); simpl in Sp; [rewrite Nat.eqb_refl in Sp|]; discriminate. }
    destruct (dtor_l _ _ _ _ I Ht) as (h' & E1 & E2 & E3 & I2). rewrite E1. simpl.
    assert (Ha2 : holds (set_arr h' d None) s a). { apply holds_set. rewrite E2. eapply nth_error_lt; exact Ht. right. split; auto. unfold holds. rewrite E2. exact Ha. }
    assert (U2 : unused (set_arr h' d None) d). { apply unused_set_none with t. unfold holds. rewrite E2. exact Ht. }
    eexists. split; [reflexivity|]. unfold set_arr; simpl.
    set (g := set_arr h' d None) in *.
    assert (Ld : d < length (h_arrs g)) by (eapply nth_error_lt; exact U2).
    assert (Ls : s < length (upd (h_arrs g) d (Some a))) by (rewrite upd_length; eapply nth_error_lt; exact Ha2).
    replace (mkHeap (upd (upd (h_arrs h') d (Some a)) s (Some reset_arr)) (h_bufs h') (h_ctrs h')) with
            (mkHeap (upd (upd (h_arrs g) d (Some a)) s (Some reset_arr)) (h_bufs g) (h_ctrs g)) by (unfold g; simpl; now rewrite upd_upd).
    clearbody g. apply rearr_l; auto.
    + intros k. pose proof (refs_swap2 _ d s _ _ (Some a) (Some reset_arr) k N U2 Ha2). simpl in *. lia.
    + intros s' a' E. rewrite nth_error_upd in E by auto. destruct (Nat.eqb_spec s' s). { inversion E; subst a'. left. auto. }
      rewrite nth_error_upd in E by auto. right. destruct (Nat.eqb_spec s' d). { inversion E; subst a'. exists s, a. repeat split; auto. }
      exists s', a'. repeat split; auto.
    + intros s0 a0 K E. destruct (Nat.eq_dec s0 s).
      * subst s0. unfold holds in *. rewrite Ha2 in K. inversion K; subst a0. exists d, a. rewrite nth_error_upd by auto.
        destruct (Nat.eqb_spec d s); [congruence|]. rewrite nth_error_upd by auto. rewrite Nat.eqb_refl. auto.
      * exists s0, a0. rewrite nth_error_upd by auto. destruct (Nat.eqb_spec s0 s); [congruence|]. rewrite nth_error_upd by auto.
        destruct (Nat.eqb_spec s0 d). { subst. exfalso. eapply holds_not_unused; eauto. } auto.
  - (* OSwap *) destruct L as ((t & Ht) & a & Ha). unfold astep. rewrite (object_ok _ _ _ Ht). simpl. rewrite (object_ok _ _ _ Ha). simpl.
    eexists. split; [reflexivity|]. unfold set_arr; simpl.
    assert (Ld : d < length (h_arrs h)) by (eapply nth_error_lt; exact Ht).
    assert (Ls : s < length (upd (h_arrs h) d (Some a))) by (rewrite upd_length; eapply nth_error_lt; exact Ha).
    assert (Eq : d = s -> t = a). { intros ->. unfold holds in *. congruence. }
    apply rearr_l; auto.
    + intros k. destruct (Nat.eq_dec d s) as [->|N].
      * rewrite (Eq eq_refl), upd_upd. pose proof (refs_upd _ _ _ (Some a) k Ha). lia.
      * pose proof (refs_swap2 _ d s _ _ (Some a) (Some t) k N Ht Ha). lia.
    + intros s' a' E. rewrite nth_error_upd in E by auto. right. destruct (Nat.eqb_spec s' s). { inversion E; subst a'. exists d, t. repeat split; auto. }
      rewrite nth_error_upd in E by auto. destruct (Nat.eqb_spec s' d). { inversion E; subst a'. exists s, a. repeat split; auto. }
      exists s', a'. repeat split; auto.
    + intros s0 a0 K E. destruct (Nat.eq_dec s0 s); [|destruct (Nat.eq_dec s0 d)].
      * subst s0. unfold holds in *. rewrite Ha in K. inversion K; subst a0. exists d, a. rewrite nth_error_upd by auto.
        destruct (Nat.eqb_spec d s). { rewrite (Eq e). auto. } rewrite nth_error_upd by auto. rewrite Nat.eqb_refl. auto.
      * subst s0. unfold holds in *. rewrite Ht in K. inversion K; subst a0. exists s, t. rewrite nth_error_upd by auto. rewrite Nat.eqb_refl. auto.
      * exists s0, a0. rewrite nth_error_upd by auto. destruct (Nat.eqb_spec s0 s); [congruence|]. rewrite nth_error_upd by auto.
        destruct (Nat.eqb_spec s0 d); [congruence|]. auto.
  - (* OResize *) destruct L as (a & Ha & Hr). unfold astep. rewrite (object_ok _ _ _ Ha). simpl.
    assert (Ls : s < length (h_arrs h)) by (eapply nth_error_lt; exact Ha).
    destruct (Nat.leb_spec n (a_cap a)).
    + eexists. split; [reflexivity|]. unfold set_arr; simpl. apply rearr_l; auto.
      * intros k. pose proof (refs_upd _ _ _ (Some (mkArr (a_data a) n (a_cap a) (a_status a) (a_cnt a))) k Ha) as R. simpl in R. lia.
      * intros s' a' E. right. rewrite nth_error_upd in E by auto. destruct (Nat.eqb_spec s' s).
        { inversion E; subst a'. exists s, a. repeat split; auto. }
        exists s', a'. repeat split; auto.
      * intros s0 a0 K E. destruct (Nat.eq_dec s0 s).
        { subst s0. unfold holds in *. rewrite Ha in K. inversion K; subst a0. eexists s, _. rewrite nth_error_upd, Nat.eqb_refl by auto. split; [reflexivity|]. auto. }
        exists s0, a0. rewrite nth_error_upd by auto. destruct (Nat.eqb_spec s0 s); [congruence|]. auto.
    + replace (if ok then readall h a else Ok tt) with (Ok tt) by (destruct ok; auto; now rewrite (readall_ok _ _ _ _ I Ha Hr)).
      apply (realloc_l h s a n (Nat.max n cap) ok I Ha). lia.
  - (* OReserve *) destruct L as (a & Ha & Hr). unfold astep. rewrite (object_ok _ _ _ Ha). simpl.
    destruct (Nat.leb_spec n (a_cap a)); eauto.
    replace (if ok then readall h a else Ok tt) with (Ok tt) by (destruct ok; auto; now rewrite (readall_ok _ _ _ _ I Ha Hr)).
    apply (realloc_l h s a (a_size a) n ok I Ha). pose proof (iv_sz _ _ I _ _ Ha). lia.
  - (* OSteal *) destruct L as (a & Ha). unfold astep. rewrite (object_ok _ _ _ Ha). simpl.
    destruct (a_status a) eqn:Es; eauto.
    destruct (iv_own _ _ I _ _ Ha Es) as (d & c & b & r & E1 & E2 & E3 & E4 & E5).
    rewrite E1, E2. destruct (cnt_alive _ _ _ _ _ I Ha E2) as (r' & Er & Al & _). rewrite E4 in Er. inversion Er; subst r'.
    unfold live_ctr. rewrite (get_error _ _ _ _ E4). simpl. rewrite Al. simpl. rewrite (get_error _ _ _ _ E3). simpl.
    eexists. split; [reflexivity|]. unfold set_arr; simpl. eapply steal_l; eauto.
  - (* ODestroy *) destruct L as (a & Ha). unfold astep. rewrite (object_ok _ _ _ Ha). simpl.
    destruct (dtor_l _ _ _ _ I Ha) as (h' & E1 & E2 & E3 & I3). rewrite E1. simpl. eauto.
Qed.

Lemma init_inv : forall h, initial h -> Inv None h.
Proof.
  intros h (H1 & H2 & H3).
  assert (R : forall k, refs (h_arrs h) k = 0).
  { intros k. unfold refs. assert (forall l, (forall s o, nth_error l s = Some o -> o = None) -> list_sum (map (hask k) l) = 0).
    { induction l; intros K; simpl; auto. rewrite (K 0 a eq_refl). simpl. apply IHl. intros s o E. apply (K (S s) o E). }
    auto. }
  assert (N : forall s a, ~ holds h s a). { intros s a K. specialize (H1 _ _ K). discriminate. }
  split; try (intros; exfalso; eapply N; eauto; fail).
  - intros k r E. rewrite H3 in E. destruct k; discriminate.
  - auto.
  - auto.
  - intros d b E K. destruct (H2 d b E) as (K' & _). congruence.
  - discriminate.
  - intros d b E. destruct (H2 d b E) as (K1 & K2 & K3). rewrite K2, K3. auto.
Qed.
Lemma reach_inv : forall h, reach h -> Inv None h.
Proof. induction 1. now apply init_inv. destruct (step_inv o h IHreach H0) as (h2 & E & I). congruence. Qed.
