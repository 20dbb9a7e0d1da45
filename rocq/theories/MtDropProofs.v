(** * MtDropProofs: thinning the offset blocks with several threads, one block. *)
From Coq Require Import List Arith Lia Bool Permutation.
From Verif Require Import Base Scalar Spec CSModel CSSpec ConvModel ConvSpec BucketProofs ConvProofs ConvProofs2
  ConvProofs3 ConvProofs4 Mag VecModel VecSpec VecProofs CroutModel CroutSpec SchurModel SchurSpec SchurProofs1 SchurProofs4
  MtModel MtProofs MtDropModel.
Import ListNotations.

Section P.
  Context {O : Ops}.
  Notation T := (T O).
  Notation half := (@half O). Notation dth := (@dth O). Notation dconf := (@dconf O).
  Variable G : Mag O.
  Variable ceil_mul : M G -> nat -> nat.
  Variable nth_el : (nat -> M G) -> nat -> list nat -> list nat.
  Hypothesis NE : nth_element_ok (mle G) nth_el.
  Hypothesis LOC : forall f g k l, (forall j, In j l -> f j = g j) -> nth_el f k l = nth_el g k l.
  Variable ref2 : bool -> list nat.
  Variable alpha2 : bool -> M G.
  Variable u : bool.
  Notation ref := (ref2 u).
  Notation alpha := (alpha2 u).

  Variable A : CS O.
  Let n := psize A.
  Hypothesis W : wf A. Hypothesis D : distinct A.
  Hypothesis Lr : n + 1 <= length ref.
  Hypothesis Rm : forall i, i < n -> nth i ref 0 <= nth (S i) ref 0.
  Notation lim := (dlim G ceil_mul ref alpha).
  Hypothesis Pos : forall i, i < n -> rowl A i <> [] -> 1 <= lim i.

  Definition len (i : nat) : nat := st A (S i) - st A i.
  Definition kv (i j : nat) : T := match find (fun e => fst e =? j) (rowl A i) with Some e => snd e | None => t0 O end.
  Definition over (i : nat) : bool := lim i <? len i.
  Definition sl (i : nat) : list nat :=
    if over i then nth_el (fun j => mabs G (kv i j)) (lim i) (slice (st A i) (len i) (indices A)) else slice (st A i) (len i) (indices A).
  Definition FI (i x : nat) : nat := nth (x - st A i) (sl i) 0.
  Definition FV (i x : nat) : T := if over i && (x <? st A i + lim i) then kv i (FI i x) else vl A x.
  Definition gp (i : nat) : nat := len i - lim i.

  Definition rdone (i : nat) (gaps ind : list nat) (val : list T) : Prop :=
    nth i gaps 0 = gp i /\ forall x, st A i <= x < st A (S i) -> nth x ind 0 = FI i x /\ nth x val (t0 O) = FV i x.
  Definition rraw (i : nat) (ind : list nat) (val : list T) : Prop :=
    forall x, st A i <= x < st A (S i) -> nth x ind 0 = ix A x /\ nth x val (t0 O) = vl A x.
  Definition bufok (i k : nat) (buf : list T) : Prop := forall y, st A i <= y < k -> nth (ix A y) buf (t0 O) = vl A y.

  Lemma row_le : forall i, i < n -> st A i <= st A (S i) /\ st A (S i) <= length (indices A) /\ st A (S i) <= length (vals A) /\ st A (S i) <= st A n.
  Proof.
    intros i Hi. pose proof (wf_mono O A W i Hi). pose proof (st_mono O A W (S i) n ltac:(lia) ltac:(unfold n; lia)).
    pose proof (wf_inds O A W). pose proof (wf_vals O A W). fold n in H1, H2. lia.
  Qed.
  Lemma ix_lt : forall i x, i < n -> st A i <= x < st A (S i) -> ix A x < ssize A.
  Proof. intros i x Hi Hx. pose proof (row_le i Hi). apply (wf_range O A W). fold n. lia. Qed.
  Lemma ix_inj : forall i x y, i < n -> st A i <= x < st A (S i) -> st A i <= y < st A (S i) -> ix A x = ix A y -> x = y.
  Proof.
    intros i x y Hi Hx Hy E. pose proof (D i Hi) as DD. rewrite NoDup_nth with (d := 0) in DD. specialize (DD (x - st A i) (y - st A i)).
    rewrite map_length, rowl_length in DD. change 0 with (fst (0, t0 O)) in DD. rewrite !map_nth, !rowl_nth in DD by lia. cbn [fst] in DD.
    replace (st A i + (x - st A i)) with x in DD by lia. replace (st A i + (y - st A i)) with y in DD by lia. specialize (DD ltac:(lia) ltac:(lia) E). lia.
  Qed.
  Lemma kv_ix : forall i x, i < n -> st A i <= x < st A (S i) -> kv i (ix A x) = vl A x.
  Proof.
    intros i x Hi Hx. unfold kv. destruct (find _ _) as [[j v]|] eqn:E.
    - apply find_some in E. destruct E as (I & E). cbn [fst] in E. apply Nat.eqb_eq in E. apply rowl_in in I. destruct I as (y & Hy & E1 & E2).
      cbn [snd]. assert (y = x). { apply (ix_inj i); auto. congruence. } subst y. congruence.
    - exfalso. pose proof (find_none _ _ E (ix A x, vl A x)) as N. cbn [fst] in N. rewrite Nat.eqb_refl in N. assert (false = true); [|discriminate].
      symmetry. apply N. apply rowl_in. exists x. auto.
  Qed.
  Lemma lim_pos : forall i, i < n -> over i = true -> 1 <= lim i.
  Proof. intros i Hi Ho. apply Pos; auto. intros E. apply (f_equal (@length _)) in E. rewrite rowl_length in E. cbn in E. unfold over, len in Ho. apply Nat.ltb_lt in Ho. lia. Qed.
  Lemma slice_len : forall i, i < n -> length (slice (st A i) (len i) (indices A)) = len i.
  Proof. intros i Hi. pose proof (row_le i Hi). apply slice_length. unfold len. lia. Qed.
  Lemma sl_perm : forall i, i < n -> Permutation (slice (st A i) (len i) (indices A)) (sl i).
  Proof.
    intros i Hi. unfold sl. destruct (over i) eqn:Ov; [|apply Permutation_refl]. pose proof (lim_pos i Hi Ov). unfold over in Ov. apply Nat.ltb_lt in Ov.
    apply NE. rewrite slice_len; auto. lia.
  Qed.
  Lemma sl_len : forall i, i < n -> length (sl i) = len i.
  Proof. intros i Hi. rewrite <- (Permutation_length (sl_perm i Hi)). now apply slice_len. Qed.
  Lemma FI_in : forall i x, i < n -> st A i <= x < st A (S i) -> exists y, st A i <= y < st A (S i) /\ FI i x = ix A y.
  Proof.
    intros i x Hi Hx. assert (I : In (FI i x) (sl i)). { apply nth_In. rewrite sl_len by auto. unfold len. lia. }
    apply (Permutation_in _ (Permutation_sym (sl_perm i Hi))) in I. apply (In_nth _ _ 0) in I. destruct I as (r & Hr & E). rewrite slice_len in Hr by auto.
    rewrite nth_slice in E by auto. exists (st A i + r). unfold len in Hr. split; [lia|]. symmetry. exact E.
  Qed.
  Lemma FI_raw : forall i x, over i = false -> st A i <= x < st A (S i) -> FI i x = ix A x.
  Proof. intros i x Ho Hx. unfold FI, sl. rewrite Ho. rewrite nth_slice by (unfold len; lia). unfold ix. f_equal. lia. Qed.
  Lemma FV_raw : forall i x, over i = false -> FV i x = vl A x.
  Proof. intros i x Ho. unfold FV. now rewrite Ho. Qed.
  Lemma FI_buf : forall i x buf, i < n -> st A i <= x < st A (S i) -> bufok i (st A (S i)) buf ->
    nth (FI i x) buf (t0 O) = kv i (FI i x) /\ FI i x < ssize A.
  Proof. intros i x buf Hi Hx Hb. destruct (FI_in i x Hi Hx) as (y & Hy & ->). rewrite kv_ix by auto. split; [now apply Hb|now apply (ix_lt i)]. Qed.

  (** Selection on an untouched primary with fetched values. *)
  Lemma sel_eq : forall i ind val buf, i < n -> rraw i ind val -> length ind = length (indices A) -> bufok i (st A (S i)) buf -> over i = true ->
    nth_el (fun j => mabs G (nth j buf (t0 O))) (lim i) (slice (st A i) (st A (S i) - st A i) ind) = sl i.
  Proof.
    intros i ind val buf Hi Hr Li Hb Ho. pose proof (row_le i Hi) as RL. unfold sl. rewrite Ho. fold (len i).
    assert (E : slice (st A i) (len i) ind = slice (st A i) (len i) (indices A)).
    { apply (list_ext _ _ _ 0). { rewrite slice_len, slice_length; auto. unfold len. lia. }
      intros r Hr'. rewrite slice_length in Hr' by (unfold len; lia). rewrite !nth_slice by auto. apply Hr. unfold len in Hr'. lia. }
    rewrite E. apply LOC. intros j Hj. f_equal. apply (In_nth _ _ 0) in Hj. destruct Hj as (r & Hr' & <-). rewrite slice_len in Hr' by auto.
    rewrite nth_slice by auto. fold (ix A (st A i + r)). unfold len in Hr'. rewrite kv_ix by (auto; lia). apply Hb. lia.
  Qed.
  Lemma splice : forall i (ind : list nat), i < n -> length ind = length (indices A) ->
    let ind' := firstn (st A i) ind ++ sl i ++ skipn (st A (S i)) ind in
    length ind' = length ind /\ (forall x, st A i <= x < st A (S i) -> nth x ind' 0 = FI i x) /\
    (forall x, x < st A i \/ st A (S i) <= x -> nth x ind' 0 = nth x ind 0).
  Proof.
    intros i ind Hi Li ind'. pose proof (row_le i Hi) as RL. pose proof (sl_len i Hi) as SL. unfold len in SL.
    split; [|split].
    - unfold ind'. rewrite !app_length, firstn_length, skipn_length. lia.
    - intros x Hx. unfold ind'. rewrite app_nth2 by (rewrite firstn_length; lia). rewrite firstn_length, Nat.min_l by lia. now rewrite app_nth1 by lia.
    - intros x [Hx|Hx]; unfold ind'.
      + rewrite app_nth1 by (rewrite firstn_length; lia). now rewrite nth_firstn_lt.
      + rewrite app_nth2 by (rewrite firstn_length; lia). rewrite firstn_length, Nat.min_l by lia. rewrite app_nth2 by lia.
        rewrite nth_skipn'. f_equal. lia.
  Qed.

  Lemma rdone_frame : forall i gaps ind val gaps' ind' val', nth i gaps' 0 = nth i gaps 0 ->
    (forall x, st A i <= x < st A (S i) -> nth x ind' 0 = nth x ind 0 /\ nth x val' (t0 O) = nth x val (t0 O)) ->
    rdone i gaps ind val -> rdone i gaps' ind' val'.
  Proof. intros i gaps ind val gaps' ind' val' Eg F (H1 & H2). split; [congruence|]. intros x Hx. destruct (F x Hx) as (-> & ->). auto. Qed.
  Lemma rraw_frame : forall i ind val ind' val',
    (forall x, st A i <= x < st A (S i) -> nth x ind' 0 = nth x ind 0 /\ nth x val' (t0 O) = nth x val (t0 O)) ->
    rraw i ind val -> rraw i ind' val'.
  Proof. intros i ind val ind' val' F H x Hx. destruct (F x Hx) as (-> & ->). auto. Qed.

  Lemma bufok_step : forall i k buf, i < n -> st A i <= k < st A (S i) -> ssize A <= length buf -> bufok i k buf -> bufok i (S k) (upd buf (ix A k) (vl A k)).
  Proof.
    intros i k buf Hi Hk Hb H y Hy. pose proof (ix_lt i k Hi Hk). rewrite nth_upd by lia. destruct (Nat.eqb_spec (ix A y) (ix A k)) as [E|E].
    - f_equal. apply (ix_inj i); auto; lia.
    - apply H. assert (y <> k) by congruence. lia.
  Qed.

  Lemma row_of : forall x, x < st A n -> exists i, i < n /\ st A i <= x < st A (S i).
  Proof.
    intros x. assert (H : forall m, m <= n -> x < st A m -> exists i, i < m /\ st A i <= x < st A (S i)).
    { induction m; intros Hm Hx.
      - pose proof (wf_first O A W) as F. unfold st in *. lia.
      - destruct (Nat.lt_ge_cases x (st A m)) as [C|C]; [|exists m; split; [lia|lia]]. destruct (IHm ltac:(lia) C) as (i & ? & ?). exists i. split; [lia|auto]. }
    intros Hx. now apply H.
  Qed.
  (** ** The serial loop, position by position *)
  Section Serial.
  Variables (gaps0 : list nat) (lb : nat).
  Hypothesis HG : n <= length gaps0.
  Hypothesis HB : ssize A <= lb.
  Definition sinv (k : nat) (s : list nat * list nat * list T * list T) : Prop :=
    let '(gaps, ind, val, buf) := s in
    length gaps = length gaps0 /\ length ind = length (indices A) /\ length val = length (vals A) /\ length buf = lb /\
    (forall i, i < k -> rdone i gaps ind val) /\
    (forall x, st A k <= x -> nth x ind 0 = ix A x /\ nth x val (t0 O) = vl A x) /\
    forall j, k <= j -> nth j gaps 0 = nth j gaps0 0.

  Lemma select_pt : forall k s, k < n -> sinv k s -> wp (drop_select G ceil_mul nth_el ref alpha (ind_start A) k s) (sinv (S k)).
  Proof.
    intros k [[[gaps ind] val] buf] Hk (L1 & L2 & L3 & L4 & Hd & Hr & Hg). unfold drop_select.
    pose proof (wf_len O A W) as WL. fold n in WL. pose proof (row_le k Hk) as RL. pose proof (Rm k Hk) as RM.
    wpb. apply wp_get with (d := 0); [lia|]. wpb. apply wp_get with (d := 0); [lia|].
    wpb. apply wp_get with (d := 0); [lia|]. wpb. apply wp_get with (d := 0); [lia|].
    change (nth (S k) (ind_start A) 0) with (st A (S k)). change (nth k (ind_start A) 0) with (st A k).
    destruct (Nat.ltb_spec (nth (S k) ref 0) (nth k ref 0)); [lia|]. destruct (Nat.ltb_spec (st A (S k)) (st A k)); [lia|]. cbn [orb].
    fold (lim k). fold (len k).
    assert (RR : rraw k ind val) by (intros x Hx; apply Hr; lia).
    assert (Old : forall gaps' ind' val', nth k gaps' 0 = gp k -> (forall j, j <> k -> nth j gaps' 0 = nth j gaps 0) ->
      (forall x, st A k <= x < st A (S k) -> nth x ind' 0 = FI k x /\ nth x val' (t0 O) = FV k x) ->
      (forall x, x < st A k \/ st A (S k) <= x -> nth x ind' 0 = nth x ind 0 /\ nth x val' (t0 O) = nth x val (t0 O)) ->
      (forall i, i < S k -> rdone i gaps' ind' val') /\ (forall x, st A (S k) <= x -> nth x ind' 0 = ix A x /\ nth x val' (t0 O) = vl A x) /\
      (forall j, S k <= j -> nth j gaps' 0 = nth j gaps0 0)).
    { intros gaps' ind' val' G1 G2 G3 G4. split; [|split].
      - intros i Hi. destruct (Nat.eq_dec i k) as [->|NEi]; [split; auto|]. apply (rdone_frame i gaps ind val); [now apply G2| |apply Hd; lia].
        intros x Hx. apply G4. left. pose proof (st_mono O A W (S i) k ltac:(lia) ltac:(fold n; lia)). lia.
      - intros x Hx. destruct (G4 x ltac:(lia)) as (-> & ->). apply Hr. lia.
      - intros j Hj. rewrite G2 by lia. apply Hg. lia. }
    destruct (Nat.leb_spec (len k) (lim k)) as [C|C].
    - assert (Ov : over k = false) by (unfold over; apply Nat.ltb_ge; lia).
      wpb. apply wp_set; [lia|]. apply wp_ok. split; [now rewrite upd_length|]. split; auto. split; auto. split; auto.
      apply Old; auto.
      + rewrite nth_upd by lia. rewrite Nat.eqb_refl. unfold gp. lia.
      + intros j Hj. rewrite nth_upd by lia. destruct (Nat.eqb_spec j k); congruence.
      + intros x Hx. rewrite FI_raw, FV_raw by auto. apply RR; auto.
    - assert (Ov : over k = true) by (unfold over; apply Nat.ltb_lt; lia). pose proof (lim_pos k Hk Ov) as LP.
      wpb. apply wp_set; [lia|].
      wpb. eapply wp_conseq.
      { apply (for_range_inv _ (fun x buf' => length buf' = lb /\ bufok k x buf')); [lia| |].
        - split; auto. intros y Hy. lia.
        - intros x buf' Hx (Lb & Hb). destruct (RR x ltac:(lia)) as (R1 & R2). wpb. apply wp_get with (d := 0); [lia|]. wpb. apply wp_get with (d := t0 O); [lia|].
          rewrite R1, R2. pose proof (ix_lt k x Hk Hx). apply wp_set; [lia|]. rewrite upd_length. split; auto. apply bufok_step; auto. lia. }
      intros buf' (Lb & Hb).
      destruct (Nat.eqb_spec (lim k) 0); [lia|]. destruct (Nat.ltb_spec (length ind) (st A (S k))); [lia|]. cbn [orb].
      change (len k) with (st A (S k) - st A k). rewrite (sel_eq k ind val buf' Hk RR L2 Hb Ov). destruct (splice k ind Hk L2) as (S1 & S2 & S3).
      set (ind' := firstn (st A k) ind ++ sl k ++ skipn (st A (S k)) ind) in *.
      wpb. eapply wp_conseq.
      { apply (for_range_inv _ (fun x val' => length val' = length val /\ (forall y, st A k <= y < x -> nth y val' (t0 O) = FV k y) /\
           forall y, y < st A k \/ x <= y -> nth y val' (t0 O) = nth y val (t0 O))); [lia| |].
        - split; auto. split; [intros; lia|auto].
        - intros x val' Hx (Lv & Hv1 & Hv2). unfold len in C. wpb. apply wp_get with (d := 0); [lia|]. rewrite S2 by lia.
          destruct (FI_buf k x buf' Hk ltac:(lia) Hb) as (F1 & F2). wpb. apply wp_get with (d := t0 O); [lia|]. rewrite F1. apply wp_set; [lia|].
          rewrite upd_length. split; auto. split.
          + intros y Hy. rewrite nth_upd by lia. destruct (Nat.eqb_spec y x) as [->|].
            * unfold FV. rewrite Ov. destruct (Nat.ltb_spec x (st A k + lim k)); [reflexivity|lia].
            * apply Hv1. lia.
          + intros y Hy. rewrite nth_upd by lia. destruct (Nat.eqb_spec y x); [lia|]. apply Hv2. lia. }
      intros val' (Lv & Hv1 & Hv2). apply wp_ok. split; [now rewrite upd_length|]. split; [lia|]. split; [lia|]. split; auto.
      unfold len in C. apply Old; auto.
      + rewrite nth_upd by lia. now rewrite Nat.eqb_refl.
      + intros j Hj. rewrite nth_upd by lia. destruct (Nat.eqb_spec j k); congruence.
      + intros x Hx. split; [now apply S2|]. destruct (Nat.lt_ge_cases x (st A k + lim k)) as [C2|C2]; [apply Hv1; lia|].
        rewrite Hv2 by lia. unfold FV. destruct (Nat.ltb_spec x (st A k + lim k)); [lia|]. rewrite andb_false_r. apply RR. lia.
      + intros x Hx. split; [now apply S3|]. apply Hv2. lia.
  Qed.

  (** Arrays that agree with the serial ones everywhere. *)
  Definition pdone (gaps ind : list nat) (val : list T) : Prop :=
    length gaps = length gaps0 /\ length ind = length (indices A) /\ length val = length (vals A) /\
    (forall i, i < n -> rdone i gaps ind val) /\
    (forall x, st A n <= x -> nth x ind 0 = ix A x /\ nth x val (t0 O) = vl A x) /\
    forall j, n <= j -> nth j gaps 0 = nth j gaps0 0.
  Lemma pdone_unique : forall g i v g' i' v', pdone g i v -> pdone g' i' v' -> g = g' /\ i = i' /\ v = v'.
  Proof.
    intros g i v g' i' v' (L1 & L2 & L3 & H1 & H2 & H3) (L1' & L2' & L3' & H1' & H2' & H3'). split; [|split].
    - apply (list_ext _ _ _ 0); [congruence|]. intros j Hj. destruct (Nat.lt_ge_cases j n) as [C|C].
      + destruct (H1 j C) as (-> & _). destruct (H1' j C) as (-> & _). reflexivity.
      + rewrite H3, H3' by auto. reflexivity.
    - apply (list_ext _ _ _ 0); [congruence|]. intros x Hx. destruct (Nat.lt_ge_cases x (st A n)) as [C|C].
      + destruct (row_of x C) as (r & Hr & Hxr). destruct (H1 r Hr) as (_ & Y). destruct (H1' r Hr) as (_ & Y'). destruct (Y x Hxr) as (-> & _). now destruct (Y' x Hxr) as (-> & _).
      + destruct (H2 x C) as (-> & _). now destruct (H2' x C) as (-> & _).
    - apply (list_ext _ _ _ (t0 O)); [congruence|]. intros x Hx. destruct (Nat.lt_ge_cases x (st A n)) as [C|C].
      + destruct (row_of x C) as (r & Hr & Hxr). destruct (H1 r Hr) as (_ & Y). destruct (H1' r Hr) as (_ & Y'). destruct (Y x Hxr) as (_ & ->). now destruct (Y' x Hxr) as (_ & ->).
      + destruct (H2 x C) as (_ & ->). now destruct (H2' x C) as (_ & ->).
  Qed.
  Lemma serial_l : forall buf, length buf = lb -> exists g i v b,
    for_range 0 n (drop_select G ceil_mul nth_el ref alpha (ind_start A)) (gaps0, indices A, vals A, buf) = Ok (g, i, v, b) /\ pdone g i v.
  Proof.
    intros buf Lb. assert (X : wp (for_range 0 n (drop_select G ceil_mul nth_el ref alpha (ind_start A)) (gaps0, indices A, vals A, buf)) (sinv n)).
    { apply (for_range_inv _ sinv); [lia| |].
      - split; auto. split; auto. split; auto. split; auto. split; [intros; lia|]. split; auto.
      - intros k s Hk Hs. apply select_pt; auto. lia. }
    apply wp_inv in X. destruct X as ([[[g i] v] b] & E & L1 & L2 & L3 & L4 & H1 & H2 & H3). exists g, i, v, b. split; auto.
    unfold pdone. auto 8.
  Qed.
  End Serial.

  (** ** One step of a thread on this block *)
  Definition stage (pc : dpc) (i : nat) (h : half) (buf : list T) : Prop :=
    match pc with
    | DRow _ _ => rraw i (h_ind h) (h_val h)
    | DFetch _ _ k => over i = true /\ nth i (h_gaps h) 0 = gp i /\ rraw i (h_ind h) (h_val h) /\ st A i <= k <= st A (S i) /\ bufok i k buf
    | DSel _ _ => over i = true /\ nth i (h_gaps h) 0 = gp i /\ rraw i (h_ind h) (h_val h) /\ bufok i (st A (S i)) buf
    | DBack _ _ k => over i = true /\ nth i (h_gaps h) 0 = gp i /\ bufok i (st A (S i)) buf /\ st A i <= k <= st A i + lim i /\
        forall x, st A i <= x < st A (S i) -> nth x (h_ind h) 0 = FI i x /\ nth x (h_val h) (t0 O) = if x <? k then FV i x else vl A x
    | _ => False
    end.
  Definition on_row (pc : dpc) (i : nat) : Prop :=
    match pc with DRow v j => v = u /\ j = i | DFetch v j _ => v = u /\ j = i | DSel v j => v = u /\ j = i | DBack v j _ => v = u /\ j = i | _ => False end.
  Definition hok (ng : nat) (h : half) : Prop :=
    length (h_gaps h) = ng /\ h_ptr h = ind_start A /\ length (h_ind h) = length (indices A) /\ length (h_val h) = length (vals A).
  (** What stays outside primary [i]. *)
  Definition hframe (i : nat) (h h' : half) : Prop :=
    (forall j, j <> i -> nth j (h_gaps h') 0 = nth j (h_gaps h) 0) /\
    forall x, x < st A i \/ st A (S i) <= x -> nth x (h_ind h') 0 = nth x (h_ind h) 0 /\ nth x (h_val h') (t0 O) = nth x (h_val h) (t0 O).

  Lemma row_step : forall ng i th h, i < n -> n <= ng -> on_row (dt_pc th) i -> hok ng h -> ssize A <= length (dt_buf th) -> stage (dt_pc th) i h (dt_buf th) ->
    wp (dstep_row G ceil_mul nth_el ref2 alpha2 u th h) (fun r => let '(th', h') := r in
      dt_lo th' = dt_lo th /\ dt_hi th' = dt_hi th /\ length (dt_buf th') = length (dt_buf th) /\ hok ng h' /\ hframe i h h' /\
      ((dt_pc th' = d_next u i /\ rdone i (h_gaps h') (h_ind h') (h_val h')) \/ (on_row (dt_pc th') i /\ dt_pc th' <> DRow u i /\ stage (dt_pc th') i h' (dt_buf th')))).
  Proof.
    intros ng i th h Hi Hng OR (K1 & K2 & K3 & K4) HB ST. destruct h as [gaps ptr ind val]. cbn [h_gaps h_ptr h_ind h_val] in *. subst ptr.
    pose proof (wf_len O A W) as WL. fold n in WL. pose proof (row_le i Hi) as RL. pose proof (Rm i Hi) as RM.
    assert (TH : d_thr G ceil_mul ref2 alpha2 u i = Ok (lim i)).
    { unfold d_thr. rewrite (get_nth _ _ _ 0) by lia. cbn [bind]. rewrite (get_nth _ _ _ 0) by lia. cbn [bind].
      destruct (Nat.ltb_spec (nth (S i) ref 0) (nth i ref 0)); [lia|]. reflexivity. }
    assert (BD : forall g x v, d_bounds (mkHalf g (ind_start A) x v : half) i = Ok (st A i, st A (S i))).
    { intros. unfold d_bounds. cbn [h_ptr]. rewrite (get_nth _ _ _ 0) by lia. cbn [bind]. rewrite (get_nth _ _ _ 0) by lia. cbn [bind].
      change (nth (S i) (ind_start A) 0) with (st A (S i)). change (nth i (ind_start A) 0) with (st A i).
      destruct (Nat.ltb_spec (st A (S i)) (st A i)); [lia|]. reflexivity. }
    unfold dstep_row. destruct (dt_pc th) as [v j|v j k|v j|v j k| | |] eqn:Epc; cbn [on_row] in OR; try contradiction; destruct OR as (-> & ->).
    - cbn [stage] in ST. rewrite TH, BD. cbn [bind]. fold (len i). destruct (Nat.leb_spec (len i) (lim i)) as [C|C].
      + assert (Ov : over i = false) by (unfold over; apply Nat.ltb_ge; lia).
        wpb. apply wp_set; [cbn [h_gaps]; lia|]. apply wp_ok. cbn [d_at dt_lo dt_hi dt_buf dt_pc h_gaps h_ptr h_ind h_val]. split; auto. split; auto. split; auto.
        split; [split; cbn; auto; rewrite upd_length; auto|]. split.
        * split; cbn [h_gaps h_ind h_val]; auto. intros j Hj. rewrite nth_upd by lia. destruct (Nat.eqb_spec j i); congruence.
        * left. split; auto. split. { rewrite nth_upd by lia. rewrite Nat.eqb_refl. unfold gp. lia. }
          intros x Hx. rewrite FI_raw, FV_raw by auto. now apply ST.
      + assert (Ov : over i = true) by (unfold over; apply Nat.ltb_lt; lia).
        wpb. apply wp_set; [cbn [h_gaps]; lia|]. apply wp_ok. cbn [d_at dt_lo dt_hi dt_buf dt_pc h_gaps h_ptr h_ind h_val]. split; auto. split; auto. split; auto.
        split; [split; cbn; auto; rewrite upd_length; auto|]. split.
        * split; cbn [h_gaps h_ind h_val]; auto. intros j Hj. rewrite nth_upd by lia. destruct (Nat.eqb_spec j i); congruence.
        * right. cbn [on_row stage h_gaps h_ind h_val]. split; auto. split; [discriminate|]. split; auto. split. { rewrite nth_upd by lia. now rewrite Nat.eqb_refl. }
          split; auto. split; [lia|]. intros y Hy. lia.
    - cbn [stage h_gaps h_ind h_val] in ST. destruct ST as (Ov & G1 & R & Hk & Hb). rewrite BD. cbn [bind h_ind h_val].
      destruct (Nat.ltb_spec k (st A (S i))) as [C|C].
      + destruct (R k ltac:(lia)) as (R1 & R2). wpb. apply wp_get with (d := 0); [lia|]. wpb. apply wp_get with (d := t0 O); [lia|].
        rewrite R1, R2. pose proof (ix_lt i k Hi ltac:(lia)). wpb. apply wp_set; [lia|]. apply wp_ok. cbn [dt_lo dt_hi dt_buf dt_pc].
        split; auto. split; auto. split; [apply upd_length|]. split; [split; auto|]. split; [split; auto|].
        right. cbn [on_row stage h_gaps h_ind h_val]. split; auto. split; [discriminate|]. split; auto. split; auto. split; auto. split; [lia|]. apply bufok_step; auto. lia.
      + apply wp_ok. cbn [d_at dt_lo dt_hi dt_buf dt_pc]. split; auto. split; auto. split; auto. split; [split; auto|]. split; [split; auto|].
        right. cbn [on_row stage h_gaps h_ind h_val]. split; auto. split; [discriminate|]. split; auto. split; auto. split; auto. replace (st A (S i)) with k by lia. auto.
    - cbn [stage h_gaps h_ind h_val] in ST. destruct ST as (Ov & G1 & R & Hb). rewrite TH, BD. cbn [bind h_ind h_val h_gaps h_ptr].
      pose proof (lim_pos i Hi Ov) as LP. destruct (Nat.eqb_spec (lim i) 0); [lia|]. destruct (Nat.ltb_spec (length ind) (st A (S i))); [lia|]. cbn [orb].
      rewrite (sel_eq i ind val (dt_buf th) Hi R K3 Hb Ov). destruct (splice i ind Hi K3) as (S1 & S2 & S3).
      apply wp_ok. cbn [d_at dt_lo dt_hi dt_buf dt_pc]. split; auto. split; auto. split; auto. split; [split; cbn; auto; split; auto; split; auto; lia|].
      split; [split; cbn [h_gaps h_ind h_val]; auto|].
      right. cbn [on_row stage h_gaps h_ind h_val]. split; auto. split; [discriminate|]. split; auto. split; auto. split; auto. split; [lia|].
      intros x Hx. split; [now apply S2|]. destruct (Nat.ltb_spec x (st A i)); [lia|]. now apply R.
    - cbn [stage h_gaps h_ind h_val] in ST. destruct ST as (Ov & G1 & Hb & Hk & HX). rewrite TH, BD. cbn [bind h_ind h_val h_gaps h_ptr].
      assert (C0 : lim i < len i) by (unfold over in Ov; now apply Nat.ltb_lt). unfold len in C0.
      destruct (Nat.ltb_spec k (st A i + lim i)) as [C|C].
      + destruct (HX k ltac:(lia)) as (X1 & X2). wpb. apply wp_get with (d := 0); [lia|]. rewrite X1.
        destruct (FI_buf i k (dt_buf th) Hi ltac:(lia) Hb) as (F1 & F2). wpb. apply wp_get with (d := t0 O); [lia|]. rewrite F1. wpb. apply wp_set; [lia|].
        apply wp_ok. cbn [d_at dt_lo dt_hi dt_buf dt_pc]. split; auto. split; auto. split; auto. split; [split; cbn; auto; rewrite upd_length; auto|].
        split. { split; cbn [h_gaps h_ind h_val]; auto. intros x Hx. rewrite nth_upd by lia. destruct (Nat.eqb_spec x k); [lia|auto]. }
        right. cbn [on_row stage h_gaps h_ind h_val]. split; auto. split; [discriminate|]. split; auto. split; auto. split; auto. split; [lia|].
        intros x Hx. destruct (HX x Hx) as (Y1 & Y2). split; auto. rewrite nth_upd by lia. destruct (Nat.eqb_spec x k) as [->|NEx].
        * destruct (Nat.ltb_spec k (S k)); [|lia]. unfold FV. rewrite Ov. destruct (Nat.ltb_spec k (st A i + lim i)); [reflexivity|lia].
        * rewrite Y2. destruct (Nat.ltb_spec x k); destruct (Nat.ltb_spec x (S k)); auto; lia.
      + apply wp_ok. cbn [d_at dt_lo dt_hi dt_buf dt_pc]. split; auto. split; auto. split; auto. split; [split; auto|]. split; [split; auto|].
        left. split; auto. split; auto. intros x Hx. cbn [h_ind h_val]. destruct (HX x Hx) as (Y1 & Y2). split; auto. rewrite Y2.
        destruct (Nat.ltb_spec x k); auto. unfold FV. destruct (Nat.ltb_spec x (st A i + lim i)); [lia|]. now rewrite andb_false_r.
  Qed.
End P.
