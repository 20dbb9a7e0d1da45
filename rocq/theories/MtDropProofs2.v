(** * MtDropProofs2: thinning the offset blocks with several threads, all schedules. *)
From Coq Require Import List Arith Lia Bool Permutation.
From Verif Require Import Base Scalar Spec CSModel CSSpec ConvModel ConvSpec BucketProofs ConvProofs ConvProofs2
  ConvProofs3 ConvProofs4 Mag VecModel VecSpec VecProofs CroutModel CroutSpec SchurModel SchurSpec SchurProofs1 SchurProofs4
  MtModel MtProofs MtDropModel MtDropProofs.
Import ListNotations.

Lemma upd_err : forall X (l : list X) u v x y, u < length l -> nth_error (upd l u x) v = Some y ->
  (v = u /\ y = x) \/ (v <> u /\ nth_error l v = Some y).
Proof.
  induction l; intros u v x y Hu E; cbn [length] in Hu; [lia|]. destruct u; cbn [upd] in E.
  - destruct v; cbn [nth_error] in *; [left; split; congruence|right; split; auto].
  - destruct v; cbn [nth_error] in *; [right; split; auto|]. destruct (IHl u v x y ltac:(lia) E) as [(-> & ->)|(? & ?)]; auto.
Qed.

Section P.
  Context {O : Ops}.
  Notation T := (T O).
  Notation half := (@half O). Notation dth := (@dth O). Notation dconf := (@dconf O).
  Variable G : Mag O.
  Variable ceil_mul : M G -> nat -> nat.
  Variable nth_el : (nat -> M G) -> nat -> list nat -> list nat.
  Hypothesis NE : nth_element_ok (mle G) nth_el.
  Hypothesis LOC : forall f g k l, (forall j, In j l -> f j = g j) -> nth_el f k l = nth_el g k l.
  Variable ref : bool -> list nat.
  Variable alpha : bool -> M G.
  Variables (n nth : nat) (Bk : bool -> CS O) (gaps0 : bool -> list nat).
  Hypothesis W : forall w, wf (Bk w). Hypothesis D : forall w, distinct (Bk w). Hypothesis Pn : forall w, psize (Bk w) = n.
  Hypothesis Is : forall w, length (ind_start (Bk w)) = n + 1.
  Hypothesis Lr : forall w, n + 1 <= length (ref w).
  Hypothesis Rm : forall w i, i < n -> List.nth i (ref w) 0 <= List.nth (S i) (ref w) 0.
  Hypothesis Al : forall w, mlt G (m0 G) (alpha w) = true.
  Hypothesis Pos : forall w i, i < n -> rowl (Bk w) i <> [] -> 1 <= ceil_mul (alpha w) (List.nth (S i) (ref w) 0 - List.nth i (ref w) 0).
  Hypothesis HG : forall w, n <= length (gaps0 w).
  Hypothesis Hth : 2 <= nth.

  Notation dstep := (dstep G ceil_mul nth_el ref alpha).
  Notation dstep_row := (dstep_row G ceil_mul nth_el ref alpha).
  Notation rdone w := (rdone G ceil_mul nth_el ref alpha w (Bk w)).
  Notation rraw w := (rraw (Bk w)).
  Notation stage w := (stage G ceil_mul nth_el ref alpha w (Bk w)).
  Definition lo_ v := pstart n nth v.
  Definition hi_ v := pend n nth v.
  Lemma lo_hi : forall v, v < nth -> lo_ v <= hi_ v /\ hi_ v <= n.
  Proof. intros v Hv. split; [apply part_le; lia|apply part_end_le; lia]. Qed.
  Lemma own : forall v v' r, v < nth -> v' < nth -> v <> v' -> lo_ v <= r < hi_ v -> ~ (lo_ v' <= r < hi_ v').
  Proof.
    intros u v r Hu Hv NEq Hr Hr'. unfold lo_, hi_ in *. destruct (Nat.lt_ge_cases u v).
    - pose proof (part_disjoint n nth u v ltac:(lia) H Hv). lia.
    - pose proof (part_disjoint n nth v u ltac:(lia) ltac:(lia) Hu). lia.
  Qed.

  Definition pcat (pc : dpc) : option (bool * nat) :=
    match pc with DRow u i => Some (u, i) | DFetch u i _ => Some (u, i) | DSel u i => Some (u, i) | DBack u i _ => Some (u, i) | _ => None end.
  Definition kof (w u : bool) (i : nat) : nat := if w then i else if u then S i else i.
  Definition bI (w : bool) (lo hi : nat) (pc : dpc) (buf : list T) (h : half) : Prop :=
    match pcat pc with
    | Some (u, i) =>
        (forall r, lo <= r < kof w u i -> rdone w r (h_gaps h) (h_ind h) (h_val h)) /\
        (forall r, kof w u i <= r < hi -> if eqb w u && (r =? i) then stage w pc i h buf else rraw w r (h_ind h) (h_val h))
    | None => forall r, lo <= r < hi -> rdone w r (h_gaps h) (h_ind h) (h_val h)
    end.
  Definition posok (lo hi : nat) (pc : dpc) : Prop :=
    match pcat pc with Some (u, i) => lo <= i <= hi /\ (pc = DRow false i \/ i < hi) | None => pc = DBar end.
  Record tI (v : nat) (th : dth) (H : bool -> half) : Prop := {
    t_lo : dt_lo th = lo_ v; t_hi : dt_hi th = hi_ v;
    t_buf : forall w, ssize (Bk w) <= length (dt_buf th);
    t_pos : posok (lo_ v) (hi_ v) (dt_pc th);
    t_b : forall w, bI w (lo_ v) (hi_ v) (dt_pc th) (dt_buf th) (H w) }.
  Definition outside (w : bool) (h : half) : Prop :=
    (forall x, st (Bk w) n <= x -> List.nth x (h_ind h) 0 = ix (Bk w) x /\ List.nth x (h_val h) (t0 O) = vl (Bk w) x) /\
    forall j, n <= j -> List.nth j (h_gaps h) 0 = List.nth j (gaps0 w) 0.
  Definition hs (c : dconf) (w : bool) : half := d_half w c.
  Record P1 (c : dconf) : Prop := {
    p_len : length (dc_th c) = nth;
    p_hok : forall w, hok (Bk w) (length (gaps0 w)) (hs c w);
    p_out : forall w, outside w (hs c w);
    p_th : forall v th, nth_error (dc_th c) v = Some th -> tI v th (hs c) }.

  (** Another thread does not notice a step on a primary that is not its own. *)
  Lemma rows_apart : forall w i r x, i < n -> r < n -> r <> i -> st (Bk w) r <= x < st (Bk w) (S r) -> x < st (Bk w) i \/ st (Bk w) (S i) <= x.
  Proof.
    intros w i r x Hi Hr NEq Hx. destruct (Nat.lt_ge_cases r i).
    - pose proof (st_mono O (Bk w) (W w) (S r) i ltac:(lia) ltac:(rewrite Pn; lia)). lia.
    - pose proof (st_mono O (Bk w) (W w) (S i) r ltac:(lia) ltac:(rewrite Pn; lia)). lia.
  Qed.
  Lemma fr_done : forall w i r h h', i < n -> r < n -> r <> i -> hframe (Bk w) i h h' ->
    rdone w r (h_gaps h) (h_ind h) (h_val h) -> rdone w r (h_gaps h') (h_ind h') (h_val h').
  Proof. intros w i r h h' Hi Hr NEq (F1 & F2). apply rdone_frame; [now apply F1|]. intros x Hx. apply F2. now apply (rows_apart w i r). Qed.
  Lemma fr_raw : forall w i r h h', i < n -> r < n -> r <> i -> hframe (Bk w) i h h' ->
    rraw w r (h_ind h) (h_val h) -> rraw w r (h_ind h') (h_val h').
  Proof. intros w i r h h' Hi Hr NEq (F1 & F2). apply rraw_frame. intros x Hx. apply F2. now apply (rows_apart w i r). Qed.
  Lemma fr_stage : forall w i r pc buf h h', i < n -> r < n -> r <> i -> hframe (Bk w) i h h' ->
    stage w pc r h buf -> stage w pc r h' buf.
  Proof.
    intros w i r pc buf h h' Hi Hr NEq F. pose proof F as (F1 & F2). destruct pc; cbn [MtDropProofs.stage]; auto.
    - now apply (fr_raw w i r).
    - intros (A1 & A2 & A3 & A4). split; auto. split; [now rewrite F1|]. split; auto. now apply (fr_raw w i r h).
    - intros (A1 & A2 & A3 & A4). split; auto. split; [now rewrite F1|]. split; auto. now apply (fr_raw w i r h).
    - intros (A1 & A2 & A3 & A4 & A5). split; auto. split; [now rewrite F1|]. split; auto. split; auto.
      intros x Hx. destruct (F2 x (rows_apart w i r x Hi Hr NEq Hx)) as (-> & ->). now apply A5.
  Qed.
  Lemma fr_bI : forall w i lo hi pc buf h h', hi <= n -> i < n -> ~ (lo <= i < hi) -> posok lo hi pc -> hframe (Bk w) i h h' ->
    bI w lo hi pc buf h -> bI w lo hi pc buf h'.
  Proof.
    intros w i lo hi pc buf h h' Hh Hi Out Hp F. unfold bI, posok in *. destruct (pcat pc) as [(u & k)|] eqn:Ep.
    - intros (B1 & B2). destruct Hp as (Hp1 & Hp2).
      assert (KH : kof w u k <= hi).
      { unfold kof. destruct w; [lia|]. destruct u; [|lia]. destruct Hp2 as [->|]; [|lia]. cbn in Ep. injection Ep; intros; discriminate. }
      assert (KL : lo <= kof w u k) by (unfold kof; destruct w; [lia|]; destruct u; lia).
      split.
      + intros r Hr. apply (fr_done w i r h); auto; lia.
      + intros r Hr. specialize (B2 r Hr). assert (r <> i) by (intros ->; lia). destruct (eqb w u && (r =? k)) eqn:E.
        * apply andb_prop in E. destruct E as (_ & E). apply Nat.eqb_eq in E. subst k. apply (fr_stage w i r pc buf h); auto; lia.
        * apply (fr_raw w i r h); auto; lia.
    - intros B r Hr. apply (fr_done w i r h); auto; lia.
  Qed.

  Definition setb (H : bool -> half) (u : bool) (h : half) (w : bool) : half := if eqb w u then h else H w.

  (** The step of a thread on its current primary keeps its own invariant. *)
  Lemma own_row : forall u i v th H, v < nth -> tI v th H -> pcat (dt_pc th) = Some (u, i) -> i < hi_ v -> (forall w, hok (Bk w) (length (gaps0 w)) (H w)) ->
    wp (dstep_row u th (H u)) (fun r => let '(th', h') := r in
      tI v th' (setb H u h') /\ hok (Bk u) (length (gaps0 u)) h' /\ hframe (Bk u) i (H u) h' /\ i < n).
  Proof.
    intros u i v th H Hv [T1 T2 T3 T4 T5] Ep Hi HK. destruct (lo_hi v Hv) as (LH1 & LH2).
    assert (OR : on_row u (dt_pc th) i) by (destruct (dt_pc th); cbn in Ep |- *; try discriminate; injection Ep as -> ->; auto).
    pose proof (T5 u) as BU. unfold bI in BU. rewrite Ep in BU. destruct BU as (BU1 & BU2).
    assert (Hp : lo_ v <= i) by (unfold posok in T4; rewrite Ep in T4; lia).
    assert (KU : kof u u i = i) by (unfold kof; destruct u; auto).
    rewrite KU in *. pose proof (BU2 i ltac:(lia)) as ST. rewrite eqb_reflx, Nat.eqb_refl in ST. cbn [andb] in ST.
    eapply wp_conseq.
    { apply (row_step G ceil_mul nth_el NE LOC ref alpha u (Bk u) (W u) (D u)) with (ng := length (gaps0 u)) (i := i); rewrite ?Pn; auto; try lia.
      intros k Hk HR. apply (Pos u k Hk HR). }
    intros (th', h') (X1 & X2 & X3 & X4 & X5 & X6). split; [|split; auto; split; auto; lia].
    split; try congruence.
    - intros w. rewrite X3. apply T3.
    - destruct X6 as [(X6 & _)|(X6 & X7 & _)].
      + rewrite X6. unfold posok, d_next. destruct u; cbn [pcat]; (split; [lia|auto]).
      + unfold posok. assert (E : pcat (dt_pc th') = Some (u, i)) by (destruct (dt_pc th'); cbn in X6 |- *; try contradiction; destruct X6 as (-> & ->); auto).
        rewrite E. split; [lia|]. right. lia.
    - intros w. unfold setb. destruct (eqb w u) eqn:Ew.
      + apply eqb_prop in Ew. subst w. destruct X6 as [(X6 & RD)|(X6 & X7 & ST')].
        * assert (K' : forall pc, pc = d_next u i -> exists u' i', pcat pc = Some (u', i') /\ kof u u' i' = S i /\ (u = u' -> i' = S i /\ pc = DRow u i')).
          { intros pc ->. unfold d_next. destruct u; cbn [pcat]; do 2 eexists; (split; [reflexivity|]); unfold kof; split; auto; try discriminate. }
          unfold bI. destruct (K' _ X6) as (u' & i' & E & E2 & E3). rewrite E, E2. split.
          -- intros r Hr. destruct (Nat.eq_dec r i) as [->|NEr]; [exact RD|]. apply (fr_done u i r (H u)); auto; try lia; try (apply BU1; lia).
          -- intros r Hr. assert (RR : rraw u r (h_ind h') (h_val h')).
             { apply (fr_raw u i r (H u)); auto; try lia. specialize (BU2 r ltac:(lia)). rewrite eqb_reflx in BU2. destruct (Nat.eqb_spec r i); [lia|]. exact BU2. }
             destruct (eqb u u' && (r =? i')) eqn:Q; auto. apply andb_prop in Q. destruct Q as (Q1 & Q2). apply eqb_prop in Q1. apply Nat.eqb_eq in Q2.
             destruct (E3 Q1) as (_ & ->). cbn [MtDropProofs.stage]. now subst r.
        * unfold bI. assert (E : pcat (dt_pc th') = Some (u, i)) by (destruct (dt_pc th'); cbn in X6 |- *; try contradiction; destruct X6 as (-> & ->); auto).
          rewrite E, KU. split.
          -- intros r Hr. apply (fr_done u i r (H u)); auto; try lia; try (apply BU1; lia).
          -- intros r Hr. rewrite eqb_reflx. destruct (Nat.eqb_spec r i) as [->|NEr]; cbn [andb]; auto.
             apply (fr_raw u i r (H u)); auto; try lia. specialize (BU2 r ltac:(lia)). rewrite eqb_reflx in BU2. destruct (Nat.eqb_spec r i); [lia|]. exact BU2.
      + pose proof (T5 w) as B. unfold bI in B |- *. rewrite Ep in B. destruct B as (B1 & B2).
        assert (NW : w <> u) by (intros ->; rewrite eqb_reflx in Ew; discriminate).
        destruct X6 as [(X6 & _)|(X6 & X7 & _)].
        * rewrite X6. unfold d_next. destruct u; cbn [pcat].
          -- destruct w; [congruence|]. unfold kof in *. split; auto. intros r Hr. specialize (B2 r Hr). cbn in B2 |- *. destruct (r =? S i) eqn:Q; auto.
             apply Nat.eqb_eq in Q. subst r. cbn [MtDropProofs.stage]. exact B2.
          -- destruct w; [|congruence]. unfold kof in *. split; auto. intros r Hr. specialize (B2 r Hr). cbn in B2 |- *. destruct (r =? i) eqn:Q; auto.
             apply Nat.eqb_eq in Q. subst r. cbn [MtDropProofs.stage]. exact B2.
        * assert (E : pcat (dt_pc th') = Some (u, i)) by (destruct (dt_pc th'); cbn in X6 |- *; try contradiction; destruct X6 as (-> & ->); auto).
          rewrite E. split; auto. intros r Hr. specialize (B2 r Hr). rewrite Ew in *. cbn [andb] in *. exact B2.
  Qed.

  (** ** Both stages *)
  Variable g1 i1 : bool -> list nat. Variable v1 : bool -> list T.
  Hypothesis DN : forall w, pdone G ceil_mul nth_el ref alpha w (Bk w) (gaps0 w) (g1 w) (i1 w) (v1 w).
  Variable F : bool -> list nat * nat * nat * list nat * list T.
  Notation cloop w i := (for_range 0 i (drop_compress (g1 w)) (ind_start (Bk w), List.nth 0 (ind_start (Bk w)) 0, 0, i1 w, v1 w)).
  Hypothesis FN : forall w, cloop w n = Ok (F w).
  Definition Fin (w : bool) (B : CS O) : Prop := let '(ptr, _, _, ind, val) := F w in
    exists z, get ptr n = Ok z /\ B = mkCS (psize (Bk w)) (ssize (Bk w)) ptr (firstn z ind) (firstn z val).
  Hypothesis FG : forall w, exists B, Fin w B.

  Definition tw (w : bool) : nat := if w then 1 else 0.
  Definition blk2 (w : bool) (pc : dpc) (h : half) : Prop :=
    match pc with
    | DBar => h_gaps h = g1 w /\ h_ptr h = ind_start (Bk w) /\ h_ind h = i1 w /\ h_val h = v1 w
    | DComp i prev pos => i <= n /\ h_gaps h = g1 w /\ cloop w i = Ok (h_ptr h, prev, pos, h_ind h, h_val h)
    | DFin => Fin w (cs_of (Bk w) h)
    | _ => False
    end.
  Record P2 (c : dconf) : Prop := {
    q_len : length (dc_th c) = nth;
    q_b : forall w th, nth_error (dc_th c) (tw w) = Some th -> blk2 w (dt_pc th) (hs c w);
    q_o : forall v th, nth_error (dc_th c) v = Some th -> 2 <= v -> dt_pc th = DBar \/ dt_pc th = DFin }.
  Definition dinv (c : dconf) : Prop := P1 c \/ P2 c.

  Lemma for_n_pre : forall S (f : nat -> S -> res S) k lo n' s r, for_n lo n' f s = Ok r -> k <= n' ->
    exists s', for_n lo k f s = Ok s' /\ for_n (lo + k) (n' - k) f s' = Ok r.
  Proof.
    intros S0 f k lo n' s r E Hk. replace n' with (k + (n' - k)) in E by lia. rewrite for_n_app in E. apply bind_ok in E. destruct E as (s' & E1 & E2). eauto.
  Qed.
  Lemma cloop_next : forall w i s, i < n -> cloop w i = Ok s -> exists s', drop_compress (g1 w) i s = Ok s' /\ cloop w (S i) = Ok s'.
  Proof.
    intros w i s Hi E. pose proof (FN w) as E1. unfold for_range in *. rewrite Nat.sub_0_r in *.
    destruct (for_n_pre _ _ (S i) _ _ _ _ E1 ltac:(lia)) as (s' & E2 & _). exists s'. split; [|replace (S i - 0) with (S i) by lia; exact E2].
    replace (S i) with (i + 1) in E2 by lia. rewrite for_n_app, E in E2. cbn [bind for_n] in E2. rewrite Nat.add_0_l in E2.
    destruct (drop_compress (g1 w) i s); cbn [bind] in E2; try discriminate. congruence.
  Qed.

  Lemma step1 : forall v c, P1 c -> forall th, nth_error (dc_th c) v = Some th -> dt_pc th <> DBar \/ forallb d_past (dc_th c) = false ->
    wp (dstep n v th c) (fun r => let '(th', hL, hU) := r in P1 (mkDC (upd (dc_th c) v th') hL hU)).
  Proof.
    intros v c [PL PH PO PT] th Eu NB. assert (Hv : v < nth) by (rewrite <- PL; apply nth_error_Some; congruence).
    pose proof (PT _ _ Eu) as TI. pose proof TI as [T1 T2 T3 T4 T5]. destruct (lo_hi v Hv) as (LH1 & LH2).
    destruct c as [ths hL hU]. cbn [dc_th dc_L dc_U] in *.
    assert (Same : forall th', tI v th' (hs (mkDC ths hL hU)) -> P1 (mkDC (upd ths v th') hL hU)).
    { intros th' H. split; auto; cbn [dc_th]; [now rewrite upd_length|]. intros v' th2 E. apply upd_err in E; [|lia].
      destruct E as [(-> & ->)|(_ & E)]; [auto|now apply PT]. }
    assert (Row : forall u i, pcat (dt_pc th) = Some (u, i) -> i < hi_ v ->
      wp (dstep_row u th (if u then hU else hL)) (fun r => let '(th', h') := r in P1 (mkDC (upd ths v th') (if u then hL else h') (if u then h' else hU)))).
    { intros u i Ep Hi. change (if u then hU else hL) with (hs (mkDC ths hL hU) u). eapply wp_conseq; [apply (own_row u i v); auto|].
      intros (th', h') (X1 & X2 & X3 & X4).
      assert (HS : forall w, hs (mkDC (upd ths v th') (if u then hL else h') (if u then h' else hU)) w = setb (hs (mkDC ths hL hU)) u h' w).
      { intros w. unfold hs, d_half, setb. destruct u, w; reflexivity. }
      split; cbn [dc_th].
      - now rewrite upd_length.
      - intros w. rewrite HS. unfold setb. destruct (eqb w u) eqn:Ew; auto. apply eqb_prop in Ew. now subst w.
      - intros w. rewrite HS. unfold setb. destruct (eqb w u) eqn:Ew; auto. apply eqb_prop in Ew. subst w. destruct (PO u) as (O1 & O2). destruct X3 as (F1 & F2). split.
        + intros x Hx. pose proof (st_mono O (Bk u) (W u) (S i) n ltac:(lia) ltac:(rewrite Pn; lia)). destruct (F2 x ltac:(lia)) as (-> & ->). now apply O1.
        + intros j Hj. rewrite F1 by lia. now apply O2.
      - intros v' th2 E. apply upd_err in E; [|lia]. destruct E as [(-> & ->)|(NEv & E)].
        + destruct X1 as [Y1 Y2 Y3 Y4 Y5]. split; auto. intros w. rewrite HS. apply Y5.
        + assert (Hv' : v' < nth) by (rewrite <- PL; apply nth_error_Some; congruence). destruct (lo_hi v' Hv'). pose proof (PT _ _ E) as [Y1 Y2 Y3 Y4 Y5].
          split; auto. intros w. rewrite HS. unfold setb. destruct (eqb w u) eqn:Ew; auto. apply eqb_prop in Ew. subst w.
          apply (fr_bI u i) with (h := hs (mkDC ths hL hU) u); auto. apply (own v v'); auto. unfold posok in T4. rewrite Ep in T4. lia. }
    unfold MtDropModel.dstep. cbn [dc_th dc_L dc_U].
    assert (RowF : forall i, pcat (dt_pc th) = Some (false, i) -> i < hi_ v ->
      wp ('(th', h') <- dstep_row false th hL ;; Ok (th', h', hU)) (fun r => let '(th', hL', hU') := r in P1 (mkDC (upd ths v th') hL' hU'))).
    { intros i Ep Hi. wpb. eapply wp_conseq; [apply (Row false i); auto|]. intros (th', h') X. apply wp_ok. exact X. }
    assert (RowT : forall i, pcat (dt_pc th) = Some (true, i) -> i < hi_ v ->
      wp ('(th', h') <- dstep_row true th hU ;; Ok (th', hL, h')) (fun r => let '(th', hL', hU') := r in P1 (mkDC (upd ths v th') hL' hU'))).
    { intros i Ep Hi. wpb. eapply wp_conseq; [apply (Row true i); auto|]. intros (th', h') X. apply wp_ok. exact X. }
    assert (PI : forall u i, pcat (dt_pc th) = Some (u, i) -> dt_pc th <> DRow false i -> i < hi_ v).
    { intros u i Ep NR. unfold posok in T4. rewrite Ep in T4. destruct T4 as (_ & [E|E]); [contradiction|auto]. }
    destruct (dt_pc th) as [u i|u i k|u i|u i k| |i prev pos|] eqn:Epc.
    - destruct u; [apply (RowT i); auto; apply (PI true i); auto; discriminate|].
      rewrite T2. destruct (Nat.ltb_spec i (hi_ v)) as [C|C]; [apply (RowF i); auto|].
      apply wp_ok. apply Same. split; auto.
      + unfold posok, d_at. cbn. reflexivity.
      + intros w. pose proof (T5 w) as B. unfold bI in B. rewrite ?Epc in B. cbn [pcat] in B. destruct B as (B1 & _). unfold bI, d_at. cbn [dt_pc pcat].
        intros r Hr. apply B1. unfold kof. destruct w; lia.
    - destruct u; [apply (RowT i)|apply (RowF i)]; auto; eapply PI; try reflexivity; discriminate.
    - destruct u; [apply (RowT i)|apply (RowF i)]; auto; eapply PI; try reflexivity; discriminate.
    - destruct u; [apply (RowT i)|apply (RowF i)]; auto; eapply PI; try reflexivity; discriminate.
    - destruct NB as [NB|NB]; [congruence|]. rewrite NB. apply wp_ok. now apply Same.
    - unfold posok in T4. cbn in T4. discriminate.
    - unfold posok in T4. cbn in T4. discriminate.
  Qed.

  (** The barrier. *)
  Lemma past_done : forall c, P1 c -> forallb d_past (dc_th c) = true -> P2 c.
  Proof.
    intros c [PL PH PO PT] FB. rewrite forallb_forall in FB.
    assert (ALL : forall v th, nth_error (dc_th c) v = Some th -> dt_pc th = DBar).
    { intros v th E. pose proof (PT _ _ E) as [_ _ _ Tp _]. specialize (FB th (nth_error_In _ _ E)). unfold d_past in FB. unfold posok in Tp.
      destruct (dt_pc th); try discriminate; auto. }
    split; auto.
    - intros w th E. unfold blk2. rewrite (ALL _ _ E). destruct (PH w) as (K1 & K2 & K3 & K4). destruct (PO w) as (O1 & O2).
      assert (PD : pdone G ceil_mul nth_el ref alpha w (Bk w) (gaps0 w) (h_gaps (hs c w)) (h_ind (hs c w)) (h_val (hs c w))).
      { unfold pdone. rewrite Pn. split; auto. split; auto. split; auto. split; [|split; auto]. intros r Hr.
        destruct (part_cover n nth r ltac:(lia) Hr) as (v & Hv & Hvr). destruct (nth_error (dc_th c) v) as [th2|] eqn:E2; [|apply nth_error_None in E2; lia].
        pose proof (PT _ _ E2) as [_ _ _ _ T5]. specialize (T5 w). unfold bI in T5. rewrite (ALL _ _ E2) in T5. cbn [pcat] in T5. now apply T5. }
      assert (Q : h_gaps (hs c w) = g1 w /\ h_ind (hs c w) = i1 w /\ h_val (hs c w) = v1 w) by (eapply (pdone_unique G ceil_mul nth_el ref alpha w (Bk w)); try exact PD; try apply DN; rewrite ?Pn; auto).
      destruct Q as (-> & -> & ->). auto.
    - intros v th E _. left. eauto.
  Qed.

  Lemma step2 : forall v c, P2 c -> forall th, nth_error (dc_th c) v = Some th ->
    wp (dstep n v th c) (fun r => let '(th', hL, hU) := r in P2 (mkDC (upd (dc_th c) v th') hL hU)).
  Proof.
    intros v c [QL QB QO] th Eu. assert (Hv : v < nth) by (rewrite <- QL; apply nth_error_Some; congruence).
    destruct c as [ths hL hU]. cbn [dc_th dc_L dc_U] in *.
    assert (Other : forall th', 2 <= v -> dt_pc th' = DBar \/ dt_pc th' = DFin -> P2 (mkDC (upd ths v th') hL hU)).
    { intros th' Hv2 Hpc. split; cbn [dc_th].
      - now rewrite upd_length.
      - intros w th2 E. apply upd_err in E; [|lia]. destruct E as [(E & _)|(_ & E)]; [unfold tw in E; destruct w; lia|]. exact (QB w th2 E).
      - intros v' th2 E H2. apply upd_err in E; [|lia]. destruct E as [(-> & ->)|(_ & E)]; auto. eauto. }
    assert (Mine : forall w th' h', v = tw w -> blk2 w (dt_pc th') h' -> P2 (mkDC (upd ths v th') (if w then hL else h') (if w then h' else hU))).
    { intros w th' h' Ev HB. split; cbn [dc_th].
      - now rewrite upd_length.
      - intros w2 th2 E. apply upd_err in E; [|lia]. destruct E as [(E & ->)|(NEv & E)].
        + assert (w2 = w) by (unfold tw in *; destruct w, w2; auto; lia). subst w2. destruct w; exact HB.
        + assert (w2 <> w) by congruence. pose proof (QB w2 th2 E) as X. destruct w, w2; try congruence; exact X.
      - intros v' th2 E H2. apply upd_err in E; [|lia]. destruct E as [(-> & ->)|(_ & E)]; eauto. exfalso. unfold tw in Ev. destruct w; lia. }
    assert (Cw : (exists w, v = tw w) \/ 2 <= v).
    { destruct v as [|[|v]]; [left; exists false; auto|left; exists true; auto|right; lia]. }
    destruct Cw as [(w & Ev)|Hv2].
    2: { destruct (QO _ _ Eu Hv2) as [Epc|Epc]; unfold MtDropModel.dstep; rewrite Epc; cbn [dc_th dc_L dc_U].
         - destruct (forallb d_past ths).
           + destruct (Nat.eqb_spec v 0); [lia|]. destruct (Nat.eqb_spec v 1); [lia|]. apply wp_ok. apply Other; auto.
           + apply wp_ok. apply Other; auto.
         - apply wp_ok. apply Other; auto. }
    pose proof (QB w th) as B. rewrite <- Ev in B. specialize (B Eu).
    assert (SameB : P2 (mkDC (upd ths v th) hL hU)).
    { pose proof (Mine w th (hs (mkDC ths hL hU) w) Ev B) as X. destruct w; exact X. }
    assert (IS : forall w, 0 < length (ind_start (Bk w))) by (intros; rewrite Is; lia).
    unfold MtDropModel.dstep. cbn [dc_th dc_L dc_U]. destruct (dt_pc th) as [u i|u i k|u i|u i k| |i prev pos|] eqn:Epc; cbn [blk2] in B; try contradiction.
    - destruct (forallb d_past ths); [|apply wp_ok; auto]. destruct B as (B1 & B2 & B3 & B4).
      assert (E : forall h', h' = hs (mkDC ths hL hU) w -> wp (prev <- get (h_ptr h') 0 ;; Ok prev) (fun prev => prev = List.nth 0 (ind_start (Bk w)) 0)).
      { intros h' ->. rewrite B2. wpb. apply wp_get with (d := 0); [apply IS|]. apply wp_ok. reflexivity. }
      assert (BC : blk2 w (DComp 0 (List.nth 0 (ind_start (Bk w)) 0) 0) (hs (mkDC ths hL hU) w)).
      { cbn [blk2]. split; [lia|]. split; auto. rewrite B2, B3, B4. reflexivity. }
      destruct w; cbn in Ev; subst v; cbn [Nat.eqb]; unfold hs, d_half in *; cbn [dc_L dc_U] in *; rewrite B2; wpb; (apply wp_get with (d := 0); [apply IS|]); apply wp_ok.
      + apply (Mine true (d_at th (DComp 0 (List.nth 0 (ind_start (Bk true)) 0) 0)) hU); auto.
      + apply (Mine false (d_at th (DComp 0 (List.nth 0 (ind_start (Bk false)) 0) 0)) hL); auto.
    - assert (SC : wp (dstep_comp n i prev pos th (hs (mkDC ths hL hU) w)) (fun r => let '(th', h') := r in blk2 w (dt_pc th') h')).
      { destruct B as (B1 & B2 & B3). unfold dstep_comp. destruct (Nat.ltb_spec i n) as [C|C].
        - destruct (cloop_next w i _ C B3) as ([[[[ptr prev'] pos'] ind] val] & E1 & E2). rewrite B2, E1. cbn [bind]. apply wp_ok. cbn [d_at dt_pc blk2].
          split; [lia|]. split; auto.
        - assert (i = n) by lia. subst i. destruct (FG w) as (Bf & HF). unfold Fin in *. pose proof (FN w) as FW. rewrite B3 in FW. injection FW as EF. rewrite <- EF in HF.
          destruct HF as (z & Ez & _). rewrite Ez. cbn [bind]. apply wp_ok. cbn [d_at dt_pc blk2]. unfold Fin. rewrite <- EF. exists z. split; auto. }
      destruct w; cbn in Ev; subst v; cbn [Nat.eqb]; wpb; (eapply wp_conseq; [exact SC|]); intros (th', h') X; apply wp_ok.
      + now apply (Mine true th' h').
      + now apply (Mine false th' h').
    - apply wp_ok. auto.
  Qed.

  Lemma step_inv : forall v c, dinv c -> wp (dstep_conf G ceil_mul nth_el ref alpha n v c) dinv.
  Proof.
    intros v c Hc. unfold dstep_conf. destruct (nth_error (dc_th c) v) as [th|] eqn:Eu; [|apply wp_ok; auto].
    assert (C2 : P2 c -> wp ('(th', hL, hU) <- dstep n v th c ;; Ok (mkDC (upd (dc_th c) v th') hL hU)) dinv).
    { intros H2. wpb. eapply wp_conseq; [apply step2; eauto|]. intros [[th' hL] hU] X. apply wp_ok. now right. }
    destruct Hc as [H1|H2]; auto. destruct (forallb d_past (dc_th c)) eqn:FB; [apply C2; now apply past_done|].
    wpb. eapply wp_conseq; [apply step1; eauto|]. intros [[th' hL] hU] X. apply wp_ok. now left.
  Qed.
  Lemma run_inv : forall sched c, dinv c -> wp (drun G ceil_mul nth_el ref alpha n sched c) dinv.
  Proof.
    induction sched as [|v l IH]; intros c Hc; [apply wp_ok; auto|]. unfold drun in *. cbn [for_list]. wpb.
    eapply wp_conseq; [apply step_inv; auto|]. intros c' Hc'. now apply IH.
  Qed.
  Lemma done_fin : forall c, dinv c -> ddone c -> forall w, Fin w (cs_of (Bk w) (hs c w)).
  Proof.
    intros c Hc Hd w. assert (FB : forallb d_past (dc_th c) = true).
    { apply forallb_forall. intros th I. unfold d_past. now rewrite (Hd th I). }
    assert (H2 : P2 c) by (destruct Hc; auto; now apply past_done). destruct H2 as [QL QB QO].
    destruct (nth_error (dc_th c) (tw w)) as [th|] eqn:E; [|apply nth_error_None in E; unfold tw in E; destruct w; lia].
    pose proof (QB w th E) as X. rewrite (Hd th (nth_error_In _ _ E)) in X. exact X.
  Qed.

  Lemma init_inv : forall bufs, (forall v w, v < nth -> ssize (Bk w) <= length (bufs v)) ->
    dinv (dinit nth (Bk false) (Bk true) (gaps0 false) (gaps0 true) bufs).
  Proof.
    intros bufs HB. left.
    assert (H0 : forall w, hs (dinit nth (Bk false) (Bk true) (gaps0 false) (gaps0 true) bufs) w = half_of (Bk w) (gaps0 w)) by (intros []; reflexivity).
    split.
    - unfold dinit. cbn [dc_th]. now rewrite map_length, seq_length.
    - intros w. rewrite H0. split; auto.
    - intros w. rewrite H0. split; auto.
    - intros v th E. unfold dinit in E. cbn [dc_th] in E. assert (Hv : v < nth).
      { assert (X : v < length (map (fun v => let '(lo, hi) := uniform_partition (psize (Bk false)) nth v in mkDT lo hi (DRow false lo) (bufs v)) (seq 0 nth))) by (apply nth_error_Some; congruence).
        rewrite map_length, seq_length in X. exact X. }
      assert (ES : nth_error (seq 0 nth) v = Some v). { rewrite nth_error_nth' with (d := 0) by (rewrite seq_length; lia). rewrite seq_nth by lia. reflexivity. }
      rewrite (map_nth_error _ _ _ ES) in E. rewrite Pn in E. unfold lo_, hi_, pstart, pend. pose proof (lo_hi v Hv) as (LH1 & LH2). unfold lo_, hi_, pstart, pend in LH1, LH2.
      destruct (uniform_partition n nth v) as (lo, hi) eqn:EP. cbn [fst snd] in *. injection E as <-.
      split; cbn [dt_lo dt_hi dt_buf dt_pc]; auto; unfold lo_, hi_, pstart, pend; rewrite ?EP; cbn [fst snd]; auto.
      + unfold posok. cbn [pcat]. split; [lia|auto].
      + intros w. rewrite H0. unfold bI. cbn [pcat]. split; [unfold kof; destruct w; intros; lia|].
        intros r Hr. assert (X : rraw w r (indices (Bk w)) (vals (Bk w))) by (intros x Hx; auto). destruct (eqb w false && (r =? lo)) eqn:Q; [|exact X].
        apply andb_prop in Q. destruct Q as (_ & Q). apply Nat.eqb_eq in Q. subst r. exact X.
  Qed.

  (** ** Termination: no schedule that keeps serving every thread hangs. *)
  Let Z := length (indices (Bk false)) + length (indices (Bk true)).
  Let Y := 2 * Z + 4.
  Definition rpot (hi : nat) (u : bool) (i : nat) : nat := n + 4 + (hi - i) * (2 * Y) - (if u then Y else 0).
  Definition pot (th : dth) : nat :=
    match dt_pc th with
    | DRow u i => rpot (dt_hi th) u i
    | DFetch u i k => rpot (dt_hi th) u i - 1 - k
    | DSel u i => rpot (dt_hi th) u i - (Z + 2)
    | DBack u i k => rpot (dt_hi th) u i - (Z + 3) - k
    | DBar => n + 3
    | DComp i _ _ => 1 + (n - i)
    | DFin => 0
    end.
  Definition mu (c : dconf) : nat := list_sum (map pot (dc_th c)).
  Definition pcok (th : dth) : Prop :=
    match dt_pc th with
    | DRow u i => u = true -> i < dt_hi th
    | DFetch _ i k | DBack _ i k => i < dt_hi th /\ k <= Z
    | DSel _ i => i < dt_hi th
    | _ => True
    end.
  Lemma in_Z : forall w r, r < n -> st (Bk w) (S r) <= Z.
  Proof.
    intros w r Hr. pose proof (st_mono O (Bk w) (W w) (S r) n ltac:(lia) ltac:(rewrite Pn; lia)). pose proof (wf_inds O (Bk w) (W w)) as X. rewrite Pn in X.
    unfold Z. destruct w; lia.
  Qed.
  Lemma inv_pcok : forall v c th, dinv c -> nth_error (dc_th c) v = Some th -> pcok th.
  Proof.
    intros v c th Hc E. destruct Hc as [[PL PH PO PT]|[QL QB QO]].
    - assert (Hv : v < nth) by (rewrite <- PL; apply nth_error_Some; congruence). destruct (lo_hi v Hv) as (H1 & H2).
      pose proof (PT _ _ E) as [T1 T2 T3 T4 T5]. unfold pcok. rewrite T2.
      assert (ST : forall u i, pcat (dt_pc th) = Some (u, i) -> i < hi_ v -> stage u (dt_pc th) i (hs c u) (dt_buf th)).
      { intros u i Ep Hi. pose proof (T5 u) as B. unfold bI in B. rewrite Ep in B. destruct B as (_ & B). assert (KU : kof u u i = i) by (unfold kof; destruct u; auto).
        rewrite KU in B. specialize (B i ltac:(lia)). now rewrite eqb_reflx, Nat.eqb_refl in B. }
      unfold posok in T4. destruct (dt_pc th) as [u i|u i k|u i|u i k| |i prev pos|]; cbn [pcat] in T4; auto.
      + intros ->. destruct T4 as (_ & [X|X]); [discriminate|exact X].
      + destruct T4 as (_ & [X|X]); [discriminate|]. split; auto. destruct (ST u i eq_refl X) as (_ & _ & _ & K & _). pose proof (in_Z u i ltac:(lia)). lia.
      + destruct T4 as (_ & [X|X]); [discriminate|auto].
      + destruct T4 as (_ & [X|X]); [discriminate|]. split; auto. destruct (ST u i eq_refl X) as (Ov & _ & _ & K & _). pose proof (in_Z u i ltac:(lia)).
        unfold over, len in Ov. apply Nat.ltb_lt in Ov. lia.
    - unfold pcok. assert (C : (exists w, v = tw w) \/ 2 <= v) by (destruct v as [|[|v]]; [left; exists false; auto|left; exists true; auto|right; lia]).
      destruct C as [(w & ->)|C].
      + pose proof (QB w th E) as B. destruct (dt_pc th); auto; contradiction.
      + destruct (QO _ _ E C) as [-> | ->]; auto.
  Qed.

  Definition waits (th : dth) (c : dconf) : Prop := (dt_pc th = DBar /\ forallb d_past (dc_th c) = false) \/ dt_pc th = DFin.
  Ltac binds E := repeat match type of E with bind _ _ = Ok _ => apply bind_ok in E; let x := fresh "x" in let Ex := fresh "E" in destruct E as (x & Ex & E) end.
  Lemma rpot_next : forall hi i, i < hi -> rpot hi true i = rpot hi false i - Y /\ Y <= rpot hi false i /\ 2 * Y + n + 4 <= rpot hi false i /\
    rpot hi false (S i) = rpot hi true i - Y /\ Y <= rpot hi true i.
  Proof.
    intros hi i Hi. unfold rpot. replace (hi - i) with (S (hi - S i)) by lia. generalize (hi - S i). intros a. cbn [Nat.mul]. unfold Y. nia.
  Qed.
  Lemma row_pot : forall u th h th' h', pcok th -> pcat (dt_pc th) <> None -> (forall i, dt_pc th = DRow u i -> i < dt_hi th) ->
    (forall v i, pcat (dt_pc th) = Some (v, i) -> v = u) -> dstep_row u th h = Ok (th', h') -> pot th' < pot th.
  Proof.
    intros u th h th' h' K Hn HR HU E. unfold MtDropModel.dstep_row in E. unfold pcok in K. unfold pot at 2.
    assert (YZ : Y = 2 * Z + 4) by reflexivity.
    destruct (dt_pc th) as [v i|v i k|v i|v i k| |i prev pos|] eqn:Epc; cbn [pcat] in Hn, HU; try congruence;
      pose proof (HU v i eq_refl); subst v.
    - pose proof (HR i eq_refl) as Hi. destruct (rpot_next (dt_hi th) i Hi) as (R1 & R2 & R3 & R4 & R5).
      binds E. destruct x0 as (b, e). destruct (e - b <=? x); binds E; injection E as <- _; unfold pot; cbn [d_at dt_pc dt_hi].
      + unfold d_next. destruct u; lia.
      + destruct u; lia.
    - destruct K as (Hi & Hk). destruct (rpot_next (dt_hi th) i Hi) as (R1 & R2 & R3 & R4 & R5).
      binds E. destruct x as (b, e). destruct (k <? e); binds E; injection E as <- _; unfold pot; cbn [d_at dt_pc dt_hi]; destruct u; lia.
    - destruct (rpot_next (dt_hi th) i K) as (R1 & R2 & R3 & R4 & R5).
      binds E. destruct x0 as (b, e). destruct ((x =? 0) || (length (h_ind h) <? e)); [discriminate|]. injection E as <- _. unfold pot; cbn [d_at dt_pc dt_hi]; destruct u; lia.
    - destruct K as (Hi & Hk). destruct (rpot_next (dt_hi th) i Hi) as (R1 & R2 & R3 & R4 & R5).
      binds E. destruct x0 as (b, e). destruct (k <? b + x); binds E; injection E as <- _; unfold pot; cbn [d_at dt_pc dt_hi].
      + destruct u; lia.
      + unfold d_next. destruct u; lia.
  Qed.
  Lemma step_pot : forall v th c th' hL hU, pcok th -> dstep n v th c = Ok (th', hL, hU) ->
    (waits th c /\ th' = th /\ hL = dc_L c /\ hU = dc_U c) \/ pot th' < pot th.
  Proof.
    intros v th c th' hL hU K E. unfold MtDropModel.dstep in E. unfold waits.
    assert (RF : forall i, pcat (dt_pc th) = Some (false, i) -> (dt_pc th = DRow false i -> i < dt_hi th) ->
      ('(t, h) <- dstep_row false th (dc_L c) ;; Ok (t, h, dc_U c)) = Ok (th', hL, hU) -> pot th' < pot th).
    { intros i Ep Hi E1. apply bind_ok in E1. destruct E1 as ((t, h) & E1 & E2). injection E2 as <- <- <-.
      apply (row_pot false th (dc_L c) t h); auto.
      - rewrite Ep. discriminate.
      - intros j Ej. rewrite Ej in *. cbn in Ep. injection Ep as ->. auto.
      - intros w j Ej. congruence. }
    assert (RT : forall i, pcat (dt_pc th) = Some (true, i) -> (dt_pc th = DRow true i -> i < dt_hi th) ->
      ('(t, h) <- dstep_row true th (dc_U c) ;; Ok (t, dc_L c, h)) = Ok (th', hL, hU) -> pot th' < pot th).
    { intros i Ep Hi E1. apply bind_ok in E1. destruct E1 as ((t, h) & E1 & E2). injection E2 as <- <- <-.
      apply (row_pot true th (dc_U c) t h); auto.
      - rewrite Ep. discriminate.
      - intros j Ej. rewrite Ej in *. cbn in Ep. injection Ep as ->. auto.
      - intros w j Ej. congruence. }
    destruct (dt_pc th) as [u i|u i k|u i|u i k| |i prev pos|] eqn:Epc.
    - destruct u.
      + right. apply (RT i); auto. intros _. unfold pcok in K. rewrite Epc in K. now apply K.
      + destruct (Nat.ltb_spec i (dt_hi th)) as [C|C]; right; [apply (RF i); auto|]. injection E as <- _ _. unfold pot. rewrite Epc. cbn [d_at dt_pc]. unfold rpot. lia.
    - destruct u; right; [apply (RT i)|apply (RF i)]; auto; discriminate.
    - destruct u; right; [apply (RT i)|apply (RF i)]; auto; discriminate.
    - destruct u; right; [apply (RT i)|apply (RF i)]; auto; discriminate.
    - destruct (forallb d_past (dc_th c)).
      + right. unfold pot at 2. rewrite Epc. destruct (v =? 0); [|destruct (v =? 1)]; binds E; injection E as <- _ _; unfold pot; cbn [d_at dt_pc]; lia.
      + left. injection E as <- <- <-. auto.
    - right. assert (SC : forall h t h', dstep_comp n i prev pos th h = Ok (t, h') -> pot t < pot th).
      { intros h t h' E1. unfold dstep_comp in E1. unfold pot at 2. rewrite Epc. destruct (Nat.ltb_spec i n) as [C|C].
        - apply bind_ok in E1. destruct E1 as ([[[[a b] d] e] f] & _ & E1). injection E1 as <- _. unfold pot. cbn [d_at dt_pc]. lia.
        - apply bind_ok in E1. destruct E1 as (z & _ & E1). injection E1 as <- _. unfold pot. cbn [d_at dt_pc]. lia. }
      destruct (v =? 0); apply bind_ok in E; destruct E as ((t, h) & E1 & E2); injection E2 as <- _ _; eauto.
    - left. injection E as <- <- <-. auto.
  Qed.

  Lemma mu_upd : forall l v (th th' : dth), nth_error l v = Some th -> pot th' < pot th ->
    list_sum (map pot (upd l v th')) < list_sum (map pot l).
  Proof.
    induction l as [|a l IH]; intros u th th' E H; destruct u; cbn [nth_error] in E; try discriminate.
    - injection E as ->. cbn [upd map list_sum fold_right]. apply Nat.add_lt_mono_r. exact H.
    - cbn [upd map list_sum fold_right]. apply Nat.add_lt_mono_l. eapply IH; eauto.
  Qed.
  Lemma upd_id : forall X (l : list X) u x, nth_error l u = Some x -> upd l u x = l.
  Proof.
    induction l; intros u x E; destruct u; cbn [nth_error] in E; try discriminate; cbn [upd].
    - now injection E as ->.
    - f_equal. now apply IHl.
  Qed.
  Notation conf_next := (dstep_conf G ceil_mul nth_el ref alpha n).
  Notation run := (drun G ceil_mul nth_el ref alpha n).
  Lemma conf_step : forall v c, dinv c -> exists c', conf_next v c = Ok c' /\ dinv c' /\
    ((c' = c /\ forall th, nth_error (dc_th c) v = Some th -> waits th c) \/ mu c' < mu c).
  Proof.
    intros v c Hc. pose proof (step_inv v c Hc) as X. unfold wp in X. destruct (conf_next v c) as [c'| |] eqn:E; try contradiction.
    exists c'. split; auto. split; auto. unfold dstep_conf in E. destruct (nth_error (dc_th c) v) as [th|] eqn:Eu.
    - apply bind_ok in E. destruct E as ([[th' hL] hU] & Es & E). injection E as <-.
      destruct (step_pot v th c th' hL hU (inv_pcok v c th Hc Eu) Es) as [(W1 & -> & -> & ->)|Dn].
      + left. rewrite upd_id by auto. split; [now destruct c|]. intros th2 E2. congruence.
      + right. unfold mu. cbn [dc_th]. eapply mu_upd; eauto.
    - left. injection E as <-. split; auto. intros; discriminate.
  Qed.
  Lemma all_wait_done : forall c, (forall v th, nth_error (dc_th c) v = Some th -> waits th c) -> ddone c.
  Proof.
    intros c H. assert (WW : forall th, In th (dc_th c) -> waits th c).
    { intros th I. apply In_nth_error in I. destruct I as (u & E). eauto. }
    assert (F1 : forallb d_past (dc_th c) = true).
    { apply forallb_forall. intros th I. unfold d_past. destruct (WW th I) as [(E & _)|E]; now rewrite E. }
    intros th I. destruct (WW th I) as [(E & X)|E]; auto; congruence.
  Qed.
  Lemma round_l : forall r c, dinv c -> exists c', run r c = Ok c' /\ dinv c' /\
    ((c' = c /\ forall u th, In u r -> nth_error (dc_th c) u = Some th -> waits th c) \/ mu c' < mu c).
  Proof.
    induction r as [|u r IH]; intros c Hc.
    - exists c. split; auto. split; auto. left. split; auto. intros ? ? [].
    - destruct (conf_step u c Hc) as (c1 & E1 & I1 & D1). destruct (IH c1 I1) as (c2 & E2 & I2 & D2). exists c2.
      split. { unfold drun in *. cbn [for_list]. rewrite E1. cbn [bind]. exact E2. }
      split; auto. destruct D1 as [(-> & W1)|D1].
      + destruct D2 as [(-> & W2)|D2]; auto. left. split; auto. intros v th [<-|I]; eauto.
      + right. destruct D2 as [(-> & _)|D2]; lia.
  Qed.
  Lemma step_done : forall u c, ddone c -> conf_next u c = Ok c.
  Proof.
    intros u [ths hL hU] Hd. unfold dstep_conf. cbn [dc_th]. destruct (nth_error ths u) as [th|] eqn:Eu; auto.
    unfold MtDropModel.dstep. rewrite (Hd th (nth_error_In _ _ Eu)). cbn [bind dc_L dc_U]. now rewrite upd_id.
  Qed.
  Lemma done_run : forall r c, ddone c -> run r c = Ok c.
  Proof.
    induction r as [|u r IH]; intros c Hd; [reflexivity|]. unfold drun in *. cbn [for_list]. rewrite step_done by auto. cbn [bind]. now apply IH.
  Qed.
  Lemma rounds_l : forall rounds c, dinv c -> mu c < length rounds -> (forall r, In r rounds -> forall u, u < nth -> In u r) ->
    exists c', run (concat rounds) c = Ok c' /\ dinv c' /\ ddone c'.
  Proof.
    induction rounds as [|r rounds IH]; intros c Hc Hm' HR; [cbn [length] in Hm'; lia|].
    destruct (round_l r c Hc) as (c1 & E1 & I1 & Dd). cbn [concat]. unfold drun in *. rewrite for_list_app, E1. cbn [bind].
    destruct Dd as [(-> & WW)|Dd].
    - assert (Hd : ddone c).
      { apply all_wait_done. intros u th E. apply WW with u; auto. apply (HR r); [now left|].
        assert (CL : length (dc_th c) = nth) by (destruct Hc as [H|H]; apply H). rewrite <- CL. apply nth_error_Some. congruence. }
      exists c. split; [now apply done_run|]. auto.
    - apply IH; auto; [cbn [length] in Hm'; lia|]. intros r' I. apply HR. now right.
  Qed.
End P.
