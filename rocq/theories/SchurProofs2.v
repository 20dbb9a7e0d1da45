(** * SchurProofs2: the Schur complement. *)
From Coq Require Import List Arith Lia Bool Permutation Ring.
From Verif Require Import Base Scalar Spec CSModel CSSpec ConvModel ConvSpec BucketProofs ConvProofs ConvProofs2
  ConvProofs3 ConvProofs4 Mag VecModel VecSpec VecProofs CroutModel CroutSpec CroutProofs3 CroutProofs5 SchurModel SchurSpec SchurProofs1.
Import ListNotations.

Section P.
  Context {O : Ops}.
  Notation T := (T O).
  Notation row := (list (nat * T)).

  Variables (n m : nat) (s t d : list T) (A : CS O) (p q qinv : list nat) (L_E U_F : CS O).
  Let N := n - m.
  Hypothesis V : valid A. Hypothesis Pn : psize A = n. Hypothesis Sn : ssize A = n.
  Hypothesis Ls : length s = n. Hypothesis Lt : length t = n. Hypothesis Hm : m < n.
  Hypothesis Pp : is_perm n p. Hypothesis Iq : is_inv n q qinv.
  Hypothesis WL : wf L_E. Hypothesis PL : psize L_E = N. Hypothesis SL : ssize L_E = m.
  Hypothesis WU : wf U_F. Hypothesis PU : psize U_F = m. Hypothesis SU : ssize U_F = N.
  Hypothesis Ld : m <= length d.

  (** The entries of the lower right block in row [i], and the products subtracted. *)
  Definition crow (i : nat) : row :=
    map (fun e => (nth (fst e) qinv 0 - m, sval s t (nth (m + i) p 0) (fst e) (snd e)))
      (filter (fun e => m <=? nth (fst e) qinv 0) (rowl A (nth (m + i) p 0))).
  Definition updl (i : nat) : row :=
    flat_map (fun e => map (fun f => (fst f, tmul O (tmul O (snd e) (nth (fst e) d (t0 O))) (snd f))) (rowl U_F (fst e))) (rowl L_E i).
  Definition pushl (i : nat) : list nat := map fst (updl i) ++ map fst (crow i).
  Definition ridx (i : nat) : list nat := isort (firsts (pushl i)).
  Definition start (i j : nat) : T := match find (fun e => fst e =? j) (crow i) with Some e => snd e | None => t0 O end.
  Definition sexact (i j : nat) : T :=
    fold_left (fun x u => if fst u =? j then tsub O x (snd u) else x) (updl i) (start i j).
  Definition srow (i : nat) : row := map (fun j => (j, sexact i j)) (ridx i).

  Lemma pi_lt : forall i, i < N -> nth (m + i) p 0 < n.
  Proof. intros. destruct Pp as (_ & R & _). apply R. unfold N in *. lia. Qed.
  Lemma A_rng : forall i e, i < N -> In e (rowl A (nth (m + i) p 0)) -> fst e < n.
  Proof. intros i e Hi He. rewrite <- Sn. apply (wf_rowl_range O A (proj1 V) (nth (m + i) p 0)); auto. rewrite Pn. now apply pi_lt. Qed.
  Lemma L_rng : forall i e, i < N -> In e (rowl L_E i) -> fst e < m.
  Proof. intros i e Hi He. rewrite <- SL. apply (wf_rowl_range O L_E WL i); auto. lia. Qed.
  Lemma U_rng : forall c e, c < m -> In e (rowl U_F c) -> fst e < N.
  Proof. intros i e Hi He. rewrite <- SU. apply (wf_rowl_range O U_F WU i); auto. lia. Qed.

  Lemma crow_in : forall i j v, i < N -> (In (j, v) (crow i) <->
    j < N /\ exists w, stored A (nth (m + i) p 0) (nth (m + j) q 0) w /\ v = sval s t (nth (m + i) p 0) (nth (m + j) q 0) w).
  Proof.
    intros i j v Hi. destruct Iq as (_ & Lqi & I3 & I4). unfold crow. rewrite in_map_iff. split.
    - intros ((c, w) & E & F). apply filter_In in F. destruct F as (F & F'). cbn [fst snd] in *. injection E as E1 E2. subst j v. apply Nat.leb_le in F'.
      pose proof (A_rng i (c, w) Hi F) as Hj. cbn [fst] in Hj.
      destruct (I4 c Hj) as (B1 & B2). replace (m + (nth c qinv 0 - m)) with (nth c qinv 0) by lia. rewrite B2. split; [unfold N; lia|].
      exists w. split; auto.
    - intros (Hk & w & St & ->). destruct (I3 (m + j) ltac:(unfold N in *; lia)) as (B1 & B2).
      exists (nth (m + j) q 0, w). cbn [fst snd]. rewrite B2. split; [f_equal; lia|]. apply filter_In. split; auto. cbn [fst]. rewrite B2. apply Nat.leb_le. lia.
  Qed.
  Lemma crow_nodup : forall i, i < N -> NoDup (map fst (crow i)).
  Proof.
    intros i Hi. unfold crow. rewrite map_map. cbn [fst].
    pose proof (valid_nodup O A (nth (m + i) p 0) (proj2 V) ltac:(rewrite Pn; now apply pi_lt)) as D.
    assert (R : forall e, In e (rowl A (nth (m + i) p 0)) -> fst e < n) by (intros; eapply A_rng; eauto).
    revert D R. generalize (rowl A (nth (m + i) p 0)). induction l as [|[j v] l IH]; cbn [map filter fst snd]; intros D R; [constructor|].
    inversion D as [|? ? Dn Dl]; clear D; subst x l0. destruct (Nat.leb_spec m (nth j qinv 0)) as [LE|].
    - cbn [map fst]. constructor; [|apply IH; [exact Dl|intros; apply R; right; assumption]].
      rewrite in_map_iff. intros ((j' & v') & E & F). cbn [fst] in E. apply filter_In in F.
      destruct F as (F & F'). cbn [fst] in F'. apply Nat.leb_le in F'. destruct Iq as (_ & _ & _ & I4). destruct (I4 j) as (_ & B1); [apply (R (j, v)); simpl; auto|].
      destruct (I4 j') as (_ & B2); [apply (R (j', v')); simpl; auto|]. assert (j = j').
      { assert (E2 : nth j qinv 0 = nth j' qinv 0) by lia. congruence. } subst j'. apply Dn.
      apply in_map_iff. exists (j, v'). auto.
    - apply IH; [exact Dl|intros; apply R; right; assumption].
  Qed.
  Lemma start_in : forall i j v, i < N -> In (j, v) (crow i) -> start i j = v.
  Proof.
    intros i j v Hi H. unfold start. pose proof (crow_nodup i Hi) as D. revert D H. generalize (crow i). clear.
    induction l as [|[a b] l IH]; cbn [map fst snd find In]; intros D H; [tauto|]. inversion D; subst.
    destruct (Nat.eqb_spec a j) as [E|E].
    - subst a. destruct H as [H|H]; [now inversion H|]. exfalso. apply H2. now apply (in_map fst) in H.
    - destruct H as [H|H]; [congruence|]. auto.
  Qed.
  Lemma start_notin : forall i j, (forall v, ~ In (j, v) (crow i)) -> start i j = t0 O.
  Proof.
    intros i j H. unfold start. destruct (find _ _) as [[a b]|] eqn:E; auto. apply find_some in E. destruct E as (E & E').
    apply Nat.eqb_eq in E'. cbn in E'. subst a. exfalso. eapply H; eauto.
  Qed.
  Lemma updl_lt : forall i e, i < N -> In e (updl i) -> fst e < N.
  Proof.
    intros i e Hi He. apply in_flat_map in He. destruct He as (c & Hc & He). apply in_map_iff in He. destruct He as (f & <- & Hf).
    cbn [fst]. eapply U_rng; [|exact Hf]. eapply L_rng; eauto.
  Qed.
  Lemma pushl_lt : forall i j, i < N -> In j (pushl i) -> j < N.
  Proof.
    intros i j Hi H. apply in_app_or in H. destruct H as [H|H]; apply in_map_iff in H; destruct H as ((a & v) & <- & H).
    - now apply updl_lt in H.
    - apply crow_in in H; auto. cbn. tauto.
  Qed.
  Lemma ridx_in : forall i j, In j (ridx i) <-> In j (pushl i).
  Proof.
    intros. unfold ridx. rewrite <- (in_firsts (pushl i)). split; apply Permutation_in; [|apply Permutation_sym]; apply isort_perm.
  Qed.
  Lemma ridx_asc : forall i, asc (ridx i).
  Proof. intros. apply isort_asc, firsts_nodup. Qed.
  Lemma srow_fst : forall i, map fst (srow i) = ridx i.
  Proof. intros. unfold srow. rewrite map_map. cbn [fst]. apply map_id. Qed.
  Lemma srow_rng : forall i e, i < N -> In e (srow i) -> fst e < N.
  Proof. intros i e Hi He. apply (in_map fst) in He. rewrite srow_fst in He. apply ridx_in in He. now apply pushl_lt in He. Qed.

  (** ** The pattern *)
  Lemma pattern_eq : forall i tag buf, i < N -> schur_pattern A p qinv m L_E U_F i tag buf = run_pushes tag (pushl i) (sv_reset buf).
  Proof.
    intros i tag buf Hi. unfold schur_pattern, run_pushes, pushl. rewrite for_list_app.
    rewrite row_iter_rowl by (auto; lia).
    match goal with |- bind ?x _ = bind ?y _ => assert (E : x = y) end.
    { unfold updl. rewrite map_flat_map, for_list_flat_map. apply for_list_ext_in. intros e v He.
      rewrite row_iter_rowl by (auto; rewrite PU; eapply L_rng; eauto). rewrite map_map. cbn [fst]. rewrite for_list_map. reflexivity. }
    rewrite E. clear E. destruct (for_list (map fst (updl i)) _ _) as [v| |]; cbn [bind]; auto.
    pose proof Pp as (Lp & _). pose proof Iq as (_ & Lqi & _). rewrite (get_nth _ p _ 0) by (unfold N in *; lia). cbn [bind].
    rewrite row_iter_rowl by (try apply V; rewrite Pn; now apply pi_lt).
    unfold crow. rewrite map_map. cbn [fst]. rewrite for_list_map, <- for_list_filter. apply for_list_ext_in. intros e v' He.
    rewrite (get_nth _ qinv _ 0) by (rewrite Lqi; eapply A_rng; eauto). cbn [bind]. destruct (m <=? nth (fst e) qinv 0); reflexivity.
  Qed.

  Lemma pattern_l : forall Nb i tag buf, i < N -> N <= Nb -> idle Nb tag buf ->
    wp (schur_pattern A p qinv m L_E U_F i tag buf) (fun b => idle Nb (S tag) b /\ held b = firsts (pushl i) /\ sv_cnt b = length (ridx i) /\ sv_vals b = sv_vals buf).
  Proof.
    intros Nb i tag buf Hi HN (Ok1 & Ol). rewrite pattern_eq by auto. eapply wp_conseq.
    { apply (run_pushes_l Nb tag buf); auto.
      - intros j Hj. apply pushl_lt in Hj; auto. lia.
      - intros j Hj E. apply Ol in E; auto. lia. }
    intros b Pu. split; [split|].
    - eapply pushing_ok; eauto. intros j Hj. apply pushl_lt in Hj; auto. lia.
    - intros j s' Hj E. destruct Pu. 
      assert (E2 : VecProofs.tag b j = Some s') by exact E. rewrite pu_tag in E2 by auto. destruct (in_dec Nat.eq_dec j (pushl i)).
      + injection E2 as E2. lia.
      + apply Ol in E2; auto.
    - destruct Pu. split; auto. split; auto. unfold ridx. now rewrite isort_length.
  Qed.

  (** ** The values of one row *)
  Lemma fill_l : forall i inds bv, i < N -> (forall j, In j inds -> j < N) -> (forall j, In j (pushl i) -> In j inds) -> N <= length bv ->
    (forall j, In j inds -> nth j bv (t0 O) = t0 O) ->
    wp (schur_fill s t d A p qinv m L_E U_F i bv) (fun bv' => length bv' = length bv /\ forall j, In j inds -> nth j bv' (t0 O) = sexact i j).
  Proof.
    intros i inds bv Hi HI HP HB H0. unfold schur_fill. pose proof Pp as (Lp & _). pose proof Iq as (_ & Lqi & _).
    assert (L0 : length bv = length bv) by auto.
    wpb. apply wp_get with (d := 0); [unfold N in *; lia|].
    pose proof (pi_lt i Hi) as Hpi. wpb. apply wp_get with (d := t0 O); [lia|].
    wpb. rewrite row_iter_rowl by (try apply V; lia).
    match goal with |- wp (for_list ?l ?f ?b) _ => assert (E : for_list l f b = for_list (crow i) (fun e b => set b (fst e) (snd e)) b) end.
    { unfold crow. rewrite for_list_map, <- for_list_filter. apply for_list_ext_in. intros e b He. pose proof (A_rng i e Hi He).
      rewrite (get_nth _ qinv _ 0) by lia. cbn [bind]. destruct (m <=? nth (fst e) qinv 0); auto. rewrite (get_nth _ t _ (t0 O)) by lia. reflexivity. }
    rewrite E. clear E. eapply wp_conseq with (P := fun b => length b = length bv /\ forall j, In j inds -> nth j b (t0 O) = start i j).
    { eapply wp_conseq.
      { apply (for_list_inv _ _ (fun pre b => length b = length bv /\ forall j, In j inds ->
          (forall v, In (j, v) pre -> nth j b (t0 O) = v) /\ ((forall v, ~ In (j, v) pre) -> nth j b (t0 O) = t0 O))).
        - split; auto. intros j Hj. split; [intros v []|]. auto.
        - intros pre [j v] post b E (L & H). pose proof (crow_nodup i Hi) as D. rewrite E in D.
          assert (j < N). { assert (Hc : In (j, v) (crow i)) by (rewrite E; apply in_or_app; simpl; auto). apply crow_in in Hc; tauto. }
          cbn [fst snd]. apply wp_set; [lia|]. rewrite upd_length. split; auto. intros j' Hj'. rewrite nth_upd by lia.
          destruct (H j' Hj') as (Ha & Hb). destruct (Nat.eqb_spec j' j) as [->|NE]; split; intros.
          + apply in_app_or in H2. destruct H2 as [H2|[H2|[]]]; [|congruence]. exfalso. rewrite map_app in D. cbn [map fst] in D.
            apply NoDup_remove_2 in D. apply D. apply in_or_app. left. now apply (in_map fst) in H2.
          + exfalso. apply (H2 v). apply in_or_app; simpl; auto.
          + apply in_app_or in H2. destruct H2 as [H2|[H2|[]]]; [|congruence]. auto.
          + apply Hb. intros w Hw. apply (H2 w). apply in_or_app; auto. }
      intros b (L & H). split; auto. intros j Hj. destruct (H j Hj) as (Ha & Hb).
      destruct (in_dec Nat.eq_dec j (map fst (crow i))) as [I|I].
      - apply in_map_iff in I. destruct I as ((j' & v) & E & I). cbn in E. subst j'. rewrite (start_in i j v) by auto. now apply Ha.
      - assert (X : forall v, ~ In (j, v) (crow i)). { intros v Hv. apply I. now apply (in_map fst) in Hv. }
        rewrite start_notin by auto. auto. }
    intros b1 (L1 & H1).
    rewrite row_iter_rowl by (auto; lia).
    match goal with |- wp (for_list ?l ?f ?b) _ => assert (E : for_list l f b = for_list (updl i) (fun e b => x <- get b (fst e) ;; set b (fst e) (tsub O x (snd e))) b) end.
    { unfold updl. rewrite for_list_flat_map. apply for_list_ext_in. intros e b He. pose proof (L_rng i e Hi He).
      rewrite (get_nth _ d _ (t0 O)) by lia. cbn [bind]. rewrite row_iter_rowl by (auto; lia). rewrite for_list_map. reflexivity. }
    rewrite E. clear E. unfold sexact.
    eapply wp_conseq.
    { apply (for_list_inv _ _ (fun pre b => length b = length bv /\ forall j, In j inds ->
         nth j b (t0 O) = fold_left (fun x u => if fst u =? j then tsub O x (snd u) else x) pre (start i j))).
      - split; auto.
      - intros pre [j v] post b E (L & H). assert (Hu : In (j, v) (updl i)) by (rewrite E; apply in_or_app; simpl; auto).
        pose proof (updl_lt i _ Hi Hu) as Hj. cbn [fst snd] in *. wpb. apply wp_get with (d := t0 O); [lia|]. apply wp_set; [lia|].
        rewrite upd_length. split; auto. intros j' Hj'. rewrite nth_upd by lia. rewrite fold_left_app. cbn [fold_left fst snd].
        rewrite (Nat.eqb_sym j j'). destruct (Nat.eqb_spec j' j) as [->|NE]; [|now apply H]. f_equal. now apply H. }
    auto.
  Qed.

  Lemma row_l : forall i inds bv, i < N -> (forall j, In j inds -> j < N) -> (forall j, In j (pushl i) -> In j inds) -> N <= length bv ->
    wp (schur_row s t d A p qinv m L_E U_F i inds bv) (fun bv' => length bv' = length bv /\ forall j, In j inds -> nth j bv' (t0 O) = sexact i j).
  Proof.
    intros i inds bv Hi HI HP HB. unfold schur_row.
    wpb. eapply wp_conseq.
    { apply (for_list_inv _ _ (fun pre b => length b = length bv /\ forall j, In j pre -> nth j b (t0 O) = t0 O)).
      - split; auto. intros j [].
      - intros pre j post b E (L & H). assert (j < N) by (apply HI; rewrite E; apply in_or_app; simpl; auto). apply wp_set; [lia|].
        rewrite upd_length. split; auto. intros j' Hj'. rewrite nth_upd by lia. destruct (Nat.eqb_spec j' j); auto. apply H.
        apply in_app_or in Hj'. destruct Hj' as [?|[?|[]]]; [auto|congruence]. }
    intros b0 (L0 & H0). rewrite <- L0. apply fill_l; auto; lia.
  Qed.

  Lemma flat_split : forall k, k < N -> flat O srow N = flat O srow k ++ srow k ++ flat_map srow (seq (S k) (N - S k)).
  Proof.
    intros k Hk. unfold flat. replace N with (k + S (N - S k)) at 1 by lia. rewrite seq_app, flat_map_app. cbn [seq flat_map]. reflexivity.
  Qed.

  (** Writing the values of one row. *)
  Lemma store_l : forall i bv vs, i < N -> N <= length bv -> (forall j, In j (ridx i) -> nth j bv (t0 O) = sexact i j) ->
    length vs = length (flat O srow N) ->
    wp (schur_store (offs O srow N) (map fst (flat O srow N)) i bv vs) (fun vs' => length vs' = length vs /\
      forall k, (length (flat O srow i) <= k < length (flat O srow (S i)) -> nth k vs' (t0 O) = snd (nth k (flat O srow N) (0, t0 O))) /\
        (~ (length (flat O srow i) <= k < length (flat O srow (S i))) -> nth k vs' (t0 O) = nth k vs (t0 O))).
  Proof.
    intros i bv vs Hi HB Hv Lv. unfold schur_store.
    assert (Lo : length (offs O srow N) = N + 1) by (unfold offs; now rewrite map_length, seq_length).
    wpb. apply wp_get with (d := 0); [lia|]. wpb. apply wp_get with (d := 0); [lia|]. rewrite !offs_nth by lia.
    pose proof (flat_len_mono O srow (S i) N ltac:(lia)) as M1. rewrite flat_S, app_length in *.
    eapply wp_conseq.
    { apply (for_range_inv _ (fun k' vs' => length vs' = length vs /\
        forall k, (length (flat O srow i) <= k < k' -> nth k vs' (t0 O) = snd (nth k (flat O srow N) (0, t0 O))) /\
        (~ (length (flat O srow i) <= k < k') -> nth k vs' (t0 O) = nth k vs (t0 O)))); [lia| |].
      - split; auto. intros k. split; [lia|auto].
      - intros k vs' Hk (L & H). wpb. apply wp_get with (d := 0); [rewrite map_length; lia|].
        assert (E : nth k (flat O srow N) (0, t0 O) = nth (k - length (flat O srow i)) (srow i) (0, t0 O)).
        { rewrite (flat_split i Hi). rewrite app_nth2 by lia. rewrite app_nth1 by lia. reflexivity. }
        assert (HE : In (nth k (flat O srow N) (0, t0 O)) (srow i)) by (rewrite E; apply nth_In; lia).
        change 0 with (fst (0, t0 O)) at 1. rewrite map_nth. pose proof (srow_rng i _ Hi HE) as Hr.
        wpb. apply wp_get with (d := t0 O); [lia|]. apply wp_set; [lia|]. rewrite upd_length. split; auto.
        intros k'. rewrite nth_upd by lia. destruct (Nat.eqb_spec k' k) as [->|NE].
        + split; [|lia]. intros _. unfold srow in HE at 2. apply in_map_iff in HE. destruct HE as (j & HE & Hj). rewrite <- HE. cbn [fst snd]. now apply Hv.
        + destruct (H k') as (Ha & Hb). split; intros; [apply Ha|apply Hb]; lia. }
    auto.
  Qed.

  Lemma slice_row : forall i, i < N ->
    slice (length (flat O srow i)) (length (flat O srow (S i)) - length (flat O srow i)) (map fst (flat O srow N)) = ridx i.
  Proof.
    intros i Hi. rewrite flat_S, app_length. rewrite (flat_split i Hi), !map_app, srow_fst.
    replace (length (flat O srow i) + length (srow i) - length (flat O srow i)) with (length (ridx i)) by (rewrite <- srow_fst, map_length; lia).
    unfold slice. rewrite skipn_app, map_length, Nat.sub_diag. rewrite skipn_all2 by (rewrite map_length; lia). cbn [app skipn].
    rewrite firstn_app, Nat.sub_diag, firstn_all. cbn [firstn]. apply app_nil_r.
  Qed.

  Lemma compute_schur_l : forall Nb buf bv ji jv, N <= Nb -> idle Nb n buf -> N <= length bv ->
    compute_schur s t d A p qinv m L_E U_F buf bv ji jv = Ok (canon O N N srow).
  Proof.
    intros Nb buf bv ji jv HN Id HB.
    assert (Wp : wp (compute_schur s t d A p qinv m L_E U_F buf bv ji jv) (fun r => r = canon O N N srow)).
    2: { destruct (compute_schur _ _ _ _ _ _ _ _ _ _ _ _ _); try contradiction. now rewrite Wp. }
    unfold compute_schur. rewrite Pn. destruct (Nat.eqb_spec m n); [lia|]. destruct (Nat.ltb_spec n m); [lia|]. fold N.
    assert (LR : forall k, length (srow k) = length (ridx k)) by (intros; unfold srow; apply map_length).
    wpb. apply wp_set; [rewrite repeat_length; lia|].
    wpb. eapply wp_conseq.
    { apply (for_range_inv _ (fun i (st : list nat * nat * SV O) => let '(rs, tag, b) := st in
        length rs = N + 1 /\ tag = n + i /\ idle Nb tag b /\ forall k, k <= i -> nth k rs 0 = length (flat O srow k))); [lia| |].
      - rewrite upd_length, repeat_length. split; auto. split; auto. split; auto. intros k Hk. replace k with 0 by lia.
        rewrite nth_upd_eq by (rewrite repeat_length; lia). reflexivity.
      - intros i [[rs tag] b] Hi (L & -> & Idb & HR). wpb. eapply wp_conseq; [apply (pattern_l Nb); eauto; lia|]. intros b' (Id' & Hh & Hc & _).
        wpb. apply wp_get with (d := 0); [lia|]. wpb. apply wp_set; [lia|]. apply wp_ok. rewrite upd_length. split; auto. split; [lia|]. split; auto.
        intros k Hk. rewrite nth_upd by lia. destruct (Nat.eqb_spec k (S i)) as [->|]; [|apply HR; lia].
        rewrite HR, Hc by lia. rewrite flat_S, app_length, LR. reflexivity. }
    intros [[rs tag] b] (L & Et & Idb & HR). wpb. apply wp_get with (d := 0); [lia|]. rewrite HR by lia.
    assert (RS : rs = offs O srow N).
    { apply (list_ext _ _ _ 0). { unfold offs. rewrite map_length, seq_length. auto. }
      intros k Hk. rewrite HR, offs_nth by lia. reflexivity. }
    destruct (Nat.eqb_spec (length (flat O srow N)) 0) as [Z|Z].
    { apply wp_ok. apply length_zero_iff_nil in Z. unfold canon. rewrite Z, RS. reflexivity. }
    wpb. eapply wp_conseq.
    { apply (for_range_inv _ (fun i (st : list nat * nat * SV O) => let '(ci, tag, b) := st in
        ci = map fst (flat O srow i) /\ idle Nb tag b)); [lia| |].
      - split; auto.
      - intros i [[ci tgv] b1] Hi (-> & Id1). wpb. eapply wp_conseq; [apply (pattern_l Nb); eauto; lia|]. intros b' ((Ok' & Ol') & Hh & Hc & _).
        wpb. eapply wp_conseq; [apply (sort_l Nb); auto|]. intros b2 (Ok2 & _ & Et2 & Hh2).
        assert (C2 : sv_cnt b2 = length (held b2)).
        { unfold held. rewrite firstn_length. destruct Ok2. lia. }
        destruct (Nat.leb_spec (sv_cnt b2) (length (sv_inds b2))); [|destruct Ok2; lia]. apply wp_ok.
        split.
        + rewrite flat_S, map_app, srow_fst. f_equal. change (firstn (sv_cnt b2) (sv_inds b2)) with (held b2). rewrite Hh2, Hh. reflexivity.
        + split; auto. intros j s' Hj E. unfold tg in *. rewrite Et2 in E. now apply (Ol' j). }
    intros [[ci tgv] b1] (-> & _). rewrite RS.
    assert (Lo : length (offs O srow N) = N + 1) by (unfold offs; now rewrite map_length, seq_length).
    wpb. eapply wp_conseq.
    { apply (for_range_inv _ (fun i (st : list T * list T) => let '(vs, bv') := st in
        length vs = length (flat O srow N) /\ length bv' = length bv /\
        forall k, k < length (flat O srow i) -> nth k vs (t0 O) = snd (nth k (flat O srow N) (0, t0 O)))); [lia| |].
      - rewrite repeat_length, map_length. split; auto. split; auto. intros k Hk. cbn in Hk. lia.
      - intros i [vs bv'] Hi (Lv & Lb & Hv). wpb. apply wp_get with (d := 0); [lia|]. wpb. apply wp_get with (d := 0); [lia|].
        rewrite !offs_nth by lia. pose proof (flat_len_mono O srow (S i) N ltac:(lia)) as M1.
        pose proof (flat_len_mono O srow i (S i) ltac:(lia)) as M2.
        destruct (Nat.ltb_spec (length (flat O srow (S i))) (length (flat O srow i))); [lia|]. rewrite map_length.
        destruct (Nat.ltb_spec (length (flat O srow N)) (length (flat O srow (S i)))); [lia|]. cbn [orb].
        rewrite slice_row by lia. wpb. eapply wp_conseq.
        { apply row_l; [lia| | |lia].
          - intros j Hj. apply ridx_in in Hj. apply (pushl_lt i) in Hj; lia.
          - intros j Hj. now apply ridx_in. }
        intros b2 (L2 & H2). wpb. eapply wp_conseq; [apply (store_l i b2 vs); auto; lia|]. intros vs' (L3 & H3). apply wp_ok.
        split; [lia|]. split; [lia|]. intros k Hk. destruct (H3 k) as (Ha & Hb).
        destruct (Nat.le_gt_cases (length (flat O srow i)) k); [apply Ha; lia|]. rewrite Hb by lia. now apply Hv. }
    intros [vs bv'] (Lv & _ & Hv). apply wp_ok. unfold canon. f_equal.
    apply (list_ext _ _ _ (t0 O)). { now rewrite map_length. }
    intros k Hk. rewrite Hv by lia. change (t0 O) with (snd (0, t0 O)) at 2. now rewrite map_nth.
  Qed.
End P.
