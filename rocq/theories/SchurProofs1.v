(** * SchurProofs1: the blocks E and F. *)
From Coq Require Import List Arith Lia Bool Permutation Ring.
From Verif Require Import Base Scalar Spec CSModel CSSpec ConvModel ConvSpec BucketProofs ConvProofs ConvProofs2
  ConvProofs3 ConvProofs4 Mag VecModel VecSpec VecProofs CroutModel CroutSpec SchurModel SchurSpec.
Import ListNotations.

Lemma for_list_filter : forall A S (f : A -> bool) (g : A -> S -> res S) l s,
  for_list l (fun e s => if f e then g e s else Ok s) s = for_list (filter f l) g s.
Proof.
  induction l; intros; simpl; auto. destruct (f a); simpl; [|apply IHl]. destruct (g a s); simpl; auto.
Qed.
Lemma for_range_flat : forall A S (g : nat -> list A) (f : A -> S -> res S) (h : nat -> S -> res S) lo hi s,
  (forall i s, lo <= i < hi -> h i s = for_list (g i) f s) ->
  for_range lo hi h s = for_list (flat_map g (seq lo (hi - lo))) f s.
Proof.
  intros. rewrite for_range_list, for_list_flat_map. apply for_list_ext_in. intros i s' Hi. apply in_seq in Hi. apply H. lia.
Qed.

Section RingU.
  Context {O : Ops}. Hypothesis RL : RingLaws O.
  Add Ring TSC1 : (rl_ring O RL).
  Lemma ru_m0m : forall a b, tmul O (tmul O a (t0 O)) b = t0 O. Proof. intros. ring. Qed.
End RingU.

Section P.
  Context {O : Ops}.
  Notation T := (T O).
  Notation row := (list (nat * T)).

  Section E.
  Variables (n m : nat) (s t : list T) (A : CS O) (p q qinv : list nat).
  Hypothesis V : valid A. Hypothesis Pn : psize A = n. Hypothesis Sn : ssize A = n.
  Hypothesis Ls : length s = n. Hypothesis Lt : length t = n. Hypothesis Hm : m <= n.
  Hypothesis Pp : is_perm n p. Hypothesis Iq : is_inv n q qinv.

  Definition erow (i : nat) : list (nat * (nat * T)) :=
    map (fun e => (nth (fst e) qinv 0, (i - m, sval s t (nth i p 0) (fst e) (snd e))))
      (filter (fun e => nth (fst e) qinv 0 <? m) (rowl A (nth i p 0))).

  Lemma E_range : forall i e, i < n -> In e (rowl A (nth i p 0)) -> fst e < n.
  Proof.
    intros i e Hi He. destruct Pp as (_ & Rp & _). destruct V as (W & _). rewrite <- Sn.
    apply (wf_rowl_range O A W (nth i p 0)); auto. rewrite Pn. now apply Rp.
  Qed.
  Lemma erow_in : forall i k a v, i < n -> (In (k, (a, v)) (erow i) <->
    a = i - m /\ k < m /\ exists w, stored A (nth i p 0) (nth k q 0) w /\ v = sval s t (nth i p 0) (nth k q 0) w).
  Proof.
    intros i k a v Hi. destruct Iq as (_ & Lqi & I3 & I4). unfold erow. rewrite in_map_iff. split.
    - intros ((j, w) & E & F). apply filter_In in F. destruct F as (F & F'). cbn [fst snd] in *. injection E as E1 E2 E3. subst k a v. apply Nat.ltb_lt in F'.
      split; auto. split; auto. exists w. pose proof (E_range i (j, w) Hi F) as Hj. cbn [fst] in Hj.
      destruct (I4 j Hj) as (_ & ->). split; auto.
    - intros (-> & Hk & w & St & ->). destruct (I3 k ltac:(lia)) as (B1 & B2).
      exists (nth k q 0, w). cbn [fst snd]. rewrite B2. split; auto. apply filter_In. split; auto. cbn [fst]. rewrite B2. now apply Nat.ltb_lt.
  Qed.
  Definition ees : list (nat * (nat * T)) := flat_map erow (seq m (n - m)).
  Lemma ees_in : forall k a v, In (k, (a, v)) ees <-> a < n - m /\ k < m /\
    exists w, stored A (nth (m + a) p 0) (nth k q 0) w /\ v = sval s t (nth (m + a) p 0) (nth k q 0) w.
  Proof.
    intros. unfold ees. rewrite in_flat_map. split.
    - intros (i & Hi & HI). apply in_seq in Hi. apply erow_in in HI; [|lia]. destruct HI as (-> & Hk & w & X).
      split; [lia|]. split; auto. exists w. replace (m + (i - m)) with i by lia. auto.
    - intros (Ha & Hk & w & X). exists (m + a). split; [apply in_seq; lia|]. apply erow_in; [lia|].
      split; [lia|]. split; auto. exists w. auto.
  Qed.
  Lemma ees_key : forall e, In e ees -> fst e < m.
  Proof. intros (k & (a & v)) He. apply ees_in in He. simpl. tauto. Qed.

  Lemma bk_ees_asc : forall k, k < m -> asc (map fst (bk k ees)).
  Proof.
    intros k Hk. unfold ees, bk. rewrite filter_flat_map, map_flat_map, map_flat_map.
    assert (Row : forall i, i < n -> asc (map fst (map snd (filter (fun e => fst e =? k) (erow i))))).
    { intros i Hi. assert (ND : NoDup (map fst (erow i))).
      { unfold erow. rewrite map_map. cbn [fst].
        pose proof (valid_nodup O A (nth i p 0) (proj2 V) ltac:(destruct Pp as (_ & Rp & _); rewrite Pn; auto)) as D.
        assert (R : forall e, In e (rowl A (nth i p 0)) -> fst e < n) by (intros; eapply E_range; eauto).
        revert D R. generalize (rowl A (nth i p 0)). induction l as [|[j v] l IH]; cbn [map filter fst snd]; intros D R; [constructor|].
        inversion D as [|? ? Dn Dl]; clear D; subst x l0. destruct (nth j qinv 0 <? m).
        - cbn [map fst]. constructor; [|apply IH; [exact Dl|intros; apply R; right; assumption]]. rewrite in_map_iff. intros ((j' & v') & E & F). cbn in E. apply filter_In in F.
          destruct F as (F & _). destruct Iq as (_ & _ & _ & I4). destruct (I4 j) as (_ & B1); [apply (R (j, v)); simpl; auto|].
          destruct (I4 j') as (_ & B2); [apply (R (j', v')); simpl; auto|]. assert (j = j') by congruence. subst j'. apply Dn.
          apply in_map_iff. exists (j, v'). auto.
        - apply IH; [exact Dl|intros; apply R; right; assumption]. }
      assert (LE : length (filter (fun e => fst e =? k) (erow i)) <= 1).
      { clear -ND. induction (erow i) as [|a l IH]; simpl in *; auto. inversion ND; subst. destruct (Nat.eqb_spec (fst a) k); auto. simpl.
        rewrite filter_none; simpl; auto. intros b Hb. apply Nat.eqb_neq. intros E. apply H1. rewrite e, <- E. now apply in_map. }
      destruct (filter _ _) as [|a [|b l]]; simpl in *; auto; try lia. intuition. }
    assert (G : forall c lo, m <= lo -> lo + c <= n ->
      asc (flat_map (fun i => map fst (map snd (filter (fun e => fst e =? k) (erow i)))) (seq lo c)) /\
      forall x, In x (flat_map (fun i => map fst (map snd (filter (fun e => fst e =? k) (erow i)))) (seq lo c)) -> lo - m <= x).
    { induction c; intros lo H1 H2; cbn [seq flat_map]; [split; [exact I|intros x []]|].
      destruct (IHc (S lo) ltac:(lia) ltac:(lia)) as (A1 & A2).
      assert (In1 : forall x, In x (map fst (map snd (filter (fun e => fst e =? k) (erow lo)))) -> x = lo - m).
      { intros x Hx. rewrite map_map in Hx. apply in_map_iff in Hx. destruct Hx as ((a & (b & v)) & <- & F). apply filter_In in F.
        destruct F as (F & _). apply erow_in in F; [|lia]. cbn. tauto. }
      split.
      - apply asc_app. split; [apply Row; lia|]. split; auto. intros x y Hx Hy. apply In1 in Hx. apply A2 in Hy. lia.
      - intros x Hx. apply in_app_or in Hx. destruct Hx as [Hx|Hx]; [apply In1 in Hx; lia|apply A2 in Hx; lia]. }
    apply (G (n - m) m); lia.
  Qed.

  Lemma extract_E_l : forall ji jv, exists E, extract_E s A t m p qinv ji jv = Ok E /\
    is_storage E m (n - m) (fun k a v => a < n - m /\
      exists w, stored A (nth (m + a) p 0) (nth k q 0) w /\ v = sval s t (nth (m + a) p 0) (nth k q 0) w).
  Proof.
    intros ji jv. apply wp_inv. unfold extract_E. rewrite Pn, Sn.
    destruct (Nat.ltb_spec n m); [lia|]. cbn [orb].
    pose proof Pp as (Lp & Rp & _). pose proof Iq as (_ & Lqi & I3 & I4). pose proof V as (W & _).
    assert (Fin : forall cs ind val, bucketed O m ees cs ind val ->
      is_storage (mkCS m (n - m) cs ind val) m (n - m) (fun k a v => a < n - m /\
        exists w, stored A (nth (m + a) p 0) (nth k q 0) w /\ v = sval s t (nth (m + a) p 0) (nth k q 0) w)).
    { intros cs ind val B. destruct (bucketed_storage O m (n - m) ees cs ind val B) as (WB & TB & RB).
      { intros (k & (a & v)) He. apply ees_in in He. cbn. tauto. }
      split; [split; [exact WB|]|split; [exact TB|split; [reflexivity|split; [reflexivity|]]]].
      - apply sorted_asc. cbn [psize]. intros k Hk. rewrite RB by auto. now apply bk_ees_asc.
      - intros k a v Hk. unfold stored at 1. rewrite RB by auto. rewrite bk_in, ees_in. tauto. }
    assert (Nil : ees = [] -> is_storage (O:=O) (mkCS m (n - m) (repeat 0 (m + 1)) [] []) m (n - m) (fun k a v => a < n - m /\
        exists w, stored A (nth (m + a) p 0) (nth k q 0) w /\ v = sval s t (nth (m + a) p 0) (nth k q 0) w)).
    { intros E0. apply Fin. split; [now rewrite repeat_length|]. rewrite E0. split; auto. split; auto. split.
      - intros k Hk. rewrite nth_repeat. reflexivity.
      - intros k Hk. rewrite !nth_repeat. reflexivity. }
    destruct (Nat.eqb_spec (n - m) 0) as [N0|N0].
    { apply wp_ok. apply Nil. unfold ees. rewrite N0. reflexivity. }
    wpb.
    assert (E1 : forall st, for_range m n (fun i cs => pi <- get p i ;;
        row_iter O A pi (fun j (_ : T) cs => qi <- get qinv j ;; (if qi <? m then c <- get cs (S qi) ;; set cs (S qi) (S c) else Ok cs)) cs) st
      = count_keys (map fst ees) st).
    { intros st. unfold count_keys, ees. rewrite map_flat_map. apply for_range_flat. intros i cs Hi.
      rewrite (get_nth _ _ _ 0) by lia. cbn [bind]. rewrite row_iter_rowl by (auto; rewrite Pn; apply Rp; lia).
      unfold erow. rewrite map_map. cbn [fst]. rewrite for_list_map. rewrite <- for_list_filter.
      apply for_list_ext_in. intros e cs' He. rewrite (get_nth _ _ _ 0) by (rewrite Lqi; eapply E_range; eauto; lia). cbn [bind].
      destruct (nth (fst e) qinv 0 <? m); reflexivity. }
    rewrite E1. pose proof (starts_wp _ ees m ees_key) as SW.
    destruct (count_keys (map fst ees) (repeat 0 (m + 1))) as [cs| |]; try contradiction. cbn [bind wp] in *.
    wpb. eapply wp_conseq; [exact SW|]. intros cs' (Lc & Hc). wpb. apply wp_get with (d := 0); [lia|].
    rewrite (Hc m) by lia. rewrite (below_all m ees ees_key).
    destruct (Nat.eqb_spec (length ees) 0) as [Z|Z].
    { apply wp_ok. apply length_zero_iff_nil in Z. replace cs' with (repeat 0 (m + 1)); [now apply Nil|].
      apply (list_ext _ _ _ 0). { now rewrite repeat_length. }
      intros k Hk. rewrite repeat_length in Hk. rewrite nth_repeat, Hc by lia. rewrite Z. reflexivity. }
    wpb.
    assert (E2 : forall st, for_range m n (fun i st => pi <- get p i ;; si <- get s pi ;;
        row_iter O A pi (fun j v st => qi <- get qinv j ;;
          (if qi <? m then tj <- get t j ;; place O qi (i - m) (tmul O (tmul O si v) tj) st else Ok st)) st) st
      = for_list ees (fun e => place O (fst e) (fst (snd e)) (snd (snd e))) st).
    { intros st. unfold ees. apply for_range_flat. intros i st' Hi.
      rewrite (get_nth _ _ _ 0) by lia. cbn [bind]. pose proof (Rp i ltac:(lia)) as Hpi. rewrite (get_nth _ s _ (t0 O)) by lia. cbn [bind].
      rewrite row_iter_rowl by (auto; rewrite Pn; auto).
      unfold erow. rewrite for_list_map. rewrite <- for_list_filter.
      apply for_list_ext_in. intros e st1 He. pose proof (E_range i e ltac:(lia) He) as Hj. rewrite (get_nth _ qinv _ 0) by lia. cbn [bind].
      destruct (nth (fst e) qinv 0 <? m); [|reflexivity]. rewrite (get_nth _ t _ (t0 O)) by lia. reflexivity. }
    rewrite E2. eapply wp_conseq.
    { apply (place_all_wp O m ees cs'); auto using ees_key; now rewrite repeat_length. }
    intros ((cs2 & ind) & val) Pl. wpb. pose proof Pl as (L2 & _).
    eapply wp_conseq; [apply shift_swap_wp; lia|]. intros cs3 (S1 & S2 & S3 & S4). apply wp_ok. apply Fin.
    eapply placed_shift_bucketed; eauto using ees_key; lia.
  Qed.
  End E.

  Section F.
  Variables (n m : nat) (s t : list T) (A : CS O) (p q pinv : list nat).
  Hypothesis V : valid A. Hypothesis Pn : psize A = n. Hypothesis Sn : ssize A = n.
  Hypothesis Ls : length s = n. Hypothesis Lt : length t = n. Hypothesis Hm : m <= n.
  Hypothesis Pq : is_perm n q. Hypothesis Ip : is_inv n p pinv.

  Definition fraw (i : nat) : row :=
    map (fun e => (nth (fst e) pinv 0, sval s t (fst e) (nth (i + m) q 0) (snd e)))
      (filter (fun e => nth (fst e) pinv 0 <? m) (rowl A (nth (i + m) q 0))).
  Definition frow (i : nat) : row := sort_row O (fraw i).

  Lemma F_range : forall i e, i < n - m -> In e (rowl A (nth (i + m) q 0)) -> fst e < n.
  Proof.
    intros i e Hi He. destruct Pq as (_ & Rq & _). destruct V as (W & _). rewrite <- Sn.
    apply (wf_rowl_range O A W (nth (i + m) q 0)); auto. rewrite Pn. apply Rq. lia.
  Qed.
  Lemma fraw_in : forall i k v, i < n - m -> (In (k, v) (fraw i) <->
    k < m /\ exists w, stored A (nth (i + m) q 0) (nth k p 0) w /\ v = sval s t (nth k p 0) (nth (i + m) q 0) w).
  Proof.
    intros i k v Hi. destruct Ip as (_ & Lqi & I3 & I4). unfold fraw. rewrite in_map_iff. split.
    - intros ((j, w) & E & F). apply filter_In in F. destruct F as (F & F'). cbn [fst snd] in *. injection E as E1 E2. subst k v. apply Nat.ltb_lt in F'.
      split; auto. exists w. pose proof (F_range i (j, w) Hi F) as Hj. cbn [fst] in Hj.
      destruct (I4 j Hj) as (_ & ->). split; auto.
    - intros (Hk & w & St & ->). destruct (I3 k ltac:(lia)) as (B1 & B2).
      exists (nth k p 0, w). cbn [fst snd]. rewrite B2. split; auto. apply filter_In. split; auto. cbn [fst]. rewrite B2. now apply Nat.ltb_lt.
  Qed.
  Lemma fraw_nodup : forall i, i < n - m -> NoDup (map fst (fraw i)).
  Proof.
    intros i Hi. unfold fraw. rewrite map_map. cbn [fst].
    pose proof (valid_nodup O A (nth (i + m) q 0) (proj2 V) ltac:(destruct Pq as (_ & Rp & _); rewrite Pn; apply Rp; lia)) as D.
    assert (R : forall e, In e (rowl A (nth (i + m) q 0)) -> fst e < n) by (intros; eapply F_range; eauto).
    revert D R. generalize (rowl A (nth (i + m) q 0)). induction l as [|[j v] l IH]; cbn [map filter fst snd]; intros D R; [constructor|].
    inversion D as [|? ? Dn Dl]; clear D; subst x l0. destruct (nth j pinv 0 <? m).
    - cbn [map fst]. constructor; [|apply IH; [exact Dl|intros; apply R; right; assumption]]. rewrite in_map_iff. intros ((j' & v') & E & F). cbn in E. apply filter_In in F.
      destruct F as (F & _). destruct Ip as (_ & _ & _ & I4). destruct (I4 j) as (_ & B1); [apply (R (j, v)); simpl; auto|].
      destruct (I4 j') as (_ & B2); [apply (R (j', v')); simpl; auto|]. assert (j = j') by congruence. subst j'. apply Dn.
      apply in_map_iff. exists (j, v'). auto.
    - apply IH; [exact Dl|intros; apply R; right; assumption].
  Qed.
  Lemma frow_length : forall i, length (frow i) = length (fraw i).
  Proof. intros. apply sort_row_length. Qed.
  Lemma frow_in : forall i e, i < n - m -> (In e (frow i) <-> In e (fraw i)).
  Proof. intros. apply sort_row_in. now apply fraw_nodup. Qed.

  Lemma extract_F_l : forall buf ji jv, m <= length buf -> exists F, extract_F s A t m pinv q buf ji jv = Ok F /\
    is_storage F (n - m) m (fun i k v => k < m /\
      exists w, stored A (nth (i + m) q 0) (nth k p 0) w /\ v = sval s t (nth k p 0) (nth (i + m) q 0) w).
  Proof.
    intros buf0 ji jv Lb. apply wp_inv. unfold extract_F. rewrite Pn, Sn.
    destruct (Nat.ltb_spec n m); [lia|]. cbn [orb].
    pose proof Pq as (Lq & Rq & _). pose proof Ip as (_ & Lpi & I3 & I4). pose proof V as (W & _).
    set (N := n - m) in *.
    assert (Rng : forall i e, i < N -> In e (frow i) -> fst e < m).
    { intros i (k & v) Hi He. apply frow_in in He; auto. apply fraw_in in He; auto. cbn. tauto. }
    assert (Fin : forall cs ind val, length cs = N + 1 -> (forall k, k <= N -> nth k cs 0 = length (flat O frow k)) ->
      length ind = length (flat O frow N) -> length val = length (flat O frow N) ->
      conti O (flat O frow N) ind -> contv O (flat O frow N) val ->
      is_storage (mkCS N m cs ind val) N m (fun i k v => k < m /\
      exists w, stored A (nth (i + m) q 0) (nth k p 0) w /\ v = sval s t (nth k p 0) (nth (i + m) q 0) w)).
    { intros cs ind val H1 H2 H3 H4 H5 H6. destruct (built_storage O N m cs ind val frow H1 H2 H3 H4 H5 H6 Rng) as (WB & TB & RB).
      split; [split; [exact WB|]|split; [exact TB|split; [reflexivity|split; [reflexivity|]]]].
      - apply sorted_asc. cbn [psize]. intros k Hk. rewrite RB by auto. apply sort_row_asc. now apply fraw_nodup.
      - intros i k v Hi. unfold stored at 1. rewrite RB by auto. rewrite frow_in, fraw_in by auto. tauto. }
    assert (Nil : flat O frow N = [] -> forall cs, length cs = N + 1 -> (forall k, k <= N -> nth k cs 0 = length (flat O frow k)) ->
      is_storage (mkCS N m cs [] []) N m (fun i k v => k < m /\
      exists w, stored A (nth (i + m) q 0) (nth k p 0) w /\ v = sval s t (nth k p 0) (nth (i + m) q 0) w)).
    { intros E0 cs H1 H2. apply Fin; auto; rewrite E0; auto; intros r Hr; cbn in Hr; lia. }
    destruct (Nat.eqb_spec N 0) as [N0|N0].
    { apply wp_ok. rewrite N0 in *. apply Nil; auto. { intros k Hk. replace k with 0 by lia. reflexivity. } }
    wpb. apply wp_set; [rewrite repeat_length; lia|].
    wpb. eapply wp_conseq.
    { apply (for_range_inv _ (fun i cs => length cs = N + 1 /\ forall k, k <= i -> nth k cs 0 = length (flat O frow k))); [lia| |].
      - rewrite upd_length, repeat_length. split; auto. intros k Hk. replace k with 0 by lia. rewrite nth_upd_eq by (rewrite repeat_length; lia). reflexivity.
      - intros i cs Hi (L1 & H1). wpb. apply wp_get with (d := 0); [lia|].
        wpb. rewrite row_iter_rowl by (auto; rewrite Pn; apply Rq; lia).
        eapply wp_conseq with (P := fun z => z = length (fraw i)).
        { unfold fraw. rewrite map_length.
          apply (for_list_inv _ _ (fun pre z => z = length (filter (fun e => nth (fst e) pinv 0 <? m) pre))); auto.
          intros pre e post z ER ->. assert (He : In e (rowl A (nth (i + m) q 0))) by (rewrite ER; apply in_or_app; simpl; auto).
          apply (F_range i) in He; [|lia]. wpb. apply wp_get with (d := 0); [lia|]. apply wp_ok. rewrite filter_app, app_length. cbn [filter].
          destruct (nth (fst e) pinv 0 <? m); cbn [length]; lia. }
        intros z ->. wpb. apply wp_get with (d := 0); [lia|]. apply wp_set; [lia|]. rewrite upd_length. split; auto.
        intros k Hk. rewrite nth_upd by lia. destruct (Nat.eqb_spec k (S i)) as [->|]; [|apply H1; lia].
        rewrite H1 by lia. rewrite flat_S, app_length, frow_length. lia. }
    intros cs (Lc & Hc). wpb. apply wp_get with (d := 0); [lia|]. rewrite Hc by lia.
    destruct (Nat.eqb_spec (length (flat O frow N)) 0) as [Z|Z].
    { apply wp_ok. apply length_zero_iff_nil in Z. now apply Nil. }
    set (z := length (flat O frow N)) in *.
    wpb. eapply wp_conseq.
    { apply (for_range_inv _ (fun i (st : list nat * list T * list T * nat) => let '(ind, val, buf, vpos) := st in
        length ind = z /\ length val = z /\ length buf = length buf0 /\ vpos = length (flat O frow i) /\
        conti O (flat O frow i) ind /\ contv O (flat O frow i) val)); [lia| |].
      - rewrite !repeat_length. repeat split; auto; intros r Hr; cbn in Hr; lia.
      - intros i [[[ind val] buf] vpos] Hi (L1 & L2 & L3 & E2 & Hci & Hcv).
        wpb. apply wp_get with (d := 0); [lia|]. wpb. apply wp_get with (d := 0); [lia|]. wpb. apply wp_get with (d := 0); [lia|].
        pose proof (Rq (i + m) ltac:(lia)) as HQ. wpb. apply wp_get with (d := t0 O); [lia|].
        set (qi := nth (i + m) q 0) in *. rewrite !Hc by lia. rewrite flat_S, app_length.
        assert (LEN : length (flat O frow i) + length (frow i) <= z).
        { pose proof (flat_len_mono O frow (S i) N ltac:(lia)) as F. rewrite flat_S, app_length in F. unfold z. lia. }
        wpb. rewrite row_iter_rowl by (auto; lia).
        eapply wp_conseq with (P := fun s => let '(pos, ind', buf') := s in
            pos = length (flat O frow i) + length (fraw i) /\ length ind' = z /\ length buf' = length buf0 /\
            conti O (flat O frow i ++ fraw i) ind' /\
            (forall e, In e (fraw i) -> nth (fst e) buf' (t0 O) = snd e)).
        { unfold fraw. fold qi.
          set (rm := fun l : row => map (fun e => (nth (fst e) pinv 0, sval s t (fst e) qi (snd e))) (filter (fun e => nth (fst e) pinv 0 <? m) l)).
          change (map (fun e => (nth (fst e) pinv 0, sval s t (fst e) qi (snd e)))
            (filter (fun e => nth (fst e) pinv 0 <? m) (rowl A qi))) with (rm (rowl A qi)).
          apply (for_list_inv _ _ (fun pre (s : nat * list nat * list T) => let '(pos, ind', buf') := s in
              pos = length (flat O frow i) + length (rm pre) /\ length ind' = z /\ length buf' = length buf0 /\
              conti O (flat O frow i ++ rm pre) ind' /\
              (forall e, In e (rm pre) -> nth (fst e) buf' (t0 O) = snd e))).
          - cbn. rewrite app_nil_r. split; [lia|]. split; auto. split; auto. split; auto. tauto.
          - intros pre [j v] post [[pos ind'] buf'] ER (R1 & R2 & R3 & R4 & R5). cbn [fst snd].
            assert (HJ : j < n).
            { apply (F_range i (j, v)); [lia|]. change (In (j, v) (rowl A qi)). rewrite ER. apply in_or_app; simpl; auto. }
            wpb. apply wp_get with (d := 0); [lia|].
            assert (RS : rm (pre ++ [(j, v)]) = rm pre ++
               (if nth j pinv 0 <? m then [(nth j pinv 0, sval s t j qi v)] else [])).
            { unfold rm. rewrite filter_app, map_app. cbn [filter fst]. destruct (nth j pinv 0 <? m); reflexivity. }
            assert (RP : exists post', fraw i = rm (pre ++ [(j, v)]) ++ post').
            { exists (rm post). unfold fraw. fold qi. change (rm (rowl A qi) = rm (pre ++ [(j, v)]) ++ rm post).
              rewrite ER. unfold rm. rewrite <- map_app, <- filter_app, <- app_assoc. reflexivity. }
            destruct RP as (post' & RP).
            destruct (Nat.ltb_spec (nth j pinv 0) m) as [EC|EC].
            + rewrite RS in *. apply (f_equal (@length _)) in RP as RPL. rewrite !app_length in RPL. cbn [length] in RPL.
              rewrite frow_length in LEN.
              wpb. apply wp_set; [lia|]. wpb. apply wp_get with (d := t0 O); [lia|].
              assert (NDP : NoDup (map fst (rm pre ++ [(nth j pinv 0, sval s t j qi v)]))).
              { pose proof (fraw_nodup i ltac:(lia)) as D. rewrite RP, map_app in D. now apply NoDup_app_l in D. }
              wpb. apply wp_set; [lia|]. apply wp_ok. rewrite !upd_length, app_length. cbn [length]. split; [lia|]. split; auto. split; auto.
              split.
              * rewrite app_assoc. replace pos with (length (flat O frow i ++ rm pre)) by (rewrite app_length; lia).
                apply (conti_snoc O _ _ (nth j pinv 0, sval s t j qi v)); auto. rewrite app_length. lia.
              * intros e He. rewrite nth_upd by lia. apply in_app_or in He. destruct He as [He|[He|[]]].
                -- destruct (Nat.eqb_spec (fst e) (nth j pinv 0)) as [E|].
                   ++ exfalso. rewrite map_app in NDP. cbn [map fst] in NDP. apply NoDup_remove_2 in NDP. rewrite app_nil_r in NDP. apply NDP.
                      rewrite <- E. now apply in_map.
                   ++ apply R5; auto.
                -- subst e. cbn [fst snd]. now rewrite Nat.eqb_refl.
            + rewrite RS in *. rewrite app_nil_r. apply wp_ok. auto. }
        intros [[pos ind1] buf1] (R1 & R2 & R3 & R4 & R5). rewrite frow_length in LEN.
        wpb. apply sort_range_wp; try lia. intros ind2 L2' Ho Hin.
        assert (SLI : slice (length (flat O frow i)) (pos - length (flat O frow i)) ind1 = map fst (fraw i)).
        { apply (list_ext _ _ _ 0). { rewrite slice_length, map_length by lia. lia. }
          intros r Hr. rewrite slice_length in Hr by lia. rewrite nth_slice by lia.
          rewrite R4 by (rewrite app_length; lia). rewrite app_nth2 by lia.
          replace (length (flat O frow i) + r - length (flat O frow i)) with r by lia.
          change 0 with (fst (0, t0 O)) at 2. now rewrite map_nth. }
        assert (RF : map fst (frow i) = isort (map fst (fraw i))) by apply sort_row_fst.
        pose proof (frow_length i) as RLEN.
        assert (CI : conti O (flat O frow i ++ frow i) ind2).
        { intros r Hr. rewrite app_length in Hr. destruct (Nat.lt_ge_cases r (length (flat O frow i))).
          - rewrite Ho by lia. rewrite R4 by (rewrite app_length; lia). now rewrite !app_nth1 by lia.
          - rewrite Hin by lia. rewrite SLI, <- RF. rewrite app_nth2 by lia.
            change 0 with (fst (0, t0 O)) at 1. rewrite map_nth. do 2 f_equal. }
        wpb. eapply wp_conseq.
        { apply (for_range_inv _ (fun k (s : nat * list T) => let '(vp, val') := s in
                  vp = k /\ length val' = length val /\
                  forall r, r < k -> nth r val' (t0 O) = snd (nth r (flat O frow i ++ frow i) (0, t0 O)))); [lia| |].
          - split; auto. split; auto. intros r Hr. rewrite app_nth1 by lia. apply Hcv. lia.
          - intros k [vp val'] Hk (V1 & V2 & V3).
            assert (IK : nth k ind2 0 = fst (nth (k - length (flat O frow i)) (frow i) (0, t0 O))).
            { rewrite CI by (rewrite app_length; lia). rewrite app_nth2 by lia. reflexivity. }
            assert (IR : In (nth (k - length (flat O frow i)) (frow i) (0, t0 O)) (fraw i)).
            { apply frow_in; auto; [lia|]. apply nth_In. lia. }
            wpb. apply wp_get with (d := 0); [lia|]. rewrite IK.
            wpb. apply wp_get with (d := t0 O).
            { rewrite R3. eapply Nat.lt_le_trans; [|exact Lb]. apply (Rng i); [lia|]. now apply frow_in; [lia|]. }
            rewrite (R5 _ IR). wpb. apply wp_set; [lia|]. apply wp_ok. rewrite upd_length. split; [lia|]. split; auto.
            intros r Hr. rewrite nth_upd by lia. destruct (Nat.eqb_spec r vp).
            + rewrite app_nth2 by lia. do 2 f_equal. lia.
            + apply V3; lia. }
        intros [vp val'] (V1 & V2 & V3). apply wp_ok. rewrite ?flat_S, ?app_length. repeat split; auto; try lia.
        intros r Hr. rewrite app_length in Hr. apply V3; lia. }
    intros [[[ind val] buf] vpos] (L1 & L2 & L3 & E2 & Hci & Hcv). apply wp_ok. apply Fin; auto.
  Qed.
  End F.
End P.
