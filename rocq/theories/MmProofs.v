(** * MmProofs: reading MatrixMarket files. *)
From Coq Require Import List Arith Lia Bool ZArith String Ascii.
From Verif Require Import Base Scalar CSModel CSSpec ConvModel ConvSpec ConvProofs PropConv MmModel MmSpec.
Import ListNotations.
Local Open Scope string_scope.
Local Open Scope list_scope.
Local Arguments bind {A B} !m f /.

Lemma set_front : forall A (p : list A) j q x,
  set (p ++ repeat j (S q)) (List.length p) x = Ok ((p ++ [x]) ++ repeat j q).
Proof.
  intros. rewrite set_ok by (rewrite app_length; simpl; lia). f_equal.
  rewrite <- app_assoc. induction p; simpl; auto. now f_equal.
Qed.
Lemma to_nats_ok : forall l, to_nats (map Z.of_nat l) = Ok l.
Proof.
  induction l; simpl; auto. unfold to_nat. destruct (Z.ltb_spec (Z.of_nat a) 0); [lia|].
  cbn [bind]. rewrite IHl. cbn [bind]. now rewrite Nat2Z.id.
Qed.
Lemma to_nat_ok : forall n, to_nat (Z.of_nat n) = Ok n.
Proof. intros. unfold to_nat. destruct (Z.ltb_spec (Z.of_nat n) 0); [lia|]. now rewrite Nat2Z.id. Qed.

(** ** Sizes *)
Lemma scan_ints_app : forall zs ws t, Forall2 int_word zs ws -> scan_ints (List.length zs) (ws ++ t) = (zs, t).
Proof.
  induction 1; simpl; auto. unfold int_word in H. rewrite H. now rewrite IHForall2.
Qed.
Lemma blanks_words : forall bl, (forall l, In l bl -> words l = []) -> flat_map words bl = [].
Proof. induction bl; simpl; intros; auto. rewrite H, IHbl; auto. Qed.
Lemma words_blank_comment : forall l, words l = [] -> is_comment l = false.
Proof.
  destruct l as [|c l]; auto. simpl. destruct (Ascii.eqb_spec c "%") as [->|]; auto.
  simpl. destruct l; [discriminate|]. destruct (is_ws a) eqn:E; [discriminate|].
  intros H. exfalso.
  assert (N : forall s, (match s with String d _ => is_ws d = false | EmptyString => False end) -> words s <> []).
  { clear. induction s as [|d s IH]; auto. intros E. simpl. rewrite E. destruct s; [discriminate|].
    destruct (is_ws a) eqn:F; [discriminate|]. specialize (IH eq_refl). destruct (words (String a s)); [contradiction|discriminate]. }
  apply (N (String a l)); auto. destruct (words (String a l)); auto. discriminate.
Qed.

Lemma size_ok : forall k fuel comments blanks sizes data zs ws more,
  (forall l, In l comments -> is_comment l = true) -> (forall l, In l blanks -> words l = []) ->
  is_comment sizes = false -> words sizes = ws ++ more -> Forall2 int_word zs ws -> List.length zs = k -> 0 < k ->
  (blanks <> [] -> more = []) ->
  mm_read_size k (S fuel) (comments ++ blanks ++ sizes :: data) = Some (Ok (zs, flat_map words data)).
Proof.
  intros k fuel comments blanks sizes data zs ws more HC HB HS W F L K HM.
  induction comments as [|c comments IH]; simpl.
  2:{ rewrite HC by (now left). apply IH. intros. apply HC. now right. }
  destruct blanks as [|b blanks]; simpl.
  - rewrite HS, W, <- L, scan_ints_app by auto. now rewrite Nat.eqb_refl.
  - assert (Wb := HB b (or_introl eq_refl)). rewrite (words_blank_comment b Wb), Wb.
    assert (E : scan_ints k [] = ([], [])) by (destruct k; auto). rewrite E. simpl.
    destruct (Nat.eqb_spec 0 k); [lia|].
    rewrite flat_map_app. rewrite (blanks_words blanks) by (intros; apply HB; now right). simpl. rewrite W.
    rewrite HM, app_nil_r by discriminate.
    rewrite <- L in K |- *. rewrite scan_ints_app by auto. rewrite Nat.eqb_refl.
    destruct ws; auto. all: inversion F; subst zs; simpl in K; try lia. reflexivity.
Qed.

(** ** The first line *)
Lemma firstline_ok : forall l rest lay data k, banner_says l lay data k ->
  (lay = "coordinate" \/ lay = "array") -> (data = "real" \/ data = "complex") ->
  mm_read_firstline (l :: rest) = Ok (negb (lay =? "array")%string, negb (data =? "complex")%string, k, rest).
Proof.
  intros l rest lay data k (w2 & w3 & w4 & w5 & more & E & L2 & L3 & L4 & L5) HL HD. unfold mm_read_firstline.
  rewrite E, L2, L3, L4, L5. clear -HL HD. destruct HL; subst lay; destruct HD; subst data; destruct k; reflexivity.
Qed.

Section P.
  Variable O : Ops.
  Notation T := (T O).
  Variable R : Type.
  Variable num_of : word -> option R.
  Variable mk : R -> R -> T.
  Variable r0 : R.
  Notation read_entry := (read_entry O R num_of mk r0).
  Notation scan_value := (scan_value O R num_of mk r0).

  Lemma scan_value_ok : forall real v ws t, value_words O R num_of mk r0 real v ws ->
    scan_value real (ws ++ t) = Ok (v, t).
  Proof.
    intros real v ws t H. unfold MmModel.scan_value. destruct H; simpl.
    - now rewrite H.
    - rewrite H, H0. reflexivity.
  Qed.

  (** The expanded list of 0-based entries. *)
  Definition exp1 (k : kind) (e : nat * nat * T) : list (nat * nat * T) :=
    let '(r, c, v) := e in
    (r - 1, c - 1, v) :: (if is_general k || (r =? c)%nat then [] else [(c - 1, r - 1, mirror O k v)]).
  Definition exp (k : kind) (es : list (nat * nat * T)) : list (nat * nat * T) := flat_map (exp1 k) es.
  Definition rowz (l : list (nat * nat * T)) : list Z := map (fun e => Z.of_nat (fst (fst e))) l.
  Definition colz (l : list (nat * nat * T)) : list Z := map (fun e => Z.of_nat (snd (fst e))) l.
  Definition valz (l : list (nat * nat * T)) : list T := map snd l.

  Lemma data_loop : forall jz jv k real es ess, Forall2 (entry_words O R num_of mk r0 real) es ess ->
    (forall r c v, In (r, c, v) es -> 1 <= r /\ 1 <= c) ->
    forall tail a pre q, List.length (exp k es) <= q ->
    for_n a (List.length es) (fun _ s => read_entry k real s)
      (List.concat ess ++ tail, List.length pre, rowz pre ++ repeat jz q, colz pre ++ repeat jz q, valz pre ++ repeat jv q) =
    Ok (tail, List.length (pre ++ exp k es), rowz (pre ++ exp k es) ++ repeat jz (q - List.length (exp k es)),
        colz (pre ++ exp k es) ++ repeat jz (q - List.length (exp k es)),
        valz (pre ++ exp k es) ++ repeat jv (q - List.length (exp k es))).
  Proof.
    intros jz jv k real. induction 1 as [|[[r c] v] ws es ess HE HF IH]; intros HP tail a pre q HQ.
    - simpl. now rewrite app_nil_r, Nat.sub_0_r.
    - destruct HE as (wr & wc & wv & Ew & Hr & Hc & Hv). subst ws.
      assert (P1 : 1 <= r /\ 1 <= c) by (apply (HP r c v); now left).
      assert (HP' : forall r c v, In (r, c, v) es -> 1 <= r /\ 1 <= c) by (intros r1 c1 v1 Hin; apply (HP r1 c1 v1); now right).
      cbn [List.length for_n List.concat]. unfold MmModel.read_entry at 1.
      change (scan_ints 2 (((wr :: wc :: wv) ++ List.concat ess) ++ tail))
        with (scan_ints (List.length [Z.of_nat r; Z.of_nat c]) ([wr; wc] ++ (wv ++ List.concat ess) ++ tail)).
      rewrite scan_ints_app by (repeat constructor; auto).
      rewrite <- app_assoc, (scan_value_ok _ _ _ _ Hv). cbn [bind].
      replace (Z.of_nat r =? Z.of_nat c)%Z with (r =? c)%nat
        by (destruct (Nat.eqb_spec r c), (Z.eqb_spec (Z.of_nat r) (Z.of_nat c)); auto; lia).
      cbn [exp flat_map] in HQ. unfold exp1 at 1 in HQ. rewrite app_length in HQ.
      replace (Z.of_nat r - 1)%Z with (Z.of_nat (r - 1)) by lia.
      replace (Z.of_nat c - 1)%Z with (Z.of_nat (c - 1)) by lia.
      destruct q as [|q]; [exfalso; destruct (is_general k || (r =? c)%nat); simpl in HQ; lia|].
      replace (List.length pre) with (List.length (rowz pre)) at 1 by apply map_length.
      rewrite set_front. cbn [bind].
      replace (List.length pre) with (List.length (colz pre)) at 1 by apply map_length.
      rewrite set_front. cbn [bind].
      replace (List.length pre) with (List.length (valz pre)) at 1 by apply map_length.
      rewrite set_front. cbn [bind].
      assert (Hone : forall p e, List.length (p ++ [e] : list (nat * nat * T)) = S (List.length p)) by (intros; rewrite app_length; simpl; lia).
      destruct (is_general k || (r =? c)%nat) eqn:G.
      + cbn [bind].
        replace (S (List.length pre)) with (List.length (pre ++ [(r - 1, c - 1, v)])) by apply Hone.
        replace (rowz pre ++ [Z.of_nat (r - 1)]) with (rowz (pre ++ [(r - 1, c - 1, v)])) by (unfold rowz; now rewrite map_app).
        replace (colz pre ++ [Z.of_nat (c - 1)]) with (colz (pre ++ [(r - 1, c - 1, v)])) by (unfold colz; now rewrite map_app).
        replace (valz pre ++ [v]) with (valz (pre ++ [(r - 1, c - 1, v)])) by (unfold valz; now rewrite map_app).
        simpl in HQ. fold (exp k es) in HQ. rewrite IH by (auto; lia).
        cbn [exp flat_map]. fold (exp k es). unfold exp1. rewrite G. rewrite <- !app_assoc.
        replace (S q - List.length ([(r - 1, c - 1, v)] ++ exp k es)) with (q - List.length (exp k es)) by (rewrite app_length; simpl; lia).
        reflexivity.
      + simpl in HQ. fold (exp k es) in HQ. destruct q as [|q]; [lia|].
        replace (S (List.length pre)) with (List.length (rowz pre ++ [Z.of_nat (r - 1)])) at 1 by (unfold rowz; rewrite app_length, map_length; simpl; lia).
        rewrite set_front. cbn [bind].
        replace (S (List.length pre)) with (List.length (colz pre ++ [Z.of_nat (c - 1)])) at 1 by (unfold colz; rewrite app_length, map_length; simpl; lia).
        rewrite set_front. cbn [bind].
        replace (S (List.length pre) - 1) with (List.length pre) by lia.
        assert (Eg : get ((valz pre ++ [v]) ++ repeat jv (S q)) (List.length pre) = Ok v).
        { rewrite (get_nth _ _ _ v) by (unfold valz; rewrite !app_length, map_length; simpl; lia). f_equal.
          rewrite <- app_assoc, app_nth2 by (unfold valz; rewrite map_length; lia).
          unfold valz. rewrite map_length, Nat.sub_diag. reflexivity. }
        rewrite Eg. cbn [bind].
        replace (S (List.length pre)) with (List.length (valz pre ++ [v])) at 1 by (unfold valz; rewrite app_length, map_length; simpl; lia).
        rewrite set_front. cbn [bind].
        set (pre' := pre ++ [(r - 1, c - 1, v); (c - 1, r - 1, mirror O k v)]).
        replace (S (S (List.length pre))) with (List.length pre') by (unfold pre'; rewrite app_length; simpl; lia).
        replace ((rowz pre ++ [Z.of_nat (r - 1)]) ++ [Z.of_nat (c - 1)]) with (rowz pre') by (unfold pre', rowz; rewrite map_app, <- app_assoc; reflexivity).
        replace ((colz pre ++ [Z.of_nat (c - 1)]) ++ [Z.of_nat (r - 1)]) with (colz pre') by (unfold pre', colz; rewrite map_app, <- app_assoc; reflexivity).
        replace ((valz pre ++ [v]) ++ [mirror O k v]) with (valz pre') by (unfold pre', valz; rewrite map_app, <- app_assoc; reflexivity).
        rewrite IH by (auto; lia).
        cbn [exp flat_map]. fold (exp k es). unfold exp1. rewrite G. unfold pre'. rewrite <- !app_assoc.
        replace (S (S q) - List.length ([(r - 1, c - 1, v); (c - 1, r - 1, mirror O k v)] ++ exp k es))
          with (q - List.length (exp k es)) by (rewrite app_length; simpl; lia).
        reflexivity.
  Qed.

  Lemma exp_len_le : forall k es, List.length (exp k es) <= List.length es * 2.
  Proof.
    induction es as [|[[r c] v] es IH]; simpl; auto. unfold exp in *. destruct (is_general k || (r =? c)%nat); simpl; lia.
  Qed.
  Lemma exp_len_ge : forall k es, List.length es <= List.length (exp k es).
  Proof.
    induction es as [|[[r c] v] es IH]; simpl; auto. unfold exp in *. destruct (is_general k || (r =? c)%nat); simpl; lia.
  Qed.
  Lemma exp_len_gen : forall es, List.length (exp GENERAL es) = List.length es.
  Proof. induction es as [|[[r c] v] es IH]; simpl; auto. Qed.
  Lemma exp_len_off : forall k es r c v, k <> GENERAL -> In (r, c, v) es -> r <> c -> List.length es < List.length (exp k es).
  Proof.
    intros k es r c v K HI HN. induction es as [|[[r' c'] v'] es IH]; [contradiction|]. simpl.
    destruct HI as [E|HI].
    - injection E; intros; subst r' c' v'. destruct (Nat.eqb_spec r c); [contradiction|].
      assert (G := exp_len_ge k es). unfold exp in *. destruct k; [contradiction| | |]; simpl; lia.
    - specialize (IH HI). unfold exp in *. destruct (is_general k || (r' =? c')%nat); simpl; lia.
  Qed.

  (** The all-diagonal files of the symmetric kinds are the bad ones. *)
  Definition shrinks (k : kind) (es : list (nat * nat * T)) : Prop :=
    k = GENERAL \/ es = [] \/ exists r c v, In (r, c, v) es /\ r <> c.

  Lemma data_ok : forall jz jv k real es ess tail, Forall2 (entry_words O R num_of mk r0 real) es ess ->
    (forall r c v, In (r, c, v) es -> 1 <= r /\ 1 <= c) -> shrinks k es ->
    mm_read_sparse_data O R num_of mk r0 jz jv k real (List.concat ess ++ tail) (List.length es) =
    Ok (rowz (exp k es), colz (exp k es), valz (exp k es)).
  Proof.
    intros jz jv k real es ess tail HF HP HS. unfold mm_read_sparse_data.
    set (z := if is_general k then List.length es else List.length es * 2).
    assert (HZ : List.length (exp k es) <= z).
    { unfold z. destruct k; simpl; try apply exp_len_le. rewrite exp_len_gen. auto. }
    unfold for_range. rewrite Nat.sub_0_r.
    assert (D := data_loop jz jv k real es ess HF HP tail 0 [] z HZ).
    simpl rowz in D. simpl colz in D. simpl valz in D. simpl app in D. change (List.length (@nil (nat*nat*T))) with 0 in D.
    rewrite D. cbn [bind]. destruct (Nat.eqb_spec (List.length (exp k es)) (List.length es)) as [E|E]; simpl.
    - assert (Q : z - List.length (exp k es) = 0).
      { destruct HS as [->|[->|(r & c & v & HI & HN)]].
        - unfold z. simpl. lia.
        - unfold z. simpl. destruct k; auto.
        - destruct k; [unfold z; simpl; lia| | |]; exfalso;
            assert (W := exp_len_off SYMM es r c v); assert (W1 := exp_len_off HERM es r c v); assert (W2 := exp_len_off SKEW es r c v);
            specialize (W ltac:(discriminate) HI HN); specialize (W1 ltac:(discriminate) HI HN); specialize (W2 ltac:(discriminate) HI HN); lia. }
      rewrite Q. simpl. now rewrite !app_nil_r.
    - rewrite !firstn_app. unfold rowz, colz, valz. rewrite !map_length, !Nat.sub_diag.
      rewrite !firstn_O, !app_nil_r.
      do 2 f_equal; [f_equal|]; apply firstn_all2; rewrite map_length; auto.
  Qed.

  (** ** The expanded positions *)
  Lemma in_exp : forall k es i j v, (forall r c u, In (r, c, u) es -> 1 <= r /\ 1 <= c) ->
    (In (i, j, v) (exp k es) <-> denotes O k es i j v).
  Proof.
    intros k es i j v HP. unfold exp. rewrite in_flat_map. split.
    - intros ([[r c] u] & HI & HE). destruct (HP r c u HI) as [Hr Hc]. simpl in HE. destruct HE as [E|HE].
      + injection E; intros; subst i j v. left. replace (S (r - 1)) with r by lia. replace (S (c - 1)) with c by lia. auto.
      + destruct (is_general k || (r =? c)%nat) eqn:G; [contradiction|]. destruct HE as [E|[]].
        injection E; intros; subst i j v. right. apply orb_false_elim in G as [G1 G2]. apply Nat.eqb_neq in G2.
        split; [intros ->; discriminate|]. split; [lia|]. exists u.
        replace (S (r - 1)) with r by lia. replace (S (c - 1)) with c by lia. split; auto. now destruct k.
    - intros [HI|(K & N & u & HI & ->)].
      + exists (S i, S j, v). split; auto. simpl. rewrite !Nat.sub_0_r. auto.
      + exists (S j, S i, u). split; auto. simpl. right.
        replace (is_general k) with false by (destruct k; auto; contradiction).
        destruct (Nat.eqb_spec j i); [exfalso; auto|]. simpl. rewrite !Nat.sub_0_r. left. destruct k; auto. contradiction.
  Qed.

  Lemma exp_nodup : forall k m n es, entries_good O k m n es -> NoDup (map fst (exp k es)).
  Proof.
    intros k m n es (HP & HN & HK).
    assert (PP : forall r c u, In (r, c, u) es -> 1 <= r /\ 1 <= c) by (intros r c u HI; destruct (HP r c u HI); lia).
    clear HP. induction es as [|[[r c] v] es IH]; [constructor|].
    apply NoDup_cons_iff in HN as [HN1 HN2].
    assert (PP' : forall r c u, In (r, c, u) es -> 1 <= r /\ 1 <= c) by (intros r1 c1 u1 Hin; apply (PP r1 c1 u1); now right).
    specialize (IH HN2 ltac:(intros K a b u w Hab Ha Hb; eapply (HK K a b u w Hab); now right) PP').
    destruct (PP r c v (or_introl eq_refl)) as [P1 P2].
    assert (A1 : forall i j, In (i, j) (map fst (exp k es)) -> exists w, denotes O k es i j w).
    { intros i j HI. apply in_map_iff in HI as ([[i' j'] w] & E & HI). simpl in E. injection E; intros; subst i' j'.
      exists w. now apply in_exp in HI. }
    assert (N1 : ~ In (r - 1, c - 1) (map fst (exp k es))).
    { intros HI. apply A1 in HI as (w & D). destruct D as [HI|(K & N & u & HI & _)].
      - replace (S (r - 1)) with r in HI by lia. replace (S (c - 1)) with c in HI by lia.
        apply HN1. apply in_map_iff. exists (r, c, w). auto.
      - replace (S (r - 1)) with r in HI by lia. replace (S (c - 1)) with c in HI by lia.
        apply (HK K r c v u); [lia|now left|now right]. }
    cbn [exp flat_map]. fold (exp k es). rewrite map_app. unfold exp1.
    destruct (is_general k || (r =? c)%nat) eqn:G; simpl.
    - constructor; auto.
    - apply orb_false_elim in G as [G1 G2]. apply Nat.eqb_neq in G2.
      assert (K : k <> GENERAL) by (intros ->; discriminate).
      constructor.
      + intros [E|HI]; [injection E; lia|contradiction].
      + constructor; auto. intros HI. apply A1 in HI as (w & D). destruct D as [HI|(_ & N & u & HI & _)].
        * replace (S (r - 1)) with r in HI by lia. replace (S (c - 1)) with c in HI by lia.
          apply (HK K r c v w); [auto|now left|now right].
        * replace (S (r - 1)) with r in HI by lia. replace (S (c - 1)) with c in HI by lia.
          apply HN1. apply in_map_iff. exists (r, c, u). auto.
  Qed.

  Lemma exp_range : forall k m n es, entries_good O k m n es -> forall i j v, In (i, j, v) (exp k es) -> i < m /\ j < n.
  Proof.
    intros k m n es (HP & _) i j v HI. apply in_exp in HI; [|intros r c u HI'; destruct (HP r c u HI'); lia].
    destruct HI as [HI|(K & _ & u & HI & _)].
    - destruct (HP _ _ _ HI). lia.
    - destruct (HP _ _ _ HI) as (_ & _ & H). specialize (H K). lia.
  Qed.

  (** ** The compressed matrix *)
  Lemma coo_ok : forall ji jv prim sec (l : list (nat * nat * T)) (f g : nat * nat * T -> nat),
    (forall e, In e l -> f e < prim /\ g e < sec) ->
    NoDup (map (fun e => (f e, g e)) l) ->
    exists B, convert_coo2cs O ji jv prim sec (map f l) (map g l) (map snd l) = Ok B /\ valid B /\ tight B /\
      psize B = prim /\ ssize B = sec /\
      forall i j v, i < prim -> (stored B i j v <-> exists e, In e l /\ f e = i /\ g e = j /\ snd e = v).
  Proof.
    intros ji jv prim sec l f g HR HN. set (d := (0, 0, t0 O)).
    assert (Ef : forall t, t < List.length l -> nth t (map f l) 0 = f (nth t l d)).
    { intros. rewrite (nth_indep _ 0 (f d)) by (now rewrite map_length). apply map_nth. }
    assert (Eg : forall t, t < List.length l -> nth t (map g l) 0 = g (nth t l d)).
    { intros. rewrite (nth_indep _ 0 (g d)) by (now rewrite map_length). apply map_nth. }
    assert (Es : forall t, t < List.length l -> nth t (map snd l) (t0 O) = snd (nth t l d)).
    { intros. change (t0 O) with (snd d). apply map_nth. }
    destruct (C05_coo O ji jv prim sec (map f l) (map g l) (map snd l)) as (B & E & V & Ti & P & Q & St & _).
    - now rewrite !map_length.
    - now rewrite !map_length.
    - rewrite map_length. intros t Ht. rewrite Ef, Eg by auto. apply HR. now apply nth_In.
    - rewrite map_length. intros t u Htu Hu. rewrite !Ef, !Eg by lia. intros E1 E2.
      assert (t = u); [|lia]. apply (proj1 (NoDup_nth (map (fun e => (f e, g e)) l) (f d, g d)) HN); try (rewrite map_length; lia).
      rewrite !(map_nth (fun e => (f e, g e))). congruence.
    - exists B. do 5 (split; [auto|]). intros i j v Hi. rewrite St by auto. rewrite map_length. split.
      + intros (t & Ht & A1 & A2 & A3). exists (nth t l d). split; [now apply nth_In|]. rewrite <- Ef, <- Eg, <- Es by auto. auto.
      + intros (e & HI & A1 & A2 & A3). destruct (In_nth l e d HI) as (t & Ht & Et). exists t.
        rewrite Ef, Eg, Es, Et by auto. auto.
  Qed.

  Variable isR : bool.

  Lemma read_sparse_ok : forall jz jv fuel file k m n es,
    file_says O R num_of mk r0 isR k m n es file -> shrinks k es ->
    (forall r c v, In (r, c, v) es -> 1 <= r /\ 1 <= c) ->
    read_mm_sparse O R num_of isR mk r0 jz jv (S fuel) file =
    Some (Ok (m, n, rowz (exp k es), colz (exp k es), valz (exp k es))).
  Proof.
    intros jz jv fuel file k m n es HF HS HP.
    destruct HF as (first & comments & blanks & sizes & data & wm & wn & wz & ess & E & HB & HC & HBl & HSc & HW & Hm & Hn & Hz & HE & tail & Ht).
    subst file. unfold read_mm_sparse.
    rewrite (firstline_ok first _ _ _ _ HB) by (auto; destruct isR; auto).
    change (negb ("coordinate" =? "array")%string) with true. cbn [negb].
    replace (xorb isR (negb ((if isR then "real" else "complex") =? "complex")%string)) with false by (now destruct isR).
    rewrite (size_ok 3 fuel comments blanks sizes data [Z.of_nat m; Z.of_nat n; Z.of_nat (List.length es)] [wm; wn; wz] [])
      by (auto; repeat constructor; auto).
    cbn [bind]. rewrite !to_nat_ok. cbn [bind]. rewrite Ht.
    replace (negb ((if isR then "real" else "complex") =? "complex")%string) with isR by (now destruct isR).
    rewrite data_ok by auto. reflexivity.
  Qed.

  Lemma read_ok : forall rm ji jz jv fuel file k m n es,
    file_says O R num_of mk r0 isR k m n es file -> entries_good O k m n es -> shrinks k es ->
    exists B, read_mm O R num_of isR mk r0 rm ji jz jv (S fuel) file = Some (Ok B) /\ valid B /\ tight B /\
      psize B = (if rm then m else n) /\ ssize B = (if rm then n else m) /\
      forall i j v, i < m -> j < n -> (stored B (if rm then i else j) (if rm then j else i) v <-> denotes O k es i j v).
  Proof.
    intros rm ji jz jv fuel file k m n es HF HG HS.
    assert (PP : forall r c u, In (r, c, u) es -> 1 <= r /\ 1 <= c) by (intros r c u HI; destruct HG as (HP & _); destruct (HP r c u HI); lia).
    unfold read_mm. rewrite (read_sparse_ok jz jv fuel file k m n es HF HS PP). cbn [bind].
    unfold rowz, colz, valz. rewrite <- (map_map (fun e : nat * nat * T => fst (fst e)) Z.of_nat), <- (map_map (fun e : nat * nat * T => snd (fst e)) Z.of_nat), !to_nats_ok. cbn [bind].
    assert (HN := exp_nodup k m n es HG). assert (HR := exp_range k m n es HG).
    destruct rm.
    - destruct (coo_ok ji jv m n (exp k es) (fun e => fst (fst e)) (fun e => snd (fst e))) as (B & E & V & Ti & P & Q & St).
      + intros [[a b] w] HI. simpl. eauto.
      + rewrite (map_ext _ fst); auto. now intros [[a b] w].
      + exists B. split; [now rewrite E|]. do 4 (split; [auto|]). intros i j v Hi Hj. rewrite St by auto. rewrite <- in_exp by auto. split.
        * intros ([[a b] w] & HI & E1 & E2 & E3). simpl in *. subst a b w. auto.
        * intros HI. exists (i, j, v). auto.
    - destruct (coo_ok ji jv n m (exp k es) (fun e => snd (fst e)) (fun e => fst (fst e))) as (B & E & V & Ti & P & Q & St).
      + intros [[a b] w] HI. simpl. destruct (HR _ _ _ HI). auto.
      + clear -HN. induction (exp k es) as [|[[a b] w] l IH]; [constructor|]. simpl in *. apply NoDup_cons_iff in HN as [H1 H2].
        constructor; auto. intros HI. apply H1. apply in_map_iff in HI as ([[a' b'] w'] & E & HI). simpl in E. injection E; intros; subst a' b'.
        apply in_map_iff. exists (a, b, w'). auto.
      + exists B. split; [now rewrite E|]. do 4 (split; [auto|]). intros i j v Hi Hj. rewrite St by auto. rewrite <- in_exp by auto. split.
        * intros ([[a b] w] & HI & E1 & E2 & E3). simpl in *. subst a b w. auto.
        * intros HI. exists (i, j, v). auto.
  Qed.
End P.
