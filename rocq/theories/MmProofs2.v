(** * MmProofs2: writing MatrixMarket files. *)
From Coq Require Import List Arith Lia Bool ZArith String Ascii DecimalString Decimal DecimalPos DecimalN.
From Verif Require Import Base Scalar CSModel CSSpec ConvModel ConvSpec ConvProofs PropConv MmModel MmSpec MmProofs.
Import ListNotations.
Local Open Scope string_scope.
Local Open Scope list_scope.
Local Arguments bind {A B} !m f /.

(** ** Words of a line *)
Fixpoint nows (s : string) : bool :=
  match s with EmptyString => true | String c t => negb (is_ws c) && nows t end.

Lemma words_one : forall w, nows w = true -> w <> EmptyString -> words w = [w].
Proof.
  induction w as [|c w IH]; [contradiction|]. intros H _. simpl in H. apply andb_prop in H as [H1 H2].
  apply negb_true_iff in H1. cbn [words]. rewrite H1. destruct w as [|d w]; auto.
  assert (D : is_ws d = false) by (simpl in H2; apply andb_prop in H2 as [H2 _]; now apply negb_true_iff in H2).
  rewrite D. rewrite IH by (auto; discriminate). reflexivity.
Qed.
Lemma words_word : forall w c s, nows w = true -> w <> EmptyString -> is_ws c = true ->
  words (w ++ String c s)%string = w :: words s.
Proof.
  induction w as [|a w IH]; [contradiction|]. intros c s H _ Hc. simpl in H. apply andb_prop in H as [H1 H2].
  apply negb_true_iff in H1. cbn [append words]. rewrite H1. destruct w as [|d w].
  - cbn [append]. rewrite Hc. cbn [words]. now rewrite Hc.
  - cbn [append]. assert (D : is_ws d = false) by (simpl in H2; apply andb_prop in H2 as [H2 _]; now apply negb_true_iff in H2).
    rewrite D. change (String d (w ++ String c s)) with (String d w ++ String c s)%string.
    rewrite IH by (auto; discriminate). reflexivity.
Qed.

(** ** Decimal numbers *)
Lemma uint_nows : forall d, nows (NilEmpty.string_of_uint d) = true.
Proof. induction d; simpl; auto. Qed.
Lemma dec_nonnil : forall n, N.to_uint (N.of_nat n) <> Nil.
Proof. intros. destruct (N.of_nat n); [discriminate|]. apply DecimalPos.Unsigned.to_uint_nonnil. Qed.
Lemma dec_word : forall n, nows (dec n) = true /\ dec n <> EmptyString.
Proof.
  intros. unfold dec. assert (N := dec_nonnil n). destruct (N.to_uint (N.of_nat n)) as [| | | | | | | | | |]; try contradiction;
    (split; [apply (uint_nows (D0 _)) || apply (uint_nows (D1 _)) || apply (uint_nows (D2 _)) || apply (uint_nows (D3 _)) || apply (uint_nows (D4 _)) || apply (uint_nows (D5 _)) || apply (uint_nows (D6 _)) || apply (uint_nows (D7 _)) || apply (uint_nows (D8 _)) || apply (uint_nows (D9 _))|discriminate]).
Qed.
Lemma dec_int : forall n, int_of (dec n) = Some (Z.of_nat n).
Proof.
  intros. assert (N := dec_nonnil n).
  assert (F : NilZero.int_of_string (dec n) = Some (Pos (N.to_uint (N.of_nat n)))).
  { change (dec n) with (NilZero.string_of_int (Pos (N.to_uint (N.of_nat n)))). apply NilZero.isi; intros H; congruence. }
  assert (G : Z.of_int (Pos (N.to_uint (N.of_nat n))) = Z.of_nat n).
  { cbn [Z.of_int]. unfold Z.of_uint. change (Pos.of_uint (N.to_uint (N.of_nat n))) with (N.of_uint (N.to_uint (N.of_nat n))).
    rewrite DecimalN.Unsigned.of_to. apply nat_N_Z. }
  assert (P : forall s, dec n <> String "+" s).
  { intros s E. unfold dec in E. destruct (N.to_uint (N.of_nat n)); discriminate. }
  unfold int_of. destruct (dec n) as [|c s]; [discriminate|].
  rewrite F. cbn [option_map]. rewrite G.
  destruct c as [[] [] [] [] [] [] [] []]; auto. exfalso. eapply P; reflexivity.
Qed.

(** ** The lines written *)
Section W.
  Variable O : Ops.
  Notation T := (T O).
  Variable R : Type.
  Variable num_of : word -> option R.
  Variable num_str : R -> string.
  Variable isR : bool.
  Variable mk : R -> R -> T.
  Variable re im : T -> R.
  Variable r0 : R.
  Hypothesis num_ok : forall x, num_of (num_str x) = Some x /\ nows (num_str x) = true /\ num_str x <> EmptyString.
  Hypothesis mk_ok : forall v, mk (re v) (if isR then r0 else im v) = v.
  Notation value_str := (value_str O R num_str isR re im).

  Lemma value_ok : forall v, value_words O R num_of mk r0 isR v (words (value_str v)).
  Proof.
    intros v. unfold MmModel.value_str. destruct (num_ok (re v)) as (N1 & N2 & N3). destruct (num_ok (im v)) as (M1 & M2 & M3).
    specialize (mk_ok v). destruct isR.
    - replace (num_str (re v) ++ "")%string with (num_str (re v)) by (clear; induction (num_str (re v)); simpl; congruence).
      rewrite words_one by auto. rewrite <- mk_ok at 1. now constructor.
    - unfold TAB. cbn [append]. rewrite words_word by auto. rewrite words_one by auto. rewrite <- mk_ok at 1. now constructor.
  Qed.

  Definition ent_line (e : nat * nat * T) : string :=
    (dec (fst (fst e)) ++ TAB ++ dec (snd (fst e)) ++ TAB ++ value_str (snd e))%string.
  Lemma ent_line_ok : forall e, entry_words O R num_of mk r0 isR e (words (ent_line e)).
  Proof.
    intros [[r c] v]. unfold ent_line, TAB. cbn [fst snd append].
    destruct (dec_word r), (dec_word c). rewrite !words_word by auto.
    exists (dec r), (dec c), (words (value_str v)). split; [auto|]. split; [apply dec_int|]. split; [apply dec_int|]. apply value_ok.
  Qed.

  (** The entries of a matrix, 1-based row and column. *)
  Definition went (rm : bool) (e : nat * (nat * T)) : nat * nat * T :=
    let '(j, (i, v)) := e in if rm then (S i, S j, v) else (S j, S i, v).
  Definition wents (rm : bool) (A : CS O) : list (nat * nat * T) := map (went rm) (ents O A (psize A)).

  Lemma write_ok : forall (rm : bool) (A : CS O), wf A -> tight A ->
    write_mm O R num_str isR re im rm A =
    Ok (("%%MatrixMarket matrix coordinate " ++ dtype isR ++ " general")%string :: version ::
        (" " ++ (if rm then dec (psize A) ++ " " ++ dec (ssize A) else dec (ssize A) ++ " " ++ dec (psize A)) ++ " "
             ++ dec (List.length (wents rm A)))%string :: map ent_line (wents rm A)).
  Proof.
    intros rm A W (T1 & T2 & T3). unfold write_mm.
    replace (List.length (ind_start A) - 1) with (psize A) by lia.
    assert (B : forall n, n <= psize A ->
      for_range 0 n (fun i out =>
        b <- get (ind_start A) i ;; e <- get (ind_start A) (S i) ;;
        for_range b e (fun k out =>
          j <- get (indices A) k ;; v <- get (vals A) k ;;
          Ok (out ++ [((if rm then dec (S i) else dec (S j)) ++ TAB ++ (if rm then dec (S j) else dec (S i)) ++ TAB ++ value_str v)%string])) out) []
      = Ok (map ent_line (map (went rm) (ents O A n)))).
    { unfold for_range at 1. induction n; intros Hn; [reflexivity|].
      rewrite Nat.sub_0_r in *. rewrite <- (Nat.add_1_r n), for_n_app, IHn by lia. cbn [bind for_n].
      rewrite (get_nth _ _ _ 0) by lia. cbn [bind]. rewrite (get_nth _ _ _ 0) by lia. cbn [bind].
      change (nth (0 + n) (ind_start A) 0) with (st A n). change (nth (S (0 + n)) (ind_start A) 0) with (st A (S n)).
      change (0 + n) with n.
      rewrite (range_rowl O _ A (fun j v out => Ok (out ++ [((if rm then dec (S n) else dec (S j)) ++ TAB ++ (if rm then dec (S j) else dec (S n)) ++ TAB ++ value_str v)%string])) n _ W) by lia.
      rewrite Nat.add_1_r, ents_S, !map_app.
      generalize (map ent_line (map (went rm) (ents O A n))). generalize (rowl A n). clear.
      induction l as [|[j v] l IH]; intros out; simpl. { now rewrite app_nil_r. }
      rewrite IH. rewrite <- app_assoc. simpl. destruct rm; reflexivity. }
    assert (L : List.length (wents rm A) = List.length (vals A)).
    { unfold wents. rewrite map_length. destruct (ents_keys O A W (psize A)) as [L _]; auto. now rewrite L. }
    destruct (ind_start A) as [|s0 sr] eqn:E; [simpl in T1; lia|]. rewrite <- E in *.
    rewrite (B (psize A)) by auto. cbn [bind]. rewrite L. reflexivity.
  Qed.

  Lemma wents_says : forall (rm : bool) (A : CS O) f, wf A -> tight A -> write_mm O R num_str isR re im rm A = Ok f ->
    file_says O R num_of mk r0 isR GENERAL (if rm then psize A else ssize A) (if rm then ssize A else psize A) (wents rm A) f.
  Proof.
    intros rm A f W Ti E. rewrite write_ok in E by auto. injection E; intros <-. clear E.
    set (l := wents rm A).
    exists ("%%MatrixMarket matrix coordinate " ++ dtype isR ++ " general")%string, [version], [].
    eexists. exists (map ent_line l).
    exists (dec (if rm then psize A else ssize A)), (dec (if rm then ssize A else psize A)), (dec (List.length l)), (map (fun e => words (ent_line e)) l).
    split; [reflexivity|]. split.
    { unfold banner_says, dtype. destruct isR; do 5 eexists; (split; [reflexivity|]); repeat split; reflexivity. }
    split. { intros x [<-|[]]. reflexivity. }
    split. { intros x []. }
    split. { reflexivity. }
    destruct (dec_word (psize A)), (dec_word (ssize A)), (dec_word (List.length l)).
    split.
    { assert (AA : forall a b c, ((a ++ b) ++ c = a ++ b ++ c)%string) by (clear; induction a; simpl; intros; congruence).
      destruct rm; rewrite !AA; cbn [append]; cbn [words]; change (is_ws " ") with true; cbn iota;
        rewrite !words_word by (auto; reflexivity); rewrite words_one by auto; reflexivity. }
    do 3 (split; [apply dec_int|]).
    split. { clear -num_ok mk_ok. induction l; simpl; constructor; auto. apply ent_line_ok. }
    exists []. rewrite app_nil_r. clear. induction l; simpl; congruence.
  Qed.

  Lemma wents_good : forall (rm : bool) (A : CS O), wf A -> distinct A ->
    entries_good O GENERAL (if rm then psize A else ssize A) (if rm then ssize A else psize A) (wents rm A).
  Proof.
    intros rm A W D. split; [|split; [|contradiction]].
    - intros r c v H. apply in_map_iff in H as ([j [i u]] & E & HI). apply ents_in in HI as [Hi HI].
      apply (wf_rowl_range O A W i (j, u)) in HI; auto. simpl in *. destruct rm; injection E; intros; subst r c u; repeat split; try lia; contradiction.
    - unfold wents. assert (N : forall n, n <= psize A -> NoDup (map (fun e : nat * (nat * T) => (fst (snd e), fst e)) (ents O A n))).
      { induction n; intros Hn; [constructor|]. rewrite ents_S, map_app. specialize (IHn ltac:(lia)). specialize (D n ltac:(lia)).
        assert (G : forall l1 l2 : list (nat * nat), NoDup l1 -> NoDup l2 -> (forall x, In x l1 -> ~ In x l2) -> NoDup (l1 ++ l2)).
        { clear. induction l1; simpl; auto. intros l2 N1 N2 H. apply NoDup_cons_iff in N1 as [N1 N1']. constructor; [|apply IHl1; auto].
          intros HI. apply in_app_or in HI as [HI|HI]; auto. apply (H a); auto. }
        apply G; auto.
        - rewrite map_map. simpl. clear -D. induction (rowl A n) as [|[j v] l IH]; [constructor|]. simpl in *.
          apply NoDup_cons_iff in D as [D1 D2]. constructor; auto. intros HI. apply D1. apply in_map_iff in HI as ([j' v'] & E & HI).
          simpl in E. injection E; intros; subst j'. apply in_map_iff. exists (j, v'). auto.
        - intros [i j] HI HJ. apply in_map_iff in HI as ([j' [i' v']] & E & HI). apply ents_in in HI as [HI _].
          rewrite map_map in HJ. apply in_map_iff in HJ as ([j2 v2] & E2 & _). simpl in E, E2. injection E; injection E2; intros; lia. }
      specialize (N (psize A) (le_n _)). rewrite map_map. induction (ents O A (psize A)) as [|[j [i v]] l IH]; [constructor|].
      simpl in *. apply NoDup_cons_iff in N as [N1 N2]. constructor; auto. intros HI. apply N1.
      apply in_map_iff in HI as ([j' [i' v']] & E & HI). apply in_map_iff. exists (j', (i', v')). split; auto.
      simpl in *. destruct rm; simpl in E; injection E; intros; subst; reflexivity.
  Qed.

  Lemma wents_denotes : forall (rm : bool) (A : CS O) i j v, denotes O GENERAL (wents rm A) i j v <->
    (if rm then i < psize A /\ stored A i j v else j < psize A /\ stored A j i v).
  Proof.
    intros. unfold denotes, stored. split.
    - intros [H|[H _]]; [|contradiction]. apply in_map_iff in H as ([j' [i' v']] & E & HI). apply ents_in in HI.
      destruct rm; simpl in E; injection E; intros; subst; auto.
    - intros H. left. apply in_map_iff. destruct rm.
      + exists (j, (i, v)). split; auto. apply ents_in. auto.
      + exists (i, (j, v)). split; auto. apply ents_in. auto.
  Qed.

  (** ** Vectors *)
  Lemma vec_loop : forall jv vs wss, Forall2 (value_words O R num_of mk r0 isR) vs wss -> forall tail a pre, a = List.length pre ->
    for_n a (List.length vs) (fun i (s : list word * list T) =>
       let '(ws, v) := s in
       '(x, ws) <- scan_value O R num_of mk r0 isR ws ;; v <- set v i x ;; Ok (ws, v))
      (List.concat wss ++ tail, pre ++ repeat jv (List.length vs)) = Ok (tail, pre ++ vs).
  Proof.
    intros jv. induction 1 as [|v ws vs wss Hv HF IH]; intros tail a pre Ea; cbn [List.length for_n List.concat].
    - simpl. now rewrite app_nil_r.
    - rewrite <- app_assoc. rewrite (scan_value_ok O R num_of mk r0 isR v ws _ Hv). cbn [bind]. rewrite Ea. cbn [List.length].
      rewrite (set_front _ pre jv (List.length vs) v). cbn [bind].
      rewrite (IH tail (S (List.length pre)) (pre ++ [v])) by (rewrite app_length; simpl; lia). now rewrite <- app_assoc.
  Qed.
  Lemma vec_data_ok : forall jv vs wss tail, Forall2 (value_words O R num_of mk r0 isR) vs wss ->
    mm_read_vector_data O R num_of mk r0 jv isR (List.concat wss ++ tail) (List.length vs) = Ok vs.
  Proof.
    intros. unfold mm_read_vector_data, for_range. rewrite Nat.sub_0_r.
    assert (V := vec_loop jv vs wss H tail 0 [] eq_refl). change ([] ++ repeat jv (List.length vs)) with (repeat jv (List.length vs)) in V. change ([] ++ vs) with vs in V. now rewrite V.
  Qed.
End W.
