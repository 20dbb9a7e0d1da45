(** * Property C30: MatrixMarket files. *)
From Coq Require Import List Arith Lia Bool ZArith String Ascii DecimalString DecimalZ Decimal.
From Verif Require Import Base Scalar CSModel CSSpec ConvModel ConvSpec ConvProofs ConvProofs4 PropConv MmModel MmSpec MmProofs MmProofs2.
Import ListNotations.
Local Open Scope string_scope.
Local Open Scope list_scope.

(** ** Reading a general coordinate file gives its matrix, in either storage, whatever
    fresh memory holds. *)
Theorem C30_general : forall O R num_of mk r0 (isR : bool) rm ji jz jv fuel file m n (es : list (nat * nat * T O)),
  file_says O R num_of mk r0 isR GENERAL m n es file -> entries_good O GENERAL m n es ->
  exists B, read_mm O R num_of isR mk r0 rm ji jz jv (S fuel) file = Some (Ok B) /\ valid B /\ tight B /\
    psize B = (if rm then m else n) /\ ssize B = (if rm then n else m) /\
    forall i j v, i < m -> j < n ->
      (stored B (if rm then i else j) (if rm then j else i) v <-> In (S i, S j, v) es).
Proof.
  intros O R num_of mk r0 isR rm ji jz jv fuel file m n es HF HG.
  destruct (read_ok O R num_of mk r0 isR rm ji jz jv fuel file GENERAL m n es HF HG (or_introl eq_refl)) as (B & E & V & Ti & P & Q & St).
  exists B. do 5 (split; [auto|]). intros i j v Hi Hj. rewrite St by auto. split; [|now left].
  intros [H|[H _]]; [auto|contradiction].
Qed.
Print Assumptions C30_general.

(** ** Symmetric, hermitian and skew-symmetric files are expanded by the mirror rule.
    Partial: it fails for files of these kinds with only diagonal entries, see
    [C30_all_diagonal_refuted]. *)
Theorem C30_read_partial : forall O R num_of mk r0 (isR : bool) rm ji jz jv fuel file k m n (es : list (nat * nat * T O)),
  file_says O R num_of mk r0 isR k m n es file -> entries_good O k m n es ->
  k = GENERAL \/ es = [] \/ (exists r c v, In (r, c, v) es /\ r <> c) ->
  exists B, read_mm O R num_of isR mk r0 rm ji jz jv (S fuel) file = Some (Ok B) /\ valid B /\ tight B /\
    psize B = (if rm then m else n) /\ ssize B = (if rm then n else m) /\
    forall i j v, i < m -> j < n ->
      (stored B (if rm then i else j) (if rm then j else i) v <-> denotes O k es i j v).
Proof. exact read_ok. Qed.
Print Assumptions C30_read_partial.

(** ** Writing a matrix and reading the file back, as either storage; the same storage
    gives the very same arrays back if the indices are sorted. *)
Theorem C30_roundtrip : forall O R num_of num_str (isR : bool) mk re im r0 (rm rm' : bool) ji jz jv fuel (A : CS O),
  (forall x : R, num_of (num_str x) = Some x /\ nows (num_str x) = true /\ num_str x <> EmptyString) ->
  (forall v : T O, mk (re v) (if isR then r0 else im v) = v) ->
  wf A -> tight A -> distinct A ->
  exists f B, write_mm O R num_str isR re im rm A = Ok f /\
    read_mm O R num_of isR mk r0 rm' ji jz jv (S fuel) f = Some (Ok B) /\ valid B /\ tight B /\
    (rm' = rm -> psize B = psize A /\ ssize B = ssize A /\
       (forall i j v, i < psize A -> j < ssize A -> (stored B i j v <-> stored A i j v)) /\ (sorted A -> B = A)) /\
    (rm' <> rm -> psize B = ssize A /\ ssize B = psize A /\
       forall i j v, i < psize A -> j < ssize A -> (stored B j i v <-> stored A i j v)).
Proof.
  intros O R num_of num_str isR mk re im r0 rm rm' ji jz jv fuel A NO MO W Ti D.
  destruct (write_mm O R num_str isR re im rm A) as [f| |] eqn:E; try (rewrite (write_ok O R num_str isR re im rm A W Ti) in E; discriminate).
  exists f.
  assert (FS := wents_says O R num_of num_str isR mk re im r0 NO MO rm A f W Ti E).
  destruct (read_ok O R num_of mk r0 isR rm' ji jz jv fuel f GENERAL _ _ _ FS (wents_good O rm A W D) (or_introl eq_refl))
    as (B & EB & V & TB & P & Q & St).
  exists B. do 4 (split; [auto|]). split.
  - intros ->.
    assert (EP : psize B = psize A) by (now destruct rm). assert (ES : ssize B = ssize A) by (now destruct rm).
    assert (SS : forall i j v, i < psize A -> j < ssize A -> (stored B i j v <-> stored A i j v)).
    { intros i j v Hi Hj. destruct rm.
      - specialize (St i j v Hi Hj). cbn iota in St. rewrite St, wents_denotes. tauto.
      - specialize (St j i v Hj Hi). cbn iota in St. rewrite St, wents_denotes. tauto. }
    do 3 (split; [auto|]). intros SA. destruct V as [WB SB]. apply (cs_ext O); auto.
    intros i Hi. rewrite EP in Hi. apply asc_pairs_eq.
    + apply (proj1 (sorted_asc O B) SB). lia.
    + apply (proj1 (sorted_asc O A) SA). lia.
    + intros [j v]. change (stored B i j v <-> stored A i j v). split; intros H.
      * apply SS; auto. apply (wf_rowl_range O B WB i (j, v)) in H; [simpl in H; lia|lia].
      * apply SS; auto. apply (wf_rowl_range O A W i (j, v)) in H; [simpl in H; lia|lia].
  - intros N. assert (ER : rm' = negb rm) by (destruct rm, rm'; auto; contradiction). subst rm'.
    split; [now destruct rm|]. split; [now destruct rm|]. intros i j v Hi Hj. destruct rm; cbn iota beta delta [negb] in *.
    + rewrite (St i j v Hi Hj), wents_denotes. tauto.
    + rewrite (St j i v Hj Hi), wents_denotes. tauto.
Qed.
Print Assumptions C30_roundtrip.

(** ** Vectors *)
Theorem C30_vector_roundtrip : forall O R num_of num_str (isR : bool) mk re im r0 jv fuel (v : list (T O)),
  (forall x : R, num_of (num_str x) = Some x /\ nows (num_str x) = true /\ num_str x <> EmptyString) ->
  (forall v : T O, mk (re v) (if isR then r0 else im v) = v) ->
  read_mm_vector O R num_of isR mk r0 jv (S fuel) (write_mm_vector O R num_str isR re im v) = Some (Ok v).
Proof.
  intros O R num_of num_str isR mk re im r0 jv fuel v NO MO. unfold read_mm_vector, write_mm_vector.
  rewrite (firstline_ok _ _ "array" (if isR then "real" else "complex") GENERAL).
  2:{ unfold banner_says, dtype. destruct isR; do 5 eexists; (split; [reflexivity|]); repeat split; reflexivity. }
  2:{ auto. } 2:{ destruct isR; auto. }
  change (negb ("array" =? "array")%string) with false. cbn iota.
  replace (xorb isR (negb ((if isR then "real" else "complex") =? "complex")%string)) with false by (now destruct isR).
  destruct (dec_word (List.length v)).
  assert (SZ : mm_read_size 2 (S fuel) (version :: (" " ++ dec (List.length v) ++ " 1")%string :: map (value_str O R num_str isR re im) v) =
    Some (Ok ([Z.of_nat (List.length v); 1%Z], flat_map words (map (value_str O R num_str isR re im) v)))).
  { apply (size_ok 2 fuel [version] [] (" " ++ dec (List.length v) ++ " 1")%string (map (value_str O R num_str isR re im) v)
             [Z.of_nat (List.length v); 1%Z] [dec (List.length v); "1"] []).
    - intros l [<-|[]]. reflexivity.
    - intros l [].
    - reflexivity.
    - cbn [append]. cbn [words]. change (is_ws " ") with true. cbn iota. rewrite words_word by (auto; reflexivity). reflexivity.
    - constructor; [apply dec_int|]. constructor; [reflexivity|constructor].
    - reflexivity.
    - lia.
    - contradiction. }
  rewrite SZ. cbn [bind]. rewrite to_nat_ok. cbn [bind].
  replace (negb ((if isR then "real" else "complex") =? "complex")%string) with isR by (now destruct isR).
  replace (flat_map words (map (value_str O R num_str isR re im) v))
    with (List.concat (map (fun x => words (value_str O R num_str isR re im x)) v) ++ [])
    by (rewrite app_nil_r; clear; induction v; simpl; congruence).
  rewrite vec_data_ok; auto. clear -NO MO. induction v; simpl; constructor; auto. now apply value_ok.
Qed.
Print Assumptions C30_vector_roundtrip.

(** ** Errors: a file with fewer entries than announced; a real file for a complex
    matrix or the converse; an array file; an unknown banner, type or scheme. *)
Theorem C30_short : forall O R num_of mk r0 (isR : bool) rm ji jz jv fuel k first comments sizes data wm wn wz m n nnz (es : list (nat * nat * T O)) ess,
  banner_says first "coordinate" (if isR then "real" else "complex") k ->
  (forall l, In l comments -> is_comment l = true) -> is_comment sizes = false -> words sizes = [wm; wn; wz] ->
  int_word (Z.of_nat m) wm -> int_word (Z.of_nat n) wn -> int_word (Z.of_nat nnz) wz ->
  flat_map words data = List.concat ess -> Forall2 (entry_words O R num_of mk r0 isR) es ess ->
  (forall r c v, In (r, c, v) es -> 1 <= r /\ 1 <= c) -> List.length es < nnz ->
  read_mm O R num_of isR mk r0 rm ji jz jv fuel (first :: comments ++ sizes :: data) = Some Err.
Proof.
  intros O R num_of mk r0 isR rm ji jz jv fuel k first comments sizes data wm wn wz m n nnz es ess HB HC HS HW Hm Hn Hz Hd HF HP HL.
  unfold read_mm, read_mm_sparse.
  rewrite (firstline_ok first _ _ _ _ HB) by (auto; destruct isR; auto).
  change (negb ("coordinate" =? "array")%string) with true. cbn [negb].
  replace (xorb isR (negb ((if isR then "real" else "complex") =? "complex")%string)) with false by (now destruct isR).
  assert (SZ : mm_read_size 3 fuel (comments ++ sizes :: data) = Some (Ok ([Z.of_nat m; Z.of_nat n; Z.of_nat nnz], flat_map words data))).
  { clear -HC HS HW Hm Hn Hz. induction comments as [|c cs IH]; simpl.
    - rewrite HS, HW. unfold int_word in *. simpl. rewrite Hm, Hn, Hz. reflexivity.
    - rewrite HC by (now left). apply IH. intros. apply HC. now right. }
  rewrite SZ. cbn [bind]. rewrite !to_nat_ok. cbn [bind]. rewrite Hd.
  replace (negb ((if isR then "real" else "complex") =? "complex")%string) with isR by (now destruct isR).
  unfold mm_read_sparse_data, for_range. rewrite Nat.sub_0_r.
  set (z := if is_general k then nnz else nnz * 2).
  assert (HZ : List.length (exp O k es) <= z).
  { unfold z. assert (L := exp_len_le O k es). destruct k; simpl; try lia. rewrite exp_len_gen. lia. }
  assert (D := data_loop O R num_of mk r0 jz jv k isR es ess HF HP [] 0 [] z HZ).
  change (rowz O [] ++ repeat jz z) with (repeat jz z) in D. change (colz O [] ++ repeat jz z) with (repeat jz z) in D.
  change (valz O [] ++ repeat jv z) with (repeat jv z) in D. change (List.length (@nil (nat * nat * T O))) with 0 in D.
  rewrite app_nil_r in D.
  replace nnz with (List.length es + S (nnz - List.length es - 1)) by lia.
  rewrite for_n_app, D. reflexivity.
Qed.
Print Assumptions C30_short.

Theorem C30_wrong_type : forall O R num_of mk r0 (isR : bool) rm ji jz jv fuel k first rest,
  banner_says first "coordinate" (if isR then "complex" else "real") k \/
  (exists data, (data = "real" \/ data = "complex") /\ banner_says first "array" data k) ->
  read_mm O R num_of isR mk r0 rm ji jz jv fuel (first :: rest) = Some (@Err (CS O)).
Proof.
  intros O R num_of mk r0 isR rm ji jz jv fuel k first rest [H|(data & Hd & H)]; unfold read_mm, read_mm_sparse.
  - rewrite (firstline_ok first _ _ _ _ H) by (auto; destruct isR; auto). now destruct isR.
  - rewrite (firstline_ok first _ _ _ _ H) by auto. reflexivity.
Qed.
Print Assumptions C30_wrong_type.

(** ** The bad corner: a file of a symmetric kind with diagonal entries only.  The
    arrays keep twice the number of entries, and the second half is whatever fresh memory
    held. *)
Theorem C30_all_diagonal : forall O R num_of mk r0 (isR : bool) jz jv fuel file k m n (es : list (nat * nat * T O)),
  file_says O R num_of mk r0 isR k m n es file -> entries_good O k m n es -> k <> GENERAL ->
  (forall r c v, In (r, c, v) es -> r = c) ->
  exists rows cols vals, List.length rows = List.length es /\ List.length cols = List.length es /\ List.length vals = List.length es /\
    read_mm_sparse O R num_of isR mk r0 jz jv (S fuel) file =
    Some (Ok (m, n, rows ++ repeat jz (List.length es), cols ++ repeat jz (List.length es), vals ++ repeat jv (List.length es))).
Proof.
  intros O R num_of mk r0 isR jz jv fuel file k m n es HF HG HK HD.
  assert (PP : forall r c u, In (r, c, u) es -> 1 <= r /\ 1 <= c) by (intros r c u HI; destruct HG as (HP & _); destruct (HP r c u HI); lia).
  assert (LE : List.length (exp O k es) = List.length es).
  { clear -HD. induction es as [|[[r c] v] es IH]; auto. simpl. rewrite (HD r c v) by (now left). rewrite Nat.eqb_refl, orb_true_r.
    simpl. f_equal. apply IH. intros. apply (HD r0 c0 v0). now right. }
  destruct HF as (first & comments & blanks & sizes & data & wm & wn & wz & ess & E & HB & HC & HBl & HSc & HW & Hm & Hn & Hz & HE & tail & Ht).
  exists (rowz O (exp O k es)), (colz O (exp O k es)), (valz O (exp O k es)).
  unfold rowz, colz, valz. rewrite !map_length, LE. do 3 (split; [auto|]).
  subst file. unfold read_mm_sparse.
  rewrite (firstline_ok first _ _ _ _ HB) by (auto; destruct isR; auto).
  change (negb ("coordinate" =? "array")%string) with true. cbn [negb].
  replace (xorb isR (negb ((if isR then "real" else "complex") =? "complex")%string)) with false by (now destruct isR).
  rewrite (size_ok 3 fuel comments blanks sizes data [Z.of_nat m; Z.of_nat n; Z.of_nat (List.length es)] [wm; wn; wz] [])
    by (auto; repeat constructor; auto).
  cbn [bind]. rewrite !to_nat_ok. cbn [bind]. rewrite Ht.
  replace (negb ((if isR then "real" else "complex") =? "complex")%string) with isR by (now destruct isR).
  unfold mm_read_sparse_data, for_range. rewrite Nat.sub_0_r. replace (is_general k) with false by (destruct k; auto; contradiction).
  assert (HZ : List.length (exp O k es) <= List.length es * 2) by apply exp_len_le.
  assert (D := data_loop O R num_of mk r0 jz jv k isR es ess HE PP tail 0 [] _ HZ).
  change (rowz O [] ++ repeat jz (List.length es * 2)) with (repeat jz (List.length es * 2)) in D.
  change (colz O [] ++ repeat jz (List.length es * 2)) with (repeat jz (List.length es * 2)) in D.
  change (valz O [] ++ repeat jv (List.length es * 2)) with (repeat jv (List.length es * 2)) in D.
  change (List.length (@nil (nat * nat * T O))) with 0 in D.
  rewrite D. cbn [bind]. change ([] ++ exp O k es) with (exp O k es). rewrite LE, Nat.eqb_refl. cbn [negb].
  replace (List.length es * 2 - List.length es) with (List.length es) by lia. reflexivity.
Qed.
Print Assumptions C30_all_diagonal.

(** ** Concrete files, with integer values. *)
Definition zstr (z : Z) : string := NilZero.string_of_int (Z.to_int z).
Definition zmk (x y : Z) : T OZ := x.
Definition gmk (x y : Z) : T OI := mkGI x y.
Lemma zstr_ok : forall x, int_of (zstr x) = Some x /\ nows (zstr x) = true /\ zstr x <> EmptyString.
Proof.
  intros [|p|p].
  - repeat split; discriminate.
  - replace (zstr (Z.pos p)) with (dec (Pos.to_nat p)) by (unfold zstr, dec; now rewrite positive_nat_N).
    rewrite dec_int, positive_nat_Z. split; auto. apply dec_word.
  - assert (N := dec_nonnil (Pos.to_nat p)).
    replace (zstr (Z.neg p)) with (String "-" (dec (Pos.to_nat p))) by (unfold zstr, dec; now rewrite positive_nat_N).
    split; [|split; [apply (dec_word (Pos.to_nat p))|discriminate]].
    unfold int_of. change (String "-" (dec (Pos.to_nat p))) with (NilZero.string_of_int (Neg (N.to_uint (N.of_nat (Pos.to_nat p))))).
    rewrite NilZero.isi by congruence. cbn [option_map Z.of_int]. f_equal.
    unfold Z.of_uint. change (Pos.of_uint (N.to_uint (N.of_nat (Pos.to_nat p)))) with (N.of_uint (N.to_uint (N.of_nat (Pos.to_nat p)))).
    rewrite DecimalN.Unsigned.of_to. rewrite positive_nat_N. reflexivity.
Qed.

Definition sfile : list string :=
  [ "%%MatrixMarket MATRIX Coordinate real Symmetric"; "% a comment"; ""; " 3 3 4"; "1 1 5"; " 3 1 "; "7"; "2 2 -4   3 2 6" ].
Definition ses : list (nat * nat * T OZ) := [(1, 1, 5%Z); (3, 1, 7%Z); (2, 2, (-4)%Z); (3, 2, 6%Z)].
Example C30_hyps : file_says OZ Z int_of zmk 0%Z true SYMM 3 3 ses sfile /\ entries_good OZ SYMM 3 3 ses /\
  exists r c v, In (r, c, v) ses /\ r <> c.
Proof.
  split; [|split].
  - exists "%%MatrixMarket MATRIX Coordinate real Symmetric", ["% a comment"], [""], " 3 3 4".
    exists ["1 1 5"; " 3 1 "; "7"; "2 2 -4   3 2 6"], "3", "3", "4", [["1";"1";"5"];["3";"1";"7"];["2";"2";"-4"];["3";"2";"6"]].
    split; [reflexivity|]. split. { do 5 eexists. split; [reflexivity|]. repeat split; reflexivity. }
    split. { intros l [<-|[]]; reflexivity. } split. { intros l [<-|[]]; reflexivity. }
    do 5 (split; [reflexivity|]). split; [|exists []; reflexivity].
    assert (V : forall (x : Z) w, int_of w = Some x -> value_words OZ Z int_of zmk 0%Z true x [w]).
    { intros x w H. exact (vw_real OZ Z int_of zmk 0%Z w x H). }
    repeat constructor; do 3 eexists; (split; [reflexivity|]); (split; [reflexivity|]); (split; [reflexivity|]); apply V; reflexivity.
  - split; [|split].
    + intros r c v H. repeat (destruct H as [E|H]; [injection E; intros; subst; lia|]). contradiction.
    + repeat constructor; simpl; intuition discriminate.
    + intros _ r c u v N H1 H2. unfold ses in *. simpl in H1, H2.
      repeat match goal with H : _ \/ _ |- _ => destruct H | H : _ = _ |- _ => inversion H; clear H; subst | H : False |- _ => destruct H end; try congruence.
  - exists 3, 1, 7%Z. split; [simpl; tauto|lia].
Qed.
Example C30_run : read_mm OZ Z int_of true zmk 0%Z true 99 (-5)%Z 77%Z 1 sfile =
  Some (Ok (@mkCS OZ 3 3 [0;2;4;6] [0;2;1;2;0;1] [5;7;-4;6;7;6]%Z)).
Proof. vm_compute. reflexivity. Qed.
Example C30_herm_run : read_mm OI Z int_of false gmk 0%Z false 99 (-5)%Z (mkGI 7 7) 0
  [ "%%MatrixMarket matrix coordinate complex hermitian"; "2 2 2"; "2 1 3 4"; "1 1 5 0" ] =
  Some (Ok (@mkCS OI 2 2 [0;2;3] [0;1;0] [mkGI 5 0; mkGI 3 4; mkGI 3 (-4)])).
Proof. vm_compute. reflexivity. Qed.
Definition wA : CS OZ := @mkCS OZ 3 4 [0;2;2;4] [0;3;1;2] [5;-12;3;40]%Z.
Example C30_roundtrip_hyps :
  (forall x : Z, int_of (zstr x) = Some x /\ nows (zstr x) = true /\ zstr x <> EmptyString) /\
  (forall v : T OZ, zmk v 0%Z = v) /\ valid wA /\ tight wA /\ distinct wA.
Proof.
  assert (V : valid wA) by (split; [apply wfb_wf|apply sortedb_sorted]; vm_compute; reflexivity).
  split; [exact zstr_ok|]. split; [reflexivity|]. split; [exact V|]. split; [apply tightb_tight; vm_compute; reflexivity|].
  destruct V as [W SO]. intros i Hi. apply asc_NoDup. now apply (proj1 (sorted_asc OZ wA) SO).
Qed.
Example C30_write_run : write_mm OZ Z zstr true (fun v : Z => v) (fun v : Z => v) true wA =
  Ok ["%%MatrixMarket matrix coordinate real general"; "% Written by HIFIR 0.1.0"; " 3 4 4";
      ("1" ++ TAB ++ "1" ++ TAB ++ "5")%string; ("1" ++ TAB ++ "4" ++ TAB ++ "-12")%string;
      ("3" ++ TAB ++ "2" ++ TAB ++ "3")%string; ("3" ++ TAB ++ "3" ++ TAB ++ "40")%string].
Proof. vm_compute. reflexivity. Qed.

(** ** What does not hold. *)
(** An all-diagonal symmetric file: the result depends on fresh memory, and can be
    out of bounds. *)
Theorem C30_all_diagonal_refuted : exists file es,
  file_says OZ Z int_of zmk 0%Z true SYMM 2 2 es file /\ entries_good OZ SYMM 2 2 es /\
  read_mm OZ Z int_of true zmk 0%Z true 0 9%Z 0%Z 1 file = Some UB /\
  read_mm OZ Z int_of true zmk 0%Z true 0 1%Z 66%Z 1 file = Some (Ok (@mkCS OZ 2 2 [0;1;4] [0;1;1;1] [5;6;66;66]%Z)).
Proof.
  exists ["%%MatrixMarket matrix coordinate real symmetric"; "2 2 2"; "1 1 5"; "2 2 6"], [(1, 1, 5%Z); (2, 2, 6%Z)].
  split; [|split; [|split; vm_compute; reflexivity]].
  - exists "%%MatrixMarket matrix coordinate real symmetric", [], [], "2 2 2".
    exists ["1 1 5"; "2 2 6"], "2", "2", "2", [["1";"1";"5"];["2";"2";"6"]].
    split; [reflexivity|]. split. { do 5 eexists. split; [reflexivity|]. repeat split; reflexivity. }
    split. { intros l []. } split. { intros l []. }
    do 5 (split; [reflexivity|]). split; [|exists []; reflexivity].
    assert (V : forall (x : Z) w, int_of w = Some x -> value_words OZ Z int_of zmk 0%Z true x [w]).
    { intros x w H. exact (vw_real OZ Z int_of zmk 0%Z w x H). }
    repeat constructor; do 3 eexists; (split; [reflexivity|]); (split; [reflexivity|]); (split; [reflexivity|]); apply V; reflexivity.
  - split; [|split].
    + intros r c v H. repeat (destruct H as [E|H]; [injection E; intros; subst; lia|]). contradiction.
    + repeat constructor; simpl; intuition discriminate.
    + intros _ r c u v N H1 H2. simpl in H1, H2.
      repeat match goal with H : _ \/ _ |- _ => destruct H | H : _ = _ |- _ => inversion H; clear H; subst | H : False |- _ => destruct H end; try congruence.
Qed.
Print Assumptions C30_all_diagonal_refuted.

(** A comment after a blank line makes the reader loop forever. *)
Theorem C30_comment_after_blank_refuted : forall fuel rm ji jz jv,
  read_mm OZ Z int_of true zmk 0%Z rm ji jz jv fuel
    ["%%MatrixMarket matrix coordinate real general"; ""; "% sizes follow"; "1 1 1"; "1 1 5"] = None.
Proof.
  intros. unfold read_mm, read_mm_sparse. 
  change (mm_read_firstline ["%%MatrixMarket matrix coordinate real general"; ""; "% sizes follow"; "1 1 1"; "1 1 5"])
    with (Ok (true, true, GENERAL, [""; "% sizes follow"; "1 1 1"; "1 1 5"])).
  cbn iota beta. change (xorb true true) with false. change (negb true) with false. cbn iota.
  change (mm_read_size 3 fuel [""; "% sizes follow"; "1 1 1"; "1 1 5"])
    with (size_loop 3 fuel ["%"; "sizes"; "follow"; "1"; "1"; "1"; "1"; "1"; "5"]).
  assert (L : size_loop 3 fuel ["%"; "sizes"; "follow"; "1"; "1"; "1"; "1"; "1"; "5"] = None) by (induction fuel; auto).
  now rewrite L.
Qed.
Print Assumptions C30_comment_after_blank_refuted.

(** Indices are not checked: 0 or an index above the size is undefined behaviour. *)
Theorem C30_no_validation_refuted :
  let head := ["%%MatrixMarket matrix coordinate real general"; "1 1 1"] in
  read_mm OZ Z int_of true zmk 0%Z true 0 0%Z 0%Z 0 (head ++ ["0 1 5"]) = Some UB /\
  read_mm OZ Z int_of true zmk 0%Z true 0 0%Z 0%Z 0 (head ++ ["2 1 5"]) = Some UB.
Proof. split; vm_compute; reflexivity. Qed.
Print Assumptions C30_no_validation_refuted.

(** Arrays longer than the start array says ([tight] fails) are written with a wrong
    count: reading the file back is an error. *)
Theorem C30_loose_refuted : exists A : CS OZ, valid A /\ exists f,
  write_mm OZ Z zstr true (fun v : Z => v) (fun v : Z => v) true A = Ok f /\
  read_mm OZ Z int_of true zmk 0%Z true 0 0%Z 0%Z 1 f = Some Err.
Proof.
  exists (@mkCS OZ 2 2 [0;1;2] [0;1;0] [4;5;0]%Z). split.
  - split; [apply wfb_wf|apply sortedb_sorted]; vm_compute; reflexivity.
  - eexists. split; [vm_compute; reflexivity|]. vm_compute. reflexivity.
Qed.
Print Assumptions C30_loose_refuted.
