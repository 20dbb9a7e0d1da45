(** * CroutProofs1: rows in a growing matrix, linked lists, deferral and compression of one factor. *)
From Coq Require Import List Arith Lia Bool Permutation.
From Verif Require Import Base Scalar Spec CSModel CSSpec ConvModel ConvSpec BucketProofs ConvProofs ConvProofs2
  ConvProofs3 ConvProofs4 Mag VecModel VecSpec VecProofs PruneModel PruneProofs CroutModel.
Import ListNotations.

Section R.
  Context {O : Ops}.
  Notation T := (T O).
  Notation row := (list (nat * T)).

  Definition offs (rows : list row) (i : nat) : nat := length (concat (firstn i rows)).
  Definition starts (rows : list row) : list nat := map (offs rows) (seq 0 (S (length rows))).
  Definition ofrows (ps ss : nat) (rows : list row) : CS O :=
    mkCS ps ss (starts rows) (map fst (concat rows)) (map snd (concat rows)).

  Lemma concat_split : forall (rows : list row) c, c < length rows ->
    concat rows = concat (firstn c rows) ++ nth c rows [] ++ concat (skipn (S c) rows).
  Proof.
    induction rows; intros c H; simpl in *; [lia|]. destruct c; simpl; auto.
    rewrite <- app_assoc. f_equal. apply IHrows; lia.
  Qed.
  Lemma firstn_upd : forall X (l : list X) c x, firstn c (upd l c x) = firstn c l.
  Proof. induction l; destruct c; simpl; intros; auto. f_equal; auto. Qed.
  Lemma skipn_upd : forall X (l : list X) c x, skipn (S c) (upd l c x) = skipn (S c) l.
  Proof. induction l; intros c x; destruct c; simpl; auto. apply (IHl c x). Qed.
  Lemma concat_upd : forall (rows : list row) c r, c < length rows ->
    concat (upd rows c r) = concat (firstn c rows) ++ r ++ concat (skipn (S c) rows).
  Proof.
    intros. rewrite (concat_split (upd rows c r) c) by (rewrite upd_length; auto).
    rewrite firstn_upd, skipn_upd, nth_upd_eq by auto. auto.
  Qed.
  Lemma offs_S : forall (rows : list row) c, c < length rows -> offs rows (S c) = offs rows c + length (nth c rows []).
  Proof.
    unfold offs. induction rows; intros c H; simpl in *; [lia|]. destruct c; simpl.
    - rewrite app_nil_r. auto.
    - rewrite !app_length. rewrite <- Nat.add_assoc. f_equal. apply IHrows. lia.
  Qed.
  Lemma offs_all : forall (rows : list row), offs rows (length rows) = length (concat rows).
  Proof. intros. unfold offs. now rewrite firstn_all. Qed.
  Lemma offs_le : forall (rows : list row) c, c < length rows -> offs rows (S c) <= length (concat rows).
  Proof.
    intros. rewrite offs_S by auto. rewrite (concat_split rows c H) at 1. unfold offs. rewrite !app_length. lia.
  Qed.
  Lemma starts_length : forall rows, length (starts rows) = S (length rows).
  Proof. intros. unfold starts. now rewrite map_length, seq_length. Qed.
  Lemma get_start : forall rows c, c <= length rows -> get (starts rows) c = Ok (offs rows c).
  Proof.
    intros. rewrite (get_nth _ _ _ 0) by (rewrite starts_length; lia). f_equal. unfold starts.
    rewrite (nth_indep _ 0 (offs rows 0)) by (rewrite map_length, seq_length; lia).
    rewrite map_nth. rewrite seq_nth by lia. auto.
  Qed.
  Lemma offs_upd : forall (rows : list row) c r i, c < length rows -> length r = length (nth c rows []) ->
    offs (upd rows c r) i = offs rows i.
  Proof.
    unfold offs. induction rows; intros c r i Hc Hr; simpl in *; [lia|].
    destruct c; destruct i; simpl; auto.
    - rewrite !app_length. now rewrite Hr.
    - rewrite !app_length. f_equal. apply IHrows; auto; lia.
  Qed.
  Lemma starts_upd : forall (rows : list row) c r, c < length rows -> length r = length (nth c rows []) ->
    starts (upd rows c r) = starts rows.
  Proof. intros. unfold starts. rewrite upd_length. apply map_ext. intros. now apply offs_upd. Qed.

  Lemma get_row : forall X (f : nat * T -> X) (rows : list row) c j, c < length rows -> j < length (nth c rows []) ->
    get (map f (concat rows)) (offs rows c + j) = Ok (f (nth j (nth c rows []) (0, t0 O))).
  Proof.
    intros X f rows c j Hc Hj.
    assert (L : offs rows c + j < length (concat rows)).
    { pose proof (offs_le rows c Hc). rewrite offs_S in H by auto. lia. }
    rewrite (get_nth _ _ _ (f (0, t0 O))) by (rewrite map_length; auto). rewrite map_nth. f_equal. f_equal.
    rewrite (concat_split rows c Hc). unfold offs. rewrite app_nth2_plus. rewrite app_nth1; auto.
  Qed.

  Lemma set_row : forall (rows : list row) c X0 i v t x, c < length rows -> nth c rows [] = X0 ++ (i, v) :: t ->
    set (map fst (concat rows)) (offs rows c + length X0) x = Ok (map fst (concat (upd rows c (X0 ++ (x, v) :: t)))).
  Proof.
    intros rows c X0 i v t x Hc E.
    assert (Lc : offs rows c + length X0 < length (concat rows)).
    { pose proof (offs_le rows c Hc). rewrite offs_S, E, app_length in H by auto. simpl in H. lia. }
    rewrite set_ok by (rewrite map_length; auto). f_equal.
    rewrite concat_upd by auto. rewrite (concat_split rows c Hc) at 1. rewrite E. unfold offs. rewrite !map_app.
    simpl. rewrite <- !app_assoc. simpl.
    assert (G : forall (a b c0 : list nat) y x0, upd (a ++ b ++ y :: c0) (length a + length b) x0 = a ++ b ++ x0 :: c0).
    { clear. induction a; intros; simpl. - induction b; simpl; auto. now f_equal. - f_equal. apply IHa. }
    rewrite <- (map_length fst (concat (firstn c rows))), <- (map_length fst X0). apply G.
  Qed.

  Lemma rotate_left_list : forall X (A : list X) a t B n src, src = length A -> n = S (length t) ->
    rotate_left n src (A ++ (a :: t) ++ B) = Ok (A ++ (t ++ [a]) ++ B).
  Proof.
    intros X A a t B n src -> ->. unfold rotate_left, rotate.
    replace (length A <=? length A + 1) with true by (symmetry; apply Nat.leb_le; lia).
    replace (length A + 1 <=? length A + S (length t)) with true by (symmetry; apply Nat.leb_le; lia).
    replace (length A + S (length t) <=? length (A ++ (a :: t) ++ B)) with true
      by (symmetry; apply Nat.leb_le; rewrite !app_length; simpl; lia).
    cbn [andb]. f_equal. f_equal.
    - rewrite firstn_app, Nat.sub_diag, firstn_all. simpl. now rewrite app_nil_r.
    - unfold slice.
      replace (length A + S (length t) - (length A + 1)) with (length t) by lia.
      replace (length A + 1 - length A) with 1 by lia.
      rewrite <- app_assoc. f_equal; [|f_equal].
      + rewrite skipn_app. rewrite skipn_all2 by lia.
        replace (length A + 1 - length A) with 1 by lia. simpl. rewrite firstn_app, Nat.sub_diag, firstn_all. simpl.
        now rewrite app_nil_r.
      + rewrite skipn_app. rewrite skipn_all2 by lia. rewrite Nat.sub_diag. simpl. auto.
      + rewrite skipn_app. rewrite skipn_all2 by lia.
        replace (length A + S (length t) - length A) with (S (length t)) by lia. simpl.
        rewrite skipn_app. rewrite skipn_all2 by lia. now rewrite Nat.sub_diag.
  Qed.

  Lemma rotate_row : forall X (f : nat * T -> X) (rows : list row) c X0 a t, c < length rows ->
    nth c rows [] = X0 ++ a :: t ->
    rotate_left (S (length t)) (offs rows c + length X0) (map f (concat rows)) = Ok (map f (concat (upd rows c (X0 ++ t ++ [a])))).
  Proof.
    intros X f rows c X0 a t Hc E. rewrite concat_upd by auto.
    replace (map f (concat rows)) with (map f (concat (firstn c rows) ++ X0) ++ (f a :: map f t) ++ map f (concat (skipn (S c) rows))).
    2:{ symmetry. rewrite (concat_split rows c Hc) at 1. rewrite E. rewrite !map_app. simpl. rewrite <- !app_assoc. reflexivity. }
    rewrite rotate_left_list.
    - rewrite !map_app. rewrite <- !app_assoc. reflexivity.
    - rewrite map_length, app_length. reflexivity.
    - now rewrite map_length.
  Qed.

  (** ** Linked lists *)
  Inductive chain (li : list (option nat)) : option nat -> list nat -> Prop :=
  | chain_nil : chain li None []
  | chain_cons : forall c l, c < length li -> chain li (nth c li None) l -> chain li (Some c) (c :: l).

  Lemma chain_frame : forall li li' h l, length li' = length li ->
    (forall c, In c l -> nth c li' None = nth c li None) -> chain li h l -> chain li' h l.
  Proof.
    intros li li' h l HL H C. induction C; constructor. { lia. }
    rewrite H by (left; auto). apply IHC. intros. apply H. right; auto.
  Qed.

  (** the heads [lo..ss) enumerate the columns by head position *)
  Definition CH (k lo ss : nat) (li : list (option nat)) (hd : nat -> option nat) : Prop :=
    length li = ss /\
    forall r, lo <= r < ss -> exists l, chain li (nth r li None) l /\ NoDup l /\ forall c, In c l <-> c < k /\ hd c = Some r.

  Lemma CH_ext : forall k lo ss li hd hd', (forall c, c < k -> hd c = hd' c) -> CH k lo ss li hd -> CH k lo ss li hd'.
  Proof.
    intros k lo ss li hd hd' E (L & H). split; auto. intros r Hr. destruct (H r Hr) as (l & C & N & I). exists l.
    split; [auto|]. split; [auto|]. intros c. rewrite I. split; intros (A & B); split; auto; rewrite <- B; [symmetry|]; auto.
  Qed.
  Lemma CH_lo : forall k lo lo' ss li hd, lo <= lo' -> CH k lo ss li hd -> CH k lo' ss li hd.
  Proof. intros k lo lo' ss li hd H (L & C). split; auto. intros r Hr. apply C. lia. Qed.
  Lemma CH_low : forall k lo ss li hd i x, k <= i < lo -> CH k lo ss li hd -> CH k lo ss (upd li i x) hd.
  Proof.
    intros k lo ss li hd i x Hi (L & H). split; [now rewrite upd_length|]. intros r Hr.
    destruct (H r Hr) as (l & C & N & I). exists l. split; [|auto].
    rewrite nth_upd_neq by lia. apply (chain_frame li); auto. now rewrite upd_length.
    intros c Hc. apply I in Hc. apply nth_upd_neq. lia.
  Qed.

  (** moving node [c], which is in no list [lo..ss), to the list of [j] *)
  Lemma CH_link : forall k lo ss li hd c j, CH k lo ss li hd -> k <= lo -> c < k -> c < ss -> lo <= j < ss ->
    (forall r, hd c = Some r -> r < lo) ->
    CH k lo ss (upd (upd li c (nth j li None)) j (Some c)) (fun x => if x =? c then Some j else hd x).
  Proof.
    intros k lo ss li hd c j (L & H) Hk Hc Hcs Hj Hn. split. { now rewrite !upd_length. }
    intros r Hr. destruct (H r Hr) as (l & C & N & I).
    assert (Hcl : ~ In c l). { intros X. apply I in X. destruct X as (_ & X). apply Hn in X. lia. }
    destruct (Nat.eq_dec r j) as [->|Hne].
    - exists (c :: l). rewrite nth_upd_eq by (rewrite upd_length; lia). split; [|split].
      + constructor. { rewrite !upd_length. lia. }
        rewrite nth_upd_neq by lia. rewrite nth_upd_eq by lia. apply (chain_frame li); auto.
        * now rewrite !upd_length.
        * intros x Hx. rewrite nth_upd_neq. { apply nth_upd_neq. intros ->. auto. }
          apply I in Hx. lia.
      + constructor; auto.
      + intros x. simpl. rewrite I. destruct (Nat.eqb_spec x c) as [->|Hx].
        * split; auto.
        * split; [intros [E|E]; [congruence|auto]|auto].
    - exists l. rewrite nth_upd_neq by auto. rewrite nth_upd_neq by lia. split; [|split; auto].
      + apply (chain_frame li); auto. now rewrite !upd_length.
        intros x Hx. rewrite nth_upd_neq. { apply nth_upd_neq. intros ->. auto. }
        apply I in Hx. lia.
      + intros x. rewrite I. destruct (Nat.eqb_spec x c) as [->|Hx]; [|tauto].
        split; intros (A & B). { apply Hn in B. lia. } congruence.
  Qed.
  (** a node in no list: its own pointer does not matter *)
  Lemma CH_drop : forall k lo ss li hd c x, CH k lo ss li hd -> k <= lo -> c < k ->
    (forall r, hd c = Some r -> r < lo) ->
    CH k lo ss (upd li c x) (fun y => if y =? c then None else hd y).
  Proof.
    intros k lo ss li hd c x (L & H) Hk Hc Hn. split. { now rewrite !upd_length. }
    intros r Hr. destruct (H r Hr) as (l & C & N & I).
    assert (Hcl : ~ In c l). { intros X. apply I in X. destruct X as (_ & X). apply Hn in X. lia. }
    exists l. rewrite nth_upd_neq by lia. split; [|split; auto].
    - apply (chain_frame li); auto. now rewrite !upd_length. intros y Hy. apply nth_upd_neq. intros ->. auto.
    - intros y. rewrite I. destruct (Nat.eqb_spec y c) as [->|Hy]; [|tauto].
      split; intros (A & B); [apply Hn in B; lia|discriminate].
  Qed.
  Lemma CH_S_none : forall k lo ss li hd, CH k lo ss li hd -> CH (S k) lo ss li (fun x => if x =? k then None else hd x).
  Proof.
    intros k lo ss li hd (L & H). split; auto. intros r Hr. destruct (H r Hr) as (l & C & N & I). exists l. split; [auto|split; [auto|]].
    intros c. rewrite I. destruct (Nat.eqb_spec c k); [|split; intros (A & B); split; auto; lia].
    split; intros (A & B); [lia|discriminate].
  Qed.

  (** read-only walk *)
  Lemma while_chain_read : forall S li l h fuel (body : nat -> S -> res (S * option nat)) (b' : nat -> S -> res S) s,
    chain li h l -> length l < fuel ->
    (forall c s, In c l -> body c s = (s' <- b' c s ;; nx <- get li c ;; Ok (s', nx))) ->
    while_chain fuel body h s = for_list l b' s.
  Proof.
    intros S li l h fuel body b' s C. revert fuel s. induction C; intros fuel s Hf Hb; simpl.
    - destruct fuel; auto.
    - destruct fuel; [simpl in Hf; lia|]. simpl. rewrite Hb by (left; auto).
      destruct (b' c s) as [s'| |]; simpl; auto. rewrite (get_nth _ _ _ None) by auto. simpl.
      apply IHC. simpl in Hf; lia. intros. apply Hb. right; auto.
  Qed.

  Lemma chain_fun : forall li h l, chain li h l -> forall l', chain li h l' -> l = l'.
  Proof. intros li h l C. induction C; intros l' C'; inversion C'; subst; auto. f_equal. auto. Qed.

  (** ** A factor: columns split into the done part (compressed indices) and the tail *)
  Notation col := (row * row)%type.
  Definition dcol : col := ([], []).
  Definition whole (x : col) : row := fst x ++ snd x.
  Definition hdi (x : col) : option nat := match snd x with e :: _ => Some (fst e) | [] => None end.
  Definition hds (cols : list col) (c : nat) : option nat := hdi (nth c cols dcol).

  Record Rep (ps ss k lo lim : nat) (extra : list row) (F : Fac O) (cols : list col) : Prop := mkRep {
    r_fm : fm F = ofrows ps ss (map whole cols ++ extra);
    r_k : length cols = k;
    r_st : length (fstart F) = ps;
    r_kps : k <= ps; r_klo : k <= lo; r_lim : lim <= ss;
    r_start : forall c, c < k -> nth c (fstart F) 0 = length (fst (nth c cols dcol));
    r_tail : forall c, c < k -> asc (map fst (snd (nth c cols dcol))) /\
               forall e, In e (snd (nth c cols dcol)) -> lo <= fst e < lim;
    r_done : forall c, c < k -> asc (map fst (fst (nth c cols dcol))) /\
               forall e, In e (fst (nth c cols dcol)) -> c < fst e < k;
    r_chain : CH k lo ss (flist F) (hds cols) }.

  Definition deferc (g to : nat) (x : col) : col :=
    match snd x with
    | (i, v) :: t => if i =? g then (fst x, t ++ [(to, v)]) else x
    | [] => x
    end.
  Definition compc (g def : nat) (x : col) : col :=
    match snd x with
    | (i, v) :: t => if i =? g then (fst x ++ [(i - def, v)], t) else x
    | [] => x
    end.

  Lemma nth_rows : forall (cols : list col) extra c, c < length cols ->
    nth c (map whole cols ++ extra) [] = whole (nth c cols dcol).
  Proof.
    intros. rewrite app_nth1 by (rewrite map_length; auto).
    rewrite (nth_indep _ [] (whole dcol)) by (rewrite map_length; auto). apply map_nth.
  Qed.
  Lemma upd_rows : forall (cols : list col) extra c x, c < length cols ->
    upd (map whole cols ++ extra) c (whole x) = map whole (upd cols c x) ++ extra.
  Proof.
    induction cols; intros extra c x H; simpl in *; [lia|]. destruct c; simpl; auto. f_equal. apply IHcols. lia.
  Qed.

  Lemma cur_pos_l : forall ps ss cols extra F c, fm F = ofrows ps ss (map whole cols ++ extra) ->
    c < length cols -> c < length (fstart F) -> nth c (fstart F) 0 = length (fst (nth c cols dcol)) ->
    cur_pos F c = Ok (offs (map whole cols ++ extra) c + length (fst (nth c cols dcol)),
                      offs (map whole cols ++ extra) c + length (whole (nth c cols dcol))).
  Proof.
    intros ps ss cols extra F c E Hc Hs Hst. unfold cur_pos. rewrite E. simpl ind_start.
    rewrite get_start by (rewrite app_length, map_length; lia). cbn [bind].
    rewrite (get_nth _ _ _ 0) by auto. cbn [bind]. rewrite get_start by (rewrite app_length, map_length; lia). cbn [bind].
    rewrite Hst. rewrite offs_S by (rewrite app_length, map_length; lia). rewrite nth_rows by auto. auto.
  Qed.

  (** *** Deferral *)
  Definition defer_body (to_idx : nat) (c : nat) (F : Fac O) : res (Fac O * option nat) :=
      '(pos, e) <- cur_pos F c ;;
      if e <? pos then UB
      else
        let n := (e - pos)%nat in
        inds <- set (indices (fm F)) pos to_idx ;;
        inds <- rotate_left n pos inds ;;
        vals <- rotate_left n pos (vals (fm F)) ;;
        j <- get inds pos ;;
        next <- get (flist F) c ;;
        lj <- get (flist F) j ;;
        li <- set (flist F) c lj ;;
        li <- set li j (Some c) ;;
        Ok (mkFac (mkCS (psize (fm F)) (ssize (fm F)) (ind_start (fm F)) inds vals) li (fstart F), next).

  Record MID (ps ss k g : nat) (tr : col -> col) (cols0 : list col) (extra : list row) (pend : list nat) (F : Fac O) (cols : list col) : Prop := mkMID {
    mi_fm : fm F = ofrows ps ss (map whole cols ++ extra);
    mi_k : length cols = k; mi_k0 : length cols0 = k;
    mi_st : length (fstart F) = ps;
    mi_start : forall c, c < k -> nth c (fstart F) 0 = length (fst (nth c cols dcol));
    mi_nd : NoDup pend;
    mi_pend : forall c, In c pend -> c < k /\ hds cols0 c = Some g;
    mi_cols : forall c, c < k -> nth c cols dcol = if in_dec Nat.eq_dec c pend then nth c cols0 dcol else tr (nth c cols0 dcol);
    mi_chain : CH k (S g) ss (flist F) (hds cols) }.

  Lemma hdi_some : forall x r, hdi x = Some r -> exists v t, snd x = (r, v) :: t.
  Proof. intros [a [|[i v] t]] r H; unfold hdi in H; simpl in *; [discriminate|]. inversion H; subst. eauto. Qed.

  Lemma hds_upd : forall cols c x y, c < length cols -> hds (upd cols c x) y = if y =? c then hdi x else hds cols y.
  Proof. intros. unfold hds. rewrite nth_upd by auto. now destruct (y =? c). Qed.

  Lemma defer_step : forall ps ss k g lim cols0 extra pend F cols c,
    k <= ps -> k <= g -> g < lim -> lim < ss ->
    (forall c e, c < k -> In e (snd (nth c cols0 dcol)) -> g <= fst e < lim) ->
    (forall c, c < k -> asc (map fst (snd (nth c cols0 dcol)))) ->
    MID ps ss k g (deferc g lim) cols0 extra (c :: pend) F cols ->
    wp (defer_body lim c F) (fun r => exists cols', MID ps ss k g (deferc g lim) cols0 extra pend (fst r) cols' /\
      snd r = nth c (flist F) None /\ length (flist (fst r)) = length (flist F) /\
      forall h, chain (flist F) h pend -> chain (flist (fst r)) h pend).
  Proof.
    intros ps ss k g lim cols0 extra pend F cols c Hps Hkg Hgl Hls HR HA [mfm mk mk0 mst mstart mnd mpend mcols mchain].
    destruct (mpend c (or_introl eq_refl)) as (Hc & Hg).
    assert (Ec : nth c cols dcol = nth c cols0 dcol).
    { rewrite mcols by auto. destruct (in_dec _ _ _) as [|N]; auto. exfalso. apply N. left; auto. }
    apply hdi_some in Hg. destruct Hg as (v & t & Et). pose proof (proj1 (NoDup_cons_iff _ _) mnd) as (Hnin & Hnd).
    set (dn := fst (nth c cols0 dcol)) in *.
    assert (Ex : nth c cols0 dcol = (dn, (g, v) :: t)). { unfold dn. rewrite <- Et. now destruct (nth c cols0 dcol). }
    set (rows := map whole cols ++ extra) in *.
    assert (Hrl : c < length rows) by (unfold rows; rewrite app_length, map_length, mk; lia).
    assert (Er : nth c rows [] = dn ++ (g, v) :: t). { unfold rows. rewrite nth_rows by lia. rewrite Ec, Ex. auto. }
    pose proof mchain as (Lli & _).
    unfold defer_body. rewrite (cur_pos_l ps ss cols extra F c) by (auto; lia). cbn [bind]. fold rows.
    rewrite Ec, Ex. cbn [fst snd whole]. unfold whole. cbn [fst snd]. rewrite app_length. cbn [length].
    destruct (Nat.ltb_spec (offs rows c + (length dn + S (length t))) (offs rows c + length dn)); [lia|].
    replace (offs rows c + (length dn + S (length t)) - (offs rows c + length dn)) with (S (length t)) by lia.
    rewrite mfm. cbn [ofrows indices vals psize ssize ind_start].
    rewrite (set_row rows c dn g v t lim Hrl Er). cbn [bind].
    set (rows1 := upd rows c (dn ++ (lim, v) :: t)).
    assert (Hr1 : c < length rows1) by (unfold rows1; rewrite upd_length; auto).
    assert (Er1 : nth c rows1 [] = dn ++ (lim, v) :: t) by (unfold rows1; now rewrite nth_upd_eq).
    assert (Off : offs rows c = offs rows1 c).
    { unfold rows1. rewrite offs_upd; auto. rewrite Er, !app_length. reflexivity. }
    rewrite Off. rewrite (rotate_row _ fst rows1 c dn (lim, v) t Hr1 Er1). cbn [bind].
    rewrite <- Off. rewrite (rotate_row _ snd rows c dn (g, v) t Hrl Er). cbn [bind].
    set (x' := (dn, t ++ [(lim, v)]) : col).
    assert (Eu : upd rows1 c (dn ++ t ++ [(lim, v)]) = upd rows c (whole x')).
    { unfold rows1. assert (G : forall X (l : list X) i a b, upd (upd l i a) i b = upd l i b).
      { clear. induction l; destruct i; simpl; intros; auto. now f_equal. } apply G. }
    rewrite Eu.
    assert (Es : map snd (concat (upd rows c (dn ++ t ++ [(g, v)]))) = map snd (concat (upd rows c (whole x')))).
    { rewrite !concat_upd by auto. rewrite !map_app. unfold whole, x'. simpl. rewrite !map_app. reflexivity. }
    rewrite Es.
    set (rows2 := upd rows c (whole x')).
    assert (Hr2 : c < length rows2) by (unfold rows2; rewrite upd_length; auto).
    assert (Er2 : nth c rows2 [] = dn ++ t ++ [(lim, v)]) by (unfold rows2; now rewrite nth_upd_eq).
    assert (Lx : length (whole x') = length (nth c rows [])).
    { unfold whole, x'. simpl. rewrite Er, !app_length. simpl. lia. }
    assert (Off2 : offs rows c = offs rows2 c) by (unfold rows2; now rewrite offs_upd).
    rewrite Off2. rewrite (get_row _ fst rows2 c (length dn) Hr2).
    2:{ rewrite Er2, !app_length. simpl. lia. }
    cbn [bind]. rewrite Er2, app_nth2, Nat.sub_diag by lia.
    set (j := fst (nth 0 (t ++ [(lim, v)]) (0, t0 O))).
    assert (Hj : g < j <= lim).
    { unfold j. destruct t as [|[i w] t']; simpl; [lia|].
      specialize (HA c Hc). rewrite Et in HA. simpl in HA. destruct HA as (HA & _).
      specialize (HR c (i, w) Hc). rewrite Et in HR. specialize (HR ltac:(simpl; auto)). simpl in HR.
      specialize (HA i ltac:(simpl; auto)). lia. }
    rewrite (get_nth _ _ _ None) by lia. cbn [bind].
    rewrite (get_nth _ _ _ None) by lia. cbn [bind].
    rewrite set_ok by lia. cbn [bind]. rewrite set_ok by (rewrite upd_length; lia). cbn [bind].
    apply wp_ok. cbn [fst snd flist].
    assert (Ex' : hdi x' = Some j). { unfold hdi, x', j. simpl. destruct t; simpl; auto. }
    exists (upd cols c x'). split; [|split; [auto|split; [now rewrite !upd_length|]]].
    - split; cbn [fm flist fstart]; auto.
      + unfold ofrows. rewrite <- (upd_rows cols extra c x') by lia. fold rows. fold rows2.
        rewrite <- (starts_upd rows c (whole x') Hrl Lx). reflexivity.
      + now rewrite upd_length.
      + intros y Hy. rewrite nth_upd by lia. destruct (Nat.eqb_spec y c) as [->|Hn]; [|apply mstart; auto].
        rewrite mstart by auto. rewrite Ec, Ex. reflexivity.
      + intros y Hy. apply mpend. right; auto.
      + intros y Hy. rewrite nth_upd by lia. destruct (Nat.eqb_spec y c) as [->|Hn].
        * destruct (in_dec _ _ _); [contradiction|]. rewrite Ex. unfold deferc, x'. cbn [fst snd]. now rewrite Nat.eqb_refl.
        * rewrite mcols by auto. destruct (in_dec Nat.eq_dec y (c :: pend)) as [I|I], (in_dec Nat.eq_dec y pend) as [J|J]; auto.
          -- destruct I; [congruence|contradiction].
          -- exfalso. apply I. right; auto.
      + eapply CH_ext; [|apply (CH_link k (S g) ss (flist F) (hds cols) c j); auto; try lia].
        * intros y Hy. cbv beta. rewrite hds_upd by lia. destruct (y =? c); auto.
        * intros r Hr. unfold hds in Hr. rewrite Ec, Ex in Hr. unfold hdi in Hr. simpl in Hr. inversion Hr. lia.
    - intros h Ch. apply (chain_frame (flist F)); auto. { now rewrite !upd_length. }
      intros y Hy. assert (y < k) by (apply mpend; right; auto).
      rewrite nth_upd_neq by lia. apply nth_upd_neq. intros ->. contradiction.
  Qed.

  Lemma defer_walk : forall ps ss k g lim cols0 extra,
    k <= ps -> k <= g -> g < lim -> lim < ss ->
    (forall c e, c < k -> In e (snd (nth c cols0 dcol)) -> g <= fst e < lim) ->
    (forall c, c < k -> asc (map fst (snd (nth c cols0 dcol)))) ->
    forall pend fuel F cols h, length pend < fuel ->
    MID ps ss k g (deferc g lim) cols0 extra pend F cols -> chain (flist F) h pend ->
    wp (while_chain fuel (defer_body lim) h F) (fun F' => exists cols', MID ps ss k g (deferc g lim) cols0 extra [] F' cols').
  Proof.
    intros ps ss k g lim cols0 extra Hps Hkg Hgl Hls HR HA. induction pend; intros fuel F cols h Hf HM HC.
    - inversion HC; subst. destruct fuel; [simpl in Hf; lia|]. apply wp_ok. exists cols. auto.
    - inversion HC; subst. destruct fuel; [simpl in Hf; lia|]. cbn [while_chain]. apply wp_bind.
      eapply wp_conseq. { exact (defer_step ps ss k g lim cols0 extra pend F cols _ Hps Hkg Hgl Hls HR HA HM). }
      intros [F' nx] (cols' & M' & E1 & E2 & E3). cbn [fst snd] in *. subst nx.
      eapply IHpend; eauto. simpl in Hf. lia.
  Qed.

  Lemma CH_fuel : forall k lo ss li hd l, CH k lo ss li hd -> k <= ss -> NoDup l -> (forall c, In c l -> c < k) -> length l < S (length li).
  Proof.
    intros k lo ss li hd l (L & _) Hk ND H. pose proof (bounded_nodup_length k l ND H). lia.
  Qed.

  Lemma nth_ext_d : forall X (l l' : list X) d, length l = length l' -> (forall i, i < length l -> nth i l d = nth i l' d) -> l = l'.
  Proof. intros. apply (nth_ext l l' d d); auto. Qed.

  Lemma defer_l : forall ps ss k g lim F cols, Rep ps ss k g lim [] F cols -> k < ps -> g < lim -> lim < ss ->
    wp (defer_entry lim k g F) (fun F' => Rep ps ss k (S g) (S lim) [] F' (map (deferc g lim) cols)).
  Proof.
    intros ps ss k g lim F cols [rfm rk rst rkps rklo rlim rstart rtail rdone rchain] Hk Hgl Hls.
    pose proof rchain as (Lli & CC). destruct (CC g ltac:(lia)) as (l & Cl & Nl & Il).
    unfold defer_entry. wpb. apply wp_get with (d := None); [lia|]. wpb. fold (defer_body lim).
    eapply wp_conseq.
    { eapply (defer_walk ps ss k g lim cols []) with (pend := l) (cols := cols); auto.
      - intros c e Hc He. exact (proj2 (rtail c Hc) e He).
      - intros c Hc. exact (proj1 (rtail c Hc)).
      - apply (CH_fuel k g ss (flist F) (hds cols)); auto; try lia. intros c Hc. apply Il in Hc. tauto.
      - split; auto.
        + intros c Hc. apply Il in Hc. tauto.
        + intros c Hc. destruct (in_dec _ _ _) as [I|I]; auto. unfold deferc.
          destruct (snd (nth c cols dcol)) as [|[i v] t] eqn:E; auto.
          destruct (Nat.eqb_spec i g) as [->|]; auto. exfalso. apply I. apply Il. split; auto.
          unfold hds, hdi. now rewrite E.
        + apply (CH_lo k g); auto. }
    intros F' (cols' & [mfm mk mk0 mst mstart mnd mpend mcols mchain]).
    assert (EC : cols' = map (deferc g lim) cols).
    { apply (nth_ext_d _ _ _ dcol). { rewrite map_length. lia. }
      intros c Hc. rewrite mcols by lia. destruct (in_dec _ _ _) as [[]|_].
      rewrite (nth_indep (map (deferc g lim) cols) dcol (deferc g lim dcol)) by (rewrite map_length; lia). now rewrite map_nth. }
    clear mcols. subst cols'.
    assert (NM : forall c, c < k -> nth c (map (deferc g lim) cols) dcol = deferc g lim (nth c cols dcol)).
    { intros c Hc. rewrite (nth_indep _ dcol (deferc g lim dcol)) by (rewrite map_length; lia). now rewrite map_nth. }
    pose proof mchain as (Lli' & _).
    wpb. apply wp_set; [lia|]. apply wp_ok. split; cbn [fm flist fstart]; auto; try lia.
    - intros c Hc. rewrite NM by auto. destruct (rtail c Hc) as (R1 & R2).
      unfold deferc. destruct (snd (nth c cols dcol)) as [|[i v] t] eqn:E.
      + rewrite E. split; simpl; auto. intros e [].
      + simpl in R1. destruct R1 as (R0 & R1). destruct (Nat.eqb_spec i g) as [->|Hn].
        * cbn [snd]. rewrite map_app. split.
          -- apply asc_app. split; [auto|]. split; [simpl; split; auto; intros y []|].
             intros x y Hx Hy. simpl in Hy. destruct Hy as [<-|[]].
             apply in_map_iff in Hx. destruct Hx as (e & <- & He). specialize (R2 e (or_intror He)). lia.
          -- intros e He. apply in_app_or in He. destruct He as [He|[<-|[]]]; [|simpl; lia].
             specialize (R2 e (or_intror He)). specialize (R0 (fst e) (in_map fst _ _ He)). lia.
        * rewrite E. split; [simpl; auto|]. intros e He. specialize (R2 e He).
          assert (g < i). { specialize (R2). pose proof (proj2 (rtail c Hc) (i, v)) as Q. rewrite E in Q. specialize (Q (or_introl eq_refl)). simpl in Q. lia. }
          destruct He as [<-|He]; [simpl in *; lia|]. specialize (R0 (fst e) (in_map fst _ _ He)). lia.
    - intros c Hc. rewrite NM by auto. destruct (rdone c Hc) as (R1 & R2). unfold deferc.
      destruct (snd (nth c cols dcol)) as [|[i v] t]; auto. destruct (i =? g); auto.
    - apply CH_low; auto. lia.
  Qed.
End R.
