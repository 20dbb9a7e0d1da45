(** * StaleProofs: results do not depend on stale buffer contents.
    Relational proofs; no algebraic law of the scalars is used. *)
From Coq Require Import List Arith Lia Bool.
From Verif Require Import Base Scalar Spec CSModel CSSpec CSProofs MrhsProofs PrecModel PrecSpec PrecProofs.
Import ListNotations.

Section ST.
  Variable O : Ops.
  Notation T := (T O).
  Notation "0" := (t0 O).

  (** Arrays of the given lengths with the same entries on the index set [S]. *)
  Definition ag (S : nat -> Prop) (nl nr : nat) (l r : list T) : Prop :=
    length l = nl /\ length r = nr /\ forall i, S i -> nth i l 0 = nth i r 0.

  Definition below (n : nat) : nat -> Prop := fun i => i < n.
  Definition within (lo hi : nat) : nat -> Prop := fun i => lo <= i < hi.
  Definition join (S S' : nat -> Prop) : nat -> Prop := fun i => S i \/ S' i.

  Lemma ag_weaken : forall (S S' : nat -> Prop) nl nr l r,
    ag S nl nr l r -> (forall i, S' i -> S i) -> ag S' nl nr l r.
  Proof. intros S S' nl nr l r (H1 & H2 & H3) H. split; auto. Qed.

  Lemma rwp_conseq : forall A B (m1 : res A) (m2 : res B) (R Q : A -> B -> Prop),
    rwp m1 m2 R -> (forall a b, R a b -> Q a b) -> rwp m1 m2 Q.
  Proof. intros A B m1 m2 R Q (a & b & H1 & H2 & H3) H. exists a, b. auto. Qed.

  Lemma rwp_for_n_idx : forall S1 S2 (R : nat -> S1 -> S2 -> Prop) n lo f g s1 s2,
    R lo s1 s2 ->
    (forall i a b, lo <= i < lo + n -> R i a b -> rwp (f i a) (g i b) (R (S i))) ->
    rwp (for_n lo n f s1) (for_n lo n g s2) (R (lo + n)).
  Proof.
    induction n; intros lo f g s1 s2 H0 Hs; simpl.
    - rewrite Nat.add_0_r. now apply rwp_ok.
    - eapply rwp_bind. apply Hs; [lia|exact H0].
      intros a b Hab. replace (lo + S n) with (S lo + n) by lia. apply IHn; auto. intros; apply Hs; auto; lia.
  Qed.
  Lemma rwp_for_range_idx : forall S1 S2 (R : nat -> S1 -> S2 -> Prop) lo hi f g s1 s2,
    lo <= hi -> R lo s1 s2 ->
    (forall i a b, lo <= i < hi -> R i a b -> rwp (f i a) (g i b) (R (S i))) ->
    rwp (for_range lo hi f s1) (for_range lo hi g s2) (R hi).
  Proof.
    intros. unfold for_range. replace hi with (lo + (hi - lo)) at 3 by lia.
    apply rwp_for_n_idx; auto. intros; apply H1; auto; lia.
  Qed.

  Lemma rwp_get : forall (S : nat -> Prop) nl nr (l r : list T) i, ag S nl nr l r -> S i -> i < nl -> i < nr ->
    rwp (get l i) (get r i) eq.
  Proof.
    intros S nl nr l r i (L1 & L2 & H) Hi Hl Hr. exists (nth i l 0), (nth i r 0).
    rewrite !(get_nth _ _ _ 0) by lia. auto.
  Qed.
  Lemma rwp_get_any : forall (S : nat -> Prop) nl nr (l r : list T) i, ag S nl nr l r -> i < nl -> i < nr ->
    rwp (get l i) (get r i) (fun a b => S i -> a = b).
  Proof.
    intros S nl nr l r i (L1 & L2 & H) Hl Hr. exists (nth i l 0), (nth i r 0).
    rewrite !(get_nth _ _ _ 0) by lia. auto.
  Qed.
  Lemma rwp_set : forall (S : nat -> Prop) nl nr (l r : list T) i a, ag S nl nr l r -> i < nl -> i < nr ->
    rwp (set l i a) (set r i a) (ag (join S (fun k => k = i)) nl nr).
  Proof.
    intros S nl nr l r i a (L1 & L2 & H) Hl Hr. exists (upd l i a), (upd r i a).
    rewrite !set_ok by lia. split; auto. split; auto. split; [now rewrite upd_length|].
    split; [now rewrite upd_length|]. intros k Hk. rewrite !nth_upd by lia.
    destruct (Nat.eqb_spec k i); auto. apply H. destruct Hk; auto. contradiction.
  Qed.
  Lemma rwp_set_keep : forall (S : nat -> Prop) nl nr (l r : list T) i a, ag S nl nr l r -> i < nl -> i < nr ->
    rwp (set l i a) (set r i a) (ag S nl nr).
  Proof.
    intros. eapply rwp_conseq. { eapply rwp_set; eauto. }
    intros. eapply ag_weaken; eauto. intros; left; auto.
  Qed.

  Lemma rwp_upd_range : forall S nl nr lo hi g g' l r,
    ag S nl nr l r -> hi <= nl -> hi <= nr ->
    (forall i a b, lo <= i < hi -> (S i -> a = b) -> rwp (g i a) (g' i b) eq) ->
    rwp (upd_range O lo hi g l) (upd_range O lo hi g' r) (ag (join S (within lo hi)) nl nr).
  Proof.
    intros S nl nr lo hi g g' l r HA Hl Hr Hg. unfold upd_range.
    destruct (le_lt_dec lo hi) as [Hlh|Hlh].
    - eapply rwp_conseq.
      + apply (rwp_for_range_idx _ _ (fun k => ag (join S (within lo k)) nl nr)); auto.
        * eapply ag_weaken; eauto. intros i [H|H]; auto. red in H; lia.
        * intros i a b Hi Hab. eapply rwp_bind.
          { eapply (rwp_get_any _ _ _ a b); eauto; lia. }
          intros x y Hxy. eapply rwp_bind. { apply Hg; auto. intros. apply Hxy. now left. }
          intros v w E. subst w. eapply rwp_conseq. { eapply rwp_set; eauto; lia. }
          intros l1 r1 H1. eapply ag_weaken; eauto. intros k [H|H].
          -- left; left; auto.
          -- red in H. destruct (Nat.eq_dec k i); [right; auto|]. left; right. red. lia.
      + intros; auto.
    - unfold for_range. replace (hi - lo) with Datatypes.O by lia. simpl. apply rwp_ok.
      eapply ag_weaken; eauto. intros i [H|H]; auto. red in H; lia.
  Qed.

  Lemma rwp_copy_range : forall (S S' : nat -> Prop) nsl nsr nl nr (sl sr : list T) so cnt l r d,
    ag S nsl nsr sl sr -> ag S' nl nr l r ->
    so + cnt <= nsl -> so + cnt <= nsr -> d + cnt <= nl -> d + cnt <= nr ->
    (forall i, i < cnt -> S (so + i)) ->
    rwp (copy_range O sl so cnt l d) (copy_range O sr so cnt r d) (ag (join S' (within d (d + cnt))) nl nr).
  Proof.
    intros S S' nsl nsr nl nr sl sr so cnt l r d HA HB H1 H2 H3 H4 HS. unfold copy_range.
    eapply rwp_conseq.
    - apply (rwp_for_range_idx _ _ (fun k => ag (join S' (within d (d + k))) nl nr)); [lia| |].
      + eapply ag_weaken; eauto. intros i [H|H]; auto. red in H; lia.
      + intros i a b Hi Hab. eapply rwp_bind.
        { eapply (rwp_get _ _ _ sl sr (so + i)); eauto; try lia. apply HS; lia. }
        intros x y E. subst y. eapply rwp_conseq. { eapply rwp_set; eauto; lia. }
        intros l1 r1 Hlr. eapply ag_weaken; eauto. intros k [H|H].
        * left; left; auto.
        * red in H. destruct (Nat.eq_dec k (d + i)); [right; auto|]. left; right. red. lia.
    - intros; auto.
  Qed.

  Lemma rwp_fill : forall S nl nr l r cnt v, ag S nl nr l r -> cnt <= nl -> cnt <= nr ->
    rwp (fill_n l cnt v) (fill_n r cnt v) (ag (join S (below cnt)) nl nr).
  Proof.
    intros S nl nr l r cnt v (L1 & L2 & H) Hl Hr. unfold fill_n.
    destruct (Nat.leb_spec cnt (length l)); [|lia]. destruct (Nat.leb_spec cnt (length r)); [|lia].
    apply rwp_ok. split; [rewrite app_length, repeat_length, skipn_length; lia|].
    split; [rewrite app_length, repeat_length, skipn_length; lia|].
    intros i Hi. destruct (le_lt_dec cnt i).
    - rewrite !app_nth2 by (rewrite repeat_length; lia). rewrite repeat_length, !nth_skipn'.
      replace (cnt + (i - cnt)) with i by lia. apply H. destruct Hi as [Hi|Hi]; auto. red in Hi; lia.
    - rewrite !app_nth1 by (rewrite repeat_length; lia). now rewrite !nth_repeat_any.
  Qed.

  Lemma rwp_nt_low : forall S nxl nxr nl nr (A : CS O) x x' y y', wf A ->
    ag (below (psize A)) nxl nxr x x' -> psize A <= nxl -> psize A <= nxr ->
    ag S nl nr y y' -> ssize A <= nl -> ssize A <= nr ->
    rwp (ccs_multiply_nt_low O A x y) (ccs_multiply_nt_low O A x' y') (ag (join S (below (ssize A))) nl nr).
  Proof.
    intros S nxl nxr nl nr A x x' y y' W HX H1 H2 HY H3 H4. unfold ccs_multiply_nt_low.
    eapply rwp_bind. { eapply rwp_fill; eauto. }
    intros y1 y1' HY1. destruct (psize A =? 0); [now apply rwp_ok|].
    apply rwp_for_range; auto. intros i a b Hi Hab.
    eapply rwp_bind. { eapply (rwp_get _ _ _ x x' i); eauto; try lia. red; lia. }
    intros u u' E. subst u'. apply rwp_row_iter; auto; [lia|].
    intros j v l r Hj Hlr. eapply rwp_bind.
    { eapply (rwp_get _ _ _ l r j); eauto; try lia. right; red; lia. }
    intros w w' E. subst w'. eapply rwp_set_keep; eauto; lia.
  Qed.

  Lemma rwp_t_low : forall S nxl nxr nl nr (A : CS O) x x' y y', wf A ->
    ag (below (ssize A)) nxl nxr x x' -> ssize A <= nxl -> ssize A <= nxr ->
    ag S nl nr y y' -> psize A <= nl -> psize A <= nr ->
    rwp (ccs_multiply_t_low O A x y) (ccs_multiply_t_low O A x' y') (ag (join S (below (psize A))) nl nr).
  Proof.
    intros S nxl nxr nl nr A x x' y y' W HX H1 H2 HY H3 H4. unfold ccs_multiply_t_low.
    eapply rwp_conseq.
    - apply (rwp_for_range_idx _ _ (fun k => ag (join S (below k)) nl nr)); [lia| |].
      + eapply ag_weaken; eauto. intros i [H|H]; auto. red in H; lia.
      + intros i a b Hi Hab. eapply rwp_bind.
        { apply (rwp_row_iter O _ _ eq); auto; [lia|].
          intros j v u u' Hj E. subst u'. eapply rwp_bind.
          { eapply (rwp_get _ _ _ x x' j); eauto; try lia. }
          intros w w' E. subst w'. now apply rwp_ok. }
        intros u u' E. subst u'. eapply rwp_conseq. { eapply rwp_set; eauto; lia. }
        intros l1 r1 Hlr. eapply ag_weaken; eauto. intros k [H|H].
        * left; left; auto.
        * red in H. destruct (Nat.eq_dec k i); [right; auto|]. left; right. red. lia.
    - intros; auto.
  Qed.

  Section Solves.
    Variables (S : nat -> Prop) (nl nr n : nat) (A : CS O).
    Hypotheses (W : wf A) (Hp : psize A = n) (Hs : ssize A = n)
      (HS : forall i, i < n -> S i) (Hl : n <= nl) (Hr : n <= nr).

    Lemma rwp_gsolve_row : forall h j y y', j < n -> ag S nl nr y y' ->
      rwp (gsolve_row O h A j y) (gsolve_row O h A j y') (ag S nl nr).
    Proof.
      intros h j y y' Hj HY. unfold gsolve_row. eapply rwp_bind.
      { apply (rwp_row_iter O _ _ eq); auto; [lia|]. intros k v u u' Hk E. subst u'. eapply rwp_bind.
        { eapply (rwp_get _ _ _ y y' k); eauto; try lia. apply HS; lia. }
        intros w w' E. subst w'. now apply rwp_ok. }
      intros u u' E. subst u'. eapply rwp_bind.
      { eapply (rwp_get _ _ _ y y' j); eauto; lia. }
      intros w w' E. subst w'. eapply rwp_set_keep; eauto; lia.
    Qed.
    Lemma rwp_ssolve_col : forall h j y y', j < n -> ag S nl nr y y' ->
      rwp (ssolve_col O h A j y) (ssolve_col O h A j y') (ag S nl nr).
    Proof.
      intros h j y y' Hj HY. unfold ssolve_col. eapply rwp_bind.
      { eapply (rwp_get _ _ _ y y' j); eauto; lia. }
      intros w w' E. subst w'. apply rwp_row_iter; auto; [lia|].
      intros k v l r Hk Hlr. eapply rwp_bind.
      { eapply (rwp_get _ _ _ l r k); eauto; try lia. apply HS; lia. }
      intros x x' E. subst x'. eapply rwp_set_keep; eauto; lia.
    Qed.
    Lemma rwp_ssolve_col_rev : forall h j y y', j < n -> ag S nl nr y y' ->
      rwp (ssolve_col_rev O h A j y) (ssolve_col_rev O h A j y') (ag S nl nr).
    Proof.
      intros h j y y' Hj HY. unfold ssolve_col_rev. eapply rwp_bind.
      { eapply (rwp_get _ _ _ y y' j); eauto; lia. }
      intros w w' E. subst w'. apply rwp_row_iter_rev; auto; [lia|].
      intros k v l r Hk Hlr. eapply rwp_bind.
      { eapply (rwp_get _ _ _ l r k); eauto; try lia. apply HS; lia. }
      intros x x' E. subst x'. eapply rwp_set_keep; eauto; lia.
    Qed.
    Lemma rwp_lower : forall y y', ag S nl nr y y' ->
      rwp (ccs_solve_strict_lower O A y) (ccs_solve_strict_lower O A y') (ag S nl nr).
    Proof.
      intros. unfold ccs_solve_strict_lower. apply rwp_for_range; auto.
      intros. apply rwp_ssolve_col; auto; lia.
    Qed.
    Lemma rwp_upper_tran : forall y y', ag S nl nr y y' ->
      rwp (ccs_solve_strict_upper_tran O A y) (ccs_solve_strict_upper_tran O A y') (ag S nl nr).
    Proof.
      intros. unfold ccs_solve_strict_upper_tran. apply rwp_for_range; auto.
      intros. apply rwp_gsolve_row; auto; lia.
    Qed.
    Lemma rwp_lower_tran : forall y y', n <> 0%nat -> ag S nl nr y y' ->
      rwp (ccs_solve_strict_lower_tran O A y) (ccs_solve_strict_lower_tran O A y') (ag S nl nr).
    Proof.
      intros. unfold ccs_solve_strict_lower_tran, down_pred. assert (K : exists k, ssize A = Datatypes.S k) by (exists (pred n); lia).
      destruct K as [k K]. rewrite K.
      apply rwp_for_down; auto. intros. apply rwp_gsolve_row; auto; lia.
    Qed.
    Lemma rwp_upper : forall y y', n <> 0%nat -> ag S nl nr y y' ->
      rwp (ccs_solve_strict_upper O A y) (ccs_solve_strict_upper O A y') (ag S nl nr).
    Proof.
      intros. unfold ccs_solve_strict_upper, down_from. assert (K : exists k, psize A = Datatypes.S k) by (exists (pred n); lia).
      destruct K as [k K]. rewrite K.
      apply rwp_for_down; auto. intros. apply rwp_ssolve_col_rev; auto; lia.
    Qed.
  End Solves.

  (** ** Sub-arrays *)
  Lemma ag_eq : forall n l r, ag (below n) n n l r -> l = r.
  Proof. intros n l r (L1 & L2 & H). apply (list_ext _ l r 0); [lia|]. intros. apply H. red. lia. Qed.

  Lemma ag_skipn : forall S nl nr l r off, ag S nl nr l r ->
    ag (fun i => S (off + i)) (nl - off) (nr - off) (skipn off l) (skipn off r).
  Proof.
    intros S nl nr l r off (L1 & L2 & H). split; [rewrite skipn_length; lia|].
    split; [rewrite skipn_length; lia|]. intros i Hi. rewrite !nth_skipn'. auto.
  Qed.
  Lemma slice_eq : forall (S : nat -> Prop) nl nr (l r : list T) off len, ag S nl nr l r -> off + len <= nl -> off + len <= nr ->
    (forall i, off <= i < off + len -> S i) -> slice off len l = slice off len r.
  Proof.
    intros S nl nr l r off len (L1 & L2 & H) H1 H2 HS. apply (list_ext _ _ _ 0).
    - rewrite !slice_length by lia. auto.
    - intros i Hi. rewrite slice_length in Hi by lia. rewrite !nth_slice by auto. apply H, HS. lia.
  Qed.

  Lemma nth_splice : forall off len (l r : list T) i, off + len <= length l -> length r = len ->
    nth i (firstn off l ++ r ++ skipn (off + len) l) 0
    = if (off <=? i) && (i <? off + len) then nth (i - off) r 0 else nth i l 0.
  Proof.
    intros off len l r i H Lr.
    assert (LF : length (firstn off l) = off) by (rewrite firstn_length; lia).
    destruct (Nat.leb_spec off i).
    - rewrite app_nth2 by lia. rewrite LF. destruct (Nat.ltb_spec i (off + len)); simpl.
      + rewrite app_nth1 by lia. auto.
      + rewrite app_nth2 by lia. rewrite nth_skipn'. f_equal. lia.
    - simpl. rewrite app_nth1 by lia. now apply nth_firstn_lt.
  Qed.
  Lemma ag_splice : forall S nl nr l r z off len, ag S nl nr l r -> off + len <= nl -> off + len <= nr ->
    length z = len ->
    ag (join S (within off (off + len))) nl nr
       (firstn off l ++ z ++ skipn (off + len) l) (firstn off r ++ z ++ skipn (off + len) r).
  Proof.
    intros S nl nr l r z off len (L1 & L2 & H) H1 H2 Lz.
    split; [rewrite !app_length, firstn_length, skipn_length; lia|].
    split; [rewrite !app_length, firstn_length, skipn_length; lia|].
    intros i Hi. rewrite !nth_splice by lia.
    destruct (Nat.leb_spec off i), (Nat.ltb_spec i (off + len)); simpl; auto;
      apply H; destruct Hi as [Hi|Hi]; auto; red in Hi; lia.
  Qed.
  Lemma ag_head_app : forall S nl nr l r wl wr n, ag S nl nr l r -> n <= nl -> n <= nr ->
    length wl = nl - n -> length wr = nr - n ->
    ag (fun i => S i /\ i < n) nl nr (firstn n l ++ wl) (firstn n r ++ wr).
  Proof.
    intros S nl nr l r wl wr n (L1 & L2 & H) H1 H2 Ll Lr.
    split; [rewrite app_length, firstn_length; lia|].
    split; [rewrite app_length, firstn_length; lia|].
    intros i [Hi Hn]. rewrite !app_nth1 by (rewrite firstn_length; lia).
    rewrite !nth_firstn_lt by auto. auto.
  Qed.
  Lemma rwp_on_tail : forall S S2 nl nr l r off f f', ag S nl nr l r -> off <= nl -> off <= nr ->
    rwp (f (skipn off l)) (f' (skipn off r)) (ag S2 (nl - off) (nr - off)) ->
    rwp (on_tail O off l f) (on_tail O off r f')
        (ag (fun i => (i < off /\ S i) \/ (off <= i /\ S2 (i - off))) nl nr).
  Proof.
    intros S S2 nl nr l r off f f' (L1 & L2 & H) H1 H2 Hf. unfold on_tail.
    destruct (Nat.leb_spec off (length l)); [|lia]. destruct (Nat.leb_spec off (length r)); [|lia].
    eapply rwp_bind; [exact Hf|]. intros a b (La & Lb & Hab). apply rwp_ok.
    split; [rewrite app_length, firstn_length; lia|]. split; [rewrite app_length, firstn_length; lia|].
    intros i [[Hi Hs]|[Hi Hs]].
    - rewrite !app_nth1 by (rewrite firstn_length; lia). rewrite !nth_firstn_lt by auto. auto.
    - rewrite !app_nth2 by (rewrite firstn_length; lia). rewrite !firstn_length.
      rewrite !Nat.min_l by lia. auto.
  Qed.
  Lemma rwp_on_sub : forall (S : nat -> Prop) nl nr l r off len f, ag S nl nr l r -> off + len <= nl -> off + len <= nr ->
    (forall i, off <= i < off + len -> S i) ->
    (forall y, length y = len -> exists z, f y = Ok z /\ length z = len) ->
    rwp (on_sub O off len l f) (on_sub O off len r f) (ag (join S (within off (off + len))) nl nr).
  Proof.
    intros S nl nr l r off len f HA H1 H2 HS Hf. assert (HA' := HA). destruct HA as (L1 & L2 & H). unfold on_sub.
    destruct (Nat.leb_spec (off + len) (length l)); [|lia]. destruct (Nat.leb_spec (off + len) (length r)); [|lia].
    rewrite (slice_eq S nl nr l r off len); auto.
    destruct (Hf (slice off len r)) as (z & E & Lz). { apply slice_length. lia. }
    rewrite E. simpl. apply rwp_ok. now apply ag_splice.
  Qed.

  Section Level.
    Variable P : Prec O.
    Hypothesis LS : level_shape P.

    Lemma rwp_ldu : forall (S : nat -> Prop) nl nr y y', (forall i, i < pm P -> S i) -> pm P <= nl -> pm P <= nr -> ag S nl nr y y' ->
      rwp (prec_solve_ldu O (pU P) (pd P) (pL P) y) (prec_solve_ldu O (pU P) (pd P) (pL P) y') (ag S nl nr).
    Proof.
      intros S nl nr y y' HS Hl Hr HY. destruct (ls_L O P LS) as (WL & L1 & L2).
      destruct (ls_U O P LS) as (WU & U1 & U2). assert (Ld := ls_d O P LS).
      unfold prec_solve_ldu. rewrite U2. destruct (Nat.eqb_spec (pm P) 0) as [Z|Z]; [now apply rwp_ok|].
      eapply rwp_bind. { apply (rwp_lower S nl nr (pm P)); auto. }
      intros y1 y1' H1. eapply rwp_bind.
      { eapply (rwp_upd_range S nl nr 0 (pm P)); eauto. intros i a b Hi Hab.
        rewrite (get_nth _ (pd P) i 0) by lia. simpl. rewrite Hab by (apply HS; lia). now apply rwp_ok. }
      intros y2 y2' H2. apply (rwp_upper S nl nr (pm P)); auto. eapply ag_weaken; eauto. intros; left; auto.
    Qed.
    Lemma rwp_utdlt : forall (S : nat -> Prop) nl nr y y', (forall i, i < pm P -> S i) -> pm P <= nl -> pm P <= nr -> ag S nl nr y y' ->
      rwp (prec_solve_utdlt O (pU P) (pd P) (pL P) y) (prec_solve_utdlt O (pU P) (pd P) (pL P) y') (ag S nl nr).
    Proof.
      intros S nl nr y y' HS Hl Hr HY. destruct (ls_L O P LS) as (WL & L1 & L2).
      destruct (ls_U O P LS) as (WU & U1 & U2). assert (Ld := ls_d O P LS).
      unfold prec_solve_utdlt. rewrite U2. destruct (Nat.eqb_spec (pm P) 0) as [Z|Z]; [now apply rwp_ok|].
      eapply rwp_bind. { apply (rwp_upper_tran S nl nr (pm P)); auto. }
      intros y1 y1' H1. eapply rwp_bind.
      { eapply (rwp_upd_range S nl nr 0 (pm P)); eauto. intros i a b Hi Hab.
        rewrite (get_nth _ (pd P) i 0) by lia. simpl. rewrite Hab by (apply HS; lia). now apply rwp_ok. }
      intros y2 y2' H2. apply (rwp_lower_tran S nl nr (pm P)); auto. eapply ag_weaken; eauto. intros; left; auto.
    Qed.

    Lemma rwp_sc : forall s p pi b i, i < pn P -> is_inv (pn P) p pi -> pn P <= length s -> pn P <= length b ->
      exists v, sc_perm O s p b i = Ok v.
    Proof.
      intros s p pi b i Hi (Lp & _ & H & _) Ls Lb. destruct (H i Hi). unfold sc_perm.
      rewrite (get_nth _ p i Datatypes.O) by lia. simpl. rewrite !(get_nth _ _ _ 0) by lia. simpl. eauto.
    Qed.
    Lemma rwp_unsc : forall s p pi b i, i < pn P -> is_inv (pn P) p pi -> pn P <= length s -> pn P <= length b ->
      exists v, unsc_perm O s p b i = Ok v.
    Proof.
      intros s p pi b i Hi (Lp & _ & H & _) Ls Lb. destruct (H i Hi). unfold unsc_perm.
      rewrite (get_nth _ p i Datatypes.O) by lia. simpl. rewrite !(get_nth _ _ _ 0) by lia. simpl. eauto.
    Qed.
  End Level.

  (** Same results from any two states of the output and work buffers. *)
  Definition same_result (n : nat) (w w' : list T) (r r' : list T * list T) : Prop :=
    fst r = fst r' /\ length (fst r) = n /\ length (snd r) = length w /\ length (snd r') = length w'.

  Lemma prec_solve_stale : forall precs n ld b y y' work work',
    hier_shape (fun P => dense_solve O P ld false) precs n ->
    length b = n -> length y = n -> length y' = n ->
    compute_prec_work_space O precs <= length work ->
    compute_prec_work_space O precs <= length work' ->
    rwp (prec_solve O precs b ld y work) (prec_solve O precs b ld y' work') (same_result n work work').
  Proof.
    induction precs as [|P rest IH]; intros n ld b y y' work work' HO Lb Ly Ly' Lw Lw'; [contradiction|].
    destruct HO as (LS & En & HT). rewrite cws_cons in Lw, Lw'. cbn [prec_solve].
    assert (Hm := ls_m O P LS). assert (FC := ls_Fc O P LS). rewrite FC.
    assert (SC : forall i, i < pn P -> exists v, sc_perm O (ps P) (pp P) b i = Ok v).
    { intros. eapply (rwp_sc P); eauto. apply (ls_p O P LS). apply (ls_s O P LS). lia. }
    set (m := pm P) in *. set (nm := pn P - m) in *. subst n. set (n := pn P) in *.
    set (nl := length work) in *. set (nr := length work') in *.
    assert (HW : ag (fun _ => False) nl nr work work') by (split; auto; split; auto; intros ? []).
    assert (HY : ag (fun _ => False) n n y y') by (split; auto; split; auto; intros ? []).
    eapply rwp_bind.
    { eapply (rwp_upd_range _ _ _ 0 m); [exact HW|lia|lia|]. intros i a c Hi _.
      destruct (SC i ltac:(lia)) as [v ->]. now apply rwp_ok. }
    intros work1 work1' HW1.
    (* first elimination *)
    eapply rwp_bind with (R := fun r r' => ag (within m n) n n (fst r) (fst r') /\
      ag (if Nat.eqb nm 0 then below m else fun _ => False) nl nr (snd r) (snd r')).
    { destruct (Nat.eqb_spec nm 0) as [Z|Z]; cbn [negb].
      - apply rwp_ok. simpl. split.
        + eapply ag_weaken; eauto. intros i Hi. red in Hi. lia.
        + eapply ag_weaken; eauto. intros i Hi. right. red in Hi |- *. lia.
      - destruct (ls_E O P LS) as (WE1 & E1 & E2); [fold n m; lia|]. fold n m nm in E1, E2.
        eapply rwp_bind.
        { eapply (rwp_ldu P LS); [| | |exact HW1]; try lia. intros i Hi. right. red; unfold m; lia. }
        intros work2 work2' HW2.
        eapply rwp_bind.
        { eapply rwp_on_tail; [exact HY|lia|lia|].
          eapply rwp_nt_low; [exact WE1| | | |apply ag_skipn; exact HY| |]; try (fold n m; lia).
          - eapply ag_weaken; [exact HW2|]. intros i Hi. right. red in Hi |- *. lia.
          - lia.
          - lia. }
        intros y1 y1' HY1. eapply rwp_bind.
        { eapply (rwp_upd_range _ _ _ m n); [exact HY1|lia|lia|]. intros i a c Hi Hac.
          destruct (SC i ltac:(lia)) as [v ->]. simpl. rewrite Hac; [now apply rwp_ok|].
          right. split; [lia|]. right. red. lia. }
        intros y2 y2' HY2. apply rwp_ok. simpl. split.
        + eapply ag_weaken; [exact HY2|]. intros i Hi. right. exact Hi.
        + eapply ag_weaken; [exact HW2|]. intros i []. }
    intros [y1 w2] [y1' w2'] [HY1 HW2]. simpl in HY1, HW2.
    (* Schur complement *)
    eapply rwp_bind with (R := fun r r' => ag (within m n) n n (fst r) (fst r') /\
      ag (if Nat.eqb nm 0 then below m else fun _ => False) nl nr (snd r) (snd r')).
    { destruct (is_last_level O P) eqn:LL.
      - destruct (Nat.eqb_spec nm 0) as [Z|Z]; cbn [negb].
        + apply rwp_ok. simpl. split; auto.
        + eapply rwp_bind.
          { eapply (rwp_on_sub _ n n y1 y1' m nm (dense_solve O P ld false)); [exact HY1|lia|lia| |].
            - intros i Hi. red. lia.
            - intros u Lu. apply HT; auto. fold m n; lia. }
          intros y2 y2' HY2. apply rwp_ok. simpl. split; auto.
          eapply ag_weaken; [exact HY2|]. intros i Hi. left. exact Hi.
      - assert (Z : nm <> 0%nat).
        { intro Z. unfold is_last_level in LL. destruct (pdense P), (psymm P); try discriminate.
          apply Nat.eqb_neq in LL. fold m n in LL. lia. }
        eapply rwp_bind.
        { eapply (rwp_copy_range _ _ n n nl nr y1 y1' m nm w2 w2' m); [exact HY1|exact HW2|lia|lia|lia|lia|].
          intros i Hi. red. lia. }
        intros w3 w3' HW3. assert (HW3' := HW3). assert (HY1' := HY1).
        destruct HW3' as (A1 & A2 & _). destruct HY1' as (B1 & B2 & _).
        destruct (Nat.leb_spec (m + nm) (length y1)); [|lia].
        destruct (Nat.leb_spec (m + nm) (length y1')); [|lia].
        destruct (Nat.leb_spec n (length w3)); [|lia].
        destruct (Nat.leb_spec n (length w3')); [|lia].
        rewrite (slice_eq _ _ _ w3 w3' m nm HW3) by (try lia; intros i Hi; right; red; lia).
        eapply rwp_bind.
        { apply (IH nm ld); auto; try (rewrite slice_length; lia); try (rewrite skipn_length; lia). }
        intros [ym wn] [ym' wn'] (E1 & E2 & E3 & E4). simpl in E1, E2, E3, E4. subst ym'.
        rewrite skipn_length in E3, E4.
        apply rwp_ok. simpl. split.
        + eapply ag_weaken; [eapply ag_splice; [exact HY1|lia|lia|exact E2]|]. intros i Hi. left. exact Hi.
        + eapply ag_weaken; [eapply (ag_head_app _ nl nr w3 w3' wn wn' n); [exact HW3|lia|lia|lia|lia]|].
          destruct (Nat.eqb_spec nm 0); [contradiction|]. intros i []. }
    intros [y2 w3] [y2' w3'] [HY2 HW3]. simpl in HY2, HW3.
    assert (L2 : length y2 = n) by apply HY2. assert (L2' : length y2' = n) by apply HY2.
    rewrite L2, L2'.
    eapply rwp_bind.
    { eapply (rwp_copy_range _ _ n n nl nr y2 y2' m (n - m) w3 w3' m); [exact HY2|exact HW3|lia|lia|lia|lia|].
      intros i Hi. red. lia. }
    intros w4 w4' HW4.
    (* second elimination *)
    eapply rwp_bind with (R := ag (below n) nl nr).
    { destruct (Nat.eqb_spec nm 0) as [Z|Z]; cbn [negb].
      - apply rwp_ok. eapply ag_weaken; [exact HW4|]. intros i Hi. red in Hi. left. red. lia.
      - destruct (ls_F O P LS) as (WE1 & E1); [fold n m; lia|]. fold m in E1.
        eapply rwp_bind.
        { eapply rwp_nt_low; [exact WE1| | | |exact HW4| |]; try (fold n m; lia).
          - eapply ag_weaken; [eapply (ag_skipn _ _ _ _ _ m); exact HY2|]. intros i Hi. red in Hi |- *. lia.
          - lia.
          - lia. }
        intros w5 w5' HW5. eapply rwp_conseq.
        { eapply (rwp_upd_range _ _ _ 0 m); [exact HW5|lia|lia|]. intros i a c Hi Hac.
          destruct (SC i ltac:(lia)) as [v ->]. simpl. rewrite Hac; [now apply rwp_ok|].
          right. red. lia. }
        intros w6 w6' HW6. eapply ag_weaken; [exact HW6|]. intros i Hi. red in Hi.
        destruct (le_lt_dec m i); [left; left; right; red; lia|]. right; red; lia. }
    intros w5 w5' HW5.
    eapply rwp_bind.
    { eapply (rwp_ldu P LS); [| | |exact HW5]; try (fold m n; lia). intros i Hi. red. fold m in Hi. lia. }
    intros w6 w6' HW6.
    eapply rwp_bind.
    { eapply (rwp_upd_range _ n n 0 n); [exact HY2|lia|lia|]. intros i a c Hi _.
      assert (Ls := ls_t O P LS). destruct (ls_q O P LS) as (Lq & Lqi & Q1 & Q2). fold n in Ls, Lq, Lqi, Q1, Q2.
      destruct (Q2 i ltac:(lia)) as [Q3 _].
      rewrite (get_nth _ (pt P) i 0) by lia. cbn [bind].
      rewrite (get_nth _ (pq_inv P) i Datatypes.O) by lia. cbn [bind].
      eapply rwp_bind. { eapply rwp_get; [exact HW6| | |]; try (red; exact Q3); lia. }
      intros u u' E. subst u'. now apply rwp_ok. }
    intros y3 y3' HY3. apply rwp_ok. split; [|split; [|split]]; simpl.
    - apply (ag_eq n). eapply ag_weaken; [exact HY3|]. intros i Hi. right. red in Hi |- *. lia.
    - apply HY3.
    - apply HW6.
    - apply HW6.
  Qed.

  Lemma prec_solve_tran_stale : forall precs n ld b y y' work work',
    hier_shape (fun P => dense_solve O P ld true) precs n ->
    length b = n -> length y = n -> length y' = n ->
    compute_prec_work_space O precs <= length work ->
    compute_prec_work_space O precs <= length work' ->
    rwp (prec_solve_tran O precs b ld y work) (prec_solve_tran O precs b ld y' work') (same_result n work work').
  Proof.
    induction precs as [|P rest IH]; intros n ld b y y' work work' HO Lb Ly Ly' Lw Lw'; [contradiction|].
    destruct HO as (LS & En & HT). rewrite cws_cons in Lw, Lw'. cbn [prec_solve_tran].
    assert (Hm := ls_m O P LS). assert (FC := ls_Fc O P LS). rewrite FC.
    assert (SC : forall i, i < pn P -> exists v, sc_perm O (pt P) (pq P) b i = Ok v).
    { intros. eapply (rwp_sc P); eauto. apply (ls_q O P LS). apply (ls_t O P LS). lia. }
    set (m := pm P) in *. set (nm := pn P - m) in *. subst n. set (n := pn P) in *.
    set (nl := length work) in *. set (nr := length work') in *.
    assert (HW : ag (fun _ => False) nl nr work work') by (split; auto; split; auto; intros ? []).
    assert (HY : ag (fun _ => False) n n y y') by (split; auto; split; auto; intros ? []).
    eapply rwp_bind.
    { eapply (rwp_upd_range _ _ _ 0 m); [exact HW|lia|lia|]. intros i a c Hi _.
      destruct (SC i ltac:(lia)) as [v ->]. now apply rwp_ok. }
    intros work1 work1' HW1.
    (* first elimination *)
    eapply rwp_bind with (R := fun r r' => ag (within m n) n n (fst r) (fst r') /\
      ag (if Nat.eqb nm 0 then below m else fun _ => False) nl nr (snd r) (snd r')).
    { destruct (Nat.eqb_spec nm 0) as [Z|Z]; cbn [negb].
      - apply rwp_ok. simpl. split.
        + eapply ag_weaken; eauto. intros i Hi. red in Hi. lia.
        + eapply ag_weaken; eauto. intros i Hi. right. red in Hi |- *. lia.
      - destruct (ls_F O P LS) as (WE1 & E1); [fold n m; lia|]. fold m in E1.
        eapply rwp_bind.
        { eapply (rwp_utdlt P LS); [| | |exact HW1]; try lia. intros i Hi. right. red; unfold m; lia. }
        intros work2 work2' HW2.
        eapply rwp_bind.
        { eapply rwp_on_tail; [exact HY|lia|lia|].
          eapply rwp_t_low; [exact WE1| | | |apply ag_skipn; exact HY| |]; try (fold n m; lia).
          - eapply ag_weaken; [exact HW2|]. intros i Hi. right. red in Hi |- *. lia.
          - lia.
          - lia. }
        intros y1 y1' HY1. eapply rwp_bind.
        { eapply (rwp_upd_range _ _ _ m n); [exact HY1|lia|lia|]. intros i a c Hi Hac.
          destruct (SC i ltac:(lia)) as [v ->]. simpl. rewrite Hac; [now apply rwp_ok|].
          right. split; [lia|]. right. red. lia. }
        intros y2 y2' HY2. apply rwp_ok. simpl. split.
        + eapply ag_weaken; [exact HY2|]. intros i Hi. right. exact Hi.
        + eapply ag_weaken; [exact HW2|]. intros i []. }
    intros [y1 w2] [y1' w2'] [HY1 HW2]. simpl in HY1, HW2.
    (* Schur complement *)
    eapply rwp_bind with (R := fun r r' => ag (within m n) n n (fst r) (fst r') /\
      ag (if Nat.eqb nm 0 then below m else fun _ => False) nl nr (snd r) (snd r')).
    { destruct (is_last_level O P) eqn:LL.
      - destruct (Nat.eqb_spec nm 0) as [Z|Z]; cbn [negb].
        + apply rwp_ok. simpl. split; auto.
        + eapply rwp_bind.
          { eapply (rwp_on_sub _ n n y1 y1' m nm (dense_solve O P ld true)); [exact HY1|lia|lia| |].
            - intros i Hi. red. lia.
            - intros u Lu. apply HT; auto. fold m n; lia. }
          intros y2 y2' HY2. apply rwp_ok. simpl. split; auto.
          eapply ag_weaken; [exact HY2|]. intros i Hi. left. exact Hi.
      - assert (Z : nm <> 0%nat).
        { intro Z. unfold is_last_level in LL. destruct (pdense P), (psymm P); try discriminate.
          apply Nat.eqb_neq in LL. fold m n in LL. lia. }
        eapply rwp_bind.
        { eapply (rwp_copy_range _ _ n n nl nr y1 y1' m nm w2 w2' m); [exact HY1|exact HW2|lia|lia|lia|lia|].
          intros i Hi. red. lia. }
        intros w3 w3' HW3. assert (HW3' := HW3). assert (HY1' := HY1).
        destruct HW3' as (A1 & A2 & _). destruct HY1' as (B1 & B2 & _).
        destruct (Nat.leb_spec (m + nm) (length y1)); [|lia].
        destruct (Nat.leb_spec (m + nm) (length y1')); [|lia].
        destruct (Nat.leb_spec n (length w3)); [|lia].
        destruct (Nat.leb_spec n (length w3')); [|lia].
        rewrite (slice_eq _ _ _ w3 w3' m nm HW3) by (try lia; intros i Hi; right; red; lia).
        eapply rwp_bind.
        { apply (IH nm ld); auto; try (rewrite slice_length; lia); try (rewrite skipn_length; lia). }
        intros [ym wn] [ym' wn'] (E1 & E2 & E3 & E4). simpl in E1, E2, E3, E4. subst ym'.
        rewrite skipn_length in E3, E4.
        apply rwp_ok. simpl. split.
        + eapply ag_weaken; [eapply ag_splice; [exact HY1|lia|lia|exact E2]|]. intros i Hi. left. exact Hi.
        + eapply ag_weaken; [eapply (ag_head_app _ nl nr w3 w3' wn wn' n); [exact HW3|lia|lia|lia|lia]|].
          destruct (Nat.eqb_spec nm 0); [contradiction|]. intros i []. }
    intros [y2 w3] [y2' w3'] [HY2 HW3]. simpl in HY2, HW3.
    assert (L2 : length y2 = n) by apply HY2. assert (L2' : length y2' = n) by apply HY2.
    rewrite L2, L2'.
    eapply rwp_bind.
    { eapply (rwp_copy_range _ _ n n nl nr y2 y2' m (n - m) w3 w3' m); [exact HY2|exact HW3|lia|lia|lia|lia|].
      intros i Hi. red. lia. }
    intros w4 w4' HW4.
    (* second elimination *)
    eapply rwp_bind with (R := ag (below n) nl nr).
    { destruct (Nat.eqb_spec nm 0) as [Z|Z]; cbn [negb].
      - eapply rwp_conseq.
        { eapply (rwp_upd_range _ _ _ 0 m); [exact HW4|lia|lia|]. intros i a c Hi Hac.
          destruct (SC i ltac:(lia)) as [v ->]. now apply rwp_ok. }
        intros w6 w6' HW6. eapply ag_weaken; [exact HW6|]. intros i Hi. right. red in Hi |- *. lia.
      - destruct (ls_E O P LS) as (WE1 & E1 & E2); [fold n m; lia|]. fold n m nm in E1, E2.
        eapply rwp_bind.
        { eapply rwp_t_low; [exact WE1| | | |exact HW4| |]; try (fold n m; lia).
          - eapply ag_weaken; [eapply (ag_skipn _ _ _ _ _ m); exact HY2|]. intros i Hi. red in Hi |- *. lia.
          - lia.
          - lia. }
        intros w5 w5' HW5. eapply rwp_conseq.
        { eapply (rwp_upd_range _ _ _ 0 m); [exact HW5|lia|lia|]. intros i a c Hi Hac.
          destruct (SC i ltac:(lia)) as [v ->]. simpl. rewrite Hac; [now apply rwp_ok|].
          right. red. lia. }
        intros w6 w6' HW6. eapply ag_weaken; [exact HW6|]. intros i Hi. red in Hi.
        destruct (le_lt_dec m i); [left; left; right; red; lia|]. right; red; lia. }
    intros w5 w5' HW5.
    eapply rwp_bind.
    { eapply (rwp_utdlt P LS); [| | |exact HW5]; try (fold m n; lia). intros i Hi. red. fold m in Hi. lia. }
    intros w6 w6' HW6.
    eapply rwp_bind.
    { eapply (rwp_upd_range _ n n 0 n); [exact HY2|lia|lia|]. intros i a c Hi _.
      assert (Ls := ls_s O P LS). destruct (ls_p O P LS) as (Lq & Lqi & Q1 & Q2). fold n in Ls, Lq, Lqi, Q1, Q2.
      destruct (Q2 i ltac:(lia)) as [Q3 _].
      rewrite (get_nth _ (ps P) i 0) by lia. cbn [bind].
      rewrite (get_nth _ (pp_inv P) i Datatypes.O) by lia. cbn [bind].
      eapply rwp_bind. { eapply rwp_get; [exact HW6| | |]; try (red; exact Q3); lia. }
      intros u u' E. subst u'. now apply rwp_ok. }
    intros y3 y3' HY3. apply rwp_ok. split; [|split; [|split]]; simpl.
    - apply (ag_eq n). eapply ag_weaken; [exact HY3|]. intros i Hi. right. red in Hi |- *. lia.
    - apply HY3.
    - apply HW6.
    - apply HW6.
  Qed.

  Lemma prec_prod_stale : forall precs n ld b y y' work work',
    hier_shape (fun P => dense_mul O P ld false) precs n ->
    length b = n -> length y = n -> length y' = n ->
    compute_prec_work_space O precs <= length work ->
    compute_prec_work_space O precs <= length work' ->
    rwp (prec_prod O precs b ld y work) (prec_prod O precs b ld y' work') (same_result n work work').
  Proof.
    induction precs as [|P rest IH]; intros n ld b y y' work work' HO Lb Ly Ly' Lw Lw'; [contradiction|].
    destruct HO as (LS & En & HT). rewrite cws_cons in Lw, Lw'. cbn [prec_prod].
    assert (Hm := ls_m O P LS). assert (FC := ls_Fc O P LS). rewrite ?FC.
    assert (SC : forall i, i < pn P -> exists v, unsc_perm O (pt P) (pq P) b i = Ok v).
    { intros. eapply (rwp_unsc P); eauto. apply (ls_q O P LS). apply (ls_t O P LS). lia. }
    destruct (ls_L O P LS) as (WL & L1 & L2). destruct (ls_U O P LS) as (WU & U1 & U2). assert (Ld := ls_d O P LS).
    set (m := pm P) in *. set (nm := pn P - m) in *. subst n. set (n := pn P) in *.
    set (nl := length work) in *. set (nr := length work') in *.
    assert (HW : ag (fun _ => False) nl nr work work') by (split; auto; split; auto; intros ? []).
    assert (HY : ag (fun _ => False) n n y y') by (split; auto; split; auto; intros ? []).
    eapply rwp_bind.
    { eapply (rwp_upd_range _ _ _ m n); [exact HW|lia|lia|]. intros i a c Hi _.
      destruct (SC i ltac:(lia)) as [v ->]. now apply rwp_ok. }
    intros work1 work1' HW1.
    (* Schur complement *)
    eapply rwp_bind with (R := fun r r' => ag (within m n) n n (fst r) (fst r') /\
      ag (within m n) nl nr (snd r) (snd r')).
    { destruct (is_last_level O P) eqn:LL.
      - destruct (Nat.eqb_spec nm 0) as [Z|Z]; cbn [negb].
        + apply rwp_ok. simpl. split.
          * eapply ag_weaken; [exact HY|]. intros i Hi. red in Hi. lia.
          * eapply ag_weaken; [exact HW1|]. intros i Hi. right. exact Hi.
        + eapply rwp_bind.
          { eapply (rwp_copy_range _ _ nl nr n n work1 work1' m nm y y' m); [exact HW1|exact HY|lia|lia|lia|lia|].
            intros i Hi. right. red. lia. }
          intros y1 y1' HY1. eapply rwp_bind.
          { eapply (rwp_on_sub _ n n y1 y1' m nm (dense_mul O P ld false)); [exact HY1|lia|lia| |].
            - intros i Hi. right. red. lia.
            - intros u Lu. apply HT; auto. fold m n; lia. }
          intros y2 y2' HY2. apply rwp_ok. simpl. split.
          * eapply ag_weaken; [exact HY2|]. intros i Hi. right. red in Hi |- *. lia.
          * eapply ag_weaken; [exact HW1|]. intros i Hi. right. exact Hi.
      - assert (HW1' := HW1). assert (HY' := HY).
        destruct HW1' as (A1 & A2 & _). destruct HY' as (B1 & B2 & _).
        destruct (Nat.leb_spec (m + nm) (length y)); [|lia].
        destruct (Nat.leb_spec (m + nm) (length y')); [|lia].
        destruct (Nat.leb_spec n (length work1)); [|lia].
        destruct (Nat.leb_spec n (length work1')); [|lia].
        rewrite (slice_eq _ _ _ work1 work1' m nm HW1) by (try lia; intros i Hi; right; red; lia).
        eapply rwp_bind.
        { apply (IH nm ld); auto; try (rewrite slice_length; lia); try (rewrite skipn_length; lia). }
        intros [ym wn] [ym' wn'] (E1 & E2 & E3 & E4). simpl in E1, E2, E3, E4. subst ym'.
        rewrite skipn_length in E3, E4.
        apply rwp_ok. simpl. split.
        + eapply ag_weaken; [eapply ag_splice; [exact HY|lia|lia|exact E2]|]. intros i Hi. right. red in Hi |- *. lia.
        + eapply ag_weaken; [eapply (ag_head_app _ nl nr work1 work1' wn wn' n); [exact HW1|lia|lia|lia|lia]|].
          intros i Hi. split; [right; exact Hi|red in Hi; lia]. }
    intros [y1 w2] [y1' w2'] [HY1 HW2]. simpl in HY1, HW2.
    eapply rwp_bind.
    { eapply (rwp_upd_range _ _ _ 0 m); [exact HW2|lia|lia|]. intros i a c Hi _.
      destruct (SC i ltac:(lia)) as [v ->]. now apply rwp_ok. }
    intros w3 w3' HW3.
    assert (HW3f : ag (below n) nl nr w3 w3').
    { eapply ag_weaken; [exact HW3|]. intros i Hi. red in Hi. destruct (le_lt_dec m i); [left|right]; red; lia. }
    eapply rwp_bind.
    { eapply rwp_nt_low; [exact WU| | | |exact HY1| |]; try (fold n m; lia).
      - eapply ag_weaken; [exact HW3f|]. intros i Hi. red in Hi |- *. lia.
      - lia.
      - lia. }
    intros y2 y2' HY2.
    assert (HY2f : ag (below n) n n y2 y2').
    { eapply ag_weaken; [exact HY2|]. intros i Hi. red in Hi. destruct (le_lt_dec m i); [left|right]; red; lia. }
    eapply rwp_bind.
    { eapply (rwp_upd_range _ _ _ 0 m); [exact HY2f|lia|lia|]. intros i a c Hi Hac.
      eapply rwp_bind. { eapply rwp_get; [exact HW3f| | |]; try lia. red; lia. }
      intros u u' E. subst u'. rewrite (get_nth _ (pd P) i 0) by lia. simpl. rewrite Hac by (red; lia). now apply rwp_ok. }
    intros y3 y3' HY3. assert (HY3f : ag (below n) n n y3 y3') by (eapply ag_weaken; [exact HY3|]; intros; left; auto).
    eapply rwp_bind.
    { eapply rwp_nt_low; [exact WL| | | |exact HW3f| |]; try (fold n m; lia).
      - eapply ag_weaken; [exact HY3f|]. intros i Hi. red in Hi |- *. lia.
      - lia.
      - lia. }
    intros w4 w4' HW4. assert (HW4f : ag (below n) nl nr w4 w4') by (eapply ag_weaken; [exact HW4|]; intros; left; auto).
    eapply rwp_bind.
    { eapply (rwp_upd_range _ _ _ 0 m); [exact HW4f|lia|lia|]. intros i a c Hi Hac.
      eapply rwp_bind. { eapply rwp_get; [exact HY3f| | |]; try lia. red; lia. }
      intros u u' E. subst u'. rewrite Hac by (red; lia). now apply rwp_ok. }
    intros w5 w5' HW5. assert (HW5f : ag (below n) nl nr w5 w5') by (eapply ag_weaken; [exact HW5|]; intros; left; auto).
    eapply rwp_bind with (R := fun r r' => ag (below n) n n (fst r) (fst r') /\ ag (below n) nl nr (snd r) (snd r')).
    { destruct (Nat.eqb_spec nm 0) as [Z|Z]; cbn [negb]; [apply rwp_ok; split; auto|].
      destruct (ls_F O P LS) as (WE1 & E1); [fold n m; lia|]. fold m in E1.
      eapply rwp_bind.
      { eapply rwp_nt_low; [exact WE1| | | |exact HY3f| |]; try (fold n m; lia).
        - eapply ag_weaken; [eapply (ag_skipn _ _ _ _ _ m); exact HW5f|]. intros i Hi. red in Hi |- *. lia.
        - lia.
        - lia. }
      intros y4 y4' HY4. assert (HY4f : ag (below n) n n y4 y4') by (eapply ag_weaken; [exact HY4|]; intros; left; auto).
      eapply rwp_bind.
      { eapply (rwp_upd_range _ _ _ 0 m); [exact HW5f|lia|lia|]. intros i a c Hi Hac.
        eapply rwp_bind. { eapply rwp_get; [exact HY4f| | |]; try lia. red; lia. }
        intros u u' E. subst u'. rewrite Hac by (red; lia). now apply rwp_ok. }
      intros w6 w6' HW6. apply rwp_ok. split; auto. eapply ag_weaken; [exact HW6|]; intros; left; auto. }
    intros [y4 w6] [y4' w6'] [HY4 HW6]. simpl in HY4, HW6.
    eapply rwp_bind with (R := fun r r' => ag (below n) n n (fst r) (fst r') /\ ag (below n) nl nr (snd r) (snd r')).
    { destruct (Nat.eqb_spec nm 0) as [Z|Z]; cbn [negb]; [apply rwp_ok; split; auto|].
      destruct (ls_E O P LS) as (WE1 & E1 & E2); [fold n m; lia|]. fold n m nm in E1, E2.
      eapply rwp_bind.
      { eapply (rwp_ldu P LS); [| | |exact HY4]; try (fold m n; lia). intros i Hi. red. fold m in Hi. lia. }
      intros y5 y5' HY5. eapply rwp_bind.
      { eapply (rwp_upd_range _ _ _ 0 m); [exact HY5|lia|lia|]. intros i a c Hi Hac.
        destruct (SC i ltac:(lia)) as [v ->]. simpl. rewrite Hac by (red; lia). now apply rwp_ok. }
      intros y6 y6' HY6. assert (HY6f : ag (below n) n n y6 y6') by (eapply ag_weaken; [exact HY6|]; intros; left; auto).
      eapply rwp_bind.
      { eapply rwp_on_tail; [exact HW6|lia|lia|].
        eapply rwp_nt_low; [exact WE1| | | |apply ag_skipn; exact HW6| |]; try (fold n m; lia).
        - eapply ag_weaken; [exact HY6f|]. intros i Hi. red in Hi |- *. lia.
        - lia.
        - lia. }
      intros w7 w7' HW7.
      assert (HW7f : ag (below n) nl nr w7 w7').
      { eapply ag_weaken; [exact HW7|]. intros i Hi. red in Hi. destruct (le_lt_dec m i).
        - right. split; auto. left. red. lia.
        - left. split; auto. }
      eapply rwp_bind.
      { eapply (rwp_upd_range _ _ _ m n); [exact HW7f|lia|lia|]. intros i a c Hi Hac.
        eapply rwp_bind. { eapply rwp_get; [exact HY6f| | |]; try lia. red; lia. }
        intros u u' E. subst u'. rewrite Hac by (red; lia). now apply rwp_ok. }
      intros w8 w8' HW8. apply rwp_ok. split; auto. eapply ag_weaken; [exact HW8|]; intros; left; auto. }
    intros [y5 w7] [y5' w7'] [HY5 HW7]. simpl in HY5, HW7.
    eapply rwp_bind.
    { eapply (rwp_upd_range _ n n 0 n); [exact HY5|lia|lia|]. intros i a c Hi _.
      assert (Ls := ls_s O P LS). destruct (ls_p O P LS) as (Lq & Lqi & Q1 & Q2). fold n in Ls, Lq, Lqi, Q1, Q2.
      destruct (Q2 i ltac:(lia)) as [Q3 _].
      rewrite (get_nth _ (pp_inv P) i Datatypes.O) by lia. cbn [bind].
      eapply rwp_bind. { eapply rwp_get; [exact HW7| | |]; try (red; exact Q3); lia. }
      intros u u' E. subst u'. rewrite (get_nth _ (ps P) i 0) by lia. now apply rwp_ok. }
    intros y6 y6' HY6. apply rwp_ok. split; [|split; [|split]]; simpl.
    - apply (ag_eq n). eapply ag_weaken; [exact HY6|]. intros i Hi. right. red in Hi |- *. lia.
    - apply HY6.
    - apply HW7.
    - apply HW7.
  Qed.

  Lemma prec_prod_tran_stale : forall precs n ld b y y' work work',
    hier_shape (fun P => dense_mul O P ld true) precs n ->
    length b = n -> length y = n -> length y' = n ->
    compute_prec_work_space O precs <= length work ->
    compute_prec_work_space O precs <= length work' ->
    rwp (prec_prod_tran O precs b ld y work) (prec_prod_tran O precs b ld y' work') (same_result n work work').
  Proof.
    induction precs as [|P rest IH]; intros n ld b y y' work work' HO Lb Ly Ly' Lw Lw'; [contradiction|].
    destruct HO as (LS & En & HT). rewrite cws_cons in Lw, Lw'. cbn [prec_prod_tran].
    assert (Hm := ls_m O P LS). assert (FC := ls_Fc O P LS). rewrite ?FC.
    assert (SC : forall i, i < pn P -> exists v, unsc_perm O (ps P) (pp P) b i = Ok v).
    { intros. eapply (rwp_unsc P); eauto. apply (ls_p O P LS). apply (ls_s O P LS). lia. }
    destruct (ls_L O P LS) as (WL & L1 & L2). destruct (ls_U O P LS) as (WU & U1 & U2). assert (Ld := ls_d O P LS).
    set (m := pm P) in *. set (nm := pn P - m) in *. subst n. set (n := pn P) in *.
    set (nl := length work) in *. set (nr := length work') in *.
    assert (HW : ag (fun _ => False) nl nr work work') by (split; auto; split; auto; intros ? []).
    assert (HY : ag (fun _ => False) n n y y') by (split; auto; split; auto; intros ? []).
    eapply rwp_bind.
    { eapply (rwp_upd_range _ _ _ m n); [exact HW|lia|lia|]. intros i a c Hi _.
      destruct (SC i ltac:(lia)) as [v ->]. now apply rwp_ok. }
    intros work1 work1' HW1.
    (* Schur complement *)
    eapply rwp_bind with (R := fun r r' => ag (within m n) n n (fst r) (fst r') /\
      ag (within m n) nl nr (snd r) (snd r')).
    { destruct (is_last_level O P) eqn:LL.
      - destruct (Nat.eqb_spec nm 0) as [Z|Z]; cbn [negb].
        + apply rwp_ok. simpl. split.
          * eapply ag_weaken; [exact HY|]. intros i Hi. red in Hi. lia.
          * eapply ag_weaken; [exact HW1|]. intros i Hi. right. exact Hi.
        + eapply rwp_bind.
          { eapply (rwp_copy_range _ _ nl nr n n work1 work1' m nm y y' m); [exact HW1|exact HY|lia|lia|lia|lia|].
            intros i Hi. right. red. lia. }
          intros y1 y1' HY1. eapply rwp_bind.
          { eapply (rwp_on_sub _ n n y1 y1' m nm (dense_mul O P ld true)); [exact HY1|lia|lia| |].
            - intros i Hi. right. red. lia.
            - intros u Lu. apply HT; auto. fold m n; lia. }
          intros y2 y2' HY2. apply rwp_ok. simpl. split.
          * eapply ag_weaken; [exact HY2|]. intros i Hi. right. red in Hi |- *. lia.
          * eapply ag_weaken; [exact HW1|]. intros i Hi. right. exact Hi.
      - assert (HW1' := HW1). assert (HY' := HY).
        destruct HW1' as (A1 & A2 & _). destruct HY' as (B1 & B2 & _).
        destruct (Nat.leb_spec (m + nm) (length y)); [|lia].
        destruct (Nat.leb_spec (m + nm) (length y')); [|lia].
        destruct (Nat.leb_spec n (length work1)); [|lia].
        destruct (Nat.leb_spec n (length work1')); [|lia].
        rewrite (slice_eq _ _ _ work1 work1' m nm HW1) by (try lia; intros i Hi; right; red; lia).
        eapply rwp_bind.
        { apply (IH nm ld); auto; try (rewrite slice_length; lia); try (rewrite skipn_length; lia). }
        intros [ym wn] [ym' wn'] (E1 & E2 & E3 & E4). simpl in E1, E2, E3, E4. subst ym'.
        rewrite skipn_length in E3, E4.
        apply rwp_ok. simpl. split.
        + eapply ag_weaken; [eapply ag_splice; [exact HY|lia|lia|exact E2]|]. intros i Hi. right. red in Hi |- *. lia.
        + eapply ag_weaken; [eapply (ag_head_app _ nl nr work1 work1' wn wn' n); [exact HW1|lia|lia|lia|lia]|].
          intros i Hi. split; [right; exact Hi|red in Hi; lia]. }
    intros [y1 w2] [y1' w2'] [HY1 HW2]. simpl in HY1, HW2.
    eapply rwp_bind.
    { eapply (rwp_upd_range _ _ _ 0 m); [exact HW2|lia|lia|]. intros i a c Hi _.
      destruct (SC i ltac:(lia)) as [v ->]. now apply rwp_ok. }
    intros w3 w3' HW3.
    assert (HW3f : ag (below n) nl nr w3 w3').
    { eapply ag_weaken; [exact HW3|]. intros i Hi. red in Hi. destruct (le_lt_dec m i); [left|right]; red; lia. }
    eapply rwp_bind.
    { eapply rwp_t_low; [exact WL| | | |exact HY1| |]; try (fold n m; lia).
      - eapply ag_weaken; [exact HW3f|]. intros i Hi. red in Hi |- *. lia.
      - lia.
      - lia. }
    intros y2 y2' HY2.
    assert (HY2f : ag (below n) n n y2 y2').
    { eapply ag_weaken; [exact HY2|]. intros i Hi. red in Hi. destruct (le_lt_dec m i); [left|right]; red; lia. }
    eapply rwp_bind.
    { eapply (rwp_upd_range _ _ _ 0 m); [exact HY2f|lia|lia|]. intros i a c Hi Hac.
      eapply rwp_bind. { eapply rwp_get; [exact HW3f| | |]; try lia. red; lia. }
      intros u u' E. subst u'. rewrite (get_nth _ (pd P) i 0) by lia. simpl. rewrite Hac by (red; lia). now apply rwp_ok. }
    intros y3 y3' HY3. assert (HY3f : ag (below n) n n y3 y3') by (eapply ag_weaken; [exact HY3|]; intros; left; auto).
    eapply rwp_bind.
    { eapply rwp_t_low; [exact WU| | | |exact HW3f| |]; try (fold n m; lia).
      - eapply ag_weaken; [exact HY3f|]. intros i Hi. red in Hi |- *. lia.
      - lia.
      - lia. }
    intros w4 w4' HW4. assert (HW4f : ag (below n) nl nr w4 w4') by (eapply ag_weaken; [exact HW4|]; intros; left; auto).
    eapply rwp_bind.
    { eapply (rwp_upd_range _ _ _ 0 m); [exact HW4f|lia|lia|]. intros i a c Hi Hac.
      eapply rwp_bind. { eapply rwp_get; [exact HY3f| | |]; try lia. red; lia. }
      intros u u' E. subst u'. rewrite Hac by (red; lia). now apply rwp_ok. }
    intros w5 w5' HW5. assert (HW5f : ag (below n) nl nr w5 w5') by (eapply ag_weaken; [exact HW5|]; intros; left; auto).
    eapply rwp_bind with (R := fun r r' => ag (below n) n n (fst r) (fst r') /\ ag (below n) nl nr (snd r) (snd r')).
    { destruct (Nat.eqb_spec nm 0) as [Z|Z]; cbn [negb]; [apply rwp_ok; split; auto|].
      destruct (ls_E O P LS) as (WE1 & E1 & E2); [fold n m; lia|]. fold n m nm in E1, E2.
      eapply rwp_bind.
      { eapply rwp_t_low; [exact WE1| | | |exact HY3f| |]; try (fold n m; lia).
        - eapply ag_weaken; [eapply (ag_skipn _ _ _ _ _ m); exact HW5f|]. intros i Hi. red in Hi |- *. lia.
        - lia.
        - lia. }
      intros y4 y4' HY4. assert (HY4f : ag (below n) n n y4 y4') by (eapply ag_weaken; [exact HY4|]; intros; left; auto).
      eapply rwp_bind.
      { eapply (rwp_upd_range _ _ _ 0 m); [exact HW5f|lia|lia|]. intros i a c Hi Hac.
        eapply rwp_bind. { eapply rwp_get; [exact HY4f| | |]; try lia. red; lia. }
        intros u u' E. subst u'. rewrite Hac by (red; lia). now apply rwp_ok. }
      intros w6 w6' HW6. apply rwp_ok. split; auto. eapply ag_weaken; [exact HW6|]; intros; left; auto. }
    intros [y4 w6] [y4' w6'] [HY4 HW6]. simpl in HY4, HW6.
    eapply rwp_bind with (R := fun r r' => ag (below n) n n (fst r) (fst r') /\ ag (below n) nl nr (snd r) (snd r')).
    { destruct (Nat.eqb_spec nm 0) as [Z|Z]; cbn [negb]; [apply rwp_ok; split; auto|].
      destruct (ls_F O P LS) as (WE1 & E1); [fold n m; lia|]. fold m in E1.
      eapply rwp_bind.
      { eapply (rwp_utdlt P LS); [| | |exact HY4]; try (fold m n; lia). intros i Hi. red. fold m in Hi. lia. }
      intros y5 y5' HY5. eapply rwp_bind.
      { eapply (rwp_upd_range _ _ _ 0 m); [exact HY5|lia|lia|]. intros i a c Hi Hac.
        destruct (SC i ltac:(lia)) as [v ->]. simpl. rewrite Hac by (red; lia). now apply rwp_ok. }
      intros y6 y6' HY6. assert (HY6f : ag (below n) n n y6 y6') by (eapply ag_weaken; [exact HY6|]; intros; left; auto).
      eapply rwp_bind.
      { eapply rwp_on_tail; [exact HW6|lia|lia|].
        eapply rwp_t_low; [exact WE1| | | |apply ag_skipn; exact HW6| |]; try (fold n m; lia).
        - eapply ag_weaken; [exact HY6f|]. intros i Hi. red in Hi |- *. lia.
        - lia.
        - lia. }
      intros w7 w7' HW7.
      assert (HW7f : ag (below n) nl nr w7 w7').
      { eapply ag_weaken; [exact HW7|]. intros i Hi. red in Hi. destruct (le_lt_dec m i).
        - right. split; auto. left. red. lia.
        - left. split; auto. }
      eapply rwp_bind.
      { eapply (rwp_upd_range _ _ _ m n); [exact HW7f|lia|lia|]. intros i a c Hi Hac.
        eapply rwp_bind. { eapply rwp_get; [exact HY6f| | |]; try lia. red; lia. }
        intros u u' E. subst u'. rewrite Hac by (red; lia). now apply rwp_ok. }
      intros w8 w8' HW8. apply rwp_ok. split; auto. eapply ag_weaken; [exact HW8|]; intros; left; auto. }
    intros [y5 w7] [y5' w7'] [HY5 HW7]. simpl in HY5, HW7.
    eapply rwp_bind.
    { eapply (rwp_upd_range _ n n 0 n); [exact HY5|lia|lia|]. intros i a c Hi _.
      assert (Ls := ls_t O P LS). destruct (ls_q O P LS) as (Lq & Lqi & Q1 & Q2). fold n in Ls, Lq, Lqi, Q1, Q2.
      destruct (Q2 i ltac:(lia)) as [Q3 _].
      rewrite (get_nth _ (pq_inv P) i Datatypes.O) by lia. cbn [bind].
      eapply rwp_bind. { eapply rwp_get; [exact HW7| | |]; try (red; exact Q3); lia. }
      intros u u' E. subst u'. rewrite (get_nth _ (pt P) i 0) by lia. now apply rwp_ok. }
    intros y6 y6' HY6. apply rwp_ok. split; [|split; [|split]]; simpl.
    - apply (ag_eq n). eapply ag_weaken; [exact HY6|]. intros i Hi. right. red in Hi |- *. lia.
    - apply HY6.
    - apply HW7.
    - apply HW7.
  Qed.
End ST.
