(** * CApiProofs: histories of calls of the C interface. *)
From Coq Require Import List Arith Lia Bool ZArith.
From Verif Require Import Base Scalar Spec CSModel CSSpec CSProofs PrecModel PrecSpec BuilderModel BuilderSpec BuilderProofs BuilderProofs2 CApiModel CApiSpec.
Import ListNotations.

(** ** Products with a well formed matrix, no algebra *)
Section M.
  Variable O : Ops.
  Notation T := (T O).

  Lemma gather_indep : forall (A : CS O) (x : list T) (h : T -> T -> T), wf A -> ssize A <= length x ->
    exists z, length z = psize A /\ forall y, length y = psize A ->
      for_range 0 (psize A) (fun i y =>
           tmp <- row_iter O A i (fun j v tmp => xj <- get x j ;; Ok (tadd O tmp (h v xj))) (t0 O) ;;
           set y i tmp) y = Ok z.
  Proof.
    intros A x h W Hx.
    set (c := fun i => sum (st A (S i) - st A i) (fun q => h (vl A (st A i + q)) (v_ x (ix A (st A i + q))))).
    exists (map c (seq 0 (psize A))). split. { now rewrite map_length, seq_length. }
    intros y Ly.
    assert (H : wp (for_range 0 (psize A) (fun i y =>
           tmp <- row_iter O A i (fun j v tmp => xj <- get x j ;; Ok (tadd O tmp (h v xj))) (t0 O) ;;
           set y i tmp) y) (fun z => length z = psize A /\ forall i, i < psize A -> nth i z (t0 O) = c i)).
    { apply (for_range_inv _ (fun k z => length z = psize A /\ forall i, i < k -> nth i z (t0 O) = c i)); [lia| |].
      - split; auto. intros; lia.
      - intros i s Hi [Ls Hs]. rewrite (gather_wp O A i x h) by (auto; lia). cbn [bind].
        apply wp_set; [lia|]. rewrite upd_length. split; auto. intros q Hq. rewrite nth_upd by lia.
        destruct (Nat.eqb_spec q i); [subst; reflexivity|apply Hs; lia]. }
    apply wp_inv in H. destruct H as (z & E & Lz & Hz). rewrite E. f_equal.
    apply nth_ext with (d := t0 O) (d' := t0 O). { now rewrite map_length, seq_length. }
    intros i Hi. rewrite Hz by lia. rewrite nth_indep with (d' := c 0) by (rewrite map_length, seq_length; lia).
    rewrite map_nth, seq_nth by lia. reflexivity.
  Qed.

  Lemma scatter_len : forall (A : CS O) (x : list T) (g : T -> T -> T) y, wf A -> psize A <= length x -> ssize A <= length y ->
    exists z, length z = length y /\
      for_range 0 (psize A) (fun i y =>
        temp <- get x i ;;
        row_iter O A i (fun j v y => yj <- get y j ;; set y j (tadd O yj (g temp v))) y) y = Ok z.
  Proof.
    intros A x g y W Hx Hy.
    assert (H : wp (for_range 0 (psize A) (fun i y =>
        temp <- get x i ;;
        row_iter O A i (fun j v y => yj <- get y j ;; set y j (tadd O yj (g temp v))) y) y) (fun z => length z = length y)).
    { apply (for_range_inv _ (fun _ z => length z = length y)); auto; [lia|].
      intros i s Hi Ls. wpb. apply wp_get with (d := t0 O); [lia|].
      apply (row_iter_wp O (list T) (fun _ z => length z = length y)); auto; try lia.
      intros k s' Hk Hr Ls'. wpb. apply wp_get with (d := t0 O); [lia|]. apply wp_set; [lia|]. now rewrite upd_length. }
    apply wp_inv in H. destruct H as (z & E & L). eauto.
  Qed.

  Lemma fill_all : forall (y : list T) n (v : T), length y = n -> fill_n y n v = Ok (repeat v n).
  Proof.
    intros y n v L. unfold fill_n. rewrite (proj2 (Nat.leb_le _ _)) by lia.
    rewrite skipn_all2 by lia. now rewrite app_nil_r.
  Qed.

  Lemma mat_mul_good : forall (m : Mat O) tran, matrix_good O m -> mul_good O (mat_mul O m) tran (m_n m).
  Proof.
    intros m tran (N0 & A & EA & W) x y Lx Ly.
    assert (SA : psize A = m_n m /\ ssize A = m_n m).
    { unfold mat_cs in EA. destruct (m_ptr m), (m_ind m), (m_val m); try discriminate. injection EA as <-. auto. }
    destruct SA as [PA SS]. unfold mat_mul. rewrite EA. 
    assert (Z : psize A <> 0) by lia.
    destruct (m_rm m), tran; simpl.
    - unfold crs_multiply_t, crs_multiply_t_low. rewrite PA, SS, Lx, Ly, !Nat.eqb_refl. cbn [negb orb].
      rewrite (proj2 (Nat.eqb_neq _ _)) by lia. rewrite !fill_all by auto. cbn [bind].
      destruct (scatter_len A x (fun t v => tmul O t (tconj O v)) (repeat (t0 O) (m_n m)) W) as (z & L & E); try lia.
      { rewrite repeat_length. lia. }
      rewrite PA in E. rewrite repeat_length in L. exists z. auto.
    - unfold crs_multiply_nt, crs_multiply_nt_low, crs_multiply_nt_part.
      destruct (gather_indep A x (fun v a => tmul O v a) W) as (z & L & E); try lia.
      rewrite PA in E. rewrite PA, SS, Lx, Ly, !Nat.eqb_refl. cbn [negb orb]. rewrite Nat.add_0_l.
      exists z. rewrite (E y), (E x) by lia. split; [reflexivity|split; [reflexivity|lia]].
    - unfold ccs_multiply_t, ccs_multiply_t_low.
      destruct (gather_indep A x (fun v a => tmul O a (tconj O v)) W) as (z & L & E); try lia.
      rewrite PA in E. rewrite PA, SS, Lx, Ly, !Nat.eqb_refl. cbn [negb orb].
      exists z. rewrite (E y), (E x) by lia. split; [reflexivity|split; [reflexivity|lia]].
    - unfold ccs_multiply_nt, ccs_multiply_nt_low. rewrite PA, SS, Lx, Ly, !Nat.eqb_refl. cbn [negb orb].
      rewrite !fill_all by auto. cbn [bind]. rewrite (proj2 (Nat.eqb_neq _ _)) by lia.
      destruct (scatter_len A x (fun t v => tmul O t v) (repeat (t0 O) (m_n m)) W) as (z & L & E); try lia.
      { rewrite repeat_length. lia. }
      rewrite PA in E. rewrite repeat_length in L. exists z. auto.
  Qed.
End M.

Section C.
  Variable O : Ops.
  Notation T := (T O).
  Variable Par : Type.
  Variable fact : Mat O -> option Par -> list (Prec O) * bool.
  Variable to_size : Z -> nat.

  Definition HRel (h : option (Hdl O)) (a : option (AH O)) : Prop :=
    match h, a with
    | None, None => True
    | Some h, Some a => Rel O (h_M h) (abs_of O a) /\ h_A h = a_A a
    | _, _ => False
    end.
  Record WRel (w : World O) (a : AW O) : Prop := {
    W_m : wmats w = amats a;
    W_g : wmsg w = amsg a;
    W_h : Forall2 HRel (whifs w) (ahifs a)
  }.

  Lemma WRel0 : WRel (w0 O) (aw0 O).
  Proof. constructor; simpl; auto. Qed.

  Lemma Forall2_upd : forall {X Y} (R : X -> Y -> Prop) l l' k x y, Forall2 R l l' -> R x y ->
    Forall2 R (upd l k x) (upd l' k y).
  Proof.
    intros X Y R l l' k x y H. revert k. induction H; intros k Hxy; destruct k; simpl; auto.
  Qed.

  Lemma live_deref : forall {X} (l : list (option X)) k x, live l k = Some x -> deref l k = Ok x.
  Proof. unfold live, deref. intros X l k x. destruct (nth_error l k) as [[?|]|]; intros E; inversion E; auto. Qed.

  Lemma live_hif : forall w a k h, WRel w a -> live (ahifs a) k = Some h ->
    exists c, deref (whifs w) k = Ok c /\ Rel O (h_M c) (abs_of O h) /\ h_A c = a_A h.
  Proof.
    intros w a k h R. unfold live, deref. pose proof (W_h _ _ R) as F. revert k.
    induction F as [|x y l l' Hxy F IH]; intros k E; destruct k; simpl in *; try discriminate.
    - destruct y; try discriminate. injection E as ->. destruct x; simpl in Hxy; [|contradiction].
      eexists; split; [reflexivity|auto].
    - auto.
  Qed.

  Lemma WRel_put : forall w a k c h, WRel w a -> Rel O (h_M c) (abs_of O h) -> h_A c = a_A h ->
    WRel (put_hif O w k c) (whif O a (upd (ahifs a) k (Some h))).
  Proof.
    intros w a k c h [] R E. constructor; simpl; auto. apply Forall2_upd; auto. simpl. auto.
  Qed.

  Lemma upd2 : forall {X} (l : list X) i v w, upd (upd l i v) i w = upd l i w.
  Proof. induction l; destruct i; simpl; intros; f_equal; auto. Qed.

  Lemma upd_same : forall {X} (l : list X) k x, nth_error l k = Some x -> upd l k x = l.
  Proof. induction l; destruct k; simpl; intros x E; try discriminate; [congruence|]. f_equal; auto. Qed.

  Lemma WRel_put_same : forall w a k c h, WRel w a -> live (ahifs a) k = Some h -> Rel O (h_M c) (abs_of O h) ->
    h_A c = a_A h -> WRel (put_hif O w k c) a.
  Proof.
    intros w a k c h R L Rc E. pose proof (WRel_put w a k c h R Rc E) as R'.
    unfold live in L. destruct (nth_error (ahifs a) k) as [[h'|]|] eqn:E'; try discriminate. injection L as ->.
    rewrite upd_same in R' by auto. destruct a; exact R'.
  Qed.

  Lemma WRel_msg : forall w a, WRel w a -> WRel (set_msg O w) (fails O a).
  Proof. intros w a []. constructor; auto. Qed.

  Lemma given_all : forall n p i (v : option (list T)), all_given O n p i v = given O n p i v.
  Proof. intros. unfold all_given, given. destruct n, p, i, v; reflexivity. Qed.

  Lemma factor_ok : forall w a k c A m par, WRel w a -> (exists h, Rel O (h_M c) (abs_of O h)) -> h_A c = A ->
    m_ptr m <> None ->
    (if snd (fact m par) then hier_good (fst (fact m par)) (m_n m) else fst (fact m par) = []) ->
    exists w' s, do_factorize O Par fact w k c m par = Ok (w', s) /\
      s = snd (spec_factor O Par fact a k A m par) /\ WRel w' (fst (spec_factor O Par fact a k A m par)).
  Proof.
    intros w a k c A m par R (h & Rh) EA Hp G. unfold do_factorize, spec_factor.
    destruct (m_ptr m); [|congruence]. destruct (fact m par) as [lv ok] eqn:EF. cbn [fst snd] in *.
    assert (GG : op_good O (abs_of O h) (OpFactorize (m_n m) (m_n m) lv ok)) by (simpl; destruct ok; auto).
    destruct (step_refines O (fun _ => t0 O) (h_M c) (abs_of O h) _ Rh GG) as (s' & E & R').
    cbn [step spec_step snd fst] in E, R'. unfold of_outc in E.
    destruct (factorize O (h_M c) (m_n m) (m_n m) lv ok) eqn:EE; try discriminate; destruct ok; try discriminate;
    injection E as ->; eexists; eexists; (split; [reflexivity|split; [reflexivity|]]); cbn [fst];
    [|apply WRel_msg]; apply WRel_put; auto.
  Qed.

  Lemma firstn_len : forall n (l : list T), n <= length l -> length (firstn n l) = n.
  Proof. intros. rewrite firstn_length. lia. Qed.

  Lemma out_ok : forall w a k c h n x junk o r,
    WRel w a -> live (ahifs a) k = Some h -> h_A c = a_A h -> Rel O (h_M c) (abs_of O h) ->
    op_good O (abs_of O h) o -> spec_step O (abs_of O h) o = (abs_of O h, of_res O r) ->
    forall oc, step O junk (h_M c) o = of_outc O OutVec oc ->
    exists w' st v, match oc with
      | Ret s' x' => Ok (put_hif O w k (mkHdl s' (h_A c)), SUCCESS, Some (x' ++ skipn n x))
      | Throw s' => Ok (set_msg O (put_hif O w k (mkHdl s' (h_A c))), HIFIR_ERROR, None)
      | Undef => UB
      end = Ok (w', st, v) /\ OStatus st v = snd (spec_out O a n x r) /\ WRel w' (fst (spec_out O a n x r)).
  Proof.
    intros w a k c h n x junk o r R L EA Rc G Es oc Eo.
    destruct (step_refines O junk (h_M c) (abs_of O h) o Rc G) as (s' & E & R').
    rewrite Es in E, R'. cbn [fst snd] in E, R'. rewrite Eo in E. unfold of_outc, of_res in E.
    destruct oc as [s1 x1|s1|]; try discriminate; destruct r as [z| |]; try discriminate;
    first [injection E as -> -> | injection E as ->]; do 3 eexists; (split; [reflexivity|split; [reflexivity|]]); cbn [spec_out fst];
    try apply WRel_msg; eapply WRel_put_same; eauto.
  Qed.

  Lemma nrows_ok : forall c h, Rel O (h_M c) (abs_of O h) -> hif_nrows O (h_M c) = Ok (a_n h).
  Proof. intros c h R. unfold hif_nrows. rewrite (R_sz _ _ _ R). reflexivity. Qed.

  Lemma on_arrays_ok : forall w a k c h b x junk (o : list T -> list T -> op O) r f,
    WRel w a -> live (ahifs a) k = Some h -> h_A c = a_A h -> Rel O (h_M c) (abs_of O h) ->
    arrays_good O h b x ->
    (forall b x, step O junk (h_M c) (o b x) = of_outc O OutVec (f b x)) ->
    (forall b x, vec_good O (abs_of O h) b x -> op_good O (abs_of O h) (o b x)) ->
    (forall b x, (a_lv h = [] \/ length b = length x) -> spec_step O (abs_of O h) (o b x) = (abs_of O h, of_res O (r b))) ->
    exists w' st v, on_arrays O w k c (a_n h) b x f = Ok (w', st, v) /\
      OStatus st v = snd (spec_out O a (a_n h) x (r (firstn (a_n h) b))) /\
      WRel w' (fst (spec_out O a (a_n h) x (r (firstn (a_n h) b)))).
  Proof.
    intros w a k c h b x junk o r f R L EA Rc AG Hs Hg Hr.
    unfold on_arrays. rewrite (R_p _ _ _ Rc). cbn [abs_of aprecs].
    assert (K : (match a_lv h with [] => false | _ => true end && ((length b <? a_n h) || (length x <? a_n h))) = false).
    { destruct AG as [->|[G1 G2]]; auto. destruct (a_lv h); auto. simpl.
      rewrite (proj2 (Nat.ltb_ge _ _)) by auto. now rewrite (proj2 (Nat.ltb_ge _ _)) by auto. }
    rewrite K. apply (out_ok w a k c h (a_n h) x junk (o (firstn (a_n h) b) (firstn (a_n h) x))); auto.
    - apply Hg. unfold vec_good. cbn [abs_of aprecs asz]. destruct AG as [G|[G1 G2]]; auto.
      right. right. now rewrite firstn_len.
    - apply Hr. destruct AG as [G|[G1 G2]]; auto. right. now rewrite !firstn_len.
  Qed.

  Lemma lib_solve_ok : forall w a k c h b x junk tran,
    WRel w a -> live (ahifs a) k = Some h -> h_A c = a_A h -> Rel O (h_M c) (abs_of O h) -> arrays_good O h b x ->
    exists w' st v, lib_solve O junk w k c b x tran = Ok (w', st, v) /\
      OStatus st v = snd (spec_out O a (a_n h) x (spec_solve O (abs_of O h) tran 0 (firstn (a_n h) b))) /\
      WRel w' (fst (spec_out O a (a_n h) x (spec_solve O (abs_of O h) tran 0 (firstn (a_n h) b)))).
  Proof.
    intros w a k c h b x junk tran R L EA Rc AG. unfold lib_solve. rewrite (nrows_ok c h Rc). cbn [bind].
    apply (on_arrays_ok w a k c h b x junk (fun b x => OpSolve b x tran 0) (spec_solve O (abs_of O h) tran 0)); auto.
    intros b' x' [E|E]; cbn [spec_step].
    - replace (spec_solve O (abs_of O h) tran 0 b') with (@Err (list T)) by (unfold spec_solve; cbn [abs_of aprecs]; now rewrite E).
      destruct (_ =? _); reflexivity.
    - now rewrite E, Nat.eqb_refl.
  Qed.

  Lemma lib_mul_ok : forall w a k c h b x junk tran,
    WRel w a -> live (ahifs a) k = Some h -> h_A c = a_A h -> Rel O (h_M c) (abs_of O h) -> arrays_good O h b x ->
    exists w' st v, lib_mmultiply O junk w k c b x tran = Ok (w', st, v) /\
      OStatus st v = snd (spec_out O a (a_n h) x (spec_mul O (abs_of O h) tran 0 (firstn (a_n h) b))) /\
      WRel w' (fst (spec_out O a (a_n h) x (spec_mul O (abs_of O h) tran 0 (firstn (a_n h) b)))).
  Proof.
    intros w a k c h b x junk tran R L EA Rc AG. unfold lib_mmultiply. rewrite (nrows_ok c h Rc). cbn [bind].
    apply (on_arrays_ok w a k c h b x junk (fun b x => OpMultiply b x tran 0) (spec_mul O (abs_of O h) tran 0)); auto.
    intros b' x' [E|E]; cbn [spec_step].
    - replace (spec_mul O (abs_of O h) tran 0 b') with (@Err (list T)) by (unfold spec_mul; cbn [abs_of aprecs]; now rewrite E).
      destruct (_ =? _); reflexivity.
    - now rewrite E, Nat.eqb_refl.
  Qed.

  Lemma lib_hifir_ok : forall w a k c h m b x junk N tran rk,
    WRel w a -> live (ahifs a) k = Some h -> h_A c = a_A h -> Rel O (h_M c) (abs_of O h) ->
    1 < N -> m_n m = a_n h -> matrix_good O m -> a_n h <= length b -> a_n h <= length x ->
    let r := refine O (spec_solve O (abs_of O h) tran rk) (fun v => mat_mul O m tran v v) (tadd O) (firstn (a_n h) b) N in
    exists w' st v, lib_hifir O junk w k c m b x N tran rk = Ok (w', st, v) /\
      OStatus st v = snd (spec_out O a (a_n h) x r) /\ WRel w' (fst (spec_out O a (a_n h) x r)).
  Proof.
    intros w a k c h m b x junk N tran rk R L EA Rc HN En MG Lb Lx r. unfold lib_hifir.
    destruct (m_ptr m) eqn:EP.
    2: { exfalso. destruct MG as (_ & A & E & _). unfold mat_cs in E. rewrite EP in E. discriminate. }
    rewrite En. rewrite (proj2 (Nat.ltb_ge _ _)) by auto. rewrite (proj2 (Nat.ltb_ge _ _)) by auto. cbn [orb].
    eapply (out_ok w a k c h (a_n h) x junk (OpHifir (mat_mul O m) (firstn (a_n h) b) N (firstn (a_n h) x) tran rk) r); auto.
    - cbn [op_good]. rewrite (proj2 (Nat.leb_gt _ _)) by auto. rewrite !firstn_len by auto.
      pose proof (mat_mul_good O m tran MG) as MM. destruct MG as (P & _). rewrite En in *. auto.
    - cbn [spec_step]. rewrite (proj2 (Nat.leb_gt _ _)) by auto. reflexivity.
  Qed.

  Lemma live_mat : forall w a k m, WRel w a -> live (amats a) k = Some m -> deref (wmats w) k = Ok m.
  Proof. intros w a k m R L. rewrite (W_m _ _ R). now apply live_deref. Qed.

  Lemma Rel_zero : forall A, Rel O (hif_zero O) (abs_of O (mkAH [] 0 A)).
  Proof. intros. constructor; simpl; auto; intros x; right; exists x; auto. Qed.

  Lemma setup_ok : forall w a k c h A B par, WRel w a -> deref (whifs w) k = Ok c -> Rel O (h_M c) (abs_of O h) ->
    fact_good O Par fact a (match B with Some _ => B | None => A end) par ->
    exists w' s, setup O Par fact w (Some k) A B par = Ok (w', s) /\
      s = snd (spec_setup O Par fact a k h A B par) /\ WRel w' (fst (spec_setup O Par fact a k h A B par)).
  Proof.
    intros w a k c h A B par R D Rc FG. unfold setup, spec_setup. rewrite D. cbn [bind].
    set (A' := match A with Some _ => A | None => B end).
    set (f := match B with Some _ => B | None => A end) in *.
    assert (R1 : WRel (put_hif O w k (mkHdl (h_M c) A')) (whif O a (upd (ahifs a) k (Some (mkAH (a_lv h) (a_n h) A'))))).
    { apply WRel_put; auto. }
    destruct f as [f|].
    - destruct FG as (m & Lm & Hp & G).
      rewrite (live_mat _ _ f m R1) by exact Lm. cbn [bind]. rewrite Lm.
      destruct (factor_ok _ _ k (mkHdl (h_M c) A') A' m par R1) as (w' & s & E & Es & R'); auto.
      { exists h. exact Rc. }
      rewrite E. eexists; eexists; split; [reflexivity|].
      unfold spec_factor in *. destruct (fact m par) as [lv ok]. destruct ok; cbn [fst snd] in *; (split; [exact Es|]);
      unfold whif, fails in *; cbn [amats ahifs amsg] in *; rewrite upd2 in R'; exact R'.
    - eexists; eexists; split; [reflexivity|]. split; [reflexivity|exact R1].
  Qed.

  Lemma query_ok : forall w a k h (f : HIF O -> nat) n, WRel w a -> live (ahifs a) k = Some h ->
    (forall s, hprecs s = a_lv h -> f s = n) -> query O f w (Some k) = Ok n.
  Proof.
    intros w a k h f n R L Hf. destruct (live_hif w a k h R L) as (c & D & Rc & EA).
    unfold query. rewrite D. cbn [bind]. f_equal. apply Hf. apply (R_p _ _ _ Rc).
  Qed.

  Lemma query_none : forall w f, query O f w None = Ok 0. Proof. reflexivity. Qed.

  Lemma nol : forall {X} (l : list (option X)) k, null_or_live l (Some k) -> exists x, live l k = Some x.
  Proof. intros X l k H. simpl in H. destruct (live l k); [eauto|congruence]. Qed.

  Lemma upd_app_last : forall {X} (l : list X) x y, upd (l ++ [x]) (length l) y = l ++ [y].
  Proof. induction l; simpl; intros; [|f_equal]; auto. Qed.

  Lemma exec_ok : forall junk w a c, WRel w a -> call_good O Par fact a c ->
    exists w', exec O Par fact to_size junk w c = Some (w', snd (spec_call O Par fact to_size a c)) /\
      WRel w' (fst (spec_call O Par fact to_size a c)).
  Proof.
    intros junk w a c R G. destruct c; simpl in G.
    - (* create matrix *)
      cbn [exec spec_call]. unfold createMatrix. rewrite given_all, (W_m _ _ R). eexists; split; [reflexivity|].
      destruct R. constructor; simpl; auto.
    - (* destroy matrix *)
      destruct m as [k|]; cbn [exec spec_call destroyMatrix].
      + destruct (nol _ _ G) as (m & L). rewrite (live_mat w a k m R L). cbn [bind st1]. eexists; split; [reflexivity|].
        destruct R. constructor; simpl; auto. congruence.
      + simpl. eauto.
    - (* wrap *)
      destruct m as [k|]; cbn [exec spec_call wrapMatrix].
      + destruct (nol _ _ G) as (m & L). rewrite (live_mat w a k m R L). cbn [bind]. rewrite L, given_all.
        destruct (given O n p i v); cbn [st1]; eexists; (split; [reflexivity|]); cbn [fst]; auto.
        destruct R. constructor; simpl; auto. congruence.
      + simpl. eauto.
    - destruct m as [k|]; cbn [exec spec_call getMatrixSize].
      + destruct (nol _ _ G) as (m & L). rewrite (live_mat w a k m R L), L. simpl. eauto.
      + simpl. eauto.
    - destruct m as [k|]; cbn [exec spec_call getMatrixNnz].
      + destruct G as (m & p & L & Ep & Lp). rewrite (live_mat w a k m R L), L. cbn [bind]. rewrite Ep.
        rewrite !get_nth with (d := 0) by lia. simpl. eauto.
      + simpl. eauto.
    - (* create *)
      destruct G as (GA & GB & FG). cbn [exec spec_call]. unfold create.
      set (w1 := with_hifs O w (whifs w ++ [Some (mkHdl (hif_zero O) None)])).
      assert (LL : length (whifs w) = length (ahifs a)) by (pose proof (W_h _ _ R) as F; clear - F; induction F; simpl; congruence).
      assert (R1 : WRel w1 (whif O a (ahifs a ++ [Some (mkAH [] 0 None)]))).
      { destruct R. constructor; simpl; auto. apply Forall2_app; auto. constructor; auto. simpl. split; auto. apply Rel_zero. }
      assert (D : deref (whifs w1) (length (whifs w)) = Ok (mkHdl (hif_zero O) None)).
      { unfold deref, w1. simpl. rewrite nth_error_app2, Nat.sub_diag by lia. reflexivity. }
      destruct (setup_ok w1 _ (length (whifs w)) _ (mkAH [] 0 None) A B par R1 D (Rel_zero None)) as (w2 & s & E & Es & R2).
      { exact FG. }
      rewrite E. cbn [bind].
      assert (SE : exists y, (spec_setup O Par fact (whif O a (ahifs a ++ [None])) (length (ahifs a)) (mkAH [] 0 None) A B par) =
                   spec_setup O Par fact (whif O a (ahifs a ++ [Some (mkAH [] 0 None)])) (length (whifs w)) (mkAH [] 0 None) A B par /\
                   (fst (spec_setup O Par fact (whif O a (ahifs a ++ [None])) (length (ahifs a)) (mkAH [] 0 None) A B par) =
                    mkAW (amats a) (ahifs a ++ [Some y]) (match s with HIFIR_ERROR => true | _ => amsg a end))).
      { rewrite LL. unfold spec_setup in *. destruct (match B with Some _ => B | None => A end).
        - destruct FG as (m & Lm & _). cbn [amats whif] in *. rewrite Lm in *. unfold spec_factor in *.
          destruct (fact m par) as [lv ok]. unfold whif in *. cbn [amats ahifs amsg] in *. rewrite !upd_app_last in *.
          rewrite LL in Es. rewrite !upd_app_last in Es.
          destruct ok; cbn [fst snd] in *; subst s; eexists; split; reflexivity.
        - unfold whif in *. cbn [amats ahifs amsg] in *. rewrite !upd_app_last in *. cbn [fst snd] in *. subst s.
          eexists; split; reflexivity. }
      destruct SE as (y & SE1 & SE2). rewrite SE1 in *. clear SE1.
      destruct (spec_setup O Par fact (whif O a (ahifs a ++ [Some (mkAH [] 0 None)])) (length (whifs w)) (mkAH [] 0 None) A B par) as [a2 s2].
      cbn [fst snd] in *. subst s2.
      destruct s; try (eexists; split; [rewrite LL; reflexivity|exact R2]).
      (* the handle is destroyed again *)
      unfold destroy.
      assert (exists c, deref (whifs w2) (length (whifs w)) = Ok c) as (c & Dc).
      { destruct (live_hif w2 a2 (length (ahifs a)) y R2) as (c & Dc & _).
        - rewrite SE2. unfold live. simpl. rewrite nth_error_app2, Nat.sub_diag by lia. reflexivity.
        - rewrite LL. eauto. }
      rewrite Dc. cbn [bind]. eexists; split; [reflexivity|]. cbn [fst].
      destruct R2 as [M2 G2 H2]. rewrite SE2 in *. simpl in M2, G2, H2. constructor; simpl; auto.
      rewrite LL. rewrite <- (upd_app_last (ahifs a) (Some y) None). apply Forall2_upd; simpl; auto.
    - (* destroy *)
      destruct h as [k|]; cbn [exec spec_call destroy].
      + destruct (nol _ _ G) as (h & L). destruct (live_hif w a k h R L) as (c & D & _). rewrite D. cbn [bind st1].
        eexists; split; [reflexivity|]. destruct R. constructor; simpl; auto. apply Forall2_upd; simpl; auto.
      + simpl. eauto.
    - (* setup *)
      destruct G as (GH & GA & GB & FG). destruct h as [k|]; cbn [exec spec_call].
      + destruct (nol _ _ GH) as (h & L). destruct (live_hif w a k h R L) as (c & D & Rc & EA).
        destruct (setup_ok w a k c h A B par R D Rc FG) as (w' & s & E & Es & R'). rewrite E, L. cbn [st1 of_st fst snd].
        subst s. eauto.
      + simpl. eauto.
    - (* update *)
      destruct G as (GH & GA). destruct h as [k|]; cbn [exec spec_call update].
      + destruct (nol _ _ GH) as (h & L). destruct (live_hif w a k h R L) as (c & D & Rc & EA). rewrite D, L. cbn [bind].
        assert (R1 : WRel (put_hif O w k (mkHdl (h_M c) A)) (whif O a (upd (ahifs a) k (Some (mkAH (a_lv h) (a_n h) A))))).
        { apply WRel_put; auto. }
        rewrite (R_p _ _ _ Rc). cbn [abs_of aprecs]. destruct A as [k'|].
        * destruct (nol _ _ GA) as (m & Lm). rewrite (live_mat _ _ k' m R1) by exact Lm. cbn [bind]. rewrite (nrows_ok c h Rc). cbn [bind].
          rewrite Lm. destruct (a_lv h); cbn [st1]; eexists; (split; [reflexivity|exact R1]).
        * cbn [st1]. eexists; (split; [reflexivity|exact R1]).
      + simpl. eauto.
    - (* refactorize *)
      destruct G as (GH & GB & FG). destruct h as [k|]; cbn [exec spec_call refactorize].
      + destruct (nol _ _ GH) as (h & L). destruct (live_hif w a k h R L) as (c & D & Rc & EA). rewrite D, L. cbn [bind].
        destruct B as [f|].
        * destruct FG as (m & Lm & Hp & FG). rewrite (live_mat _ _ f m R Lm). cbn [bind]. rewrite Lm.
          destruct (factor_ok w a k c (a_A h) m par R) as (w' & s & E & Es & R'); eauto.
          rewrite E. cbn [st1 of_st fst snd]. subst s. eauto.
        * simpl. eauto.
      + simpl. eauto.
    - (* apply *)
      destruct h as [k|]; cbn [exec spec_call apply].
      2: { simpl. eauto. }
      destruct G as (h & L & G). destruct (live_hif w a k h R L) as (c & D & Rc & EA). rewrite D, L. cbn [bind].
      destruct ((nirs <=? 1)%Z || is_mul op) eqn:EB.
      + destruct op; cbn [is_mul is_tran].
        * rewrite orb_false_r in EB. rewrite EB.
          destruct (lib_solve_ok w a k c h b x junk false R L EA Rc G) as (w' & st' & v & E & Ev & R'). rewrite E. cbn [st2]. rewrite Ev. eauto.
        * rewrite orb_false_r in EB. rewrite EB.
          destruct (lib_solve_ok w a k c h b x junk true R L EA Rc G) as (w' & st' & v & E & Ev & R'). rewrite E. cbn [st2]. rewrite Ev. eauto.
        * destruct (lib_mul_ok w a k c h b x junk false R L EA Rc G) as (w' & st' & v & E & Ev & R'). rewrite E. cbn [st2]. rewrite Ev. eauto.
        * destruct (lib_mul_ok w a k c h b x junk true R L EA Rc G) as (w' & st' & v & E & Ev & R'). rewrite E. cbn [st2]. rewrite Ev. eauto.
      + assert (EN : (nirs <=? 1)%Z = false /\ is_mul op = false) by (apply orb_false_iff; auto). destruct EN as [EN EM].
        assert (N1 : 1 < Z.to_nat nirs) by (apply Z.leb_gt in EN; lia).
        assert (EL : (1 <? nirs)%Z = true) by (apply Z.ltb_lt; apply Z.leb_gt in EN; lia).
        rewrite EM, EL. cbn [orb]. rewrite EA. 
        assert (S1 : forall tran, tran = is_tran op ->
          exists w', match match a_A h with
                     | Some a0 => m <- deref (wmats w) a0 ;; nr <- hif_nrows O (h_M c) ;;
                        (if negb (nr =? m_n m) then Ok (w, MISMATCHED_SIZES, None)
                         else lib_hifir O junk w k c m b x (Z.to_nat nirs) tran
                                (to_size (if (rank =? DEFAULT_RANK)%Z then (-1)%Z else rank)))
                     | None => Ok (w, NULL_OBJ, None) end with Ok (w1, s, x1) => Some (w1, OStatus s x1) | _ => None end
              = Some (w', snd match a_A h with
                     | Some a0 => match live (amats a) a0 with
                        | Some m => if m_n m =? a_n h then spec_out O a (a_n h) x
                             (refine O (spec_solve O (abs_of O h) tran (to_size (if (rank =? DEFAULT_RANK)%Z then (-1)%Z else rank)))
                               (fun v => mat_mul O m tran v v) (tadd O) (firstn (a_n h) b) (Z.to_nat nirs))
                            else (a, OStatus MISMATCHED_SIZES None)
                        | None => (a, ONum 0) end
                     | None => (a, OStatus NULL_OBJ None) end) /\
              WRel w' (fst match a_A h with
                     | Some a0 => match live (amats a) a0 with
                        | Some m => if m_n m =? a_n h then spec_out O a (a_n h) x
                             (refine O (spec_solve O (abs_of O h) tran (to_size (if (rank =? DEFAULT_RANK)%Z then (-1)%Z else rank)))
                               (fun v => mat_mul O m tran v v) (tadd O) (firstn (a_n h) b) (Z.to_nat nirs))
                            else (a, OStatus MISMATCHED_SIZES None)
                        | None => (a, ONum 0) end
                     | None => (a, OStatus NULL_OBJ None) end)).
        { intros tran Et. destruct (a_A h) as [ka|] eqn:EAh.
          - destruct G as (m & Lm & G). rewrite (live_mat w a ka m R Lm), Lm. cbn [bind]. rewrite (nrows_ok c h Rc). cbn [bind].
            rewrite (Nat.eqb_sym (a_n h)). destruct (Nat.eqb_spec (m_n m) (a_n h)) as [En|En]; cbn [negb].
            + destruct (G En) as (MG & Lb & Lx).
              destruct (lib_hifir_ok w a k c h m b x junk (Z.to_nat nirs) tran
                (to_size (if (rank =? DEFAULT_RANK)%Z then (-1)%Z else rank)) R L) as (w' & st' & v & E & Ev & R'); auto; try congruence.
              rewrite E. rewrite Ev. eauto.
            + simpl. eauto.
          - simpl. eauto. }
        destruct op; try discriminate; rewrite EN; apply S1; reflexivity.
    - (* solve *)
      destruct h as [k|]; cbn [exec spec_call c_solve].
      + destruct G as (h & L & G). destruct (live_hif w a k h R L) as (c & D & Rc & EA). rewrite D, L. cbn [bind].
        destruct (lib_solve_ok w a k c h b x junk false R L EA Rc G) as (w' & st' & v & E & Ev & R'). rewrite E. cbn [st2]. rewrite Ev. eauto.
      + simpl. eauto.
    - destruct h as [k|]; cbn [exec spec_call]; [|rewrite query_none; simpl; eauto]. destruct (nol _ _ G) as (h & L). rewrite L.
      rewrite (query_ok w a k h (hif_nnz O) (list_sum (map (prec_nnz O) (a_lv h))) R L) by (intros s E; rewrite nnz_sum; now rewrite E).
      simpl. eauto.
    - destruct h as [k|]; cbn [exec spec_call]; [|rewrite query_none; simpl; eauto]. destruct (nol _ _ G) as (h & L). rewrite L.
      rewrite (query_ok w a k h (levels O) (spec_levels O (a_lv h)) R L)
        by (intros s E; unfold levels, spec_levels, some_n; rewrite E; destruct (a_lv h) as [|P l]; [reflexivity|]; destruct (rev (P :: l)) eqn:ER; [|lia]; apply (f_equal (@length _)) in ER; rewrite rev_length in ER; discriminate).
      simpl. eauto.
    - destruct h as [k|]; cbn [exec spec_call]; [|rewrite query_none; simpl; eauto]. destruct (nol _ _ G) as (h & L). rewrite L.
      rewrite (query_ok w a k h (hif_schur_size O) (spec_schur_size O (a_lv h)) R L)
        by (intros s E; unfold hif_schur_size, last_prec, spec_schur_size; rewrite E; destruct (rev (a_lv h)); reflexivity).
      simpl. eauto.
    - destruct h as [k|]; cbn [exec spec_call]; [|rewrite query_none; simpl; eauto]. destruct (nol _ _ G) as (h & L). rewrite L.
      rewrite (query_ok w a k h (hif_schur_rank O) (spec_schur_rank O (a_lv h)) R L)
        by (intros s E; unfold hif_schur_rank, last_prec, spec_schur_rank; rewrite E; destruct (rev (a_lv h)); reflexivity).
      simpl. eauto.
    - cbn [exec spec_call]. unfold getErrorMsg. rewrite (W_g _ _ R). eexists; split; [reflexivity|].
      destruct R. constructor; simpl; auto.
  Qed.

  Lemma crun_ok : forall h w a, WRel w a -> calls_good O Par fact to_size a h ->
    exists w', crun O Par fact to_size w h = Some (w', spec_crun O Par fact to_size a h).
  Proof.
    induction h as [|[junk c] h IH]; intros w a R G.
    - simpl. eauto.
    - destruct G as [G1 G2]. destruct (exec_ok junk w a c R G1) as (w' & E & R').
      destruct (IH _ _ R' G2) as (w'' & E'). cbn [crun spec_crun]. rewrite E, E'.
      destruct (spec_call O Par fact to_size a c). eauto.
  Qed.
End C.
