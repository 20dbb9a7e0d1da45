(** * CApiProofs2: frame facts of the C interface, for all worlds (no legality). *)
From Coq Require Import List Arith Lia Bool ZArith.
From Verif Require Import Base Scalar Spec CSModel PrecModel BuilderModel CApiModel CApiSpec.
Import ListNotations.

Section F.
  Variable O : Ops.
  Notation T := (T O).
  Variable Par : Type.
  Variable fact : Mat O -> option Par -> list (Prec O) * bool.
  Variable to_size : Z -> nat.

  Lemma nth_error_upd_neq : forall {X} (l : list X) i j v, i <> j -> nth_error (upd l i v) j = nth_error l j.
  Proof. induction l; destruct i, j; simpl; intros; auto; try lia. Qed.
  Lemma nth_error_upd_eq : forall {X} (l : list X) i v w, nth_error l i = Some w -> nth_error (upd l i v) i = Some v.
  Proof. induction l; destruct i; simpl; intros; try discriminate; eauto. Qed.

  (** What one call may do to the world: the handles other than [k] are kept, the
      matrices are kept, a message is stored exactly when an error is reported. *)
  Definition keeps (k : option nat) (w w' : World O) (s : status) : Prop :=
    (forall j, k <> Some j -> nth_error (whifs w') j = nth_error (whifs w) j) /\
    wmats w' = wmats w /\
    wmsg w' = (wmsg w || match s with HIFIR_ERROR => true | _ => false end) /\
    (forall j h, k = Some j -> nth_error (whifs w) j = Some (Some h) -> exists h', nth_error (whifs w') j = Some (Some h')).

  Lemma keeps_refl : forall k w s, s <> HIFIR_ERROR -> keeps k w w s.
  Proof. intros k w s H. split; auto. split; auto. split; eauto. destruct s; try congruence; now rewrite orb_false_r. Qed.
  Lemma keeps_put : forall k w h s, s <> HIFIR_ERROR -> keeps (Some k) w (put_hif O w k h) s.
  Proof.
    intros k w h s H. split; [|split; [reflexivity|split]].
    - intros j Hj. simpl. apply nth_error_upd_neq. congruence.
    - simpl. destruct s; try congruence; now rewrite orb_false_r.
    - intros j h0 E E0. injection E as <-. eexists. simpl. eapply nth_error_upd_eq; eauto.
  Qed.
  Lemma keeps_putm : forall k w h, keeps (Some k) w (set_msg O (put_hif O w k h)) HIFIR_ERROR.
  Proof.
    intros k w h. split; [|split; [reflexivity|split]].
    - intros j Hj. simpl. apply nth_error_upd_neq. congruence.
    - simpl. now rewrite orb_true_r.
    - intros j h0 E E0. injection E as <-. eexists. simpl. eapply nth_error_upd_eq; eauto.
  Qed.
  Lemma keeps_trans : forall k w w1 w2 s, keeps k w w1 SUCCESS -> keeps k w1 w2 s -> keeps k w w2 s.
  Proof.
    intros k w w1 w2 s (A & B & C & D) (A' & B' & C' & D'). split; [|split; [|split]].
    - intros j Hj. rewrite A', A; auto.
    - congruence.
    - rewrite C', C. now rewrite orb_false_r.
    - intros j h E E0. destruct (D j h E E0) as (h1 & E1). eauto.
  Qed.

  (** the attached matrix *)
  Definition attached (w : World O) (k : nat) : option (option nat) :=
    match nth_error (whifs w) k with Some (Some h) => Some (h_A h) | _ => None end.

  Lemma deref_some : forall {X} (l : list (option X)) k x, deref l k = Ok x -> nth_error l k = Some (Some x).
  Proof. unfold deref. intros X l k x. destruct (nth_error l k) as [[?|]|]; intros E; inversion E; auto. Qed.
  Lemma attached_put : forall w k c h, deref (whifs w) k = Ok c -> attached (put_hif O w k h) k = Some (h_A h).
  Proof. intros w k c h D. apply deref_some in D. unfold attached. simpl. erewrite nth_error_upd_eq; eauto. Qed.
  Lemma attached_putm : forall w k c h, deref (whifs w) k = Ok c -> attached (set_msg O (put_hif O w k h)) k = Some (h_A h).
  Proof. exact attached_put. Qed.
  Lemma attached_ok : forall w k c, deref (whifs w) k = Ok c -> attached w k = Some (h_A c).
  Proof. intros w k c D. apply deref_some in D. unfold attached. now rewrite D. Qed.

  Lemma factor_frame : forall w k h m par w' s, do_factorize O Par fact w k h m par = Ok (w', s) ->
    keeps (Some k) w w' s /\ (forall c, deref (whifs w) k = Ok c -> attached w' k = Some (h_A h)).
  Proof.
    intros w k h m par w' s E. unfold do_factorize in E. destruct (m_ptr m); try discriminate.
    destruct (fact m par) as [lv ok]. destruct (factorize O (h_M h) (m_n m) (m_n m) lv ok); try discriminate;
    injection E as <- <-; split.
    - apply keeps_put. discriminate.
    - intros c D. rewrite (attached_put w k c _ D). reflexivity.
    - apply keeps_putm.
    - intros c D. rewrite (attached_putm w k c _ D). reflexivity.
  Qed.

  Lemma setup_frame : forall w h A B par w' s, setup O Par fact w h A B par = Ok (w', s) -> keeps h w w' s.
  Proof.
    intros w h A B par w' s E. destruct h as [k|]; simpl in E.
    2: { injection E as <- <-. apply keeps_refl. discriminate. }
    destruct (deref (whifs w) k) as [c| |]; try discriminate. cbn [bind] in E.
    destruct (match B with Some _ => B | None => A end) as [f|].
    - destruct (deref _ f) as [m| |]; try discriminate. cbn [bind] in E. apply factor_frame in E. destruct E as [E _].
      eapply keeps_trans; [|exact E]. apply keeps_put. discriminate.
    - injection E as <- <-. apply keeps_put. discriminate.
  Qed.

  Lemma update_frame : forall w h A w' s, update O w h A = Ok (w', s) -> keeps h w w' s.
  Proof.
    intros w h A w' s E. destruct h as [k|]; simpl in E.
    2: { injection E as <- <-. apply keeps_refl. discriminate. }
    destruct (deref (whifs w) k) as [c| |]; try discriminate. cbn [bind] in E.
    destruct A as [a|]; [|injection E as <- <-; apply keeps_put; discriminate].
    destruct (hprecs (h_M c)).
    - injection E as <- <-. apply keeps_put; discriminate.
    - destruct (deref (wmats w) a) as [m| |]; try discriminate. cbn [bind] in E.
      destruct (hif_nrows O (h_M c)) as [nr| |]; try discriminate. cbn [bind] in E.
      injection E as <- <-. apply keeps_put. destruct (m_n m =? nr); discriminate.
  Qed.

  Lemma refactorize_frame : forall w h B par w' s, refactorize O Par fact w h B par = Ok (w', s) ->
    keeps h w w' s /\ (forall k, h = Some k -> attached w' k = attached w k).
  Proof.
    intros w h B par w' s E. destruct h as [k|]; simpl in E.
    2: { injection E as <- <-. split; [apply keeps_refl; discriminate|discriminate]. }
    destruct (deref (whifs w) k) as [c| |] eqn:D; try discriminate. cbn [bind] in E.
    destruct B as [f|].
    - destruct (deref _ f) as [m| |]; try discriminate. cbn [bind] in E. apply factor_frame in E. destruct E as [E1 E2].
      split; auto. intros k0 E. injection E as <-. rewrite (E2 c D). symmetry. now apply attached_ok.
    - injection E as <- <-. split; auto. apply keeps_refl. discriminate.
  Qed.

  Lemma oc_frame : forall w k c n (x : list T) oc w' s v, deref (whifs w) k = Ok c ->
    match oc with
      | Ret s' x' => Ok (put_hif O w k (mkHdl s' (h_A c)), SUCCESS, Some (x' ++ skipn n x))
      | Throw s' => Ok (set_msg O (put_hif O w k (mkHdl s' (h_A c))), HIFIR_ERROR, None)
      | Undef => UB
      end = Ok (w', s, v) -> keeps (Some k) w w' s /\ attached w' k = attached w k.
  Proof.
    intros w k c n x oc w' s v D E. rewrite (attached_ok w k c D).
    destruct oc; try discriminate; injection E as <- <- <-; split.
    - apply keeps_put; discriminate.
    - rewrite (attached_put w k c _ D). reflexivity.
    - apply keeps_putm.
    - rewrite (attached_putm w k c _ D). reflexivity.
  Qed.

  Lemma on_arrays_frame : forall w k c nr b x f w' s v, deref (whifs w) k = Ok c ->
    on_arrays O w k c nr b x f = Ok (w', s, v) -> keeps (Some k) w w' s /\ attached w' k = attached w k.
  Proof.
    intros w k c nr b x f w' s v D E. unfold on_arrays in E. destruct (_ && _); try discriminate.
    eapply oc_frame; eauto.
  Qed.
  Lemma lib_solve_frame : forall junk w k c b x tran w' s v, deref (whifs w) k = Ok c ->
    lib_solve O junk w k c b x tran = Ok (w', s, v) -> keeps (Some k) w w' s /\ attached w' k = attached w k.
  Proof.
    intros junk w k c b x tran w' s v D E. unfold lib_solve in E. destruct (hif_nrows O (h_M c)); try discriminate.
    eapply on_arrays_frame; eauto.
  Qed.
  Lemma lib_mul_frame : forall junk w k c b x tran w' s v, deref (whifs w) k = Ok c ->
    lib_mmultiply O junk w k c b x tran = Ok (w', s, v) -> keeps (Some k) w w' s /\ attached w' k = attached w k.
  Proof.
    intros junk w k c b x tran w' s v D E. unfold lib_mmultiply in E. destruct (hif_nrows O (h_M c)); try discriminate.
    eapply on_arrays_frame; eauto.
  Qed.

  Lemma apply_frame : forall junk w h op b nirs rank x w' s v,
    apply O to_size junk w h op b nirs rank x = Ok (w', s, v) ->
    keeps h w w' s /\ (forall k, h = Some k -> attached w' k = attached w k).
  Proof.
    intros junk w h op b nirs rank x w' s v E. destruct h as [k|]; cbn [apply] in E.
    2: { injection E as <- <- <-. split; [apply keeps_refl; discriminate|discriminate]. }
    assert (G : keeps (Some k) w w' s /\ attached w' k = attached w k).
    2: { destruct G. split; auto. intros k0 E0. injection E0 as <-. auto. }
    destruct (deref (whifs w) k) as [c| |] eqn:D; try discriminate. cbn [bind] in E.
    destruct ((nirs <=? 1)%Z || is_mul op).
    - destruct (is_mul op).
      + eapply lib_mul_frame; eauto.
      + eapply lib_solve_frame; eauto.
    - destruct (h_A c) as [a|] eqn:EA.
      2: { injection E as <- <- <-. split; auto. apply keeps_refl; discriminate. }
      destruct (deref (wmats w) a) as [m| |]; try discriminate. cbn [bind] in E.
      destruct (hif_nrows O (h_M c)) as [nr| |]; try discriminate. cbn [bind] in E.
      destruct (negb (nr =? m_n m)).
      + injection E as <- <- <-. split; auto. apply keeps_refl; discriminate.
      + unfold lib_hifir in E. destruct (m_ptr m); try discriminate. destruct (_ || _); try discriminate.
        eapply oc_frame; eauto.
  Qed.

  Lemma solve_frame : forall junk w h b x w' s v, c_solve O junk w h b x = Ok (w', s, v) ->
    keeps h w w' s /\ (forall k, h = Some k -> attached w' k = attached w k).
  Proof.
    intros junk w h b x w' s v E. destruct h as [k|]; cbn [c_solve] in E.
    2: { injection E as <- <- <-. split; [apply keeps_refl; discriminate|discriminate]. }
    assert (G : keeps (Some k) w w' s /\ attached w' k = attached w k).
    2: { destruct G. split; auto. intros k0 E0. injection E0 as <-. auto. }
    destruct (deref (whifs w) k) as [c| |] eqn:D; try discriminate. cbn [bind] in E.
    eapply lib_solve_frame; eauto.
  Qed.

  (** one call *)
  Lemma exec_frame : forall junk w c w' v, exec O Par fact to_size junk w c = Some (w', v) ->
    (forall j, names_hif O Par c <> Some j -> j < length (whifs w) -> nth_error (whifs w') j = nth_error (whifs w) j) /\
    (forall j, changes_mat O Par c <> Some j -> j < length (wmats w) -> nth_error (wmats w') j = nth_error (wmats w) j) /\
    wmsg w' = (match c with CGetErrorMsg => false | _ => wmsg w || reports O v end) /\
    (c = CGetErrorMsg -> v = OMsg (wmsg w)).
  Proof.
    intros junk w c w' v E.
    assert (Q : forall f k, st3 O w (query O f w k) = Some (w', v) ->
      w' = w /\ exists n, v = ONum n).
    { intros f k E0. unfold st3 in E0. destruct (query O f w k); try discriminate. injection E0 as <- <-. eauto. }
    assert (K : forall k s x, keeps k w w' s ->
      (forall j, k <> Some j -> j < length (whifs w) -> nth_error (whifs w') j = nth_error (whifs w) j) /\
      (forall j, @None nat <> Some j -> j < length (wmats w) -> nth_error (wmats w') j = nth_error (wmats w) j) /\
      wmsg w' = wmsg w || reports O (OStatus s x)).
    { intros k s x (K1 & K2 & K3 & K4). split; [|split].
      - intros j H1 H2. auto.
      - intros. now rewrite K2.
      - rewrite K3. destruct s; reflexivity. }
    destruct c; cbn [exec names_hif changes_mat] in *;
    try (apply Q in E; destruct E as (-> & n & ->); do 2 (split; [solve [auto]|]); split; [now rewrite orb_false_r|discriminate]).
    - injection E as <- <-. simpl. do 1 (split; [solve [auto]|]). split.
      + intros j _ Hj. apply nth_error_app1. auto.
      + split; [now rewrite orb_false_r|discriminate].
    - destruct m as [k|]; simpl in E.
      + destruct (deref (wmats w) k); try discriminate. injection E as <- <-. simpl. split; [solve [auto]|]. split.
        * intros j Hj _. apply nth_error_upd_neq. congruence.
        * split; [now rewrite orb_false_r|discriminate].
      + injection E as <- <-. do 2 (split; [solve [auto]|]). split; [now rewrite orb_false_r|discriminate].
    - destruct m as [k|]; simpl in E.
      + destruct (deref (wmats w) k); try discriminate. cbn [bind] in E. destruct (all_given O n p i v0); injection E as <- <-; simpl;
        (split; [solve [auto]|]); split; auto.
        * intros j Hj _. apply nth_error_upd_neq. congruence.
        * split; [now rewrite orb_false_r|discriminate].
        * split; [now rewrite orb_false_r|discriminate].
      + injection E as <- <-. do 2 (split; [solve [auto]|]). split; [now rewrite orb_false_r|discriminate].
    - unfold st3 in E. destruct (getMatrixSize O w m); try discriminate. injection E as <- <-.
      do 2 (split; [solve [auto]|]). split; [now rewrite orb_false_r|discriminate].
    - unfold st3 in E. destruct (getMatrixNnz O w m); try discriminate. injection E as <- <-.
      do 2 (split; [solve [auto]|]). split; [now rewrite orb_false_r|discriminate].
    - (* create *)
      unfold create in E.
      set (w1 := with_hifs O w (whifs w ++ [Some (mkHdl (hif_zero O) None)])) in E.
      destruct (setup O Par fact w1 (Some (length (whifs w))) A B par) as [[w2 s]| |] eqn:ES; try discriminate. cbn [bind] in E.
      apply setup_frame in ES. destruct ES as (K1 & K2 & K3 & K4).
      assert (H1 : forall j, j < length (whifs w) -> nth_error (whifs w2) j = nth_error (whifs w) j).
      { intros j Hj. rewrite K1 by (intros E0; injection E0; lia). unfold w1. simpl. now apply nth_error_app1. }
      assert (K3' : wmsg w2 = wmsg w || match s with HIFIR_ERROR => true | _ => false end) by exact K3.
      assert (K2' : wmats w2 = wmats w) by exact K2.
      destruct s; try (injection E as <- <-; split; [solve [auto]|]; split; [intros; now rewrite K2'|];
        split; [rewrite K3'; reflexivity|discriminate]).
      simpl in E. destruct (deref (whifs w2) (length (whifs w))); try discriminate. injection E as <- <-. simpl.
      split; [|split; [intros; now rewrite K2'|split; [rewrite K3'; now rewrite !orb_true_r|discriminate]]].
      intros j _ Hj. rewrite nth_error_upd_neq by lia. auto.
    - (* destroy *)
      destruct h as [k|]; simpl in E.
      + destruct (deref (whifs w) k); try discriminate. injection E as <- <-. simpl. split; [|split; [solve [auto]|]].
        * intros j Hj _. apply nth_error_upd_neq. congruence.
        * split; [now rewrite orb_false_r|discriminate].
      + injection E as <- <-. do 2 (split; [solve [auto]|]). split; [now rewrite orb_false_r|discriminate].
    - unfold st1 in E. destruct (setup O Par fact w h A B par) as [[w2 s]| |] eqn:ES; try discriminate. injection E as <- <-.
      apply setup_frame in ES. destruct (K h s None ES) as (X1 & X2 & X3). do 3 (split; [solve [auto]|]). discriminate.
    - unfold st1 in E. destruct (update O w h A) as [[w2 s]| |] eqn:ES; try discriminate. injection E as <- <-.
      apply update_frame in ES. destruct (K h s None ES) as (X1 & X2 & X3). do 3 (split; [solve [auto]|]). discriminate.
    - unfold st1 in E. destruct (refactorize O Par fact w h B par) as [[w2 s]| |] eqn:ES; try discriminate. injection E as <- <-.
      apply refactorize_frame in ES. destruct ES as [ES _]. destruct (K h s None ES) as (X1 & X2 & X3). do 3 (split; [solve [auto]|]). discriminate.
    - unfold st2 in E. destruct (apply O to_size junk w h op b nirs rank x) as [[[w2 s] y]| |] eqn:ES; try discriminate. injection E as <- <-.
      apply apply_frame in ES. destruct ES as [ES _]. destruct (K h s y ES) as (X1 & X2 & X3). do 3 (split; [solve [auto]|]). discriminate.
    - unfold st2 in E. destruct (c_solve O junk w h b x) as [[[w2 s] y]| |] eqn:ES; try discriminate. injection E as <- <-.
      apply solve_frame in ES. destruct ES as [ES _]. destruct (K h s y ES) as (X1 & X2 & X3). do 3 (split; [solve [auto]|]). discriminate.
    - injection E as <- <-. simpl. auto.
  Qed.

  Lemma exec_attached : forall junk w c w' v k, exec O Par fact to_size junk w c = Some (w', v) ->
    (forall A B par, c <> CSetup (Some k) A B par) -> (forall A, c <> CUpdate (Some k) A) -> c <> CDestroy (Some k) ->
    k < length (whifs w) -> attached w' k = attached w k.
  Proof.
    intros junk w c w' v k E N1 N2 N3 L.
    destruct (exec_frame junk w c w' v E) as (F1 & _).
    assert (D : names_hif O Par c = Some k \/ names_hif O Par c <> Some k).
    { destruct (names_hif O Par c) as [j|]; [destruct (Nat.eq_dec j k); [left|right]; congruence|right; discriminate]. }
    destruct D as [D|D]; [|unfold attached; now rewrite F1].
    destruct c; cbn [names_hif exec] in *; try discriminate; try (rewrite D in *).
    - congruence.
    - exfalso. eapply N1. reflexivity.
    - exfalso. eapply N2. reflexivity.
    - unfold st1 in E. destruct (refactorize O Par fact w (Some k) B par) as [[w2 s]| |] eqn:ES; try discriminate. injection E as <- <-.
      apply refactorize_frame in ES. destruct ES as [_ ES]. auto.
    - unfold st2 in E. destruct (apply O to_size junk w (Some k) op b nirs rank x) as [[[w2 s] y]| |] eqn:ES; try discriminate. injection E as <- <-.
      apply apply_frame in ES. destruct ES as [_ ES]. auto.
    - unfold st2 in E. destruct (c_solve O junk w (Some k) b x) as [[[w2 s] y]| |] eqn:ES; try discriminate. injection E as <- <-.
      apply solve_frame in ES. destruct ES as [_ ES]. auto.
    - unfold st3 in E. destruct (query O (hif_nnz O) w (Some k)); try discriminate. now injection E as <- <-.
    - unfold st3 in E. destruct (query O (levels O) w (Some k)); try discriminate. now injection E as <- <-.
    - unfold st3 in E. destruct (query O (hif_schur_size O) w (Some k)); try discriminate. now injection E as <- <-.
    - unfold st3 in E. destruct (query O (hif_schur_rank O) w (Some k)); try discriminate. now injection E as <- <-.
  Qed.

  Lemma crun_msg : forall h w w' vs, crun O Par fact to_size w h = Some (w', vs) -> wmsg w' = pending O Par (wmsg w) h vs.
  Proof.
    induction h as [|[junk c] h IH]; intros w w' vs E; simpl in E.
    - injection E as <- <-. reflexivity.
    - destruct (exec O Par fact to_size junk w c) as [[w1 v]|] eqn:E1; try discriminate.
      destruct (crun O Par fact to_size w1 h) as [[w2 vs']|] eqn:E2; try discriminate. injection E as <- <-.
      rewrite (IH _ _ _ E2). cbn [pending]. f_equal.
      destruct (exec_frame junk w c w1 v E1) as (_ & _ & M & _). rewrite M. destruct c; reflexivity.
  Qed.

  Lemma crun_app : forall h h' w, crun O Par fact to_size w (h ++ h') =
    match crun O Par fact to_size w h with
    | None => None
    | Some (w1, vs) => match crun O Par fact to_size w1 h' with None => None | Some (w2, vs') => Some (w2, vs ++ vs') end
    end.
  Proof.
    induction h as [|[junk c] h IH]; intros h' w; simpl.
    - destruct (crun O Par fact to_size w h') as [[? ?]|]; auto.
    - destruct (exec O Par fact to_size junk w c) as [[w1 v]|]; auto. rewrite IH.
      destruct (crun O Par fact to_size w1 h) as [[w2 vs]|]; auto.
      destruct (crun O Par fact to_size w2 h') as [[w3 vs']|]; auto.
  Qed.

  Lemma crun_length : forall h w w' vs, crun O Par fact to_size w h = Some (w', vs) -> length vs = length h.
  Proof.
    induction h as [|[junk c] h IH]; intros w w' vs E; simpl in E.
    - injection E as <- <-. reflexivity.
    - destruct (exec O Par fact to_size junk w c) as [[w1 v]|]; try discriminate.
      destruct (crun O Par fact to_size w1 h) as [[w2 vs']|] eqn:E2; try discriminate. injection E as <- <-. simpl. f_equal. eauto.
  Qed.
End F.
