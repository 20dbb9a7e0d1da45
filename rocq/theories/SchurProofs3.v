(** * SchurProofs3: the entries of the Schur complement over a ring. *)
From Coq Require Import List Arith Lia Bool Permutation Ring.
From Verif Require Import Base Scalar Spec CSModel CSSpec ConvModel ConvSpec BucketProofs ConvProofs ConvProofs2
  ConvProofs3 ConvProofs4 Mag VecModel VecSpec VecProofs CroutModel CroutSpec CroutProofs3 CroutProofs5 SchurModel SchurSpec SchurProofs1 SchurProofs2.
Import ListNotations.

Section RingU.
  Context {O : Ops}. Hypothesis RL : RingLaws O.
  Add Ring TSC3 : (rl_ring O RL).
  Notation lsum := (lsum O).

  Lemma ru_fold : forall j l x, fold_left (fun x u => if fst u =? j then tsub O x (snd u) else x) l x =
    tsub O x (lsum (map snd (filter (fun u : nat * T O => fst u =? j) l))).
  Proof.
    unfold ConvProofs.lsum. induction l as [|[a v] l IH]; intros x; cbn [fold_left filter map fold_right fst snd]. { ring. }
    rewrite IH. destruct (a =? j); cbn [map fold_right snd]; ring.
  Qed.
  Lemma ru_rsum : forall (A : CS O) i f, rsum A i f = lsum (map (fun e => f (fst e) (snd e)) (rowl A i)).
  Proof.
    intros. unfold rsum, rowl. induction (st A (S i) - st A i) as [|n IH]; auto.
    rewrite seq_S, !map_app, (lsum_app O RL), <- IH. unfold ConvProofs.lsum. cbn [sum map fold_right fst snd]. ring.
  Qed.
  Lemma ru_scal : forall c l, lsum (map (fun x => tmul O c x) l) = tmul O c (lsum l).
  Proof. unfold ConvProofs.lsum. induction l; cbn [map fold_right]. { ring. } rewrite IHl. ring. Qed.
  Lemma ru_flat : forall X (f : X -> list (T O)) l, lsum (flat_map f l) = lsum (map (fun x => lsum (f x)) l).
  Proof. induction l; cbn [flat_map map]; auto. rewrite (lsum_app O RL), IHl. reflexivity. Qed.
  Lemma ru_assoc : forall a b c : T O, tmul O (tmul O a b) c = tmul O a (tmul O b c). Proof. intros; ring. Qed.
  Lemma ru_sub0 : forall a : T O, tsub O a (t0 O) = a. Proof. intros; ring. Qed.
  Lemma ru_mv : forall a b : T O, tmul O (tmul O a (t0 O)) b = t0 O. Proof. intros; ring. Qed.
End RingU.

Section P.
  Context {O : Ops}.
  Notation T := (T O).
  Hypothesis RL : RingLaws O.
  Variables (n m : nat) (s t d : list T) (A : CS O) (p q qinv : list nat) (L_E U_F : CS O).
  Let N := n - m.
  Hypothesis V : valid A. Hypothesis Pn : psize A = n. Hypothesis Sn : ssize A = n.
  Hypothesis Ls : length s = n. Hypothesis Lt : length t = n. Hypothesis Hm : m < n.
  Hypothesis Pp : is_perm n p. Hypothesis Iq : is_inv n q qinv.
  Hypothesis WL : wf L_E. Hypothesis PL : psize L_E = N. Hypothesis SL : ssize L_E = m.
  Hypothesis WU : wf U_F. Hypothesis PU : psize U_F = m. Hypothesis SU : ssize U_F = N.
  Hypothesis Ld : m <= length d.
  Let start := start m s t A p qinv.
  Let updl := updl d L_E U_F.
  Let crow := crow m s t A p qinv.
  Let srow := srow m s t d A p qinv L_E U_F.

  Lemma start_eq : forall i j, i < N -> j < N -> start i j = pscaled s t (ent A) p q (m + i) (m + j).
  Proof.
    intros i j Hi Hj. unfold pscaled, scaled.
    assert (CI : forall v, In (j, v) (crow i) <-> exists w, stored A (nth (m + i) p 0) (nth (m + j) q 0) w /\ v = sval s t (nth (m + i) p 0) (nth (m + j) q 0) w).
    { intros v. unfold crow. rewrite (crow_in n m s t d A p q qinv L_E U_F) by auto. tauto. }
    assert (Hp : nth (m + i) p 0 < psize A) by (rewrite Pn; destruct Pp as (_ & R & _); apply R; unfold N in *; lia).
    destruct (stored_dec O A (nth (m + i) p 0) (nth (m + j) q 0)) as [[w Hw]|Hn].
    - rewrite (ent_stored_eq O RL A _ _ w) by (auto using valid_nodup; apply valid_nodup; auto; apply V).
      apply (start_in n m s t d A p q qinv L_E U_F); auto. apply CI. exists w. split; auto.
    - rewrite (ent_not_stored O RL) by auto. rewrite (ru_mv RL). apply start_notin. intros v Hv. apply CI in Hv. destruct Hv as (w & Hw & _). eapply Hn; eauto.
  Qed.

  Lemma upd_eq : forall i j, i < N -> lsum O (map snd (filter (fun u => fst u =? j) (updl i))) =
    sum m (fun c => tmul O (tmul O (ent L_E i c) (nth c d (t0 O))) (ent U_F c j)).
  Proof.
    intros i j Hi. unfold updl, SchurProofs2.updl. rewrite filter_flat_map, map_flat_map, (ru_flat RL).
    erewrite map_ext.
    2: { intros e. assert (E : lsum O (map snd (filter (fun u => fst u =? j) (map (fun f => (fst f, tmul O (tmul O (snd e) (nth (fst e) d (t0 O))) (snd f))) (rowl U_F (fst e)))))
        = tmul O (snd e) (tmul O (nth (fst e) d (t0 O)) (ent U_F (fst e) j))).
      { rewrite (ent_lsum O RL), <- (ru_assoc RL), <- (ru_scal RL). f_equal. rewrite map_map.
        induction (rowl U_F (fst e)) as [|[a v] l IH]; cbn [map filter fst snd]; auto. destruct (a =? j); cbn [map snd]; rewrite IH; auto. }
      exact E. }
    rewrite <- (ru_rsum RL L_E i (fun c v => tmul O v (tmul O (nth c d (t0 O)) (ent U_F c j)))).
    pose proof (rsum_mvec O RL L_E i (fun v => v) (fun c => tmul O (nth c d (t0 O)) (ent U_F c j)) WL ltac:(lia) ltac:(auto) ltac:(auto)) as E.
    cbv beta in E. rewrite E, SL. apply sum_ext. intros c _. symmetry. apply (ru_assoc RL).
  Qed.

  Lemma sexact_eq : forall i j, i < N -> j < N -> sexact m s t d A p qinv L_E U_F i j =
    schur_of (fun i j => pscaled s t (ent A) p q (m + i) (m + j)) m (ent L_E) d (ent U_F) i j.
  Proof.
    intros i j Hi Hj. unfold sexact, schur_of. rewrite (ru_fold RL). rewrite <- upd_eq by auto. f_equal. now apply start_eq.
  Qed.

  Lemma schur_ent : forall i j, i < N -> j < N -> ent (canon O N N srow) i j =
    schur_of (fun i j => pscaled s t (ent A) p q (m + i) (m + j)) m (ent L_E) d (ent U_F) i j.
  Proof.
    intros i j Hi Hj. rewrite <- sexact_eq by auto.
    destruct (canon_spec O N N srow) as (Wc & Tc & Rc). { intros a e Ha He. eapply (srow_rng n m s t d A p q qinv L_E U_F); eauto. }
    assert (F : map fst (srow i) = ridx m s t d A p qinv L_E U_F i) by apply srow_fst.
    destruct (in_dec Nat.eq_dec j (ridx m s t d A p qinv L_E U_F i)) as [I|I].
    - apply (ent_stored_eq O RL).
      + rewrite Rc by auto. rewrite F. apply asc_NoDup. apply ridx_asc.
      + unfold stored. rewrite Rc by auto. unfold srow, SchurProofs2.srow. apply in_map_iff. exists j. auto.
    - rewrite (ent_not_stored O RL).
      + symmetry. unfold sexact. rewrite (ru_fold RL). rewrite ridx_in in I. rewrite filter_none.
        * unfold lsum. cbn [map fold_right]. rewrite (ru_sub0 RL). apply start_notin. intros v Hv. apply I. apply in_or_app. right. now apply (in_map fst) in Hv.
        * intros e He. apply Nat.eqb_neq. intros <-. apply I. apply in_or_app. left. now apply in_map.
      + intros v Hv. unfold stored in Hv. rewrite Rc in Hv by auto. apply I. rewrite <- F. now apply (in_map fst) in Hv.
  Qed.
End P.
