(** * AugProofs4: building the lists for a finished storage. *)
From Coq Require Import List Arith Lia Bool Sorted.
From Verif Require Import Base Scalar CSModel CSSpec ConvModel ConvSpec AugModel AugSpec AugProofs1 AugProofs2 AugProofs3.
Import ListNotations.

Section P.
  Variable O : Ops.
  Notation T := (T O).

  Definition prefix (A : CS O) (i : nat) : CS O :=
    mkCS (psize A) (ssize A) (firstn (S i) (ind_start A)) (firstn (st A i) (indices A)) (firstn (st A i) (vals A)).

  Lemma firstn_slice : forall X (a : list X) p q, p <= q -> firstn q a = firstn p a ++ slice p (q - p) a.
  Proof.
    intros X a p q H. rewrite <- (firstn_skipn p a) at 1. unfold slice.
    rewrite firstn_app. destruct (le_lt_dec (length a) p).
    - rewrite (firstn_all2 a) by lia. rewrite (skipn_all2 a) by lia. rewrite !firstn_nil.
      rewrite firstn_all2 by lia. reflexivity.
    - rewrite firstn_length, Nat.min_l by lia. f_equal. rewrite firstn_all2; auto. rewrite firstn_length. lia.
  Qed.

  Lemma slice_map : forall X (d : X) a p n, p + n <= length a -> slice p n a = map (fun k => nth k a d) (seq p n).
  Proof.
    intros X d a p n H. apply (list_ext _ _ _ d).
    - rewrite slice_length by auto. now rewrite map_length, seq_length.
    - intros i Hi. rewrite slice_length in Hi by auto. rewrite nth_slice by auto. symmetry.
      rewrite nth_indep with (d' := nth 0 a d) by (rewrite map_length, seq_length; auto).
      change (nth 0 a d) with ((fun k => nth k a d) 0). rewrite map_nth. now rewrite seq_nth.
  Qed.

  Lemma build_l : forall A : CS O, valid A -> tight A ->
    exists s, build_aug O A = Ok s /\ good O (ssize A) s (rows_of A (psize A)) /\ a_cs s = A.
  Proof.
    intros A (W & SA) (T1 & T2 & T3). unfold build_aug. cbn [a_inds a_start a_next a_end a_vp a_vpi a_cnt].
    rewrite T1. replace (psize A + 1 - 1) with (psize A) by lia.
    pose proof (wf_mono O A W) as WM. pose proof (st_mono O A W) as SM.
    match goal with |- context[for_range 0 (psize A) ?f ?s0] =>
      assert (G : wp (for_range 0 (psize A) f s0) (fun s => let '(inds, hd, nx, tl, vp, vpi, cnt) := s in
        good O (ssize A) (mkAug (prefix A (psize A)) inds hd nx tl vp vpi cnt) (rows_of A (psize A)))) end.
    { apply (for_range_inv _ (fun i s => let '(inds, hd, nx, tl, vp, vpi, cnt) := s in
        good O (ssize A) (mkAug (prefix A i) inds hd nx tl vp vpi cnt) (rows_of A i))); [lia| |].
      - assert (E : prefix A 0 = begin_assemble O A).
        { unfold prefix, begin_assemble. rewrite (wf_first O A W). simpl.
          destruct (ind_start A) as [|z t] eqn:EI. { simpl in T1. lia. }
          pose proof (wf_first O A W) as Z. unfold st in Z. rewrite EI in Z. simpl in Z. now subst z. }
        rewrite E. apply (good_begin O A).
      - intros i s Hi. destruct s as [[[[[[inds hd] nx] tl] vp] vpi] cnt]. intros G.
        wpb. apply wp_get with (d := 0); [lia|]. wpb. apply wp_get with (d := 0); [lia|].
        change (nth i (ind_start A) 0) with (st A i). change (nth (S i) (ind_start A) 0) with (st A (S i)).
        pose proof (WM i ltac:(lia)) as M1. pose proof (SM (S i) (psize A) ltac:(lia) ltac:(lia)) as M2.
        destruct (Nat.ltb_spec (st A (S i)) (st A i)); [lia|]. destruct (Nat.ltb_spec (length (indices A)) (st A (S i))); [lia|].
        cbn [orb].
        set (s := mkAug (prefix A i) inds hd nx tl vp vpi cnt) in *.
        destruct G as (SS & lab & val & L & R & MR).
        assert (LR : length (rows_of A i) = i) by (unfold rows_of; now rewrite map_length, seq_length).
        rewrite LR in R. pose proof R as (C & _ & _).
        assert (LI : length inds = st A i).
        { pose proof (k_N _ _ _ _ _ _ _ _ _ C) as KN. cbn [s prefix a_cs ind_start a_inds] in KN. rewrite <- KN.
          rewrite nth_firstn_lt by lia. reflexivity. }
        assert (LRW : length (rowl A i) = st A (S i) - st A i) by (unfold rowl; now rewrite map_length, seq_length).
        assert (MF : map fst (rowl A i) = slice (st A i) (st A (S i) - st A i) (indices A)).
        { unfold rowl. rewrite map_map. cbn [fst]. symmetry. apply slice_map. lia. }
        assert (MS : map snd (rowl A i) = slice (st A i) (st A (S i) - st A i) (vals A)).
        { unfold rowl. rewrite map_map. cbn [snd]. symmetry. apply slice_map. lia. }
        destruct (push_rep O i 0 (ssize A) s lab val L (psize A) (ssize A) (rowl A i)
                    [slice (st A i) (st A (S i) - st A i) (indices A)] R)
          as (s' & lab' & val' & L' & E & R' & MR' & ECS & _).
        + simpl. now rewrite app_nil_r, MF.
        + intros j Hj. unfold rowl in Hj. rewrite map_map in Hj. cbn [fst] in Hj. apply in_map_iff in Hj.
          destruct Hj as (k & <- & Hk). apply in_seq in Hk. split; [lia|]. apply W. lia.
        + intros a b Hab Hb. rewrite MF. rewrite LRW in Hb. rewrite !nth_slice by lia.
          apply (SA i); lia.
        + assert (EP : mkCS (psize A) (ssize A) (ind_start (a_cs s) ++ [length (a_inds s) + length (rowl A i)])
              (indices (a_cs s) ++ map fst (rowl A i)) (vals (a_cs s) ++ map snd (rowl A i)) = prefix A (S i)).
          { unfold s, prefix. cbn [a_cs a_inds ind_start indices vals]. rewrite MF, MS, LI, LRW.
            rewrite (firstn_slice _ (indices A) (st A i) (st A (S i))) by lia.
            rewrite (firstn_slice _ (vals A) (st A i) (st A (S i))) by lia.
            rewrite (firstn_slice _ (ind_start A) (S i) (S (S i))) by lia.
            replace (S (S i) - S i) with 1 by lia. rewrite (slice_map _ 0 (ind_start A)) by lia.
            replace (st A i + (st A (S i) - st A i)) with (st A (S i)) by lia. reflexivity. }
          rewrite EP in E, ECS. unfold with_nodes in E.
          cbn [s a_inds a_start a_next a_end a_vp a_vpi a_cnt for_list] in E.
          destruct (push_nodes i (slice (st A i) (st A (S i) - st A i) (indices A)) (inds, hd, nx, tl, vp, vpi, cnt)) as [t| |] eqn:EPN;
            cbn [bind] in E; try discriminate.
          destruct t as [[[[[[inds1 hd1] nx1] tl1] vp1] vpi1] cnt1]. injection E as <-. apply wp_ok.
          split. { reflexivity. }
          exists lab', val', L'. unfold rows_of. rewrite map_length, seq_length. split; [exact R'|].
          rewrite seq_S, map_app. apply MR'; auto. }
    apply wp_inv in G. destruct G as ([[[[[[inds hd] nx] tl] vp] vpi] cnt] & -> & G). cbn [bind].
    eexists. split; [reflexivity|]. cbn [a_cs]. split; auto.
    assert (E : prefix A (psize A) = A).
    { unfold prefix. rewrite !firstn_all2 by lia. destruct A; reflexivity. }
    now rewrite E in G.
  Qed.
End P.
