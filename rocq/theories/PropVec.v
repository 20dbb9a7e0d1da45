(** * Properties C14-C17: permutation objects, sparse accumulator, dropping. *)
From Coq Require Import List Arith Lia Bool Permutation ZArith QArith Qcanon Qround.
From Verif Require Import Base Scalar Spec Mag VecModel VecSpec VecProofs PropUtil.
Import ListNotations.
Close Scope Q_scope. Close Scope Qc_scope. Open Scope nat_scope.

(** ** C14: permutation objects *)

Theorem C14_build_inv : forall n P, is_perm n (bp P) -> length (bpi P) = n ->
  exists P', build_inv P = Ok P' /\ bp P' = bp P /\ is_inv n (bp P') (bpi P').
Proof. exact build_inv_l. Qed.
Print Assumptions C14_build_inv.

(** A call on a permutation object: exchange two entries of the permutation, or of its inverse. *)
Inductive bpop : Type := Exch (i j : nat) | ExchInv (i j : nat).
Definition bp_step (o : bpop) (P : BiPerm) : res BiPerm :=
  match o with Exch i j => interchange P i j | ExchInv i j => interchange_inv P i j end.
Definition bpop_ok (n : nat) (o : bpop) : Prop :=
  match o with Exch i j => i < n /\ j < n | ExchInv i j => i < n /\ j < n end.

(** Whatever the sequence of exchanges, [p] and [p_inv] stay inverse bijections. *)
Theorem C14_history_inverse : forall n (l : list bpop) P,
  is_inv n (bp P) (bpi P) -> (forall o, In o l -> bpop_ok n o) ->
  exists P', for_list l bp_step P = Ok P' /\ is_inv n (bp P') (bpi P').
Proof.
  induction l as [|o l IH]; intros P H Ho.
  - exists P. split; auto.
  - assert (Hs : exists P1, bp_step o P = Ok P1 /\ is_inv n (bp P1) (bpi P1)).
    { pose proof (Ho o (or_introl eq_refl)) as K. destruct o as [i j|i j]; simpl in *; destruct K as (Hi & Hj).
      - destruct (interchange_l n P i j H Hi Hj) as (P1 & E & I & _). eauto.
      - rewrite interchange_inv_eq. destruct (interchange_l n (mkBP (bpi P) (bp P)) i j) as (P1 & E & I & _); auto.
        { simpl. now apply is_inv_sym. }
        rewrite E. eexists. split; [reflexivity|]. simpl. now apply is_inv_sym. }
    destruct Hs as (P1 & E1 & I1). destruct (IH P1 I1) as (P2 & E2 & I2).
    { intros; apply Ho; simpl; auto. }
    exists P2. simpl. rewrite E1. simpl. auto.
Qed.
Print Assumptions C14_history_inverse.

(** One exchange does exactly what it says: entries [i], [j] trade places, nothing else moves. *)
Theorem C14_interchange_effect : forall n P i j, is_inv n (bp P) (bpi P) -> i < n -> j < n ->
  exists P', interchange P i j = Ok P' /\
    nth i (bp P') 0 = nth j (bp P) 0 /\ nth j (bp P') 0 = nth i (bp P) 0 /\
    forall k, k <> i -> k <> j -> nth k (bp P') 0 = nth k (bp P) 0.
Proof.
  intros n P i j H Hi Hj. destruct (interchange_l n P i j H Hi Hj) as (P' & E & _ & A & B & C). eauto 6.
Qed.
Print Assumptions C14_interchange_effect.

Theorem C14_interchange_inv_effect : forall n P i j, is_inv n (bp P) (bpi P) -> i < n -> j < n ->
  exists P', interchange_inv P i j = Ok P' /\
    nth i (bpi P') 0 = nth j (bpi P) 0 /\ nth j (bpi P') 0 = nth i (bpi P) 0 /\
    forall k, k <> i -> k <> j -> nth k (bpi P') 0 = nth k (bpi P) 0.
Proof.
  intros n P i j H Hi Hj. rewrite interchange_inv_eq.
  destruct (interchange_l n (mkBP (bpi P) (bp P)) i j) as (P' & E & _ & A & B & C); auto.
  { simpl. now apply is_inv_sym. }
  rewrite E. simpl in *. eexists. split; [reflexivity|]. simpl. auto.
Qed.
Print Assumptions C14_interchange_inv_effect.

Theorem C14_make_eye : forall n P, length (bp P) = n -> length (bpi P) = n ->
  bi_make_eye P = Ok (mkBP (seq 0 n) (seq 0 n)) /\ is_inv n (seq 0 n) (seq 0 n).
Proof.
  intros n P H1 H2. split. now apply bi_make_eye_l. unfold is_inv. rewrite seq_length.
  assert (N : forall i, i < n -> nth i (seq 0 n) 0 = i) by (intros; rewrite seq_nth; auto).
  repeat split; auto; repeat rewrite N; auto.
Qed.
Print Assumptions C14_make_eye.

Theorem C14_is_eye : forall n p, is_perm n p -> (is_eye p = true <-> p = seq 0 n).
Proof. exact is_eye_l. Qed.
Print Assumptions C14_is_eye.

(** Without the guarantee that [p] is a permutation the test is not reliable. *)
Theorem C14_is_eye_nonperm_refuted : exists p, is_eye p = true /\ p <> seq 0 (length p).
Proof. exists [0;0]. split; [reflexivity|discriminate]. Qed.
Print Assumptions C14_is_eye_nonperm_refuted.

Example C14_hyps : is_perm 3 [2;0;1] /\ is_inv 3 [2;0;1] [1;2;0] /\
  build_inv (mkBP [2;0;1] [9;9;9]) = Ok (mkBP [2;0;1] [1;2;0]) /\
  for_list [Exch 0 1; ExchInv 2 0] bp_step (mkBP [2;0;1] [1;2;0]) = Ok (mkBP [2;0;1] [1;2;0]).
Proof.
  assert (I : is_inv 3 [2;0;1] [1;2;0]).
  { split; [reflexivity|split; [reflexivity|split]]; intros i Hi;
      (destruct i as [|[|[|i]]]; [simpl; split; lia|simpl; split; lia|simpl; split; lia|lia]). }
  split; [eapply is_inv_perm; exact I|]. split; [exact I|]. split; reflexivity.
Qed.

(** ** C15: accumulator *)

(** After any history of uses of a fresh accumulator (each: reset, push, maybe
    restore) in which a tag is reused only after a restore, the indices held are
    the distinct indices pushed in the last use, in order of first push, and no
    value slot has been written. *)
Theorem C15_accumulator_history : forall (O : Ops) n (jv : list (T O)) ji h d,
  length jv = n -> length ji = n -> tags_ok h -> h <> [] ->
  (forall ph j, In ph h -> In j (ph_push ph) -> j < n) ->
  exists v, run_phases h (sv_new n jv ji) = Ok v /\
    held v = firsts (ph_push (last h d)) /\ NoDup (held v) /\ sv_vals v = jv /\ sv_ok n v.
Proof.
  intros O n jv ji h d L1 L2 HT HN HR.
  assert (K0 : sv_ok n (sv_new n jv ji)).
  { split; simpl; auto; try lia; try (now rewrite repeat_length); try (now rewrite L2); try constructor; intros i []. }
  pose proof (run_phases_l n h (sv_new n jv ji) K0 HT) as W.
  assert (F : fresh_for n (sv_new n jv ji) h).
  { intros i s Hi E. unfold tag in E. simpl in E. rewrite nth_repeat_any in E by auto. discriminate. }
  specialize (W F HR). apply wp_inv in W. destruct W as (v & E & K & V & _ & H).
  exists v. split; auto. rewrite (H d HN). repeat split; auto; try apply K. apply firsts_nodup.
Qed.
Print Assumptions C15_accumulator_history.

(** A push reports whether the index is new. *)
Theorem C15_push_reports_new : forall (O : Ops) n (v : SV O) step pre i w,
  sv_ok n v -> (forall j, j < n -> nth j (sv_dtags v) None <> Some step) ->
  (forall j, In j pre -> j < n) -> i < n ->
  run_pushes step pre (sv_reset v) = Ok w ->
  exists w', sv_push w i step = Ok (if in_dec Nat.eq_dec i pre then false else true, w') /\
    held w' = firsts (pre ++ [i]).
Proof.
  intros O n v step pre i w K F Hp Hi E.
  pose proof (run_pushes_l n step v pre K Hp F) as W. apply (wp_ok_inv _ _ _ _ E) in W.
  destruct (push_l n step (sv_reset v) pre w i Hi Hp F W) as (w' & E' & P'). exists w'. split; auto. apply P'.
Qed.
Print Assumptions C15_push_reports_new.

(** Reusing a tag without restoring loses indices: the condition is needed. *)
Theorem C15_tag_reuse_refuted : exists (O : Ops) v, run_phases [mkPh 0 [1;2] false; mkPh 0 [2] false] (@sv_new O 3 (repeat (t0 O) 3) [0;0;0]) = Ok v /\ held v = [].
Proof. exists OZ. eexists. split; reflexivity. Qed.
Print Assumptions C15_tag_reuse_refuted.

Definition exH : list phase := [mkPh 0 [2;1;2] true; mkPh 0 [0;1;0] false; mkPh 1 [2;0;2;2] false].
Example C15_hyps : tags_ok exH /\ exH <> [] /\ (forall ph j, In ph exH -> In j (ph_push ph) -> j < 3) /\
  match run_phases exH (@sv_new OZ 3 [7;8;9]%Z [0;0;0]) with Ok v => held v = [2;0] | _ => False end.
Proof.
  split; [|split; [discriminate|split; [|vm_compute; reflexivity]]].
  - split; [left; reflexivity|]. split; [|split; [|exact I]].
    + right. intros ph [<-|[]]. discriminate.
    + right. intros ph [].
  - intros ph j H1 H2. destruct H1 as [<-|[<-|[<-|[]]]]; simpl in H2; intuition lia.
Qed.

(** ** C16: numerical dropping *)

(** Whenever the threshold [tau/kappa] is positive: exactly the entries whose
    magnitude is not at most the threshold stay, in the same relative order; no
    value changes.  Otherwise nothing happens.  No law on arithmetic is used. *)
Theorem C16_numerical_dropping : forall (O : Ops) (G : Mag O) (mdiv : M G -> M G -> M G) n tau kappa (v : SV O),
  sv_ok n v ->
  exists v', apply_num_dropping G mdiv tau kappa v = Ok v' /\ sv_ok n v' /\ sv_vals v' = sv_vals v /\
    held v' = filter (fun i => mle G (mdiv tau kappa) (m0 G)
                               || negb (mle G (mabs G (nth i (sv_vals v) (t0 O))) (mdiv tau kappa))) (held v).
Proof.
  intros O G mdiv n tau kappa v K. destruct (num_drop_l G mdiv n tau kappa v K) as (v' & E & K' & V & _ & H1 & H2).
  exists v'. repeat (split; auto). destruct (mle G (mdiv tau kappa) (m0 G)) eqn:EC; simpl.
  - rewrite H1 by auto. clear. induction (held v); simpl; auto. now f_equal.
  - now rewrite H2.
Qed.
Print Assumptions C16_numerical_dropping.

Definition qv (l : list Z) : list Qc := map (fun z => Q2Qc (inject_Z z)) l.
Definition exV : SV OQ := @mkSV OQ (qv [5;-1;3;-8;2]%Z) [3;1;0;4;2] 5 (repeat (Some 0) 5) (repeat false 5).
Lemma exV_ok : sv_ok 5 exV.
Proof.
  split; try (vm_compute; reflexivity).
  - change (held exV) with [3;1;0;4;2]. apply (NoDup_count_occ Nat.eq_dec). intros x.
    do 5 (destruct x as [|x]; [vm_compute; lia|]). vm_compute; lia.
  - change (held exV) with [3;1;0;4;2]. intros i H. simpl in H. lia.
Qed.
Example C16_hyps : sv_ok 5 exV /\
  match apply_num_dropping MQ Qcdiv (qz 4) (qz 2) exV with Ok v => held v = [3;0;2] | _ => False end.
Proof. split. apply exV_ok. vm_compute. reflexivity. Qed.

(** ** C17: space dropping *)

(** For every conforming [std::nth_element]. *)
Theorem C17_space_dropping : forall (O : Ops) (G : Mag O), MagLaws G ->
  forall (ceil_mul : M G -> nat -> nat) nth_el, nth_element_ok (mle G) nth_el ->
  forall n nnz alpha start (v : SV O), sv_ok n v ->
  let N := Nat.max (ceil_mul alpha nnz - start) 1 in
  exists v' dropped, apply_space_dropping G ceil_mul nth_el nnz alpha v start = Ok v' /\ sv_ok n v' /\
    sv_vals v' = sv_vals v /\ Permutation (held v) (held v' ++ dropped) /\
    (mle G alpha (m0 G) = true \/ length (held v) <= N -> v' = v) /\
    (mle G alpha (m0 G) = false -> length (held v') = Nat.min (length (held v)) N) /\
    (forall i j, In i (held v') -> In j dropped ->
       mle G (mabs G (nth j (sv_vals v) (t0 O))) (mabs G (nth i (sv_vals v) (t0 O))) = true).
Proof.
  intros O G L cm ne NE n nnz alpha start v K N.
  assert (EN : space_limit G cm nnz alpha start = N).
  { unfold space_limit, N. destruct (Nat.leb_spec (cm alpha nnz) start); lia. }
  destruct (space_drop_l G cm ne L NE n nnz alpha start v K) as (v' & E & K' & V & _ & H1 & H2).
  rewrite EN in *.
  destruct (mle G alpha (m0 G)) eqn:EA; [|destruct (le_lt_dec (length (held v)) N)].
  - exists v', []. assert (v' = v) by auto. subst v'. rewrite app_nil_r.
    split; [auto|]. split; [auto|]. split; [auto|]. split; [auto|]. split; [auto|].
    split; [discriminate|]. intros ? ? ? [].
  - exists v', []. assert (v' = v) by auto. subst v'. rewrite app_nil_r.
    split; [auto|]. split; [auto|]. split; [auto|]. split; [auto|]. split; [auto|].
    split; [intros; lia|]. intros ? ? ? [].
  - destruct (H2 eq_refl l) as (LL & dr & P & Q). exists v', dr.
    split; [auto|]. split; [auto|]. split; [auto|]. split; [auto|]. split; [|split; [intros; lia|auto]].
    intros [?|?]; [discriminate|lia].
Qed.
Print Assumptions C17_space_dropping.

(** A conforming selection: sorting by decreasing key. *)
Fixpoint ins {K} (lt : K -> K -> bool) (key : nat -> K) (x : nat) (l : list nat) : list nat :=
  match l with
  | [] => [x]
  | y :: t => if lt (key x) (key y) then y :: ins lt key x t else x :: l
  end.
Fixpoint isort {K} (lt : K -> K -> bool) (key : nat -> K) (l : list nat) : list nat :=
  match l with [] => [] | x :: t => ins lt key x (isort lt key t) end.
Definition sort_select {O} (G : Mag O) (key : nat -> M G) (N : nat) (l : list nat) : list nat := isort (mlt G) key l.

Lemma sort_select_ok : forall O (G : Mag O), MagLaws G -> nth_element_ok (mle G) (sort_select G).
Proof.
  intros O G L key N l HN. unfold sort_select.
  assert (PI : forall x l, Permutation (x :: l) (ins (mlt G) key x l)).
  { induction l0; simpl; auto. destruct (mlt G (key x) (key a)); auto.
    eapply perm_trans; [apply perm_swap|]. now constructor. }
  assert (PS : forall l, Permutation l (isort (mlt G) key l)).
  { induction l0; simpl; auto. eapply perm_trans; [|apply PI]. now constructor. }
  assert (SI : forall x l, (forall i j, i < j < length l -> mle G (key (nth j l 0)) (key (nth i l 0)) = true) ->
     forall i j, i < j < length (ins (mlt G) key x l) ->
     mle G (key (nth j (ins (mlt G) key x l) 0)) (key (nth i (ins (mlt G) key x l) 0)) = true).
  { induction l0 as [|y t IH]; simpl; intros Hs i j Hij; [lia|].
    assert (Ht : forall i j, i < j < length t -> mle G (key (nth j t 0)) (key (nth i t 0)) = true).
    { intros a b Hab. apply (Hs (S a) (S b)). lia. }
    destruct (mlt G (key x) (key y)) eqn:E.
    - destruct i as [|i], j as [|j]; try lia.
      + assert (Hin : In (nth j (ins (mlt G) key x t) 0) (x :: t)).
        { eapply Permutation_in. symmetry; apply PI. apply nth_In. simpl in Hij. lia. }
        cbn [nth]. destruct Hin as [<-|Hin]. { now apply mlt_le. }
        apply In_nth with (d := 0) in Hin. destruct Hin as (k & Hk & <-). apply (Hs 0 (S k)). lia.
      + simpl. apply IH; auto. simpl in Hij. lia.
    - destruct i as [|i], j as [|j]; try lia.
      + destruct j. { simpl. rewrite (ml_le G L), E. auto. }
        cbn [nth]. apply (mle_trans L) with (b := key y). { apply (Hs 0 (S j)). simpl in *. lia. } rewrite (ml_le G L), E. auto.
      + apply (Hs i j). simpl in *. lia. }
  assert (SS : forall l i j, i < j < length (isort (mlt G) key l) ->
     mle G (key (nth j (isort (mlt G) key l) 0)) (key (nth i (isort (mlt G) key l) 0)) = true).
  { induction l0; simpl; intros i j Hij; [lia|]. apply SI; auto. }
  split; auto. intros i j Hi Hj. apply SS. rewrite <- (Permutation_length (PS l)). lia.
Qed.

Definition ceilQ (a : Qc) (n : nat) : nat := Z.to_nat (Qceiling (Qmult (this a) (inject_Z (Z.of_nat n)))).
Example C17_hyps : sv_ok 5 exV /\ MagLaws MQ /\ nth_element_ok (mle MQ) (sort_select MQ) /\
  match apply_space_dropping MQ ceilQ (sort_select MQ) 3 qhalf exV 0 with Ok v => held v = [3;0] | _ => False end /\
  match apply_space_dropping MQ ceilQ (sort_select MQ) 1 qhalf exV 5 with Ok v => held v = [3] | _ => False end.
Proof.
  split; [apply exV_ok|]. split; [apply MQ_laws|]. split; [apply sort_select_ok, MQ_laws|].
  split; vm_compute; reflexivity.
Qed.
