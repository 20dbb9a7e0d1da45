(** * PropMtDrop: thinning the offset blocks with several threads (C55). *)
From Coq Require Import List Arith Lia Bool Permutation ZArith QArith Qcanon.
From Verif Require Import Base Scalar Spec CSModel CSSpec ConvModel ConvSpec BucketProofs ConvProofs ConvProofs2
  ConvProofs3 ConvProofs4 Mag VecModel VecSpec VecProofs CroutModel CroutSpec SchurModel SchurSpec SchurProofs1 SchurProofs4
  MtModel MtProofs MtDropModel MtDropProofs MtDropProofs2 PropVec PropCrout PropSchur.
Import ListNotations.
Local Open Scope nat_scope.

(** The comparator of [std::nth_element] looks only at keys of elements of the range. *)
Definition keys_of_range {K} (nth_el : (nat -> K) -> nat -> list nat -> list nat) : Prop :=
  forall f g k l, (forall j, In j l -> f j = g j) -> nth_el f k l = nth_el g k l.

(** What the caller passes for a block of [n] primaries: consistent storage without
    repeated entries, increasing reference starts, a positive limit, room to keep an
    entry of a nonempty primary, a work array for the gaps. *)
Definition block_given {O} (G : Mag O) (ceil_mul : M G -> nat -> nat) n (ref : list nat) (alpha : M G) (A : CS O) (gaps : list nat) : Prop :=
  wf A /\ distinct A /\ psize A = n /\ length (ind_start A) = n + 1 /\ n + 1 <= length ref /\
  (forall i, i < n -> nth i ref 0 <= nth (S i) ref 0) /\ mlt G (m0 G) alpha = true /\
  (forall i, i < n -> rowl A i <> [] -> 1 <= ceil_mul alpha (nth (S i) ref 0 - nth i ref 0)) /\ n <= length gaps.

Lemma sort_select_local : forall O (G : Mag O), keys_of_range (sort_select G).
Proof.
  intros O G f g k l H. unfold sort_select.
  assert (PI : forall (key : nat -> M G) l x j, In j (ins (mlt G) key x l) -> j = x \/ In j l).
  { induction l0 as [|y t IH]; intros x j; cbn [ins]; [intros [->|[]]; auto|]. destruct (mlt G (key x) (key y)); cbn [In]; [|firstorder].
    intros [->|I]; auto. destruct (IH x j I); auto. }
  assert (PS : forall (key : nat -> M G) l j, In j (PropVec.isort (mlt G) key l) -> In j l).
  { induction l0 as [|y t IH]; intros j; cbn [PropVec.isort]; auto. intros I. apply PI in I. destruct I as [->|I]; [now left|right; auto]. }
  induction l as [|x l IH]; [reflexivity|]. cbn [PropVec.isort]. rewrite IH by (intros; apply H; now right).
  assert (X : forall l', (forall j, In j l' -> f j = g j) -> ins (mlt G) f x l' = ins (mlt G) g x l').
  { induction l' as [|y t IHt]; intros Hl; [reflexivity|]. cbn [ins]. rewrite (H x) by now left. rewrite (Hl y) by now left. destruct (mlt G (g x) (g y)); auto.
    f_equal. apply IHt. intros; apply Hl; now right. }
  apply X. intros j Hj. apply H. right. now apply PS in Hj.
Qed.

Lemma cloop_serial : forall O (G : Mag O) ceil_mul nth_el (ref : bool -> list nat) (alpha : bool -> M G) w n (A : CS O) gaps buf,
  nth_element_ok (mle G) nth_el -> keys_of_range nth_el -> block_given G ceil_mul n (ref w) (alpha w) A gaps -> ssize A <= length buf ->
  exists g i v F z, pdone G ceil_mul nth_el ref alpha w A gaps g i v /\
    for_range 0 n (drop_compress g) (ind_start A, nth 0 (ind_start A) 0, 0, i, v) = Ok F /\
    get (fst (fst (fst (fst F)))) n = Ok z /\
    drop_block G ceil_mul nth_el (ref w) (alpha w) A buf gaps = Ok (mkCS (psize A) (ssize A) (fst (fst (fst (fst F)))) (firstn z (snd (fst F))) (firstn z (snd F))).
Proof.
  intros O G ceil_mul nth_el ref alpha w n A gaps buf NE LOC (W & D & Pn & LI & Lr & Rm & Al & Pos & HG) HB. subst n.
  destruct (drop_block_l G ceil_mul nth_el NE (ref w) (alpha w) A buf gaps W D Lr Rm (fun _ => Pos) LI HB HG) as (B & E & _).
  destruct (serial_l G ceil_mul nth_el NE LOC ref alpha w A W D Lr Rm Pos gaps (length buf) HG HB buf eq_refl) as (g & i & v & b & E1 & PD).
  pose proof E as E0. unfold drop_block in E0. rewrite Al in E0. unfold drop_offsets in E0. rewrite LI in E0. replace (psize A + 1 - 1) with (psize A) in E0 by lia.
  rewrite E1 in E0. cbn [bind] in E0. rewrite (get_nth _ _ _ 0) in E0 by lia. cbn [bind] in E0.
  apply bind_ok in E0. destruct E0 as (F & E2 & E3). destruct F as [[[[ptr prev] pos] ind] val]. apply bind_ok in E3. destruct E3 as (z & Ez & EB). injection EB as EB.
  exists g, i, v, (ptr, prev, pos, ind, val), z. cbn [fst snd]. split; auto. split; auto. split; auto. rewrite E. now rewrite EB.
Qed.

Lemma core : forall O (G : Mag O) ceil_mul nth_el (ref : bool -> list nat) (alpha : bool -> M G) n (L_E U_F : CS O) gaps_L gaps_U buf_L buf_U,
  nth_element_ok (mle G) nth_el -> keys_of_range nth_el ->
  block_given G ceil_mul n (ref false) (alpha false) L_E gaps_L -> block_given G ceil_mul n (ref true) (alpha true) U_F gaps_U ->
  ssize L_E <= length buf_L -> ssize U_F <= length buf_U ->
  forall nthreads, 4 <= nthreads -> exists I : dconf -> Prop,
    (forall bufs, (forall v, v < nthreads -> ssize L_E <= length (bufs v) /\ ssize U_F <= length (bufs v)) -> I (dinit nthreads L_E U_F gaps_L gaps_U bufs)) /\
    (forall sched c, I c -> wp (drun G ceil_mul nth_el ref alpha n sched c) I) /\
    (forall c, I c -> ddone c ->
       drop_block G ceil_mul nth_el (ref false) (alpha false) L_E buf_L gaps_L = Ok (cs_of L_E (dc_L c)) /\
       drop_block G ceil_mul nth_el (ref true) (alpha true) U_F buf_U gaps_U = Ok (cs_of U_F (dc_U c))) /\
    (forall c, I c -> exists k, forall rounds, k <= length rounds -> (forall r, In r rounds -> forall u, u < nthreads -> In u r) ->
       exists c', drun G ceil_mul nth_el ref alpha n (concat rounds) c = Ok c' /\ ddone c').
Proof.
  intros O G ceil_mul nth_el ref alpha n L_E U_F gaps_L gaps_U buf_L buf_U NE LOC BL BU HL HU nth_ Hth.
  destruct (cloop_serial O G ceil_mul nth_el ref alpha false n L_E gaps_L buf_L NE LOC BL HL) as (gL & iL & vL & FL & zL & PDL & CL & GL & DL).
  destruct (cloop_serial O G ceil_mul nth_el ref alpha true n U_F gaps_U buf_U NE LOC BU HU) as (gU & iU & vU & FU & zU & PDU & CU & GU & DU).
  set (Bk := fun w : bool => if w then U_F else L_E). set (gp := fun w : bool => if w then gaps_U else gaps_L).
  set (g1 := fun w : bool => if w then gU else gL). set (i1 := fun w : bool => if w then iU else iL). set (v1 := fun w : bool => if w then vU else vL).
  set (F := fun w : bool => if w then FU else FL).
  destruct BL as (L1 & L2 & L3 & L4 & L5 & L6 & L7 & L8 & L9). destruct BU as (U1 & U2 & U3 & U4 & U5 & U6 & U7 & U8 & U9).
  assert (hW : forall w, wf (Bk w)) by (intros []; auto). assert (hD : forall w, distinct (Bk w)) by (intros []; auto).
  assert (hP : forall w, psize (Bk w) = n) by (intros []; auto). assert (hI : forall w, length (ind_start (Bk w)) = n + 1) by (intros []; auto).
  assert (hR : forall w, n + 1 <= length (ref w)) by (intros []; auto).
  assert (hM : forall w i, i < n -> nth i (ref w) 0 <= nth (S i) (ref w) 0) by (intros []; auto).
  assert (hA : forall w, mlt G (m0 G) (alpha w) = true) by (intros []; auto).
  assert (hPos : forall w i, i < n -> rowl (Bk w) i <> [] -> 1 <= ceil_mul (alpha w) (nth (S i) (ref w) 0 - nth i (ref w) 0)) by (intros []; auto).
  assert (hG : forall w, n <= length (gp w)) by (intros []; auto).
  assert (hT : 2 <= nth_) by lia.
  assert (hDN : forall w, pdone G ceil_mul nth_el ref alpha w (Bk w) (gp w) (g1 w) (i1 w) (v1 w)) by (intros []; auto).
  assert (hFN : forall w, for_range 0 n (drop_compress (g1 w)) (ind_start (Bk w), nth 0 (ind_start (Bk w)) 0, 0, i1 w, v1 w) = Ok (F w)) by (intros []; auto).
  assert (hU : forall w B, Fin n Bk F w B -> B = mkCS (psize (Bk w)) (ssize (Bk w)) (fst (fst (fst (fst (F w))))) (firstn (if w then zU else zL) (snd (fst (F w)))) (firstn (if w then zU else zL) (snd (F w)))).
  { intros w B HFB. unfold Fin in HFB. destruct (F w) as [[[[ptr prev] pos] ind] val] eqn:EF. destruct HFB as (z & Ez & ->). cbn [fst snd].
    destruct w; unfold F in EF; subst; cbn [fst snd] in *; congruence. }
  assert (hFG : forall w, exists B, Fin n Bk F w B).
  { intros w. unfold Fin. destruct (F w) as [[[[ptr prev] pos] ind] val] eqn:EF. eexists. exists (if w then zU else zL). split; [|reflexivity].
    destruct w; unfold F in EF; subst; exact GL || exact GU. }
  exists (dinv G ceil_mul nth_el ref alpha n nth_ Bk gp g1 i1 v1 F). split; [|split; [|split]].
  - intros bufs HB. change (dinit nth_ L_E U_F gaps_L gaps_U bufs) with (dinit nth_ (Bk false) (Bk true) (gp false) (gp true) bufs). eapply init_inv; eauto.
    intros v w Hv. destruct (HB v Hv). destruct w; auto.
  - intros sched c Hc. eapply run_inv; eauto.
  - intros c Ic Hd. assert (FF : forall w, Fin n Bk F w (cs_of (Bk w) (hs c w))). { eapply done_fin; eauto. }
    pose proof (hU false _ (FF false)) as XF. pose proof (hU true _ (FF true)) as XT. cbn in XF, XT. unfold hs, d_half in XF, XT. rewrite DL, DU. split; congruence.
  - intros c Ic. exists (S (mu n Bk c)). intros rounds Hl HR.
    assert (X : exists c', drun G ceil_mul nth_el ref alpha n (concat rounds) c = Ok c' /\ dinv G ceil_mul nth_el ref alpha n nth_ Bk gp g1 i1 v1 F c' /\ ddone c').
    { eapply rounds_l; eauto. }
    destruct X as (c' & E & _ & Dd). eauto.
Qed.

(** For four threads or more and every interleaving of their steps: nothing goes out of
    bounds, and when all threads have finished, each block is, array for array, what the
    serial code makes of it (so C37_largest_kept holds of it). *)
Theorem C55_threads_equal_serial : forall O (G : Mag O) ceil_mul nth_el (ref : bool -> list nat) (alpha : bool -> M G) n (L_E U_F : CS O) gaps_L gaps_U buf_L buf_U,
  nth_element_ok (mle G) nth_el -> keys_of_range nth_el ->
  block_given G ceil_mul n (ref false) (alpha false) L_E gaps_L -> block_given G ceil_mul n (ref true) (alpha true) U_F gaps_U ->
  ssize L_E <= length buf_L -> ssize U_F <= length buf_U ->
  forall nthreads bufs schedule, 4 <= nthreads -> (forall v, v < nthreads -> ssize L_E <= length (bufs v) /\ ssize U_F <= length (bufs v)) ->
  exists c, drun G ceil_mul nth_el ref alpha n schedule (dinit nthreads L_E U_F gaps_L gaps_U bufs) = Ok c /\
    (ddone c ->
       drop_block G ceil_mul nth_el (ref false) (alpha false) L_E buf_L gaps_L = Ok (cs_of L_E (dc_L c)) /\
       drop_block G ceil_mul nth_el (ref true) (alpha true) U_F buf_U gaps_U = Ok (cs_of U_F (dc_U c))).
Proof.
  intros O G ceil_mul nth_el ref alpha n L_E U_F gaps_L gaps_U buf_L buf_U NE LOC BL BU HL HU nth_ bufs sched Hth HB.
  destruct (core O G ceil_mul nth_el ref alpha n L_E U_F gaps_L gaps_U buf_L buf_U NE LOC BL BU HL HU nth_ Hth) as (I & H1 & H2 & H3 & _).
  destruct (wp_inv _ _ _ (H2 sched _ (H1 bufs HB))) as (c & E & Ic). exists c. split; auto.
Qed.
Print Assumptions C55_threads_equal_serial.

(** The barrier does not hang: a schedule that serves every thread often enough finishes. *)
Theorem C55_threads_finish : forall O (G : Mag O) ceil_mul nth_el (ref : bool -> list nat) (alpha : bool -> M G) n (L_E U_F : CS O) gaps_L gaps_U,
  nth_element_ok (mle G) nth_el -> keys_of_range nth_el ->
  block_given G ceil_mul n (ref false) (alpha false) L_E gaps_L -> block_given G ceil_mul n (ref true) (alpha true) U_F gaps_U ->
  forall nthreads bufs, 4 <= nthreads -> (forall v, v < nthreads -> ssize L_E <= length (bufs v) /\ ssize U_F <= length (bufs v)) ->
  exists rounds_needed, forall rounds, rounds_needed <= length rounds ->
    (forall r, In r rounds -> forall u, u < nthreads -> In u r) ->
    exists c, drun G ceil_mul nth_el ref alpha n (concat rounds) (dinit nthreads L_E U_F gaps_L gaps_U bufs) = Ok c /\ ddone c.
Proof.
  intros O G ceil_mul nth_el ref alpha n L_E U_F gaps_L gaps_U NE LOC BL BU nth_ bufs Hth HB.
  destruct (HB 0 ltac:(lia)) as (B1 & B2).
  destruct (core O G ceil_mul nth_el ref alpha n L_E U_F gaps_L gaps_U (bufs 0) (bufs 0) NE LOC BL BU B1 B2 nth_ Hth) as (I & H1 & _ & _ & H4).
  destruct (H4 _ (H1 bufs HB)) as (k & Hk). exists k. exact Hk.
Qed.
Print Assumptions C55_threads_finish.

(** Two or three threads: a team of two thins one block each, for any limits. *)
Theorem C55_pair_equal_serial : forall O (G : Mag O) ceil_mul nth_el (ref : bool -> list nat) (alpha : bool -> M G) (L_E U_F : CS O) buf_L buf_U gaps_L gaps_U L' U' schedule,
  drop_block G ceil_mul nth_el (ref false) (alpha false) L_E buf_L gaps_L = Ok L' ->
  drop_block G ceil_mul nth_el (ref true) (alpha true) U_F buf_U gaps_U = Ok U' ->
  pair_run G ceil_mul nth_el ref alpha L_E U_F buf_L buf_U gaps_L gaps_U schedule =
    Ok (if existsb (Nat.eqb 1) schedule then Some L' else None, if existsb (Nat.eqb 0) schedule then Some U' else None).
Proof.
  intros O G ceil_mul nth_el ref alpha L_E U_F buf_L buf_U gaps_L gaps_U L' U' sched EL EU. unfold pair_run.
  assert (H : forall l a b, for_list l (pair_step G ceil_mul nth_el ref alpha L_E U_F buf_L buf_U gaps_L gaps_U) (if a : bool then Some L' else None, if b : bool then Some U' else None) =
    Ok (if (a || existsb (Nat.eqb 1) l)%bool then Some L' else None, if (b || existsb (Nat.eqb 0) l)%bool then Some U' else None)).
  { induction l as [|v l IH]; intros a b; cbn [for_list existsb].
    - now rewrite !orb_false_r.
    - destruct v as [|[|v]]; cbn [pair_step Nat.eqb orb].
      + destruct b; cbn [bind orb].
        * rewrite (IH a true). reflexivity.
        * rewrite EU. cbn [bind]. rewrite (IH a true). reflexivity.
      + destruct a; cbn [bind orb].
        * rewrite (IH true b). reflexivity.
        * rewrite EL. cbn [bind]. rewrite (IH true b). reflexivity.
      + cbn [bind]. exact (IH a b). }
  exact (H sched false false).
Qed.
Print Assumptions C55_pair_equal_serial.

(** The equality needs positive limits.  With a limit of zero, which the serial code
    takes as "drop everything", the code for four threads or more passes to
    [std::nth_element] a position before the range.  (201 primaries: up to 200 the code
    is serial.) *)
Definition zeroA : CS OQ := @mkCS OQ 201 1 (0 :: repeat 1 201) [0] [qz 1].
Theorem C55_zero_limit_refuted : exists nth_el (ref : bool -> list nat) (alpha : bool -> Qc) (L_E U_F : CS OQ) gaps buf bufs schedule,
  nth_element_ok (mle MQ) nth_el /\ keys_of_range nth_el /\
  wf L_E /\ distinct L_E /\ psize L_E = 201 /\ psize U_F = 201 /\ wf U_F /\ distinct U_F /\
  (forall w, length (ref w) = 202 /\ forall i, i < 201 -> nth i (ref w) 0 <= nth (S i) (ref w) 0) /\ length gaps = 201 /\ length buf = 1 /\ (forall v, length (bufs v) = 1) /\
  (exists L' U', drop_block MQ ceilQ nth_el (ref false) (alpha false) L_E buf gaps = Ok L' /\ indices L' = [] /\
     drop_block MQ ceilQ nth_el (ref true) (alpha true) U_F buf gaps = Ok U' /\ indices U' = []) /\
  drun MQ ceilQ nth_el ref alpha 201 schedule (dinit 4 L_E U_F gaps gaps bufs) = UB.
Proof.
  exists (sort_select MQ), (fun _ => 0 :: repeat 1 201), (fun _ => qz 0), zeroA, zeroA, (repeat 0 201), [qz 0], (fun _ => [qz 0]), [0;0;0;0].
  split; [apply sort_select_ok, MQ_laws|]. split; [apply sort_select_local|].
  assert (WZ : wf zeroA) by (apply wfb_wf; vm_compute; reflexivity).
  assert (DZ : distinct zeroA).
  { intros i Hi. assert (X : length (rowl zeroA i) <= 1).
    { rewrite rowl_length. pose proof (st_mono _ zeroA WZ (S i) 201 ltac:(cbn in Hi; lia) ltac:(cbn; lia)). assert (E : st zeroA 201 = 1) by (vm_compute; reflexivity). lia. }
    destruct (rowl zeroA i) as [|a [|b l]]; cbn in X |- *; try lia; repeat constructor. intros []. }
  split; auto. split; auto. split; auto. split; auto. split; auto. split; auto. split.
  { intros w. split; [reflexivity|]. assert (R1 : forall i, i < 201 -> nth i (repeat 1 201) 0 = 1).
    { intros i Hi. rewrite (nth_indep _ 0 1) by (rewrite repeat_length; lia). apply nth_repeat. }
    intros i Hi. change (nth (S i) (0 :: repeat 1 201) 0) with (nth i (repeat 1 201) 0). rewrite R1 by lia.
    destruct i; [cbn; lia|]. change (nth (S i) (0 :: repeat 1 201) 0) with (nth i (repeat 1 201) 0). rewrite R1; lia. }
  split; [reflexivity|]. split; [reflexivity|]. split; [reflexivity|]. split; [|vm_compute; reflexivity].
  eexists. eexists. split; [vm_compute; reflexivity|]. split; [reflexivity|]. split; [vm_compute; reflexivity|]. reflexivity.
Qed.
Print Assumptions C55_zero_limit_refuted.

(** ** A concrete case *)
Definition ex_drop2 : CS OQ := @mkCS OQ 3 4 [0;1;5;7] [3;0;2;3;1;2;1] (map qz [1;-5;2;9;3;-4;1]%Z).
Definition ex_ref (w : bool) : list nat := if w then [0;1;5;7] else [0;4;5;7].
Example C55_case : block_given MQ ceilQ 3 (ex_ref false) qhalf ex_drop [9;9;9] /\ block_given MQ ceilQ 3 (ex_ref true) qhalf ex_drop2 [8;8;8;8] /\
  match drun MQ ceilQ (sort_select MQ) ex_ref (fun _ => qhalf) 3 (concat (repeat [2;0;3;1;2;2] 30)) (dinit 4 ex_drop ex_drop2 [9;9;9] [8;8;8;8] (fun v => repeat (qz (Z.of_nat v)) 5)) with
  | Ok c => forallb (fun th => match dt_pc th with DFin => true | _ => false end) (dc_th c) = true /\
      ind_start (cs_of ex_drop (dc_L c)) = [0;2;3;4] /\ indices (cs_of ex_drop (dc_L c)) = [2;3;1;1] /\
      ind_start (cs_of ex_drop2 (dc_U c)) = [0;1;3;4] /\ indices (cs_of ex_drop2 (dc_U c)) = [3;3;0;2]
  | _ => False end.
Proof.
  assert (BG : forall A ref gaps, wfb A = true -> psize A = 3 -> length (ind_start A) = 4 -> length ref = 4 -> 3 <= length gaps ->
    (forall i, i < 3 -> NoDup (map fst (rowl A i)) /\ nth i ref 0 <= nth (S i) ref 0 /\ 1 <= ceilQ qhalf (nth (S i) ref 0 - nth i ref 0)) -> block_given MQ ceilQ 3 ref qhalf A gaps).
  { intros A ref gaps H1 H2 H3 H4 H5 H6. split; [now apply wfb_wf|]. split; [intros i Hi; apply H6; lia|]. split; auto. split; auto. split; [lia|].
    split; [intros; now apply H6|]. split; [reflexivity|]. split; auto. intros. now apply H6. }
  split; [|split].
  - apply BG; try reflexivity; try (cbn; lia). intros [|[|[|i]]] Hi; try lia; (split; [|split; vm_compute; lia]); vm_compute; repeat constructor; cbn; intuition congruence.
  - apply BG; try reflexivity; try (cbn; lia). intros [|[|[|i]]] Hi; try lia; (split; [|split; vm_compute; lia]); vm_compute; repeat constructor; cbn; intuition congruence.
  - vm_compute. repeat split; reflexivity.
Qed.
