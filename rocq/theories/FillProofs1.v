(** * FillProofs1: the fill of one Crout update (partial correctness). *)
From Coq Require Import List Arith Lia Bool Permutation.
From Verif Require Import Base Scalar Spec CSModel CSSpec ConvModel ConvSpec Mag VecModel PruneModel CroutModel AugModel PivotModel PruneProofs FillSpec.
Import ListNotations.

(** If it succeeds, the result satisfies [P]. *)
Definition okp {X} (m : res X) (P : X -> Prop) : Prop := forall a, m = Ok a -> P a.
Lemma okp_bind : forall X Y (m : res X) (f : X -> res Y) P, okp m (fun a => okp (f a) P) -> okp (bind m f) P.
Proof. intros X Y [a| |] f P H b E; try discriminate. exact (H a eq_refl b E). Qed.
Lemma okp_ok : forall X (a : X) (P : X -> Prop), P a -> okp (Ok a) P.
Proof. intros X a P H b E. now injection E as <-. Qed.
Lemma okp_any : forall X (m : res X) (P : X -> Prop), (forall a, P a) -> okp m P.
Proof. intros X m P H a _. auto. Qed.
Lemma okp_err : forall X (P : X -> Prop), okp Err P. Proof. intros X P a E. discriminate. Qed.
Lemma okp_ub : forall X (P : X -> Prop), okp UB P. Proof. intros X P a E. discriminate. Qed.
Lemma okp_conseq : forall X (m : res X) (P Q : X -> Prop), okp m P -> (forall a, P a -> Q a) -> okp m Q.
Proof. intros X m P Q H K a E. auto. Qed.
Lemma okp_set : forall X (l : list X) i v (P : list X -> Prop), P (upd l i v) -> okp (set l i v) P.
Proof. intros X l i v P H a E. unfold set in E. destruct (i <? length l); [now injection E as <-|discriminate]. Qed.
Lemma okp_get : forall X (l : list X) i d (P : X -> Prop), (i < length l -> P (nth i l d)) -> okp (get l i) P.
Proof. intros X l i d P H a E. apply get_ok in E. destruct E as (E1 & E2). rewrite <- (E2 d). auto. Qed.
Ltac ob := apply okp_bind.
Ltac oany := apply okp_any; intros.

Lemma okp_for_n : forall S (I : S -> Prop) n lo f (s : S), I s -> (forall i s, lo <= i -> I s -> okp (f i s) I) -> okp (for_n lo n f s) I.
Proof.
  induction n; intros lo f s H K; cbn [for_n]; [now apply okp_ok|]. ob. eapply okp_conseq; [apply K; [lia|exact H]|].
  intros a Ha. apply IHn; auto. intros. apply K; auto. lia.
Qed.
Lemma okp_for_range : forall S (I : S -> Prop) lo hi f (s : S), I s -> (forall i s, lo <= i -> I s -> okp (f i s) I) -> okp (for_range lo hi f s) I.
Proof. intros. unfold for_range. now apply okp_for_n. Qed.
Lemma okp_chain : forall S (I : S -> Prop) fuel body idx (s : S), I s -> (forall c s, I s -> okp (body c s) (fun r => I (fst r))) ->
  okp (while_chain fuel body idx s) I.
Proof.
  induction fuel; intros body idx s H K; destruct idx; cbn [while_chain]; try (now apply okp_ok); [apply okp_ub|].
  ob. eapply okp_conseq; [apply K; exact H|]. intros [s' nx] Hs. apply IHfuel; auto.
Qed.

Section A.
  Context {O : Ops}.
  Notation T := (T O).
  Notation is F := (ind_start (fm F)).

  Lemma defer_is : forall to step g (F : Fac O), okp (defer_entry to step g F) (fun F' => is F' = is F).
  Proof.
    intros to step g F. unfold defer_entry. ob. oany. ob.
    eapply okp_conseq.
    { apply (okp_chain _ (fun F' : Fac O => is F' = is F)); auto. intros c F' H. ob. oany. destruct a0 as [pos e].
      destruct (e <? pos); [apply okp_ub|]. cbv zeta. ob; oany. ob; oany. ob; oany. ob; oany. ob; oany. ob; oany. ob; oany. ob; oany.
      apply okp_ok. exact H. }
    intros F' H. ob; oany. apply okp_ok. exact H.
  Qed.
  Lemma compress_is : forall step def (F : Fac O), okp (update_compress step def F) (fun F' => is F' = is F).
  Proof.
    intros step def F. unfold update_compress. ob; oany. ob.
    eapply okp_conseq.
    { apply (okp_chain _ (fun F' : Fac O => is F' = is F)); auto. intros c F' H. ob; oany. destruct a0 as [pos e].
      ob; oany. destruct (a0 <? def); [apply okp_ub|]. ob; oany. ob; oany. ob; oany. ob; oany. ob; oany. apply okp_ok. exact H. }
    intros F' H. ob; oany. ob; oany. ob; oany. ob; oany. ob; oany. apply okp_ok. exact H.
  Qed.
  Lemma push_is : forall (F : Fac O) v, okp (push_sv F v) (fun F' => is F <> [] /\ is F' = is F ++ [nth (length (is F) - 1) (is F) 0 + sv_cnt v]).
  Proof.
    intros F v. unfold push_sv. destruct (Nat.leb_spec (sv_cnt v) (length (sv_inds v))); [|apply okp_ub]. ob. unfold push_primary.
    ob; oany. ob. apply okp_get with (d := 0). intros Hl. apply okp_ok. apply okp_ok. cbn [fm ind_start]. rewrite firstn_length, Nat.min_l by auto.
    split; auto. intros E. rewrite E in Hl. cbn in Hl. lia.
  Qed.
  Lemma sort_cnt : forall v : SV O, okp (sv_sort v) (fun v' => sv_cnt v' = sv_cnt v).
  Proof. intros v. unfold sv_sort. ob; oany. now apply okp_ok. Qed.

  (** The first [k] primaries stay within [W] of the row they come from. *)
  Definition FILL (W : nat -> nat) (k : nat) (p sts : list nat) : Prop :=
    length sts = S k /\ forall i, i < k -> nth (S i) sts 0 - nth i sts 0 <= W (nth i p 0).
  Lemma FILL_ext : forall W k p p' sts, FILL W k p sts -> (forall i, i < k -> nth i p' 0 = nth i p 0) -> FILL W k p' sts.
  Proof. intros W k p p' sts (H1 & H2) E. split; auto. intros i Hi. rewrite E by auto. auto. Qed.
  Lemma FILL_push : forall W k p p' sts z, FILL W k p sts -> (forall i, i < k -> nth i p' 0 = nth i p 0) -> z <= W (nth k p' 0) ->
    FILL W (S k) p' (sts ++ [nth (length sts - 1) sts 0 + z]).
  Proof.
    intros W k p p' sts z (H1 & H2) E Hz. split; [rewrite app_length, H1; cbn; lia|]. intros i Hi. rewrite H1.
    replace (S k - 1) with k by lia. destruct (Nat.eq_dec i k) as [->|].
    - rewrite app_nth2 by lia. rewrite H1, Nat.sub_diag. rewrite app_nth1 by lia. cbn [nth]. lia.
    - rewrite !app_nth1 by lia. rewrite E by lia. apply H2. lia.
  Qed.

  (** ** Crout update without pivoting *)
  Section Loop.
  Variable bad : T -> bool.
  Variable klt : T -> T -> bool.
  Variable kbad : T -> bool.
  Variables is0 big : T -> bool.
  Variable dropU dropL : nat -> CR O -> SV O -> res (SV O).
  Variables (n m2 : nat) (s t : list T) (A_crs A_ccs : CS O).
  Variables WU WL : nat -> nat.
  Hypothesis DU : forall step c v, okp (dropU step c v) (fun v' => sv_cnt v' <= WU (nth step (c_p c) 0)).
  Hypothesis DL : forall step c v, okp (dropL step c v) (fun v' => sv_cnt v' <= WL (nth step (c_q c) 0)).

  Definition CF (k : nat) (c : CR O) : Prop := FILL WU k (c_p c) (is (c_U c)) /\ FILL WL k (c_q c) (is (c_L c)).

  Lemma kappas_f : forall k step c, CF k c -> okp (kappas klt step c) (CF k).
  Proof. intros k step c H. unfold kappas. ob; oany. ob; oany. apply okp_ok. exact H. Qed.
  Lemma defer_one_f : forall k step c, CF k c -> okp (defer_one n step c) (CF k).
  Proof.
    intros k step c H. unfold defer_one. ob. eapply okp_conseq; [apply defer_is|]. intros U EU. ob. eapply okp_conseq; [apply defer_is|]. intros L EL.
    do 8 (ob; oany). apply okp_ok. unfold CF in *. cbn [c_U c_L c_p c_q]. now rewrite EU, EL.
  Qed.
  Lemma defer_loop_f : forall fuel k step c, CF k c -> okp (CroutModel.defer_loop bad klt kbad n m2 fuel step c) (CF k).
  Proof.
    induction fuel; intros k step c H; cbn [CroutModel.defer_loop]; [apply okp_ub|]. destruct (step <? c_m c); [|now apply okp_ok].
    ob. eapply okp_conseq; [apply defer_one_f; exact H|]. intros c1 H1. destruct (m2 <=? _); [apply okp_ok; exact H1|].
    ob; oany. destruct (bad a); [now apply IHfuel|]. ob. eapply okp_conseq; [apply kappas_f; exact H1|]. intros c2 H2. ob; oany.
    destruct a0; [now apply IHfuel|now apply okp_ok].
  Qed.
  Lemma eliminate_f : forall k c, CF k c -> okp (eliminate is0 big dropU dropL m2 s t A_crs A_ccs k c) (CF (S k)).
  Proof.
    intros k c (HU & HL). unfold eliminate. cbv zeta.
    ob; oany. ob; oany. ob; oany. ob. apply okp_set. ob; oany. ob. apply okp_set.
    set (p := upd (c_p c) k a1). set (q := upd (c_q c) k a2).
    do 7 (ob; oany).
    ob. eapply okp_conseq; [apply DU|]. intros u1 Hu1. ob. eapply okp_conseq; [apply sort_cnt|]. intros u2 Hu2.
    ob. eapply okp_conseq; [apply push_is|]. intros U1 (_ & EU1).
    ob. eapply okp_conseq; [apply DL|]. intros l1 Hl1. ob. eapply okp_conseq; [apply sort_cnt|]. intros l2 Hl2.
    ob. eapply okp_conseq; [apply push_is|]. intros L1 (_ & EL1).
    ob. eapply okp_conseq; [apply compress_is|]. intros U2 EU2. ob. eapply okp_conseq; [apply compress_is|]. intros L2 EL2.
    apply okp_ok. unfold CF. cbn [c_U c_L c_p c_q] in *. rewrite EU2, EU1, EL2, EL1. split.
    - apply FILL_push with (p := c_p c); [exact HU| |lia]. intros i Hi. unfold p. apply nth_upd_neq. lia.
    - apply FILL_push with (p := c_q c); [exact HL| |lia]. intros i Hi. unfold q. apply nth_upd_neq. lia.
  Qed.
  Lemma crout_loop_f : forall fuel k c, CF k c ->
    okp (crout_loop bad klt kbad is0 big dropU dropL n m2 s t A_crs A_ccs fuel k c) (fun r => CF (fst r) (snd r) /\ c_m (snd r) <= fst r).
  Proof.
    induction fuel; intros k c H; cbn [crout_loop]; [apply okp_ub|]. destruct (Nat.ltb_spec k (c_m c)) as [Hk|Hk].
    2:{ apply okp_ok. cbn [fst snd]. auto. }
    ob; oany. cbv zeta. ob. eapply okp_conseq; [apply kappas_f; exact H|]. intros c1 H1. ob; oany.
    ob. apply okp_conseq with (P := CF k). { destruct a0; [now apply defer_loop_f|now apply okp_ok]. }
    intros c2 H2. destruct (a0 && (c_m c2 =? k)) eqn:B.
    { apply okp_ok. cbn [fst snd]. apply andb_prop in B. destruct B as (_ & B). apply Nat.eqb_eq in B. split; auto. lia. }
    ob. eapply okp_conseq; [apply eliminate_f; exact H2|]. intros c3 H3. now apply IHfuel.
  Qed.

  Definition RF (o : CRout O) : Prop := forall k, k < o_m o ->
    in_primary (o_U o) k <= WU (nth k (bp (o_p o)) 0) /\ in_primary (o_L o) k <= WL (nth k (bp (o_q o)) 0).

  Lemma gap_f : forall step def P p, okp (assign_gap n step def P p) (fun p' => forall i, i < step -> nth i p' 0 = nth i p 0).
  Proof.
    intros step def P p. unfold assign_gap. apply (okp_for_range _ (fun p' => forall i, i < step -> nth i p' 0 = nth i p 0)); auto.
    intros i p' Hi H. ob; oany. destruct a; [|apply okp_ub]. apply okp_set. intros j Hj. rewrite nth_upd_neq by lia. auto.
  Qed.
  Lemma build_inv_f : forall P, okp (build_inv P) (fun P' => bp P' = bp P).
  Proof. intros P. unfold build_inv. ob; oany. now apply okp_ok. Qed.
  Lemma tail_f : forall (A : CS O) start m def, okp (compress_tail A start m def) (fun B => ind_start B = ind_start A).
  Proof. intros. unfold compress_tail. ob; oany. now apply okp_ok. Qed.
  Lemma end_is : forall A : CS O, ind_start (end_assemble O A) = ind_start A.
  Proof. intros. unfold end_assemble. destruct (_ =? _); auto. Qed.

  Lemma crout_finish_f : forall r, CF (fst r) (snd r) -> c_m (snd r) <= fst r -> okp (crout_finish n r) RF.
  Proof.
    intros [k c] (HU & HL) Hm. cbn [fst snd] in *. unfold crout_finish.
    ob. eapply okp_conseq; [apply gap_f|]. intros p1 Hp1. ob. eapply okp_conseq; [apply gap_f|]. intros q1 Hq1.
    ob. eapply okp_conseq; [apply build_inv_f|]. intros p2 Hp2. ob. eapply okp_conseq; [apply build_inv_f|]. intros q2 Hq2. cbn [bp] in *.
    cbv zeta. ob; oany. ob; oany. ob. eapply okp_conseq; [apply tail_f|]. intros U' EU. ob. eapply okp_conseq; [apply tail_f|]. intros L' EL.
    rewrite end_is in EU, EL. apply okp_ok. intros i Hi. cbn [o_m o_p o_q o_L o_U] in *. unfold in_primary, st. rewrite EU, EL, Hp2, Hq2, Hp1, Hq1 by lia.
    split; [apply HU|apply HL]; lia.
  Qed.

  Lemma crout_f : forall p q jd jk js jP jv ji, okp (crout bad klt kbad is0 big dropU dropL n m2 s t A_crs A_ccs p q jd jk js jP jv ji) RF.
  Proof.
    intros. unfold crout. ob. apply okp_conseq with (P := CF 0).
    { unfold crout_init. ob; oany. apply okp_ok. split; (split; [reflexivity|intros; lia]). }
    intros c Hc. ob. eapply okp_conseq; [apply crout_loop_f; exact Hc|]. intros r (H1 & H2). now apply crout_finish_f.
  Qed.
  End Loop.

  (** ** The droppings of the code *)
  Section Drop.
  Variable G : Mag O.
  Variable mdiv : M G -> M G -> M G.
  Variable ceil_mul : M G -> nat -> nat.
  Variable nth_el : (nat -> M G) -> nat -> list nat -> list nat.
  Variable B : nat -> nat.

  Lemma space_f : forall nz a (v : SV O), caps G ceil_mul B a -> okp (apply_space_dropping G ceil_mul nth_el nz a v 0) (fun v' => sv_cnt v' <= B nz).
  Proof.
    intros nz a v (Ha & Hb). unfold apply_space_dropping. rewrite Ha. specialize (Hb nz).
    destruct (Nat.eqb_spec (sv_cnt v) 0); [apply okp_ok; lia|]. cbv zeta.
    assert (HN : space_limit G ceil_mul nz a 0 = Nat.max 1 (ceil_mul a nz)) by (unfold space_limit; destruct (Nat.leb_spec (ceil_mul a nz) 0); lia).
    rewrite HN. destruct (Nat.ltb_spec (Nat.max 1 (ceil_mul a nz)) (sv_cnt v)); [|apply okp_ok; lia].
    ob; oany. apply okp_ok. exact Hb.
  Qed.
  Lemma dropU_f : forall tau kd a rs, caps G ceil_mul B a -> forall step c v,
    okp (hif_dropU G mdiv ceil_mul nth_el tau kd a rs step c v) (fun v' => sv_cnt v' <= B (nth (nth step (c_p c) 0) rs 0)).
  Proof.
    intros tau kd a rs H step c v. unfold hif_dropU. ob; oany. ob; oany. ob. apply okp_get with (d := 0). intros _. ob. apply okp_get with (d := 0). intros _.
    now apply space_f.
  Qed.
  Lemma dropL_f : forall tau kd a cs, caps G ceil_mul B a -> forall step c v,
    okp (hif_dropL G mdiv ceil_mul nth_el tau kd a cs step c v) (fun v' => sv_cnt v' <= B (nth (nth step (c_q c) 0) cs 0)).
  Proof.
    intros tau kd a rs H step c v. unfold hif_dropL. ob; oany. ob; oany. ob. apply okp_get with (d := 0). intros _. ob. apply okp_get with (d := 0). intros _.
    now apply space_f.
  Qed.
  Lemma pdrop_f : forall tau kd a rs, caps G ceil_mul B a -> forall step kappa p v,
    okp (piv_drop G mdiv ceil_mul nth_el tau kd a rs step kappa p v) (fun v' => sv_cnt v' <= B (nth (nth step p 0) rs 0)).
  Proof.
    intros tau kd a rs H step kappa p v. unfold piv_drop. ob; oany. ob; oany. ob. apply okp_get with (d := 0). intros _. ob. apply okp_get with (d := 0). intros _.
    now apply space_f.
  Qed.
  End Drop.
End A.
