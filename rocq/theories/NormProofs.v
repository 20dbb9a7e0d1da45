(** * NormProofs: the vector kernels in exact arithmetic. *)
From Coq Require Import List Arith Bool Lia Lra Reals Psatz.
From Verif Require Import Base NormModel NormSpec.
Import ListNotations.
Local Open Scope R_scope.

Lemma chk_fits : forall N x, fits N x -> chk N x = Some x.
Proof. intros N x. unfold fits, chk. destruct (bd N); auto. intros H. destruct (Rle_dec _ _); [auto|contradiction]. Qed.

Lemma fits_le : forall N x y, fits N y -> Rabs x <= Rabs y -> fits N x.
Proof. intros N x y. unfold fits. destruct (bd N); auto. lra. Qed.

Lemma fits_le0 : forall N x y, fits N y -> 0 <= x <= y -> fits N x.
Proof. intros N x y F H. apply fits_le with y; auto. rewrite !Rabs_pos_eq; lra. Qed.

Lemma sumR_nonneg : forall A (f : A -> R) l, (forall x, In x l -> 0 <= f x) -> 0 <= sumR f l.
Proof. induction l; simpl; intros H; [lra|]. pose proof (H a (or_introl eq_refl)). pose proof (IHl (fun x h => H x (or_intror h))). lra. Qed.

Lemma sumR_le_len : forall A (f : A -> R) l c, (forall x, In x l -> f x <= c) -> sumR f l <= c * INR (length l).
Proof.
  induction l as [|a l IH]; intros c H; [simpl; lra|]. cbn [sumR length]. rewrite S_INR.
  pose proof (H a (or_introl eq_refl)). pose proof (IH c (fun x h => H x (or_intror h))). lra.
Qed.

Lemma sumR_ge : forall A (f : A -> R) l x, (forall x, In x l -> 0 <= f x) -> In x l -> f x <= sumR f l.
Proof.
  induction l as [|a l IH]; simpl; intros x H HI; [contradiction|]. pose proof (sumR_nonneg _ f l (fun x h => H x (or_intror h))).
  pose proof (H a (or_introl eq_refl)). destruct HI as [->|HI]; [lra|]. pose proof (IH x (fun x h => H x (or_intror h)) HI). lra.
Qed.

Lemma sumR_ext : forall A (f g : A -> R) l, (forall x, In x l -> f x = g x) -> sumR f l = sumR g l.
Proof. induction l; simpl; intros H; auto. rewrite (H a), IHl; auto. Qed.

Lemma sumR_scal : forall A (f : A -> R) c l, sumR (fun x => c * f x) l = c * sumR f l.
Proof. induction l; simpl; [lra|]. rewrite IHl. lra. Qed.

Lemma sumR_map : forall A B (g : A -> B) (f : B -> R) l, sumR f (map g l) = sumR (fun x => f (g x)) l.
Proof. induction l; simpl; auto. now rewrite IHl. Qed.

Section G.
  Context (N : arith) (V : VOps (NS N)) {X : Type} (emb : X -> VT V) (mag : X -> R) (scl : R -> X -> X).
  Hypothesis mag_nn : forall x, 0 <= mag x.
  Hypothesis H_abs : forall x, fits N (mag x) -> vabs V (emb x) = Some (mag x).
  Hypothesis H_sc : forall c x, 0 <= c -> fits N (c * mag x) -> vsc V (emb x) (Some c) = emb (scl c x).
  Hypothesis H_mag : forall c x, 0 <= c -> mag (scl c x) = c * mag x.
  Hypothesis H_sq : forall x, fits N 1 -> mag x <= 1 -> vre V (vmul V (vconj V (emb x)) (emb x)) = Some (mag x * mag x).

  Definition gnorm (v : list X) : R := sqrt (sumR (fun x => mag x * mag x) v).

  Lemma sumsq_nn : forall v, 0 <= sumR (fun x => mag x * mag x) v.
  Proof. intros. apply sumR_nonneg. intros x _. pose proof (mag_nn x). nra. Qed.

  Lemma gnorm_ge : forall v x, In x v -> mag x <= gnorm v.
  Proof.
    intros v x H. unfold gnorm. rewrite <- (sqrt_square (mag x)) by auto. apply sqrt_le_1.
    - pose proof (mag_nn x). nra.
    - apply sumsq_nn.
    - apply (sumR_ge X (fun x => mag x * mag x)); auto. intros y _. pose proof (mag_nn y). nra.
  Qed.

  Lemma gnorm_zero : forall v, (forall x, In x v -> mag x = 0) -> gnorm v = 0.
  Proof.
    intros v H. unfold gnorm. replace (sumR _ v) with 0; [apply sqrt_0|].
    symmetry. rewrite (sumR_ext _ _ (fun _ => 0 * 0)); [rewrite sumR_scal; lra|]. intros x Hx. rewrite (H x Hx). lra.
  Qed.

  (** The largest element of a list of values. *)
  Lemma max_el : forall t x, (forall y, In y (x :: t) -> fits N (mag y)) ->
    exists m, In m (x :: t) /\ max_element V (emb x) (map emb t) = emb m /\ (forall y, In y (x :: t) -> mag y <= mag m).
  Proof.
    unfold max_element. induction t as [|a t IH]; intros x F.
    - exists x. simpl. split; auto. split; auto. intros y [->|[]]. lra.
    - cbn [map fold_left]. rewrite !H_abs by (apply F; simpl; auto). cbn [slt NS olt].
      destruct (Rlt_dec (mag x) (mag a)) as [L|L].
      + destruct (IH a) as (m & M1 & M2 & M3); [intros y Hy; apply F; simpl in *; tauto|].
        exists m. split; [simpl in *; tauto|]. split; [exact M2|]. intros y [<-|Hy]; [|auto].
        pose proof (M3 a (or_introl eq_refl)). lra.
      + destruct (IH x) as (m & M1 & M2 & M3); [intros y Hy; apply F; simpl in *; tauto|].
        exists m. split; [simpl in *; tauto|]. split; [exact M2|]. intros y [<-|[<-|Hy]].
        * apply M3. simpl; auto.
        * pose proof (M3 x (or_introl eq_refl)). lra.
        * apply M3. simpl; auto.
  Qed.

  Lemma fold_sum : forall (g : VT V -> option R) (h : X -> R) v acc,
    0 <= acc -> (forall x, In x v -> g (emb x) = Some (h x) /\ 0 <= h x <= 1) -> fits N (acc + INR (length v)) ->
    fold_left (fun tmp y => sadd (NS N) tmp (g y)) (map emb v) (Some acc) = Some (acc + sumR h v).
  Proof.
    induction v as [|a v IH]; intros acc A H F; [simpl; f_equal; lra|].
    cbn [length] in F. rewrite S_INR in F. cbn [map fold_left sumR].
    destruct (H a (or_introl eq_refl)) as [E B]. rewrite E. cbn [sadd NS lift2]. pose proof (pos_INR (length v)).
    rewrite chk_fits by (eapply fits_le0; [exact F|lra]).
    rewrite IH; [f_equal; lra|lra|intros x Hx; apply H; now right|]. eapply fits_le0; [exact F|lra].
  Qed.

  Lemma fold_zero : forall v acc, (forall x, In x v -> mag x = 0) -> fits N 0 -> acc = 0 ->
    fold_left (fun tmp y => sadd (NS N) tmp (vabs V y)) (map emb v) (Some acc) = Some 0.
  Proof.
    induction v as [|a v IH]; intros acc H F E; subst; auto. cbn [map fold_left]. rewrite H_abs by (rewrite H; simpl; auto).
    rewrite H by (simpl; auto). cbn [sadd NS lift2]. rewrite chk_fits by (now rewrite Rplus_0_l). apply IH; simpl in *; auto. lra.
  Qed.

  (** Nonzero vectors. *)
  Lemma norm2_nz : forall v x0, In x0 v -> 0 < mag x0 -> fits N (/ mag x0) ->
    fits N (INR (length v)) -> fits N (gnorm v) ->
    norm2 V (map emb v) = Some (gnorm v).
  Proof.
    intros v x0 I0 P0 F0 FL FN.
    assert (FM : forall y, In y v -> fits N (mag y)) by (intros y Hy; eapply fits_le0; [exact FN|split; [auto|now apply gnorm_ge]]).
    destruct v as [|x t]; [destruct I0|].
    destruct (max_el t x FM) as (m & M1 & M2 & M3). cbn [norm2 map]. rewrite M2, (H_abs m) by auto.
    pose proof (M3 x0 I0) as LM. cbn [seq0 NS oeq0]. destruct (Req_EM_T (mag m) 0) as [E|_]; [lra|].
    assert (MP : 0 < mag m) by lra.
    assert (L1 : 1 <= INR (length (x :: t))).
    { cbn [length]. rewrite S_INR. pose proof (pos_INR (length t)). lra. }
    assert (F1 : fits N 1) by (eapply fits_le0; [exact FL|lra]).
    cbn [sdiv so NS odiv]. destruct (Req_EM_T (mag m) 0) as [E|_]; [lra|].
    assert (IV : 1 / mag m = / mag m) by (unfold Rdiv; lra). rewrite IV.
    assert (IP : 0 < / mag m) by now apply Rinv_0_lt_compat.
    rewrite (chk_fits N (/ mag m)) by (eapply fits_le0; [exact F0|split; [lra|apply Rinv_le_contravar; lra]]).
    assert (U : forall y, In y (x :: t) -> 0 <= / mag m * mag y <= 1).
    { intros y Hy. pose proof (mag_nn y). split; [apply Rmult_le_pos; lra|].
      apply Rmult_le_reg_l with (mag m); [lra|]. rewrite <- Rmult_assoc, Rinv_r by lra. rewrite Rmult_1_l, Rmult_1_r. now apply M3. }
    change (emb x :: map emb t) with (map emb (x :: t)). cbn [sz NS].
    rewrite (fold_sum (fun y => vre V (vmul V (vconj V (vsc V y (Some (/ mag m)))) (vsc V y (Some (/ mag m)))))
      (fun y => (/ mag m * mag y) * (/ mag m * mag y)) (x :: t) 0); [|lra| |now rewrite Rplus_0_l].
    2:{ intros y Hy. pose proof (U y Hy) as Uy. rewrite H_sc; [|lra|eapply fits_le0; [exact F1|exact Uy]].
        rewrite H_sq; [|exact F1|rewrite H_mag; lra]. rewrite H_mag by lra. split; [reflexivity|nra]. }
    rewrite Rplus_0_l. cbn [ssqrt NS lift1].
    assert (SE : sumR (fun y => / mag m * mag y * (/ mag m * mag y)) (x :: t) = (/ mag m * / mag m) * sumR (fun y => mag y * mag y) (x :: t)).
    { rewrite <- sumR_scal. apply sumR_ext. intros; ring. }
    rewrite SE. rewrite sqrt_mult_alt by nra. rewrite sqrt_square by lra. fold (gnorm (x :: t)).
    assert (GN : 0 <= gnorm (x :: t)) by apply sqrt_pos.
    assert (GL : / mag m * gnorm (x :: t) <= INR (length (x :: t))).
    { unfold gnorm. rewrite <- (sqrt_square (/ mag m)) by lra. rewrite <- sqrt_mult_alt by nra. rewrite <- SE.
      apply Rle_trans with (sqrt (INR (length (x :: t)) * INR (length (x :: t)))); [|rewrite sqrt_square; lra].
      apply sqrt_le_1; [apply sumR_nonneg; intros y Hy; pose proof (U y Hy); nra|nra|].
      apply Rle_trans with (1 * INR (length (x :: t))); [|nra]. apply sumR_le_len. intros y Hy. pose proof (U y Hy). nra. }
    rewrite chk_fits by (eapply fits_le0; [exact FL|split; [apply Rmult_le_pos; lra|exact GL]]).
    cbn [smul NS lift2]. rewrite <- Rmult_assoc, Rinv_r by lra. rewrite Rmult_1_l. now apply chk_fits.
  Qed.

  Lemma norm2_z : forall v, (forall x, In x v -> mag x = 0) -> fits N 0 -> norm2 V (map emb v) = Some 0.
  Proof.
    intros [|x t] Z F; [reflexivity|].
    destruct (max_el t x) as (m & M1 & M2 & M3); [intros y Hy; now rewrite Z|]. cbn [norm2 map]. rewrite M2, (H_abs m) by (now rewrite Z).
    rewrite (Z m M1). cbn [seq0 NS oeq0]. destruct (Req_EM_T 0 0) as [_|E]; [|lra].
    change (emb x :: map emb t) with (map emb (x :: t)). now apply fold_zero.
  Qed.

  (** Normalization. *)
  Lemma normalize_nz : forall v x0, In x0 v -> 0 < mag x0 -> fits N (/ mag x0) ->
    fits N (INR (length v)) -> fits N (gnorm v) ->
    let w := map (scl (/ gnorm v)) v in
    normalize V (map emb v) = map emb w /\ gnorm w = 1 /\ norm2 V (map emb w) = Some 1.
  Proof.
    intros v x0 I0 P0 F0 FL FN w.
    pose proof (gnorm_ge v x0 I0) as G0. assert (GP : 0 < gnorm v) by lra.
    assert (IP : 0 < / gnorm v) by now apply Rinv_0_lt_compat.
    assert (L1 : 1 <= INR (length v)).
    { destruct v; [destruct I0|]. cbn [length]. rewrite S_INR. pose proof (pos_INR (length v)). lra. }
    assert (F1 : fits N 1) by (eapply fits_le0; [exact FL|lra]).
    assert (GW : gnorm w = 1).
    { unfold gnorm at 1. unfold w. rewrite sumR_map. rewrite (sumR_ext _ _ (fun x => (/ gnorm v * / gnorm v) * (mag x * mag x))).
      - rewrite sumR_scal, sqrt_mult_alt by nra. fold (gnorm v). rewrite sqrt_square by lra. now rewrite Rinv_l by lra.
      - intros x _. rewrite H_mag by lra. ring. }
    assert (E : normalize V (map emb v) = map emb w).
    { unfold normalize. rewrite (norm2_nz v x0) by auto. cbn [sdiv so NS odiv]. destruct (Req_EM_T (gnorm v) 0) as [E|_]; [lra|].
      unfold Rdiv. rewrite Rmult_1_l. rewrite chk_fits by (eapply fits_le0; [exact F0|split; [lra|apply Rinv_le_contravar; lra]]).
      unfold w. rewrite !map_map. apply map_ext_in. intros y Hy. apply H_sc; [lra|]. eapply fits_le0; [exact F1|].
      pose proof (mag_nn y). split; [apply Rmult_le_pos; lra|]. apply Rmult_le_reg_l with (gnorm v); [lra|].
      rewrite <- Rmult_assoc, Rinv_r by lra. rewrite Rmult_1_l, Rmult_1_r. now apply gnorm_ge. }
    split; [exact E|]. split; [exact GW|]. rewrite <- GW.
    assert (LW : length w = length v) by (unfold w; apply map_length).
    assert (Q : exists q, In q w /\ forall y, In y w -> mag y <= mag q).
    { clear - I0 w. assert (NE : w <> []) by (unfold w; destruct v; [destruct I0|discriminate]). clearbody w. clear I0 x0 v.
      induction w as [|a w IH]; [congruence|]. destruct w as [|b w'].
      - exists a. split; [now left|]. intros y [->|[]]; lra.
      - destruct IH as (q & Q1 & Q2); [discriminate|]. destruct (Rle_dec (mag a) (mag q)).
        + exists q. split; [now right|]. intros y [->|H]; auto.
        + exists a. split; [now left|]. intros y [->|H]; [lra|]. pose proof (Q2 y H). lra. }
    destruct Q as (q & Q1 & Q2).
    assert (S1 : sumR (fun x => mag x * mag x) w = 1).
    { pose proof (sumsq_nn w) as NNW. rewrite <- (sqrt_sqrt _ NNW). fold (gnorm w). rewrite GW. lra. }
    pose proof (mag_nn q) as QN.
    assert (SQ : 1 <= mag q * mag q * INR (length v)).
    { rewrite <- LW, <- S1. apply sumR_le_len. intros y Hy. pose proof (Q2 y Hy). pose proof (mag_nn y). nra. }
    assert (QP : 0 < mag q) by (destruct QN as [|Z]; [auto|rewrite <- Z in SQ; lra]).
    pose proof (gnorm_ge w q Q1) as QL. rewrite GW in QL.
    apply norm2_nz with q; auto.
    - eapply fits_le0; [exact FL|]. split; [left; now apply Rinv_0_lt_compat|].
      apply Rmult_le_reg_l with (mag q); [auto|]. rewrite Rinv_r by lra. nra.
    - now rewrite LW.
    - now rewrite GW.
  Qed.
End G.

(** ** Real and complex numbers. *)
Lemma NR_abs : forall N x, fits N (Rabs x) -> vabs (NR N) (Some x) = Some (Rabs x).
Proof. intros. cbn. now apply chk_fits. Qed.
Lemma NR_sc : forall N c x, 0 <= c -> fits N (c * Rabs x) -> vsc (NR N) (Some x) (Some c) = Some (c * x).
Proof.
  intros N c x C F. cbn. rewrite (Rmult_comm x c). apply chk_fits. eapply fits_le; [exact F|].
  rewrite !Rabs_mult, Rabs_Rabsolu. lra.
Qed.
Lemma NR_mag : forall c x, 0 <= c -> Rabs (c * x) = c * Rabs x.
Proof. intros. rewrite Rabs_mult, (Rabs_pos_eq c); auto. Qed.
Lemma NR_sq : forall N x, fits N 1 -> Rabs x <= 1 -> vre (NR N) (vmul (NR N) (vconj (NR N) (Some x)) (Some x)) = Some (Rabs x * Rabs x).
Proof.
  intros N x F H. cbn. rewrite <- Rabs_mult. assert (0 <= x * x) by nra. rewrite (Rabs_pos_eq (x * x)) by auto. apply chk_fits. eapply fits_le0; [exact F|].
  split; auto. rewrite <- (Rabs_pos_eq (x * x)), Rabs_mult by auto. pose proof (Rabs_pos x). nra.
Qed.

Lemma sq_nn : forall z : R * R, 0 <= fst z * fst z + snd z * snd z.
Proof. intros. nra. Qed.
Lemma cmag_nn : forall z, 0 <= cmag z. Proof. intros. apply sqrt_pos. Qed.
Lemma cmag_sq : forall z, cmag z * cmag z = fst z * fst z + snd z * snd z.
Proof. intros. unfold cmag. apply sqrt_sqrt, sq_nn. Qed.
Lemma abs_of_sq : forall a b, 0 <= b -> a * a <= b * b -> Rabs a <= b.
Proof. intros a b B H. unfold Rabs. destruct (Rcase_abs a); nra. Qed.
Lemma cmag_fst : forall z, Rabs (fst z) <= cmag z.
Proof. intros. apply abs_of_sq; [apply cmag_nn|]. rewrite cmag_sq. nra. Qed.
Lemma cmag_snd : forall z, Rabs (snd z) <= cmag z.
Proof. intros. apply abs_of_sq; [apply cmag_nn|]. rewrite cmag_sq. nra. Qed.

Lemma NC_abs : forall N z, fits N (cmag z) -> vabs (NC N) (cnum z) = Some (cmag z).
Proof. intros. cbn. now apply chk_fits. Qed.
Lemma NC_sc : forall N c z, 0 <= c -> fits N (c * cmag z) -> vsc (NC N) (cnum z) (Some c) = cnum (cscale c z).
Proof.
  intros N c z C F. cbn. rewrite (Rmult_comm (fst z) c), (Rmult_comm (snd z) c). pose proof (cmag_fst z). pose proof (cmag_snd z). pose proof (cmag_nn z).
  rewrite !chk_fits; [reflexivity| |]; (eapply fits_le; [exact F|]); rewrite !Rabs_mult, (Rabs_pos_eq (cmag z)), (Rabs_pos_eq c) by auto; nra.
Qed.
Lemma NC_mag : forall c z, 0 <= c -> cmag (cscale c z) = c * cmag z.
Proof.
  intros c z C. unfold cmag, cscale. cbn [fst snd]. transitivity (sqrt (c * c * (fst z * fst z + snd z * snd z))); [f_equal; ring|]. rewrite sqrt_mult_alt by nra. now rewrite sqrt_square.
Qed.
Lemma NC_sq : forall N z, fits N 1 -> cmag z <= 1 -> vre (NC N) (vmul (NC N) (vconj (NC N) (cnum z)) (cnum z)) = Some (cmag z * cmag z).
Proof.
  intros N z F H. pose proof (cmag_sq z) as E. pose proof (cmag_nn z) as Z. rewrite E. assert (0 <= fst z * fst z + snd z * snd z <= 1) by (rewrite <- E; nra).
  assert (X : Rabs (snd z) <= 1) by (pose proof (cmag_snd z); lra).
  unfold NC, cplx_ops, cnum, NS, lift1, lift2. cbn [vre vmul vconj fst snd sneg ssub smul].
  rewrite (chk_fits N (- snd z)); [|eapply fits_le; [exact F|]; rewrite Rabs_Ropp, Rabs_R1; auto].
  rewrite (chk_fits N (fst z * fst z)); [|eapply fits_le0; [exact F|nra]].
  rewrite (chk_fits N (- snd z * snd z)); [|eapply fits_le; [exact F|]; rewrite Ropp_mult_distr_l_reverse, Rabs_Ropp, Rabs_R1, Rabs_pos_eq; nra].
  rewrite chk_fits; [f_equal; ring|]. eapply fits_le0; [exact F|]. lra.
Qed.

Lemma gnorm_real : forall v, gnorm Rabs v = rnorm v.
Proof. intros. unfold gnorm, rnorm. f_equal. apply sumR_ext. intros. rewrite <- Rabs_mult. apply Rabs_pos_eq. nra. Qed.
Lemma gnorm_cplx : forall v, gnorm cmag v = cnorm v.
Proof. intros. unfold gnorm, cnorm. f_equal. apply sumR_ext. intros. apply cmag_sq. Qed.

(** ** Entries that are not finite. *)
Section NF.
  Context (N : arith) (V : VOps (NS N)) (bad : VT V -> Prop).
  Hypothesis B_abs : forall x, bad x -> vabs V x = None.
  Hypothesis B_sc : forall x c, bad x -> bad (vsc V x c).
  Hypothesis B_sq : forall x, bad x -> vre V (vmul V (vconj V x) x) = None.

  Lemma sadd_none_r : forall a, sadd (NS N) a None = None. Proof. destruct a; reflexivity. Qed.
  Lemma fold_none : forall (g : VT V -> option R) v, fold_left (fun tmp y => sadd (NS N) tmp (g y)) v None = None.
  Proof. induction v; cbn [fold_left]; auto. Qed.
  Lemma fold_bad : forall (g : VT V -> option R) v x acc, In x v -> g x = None -> fold_left (fun tmp y => sadd (NS N) tmp (g y)) v acc = None.
  Proof.
    induction v as [|a v IH]; intros x acc HI E; [destruct HI|]. cbn [fold_left]. destruct HI as [->|HI].
    - rewrite E, sadd_none_r. apply fold_none.
    - eapply IH; eauto.
  Qed.
  Lemma norm2_bad : forall v x, In x v -> bad x -> norm2 V v = None.
  Proof.
    intros [|a t] x HI B; [destruct HI|]. unfold norm2. destruct (seq0 _ _).
    - eapply (fold_bad (vabs V)); eauto.
    - cbv zeta. rewrite (fold_bad (fun y => vre V (vmul V (vconj V (vsc V y (sdiv (NS N) (so (NS N)) (vabs V (max_element V a t))))) (vsc V y (sdiv (NS N) (so (NS N)) (vabs V (max_element V a t)))))) (a :: t) x); auto.
      cbn [ssqrt NS lift1]. destruct (vabs V (max_element V a t)); reflexivity.
  Qed.
End NF.

(** ** The loops over two arrays. *)
Lemma fold_res_ub : forall A B (f : A -> B -> res A) l, fold_left (fun acc i => tmp <- acc;; f tmp i) l UB = UB.
Proof. induction l; simpl; auto. Qed.

Lemma get_mid : forall A (p v : list A) a k, length p = k -> get (p ++ a :: v) k = Ok a.
Proof. intros. subst. unfold get. rewrite nth_error_app2, Nat.sub_diag by lia. reflexivity. Qed.

Lemma fold_two : forall A B C (f : C -> A -> B -> C) (v : list A) (w : list B) p q acc, length p = length q -> (length v <= length w)%nat ->
  fold_left (fun acc i => tmp <- acc;; a <- get (p ++ v) i;; b <- get (q ++ w) i;; Ok (f tmp a b)) (seq (length p) (length v)) (Ok acc)
  = Ok (fold_left (fun t ab => f t (fst ab) (snd ab)) (combine v w) acc).
Proof.
  induction v as [|a v IH]; intros w p q acc L1 L2; [reflexivity|]. destruct w as [|b w]; [simpl in L2; lia|].
  cbn [length seq fold_left]. rewrite (get_mid _ p v a) by reflexivity. rewrite (get_mid _ q w b) by auto. cbn [bind combine fold_left fst snd].
  specialize (IH w (p ++ [a]) (q ++ [b]) (f acc a b)). rewrite !app_length in IH. cbn [length] in IH. rewrite <- !app_assoc in IH. cbn [app] in IH.
  rewrite Nat.add_1_r in IH. apply IH; cbn [length] in L2; lia.
Qed.

Lemma fold_two_ub : forall A B C (f : C -> A -> B -> C) (v : list A) (w : list B) p q acc, length p = length q -> (length w < length v)%nat ->
  fold_left (fun acc i => tmp <- acc;; a <- get (p ++ v) i;; b <- get (q ++ w) i;; Ok (f tmp a b)) (seq (length p) (length v)) (Ok acc) = UB.
Proof.
  induction v as [|a v IH]; intros w p q acc L1 L2; [simpl in L2; lia|].
  cbn [length seq fold_left]. rewrite (get_mid _ p v a) by reflexivity. destruct w as [|b w].
  - cbn [bind]. assert (G : get (q ++ []) (length p) = @UB B).
    { unfold get. replace (nth_error (q ++ []) (length p)) with (@None B); [auto|]. symmetry. apply nth_error_None. rewrite app_nil_r. lia. }
    rewrite G. cbn [bind].
    apply (fold_res_ub C nat (fun tmp i => a0 <- get (p ++ a :: v) i;; b <- get (q ++ []) i;; Ok (f tmp a0 b))).
  - rewrite (get_mid _ q w b) by auto. cbn [bind].
    specialize (IH w (p ++ [a]) (q ++ [b]) (f acc a b)). rewrite !app_length in IH. cbn [length] in IH. rewrite <- !app_assoc in IH. cbn [app] in IH.
    rewrite Nat.add_1_r in IH. apply IH; cbn [length] in L2; lia.
Qed.

Lemma upd_mid : forall A (p w : list A) a b k, length p = k -> upd (p ++ a :: w) k b = p ++ b :: w.
Proof. induction p; simpl; intros; subst; auto. now rewrite IHp. Qed.

Lemma fold_write : forall A B (f : A -> B) (v : list A) p q w, length p = length q -> (length v <= length w)%nat ->
  fold_left (fun acc i => w <- acc;; x <- get (p ++ v) i;; set w i (f x)) (seq (length p) (length v)) (Ok (q ++ w))
  = Ok (q ++ map f v ++ skipn (length v) w).
Proof.
  induction v as [|a v IH]; intros p q w L1 L2; [reflexivity|]. destruct w as [|b w]; [simpl in L2; lia|].
  cbn [length seq fold_left]. cbn [bind]. rewrite (get_mid _ p v a) by reflexivity. cbn [bind]. unfold set at 2.
  replace (length p <? length (q ++ b :: w)) with true by (symmetry; apply Nat.ltb_lt; rewrite app_length; cbn [length]; lia).
  rewrite (upd_mid _ q w b) by auto. specialize (IH (p ++ [a]) (q ++ [f a]) w). rewrite !app_length in IH. cbn [length] in IH. rewrite <- !app_assoc in IH. cbn [app] in IH.
  rewrite Nat.add_1_r in IH. cbn [map skipn app]. apply IH; cbn [length] in L2; lia.
Qed.

Lemma inner_eq : forall S (V : VOps S) v w, (length v <= length w)%nat ->
  inner V v w = Ok (fold_left (fun t ab => vadd V t (vmul V (vconj V (fst ab)) (snd ab))) (combine v w) (vz V)).
Proof. intros. apply (fold_two _ _ _ (fun t a b => vadd V t (vmul V (vconj V a) b)) v w [] []); auto. Qed.
Lemma inner_ub : forall S (V : VOps S) v w, (length w < length v)%nat -> inner V v w = UB.
Proof. intros. apply (fold_two_ub _ _ _ (fun t a b => vadd V t (vmul V (vconj V a) b)) v w [] []); auto. Qed.
Lemma normalize2_eq : forall S (V : VOps S) v w, (length v <= length w)%nat -> normalize2 V v w = Ok (normalize V v ++ skipn (length v) w).
Proof. intros. apply (fold_write _ _ (fun x => vsc V x (sdiv S (so S) (norm2 V v))) v [] [] w); auto. Qed.

(** ** Inner products. *)
Lemma chk_none : forall N x, bd N = None -> chk N x = Some x.
Proof. intros N x E. unfold chk. now rewrite E. Qed.

Lemma inner_real : forall N v w, bd N = None -> (length v <= length w)%nat -> inner (NR N) (rvec v) (rvec w) = Ok (Some (rdot v w)).
Proof.
  intros N v w E L. rewrite inner_eq by (unfold rvec; now rewrite !map_length). f_equal. unfold rdot.
  cut (forall acc, fold_left (fun t ab => vadd (NR N) t (vmul (NR N) (vconj (NR N) (fst ab)) (snd ab))) (combine (rvec v) (rvec w)) (Some acc)
    = Some (acc + sumR (fun p => fst p * snd p) (combine v w))).
  { intros X. refine (eq_trans (X 0) _). f_equal. lra. }
  clear L. revert w. induction v as [|a v IH]; intros [|b w] acc; try (simpl; f_equal; lra).
  cbn [rvec map combine fold_left fst snd sumR]. cbn [NR real_ops vadd vmul vconj NS sadd smul lift2]. rewrite !chk_none by auto.
  etransitivity; [apply IH|]. f_equal. lra.
Qed.

Lemma inner_cplx : forall N v w, bd N = None -> (length v <= length w)%nat -> inner (NC N) (cvec v) (cvec w) = Ok (cnum (cdot_re v w, cdot_im v w)).
Proof.
  intros N v w E L. rewrite inner_eq by (unfold cvec; now rewrite !map_length). f_equal. unfold cdot_re, cdot_im.
  cut (forall acc, fold_left (fun t ab => vadd (NC N) t (vmul (NC N) (vconj (NC N) (fst ab)) (snd ab))) (combine (cvec v) (cvec w)) (cnum acc)
    = cnum (fst acc + sumR (fun p => fst (fst p) * fst (snd p) + snd (fst p) * snd (snd p)) (combine v w),
            snd acc + sumR (fun p => fst (fst p) * snd (snd p) - snd (fst p) * fst (snd p)) (combine v w))).
  { intros X. refine (eq_trans (X (0, 0)) _). unfold cnum. cbn [fst snd]. f_equal; f_equal; lra. }
  clear L. revert w. induction v as [|a v IH]; intros [|b w] acc; try (unfold cnum; simpl; f_equal; f_equal; lra).
  cbn [cvec map combine fold_left fst snd sumR]. 
  assert (Q : vadd (NC N) (cnum acc) (vmul (NC N) (vconj (NC N) (cnum a)) (cnum b)) =
    cnum (fst acc + (fst a * fst b + snd a * snd b), snd acc + (fst a * snd b - snd a * fst b))).
  { unfold NC, cplx_ops, cnum, NS, lift1, lift2. cbn [vadd vmul vconj fst snd sneg ssub smul sadd]. rewrite !(chk_none N) by auto. f_equal; f_equal; ring. }
  rewrite Q. etransitivity; [apply IH|]. unfold cnum. cbn [fst snd]. f_equal; f_equal; ring.
Qed.

Lemma le_of_sq : forall z h, 0 <= h -> z * z <= h * h -> z <= h.
Proof. intros z h H Q. pose proof (abs_of_sq z h H Q). pose proof (Rle_abs z). lra. Qed.

Lemma cs_sq : forall v w, cdot_re v w * cdot_re v w + cdot_im v w * cdot_im v w <=
  sumR (fun z => fst z * fst z + snd z * snd z) v * sumR (fun z => fst z * fst z + snd z * snd z) w.
Proof.
  unfold cdot_re, cdot_im. induction v as [|a v IH]; intros [|b w]; cbn [combine sumR fst snd].
  - lra.
  - lra.
  - rewrite Rmult_0_r. lra.
  - specialize (IH w). pose proof (sumR_nonneg _ (fun z : R * R => fst z * fst z + snd z * snd z) v (fun z _ => sq_nn z)) as PV.
    pose proof (sumR_nonneg _ (fun z : R * R => fst z * fst z + snd z * snd z) w (fun z _ => sq_nn z)) as PW.
    pose proof (sq_nn a) as PA. pose proof (sq_nn b) as PB.
    set (P := sumR _ v) in *. set (Q := sumR _ w) in *. 
    set (re := sumR (fun p => fst (fst p) * fst (snd p) + snd (fst p) * snd (snd p)) (combine v w)) in *.
    set (im := sumR (fun p => fst (fst p) * snd (snd p) - snd (fst p) * fst (snd p)) (combine v w)) in *.
    set (u := fst a * fst b + snd a * snd b). set (t := fst a * snd b - snd a * fst b).
    assert (UT : u * u + t * t = (fst a * fst a + snd a * snd a) * (fst b * fst b + snd b * snd b)) by (unfold u, t; ring).
    set (p := fst a * fst a + snd a * snd a) in *. set (q := fst b * fst b + snd b * snd b) in *.
    assert (X : 2 * (re * u + im * t) <= p * Q + P * q).
    { apply le_of_sq; [nra|]. assert (Y : (re * u + im * t) * (re * u + im * t) <= (re * re + im * im) * (u * u + t * t)).
      { pose proof (Rle_0_sqr (re * t - im * u)) as Z. unfold Rsqr in Z. nra. }
      rewrite UT in Y. assert (PQ : 0 <= p * q) by (apply Rmult_le_pos; auto). pose proof (Rmult_le_compat_r (p * q) _ _ PQ IH) as ZZ.
      pose proof (Rle_0_sqr (p * Q - P * q)) as W. unfold Rsqr in W. clear - Y ZZ W.
      set (z := re * u + im * t) in *. replace (2 * z * (2 * z)) with (4 * (z * z)) by ring.
      replace ((p * Q + P * q) * (p * Q + P * q)) with ((p * Q - P * q) * (p * Q - P * q) + 4 * (P * Q * (p * q))) by ring.
      pose proof (Rle_trans _ _ _ Y ZZ) as YZ. lra. }
    replace ((u + re) * (u + re) + (t + im) * (t + im)) with ((re * re + im * im) + (u * u + t * t) + 2 * (re * u + im * t)) by ring.
    replace ((p + P) * (q + Q)) with (P * Q + p * q + (p * Q + P * q)) by ring. rewrite UT. lra.
Qed.

Definition toc (x : R) : R * R := (x, 0).
Lemma toc_dot : forall v w, cdot_re (map toc v) (map toc w) = rdot v w /\ cdot_im (map toc v) (map toc w) = 0.
Proof.
  unfold cdot_re, cdot_im, rdot. induction v as [|a v IH]; intros [|b w]; cbn [map combine sumR]; try (split; lra).
  destruct (IH w) as [E1 E2]. rewrite E1, E2. unfold toc. cbn [fst snd]. split; lra.
Qed.
Lemma toc_norm : forall v, cnorm (map toc v) = rnorm v.
Proof. intros. unfold cnorm, rnorm. f_equal. rewrite sumR_map. apply sumR_ext. intros. unfold toc. cbn [fst snd]. ring. Qed.

Lemma cs_cplx : forall v w, cmag (cdot_re v w, cdot_im v w) <= cnorm v * cnorm w.
Proof.
  intros v w. unfold cmag, cnorm. cbn [fst snd]. rewrite <- sqrt_mult_alt.
  - apply sqrt_le_1; [nra| |apply cs_sq]. apply Rmult_le_pos; apply sumR_nonneg; intros; apply sq_nn.
  - apply sumR_nonneg; intros; apply sq_nn.
Qed.
Lemma cs_real : forall v w, Rabs (rdot v w) <= rnorm v * rnorm w.
Proof.
  intros v w. rewrite <- !toc_norm. eapply Rle_trans; [|apply cs_cplx]. destruct (toc_dot v w) as [-> ->]. apply (cmag_fst (rdot v w, 0)).
Qed.

Lemma cdot_self : forall v, cdot_re v v = cnorm v * cnorm v /\ cdot_im v v = 0.
Proof.
  intros v. unfold cnorm. rewrite sqrt_sqrt by (apply sumR_nonneg; intros; apply sq_nn).
  unfold cdot_re, cdot_im. induction v as [|a v [E1 E2]]; cbn [combine sumR fst snd]; [split; lra|]. rewrite E1, E2. split; ring.
Qed.
Lemma rdot_self : forall v, rdot v v = rnorm v * rnorm v.
Proof. intros v. rewrite <- toc_norm. destruct (cdot_self (map toc v)) as [<- _]. symmetry. apply toc_dot. Qed.

Lemma cdot_sym : forall v w, cdot_re w v = cdot_re v w /\ cdot_im w v = - cdot_im v w.
Proof.
  unfold cdot_re, cdot_im. induction v as [|a v IH]; intros [|b w]; cbn [combine sumR fst snd]; try (split; lra).
  destruct (IH w) as [E1 E2]. rewrite E1, E2. split; ring.
Qed.

Lemma sq_real : forall N v, bd N = None -> norm2_sq (NR N) (rvec v) = Some (rnorm v * rnorm v).
Proof.
  intros N v E. rewrite <- rdot_self. unfold norm2_sq, rdot.
  cut (forall acc, fold_left (fun tmp x => sadd (NS N) tmp (vre (NR N) (vmul (NR N) (vconj (NR N) x) x))) (rvec v) (Some acc)
    = Some (acc + sumR (fun p => fst p * snd p) (combine v v))).
  { intros X. refine (eq_trans (X 0) _). f_equal. lra. }
  induction v as [|a v IH]; intros acc; [simpl; f_equal; lra|].
  cbn [rvec map combine fold_left fst snd sumR]. cbn [NR real_ops vre vmul vconj NS sadd smul lift2]. rewrite !chk_none by auto.
  etransitivity; [apply IH|]. f_equal. lra.
Qed.
Lemma sq_cplx : forall N v, bd N = None -> norm2_sq (NC N) (cvec v) = Some (cnorm v * cnorm v).
Proof.
  intros N v E. destruct (cdot_self v) as [<- _]. unfold norm2_sq, cdot_re.
  cut (forall acc, fold_left (fun tmp x => sadd (NS N) tmp (vre (NC N) (vmul (NC N) (vconj (NC N) x) x))) (cvec v) (Some acc)
    = Some (acc + sumR (fun p => fst (fst p) * fst (snd p) + snd (fst p) * snd (snd p)) (combine v v))).
  { intros X. refine (eq_trans (X 0) _). f_equal. lra. }
  induction v as [|a v IH]; intros acc; [simpl; f_equal; lra|].
  cbn [cvec map combine fold_left fst snd sumR].
  assert (Q : sadd (NS N) (Some acc) (vre (NC N) (vmul (NC N) (vconj (NC N) (cnum a)) (cnum a))) = Some (acc + (fst a * fst a + snd a * snd a))).
  { unfold NC, cplx_ops, cnum, NS, lift1, lift2. cbn [vre vmul vconj fst snd sneg ssub smul sadd]. rewrite !(chk_none N) by auto. f_equal; ring. }
  rewrite Q. etransitivity; [apply IH|]. f_equal. lra.
Qed.
