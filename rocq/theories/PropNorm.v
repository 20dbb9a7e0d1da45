(** * PropNorm: C58, the vector kernels (inner product, Euclidean norm, normalization). *)
From Coq Require Import List Arith Bool Lia Lra Reals Psatz.
From Verif Require Import Base NormModel NormSpec NormProofs.
Import ListNotations.
Local Open Scope R_scope.

(** Numbers beyond the limit of the arithmetic are not finite.  The norm of a real or complex
    vector is the Euclidean norm, for every length, as soon as the norm itself, the length and the
    reciprocal of some nonzero entry are within the limit: nothing on the way overflows.
    The norm of a zero (or empty) vector is zero.  Missing: rounding and underflow. *)
Theorem C58_norm2_partial : forall N,
  (forall v, fits N (INR (length v)) -> fits N (rnorm v) ->
    (exists x, In x v /\ x <> 0 /\ fits N (/ Rabs x)) -> norm2 (NR N) (rvec v) = Some (rnorm v)) /\
  (forall v, fits N (INR (length v)) -> fits N (cnorm v) ->
    (exists z, In z v /\ cmag z <> 0 /\ fits N (/ cmag z)) -> norm2 (NC N) (cvec v) = Some (cnorm v)) /\
  (fits N 0 -> forall k, norm2 (NR N) (rvec (repeat 0 k)) = Some 0 /\ norm2 (NC N) (cvec (repeat (0, 0) k)) = Some 0).
Proof.
  intros N. split; [|split].
  - intros v FL FN (x & I & NZ & FX). rewrite <- gnorm_real in *.
    apply (norm2_nz N (NR N) Some Rabs Rmult Rabs_pos (NR_abs N) (NR_sc N) NR_mag (NR_sq N) v x); auto. now apply Rabs_pos_lt.
  - intros v FL FN (x & I & NZ & FX). rewrite <- gnorm_cplx in *.
    apply (norm2_nz N (NC N) cnum cmag cscale cmag_nn (NC_abs N) (NC_sc N) NC_mag (NC_sq N) v x); auto. pose proof (cmag_nn x). lra.
  - intros F k. split.
    + apply (norm2_z N (NR N) Some Rabs (NR_abs N)); auto. intros x Hx. apply repeat_spec in Hx. subst. apply Rabs_R0.
    + apply (norm2_z N (NC N) cnum cmag (NC_abs N)); auto. intros x Hx. apply repeat_spec in Hx. subst. unfold cmag. cbn [fst snd].
      replace (0 * 0 + 0 * 0) with 0 by ring. apply sqrt_0.
Qed.
Print Assumptions C58_norm2_partial.

(** The limit on the reciprocals is needed: the only entry is finite and so is its magnitude, but
    one divided by it is beyond the limit, and the norm is not a finite number. *)
Theorem C58_norm2_refuted : forall B, 1 < B -> exists N x, bd N = Some B /\ fits N x /\ 0 < x /\ fits N (rnorm [x]) /\ rnorm [x] = x /\
  norm2 (NR N) (rvec [x]) = None.
Proof.
  intros B HB. exists (mkArith (Some B) (fun _ _ => false) None), (/ (2 * B)). 
  assert (P : 0 < / (2 * B)) by (apply Rinv_0_lt_compat; lra).
  assert (L : / (2 * B) <= 1) by (rewrite <- Rinv_1; apply Rinv_le_contravar; lra).
  assert (E : rnorm [/ (2 * B)] = / (2 * B)) by (unfold rnorm; cbn [sumR]; rewrite Rplus_0_r; apply sqrt_square; lra).
  assert (F : fits (mkArith (Some B) (fun _ _ => false) None) (/ (2 * B))) by (unfold fits; cbn; rewrite Rabs_pos_eq; lra).
  split; [reflexivity|]. split; [exact F|]. split; [exact P|]. rewrite E. split; [exact F|]. split; [reflexivity|].
  set (N := mkArith _ _ _) in *. cbn [norm2 rvec map max_element fold_left]. rewrite (NR_abs N) by (rewrite Rabs_pos_eq; [exact F|lra]).
  rewrite Rabs_pos_eq by lra. cbn [seq0 NS oeq0]. destruct (Req_EM_T _ 0); [lra|]. cbn [sdiv so NS odiv]. destruct (Req_EM_T _ 0); [lra|].
  unfold Rdiv. rewrite Rinv_inv, Rmult_1_l. unfold chk at 1. cbn [bd N]. destruct (Rle_dec (Rabs (2 * B)) B) as [C|C]; [rewrite Rabs_pos_eq in C; lra|].
  cbv zeta. cbn [fold_left]. reflexivity.
Qed.
Print Assumptions C58_norm2_refuted.

(** An entry that is not finite makes the norm not finite, wherever it stands and however such
    values compare (a test against a tolerance is not passed by accident). *)
Theorem C58_norm2_nonfinite : forall N,
  (forall v, In None v -> norm2 (NR N) v = None) /\
  (forall v z, In z v -> fst z = None \/ snd z = None -> norm2 (NC N) v = None).
Proof.
  intros N. split.
  - intros v H. apply (norm2_bad N (NR N) (fun x => x = None)) with None; auto; intros; subst; reflexivity.
  - intros v z H B. apply (norm2_bad N (NC N) (fun z => fst z = None \/ snd z = None)) with z; auto.
    + intros [[a|] [b|]] [E|E]; simpl in E; try discriminate; reflexivity.
    + intros [[a|] [b|]] c [E|E]; simpl in E; try discriminate; cbn; destruct c; auto.
    + intros [[a|] [b|]] [E|E]; simpl in E; try discriminate; cbn; auto. destruct (chk N (a * a)); auto.
Qed.
Print Assumptions C58_norm2_nonfinite.

(** Normalization gives the multiple of the vector by the reciprocal of its norm; it has norm one,
    as computed by the same kernel.  [normalize2] stores that vector in front of the other array.
    For the zero vector no entry of the result is finite. *)
Theorem C58_normalize_partial : forall N,
  (forall v, fits N (INR (length v)) -> fits N (rnorm v) -> (exists x, In x v /\ x <> 0 /\ fits N (/ Rabs x)) ->
    normalize (NR N) (rvec v) = rvec (map (Rmult (/ rnorm v)) v) /\ norm2 (NR N) (normalize (NR N) (rvec v)) = Some 1) /\
  (forall v, fits N (INR (length v)) -> fits N (cnorm v) -> (exists z, In z v /\ cmag z <> 0 /\ fits N (/ cmag z)) ->
    normalize (NC N) (cvec v) = cvec (map (cscale (/ cnorm v)) v) /\ norm2 (NC N) (normalize (NC N) (cvec v)) = Some 1) /\
  (forall v w, (length v <= length w)%nat -> normalize2 (NR N) v w = Ok (normalize (NR N) v ++ skipn (length v) w)) /\
  (forall v w, (length v <= length w)%nat -> normalize2 (NC N) v w = Ok (normalize (NC N) v ++ skipn (length v) w)) /\
  (fits N 0 -> forall k, normalize (NR N) (rvec (repeat 0 k)) = repeat None k /\ normalize (NC N) (cvec (repeat (0, 0) k)) = repeat (None, None) k).
Proof.
  intros N. split; [|split; [|split; [|split]]].
  - intros v FL FN (x & I & NZ & FX). rewrite <- gnorm_real in *.
    destruct (normalize_nz N (NR N) Some Rabs Rmult Rabs_pos (NR_abs N) (NR_sc N) NR_mag (NR_sq N) v x) as (E & G & M); auto; [now apply Rabs_pos_lt|].
    split; [exact E|]. exact (eq_trans (f_equal (norm2 (NR N)) E) M).
  - intros v FL FN (x & I & NZ & FX). rewrite <- gnorm_cplx in *.
    destruct (normalize_nz N (NC N) cnum cmag cscale cmag_nn (NC_abs N) (NC_sc N) NC_mag (NC_sq N) v x) as (E & G & M); auto; [pose proof (cmag_nn x); lra|].
    split; [exact E|]. exact (eq_trans (f_equal (norm2 (NC N)) E) M).
  - intros. now apply normalize2_eq.
  - intros. now apply normalize2_eq.
  - intros F k. destruct (C58_norm2_partial N) as (_ & _ & Z). destruct (Z F k) as [Z1 Z2]. clear Z. unfold normalize. rewrite Z1, Z2.
    cbn [sdiv so NS odiv]. destruct (Req_EM_T 0 0) as [_|X]; [|lra].
    clear Z1 Z2. split; (induction k as [|k IH]; [reflexivity|]); cbn [repeat rvec cvec map]; f_equal; exact IH.
Qed.
Print Assumptions C58_normalize_partial.

(** The inner product (exact arithmetic) is the sum of conj(v_i) w_i over the length of the first
    vector; exchanging the vectors conjugates it; of a vector with itself it is the square of the norm,
    as is [norm2_sq]; its magnitude is at most the product of the norms.
    A shorter second vector is read beyond its end.  Missing: rounding. *)
Theorem C58_inner_partial : forall N, bd N = None ->
  (forall v w, (length v <= length w)%nat -> inner (NR N) (rvec v) (rvec w) = Ok (Some (rdot v w))) /\
  (forall v w, (length v <= length w)%nat -> inner (NC N) (cvec v) (cvec w) = Ok (Some (cdot_re v w), Some (cdot_im v w))) /\
  (forall v, inner (NR N) (rvec v) (rvec v) = Ok (Some (rnorm v * rnorm v)) /\ norm2_sq (NR N) (rvec v) = Some (rnorm v * rnorm v)) /\
  (forall v, inner (NC N) (cvec v) (cvec v) = Ok (Some (cnorm v * cnorm v), Some 0) /\ norm2_sq (NC N) (cvec v) = Some (cnorm v * cnorm v)) /\
  (forall v w, Rabs (rdot v w) <= rnorm v * rnorm w) /\
  (forall v w, cmag (cdot_re v w, cdot_im v w) <= cnorm v * cnorm w) /\
  (forall v w a b, length v = length w -> inner (NC N) (cvec v) (cvec w) = Ok (Some a, Some b) -> inner (NC N) (cvec w) (cvec v) = Ok (Some a, Some (- b))) /\
  (forall v w, (length w < length v)%nat -> inner (NR N) v w = UB) /\
  (forall v w, (length w < length v)%nat -> inner (NC N) v w = UB).
Proof.
  intros N E. split; [|split; [|split; [|split; [|split; [|split; [|split; [|split]]]]]]].
  - intros. now apply inner_real.
  - intros. now apply (inner_cplx N v w).
  - intros v. rewrite inner_real, rdot_self by auto. split; auto. now apply sq_real.
  - intros v. rewrite inner_cplx by auto. destruct (cdot_self v) as [-> ->]. split; auto. now apply sq_cplx.
  - intros. apply cs_real.
  - intros. apply cs_cplx.
  - intros v w a b L. rewrite (inner_cplx N v w), (inner_cplx N w v) by (auto; rewrite L; auto). destruct (cdot_sym v w) as [-> ->]. unfold cnum. cbn [fst snd]. now intros [= <- <-].
  - intros. now apply inner_ub.
  - intros. now apply inner_ub.
Qed.
Print Assumptions C58_inner_partial.

(** Concrete cases: with greatest number 4, the norm of (3, 0, -3) (whose naive sum of squares 18 is beyond the limit)
    is not beyond it if the limit is 5; the hypotheses of the theorems hold for it and for (3i, 4). *)
Definition nrm_N : arith := mkArith (Some 5) (fun _ _ => true) (Some 0).
Example C58_norm2_hyps :
  (fits nrm_N (INR (length [3; 0; -3])) /\ fits nrm_N (rnorm [3; 0; -3]) /\ (exists x, In x [3; 0; -3] /\ x <> 0 /\ fits nrm_N (/ Rabs x))) /\
  (fits nrm_N (INR (length [(0, 3); (4, 0)])) /\ fits nrm_N (cnorm [(0, 3); (4, 0)]) /\ (exists z, In z [(0, 3); (4, 0)] /\ cmag z <> 0 /\ fits nrm_N (/ cmag z))) /\
  cnorm [(0, 3); (4, 0)] = 5 /\ norm2_sq (NR nrm_N) (rvec [3; 0; -3]) = None /\ norm2_sq (NC nrm_N) (cvec [(0, 3); (4, 0)]) = None.
Proof.
  assert (C5 : cnorm [(0, 3); (4, 0)] = 5).
  { unfold cnorm. cbn [sumR fst snd]. rewrite <- (sqrt_square 5) by lra. f_equal. ring. }
  assert (C4 : cmag (4, 0) = 4).
  { unfold cmag. cbn [fst snd]. rewrite <- (sqrt_square 4) at 3 by lra. f_equal. ring. }
  assert (R5 : rnorm [3; 0; -3] <= 5).
  { unfold rnorm. cbn [sumR]. rewrite <- (sqrt_square 5) by lra. apply sqrt_le_1; lra. }
  pose proof (sqrt_pos (sumR (fun x => x * x) [3; 0; -3])) as RP. fold (rnorm [3; 0; -3]) in RP.
  split; [|split; [|split; [exact C5|split]]].
  - split; [unfold fits, nrm_N; cbn; rewrite Rabs_pos_eq; lra|]. split; [unfold fits, nrm_N; cbn [bd]; rewrite Rabs_pos_eq; lra|].
    exists 3. split; [now left|]. split; [lra|]. unfold fits, nrm_N. cbn [bd]. rewrite (Rabs_pos_eq 3) by lra. rewrite Rabs_pos_eq; lra.
  - split; [unfold fits, nrm_N; cbn; rewrite Rabs_pos_eq; lra|]. split; [unfold fits, nrm_N; cbn [bd]; rewrite C5, Rabs_pos_eq; lra|].
    exists (4, 0). split; [simpl; auto|]. rewrite C4. split; [lra|]. unfold fits, nrm_N. cbn [bd]. rewrite Rabs_pos_eq; lra.
  - assert (E9 : chk nrm_N (3 * 3) = None).
    { unfold chk, nrm_N. cbn [bd]. destruct (Rle_dec _ _) as [H|H]; auto. rewrite Rabs_pos_eq in H; lra. }
    cbn [norm2_sq rvec map fold_left NR real_ops vre vmul vconj NS smul lift2]. rewrite E9. reflexivity.
  - unfold norm2_sq. cbn [cvec map fold_left cnum fst snd NC cplx_ops vre vmul vconj NS smul sneg ssub sadd sz lift1 lift2].
    assert (E3 : chk nrm_N (- (3)) = Some (- (3))) by (apply chk_fits; unfold fits, nrm_N; cbn [bd]; rewrite Rabs_Ropp, Rabs_pos_eq; lra).
    assert (E9 : chk nrm_N (- (3) * 3) = None).
    { unfold chk, nrm_N. cbn [bd]. destruct (Rle_dec _ _) as [H|H]; auto. rewrite Ropp_mult_distr_l_reverse, Rabs_Ropp, Rabs_pos_eq in H; lra. }
    rewrite E3. change (lift2 nrm_N Rmult (Some (- (3))) (Some 3)) with (chk nrm_N (- (3) * 3)). rewrite E9. destruct (chk nrm_N (0 * 0)); reflexivity.
Qed.
