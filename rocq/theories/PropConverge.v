(** * PropConverge: C25, a contracting preconditioner makes bounded refinement report "converged". *)
From Coq Require Import List Arith Lia Lra Bool Reals.
From Verif Require Import Base Scalar Spec CSModel CSSpec CSProofs PrecModel PrecSpec PrecProofs Mag PrepSpec
  BuilderModel BuilderSpec BuilderProofs BuilderProofs2 NormModel NormSpec NormProofs PropPrec PropBuilder PropNorm PropResidual.
Import ListNotations.
Close Scope R_scope. Open Scope nat_scope.

(** Componentwise sums and differences. *)
Definition vplus : list R -> list R -> list R := vmap2 ORe Rplus.
Definition vminus : list R -> list R -> list R := vmap2 ORe Rminus.
(** The user's operator is additive on vectors of length [n]. *)
Definition additive (Mv : list R -> res (list R)) (n : nat) : Prop :=
  forall v w y z, length v = n -> length w = n -> Mv v = Ok y -> Mv w = Ok z -> Mv (vplus v w) = Ok (vplus y z).
(** One solve of the preconditioner removes all but the fraction [q] of any residual. *)
Definition contracts (Mv Sv : list R -> res (list R)) (n : nat) (q : R) : Prop :=
  forall r z w, length r = n -> Sv r = Ok z -> length z = n -> Mv z = Ok w -> (rnorm (vminus r w) <= q * rnorm r)%R.
Definition keeps_length (Sv : list R -> res (list R)) (n : nat) : Prop :=
  forall r z, length r = n -> Sv r = Ok z -> length z = n.

Lemma bind_val : forall X Y (a : res X) (f : X -> res Y) y, (v <- a ;; f v) = Ok y -> exists v, a = Ok v /\ f v = Ok y.
Proof. intros X Y [v| |] f y H; cbn in H; try discriminate. eauto. Qed.

Section Conv.
  Variables (Mv Sv : list R -> res (list R)) (b : list R) (q : R).
  Let n := length b.
  Hypothesis MT : forall v, length v = n -> exists y, Mv v = Ok y /\ length y = n.
  Hypothesis AD : additive Mv n.
  Hypothesis KL : keeps_length Sv n.
  Hypothesis CO : contracts Mv Sv n q.
  Hypothesis Q0 : (0 <= q)%R.
  Variable pl : R -> R -> R.
  Hypothesis PLUS : forall x y, pl x y = (x + y)%R.

  Lemma rlist_ext : forall (u v : list R), length u = length v -> (forall i, i < length u -> nth i u 0%R = nth i v 0%R) -> u = v.
  Proof. intros u v L H. apply (list_ext _ _ _ 0%R); auto. Qed.
  Lemma vl : forall f (u v : list R), length u = length v -> length (vmap2 ORe f u v) = length u.
  Proof. intros. apply vmap2_length; auto. Qed.
  Lemma vn : forall f (u v : list R) i, i < length u -> length u = length v -> nth i (vmap2 ORe f u v) 0%R = f (nth i u 0%R) (nth i v 0%R).
  Proof. intros. apply (nth_vmap2 ORe); auto. Qed.

  Lemma zero_vec : exists zv : list R, zv = zeros ORe n /\ length zv = n /\ forall j, nth j zv 0%R = 0%R.
  Proof. exists (repeat 0%R n). split; [reflexivity|]. split; [apply repeat_length|]. intros. apply nth_repeat. Qed.

  Lemma zero_image : forall y, Mv (zeros ORe n) = Ok y -> forall i, i < n -> nth i y 0%R = 0%R.
  Proof.
    intros y E i Hi. destruct zero_vec as (zv & Z1 & Z2 & Z3). rewrite <- Z1 in E.
    destruct (MT zv Z2) as (y' & E' & L). rewrite E in E'. injection E' as <-.
    pose proof (AD _ _ _ _ Z2 Z2 E E) as H.
    assert (LV : length (vplus zv zv) = n) by (unfold vplus; rewrite vl; auto).
    assert (ZZ : vplus zv zv = zv).
    { apply rlist_ext; [lia|]. intros j Hj. unfold vplus. rewrite vn by lia. rewrite Z3. lra. }
    rewrite ZZ, E in H. injection H as H.
    assert (X : nth i (vplus y y) 0%R = (nth i y 0 + nth i y 0)%R) by (apply vn; lia).
    rewrite <- H in X. lra.
  Qed.

  Lemma iter_res : forall j x, refine ORe Sv Mv pl b j = Ok x ->
    length x = n /\ exists y, Mv x = Ok y /\ length y = n /\ (j = 0 -> vminus b y = b) /\ (rnorm (vminus b y) <= q ^ j * rnorm b)%R.
  Proof.
    induction j as [|j IH]; intros x E.
    - cbn in E. injection E as <-. split; [apply repeat_length|].
      destruct (MT (zeros ORe n)) as (y & E & L); [apply repeat_length|]. exists y. split; [exact E|]. split; [exact L|].
      assert (X : vminus b y = b).
      { assert (LV : length (vminus b y) = length b) by (unfold vminus; rewrite vl; auto).
        apply rlist_ext; auto. intros i Hi. unfold vminus. rewrite vn by (unfold n in *; lia).
        rewrite (zero_image y E) by (unfold n; lia). lra. }
      split; [auto|]. rewrite X. cbn [pow]. lra.
    - cbn [refine] in E. destruct (bind_val _ _ _ _ _ E) as (x0 & E0 & E1). destruct (bind_val _ _ _ _ _ E1) as (r0 & E2 & E3).
      destruct (bind_val _ _ _ _ _ E3) as (z & ES & E4). injection E4 as <-.
      destruct (IH x0 E0) as (L0 & y & M0 & LY & Z0 & B0).
      assert (RE : residual ORe Mv b j x0 = Ok (vminus b y)).
      { destruct j; cbn [residual]; [now rewrite Z0|]. rewrite M0. reflexivity. }
      assert (r0 = vminus b y) as ->. { assert (X : Ok (vminus b y) = Ok r0) by (exact (eq_trans (eq_sym RE) E2)). now injection X. }
      assert (LR : length (vminus b y) = n) by (unfold vminus; rewrite vl; auto).
      pose proof (KL _ _ LR ES) as LZ. destruct (MT z LZ) as (w & MZ & LW).
      assert (EV : vmap2 ORe pl z x0 = vplus z x0) by (unfold vplus, vmap2; apply map_ext; intros; apply PLUS).
      split; [exact (eq_trans (vl _ _ _ (eq_trans LZ (eq_sym L0))) LZ)|]. exists (vplus w y). split; [exact (eq_trans (f_equal Mv EV) (AD _ _ _ _ LZ L0 MZ M0))|].
      split; [unfold vplus; rewrite vl; lia|]. split; [discriminate|].
      assert (LP : length (vplus w y) = n) by (unfold vplus; rewrite vl; lia).
      replace (vminus b (vplus w y)) with (vminus (vminus b y) w).
      + pose proof (CO _ _ _ LR ES LZ MZ) as C. cbn [pow]. rewrite Rmult_assoc.
        eapply Rle_trans; [exact C|]. apply Rmult_le_compat_l; auto.
      + assert (LA : length (vminus (vminus b y) w) = n) by (unfold vminus at 1; rewrite vl; lia).
        assert (LB : length (vminus b (vplus w y)) = n) by (unfold vminus; rewrite vl; [auto|unfold n in *; lia]).
        apply rlist_ext; [lia|]. intros i Hi. unfold vminus, vplus in *. rewrite !vn; unfold n in *; try lia; try lra.
  Qed.
End Conv.

Lemma hist_rel : forall h s0 a0 s vs, Rel ORe s0 a0 -> hist_good ORe a0 h -> run ORe s0 h = Some (s, vs) ->
  Rel ORe s (fold_left (fun a o => fst (spec_step ORe a (snd o))) h a0).
Proof.
  induction h as [|[j o] h IH]; intros s0 a0 s vs R G E.
  - simpl in *. injection E as <- <-. auto.
  - destruct G as [G1 G2]. destruct (step_refines ORe j s0 a0 o R G1) as (s1 & E1 & R1).
    cbn [run] in E. rewrite E1 in E. destruct (run ORe s1 h) as [[s2 vs2]|] eqn:E2; [|discriminate].
    injection E as <- <-. cbn [fold_left snd]. eapply IH; eauto.
Qed.

(** Exact real arithmetic, a linear operator, and a preconditioner that leaves at most the fraction [q <= 1] of any
    residual (in the Euclidean norm): as soon as [q^k] is within the lower bound and [k] is below the limit of
    the number of iterations, bounded refinement (upper bound at least one) reports "converged" after
    at most [k] iterations whenever it returns, and the residual is at most lo times the right-hand side.
    Missing: rounding. *)
Theorem C25_converges_partial : forall (A : arith) mulA lo hi u h s vs junk (b : list R) N (x : list R) tran ld (q : R) k,
  bd A = None -> hist_good ORe (abs_new ORe) h -> run ORe (hif_new ORe) h = Some (s, vs) ->
  let a := fold_left (fun a o => fst (spec_step ORe a (snd o))) h (abs_new ORe) in
  aprecs a <> [] -> 0 < length b -> asz a = Some (length b, length b) -> length x = length b ->
  mul_good ORe mulA tran (length b) -> rnorm b <> 0%R ->
  additive (fun v => mulA tran v v) (length b) ->
  contracts (fun v => mulA tran v v) (spec_solve ORe a tran ld) (length b) q ->
  (0 <= q <= 1)%R -> (q ^ k <= lo)%R -> (1 <= hi)%R -> 1 <= k < N ->
  forall s' z it flag,
  hifir_bounded ORe mulA (option R) (anorm A) (odiv A) oeq0 (le_bound lo) (gt_bound hi u) junk s b N x tran ld = Ret s' (z, it, flag) ->
  flag = Some true /\ it <= k /\ exists y, mulA tran z z = Ok y /\ (rnorm (vminus b y) <= lo * rnorm b)%R.
Proof.
  intros A mulA lo hi u h s vs junk b N x tran ld q k BD HG RN a PR LB SZ LX MG NB AD CO Q QK HI HK s' z it flag E.
  assert (RL : Rel ORe s a) by (unfold a; eapply hist_rel; [apply Rel_new|exact HG|exact RN]).
  assert (KL : keeps_length (spec_solve ORe a tran ld) (length b)).
  { intros r y LR SY.
    assert (SZ' : asz a = Some (length r, length r)) by (transitivity (Some (length b, length b)); [exact SZ|f_equal; f_equal; symmetry; exact LR]).
    destruct (solve_step ORe s a junk r r tran ld RL PR SZ' eq_refl) as [(s1 & y1 & _ & S1 & L1 & _)|(s1 & _ & S1 & _)].
    - rewrite SY in S1. injection S1 as <-. exact (eq_trans L1 LR).
    - rewrite SY in S1. discriminate. }
  pose proof (C25_residual_partial A mulA lo hi u h s vs junk b N x tran ld BD HG RN) as C. cbv zeta in C. fold a in C.
  destruct (C PR ltac:(lia) LB SZ LX MG NB s' z it flag E) as (T1 & T2 & T3 & T4). clear C.
  assert (NP : (0 < rnorm b)%R) by (pose proof (sqrt_pos (sumR (fun x => x * x) b)%R) as P; fold (rnorm b) in P; lra).
  assert (MT : forall v, length v = length b -> exists y, (fun v => mulA tran v v) v = Ok y /\ length y = length b).
  { intros v L. destruct (MG v v L L) as (y & E1 & _ & L1). eauto. }
  assert (IR : forall j y d w r, refine ORe (spec_solve ORe a tran ld) (fun v => mulA tran v v) (fun z x => Rplus x z) b j = Ok y ->
    mulA tran y y = Ok w -> r = vmap2 ORe Rminus b w -> d = (rnorm r / rnorm b)%R -> (d <= q ^ j)%R).
  { intros j y d w r Y W Hr Hd.
    destruct (iter_res (fun v => mulA tran v v) (spec_solve ORe a tran ld) b q MT AD KL CO (proj1 Q) (fun z x => Rplus x z) (fun z x => Rplus_comm x z) j y Y) as (_ & w' & W' & _ & _ & B').
    cbv beta in W'. rewrite W in W'. injection W' as <-. subst d r. unfold vminus in B'.
    apply Rmult_le_reg_r with (rnorm b); auto. unfold Rdiv. rewrite Rmult_assoc, Rinv_l, Rmult_1_r by auto. exact B'. }
  assert (P1 : forall j, (0 <= q ^ j <= 1)%R).
  { induction j as [|j IH]; cbn [pow]; [lra|]. split; [apply Rmult_le_pos; lra|].
    replace 1%R with (1 * 1)%R by lra. apply Rmult_le_compat; lra. }
  assert (IK : it <= k).
  { destruct (le_lt_dec it k) as [|G]; auto. exfalso. destruct (T3 k ltac:(lia)) as (y & d & Y & (w & r & W & Hr & Hd) & (D1 & _)).
    pose proof (IR k y d w r Y W Hr Hd). lra. }
  destruct flag as [[|]|].
  - split; auto. split; auto. destruct T4 as (_ & d & (w & r & W & Hr & Hd) & D). exists w. split; auto. subst r.
    unfold vminus. apply Rmult_le_reg_r with (/ rnorm b)%R; [now apply Rinv_0_lt_compat|].
    rewrite Rmult_assoc, Rinv_r, Rmult_1_r by auto. unfold Rdiv in Hd. lra.
  - exfalso. destruct T4 as (_ & d & (w & r & W & Hr & Hd) & D). pose proof (IR it z d w r T2 W Hr Hd). pose proof (P1 it). lra.
  - exfalso. lia.
Qed.
Print Assumptions C25_converges_partial.

Lemma half_run : forall D nrm ddiv is0 le_lo gt_hi, is0 (nrm [8%R]) = false ->
  (forall y, y = 4%R -> le_lo (ddiv (nrm [y]) (nrm [8%R])) = false /\ gt_hi (ddiv (nrm [y]) (nrm [8%R])) = false) ->
  (forall y, y = 2%R -> le_lo (ddiv (nrm [y]) (nrm [8%R])) = false /\ gt_hi (ddiv (nrm [y]) (nrm [8%R])) = false) ->
  (forall y, y = 1%R -> le_lo (ddiv (nrm [y]) (nrm [8%R])) = true) ->
  exists s, run ORe (hif_new ORe) (one_hist 2) = Some (s, [OutUnit]) /\
   exists s' z, hifir_bounded ORe rid D nrm ddiv is0 le_lo gt_hi rj s [8%R] 7 [0%R] false 0 = Ret s' (z, 3, Some true).
Proof.
  intros D nrm ddiv is0 le_lo gt_hi Z H4 H2 H1. eexists. split; [reflexivity|]. do 2 eexists.
  lazy -[Rplus Rmult Rminus Ropp Rinv Rdiv IZR]. rewrite Z.
  match goal with |- context [le_lo (ddiv (nrm [?y]) _)] => destruct (H4 y) as (-> & ->); [field|] end.
  match goal with |- context [le_lo (ddiv (nrm [?y]) _)] => destruct (H2 y) as (-> & ->); [field|] end.
  match goal with |- context [le_lo (ddiv (nrm [?y]) _)] => rewrite (H1 y) by field end.
  reflexivity.
Qed.

Lemma hist_app : forall h (a0 : Abs ORe) o, hist_good ORe a0 (h ++ [o]) ->
  hist_good ORe a0 h /\ op_good ORe (fold_left (fun a o => fst (spec_step ORe a (snd o))) h a0) (snd o).
Proof.
  induction h as [|[j p] h IH]; intros a0 [jo o] G; cbn [app] in G.
  - destruct G as [G _]. split; [exact I|exact G].
  - destruct G as [G1 G2]. destruct (IH _ _ G2) as [I1 I2]. split; [split; auto|exact I2].
Qed.

(** The same for refinement with a fixed number [N] of iterations, after any history: whenever the call returns
    a vector, its residual is at most [q^N] times the right-hand side (for every [q >= 0]), in exact real arithmetic. *)
Theorem C24_contraction : forall h junk mulA b N (x : list R) tran ld (q : R), 1 < N ->
  hist_good ORe (abs_new ORe) (h ++ [(junk, @OpHifir ORe mulA b N x tran ld)]) ->
  let a := fold_left (fun a o => fst (spec_step ORe a (snd o))) h (abs_new ORe) in
  aprecs a <> [] -> additive (fun v => mulA tran v v) (length b) ->
  contracts (fun v => mulA tran v v) (spec_solve ORe a tran ld) (length b) q -> (0 <= q)%R ->
  forall s' outs z, run ORe (hif_new ORe) (h ++ [(junk, @OpHifir ORe mulA b N x tran ld)]) = Some (s', outs ++ [@OutVec ORe z]) ->
  exists y, mulA tran z z = Ok y /\ (rnorm (vminus b y) <= q ^ N * rnorm b)%R.
Proof.
  intros h junk mulA b N x tran ld q HN HG a PR AD CO Q s' outs z E.
  destruct (C24_hifir_iterates ORe h junk mulA b N x tran ld HN HG) as (s2 & o2 & E2). rewrite E in E2. fold a in E2.
  assert (E3 : outs ++ [@OutVec ORe z] = o2 ++ [of_res ORe (refine ORe (spec_solve ORe a tran ld) (fun v => mulA tran v v) (tadd ORe) b N)]) by congruence.
  apply app_inj_tail in E3. destruct E3 as [_ E3].
  destruct (refine ORe (spec_solve ORe a tran ld) (fun v => mulA tran v v) (tadd ORe) b N) as [w| |] eqn:ER; cbn [of_res] in E3; try discriminate.
  injection E3 as ->. destruct (hist_app _ _ _ HG) as [HG1 OG]. cbn [snd op_good] in OG.
  destruct (N <=? 1) eqn:C; [apply Nat.leb_le in C; lia|]. destruct OG as (LB & LX & SZ & MG). fold a in SZ.
  assert (MT : forall v, length v = length b -> exists y, (fun v => mulA tran v v) v = Ok y /\ length y = length b).
  { intros v L. destruct (MG v v L L) as (y & E1 & _ & L1). eauto. }
  destruct (history_refines ORe _ HG1) as (s1 & RN).
  assert (RL : Rel ORe s1 a) by (unfold a; eapply hist_rel; [apply Rel_new|exact HG1|exact RN]).
  assert (KL : keeps_length (spec_solve ORe a tran ld) (length b)).
  { intros r y LR SY.
    assert (SZ' : asz a = Some (length r, length r)) by (transitivity (Some (length b, length b)); [exact SZ|f_equal; f_equal; symmetry; exact LR]).
    destruct (solve_step ORe s1 a junk r r tran ld RL PR SZ' eq_refl) as [(s3 & y1 & _ & S1 & L1 & _)|(s3 & _ & S1 & _)].
    - rewrite SY in S1. injection S1 as <-. exact (eq_trans L1 LR).
    - rewrite SY in S1. discriminate. }
  destruct (iter_res (fun v => mulA tran v v) (spec_solve ORe a tran ld) b q MT AD KL CO Q (tadd ORe) (fun _ _ => eq_refl) N w ER)
    as (_ & y & MY & _ & _ & B). exists y. auto.
Qed.
Print Assumptions C24_contraction.

(** Met by the identity matrix and one level whose factor is 2 (each solve halves the residual), [b = 8], [lo = 1/8], [k = 3], and the run returns. *)
Example C25_converges_hyps :
  let a := fold_left (fun a o => fst (spec_step ORe a (snd o))) (one_hist 2) (abs_new ORe) in
  hist_good ORe (abs_new ORe) (one_hist 2) /\ aprecs a <> [] /\ asz a = Some (1, 1) /\ mul_good ORe rid false 1 /\ rnorm [8%R] <> 0%R /\
  additive (fun v => rid false v v) 1 /\
  contracts (fun v => rid false v v) (spec_solve ORe a false 0) 1 (/ 2) /\ ((/ 2) ^ 3 <= / 8)%R /\
  exists s s' z, run ORe (hif_new ORe) (one_hist 2) = Some (s, [OutUnit]) /\
  hifir_bounded ORe rid (option R) (anorm (mkArith None (fun _ _ => true) None)) (odiv (mkArith None (fun _ _ => true) None)) oeq0 (le_bound (/ 8)) (gt_bound 5 true) rj s [8%R] 7 [0%R] false 0 = Ret s' (z, 3, Some true).
Proof.
  assert (N1 : forall y, (rnorm [y] = Rabs y)%R).
  { intros y. unfold rnorm. cbn [sumR]. rewrite Rplus_0_r. rewrite <- (sqrt_Rsqr_abs y). reflexivity. }
  intros a. split; [apply one_good|]. split; [discriminate|]. split; [reflexivity|]. split; [intros v w L _; exists v; auto|].
  split; [rewrite N1, Rabs_pos_eq; lra|]. split; [intros v w y z _ _ [= <-] [= <-]; reflexivity|].
  assert (SV : forall y, spec_solve ORe a false 0 [y] = Ok [(1 * (1 * y / 2))%R]) by (intros y; lazy -[Rplus Rmult Rminus Ropp Rinv Rdiv IZR]; reflexivity).
  split.
  { intros r z w L. destruct r as [|y [|? ?]]; try discriminate. rewrite SV. intros [= <-] _ [= <-]. unfold vminus, vmap2. cbn [combine map fst snd].
    rewrite !N1. replace (y - 1 * (1 * y / 2))%R with (/ 2 * y)%R by (field). rewrite Rabs_mult, (Rabs_pos_eq (/ 2)); lra. }
  split; [cbn; lra|].
  set (AA := mkArith None (fun _ _ => true) None).
  assert (N8 : forall y, (0 <= y)%R -> odiv AA (anorm AA [y]) (anorm AA [8%R]) = Some (y / 8)%R).
  { intros y Y. rewrite !anorm_eq, !N1, !Rabs_pos_eq by (reflexivity || lra). cbn [odiv]. destruct (Req_EM_T 8 0); [lra|]. rewrite chk_none; reflexivity. }
  destruct (half_run (option R) (anorm AA) (odiv AA) oeq0 (le_bound (/ 8)) (gt_bound 5 true)) as (s & R1 & s' & z & R2).
  - rewrite anorm_eq, N1, Rabs_pos_eq by (reflexivity || lra). cbn. destruct (Req_EM_T 8 0); [lra|auto].
  - intros y ->. rewrite N8 by lra. cbn [le_bound gt_bound]. destruct (Rle_dec _ _); [lra|]. destruct (Rlt_dec _ _); [lra|auto].
  - intros y ->. rewrite N8 by lra. cbn [le_bound gt_bound]. destruct (Rle_dec _ _); [lra|]. destruct (Rlt_dec _ _); [lra|auto].
  - intros y ->. rewrite N8 by lra. cbn [le_bound gt_bound]. destruct (Rle_dec _ _); [auto|lra].
  - exists s, s', z. auto.
Qed.

(** The same level meets the hypotheses of [C24_contraction] and the run with three iterations returns a vector. *)
Example C24_contraction_hyps : forall rk,
  let h := one_hist 2 in let o := (rj, @OpHifir ORe rid [8%R] 3 [0%R] false rk) in
  hist_good ORe (abs_new ORe) (h ++ [o]) /\ aprecs (fold_left (fun a o => fst (spec_step ORe a (snd o))) h (abs_new ORe)) <> [] /\
  exists s' z, run ORe (hif_new ORe) (h ++ [o]) = Some (s', [OutUnit] ++ [@OutVec ORe [z]]) /\ z = 7%R.
Proof.
  intros rk h o. split.
  - cbn [h one_hist app hist_good o]. split; [exact (proj1 (one_good 2))|]. split; [|exact I].
    cbn. split; [lia|]. split; [reflexivity|]. split; [reflexivity|]. intros v w L _; exists v; auto.
  - split; [discriminate|]. do 2 eexists. split; [lazy -[Rplus Rmult Rminus Ropp Rinv Rdiv IZR]; reflexivity|].
    match goal with |- ?x = _ => change (@eq R x 7%R) end. field.
Qed.

Lemma lt_len : forall (l : list R) k i, length l = k -> i < k -> i < length l.
Proof. intros l k i <-. auto. Qed.

Lemma FRe : FieldLaws ORe.
Proof.
  constructor; cbn.
  - constructor; cbn; auto. constructor; intros; cbn; ring.
  - exact R1_neq_R0.
  - reflexivity.
  - intros a H. apply Rinv_l; auto.
Qed.

(** Multiplying by a matrix is additive. *)
Lemma applies_additive : forall n F Am, @applies ORe n F Am -> additive F n.
Proof.
  intros n F Am HA v w y z Lv Lw Ey Ez.
  destruct (HA v Lv) as (y' & Ey' & Ly & Vy). rewrite Ey in Ey'. injection Ey' as <-.
  destruct (HA w Lw) as (z' & Ez' & Lz & Vz). rewrite Ez in Ez'. injection Ez' as <-.
  assert (L : length (vplus v w) = n) by (unfold vplus; rewrite vl; [exact Lv|exact (eq_trans Lv (eq_sym Lw))]).
  destruct (HA (vplus v w) L) as (u & Eu & Lu & Vu). rewrite Eu. f_equal.
  assert (LP : length (vplus y z) = n) by (unfold vplus; rewrite vl; [exact Ly|exact (eq_trans Ly (eq_sym Lz))]).
  apply rlist_ext; [exact (eq_trans Lu (eq_sym LP))|]. intros i Hi. assert (Hn : i < n) by (rewrite <- Lu; exact Hi).
  transitivity (@mvec ORe n Am (@v_ ORe (vplus v w)) i); [exact (Vu i Hn)|].
  transitivity (@mvec ORe n Am (fun j => tadd ORe (@v_ ORe v j) (@v_ ORe w j)) i).
  { apply (mvec_ext ORe). intros j Hj. unfold v_, vplus. apply vn; [exact (lt_len _ _ _ Lv Hj)|exact (eq_trans Lv (eq_sym Lw))]. }
  rewrite (mvec_add_r ORe (fl_ring ORe FRe)). rewrite <- (Vy i Hn), <- (Vz i Hn). symmetry. unfold vplus.
  apply vn; [exact (lt_len _ _ _ Ly Hn)|exact (eq_trans Ly (eq_sym Lz))].
Qed.

Lemma refine_plus : forall Sv Mv (b : list R) (p p' : R -> R -> R), (forall x y, p x y = p' x y) ->
  forall k, refine ORe Sv Mv p b k = refine ORe Sv Mv p' b k.
Proof.
  intros Sv Mv b p p' H. induction k as [|k IH]; cbn [refine]; [reflexivity|]. rewrite IH.
  destruct (refine ORe Sv Mv p' b k) as [x0| |]; cbn [bind]; auto.
  destruct (residual ORe Mv b k x0) as [r0| |]; cbn [bind]; auto. destruct (Sv r0) as [z0| |]; cbn [bind]; auto.
  f_equal. unfold vmap2. apply map_ext. intros c. apply H.
Qed.

Lemma refine_total : forall Sv Mv (b : list R) pl,
  (forall v, length v = length b -> exists y, Mv v = Ok y /\ length y = length b) ->
  (forall r, length r = length b -> exists z, Sv r = Ok z /\ length z = length b) ->
  forall k, exists x, refine ORe Sv Mv pl b k = Ok x /\ length x = length b.
Proof.
  intros Sv Mv b pl MT ST. induction k as [|k (x & E & L)].
  - exists (zeros ORe (length b)). split; [reflexivity|]. apply repeat_length.
  - cbn [refine]. rewrite E. cbn [bind].
    assert (R : exists r, residual ORe Mv b k x = Ok r /\ length r = length b).
    { destruct k; cbn [residual]; [exists b; auto|]. destruct (MT x L) as (y & -> & LY). cbn [bind].
      eexists. split; [reflexivity|]. apply vl. exact (eq_sym LY). }
    destruct R as (r & -> & LR). cbn [bind]. destruct (ST r LR) as (z & -> & LZ). cbn [bind].
    eexists. split; [reflexivity|]. exact (eq_trans (vl _ z x (eq_trans LZ (eq_sym L))) LZ).
Qed.

(** A hierarchy that factors the user's matrix exactly, exact real arithmetic: whatever the bounds (lo >= 0, hi >= 1)
    refinement returns, reports "converged" after the first iteration, with the exact solution.  Missing: rounding. *)
Theorem C25_exact_partial : forall (A : arith) mulA lo hi u h s vs junk (b : list R) N (x : list R) ld (Am M : nat -> nat -> R),
  bd A = None -> hist_good ORe (abs_new ORe) h -> run ORe (hif_new ORe) h = Some (s, vs) ->
  let a := fold_left (fun a o => fst (spec_step ORe a (snd o))) h (abs_new ORe) in
  let n := length b in
  aprecs a <> [] -> 0 < n -> asz a = Some (n, n) -> length x = n -> mul_good ORe mulA false n -> rnorm b <> 0%R ->
  @applies ORe n (fun v => mulA false v v) Am -> @hier_ok ORe ld (aprecs a) n -> @prec_matrix ORe ld (aprecs a) M -> ansp a = None ->
  (forall i j, i < n -> j < n -> M i j = Am i j) -> (0 <= lo)%R -> (1 <= hi)%R -> 1 < N ->
  exists s' z,
  hifir_bounded ORe mulA (option R) (anorm A) (odiv A) oeq0 (le_bound lo) (gt_bound hi u) junk s b N x false ld = Ret s' (z, 1, Some true) /\
  forall i, i < n -> @mvec ORe n Am (@v_ ORe z) i = nth i b 0%R.
Proof.
  intros A mulA lo hi u h s vs junk b N x ld Am M BD HG RN a n PR LB SZ LX MG NB HA HO PM NS EM LO HI HN.
  assert (SS : @solves ORe n (spec_solve ORe a false ld) M) by exact (spec_solve_solves ORe FRe a ld n M HO PM NS).
  assert (CO : contracts (fun v => mulA false v v) (spec_solve ORe a false ld) n 0).
  { intros r y w LR SY LY MY. destruct (SS r LR) as (y' & SY' & _ & V). rewrite SY in SY'. injection SY' as <-.
    destruct (HA y LY) as (w' & MY' & LW & VW). cbv beta in MY, MY'. rewrite MY in MY'. injection MY' as <-.
    replace (vminus r w) with (repeat 0%R n).
    - rewrite Rmult_0_l. unfold rnorm. assert (Z : forall k, sumR (fun x => (x * x)%R) (repeat 0%R k) = 0%R) by (induction k; cbn; [auto|lra]).
      rewrite Z, sqrt_0. lra.
    - assert (LV : length (vminus r w) = n) by (unfold vminus; rewrite vl; [exact LR|exact (eq_trans LR (eq_sym LW))]).
      apply rlist_ext; [rewrite repeat_length; symmetry; exact LV|]. intros i Hi. rewrite repeat_length in Hi. rewrite nth_repeat.
      assert (X : nth i w 0%R = nth i r 0%R).
      { transitivity (@mvec ORe n Am (@v_ ORe y) i); [exact (VW i Hi)|]. transitivity (@mvec ORe n M (@v_ ORe y) i); [|exact (V i Hi)].
        apply (sum_ext ORe). intros j Hj. exact (f_equal (fun c => Rmult c (@v_ ORe y j)) (eq_sym (EM i j Hi Hj))). }
      unfold vminus. rewrite vn; [rewrite X; lra|exact (lt_len _ _ _ LR Hi)|exact (eq_trans LR (eq_sym LW))]. }
  assert (I0 : oeq0 (anorm A b) = false).
  { rewrite anorm_eq by auto. cbn [oeq0]. destruct (Req_EM_T (rnorm b) 0); [contradiction|auto]. }
  destruct (C25_truthful ORe mulA (option R) (anorm A) (odiv A) oeq0 (le_bound lo) (gt_bound hi u) h s vs junk b N x false ld HG RN PR HN LB SZ LX MG I0)
    as [(s' & z & it & flag & E & _)|(s' & k & _ & _ & ER)].
  2:{ exfalso. assert (MT : forall v, length v = length b -> exists y, (fun v => mulA false v v) v = Ok y /\ length y = length b).
      { intros v L. destruct (MG v v L L) as (y & E1 & _ & L1). eauto. }
      assert (ST : forall r, length r = length b -> exists z, spec_solve ORe a false ld r = Ok z /\ length z = length b).
      { intros r L. destruct (SS r L) as (z & E1 & L1 & _). eauto. }
      destruct (refine_total _ _ b (fun z x => Rplus x z) MT ST k) as (y & EY & _). 
      assert (X : Ok y = Err) by exact (eq_trans (eq_sym EY) ER). discriminate X. }
  destruct (C25_converges_partial A mulA lo hi u h s vs junk b N x false ld 0 1 BD HG RN PR LB SZ LX MG NB (applies_additive _ _ _ HA) CO
    ltac:(lra) ltac:(cbn; lra) HI ltac:(lia) s' z it flag E) as (F & IT & _).
  destruct (C25_residual_partial A mulA lo hi u h s vs junk b N x false ld BD HG RN PR ltac:(lia) LB SZ LX MG NB s' z it flag E) as (T1 & T2 & _).
  assert (I1 : it = 1) by lia. subst it flag. exists s', z. split; [exact E|].
  pose proof (eq_trans (eq_sym (refine_plus (spec_solve ORe a false ld) (fun v => mulA false v v) b (fun z x => Rplus x z) (tadd ORe) (fun x y => Rplus_comm y x) 1)) T2) as T3.
  intros i Hi. exact (C24_exact ORe FRe a ld n M Am (fun v => mulA false v v) b 0 z HO PM NS EM HA eq_refl T3 i Hi).
Qed.
Print Assumptions C25_exact_partial.

(** Its hypotheses for one level with the factor 2 and the matrix (2). *)
Example C25_exact_hyps :
  let a := fold_left (fun a o => fst (spec_step ORe a (snd o))) (one_hist 2) (abs_new ORe) in
  let Am := fun _ _ : nat => 2%R in let mulA := fun (_ : bool) (v _ : list R) => Ok (map (fun y => 2 * y)%R v) in
  @applies ORe 1 (fun v => mulA false v v) Am /\ mul_good ORe mulA false 1 /\ @hier_ok ORe 0 (aprecs a) 1 /\
  @prec_matrix ORe 0 (aprecs a) Am /\ ansp a = None.
Proof.
  intros a Am mulA. split.
  { intros v L. destruct v as [|y [|? ?]]; try discriminate. eexists. split; [reflexivity|]. split; [reflexivity|].
    intros i Hi. replace i with 0 by lia. cbn. unfold mvec. cbn. unfold Am. lra. }
  split. { intros v w L _. exists (map (fun y => 2 * y)%R v). split; [reflexivity|]. split; [reflexivity|]. rewrite map_length. exact L. }
  assert (W : forall A : CS ORe, wfb A = true -> wf A) by apply wfb_wf.
  split.
  { cbn. split; [|auto]. constructor; cbn; try lia; auto 6 using is_inv_dec.
    - split; [apply W; reflexivity|]. repeat split; auto. intros i j Hi Hj. intros. assert (i = 0) as -> by lia. assert (j = 0) as -> by lia. cbn. reflexivity.
    - split; [apply W; reflexivity|]. repeat split; auto. intros i j Hi Hj. intros. assert (i = 0) as -> by lia. assert (j = 0) as -> by lia. cbn. reflexivity.
    - split; [lia|]. intros i Hi. replace i with 0 by lia. cbn. lra.
    - split; [lia|]. intros i Hi. replace i with 0 by lia. cbn. lra.
    - split; [lia|]. intros i Hi. replace i with 0 by lia. cbn. lra. }
  split; [|reflexivity]. cbn. exists (fun _ _ => 0%R). split; [|auto].
  exists (fun _ _ => 0%R). split; [intros i j Hi Hj; lia|].
  intros i j Hi Hj. assert (i = 0) as -> by lia. assert (j = 0) as -> by lia. cbn. unfold Am. lra.
Qed.
