(** * Properties C22-C26: the HIF object, refinement, null-space filter. *)
From Coq Require Import List Arith Lia Bool ZArith QArith Qcanon.
From Verif Require Import Base Scalar Spec CSModel CSSpec CSProofs PrecModel PrecSpec PrecProofs
  BuilderModel BuilderSpec BuilderProofs BuilderProofs2 PropCS PropPrec.
Import ListNotations.
Close Scope Q_scope. Close Scope Qc_scope. Open Scope nat_scope.

(** ** C22: histories.

    Full claim: over every history no call is undefined, and each output is the one
    of the buffer-free specification object.  It is proved for histories without
    [solve_mrhs], whose failing factorizations failed before a level was stored and
    whose vectors have the size of the matrix; each of the three exclusions is
    necessary (refutations below).  No algebraic law is used. *)
Theorem C22_history_partial : forall O (h : list ((nat -> T O) * op O)),
  hist_good O (abs_new O) h ->
  exists s', run O (hif_new O) h = Some (s', spec_run O (abs_new O) h).
Proof. exact history_refines. Qed.
Print Assumptions C22_history_partial.

(** Calls on an object without levels raise an error and change nothing. *)
Theorem C22_empty_throws : forall O (s : HIF O) junk N b x tran r, hprecs s = [] ->
  solve O junk s b x tran r = Throw s /\ mmultiply O junk s b x tran r = Throw s /\
  solve_mrhs O junk s N b x r = Throw s.
Proof. intros O s junk N b x tran r H. unfold solve, mmultiply, solve_mrhs. rewrite H. auto. Qed.
Print Assumptions C22_empty_throws.

Definition zj : nat -> T OZ := fun _ => 0%Z.
Definition zmul : bool -> list (T OZ) -> list (T OZ) -> res (list (T OZ)) := fun _ x _ => Ok x.

Lemma zhier_good : hier_good [zP1; zP2] 3.
Proof.
  assert (W : forall A : CS OZ, wfb A = true -> wf A) by apply wfb_wf.
  assert (L1 : level_shape zP1) by (constructor; cbn; try lia; auto 6 using is_inv_dec).
  assert (L2 : level_shape zP2) by (constructor; cbn; try lia; auto 6 using is_inv_dec).
  intros ld tran; split; (split; [exact L1|split; [reflexivity|]]);
  cbn; (split; [exact L2|split; [reflexivity|]]); intros _ y Ly; exists y; split; try reflexivity; exact Ly.
Qed.

(** A history that meets the hypotheses: failing and successful factorizations,
    solves, products, refinement, filter, clear. *)
Definition zhist : list ((nat -> T OZ) * op OZ) :=
  [ (zj, @OpSolve OZ [1;2;3]%Z [0;0;0]%Z false 0);
    (zj, @OpFactorize OZ 3 3 [] false);
    (zj, @OpFactorize OZ 3 3 [zP1; zP2] true);
    (zj, @OpSolve OZ [1;2;3]%Z [9;9;9]%Z false 0);
    (zj, @OpMultiply OZ [1;2;3]%Z [9;9;9]%Z true 0);
    (zj, @OpSetNsp OZ (Some (@NspConst OZ 0 None)));
    (zj, @OpHifir OZ zmul [1;2;3]%Z 4 [0;0;0]%Z false 0);
    (zj, @OpSolve OZ [1;2;3]%Z [0;0]%Z false 0);
    (zj, @OpClear OZ);
    (zj, @OpMultiply OZ [1;2]%Z [0;0]%Z false 0) ].
Example C22_hyps : hist_good OZ (abs_new OZ) zhist.
Proof.
  assert (F0 : filter_good OZ (Some (@NspConst OZ 0 None))) by apply const_filter_good.
  assert (M0 : mul_good OZ zmul false 3) by (intros x y Lx Ly; exists x; auto).
  split; [left; reflexivity|]. split; [reflexivity|].
  split; [split; [reflexivity|exact zhier_good]|].
  split; [right; right; reflexivity|]. split; [right; right; reflexivity|]. split; [exact F0|].
  split; [split; [simpl; lia|split; [reflexivity|split; [reflexivity|exact M0]]]|].
  split; [right; left; discriminate|]. split; [exact I|]. split; [left; reflexivity|]. exact I.
Qed.
Example C22_run : match run OZ (hif_new OZ) zhist with
  | Some (_, [OutErr; OutErr; OutUnit; OutVec _; OutVec _; OutUnit; OutVec _; OutErr; OutUnit; OutErr]) => True
  | _ => False end.
Proof. vm_compute. exact I. Qed.

(** A factorization that fails after storing its first level leaves an object that
    [empty()] does not recognise as unusable: the next solve follows a missing
    level. *)
Theorem C22_failed_factorize_refuted : exists (P : Prec OZ) h,
  level_shape P /\ is_last_level OZ P = false /\
  h = [(zj, @OpFactorize OZ 3 3 [P] false); (zj, @OpSolve OZ [1;2;3]%Z [0;0;0]%Z false 0)] /\
  run OZ (hif_new OZ) h = None.
Proof.
  exists zP1. eexists. split; [|split; [reflexivity|split; [reflexivity|]]].
  - constructor; cbn; try lia; auto 6 using is_inv_dec, wfb_wf.
  - vm_compute. reflexivity.
Qed.
Print Assumptions C22_failed_factorize_refuted.

(** The work buffer is sized once: a multi-RHS solve after a plain solve, or after
    one with fewer columns, writes past it; as first call it is defined. *)
Theorem C22_mrhs_refuted :
  let f := (zj, @OpFactorize OZ 3 3 [zP1; zP2] true) in
  let m1 := (zj, @OpSolveMrhs OZ 1 [1;2;3]%Z [0;0;0]%Z 0) in
  let m2 := (zj, @OpSolveMrhs OZ 2 [1;2;3;4;5;6]%Z [0;0;0;0;0;0]%Z 0) in
  let s := (zj, @OpSolve OZ [1;2;3]%Z [0;0;0]%Z false 0) in
  hier_good [zP1; zP2] 3 /\
  run OZ (hif_new OZ) [f; m2] <> None /\
  run OZ (hif_new OZ) [f; s; m2] = None /\
  run OZ (hif_new OZ) [f; m1; m2] = None.
Proof.
  cbv zeta. split; [exact zhier_good|]. split; [vm_compute; discriminate|].
  split; vm_compute; reflexivity.
Qed.
Print Assumptions C22_mrhs_refuted.

(** Right-hand sides of the wrong size are only compared with the solution vector,
    not with the matrix. *)
Theorem C22_wrong_size_refuted :
  hier_good [zP1; zP2] 3 /\
  run OZ (hif_new OZ) [(zj, @OpFactorize OZ 3 3 [zP1; zP2] true); (zj, @OpSolve OZ [1;2]%Z [0;0]%Z false 0)] = None.
Proof. split; [exact zhier_good|]. vm_compute. reflexivity. Qed.
Print Assumptions C22_wrong_size_refuted.

(** Refinement on an object that was never factorized reads the uninitialized
    size instead of raising the "empty" error. *)
Theorem C22_fresh_hifir_refuted :
  run OZ (hif_new OZ) [(zj, @OpHifir OZ zmul [1;2;3]%Z 2 [0;0;0]%Z false 0)] = None.
Proof. vm_compute. reflexivity. Qed.
Print Assumptions C22_fresh_hifir_refuted.

(** ** C23: queries. *)

(** The rank is the sum of the leading block sizes plus the rank of the last dense
    block, never more than the size; the last block has the size that is left. *)
Theorem C23_rank : forall O (s : HIF O) n, hier_sizes O (hprecs s) n -> hsz s = Some (n, n) ->
  hif_rank O s = Ok (list_sum (map pm (hprecs s)) + hif_schur_rank O s) /\
  list_sum (map pm (hprecs s)) + hif_schur_size O s = n /\
  hif_schur_rank O s <= hif_schur_size O s.
Proof. exact rank_ok. Qed.
Print Assumptions C23_rank.
Example C23_hyps : hier_sizes OZ [zP1; zP2] 3 /\
  hif_rank OZ (mkHIF [zP1; zP2] [] (Some (3, 3)) None None [] []) = Ok 3.
Proof. split; [cbn; repeat split; lia|reflexivity]. Qed.

Theorem C23_nnz : forall O (s : HIF O),
  hif_nnz O s = list_sum (map (prec_nnz O) (hprecs s)) /\
  exists ldu, hif_nnz_ldu O s = Ok ldu /\ ldu + hif_nnz_ef O s = hif_nnz O s.
Proof. intros O s. split; [exact (nnz_sum O s)|exact (nnz_ldu_ok O s)]. Qed.
Print Assumptions C23_nnz.

(** [prec(k)] is defined for every stored level ... *)
Theorem C23_prec_partial : forall O (s : HIF O) k, k < length (hprecs s) -> exists P, prec_at O s k = Ok P.
Proof. exact prec_at_ok. Qed.
Print Assumptions C23_prec_partial.

(** ... but [levels()] also counts the dense level, for which [prec] passes its
    check and dereferences the end of the list. *)
Theorem C23_prec_refuted : exists (s : HIF OZ) k, hier_sizes OZ (hprecs s) 3 /\ k < levels OZ s /\ prec_at OZ s k = UB.
Proof.
  exists (mkHIF [zP1; zP2] [] (Some (3, 3)) None None [] []), 2.
  split; [cbn; repeat split; lia|]. split; [vm_compute; lia|reflexivity].
Qed.
Print Assumptions C23_prec_refuted.

(** Sizes are uninitialized before the first factorization. *)
Theorem C23_fresh_size_refuted : hif_nrows OZ (hif_new OZ) = UB.
Proof. reflexivity. Qed.
Print Assumptions C23_fresh_size_refuted.

(** ** C24: iterative refinement. *)

(** In any history, [hifir] with at least two iterations returns the iterate of
    the stationary iteration started at zero (law-free; [Err] if a filter threw). *)
Theorem C24_hifir_iterates : forall O h junk mulA b N x tran r, 1 < N ->
  hist_good O (abs_new O) (h ++ [(junk, OpHifir mulA b N x tran r)]) ->
  let a := fold_left (fun a o => fst (spec_step O a (snd o))) h (abs_new O) in
  exists s' outs, run O (hif_new O) (h ++ [(junk, OpHifir mulA b N x tran r)])
    = Some (s', outs ++ [of_res O (refine O (spec_solve O a tran r) (fun v => mulA tran v v) (tadd O) b N)]).
Proof.
  intros O h junk mulA b N x tran r HN G a.
  destruct (history_refines O _ G) as (s' & E). exists s'. rewrite E.
  exists (spec_run O (abs_new O) h). do 2 f_equal. unfold a. clear a s' E G.
  generalize (abs_new O). induction h as [|[j o] h IH]; intros a0.
  - simpl. rewrite (proj2 (Nat.leb_gt _ _)) by auto. reflexivity.
  - cbn [app spec_run]. destruct (spec_step O a0 o) as [a1 v] eqn:Es. rewrite IH.
    cbn [fold_left snd]. rewrite Es. reflexivity.
Qed.
Print Assumptions C24_hifir_iterates.

(** The iterates: [x_0 = 0] and [M (x_{k+1} - x_k) = b - A x_k], for every [k]. *)
Theorem C24_iteration : forall O, RingLaws O -> forall n Sv Av (M A : nat -> nat -> T O) b,
  applies n Av A -> solves n Sv M -> length b = n ->
  forall k, exists x x', refine O Sv Av (tadd O) b k = Ok x /\ refine O Sv Av (tadd O) b (S k) = Ok x' /\
    length x = n /\ length x' = n /\ (k = 0 -> x = zeros O n) /\
    veq n (mvec n M (fun i => tsub O (v_ x' i) (v_ x i))) (fun i => tsub O (v_ b i) (mvec n A (v_ x) i)).
Proof. intros O RL n Sv Av M A b HA HS Lb. exact (refine_step O RL n Sv Av M A b HA HS Lb (tadd O) (fun _ _ => eq_refl)). Qed.
Print Assumptions C24_iteration.

(** Error recursion [M e_{k+1} = (M - A) e_k]. *)
Theorem C24_error : forall O, RingLaws O -> forall n Sv Av (M A : nat -> nat -> T O) b,
  applies n Av A -> solves n Sv M -> length b = n ->
  forall xs, veq n (mvec n A xs) (v_ b) -> forall k x x',
  refine O Sv Av (tadd O) b k = Ok x -> refine O Sv Av (tadd O) b (S k) = Ok x' ->
  veq n (mvec n M (fun i => tsub O (xs i) (v_ x' i))) (mvec n (msub M A) (fun i => tsub O (xs i) (v_ x i))).
Proof. intros O RL n Sv Av M A b HA HS Lb. exact (refine_error O RL n Sv Av M A b HA HS Lb (tadd O) (fun _ _ => eq_refl)). Qed.
Print Assumptions C24_error.

(** If the hierarchy factors the user's matrix exactly, every number of iterations
    returns the exact solution. *)
Theorem C24_exact : forall O, FieldLaws O -> forall (a : Abs O) ld n M A Av b k x,
  hier_ok ld (aprecs a) n -> prec_matrix ld (aprecs a) M -> ansp a = None ->
  meq n n M A -> applies n Av A -> length b = n ->
  refine O (spec_solve O a false ld) Av (tadd O) b (S k) = Ok x -> veq n (mvec n A (v_ x)) (v_ b).
Proof.
  intros O FL a ld n M A Av b k x H HM HN E HA Lb.
  apply (refine_exact O (fl_ring O FL) n _ Av M A b HA (spec_solve_solves O FL a ld n M H HM HN) Lb (tadd O) (fun _ _ => eq_refl)).
  intros v i Hi. unfold mvec. apply sum_ext. intros j Hj. now rewrite E.
Qed.
Print Assumptions C24_exact.

(** A concrete non-trivial instance over the rationals: [A = 2], [M = 3]. *)
Example C24_hyps : exists (M A : nat -> nat -> T OQ) Sv Av,
  applies 1 Av A /\ solves 1 Sv M /\
  exists x, refine OQ Sv Av (tadd OQ) [Q2Qc 9] 2 = Ok [x] /\ x = Q2Qc 4.
Proof.
  exists (fun _ _ => Q2Qc 3), (fun _ _ => Q2Qc 2).
  exists (fun b => match b with [u] => Ok [(u / Q2Qc 3)%Qc] | _ => UB end).
  exists (fun b => match b with [u] => Ok [(Q2Qc 2 * u)%Qc] | _ => UB end).
  split; [|split].
  - intros [|u [|]] L; try discriminate. eexists; split; [reflexivity|]. split; auto.
    intros i Hi. assert (i = 0) by lia. subst. unfold mvec, v_. simpl. ring.
  - intros [|u [|]] L; try discriminate. eexists; split; [reflexivity|]. split; auto.
    intros i Hi. assert (i = 0) by lia. subst. unfold mvec, v_. simpl. field. intro H.
    apply (f_equal this) in H. discriminate.
  - eexists. split; [vm_compute; reflexivity|]. apply Qc_is_canon. vm_compute. reflexivity.
Qed.

(** ** C25: bounded refinement reports truthfully.  No law; comparisons are
    arbitrary booleans (NaN included).  The alternative is that a filter threw. *)
Theorem C25_truthful : forall O mulA D nrm ddiv is0 le_lo gt_hi h s vs junk b N x tran ld,
  hist_good O (abs_new O) h -> run O (hif_new O) h = Some (s, vs) ->
  let a := fold_left (fun a o => fst (spec_step O a (snd o))) h (abs_new O) in
  aprecs a <> [] -> 1 < N -> 0 < length b -> asz a = Some (length b, length b) -> length x = length b ->
  mul_good O mulA tran (length b) -> is0 (nrm b) = false ->
  (exists s' z it flag, hifir_bounded O mulA D nrm ddiv is0 le_lo gt_hi junk s b N x tran ld = Ret s' (z, it, flag)
     /\ truthful O mulA D nrm ddiv le_lo gt_hi a b tran ld N (nrm b) z it flag /\ length z = length b) \/
  (exists s' k, hifir_bounded O mulA D nrm ddiv is0 le_lo gt_hi junk s b N x tran ld = Throw s'
     /\ k <= N /\ refine O (spec_solve O a tran ld) (fun v => mulA tran v v) (fun z x => tadd O x z) b k = Err).
Proof.
  intros O mulA D nrm ddiv is0 le_lo gt_hi h s vs junk b N x tran ld G E a.
  apply hifir_bounded_step. unfold a. clear a.
  assert (K : forall h s0 a0 s vs, Rel O s0 a0 -> hist_good O a0 h -> run O s0 h = Some (s, vs) ->
    Rel O s (fold_left (fun a o => fst (spec_step O a (snd o))) h a0)).
  { clear. induction h as [|[j o] h IH]; intros s0 a0 s vs R G E.
    - simpl in *. injection E as <- <-. auto.
    - destruct G as [G1 G2]. destruct (step_refines O j s0 a0 o R G1) as (s1 & E1 & R1).
      cbn [run] in E. rewrite E1 in E. destruct (run O s1 h) as [[s2 vs2]|] eqn:E2; [|discriminate].
      injection E as <- <-. cbn [fold_left snd]. eapply IH; eauto. }
  eapply K; eauto. apply Rel_new.
Qed.
Print Assumptions C25_truthful.

(** Zero right-hand side: converged at once, zero solution; at most one iteration:
    a plain solve reported as (1, -1). *)
Theorem C25_trivial : forall O mulA D nrm ddiv is0 le_lo gt_hi (s : HIF O) junk b N x tran ld,
  (1 < N -> is0 (nrm b) = true ->
     hifir_bounded O mulA D nrm ddiv is0 le_lo gt_hi junk s b N x tran ld = Ret s (zeros O (length x), 0, Some true)) /\
  (N <= 1 -> forall s' z, solve O junk s b x tran ld = Ret s' z ->
     hifir_bounded O mulA D nrm ddiv is0 le_lo gt_hi junk s b N x tran ld = Ret s' (z, 1, None)).
Proof.
  intros. unfold hifir_bounded. split.
  - intros H1 H2. rewrite (proj2 (Nat.leb_gt _ _)) by auto. now rewrite H2.
  - intros H1 s' z H2. rewrite (proj2 (Nat.leb_le _ _)) by auto. now rewrite H2.
Qed.
Print Assumptions C25_trivial.

(** Runs over the integers, M the two-level example, A = identity; the norm is the
    absolute sum.  All three flags occur. *)
Definition znrm (l : list Z) : Z := fold_left (fun a v => (a + Z.abs v)%Z) l 0%Z.
Definition zrun (lo hi : Z) (N : nat) :=
  match run OZ (hif_new OZ) [(zj, @OpFactorize OZ 3 3 [zP1; zP2] true)] with
  | Some (s, _) =>
    match hifir_bounded OZ zmul Z znrm (fun a _ => a) (Z.eqb 0) (fun d => (d <=? lo)%Z) (fun d => (d >? hi)%Z)
            zj s [1;2;3]%Z N [0;0;0]%Z false 0 with
    | Ret _ (x, it, flag) => Some (it, flag)
    | _ => None
    end
  | None => None
  end.
Example C25_runs : zrun (-1) 100000 3 = Some (3, None) /\ zrun 1000 2000 3 = Some (1, Some true) /\
                   zrun (-1) 1 3 = Some (1, Some false).
Proof. vm_compute. auto. Qed.

(** ** C26: the constant filter. *)

(** A range inside the vector ([stop = None] or before [start] means "to the
    end"): the entries inside are shifted by one value so that they sum to zero,
    the others are untouched, and a vector whose sum is already zero is unchanged. *)
Theorem C26_projects : forall O, FieldLaws O -> forall start stop (x : list (T O)),
  let e := match stop with None => length x | Some e => if e <? start then length x else e end in
  start <= e -> e <= length x ->
  (start < e -> of_nat O (e - start) <> t0 O) ->
  exists y, const_filter O start stop x = Ok y /\ projected O start e x y /\
    (range_sum O start e x = t0 O -> y = x).
Proof. exact const_filter_ok. Qed.
Print Assumptions C26_projects.

Theorem C26_idempotent : forall O, FieldLaws O -> forall start stop (x : list (T O)),
  let e := match stop with None => length x | Some e => if e <? start then length x else e end in
  start <= e -> e <= length x ->
  (start < e -> of_nat O (e - start) <> t0 O) ->
  exists y, const_filter O start stop x = Ok y /\ const_filter O start stop y = Ok y.
Proof.
  intros O FL start stop x e H1 H2 HC.
  destruct (const_filter_ok O FL start stop x H1 H2 HC) as (y & E & (Ly & P2 & P3 & P4) & _).
  exists y. split; [exact E|].
  assert (Ee : match stop with None => length y | Some e => if e <? start then length y else e end = e) by now rewrite Ly.
  pose proof (const_filter_ok O FL start stop y) as K. cbv zeta in K. rewrite Ee in K.
  destruct K as (z & Ez & _ & Hz); try lia; auto.
  rewrite Ez. f_equal. apply Hz. exact P3.
Qed.
Print Assumptions C26_idempotent.

(** Ranges outside the vector are rejected. *)
Theorem C26_rejects : forall O start stop (x : list (T O)),
  let e := match stop with None => length x | Some e => if e <? start then length x else e end in
  (e < start \/ length x < e) -> const_filter O start stop x = Err.
Proof.
  intros O start stop x e H. unfold const_filter. fold e.
  destruct (Nat.ltb_spec e start), (Nat.ltb_spec (length x) e); simpl; auto; lia.
Qed.
Print Assumptions C26_rejects.
Example C26_hyps : of_nat OQ 2 <> t0 OQ /\
  match const_filter OQ 1 None [Q2Qc 5; Q2Qc 1; Q2Qc 3] with
  | Ok [u; v; w] => this u = 5%Q /\ this v = (-1)%Q /\ this w = 1%Q
  | _ => False end.
Proof.
  split.
  - intro H. apply (f_equal this) in H. vm_compute in H. discriminate.
  - vm_compute. auto.
Qed.
